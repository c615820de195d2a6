(** A Fourier-Motzkin decision procedure for systems of linear inequalities over the
    rationals.  It stands in for the Parma Polyhedra Library (PPL), which the code
    uses as an external component: [feasible] answers emptiness of a (not necessarily
    closed) polyhedron given by constraints, as [NNC_Polyhedron::is_empty] does. *)
From Verif Require Import Base QcTac LenT.
From Verif Require SpecLin.
Notation dot := SpecLin.dot.

(** Addition of vectors, the shorter one padded with zeros. *)
Fixpoint vaddp (u v : vec) : vec :=
  match u, v with
  | [], _ => v
  | _, [] => u
  | x :: u', y :: v' => (x + y)%Qc :: vaddp u' v'
  end.

(** The constraint [c_coef . x + c_const >= 0] (or [> 0] if strict). *)
Record cstr := mkcstr { c_strict : bool; c_coef : vec; c_const : Qc }.

Definition sat (x : vec) (c : cstr) : Prop :=
  if c_strict c then (0 < dot (c_coef c) x + c_const c)%Qc
  else (0 <= dot (c_coef c) x + c_const c)%Qc.

(** An equation as two inequalities. *)
Definition eq_cstr (u : vec) (k : Qc) : list cstr :=
  [mkcstr false u (- k)%Qc; mkcstr false (vneg u) k].

Definition c_hd (c : cstr) : Qc := hd 0%Qc (c_coef c).
Definition c_tl (c : cstr) : cstr := mkcstr (c_strict c) (tl (c_coef c)) (c_const c).

Definition qc_ltb (x y : Qc) : bool := match (x ?= y)%Qc with Lt => true | _ => false end.
Definition qc_leb (x y : Qc) : bool := match (x ?= y)%Qc with Gt => false | _ => true end.
Definition qc_eqb (x y : Qc) : bool := if Qc_eq_dec x y then true else false.

Definition is_lower (c : cstr) : bool := qc_ltb 0 (c_hd c).
Definition is_upper (c : cstr) : bool := qc_ltb (c_hd c) 0.
Definition is_neutral (c : cstr) : bool := qc_eqb (c_hd c) 0.

(** Positive combination of a lower and an upper bound that cancels the first variable. *)
Definition combine_lu (l u : cstr) : cstr :=
  mkcstr (c_strict l || c_strict u)
         (vaddp (vscale (- c_hd u)%Qc (tl (c_coef l))) (vscale (c_hd l) (tl (c_coef u))))
         ((- c_hd u) * c_const l + c_hd l * c_const u)%Qc.

Definition eliminate (cs : list cstr) : list cstr :=
  map c_tl (filter is_neutral cs) ++
  flat_map (fun l => map (combine_lu l) (filter is_upper cs)) (filter is_lower cs).

Definition sat0 (c : cstr) : bool :=
  if c_strict c then qc_ltb 0 (c_const c) else qc_leb 0 (c_const c).

Fixpoint feasible (n : nat) (cs : list cstr) : bool :=
  match n with
  | O => forallb sat0 cs
  | S n' => feasible n' (eliminate cs)
  end.

(** * Correctness *)

Lemma qc_ltb_spec x y : qc_ltb x y = true <-> (x < y)%Qc.
Proof.
  unfold qc_ltb. rewrite <- Qclt_alt || idtac. pose proof (Qclt_alt x y) as H.
  destruct (x ?= y)%Qc; split; intros; try discriminate; try reflexivity; try (apply H; reflexivity);
  apply H in H0; discriminate.
Qed.
Lemma qc_leb_spec x y : qc_leb x y = true <-> (x <= y)%Qc.
Proof.
  unfold qc_leb. pose proof (Qcle_alt x y) as H.
  destruct (x ?= y)%Qc; split; intros H0; try discriminate; try reflexivity; try (apply H; discriminate).
  apply H in H0. congruence.
Qed.
Lemma qc_eqb_spec x y : qc_eqb x y = true <-> x = y.
Proof. unfold qc_eqb. destruct (Qc_eq_dec x y); split; intros; congruence. Qed.

Lemma dot_vaddp u v x : dot (vaddp u v) x = (dot u x + dot v x)%Qc.
Proof.
  revert v x; induction u as [|a u IH]; intros [|b v] [|y x]; simpl; try ring.
  rewrite IH. ring.
Qed.
Lemma dot_vscale c u x : dot (vscale c u) x = (c * dot u x)%Qc.
Proof.
  revert x; induction u as [|a u IH]; intros [|y x]; simpl; try ring.
  rewrite IH. ring.
Qed.
Lemma dot_vneg u x : dot (vneg u) x = (- dot u x)%Qc.
Proof.
  revert x; induction u as [|a u IH]; intros [|y x]; simpl; try ring.
  rewrite IH. ring.
Qed.
Lemma dot_nil_r u : dot u [] = 0%Qc.
Proof. destruct u; reflexivity. Qed.
Lemma dot_comm u x : dot u x = dot x u.
Proof. revert x; induction u as [|a u IH]; intros [|y x]; simpl; try ring. rewrite IH. ring. Qed.
Lemma dot_cons u x0 x : dot u (x0 :: x) = (hd 0 u * x0 + dot (tl u) x)%Qc.
Proof. destruct u; simpl; ring. Qed.

Lemma eq_cstr_sat x u k : Forall (sat x) (eq_cstr u k) <-> dot u x = k.
Proof.
  unfold eq_cstr. split.
  - intros H. inversion H as [|? ? H1 H2]; subst. inversion H2 as [|? ? H3 _]; subst.
    unfold sat in *; simpl in *. rewrite dot_vneg in H3. qclra.
  - intros <-. repeat constructor; unfold sat; simpl; [|rewrite dot_vneg]; qclra.
Qed.

(** One-dimensional bounds: [(strict, a, r)] stands for [a * x + r >= 0] (or [> 0]). *)
Definition sat1 (x : Qc) (b : bool * Qc * Qc) : Prop :=
  let '(s, a, r) := b in
  if s then (0 < a * x + r)%Qc else (0 <= a * x + r)%Qc.

Lemma Qcmul_pos_inv (a b : Qc) : (0 < a)%Qc -> (0 < a * b)%Qc -> (0 < b)%Qc.
Proof.
  intros Ha Hab. destruct (Qclt_le_dec 0 b) as [H|H]; [exact H|exfalso].
  pose proof (Qcmult_le_compat_r b 0 a H (Qclt_le_weak _ _ Ha)) as H1.
  rewrite Qcmult_0_l in H1. rewrite Qcmult_comm in Hab. exact (Qcle_not_lt _ _ H1 Hab).
Qed.
Lemma Qcmul_nonneg_inv (a b : Qc) : (0 < a)%Qc -> (0 <= a * b)%Qc -> (0 <= b)%Qc.
Proof.
  intros Ha Hab. destruct (Qclt_le_dec b 0) as [H|H]; [exfalso|exact H].
  pose proof (Qcmult_lt_compat_r b 0 a Ha H) as H1.
  rewrite Qcmult_0_l in H1. rewrite Qcmult_comm in Hab. exact (Qcle_not_lt _ _ Hab H1).
Qed.
Lemma Qcmul_pos (a b : Qc) : (0 < a)%Qc -> (0 < b)%Qc -> (0 < a * b)%Qc.
Proof.
  intros Ha Hb. pose proof (Qcmult_lt_compat_r 0 a b Hb Ha) as H.
  rewrite Qcmult_0_l in H. exact H.
Qed.
Lemma Qcmul_nonneg (a b : Qc) : (0 <= a)%Qc -> (0 <= b)%Qc -> (0 <= a * b)%Qc.
Proof.
  intros Ha Hb. pose proof (Qcmult_le_compat_r 0 a b Ha Hb) as H.
  rewrite Qcmult_0_l in H. exact H.
Qed.

(** Bounds normalized to [x >= v] / [x > v], resp. [x <= v] / [x < v]. *)
Definition lob (x : Qc) (b : bool * Qc) : Prop := if fst b then (snd b < x)%Qc else (snd b <= x)%Qc.
Definition upb (x : Qc) (b : bool * Qc) : Prop := if fst b then (x < snd b)%Qc else (x <= snd b)%Qc.
Definition compat (l u : bool * Qc) : Prop :=
  if fst l || fst u then (snd l < snd u)%Qc else (snd l <= snd u)%Qc.

Lemma strongest_lo (L : list (bool * Qc)) : L <> [] ->
  exists l, In l L /\ forall x, lob x l -> Forall (lob x) L.
Proof.
  induction L as [|a L IH]; intros HL; [congruence|].
  destruct L as [|b L].
  - exists a. split; [left; reflexivity|]. intros x Hx. constructor; [exact Hx|constructor].
  - destruct IH as [l [Hl Hm]]; [discriminate|].
    assert (D : (forall x, lob x l -> lob x a) \/ (forall x, lob x a -> lob x l)).
    { destruct a as [sa va], l as [sl vl]. unfold lob; simpl.
      destruct (Qclt_le_dec va vl) as [H|H].
      - left. intros x. destruct sa, sl; intros; qclra.
      - destruct (Qclt_le_dec vl va) as [H'|H'].
        + right. intros x. destruct sa, sl; intros; qclra.
        + destruct sa; [right|left]; intros x; destruct sl; intros; qclra. }
    destruct D as [D|D].
    + exists l. split; [right; exact Hl|]. intros x Hx. constructor; [apply D; exact Hx | apply Hm; exact Hx].
    + exists a. split; [left; reflexivity|]. intros x Hx. constructor; [exact Hx | apply Hm, D, Hx].
Qed.

Lemma strongest_up (U : list (bool * Qc)) : U <> [] ->
  exists u, In u U /\ forall x, upb x u -> Forall (upb x) U.
Proof.
  induction U as [|a U IH]; intros HU; [congruence|].
  destruct U as [|b U].
  - exists a. split; [left; reflexivity|]. intros x Hx. constructor; [exact Hx|constructor].
  - destruct IH as [l [Hl Hm]]; [discriminate|].
    assert (D : (forall x, upb x l -> upb x a) \/ (forall x, upb x a -> upb x l)).
    { destruct a as [sa va], l as [sl vl]. unfold upb; simpl.
      destruct (Qclt_le_dec vl va) as [H|H].
      - left. intros x. destruct sa, sl; intros; qclra.
      - destruct (Qclt_le_dec va vl) as [H'|H'].
        + right. intros x. destruct sa, sl; intros; qclra.
        + destruct sa; [right|left]; intros x; destruct sl; intros; qclra. }
    destruct D as [D|D].
    + exists l. split; [right; exact Hl|]. intros x Hx. constructor; [apply D; exact Hx | apply Hm; exact Hx].
    + exists a. split; [left; reflexivity|]. intros x Hx. constructor; [exact Hx | apply Hm, D, Hx].
Qed.

Definition qhalf : Qc := Q2Qc (1 # 2).
Lemma this_half : (this qhalf == 1 # 2)%Q. Proof. reflexivity. Qed.

Lemma between (L U : list (bool * Qc)) :
  (forall l u, In l L -> In u U -> compat l u) ->
  exists x, Forall (lob x) L /\ Forall (upb x) U.
Proof.
  intros H.
  destruct L as [|l0 L'] eqn:EL; [|destruct U as [|u0 U'] eqn:EU].
  - destruct U as [|u0 U'] eqn:EU.
    + exists 0%Qc. split; constructor.
    + destruct (strongest_up U) as [u [Hu Hm]]; [subst; discriminate|].
      exists (snd u - 1)%Qc. split; [constructor|]. rewrite <- EU. apply Hm.
      unfold upb. destruct (fst u); qclra.
  - destruct (strongest_lo L) as [l [Hl Hm]]; [subst; discriminate|].
    exists (snd l + 1)%Qc. split; [|constructor]. rewrite <- EL. apply Hm.
    unfold lob. destruct (fst l); qclra.
  - rewrite <- EL, <- EU in *.
    destruct (strongest_lo L) as [l [Hl Hlm]]; [subst; discriminate|].
    destruct (strongest_up U) as [u [Hu Hum]]; [subst; discriminate|].
    specialize (H l u Hl Hu). unfold compat in H.
    exists ((snd l + snd u) * qhalf)%Qc.
    split; [apply Hlm | apply Hum]; unfold lob, upb;
    destruct (fst l), (fst u); simpl in H; qc2q; rewrite ?this_half; Lqa.lra.
Qed.

Definition lo_of (b : bool * Qc * Qc) : bool * Qc := let '(s, a, r) := b in (s, (- r / a)%Qc).

Lemma sat1_lower x s a r : (0 < a)%Qc -> (sat1 x (s, a, r) <-> lob x (s, (- r / a)%Qc)).
Proof.
  intros Ha. unfold sat1, lob; simpl.
  assert (Hne : a <> 0%Qc) by (intros ->; apply (Qclt_not_eq 0 0 Ha); reflexivity).
  set (v := (- r / a)%Qc). assert (Er : r = (- (a * v))%Qc).
  { unfold v. field. exact Hne. }
  clearbody v. subst r.
  replace (a * x + - (a * v))%Qc with (a * (x - v))%Qc by ring.
  destruct s; split; intros H.
  - apply Qcmul_pos_inv in H; [qclra | exact Ha].
  - apply Qcmul_pos; [exact Ha | qclra].
  - apply Qcmul_nonneg_inv in H; [qclra | exact Ha].
  - apply Qcmul_nonneg; [apply Qclt_le_weak; exact Ha | qclra].
Qed.

Lemma sat1_upper x s a r : (a < 0)%Qc -> (sat1 x (s, a, r) <-> upb x (s, (- r / a)%Qc)).
Proof.
  intros Ha. unfold sat1, upb; simpl.
  assert (Hne : a <> 0%Qc) by (intros ->; apply (Qclt_not_eq 0 0 Ha); reflexivity).
  set (v := (- r / a)%Qc). assert (Er : r = (- (a * v))%Qc).
  { unfold v. field. exact Hne. }
  clearbody v. subst r.
  replace (a * x + - (a * v))%Qc with ((- a) * (v - x))%Qc by ring.
  assert (Ha' : (0 < - a)%Qc) by qclra.
  destruct s; split; intros H.
  - apply Qcmul_pos_inv in H; [qclra | exact Ha'].
  - apply Qcmul_pos; [exact Ha' | qclra].
  - apply Qcmul_nonneg_inv in H; [qclra | exact Ha'].
  - apply Qcmul_nonneg; [apply Qclt_le_weak; exact Ha' | qclra].
Qed.

(** The bound a constraint imposes on the first variable once the others are fixed. *)
Definition at1 (xs : vec) (c : cstr) : bool * Qc * Qc :=
  (c_strict c, c_hd c, (dot (tl (c_coef c)) xs + c_const c)%Qc).

Lemma sat_at1 x0 xs c : sat (x0 :: xs) c <-> sat1 x0 (at1 xs c).
Proof.
  unfold sat, sat1, at1. rewrite dot_cons. fold (c_hd c).
  replace (c_hd c * x0 + dot (tl (c_coef c)) xs + c_const c)%Qc
    with (c_hd c * x0 + (dot (tl (c_coef c)) xs + c_const c))%Qc by ring.
  reflexivity.
Qed.

Lemma sat_combine xs l u :
  (0 < c_hd l)%Qc -> (c_hd u < 0)%Qc ->
  (sat xs (combine_lu l u) <-> compat (lo_of (at1 xs l)) (lo_of (at1 xs u))).
Proof.
  intros Hl Hu. unfold sat, combine_lu, compat, lo_of, at1; simpl.
  rewrite dot_vaddp, !dot_vscale.
  set (rl := (dot (tl (c_coef l)) xs + c_const l)%Qc).
  set (ru := (dot (tl (c_coef u)) xs + c_const u)%Qc).
  replace (- c_hd u * dot (tl (c_coef l)) xs + c_hd l * dot (tl (c_coef u)) xs
           + (- c_hd u * c_const l + c_hd l * c_const u))%Qc
    with ((- c_hd u) * rl + c_hd l * ru)%Qc by (unfold rl, ru; ring).
  set (a := c_hd l) in *. set (b := c_hd u) in *. clearbody a b rl ru.
  assert (Hna : a <> 0%Qc) by (intros ->; apply (Qclt_not_eq 0 0 Hl); reflexivity).
  assert (Hnb : b <> 0%Qc) by (intros ->; apply (Qclt_not_eq 0 0 Hu); reflexivity).
  set (v := (- rl / a)%Qc). assert (E1 : rl = (- (a * v))%Qc) by (unfold v; field; exact Hna).
  set (w := (- ru / b)%Qc). assert (E2 : ru = (- (b * w))%Qc) by (unfold w; field; exact Hnb).
  clearbody v w. subst rl ru.
  replace (- b * - (a * v) + a * - (b * w))%Qc with ((a * (- b)) * (w - v))%Qc by ring.
  assert (Hab : (0 < a * (- b))%Qc) by (apply Qcmul_pos; [exact Hl | qclra]).
  destruct (c_strict l || c_strict u); split; intros H.
  - apply Qcmul_pos_inv in H; [qclra | exact Hab].
  - apply Qcmul_pos; [exact Hab | qclra].
  - apply Qcmul_nonneg_inv in H; [qclra | exact Hab].
  - apply Qcmul_nonneg; [apply Qclt_le_weak; exact Hab | qclra].
Qed.

Lemma is_lower_spec c : is_lower c = true <-> (0 < c_hd c)%Qc.
Proof. apply qc_ltb_spec. Qed.
Lemma is_upper_spec c : is_upper c = true <-> (c_hd c < 0)%Qc.
Proof. apply qc_ltb_spec. Qed.
Lemma is_neutral_spec c : is_neutral c = true <-> c_hd c = 0%Qc.
Proof. apply qc_eqb_spec. Qed.

Lemma eliminate_spec xs cs :
  Forall (sat xs) (eliminate cs) <-> exists x0, Forall (sat (x0 :: xs)) cs.
Proof.
  unfold eliminate. rewrite Forall_app. split.
  - intros [Hn Hp].
    destruct (between (map (fun c => lo_of (at1 xs c)) (filter is_lower cs))
                      (map (fun c => lo_of (at1 xs c)) (filter is_upper cs))) as [x0 [HL HU]].
    { intros l u Hl Hu. apply in_map_iff in Hl, Hu.
      destruct Hl as [cl [<- Hl]], Hu as [cu [<- Hu]].
      apply sat_combine.
      - apply filter_In in Hl. apply is_lower_spec, Hl.
      - apply filter_In in Hu. apply is_upper_spec, Hu.
      - rewrite Forall_forall in Hp. apply Hp. apply in_flat_map. exists cl.
        split; [exact Hl | apply in_map; exact Hu]. }
    exists x0. rewrite Forall_forall in *. intros c Hc. apply sat_at1.
    destruct (Qc_dec (c_hd c) 0) as [[H|H]|H].
    + apply sat1_upper; [exact H|]. apply HU. apply (in_map (fun c => lo_of (at1 xs c))).
      apply filter_In. split; [exact Hc | apply is_upper_spec; exact H].
    + apply sat1_lower; [exact H|]. apply HL. apply (in_map (fun c => lo_of (at1 xs c))).
      apply filter_In. split; [exact Hc | apply is_lower_spec; exact H].
    + assert (Hs : sat xs (c_tl c)).
      { apply Hn. apply in_map. apply filter_In. split; [exact Hc | apply is_neutral_spec; exact H]. }
      unfold sat, sat1, at1, c_tl in *; simpl in *. rewrite H.
      destruct (c_strict c); qclra.
  - intros [x0 H]. rewrite Forall_forall in H. split; apply Forall_forall.
    + intros c' Hc'. apply in_map_iff in Hc'. destruct Hc' as [c [<- Hc]].
      apply filter_In in Hc. destruct Hc as [Hc Hz]. apply is_neutral_spec in Hz.
      specialize (H c Hc). apply sat_at1 in H. unfold sat, sat1, at1, c_tl in *; simpl in *.
      rewrite Hz in H. destruct (c_strict c); qclra.
    + intros c' Hc'. apply in_flat_map in Hc'. destruct Hc' as [l [Hl Hc']].
      apply in_map_iff in Hc'. destruct Hc' as [u [<- Hu]].
      apply filter_In in Hl, Hu. destruct Hl as [Hl Hlp], Hu as [Hu Hup].
      apply is_lower_spec in Hlp. apply is_upper_spec in Hup.
      apply sat_combine; [exact Hlp | exact Hup |].
      pose proof (H l Hl) as H1. apply sat_at1 in H1. unfold at1 in H1. apply sat1_lower in H1; [|exact Hlp].
      pose proof (H u Hu) as H2. apply sat_at1 in H2. unfold at1 in H2. apply sat1_upper in H2; [|exact Hup].
      unfold lob, upb, compat, lo_of, at1 in *; simpl in *.
      destruct (c_strict l), (c_strict u); simpl; qclra.
Qed.

(** [feasible] decides whether a system has a rational solution. *)
Theorem feasible_spec n cs :
  feasible n cs = true <-> exists x : vec, length x = n /\ Forall (sat x) cs.
Proof.
  revert cs; induction n as [|n IH]; intros cs; simpl.
  - rewrite forallb_forall. split.
    + intros H. exists []. split; [reflexivity|]. apply Forall_forall. intros c Hc.
      specialize (H c Hc). unfold sat0, sat in *. rewrite dot_nil_r.
      destruct (c_strict c); [apply qc_ltb_spec in H | apply qc_leb_spec in H]; qclra.
    + intros [x [Hx H]] c Hc. destruct x; [|discriminate]. rewrite Forall_forall in H.
      specialize (H c Hc). unfold sat0, sat in *. rewrite dot_nil_r in H.
      destruct (c_strict c); [apply qc_ltb_spec | apply qc_leb_spec]; qclra.
  - rewrite IH. split.
    + intros [xs [Hl H]]. apply eliminate_spec in H. destruct H as [x0 H].
      exists (x0 :: xs). split; [simpl; congruence | exact H].
    + intros [[|x0 xs] [Hl H]]; [discriminate|]. exists xs. split; [simpl in Hl; lia|].
      apply eliminate_spec. exists x0. exact H.
Qed.
