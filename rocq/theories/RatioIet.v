(** IETs over lengths with the same ratios: SAF invariant, Boshernitzan's criterion, the
    similarity tracker and [reduce] answer the same. *)
From Coq Require Import List Reals Lra Lia Permutation.
From Verif Require Import Base QcTac LenT FM Subspace Lengths IET Mixed Coord Twin Api ZorichProof SubspaceProof Saf Bosh SpecLin Dual Ratio ReduceProof InduceProof Focus Detect.
From Verif Require Spec LenInst.
Open Scope nat_scope.

(** * Rational relations between lengths *)

Section Relations.
Context {T : Type} {O : LenOps T} {W : LenLaws T}.

(** A rational relation holds between lengths if and only if it holds in every coordinate. *)
Lemma length_equation (len : label -> T) top (q : label -> Qc) :
  Spec.total (fun a => Qc2R (q a) * val (len a))%R top = 0%R <->
  forall k, k < l_deg T -> pair top q (co len k) = 0%Qc.
Proof.
  split.
  - intros H. destruct (lin_expr_ok (map q top) 0%Qc) as [den [Hd [_ [Hn _]]]].
    assert (HN : exists N : label -> Z, forall a, In a top -> (zq den * q a)%Qc = zq (N a)).
    { exists (fun a => qnum (zq den * q a)%Qc). intros a Ha. destruct (Hn (q a) (in_map q _ _ Ha)) as [n En].
      rewrite En, qnum_zq. reflexivity. }
    destruct HN as [N HN].
    assert (E : tsum (fun a => l_scale (N a) (len a)) top = l_zero).
    { apply val_inj. rewrite tsum_val, val_zero. rewrite <- (Rmult_0_r (IZR den)), <- H, <- total_scale. apply total_ext. intros a Ha.
      rewrite val_scale, <- LenInst.Qc2R_zq, <- HN by exact Ha.
      rewrite Qc2R_mult, LenInst.Qc2R_zq. ring. }
    intros k Hk. apply (f_equal (fun x => nth k (l_coef x) 0%Qc)) in E.
    rewrite tsum_co, coef_zero_nth in E. apply (Qcmul_cancel (zq den)); [apply zq_pos, Hd|].
    unfold pair. rewrite <- qsum_scale. rewrite Qcmult_0_r. rewrite <- E. apply qsum_ext. intros a Ha.
    rewrite coef_scale_nth, Qcmult_assoc, HN by exact Ha. reflexivity.
  - intros H. transitivity (val l_zero); [|apply val_zero]. rewrite val_coef, (tab_of (l_coef l_zero) (l_deg T) (coef_length _)).
    rewrite <- (tab_ext _ (fun k => qsum (fun a => (q a * co len k a)%Qc) top)).
    + rewrite lin_tab_qsum by apply basis_length. apply total_ext. intros a _. rewrite val_coef. f_equal. f_equal.
      rewrite (tab_of (l_coef (len a)) (l_deg T) (coef_length _)) at 1. reflexivity.
    + intros k Hk. rewrite coef_zero_nth. apply (H k Hk).
Qed.

End Relations.

(** Number types with a fixed basis are a special case. *)
Section Uniform.
Context {T : Type} {O : LenOps T} {W : LenLaws T}.

Lemma lin_seq (q : list Qc) (xs : list T) : length q = length xs -> 
  lin q (map val xs) = Spec.total (fun a => Qc2R (nth a q 0%Qc) * val (nth a xs l_zero))%R (seq 0 (length xs)).
Proof.
  revert q. induction xs as [|x xs IH]; intros [|y q] H; try discriminate; [reflexivity|]. cbn [map lin length seq Spec.total nth].
  rewrite IH by (cbn in H; lia). f_equal. rewrite <- seq_shift. generalize (seq 0 (length xs)). induction l; [reflexivity|]. cbn. f_equal. exact IHl.
Qed.

Lemma dot_seq (q : list Qc) (vs : list Qc) : length q = length vs ->
  dot q vs = qsum (fun a => (nth a q 0 * nth a vs 0)%Qc) (seq 0 (length vs)).
Proof.
  revert q. induction vs as [|x vs IH]; intros [|y q] H; try discriminate; [reflexivity|]. cbn [dot length seq qsum nth].
  rewrite IH by (cbn in H; lia). f_equal. rewrite <- seq_shift. generalize (seq 0 (length vs)). induction l; [reflexivity|]. cbn. f_equal. exact IHl.
Qed.

Instance mixed_of_uniform : MixedLaws T.
Proof.
  refine {| mval := val; mval_zero := val_zero; mval_add := val_add; mval_sub := val_sub; mval_scale := val_scale;
            mcmp_val := cmp_val; mdiv_val := div_val; mcross_val := cross_val |}.
  intros xs Hx. exists (map l_coef xs), (l_deg T). split; [apply coefs_map|]. split; [apply map_length|]. split; [apply deg_pos|].
  split; [apply Forall_forall; intros c Hc; apply in_map_iff in Hc; destruct Hc as (x & <- & _); apply coef_length|].
  intros q Hq. rewrite (lin_seq q xs Hq), (length_equation (fun a => nth a xs l_zero)).
  assert (E : forall k, dot q (map (fun c => nth k c 0%Qc) (map l_coef xs)) = pair (seq 0 (length xs)) (fun a => nth a q 0%Qc) (co (fun a => nth a xs l_zero) k)).
  { intro k. rewrite dot_seq by (rewrite !map_length; exact Hq). rewrite !map_length. unfold pair. apply qsum_ext. intros a Ha. apply in_seq in Ha.
    f_equal. unfold co. rewrite map_map. rewrite (nth_indep _ _ (nth k (l_coef l_zero) 0%Qc)) by (rewrite map_length; lia).
    rewrite (map_nth (fun x => nth k (l_coef x) 0%Qc)). reflexivity. }
  split; intros H k Hk; specialize (H k Hk); [rewrite E|rewrite <- E]; exact H.
Defined.
End Uniform.

Lemma total_plus f g l : Spec.total (fun a => f a + g a)%R l = (Spec.total f l + Spec.total g l)%R.
Proof. induction l as [|a l IH]; cbn; [ring|]. rewrite IH. ring. Qed.

Lemma iet_make_shape {T : Type} {O : LenOps T} (s : slen T) top bottom i : iet_make s top bottom = Ok i -> i = mkiet top bottom false None tracker_init.
Proof.
  unfold iet_make. do 3 (destruct (Nat.eqb _ _); cbn [assert_]; [|discriminate]).
  destruct (mapM _ top); cbn [bind]; try discriminate. destruct (forallb _ _); cbn [assert_]; [|discriminate].
  destruct (negb _); cbn [assert_]; [|discriminate]. intro E. injection E as <-. reflexivity.
Qed.

Section RatioIet.
Context {T : Type} {O : LenOps T} {W : MixedLaws T}.
Context {T' : Type} {O' : LenOps T'} {W' : LenLaws T'}.
Variable c : R.
Hypothesis Hc : (0 < c)%R.
Variable A : label -> Prop.

Notation near := (@Ratio.near T O W T' O' W' c A None).

(** * Related IETs *)

Definition cache_rel (u : option vec) (v : option vec) : Prop :=
  match u, v with
  | None, None => True
  | Some u, Some v => vis0 u = vis0 v
  | _, _ => False
  end.

Record trel (k : tracker T) (k' : tracker T') : Prop := {
  tr_top : tk_top k' = tk_top k;
  tr_bot : tk_bottom k' = tk_bottom k;
  tr_bound : tk_bound k' = tk_bound k;
  tr_ttl : tk_ttl k' = tk_ttl k;
  tr_in : Forall A (tk_top k);
  tr_len : forall l, In l (tk_top k) -> exists x y, nth_error (sl_lens (tk_lengths k)) l = Some x /\
             nth_error (sl_lens (tk_lengths k')) l = Some y /\ rv c x y;
}.

Record irel (i : iet T) (i' : iet T') : Prop := {
  ir_top : i_top i' = i_top i;
  ir_bot : i_bottom i' = i_bottom i;
  ir_swap : i_swap i' = i_swap i;
  ir_nodup : NoDup (i_top i);
  ir_perm : Permutation (i_top i) (i_bottom i);
  ir_ne : i_top i <> [];
  ir_in : Forall A (i_top i);
  ir_saf : cache_rel (i_saf i) (i_saf i');
}.

Lemma trel_init : trel tracker_init tracker_init.
Proof. constructor; try reflexivity; [constructor|intros l []]. Qed.

Lemma irel_in_bot i i' : irel i i' -> Forall A (i_bottom i).
Proof.
  intro H. apply Forall_forall. intros l Hl. apply (Permutation_in _ (Permutation_sym (ir_perm _ _ H))) in Hl.
  pose proof (ir_in _ _ H) as F. rewrite Forall_forall in F. apply F. exact Hl.
Qed.

Lemma irel_swap i i' : irel i i' -> irel (iet_swap i) (iet_swap i').
Proof.
  intros H. pose proof (irel_in_bot _ _ H) as Hb. destruct H. constructor; cbn; auto.
  - rewrite ir_swap0. reflexivity.
  - eapply Permutation_NoDup; eassumption.
  - apply Permutation_sym. assumption.
  - intro E. apply ir_ne0. rewrite E in ir_perm0. apply Permutation_sym, Permutation_nil in ir_perm0. exact ir_perm0.
Qed.

Lemma irel_rows t b s v v' k k' : NoDup t -> Permutation t b -> t <> [] -> Forall A t -> cache_rel v v' ->
  irel (mkiet t b s v k) (mkiet t b s v' k').
Proof. intros. constructor; cbn; auto. Qed.

(** The length of a label. *)
Definition lamM (b : slen T) (l : label) : R := match nth_error (sl_lens b) l with Some x => mval x | None => 0%R end.

Lemma near_posl b b' l : near b b' -> A l -> posl b' l.
Proof.
  intros H Hl. destruct (H l Hl) as (x & y & E & E' & R & P). specialize (P ltac:(discriminate)).
  exists y; split; auto. rewrite R. apply Rmult_lt_0_compat; assumption.
Qed.

Lemma near_lam b b' l : near b b' -> A l -> lamR b' l = (c * lamM b l)%R.
Proof. intros H Hl. destruct (H l Hl) as (x & y & E & E' & R & P). rewrite (lamR_at _ _ _ E'). unfold lamM. rewrite E. exact R. Qed.

(** The second IET is well-formed. *)
Lemma irel_wf i i' b b' : irel i i' -> near b b' -> sl_stack b' = [] -> wf i' b'.
Proof.
  intros H B S'. pose proof (ir_in _ _ H) as F. rewrite Forall_forall in F. destruct H. unfold wf.
  rewrite ir_top0, ir_bot0. repeat split; auto; intros l Hl; apply (near_posl b b' l B (F l Hl)).
Qed.

Lemma irel_set_saf i i' u v : irel i i' -> cache_rel u v -> irel (set_saf i u) (set_saf i' v).
Proof. intros [] H. constructor; auto. Qed.

(** The coordinates of the lengths. *)

Lemma near_reads b b' : near b b' -> forall ls, Forall A ls -> exists xs, mapM (sl_at b) ls = Ok xs /\ map mval xs = map (lamM b) ls /\ length xs = length ls.
Proof.
  intro B. induction ls as [|l ls IH]; intro F; [exists []; auto|]. inversion F as [|? ? Hl F']. destruct (IH F') as (xs & E & V & L).
  destruct (B l Hl) as (x0 & y0 & Ex & _). exists (x0 :: xs). cbn [mapM map length]. unfold sl_at at 1. rewrite Ex. cbn [bind]. rewrite E. cbn [bind].
  split; [reflexivity|]. unfold lamM at 1. rewrite Ex, V, L. auto.
Qed.

Fixpoint assignv (l : list label) (x : list vec) (a : label) : vec :=
  match l, x with
  | c :: l', q :: x' => if Nat.eqb c a then q else assignv l' x' a
  | _, _ => []
  end.

Lemma map_assignv l x : NoDup l -> length x = length l -> map (assignv l x) l = x.
Proof.
  revert x. induction l as [|d l IH]; intros [|q x] N H; try discriminate; [reflexivity|]. cbn [map assignv].
  inversion N as [|? ? Hd Nl]; subst. rewrite Nat.eqb_refl. f_equal. transitivity (map (assignv l x) l); [|apply IH; [exact Nl|cbn in H; lia]].
  apply map_ext_in. intros a Ha. destruct (Nat.eqb_spec d a) as [->|]; [contradiction|reflexivity].
Qed.

Lemma lin_map (g : label -> Qc) (f : label -> R) l : lin (map g l) (map f l) = Spec.total (fun a => Qc2R (g a) * f a)%R l.
Proof. induction l as [|a l IH]; [reflexivity|]. cbn. rewrite IH. reflexivity. Qed.

Lemma dot_map (g f : label -> Qc) l : dot (map g l) (map f l) = pair l g f.
Proof. unfold pair. induction l as [|a l IH]; [reflexivity|]. cbn. rewrite IH. reflexivity. Qed.

Lemma mixed_coords i i' b b' : irel i i' -> near b b' -> exists cf d, coords i b cf d /\
  forall g, Spec.total (fun a => Qc2R (g a) * lamM b a)%R (i_top i) = 0%R <-> forall k, k < d -> pair (i_top i) g (coor cf k) = 0%Qc.
Proof.
  intros H B. destruct (near_reads b b' B (i_top i) (ir_in _ _ H)) as (xs & E & V & L).
  assert (Nx : xs <> []). { intros ->. apply (ir_ne _ _ H). destruct (i_top i); [reflexivity|discriminate]. }
  destruct (mcoefs xs Nx) as (cs & d & Ec & Lc & Hd & Hl & Hq). exists (assignv (i_top i) cs), d.
  assert (M : map (assignv (i_top i) cs) (i_top i) = cs) by (apply map_assignv; [exact (ir_nodup _ _ H)|congruence]). split.
  - constructor.
    + unfold iet_coefficients, sl_coefficients. rewrite E. cbn [bind]. rewrite Ec, M. reflexivity.
    + intros a Ha. rewrite Forall_forall in Hl. apply Hl. rewrite <- M at 2. apply in_map. exact Ha.
    + exact Hd.
    + exact (ir_ne _ _ H).
    + exact (ir_perm _ _ H).
  - intro g. rewrite <- lin_map, <- V, (Hq (map g (i_top i))) by (rewrite map_length; congruence).
    assert (K : forall k, dot (map g (i_top i)) (map (fun c0 => nth k c0 0%Qc) cs) = pair (i_top i) g (coor (assignv (i_top i) cs) k)).
    { intro k. rewrite <- dot_map. rewrite <- M at 1. rewrite map_map. reflexivity. }
    split; intros G k Hk; specialize (G k Hk); rewrite K in *; exact G.
Qed.

Lemma uniform_coords i i' b b' : irel i i' -> near b b' -> coords i' b' (fun a => l_coef (lamT b' a)) (l_deg T') /\
  forall g, Spec.total (fun a => Qc2R (g a) * lamR b' a)%R (i_top i') = 0%R <-> forall k, k < l_deg T' -> pair (i_top i') g (coor (fun a => l_coef (lamT b' a)) k) = 0%Qc.
Proof.
  intros H B. pose proof (ir_in _ _ H) as F. rewrite Forall_forall in F. split.
  - constructor.
    + apply coefficients_ok. rewrite (ir_top _ _ H). intros l Hl. exact (near_posl b b' l B (F l Hl)).
    + intros a _. apply coef_length.
    + apply deg_pos.
    + rewrite (ir_top _ _ H). exact (ir_ne _ _ H).
    + rewrite (ir_top _ _ H), (ir_bot _ _ H). exact (ir_perm _ _ H).
  - intro g. change (coor (fun a => l_coef (lamT b' a))) with (co (lamT b')). rewrite <- (length_equation (lamT b')). rewrite (total_ext (fun a => Qc2R (g a) * lamR b' a)%R (fun a => Qc2R (g a) * val (lamT b' a))%R); [reflexivity|].
    intros a _. rewrite val_lamT. reflexivity.
Qed.

(** The same rational relations hold. *)
Lemma rel_coords i i' b b' : irel i i' -> near b b' -> exists cf cf' d d', coords i b cf d /\ coords i' b' cf' d' /\ 
  (d' = 1 -> l_deg T' = 1) /\
  (forall g, Spec.total (fun a => Qc2R (g a) * lamM b a)%R (i_top i) = 0%R <-> forall k, k < d -> pair (i_top i) g (coor cf k) = 0%Qc) /\
  forall g, (forall k, k < d -> pair (i_top i) g (coor cf k) = 0%Qc) <-> (forall k, k < d' -> pair (i_top i) g (coor cf' k) = 0%Qc).
Proof.
  intros H B. destruct (mixed_coords i i' b b' H B) as (cf & d & C & G). destruct (uniform_coords i i' b b' H B) as (C' & G').
  exists cf, (fun a => l_coef (lamT b' a)), d, (l_deg T'). split; [exact C|]. split; [exact C'|]. split; [auto|]. split; [exact G|].
  intro g. rewrite <- G. specialize (G' g). rewrite (ir_top _ _ H) in G'. rewrite <- G'.
  pose proof (ir_in _ _ H) as F. rewrite Forall_forall in F.
  rewrite (total_ext (fun a => Qc2R (g a) * lamR b' a)%R (fun a => c * (Qc2R (g a) * lamM b a))%R) by (intros a Ha; rewrite (near_lam b b' a B (F a Ha)); ring).
  rewrite total_scale. split; intro E; [rewrite E; ring|]. apply Rmult_integral in E. destruct E; [lra|assumption].
Qed.

(** All lengths are multiples of one. *)
Definition comm (i' : iet T') (b' : slen T') : Prop := exists u, (0 < u)%R /\ Spec.integral u (exch_of i' b').

Lemma pairs_empty d : length (pairs d) = 0 -> d <= 1.
Proof. pose proof (pairs_length d) as H. destruct d as [|[|d]]; lia. Qed.

Lemma short_comm i i' b b' cf : irel i i' -> near b b' -> coords i b cf 1 ->
  (forall g, Spec.total (fun a => Qc2R (g a) * lamM b a)%R (i_top i) = 0%R <-> forall k, k < 1 -> pair (i_top i) g (coor cf k) = 0%Qc) -> comm i' b'.
Proof.
  intros H B C G. pose proof (ir_in _ _ H) as F. rewrite Forall_forall in F. pose proof (ir_nodup _ _ H) as N.
  assert (G0 : forall g, Spec.total (fun a => Qc2R (g a) * lamM b a)%R (i_top i) = 0%R <-> pair (i_top i) g (coor cf 0) = 0%Qc).
  { intro g. rewrite G. split; [intro E; apply E; lia|]. intros E k Hk. replace k with 0 by lia. exact E. }
  assert (Pos : forall a, In a (i_top i) -> (0 < lamM b a)%R).
  { intros a Ha. destruct (B a (F a Ha)) as (x & y & E & _ & _ & P). unfold lamM. rewrite E. apply P. discriminate. }
  (* weights at two labels *)
  assert (One : forall (a : label) (h : label -> R) l, NoDup l -> In a l -> Spec.total (fun z => (if Nat.eqb z a then 1 else 0) * h z)%R l = h a).
  { intros a h l. induction l as [|z l IH]; intros Nl Hl; [destruct Hl|]. inversion Nl as [|? ? Nz Nl']. subst. cbn [Spec.total]. destruct (Nat.eqb_spec z a) as [->|D].
    - rewrite (total_ext _ (fun _ => 0 * 0)%R); [rewrite total_scale; ring|]. intros z Hz. destruct (Nat.eqb_spec z a) as [->|]; [contradiction|ring].
    - rewrite IH; [ring|exact Nl'|]. destruct Hl as [->|Hl]; [congruence|exact Hl]. }
  assert (OneQ : forall (a : label) (h : label -> Qc) l, NoDup l -> In a l -> qsum (fun z => ((if Nat.eqb z a then 1 else 0) * h z)%Qc) l = h a).
  { intros a h l. induction l as [|z l IH]; intros Nl Hl; [destruct Hl|]. inversion Nl as [|? ? Nz Nl']. subst. cbn [qsum]. destruct (Nat.eqb_spec z a) as [->|D].
    - rewrite (qsum_ext _ (fun z => (0 * 0)%Qc)); [rewrite qsum_scale; ring|]. intros z Hz. destruct (Nat.eqb_spec z a) as [->|]; [contradiction|ring].
    - rewrite IH; [ring|exact Nl'|]. destruct Hl as [->|Hl]; [congruence|exact Hl]. }
  destruct (i_top i) as [|a0 X] eqn:Et; [exfalso; apply (ir_ne _ _ H); exact Et|]. set (top := a0 :: X) in *.
  assert (H0 : In a0 top) by (left; reflexivity).
  assert (Nz : coor cf 0 a0 <> 0%Qc).
  { intro Z. specialize (G0 (fun z => if Nat.eqb z a0 then 1%Qc else 0%Qc)). destruct G0 as [_ G0].
    assert (E : pair top (fun z => if Nat.eqb z a0 then 1%Qc else 0%Qc) (coor cf 0) = 0%Qc) by (unfold pair; rewrite OneQ; auto).
    apply G0 in E. rewrite (total_ext _ (fun z => (if Nat.eqb z a0 then 1 else 0) * lamM b z)%R) in E.
    - rewrite One in E by auto. pose proof (Pos a0 H0). lra.
    - intros z _. destruct (Nat.eqb z a0); [rewrite Qc2R_1|rewrite Qc2R_0]; reflexivity. }
  set (w := coor cf 0 a0) in *. 
  assert (R : forall a, In a top -> lamM b a = (Qc2R (coor cf 0 a / w) * lamM b a0)%R).
  { intros a Ha.
    set (g := fun z => ((if Nat.eqb z a then 1 else 0) - (coor cf 0 a / w) * (if Nat.eqb z a0 then 1 else 0))%Qc).
    assert (E : pair top g (coor cf 0) = 0%Qc).
    { unfold pair. rewrite (qsum_ext _ (fun z => ((if Nat.eqb z a then 1 else 0) * coor cf 0 z + (- (coor cf 0 a / w)) * ((if Nat.eqb z a0 then 1 else 0) * coor cf 0 z))%Qc)).
      - rewrite qsum_add, qsum_scale, !OneQ by auto. fold w. field. exact Nz.
      - intros z _. unfold g. ring. }
    apply G0 in E.
    rewrite (total_ext _ (fun z => (if Nat.eqb z a then 1 else 0) * lamM b z + (- Qc2R (coor cf 0 a / w)) * ((if Nat.eqb z a0 then 1 else 0) * lamM b z))%R) in E.
    - rewrite total_plus, total_scale, !One in E by auto. lra.
    - intros z _. unfold g. rewrite Qc2R_minus, Qc2R_mult.
      assert (I : forall t : bool, Qc2R (if t then 1 else 0) = (if t then 1 else 0)%R) by (intros []; [apply Qc2R_1|apply Qc2R_0]). rewrite !I. ring. }
  destruct (common_denominator (fun a => (coor cf 0 a / w)%Qc) top) as (d & Dd & Hn).
  assert (Hd' : (0 < IZR d)%R) by (apply IZR_lt; exact Dd).
  exists (c * lamM b a0 / IZR d)%R. split; [apply Rdiv_lt_0_compat; [apply Rmult_lt_0_compat; auto|exact Hd']|].
  intros a Ha. cbn [exch_of Spec.e_top Spec.e_len] in *. rewrite (ir_top _ _ H), Et in Ha. destruct (Hn a Ha) as (n & E). exists n.
  rewrite (near_lam b b' a B (F a Ha)), (R a Ha), <- E. field. lra.
Qed.

Lemma long_comm i i' b b' : irel i i' -> near b b' -> sl_stack b' = [] -> l_deg T' = 1 -> comm i' b'.
Proof. intros H B S D. exact (degree_one i' b' (irel_wf i i' b b' H B S) D). Qed.

(** The SAF invariants; an empty vector can only come from commensurable lengths. *)
Lemma rel_saf_raw i i' b b' : irel i i' -> near b b' -> sl_stack b' = [] -> exists v v', saf_raw i b = Ok v /\ saf_raw i' b' = Ok v' /\ vis0 v = vis0 v' /\
  (length v = 0 -> comm i' b') /\ (length v' = 0 -> comm i' b').
Proof.
  intros H B S. destruct (rel_coords i i' b b' H B) as (cf & cf' & d & d' & C & C' & D & G & Hr).
  destruct (both_saf i b i' b' cf cf' d d' C C' (ir_top _ _ H) (ir_bot _ _ H) (ir_nodup _ _ H) Hr) as (v & v' & E & E' & V & L & L').
  exists v, v'. repeat (split; [assumption|]). split.
  - intro Z. rewrite L in Z. apply pairs_empty in Z. pose proof (cd_pos _ _ _ _ C) as P. assert (d = 1) as -> by lia.
    exact (short_comm i i' b b' cf H B C G).
  - intro Z. rewrite L' in Z. apply pairs_empty in Z. pose proof (cd_pos _ _ _ _ C') as P. apply (long_comm i i' b b' H B S), D. lia.
Qed.

Lemma rel_saf i i' b b' : irel i i' -> near b b' -> sl_stack b' = [] ->
  rres (fun p p' => vis0 (fst p) = vis0 (fst p') /\ irel (snd p) (snd p') /\
    (snd p = i /\ i_saf i = Some (fst p) /\ snd p' = i' \/ i_saf i = None /\ snd p = set_saf i (Some (fst p)) /\ (length (fst p) = 0 -> comm i' b')) /\
    snd p' = set_saf i' (Some (fst p')))
    (iet_saf i b) (iet_saf i' b').
Proof.
  intros H B S. pose proof (ir_saf _ _ H) as C. unfold iet_saf. destruct (i_saf i) as [u|] eqn:Eu, (i_saf i') as [v|] eqn:Ev; try contradiction.
  - split; [exact C|]. split; [exact H|]. cbn [fst snd]. split; [left; auto|]. unfold set_saf. rewrite <- Ev. destruct i'; reflexivity.
  - destruct (rel_saf_raw i i' b b' H B S) as (u & v & -> & -> & V & L & _). cbn [bind]. rewrite (ir_swap _ _ H).
    assert (R : vis0 (if i_swap i then vneg u else u) = vis0 (if i_swap i then vneg v else v)).
    { destruct (i_swap i); [rewrite !vis0_vneg|]; exact V. }
    cbn [fst snd rres]. split; [exact R|]. split; [apply irel_set_saf; [exact H|exact R]|]. split; [|reflexivity].
    right. split; [reflexivity|]. split; [reflexivity|]. intro Z. apply L. destruct (i_swap i); [rewrite vneg_length in Z|]; exact Z.
Qed.

Definition flag_rel (p : bool * iet T) (p' : bool * iet T') : Prop := fst p = fst p' /\ irel (snd p) (snd p').

(** Boshernitzan's criterion only fills the cache. *)
Lemma bosh_shape {U : Type} {OU : LenOps U} (i : iet U) (b : slen U) z j : bosh_no_periodic i b = Ok (z, j) -> exists v, iet_saf i b = Ok (v, j).
Proof.
  unfold bosh_no_periodic, iet_saf0. destruct (iet_saf i b) as [[u j0]| | | |]; cbn [bind]; try discriminate.
  destruct (vis0 u); [intro E; injection E as _ <-; exists u; reflexivity|].
  destruct (i_size j0 <=? 1); [intro E; injection E as _ <-; exists u; reflexivity|].
  destruct (bosh_equations j0 b); cbn [bind]; try discriminate. destruct (ras_equations _ _); cbn [bind]; try discriminate.
  destruct (nznn _); cbn [bind]; try discriminate. intro E; injection E as _ <-; exists u; reflexivity.
Qed.

Lemma rel_bosh i i' b b' : irel i i' -> near b b' -> sl_stack b' = [] ->
  rres flag_rel (bosh_no_periodic i b) (bosh_no_periodic i' b').
Proof.
  intros H B S. unfold bosh_no_periodic, iet_saf0.
  pose proof (rel_saf i i' b b' H B S) as R. destruct (iet_saf i b) as [[u j]| | | |], (iet_saf i' b') as [[v j']| | | |]; cbn [rres] in R; try contradiction; try exact I.
  destruct R as (V & J & _). cbn [fst snd bind] in *. rewrite <- V. destruct (vis0 u); [split; [reflexivity|exact J]|].
  unfold i_size. rewrite (ir_top _ _ J). destruct (length (i_top j) <=? 1); [split; [reflexivity|exact J]|].
  destruct (rel_coords j j' b b' J B) as (cf & cf' & d & d' & C & C' & _ & _ & Hr).
  destruct (both_bosh j b j' b' cf cf' d d' C C' (ir_top _ _ J) (ir_bot _ _ J) (ir_nodup _ _ J) Hr) as (eqs & eqs' & r & r' & f & -> & -> & E1 & E2 & E3 & E4).
  cbn [bind]. rewrite E1, E2. cbn [bind]. rewrite E3, E4. split; [reflexivity|exact J].
Qed.

Lemma rel_saddle2 i i' b b' t m : irel i i' -> near b b' -> bosh_no_saddle2 i b t m = bosh_no_saddle2 i' b' t m.
Proof.
  intros H B. destruct (rel_coords i i' b b' H B) as (cf & cf' & d & d' & C & C' & _ & _ & Hr).
  exact (both_saddle2 i b i' b' cf cf' d d' C C' (ir_top _ _ H) (ir_bot _ _ H) (ir_nodup _ _ H) Hr t m).
Qed.

Lemma rel_saddle i i' b b' : irel i i' -> near b b' -> bosh_no_saddle i b = bosh_no_saddle i' b'.
Proof.
  intros H B. unfold bosh_no_saddle, i_size. rewrite (ir_top _ _ H), (ir_bot _ _ H).
  destruct (length (i_top i) <=? 1); [reflexivity|].
  generalize (list_prod (tl (rev (i_top i))) (tl (rev (i_bottom i)))). intro ps. induction ps as [|p ps IH]; [reflexivity|].
  cbn [all_false_exit]. rewrite (rel_saddle2 i i' b b' _ _ H B), IH. reflexivity.
Qed.

(** ** The tracker *)

Lemma rel_similar k k' b b' x y : trel k k' -> near b b' -> In x (tk_top k) -> In y (tk_top k) -> 
  sl_similar (tk_lengths k) x y b x y = sl_similar (tk_lengths k') x y b' x y.
Proof.
  intros K B Hx Hy. pose proof (tr_in _ _ K) as F. rewrite Forall_forall in F.
  destruct (tr_len _ _ K x Hx) as (x1 & x1' & E1 & E1' & R1). destruct (tr_len _ _ K y Hy) as (y1 & y1' & F1 & F1' & Q1).
  destruct (B x (F x Hx)) as (x2 & x2' & E2 & E2' & R2 & _). destruct (B y (F y Hy)) as (y2 & y2' & F2 & F2' & Q2 & _).
  unfold sl_similar, sl_at. rewrite E1, E1', E2, E2'. cbn [bind]. rewrite (rv_bool c Hc _ _ R1), (rv_bool c Hc _ _ R2).
  destruct (negb (l_bool x1') && negb (l_bool x2')); [reflexivity|]. rewrite F1, F1', F2, F2'. cbn [bind].
  rewrite (rv_bool c Hc _ _ Q1), (rv_bool c Hc _ _ Q2). destruct (negb (l_bool y1') && negb (l_bool y2')); [reflexivity|].
  rewrite (rv_cross c Hc _ _ _ _ _ _ _ _ R1 Q2 Q1 R2). reflexivity.
Qed.

Lemma rel_similar_lengths k k' b b' : trel k k' -> near b b' -> forall ls, incl ls (tk_top k) ->
  similar_lengths k b ls = similar_lengths k' b' ls.
Proof.
  intros K B. induction ls as [|x ls IH]; intro F; [reflexivity|]. destruct ls as [|y ls]; [reflexivity|].
  change (similar_lengths k b (x :: y :: ls)) with (r <- sl_similar (tk_lengths k) x y b x y ;; if r then similar_lengths k b (y :: ls) else Ok false).
  change (similar_lengths k' b' (x :: y :: ls)) with (r <- sl_similar (tk_lengths k') x y b' x y ;; if r then similar_lengths k' b' (y :: ls) else Ok false).
  rewrite (rel_similar k k' b b' x y K B), IH; [reflexivity| | |].
  - intros z Hz. apply F. right. exact Hz.
  - apply F. left. reflexivity.
  - apply F. right. left. reflexivity.
Qed.

Definition trk_rel (p : bool * tracker T) (p' : bool * tracker T') : Prop := fst p = fst p' /\ trel (snd p) (snd p').

Lemma rel_tracker i i' b b' k k' : irel i i' -> near b b' -> trel k k' -> rres trk_rel (tracker_loop k i b) (tracker_loop k' i' b').
Proof.
  intros H B K. pose proof (ir_in _ _ H) as F. rewrite Forall_forall in F.
  unfold tracker_loop. rewrite (tr_ttl _ _ K). destruct (N.eqb (tk_ttl k) 0).
  - split; [reflexivity|]. cbn [snd]. unfold tracker_reset. rewrite (ir_top _ _ H), (ir_bot _ _ H), (tr_bound _ _ K).
    constructor; cbn [tk_top tk_bottom tk_bound tk_ttl tk_lengths]; auto.
    + apply (ir_in _ _ H).
    + intros l Hl. rewrite !only_at by exact Hl. destruct (B l (F l Hl)) as (x & y & E & E' & R & _). exists x, y. auto.
  - cbn [tk_top tk_bottom tk_lengths tk_bound]. rewrite (tr_top _ _ K), (tr_bot _ _ K), (tr_bound _ _ K). unfold i_size. rewrite (ir_top _ _ H), (ir_bot _ _ H).
    set (k0 := mktracker (tk_top k) (tk_bottom k) (tk_lengths k) (tk_bound k) (tk_ttl k - 1)).
    set (k0' := mktracker (tk_top k) (tk_bottom k) (tk_lengths k') (tk_bound k) (tk_ttl k - 1)).
    assert (K0 : trel k0 k0').
    { constructor; cbn; auto; apply K. }
    destruct (negb _); [split; [reflexivity|exact K0]|]. apply rres_same. intros p _. destruct p; [|split; [reflexivity|exact K0]].
    rewrite (rel_similar_lengths k0 k0' b b' K0 B (tk_top k)) by apply incl_refl. apply rres_same. intros r _. split; [reflexivity|exact K0].
Qed.

(** ** reduce and merge *)

Definition opt_rel {X Y} (Q : X -> Y -> Prop) (a : option X) (b : option Y) : Prop :=
  match a, b with Some x, Some y => Q x y | None, None => True | _, _ => False end.

Definition red_rel (p : option (iet T) * iet T) (p' : option (iet T') * iet T') : Prop :=
  opt_rel irel (fst p) (fst p') /\ irel (snd p) (snd p').

Lemma rel_iet_make b b' t bo : near b b' -> Forall A t -> rres (fun j j' => j = mkiet t bo false None tracker_init /\ j' = mkiet t bo false None tracker_init)
  (iet_make b t bo) (iet_make b' t bo).
Proof.
  intros B F. unfold iet_make. do 3 apply rres_assert.
  assert (E : mapM (fun l => x <- sl_at b l ;; Ok (l_bool x)) t = mapM (fun l => x <- sl_at b' l ;; Ok (l_bool x)) t).
  { induction F as [|l t Hl F IH]; [reflexivity|]. cbn [mapM]. rewrite IH. f_equal. destruct (B l Hl) as (x & y & E & E' & R & _).
    unfold sl_at. rewrite E, E'. cbn [bind]. rewrite (rv_bool c Hc _ _ R). reflexivity. }
  rewrite E. apply rres_same. intros bs _. do 2 apply rres_assert. split; reflexivity.
Qed.

Lemma rel_reduce i i' b b' : irel i i' -> near b b' -> sl_stack b' = [] ->
  rres red_rel (reduce i b) (reduce i' b') /\
  ((exists k, Spec.invariant_prefix (exch_of i' b') k /\ reduce i b = Ok (Some (right_part i k), left_part i k) /\ reduce i' b' = Ok (Some (right_part i' k), left_part i' k)) \/
   (~ Spec.reducible (exch_of i' b') /\ reduce i b = Ok (None, i) /\ reduce i' b' = Ok (None, i'))).
Proof.
  intros H B S. pose proof (irel_wf i i' b b' H B S) as Wi'.
  destruct (reduce_ok i' b' Wi') as [(k & K1 & K2 & E')|(K1 & E')].
  - assert (E : reduce i b = Ok (Some (right_part i k), left_part i k)).
    { unfold reduce in *. rewrite (ir_top _ _ H), (ir_bot _ _ H) in E'.
      destruct (red_loop (i_top i) (i_bottom i) [] 0 0) as [[t' bo']| | | |]; cbn [bind] in *; try discriminate.
      destruct t' as [|x t']; [destruct bo'; discriminate|]. destruct (_ =? _); cbn [assert_] in *; [|discriminate].
      destruct (iet_make b' (x :: t') bo') as [j'| | | |] eqn:M; cbn [bind] in *; try discriminate. injection E' as Ej Et Eb.
      pose proof (iet_make_shape _ _ _ _ M) as Sh. rewrite Sh in Ej. unfold right_part in Ej. rewrite (ir_top _ _ H), (ir_bot _ _ H) in *. injection Ej as Ej1 Ej2.
      assert (F : Forall A (x :: t')) by (rewrite Ej1; apply Forall_skipn, H).
      pose proof (rel_iet_make b b' (x :: t') bo' B F) as R. rewrite M in R. destruct (iet_make b (x :: t') bo') as [j| | | |]; cbn [rres] in R; try contradiction.
      destruct R as [-> _]. cbn [bind]. unfold right_part, left_part. rewrite <- Ej1, <- Ej2. cbn [length] in *. rewrite Et, Eb. reflexivity. }
    split; [|left; exists k; auto]. rewrite E, E'.
    destruct (wf_cut i' b' k Wi' K1) as [(N1 & P1 & E1 & _) (N2 & P2 & E2 & _)].
    cbn [left_part right_part set_saf set_labels i_top i_bottom] in *. rewrite (ir_top _ _ H), (ir_bot _ _ H) in *.
    split; cbn [fst snd opt_rel]; unfold right_part, left_part, set_saf, set_labels; rewrite (ir_top _ _ H), (ir_bot _ _ H).
    + apply irel_rows; auto; [|exact I]. apply Forall_skipn, H.
    + cbn [i_top i_bottom i_swap i_trk]. rewrite (ir_swap _ _ H). apply irel_rows; auto; [apply Forall_firstn, H|exact I].
  - assert (E : reduce i b = Ok (None, i)).
    { unfold reduce in *. rewrite (ir_top _ _ H), (ir_bot _ _ H) in E'.
      destruct (red_loop (i_top i) (i_bottom i) [] 0 0) as [[t' bo']| | | |]; cbn [bind] in *; try discriminate.
      destruct t' as [|x t']; [destruct bo'; [reflexivity|discriminate]|]. destruct (_ =? _); cbn [assert_] in *; [|discriminate].
      destruct (iet_make b' (x :: t') bo'); cbn [bind] in *; discriminate. }
    split; [|right; auto]. rewrite E, E'. split; [exact I|exact H].
Qed.

Lemma rel_merge i i' : irel i i' -> rres irel (merge_first i) (merge_first i').
Proof.
  intro H. pose proof (ir_nodup _ _ H) as N. pose proof (ir_perm _ _ H) as P. pose proof (ir_in _ _ H) as F.
  unfold merge_first. rewrite (ir_top _ _ H), (ir_bot _ _ H).
  destruct (i_top i) as [|a X] eqn:Et; [exact I|]. destruct (i_bottom i) as [|b Y] eqn:Eb; [exact I|].
  destruct (split_at a Y) as [[p q]|] eqn:E; [|exact I]. apply split_at_incl in E. subst Y. cbn [rres].
  apply perm_cons_split in P. unfold set_labels. rewrite (ir_swap _ _ H). apply irel_rows.
  - inversion N. assumption.
  - eapply Permutation_trans; [exact P|]. apply Permutation_middle.
  - intro E. rewrite E in P. apply Permutation_nil in P. discriminate.
  - inversion F. assumption.
  - apply H.
Qed.
End RatioIet.
