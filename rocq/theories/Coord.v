(** SAF invariant and Boshernitzan's criteria only depend on the rational relations between
    the coefficients. *)
From Coq Require Import Permutation.
From Verif Require Import Base QcTac LenT FM Subspace Lengths IET SpecLin SubspaceProof Saf Bosh Dual.
Open Scope nat_scope.

(** * What is computed from coefficients *)

Section Coord.
Context {T : Type} {O : LenOps T}.
Variable i : iet T.
Variable b : slen T.
Variable cf : label -> vec.
Variable d : nat.

(** The lengths of the labels of [i] have the vectors [cf], all of size [d]. *)
Record coords : Prop := {
  cd_ok : iet_coefficients i b = Ok (map cf (i_top i));
  cd_len : forall a, In a (i_top i) -> length (cf a) = d;
  cd_pos : 1 <= d;
  cd_ne : i_top i <> [];
  cd_perm : Permutation (i_top i) (i_bottom i);
}.

Definition coor (k : nat) (a : label) : Qc := nth k (cf a) 0%Qc.

Hypothesis H : coords.

Lemma cf_tab a : In a (i_top i) -> cf a = tab d (fun k => coor k a).
Proof. intro Ha. apply tab_of, (cd_len H), Ha. Qed.

Let cm : coefmap := combine (i_top i) (map cf (i_top i)).

Lemma coord_at l : In l (i_top i) -> cm_at cm l = Ok (cf l).
Proof.
  unfold cm. clear H. induction (i_top i) as [|a ls IH]; intros Hl; [contradiction|]. simpl.
  destruct (Nat.eqb_spec a l) as [->|Hne]; [reflexivity|]. apply IH. destruct Hl; [contradiction | assumption].
Qed.

Lemma coord_walk_add stop ls f : incl ls (i_top i) ->
  walk_until vadd_c cm stop ls (tab d f) = Ok (tab d (fun k => (f k + before (coor k) ls stop)%Qc)).
Proof.
  revert f; induction ls as [|a ls IH]; intros f I; simpl.
  - f_equal. apply tab_ext. intros; ring.
  - destruct (Nat.eqb_spec a stop) as [->|Hne].
    + f_equal. apply tab_ext. intros; ring.
    + assert (Ha : In a (i_top i)) by (apply I; left; reflexivity).
      rewrite (coord_at a Ha). cbn [bind]. rewrite (cf_tab a Ha).
      unfold vadd_c at 1. rewrite !tab_length, Nat.eqb_refl. cbn [assert_ bind]. rewrite vadd_tab.
      rewrite IH by (intros l Hl; apply I; right; exact Hl). f_equal. apply tab_ext. intros k _. ring.
Qed.

Lemma coord_walk_sub stop ls f : incl ls (i_top i) ->
  walk_until vsub_c cm stop ls (tab d f) = Ok (tab d (fun k => (f k - before (coor k) ls stop)%Qc)).
Proof.
  revert f; induction ls as [|a ls IH]; intros f I; simpl.
  - f_equal. apply tab_ext. intros; ring.
  - destruct (Nat.eqb_spec a stop) as [->|Hne].
    + f_equal. apply tab_ext. intros; ring.
    + assert (Ha : In a (i_top i)) by (apply I; left; reflexivity).
      rewrite (coord_at a Ha). cbn [bind]. rewrite (cf_tab a Ha).
      unfold vsub_c at 1. rewrite !tab_length, Nat.eqb_refl. cbn [assert_ bind]. rewrite vsub_tab.
      rewrite IH by (intros l Hl; apply I; right; exact Hl). f_equal. apply tab_ext. intros k _. ring.
Qed.

Lemma coord_map : label_to_coefficients i b = Ok cm.
Proof. unfold label_to_coefficients. rewrite (cd_ok H). reflexivity. Qed.

Lemma coord_translation t m :
  translation i t m cm = Ok (tab d (fun k => (before (coor k) (i_bottom i) m - before (coor k) (i_top i) t)%Qc)).
Proof.
  unfold translation.
  assert (Hd : exists l v r, cm = (l, v) :: r /\ length v = d).
  { pose proof (cd_ne H) as Ne. pose proof (cd_len H) as Le. unfold cm. destruct (i_top i) as [|a X]; [contradiction|]. simpl.
    do 3 eexists. split; [reflexivity | apply Le; left; reflexivity]. }
  destruct Hd as [l [v [r [E Hv]]]]. rewrite E, Hv, <- E, vzero_tab.
  rewrite coord_walk_sub by apply incl_refl. cbn [bind].
  rewrite coord_walk_add by (intros c Hc; eapply Permutation_in; [symmetry; exact (cd_perm H)|exact Hc]).
  f_equal. apply tab_ext. intros k _. ring.
Qed.

Lemma coord_translations :
  translations i b = Ok (map (fun a => tab d (fun k => displacement (coor k) (i_top i) (i_bottom i) a)) (i_top i)).
Proof. unfold translations. rewrite coord_map. cbn [bind]. apply mapM_ok. intros a _. apply coord_translation. Qed.

Lemma coord_saf_sum (t : label -> nat -> Qc) ls (acc : nat * nat -> Qc) : incl ls (i_top i) ->
  saf_sum (map cf ls) (map (fun a => tab d (t a)) ls) (map acc (pairs d))
  = Ok (map (fun p => (acc p + qsum (fun a => (coor (fst p) a * t a (snd p) - coor (snd p) a * t a (fst p))%Qc) ls)%Qc) (pairs d)).
Proof.
  revert acc; induction ls as [|a ls IH]; intros acc I; cbn [map saf_sum qsum].
  - f_equal. apply map_ext. intros; ring.
  - assert (Ha : In a (i_top i)) by (apply I; left; reflexivity).
    unfold wedge_c. rewrite (cd_len H a Ha), tab_length, Nat.eqb_refl. cbn [check_ bind].
    rewrite (cf_tab a Ha), wedge_tab. unfold vadd_c. rewrite !map_length, Nat.eqb_refl. cbn [assert_ bind].
    assert (E : forall f g (l : list (nat * nat)), vadd (map f l) (map g l) = map (fun p => (f p + g p)%Qc) l).
    { intros f g l; induction l as [|p l IHl]; simpl; [reflexivity | f_equal; exact IHl]. }
    rewrite E, IH by (intros l Hl; apply I; right; exact Hl). f_equal. apply map_ext. intros p. ring.
Qed.

Lemma coord_saf : saf_raw i b = Ok (saf_vector d coor (i_top i) (i_bottom i)).
Proof.
  unfold saf_raw. rewrite (cd_ok H). cbn [bind]. pose proof (cd_ne H) as Ne. pose proof (cd_len H) as Le. pose proof coord_translations as Ht.
  pose proof (fun t acc => coord_saf_sum t (i_top i) acc (incl_refl _)) as Hs. pose proof (cd_pos H) as Hp.
  destruct (i_top i) as [|a0 X]; [contradiction|]. cbn [map]. rewrite (Le a0) by (left; reflexivity).
  destruct (Nat.leb_spec d 1) as [Hle|Hgt].
  - assert (E : d = 1) by lia. unfold saf_vector. rewrite E. reflexivity.
  - rewrite Ht. cbn [bind]. change (cf a0 :: map cf X) with (map cf (a0 :: X)). rewrite <- pairs_length_div.
    assert (Ez : forall l : list (nat * nat), vzero (length l) = map (fun _ => 0%Qc) l).
    { induction l as [|p l IH]; simpl; [reflexivity | f_equal; exact IH]. }
    rewrite Ez, (Hs (fun a k => displacement (coor k) (a0 :: X) (i_bottom i) a)).
    f_equal. unfold saf_vector. apply map_ext. intros p. unfold saf_entry. ring.
Qed.

Definition ceqs : list vec := map (fun k => map (displacement (coor k) (i_top i) (i_bottom i)) (i_top i)) (seq 0 d).

Lemma coord_equations : bosh_equations i b = Ok ceqs.
Proof.
  unfold bosh_equations. rewrite coord_translations. cbn [bind]. pose proof (cd_ne H) as Ne. unfold ceqs.
  destruct (i_top i) as [|a0 X]; [contradiction|]. cbn [map].
  rewrite tab_length. f_equal. apply map_ext_in. intros k Hk. apply in_seq in Hk.
  rewrite tab_nth by lia. f_equal. rewrite map_map. apply map_ext. intros a. rewrite tab_nth by lia. reflexivity.
Qed.

Lemma ceqs_length : length ceqs = d.
Proof. unfold ceqs. rewrite map_length, seq_length. reflexivity. Qed.

Lemma ceqs_dim : max_dim ceqs = length (i_top i).
Proof.
  unfold max_dim, ceqs. rewrite map_map. rewrite (map_ext _ (fun _ => length (i_top i))) by (intros; apply map_length).
  pose proof (cd_pos H) as Hp. destruct d as [|n]; [lia|]. simpl.
  assert (E : forall l : list nat, fold_right Nat.max 0 (map (fun _ => length (i_top i)) l) <= length (i_top i)).
  { induction l; simpl; lia. }
  specialize (E (seq 1 n)). lia.
Qed.

Lemma ceqs_solves (v : nat -> Qc) x :
  solves ceqs (tab d v) x <-> forall k, k < d -> dot (map (displacement (coor k) (i_top i) (i_bottom i)) (i_top i)) x = v k.
Proof.
  unfold solves, ceqs, tab. set (f := fun k => map (displacement (coor k) (i_top i) (i_bottom i)) (i_top i)).
  assert (G : forall n j, Forall2 (fun e k => dot e x = k) (map f (seq j n)) (map v (seq j n)) <-> forall k, j <= k < j + n -> dot (f k) x = v k).
  { induction n as [|n IH]; intro j; cbn [seq map]; [split; [intros; lia|constructor]|]. split.
    - intros F k Hk. inversion F as [|? ? ? ? F1 F2]; subst. destruct (Nat.eq_dec k j) as [->|D]; [exact F1|]. apply (proj1 (IH (Datatypes.S j)) F2). lia.
    - intros F. constructor; [apply F; lia|]. apply (proj2 (IH (Datatypes.S j))). intros k Hk. apply F. lia. }
  rewrite G. split; intros F k Hk; apply (F k); lia.
Qed.
End Coord.
Arguments coords {T O} i b cf d.

(** * Two families of coefficients with the same relations *)

Section Same.
Variables top bot : list label.
Hypothesis N : NoDup top.
Hypothesis P : Permutation top bot.

(** Linear functionals on the labels. *)
Definition functional (F : (label -> Qc) -> Qc) : Prop := exists g, forall X, F X = pair top g X.

Lemma fun_zero : functional (fun _ => 0%Qc).
Proof.
  exists (fun _ => 0%Qc). intro X. unfold pair. rewrite (qsum_scale 0%Qc X). ring.
Qed.
Lemma fun_at a : In a top -> functional (fun X => X a).
Proof. intro Ha. exists (fun b => if Nat.eqb b a then 1%Qc else 0%Qc). intro X. unfold pair. rewrite qsum_delta by assumption. reflexivity. Qed.
Lemma fun_add F G : functional F -> functional G -> functional (fun X => (F X + G X)%Qc).
Proof.
  intros [f Hf] [g Hg]. exists (fun a => (f a + g a)%Qc). intro X. rewrite Hf, Hg. unfold pair. rewrite <- qsum_add. apply qsum_ext. intros; ring.
Qed.
Lemma fun_scale q F : functional F -> functional (fun X => (q * F X)%Qc).
Proof. intros [f Hf]. exists (fun a => (q * f a)%Qc). intro X. rewrite Hf, pair_scale_l. reflexivity. Qed.
Lemma fun_ext F G : functional F -> (forall X, G X = F X) -> functional G.
Proof. intros [f Hf] E. exists f. intro X. rewrite E. apply Hf. Qed.
Lemma fun_sub F G : functional F -> functional G -> functional (fun X => (F X - G X)%Qc).
Proof. intros HF HG. apply (fun_ext _ _ (fun_add _ _ HF (fun_scale (-(1))%Qc _ HG))). intro X. ring. Qed.

Lemma fun_before l a : incl l top -> functional (fun X => before X l a).
Proof.
  induction l as [|c l IH]; intro I; cbn [before]; [apply fun_zero|]. destruct (Nat.eqb c a); [apply fun_zero|].
  apply fun_add; [apply fun_at, I; left; reflexivity|]. apply IH. intros z Hz. apply I. right. exact Hz.
Qed.
Lemma fun_displacement a : functional (fun X => displacement X top bot a).
Proof.
  unfold displacement. apply fun_sub; apply fun_before; [|apply incl_refl].
  intros z Hz. eapply Permutation_in; [symmetry; exact P|exact Hz].
Qed.
Lemma fun_dot x : functional (fun X => dot (map (displacement X top bot) top) x).
Proof.
  assert (G : forall l x, functional (fun X => dot (map (displacement X top bot) l) x)).
  { induction l as [|a l IH]; intros [|q y]; cbn [map dot]; try apply fun_zero. apply fun_add; [|apply IH].
    apply (fun_ext _ _ (fun_scale q _ (fun_displacement a))). intro X. ring. }
  apply G.
Qed.

Variables X X' : nat -> label -> Qc.
Variables d d' : nat.
Hypothesis Hrel : forall g, (forall k, k < d -> pair top g (X k) = 0%Qc) <-> (forall k, k < d' -> pair top g (X' k) = 0%Qc).

Lemma same_fun F : functional F -> ((forall k, k < d -> F (X k) = 0%Qc) <-> (forall k, k < d' -> F (X' k) = 0%Qc)).
Proof.
  intros [g Hg]. pose proof (Hrel g) as G. split; intros E k Hk; rewrite Hg; apply G; auto; intros j Hj; rewrite <- Hg; apply E, Hj.
Qed.

Lemma vis0_entries n (Y : nat -> label -> Qc) : vis0 (saf_vector n Y top bot) = true <->
  forall p q, p < q < n -> saf_entry (Y p) (Y q) top bot = 0%Qc.
Proof.
  unfold vis0, saf_vector. rewrite forallb_forall. split.
  - intros H p q Hpq. specialize (H (saf_entry (Y p) (Y q) top bot)).
    destruct (Qc_eq_dec _ 0) as [E|]; [exact E|]. discriminate H.
    apply in_map_iff. exists (p, q). split; [reflexivity|apply pairs_In; exact Hpq].
  - intros H x Hx. apply in_map_iff in Hx. destruct Hx as ([p q] & <- & Hpq). apply pairs_In in Hpq. cbn [fst snd].
    rewrite (H p q Hpq). destruct (Qc_eq_dec 0 0); [reflexivity|congruence].
Qed.

Lemma same_saf : vis0 (saf_vector d X top bot) = vis0 (saf_vector d' X' top bot).
Proof.
  assert (E : vis0 (saf_vector d X top bot) = true <-> vis0 (saf_vector d' X' top bot) = true).
  { rewrite !vis0_entries. split; intros Z p q Hpq.
    - apply (saf_zero_transfer top N bot P X X' d d'); auto; [|lia|lia]. intros r Hr g Hg. exact (proj1 (Hrel g) Hg r Hr).
    - apply (saf_zero_transfer top N bot P X' X d' d); auto; [|lia|lia]. intros r Hr g Hg. exact (proj2 (Hrel g) Hg r Hr). }
  destruct (vis0 _), (vis0 _); intuition congruence.
Qed.

Lemma vis0_tab n f : vis0 (tab n f) = true <-> forall k, k < n -> f k = 0%Qc.
Proof.
  unfold vis0, tab. rewrite forallb_forall. split.
  - intros H k Hk. specialize (H (f k) (in_map f _ _ (proj2 (in_seq _ _ _) (conj (Nat.le_0_l k) Hk)))). destruct (Qc_eq_dec _ _); [assumption|discriminate].
  - intros H x Hx. apply in_map_iff in Hx. destruct Hx as (k & <- & Hk). apply in_seq in Hk. rewrite H by lia.
    destruct (Qc_eq_dec 0 0); [reflexivity|congruence].
Qed.
End Same.

Lemma Qc_sub_eq (x y : Qc) : (x - y = 0)%Qc -> x = y.
Proof. intro E. replace x with (x - y + y)%Qc by ring. rewrite E. ring. Qed.

(** Two IETs with the same rows. *)
Section Both.
Context {T T' : Type} {O : LenOps T} {O' : LenOps T'}.
Variables (i : iet T) (b : slen T) (i' : iet T') (b' : slen T').
Variables (cf cf' : label -> vec) (d d' : nat).
Hypothesis H : coords i b cf d.
Hypothesis H' : coords i' b' cf' d'.
Hypothesis Et : i_top i' = i_top i.
Hypothesis Eb : i_bottom i' = i_bottom i.
Hypothesis N : NoDup (i_top i).
Hypothesis Hrel : forall g, (forall k, k < d -> pair (i_top i) g (coor cf k) = 0%Qc) <-> (forall k, k < d' -> pair (i_top i) g (coor cf' k) = 0%Qc).

Let P : Permutation (i_top i) (i_bottom i) := cd_perm _ _ _ _ H.

Lemma both_saf : exists v v', saf_raw i b = Ok v /\ saf_raw i' b' = Ok v' /\ vis0 v = vis0 v' /\
  length v = length (pairs d) /\ length v' = length (pairs d').
Proof.
  do 2 eexists. split; [exact (coord_saf _ _ _ _ H)|]. split; [exact (coord_saf _ _ _ _ H')|]. rewrite Et, Eb.
  split; [apply same_saf; assumption|]. unfold saf_vector. rewrite !map_length. split; reflexivity.
Qed.

Lemma both_solves (v v' : nat -> Qc) F : functional (i_top i) F ->
  (forall k, v k = F (coor cf k)) -> (forall k, v' k = F (coor cf' k)) ->
  forall x, solves (ceqs i cf d) (tab d v) x <-> solves (ceqs i' cf' d') (tab d' v') x.
Proof.
  intros HF Hv Hv' x. rewrite !ceqs_solves, Et, Eb.
  pose proof (same_fun (i_top i) (coor cf) (coor cf') d d' Hrel _ (fun_sub _ _ _ (fun_dot (i_top i) (i_bottom i) N P x) HF)) as G.
  cbv beta in G. split; intros E k Hk.
  - apply Qc_sub_eq. rewrite Hv'. apply G; [|exact Hk]. intros j Hj. rewrite E, Hv by exact Hj. ring.
  - apply Qc_sub_eq. rewrite Hv. apply G; [|exact Hk]. intros j Hj. rewrite E, Hv' by exact Hj. ring.
Qed.

(** The equations without right-hand side. *)
Lemma both_bosh : exists eqs eqs' r r' f, bosh_equations i b = Ok eqs /\ bosh_equations i' b' = Ok eqs' /\
  ras_equations eqs (vzero (length eqs)) = Ok r /\ ras_equations eqs' (vzero (length eqs')) = Ok r' /\ nznn r = Ok f /\ nznn r' = Ok f.
Proof.
  pose proof (coord_equations _ _ _ _ H) as E. pose proof (coord_equations _ _ _ _ H') as E'.
  pose proof (ceqs_length i cf d) as L. pose proof (ceqs_length i' cf' d') as L'.
  destruct (ras_equations_ok (ceqs i cf d) (vzero (length (ceqs i cf d)))) as (r & Er & _ & _ & Hm); [rewrite vzero_length; reflexivity|].
  destruct (ras_equations_ok (ceqs i' cf' d') (vzero (length (ceqs i' cf' d')))) as (r' & Er' & _ & _ & Hm'); [rewrite vzero_length; reflexivity|].
  assert (Z : forall n, Forall (fun k => k = 0%Qc) (vzero n)) by (induction n; simpl; constructor; auto).
  destruct (ras_equations_linear _ _ _ Er (Z _)) as [L1 L2]. destruct (ras_equations_linear _ _ _ Er' (Z _)) as [L1' L2'].
  destruct (nznn_ok r L1 L2) as (f & Ef & Hf). destruct (nznn_ok r' L1' L2') as (f' & Ef' & Hf').
  assert (M : forall x, p_mem (r_sub r) x <-> p_mem (r_sub r') x).
  { intro x. rewrite Hm, Hm', (ceqs_dim _ _ _ _ H), (ceqs_dim _ _ _ _ H'), L, L', !vzero_tab, Et.
    rewrite (both_solves (fun _ => 0%Qc) (fun _ => 0%Qc) (fun _ => 0%Qc)); [reflexivity|apply fun_zero|reflexivity|reflexivity]. }
  assert (f = f') as <-.
  { assert (G : f = true <-> f' = true); [|destruct f, f'; intuition congruence]. rewrite Hf, Hf'. unfold nznn_spec.
    split; intros (x & Hx & R); exists x; (split; [apply M; exact Hx|exact R]). }
  do 5 eexists. repeat split; eassumption.
Qed.

Lemma both_saddle2 t m : bosh_no_saddle2 i b t m = bosh_no_saddle2 i' b' t m.
Proof.
  unfold bosh_no_saddle2, bosh_values. rewrite Et, Eb.
  destruct (next_label t (i_top i)) as [[t'|]|] eqn:Nt; try reflexivity.
  destruct (next_label m (i_bottom i)) as [[m'|]|] eqn:Nm; try reflexivity.
  rewrite (coord_map _ _ _ _ H), (coord_map _ _ _ _ H'). cbn [bind].
  rewrite (coord_translation _ _ _ _ H), (coord_translation _ _ _ _ H'), Et, Eb. cbn [bind]. rewrite !vneg_tab.
  set (F := fun X : label -> Qc => (- (before X (i_bottom i) m' - before X (i_top i) t'))%Qc).
  assert (HF : functional (i_top i) F).
  { apply (fun_ext _ _ _ (fun_sub _ _ _ (fun_before (i_top i) N (i_top i) t' (incl_refl _))
      (fun_before (i_top i) N (i_bottom i) m' (fun z Hz => Permutation_in _ (Permutation_sym P) Hz)))). intro X. unfold F. ring. }
  change (fun k => (- (before (coor cf k) (i_bottom i) m' - before (coor cf k) (i_top i) t'))%Qc) with (fun k => F (coor cf k)).
  change (fun k => (- (before (coor cf' k) (i_bottom i) m' - before (coor cf' k) (i_top i) t'))%Qc) with (fun k => F (coor cf' k)).
  assert (V : vis0 (tab d (fun k => F (coor cf k))) = vis0 (tab d' (fun k => F (coor cf' k)))).
  { assert (G : vis0 (tab d (fun k => F (coor cf k))) = true <-> vis0 (tab d' (fun k => F (coor cf' k))) = true).
    { rewrite !vis0_tab. apply (same_fun (i_top i) (coor cf) (coor cf') d d' Hrel F HF). }
    destruct (vis0 _), (vis0 _); intuition congruence. }
  rewrite V. destruct (vis0 (tab d' _)); [reflexivity|].
  rewrite (coord_equations _ _ _ _ H), (coord_equations _ _ _ _ H'). cbn [bind].
  destruct (ras_equations_ok (ceqs i cf d) (tab d (fun k => F (coor cf k)))) as (r & -> & _ & _ & Hm); [rewrite ceqs_length, tab_length; reflexivity|].
  destruct (ras_equations_ok (ceqs i' cf' d') (tab d' (fun k => F (coor cf' k)))) as (r' & -> & _ & _ & Hm'); [rewrite ceqs_length, tab_length; reflexivity|].
  cbn [bind]. do 2 f_equal.
  assert (G : has_nonneg r = true <-> has_nonneg r' = true); [|destruct (has_nonneg r), (has_nonneg r'); intuition congruence].
  rewrite !has_nonneg_ok.
  assert (M : forall x, p_mem (r_sub r) x <-> p_mem (r_sub r') x).
  { intro x. rewrite Hm, Hm', (ceqs_dim _ _ _ _ H), (ceqs_dim _ _ _ _ H'), Et.
    rewrite (both_solves (fun k => F (coor cf k)) (fun k => F (coor cf' k)) F HF); [reflexivity|reflexivity|reflexivity]. }
  split; intros (x & Hx & R); exists x; (split; [apply M; exact Hx|exact R]).
Qed.
End Both.
