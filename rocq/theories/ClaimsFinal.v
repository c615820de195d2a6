(** Proofs of the properties in [PropFinal]. *)
From Coq Require Import Reals Lra Lia Permutation QArith Qcanon List ZArith Classical.
From Verif Require Import Base QcTac LenT FM Subspace Lengths IET LenInst Sqrt2 Cubic Decomp Spec SpecDec SpecLin Api DecApi FinalApi Fixtures DecFixtures.
From Verif Require Import ZorichProof Dyn Path Saf Bosh Saddle Direct Similar InduceProof InduceCons World Seq DecompInv DecompMore DecompCons DecompRef DecompStep DecompAll DecompBudget RankDec Ends EndsDec IndepDec Final.
From Verif Require Import ClaimsSaf ClaimsInduce ClaimsDecomp ClaimsKeane ClaimsIndep.
Open Scope nat_scope.

Section Aux.
Context {T : Type} {O : LenOps T} {W : LenLaws T}.

Lemma answer_unbalanced (i : iet T) s k : good i s -> bosh_no_periodic i s = Ok (true, k) -> ~ balanced (exch_of i s).
Proof.
  intros (H & C & _) E. destruct (bosh_no_periodic_ok i s H C) as (b & v & Q & _ & Hb). rewrite Q in E. injection E as -> _. apply Hb. reflexivity.
Qed.
Lemma unbalanced_answer (i : iet T) s : good i s -> ~ balanced (exch_of i s) -> exists k, bosh_no_periodic i s = Ok (true, k).
Proof.
  intros (H & C & _) B. destruct (bosh_no_periodic_ok i s H C) as (b & v & Q & _ & Hb). exists (set_saf i (Some v)). rewrite Q.
  rewrite (proj2 Hb B). reflexivity.
Qed.
Lemma answer_unconnectable (i : iet T) s : good i s -> bosh_no_saddle i s = Ok true -> 2 <= length (i_top i) /\ unconnectable (exch_of i s).
Proof.
  intros (H & _) E. destruct (bosh_no_saddle_ok i s H) as (r & Q & Hr). rewrite Q in E. injection E as ->. destruct (proj1 Hr eq_refl) as (L & U).
  split; [exact L|]. exact U.
Qed.
Lemma unconnectable_answer (i : iet T) s : good i s -> 2 <= length (i_top i) -> unconnectable (exch_of i s) -> bosh_no_saddle i s = Ok true.
Proof.
  intros (H & _) L U. destruct (bosh_no_saddle_ok i s H) as (r & Q & Hr). rewrite Q. f_equal. apply Hr. split; [exact L|]. exact U.
Qed.

(** The members of a family keep to their own labels. *)
Lemma family_world (i : iet T) s l t : good i s -> family i s l t ->
  (forall j, In j l -> good j t) /\ NoDup (used l).
Proof.
  intros G F. induction F as [|l1 j l2 t o j' extra t' F (Hg & Nd) Ho E].
  - split; [intros j [<-|[]]; exact G|]. simpl. rewrite app_nil_r. apply G.
  - assert (Gj : good j t) by (apply Hg, in_elt).
    destruct (op_ok o j t Gj Ho) as [Fa|(j1 & ex & t1 & Q & Ef)].
    { exfalso. rewrite E in Fa. destruct o; cbn [failure] in Fa; try contradiction; destruct Fa as [(Fa & _)|(Fa & _)]; discriminate. }
    rewrite Q in E. injection E as -> -> ->. destruct Ef as [Eg En Ei El Efr].
    rewrite used_app, used_cons in Nd.
    assert (Sep : forall y, In y (l1 ++ l2) -> forall c, In c (i_top y) -> ~ In c (i_top j)).
    { intros y Hy c Hc Hj. assert (In c (used l1) \/ In c (used l2)).
      { apply in_app_or in Hy as [Hy|Hy]; [left|right]; apply in_flat_map; eauto. }
      clear -Nd H Hj. revert Nd H Hj. generalize (used l1) (i_top j) (used l2). intros A B C N H Hj.
      destruct H as [H|H].
      - apply in_split in H as (X & Y & ->). rewrite <- app_assoc in N. simpl in N. apply NoDup_remove_2 in N. apply N. rewrite !in_app_iff. auto.
      - apply in_split in Hj as (X & Y & ->). rewrite <- app_assoc in N. simpl in N. rewrite app_assoc in N. apply NoDup_remove_2 in N. apply N. rewrite !in_app_iff. auto. }
    assert (Stk : sl_stack t' = []) by (apply (Eg j'); left; reflexivity).
    split.
    + intros y Hy. assert (C : In y (j' :: extra) \/ In y (l1 ++ l2)).
      { apply in_app_or in Hy as [Hy|Hy]; [right; apply in_or_app; auto|]. destruct Hy as [Hy|Hy]; [left; left; exact Hy|].
        apply in_app_or in Hy as [Hy|Hy]; [left; right; exact Hy|right; apply in_or_app; auto]. }
      destruct C as [C|C]; [exact (Eg y C)|]. apply (good_frame y t t'); auto.
      * apply Hg. apply in_app_or in C as [C|C]; apply in_or_app; [auto|right; right; exact C].
      * intros c Hc. apply Efr. exact (Sep y C c Hc).
    + rewrite used_app. change (j' :: extra ++ l2) with ((j' :: extra) ++ l2). rewrite used_app.
      revert Nd En Ei. generalize (used l1) (used l2) (used (j' :: extra)) (i_top j). clear. intros A C B' B N N' I.
      apply (Permutation_NoDup (l := B' ++ A ++ C)); [rewrite !app_assoc; apply Permutation_app_tail, Permutation_app_comm|].
      assert (N2 : NoDup (B ++ A ++ C)) by (refine (Permutation_NoDup _ N); rewrite !app_assoc; apply Permutation_app_tail, Permutation_app_comm).
      clear N. induction N' as [|b B' Hb N' IH]; simpl.
      * clear I. induction B as [|b B IH]; [exact N2|]. apply IH. simpl in N2. inversion N2; assumption.
      * constructor; [|apply IH; intros c Hc; apply I; right; exact Hc]. rewrite in_app_iff. intros [H|H]; [contradiction|].
        specialize (I b (or_introl eq_refl)). apply in_split in I as (X & Y & ->). rewrite <- app_assoc in N2. simpl in N2. apply NoDup_remove_2 in N2.
        apply N2. rewrite !in_app_iff in *. tauto.
Qed.
Lemma family_other (i : iet T) s l1 j l2 t o j' extra t' : good i s -> family i s (l1 ++ j :: l2) t -> op_legal o -> run_op o j t = Ok (j', extra, t') ->
  forall y, In y (l1 ++ l2) -> agree (exch_of y t) (exch_of y t').
Proof.
  intros G F Ho E y Hy. destruct (family_world i s _ t G F) as (Hg & Nd).
  assert (Gj : good j t) by (apply Hg, in_elt).
  assert (Gy : good y t) by (apply Hg; apply in_app_or in Hy as [C|C]; apply in_or_app; [auto|right; right; exact C]).
  destruct (op_ok o j t Gj Ho) as [Fa|(j1 & ex & t1 & Q & Ef)].
  { exfalso. rewrite E in Fa. destruct o; cbn [failure] in Fa; try contradiction; destruct Fa as [(Fa & _)|(Fa & _)]; discriminate. }
  rewrite Q in E. injection E as -> -> ->. destruct Ef as [Eg En Ei El Efr].
  rewrite used_app, used_cons in Nd.
  assert (Fr : forall c, In c (i_top y) -> lamR t c = lamR t' c).
  { intros c Hc. symmetry. apply lamR_agree, Efr. intro Hj. assert (In c (used l1) \/ In c (used l2)).
    { apply in_app_or in Hy as [Hy|Hy]; [left|right]; apply in_flat_map; eauto. }
    clear -Nd H Hj. revert Nd H Hj. generalize (used l1) (i_top j) (used l2). intros A B C N H Hj.
    destruct H as [H|H].
    - apply in_split in H as (X & Y & ->). rewrite <- app_assoc in N. simpl in N. apply NoDup_remove_2 in N. apply N. rewrite !in_app_iff. auto.
    - apply in_split in Hj as (X & Y & ->). rewrite <- app_assoc in N. simpl in N. rewrite app_assoc in N. apply NoDup_remove_2 in N. apply N. rewrite !in_app_iff. auto. }
  split; [reflexivity|]. split; [reflexivity|]. cbn [exch_of e_top e_bot e_len]. intros c [Hc|Hc]; apply Fr; [exact Hc|].
  apply (Permutation_in _ (Permutation_sym (proj1 (proj2 (proj1 Gy))))), Hc.
Qed.
Lemma in_member (l1 l2 extra : list (iet T)) j' y : In y (l1 ++ j' :: extra ++ l2) -> In y (j' :: extra) \/ In y (l1 ++ l2).
Proof.
  intro Hy. apply in_app_or in Hy as [Hy|Hy]; [right; apply in_or_app; auto|]. destruct Hy as [Hy|Hy]; [left; left; exact Hy|].
  apply in_app_or in Hy as [Hy|Hy]; [left; right; exact Hy|right; apply in_or_app; auto].
Qed.
Lemma family_unbalanced (i : iet T) s l t : good i s -> ~ balanced (exch_of i s) -> family i s l t -> forall j, In j l -> ~ balanced (exch_of j t).
Proof.
  intros G B F. induction F as [|l1 j l2 t o j' extra t' F IH Ho E].
  - intros j [<-|[]]. exact B.
  - intros y Hy. apply in_member in Hy as [Hy|Hy].
    + refine (op_unbalanced o j t j' extra t' _ Ho E _ y Hy); [apply (family_world i s _ t G F), in_elt|apply IH, in_elt].
    + apply (unb_agree _ _ (family_other i s l1 j l2 t o j' extra t' G F Ho E y Hy)), IH.
      apply in_app_or in Hy as [C|C]; apply in_or_app; [auto|right; right; exact C].
Qed.
End Aux.
Lemma claim_C95_periodic : forall (T : Type) (O : LenOps T) (W : LenLaws T) (i : iet T) (s : slen T) k l t j,
  obtainable i s -> bosh_no_periodic i s = Ok (true, k) -> family i s l t -> In j l ->
  exists k', bosh_no_periodic j t = Ok (true, k').
Proof.
  intros T O W i s k l t j H%obtainable_good E F Hj. apply unbalanced_answer; [apply (family_world i s l t H F), Hj|].
  exact (family_unbalanced i s l t H (answer_unbalanced i s k H E) F j Hj).
Qed.

Lemma claim_C95_saddle : forall (T : Type) (O : LenOps T) (W : LenLaws T) (i : iet T) (s : slen T) l t,
  obtainable i s -> bosh_no_saddle i s = Ok true -> family i s l t ->
  exists j, l = [j] /\ length (i_top j) = length (i_top i) /\ bosh_no_saddle j t = Ok true.
Proof.
  intros T O W i s l t H%obtainable_good E F. destruct (answer_unconnectable i s H E) as (L & U).
  assert (Q : exists j, l = [j] /\ length (i_top j) = length (i_top i) /\ unconnectable (exch_of j t)).
  { induction F as [|l1 j l2 t o j' extra t' F (j0 & El & Lj & Uj) Ho Er]; [eauto|].
    destruct l1 as [|? [|? ?]]; try discriminate. injection El as -> ->.
    destruct (op_unconnectable o j0 t j' extra t') as (-> & L' & U'); auto.
    { apply (family_world i s _ t H F). left. reflexivity. }
    exists j'. split; [reflexivity|]. split; [congruence|exact U']. }
  destruct Q as (j & -> & Lj & Uj). exists j. split; [reflexivity|]. split; [exact Lj|].
  apply unconnectable_answer; [apply (family_world i s _ t H F); left; reflexivity|lia|exact Uj].
Qed.

Lemma claim_C95_pair : forall (T : Type) (O : LenOps T) (W : LenLaws T) (i : iet T) (s : slen T) o i' extra s' j t b,
  obtainable i s -> op_legal o -> o <> op_swap -> run_op o i s = Ok (i', extra, s') -> In j (i' :: extra) ->
  not_last (i_top j) t -> not_last (i_bottom j) b ->
  bosh_no_saddle2 i s t b = Ok true -> bosh_no_saddle2 j s' t b = Ok true.
Proof.
  intros T O W i s o i' extra s' j t b H%obtainable_good Ho No E Hj Ht Hb A.
  pose proof (op_inherits o i s i' extra s' H Ho No E j Hj) as I. pose proof (op_good o i s i' extra s' H Ho E j Hj) as Gj.
  destruct (bosh_no_saddle2_ok i s t b (proj1 H) (in_top _ _ I t Ht) (in_bot _ _ I b Hb)) as (r & Q & Hr). rewrite Q in A. injection A as ->.
  destruct (bosh_no_saddle2_ok j s' t b (proj1 Gj) Ht Hb) as (r & Q' & Hr'). rewrite Q'. f_equal. apply Hr'. intro C.
  apply (proj1 Hr eq_refl). exact (in_connectable _ _ I b t C).
Qed.

Lemma claim_C95_swap : forall (T : Type) (O : LenOps T) (W : LenLaws T) (i : iet T) (s : slen T) t b,
  obtainable i s -> not_last (i_top i) t -> not_last (i_bottom i) b ->
  bosh_no_saddle2 (iet_swap i) s b t = bosh_no_saddle2 i s t b.
Proof.
  intros T O W i s t b H%obtainable_good Ht Hb.
  destruct (bosh_no_saddle2_ok i s t b (proj1 H) Ht Hb) as (r & Q & Hr). rewrite Q.
  destruct (bosh_no_saddle2_ok (iet_swap i) s b t (proj1 (good_swap i s H)) Hb Ht) as (r' & Q' & Hr'). rewrite Q'. f_equal.
  rewrite swap_exch, (flip_connectable _ _ _ (wf_proper _ _ (proj1 H))) in Hr'.
  destruct r, r'; try reflexivity; [apply Hr', Hr; reflexivity|symmetry; apply Hr, Hr'; reflexivity].
Qed.

Lemma claim_C95_induce : forall (T : Type) (O : LenOps T) (W : LenLaws T) (i : iet T) (s : slen T) k fuel limit st j t,
  obtainable i s -> bosh_no_periodic i s = Ok (true, k) -> (- INT_MAX - 1 <= limit <= INT_MAX)%Z ->
  induce sample_lens fuel limit i s = Ok (st, j, t) ->
  is_result st = SEPARATING_CONNECTION \/ is_result st = NON_SEPARATING_CONNECTION \/
  is_result st = WITHOUT_PERIODIC_TRAJECTORY_BOSHERNITZAN /\ limit <> (-1)%Z.
Proof.
  intros T O W i s k fuel limit st j t H%obtainable_good A HL E. pose proof (answer_unbalanced i s k H A) as B. pose proof (proj1 H) as Wf.
  pose proof (induce_ok limit fuel i s (proj2 HL) H) as [(Q & _)|[(Q & _)|(st' & j' & t' & Q & Hg1 & P)]]; rewrite Q in E; try discriminate.
  injection E as -> -> ->. unfold induce_post in P. destruct (is_result st) eqn:Er; auto.
  - destruct P as (_ & R & _ & _ & B' & _). exfalso. apply B. exact (in_balanced _ _ (reach_inherits _ _ _ _ Wf R) B').
  - destruct P as (Hs & _). exfalso. apply B. apply single_balanced; assumption.
  - destruct P as (_ & _ & _ & _ & _ & Hl & _). auto.
  - exfalso. apply B. apply (saf_balanced i s Wf). exact (similar_saf fuel limit i s st j t H (proj2 HL) Q Er).
Qed.

Lemma claim_C95_steps : forall (T : Type) (O : LenOps T) (W : LenLaws T) (i : iet T) (s : slen T) k tr d,
  bosh_no_periodic i s = Ok (true, k) -> decomposition i s tr d ->
  (forall st, In st tr -> dst_result st = D_SEPARATING_CONNECTION \/ dst_result st = D_NON_SEPARATING_CONNECTION \/
     dst_result st = D_WITHOUT_PERIODIC_TRAJECTORY_BOSHERNITZAN) /\
  (forall x, In x (d_comps d) -> dc_cylinder x <> Some true /\ exists k', bosh_no_periodic (dc_iet x) (d_len d) = Ok (true, k')).
Proof.
  intros T O W i s k tr d A H. pose proof (obtainable_good i s (history_start _ _ _ _ H)) as G. pose proof (answer_unbalanced i s k G A) as B.
  assert (Q : dec_ok (exch_of i s) d /\ allP unb d /\ (forall y, In y (d_comps d) -> dc_cylinder y <> Some true) /\ (forall st, In st tr -> settled (dst_result st))).
  { clear A G. induction H as [d Hi E|tr d fuel limit c st d' H (D & U & Cy & Ht) HL Hc E].
    - destruct (made_ok i s d Hi E) as (D & _ & El & Ec & _). split; [exact D|]. split; [|split; [|intros st []]].
      + intros y Hy. rewrite Ec in Hy. destruct Hy as [<-|[]]. cbn [dc_iet]. rewrite El. exact B.
      + intros y Hy. rewrite Ec in Hy. destruct Hy as [<-|[]]. cbn. discriminate.
    - destruct (step_history_post i s tr d fuel limit c st d' H HL Hc E) as (C1 & x & C2 & Ec & <- & P).
      assert (Hx : In x (d_comps d)) by (rewrite Ec; apply in_elt).
      destruct (unb_result (exch_of i s) d C1 x C2 fuel limit st d' D Ec HL E P (U x Hx)) as (Se & Cy').
      split; [exact (sp_ok _ _ _ _ _ _ _ P)|]. split; [exact (unb_allP _ _ _ _ _ _ _ D Ec P U)|]. split; [exact (Cy' Cy)|].
      intros st' Hin. apply in_app_or in Hin as [Hin|[<-|[]]]; [exact (Ht _ Hin)|exact Se]. }
  destruct Q as (D & U & Cy & Ht). split; [exact Ht|]. intros x Hx. split; [exact (Cy x Hx)|].
  apply unbalanced_answer; [apply (dk_good _ _ D x Hx)|exact (U x Hx)].
Qed.

Lemma claim_C95_decompose : forall (T : Type) (O : LenOps T) (W : LenLaws T) (i : iet T) (s : slen T) k d rounds fuel limit,
  obtainable i s -> bosh_no_periodic i s = Ok (true, k) -> dec_make i s = Ok d ->
  (limit <= INT_MAX)%Z -> length (i_top i) < rounds -> length (i_top i) < fuel -> (limit < Z.of_nat fuel)%Z ->
  exists d', decompose rounds fuel default_target limit d = Ok (true, d') /\
    forall x, In x (d_comps d') -> dc_wpt x = Some true /\ dc_cylinder x <> Some true.
Proof.
  intros T O W i s k d rounds fuel limit H A E HL Hr Hf HF. pose proof (answer_unbalanced i s k (obtainable_good i s H) A) as B.
  destruct (made_ok i s d H E) as (D & _ & El & Ec & _).
  assert (U : allP unb d). { intros y Hy. rewrite Ec in Hy. destruct Hy as [<-|[]]. cbn [dc_iet]. rewrite El. exact B. }
  assert (Cy : forall y, In y (d_comps d) -> dc_cylinder y <> Some true). { intros y Hy. rewrite Ec in Hy. destruct Hy as [<-|[]]. cbn. discriminate. }
  assert (K : length (d_keys d) = length (i_top i)) by (rewrite (dk_keys _ _ D); reflexivity).
  destruct (unb_decompose (exch_of i s) fuel limit rounds d HL HF D) as (d' & Q); auto; try (rewrite K; assumption).
  exists d'. split; [exact Q|]. destruct (decompose_true (exch_of i s) fuel default_target limit rounds d true d' HL D) as (_ & D' & U' & Cy'); auto; try (rewrite K; assumption).
  specialize (Cy' Cy).
  destruct (decompose_ok (exch_of i s) rounds fuel default_target limit d HL D ltac:(rewrite K; exact Hf)) as [Q'|[(Q' & _)|(ok' & d1 & tr & Q' & _ & _ & _ & _ & Tg & _)]]; rewrite Q in Q'; try discriminate.
  injection Q' as <- <-. intros x Hx. split; [|exact (Cy' x Hx)].
  specialize (Tg eq_refl x Hx). apply default_view in Tg as [Tg|Tg]; [|exact Tg]. contradiction (Cy' x Hx).
Qed.

Lemma claim_C95_targets : forall (T : Type) (O : LenOps T) (W : LenLaws T) (i : iet T) (s : slen T) k d rounds fuel limit target ok d',
  obtainable i s -> bosh_no_periodic i s = Ok (true, k) -> dec_make i s = Ok d ->
  (limit <= INT_MAX)%Z -> length (i_top i) < fuel ->
  decompose rounds fuel target limit d = Ok (ok, d') -> ok = true.
Proof.
  intros T O W i s k d rounds fuel limit target ok d' H A E HL Hf Q. pose proof (answer_unbalanced i s k (obtainable_good i s H) A) as B.
  destruct (made_ok i s d H E) as (D & _ & El & Ec & _).
  assert (U : allP unb d). { intros y Hy. rewrite Ec in Hy. destruct Hy as [<-|[]]. cbn [dc_iet]. rewrite El. exact B. }
  destruct (decompose_true (exch_of i s) fuel target limit rounds d ok d' HL D) as (R & _); auto. rewrite (dk_keys _ _ D). exact Hf.
Qed.

(** Two rotations by different angles; a cylinder and a rotation. *)
Definition ng_iet : iet q2 := fresh [0; 1; 2] [0; 2; 1].
Definition fn_lens : slen q2 := mkslen [] [q2_of 0 1; q2_of 1 0; q2_of 0 1; q2_of 2 0].
Definition fn_iet : iet q2 := fresh [0; 1; 2; 3] [1; 0; 3; 2].
Lemma fn_obtainable : obtainable fn_iet fn_lens.
Proof. apply fresh_obtainable. vm_compute. reflexivity. Qed.
Lemma ng_obtainable : obtainable ng_iet fn_lens.
Proof. apply fresh_obtainable. vm_compute. reflexivity. Qed.
