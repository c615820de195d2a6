(** Proofs of the properties in [PropPrint]. *)
From Coq Require Import String Ascii NArith Reals Permutation.
From Verif Require Import Base QcTac LenT FM Subspace Lengths IET LenInst Decomp Misc Print Spec Api DecApi.
From Verif Require Import ZorichProof World DecompBudget ClaimsMisc PrintProof.
Open Scope nat_scope.

Lemma ok_inj {A} (a b : A) : Ok a = Ok b -> a = b.
Proof. intro H. injection H as H. exact H. Qed.

Lemma list2_length {A B} (R : A -> B -> Prop) l l' : Forall2 R l l' -> length l = length l'.
Proof. induction 1; cbn; congruence. Qed.

Lemma claim_C57_iet : forall (T : Type) (O : LenOps T) (W : LenLaws T) (show : T -> text),
  (forall (i : iet T) (s : slen T), obtainable i s -> exists t, print_iet show i s = Ok t) /\
  ((forall x, ~ In "]"%char (show x)) -> (forall x y, show x = show y -> x = y) ->
   forall (i i' : iet T) (s s' : slen T) t, print_iet show i s = Ok t -> print_iet show i' s' = Ok t ->
     i_top i = i_top i' /\ i_bottom i = i_bottom i' /\ forall l, In l (i_top i) -> sl_at s l = sl_at s' l).
Proof.
  intros T O W show. split.
  - intros i s H%obtainable_good. destruct H as ((_ & _ & _ & P & _) & _).
    eexists. apply (print_iet_ok show i s (fun l => match sl_at s l with Ok x => x | _ => l_zero end)).
    intros l Hl. destruct (P l Hl) as [x [Hx _]]. apply (sl_value s l_zero l x). apply sl_at_ok, Hx.
  - intros H1 H2 i i' s s' t. apply print_iet_inj; assumption.
Qed.

Lemma claim_C57_label : forall a b : label, print_label a = print_label b -> a = b.
Proof.
  exact print_label_inj.
Qed.

Lemma claim_C57_induce : forall (T : Type) (st st' : istep T), print_istep st = print_istep st' -> is_result st = is_result st'.
Proof.
  intros T [r ? ?] [r' ? ?]. unfold print_istep. cbn [is_result]. destruct r, r'; intro H; try reflexivity; vm_compute in H; discriminate.
Qed.

Lemma claim_C57_decomposition : forall (T : Type) (O : LenOps T) (W : LenLaws T),
  (forall (i : iet T) (s : slen T) tr d, decomposition i s tr d -> exists t, print_dec d = Ok t) /\
  (forall (i i' : iet T) (s s' : slen T) tr tr' d d' t, decomposition i s tr d -> decomposition i' s' tr' d' ->
     print_dec d = Ok t -> print_dec d' = Ok t ->
     length (d_comps d) = length (d_comps d') /\
     forall c, c < length (d_comps d) -> exists p, comp_perimeter d c = Ok p /\ comp_perimeter d' c = Ok p).
Proof.
  intros T O W. split.
  - intros i s tr d H. destruct (print_dec_ok i s tr d H) as (f & _ & E). eauto.
  - intros i i' s s' tr tr' d d' t H H' E E'.
    destruct (print_dec_ok i s tr d H) as (f & Hf & F), (print_dec_ok i' s' tr' d' H') as (f' & Hf' & F').
    rewrite F in E. rewrite F', <- E in E'. apply ok_inj in E'. symmetry in E'. clear E. rename E' into E. apply app_inv_head in E. apply comps_delim in E.
    assert (L : length (d_comps d) = length (d_comps d')) by (apply list2_length in E; rewrite !map_length, !seq_length in E; exact E).
    split; [exact L|]. intros c Hc. rewrite <- L in E, Hf'. exists (fst (f c) :: snd (f c)). split; [apply Hf, Hc|]. rewrite (Hf' c Hc). f_equal.
    assert (S : Forall2 shown (fst (f c) :: snd (f c)) (fst (f' c) :: snd (f' c))).
    { revert E. generalize (length (d_comps d)) Hc. clear. intros n Hc. assert (Q : forall k, k <= c < k + n -> Forall2 (fun p q : side * list side => Forall2 shown (fst p :: snd p) (fst q :: snd q)) (map f (seq k n)) (map f' (seq k n)) -> Forall2 shown (fst (f c) :: snd (f c)) (fst (f' c) :: snd (f' c))).
      { clear Hc. induction n as [|n IH]; intros k Hk E; [lia|]. cbn [seq map] in E. inversion E; subst. destruct (Nat.eq_dec c k) as [->|Ne]; [assumption|]. apply (IH (S k)); [lia|assumption]. }
      apply Q. lia. }
    destruct (perimeters _ _ _ _ _ H Hc) as (a & p & Ea & Ca). rewrite (Hf c Hc) in Ea. apply ok_inj in Ea.
    destruct (perimeters _ _ _ _ _ H' ltac:(rewrite <- L; exact Hc)) as (a' & p' & Ea' & Ca'). rewrite (Hf' c Hc) in Ea'. apply ok_inj in Ea'.
    rewrite <- Ea in Ca. rewrite <- Ea' in Ca'. revert S Ca Ca'. generalize (fst (f c) :: snd (f c)), (fst (f' c) :: snd (f' c)). clear.
    induction 1 as [|x y l l' Hxy _ IH]; intros Ca Ca'; [reflexivity|].
    f_equal; [|apply IH; intros e He; [apply (Ca e)|apply (Ca' e)]; right; exact He].
    destruct x as [k|e], y as [k'|e']; cbn [shown] in Hxy; try contradiction; [congruence|].
    specialize (Ca e (or_introl eq_refl)). specialize (Ca' e' (or_introl eq_refl)). destruct e as [u1 u2 u3], e' as [v1 v2 v3]. cbn in *. destruct Hxy as [-> ->]. rewrite Ca, Ca'. reflexivity.
Qed.

Lemma dstep_form : forall (T : Type) (O : LenOps T) (W : LenLaws T) (i : iet T) (s : slen T) tr d st t,
  decomposition i s tr d -> In st tr -> print_dstep d st = Ok t ->
  match dst_result st with
  | D_SEPARATING_CONNECTION => exists k y, dst_connection st = Some k /\ t = txt "SEPARATING_CONNECTION(" ++ enc_conn k ++ y
  | D_NON_SEPARATING_CONNECTION => exists k y, dst_connection st = Some k /\ t = txt "NON_SEPARATING_CONNECTION(" ++ enc_conn k ++ y
  | D_LIMIT_REACHED => dst_connection st = None /\ t = txt "LIMIT_REACHED"
  | D_CYLINDER => dst_connection st = None /\ t = txt "CYLINDER"
  | D_KEANE => dst_connection st = None /\ t = txt "KEANE"
  | D_WITHOUT_PERIODIC_TRAJECTORY_BOSHERNITZAN => dst_connection st = None /\ t = txt "WITHOUT_PERIODIC_TRAJECTORY_BOSHERNITZAN"
  | D_WITHOUT_PERIODIC_TRAJECTORY_AUTO_SIMILAR => dst_connection st = None /\ t = txt "WITHOUT_PERIODIC_TRAJECTORY_AUTO_SIMILAR"
  end.
Proof.
  intros T O W i s tr d st t H Hs E. pose proof (proj1 (Forall_forall _ _) (steps_fine _ _ _ _ H) st Hs) as F. pose proof (comps_nonempty _ _ _ _ H) as Ne.
  unfold dstep_fine in F. unfold print_dstep in E. destruct (dst_result st); try (split; [apply F|injection E as <-; reflexivity]).
  - destruct F as (k & c & F1 & F2 & _). rewrite F1, F2, print_conn_ok in E by exact Ne. cbn [bind] in E. apply bind_ok in E as (y & _ & E). apply ok_inj in E. subst t. eauto.
  - destruct F as (k & F1 & _). rewrite F1, print_conn_ok in E by exact Ne. cbn [bind] in E. apply ok_inj in E. subst t. eauto.
Qed.

Lemma claim_C57_step : forall (T : Type) (O : LenOps T) (W : LenLaws T),
  (forall (i : iet T) (s : slen T) tr d st, decomposition i s tr d -> In st tr -> exists t, print_dstep d st = Ok t) /\
  (forall (i i' : iet T) (s s' : slen T) tr tr' d d' st st' t, decomposition i s tr d -> decomposition i' s' tr' d' -> In st tr -> In st' tr' ->
     print_dstep d st = Ok t -> print_dstep d' st' = Ok t ->
     dst_result st = dst_result st' /\ dst_connection st = dst_connection st').
Proof.
  intros T O W. split.
  - intros i s tr d st H Hs. pose proof (proj1 (Forall_forall _ _) (steps_fine _ _ _ _ H) st Hs) as F. pose proof (comps_nonempty _ _ _ _ H) as Ne.
    unfold dstep_fine in F. unfold print_dstep. destruct (dst_result st); eauto.
    + destruct F as (k & c & -> & -> & Hc). rewrite print_conn_ok by exact Ne. destruct (perimeters _ _ _ _ _ H Hc) as (a & p & E & _).
      rewrite (print_comp_ok _ _ _ Ne E). cbn [bind]. eauto.
    + destruct F as (k & -> & _). rewrite print_conn_ok by exact Ne. cbn [bind]. eauto.
  - intros i i' s s' tr tr' d d' st st' t H H' Hs Hs' E E'.
    pose proof (dstep_form T O W _ _ _ _ _ _ H Hs E) as F. pose proof (dstep_form T O W _ _ _ _ _ _ H' Hs' E') as F'. clear E E'.
    destruct (dst_result st), (dst_result st').
    all: try (destruct F as [-> F], F' as [-> F']; rewrite F in F'; first [discriminate|auto]).
    all: try (destruct F as [-> F], F' as (k' & y' & -> & F'); rewrite F in F'; discriminate).
    all: try (destruct F as (k & y & -> & F), F' as [-> F']; rewrite F in F'; discriminate).
    all: destruct F as (k & y & -> & F), F' as (k' & y' & -> & F'); rewrite F in F'; try discriminate.
    all: split; [reflexivity|]; apply app_inv_head in F'; destruct (conn_delim _ _ _ _ I I F') as [-> _]; reflexivity.
Qed.

