(** decompose(): what it establishes, when it terminates, and the histories of a decomposition. *)
From Coq Require Import Reals Permutation Lia Lra.
From Verif Require Import Base QcTac LenT FM Subspace Lengths IET Api ZorichProof ReduceProof Saf Bosh InduceProof InduceCons World Seq.
From Verif Require Import Spec Dyn Path Direct Decomp DecompSim DecompInv DecompRef DecompNav DecompStep.
Open Scope nat_scope.

Section All.
Context {T : Type} {O : LenOps T} {W : LenLaws T}.

(** ** The view of a component *)

Definition view_of (d : decomp T) (x : dcomp T) : cview T :=
  let i := dc_iet x in
  mkcview (map (fun l => (l, lft d l true, rgt d l true)) (i_top i))
          (map (fun l => (l, lft d l false, rgt d l false)) (i_bottom i))
          (map (lamT (d_len d)) (i_top i)) (dc_cylinder x) (dc_wpt x) (dc_keane x).

Lemma mapM_map {A B C} (f : A -> B) (g : B -> res C) (h : A -> C) l : (forall a, In a l -> g (f a) = Ok (h a)) ->
  mapM g (map f l) = Ok (map h l).
Proof.
  induction l as [|a l IH]; intro H; [reflexivity|]. cbn [map mapM]. rewrite (H a (or_introl eq_refl)). cbn [bind].
  rewrite IH by (intros; apply H; right; assumption). reflexivity.
Qed.

Lemma comp_view_ok e0 d C1 x C2 : dec_ok e0 d -> d_comps d = C1 ++ x :: C2 -> comp_view d (length C1) = Ok (view_of d x).
Proof.
  intros H E. assert (Hx : In x (d_comps d)) by (rewrite E; apply in_middle; auto).
  destruct (dk_good _ _ H x Hx) as [Gx Sw]. pose proof Gx as ((ND & Pe & _ & Hp) & _).
  pose proof (comp_at_mid d C1 x C2 E) as Ca.
  assert (K : incl (i_top (dc_iet x)) (d_keys d)) by (intros l Hl; eapply dk_label; eassumption).
  unfold comp_view. rewrite Ca. cbn [bind].
  rewrite (top_contour_ok d _ x Ca Sw), (bottom_contour_ok d _ x Ca Sw). cbn [bind].
  rewrite (mapM_map (fun l => mkhe (length C1) l true) _ (fun l => (l, lft d l true, rgt d l true))).
  2:{ intros l Hl. rewrite he_left_ok, he_right_ok by (apply K; exact Hl). reflexivity. }
  cbn [bind].
  rewrite (mapM_map (fun l => mkhe (length C1) l false) _ (fun l => (l, lft d l false, rgt d l false))).
  2:{ intros l Hl. rewrite he_left_ok, he_right_ok by (apply K, (Permutation_in _ (Permutation_sym Pe)); exact Hl). reflexivity. }
  cbn [bind].
  rewrite (mapM_map (fun l => mkhe (length C1) l true) _ (lamT (d_len d))).
  2:{ intros l Hl. cbn [he_label]. destruct Hp as [Hp _]. unfold sl_at, lamT. 
      destruct (Hp l Hl) as (v & Ev & _). rewrite Ev. reflexivity. }
  reflexivity.
Qed.

Lemma view_frame (d d' : decomp T) x : Permutation (i_top (dc_iet x)) (i_bottom (dc_iet x)) ->
  (forall l, In l (i_top (dc_iet x)) -> nth_error (sl_lens (d_len d')) l = nth_error (sl_lens (d_len d)) l) ->
  (forall l, In l (i_top (dc_iet x)) -> d_conns d' l = d_conns d l) -> view_of d' x = view_of d x.
Proof.
  intros Pe HL HC. unfold view_of. f_equal.
  - apply map_ext_in. intros l Hl. unfold lft, rgt. rewrite HC by exact Hl. reflexivity.
  - apply map_ext_in. intros l Hl. unfold lft, rgt. rewrite HC by (apply (Permutation_in _ (Permutation_sym Pe)); exact Hl). reflexivity.
  - apply map_ext_in. intros l Hl. unfold lamT. rewrite HL by exact Hl. reflexivity.
Qed.

(** ** Labels of the result of a step *)

Lemma merge_labels e e' : merge_step e e' -> incl (e_top e') (e_top e) /\ length (e_top e) = Datatypes.S (length (e_top e')).
Proof.
  intros (a & b & X & Y1 & Y2 & Et & Eb & El & Et' & _). rewrite Et, Et'. split; [|reflexivity]. intros l Hl. right. exact Hl.
Qed.

Lemma in_firstn {A} k (l : list A) x : In x (firstn k l) -> In x l.
Proof. intro H. rewrite <- (firstn_skipn k l). apply in_or_app. auto. Qed.
Lemma in_skipn {A} k (l : list A) x : In x (skipn k l) -> In x l.
Proof. intro H. rewrite <- (firstn_skipn k l). apply in_or_app. auto. Qed.

(** What one step makes of component [x]: the new state of the component and, maybe, one more. *)
Lemma step_shape e0 d C1 x C2 st d' : dec_ok e0 d -> d_comps d = C1 ++ x :: C2 -> step_post e0 d C1 x C2 st d' ->
  exists y extra, d_comps d' = C1 ++ y :: C2 ++ extra /\
    (forall z, In z (y :: extra) -> incl (i_top (dc_iet z)) (i_top (dc_iet x))) /\
    match dst_additional st with
    | None => extra = [] /\ dst_result st <> D_SEPARATING_CONNECTION
    | Some c' => c' = length (d_comps d) /\ dst_result st = D_SEPARATING_CONNECTION /\
                 exists z, extra = [z] /\ i_size (dc_iet z) < i_size (dc_iet x) /\ i_size (dc_iet y) < i_size (dc_iet x)
    end /\
    (dst_result st = D_NON_SEPARATING_CONNECTION -> i_size (dc_iet y) < i_size (dc_iet x)) /\
    (i_size (dc_iet y) <= i_size (dc_iet x)).
Proof.
  intros H E P. pose proof (sp_case _ _ _ _ _ _ _ P) as Q.
  assert (Hx : In x (d_comps d)) by (rewrite E; apply in_middle; auto).
  destruct (dk_good _ _ H x Hx) as [Gx Sw]. pose proof (proj1 Gx) as Wx.
  assert (RL : forall i' s', reach (dc_iet x) (d_len d) i' s' -> Permutation (i_top (dc_iet x)) (i_top i')).
  { intros i' s' R. exact (reach_labels _ _ _ _ Wx R). }
  assert (RI : forall i' s', reach (dc_iet x) (d_len d) i' s' -> incl (i_top i') (i_top (dc_iet x))).
  { intros i' s' R l Hl. apply (Permutation_in _ (Permutation_sym (RL _ _ R))). exact Hl. }
  assert (RS : forall i' s', reach (dc_iet x) (d_len d) i' s' -> i_size i' = i_size (dc_iet x)).
  { intros i' s' R. symmetry. exact (Permutation_length (RL _ _ R)). }
  unfold dstep_post in Q. destruct (dst_result st) eqn:Er.
  - destruct Q as (i' & Ec & R & _ & _ & _ & _ & ->). exists (iet_set x i'), []. rewrite app_nil_r. split; [exact Ec|].
    split; [intros z [<-|[]]; exact (RI _ _ R)|]. split; [split; [reflexivity|discriminate]|]. split; [discriminate|].
    simpl. rewrite (RS _ _ R). lia.
  - destruct Q as (i' & Hs & Ec & Ht & Hb & _ & _ & ->). eexists; exists []. rewrite app_nil_r. split; [exact Ec|].
    split; [intros z [<-|[]]; cbn [dc_iet]; rewrite Ht; apply incl_refl|]. split; [split; [reflexivity|discriminate]|]. split; [discriminate|].
    cbn [dc_iet]. unfold i_size. rewrite Ht. lia.
  - destruct Q as (i1 & k & b & t & w & R & [Hk _] & _ & Ec & _ & ->). eexists; eexists. split; [exact Ec|].
    pose proof (RS _ _ R) as Hsz. change (length (e_top (exch_of i1 (d_len d')))) with (i_size i1) in Hk.
    split; [|split; [|split]].
    + intros z [<-|[<-|[]]]; intros l Hl; apply (RI _ _ R); [eapply in_firstn|eapply in_skipn]; exact Hl.
    + cbn [dst_additional]. split; [reflexivity|]. split; [exact Er|]. eexists. split; [reflexivity|].
      unfold i_size in *. simpl. rewrite firstn_length, skipn_length. lia.
    + discriminate.
    + unfold i_size in *. simpl. rewrite firstn_length. lia.
  - destruct Q as (i1 & i' & b & t & w & R & M & _ & Ec & _ & ->). exists (iet_set x i'), []. rewrite app_nil_r. split; [exact Ec|].
    destruct (merge_labels _ _ M) as [ML MS]. pose proof (RS _ _ R) as Hsz. unfold i_size in *. simpl in MS, ML.
    split; [intros z [<-|[]] l Hl; apply (RI _ _ R), ML, Hl|]. split; [split; [reflexivity|discriminate]|]. simpl. split; [intros _|]; lia.
  - destruct Q as (i' & Ec & R & _ & _ & _ & _ & ->). eexists; exists []. rewrite app_nil_r. split; [exact Ec|].
    split; [intros z [<-|[]]; exact (RI _ _ R)|]. split; [split; [reflexivity|discriminate]|]. split; [discriminate|].
    cbn [dc_iet]. rewrite (RS _ _ R). lia.
  - destruct Q as (i' & Ec & R & _ & _ & ->). eexists; exists []. rewrite app_nil_r. split; [exact Ec|].
    split; [intros z [<-|[]]; exact (RI _ _ R)|]. split; [split; [reflexivity|discriminate]|]. split; [discriminate|].
    cbn [dc_iet]. rewrite (RS _ _ R). lia.
  - contradiction.
Qed.

(** ** decompose() *)

Record change (e0 : exch) (d : decomp T) C1 (x : dcomp T) C2 y extra (d' : decomp T) : Prop := {
  cg_ok : dec_ok e0 d';
  cg_comps : d_comps d' = C1 ++ y :: C2 ++ extra;
  cg_labels : forall z, In z (y :: extra) -> incl (i_top (dc_iet z)) (i_top (dc_iet x));
  cg_asteps : asteps (pieces d) (d_conns d) (pieces d') (d_conns d');
  cg_lens : forall l, ~ In l (i_top (dc_iet x)) -> nth_error (sl_lens (d_len d')) l = nth_error (sl_lens (d_len d)) l;
  cg_len : length (sl_lens (d_len d')) = length (sl_lens (d_len d));
  cg_conns : forall l, ~ In l (i_top (dc_iet x)) -> d_conns d' l = d_conns d l;
}.

Lemma change_refl e0 d C1 x C2 : dec_ok e0 d -> d_comps d = C1 ++ x :: C2 -> change e0 d C1 x C2 x [] d.
Proof.
  intros H E. constructor; auto.
  - rewrite app_nil_r. exact E.
  - intros z [<-|[]]. apply incl_refl.
  - apply as_refl.
Qed.

(** The component itself is changed further. *)
Lemma change_self e0 d C1 x C2 y extra d1 z extra' d2 : change e0 d C1 x C2 y extra d1 ->
  change e0 d1 C1 y (C2 ++ extra) z extra' d2 -> change e0 d C1 x C2 z (extra ++ extra') d2.
Proof.
  intros [A B C D E F G] [A' B' C' D' E' F' G'].
  assert (N : forall l, ~ In l (i_top (dc_iet x)) -> ~ In l (i_top (dc_iet y))) by (intros l N C0; apply N, (C y (or_introl eq_refl)); exact C0).
  constructor; auto.
  - rewrite B', <- app_assoc. reflexivity.
  - intros w [<-|Hw]; [|apply in_app_or in Hw as [Hw|Hw]].
    + intros l Hl. apply (C y (or_introl eq_refl)). exact (C' z (or_introl eq_refl) l Hl).
    + apply C. right. exact Hw.
    + intros l Hl. apply (C y (or_introl eq_refl)). exact (C' w (or_intror Hw) l Hl).
  - eapply asteps_trans; eassumption.
  - intros l Hl. rewrite E', E by auto. reflexivity.
  - congruence.
  - intros l Hl. rewrite G', G by auto. reflexivity.
Qed.

(** The component that was split off is changed further. *)
Lemma change_extra e0 d C1 x C2 y z d1 z' extra' d2 : change e0 d C1 x C2 y [z] d1 ->
  change e0 d1 (C1 ++ y :: C2) z [] z' extra' d2 -> change e0 d C1 x C2 y (z' :: extra') d2.
Proof.
  intros [A B C D E F G] [A' B' C' D' E' F' G'].
  assert (N : forall l, ~ In l (i_top (dc_iet x)) -> ~ In l (i_top (dc_iet z))) by (intros l N C0; apply N, (C z (or_intror (or_introl eq_refl))); exact C0).
  constructor; auto.
  - rewrite B', <- app_assoc. reflexivity.
  - intros w [<-|Hw].
    + apply C. left. reflexivity.
    + intros l Hl. apply (C z (or_intror (or_introl eq_refl))). exact (C' w Hw l Hl).
  - eapply asteps_trans; eassumption.
  - intros l Hl. rewrite E', E by auto. reflexivity.
  - congruence.
  - intros l Hl. rewrite G', G by auto. reflexivity.
Qed.

Lemma change_view e0 d C1 x C2 y extra d' z : dec_ok e0 d -> d_comps d = C1 ++ x :: C2 -> change e0 d C1 x C2 y extra d' ->
  In z (C1 ++ C2) -> view_of d' z = view_of d z.
Proof.
  intros H E P Hz. assert (In z (d_comps d)) by (rewrite E; apply in_middle; auto).
  apply view_frame.
  - apply (dk_good _ _ H z). assumption.
  - intros l Hl. apply (cg_lens _ _ _ _ _ _ _ _ P). intro C. eapply (dk_disjoint e0 d C1 x C2 z l); eassumption.
  - intros l Hl. apply (cg_conns _ _ _ _ _ _ _ _ P). intro C. eapply (dk_disjoint e0 d C1 x C2 z l); eassumption.
Qed.

Lemma step_change e0 d C1 x C2 st d' : dec_ok e0 d -> d_comps d = C1 ++ x :: C2 -> step_post e0 d C1 x C2 st d' ->
  exists y extra, change e0 d C1 x C2 y extra d' /\
    match dst_additional st with
    | None => extra = [] /\ dst_result st <> D_SEPARATING_CONNECTION
    | Some c' => c' = length (d_comps d) /\ dst_result st = D_SEPARATING_CONNECTION /\
                 exists z, extra = [z] /\ i_size (dc_iet z) < i_size (dc_iet x) /\ i_size (dc_iet y) < i_size (dc_iet x)
    end /\
    (dst_result st = D_NON_SEPARATING_CONNECTION -> i_size (dc_iet y) < i_size (dc_iet x)) /\
    (i_size (dc_iet y) <= i_size (dc_iet x)).
Proof.
  intros H E P. destruct (step_shape e0 d C1 x C2 st d' H E P) as (y & extra & Ec & L & Q). exists y, extra.
  split; [|exact Q]. destruct P. constructor; assumption.
Qed.

(** The calls of decompositionStep() that were made, with what they returned. *)
Inductive steps : decomp T -> list dstep -> decomp T -> Prop :=
| steps_nil d : steps d [] d
| steps_cons d fuel limit c st d1 tr d2 : (limit <= INT_MAX)%Z -> length (d_keys d) < fuel -> c < length (d_comps d) ->
    decomposition_step fuel limit c d = Ok (st, d1) -> steps d1 tr d2 -> steps d (st :: tr) d2.

Lemma steps_app d tr d1 tr' d2 : steps d tr d1 -> steps d1 tr' d2 -> steps d (tr ++ tr') d2.
Proof. induction 1; [auto|]. intro. cbn [app]. econstructor; eauto. Qed.

Lemma comp_decompose_ok e0 fuel target limit : (limit <= INT_MAX)%Z ->
  forall rounds d C1 x C2, dec_ok e0 d -> d_comps d = C1 ++ x :: C2 -> length (d_keys d) < fuel ->
  let r := comp_decompose rounds fuel target limit (length C1) d in
  r = OutOfFuel \/ (r = UB /\ limit = (-1)%Z) \/
  exists ok d' y extra tr, r = Ok (ok, d') /\ change e0 d C1 x C2 y extra d' /\ steps d tr d' /\
    (ok = true -> forall z, In z (y :: extra) -> target (view_of d' z) = true) /\
    (ok = false -> limit <> (-1)%Z).
Proof.
  intro HM. induction rounds as [|rounds IH]; intros d C1 x C2 H E Hf r; [left; reflexivity|].
  unfold r. cbn [comp_decompose]. rewrite (comp_view_ok e0 d C1 x C2 H E). cbn [bind].
  destruct (target (view_of d x)) eqn:Et.
  { right. right. exists true, d, x, [], []. split; [reflexivity|]. split; [apply change_refl; assumption|].
    split; [constructor|]. split; [|discriminate]. intros _ z [<-|[]]. exact Et. }
  destruct (decomposition_step_ok e0 fuel d C1 x C2 limit H E HM Hf) as [[Er _]|[(Er & Hl & _)|(st & d1 & Er & P & PL)]].
  { left. rewrite Er. reflexivity. }
  { right. left. rewrite Er. auto. }
  rewrite Er. cbn [bind].
  assert (Hc : length C1 < length (d_comps d)) by (rewrite E, app_length; simpl; lia).
  destruct (step_change e0 d C1 x C2 st d1 H E P) as (y & extra & G & A & _).
  pose proof (cg_ok _ _ _ _ _ _ _ _ G) as H1. pose proof (cg_comps _ _ _ _ _ _ _ _ G) as E1.
  assert (Hf1 : length (d_keys d1) < fuel) by (rewrite (dk_keys _ _ H1), <- (dk_keys _ _ H); exact Hf).
  destruct (dst_result st) eqn:Ers.
  { right. right. exists false, d1, y, extra, [st]. split; [reflexivity|]. split; [exact G|].
    split; [econstructor; try eassumption; constructor|]. split; [discriminate|]. intros _. apply PL. reflexivity. }
  all: cut (exists R, bind (match dst_additional st with Some c' => comp_decompose rounds fuel target limit c' d1 | None => Ok (true, d1) end)
      (fun '(ok1, d) => '(ok2, d) <- comp_decompose rounds fuel target limit (length C1) d ;; Ok (ok1 && ok2, d)) = R /\
      (R = OutOfFuel \/ (R = UB /\ limit = (-1)%Z) \/
       exists ok d' y extra tr, R = Ok (ok, d') /\ change e0 d C1 x C2 y extra d' /\ steps d tr d' /\
    (ok = true -> forall z, In z (y :: extra) -> target (view_of d' z) = true) /\
    (ok = false -> limit <> (-1)%Z))); [intros (R & <- & HR); exact HR|].
  all: eexists; split; [reflexivity|].
  all: destruct (dst_additional st) as [c'|].
  all: try (destruct A as (_ & A & _); congruence).
  all: try (destruct A as (_ & A); congruence).
  all: try (destruct A as [-> _]; cbn [bind]; rewrite app_nil_r in E1;
    destruct (IH d1 C1 y C2 H1 E1 Hf1) as [Q|[(Q & Hl)|(ok & d2 & z & ex & tr & Q & G2 & S2 & T2 & L2)]];
    [left; rewrite Q; reflexivity | right; left; rewrite Q; auto |
     right; right; exists ok, d2, z, ex, (st :: tr); rewrite Q; cbn [bind andb];
     split; [reflexivity|]; split; [apply (change_self e0 d C1 x C2 y [] d1 z ex d2 G); rewrite app_nil_r; exact G2|];
     split; [econstructor; eassumption|]; split; [exact T2 | exact L2]]).
  (* the separating case *)
  destruct A as (-> & _ & zc & -> & _).
  assert (E1' : d_comps d1 = (C1 ++ y :: C2) ++ zc :: []) by (rewrite E1, <- app_assoc; reflexivity).
  assert (Lc : length (d_comps d) = length (C1 ++ y :: C2)) by (rewrite E, !app_length; reflexivity).
  rewrite Lc.
  destruct (IH d1 (C1 ++ y :: C2) zc [] H1 E1' Hf1) as [Q|[(Q & Hl)|(ok & d2 & z' & ex & tr & Q & G2 & S2 & T2 & L2)]].
  { left. rewrite Q. reflexivity. }
  { right. left. rewrite Q. auto. }
  rewrite Q. cbn [bind].
  pose proof (change_extra e0 d C1 x C2 y zc d1 z' ex d2 G G2) as G3.
  pose proof (cg_ok _ _ _ _ _ _ _ _ G3) as H2. pose proof (cg_comps _ _ _ _ _ _ _ _ G3) as E2.
  assert (Hf2 : length (d_keys d2) < fuel) by (rewrite (dk_keys _ _ H2), <- (dk_keys _ _ H); exact Hf).
  destruct (IH d2 C1 y (C2 ++ z' :: ex) H2 E2 Hf2) as [Q'|[(Q' & Hl)|(ok' & d3 & y' & ex' & tr' & Q' & G4 & S4 & T4 & L4)]].
  { left. rewrite Q'. reflexivity. }
  { right. left. rewrite Q'. auto. }
  rewrite Q'. cbn [bind].
  right. right. exists (ok && ok'), d3, y', ((z' :: ex) ++ ex'), ((st :: tr) ++ tr'). split; [reflexivity|].
  split; [exact (change_self e0 d C1 x C2 y (z' :: ex) d2 y' ex' d3 G3 G4)|].
  split; [eapply steps_app; [econstructor; eassumption|exact S4]|].
  split.
  - intro B. apply andb_true_iff in B as [-> ->]. intros w [<-|Hw]; [apply T4; [reflexivity|left; reflexivity]|].
    apply in_app_or in Hw as [Hw|Hw]; [|apply T4; [reflexivity|right; exact Hw]].
    rewrite (change_view e0 d2 C1 y (C2 ++ z' :: ex) y' ex' d3 w H2 E2 G4) by (apply in_or_app; right; apply in_or_app; right; exact Hw).
    apply T2; [reflexivity|exact Hw].
  - intro B. apply andb_false_iff in B as [->| ->]; auto.
Qed.

(** ** decompose() of the whole decomposition *)

Lemma nth_app_mid {A} (l : list A) c x : nth_error l c = Some x -> exists C1 C2, l = C1 ++ x :: C2 /\ length C1 = c.
Proof.
  revert c; induction l as [|a l IH]; intros [|c] H; try discriminate.
  - injection H as ->. exists [], l. auto.
  - destruct (IH c H) as (C1 & C2 & -> & <-). exists (a :: C1), C2. auto.
Qed.

Lemma decompose_all_ok e0 rounds fuel target limit : (limit <= INT_MAX)%Z ->
  forall todo m d Done Todo New, dec_ok e0 d -> length (d_keys d) < fuel -> d_comps d = Done ++ Todo ++ New ->
  length Done = m -> length Todo = todo -> (forall z, In z (Done ++ New) -> target (view_of d z) = true) ->
  let r := decompose_all rounds fuel target limit (seq m todo) d in
  r = OutOfFuel \/ (r = UB /\ limit = (-1)%Z) \/
  exists ok d' tr, r = Ok (ok, d') /\ dec_ok e0 d' /\ asteps (pieces d) (d_conns d) (pieces d') (d_conns d') /\ steps d tr d' /\
    length (sl_lens (d_len d')) = length (sl_lens (d_len d)) /\
    (ok = true -> forall z, In z (d_comps d') -> target (view_of d' z) = true) /\
    (ok = false -> limit <> (-1)%Z).
Proof.
  intros HM. induction todo as [|todo IH]; intros m d Done Todo New H Hf E LD LT HT r.
  - unfold r. cbn [seq decompose_all]. right. right. exists true, d, []. split; [reflexivity|]. split; [exact H|].
    split; [apply as_refl|]. split; [constructor|]. split; [reflexivity|]. split; [|discriminate]. intros _ z Hz. apply HT.
    destruct Todo; [|discriminate]. rewrite E in Hz. exact Hz.
  - destruct Todo as [|x Todo]; [discriminate|]. injection LT as LT.
    unfold r. cbn [seq decompose_all]. subst m.
    destruct (comp_decompose_ok e0 fuel target limit HM rounds d Done x (Todo ++ New) H E Hf)
      as [Q|[(Q & Hl)|(ok & d1 & y & ex & tr & Q & G & S1 & T1 & L1)]].
    { left. rewrite Q. reflexivity. }
    { right. left. rewrite Q. auto. }
    rewrite Q. cbn [bind].
    pose proof (cg_ok _ _ _ _ _ _ _ _ G) as H1. pose proof (cg_comps _ _ _ _ _ _ _ _ G) as E1.
    destruct ok.
    2:{ right. right. exists false, d1, tr. split; [reflexivity|]. split; [exact H1|]. split; [apply G|]. split; [exact S1|].
        split; [apply G|]. split; [discriminate|exact L1]. }
    assert (Hf1 : length (d_keys d1) < fuel) by (rewrite (dk_keys _ _ H1), <- (dk_keys _ _ H); exact Hf).
    assert (HT1 : forall z, In z ((Done ++ [y]) ++ New ++ ex) -> target (view_of d1 z) = true).
    { intros z Hz. rewrite !in_app_iff in Hz.
      assert (V : In z (Done ++ New) -> target (view_of d1 z) = true).
      { intro V. rewrite (change_view e0 d Done x (Todo ++ New) y ex d1 z H E G); [apply HT; exact V|].
        rewrite !in_app_iff in *. tauto. }
      destruct Hz as [[Hz|[<-|[]]]|[Hz|Hz]].
      - apply V. rewrite in_app_iff. auto.
      - apply T1; [reflexivity|left; reflexivity].
      - apply V. rewrite in_app_iff. auto.
      - apply T1; [reflexivity|right; exact Hz]. }
    assert (E1' : d_comps d1 = (Done ++ [y]) ++ Todo ++ New ++ ex) by (rewrite E1, <- !app_assoc; reflexivity).
    destruct (IH (Datatypes.S (length Done)) d1 (Done ++ [y]) Todo (New ++ ex) H1 Hf1 E1') as [Q'|[(Q' & Hl)|(ok & d2 & tr' & Q' & H2 & A2 & S2 & N2 & T2 & L2)]]; auto.
    { rewrite app_length. simpl. lia. }
    right. right. exists ok, d2, (tr ++ tr'). split; [exact Q'|]. split; [exact H2|].
    split; [eapply asteps_trans; [apply G|exact A2]|]. split; [eapply steps_app; eassumption|]. split; [|auto].
    rewrite N2. apply G.
Qed.

Theorem decompose_ok e0 rounds fuel target limit d : (limit <= INT_MAX)%Z -> dec_ok e0 d -> length (d_keys d) < fuel ->
  let r := decompose rounds fuel target limit d in
  r = OutOfFuel \/ (r = UB /\ limit = (-1)%Z) \/
  exists ok d' tr, r = Ok (ok, d') /\ dec_ok e0 d' /\ asteps (pieces d) (d_conns d) (pieces d') (d_conns d') /\ steps d tr d' /\
    length (sl_lens (d_len d')) = length (sl_lens (d_len d)) /\
    (ok = true -> forall z, In z (d_comps d') -> target (view_of d' z) = true) /\
    (ok = false -> limit <> (-1)%Z).
Proof.
  intros HM H Hf r.
  apply (decompose_all_ok e0 rounds fuel target limit HM (length (d_comps d)) 0 d [] (d_comps d) [] H Hf); auto.
  all: try (rewrite app_nil_r; reflexivity). all: intros z [].
Qed.

(** ** Histories *)

Lemma step_call e0 d c fuel limit st d' : dec_ok e0 d -> (limit <= INT_MAX)%Z -> length (d_keys d) < fuel -> c < length (d_comps d) ->
  decomposition_step fuel limit c d = Ok (st, d') ->
  exists C1 x C2, d_comps d = C1 ++ x :: C2 /\ length C1 = c /\ step_post e0 d C1 x C2 st d'.
Proof.
  intros H HM Hf Hc E. destruct (nth_error (d_comps d) c) as [x|] eqn:En; [|apply nth_error_None in En; lia].
  destruct (nth_split _ _ _ En) as (C1 & C2 & Ec & <-). exists C1, x, C2. split; [exact Ec|]. split; [reflexivity|].
  destruct (decomposition_step_ok e0 fuel d C1 x C2 limit H Ec HM Hf) as [[Er _]|[(Er & Hl & _)|(st' & d1 & Er & P & PL)]];
    rewrite Er in E; try discriminate. injection E as <- <-. exact P.
Qed.

Lemma steps_ok e0 d tr d' : dec_ok e0 d -> steps d tr d' ->
  dec_ok e0 d' /\ asteps (pieces d) (d_conns d) (pieces d') (d_conns d') /\ d_keys d' = d_keys d /\
  length (sl_lens (d_len d')) = length (sl_lens (d_len d)).
Proof.
  intros H S. revert H. induction S as [d|d fuel limit c st d1 tr d2 HM Hf Hc E S IH]; intro H.
  - split; [exact H|]. split; [apply as_refl|]. auto.
  - destruct (step_call e0 d c fuel limit st d1 H HM Hf Hc E) as (C1 & x & C2 & Ec & _ & P).
    pose proof (sp_ok _ _ _ _ _ _ _ P) as H1. destruct (IH H1) as (H2 & A2 & K2 & L2).
    split; [exact H2|]. split; [eapply asteps_trans; [apply P|exact A2]|].
    split; [rewrite (dk_keys _ _ H2), (dk_keys _ _ H); reflexivity|]. rewrite L2. apply P.
Qed.

(** ** The flags *)

Record flags_ok (d : decomp T) (y : dcomp T) : Prop := {
  fl_cyl : dc_cylinder y = Some true -> i_size (dc_iet y) = 1;
  fl_wpt : dc_wpt y = Some true -> ~ has_periodic_point (exch_of (dc_iet y) (d_len d));
  fl_states : (dc_cylinder y = None /\ dc_wpt y = None /\ dc_keane y = None) \/
              (dc_cylinder y = Some true /\ dc_wpt y = Some false /\ dc_keane y = Some false) \/
              (dc_cylinder y = Some false /\ dc_wpt y = Some true /\ dc_keane y = None);
}.

Lemma agree_periodic e e' : agree e e' -> has_periodic_point e -> has_periodic_point e'.
Proof.
  intros A (x & n & Hn & P). exists x, n. split; [exact Hn|]. revert P.
  apply (iter_map (maps e) (maps e') (fun x => x)). intros a b. apply agree_maps. exact A.
Qed.

Lemma agree_frame (d d' : decomp T) i : Permutation (i_top i) (i_bottom i) ->
  (forall l, In l (i_top i) -> nth_error (sl_lens (d_len d')) l = nth_error (sl_lens (d_len d)) l) ->
  agree (exch_of i (d_len d')) (exch_of i (d_len d)).
Proof.
  intros Pe H. split; [reflexivity|]. split; [reflexivity|]. intros l Hl. simpl. unfold lamR.
  assert (In l (i_top i)) by (destruct Hl as [Hl|Hl]; [exact Hl|apply (Permutation_in _ (Permutation_sym Pe)); exact Hl]).
  rewrite H; auto.
Qed.

Lemma step_flags e0 d C1 x C2 st d' : dec_ok e0 d -> d_comps d = C1 ++ x :: C2 -> step_post e0 d C1 x C2 st d' ->
  dst_result st <> D_WITHOUT_PERIODIC_TRAJECTORY_AUTO_SIMILAR ->
  (forall y, In y (d_comps d) -> flags_ok d y) -> (forall y, In y (d_comps d') -> flags_ok d' y).
Proof.
  intros H E P NA HF.
  assert (Hx : In x (d_comps d)) by (rewrite E; apply in_middle; auto).
  destruct (dk_good _ _ H x Hx) as [Gx Sw]. pose proof (proj1 Gx) as Wx.
  assert (RS : forall i' s', reach (dc_iet x) (d_len d) i' s' -> i_size i' = i_size (dc_iet x)).
  { intros i' s' R. symmetry. exact (Permutation_length (reach_labels _ _ _ _ Wx R)). }
  assert (Old : forall y, In y (C1 ++ C2) -> flags_ok d' y).
  { intros y Hy. assert (Hy' : In y (d_comps d)) by (rewrite E; apply in_middle; auto).
    destruct (HF y Hy') as [A B C]. constructor; auto. intros Q Pp. apply (B Q).
    revert Pp. apply agree_periodic, agree_frame; [apply (dk_good _ _ H y Hy')|]. intros l Hl. apply (sp_lens _ _ _ _ _ _ _ P).
    intro C0. eapply (dk_disjoint e0 d C1 x C2 y l); eassumption. }
  destruct (HF x Hx) as [A B C].
  pose proof (sp_case _ _ _ _ _ _ _ P) as Q. unfold dstep_post in Q. destruct (dst_result st) eqn:Er; try contradiction.
  - destruct Q as (i' & Ec & R & Hs & _). intros y Hy. rewrite Ec in Hy. apply in_middle in Hy as [->|Hy]; [|apply Old; exact Hy].
    constructor; cbn [dc_iet iet_set dc_cylinder dc_wpt dc_keane].
    + intro Q. contradiction (Hs (A Q)).
    + intros Q Pp. apply (B Q). apply (reach_periodic _ _ _ _ Wx R). exact Pp.
    + exact C.
  - destruct Q as (i' & Hs & Ec & Ht & Hb & _). intros y Hy. rewrite Ec in Hy. apply in_middle in Hy as [->|Hy]; [|apply Old; exact Hy].
    constructor; cbn [dc_iet iet_set dc_cylinder dc_wpt dc_keane]; [|discriminate|auto].
    intros _. unfold i_size. rewrite Ht. exact Hs.
  - destruct Q as (i1 & k & b & t & w & R & Hk & _ & Ec & _). intros y Hy. rewrite Ec in Hy. apply in_middle in Hy as [->|Hy].
    + pose proof (r_wf _ _ _ _ R) as W1.
      constructor; cbn [dc_iet iet_set dc_cylinder dc_wpt dc_keane].
      * intro Q. pose proof (A Q) as A'. rewrite <- (RS _ _ R) in A'. destruct Hk as [Hk _]. unfold i_size in *. simpl in Hk. lia.
      * intros Q Pp. apply (B Q). apply (reach_periodic _ _ _ _ Wx R). apply (cut_periodic _ _ _ W1 Hk). left. exact Pp.
      * exact C.
    + rewrite app_assoc in Hy. apply in_app_or in Hy as [Hy|[<-|[]]]; [apply Old; exact Hy|].
      constructor; cbn [dc_iet iet_set dc_cylinder dc_wpt dc_keane]; [discriminate|discriminate|auto].
  - destruct Q as (i1 & i' & b & t & w & R & M & _ & Ec & _). intros y Hy. rewrite Ec in Hy. apply in_middle in Hy as [->|Hy]; [|apply Old; exact Hy].
    constructor; cbn [dc_iet iet_set dc_cylinder dc_wpt dc_keane].
    + intro Q. pose proof (A Q) as A'. rewrite <- (RS _ _ R) in A'. exfalso. 
      destruct (merge_labels _ _ M) as [_ ML]. simpl in ML. unfold i_size in *. 
      assert (i_top i' = []) by (destruct (i_top i'); [reflexivity|simpl in ML; lia]).
      assert (Hy' : In (iet_set x i') (d_comps d')) by (rewrite Ec; apply in_middle; auto).
      destruct (dk_good _ _ (sp_ok _ _ _ _ _ _ _ P) _ Hy') as [((_ & _ & Ne & _) & _) _]. apply Ne. assumption.
    + intros Q Pp. apply (B Q). apply (merge_reach_periodic _ _ _ _ _ Wx R M). exact Pp.
    + exact C.
  - destruct Q as (i' & Ec & R & Hs & P1 & P2 & P3 & _). intros y Hy. rewrite Ec in Hy. apply in_middle in Hy as [->|Hy]; [|apply Old; exact Hy].
    constructor; cbn [dc_iet iet_set dc_cylinder dc_wpt dc_keane]; [discriminate| |].
    + intros _ Pp. apply P3. apply periodic_balanced; [apply wf_proper, R|exact Pp].
    + right. right. split; [reflexivity|]. split; [reflexivity|]. destruct C as [C|[C|C]]; try apply C. exfalso. apply Hs. apply A. apply C.
Qed.

Lemma steps_flags e0 d tr d' : dec_ok e0 d -> steps d tr d' ->
  (forall st, In st tr -> dst_result st <> D_WITHOUT_PERIODIC_TRAJECTORY_AUTO_SIMILAR) ->
  (forall y, In y (d_comps d) -> flags_ok d y) -> (forall y, In y (d_comps d') -> flags_ok d' y).
Proof.
  intros H S. revert H. induction S as [d|d fuel limit c st d1 tr d2 HM Hf Hc E S IH]; intros H NA HF; [exact HF|].
  destruct (step_call e0 d c fuel limit st d1 H HM Hf Hc E) as (C1 & x & C2 & Ec & _ & P).
  apply IH; [apply P| |].
  - intros st' Hst. apply NA. right. exact Hst.
  - eapply step_flags; try eassumption. apply NA. left. reflexivity.
Qed.

(** ** Termination *)

Definition flagged (x : dcomp T) : Prop := dc_cylinder x = Some true \/ dc_wpt x = Some true.

Section Termination.
Variables (e0 : exch) (fuel : nat) (limit : Z) (P : exch -> Prop).
Hypothesis HM : (limit <= INT_MAX)%Z.
Hypothesis P_agree : forall e e', agree e e' -> P e -> P e'.
Hypothesis P_path : forall e e', proper e -> rauzy_path e e' -> P e -> P e'.
Hypothesis P_left : forall e k, proper e -> invariant_prefix e k -> P e -> P (left_of e k).
Hypothesis P_right : forall e k, proper e -> invariant_prefix e k -> P e -> P (right_of e k).
Hypothesis P_merge : forall e e', proper e -> merge_step e e' -> P e -> P e'.
Hypothesis P_step : forall d C1 x C2, dec_ok e0 d -> d_comps d = C1 ++ x :: C2 -> P (exch_of (dc_iet x) (d_len d)) ->
  length (d_keys d) < fuel -> exists st d', decomposition_step fuel limit (length C1) d = Ok (st, d').

Definition allP (d : decomp T) : Prop := forall y, In y (d_comps d) -> P (exch_of (dc_iet y) (d_len d)).

Lemma step_allP d C1 x C2 st d' : dec_ok e0 d -> d_comps d = C1 ++ x :: C2 -> step_post e0 d C1 x C2 st d' -> allP d -> allP d'.
Proof.
  intros H E Ps HP.
  assert (Hx : In x (d_comps d)) by (rewrite E; apply in_middle; auto).
  destruct (dk_good _ _ H x Hx) as [Gx Sw]. pose proof (proj1 Gx) as Wx. pose proof (wf_proper _ _ Wx) as Px.
  assert (Old : forall y, In y (C1 ++ C2) -> P (exch_of (dc_iet y) (d_len d'))).
  { intros y Hy. assert (Hy' : In y (d_comps d)) by (rewrite E; apply in_middle; auto).
    eapply P_agree; [apply agree_sym, agree_frame; [apply (dk_good _ _ H y Hy')|]|apply HP; exact Hy']. intros l Hl. apply (sp_lens _ _ _ _ _ _ _ Ps).
    intro C0. eapply (dk_disjoint e0 d C1 x C2 y l); eassumption. }
  specialize (HP x Hx).
  assert (RP : forall i' s', reach (dc_iet x) (d_len d) i' s' -> P (exch_of i' s')).
  { intros i' s' R. eapply P_path; [exact Px|exact (r_path _ _ _ _ R)|exact HP]. }
  pose proof (sp_case _ _ _ _ _ _ _ Ps) as Q. unfold dstep_post in Q. destruct (dst_result st) eqn:Er; try contradiction.
  - destruct Q as (i' & Ec & R & _). intros y Hy. rewrite Ec in Hy. apply in_middle in Hy as [->|Hy]; [|apply Old; exact Hy]. exact (RP _ _ R).
  - destruct Q as (i' & Hs & Ec & Ht & Hb & Es & _). intros y Hy. rewrite Ec in Hy. apply in_middle in Hy as [->|Hy]; [|apply Old; exact Hy].
    cbn [dc_iet]. rewrite Es. unfold exch_of. rewrite Ht, Hb. exact HP.
  - destruct Q as (i1 & k & b & t & w & R & Hk & _ & Ec & _). pose proof (wf_proper _ _ (r_wf _ _ _ _ R)) as P1.
    intros y Hy. rewrite Ec in Hy. apply in_middle in Hy as [->|Hy].
    + apply (P_left (exch_of i1 (d_len d')) k P1 Hk (RP _ _ R)).
    + rewrite app_assoc in Hy. apply in_app_or in Hy as [Hy|[<-|[]]]; [apply Old; exact Hy|].
      apply (P_right (exch_of i1 (d_len d')) k P1 Hk (RP _ _ R)).
  - destruct Q as (i1 & i' & b & t & w & R & M & _ & Ec & _). pose proof (wf_proper _ _ (r_wf _ _ _ _ R)) as P1.
    intros y Hy. rewrite Ec in Hy. apply in_middle in Hy as [->|Hy]; [|apply Old; exact Hy].
    exact (P_merge _ _ P1 M (RP _ _ R)).
  - destruct Q as (i' & Ec & R & _). intros y Hy. rewrite Ec in Hy. apply in_middle in Hy as [->|Hy]; [|apply Old; exact Hy]. exact (RP _ _ R).
  - destruct Q as (i' & Ec & R & _). intros y Hy. rewrite Ec in Hy. apply in_middle in Hy as [->|Hy]; [|apply Old; exact Hy]. exact (RP _ _ R).
Qed.

Lemma default_view (d : decomp T) x : default_target (view_of d x) = true <-> flagged x.
Proof.
  unfold default_target, view_of, flagged. cbn [cv_cylinder cv_wpt].
  destruct (dc_cylinder x) as [[|]|], (dc_wpt x) as [[|]|]; split; intros H; auto; try discriminate; destruct H; discriminate.
Qed.

Lemma comp_decompose_ends : forall rounds d C1 x C2, dec_ok e0 d -> d_comps d = C1 ++ x :: C2 -> length (d_keys d) < fuel ->
  allP d -> 0 < rounds -> (~ flagged x -> i_size (dc_iet x) < rounds) ->
  exists ok d', comp_decompose rounds fuel default_target limit (length C1) d = Ok (ok, d') /\ allP d'.
Proof.
  induction rounds as [|rounds IH]; intros d C1 x C2 H E Hf HP H0 Hr; [lia|].
  cbn [comp_decompose]. rewrite (comp_view_ok e0 d C1 x C2 H E). cbn [bind].
  destruct (default_target (view_of d x)) eqn:Et; [eauto|].
  assert (Nf : ~ flagged x) by (rewrite <- (default_view d); congruence). specialize (Hr Nf).
  assert (Hx : In x (d_comps d)) by (rewrite E; apply in_middle; auto).
  destruct (P_step d C1 x C2 H E (HP x Hx) Hf) as (st & d1 & Er).
  assert (Hc : length C1 < length (d_comps d)) by (rewrite E, app_length; simpl; lia).
  destruct (step_call e0 d (length C1) fuel limit st d1 H HM Hf Hc Er) as (C1' & x' & C2' & Ec' & L' & Ps).
  assert (C1' = C1 /\ x' = x /\ C2' = C2) as (-> & -> & ->).
  { rewrite E in Ec'. assert (Q : firstn (length C1) (C1 ++ x :: C2) = firstn (length C1') (C1' ++ x' :: C2')) by congruence.
    rewrite !firstn_app, !firstn_all, !Nat.sub_diag in Q. cbn [firstn] in Q. rewrite !app_nil_r in Q. subst C1'.
    apply app_inv_head in Ec'. injection Ec' as -> ->. auto. }
  clear Ec' L'. rewrite Er. cbn [bind].
  destruct (step_change e0 d C1 x C2 st d1 H E Ps) as (y & extra & G & A & B1 & B2).
  pose proof (cg_ok _ _ _ _ _ _ _ _ G) as H1. pose proof (cg_comps _ _ _ _ _ _ _ _ G) as E1.
  assert (Hf1 : length (d_keys d1) < fuel) by (rewrite (dk_keys _ _ H1), <- (dk_keys _ _ H); exact Hf).
  pose proof (step_allP d C1 x C2 st d1 H E Ps HP) as HP1.
  assert (Sz : forall (d : decomp T) z, dec_ok e0 d -> In z (d_comps d) -> 0 < i_size (dc_iet z)).
  { intros dd z Hd Hz. destruct (dk_good _ _ Hd z Hz) as [((_ & _ & Ne & _) & _) _]. unfold i_size. destruct (i_top (dc_iet z)); [contradiction|simpl; lia]. }
  pose proof (Sz d x H Hx) as Szx.
  assert (Fin : ~ flagged y -> dst_result st <> D_LIMIT_REACHED -> i_size (dc_iet y) < i_size (dc_iet x)).
  { intros Ny NL. pose proof (sp_case _ _ _ _ _ _ _ Ps) as Q. unfold dstep_post in Q.
    assert (Un : forall z R, d_comps d1 = C1 ++ z :: R -> y = z).
    { intros z R Q'. rewrite E1 in Q'. apply app_inv_head in Q'. injection Q' as -> _. reflexivity. }
    destruct (dst_result st) eqn:Ers; try contradiction.
    - destruct Q as (i' & _ & Q & _). apply Un in Q. exfalso. apply Ny. rewrite Q. left. reflexivity.
    - destruct (dst_additional st); [|destruct A; congruence]. destruct A as (_ & _ & zc & _ & _ & A). exact A.
    - apply B1. reflexivity.
    - destruct Q as (i' & Q & _). apply Un in Q. exfalso. apply Ny. rewrite Q. right. reflexivity.
    - destruct Q as (i' & Q & _). apply Un in Q. exfalso. apply Ny. rewrite Q. right. reflexivity. }
  destruct (dst_result st) eqn:Ers; [eauto|..].
  all: destruct (dst_additional st) as [c'|].
  all: try (destruct A as (_ & A & _); congruence).
  all: try (destruct A as (_ & A); congruence).
  all: try (destruct A as [-> _]; cbn [bind]; rewrite app_nil_r in E1;
    destruct (IH d1 C1 y C2 H1 E1 Hf1 HP1) as (ok & d2 & Q & HP2);
    [lia | intro Ny; specialize (Fin Ny ltac:(discriminate)); lia | rewrite Q; cbn [bind]; eauto]).
  destruct A as (-> & _ & zc & -> & Sz1 & Sz2).
  assert (E1' : d_comps d1 = (C1 ++ y :: C2) ++ zc :: []) by (rewrite E1, <- app_assoc; reflexivity).
  assert (Lc : length (d_comps d) = length (C1 ++ y :: C2)) by (rewrite E, !app_length; reflexivity).
  rewrite Lc.
  destruct (IH d1 (C1 ++ y :: C2) zc [] H1 E1' Hf1 HP1) as (ok & d2 & Q & HP2); [lia|intros _; lia|].
  rewrite Q. cbn [bind].
  destruct (comp_decompose_ok e0 fuel default_target limit HM rounds d1 (C1 ++ y :: C2) zc [] H1 E1' Hf1)
    as [Q'|[(Q' & Hl)|(ok' & d2' & z' & ex & tr & Q' & G2 & S2 & T2 & L2)]]; rewrite Q in Q'; try discriminate.
  injection Q' as <- <-.
  pose proof (change_extra e0 d C1 x C2 y zc d1 z' ex d2 G G2) as G3.
  pose proof (cg_ok _ _ _ _ _ _ _ _ G3) as H2. pose proof (cg_comps _ _ _ _ _ _ _ _ G3) as E2.
  assert (Hf2 : length (d_keys d2) < fuel) by (rewrite (dk_keys _ _ H2), <- (dk_keys _ _ H); exact Hf).
  destruct (IH d2 C1 y (C2 ++ z' :: ex) H2 E2 Hf2 HP2) as (ok' & d3 & Q' & HP3); [lia|intros _; lia|].
  rewrite Q'. cbn [bind]. eauto.
Qed.

Lemma decompose_all_ends rounds : forall todo m d Done Todo New, dec_ok e0 d -> length (d_keys d) < fuel -> d_comps d = Done ++ Todo ++ New ->
  length Done = m -> length Todo = todo -> allP d -> length (d_keys d) < rounds ->
  exists ok d', decompose_all rounds fuel default_target limit (seq m todo) d = Ok (ok, d') /\ allP d'.
Proof.
  induction todo as [|todo IH]; intros m d Done Todo New H Hf E LD LT HP Hr.
  - cbn [seq decompose_all]. eauto.
  - destruct Todo as [|x Todo]; [discriminate|]. injection LT as LT. subst m. cbn [seq decompose_all].
    assert (Hx : In x (d_comps d)) by (rewrite E; apply in_or_app; right; left; reflexivity).
    destruct (comp_decompose_ends rounds d Done x (Todo ++ New) H E Hf HP) as (ok & d1 & Q & HP1); [lia| |].
    { intros _. unfold i_size. eapply Nat.le_lt_trans; [apply (NoDup_incl_length (l' := d_keys d))|exact Hr].
      - apply (dk_good _ _ H x Hx).
      - intros l Hl. eapply dk_label; eassumption. }
    rewrite Q. cbn [bind]. destruct ok; [|eauto].
    destruct (comp_decompose_ok e0 fuel default_target limit HM rounds d Done x (Todo ++ New) H E Hf)
      as [Q'|[(Q' & Hl)|(ok' & d1' & y & ex & tr & Q' & G & S1 & T1 & L1)]]; rewrite Q in Q'; try discriminate.
    injection Q' as <- <-.
    pose proof (cg_ok _ _ _ _ _ _ _ _ G) as H1. pose proof (cg_comps _ _ _ _ _ _ _ _ G) as E1.
    assert (K1 : d_keys d1 = d_keys d) by (rewrite (dk_keys _ _ H1), <- (dk_keys _ _ H); reflexivity).
    apply (IH (Datatypes.S (length Done)) d1 (Done ++ [y]) Todo (New ++ ex)); auto.
    + rewrite K1. exact Hf.
    + rewrite E1, <- !app_assoc. reflexivity.
    + rewrite app_length. simpl. lia.
    + rewrite K1. exact Hr.
Qed.

Theorem decompose_ends rounds d : dec_ok e0 d -> length (d_keys d) < fuel -> allP d -> length (d_keys d) < rounds ->
  exists ok d', decompose rounds fuel default_target limit d = Ok (ok, d') /\ allP d'.
Proof.
  intros H Hf HP Hr. apply (decompose_all_ends rounds (length (d_comps d)) 0 d [] (d_comps d) []); auto. rewrite app_nil_r. reflexivity.
Qed.
End Termination.
End All.
