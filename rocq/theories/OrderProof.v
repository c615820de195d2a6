(** Steps on different components commute, and the order of the steps does not matter. *)
From Coq Require Import Reals Permutation Lia List.
From Verif Require Import Base QcTac LenT FM Subspace Lengths IET Api ZorichProof Saf Bosh InduceProof InduceCons.
From Verif Require Import Spec Dyn Path Decomp DecompSim DecompInv DecompRef DecompNav DecompStep DecompAll Fuel DecApi DecompBudget.
From Verif Require Import Twin TwinDec Focus FocusDec OrderApi.
Open Scope nat_scope.

Section Order.
Context {T : Type} {O : LenOps T} {W : LenLaws T}.

Lemma focus_of_good i s : good i s -> focus (fun l => In l (i_top i)) i.
Proof.
  intros (Wi & _ & K). pose proof Wi as (_ & Pe & _). constructor.
  - apply Forall_forall. auto.
  - apply Forall_forall. intros l Hl. exact (Permutation_in _ (Permutation_sym Pe) Hl).
  - apply Permutation_length. exact Pe.
  - destruct K as [K|[K|(e1 & G1 & G2 & _ & _ & _ & _ & G7 & _)]]; [left; exact K|right; left; exact K|right; right].
    assert (Hlab : Permutation (tk_top (i_trk i)) (i_top i)).
    { rewrite <- G2. destruct G7 as [G7|G7]; apply (path_labels _ _ G1) in G7; simpl in G7; [exact G7|].
      rewrite G7. symmetry. exact Pe. }
    apply Forall_forall. intros l Hl. exact (Permutation_in _ Hlab Hl).
Qed.

(** The lengths and connections of these labels are the same. *)
Record agree (A : label -> Prop) (d e : decomp T) : Prop := {
  ag_size : length (sl_lens (d_len d)) = length (sl_lens (d_len e));
  ag_lens : forall l, A l -> nth_error (sl_lens (d_len d)) l = nth_error (sl_lens (d_len e)) l;
  ag_conns : forall l, A l -> d_conns d l = d_conns e l;
}.

Lemma agree_sym A d e : agree A d e -> agree A e d.
Proof. intros [H1 H2 H3]. constructor; [congruence| |]; intros l Hl; symmetry; auto. Qed.

Definition of_comp (x : dcomp T) (l : label) : Prop := In l (i_top (dc_iet x)).

Lemma dec_rest e0 d c x : dec_ok e0 d -> nth_error (d_comps d) c = Some x -> rest (of_comp x) c (d_comps d).
Proof.
  intros H E j y a Ej N Ha. destruct (nth_app_mid _ _ _ E) as (C1 & C2 & Ed & <-).
  assert (Hy : In y (C1 ++ C2)).
  { rewrite Ed in Ej. destruct (Nat.lt_ge_cases j (length C1)).
    - rewrite nth_error_app1 in Ej by assumption. apply in_or_app. left. eapply nth_error_In; exact Ej.
    - rewrite nth_error_app2 in Ej by assumption. destruct (j - length C1) eqn:En; [lia|]. cbn in Ej. apply in_or_app. right. eapply nth_error_In; exact Ej. }
  unfold on_top, i_view. cbn [fst snd]. destruct (i_top (dc_iet y)) as [|z r] eqn:Ey; [reflexivity|].
  destruct (Nat.eqb_spec z a) as [->|]; [|reflexivity]. exfalso.
  apply (dk_disjoint e0 d C1 x C2 y a H Ed Hy Ha). rewrite Ey. left. reflexivity.
Qed.

Lemma dec_lens_stack e0 d x : dec_ok e0 d -> In x (d_comps d) -> sl_stack (d_len d) = [].
Proof. intros H Hx. destruct (dk_good _ _ H x Hx) as [((_ & _ & _ & _ & E) & _) _]. exact E. Qed.

Lemma foc_make e0 d e c c' x : dec_ok e0 d -> dec_ok e0 e -> nth_error (d_comps d) c = Some x -> nth_error (d_comps e) c' = Some x ->
  agree (of_comp x) d e -> foc (of_comp x) c c' d e.
Proof.
  intros H H' E E' [G1 G2 G3]. pose proof (nth_error_In _ _ E) as Hx. pose proof (nth_error_In _ _ E') as Hx'.
  constructor.
  - split; [split; assumption|]. rewrite (dec_lens_stack _ _ _ H Hx), (dec_lens_stack _ _ _ H' Hx'). split; [reflexivity|constructor].
  - rewrite (dk_stack _ _ H), (dk_stack _ _ H'). reflexivity.
  - rewrite (dk_stack _ _ H). constructor.
  - rewrite (dk_keys _ _ H), (dk_keys _ _ H'). reflexivity.
  - exact G3.
  - apply nth_error_Some. rewrite E. discriminate.
  - congruence.
  - intros y Ey. rewrite E in Ey. injection Ey as <-. exact (focus_of_good _ _ (proj1 (dk_good _ _ H x Hx))).
  - exact (dec_rest _ _ _ _ H E).
  - exact (dec_rest _ _ _ _ H' E').
Qed.

Definition extra_of (st : dstep) (d : decomp T) (extra : list (dcomp T)) : Prop :=
  match dst_additional st with
  | None => extra = []
  | Some k => k = length (d_comps d) /\ exists z, extra = [z]
  end.

Lemma step_change_at e0 d c x fuel limit st d1 : dec_ok e0 d -> (limit <= INT_MAX)%Z -> nth_error (d_comps d) c = Some x ->
  decomposition_step fuel limit c d = Ok (st, d1) ->
  exists C1 C2 y extra, d_comps d = C1 ++ x :: C2 /\ length C1 = c /\ change e0 d C1 x C2 y extra d1 /\ extra_of st d extra.
Proof.
  intros H HL E Es. destruct (nth_app_mid _ _ _ E) as (C1 & C2 & Ed & <-).
  destruct (big_step _ _ _ _ _ Es) as (f & Hf & Es').
  destruct (decomposition_step_ok e0 f d C1 x C2 limit H Ed HL Hf) as [(Q & _)|[(Q & _)|(st' & d' & Q & P & _)]]; cbv zeta in Q; rewrite Q in Es'; try discriminate.
  injection Es' as -> ->. destruct (step_change e0 d C1 x C2 st d1 H Ed P) as (y & extra & G & A & _).
  exists C1, C2, y, extra. split; [exact Ed|]. split; [reflexivity|]. split; [exact G|]. unfold extra_of.
  destruct (dst_additional st); [|apply A]. destruct A as (A1 & _ & z & A2 & _). split; [exact A1|]. exists z. exact A2.
Qed.

Lemma side_rside k s : same_side s (rside k s).
Proof. destruct s; cbn; auto. Qed.

Lemma Forall2_map_r {B C} (R : B -> C -> Prop) (f : B -> C) l : (forall x, R x (f x)) -> Forall2 R l (map f l).
Proof. intro H. induction l; cbn; constructor; auto. Qed.

(** The same component in two decompositions: the steps do the same. *)
Lemma step_pair e0 d e c c' x fuel limit st d1 : dec_ok e0 d -> dec_ok e0 e -> (limit <= INT_MAX)%Z ->
  nth_error (d_comps d) c = Some x -> nth_error (d_comps e) c' = Some x -> agree (of_comp x) d e ->
  decomposition_step fuel limit c d = Ok (st, d1) ->
  exists st' e1 C1 C2 C1' C2' y extra, decomposition_step fuel limit c' e = Ok (st', e1) /\ same_answer st st' /\
    d_comps d = C1 ++ x :: C2 /\ length C1 = c /\ change e0 d C1 x C2 y extra d1 /\
    d_comps e = C1' ++ x :: C2' /\ length C1' = c' /\ change e0 e C1' x C2' y extra e1 /\
    agree (of_comp x) d1 e1.
Proof.
  intros H H' HL E E' G Es. pose proof (foc_make e0 d e c c' x H H' E E' G) as F.
  pose proof (foc_decomposition_step (of_comp x) c c' fuel limit d e F) as R. rewrite Es in R.
  destruct (decomposition_step fuel limit c' e) as [[st' e1]| | | |] eqn:Es'; try contradiction. cbn [rres] in R.
  destruct R as (R1 & R2 & R3 & K & _ & R4). cbn [fst snd] in *.
  destruct (step_change_at e0 d c x fuel limit st d1 H HL E Es) as (C1 & C2 & y & extra & Ed & Lc & Ch & X).
  destruct (step_change_at e0 e c' x fuel limit st' e1 H' HL E' Es') as (C1' & C2' & y' & extra' & Ee & Lc' & Ch' & X').
  assert (y' = y) as ->.
  { pose proof (kp_comp _ _ _ _ _ K) as Q. rewrite (cg_comps _ _ _ _ _ _ _ _ Ch), (cg_comps _ _ _ _ _ _ _ _ Ch') in Q.
    rewrite !nth_error_app2 in Q by lia. rewrite Lc, Lc', !Nat.sub_diag in Q. cbn in Q. congruence. }
  assert (extra' = extra) as ->.
  { unfold extra_of in X, X'. destruct (dst_additional st) as [k|], (dst_additional st') as [k'|]; try contradiction; [|congruence].
    destruct X as (-> & z & ->), X' as (-> & z' & ->).
    rewrite (cg_comps _ _ _ _ _ _ _ _ Ch), (cg_comps _ _ _ _ _ _ _ _ Ch'), Ed, Ee in R4.
    assert (Q : forall (P Q : list (dcomp T)) a b, nth_error (P ++ a :: Q ++ [b]) (length (P ++ x :: Q)) = Some b).
    { intros P Q a b. change (P ++ a :: Q ++ [b]) with (P ++ (a :: Q) ++ [b]). rewrite app_assoc. rewrite nth_error_app2 by (rewrite !app_length; simpl; lia).
      rewrite !app_length. simpl. rewrite Nat.sub_diag. reflexivity. }
    rewrite !Q in R4. congruence. }
  exists st', e1, C1, C2, C1', C2', y, extra. split; [reflexivity|]. split.
  - split; [exact R1|]. split; [exact R2|]. split.
    + rewrite <- R3. destruct (dst_equivalent st) as [w|]; cbn [option_map]; [|exact I]. apply Forall2_map_r. intro s. apply side_rside.
    + destruct (dst_additional st), (dst_additional st'); try contradiction; split; congruence.
  - repeat (split; [assumption|]). destruct K as [((K1 & K1') & _) K2 _ _]. constructor; assumption.
Qed.

Lemma agree_ends e0 d e x C1 C2 y ex d1 C1' C2' y' ex' e1 :
  change e0 d C1 x C2 y ex d1 -> change e0 e C1' x C2' y' ex' e1 ->
  agree (of_comp x) d1 e1 -> agree (fun l => ~ of_comp x l) d e -> agree (fun _ => True) d1 e1.
Proof.
  intros Ch Ch' [A1 A2 A3] [B1 B2 B3]. constructor; [exact A1| |]; intros l _; destruct (in_dec Nat.eq_dec l (i_top (dc_iet x))) as [Hl|Hl].
  - apply A2. exact Hl.
  - rewrite (cg_lens _ _ _ _ _ _ _ _ Ch l Hl), (cg_lens _ _ _ _ _ _ _ _ Ch' l Hl). apply B2. exact Hl.
  - apply A3. exact Hl.
  - rewrite (cg_conns _ _ _ _ _ _ _ _ Ch l Hl), (cg_conns _ _ _ _ _ _ _ _ Ch' l Hl). apply B3. exact Hl.
Qed.

Lemma nth_ext_error {B} : forall (l l' : list B), (forall j, nth_error l j = nth_error l' j) -> l = l'.
Proof.
  induction l as [|a l IH]; intros [|b l'] H; [reflexivity|specialize (H 0); discriminate|specialize (H 0); discriminate|].
  pose proof (H 0) as H0. injection H0 as ->. f_equal. apply IH. intro j. exact (H (Datatypes.S j)).
Qed.

Lemma alike_make e0 d e x x' : dec_ok e0 d -> dec_ok e0 e -> In x (d_comps d) -> In x' (d_comps e) ->
  agree (fun _ => True) d e -> Permutation (d_comps d) (d_comps e) -> same_up_to_numbering d e.
Proof.
  intros H H' Hx Hx' [A1 A2 A3] P. constructor.
  - pose proof (dec_lens_stack _ _ _ H Hx) as S1. pose proof (dec_lens_stack _ _ _ H' Hx') as S2.
    assert (L : sl_lens (d_len d) = sl_lens (d_len e)) by (apply nth_ext_error; intro j; apply A2; exact I).
    destruct (d_len d), (d_len e). cbn in *. congruence.
  - rewrite (dk_keys _ _ H), (dk_keys _ _ H'). reflexivity.
  - intro l. apply A3. exact I.
  - rewrite (dk_stack _ _ H), (dk_stack _ _ H'). reflexivity.
  - exact P.
Qed.

Lemma alike_agree A d e : same_up_to_numbering d e -> agree A d e.
Proof. intros [H1 _ H3 _ _]. constructor; rewrite ?H1; auto. Qed.

Lemma alike_refl (d : decomp T) : same_up_to_numbering d d.
Proof. constructor; auto. Qed.
Lemma alike_sym (d e : decomp T) : same_up_to_numbering d e -> same_up_to_numbering e d.
Proof. intros []. constructor; auto. symmetry. assumption. Qed.
Lemma alike_trans (d e f : decomp T) : same_up_to_numbering d e -> same_up_to_numbering e f -> same_up_to_numbering d f.
Proof. intros [] []. constructor; try congruence; etransitivity; eauto. Qed.

Lemma perm_ends {B} (x y : B) C1 C2 C1' C2' ex : Permutation (C1 ++ x :: C2) (C1' ++ x :: C2') ->
  Permutation (C1 ++ y :: C2 ++ ex) (C1' ++ y :: C2' ++ ex).
Proof.
  intro P. apply Permutation_app_inv in P. rewrite <- !Permutation_middle. apply perm_skip. rewrite !app_assoc. apply Permutation_app_tail. exact P.
Qed.

(** The numbers of the components do not matter. *)
Lemma step_alike e0 d e c c' x fuel limit st d1 : dec_ok e0 d -> dec_ok e0 e -> (limit <= INT_MAX)%Z ->
  nth_error (d_comps d) c = Some x -> nth_error (d_comps e) c' = Some x -> same_up_to_numbering d e ->
  decomposition_step fuel limit c d = Ok (st, d1) ->
  exists st' e1, decomposition_step fuel limit c' e = Ok (st', e1) /\ same_answer st st' /\ same_up_to_numbering d1 e1.
Proof.
  intros H H' HL E E' G Es.
  destruct (step_pair e0 d e c c' x fuel limit st d1 H H' HL E E' (alike_agree _ _ _ G) Es) as (st' & e1 & C1 & C2 & C1' & C2' & y & ex & Es' & An & Ed & Lc & Ch & Ee & Lc' & Ch' & Ag).
  exists st', e1. split; [exact Es'|]. split; [exact An|].
  apply (alike_make e0 d1 e1 y y); try apply Ch; try apply Ch'.
  - rewrite (cg_comps _ _ _ _ _ _ _ _ Ch). apply in_middle. auto.
  - rewrite (cg_comps _ _ _ _ _ _ _ _ Ch'). apply in_middle. auto.
  - exact (agree_ends _ _ _ _ _ _ _ _ _ _ _ _ _ _ Ch Ch' Ag (alike_agree _ _ _ G)).
  - rewrite (cg_comps _ _ _ _ _ _ _ _ Ch), (cg_comps _ _ _ _ _ _ _ _ Ch'). apply perm_ends with (x := x).
    rewrite <- Ed, <- Ee. apply (su_components _ _ G).
Qed.

(** A step leaves the other components alone. *)
Lemma change_other e0 d C1 x C2 y ex d1 c z : d_comps d = C1 ++ x :: C2 -> change e0 d C1 x C2 y ex d1 -> c <> length C1 ->
  nth_error (d_comps d) c = Some z -> nth_error (d_comps d1) c = Some z.
Proof.
  intros Ed Ch N E. rewrite (cg_comps _ _ _ _ _ _ _ _ Ch). rewrite Ed in E. destruct (Nat.lt_ge_cases c (length C1)).
  - rewrite nth_error_app1 in * by assumption. exact E.
  - rewrite nth_error_app2 in * by assumption. destruct (c - length C1) as [|k] eqn:Ek; [lia|]. cbn [nth_error] in *.
    rewrite nth_error_app1; [exact E|]. apply nth_error_Some. rewrite E. discriminate.
Qed.

Lemma mid_other (d : decomp T) C1 x C2 c z : d_comps d = C1 ++ x :: C2 -> c <> length C1 -> nth_error (d_comps d) c = Some z -> In z (C1 ++ C2).
Proof.
  intros Ed N Ej. rewrite Ed in Ej. destruct (Nat.lt_ge_cases c (length C1)).
  - rewrite nth_error_app1 in Ej by assumption. apply in_or_app. left. eapply nth_error_In; exact Ej.
  - rewrite nth_error_app2 in Ej by assumption. destruct (c - length C1) eqn:En; [lia|]. cbn in Ej. apply in_or_app. right. eapply nth_error_In; exact Ej.
Qed.

Lemma change_agree e0 d C1 x C2 y ex d1 c z : dec_ok e0 d -> d_comps d = C1 ++ x :: C2 -> change e0 d C1 x C2 y ex d1 -> c <> length C1 ->
  nth_error (d_comps d) c = Some z -> agree (of_comp z) d1 d.
Proof.
  intros H Ed Ch N E. pose proof (mid_other d C1 x C2 c z Ed N E) as Hz. constructor.
  - apply Ch.
  - intros l Hl. apply (cg_lens _ _ _ _ _ _ _ _ Ch). intro Q. exact (dk_disjoint e0 d C1 x C2 z l H Ed Hz Q Hl).
  - intros l Hl. apply (cg_conns _ _ _ _ _ _ _ _ Ch). intro Q. exact (dk_disjoint e0 d C1 x C2 z l H Ed Hz Q Hl).
Qed.

(** Replacing at two places and appending. *)
Lemma set_two {B} (l l1 l2 l12 l21 : list B) a b x1 x2 y1 y2 P1 S1 P2 S2 e1 e2 P1' S1' P2' S2' :
  a <> b ->
  l = P1 ++ x1 :: S1 -> length P1 = a -> l1 = P1 ++ y1 :: S1 ++ e1 ->
  l1 = P2 ++ x2 :: S2 -> length P2 = b -> l12 = P2 ++ y2 :: S2 ++ e2 ->
  l = P2' ++ x2 :: S2' -> length P2' = b -> l2 = P2' ++ y2 :: S2' ++ e2 ->
  l2 = P1' ++ x1 :: S1' -> length P1' = a -> l21 = P1' ++ y1 :: S1' ++ e1 ->
  Permutation l12 l21.
Proof.
  intros N E1 L1 F1 E2 L2 F2 E3 L3 F3 E4 L4 F4.
  assert (Key : forall (p s p' s' : list B) u v w, p ++ u :: s = p' ++ v :: s' -> length p < length p' ->
    exists m, p' = p ++ u :: m /\ s = m ++ v :: s' /\ w = w :> B).
  { clear. intros p s p' s' u v w E L. revert p' E L. induction p as [|q p IH]; intros p' E L.
    - destruct p' as [|q' p']; [simpl in L; lia|]. simpl in E. injection E as -> ->. exists p'. auto.
    - destruct p' as [|q' p']; [simpl in L; lia|]. simpl in E. injection E as -> E. destruct (IH p' E) as (m & -> & -> & _); [simpl in L; lia|]. exists m. auto. }
  assert (Same : forall (p s p' s' : list B) u v, p ++ u :: s = p' ++ v :: s' -> length p = length p' -> p = p' /\ u = v /\ s = s').
  { clear. intros p s p'. revert p. induction p' as [|q p' IH]; intros [|r p] s' u v E L; try discriminate.
    - simpl in E. injection E as -> ->. auto.
    - simpl in E. injection E as -> E. destruct (IH p s' u v E) as (-> & -> & ->); [simpl in L; lia|]. auto. }
  rewrite F1 in E2. rewrite E1 in E3. rewrite F3 in E4.
  assert (a < b \/ b < a) as [C|C] by lia.
  - destruct (Key _ _ _ _ _ _ x1 E3) as (m & Q1 & Q2 & _); [lia|]. subst P2' S1.
    destruct (Key P1 ((m ++ x2 :: S2') ++ e1) P2 S2 y1 x2 x1 E2) as (m2 & Q3 & Q4 & _); [lia|].
    subst P2. rewrite <- app_assoc in Q4. cbn [app] in Q4.
    assert (length m = length m2) by (rewrite !app_length in *; simpl in *; lia).
    destruct (Same _ _ _ _ _ _ Q4 H) as (<- & _ & <-).
    rewrite <- app_assoc in E4. cbn [app] in E4. destruct (Same _ _ _ _ _ _ E4) as (-> & _ & <-); [lia|].
    subst l12 l21. rewrite <- !app_assoc. cbn [app]. rewrite <- !app_assoc. cbn [app]. apply Permutation_app_head, perm_skip, Permutation_app_head, perm_skip.
    rewrite <- ?app_assoc. apply Permutation_app_head, Permutation_app_comm.
  - destruct (Key P2' S2' P1 S1 x2 x1 x1) as (m & Q1 & Q2 & _); [symmetry; exact E3|lia|]. subst P1 S2'.
    rewrite <- app_assoc in E2. cbn [app] in E2. destruct (Same _ _ _ _ _ _ E2) as (<- & _ & <-); [lia|].
    destruct (Key P2' ((m ++ x1 :: S1) ++ e2) P1' S1' y2 x1 x1 E4) as (m2 & Q3 & Q4 & _); [lia|].
    subst P1'. rewrite <- app_assoc in Q4. cbn [app] in Q4.
    assert (length m = length m2) by (rewrite !app_length in *; simpl in *; lia).
    destruct (Same _ _ _ _ _ _ Q4 H) as (<- & _ & <-).
    subst l12 l21. rewrite <- !app_assoc. cbn [app]. rewrite <- !app_assoc. cbn [app]. apply Permutation_app_head, perm_skip, Permutation_app_head, perm_skip.
    rewrite <- ?app_assoc. apply Permutation_app_head, Permutation_app_comm.
Qed.

(** Steps on two different components commute. *)
Lemma step_commute e0 d a b fuel fuel' limit limit' sa d1 sb d12 : dec_ok e0 d -> (limit <= INT_MAX)%Z -> (limit' <= INT_MAX)%Z ->
  a < length (d_comps d) -> b < length (d_comps d) -> a <> b ->
  decomposition_step fuel limit a d = Ok (sa, d1) -> decomposition_step fuel' limit' b d1 = Ok (sb, d12) ->
  exists sb' d2 sa' d21, decomposition_step fuel' limit' b d = Ok (sb', d2) /\ decomposition_step fuel limit a d2 = Ok (sa', d21) /\
    same_answer sa sa' /\ same_answer sb sb' /\ same_up_to_numbering d12 d21 /\ dec_ok e0 d2 /\ dec_ok e0 d1 /\ dec_ok e0 d12 /\ dec_ok e0 d21.
Proof.
  intros H HL HL' Ha Hb N E1 E2.
  destruct (nth_error (d_comps d) a) as [xa|] eqn:Xa; [|apply nth_error_None in Xa; lia].
  destruct (nth_error (d_comps d) b) as [xb|] eqn:Xb; [|apply nth_error_None in Xb; lia].
  destruct (step_change_at e0 d a xa fuel limit sa d1 H HL Xa E1) as (P1 & S1 & ya & exa & Ed & La & Ch1 & _).
  pose proof (cg_ok _ _ _ _ _ _ _ _ Ch1) as H1.
  assert (Nb : b <> length P1) by lia.
  pose proof (change_other _ _ _ _ _ _ _ _ _ _ Ed Ch1 Nb Xb) as Xb1.
  pose proof (change_agree _ _ _ _ _ _ _ _ _ _ H Ed Ch1 Nb Xb) as Ag1.
  destruct (step_pair e0 d1 d b b xb fuel' limit' sb d12 H1 H HL' Xb1 Xb Ag1 E2)
    as (sb' & d2 & P2 & S2 & P2' & S2' & yb & exb & E3 & An2 & Ed1 & Lb & Ch2 & Ed' & Lb' & Ch3 & Ag2).
  pose proof (cg_ok _ _ _ _ _ _ _ _ Ch3) as H2.
  assert (Na : a <> length P2') by lia.
  pose proof (change_other _ _ _ _ _ _ _ _ _ _ Ed' Ch3 Na Xa) as Xa2.
  pose proof (change_agree _ _ _ _ _ _ _ _ _ _ H Ed' Ch3 Na Xa) as Ag3.
  destruct (step_pair e0 d d2 a a xa fuel limit sa d1 H H2 HL Xa Xa2 (agree_sym _ _ _ Ag3) E1)
    as (sa' & d21 & Q1 & T1 & P1' & S1' & ya' & exa' & E4 & An1 & Ed'' & Lq & Ch1' & Ed2 & La' & Ch4 & Ag4).
  exists sb', d2, sa', d21. split; [exact E3|]. split; [exact E4|]. split; [exact An1|]. split; [exact An2|].
  split; [|split; [exact H2|split; [exact H1|split; [apply Ch2|apply Ch4]]]].
  assert (ya' = ya /\ exa' = exa) as [-> ->].
  { pose proof (cg_comps _ _ _ _ _ _ _ _ Ch1) as U. rewrite (cg_comps _ _ _ _ _ _ _ _ Ch1') in U. rewrite Ed in Ed''.
    assert (P1 = Q1 /\ S1 = T1) as [<- <-].
    { apply (f_equal (firstn a)) in Ed'' as V. rewrite !firstn_app in V. rewrite La, Lq, Nat.sub_diag, !firstn_O, !app_nil_r, !firstn_all2 in V by lia. subst Q1.
      split; [reflexivity|]. apply app_inv_head in Ed''. congruence. }
    apply app_inv_head in U. injection U as <- U. apply app_inv_head in U. auto. }
  assert (Dis : forall l, of_comp xa l -> ~ of_comp xb l).
  { intros l Ql. pose proof (mid_other d P1 xa S1 b xb Ed Nb Xb) as Hz. exact (dk_disjoint e0 d P1 xa S1 xb l H Ed Hz Ql). }
  apply (alike_make e0 d12 d21 yb ya).
  - apply Ch2.
  - apply Ch4.
  - rewrite (cg_comps _ _ _ _ _ _ _ _ Ch2). apply in_middle. auto.
  - rewrite (cg_comps _ _ _ _ _ _ _ _ Ch4). apply in_middle. auto.
  - constructor.
    + rewrite (cg_len _ _ _ _ _ _ _ _ Ch2), (cg_len _ _ _ _ _ _ _ _ Ch4), (cg_len _ _ _ _ _ _ _ _ Ch1), (cg_len _ _ _ _ _ _ _ _ Ch3). reflexivity.
    + intros l _. destruct (in_dec Nat.eq_dec l (i_top (dc_iet xb))) as [Hl|Hl].
      * rewrite (ag_lens _ _ _ Ag2 l Hl). symmetry. apply (cg_lens _ _ _ _ _ _ _ _ Ch4). intro Q. exact (Dis l Q Hl).
      * rewrite (cg_lens _ _ _ _ _ _ _ _ Ch2 l Hl). destruct (in_dec Nat.eq_dec l (i_top (dc_iet xa))) as [Hm|Hm].
        -- apply (ag_lens _ _ _ Ag4 l Hm).
        -- rewrite (cg_lens _ _ _ _ _ _ _ _ Ch1 l Hm), (cg_lens _ _ _ _ _ _ _ _ Ch4 l Hm), (cg_lens _ _ _ _ _ _ _ _ Ch3 l Hl). reflexivity.
    + intros l _. destruct (in_dec Nat.eq_dec l (i_top (dc_iet xb))) as [Hl|Hl].
      * rewrite (ag_conns _ _ _ Ag2 l Hl). symmetry. apply (cg_conns _ _ _ _ _ _ _ _ Ch4). intro Q. exact (Dis l Q Hl).
      * rewrite (cg_conns _ _ _ _ _ _ _ _ Ch2 l Hl). destruct (in_dec Nat.eq_dec l (i_top (dc_iet xa))) as [Hm|Hm].
        -- apply (ag_conns _ _ _ Ag4 l Hm).
        -- rewrite (cg_conns _ _ _ _ _ _ _ _ Ch1 l Hm), (cg_conns _ _ _ _ _ _ _ _ Ch4 l Hm), (cg_conns _ _ _ _ _ _ _ _ Ch3 l Hl). reflexivity.
  - exact (set_two _ _ _ _ _ a b xa xb ya yb _ _ _ _ _ _ _ _ _ _ N Ed La (cg_comps _ _ _ _ _ _ _ _ Ch1) Ed1 Lb (cg_comps _ _ _ _ _ _ _ _ Ch2)
      Ed' Lb' (cg_comps _ _ _ _ _ _ _ _ Ch3) Ed2 La' (cg_comps _ _ _ _ _ _ _ _ Ch4)).
Qed.
End Order.
