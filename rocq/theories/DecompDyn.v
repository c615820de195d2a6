(** The components of a decomposition are first return maps of the original exchange. *)
From Coq Require Import Reals Permutation Lia Lra.
From Verif Require Import Base Spec SpecDec Dyn Path Direct Decomp DecompSim DecompInv.
Open Scope R_scope.

Lemma first_return_shift (f : R -> R -> Prop) (J : R -> Prop) o x y : first_return f J x y ->
  first_return (fun a b => f (a - o) (b - o)) (fun u => J (u - o)) (x + o) (y + o).
Proof.
  intros (n & Hn & Hi & Hy & Hm). exists n. split; [exact Hn|]. split; [|split].
  - apply (iter_map f (fun a b => f (a - o) (b - o)) (fun u => u + o)); [|exact Hi].
    intros a b H. replace (a + o - o) with a by lra. replace (b + o - o) with b by lra. exact H.
  - replace (y + o - o) with y by lra. exact Hy.
  - intros k z Hk Hz. apply (Hm k (z - o) Hk).
    pose proof (iter_map (fun a b => f (a - o) (b - o)) f (fun u => u - o) (fun a b H => H) k _ _ Hz) as H.
    simpl in H. replace (x + o - o) with x in H by lra. exact H.
Qed.

(** One direction is enough. *)
Lemma piece_intro e0 e o : proper e0 -> proper e -> 0 <= o -> o + size e <= size e0 ->
  (forall y z, maps e y z -> first_return (maps e0) (fun u => o <= u < o + size e) (y + o) (z + o)) -> piece e0 e o.
Proof.
  intros P0 P H1 H2 F. split; [exact H1|]. split; [exact H2|]. intros y z Hy. split; [apply F|]. intro R.
  destruct (maps_total e P y Hy) as (z' & Hz). pose proof (F _ _ Hz) as R'.
  assert (z + o = z' + o) by (eapply (first_return_fun (maps e0)); [apply maps_fun; exact P0|exact R|exact R']).
  replace z with z' by lra. exact Hz.
Qed.

Lemma first_return_ext {A} (f : A -> A -> Prop) (J J' : A -> Prop) x y : (forall u, J u <-> J' u) ->
  first_return f J x y -> first_return f J' x y.
Proof.
  intros H (n & Hn & Hi & Hy & Hm). exists n. split; [exact Hn|]. split; [exact Hi|]. split; [apply H, Hy|].
  intros k z Hk Hz C. apply (Hm k z Hk Hz), H, C.
Qed.

Lemma piece_trans e0 e e' o d : proper e0 -> proper e -> proper e' -> piece e0 e o -> piece e e' d -> piece e0 e' (o + d).
Proof.
  intros P0 P P' (A1 & A2 & A3) (B1 & B2 & B3). apply piece_intro; auto; try lra.
  intros y z Hm.
  assert (Hy : 0 <= y < size e') by exact (maps_dom _ P' _ _ Hm).
  pose proof (proj1 (B3 y z Hy) Hm) as R. apply (first_return_shift _ _ o) in R.
  replace (y + (o + d)) with (y + d + o) by lra. replace (z + (o + d)) with (z + d + o) by lra.
  eapply first_return_ext; [|eapply (first_return_trans (maps e0) (fun u => o <= u < o + size e)); [apply maps_fun; exact P0| | |exact R]].
  - intro u. simpl. lra.
  - intros u. simpl. lra.
  - intros a b H. assert (Ha : 0 <= a - o < size e) by exact (maps_dom _ P _ _ H).
    pose proof (proj1 (A3 _ _ Ha) H) as Q. replace (a - o + o) with a in Q by lra. replace (b - o + o) with b in Q by lra. exact Q.
Qed.

Lemma piece_refl e : proper e -> piece e e 0.
Proof.
  intro P. apply piece_intro; auto; try lra. intros y z H. rewrite !Rplus_0_r. exists 1%nat. split; [lia|].
  split; [exists z; split; [exact H|reflexivity]|]. split; [pose proof (maps_ran _ P _ _ H); unfold size in *; lra|]. intros k w Hk. lia.
Qed.

Lemma induced_piece e e' : proper e -> proper e' -> induced e e' -> piece e e' (size e - size e').
Proof.
  intros P P' (D & F & _). apply piece_intro; auto; unfold size in *; try lra.
  intros y z H. assert (Hy : 0 <= y) by apply (maps_dom _ P' _ _ H).
  destruct (proj1 (F y z Hy) H) as (n & Hn & Hi & Hz & Hm).
  exists n. split; [exact Hn|]. split; [exact Hi|]. split.
  - pose proof (maps_ran _ P' _ _ H). lra.
  - intros k w Hk Hw C. apply (Hm k w Hk Hw). lra.
Qed.

Lemma cut_pieces e k : proper e -> invariant_prefix e k ->
  piece e (left_of e k) 0 /\ piece e (right_of e k) (size (left_of e k)) /\ size e = size (left_of e k) + size (right_of e k) /\
  proper (left_of e k) /\ proper (right_of e k).
Proof.
  intros P [Hk Pe].
  assert (Et : e_top e = firstn k (e_top e) ++ skipn k (e_top e)) by (symmetry; apply firstn_skipn).
  assert (Eb : e_bot e = firstn k (e_bot e) ++ skipn k (e_bot e)) by (symmetry; apply firstn_skipn).
  destruct (cut_proper e _ _ _ _ P Et Eb Pe) as [PL PR].
  assert (S : size e = size (left_of e k) + size (right_of e k)).
  { unfold size, left_of, right_of. simpl. rewrite <- total_app, <- Et. reflexivity. }
  assert (SL : 0 <= size (left_of e k)) by (apply total_nonneg; intros c Hc; apply PL; exact Hc).
  assert (SR : 0 <= size (right_of e k)) by (apply total_nonneg; intros c Hc; apply PR; exact Hc).
  split; [|split; [|split; [exact S|split; assumption]]].
  - apply piece_intro; auto; try lra. intros y z H. rewrite !Rplus_0_r.
    exists 1%nat. split; [lia|]. split; [exists z; split; [|reflexivity]|split].
    + apply (cut_left e _ _ _ _ P Et Eb Pe). exact H.
    + assert (0 <= z < size (left_of e k)) by exact (maps_ran _ PL _ _ H). lra.
    + intros j w Hj. lia.
  - apply piece_intro; auto; try lra. intros y z H.
    exists 1%nat. split; [lia|]. split; [exists (z + size (left_of e k)); split; [|reflexivity]|split].
    + apply (cut_right e _ _ _ _ P Et Eb Pe); [apply (maps_dom _ PR _ _ H)|exact H].
    + assert (0 <= z < size (right_of e k)) by exact (maps_ran _ PR _ _ H). lra.
    + intros j w Hj. lia.
Qed.

Lemma piece_agree e0 e e' o : agree e e' -> piece e0 e o -> piece e0 e' o.
Proof.
  intros A (A1 & A2 & A3). assert (S : size e = size e') by apply (agree_total _ _ A).
  unfold piece. rewrite <- S. split; [exact A1|]. split; [exact A2|]. intros y z Hy. rewrite <- (A3 y z Hy).
  split; apply agree_maps; [apply agree_sym|]; exact A.
Qed.

(** Iterates of a piece are iterates of the whole. *)
Lemma piece_iter e0 e o : proper e -> piece e0 e o -> forall m u v, iter (maps e) m u v ->
  exists k, (m <= k)%nat /\ iter (maps e0) k (u + o) (v + o).
Proof.
  intros P (A1 & A2 & A3). induction m as [|m IH]; intros u v H.
  - simpl in H. subst. exists 0%nat. split; [lia|reflexivity].
  - destruct H as (w & Hw & H). destruct (IH w v H) as (k & Hk & Hi).
    destruct (proj1 (A3 u w (maps_dom _ P _ _ Hw)) Hw) as (n & Hn & Hj & _).
    exists (n + k)%nat. split; [lia|]. eapply iter_add; eassumption.
Qed.

Lemma piece_iter_back e0 e o : proper e0 -> proper e -> piece e0 e o ->
  forall n u v, 0 <= u < size e -> 0 <= v < size e -> iter (maps e0) n (u + o) (v + o) ->
  exists m, iter (maps e) m u v /\ ((1 <= n)%nat -> (1 <= m)%nat).
Proof.
  intros P0 P (A1 & A2 & A3) n. induction n as [n IH] using (well_founded_induction Wf_nat.lt_wf).
  intros u v Hu Hv Hi. destruct n as [|n].
  { simpl in Hi. exists 0%nat. split; [simpl; lra|lia]. }
  destruct (maps_total e P u Hu) as (w & Hw). pose proof (proj1 (A3 u w Hu) Hw) as (k & Hk1 & Hk2 & Hk3 & Hk4).
  assert (Hle : (k <= S n)%nat).
  { destruct (le_lt_dec k (S n)) as [H|H]; [exact H|]. exfalso. apply (Hk4 (S n) (v + o)); auto; [lia|lra]. }
  replace (S n) with (k + (S n - k))%nat in Hi by lia. apply iter_split in Hi. destruct Hi as [t [T1 T2]].
  rewrite (iter_fun _ (maps_fun _ P0) _ _ _ _ T1 Hk2) in T2.
  destruct (IH (S n - k)%nat ltac:(lia) w v) as [m [Hm _]]; auto; [lra|].
  exists (S m). split; [exists w; auto|lia].
Qed.

Lemma piece_periodic e0 e o y : proper e0 -> proper e -> piece e0 e o -> 0 <= y < size e ->
  (periodic (maps e) y <-> periodic (maps e0) (y + o)).
Proof.
  intros P0 P Q Hy. split; intros (n & Hn & H).
  - destruct (piece_iter e0 e o P Q n y y H) as (k & Hk & Hi). exists k. split; [lia|exact Hi].
  - destruct (piece_iter_back e0 e o P0 P Q n y y Hy Hy H) as (m & Hm & Hm'). exists m. split; [apply Hm'; lia|exact Hm].
Qed.

(** ** Tilings *)

Lemma fop_app_cons {A} (R : A -> A -> Prop) l p m : ForallOrdPairs R (l ++ p :: m) <->
  ForallOrdPairs R (l ++ m) /\ Forall (fun x => R x p) l /\ Forall (R p) m.
Proof.
  induction l as [|x l IH]; simpl.
  - split.
    + intro H. inversion H; subst. auto.
    + intros (H & _ & H'). constructor; auto.
  - split.
    + intro H. inversion H as [|? ? Hx Hl]; subst. apply IH in Hl as (H1 & H2 & H3).
      apply Forall_app in Hx as [Hx1 Hx2]. inversion Hx2; subst. split; [constructor; [apply Forall_app|]; auto|]. auto.
    + intros (H & H2 & H3). inversion H as [|? ? Hx Hl]; subst. inversion H2; subst. apply Forall_app in Hx as [Hx1 Hx2].
      constructor; [apply Forall_app; split; [exact Hx1|constructor; assumption]|]. apply IH. auto.
Qed.

Lemma apart_sub p e o q d : apart p (e, o) -> 0 <= d -> d + size q <= size e -> apart p (q, o + d).
Proof. unfold apart. simpl. intros [H|H] H1 H2; [left|right]; lra. Qed.
Lemma apart_sym p q : apart p q -> apart q p.
Proof. unfold apart. tauto. Qed.

(** Replacing one tile by smaller ones. *)
Lemma tiles_replace e0 e o P1 P2 e' d : proper e0 -> proper e -> proper e' -> tiles e0 (P1 ++ (e, o) :: P2) ->
  piece e e' d -> (forall x, 0 <= x < size e -> exists n z, iter (maps e) n x z /\ d <= z < d + size e') ->
  tiles e0 (P1 ++ (e', o + d) :: P2).
Proof.
  intros P0 P P' (A & B & C) Q V. pose proof Q as (Q1 & Q2 & _).
  assert (Pe : piece e0 e o) by (apply A; apply in_or_app; right; left; reflexivity).
  split; [|split].
  - intros e1 o1 H. apply in_app_or in H as [H|[H|H]].
    + apply A. apply in_or_app. auto.
    + injection H as <- <-. exact (piece_trans e0 e e' o d P0 P P' Pe Q).
    + apply A. apply in_or_app. right. right. exact H.
  - apply fop_app_cons in B as (B1 & B2 & B3). apply fop_app_cons. split; [exact B1|]. split.
    + eapply Forall_impl; [|exact B2]. intros p Hp. apply (apart_sub _ e o); [exact Hp|lra|lra].
    + eapply Forall_impl; [|exact B3]. intros p Hp. apply apart_sym in Hp. apply apart_sym. apply (apart_sub _ e o); [exact Hp|lra|lra].
  - intros x Hx. destruct (C x Hx) as (n & z & e1 & o1 & Hn & Hin & Hz). apply in_app_or in Hin as [H|[H|H]].
    + exists n, z, e1, o1. split; [exact Hn|]. split; [apply in_or_app; auto|exact Hz].
    + injection H as <- <-. destruct (V (z - o)) as (m & w & Hm & Hw); [split; lra|].
      destruct (piece_iter e0 e o P Pe m _ _ Hm) as (k & _ & Hk). replace (z - o + o) with z in Hk by lra.
      exists (n + k)%nat, (w + o), e', (o + d). split; [eapply iter_add; eassumption|]. 
      split; [apply in_or_app; right; left; reflexivity|]. lra.
    + exists n, z, e1, o1. split; [exact Hn|]. split; [apply in_or_app; right; right; exact H|exact Hz].
Qed.

Lemma tiles_induced e0 e o P1 P2 e' : proper e0 -> proper e -> proper e' -> tiles e0 (P1 ++ (e, o) :: P2) ->
  induced e e' -> tiles e0 (P1 ++ (e', o + (size e - size e')) :: P2).
Proof.
  intros P0 P P' H I. apply (tiles_replace e0 e o P1 P2 e' (size e - size e') P0 P P' H).
  - apply induced_piece; assumption.
  - intros x Hx. destruct I as (_ & _ & V). destruct (V x Hx) as (n & z & Hn & Hz). exists n, z. split; [exact Hn|].
    assert (Hz' : 0 <= z < size e).
    { destruct n as [|n]; [simpl in Hn; subst; exact Hx|]. apply iter_S_r in Hn as (w & _ & Hw). exact (maps_ran _ P _ _ Hw). }
    unfold size in *. lra.
Qed.

Lemma tiles_split e0 e o P1 P2 k : proper e0 -> proper e -> tiles e0 (P1 ++ (e, o) :: P2) -> invariant_prefix e k ->
  tiles e0 (P1 ++ (left_of e k, o) :: P2 ++ [(right_of e k, o + size (left_of e k))]).
Proof.
  intros P0 P (A & B & C) Hk. destruct (cut_pieces e k P Hk) as (QL & QR & S & PL & PR).
  assert (Pe : piece e0 e o) by (apply A; apply in_or_app; right; left; reflexivity).
  assert (SL : 0 <= size (left_of e k)) by (apply total_nonneg; intros c Hc; apply PL; exact Hc).
  assert (SR : 0 <= size (right_of e k)) by (apply total_nonneg; intros c Hc; apply PR; exact Hc).
  pose proof (piece_trans e0 e _ o _ P0 P PL Pe QL) as TL. rewrite Rplus_0_r in TL.
  pose proof (piece_trans e0 e _ o _ P0 P PR Pe QR) as TR.
  split; [|split].
  - intros e1 o1 H. rewrite in_app_iff in H. simpl in H. rewrite in_app_iff in H. simpl in H.
    destruct H as [H|[H|[H|[H|[]]]]]; try (injection H as <- <-; assumption); apply A; apply in_or_app; [left|right; right]; exact H.
  - apply fop_app_cons in B as (B1 & B2 & B3). rewrite app_comm_cons, app_assoc.
    apply fop_app_cons. split; [|split; [|constructor]].
    + rewrite app_nil_r. apply fop_app_cons. split; [exact B1|]. split.
      * eapply Forall_impl; [|exact B2]. intros p Hp. replace o with (o + 0) by lra. apply (apart_sub _ e o); [exact Hp|lra|lra].
      * eapply Forall_impl; [|exact B3]. intros p Hp. apply apart_sym in Hp. apply apart_sym. replace o with (o + 0) by lra. apply (apart_sub _ e o); [exact Hp|lra|lra].
    + apply Forall_app. split.
      * eapply Forall_impl; [|exact B2]. intros p Hp. apply (apart_sub _ e o); [exact Hp|lra|lra].
      * constructor; [unfold apart; simpl; lra|].
        eapply Forall_impl; [|exact B3]. intros p Hp. apply apart_sym in Hp. apply (apart_sub _ e o); [exact Hp|lra|lra].
  - intros x Hx. destruct (C x Hx) as (n & z & e1 & o1 & Hn & Hin & Hz). apply in_app_or in Hin as [H|[H|H]].
    + exists n, z, e1, o1. split; [exact Hn|]. split; [apply in_or_app; auto|exact Hz].
    + injection H as <- <-. destruct (Rlt_le_dec z (o + size (left_of e k))) as [L|L].
      * exists n, z, (left_of e k), o. split; [exact Hn|]. split; [apply in_or_app; right; left; reflexivity|]. lra.
      * exists n, z, (right_of e k), (o + size (left_of e k)). split; [exact Hn|].
        split; [apply in_or_app; right; right; apply in_or_app; right; left; reflexivity|]. lra.
    + exists n, z, e1, o1. split; [exact Hn|]. split; [apply in_or_app; right; right; apply in_or_app; left; exact H|exact Hz].
Qed.

Lemma tiles_agree e0 P E' : tiles e0 P -> Forall2 agree (map fst P) E' -> exists P', map fst P' = E' /\ tiles e0 P'.
Proof.
  intros (A & B & C) HF. 
  assert (Hex : exists P', map fst P' = E' /\ Forall2 (fun p q => agree (fst p) (fst q) /\ snd p = snd q) P P').
  { clear A B C. revert E' HF. induction P as [|[e o] P IH]; intros E' HF; inversion HF as [|? e' ? E'' Ha HF']; subst.
    - exists []. split; [reflexivity|constructor].
    - destruct (IH E'' HF') as (P' & <- & H). exists ((e', o) :: P'). split; [reflexivity|]. constructor; [simpl; auto|exact H]. }
  destruct Hex as (P' & HE & H2). exists P'. split; [exact HE|].
  assert (Fwd : forall p, In p P -> exists q, In q P' /\ agree (fst p) (fst q) /\ snd p = snd q).
  { clear -H2. induction H2 as [|p q P P' H H2 IH]; intros x []; subst; [exists q; split; [left; reflexivity|exact H]|].
    destruct (IH x H0) as (y & Hy & R). exists y. split; [right; exact Hy|exact R]. }
  assert (Bwd : forall q, In q P' -> exists p, In p P /\ agree (fst p) (fst q) /\ snd p = snd q).
  { clear -H2. induction H2 as [|p q P P' H H2 IH]; intros x []; subst; [exists p; split; [left; reflexivity|exact H]|].
    destruct (IH x H0) as (y & Hy & R). exists y. split; [right; exact Hy|exact R]. }
  split; [|split].
  - intros e o H. destruct (Bwd (e, o) H) as ([e1 o1] & H1 & Ag & Eo). simpl in Ag, Eo. subst o1. eapply piece_agree; [exact Ag|]. apply A. exact H1.
  - clear -H2 B. assert (Ap : forall p p' q q', agree (fst p) (fst p') -> snd p = snd p' -> agree (fst q) (fst q') -> snd q = snd q' -> apart p q -> apart p' q').
    { intros p p' q q' A1 S1 A2 S2. unfold apart, size. destruct (agree_total _ _ A1) as [<- _]. destruct (agree_total _ _ A2) as [<- _]. rewrite <- S1, <- S2. tauto. }
    induction H2 as [|p q P P' H H2 IH]; [constructor|]. inversion B as [|? ? B1 B2]; subst. constructor; [|apply IH; exact B2].
    clear IH B B2. induction H2 as [|p2 q2 P P' H' H2 IH]; [constructor|]. inversion B1; subst. destruct H, H'. constructor; [eapply Ap; eauto|]. apply IH. assumption.
  - intros x Hx. destruct (C x Hx) as (n & z & e & o & Hn & Hin & Hz). destruct (Fwd (e, o) Hin) as ([e' o'] & Hq & Ag & Eo). simpl in Ag, Eo. subst o'.
    exists n, z, e', o. split; [exact Hn|]. split; [exact Hq|]. unfold size in *. destruct (agree_total _ _ Ag) as [<- _]. exact Hz.
Qed.

Lemma map_fst_mid (P : list (exch * R)) E1 e E2 : map fst P = E1 ++ e :: E2 ->
  exists P1 o P2, P = P1 ++ (e, o) :: P2 /\ map fst P1 = E1 /\ map fst P2 = E2.
Proof.
  revert P. induction E1 as [|x E1 IH]; intros [|[y o] P] H; try discriminate.
  - injection H as -> H. exists [], o, P. auto.
  - injection H as -> H. destruct (IH P H) as (P1 & o' & P2 & -> & <- & <-). exists ((x, o) :: P1), o', P2. auto.
Qed.

Lemma astep_tiles e0 E f E' f' D P : conn_inv e0 E f D -> astep E f E' f' -> map fst P = E -> tiles e0 P ->
  exists P', map fst P' = E' /\ tiles e0 P'.
Proof.
  intros CI S HE HT. pose proof (ci_start _ _ _ _ CI) as P0. destruct S.
  - eapply tiles_agree; [exact HT|]. rewrite HE. assumption.
  - destruct (map_fst_mid P E1 e E2 HE) as (P1 & o & P2 & -> & <- & <-).
    assert (Pe : proper e) by (apply (ci_proper _ _ _ _ CI), in_middle; auto).
    destruct (path_induced e e' Pe) as [I P']; [eapply cpath_path; eassumption|].
    exists (P1 ++ (e', o + (size e - size e')) :: P2). split; [rewrite map_app; reflexivity|]. apply tiles_induced; assumption.
  - destruct (map_fst_mid P E1 e E2 HE) as (P1 & o & P2 & -> & <- & <-).
    assert (Pe : proper e) by (apply (ci_proper _ _ _ _ CI), in_middle; auto).
    eexists. split; [|eapply tiles_split; eassumption]. rewrite map_app. simpl. rewrite map_app. reflexivity.
  - destruct (map_fst_mid P E1 e E2 HE) as (P1 & o & P2 & -> & <- & <-).
    assert (Pe : proper e) by (apply (ci_proper _ _ _ _ CI), in_middle; auto).
    pose proof (merge_step_proper _ _ Pe H) as P'.
    exists (P1 ++ (e', o + (size e - size e')) :: P2). split; [rewrite map_app; reflexivity|]. apply tiles_induced; auto.
    apply merge_step_induced; assumption.
Qed.

Theorem asteps_tiles e0 E f E' f' D P : conn_inv e0 E f D -> asteps E f E' f' -> map fst P = E -> tiles e0 P ->
  exists P', map fst P' = E' /\ tiles e0 P'.
Proof.
  intros CI S. revert D P CI. induction S as [|E f E1 f1 E' f' S1 S IH]; intros D P CI HE HT; [eauto|].
  destruct (astep_inv _ _ _ _ _ _ CI S1) as (D1 & CI1). destruct (astep_tiles _ _ _ _ _ _ P CI S1 HE HT) as (P1 & HE1 & HT1).
  exact (IH D1 P1 CI1 HE1 HT1).
Qed.

Lemma tiles_start e0 : proper e0 -> tiles e0 [(e0, 0)].
Proof.
  intro P. split; [|split].
  - intros e o [H|[]]. injection H as <- <-. apply piece_refl, P.
  - repeat constructor.
  - intros x Hx. exists 0%nat, x, e0, 0. split; [reflexivity|]. split; [left; reflexivity|]. lra.
Qed.

(** ** Consequences *)

Lemma tiles_periodic e0 P : proper e0 -> (forall e o, In (e, o) P -> proper e) -> tiles e0 P ->
  (has_periodic_point e0 <-> exists e o, In (e, o) P /\ has_periodic_point e).
Proof.
  intros P0 PP (A & B & C). split.
  - intros (x & Hx). assert (D : 0 <= x < size e0).
    { destruct Hx as (n & Hn & Hi). destruct n; [lia|]. destruct Hi as (t & Ht & _). exact (maps_dom _ P0 _ _ Ht). }
    destruct (C x D) as (n & z & e & o & Hn & Hin & Hz). exists e, o. split; [exact Hin|]. exists (z - o).
    apply (piece_periodic e0 e o); eauto; [lra|]. replace (z - o + o) with z by lra.
    eapply iter_periodic; [apply maps_fun; exact P0|exact Hx|exact Hn].
  - intros (e & o & Hin & (x & Hx)). pose proof (PP e o Hin) as Pe. exists (x + o).
    assert (D : 0 <= x < size e).
    { destruct Hx as (n & Hn & Hi). destruct n; [lia|]. destruct Hi as (t & Ht & _). exact (maps_dom _ Pe _ _ Ht). }
    apply (piece_periodic e0 e o); eauto.
Qed.

Lemma iter_periodic_back e n x y : proper e -> 0 <= x < size e -> iter (maps e) n x y -> periodic (maps e) y -> periodic (maps e) x.
Proof.
  intros P Hx Hn (m & Hm & H). exists m. split; [exact Hm|].
  assert (T : exists y', iter (maps e) m x y').
  { clear -P Hx. assert (Q : forall j x, 0 <= x < size e -> exists y, iter (maps e) j x y).
    { induction j as [|j IH]; intros u Hu; [exists u; reflexivity|]. destruct (maps_total e P u Hu) as (v & Hv).
      destruct (IH v (maps_ran _ P _ _ Hv)) as (w & Hw). exists w, v. auto. }
    apply Q, Hx. }
  destruct T as (x' & Hx').
  assert (iter (maps e) (n + m) x y) by (eapply iter_add; eassumption).
  rewrite Nat.add_comm in H0. apply iter_split in H0 as (w & Hw1 & Hw2).
  pose proof (iter_fun _ (maps_fun _ P) _ _ _ _ Hw1 Hx') as <-.
  assert (w = x) by (eapply iter_inj; [apply maps_inj; exact P|exact Hw2|exact Hn]). subst w. exact Hw1.
Qed.

Lemma tiles_all_periodic e0 P : proper e0 -> (forall e o, In (e, o) P -> proper e) -> tiles e0 P ->
  ((forall x, 0 <= x < size e0 -> periodic (maps e0) x) <->
   (forall e o x, In (e, o) P -> 0 <= x < size e -> periodic (maps e) x)).
Proof.
  intros P0 PP (A & B & C). split.
  - intros H e o x Hin Hx. pose proof (A e o Hin) as (A1 & A2 & _). apply (piece_periodic e0 e o); eauto. apply H. lra.
  - intros H x Hx. destruct (C x Hx) as (n & z & e & o & Hn & Hin & Hz).
    eapply iter_periodic_back; [exact P0|exact Hx|exact Hn|]. replace z with ((z - o) + o) by lra.
    apply (piece_periodic e0 e o); eauto; [lra|]. eapply H; [exact Hin|lra].
Qed.
