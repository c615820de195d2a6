(** The sides of cylinders: what comes behind what, and what starts or ends where. *)
From Coq Require Import Reals List Permutation Lra Lia.
From Verif Require Import Base Spec SpecGlue SpecSides Dyn Saddle Path Direct Decomp DecompSim DecompInv Glue GlueDec.
Import ListNotations.

(** * Where connections end they come from *)
Section Source.
Open Scope R_scope.
Variable e : exch.
Hypothesis P : proper e.

Lemma pos_total Z : incl Z (e_top e) -> total (e_len e) Z = 0 -> Z = [].
Proof.
  intros Hin HZ. destruct Z as [|z Z]; [reflexivity|]. pose proof (proj2 (proj2 P)) as Hp. simpl in HZ.
  assert (0 < e_len e z) by (apply Hp, Hin; left; reflexivity).
  assert (0 <= total (e_len e) Z) by (apply total_nonneg; intros q Hq; apply Hp, Hin; right; exact Hq). lra.
Qed.

Lemma bot_top a : In a (e_bot e) -> In a (e_top e).
Proof. apply Permutation_in, Permutation_sym, (proj1 (proj2 P)). Qed.

(** The label at the bottom that contains a left end. *)
Lemma bot_label X a Y Z c V x : e_bot e = X ++ a :: Y -> e_bot e = Z ++ c :: V ->
  total (e_len e) X <= x < total (e_len e) X + e_len e a -> x = total (e_len e) Z -> X = Z /\ a = c.
Proof.
  intros E1 E2 Hx Ez. pose proof (proj2 (proj2 P)) as Hp.
  assert (Inc : forall q, In q (X ++ a :: Y) -> In q (e_top e)) by (intros q Hq; apply bot_top; rewrite E1; exact Hq).
  assert (Inc2 : forall q, In q (Z ++ c :: V) -> In q (e_top e)) by (intros q Hq; apply bot_top; rewrite E2; exact Hq).
  pose proof (eq_trans (eq_sym E1) E2) as E.
  destruct (app_cut _ _ _ _ E) as [[K [K1 K2]]|[K [K1 K2]]].
  - (* Z = X ++ K *)
    subst Z. destruct K as [|k K].
    + rewrite app_nil_r. simpl in K2. injection K2 as -> _. auto.
    + exfalso. simpl in K2. injection K2 as <- K2. rewrite total_app in Ez. simpl in Ez.
      assert (0 <= total (e_len e) K); [|lra]. apply total_nonneg. intros q Hq. apply Hp, Inc2, in_or_app. left. apply in_or_app. right. right. exact Hq.
  - subst X. destruct K as [|k K].
    + rewrite app_nil_r in *. simpl in K2. injection K2 as -> _. auto.
    + exfalso. simpl in K2. injection K2 as <- K2. rewrite total_app in Hx. simpl in Hx.
      assert (0 < e_len e c) by (apply Hp, Inc2, in_or_app; right; left; reflexivity).
      assert (0 <= total (e_len e) K); [|lra]. apply total_nonneg. intros q Hq. apply Hp, Inc, in_or_app. left. apply in_or_app. right. right. exact Hq.
Qed.

(** Without meeting a discontinuity one gets to a left end at the bottom only from the left end of
    everything. *)
Lemma smooth_left u z Z c V : e_bot e = Z ++ c :: V -> z = total (e_len e) Z -> ~ singular e u -> maps e u z ->
  u = 0 /\ exists Y, e_top e = c :: Y.
Proof.
  intros E Hz N M. rewrite maps_iff in M. destruct M as (a & X & Y & X' & Y' & Et & Eb & Hu & Ez).
  destruct (bot_label X' a Y' Z c V z Eb E) as [-> ->]; [lra|exact Hz|].
  destruct X as [|q X] using rev_ind.
  - split; [simpl in *; lra|]. exists Y. exact Et.
  - exfalso. apply N. exists q. exists X, (c :: Y). split; [rewrite Et, <- app_assoc; reflexivity|]. rewrite total_app in *. simpl in *. lra.
Qed.

Lemma direct_source b b' t : direct_connection e b t -> direct_connection e b' t -> b = b'.
Proof.
  assert (Far : forall b b' x x' y n n', right_end (e_len e) (e_bot e) b x -> right_end (e_len e) (e_bot e) b' x' -> x < total (e_len e) (e_bot e) ->
    iter (fun u v => ~ singular e u /\ maps e u v) n x y -> iter (fun u v => ~ singular e u /\ maps e u v) n' x' y -> (n < n')%nat -> False).
  { clear b b' t. intros b b' x x' y n n' (Z & V & E & Ex) (Z' & V' & E' & Ex') Lx H H' Lt.
    assert (Inj : forall m a a' z, iter (fun u v => ~ singular e u /\ maps e u v) m a z -> iter (fun u v => ~ singular e u /\ maps e u v) m a' z -> a = a').
    { induction m as [|m IH]; intros a a' z Q Q'; [simpl in *; congruence|]. destruct Q as (w & (_ & M) & Q), Q' as (w' & (_ & M') & Q').
      rewrite (IH _ _ _ Q Q') in M. exact (maps_inj e P _ _ _ M M'). }
    pose proof (proj2 (proj2 P)) as Hp.
    replace n' with ((n' - n - 1) + 1 + n)%nat in H' by lia.
    apply iter_split in H' as (w & H1 & H2). rewrite (Inj _ _ _ _ H2 H) in H1. apply iter_split in H1 as (u & H1 & (v & (N & M) & Ev)). simpl in Ev. subst v.
    destruct V as [|c V]; [rewrite E, total_app in Lx; simpl in Lx; lra|].
    destruct (smooth_left u x (Z ++ [b]) c V) as (-> & Y & Et); [rewrite E, <- app_assoc; reflexivity|rewrite total_app; simpl; lra|exact N|exact M|].
    destruct (n' - n - 1)%nat as [|m] eqn:Em.
    - simpl in H1. assert (0 <= total (e_len e) Z').
      { apply total_nonneg. intros q Hq. apply Hp, bot_top. rewrite E'. apply in_or_app. left. exact Hq. }
      assert (0 < e_len e b') by (apply Hp, bot_top; rewrite E'; apply in_or_app; right; left; reflexivity). lra.
    - replace (S m) with (m + 1)%nat in H1 by lia. apply iter_split in H1 as (w' & _ & (v & (N' & M') & Ev)). simpl in Ev. subst v.
      destruct (e_bot e) as [|c0 B] eqn:Eb; [destruct Z; discriminate|].
      destruct (smooth_left w' 0 [] c0 B Eb eq_refl N' M') as (_ & Y' & Et'). rewrite Et in Et'. injection Et' as <- _.
      (* c would be at the bottom twice *)
      pose proof (proper_bot_nodup e P) as ND. rewrite Eb, E in ND. destruct Z as [|z Z]; simpl in E; injection E as <- E.
      + simpl in ND. apply NoDup_cons_iff in ND. apply (proj1 ND). left. reflexivity.
      + simpl in ND. apply NoDup_cons_iff in ND. apply (proj1 ND). apply in_or_app. right. right. left. reflexivity. }
  intros (x & y & n & Hx & Hy & Lx & Ly & Hi) (x' & y' & n' & Hx' & Hy' & Lx' & Ly' & Hi').
  assert (Ey : y = y') by (apply (right_end_unique (e_len e) (e_top e) t); [apply P | exact Hy | exact Hy']). rewrite <- Ey in Hi'.
  destruct (lt_eq_lt_dec n n') as [[L|L]|L].
  - exfalso. exact (Far b b' x x' y n n' Hx Hx' Lx Hi Hi' L).
  - subst n'. assert (Inj : forall m a a' z, iter (fun u v => ~ singular e u /\ maps e u v) m a z -> iter (fun u v => ~ singular e u /\ maps e u v) m a' z -> a = a').
    { induction m as [|m IH]; intros a a' z Q Q'; [simpl in *; congruence|]. destruct Q as (w & (_ & M) & Q), Q' as (w' & (_ & M') & Q').
      rewrite (IH _ _ _ Q Q') in M. exact (maps_inj e P _ _ _ M M'). }
    rewrite <- (Inj _ _ _ _ Hi Hi') in Hx'. destruct Hx as (Z & V & E & Ex), Hx' as (Z' & V' & E' & Ex').
    destruct V as [|c V]; [rewrite E, total_app in Lx; simpl in Lx; lra|].
    destruct V' as [|c' V']; [rewrite E', total_app in Lx; simpl in Lx; lra|].
    destruct (bot_label (Z ++ [b]) c V (Z' ++ [b']) c' V' x) as [Q _].
    + rewrite E, <- app_assoc. reflexivity.
    + rewrite E', <- app_assoc. reflexivity.
    + rewrite total_app. simpl. assert (0 < e_len e c) by (apply (proj2 (proj2 P)), bot_top; rewrite E; apply in_or_app; right; right; left; reflexivity). lra.
    + rewrite total_app. simpl. lra.
    + apply app_inj_tail in Q. tauto.
  - exfalso. exact (Far b' b x' x y n' n Hx' Hx Lx' Hi' Hi L).
Qed.

End Source.

(** * Cyclic lists *)
Section Cyclic.
Context {A : Type}.

Inductive chain (step : A -> A -> Prop) : A -> list A -> A -> Prop :=
| ch_end p x : step p x -> chain step p [] x
| ch_more p q L x : step p q -> chain step q L x -> chain step p (q :: L) x.

Lemma chain_unique (step : A -> A -> Prop) : (forall p q q', step p q -> step p q' -> q = q') ->
  forall L L' p x, chain step p L x -> chain step p L' x -> ~ In x L -> ~ In x L' -> L = L'.
Proof.
  intros F. induction L as [|q L IH]; intros L' p x C C' N N'.
  - inversion C as [? ? Q|]; subst. inversion C' as [|? q' L1 ? Q' _]; subst; [reflexivity|]. exfalso. apply N'. left. exact (F _ _ _ Q' Q).
  - inversion C as [|? ? ? ? Q C1]; subst. inversion C' as [? ? Q'|? q' L1 ? Q' C1']; subst.
    + exfalso. apply N. left. exact (F _ _ _ Q Q').
    + rewrite <- (F _ _ _ Q Q') in *. f_equal. apply (IH _ q x C1 C1'); intro Z; [apply N|apply N']; right; exact Z.
Qed.

Lemma chain_of (step : A -> A -> Prop) : forall L p x u, (forall a b, (exists v w, u ++ p :: L ++ [x] = v ++ a :: b :: w) -> step a b) -> chain step p L x.
Proof.
  induction L as [|q L IH]; intros p x u H.
  - constructor. apply H. exists u, []. reflexivity.
  - constructor; [apply H; exists u, (L ++ [x]); reflexivity|]. apply (IH q x (u ++ [p])). intros a b (v & w & E). apply H. exists v, w.
    rewrite <- E, <- app_assoc. reflexivity.
Qed.

Lemma cyclically_rot (u v : list A) x y : cyclically (v ++ u) x y -> cyclically (u ++ v) x y.
Proof.
  assert (E : forall l, cyclically l x y <-> In (x, y) (cyc l)).
  { intros [|a w].
    - split; [|intros []]. intros [(u0 & v0 & H)|(u0 & H & _)]; [destruct u0; discriminate|discriminate].
    - unfold cyc. rewrite before_ap. split.
      + intros [(u0 & v0 & H)|(u0 & H & L)].
        * exists u0, (v0 ++ [a]). rewrite H, <- app_assoc. reflexivity.
        * injection H as <- <-. destruct (@exists_last _ (a :: w)) as (q & z & E); [discriminate|]. rewrite E in L |- *.
          rewrite last_last in L. subst z. exists q, []. rewrite <- app_assoc. reflexivity.
      + intros (u0 & v0 & H). destruct (snoc_case v0) as [->|(v' & z & ->)].
        * change (u0 ++ [x; y]) with (u0 ++ [x] ++ [y]) in H. rewrite app_assoc in H. apply app_inj_tail in H. destruct H as [H <-].
          right. exists w. split; [reflexivity|]. rewrite H. apply last_last.
        * left. change (u0 ++ x :: y :: v' ++ [z]) with (u0 ++ (x :: y :: v') ++ [z]) in H. rewrite app_assoc in H. apply app_inj_tail in H.
          destruct H as [H _]. exists u0, v'. exact H. }
  rewrite !E. apply cyc_rot.
Qed.

Lemma cyclic_chain (step : A -> A -> Prop) (l : list A) x : (forall a b, cyclically l a b -> step a b) -> forall u v, l = u ++ x :: v -> chain step x (v ++ u) x.
Proof.
  intros H u v ->. apply (chain_of step _ _ _ []). intros a b (w & z & E). apply H. apply (cyclically_rot u (x :: v)). cbn [app] in E |- *.
  assert (B : In (a, b) (ap (x :: v ++ u) x)) by (apply before_ap; exists w, z; exact E).
  apply before_ap in B as (w' & z' & E'). destruct (snoc_case z') as [->|(v' & z0 & ->)].
  - change (w' ++ [a; b]) with (w' ++ [a] ++ [b]) in E'. rewrite app_assoc in E'. apply app_inj_tail in E' as [E' <-].
    right. exists (v ++ u). split; [reflexivity|]. rewrite E'. apply last_last.
  - left. change (w' ++ a :: b :: v' ++ [z0]) with (w' ++ (a :: b :: v') ++ [z0]) in E'. rewrite app_assoc in E'. apply app_inj_tail in E' as [E' _].
    exists w', v'. exact E'.
Qed.

(** Two cyclic lists with a common element are the same if one knows what comes next. *)
Lemma same_cycle (step : A -> A -> Prop) (l l' : list A) x : (forall p q q', step p q -> step p q' -> q = q') -> NoDup l -> NoDup l' ->
  (forall a b, cyclically l a b -> step a b) -> (forall a b, cyclically l' a b -> step a b) -> In x l -> In x l' -> rotation l l'.
Proof.
  intros F N N' H H' I I'. apply in_split in I as (u & v & ->). apply in_split in I' as (u' & v' & ->).
  pose proof (cyclic_chain step _ x H u v eq_refl) as C. pose proof (cyclic_chain step _ x H' u' v' eq_refl) as C'.
  assert (E : v ++ u = v' ++ u').
  { apply (chain_unique step F _ _ x x C C'); intro Z.
    - apply (NoDup_remove_2 _ _ _ N). apply in_app_iff in Z. apply in_app_iff. tauto.
    - apply (NoDup_remove_2 _ _ _ N'). apply in_app_iff in Z. apply in_app_iff. tauto. }
  (* u ++ x :: v and u' ++ x :: v' *)
  destruct (app_cut _ _ _ _ E) as [[K [K1 K2]]|[K [K1 K2]]].
  - (* v' = v ++ K, u = K ++ u' *) subst v' u. exists K, (u' ++ x :: v). rewrite <- !app_assoc. split; reflexivity.
  - (* v = v' ++ K, u' = K ++ u *) subst v u'. exists (u ++ x :: v'), K. rewrite <- !app_assoc. split; reflexivity.
Qed.

End Cyclic.

(** * Walking along a side *)
Lemma side_turn (L : item -> item -> Prop) l (R G : list connection) :
  (forall p q, In (p, q) (cyc (Edge l true :: map cv G ++ Edge l false :: map cv R)) -> L p q) ->
  (forall k k', cyclically R k k' -> seesL L (cv k') (cn_target k)) /\ (forall k k', cyclically G k k' -> seesL L (cv k') (cn_target k)).
Proof.
  intros H. cbn [cyc] in H.
  assert (H' : forall p q u v, (Edge l true :: map cv G ++ Edge l false :: map cv R) ++ [Edge l true] = u ++ p :: q :: v -> L p q).
  { intros p q u v E. apply H, before_ap. exists u, v. exact E. }
  clear H. split; intros k k' [(u & v & ->)|(u & E & La)].
  - eapply sl_conn. apply (H' (cv k) (cv k') (Edge l true :: map cv G ++ Edge l false :: map cv u) (map cv v ++ [Edge l true])).
    rewrite !map_app. cbn [map app]. rewrite <- !app_assoc. cbn [app]. rewrite <- app_assoc. reflexivity.
  - eapply (sl_edge _ _ l false).
    + apply (H' _ _ (Edge l true :: map cv G) (map cv u ++ [Edge l true])). rewrite E. cbn [map app]. rewrite <- !app_assoc. reflexivity.
    + cbn [negb]. eapply sl_conn. destruct (@exists_last _ R) as (q & z & Eq); [rewrite E; discriminate|]. rewrite Eq, last_last in La. subst z.
      apply (H' (cv k) _ (Edge l true :: map cv G ++ Edge l false :: map cv q) []). rewrite Eq, map_app. cbn [map app]. rewrite <- !app_assoc. cbn [app]. rewrite <- !app_assoc. reflexivity.
  - eapply sl_conn. apply (H' (cv k) (cv k') (Edge l true :: map cv u) (map cv v ++ (Edge l false :: map cv R) ++ [Edge l true])).
    rewrite !map_app. cbn [map app]. rewrite <- !app_assoc. reflexivity.
  - eapply (sl_edge _ _ l true).
    + apply (H' _ _ [] (map cv u ++ (Edge l false :: map cv R) ++ [Edge l true])). rewrite E. cbn [map app]. rewrite <- !app_assoc. reflexivity.
    + cbn [negb]. eapply sl_conn. destruct (@exists_last _ G) as (q & z & Eq); [rewrite E; discriminate|]. rewrite Eq, last_last in La. subst z.
      apply (H' (cv k) _ (Edge l true :: map cv q) (map cv R ++ [Edge l true])). rewrite Eq, map_app. cbn [map app]. rewrite <- !app_assoc. reflexivity.
Qed.
