(** Two runs of the induction on lengths objects that agree on the labels of the IET: what
    happens does not depend on anything else. *)
From Coq Require Import List Lia.
From Verif Require Import Base QcTac LenT FM Subspace Lengths IET Twin.
Open Scope nat_scope.

(** * Reading the lengths *)

Section Base.
Context {T : Type} {O : LenOps T}.
Variable A : label -> Prop.

Definition same_base (b b' : slen T) : Prop :=
  length (sl_lens b) = length (sl_lens b') /\ forall l, A l -> nth_error (sl_lens b) l = nth_error (sl_lens b') l.

Lemma sb_at b b' l : same_base b b' -> A l -> sl_at b l = sl_at b' l.
Proof. intros [_ H] Hl. unfold sl_at. rewrite (H l Hl). reflexivity. Qed.

Lemma mapM_ext {X Y} (f g : X -> res Y) l : (forall x, In x l -> f x = g x) -> mapM f l = mapM g l.
Proof.
  induction l as [|x l IH]; intro H; [reflexivity|]. cbn [mapM]. rewrite (H x (or_introl eq_refl)).
  rewrite IH; [reflexivity|]. intros y Hy. apply H. right. exact Hy.
Qed.

Lemma sb_coefficients b b' ls : same_base b b' -> Forall A ls -> sl_coefficients b ls = sl_coefficients b' ls.
Proof.
  intros H F. unfold sl_coefficients. rewrite (mapM_ext (sl_at b) (sl_at b')); [reflexivity|].
  intros l Hl. apply (sb_at b b' l H). rewrite Forall_forall in F. auto.
Qed.

Lemma sb_make b b' t bo : same_base b b' -> Forall A t -> iet_make b t bo = iet_make b' t bo.
Proof.
  intros H F. unfold iet_make. rewrite (mapM_ext (fun l => x <- sl_at b l ;; Ok (l_bool x)) (fun l => x <- sl_at b' l ;; Ok (l_bool x)) t); [reflexivity|].
  intros l Hl. rewrite (sb_at b b' l H); [reflexivity|]. rewrite Forall_forall in F. auto.
Qed.

Lemma sb_translations b b' i : same_base b b' -> Forall A (i_top i) -> translations i b = translations i b'.
Proof. intros H F. unfold translations, label_to_coefficients, iet_coefficients. rewrite (sb_coefficients b b' _ H F). reflexivity. Qed.

Lemma sb_saf b b' i : same_base b b' -> Forall A (i_top i) -> iet_saf i b = iet_saf i b'.
Proof.
  intros H F. unfold iet_saf. destruct (i_saf i); [reflexivity|]. unfold saf_raw, iet_coefficients.
  rewrite (sb_coefficients b b' _ H F), (sb_translations b b' _ H F). reflexivity.
Qed.

Lemma sb_bosh b b' i : same_base b b' -> Forall A (i_top i) -> bosh_no_periodic i b = bosh_no_periodic i b'.
Proof.
  intros H F. unfold bosh_no_periodic, iet_saf0. rewrite (sb_saf b b' i H F).
  destruct (iet_saf i b') as [[v j]| | | |] eqn:E; try reflexivity. cbn [bind].
  destruct (iet_saf_rows _ _ _ _ E) as [R _]. unfold bosh_equations. rewrite (sb_translations b b' j H); [reflexivity|].
  rewrite R. exact F.
Qed.

Lemma map_combine_ext {X} (f : nat * X -> X) : forall (u v : list X) k, length u = length v ->
  (forall l x y, nth_error u l = Some x -> nth_error v l = Some y -> f (k + l, x) = f (k + l, y)) ->
  map f (combine (seq k (length u)) u) = map f (combine (seq k (length v)) v).
Proof.
  induction u as [|x u IH]; intros [|y v] k E H; try discriminate; [reflexivity|]. cbn [length seq combine map]. f_equal.
  - specialize (H 0 x y eq_refl eq_refl). rewrite Nat.add_0_r in H. exact H.
  - apply IH; [injection E as E; exact E|]. intros l z w Hz Hw. specialize (H (Datatypes.S l) z w Hz Hw).
    rewrite Nat.add_succ_r in H. exact H.
Qed.

Lemma sb_only b b' ls : same_base b b' -> Forall A ls -> sl_only (sl_forget b) ls = sl_only (sl_forget b') ls.
Proof.
  intros [E H] F. unfold sl_only, sl_labels. cbn [sl_forget sl_lens]. f_equal. apply map_combine_ext; [exact E|].
  intros l x y Hx Hy. cbn [fst snd]. rewrite Nat.add_0_l. destruct (memb l ls) eqn:M; [|reflexivity].
  apply memb_In in M. rewrite Forall_forall in F. rewrite (H l (F l M)) in Hx. congruence.
Qed.

Lemma sb_similar_lengths k b b' : same_base b b' -> forall ls, Forall A ls -> similar_lengths k b ls = similar_lengths k b' ls.
Proof.
  intros H. induction ls as [|x ls IH]; intro F; [reflexivity|]. destruct ls as [|y ls]; [reflexivity|].
  inversion F as [|? ? Hx F']; subst. inversion F' as [|? ? Hy F'']; subst.
  change (similar_lengths k b (x :: y :: ls)) with (r <- sl_similar (tk_lengths k) x y b x y ;; if r then similar_lengths k b (y :: ls) else Ok false).
  change (similar_lengths k b' (x :: y :: ls)) with (r <- sl_similar (tk_lengths k) x y b' x y ;; if r then similar_lengths k b' (y :: ls) else Ok false).
  unfold sl_similar. rewrite (sb_at b b' x H Hx), (sb_at b b' y H Hy), (IH F'). reflexivity.
Qed.

(** The labels that the tracker of [i] may look at. *)
Definition tracked (i : iet T) : Prop :=
  tk_ttl (i_trk i) = 0%N \/ i_size i < length (tk_top (i_trk i)) \/ Forall A (tk_top (i_trk i)).

Lemma sb_tracker b b' i : same_base b b' -> Forall A (i_top i) -> tracked i -> tracker_loop (i_trk i) i b = tracker_loop (i_trk i) i b'.
Proof.
  intros H F Tr. unfold tracker_loop. destruct (N.eqb_spec (tk_ttl (i_trk i)) 0) as [E|N].
  - unfold tracker_reset. rewrite (sb_only b b' _ H F). reflexivity.
  - cbn [tk_top tk_bottom tk_lengths]. destruct (Nat.eqb_spec (i_size i) (length (tk_top (i_trk i)))) as [Es|Ns]; [|reflexivity].
    cbn [negb]. destruct Tr as [Tr|[Tr|Tr]]; [contradiction|lia|].
    destruct (same_permutation _ _ _) as [p| | | |]; try reflexivity. cbn [bind]. destruct p; [|reflexivity].
    rewrite (sb_similar_lengths _ b b' H _ Tr). reflexivity.
Qed.

Lemma tracked_after b i r k : Forall A (i_top i) -> tracked i -> tracker_loop (i_trk i) i b = Ok (r, k) -> tracked (set_trk i k).
Proof.
  intros F Tr. unfold tracker_loop. destruct (N.eqb_spec (tk_ttl (i_trk i)) 0) as [E|N].
  - intro Q. injection Q as <- <-. right. right. exact F.
  - cbn [tk_top tk_bottom tk_lengths]. set (k0 := mktracker _ _ _ _ _).
    assert (G : tracked (set_trk i k0)).
    { destruct Tr as [Tr|Tr]; [contradiction|right; exact Tr]. }
    destruct (Nat.eqb _ _); cbn [negb]; [|intro Q; injection Q as <- <-; exact G].
    destruct (same_permutation _ _ _) as [p| | | |]; try discriminate. cbn [bind]. destruct p; [|intro Q; injection Q as <- <-; exact G].
    destruct (similar_lengths _ _ _) as [r0| | | |]; try discriminate. intro Q. injection Q as <- <-. exact G.
Qed.

(** * The rows stay inside *)

Record focus (i : iet T) : Prop := {
  fc_top : Forall A (i_top i);
  fc_bot : Forall A (i_bottom i);
  fc_size : length (i_top i) = length (i_bottom i);
  fc_trk : tracked i;
}.

Lemma focus_swap i : focus i -> focus (iet_swap i).
Proof.
  intros [H1 H2 H3 H4]. constructor; try assumption; [symmetry; exact H3|].
  destruct H4 as [H|[H|H]]; [left; exact H|right; left|right; right; exact H].
  unfold i_size in *. cbn [iet_swap i_top i_trk]. rewrite <- H3. exact H.
Qed.

Lemma focus_rows i j : i_top j = i_top i -> i_bottom j = i_bottom i -> i_trk j = i_trk i -> focus i -> focus j.
Proof.
  intros E1 E2 E3 [H1 H2 H3 H4]. constructor; try (rewrite ?E1, ?E2; assumption).
  unfold tracked, i_size in *. rewrite E1, E3. exact H4.
Qed.

Lemma focus_saf i b v j : focus i -> iet_saf i b = Ok (v, j) -> focus j.
Proof.
  intros H. unfold iet_saf. destruct (i_saf i); [intro E; injection E as <- <-; exact H|].
  destruct (saf_raw i b); try discriminate. intro E. injection E as <- <-. apply (focus_rows i); auto.
Qed.

Lemma splice_length a l n l' : splice a l n = Ok l' -> length l' = length l.
Proof.
  unfold splice. destruct (split_at a (skipn n l)) as [[p q]|] eqn:E; [|discriminate]. intro Q. injection Q as <-.
  apply split_at_some in E. destruct E as [E _]. pose proof (f_equal (@length label) (firstn_skipn n l)) as Q.
  rewrite app_length, E in Q. rewrite !app_length in *. cbn [length] in *. lia.
Qed.

Lemma focus_less i t bo f : Forall A t -> Forall A bo -> length t = length bo -> length t <= i_size i -> focus i ->
  focus (mkiet t bo (i_swap i) f (i_trk i)).
Proof.
  intros H1 H2 H3 H4 H. constructor; try assumption.
  destruct (fc_trk _ H) as [G|[G|G]]; [left; exact G|right; left|right; right; exact G]. unfold i_size in *. cbn. lia.
Qed.

Lemma focus_reduce i b r j : focus i -> reduce i b = Ok (r, j) -> focus j.
Proof.
  intros H. unfold reduce. destruct (red_loop _ _ _ _ _) as [[t' b']| | | |]; try discriminate. cbn [bind].
  destruct t' as [|x t'].
  - destruct b'; [|discriminate]. intro E. injection E as <- <-. exact H.
  - destruct (Nat.eqb_spec (length (firstn (length (i_top i) - length (x :: t')) (i_top i)))
                           (length (firstn (length (i_bottom i) - length b') (i_bottom i)))) as [El|]; [|discriminate].
    cbn [assert_]. destruct (iet_make _ _ _); try discriminate. cbn [bind].
    intro E. injection E as <- <-. unfold set_saf, set_labels. cbn [i_top i_bottom i_swap i_saf i_trk]. apply focus_less; auto.
    + apply Forall_firstn, H.
    + apply Forall_firstn, H.
    + rewrite firstn_length. unfold i_size. lia.
Qed.

Lemma split_at_incl a l p q : split_at a l = Some (p, q) -> l = p ++ a :: q.
Proof. intro E. apply split_at_some in E. apply E. Qed.

Lemma focus_merge i j : focus i -> merge_first i = Ok j -> focus j.
Proof.
  intros H. pose proof (fc_top _ H) as Ht. pose proof (fc_bot _ H) as Hb. pose proof (fc_size _ H) as Hs. unfold merge_first.
  destruct (i_top i) as [|a X] eqn:Et; [discriminate|]. destruct (i_bottom i) as [|b Y] eqn:Eb; [discriminate|].
  destruct (split_at a Y) as [[p q]|] eqn:E; [|discriminate]. intro E'. injection E' as <-.
  apply split_at_incl in E. subst Y. apply Forall_cons_iff in Ht. destruct Ht as [_ Ht].
  apply Forall_cons_iff in Hb. destruct Hb as [Hb HY]. apply Forall_app in HY. destruct HY as [H1 H2].
  unfold set_labels. apply focus_less; auto.
  - apply Forall_app. split; [exact H1|]. constructor; [exact Hb|]. inversion H2. assumption.
  - cbn [length] in Hs. rewrite app_length in *. cbn [length] in *. lia.
  - unfold i_size. rewrite Et. cbn [length]. lia.
Qed.

Lemma focus_bosh i b z j : focus i -> bosh_no_periodic i b = Ok (z, j) -> focus j.
Proof.
  intro Hi. unfold bosh_no_periodic, iet_saf0. destruct (iet_saf i b) as [[v i2]| | | |] eqn:Es; try discriminate. cbn [bind].
  pose proof (focus_saf _ _ _ _ Hi Es) as I2.
  destruct (vis0 v); [intro E; injection E as <- <-; exact I2|].
  destruct (i_size i2 <=? 1); [intro E; injection E as <- <-; exact I2|].
  destruct (bosh_equations i2 b) as [eqs| | | |]; try discriminate. cbn [bind].
  destruct (ras_equations _ _) as [r| | | |]; try discriminate. cbn [bind].
  destruct (nznn r) as [b0| | | |]; try discriminate. intro E. injection E as <- <-. exact I2.
Qed.

Lemma red_loop_suffix : forall t b marks ta ba t' b', red_loop t b marks ta ba = Ok (t', b') ->
  (exists p, t = p ++ t') /\ (exists p, b = p ++ b').
Proof.
  induction t as [|x t IH]; intros b marks ta ba t' b' E; [discriminate|]. destruct b as [|y b]; [discriminate|]. cbn [red_loop] in E.
  destruct (if memb x marks then _ else _) as [[m1 ta1] ba1]. destruct (if memb y m1 then _ else _) as [[m2 ta2] ba2].
  destruct (_ && _).
  - injection E as <- <-. split; [exists [x]|exists [y]]; reflexivity.
  - destruct (IH _ _ _ _ _ _ E) as [[p ->] [q ->]]. split; [exists (x :: p)|exists (y :: q)]; reflexivity.
Qed.

Lemma sb_reduce b b' i : same_base b b' -> Forall A (i_top i) -> reduce i b = reduce i b'.
Proof.
  intros H F. unfold reduce. destruct (red_loop _ _ _ _ _) as [[t' bo']| | | |] eqn:E; try reflexivity. cbn [bind].
  destruct t' as [|x t']; [reflexivity|]. destruct (red_loop_suffix _ _ _ _ _ _ _ E) as [[p Ep] _].
  rewrite (sb_make b b' (x :: t') bo' H); [reflexivity|]. rewrite Ep in F. apply Forall_app in F. apply F.
Qed.

(** The part that is split off uses labels from inside only. *)
Lemma reduce_part i b j r : Forall A (i_top i) -> Forall A (i_bottom i) -> reduce i b = Ok (Some j, r) ->
  Forall A (i_top j) /\ Forall A (i_bottom j) /\ i_swap j = false.
Proof.
  intros F G. unfold reduce. destruct (red_loop _ _ _ _ _) as [[t' bo']| | | |] eqn:E; try discriminate. cbn [bind].
  destruct t' as [|x t']; [destruct bo'; discriminate|]. destruct (red_loop_suffix _ _ _ _ _ _ _ E) as [[p Ep] [p2 Ep2]].
  destruct (_ =? _); [|discriminate]. cbn [assert_]. destruct (iet_make b (x :: t') bo') as [k| | | |] eqn:Ek; try discriminate. cbn [bind].
  intro Q. injection Q as <- <-. assert (i_top k = x :: t' /\ i_bottom k = bo' /\ i_swap k = false) as (-> & -> & ->).
  { unfold iet_make in Ek. repeat (match type of Ek with context [assert_ ?c _] => destruct c; [cbn [assert_] in Ek|discriminate] | context [bind ?m _] => destruct m; try discriminate; cbn [bind] in Ek end).
    injection Ek as <-. repeat split. }
  rewrite Ep in F. rewrite Ep2 in G. apply Forall_app in F, G. split; [apply F|]. split; [apply G|reflexivity].
Qed.
End Base.

(** * The induction *)

Section Twin2.
Context {T : Type} {O : LenOps T} {S : Type}.
Variables L L' : lens T S.
Variable A : label -> Prop.
Variable Q : S -> S -> Prop.
Hypothesis Hpush : forall l s s', A l -> Q s s' -> rres Q (li_push L l s) (li_push L' l s').
Hypothesis Hpop : forall s s', Q s s' -> rres Q (li_pop L s) (li_pop L' s').
Hypothesis Hcmp1 : forall s s', Q s s' -> forall l, A l -> li_cmp1 L s l = li_cmp1 L' s' l.
Hypothesis Hcmp2 : forall s s', Q s s' -> forall l m, A l -> A m -> li_cmp2 L s l m = li_cmp2 L' s' l m.
Hypothesis Hsub : forall v m s s', A m -> Q s s' -> rres Q (li_subtract L v m s) (li_subtract L' v m s').
Hypothesis Hrep : forall v m s s', A m -> Q s s' ->
  rres (fun p p' => fst p = fst p' /\ Q (snd p) (snd p')) (li_subrep L v m s) (li_subrep L' v m s').
Hypothesis Hbase : forall s s', Q s s' -> same_base A (li_base L s) (li_base L' s').

Lemma two_zloop v a : A a -> forall rest rpre s s', Forall A rest -> Q s s' ->
  rres (fun p p' => fst p = fst p' /\ Q (snd p) (snd p')) (zloop L v a rpre rest s) (zloop L' v a rpre rest s').
Proof.
  intro Ha. induction rest as [|b rest IH]; intros rpre s s' HF HQ; [exact I|]. cbn [zloop].
  apply Forall_cons_iff in HF. destruct HF as [Hb HF]. destruct (Nat.eqb b a).
  - apply (rres_bind _ _ _ _ _ _ (Hrep v a s s' Ha HQ)). intros [p s1] [p' s1']. cbn [fst snd]. intros [<- H1].
    destruct (Nat.eqb a p); [exact I|]. destruct (back_to p rpre); [|exact I]. split; [reflexivity|exact H1].
  - apply (rres_bind _ _ _ _ _ _ (Hpush b s s' Hb HQ)). intros s1 s1' H1.
    rewrite (Hcmp1 _ _ H1 a Ha). apply rres_same. intros c _.
    destruct c; [|apply IH; assumption|];
      (apply (rres_bind _ _ _ _ _ _ (Hpop _ _ H1)); intros s2 s2' H2;
       apply (rres_bind _ _ _ _ _ _ (Hsub v a _ _ Ha H2)); intros s3 s3' H3; split; [reflexivity|exact H3]).
Qed.

Definition two_iet {B} (p p' : B * iet T * S) : Prop :=
  fst p = fst p' /\ focus A (snd (fst p)) /\ Q (snd p) (snd p').

Lemma two_zorich i s s' : focus A i -> Q s s' -> rres two_iet (zorich L i s) (zorich L' i s').
Proof.
  intros Hi HQ. pose proof (fc_top _ _ Hi) as Ht. pose proof (fc_bot _ _ Hi) as Hb. unfold zorich.
  destruct (i_top i) as [|a X] eqn:Et; [exact I|]. destruct (i_bottom i) as [|b Y] eqn:Eb; [exact I|].
  destruct (Nat.eqb a b).
  - split; [reflexivity|]. split; [exact Hi|exact HQ].
  - assert (Ha : A a) by (inversion Ht; assumption).
    apply (rres_bind _ _ _ _ _ _ (two_zloop (i_view i) a Ha (b :: Y) [] s s' Hb HQ)).
    intros [r s1] [r' s1']. cbn [fst snd]. intros [<- H1].
    apply rres_same. intros l El. pose proof (splice_inside A a (b :: Y) (length r) _ Hb El) as Hl.
    pose proof (splice_length a (b :: Y) (length r) _ El) as Ll. destruct l as [|b' l]; [exact I|].
    rewrite (Hcmp2 _ _ H1 a b' Ha (Forall_inv Hl)). apply rres_same. intros c _. split; [reflexivity|]. split; [|exact H1].
    cbn [fst snd]. unfold set_bottom. apply focus_less; auto.
    + rewrite Et. exact Ht.
    + rewrite (fc_size _ _ Hi), Eb, Ll. reflexivity.
Qed.

Lemma two_induce_loop saf0 limit : forall fuel n i s s', focus A i -> Q s s' ->
  rres two_iet (induce_loop L fuel saf0 limit n i s) (induce_loop L' fuel saf0 limit n i s').
Proof.
  induction fuel as [|fuel IH]; intros n i s s' Hi HQ; [exact I|]. cbn [induce_loop].
  destruct (negb _); [split; [reflexivity|split; assumption]|].
  pose proof (Hbase _ _ HQ) as HB.
  set (m := if saf0 then _ else _). set (m' := if saf0 then '(v, i) <- iet_saf i (li_base L' s') ;; _ else _).
  assert (Em : m = m' /\ forall r i1, m = Ok (r, i1) -> focus A i1).
  { unfold m, m'. destruct saf0; [|split; [reflexivity|intros r i1 E; injection E as <- <-; exact Hi]].
    rewrite <- (sb_saf A _ _ i HB (fc_top _ _ Hi)). destruct (iet_saf i (li_base L s)) as [[v i0]| | | |] eqn:Es; try (split; [reflexivity|discriminate]).
    cbn [bind]. pose proof (focus_saf A _ _ _ _ Hi Es) as I0.
    destruct (length v =? 0); [split; [reflexivity|intros r i1 E; injection E as <- <-; exact I0]|].
    rewrite <- (sb_tracker A _ _ i0 HB (fc_top _ _ I0) (fc_trk _ _ I0)).
    destruct (tracker_loop (i_trk i0) i0 (li_base L s)) as [[r0 k]| | | |] eqn:Ek; try (split; [reflexivity|discriminate]). cbn [bind].
    split; [reflexivity|]. intros r i1 E. injection E as <- <-. destruct I0 as [J1 J2 J3 J4]. constructor; try assumption.
    exact (tracked_after A _ _ _ _ J1 J4 Ek). }
  destruct Em as [<- Hm]. clearbody m. apply rres_same. intros [similar i1] Em. specialize (Hm _ _ Em).
  destruct similar; [split; [reflexivity|split; assumption]|].
  apply (rres_bind _ _ _ _ _ _ (two_zorich i1 s s' Hm HQ)).
  intros [[f i2] s2] [[f' i2'] s2'] (E2 & I2 & Q2). cbn [fst snd] in *. injection E2 as <- <-.
  destruct f; [split; [reflexivity|split; assumption]|].
  apply (rres_bind _ _ _ _ _ _ (two_zorich (iet_swap i2) s2 s2' (focus_swap A _ I2) Q2)).
  intros [[f i3] s3] [[f' i3'] s3'] (E3 & I3' & Q3). cbn [fst snd] in *. injection E3 as <- <-.
  pose proof (focus_swap A _ I3') as I4.
  destruct f; [split; [reflexivity|split; assumption]|].
  destruct (Z.eqb n INT_MAX); [exact I|]. apply IH; assumption.
Qed.

Definition two_step (p p' : istep T * iet T * S) : Prop :=
  two_iet p p' /\ match is_additional (fst (fst p)) with Some j => Forall A (i_top j) /\ Forall A (i_bottom j) | None => True end /\
  match is_connection (fst (fst p)) with Some (b, t) => A b /\ A t | None => True end.

Lemma Forall_rev_hd (l : list label) x r : Forall A l -> rev l = x :: r -> A x.
Proof. intros F E. rewrite Forall_forall in F. apply F. apply in_rev. rewrite E. left. reflexivity. Qed.

Lemma two_finish found i s s' : focus A i -> Q s s' -> rres two_step (induce_finish L found i s) (induce_finish L' found i s').
Proof.
  intros Hi HQ. pose proof (Hbase _ _ HQ) as HB. unfold induce_finish. rewrite <- (sb_reduce A _ _ i HB (fc_top _ _ Hi)).
  apply rres_same. intros [red i1] Er. pose proof (focus_reduce A _ _ _ _ Hi Er) as I1.
  destruct red as [rgt|].
  - destruct (rev (i_bottom i1)) as [|b B] eqn:Eb; [exact I|]. destruct (rev (i_top i1)) as [|t R] eqn:Et; [exact I|].
    split; [split; [reflexivity|split; assumption]|]. cbn [fst snd is_additional is_connection]. split.
    + destruct (reduce_part A _ _ _ _ (fc_top _ _ Hi) (fc_bot _ _ Hi) Er) as (U & V & _). split; assumption.
    + split; [exact (Forall_rev_hd _ _ _ (fc_bot _ _ I1) Eb)|exact (Forall_rev_hd _ _ _ (fc_top _ _ I1) Et)].
  - pose proof (fc_top _ _ I1) as Ht. pose proof (fc_bot _ _ I1) as Hb.
    destruct (i_top i1) as [|a X] eqn:Et; [exact I|]. destruct (i_bottom i1) as [|b Y] eqn:Eb; [exact I|].
    rewrite (Hcmp2 _ _ HQ a b (Forall_inv Ht) (Forall_inv Hb)). apply rres_same. intros c _. rewrite <- (sb_bosh A _ _ i1 HB (fc_top _ _ I1)).
    destruct c.
    + apply rres_same. intros i2 Em. split; [split; [reflexivity|split; [exact (focus_merge A _ _ I1 Em)|exact HQ]]|].
      cbn. split; [exact I|]. split; [exact (Forall_inv Hb)|exact (Forall_inv Ht)].
    + apply rres_assert, rres_same. intros [z i2] Eb'. split; [split; [reflexivity|split; [exact (focus_bosh A _ _ _ _ I1 Eb')|exact HQ]]|]. cbn. auto.
    + apply rres_assert, rres_same. intros [z i2] Eb'. split; [split; [reflexivity|split; [exact (focus_bosh A _ _ _ _ I1 Eb')|exact HQ]]|]. cbn. auto.
Qed.

Theorem two_induce fuel limit i s s' : focus A i -> Q s s' ->
  rres two_step (induce L fuel limit i s) (induce L' fuel limit i s').
Proof.
  intros Hi HQ. unfold induce. destruct (i_size i =? 1); [split; [split; [reflexivity|split; assumption]|cbn; auto]|].
  apply (rres_bind two_iet).
  - destruct (Z.eqb limit 0); [split; [reflexivity|split; assumption]|].
    unfold iet_saf0. rewrite <- (sb_saf A _ _ i (Hbase _ _ HQ) (fc_top _ _ Hi)). destruct (iet_saf i (li_base L s)) as [[v i2]| | | |] eqn:Es; try exact I.
    cbn [bind]. apply two_induce_loop; [|exact HQ]. exact (focus_saf A _ _ _ _ Hi Es).
  - intros [[f i1] s1] [[f' i1'] s1'] (E1 & I1 & Q1). cbn [fst snd] in *. injection E1 as <- <-.
    destruct f; [|split; [split; [reflexivity|split; assumption]|cbn; auto]]. apply two_finish; assumption.
Qed.
End Twin2.
