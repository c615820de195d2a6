(** Two decompositions side by side that agree on one component: a step on that component
    does the same in both, whatever the other components are. *)
From Coq Require Import List Lia.
From Verif Require Import Base QcTac LenT FM Subspace Lengths IET Decomp DecompSim Twin TwinDec Focus.
Open Scope nat_scope.

(** * The lengths *)

Section Lens.
Context {T : Type} {O : LenOps T}.
Variable A : label -> Prop.

Definition sleq (s s' : slen T) : Prop :=
  same_base A s s' /\ sl_stack s = sl_stack s' /\ Forall A (sl_stack s).

Lemma sq_at s s' l : sleq s s' -> A l -> sl_at s l = sl_at s' l.
Proof. intros [H _]. apply sb_at. exact H. Qed.

Lemma sq_sum s s' : sleq s s' -> sl_sum s = sl_sum s'.
Proof.
  intros H. unfold sl_sum. pose proof H as (_ & E & F). rewrite <- E. revert F. generalize (@l_zero T O). generalize (sl_stack s).
  induction l as [|x l IH]; intros acc F; [reflexivity|]. cbn [sl_accumulate]. inversion F; subst.
  rewrite (sq_at s s' x H) by assumption. destruct (sl_at s' x); try reflexivity. cbn [bind]. apply IH. assumption.
Qed.

Lemma sq_set s s' l v : sleq s s' -> rres sleq (sl_set s l v) (sl_set s' l v).
Proof.
  intros ((El & H) & E & F). unfold sl_set.
  destruct (set_nth l v (sl_lens s)) as [u|] eqn:Eu, (set_nth l v (sl_lens s')) as [u'|] eqn:Eu'; try exact I.
  - split; [|split; [exact E|exact F]]. split; cbn [sl_lens].
    + rewrite (set_nth_length _ _ _ _ Eu), (set_nth_length _ _ _ _ Eu'). exact El.
    + intros m Hm. destruct (Nat.eq_dec m l) as [->|N].
      * rewrite (set_nth_same _ _ _ _ Eu), (set_nth_same _ _ _ _ Eu'). reflexivity.
      * rewrite (set_nth_other _ m _ _ _ Eu), (set_nth_other _ m _ _ _ Eu') by congruence. apply H. exact Hm.
  - destruct (Nat.lt_ge_cases l (length (sl_lens s'))) as [Q|Q].
    + destruct (set_nth_some l v (sl_lens s') Q) as [w Ew]. congruence.
    + rewrite <- El in Q. exfalso. clear - Eu Q. revert l u Eu Q. induction (sl_lens s) as [|y r IH]; intros l u Eu Q; [discriminate|].
      destruct l; [cbn in Q; lia|]. cbn in Eu, Q. destruct (set_nth l v r) eqn:E; [|discriminate]. apply (IH l l0 E). lia.
  - destruct (Nat.lt_ge_cases l (length (sl_lens s))) as [Q|Q].
    + destruct (set_nth_some l v (sl_lens s) Q) as [w Ew]. congruence.
    + rewrite El in Q. exfalso. clear - Eu' Q. revert l u' Eu' Q. induction (sl_lens s') as [|y r IH]; intros l u Eu Q; [discriminate|].
      destruct l; [cbn in Q; lia|]. cbn in Eu, Q. destruct (set_nth l v r) eqn:E; [|discriminate]. apply (IH l l0 E). lia.
Qed.

Lemma sq_clear s s' : sleq s s' -> sleq (sl_clear s) (sl_clear s').
Proof. intros (H & _ & _). split; [exact H|]. split; [reflexivity|constructor]. Qed.

Lemma sq_push l s s' : A l -> sleq s s' -> sleq (sl_push l s) (sl_push l s').
Proof.
  intros Hl (H & E & F). split; [exact H|]. cbn [sl_push sl_stack]. rewrite <- E. split; [reflexivity|].
  apply Forall_app. split; [exact F|]. constructor; [exact Hl|constructor].
Qed.

Lemma sq_pop s s' : sleq s s' -> rres sleq (sl_pop s) (sl_pop s').
Proof.
  intros (H & E & F). unfold sl_pop. rewrite <- E. destruct (sl_stack s) eqn:Es; [exact I|]. cbn [rres].
  split; [exact H|]. split; [reflexivity|]. cbn [sl_stack]. apply removelast_Forall. exact F.
Qed.

Lemma sq_cmp1 s s' l : sleq s s' -> A l -> sl_cmp1 s l = sl_cmp1 s' l.
Proof. intros H Hl. unfold sl_cmp1. rewrite (sq_sum _ _ H), (sq_at _ _ l H Hl). reflexivity. Qed.

Lemma sq_cmp2 s s' l m : sleq s s' -> A l -> A m -> sl_cmp2 s l m = sl_cmp2 s' l m.
Proof. intros H Hl Hm. unfold sl_cmp2. rewrite (sq_at _ _ l H Hl), (sq_at _ _ m H Hm). reflexivity. Qed.

Lemma sq_subtract a s s' : A a -> sleq s s' -> rres sleq (sl_subtract a s) (sl_subtract a s').
Proof.
  intros Ha H. unfold sl_subtract. rewrite (sq_at _ _ a H Ha), (sq_sum _ _ H). apply rres_same. intros x _. apply rres_same. intros t _.
  apply (rres_bind _ _ _ _ _ _ (sq_set s s' a (l_sub x t) H)). intros u u' Hu. apply rres_assert. apply sq_clear. exact Hu.
Qed.

Lemma sq_subrep_loop a : A a -> forall st stop s s', Forall A st -> sleq s s' ->
  rres (fun p p' => fst p = fst p' /\ sleq (snd p) (snd p')) (sl_subrep_loop a stop st s) (sl_subrep_loop a stop st s').
Proof.
  intro Ha. induction st as [|l st IH]; intros stop s s' F H; [exact I|]. cbn [sl_subrep_loop]. inversion F; subst.
  rewrite (sq_at _ _ l H), (sq_at _ _ a H Ha) by assumption. apply rres_same. intros x _. apply rres_same. intros y _.
  destruct (l_cmp x y); try (split; [reflexivity|apply sq_clear; exact H]).
  apply (rres_bind _ _ _ _ _ _ (sq_set s s' a (l_sub y x) H)). intros u u' Hu. apply rres_assert. apply IH; assumption.
Qed.

Lemma sq_subrep a s s' : A a -> sleq s s' ->
  rres (fun p p' => fst p = fst p' /\ sleq (snd p) (snd p')) (sl_subrep a s) (sl_subrep a s').
Proof.
  intros Ha H. unfold sl_subrep. pose proof H as (_ & E & _). rewrite <- E. destruct (sl_stack s) as [|z r] eqn:Es; [exact I|]. rewrite <- Es in *. clear z r Es E.
  rewrite (sq_at _ _ a H Ha), (sq_sum _ _ H). apply rres_same. intros x _. apply rres_same. intros t _.
  destruct (l_div x t) as [q|]; [|exact I].
  apply (rres_bind _ _ _ _ _ _ (sq_set s s' a _ H)). intros u u' Hu. rewrite (sq_at _ _ a Hu Ha). apply rres_same. intros y _.
  apply rres_assert. apply (rres_bind sleq).
  - destruct (l_bool y); [exact Hu|]. rewrite (sq_sum _ _ Hu). apply rres_same. intros t' _. apply sq_set. exact Hu.
  - intros w w' Hw. pose proof Hw as (_ & Ew & Fw). rewrite <- Ew. apply sq_subrep_loop; assumption.
Qed.
End Lens.

(** * The decompositions *)

Section FocusDec.
Context {T : Type} {O : LenOps T}.
Variable A : label -> Prop.
Variables c c' : nat.

Definition rest (k : nat) (cs : list (dcomp T)) : Prop :=
  forall j x a, nth_error cs j = Some x -> j <> k -> A a -> on_top a (i_view (dc_iet x)) = false.

Record foc (d e : decomp T) : Prop := {
  fo_len : sleq A (d_len d) (d_len e);
  fo_stack : d_stack d = d_stack e;
  fo_inside : Forall A (d_stack d);
  fo_keys : d_keys d = d_keys e;
  fo_conns : forall l, A l -> d_conns d l = d_conns e l;
  fo_in : c < length (d_comps d);
  fo_comp : nth_error (d_comps d) c = nth_error (d_comps e) c';
  fo_focus : forall x, nth_error (d_comps d) c = Some x -> focus A (dc_iet x);
  fo_rest : rest c (d_comps d);
  fo_rest' : rest c' (d_comps e);
}.

Lemma fo_in' d e : foc d e -> c' < length (d_comps e).
Proof.
  intro H. apply nth_error_Some. rewrite <- (fo_comp _ _ H). apply nth_error_Some. apply (fo_in _ _ H).
Qed.

Lemma existsb_views m v : forall k (cs : list (dcomp T)), k < length cs -> (forall j x, nth_error cs j = Some x -> j <> k -> on_top m (i_view (dc_iet x)) = false) ->
  existsb (on_top m) (views_with k v cs) = on_top m v.
Proof.
  induction k as [|k IH]; intros [|y cs] Hk H; try (cbn in Hk; lia).
  - cbn [views_with existsb]. replace (existsb (on_top m) (map (fun x => i_view (dc_iet x)) cs)) with false; [apply Bool.orb_false_r|].
    symmetry. apply Bool.not_true_iff_false. intro Q. apply existsb_exists in Q as (w & Hw & Q). apply in_map_iff in Hw as (x & <- & Hx).
    apply In_nth_error in Hx as (j & Ej). rewrite (H (Datatypes.S j) x Ej) in Q by lia. discriminate.
  - cbn [views_with existsb]. rewrite (H 0 y eq_refl) by lia. cbn [orb]. apply IH; [cbn in Hk; lia|].
    intros j x Ej N. apply (H (Datatypes.S j) x Ej). lia.
Qed.

Lemma fo_views d e m v : foc d e -> A m ->
  existsb (on_top m) (views_with c v (d_comps d)) = existsb (on_top m) (views_with c' v (d_comps e)).
Proof.
  intros H Hm. rewrite (existsb_views m v c); [rewrite (existsb_views m v c'); [reflexivity| |]| |].
  - apply (fo_in' _ _ H).
  - intros j x Ej N. exact (fo_rest' _ _ H j x m Ej N Hm).
  - apply (fo_in _ _ H).
  - intros j x Ej N. exact (fo_rest _ _ H j x m Ej N Hm).
Qed.

Lemma foc_lens d e s s' st : foc d e -> sleq A s s' -> Forall A st -> foc (set_lens d s st) (set_lens e s' st).
Proof. intros [] H F. constructor; auto. Qed.

Lemma foc_push l d e : A l -> foc d e -> rres foc (lwc_push l d) (lwc_push l e).
Proof.
  intros Hl H. unfold lwc_push. rewrite <- (fo_stack _ _ H). apply rres_assert.
  apply foc_lens; [exact H|apply sq_push; [exact Hl|apply H]|]. apply Forall_app. split; [apply H|]. constructor; [exact Hl|constructor].
Qed.

Lemma foc_pop d e : foc d e -> rres foc (lwc_pop d) (lwc_pop e).
Proof.
  intros H. unfold lwc_pop. rewrite <- (fo_stack _ _ H). apply rres_assert.
  apply (rres_bind _ _ _ _ _ _ (sq_pop A _ _ (fo_len _ _ H))). intros s s' Hs.
  apply foc_lens; [exact H|exact Hs|]. apply removelast_Forall. apply H.
Qed.

Lemma foc_conns_at d e l : foc d e -> A l -> conns_at d l = conns_at e l.
Proof. intros H Hl. unfold conns_at. rewrite <- (fo_keys _ _ H), (fo_conns _ _ H l Hl). reflexivity. Qed.

Lemma foc_set_conns d e f g : foc d e -> (forall l, A l -> f l = g l) -> foc (set_conns d f) (set_conns e g).
Proof. intros [] H. constructor; auto. Qed.

Lemma upd_agree f g m x l : (f l = g l) -> upd f m x l = upd g m x l.
Proof. unfold upd. destruct (Nat.eqb l m); auto. Qed.

Lemma foc_subtract2 v m sub d e : A m -> A sub -> foc d e -> rres foc (lwc_subtract2 c v m sub d) (lwc_subtract2 c' v m sub e).
Proof.
  intros Hm Hs H. unfold lwc_subtract2. rewrite <- (fo_views d e m v H Hm).
  rewrite (foc_conns_at d e sub H Hs), (foc_conns_at d e m H Hm). apply rres_same. intros _ _. apply rres_same. intros _ _.
  unfold conn_subtract. destruct (Nat.eqb m sub); [exact I|]. cbn [bind rres]. apply foc_set_conns; [exact H|].
  intros l Hl. rewrite (fo_conns _ _ H m Hm), (fo_conns _ _ H sub Hs). apply upd_agree, upd_agree. apply (fo_conns _ _ H l Hl).
Qed.

Lemma foc_subtract v m d e : A m -> foc d e -> rres foc (lwc_subtract c v m d) (lwc_subtract c' v m e).
Proof.
  intros Hm H. unfold lwc_subtract. rewrite <- (fo_stack _ _ H).
  pose proof (fo_inside _ _ H) as HF. destruct (d_stack d) as [|sub st] eqn:E; [exact H|]. inversion HF; subst.
  apply (rres_bind _ _ _ _ _ _ (sq_subtract A m _ _ Hm (fo_len _ _ H))). intros s s' Hs.
  eapply rres_bind; [apply foc_subtract2; [exact Hm|eassumption|]; apply foc_lens; [exact H|exact Hs|exact HF]|].
  intros d1 e1 H1. apply foc_lens; [exact H1|apply H1|constructor].
Qed.

Lemma foc_subrep v m d e : A m -> foc d e ->
  rres (fun p p' => fst p = fst p' /\ foc (snd p) (snd p')) (lwc_subrep c v m d) (lwc_subrep c' v m e).
Proof.
  intros Hm H. unfold lwc_subrep. rewrite <- (fo_stack _ _ H).
  pose proof (fo_inside _ _ H) as HF. destruct (d_stack d) as [|sub st] eqn:E; [exact I|]. inversion HF; subst.
  apply (rres_bind _ _ _ _ _ _ (sq_subrep A m _ _ Hm (fo_len _ _ H))). intros [r s] [r' s'] [Er Hs]. cbn [fst snd] in Er, Hs. subst r'.
  eapply rres_bind; [apply foc_subtract2; [exact Hm|eassumption|]; apply foc_lens; [exact H|exact Hs|exact HF]|].
  intros d1 e1 H1. split; [reflexivity|]. apply foc_lens; [exact H1|apply H1|constructor].
Qed.

Lemma foc_induce fuel limit i d e : focus A i -> foc d e ->
  rres (two_step A foc) (induce (dec_lens c) fuel limit i d) (induce (dec_lens c') fuel limit i e).
Proof.
  apply two_induce; cbn [dec_lens li_push li_pop li_cmp1 li_cmp2 li_subtract li_subrep li_base].
  - apply foc_push.
  - apply foc_pop.
  - intros s s' H l Hl. apply sq_cmp1 with (A := A); [apply H|exact Hl].
  - intros s s' H l m Hl Hm. apply sq_cmp2 with (A := A); [apply H|exact Hl|exact Hm].
  - intros v m s s'. apply foc_subtract.
  - intros v m s s'. apply foc_subrep.
  - intros s s' H. apply (fo_len _ _ H).
Qed.

(** ** Components *)

Lemma foc_comp_at d e : foc d e -> comp_at d c = comp_at e c'.
Proof. intro H. unfold comp_at. rewrite (fo_comp _ _ H). reflexivity. Qed.

Lemma comp_at_some (d : decomp T) k x : comp_at d k = Ok x -> nth_error (d_comps d) k = Some x.
Proof. unfold comp_at. destruct (nth_error (d_comps d) k); [|discriminate]. intro H. injection H as ->. reflexivity. Qed.

Lemma rest_set k cs y cs' : rest k cs -> set_nth k y cs = Some cs' -> rest k cs'.
Proof. intros H E j x a Ej N Ha. rewrite (set_nth_other _ j _ _ _ E) in Ej by congruence. exact (H j x a Ej N Ha). Qed.

Lemma foc_comp_set d e y : foc d e -> focus A (dc_iet y) -> rres foc (comp_set d c y) (comp_set e c' y).
Proof.
  intros H Hy. unfold comp_set. destruct (set_nth_some c y (d_comps d) (fo_in _ _ H)) as (cs & Ec).
  destruct (set_nth_some c' y (d_comps e) (fo_in' _ _ H)) as (cs' & Ec'). rewrite Ec, Ec'. destruct H. constructor; auto; cbn [set_comps d_comps].
  - rewrite (set_nth_length _ _ _ _ Ec). assumption.
  - rewrite (set_nth_same _ _ _ _ Ec), (set_nth_same _ _ _ _ Ec'). reflexivity.
  - intros x Ex. rewrite (set_nth_same _ _ _ _ Ec) in Ex. injection Ex as <-. exact Hy.
  - eapply rest_set; eassumption.
  - eapply rest_set; eassumption.
Qed.

Definition same {B} (P : B -> Prop) (p p' : B * decomp T) : Prop := fst p = fst p' /\ P (fst p) /\ foc (snd p) (snd p').

Definition inner (st : istep T) : Prop :=
  match is_additional st with Some j => Forall A (i_top j) /\ Forall A (i_bottom j) | None => True end /\
  match is_connection st with Some (b, t) => A b /\ A t | None => True end.

Lemma foc_step_loop fuel cost : forall rounds limit d e, foc d e ->
  rres (same inner) (step_loop rounds fuel cost limit c d) (step_loop rounds fuel cost limit c' e).
Proof.
  induction rounds as [|rounds IH]; intros limit d e H; [exact I|]. cbn [step_loop].
  rewrite <- (foc_comp_at _ _ H). apply rres_same. intros x Hx. apply comp_at_some in Hx.
  eapply rres_bind; [apply foc_induce; [exact (fo_focus _ _ H x Hx)|exact H]|].
  intros [[st i] d1] [[st' i'] e1] ((E1 & I1 & H1) & Hin). cbn [fst snd] in *. injection E1 as <- <-.
  eapply rres_bind; [apply (foc_comp_set d1 e1 (iet_set x i) H1 I1)|]. intros d2 e2 H2.
  destruct (is_result st); try (split; [reflexivity|split; [exact Hin|exact H2]]).
  destruct (Z.eqb _ 0); [split; [reflexivity|split; [exact Hin|exact H2]]|apply IH; exact H2].
Qed.

Lemma foc_step_start d e : foc d e -> rres (same (fun _ => True)) (step_start c d) (step_start c' e).
Proof.
  intro H. unfold step_start. rewrite <- (foc_comp_at _ _ H). apply rres_same. intros x Hx. apply comp_at_some in Hx.
  pose proof (fo_focus _ _ H x Hx) as Fx.
  apply rres_assert. unfold bosh_cost, saf_invariant. rewrite <- (sb_saf A _ _ (dc_iet x) (proj1 (fo_len _ _ H)) (fc_top _ _ Fx)).
  destruct (iet_saf (dc_iet x) (d_len d)) as [[v i2]| | | |] eqn:Es; try exact I. cbn [bind].
  eapply rres_bind; [apply foc_comp_set; [exact H|]|].
  - cbn [dc_iet iet_set]. exact (focus_saf A _ _ _ _ Fx Es).
  - intros d1 e1 H1. split; [reflexivity|]. split; [exact I|exact H1].
Qed.

(** ** Half edges *)

Definition ren (h : hedge) : hedge := mkhe c' (he_label h) (he_top h).
Definition rside (s : side) : side := match s with SConn k => SConn k | SEdge h => SEdge (ren h) end.

Definition here (h : hedge) : Prop := he_comp h = c /\ A (he_label h).

Lemma contour_ren d e (f : iet T -> list label) b : foc d e -> (forall x, nth_error (d_comps d) c = Some x -> Forall A (f (dc_iet x))) ->
  rres (fun l l' => l' = map ren l /\ Forall here l)
    (x <- comp_at d c ;; let i := dc_iet x in Ok (map (fun l => mkhe c l b) (f i)))
    (x <- comp_at e c' ;; let i := dc_iet x in Ok (map (fun l => mkhe c' l b) (f i))).
Proof.
  intros H F. rewrite <- (foc_comp_at _ _ H). apply rres_same. intros x Hx. apply comp_at_some in Hx. cbn [rres].
  rewrite map_map. split; [reflexivity|]. apply Forall_forall. intros h Hh. apply in_map_iff in Hh as (l & <- & Hl).
  split; [reflexivity|]. cbn. specialize (F x Hx). rewrite Forall_forall in F. auto.
Qed.

Lemma foc_top d e : foc d e -> rres (fun l l' => l' = map ren l /\ Forall here l) (top_contour d c) (top_contour e c').
Proof.
  intro H. apply (contour_ren d e (fun i => if i_swap i then i_bottom i else i_top i) true H).
  intros x Hx. pose proof (fo_focus _ _ H x Hx) as F. destruct (i_swap _); apply F.
Qed.
Lemma foc_bottom d e : foc d e -> rres (fun l l' => l' = map ren l /\ Forall here l) (bottom_contour d c) (bottom_contour e c').
Proof.
  intro H. apply (contour_ren d e (fun i => if i_swap i then i_top i else i_bottom i) false H).
  intros x Hx. pose proof (fo_focus _ _ H x Hx) as F. destruct (i_swap _); apply F.
Qed.

Lemma he_eqb_ren a b : he_comp a = c -> he_comp b = c -> he_eqb a b = he_eqb (ren a) (ren b).
Proof. intros Ha Hb. unfold he_eqb. cbn [ren he_label he_comp he_top]. rewrite Ha, Hb, !Nat.eqb_refl. reflexivity. Qed.

Lemma he_find_ren h : he_comp h = c -> forall l, Forall here l -> he_find h l = he_find (ren h) (map ren l).
Proof.
  intros Hh. induction l as [|x l IH]; intro F; [reflexivity|]. inversion F as [|? ? [Hx _] F']; subst. cbn [map he_find].
  rewrite <- he_eqb_ren by assumption. rewrite (IH F'). reflexivity.
Qed.

Lemma he_find_in h : forall l, Forall here l -> he_find h l = Ok true -> A (he_label h).
Proof.
  induction l as [|x l IH]; intros F E; [discriminate|]. inversion F as [|? ? [_ Hx] F']; subst. cbn [he_find] in E.
  destruct (he_eqb x h) as [b| | | |] eqn:Eq; try discriminate. cbn [bind] in E. destruct b; [|apply IH; assumption].
  unfold he_eqb in Eq. destruct (Nat.eqb_spec (he_label x) (he_label h)) as [El|]; [|discriminate]. rewrite <- El. exact Hx.
Qed.

Lemma foc_component d e h : foc d e -> he_comp h = c ->
  rres (fun k k' => k = c /\ k' = c' /\ A (he_label h)) (he_component d h) (he_component e (ren h)).
Proof.
  intros H Hh. unfold he_component. cbn [ren he_top he_comp he_label]. rewrite Hh.
  apply (rres_bind (fun l l' => l' = map ren l /\ Forall here l)).
  - destruct (he_top h); [apply foc_top|apply foc_bottom]; exact H.
  - intros l l' [-> F]. change (mkhe c' (he_label h) (he_top h)) with (ren h). rewrite <- he_find_ren by assumption.
    apply rres_same. intros b Eb. destruct b; [|exact I]. cbn [assert_ rres].
    split; [reflexivity|]. split; [reflexivity|]. exact (he_find_in _ _ F Eb).
Qed.

Lemma foc_cross d e h : foc d e -> A (he_label h) -> rres (fun l l' => l' = map rside l) (he_cross d h) (he_cross e (ren h)).
Proof.
  intros H Hl. unfold he_cross, he_left, he_right. cbn [ren he_label he_top]. rewrite <- (foc_conns_at d e _ H Hl).
  destruct (conns_at d (he_label h)) as [k| | | |]; try exact I. cbn [bind rres].
  assert (Q : forall l, map rside (map SConn l) = map SConn l) by (intro l; rewrite map_map; apply map_ext; reflexivity).
  destruct (he_top h); rewrite !map_app, ?map_rev, ?Q; reflexivity.
Qed.

Lemma foc_step (f : iet T -> list label) d e h : foc d e -> he_comp h = c ->
  (forall x, nth_error (d_comps d) c = Some x -> Forall A (f (dc_iet x))) ->
  rres (fun r r' => r' = option_map ren r /\ match r with Some n => here n | None => True end)
    (x <- comp_at d c ;; match split_at (he_label h) (f (dc_iet x)) with
      | None => AssertFail | Some (_, []) => Ok None | Some (_, l :: _) => Ok (Some (mkhe c l (he_top h))) end)
    (x <- comp_at e c' ;; match split_at (he_label h) (f (dc_iet x)) with
      | None => AssertFail | Some (_, []) => Ok None | Some (_, l :: _) => Ok (Some (mkhe c' l (he_top h))) end).
Proof.
  intros H Hh F. rewrite <- (foc_comp_at _ _ H). apply rres_same. intros x Hx. apply comp_at_some in Hx. specialize (F x Hx).
  destruct (split_at (he_label h) (f (dc_iet x))) as [[p q]|] eqn:E; [|exact I]. apply split_at_some in E. destruct E as [E _]. rewrite E in F.
  apply Forall_app in F as [_ F]. inversion F as [|? ? _ F']; subst. destruct q as [|l q]; [split; [reflexivity|exact I]|].
  split; [reflexivity|]. inversion F'. split; [reflexivity|]. assumption.
Qed.

Lemma foc_rows d e x b : foc d e -> nth_error (d_comps d) c = Some x -> Forall A ((fun i : iet T => if b : bool then i_top i else i_bottom i) (dc_iet x)).
Proof. intros H Hx. pose proof (fo_focus _ _ H x Hx) as F. destruct b; apply F. Qed.

Lemma foc_next d e h : foc d e -> he_comp h = c ->
  rres (fun r r' => r' = option_map ren r /\ match r with Some n => here n | None => True end) (he_next d h) (he_next e (ren h)).
Proof.
  intros H Hh. unfold he_next. cbn [ren he_comp he_label he_top]. rewrite Hh.
  apply (foc_step (fun i => if he_top h then i_top i else i_bottom i) d e h H Hh). intros x Hx. exact (foc_rows d e x (he_top h) H Hx).
Qed.

Lemma foc_previous d e h : foc d e -> he_comp h = c ->
  rres (fun r r' => r' = option_map ren r /\ match r with Some n => here n | None => True end) (he_previous d h) (he_previous e (ren h)).
Proof.
  intros H Hh. unfold he_previous. cbn [ren he_comp he_label he_top]. rewrite Hh. rewrite <- (foc_comp_at _ _ H).
  apply rres_same. intros x Hx. apply comp_at_some in Hx. pose proof (foc_rows d e x (he_top h) H Hx) as F. cbn beta in F.
  destruct (split_at (he_label h) (if he_top h then i_top (dc_iet x) else i_bottom (dc_iet x))) as [[p q]|] eqn:E; [|exact I].
  apply split_at_some in E. destruct E as [E _]. rewrite E in F. apply Forall_app in F as [F _]. cbn [rres].
  destruct (rev p) as [|l r] eqn:Er; [split; [reflexivity|exact I]|]. split; [reflexivity|]. split; [reflexivity|]. cbn.
  rewrite Forall_forall in F. apply F. apply in_rev. rewrite Er. left. reflexivity.
Qed.

Lemma backwards_ren l : backwards (map rside l) = map rside (backwards l).
Proof. unfold backwards. rewrite <- map_rev, !map_map. apply map_ext. intros [k|h]; reflexivity. Qed.

Lemma foc_walk d e : foc d e -> forall fuel a b, he_comp a = c -> he_comp b = c ->
  rres (fun l l' => l' = map rside l) (walk_clockwise fuel d a b) (walk_clockwise fuel e (ren a) (ren b)).
Proof.
  intro H. induction fuel as [|fuel IH]; intros a b Ha Hb; [exact I|]. cbn [walk_clockwise].
  apply (rres_bind _ _ _ _ _ _ (foc_component d e a H Ha)). intros k k' (-> & -> & La).
  apply (rres_bind _ _ _ _ _ _ (foc_component d e b H Hb)). intros k k' (-> & -> & Lb).
  rewrite !Nat.eqb_refl. cbn [assert_].
  apply (rres_bind _ _ _ _ _ _ (foc_top d e H)). intros tops tops' (-> & Ft).
  apply (rres_bind _ _ _ _ _ _ (foc_bottom d e H)). intros bots bots' (-> & Fb).
  cbn [ren he_top he_label he_comp].
  assert (J : forall p q r s, he_comp p = c -> he_comp q = c -> he_comp r = c -> he_comp s = c ->
    rres (fun l l' => l' = map rside l)
      (x <- walk_clockwise fuel d p q ;; y <- walk_clockwise fuel d r s ;; Ok (x ++ y))
      (x <- walk_clockwise fuel e (ren p) (ren q) ;; y <- walk_clockwise fuel e (ren r) (ren s) ;; Ok (x ++ y))).
  { intros p q r s Hp Hq Hr Hs. apply (rres_bind _ _ _ _ _ _ (IH p q Hp Hq)). intros x x' ->.
    apply (rres_bind _ _ _ _ _ _ (IH r s Hr Hs)). intros y y' ->. cbn [rres]. rewrite map_app. reflexivity. }
  change (mkhe c' (he_label a) (he_top a)) with (ren a). change (mkhe c' (he_label b) (he_top b)) with (ren b).
  destruct (negb (he_top a) && he_top b).
  - destruct bots as [|b0 bots]; [exact I|]. destruct tops as [|t0 tops]; [exact I|]. cbn [map].
    inversion Fb as [|? ? [Hb0 _] _]; subst. inversion Ft as [|? ? [Ht0 _] _]; subst. apply J; assumption.
  - destruct (he_top a && negb (he_top b)).
    + rewrite <- !map_rev. apply Forall_rev in Fb, Ft. destruct (rev bots) as [|b0 bs]; [exact I|]. destruct (rev tops) as [|t0 ts]; [exact I|]. cbn [map].
      inversion Fb as [|? ? [Hb0 _] _]; subst. inversion Ft as [|? ? [Ht0 _] _]; subst. apply J; assumption.
    + apply (rres_bind _ _ _ _ _ _ (foc_cross d e a H La)). intros cr cr' ->. rewrite <- (he_eqb_ren a b Ha Hb).
      apply rres_same. intros q _. destruct q; [cbn [rres]; apply backwards_ren|].
      assert (N : forall n, he_comp n = c -> rres (fun l l' => l' = map rside l)
        (y <- walk_clockwise fuel d n b ;; Ok (backwards cr ++ y)) (y <- walk_clockwise fuel e (ren n) (ren b) ;; Ok (backwards (map rside cr) ++ y))).
      { intros n Hn. apply (rres_bind _ _ _ _ _ _ (IH n b Hn Hb)). intros y y' ->. cbn [rres]. rewrite map_app, backwards_ren. reflexivity. }
      apply (rres_bind (fun r r' => r' = option_map ren r /\ match r with Some n => here n | None => True end)).
      * destruct (he_top a); [apply foc_next|apply foc_previous]; assumption.
      * intros [n|] n' [-> Hn]; cbn [option_map]; [apply N; apply Hn|].
        destruct (he_top a).
        -- rewrite <- map_rev. apply Forall_rev in Fb. destruct (rev bots) as [|f fs]; [exact I|]. inversion Fb as [|? ? [Hf _] _]; subst. apply N. exact Hf.
        -- destruct tops as [|f fs]; [exact I|]. inversion Ft as [|? ? [Hf _] _]; subst. apply N. exact Hf.
Qed.

Lemma foc_sep_bottom d e l : foc d e -> A l -> sep_at_bottom d l = sep_at_bottom e l.
Proof. intros H Hl. unfold sep_at_bottom. rewrite (foc_conns_at d e l H Hl). reflexivity. Qed.
Lemma foc_sep_top d e l : foc d e -> A l -> sep_at_top d l = sep_at_top e l.
Proof. intros H Hl. unfold sep_at_top. rewrite (foc_conns_at d e l H Hl). reflexivity. Qed.

(** ** What a step leaves behind *)

(** The parts of the states that belong to the labels inside. *)
Record kept (d e : decomp T) : Prop := {
  kp_len : sleq A (d_len d) (d_len e);
  kp_conns : forall l, A l -> d_conns d l = d_conns e l;
  kp_keys : d_keys d = d_keys e;
  kp_comp : nth_error (d_comps d) c = nth_error (d_comps e) c';
}.

Lemma foc_kept d e : foc d e -> kept d e.
Proof. intros []. constructor; auto. Qed.

(** Answers of a step on [c] and [c']: the same up to the number of the component that
    half edges carry; a new component is the same in both. *)
Definition same_step (p p' : dstep * decomp T) : Prop :=
  let st := fst p in let st' := fst p' in
  dst_result st = dst_result st' /\ dst_connection st = dst_connection st' /\
  option_map (map rside) (dst_equivalent st) = dst_equivalent st' /\
  kept (snd p) (snd p') /\
  (dst_result st = D_LIMIT_REACHED -> foc (snd p) (snd p')) /\
  match dst_additional st, dst_additional st' with
  | None, None => True
  | Some k, Some k' => nth_error (d_comps (snd p)) k = nth_error (d_comps (snd p')) k'
  | _, _ => False
  end.

Lemma kept_conns_at d e l : kept d e -> A l -> conns_at d l = conns_at e l.
Proof. intros H Hl. unfold conns_at. rewrite <- (kp_keys _ _ H), (kp_conns _ _ H l Hl). reflexivity. Qed.

Lemma kept_set_conns d e f g : kept d e -> (forall l, A l -> f l = g l) -> kept (set_conns d f) (set_conns e g).
Proof. intros [] H. constructor; auto. Qed.

Lemma hd_label_in l : Forall A l -> rres (fun x x' => x = x' /\ A x) (hd_label l) (hd_label l).
Proof. intro F. destruct l as [|x l]; [exact I|]. split; [reflexivity|]. inversion F. assumption. Qed.

Lemma left_right_gen (d e : decomp T) k k' (f g : iet T -> list label) (h : conns -> conns -> list side) :
  comp_at d k = comp_at e k' -> (forall x, nth_error (d_comps d) k = Some x -> Forall A (f (dc_iet x)) /\ Forall A (g (dc_iet x))) ->
  (forall l, A l -> conns_at d l = conns_at e l) ->
  rres (fun l l' => l = l')
    (x <- comp_at d k ;; b <- hd_label (f (dc_iet x)) ;; t <- hd_label (g (dc_iet x)) ;; cb <- conns_at d b ;; ct <- conns_at d t ;; Ok (h cb ct))
    (x <- comp_at e k' ;; b <- hd_label (f (dc_iet x)) ;; t <- hd_label (g (dc_iet x)) ;; cb <- conns_at e b ;; ct <- conns_at e t ;; Ok (h cb ct)).
Proof.
  intros E F H. rewrite <- E. apply rres_same. intros x Hx. apply comp_at_some in Hx. destruct (F x Hx) as [F1 F2].
  apply (rres_bind _ _ _ _ _ _ (hd_label_in _ F1)). intros b b' [<- Hb]. apply (rres_bind _ _ _ _ _ _ (hd_label_in _ F2)). intros t t' [<- Ht].
  rewrite <- (H b Hb), <- (H t Ht). apply rres_same. intros cb _. apply rres_same. intros ct _. reflexivity.
Qed.

Lemma comp_left_same (d e : decomp T) k k' : comp_at d k = comp_at e k' ->
  (forall x, nth_error (d_comps d) k = Some x -> Forall A (i_top (dc_iet x)) /\ Forall A (i_bottom (dc_iet x))) ->
  (forall l, A l -> conns_at d l = conns_at e l) -> rres (fun l l' => l = l') (comp_left d k) (comp_left e k').
Proof.
  intros E F H.
  apply (left_right_gen d e k k' (fun i => if i_swap i then i_top i else i_bottom i) (fun i => if i_swap i then i_bottom i else i_top i)
    (fun cb ct => rev (map SConn (bottomLeft cb ++ topLeft ct))) E); [|exact H].
  intros x Hx. destruct (F x Hx). destruct (i_swap _); auto.
Qed.
Lemma comp_right_same (d e : decomp T) k k' : comp_at d k = comp_at e k' ->
  (forall x, nth_error (d_comps d) k = Some x -> Forall A (i_top (dc_iet x)) /\ Forall A (i_bottom (dc_iet x))) ->
  (forall l, A l -> conns_at d l = conns_at e l) -> rres (fun l l' => l = l') (comp_right d k) (comp_right e k').
Proof.
  intros E F H.
  apply (left_right_gen d e k k' (fun i => rev (if i_swap i then i_top i else i_bottom i)) (fun i => rev (if i_swap i then i_bottom i else i_top i))
    (fun cb ct => map SConn (bottomRight cb ++ topRight ct)) E); [|exact H].
  intros x Hx. destruct (F x Hx). destruct (i_swap _); split; apply Forall_rev; assumption.
Qed.

Lemma foc_cols d e x : foc d e -> nth_error (d_comps d) c = Some x -> Forall A (i_top (dc_iet x)) /\ Forall A (i_bottom (dc_iet x)).
Proof. intros H Hx. split; apply (fo_focus _ _ H x Hx). Qed.

Lemma merge_conns_same b t first conn f g : (forall l, A l -> f l = g l) -> A b -> A t -> A first ->
  forall l, A l -> merge_conns b t first conn f l = merge_conns b t first conn g l.
Proof.
  intros H Hb Ht Hf l Hl. unfold merge_conns. rewrite (H b Hb).
  set (f1 := upd f b _). set (g1 := upd g b _).
  assert (H1 : forall m, A m -> f1 m = g1 m) by (intros m Hm; apply upd_agree; auto). rewrite (H1 first Hf).
  set (f2 := upd f1 first _). set (g2 := upd g1 first _).
  assert (H2 : forall m, A m -> f2 m = g2 m) by (intros m Hm; apply upd_agree; auto). rewrite (H2 b Hb), (H2 t Ht).
  apply upd_agree, upd_agree. auto.
Qed.

Lemma foc_non_separating d e b t : foc d e -> A b -> A t ->
  rres same_step (step_non_separating c b t d) (step_non_separating c' b t e).
Proof.
  intros H Hb Ht. unfold step_non_separating. apply rres_assert.
  change (mkhe c' t true) with (ren (mkhe c t true)).
  change (he_neg (mkhe c' b true)) with (ren (he_neg (mkhe c b true))).
  apply (rres_bind _ _ _ _ _ _ (foc_cross d e (mkhe c t true) H Ht)). intros x1 x1' ->.
  apply (rres_bind _ _ _ _ _ _ (foc_cross d e (he_neg (mkhe c b true)) H Hb)). intros x2 x2' ->.
  rewrite <- (foc_sep_bottom d e b H Hb), <- (foc_sep_top d e t H Ht). apply rres_same. intros src _. apply rres_same. intros tgt _.
  rewrite <- (foc_comp_at _ _ H). apply rres_same. intros x Hx. apply comp_at_some in Hx. destruct (foc_cols d e x H Hx) as [F1 F2].
  apply (rres_bind _ _ _ _ _ _ (hd_label_in _ F1)). intros first first' [<- Hf].
  apply rres_assert. rewrite <- (foc_conns_at d e b H Hb), <- (foc_conns_at d e first H Hf), <- (foc_conns_at d e t H Ht).
  apply rres_same. intros _ _. apply rres_same. intros _ _. apply rres_same. intros _ _.
  set (d1 := set_conns d _). set (e1 := set_conns e _).
  assert (H1 : foc d1 e1). { apply foc_set_conns; [exact H|]. apply merge_conns_same; auto. apply H. }
  eapply rres_bind; [apply comp_left_same; [exact (foc_comp_at _ _ H1)| |]|].
  - intros y Hy. exact (foc_cols _ _ y H1 Hy).
  - intros l Hl. apply foc_conns_at; assumption.
  - intros p p' <-. apply rres_assert. cbn [rres]. unfold same_step. cbn [fst snd dst_result dst_connection dst_equivalent dst_additional].
    split; [reflexivity|]. split; [reflexivity|]. split; [cbn [option_map]; rewrite <- map_app, backwards_ren; reflexivity|].
    split; [apply foc_kept; exact H1|]. split; [discriminate|exact I].
Qed.

Lemma kept_comp_at d e : kept d e -> comp_at d c = comp_at e c'.
Proof. intro H. unfold comp_at. rewrite (kp_comp _ _ H). reflexivity. Qed.

Lemma nth_error_snoc {B} (l : list B) x : nth_error (l ++ [x]) (length l) = Some x.
Proof. rewrite nth_error_app2 by lia. rewrite Nat.sub_diag. reflexivity. Qed.

Lemma foc_separating fuel d e b t j : foc d e -> A b -> A t -> Forall A (i_top j) -> Forall A (i_bottom j) ->
  rres same_step (step_separating fuel c b t j d) (step_separating fuel c' b t j e).
Proof.
  intros H Hb Ht F1 F2. unfold step_separating.
  apply (rres_bind _ _ _ _ _ _ (foc_bottom d e H)). intros bots bots' (-> & Fb).
  apply (rres_bind _ _ _ _ _ _ (foc_top d e H)). intros tops tops' (-> & Ft).
  assert (Q : forall l, map he_label (rev (map ren l)) = map he_label (rev l)) by (intro l; rewrite <- map_rev, map_map; reflexivity).
  rewrite !Q. apply rres_same. intros lb _. apply rres_same. intros lt _.
  change (mkhe c' lt true) with (ren (mkhe c lt true)).
  change (he_neg (mkhe c' lb true)) with (ren (he_neg (mkhe c lb true))).
  apply (rres_bind _ _ _ _ _ _ (foc_walk d e H fuel (he_neg (mkhe c lb true)) (mkhe c lt true) eq_refl eq_refl)). intros w w' ->.
  rewrite <- (foc_sep_bottom d e b H Hb), <- (foc_sep_top d e t H Ht). apply rres_same. intros src _. apply rres_same. intros tgt _.
  set (new := mkdcomp j None None None). set (d1 := set_comps d (d_comps d ++ [new])). set (e1 := set_comps e (d_comps e ++ [new])).
  pose proof (fo_in _ _ H) as Hc. pose proof (fo_in' _ _ H) as Hc'.
  assert (K : kept d1 e1).
  { destruct H. constructor; auto. unfold d1, e1. cbn [d_comps set_comps].
    rewrite !nth_error_app1 by assumption. assumption. }
  assert (N : nth_error (d_comps d1) (length (d_comps d)) = Some new) by apply nth_error_snoc.
  assert (N' : nth_error (d_comps e1) (length (d_comps e)) = Some new) by apply nth_error_snoc.
  assert (X : forall x, nth_error (d_comps d1) c = Some x -> Forall A (i_top (dc_iet x)) /\ Forall A (i_bottom (dc_iet x))).
  { intros x Hx. unfold d1 in Hx. cbn [d_comps set_comps] in Hx. rewrite nth_error_app1 in Hx by assumption. exact (foc_cols _ _ x H Hx). }
  unfold register_separating.
  apply (rres_bind (fun d2 e2 => kept d2 e2 /\ d_comps d2 = d_comps d1 /\ d_comps e2 = d_comps e1)).
  - apply rres_assert. replace (Nat.eqb c (length (d_comps d))) with false by (symmetry; apply Nat.eqb_neq; lia).
    replace (Nat.eqb c' (length (d_comps e))) with false by (symmetry; apply Nat.eqb_neq; lia). cbn [negb assert_].
    rewrite <- (kept_comp_at _ _ K). apply rres_same. intros x Hx. apply comp_at_some in Hx. destruct (X x Hx) as [X1 X2].
    assert (comp_at d1 (length (d_comps d)) = Ok new) as -> by (unfold comp_at; rewrite N; reflexivity).
    assert (comp_at e1 (length (d_comps e)) = Ok new) as -> by (unfold comp_at; rewrite N'; reflexivity). cbn [bind dc_iet new].
    apply (rres_bind _ _ _ _ _ _ (hd_label_in _ (Forall_rev X2))). intros lb' lb'' [<- Hlb].
    rewrite <- (kept_conns_at d1 e1 lb' K Hlb). apply rres_same. intros cb _.
    set (d2 := set_conns d1 _). set (e2 := set_conns e1 _).
    assert (K2 : kept d2 e2). { apply kept_set_conns; [exact K|]. intros l Hl. apply upd_agree. apply (kp_conns _ _ K l Hl). }
    apply (rres_bind _ _ _ _ _ _ (hd_label_in _ F2)). intros lr lr' [<- Hlr].
    rewrite <- (kept_conns_at d2 e2 lr K2 Hlr). apply rres_same. intros cb' _.
    set (d3 := set_conns d2 _). set (e3 := set_conns e2 _).
    assert (K3 : kept d3 e3). { apply kept_set_conns; [exact K2|]. intros l Hl. apply upd_agree. apply (kp_conns _ _ K2 l Hl). }
    eapply rres_bind; [apply comp_right_same; [exact (kept_comp_at _ _ K3)|exact X|intros l Hl; apply kept_conns_at; assumption]|].
    intros p p' <-. apply rres_assert.
    eapply rres_bind; [apply comp_left_same; [|intros y Hy|intros l Hl; apply kept_conns_at; assumption]|].
    + unfold comp_at. change (d_comps d3) with (d_comps d1). change (d_comps e3) with (d_comps e1). rewrite N, N'. reflexivity.
    + change (d_comps d3) with (d_comps d1) in Hy. rewrite N in Hy. injection Hy as <-. split; assumption.
    + intros q q' <-. apply rres_assert. cbn [rres]. split; [exact K3|]. split; reflexivity.
  - intros d2 e2 (K2 & E1 & E2). cbn [rres]. unfold same_step. cbn [fst snd dst_result dst_connection dst_equivalent dst_additional option_map].
    split; [reflexivity|]. split; [reflexivity|]. split; [reflexivity|]. split; [exact K2|]. split; [discriminate|].
    rewrite E1, E2, N, N'. reflexivity.
Qed.

Lemma same_step_plain r d e : foc d e -> same_step (mkdstep r None None None, d) (mkdstep r None None None, e).
Proof.
  intro H. unfold same_step. cbn. repeat (split; [reflexivity|]). split; [apply foc_kept; exact H|]. split; [intros _; exact H|exact I].
Qed.

Lemma foc_finish fuel st d e : inner st -> foc d e -> rres same_step (step_finish fuel st c d) (step_finish fuel st c' e).
Proof.
  intros [I1 I2] H. unfold step_finish. rewrite <- (foc_comp_at _ _ H). apply rres_same. intros x Hx. apply comp_at_some in Hx.
  pose proof (fo_focus _ _ H x Hx) as Fx.
  assert (G : forall y r, dc_iet y = dc_iet x -> rres same_step
    (d1 <- comp_set d c y ;; Ok (mkdstep r None None None, d1)) (e1 <- comp_set e c' y ;; Ok (mkdstep r None None None, e1))).
  { intros y r Ey. eapply rres_bind; [apply foc_comp_set; [exact H|rewrite Ey; exact Fx]|]. intros d1 e1 H1. apply same_step_plain. exact H1. }
  destruct (is_result st).
  - apply same_step_plain. exact H.
  - apply G. reflexivity.
  - destruct (is_connection st) as [[b t]|]; [|exact I]. destruct (is_additional st) as [j|]; [|exact I]. apply foc_separating; try assumption; try apply I2; apply I1.
  - destruct (is_connection st) as [[b t]|]; [|exact I]. apply foc_non_separating; try assumption; apply I2.
  - apply G. reflexivity.
  - apply G. reflexivity.
Qed.

Lemma foc_limited fuel limit d e : foc d e -> rres same_step (step_limited fuel limit c d) (step_limited fuel limit c' e).
Proof.
  intro H. unfold step_limited. apply (rres_bind _ _ _ _ _ _ (foc_step_start d e H)). intros [k d1] [k' e1] (E & _ & H1). cbn [fst snd] in *. subst k'.
  apply (rres_bind _ _ _ _ _ _ (foc_step_loop fuel k fuel limit d1 e1 H1)). intros [st d2] [st' e2] (E & I2 & H2). cbn [fst snd] in *. subst st'.
  apply foc_finish; assumption.
Qed.

Lemma foc_unlimited fuel k : forall rounds limit d e, foc d e ->
  rres same_step (step_unlimited rounds fuel k limit c d) (step_unlimited rounds fuel k limit c' e).
Proof.
  induction rounds as [|rounds IH]; intros limit d e H; [exact I|]. cbn [step_unlimited].
  apply (rres_bind _ _ _ _ _ _ (foc_limited fuel limit d e H)). intros [st d1] [st' e1] Hs. pose proof Hs as (Er & _ & _ & _ & HL & _). cbn [fst snd] in *.
  rewrite <- Er. destruct (dst_result st) eqn:E; try exact Hs.
  destruct k; (destruct (_ <=? _)%Z; [|exact I]); apply IH; apply HL; reflexivity.
Qed.

Theorem foc_decomposition_step fuel limit d e : foc d e ->
  rres same_step (decomposition_step fuel limit c d) (decomposition_step fuel limit c' e).
Proof.
  intro H. unfold decomposition_step. destruct (limit =? -1)%Z; [|apply foc_limited; exact H].
  apply (rres_bind _ _ _ _ _ _ (foc_step_start d e H)). intros [k d1] [k' e1] (E & _ & H1). cbn [fst snd] in *. subst k'.
  apply foc_unlimited. exact H1.
Qed.
End FocusDec.
