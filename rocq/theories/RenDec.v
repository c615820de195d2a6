(** Renaming labels commutes with everything that is done to decompositions. *)
From Coq Require Import List Lia.
From Verif Require Import Base QcTac LenT FM Subspace Lengths IET Decomp Spec Api Twin RatioApi RenApi Ren.
Open Scope nat_scope.

Section RenDec.
Variable f : label -> label.
Hypothesis inj : forall a b, f a = f b -> a = b.
Context {T : Type} {O : LenOps T}.

Notation srel := (@srel f T).
Notation irel := (@irel f T).
Notation rc := (ren_conn f).
Notation rs := (ren_side f).
Notation re := (ren_edge f).

Lemma feq a b : Nat.eqb (f a) (f b) = Nat.eqb a b.
Proof. apply f_eqb, inj. Qed.

Definition ren_conns (c : conns) : conns :=
  mkconns (map rc (topLeft c)) (map rc (topRight c)) (map rc (bottomLeft c)) (map rc (bottomRight c)).

Definition crel (x x' : dcomp T) : Prop :=
  irel (dc_iet x) (dc_iet x') /\ dc_cylinder x' = dc_cylinder x /\ dc_wpt x' = dc_wpt x /\ dc_keane x' = dc_keane x.

Definition mrel (g g' : label -> conns) : Prop := forall l, g' (f l) = ren_conns (g l).

Definition drel (d d' : decomp T) : Prop :=
  srel (d_len d) (d_len d') /\ d_stack d' = map f (d_stack d) /\ d_keys d' = map f (d_keys d) /\
  mrel (d_conns d) (d_conns d') /\ Forall2 crel (d_comps d) (d_comps d').

(** ** Small things *)

Lemma ren_sep_eqb a b : sep_eqb (ren_sep f a) (ren_sep f b) = sep_eqb a b.
Proof. unfold sep_eqb. cbn. rewrite feq. reflexivity. Qed.
Lemma ren_conn_eqb a b : conn_eqb (rc a) (rc b) = conn_eqb a b.
Proof. unfold conn_eqb. cbn. rewrite !ren_sep_eqb. reflexivity. Qed.
Lemma ren_conn_parallel c : conn_parallel (rc c) = conn_parallel c.
Proof. reflexivity. Qed.
Lemma ren_conn_neg c : conn_neg (rc c) = rc (conn_neg c).
Proof. reflexivity. Qed.
Lemma ren_he_eqb a b : he_eqb (re a) (re b) = he_eqb a b.
Proof. unfold he_eqb. cbn. rewrite feq. reflexivity. Qed.
Lemma ren_side_eqb a b : side_eqb (rs a) (rs b) = side_eqb a b.
Proof. destruct a, b; cbn; try reflexivity; [rewrite ren_conn_eqb|rewrite ren_he_eqb]; reflexivity. Qed.

Lemma map_SConn cs : map SConn (map rc cs) = map rs (map SConn cs).
Proof. rewrite !map_map. reflexivity. Qed.

Lemma upd_rel g g' l c : mrel g g' -> mrel (upd g l c) (upd g' (f l) (ren_conns c)).
Proof. intros H m. unfold upd. rewrite feq. destruct (Nat.eqb m l); [reflexivity|apply H]. Qed.

Definition eqm {A B} (g : A -> B) (m : res A) (m' : res B) : Prop := rres (fun a b => b = g a) m m'.

Lemma ren_conns_at d d' l : drel d d' -> eqm ren_conns (conns_at d l) (conns_at d' (f l)).
Proof.
  intros (_ & _ & K & M & _). unfold conns_at. rewrite K, (memb_map f inj). destruct (memb l (d_keys d)); [|exact I]. apply M.
Qed.

Lemma Forall2_nth {A B} (P : A -> B -> Prop) l l' n : Forall2 P l l' ->
  match nth_error l n, nth_error l' n with Some a, Some b => P a b | None, None => True | _, _ => False end.
Proof. intro H. revert n. induction H; intros [|n]; cbn; auto. apply IHForall2. Qed.

Lemma ren_comp_at d d' c : drel d d' -> rres crel (comp_at d c) (comp_at d' c).
Proof.
  intros (_ & _ & _ & _ & C). unfold comp_at. pose proof (Forall2_nth _ _ _ c C) as H. destruct (nth_error (d_comps d) c), (nth_error (d_comps d') c); try contradiction; exact H.
Qed.

Lemma Forall2_set {A B} (P : A -> B -> Prop) l l' n x x' : Forall2 P l l' -> P x x' ->
  match set_nth n x l, set_nth n x' l' with Some a, Some b => Forall2 P a b | None, None => True | _, _ => False end.
Proof.
  intros H Hx. revert n. induction H; intros [|n]; cbn; auto.
  specialize (IHForall2 n). destruct (set_nth n x l), (set_nth n x' l'); auto.
Qed.

Lemma drel_comps d d' cs cs' : drel d d' -> Forall2 crel cs cs' -> drel (set_comps d cs) (set_comps d' cs').
Proof. intros (A & B & K & M & _) C. repeat split; cbn; try assumption; apply A. Qed.
Lemma drel_conns d d' g g' : drel d d' -> mrel g g' -> drel (set_conns d g) (set_conns d' g').
Proof. intros (A & B & K & _ & C) M. repeat split; cbn; try assumption; apply A. Qed.
Lemma drel_lens d d' s s' st : drel d d' -> srel s s' -> drel (set_lens d s st) (set_lens d' s' (map f st)).
Proof. intros (_ & B & K & M & C) A. repeat split; cbn; try assumption; apply A. Qed.

Lemma ren_comp_set d d' c x x' : drel d d' -> crel x x' -> rres drel (comp_set d c x) (comp_set d' c x').
Proof.
  intros H Hx. unfold comp_set. pose proof (Forall2_set _ _ _ c _ _ (proj2 (proj2 (proj2 (proj2 H)))) Hx) as C.
  destruct (set_nth c x (d_comps d)), (set_nth c x' (d_comps d')); try contradiction; [|exact I]. apply drel_comps; assumption.
Qed.

Lemma crel_iet_set x x' i i' : crel x x' -> irel i i' -> crel (iet_set x i) (iet_set x' i').
Proof. intros (_ & H) Hi. split; assumption. Qed.

(** ** LengthsWithConnections *)

Lemma ren_on_top m v : on_top (f m) (vren f v) = on_top m v.
Proof. destruct v as [[|x t] s]; [reflexivity|]. unfold on_top. cbn. rewrite feq. reflexivity. Qed.

Lemma ren_views_with v : forall cs cs' c, Forall2 crel cs cs' -> views_with c (vren f v) cs' = map (vren f) (views_with c v cs).
Proof.
  intros cs cs' c H. revert c. induction H as [|x x' cs cs' Hx H IH]; intro c; [destruct c; reflexivity|]. destruct c as [|c]; cbn [views_with map].
  - f_equal. clear IH. induction H as [|y y' cs cs' Hy H IH]; [reflexivity|]. cbn [map]. rewrite IH, (ren_view f _ _ (proj1 Hy)). reflexivity.
  - rewrite IH, (ren_view f _ _ (proj1 Hx)). reflexivity.
Qed.

Lemma existsb_map {A B} (g : A -> B) p l : existsb p (map g l) = existsb (fun x => p (g x)) l.
Proof. induction l as [|x l IH]; [reflexivity|]. cbn. rewrite IH. reflexivity. Qed.

Lemma ext_existsb {A} (p q : A -> bool) l : (forall x, p x = q x) -> existsb p l = existsb q l.
Proof. intro H. induction l as [|x l IH]; [reflexivity|]. cbn. rewrite H, IH. reflexivity. Qed.

Lemma ren_conn_subtract b m sub g g' : mrel g g' -> rres mrel (conn_subtract b m sub g) (conn_subtract b (f m) (f sub) g').
Proof.
  intro H. unfold conn_subtract. rewrite feq. destruct (Nat.eqb m sub); [exact I|]. cbn zeta. rewrite !H.
  apply (upd_rel _ _ m (mkconns [] _ [] _)).
  destruct b; cbn [ren_conns topLeft topRight bottomLeft bottomRight]; rewrite <- !map_app; eapply (upd_rel _ _ sub (mkconns _ _ _ _)); exact H.
Qed.

Lemma ren_subtract2 c v m sub d d' : drel d d' -> rres drel (lwc_subtract2 c v m sub d) (lwc_subtract2 c (vren f v) (f m) (f sub) d').
Proof.
  intro H. unfold lwc_subtract2. cbn zeta. rewrite (ren_views_with v _ _ c (proj2 (proj2 (proj2 (proj2 H))))), existsb_map.
  rewrite (ext_existsb (fun x => on_top (f m) (vren f x)) (on_top m)) by (intro; apply ren_on_top).
  apply (rres_bind _ _ _ _ _ _ (ren_conns_at d d' sub H)). intros _ _ _.
  apply (rres_bind _ _ _ _ _ _ (ren_conns_at d d' m H)). intros _ _ _.
  apply (rres_bind _ _ _ _ _ _ (ren_conn_subtract _ m sub _ _ (proj1 (proj2 (proj2 (proj2 H)))))). intros g g' G.
  apply drel_conns; assumption.
Qed.

Lemma ren_lwc_push l d d' : drel d d' -> rres drel (lwc_push l d) (lwc_push (f l) d').
Proof.
  intro H. pose proof H as (A & B & _). unfold lwc_push. rewrite B, (memb_map f inj). apply rres_assert.
  change [f l] with (map f [l]). rewrite <- map_app. apply drel_lens; [exact H|]. apply ren_push, A.
Qed.

Lemma ren_lwc_pop d d' : drel d d' -> rres drel (lwc_pop d) (lwc_pop d').
Proof.
  intro H. pose proof H as (A & B & _). unfold lwc_pop. rewrite B, map_length. apply rres_assert.
  apply (rres_bind _ _ _ _ _ _ (ren_pop f _ _ A)). intros s s' S. rewrite removelast_map. apply drel_lens; assumption.
Qed.

Lemma ren_lwc_subtract c v m d d' : drel d d' -> rres drel (lwc_subtract c v m d) (lwc_subtract c (vren f v) (f m) d').
Proof.
  intro H. pose proof H as (A & B & _). unfold lwc_subtract. rewrite B. destruct (d_stack d) as [|sub st] eqn:E; [exact H|]. cbn [map].
  apply (rres_bind _ _ _ _ _ _ (ren_subtract f inj _ _ m A)). intros s s' S.
  apply (rres_bind _ _ _ _ _ _ (ren_subtract2 c v m sub _ _ (drel_lens d d' s s' (sub :: st) H S))). intros d1 d1' H1.
  apply (drel_lens d1 d1' (d_len d1) (d_len d1') []); [exact H1|apply H1].
Qed.

Lemma ren_lwc_subrep c v m d d' : drel d d' ->
  rres (fun p p' => fst p' = f (fst p) /\ drel (snd p) (snd p')) (lwc_subrep c v m d) (lwc_subrep c (vren f v) (f m) d').
Proof.
  intro H. pose proof H as (A & B & _). unfold lwc_subrep. rewrite B. destruct (d_stack d) as [|sub st] eqn:E; [exact I|]. cbn [map].
  apply (rres_bind _ _ _ _ _ _ (ren_subrep f inj _ _ m A)). intros [r s] [r' s'] [R S]. cbn [fst snd] in *. subst r'.
  apply (rres_bind _ _ _ _ _ _ (ren_subtract2 c v m sub _ _ (drel_lens d d' s s' (sub :: st) H S))). intros d1 d1' H1.
  split; [reflexivity|]. apply (drel_lens d1 d1' (d_len d1) (d_len d1') []); [exact H1|apply H1].
Qed.

Definition ndrel := @nrel f T (decomp T) drel.

Lemma ren_dec_induce c fuel limit i i' d d' : irel i i' -> drel d d' ->
  rres ndrel (induce (dec_lens c) fuel limit i d) (induce (dec_lens c) fuel limit i' d').
Proof.
  apply (ren_induce f inj (dec_lens c) (dec_lens c) drel); cbn [dec_lens li_push li_pop li_cmp1 li_cmp2 li_subtract li_subrep li_base].
  - intros. apply ren_lwc_push; assumption.
  - intros. apply ren_lwc_pop; assumption.
  - intros s s' H l. apply ren_cmp1, H.
  - intros s s' H l m. apply ren_cmp2, H.
  - intros. apply ren_lwc_subtract; assumption.
  - intros. apply ren_lwc_subrep; assumption.
  - intros s s' H. apply H.
Qed.

Lemma ren_dec_make i i' s s' : irel i i' -> srel s s' -> rres drel (dec_make i s) (dec_make i' s').
Proof.
  intros (E1 & E2 & _) H. unfold dec_make. rewrite E1, E2. apply (rres_bind _ _ _ _ _ _ (ren_make f inj s s' (i_top i) (i_bottom i) H)). intros j j' J.
  split; [exact H|]. split; [reflexivity|]. split; [reflexivity|]. split; [intro l; reflexivity|].
  constructor; [|constructor]. split; [exact J|]. split; [reflexivity|split; reflexivity].
Qed.

(** ** Contours and perimeters *)

Lemma eqm_bind {A A' B B'} (g : A -> A') (h : B -> B') m m' k k' :
  eqm g m m' -> (forall a, m = Ok a -> eqm h (k a) (k' (g a))) -> eqm h (bind m k) (bind m' k').
Proof. unfold eqm. intros H K. destruct m, m'; cbn in *; try contradiction; try exact I. subst. apply K. reflexivity. Qed.

Lemma eqm_ok {A B} (g : A -> B) x y : y = g x -> eqm g (Ok x) (Ok y).
Proof. intro H. exact H. Qed.

Lemma eqm_assert {A B} (g : A -> B) b m m' : eqm g m m' -> eqm g (assert_ b m) (assert_ b m').
Proof. apply rres_assert. Qed.

Lemma eqm_crel {B B'} (h : B -> B') d d' c k k' : drel d d' ->
  (forall x x', crel x x' -> eqm h (k x) (k' x')) -> eqm h (bind (comp_at d c) k) (bind (comp_at d' c) k').
Proof. intros H K. apply (rres_bind _ _ _ _ _ _ (ren_comp_at d d' c H)). exact K. Qed.

Lemma ren_row {x x' : dcomp T} (b : bool) : crel x x' ->
  (if i_swap (dc_iet x') then (if b then i_bottom (dc_iet x') else i_top (dc_iet x')) else (if b then i_top (dc_iet x') else i_bottom (dc_iet x'))) =
  map f (if i_swap (dc_iet x) then (if b then i_bottom (dc_iet x) else i_top (dc_iet x)) else (if b then i_top (dc_iet x) else i_bottom (dc_iet x))).
Proof. intros ((E1 & E2 & E3 & _) & _). rewrite E1, E2, E3. destruct (i_swap (dc_iet x)), b; reflexivity. Qed.

Lemma map_edges c b ls : map (fun l => mkhe c l b) (map f ls) = map re (map (fun l => mkhe c l b) ls).
Proof. rewrite !map_map. reflexivity. Qed.

Lemma ren_top_contour d d' c : drel d d' -> eqm (map re) (top_contour d c) (top_contour d' c).
Proof. intro H. unfold top_contour. apply eqm_crel; [exact H|]. intros x x' X. apply eqm_ok. rewrite (ren_row true X). apply map_edges. Qed.
Lemma ren_bottom_contour d d' c : drel d d' -> eqm (map re) (bottom_contour d c) (bottom_contour d' c).
Proof. intro H. unfold bottom_contour. apply eqm_crel; [exact H|]. intros x x' X. apply eqm_ok. rewrite (ren_row false X). apply map_edges. Qed.

Lemma ren_he_find e l : he_find (re e) (map re l) = he_find e l.
Proof. induction l as [|x l IH]; [reflexivity|]. cbn [map he_find]. rewrite ren_he_eqb, IH. reflexivity. Qed.

Lemma ren_he_component d d' e : drel d d' -> eqm (fun c => c) (he_component d e) (he_component d' (re e)).
Proof.
  intro H. unfold he_component. cbn [ren_edge he_top he_comp].
  apply (eqm_bind (map re)); [destruct (he_top e); [apply ren_top_contour|apply ren_bottom_contour]; exact H|]. intros l _.
  rewrite ren_he_find. apply rres_same. intros b _. apply eqm_assert, eqm_ok. reflexivity.
Qed.

Lemma ren_he_left d d' e : drel d d' -> eqm (map rc) (he_left d e) (he_left d' (re e)).
Proof.
  intro H. unfold he_left. apply (eqm_bind ren_conns); [apply ren_conns_at, H|]. intros c _. apply eqm_ok. cbn [ren_edge he_top]. destruct (he_top e); reflexivity.
Qed.
Lemma ren_he_right d d' e : drel d d' -> eqm (map rc) (he_right d e) (he_right d' (re e)).
Proof.
  intro H. unfold he_right. apply (eqm_bind ren_conns); [apply ren_conns_at, H|]. intros c _. apply eqm_ok. cbn [ren_edge he_top]. destruct (he_top e); reflexivity.
Qed.

Lemma ren_he_cross d d' e : drel d d' -> eqm (map rs) (he_cross d e) (he_cross d' (re e)).
Proof.
  intro H. unfold he_cross. apply (eqm_bind (map rc)); [apply ren_he_left, H|]. intros l _.
  apply (eqm_bind (map rc)); [apply ren_he_right, H|]. intros r _. apply eqm_ok. cbn [ren_edge he_top].
  destruct (he_top e); rewrite !map_app, map_rev, !map_SConn; reflexivity.
Qed.

Lemma ren_he_next d d' e : drel d d' -> eqm (option_map re) (he_next d e) (he_next d' (re e)).
Proof.
  intro H. unfold he_next. cbn [ren_edge he_comp he_label he_top]. apply eqm_crel; [exact H|]. intros x x' ((E1 & E2 & _) & _). rewrite E1, E2.
  replace (if he_top e then map f (i_top (dc_iet x)) else map f (i_bottom (dc_iet x))) with (map f (if he_top e then i_top (dc_iet x) else i_bottom (dc_iet x))) by (destruct (he_top e); reflexivity).
  rewrite (split_at_map f inj). destruct (split_at _ _) as [[p [|l q]]|]; [| |exact I]; apply eqm_ok; reflexivity.
Qed.
Lemma ren_he_previous d d' e : drel d d' -> eqm (option_map re) (he_previous d e) (he_previous d' (re e)).
Proof.
  intro H. unfold he_previous. cbn [ren_edge he_comp he_label he_top]. apply eqm_crel; [exact H|]. intros x x' ((E1 & E2 & _) & _). rewrite E1, E2.
  replace (if he_top e then map f (i_top (dc_iet x)) else map f (i_bottom (dc_iet x))) with (map f (if he_top e then i_top (dc_iet x) else i_bottom (dc_iet x))) by (destruct (he_top e); reflexivity).
  rewrite (split_at_map f inj). destruct (split_at _ _) as [[p q]|]; [|exact I]. apply eqm_ok. cbn [fst]. rewrite <- map_rev. destruct (rev p); reflexivity.
Qed.

Lemma ren_skip_top : forall cs l, eqm (ren_sep f) (skip_top l cs) (skip_top (f l) (map rc cs)).
Proof.
  induction cs as [|c cs IH]; intro l; [apply eqm_ok; reflexivity|]. cbn [map skip_top].
  change (mksep (f l) ANTIPARALLEL) with (ren_sep f (mksep l ANTIPARALLEL)). cbn [ren_conn cn_target cn_source]. rewrite ren_sep_eqb. apply eqm_assert. apply IH.
Qed.
Lemma ren_skip_bottom : forall cs l, eqm (ren_sep f) (skip_bottom l cs) (skip_bottom (f l) (map rc cs)).
Proof.
  induction cs as [|c cs IH]; intro l; [apply eqm_ok; reflexivity|]. cbn [map skip_bottom].
  change (mksep (f l) PARALLEL) with (ren_sep f (mksep l PARALLEL)). cbn [ren_conn cn_target cn_source]. rewrite ren_sep_eqb. apply eqm_assert. apply IH.
Qed.

Lemma ren_sep_at_top d d' l : drel d d' -> eqm (ren_sep f) (sep_at_top d l) (sep_at_top d' (f l)).
Proof.
  intro H. unfold sep_at_top. apply (eqm_bind ren_conns); [apply ren_conns_at, H|]. intros c _. cbn [ren_conns topRight]. rewrite <- map_rev. apply ren_skip_top.
Qed.
Lemma ren_sep_at_bottom d d' l : drel d d' -> eqm (ren_sep f) (sep_at_bottom d l) (sep_at_bottom d' (f l)).
Proof.
  intro H. unfold sep_at_bottom. apply (eqm_bind ren_conns); [apply ren_conns_at, H|]. intros c _. apply ren_skip_bottom.
Qed.

Lemma ren_hd_label l : eqm f (hd_label l) (hd_label (map f l)).
Proof. destruct l; [exact I|]. apply eqm_ok. reflexivity. Qed.

Lemma ren_comp_left d d' c : drel d d' -> eqm (map rs) (comp_left d c) (comp_left d' c).
Proof.
  intro H. unfold comp_left. apply eqm_crel; [exact H|]. intros x x' X. cbn zeta.
  pose proof (ren_row false X) as R1. pose proof (ren_row true X) as R2. cbn iota in R1, R2. rewrite R1, R2.
  apply (eqm_bind f); [apply ren_hd_label|]. intros b _. apply (eqm_bind f); [apply ren_hd_label|]. intros t _.
  apply (eqm_bind ren_conns); [apply ren_conns_at, H|]. intros cb _. apply (eqm_bind ren_conns); [apply ren_conns_at, H|]. intros ct _.
  apply eqm_ok. cbn [ren_conns bottomLeft topLeft]. rewrite map_rev, <- map_app, map_SConn. reflexivity.
Qed.
Lemma ren_comp_right d d' c : drel d d' -> eqm (map rs) (comp_right d c) (comp_right d' c).
Proof.
  intro H. unfold comp_right. apply eqm_crel; [exact H|]. intros x x' X. cbn zeta.
  pose proof (ren_row false X) as R1. pose proof (ren_row true X) as R2. cbn iota in R1, R2. rewrite R1, R2, <- !map_rev.
  apply (eqm_bind f); [apply ren_hd_label|]. intros b _. apply (eqm_bind f); [apply ren_hd_label|]. intros t _.
  apply (eqm_bind ren_conns); [apply ren_conns_at, H|]. intros cb _. apply (eqm_bind ren_conns); [apply ren_conns_at, H|]. intros ct _.
  apply eqm_ok. cbn [ren_conns bottomRight topRight]. rewrite <- map_app, map_SConn. reflexivity.
Qed.

(** ** walkClockwise *)

Lemma map_backwards l : backwards (map rs l) = map rs (backwards l).
Proof. unfold backwards. rewrite <- map_rev, !map_map. apply map_ext. intros [c|e]; reflexivity. Qed.

Lemma ren_walk_clockwise : forall fuel d d' from to, drel d d' -> eqm (map rs) (walk_clockwise fuel d from to) (walk_clockwise fuel d' (re from) (re to)).
Proof.
  induction fuel as [|fuel IH]; intros d d' from to H; [exact I|]. cbn [walk_clockwise].
  apply (eqm_bind (fun c => c)); [apply ren_he_component, H|]. intros c _.
  apply (eqm_bind (fun c => c)); [apply ren_he_component, H|]. intros c' _. apply eqm_assert.
  apply (eqm_bind (map re)); [apply ren_top_contour, H|]. intros tops _.
  apply (eqm_bind (map re)); [apply ren_bottom_contour, H|]. intros bots _. cbn [ren_edge he_top].
  assert (J : forall a b a' b', eqm (map rs) (x <- walk_clockwise fuel d a b ;; y <- walk_clockwise fuel d a' b' ;; Ok (x ++ y))
      (x <- walk_clockwise fuel d' (re a) (re b) ;; y <- walk_clockwise fuel d' (re a') (re b') ;; Ok (x ++ y))).
  { intros a b a' b'. apply (eqm_bind (map rs)); [apply IH, H|]. intros x _. apply (eqm_bind (map rs)); [apply IH, H|]. intros y _. apply eqm_ok. symmetry. apply map_app. }
  destruct (negb (he_top from) && he_top to).
  - destruct bots as [|b bots]; [exact I|]. destruct tops as [|t tops]; [exact I|]. apply J.
  - destruct (he_top from && negb (he_top to)).
    + rewrite <- !map_rev. destruct (rev bots) as [|b ?]; [exact I|]. destruct (rev tops) as [|t ?]; [exact I|]. apply J.
    + apply (eqm_bind (map rs)); [apply ren_he_cross, H|]. intros cr _.
      change (mkhe (he_comp from) (f (he_label from)) (he_top from)) with (re from). change (mkhe (he_comp to) (f (he_label to)) (he_top to)) with (re to).
      rewrite ren_he_eqb. apply rres_same. intros eq _. destruct eq; [apply eqm_ok, map_backwards|].
      assert (J' : forall n, eqm (map rs) (y <- walk_clockwise fuel d n to ;; Ok (backwards cr ++ y)) (y <- walk_clockwise fuel d' (re n) (re to) ;; Ok (backwards (map rs cr) ++ y))).
      { intro n. apply (eqm_bind (map rs)); [apply IH, H|]. intros y _. apply eqm_ok. rewrite map_app, map_backwards. reflexivity. }
      apply (eqm_bind (option_map re)); [destruct (he_top from); [apply ren_he_next|apply ren_he_previous]; exact H|]. intros [n|] _; cbn [option_map].
      * apply J'.
      * destruct (he_top from).
        -- rewrite <- map_rev. destruct (rev bots) as [|b ?]; [exact I|]. apply J'.
        -- destruct tops as [|t ?]; [exact I|]. apply J'.
Qed.

(** ** decompositionStep *)

Lemma ren_bosh_cost i i' s s' : irel i i' -> srel s s' -> rres (@brel f T (option Z)) (bosh_cost i s) (bosh_cost i' s').
Proof.
  intros Hi H. unfold bosh_cost. apply (rres_bind _ _ _ _ _ _ (ren_saf_invariant f inj _ _ _ _ Hi H)).
  intros [v j] [v' j'] [E J]. cbn [fst snd] in *. subst v'. split; [reflexivity|exact J].
Qed.

Definition ssrel (p p' : istep T * decomp T) : Prop := step_rel f (fst p) (fst p') /\ drel (snd p) (snd p').

Lemma ren_step_loop fuel cost c : forall rounds limit d d', drel d d' -> rres ssrel (step_loop rounds fuel cost limit c d) (step_loop rounds fuel cost limit c d').
Proof.
  induction rounds as [|rounds IH]; intros limit d d' H; [exact I|]. cbn [step_loop]. cbn zeta.
  set (steps := match cost with Some _ => _ | None => _ end). clearbody steps.
  apply (rres_bind _ _ _ _ _ _ (ren_comp_at d d' c H)). intros x x' X.
  apply (rres_bind _ _ _ _ _ _ (ren_dec_induce c fuel steps _ _ _ _ (proj1 X) H)). intros [[st i] e] [[st' i'] e'] (S & J & E). cbn [fst snd] in *.
  apply (rres_bind _ _ _ _ _ _ (ren_comp_set e e' c _ _ E (crel_iet_set _ _ _ _ X J))). intros g g' G.
  assert (K : ssrel (st, g) (st', g')) by (split; assumption).
  rewrite (proj1 S). destruct (is_result st); try exact K. destruct (_ =? 0)%Z; [exact K|]. apply IH, G.
Qed.

Definition dsrel (p p' : dstep * decomp T) : Prop := fst p' = ren_step f (fst p) /\ drel (snd p) (snd p').

Lemma ren_comp_row {d d' : decomp T} l : drel d d' -> rres (fun x x' => i_top (dc_iet x') = map f (i_top (dc_iet x)) /\ i_bottom (dc_iet x') = map f (i_bottom (dc_iet x))) (comp_at d l) (comp_at d' l).
Proof. intro H. refine (rres_mono _ _ _ _ (ren_comp_at d d' l H) _). intros x x' ((E1 & E2 & _) & _). split; assumption. Qed.

Lemma drel_upd d d' l c : drel d d' -> drel (set_conns d (upd (d_conns d) l c)) (set_conns d' (upd (d_conns d') (f l) (ren_conns c))).
Proof. intro H. apply drel_conns; [exact H|]. apply upd_rel, H. Qed.

Lemma ren_register d d' l sep r : drel d d' -> rres drel (register_separating d l sep r) (register_separating d' l (rc sep) r).
Proof.
  intro H. unfold register_separating. rewrite ren_conn_parallel. do 2 apply rres_assert.
  apply (rres_bind _ _ _ _ _ _ (ren_comp_row l H)). intros x x' (X1 & X2).
  apply (rres_bind _ _ _ _ _ _ (ren_comp_row r H)). intros y y' (Y1 & Y2). rewrite X2, Y2, <- map_rev.
  apply (rres_bind _ _ _ _ _ _ (ren_hd_label (rev (i_bottom (dc_iet x))))). intros b b' ->.
  apply (rres_bind _ _ _ _ _ _ (ren_conns_at d d' b H)). intros cb cb' ->. cbn zeta.
  pose proof (drel_upd d d' b (mkconns (topLeft cb) (topRight cb) (bottomLeft cb) (bottomRight cb ++ [sep])) H) as H1.
  unfold ren_conns in H1 at 1. cbn [topLeft topRight bottomLeft bottomRight] in H1. rewrite map_app in H1.
  change (map rc [sep]) with [rc sep] in H1. cbn [ren_conns topLeft topRight bottomLeft bottomRight].
  set (e := set_conns d _) in *. set (e' := set_conns d' _) in *. clearbody e e'.
  apply (rres_bind _ _ _ _ _ _ (ren_hd_label (i_bottom (dc_iet y)))). intros b1 b1' ->.
  apply (rres_bind _ _ _ _ _ _ (ren_conns_at e e' b1 H1)). intros cc cc' ->.
  pose proof (drel_upd e e' b1 (mkconns (topLeft cc) (topRight cc) (bottomLeft cc ++ [conn_neg sep]) (bottomRight cc)) H1) as H2.
  unfold ren_conns in H2 at 1. cbn [topLeft topRight bottomLeft bottomRight] in H2. rewrite map_app in H2.
  change (map rc [conn_neg sep]) with [conn_neg (rc sep)] in H2. cbn [ren_conns topLeft topRight bottomLeft bottomRight].
  set (g := set_conns e _) in *. set (g' := set_conns e' _) in *. clearbody g g'.
  apply (rres_bind _ _ _ _ _ _ (ren_comp_right g g' l H2)). intros p p' ->. rewrite map_length. apply rres_assert.
  apply (rres_bind _ _ _ _ _ _ (ren_comp_left g g' r H2)). intros q q' ->. rewrite map_length. apply rres_assert. exact H2.
Qed.

Lemma map_he_label es : map he_label (map re es) = map f (map he_label es).
Proof. rewrite !map_map. reflexivity. Qed.

Lemma Forall2_len {A B} (P : A -> B -> Prop) l l' : Forall2 P l l' -> length l' = length l.
Proof. induction 1; cbn; congruence. Qed.

Lemma ren_separating fuel c b t j j' d d' : irel j j' -> drel d d' ->
  rres dsrel (step_separating fuel c b t j d) (step_separating fuel c (f b) (f t) j' d').
Proof.
  intros J H. unfold step_separating.
  apply (rres_bind _ _ _ _ _ _ (ren_bottom_contour d d' c H)). intros bots bots' ->.
  apply (rres_bind _ _ _ _ _ _ (ren_top_contour d d' c H)). intros tops tops' ->.
  rewrite <- !map_rev, !map_he_label.
  apply (rres_bind _ _ _ _ _ _ (ren_hd_label (map he_label (rev bots)))). intros lb lb' ->.
  apply (rres_bind _ _ _ _ _ _ (ren_hd_label (map he_label (rev tops)))). intros lt lt' ->.
  apply (rres_bind _ _ _ _ _ _ (ren_walk_clockwise fuel d d' (he_neg (mkhe c lb true)) (mkhe c lt true) H)). intros eq eq' ->.
  apply (rres_bind _ _ _ _ _ _ (ren_sep_at_bottom d d' b H)). intros src src' ->.
  apply (rres_bind _ _ _ _ _ _ (ren_sep_at_top d d' t H)). intros tgt tgt' ->. cbn zeta.
  rewrite (Forall2_len _ _ _ (proj2 (proj2 (proj2 (proj2 H))))).
  assert (H1 : drel (set_comps d (d_comps d ++ [mkdcomp j None None None])) (set_comps d' (d_comps d' ++ [mkdcomp j' None None None]))).
  { apply drel_comps; [exact H|]. apply Forall2_app; [apply H|]. constructor; [|constructor]. split; [exact J|]. repeat split. }
  apply (rres_bind _ _ _ _ _ _ (ren_register _ _ c (mkconn src tgt) (length (d_comps d)) H1)). intros e e' E.
  split; [reflexivity|exact E].
Qed.

Lemma ren_merge_conns b t first conn g g' : mrel g g' -> mrel (merge_conns b t first conn g) (merge_conns (f b) (f t) (f first) (rc conn) g').
Proof.
  intro H. unfold merge_conns. cbn zeta.
  assert (H1 : mrel (upd g b (mkconns (topLeft (g b)) (topRight (g b)) (bottomLeft (g b)) (bottomRight (g b) ++ [conn])))
     (upd g' (f b) (mkconns (topLeft (g' (f b))) (topRight (g' (f b))) (bottomLeft (g' (f b))) (bottomRight (g' (f b)) ++ [rc conn])))).
  { rewrite !H. cbn [ren_conns topLeft topRight bottomLeft bottomRight]. change [rc conn] with (map rc [conn]). rewrite <- map_app. apply (upd_rel _ _ b (mkconns _ _ _ _) H). }
  set (g1 := upd g b _) in *. set (g1' := upd g' _ _) in *. clearbody g1 g1'.
  assert (H2 : mrel (upd g1 first (mkconns (conn_neg conn :: topLeft (g1 first)) (topRight (g1 first)) (bottomLeft (g1 first)) (bottomRight (g1 first))))
     (upd g1' (f first) (mkconns (conn_neg (rc conn) :: topLeft (g1' (f first))) (topRight (g1' (f first))) (bottomLeft (g1' (f first))) (bottomRight (g1' (f first)))))).
  { rewrite !H1. exact (upd_rel g1 g1' first (mkconns (conn_neg conn :: topLeft (g1 first)) (topRight (g1 first)) (bottomLeft (g1 first)) (bottomRight (g1 first))) H1). }
  set (g2 := upd g1 first _) in *. set (g2' := upd g1' _ _) in *. clearbody g2 g2'.
  apply (upd_rel _ _ t no_conns). rewrite !H2. cbn [ren_conns topLeft topRight bottomLeft bottomRight]. rewrite <- !map_app. apply (upd_rel _ _ b (mkconns _ _ _ _) H2).
Qed.

Lemma ren_non_separating c b t d d' : drel d d' -> rres dsrel (step_non_separating c b t d) (step_non_separating c (f b) (f t) d').
Proof.
  intro H. unfold step_non_separating. rewrite feq. apply rres_assert.
  apply (rres_bind _ _ _ _ _ _ (ren_he_cross d d' (mkhe c t true) H)). intros x1 x1' ->.
  apply (rres_bind _ _ _ _ _ _ (ren_he_cross d d' (he_neg (mkhe c b true)) H)). intros x2 x2' ->.
  apply (rres_bind _ _ _ _ _ _ (ren_sep_at_bottom d d' b H)). intros src src' ->.
  apply (rres_bind _ _ _ _ _ _ (ren_sep_at_top d d' t H)). intros tgt tgt' ->. cbn zeta.
  apply (rres_bind _ _ _ _ _ _ (ren_comp_row c H)). intros x x' (X1 & X2). rewrite X1.
  apply (rres_bind _ _ _ _ _ _ (ren_hd_label (i_top (dc_iet x)))). intros fi fi' ->. rewrite feq. apply rres_assert.
  apply (rres_bind _ _ _ _ _ _ (ren_conns_at d d' b H)). intros _ _ _.
  apply (rres_bind _ _ _ _ _ _ (ren_conns_at d d' fi H)). intros _ _ _.
  apply (rres_bind _ _ _ _ _ _ (ren_conns_at d d' t H)). intros _ _ _.
  pose proof (drel_conns d d' _ _ H (ren_merge_conns b t fi (mkconn src tgt) _ _ (proj1 (proj2 (proj2 (proj2 H)))))) as H1.
  apply (rres_bind _ _ _ _ _ _ (ren_comp_left _ _ c H1)). intros p p' ->. rewrite map_length. apply rres_assert.
  split; [|exact H1]. cbn [fst]. unfold ren_step. cbn [dst_result dst_connection dst_equivalent dst_additional option_map]. rewrite <- map_app, map_backwards. reflexivity.
Qed.

Lemma ren_step_finish fuel st st' c d d' : step_rel f st st' -> drel d d' -> rres dsrel (step_finish fuel st c d) (step_finish fuel st' c d').
Proof.
  intros (R & C & A) H. unfold step_finish. apply (rres_bind _ _ _ _ _ _ (ren_comp_at d d' c H)). intros x x' X. rewrite R, C.
  assert (F : forall a b k k' r, k' = k -> rres dsrel (d <- comp_set d c (mkdcomp (dc_iet x) a b k) ;; Ok (mkdstep r None None None, d)) (d <- comp_set d' c (mkdcomp (dc_iet x') a b k') ;; Ok (mkdstep r None None None, d))).
  { intros a b k k' r ->. apply (rres_bind drel); [apply ren_comp_set; [exact H|]; split; [apply X|]; repeat split|].
    intros e e' E. split; [reflexivity|exact E]. }
  destruct (is_result st).
  - split; [reflexivity|exact H].
  - apply F. reflexivity.
  - destruct (is_connection st) as [[b t]|]; [|exact I]. cbn [option_map ren_pair fst snd].
    destruct (is_additional st) as [j|], (is_additional st') as [j'|]; try contradiction; [|exact I]. apply ren_separating; assumption.
  - destruct (is_connection st) as [[b t]|]; [|exact I]. apply ren_non_separating, H.
  - apply F, X.
  - apply F, X.
Qed.

Lemma ren_step_start c d d' : drel d d' -> rres (fun p p' => fst p' = fst p /\ drel (snd p) (snd p')) (step_start c d) (step_start c d').
Proof.
  intro H. unfold step_start. apply (rres_bind _ _ _ _ _ _ (ren_comp_at d d' c H)). intros x x' X.
  replace (fully_decomposed x') with (fully_decomposed x) by (unfold fully_decomposed; destruct X as (_ & -> & _ & ->); reflexivity).
  apply rres_assert. apply (rres_bind _ _ _ _ _ _ (ren_bosh_cost _ _ _ _ (proj1 X) (proj1 H))). intros [k i] [k' i'] [E J]. cbn [fst snd] in *. subst k'.
  apply (rres_bind _ _ _ _ _ _ (ren_comp_set d d' c _ _ H (crel_iet_set _ _ _ _ X J))). intros e e' E. split; [reflexivity|exact E].
Qed.

Lemma ren_step_limited fuel limit c d d' : drel d d' -> rres dsrel (step_limited fuel limit c d) (step_limited fuel limit c d').
Proof.
  intro H. unfold step_limited. apply (rres_bind _ _ _ _ _ _ (ren_step_start c d d' H)). intros [k e] [k' e'] [E H1]. cbn [fst snd] in *. subst k'.
  apply (rres_bind _ _ _ _ _ _ (ren_step_loop fuel k c fuel limit e e' H1)). intros [st g] [st' g'] [S G]. apply ren_step_finish; assumption.
Qed.

Lemma ren_step_unlimited fuel cost c : forall rounds limit d d', drel d d' -> rres dsrel (step_unlimited rounds fuel cost limit c d) (step_unlimited rounds fuel cost limit c d').
Proof.
  induction rounds as [|rounds IH]; intros limit d d' H; [exact I|]. cbn [step_unlimited].
  apply (rres_bind _ _ _ _ _ _ (ren_step_limited fuel limit c d d' H)). intros [st e] [st' e'] K. pose proof K as [E H1]. cbn [fst snd] in *. subst st'.
  cbn [ren_step dst_result]. destruct (dst_result st); try exact K. destruct cost; destruct (_ <=? INT_MAX)%Z; try exact I; apply IH, H1.
Qed.

Lemma ren_decomposition_step fuel limit c d d' : drel d d' -> rres dsrel (decomposition_step fuel limit c d) (decomposition_step fuel limit c d').
Proof.
  intro H. unfold decomposition_step. destruct (Z.eqb limit (-1)); [|apply ren_step_limited, H].
  apply (rres_bind _ _ _ _ _ _ (ren_step_start c d d' H)). intros [k e] [k' e'] [E H1]. cbn [fst snd] in *. subst k'. apply ren_step_unlimited, H1.
Qed.

(** ** decompose *)

Lemma eqm_mapM {A B A' B'} (g : A -> res B) (h : A' -> res B') (r : A -> A') (q : B -> B') l :
  (forall x, eqm q (g x) (h (r x))) -> eqm (map q) (mapM g l) (mapM h (map r l)).
Proof.
  intro H. induction l as [|x l IH]; [apply eqm_ok; reflexivity|]. cbn [map mapM]. apply (eqm_bind q); [apply H|]. intros y _.
  apply (eqm_bind (map q)); [exact IH|]. intros ys _. apply eqm_ok. reflexivity.
Qed.

Lemma ren_entries d d' es : drel d d' -> eqm (map (ren_entry f))
  (mapM (fun e => l <- he_left d e ;; r <- he_right d e ;; Ok (he_label e, l, r)) es)
  (mapM (fun e => l <- he_left d' e ;; r <- he_right d' e ;; Ok (he_label e, l, r)) (map re es)).
Proof.
  intro H. apply eqm_mapM. intro e. apply (eqm_bind (map rc)); [apply ren_he_left, H|]. intros l _.
  apply (eqm_bind (map rc)); [apply ren_he_right, H|]. intros r _. apply eqm_ok. reflexivity.
Qed.

Lemma ren_comp_view d d' c : drel d d' -> rres (renamed_view f) (comp_view d c) (comp_view d' c).
Proof.
  intro H. unfold comp_view. apply (rres_bind _ _ _ _ _ _ (ren_comp_at d d' c H)). intros x x' (_ & X1 & X2 & X3).
  apply (rres_bind _ _ _ _ _ _ (ren_top_contour d d' c H)). intros tops tops' ->.
  apply (rres_bind _ _ _ _ _ _ (ren_bottom_contour d d' c H)). intros bots bots' ->.
  apply (rres_bind _ _ _ _ _ _ (ren_entries d d' tops H)). intros ts ts' ->.
  apply (rres_bind _ _ _ _ _ _ (ren_entries d d' bots H)). intros bs bs' ->.
  rewrite (ren_mapM (fun e => sl_at (d_len d) (he_label e)) (fun e => sl_at (d_len d') (he_label e)) re) by (intro e; apply (ren_at f _ _ _ (proj1 H))).
  apply rres_same. intros ls _. split; [|reflexivity]. unfold look_at. cbn. rewrite X1, X2, X3. reflexivity.
Qed.

Section Target.
Variable target target' : look -> bool.
Hypothesis Ht : forall v, target' (ren_look f v) = target v.

Definition okrel (p p' : bool * decomp T) : Prop := fst p' = fst p /\ drel (snd p) (snd p').

Lemma ren_comp_decompose fuel limit : forall rounds c d d', drel d d' ->
  rres okrel (comp_decompose rounds fuel (fun v => target (look_at v)) limit c d) (comp_decompose rounds fuel (fun v => target' (look_at v)) limit c d').
Proof.
  induction rounds as [|rounds IH]; intros c d d' H; [exact I|]. cbn [comp_decompose].
  apply (rres_bind _ _ _ _ _ _ (ren_comp_view d d' c H)). intros v v' [V _]. rewrite V, Ht. destruct (target (look_at v)); [split; [reflexivity|exact H]|].
  apply (rres_bind _ _ _ _ _ _ (ren_decomposition_step fuel limit c d d' H)). intros [st e] [st' e'] [E H1]. cbn [fst snd] in *. subst st'.
  cbn [ren_step dst_result dst_additional].
  assert (K : rres okrel
    ('(ok1, d) <- match dst_additional st with Some c' => comp_decompose rounds fuel (fun v => target (look_at v)) limit c' e | None => Ok (true, e) end ;;
     '(ok2, d) <- comp_decompose rounds fuel (fun v => target (look_at v)) limit c d ;; Ok (ok1 && ok2, d))
    ('(ok1, d) <- match dst_additional st with Some c' => comp_decompose rounds fuel (fun v => target' (look_at v)) limit c' e' | None => Ok (true, e') end ;;
     '(ok2, d) <- comp_decompose rounds fuel (fun v => target' (look_at v)) limit c d ;; Ok (ok1 && ok2, d))).
  { apply (rres_bind okrel); [destruct (dst_additional st); [apply IH, H1|split; [reflexivity|exact H1]]|].
    intros [o g] [o' g'] [E G]. cbn [fst snd] in *. subst o'. apply (rres_bind _ _ _ _ _ _ (IH c g g' G)). intros [o2 k] [o2' k'] [E K]. cbn [fst snd] in *. subst o2'.
    split; [reflexivity|exact K]. }
  destruct (dst_result st); try exact K. split; [reflexivity|exact H1].
Qed.

Lemma ren_decompose_all rounds fuel limit : forall cs d d', drel d d' ->
  rres okrel (decompose_all rounds fuel (fun v => target (look_at v)) limit cs d) (decompose_all rounds fuel (fun v => target' (look_at v)) limit cs d').
Proof.
  induction cs as [|c cs IH]; intros d d' H; [split; [reflexivity|exact H]|]. cbn [decompose_all].
  apply (rres_bind _ _ _ _ _ _ (ren_comp_decompose fuel limit rounds c d d' H)). intros [o g] [o' g'] [E G]. cbn [fst snd] in *. subst o'.
  destruct o; [apply IH, G|split; [reflexivity|exact G]].
Qed.

Lemma ren_decompose rounds fuel limit d d' : drel d d' ->
  rres okrel (decompose rounds fuel (fun v => target (look_at v)) limit d) (decompose rounds fuel (fun v => target' (look_at v)) limit d').
Proof. intro H. unfold decompose. rewrite (Forall2_len _ _ _ (proj2 (proj2 (proj2 (proj2 H))))). apply ren_decompose_all, H. Qed.
End Target.

(** ** inject *)

Lemma flat_map_ren {A B} (g : A -> list B) (g' : label -> list B) (r : B -> B) : forall (h : A -> label) l,
  (forall x, g' (h x) = map r (g x)) -> flat_map g' (map h l) = map r (flat_map g l).
Proof. intros h l H. induction l as [|x l IH]; [reflexivity|]. cbn [map flat_map]. rewrite H, IH, map_app. reflexivity. Qed.

Lemma ren_lefts d d' : drel d d' -> lefts d' = map rc (lefts d).
Proof. intros (_ & _ & K & M & _). unfold lefts. rewrite K. apply flat_map_ren. intro l. rewrite M. cbn. rewrite map_app. reflexivity. Qed.
Lemma ren_rights d d' : drel d d' -> rights d' = map rc (rights d).
Proof. intros (_ & _ & K & M & _). unfold rights. rewrite K. apply flat_map_ren. intro l. rewrite M. cbn. rewrite map_app. reflexivity. Qed.

Lemma ren_at_separatrix s cs : at_separatrix (ren_sep f s) (map rc cs) = map rc (at_separatrix s cs).
Proof.
  unfold at_separatrix. induction cs as [|c cs IH]; [reflexivity|]. cbn [map flat_map]. rewrite IH, !map_app. cbn [ren_conn cn_source cn_target].
  rewrite !ren_sep_eqb. destruct (sep_eqb (cn_source c) s), (sep_eqb (cn_target c) s); reflexivity.
Qed.

Lemma ren_separatrix_ok s cs : separatrix_ok (ren_sep f s) (map rc cs) = separatrix_ok s cs.
Proof.
  unfold separatrix_ok. rewrite ren_at_separatrix. destruct (at_separatrix s cs) as [|x [|y [|z l]]]; try reflexivity.
  cbn [map]. rewrite ren_conn_neg, ren_conn_eqb. reflexivity.
Qed.

Lemma forallb_ren {A B} (p : A -> bool) (q : B -> bool) (r : A -> B) l : (forall x, q (r x) = p x) -> forallb q (map r l) = forallb p l.
Proof. intro H. induction l as [|x l IH]; [reflexivity|]. cbn. rewrite H, IH. reflexivity. Qed.

Lemma ren_dec_check d d' : drel d d' -> dec_check d' = dec_check d.
Proof.
  intro H. unfold dec_check. cbn zeta. rewrite (ren_lefts _ _ H), (ren_rights _ _ H).
  rewrite (forallb_ren (fun c => negb (conn_parallel c)) (fun c => negb (conn_parallel c)) rc) by reflexivity.
  rewrite (forallb_ren conn_parallel conn_parallel rc) by reflexivity. rewrite <- map_app.
  rewrite (forallb_ren (fun c => separatrix_ok (cn_source c) (lefts d ++ rights d) && separatrix_ok (cn_target c) (lefts d ++ rights d)) _ rc); [reflexivity|].
  intro c. cbn [ren_conn cn_source cn_target]. rewrite !ren_separatrix_ok. reflexivity.
Qed.

Lemma map_left_conn ls : map left_conn (map (ren_pair f) ls) = map rc (map left_conn ls).
Proof. rewrite !map_map. reflexivity. Qed.
Lemma map_right_conn ls : map right_conn (map (ren_pair f) ls) = map rc (map right_conn ls).
Proof. rewrite !map_map. reflexivity. Qed.
Lemma if_map {A B} (g : A -> B) (b : bool) l l' : (if b then map g l else map g l') = map g (if b then l else l').
Proof. destruct b; reflexivity. Qed.

Definition injrel (p p' : list connection * list connection * decomp T) : Prop :=
  fst (fst p') = map rc (fst (fst p)) /\ snd (fst p') = map rc (snd (fst p)) /\ drel (snd p) (snd p').

Lemma ren_inject d d' e l r : drel d d' -> rres injrel (inject d e l r) (inject d' (re e) (map (ren_pair f) l) (map (ren_pair f) r)).
Proof.
  intro H. unfold inject. rewrite (ren_dec_check _ _ H). apply rres_same. intros _ _. cbn zeta. cbn [ren_edge he_top he_label].
  apply (rres_bind _ _ _ _ _ _ (ren_conns_at d d' (he_label e) H)). intros c c' ->.
  rewrite <- !map_rev, !if_map, map_left_conn, map_right_conn. cbn [ren_conns topLeft topRight bottomLeft bottomRight]. rewrite !if_map, !map_length. 
  do 2 apply rres_assert. rewrite <- !map_app.
  set (nl := map left_conn _). set (nr := map right_conn _). clearbody nl nr.
  set (c1 := if he_top e then mkconns (_ ++ nl) _ _ _ else _).
  set (c1' := if he_top e then mkconns (map rc (_ ++ nl)) _ _ _ else _).
  assert (E : c1' = ren_conns c1) by (unfold c1, c1'; destruct (he_top e); reflexivity). rewrite E.
  pose proof (drel_upd d d' (he_label e) c1 H) as H1. rewrite (ren_dec_check _ _ H1). apply rres_same. intros _ _.
  split; [cbn [fst]; rewrite <- ?map_rev, ?if_map, ?map_left_conn; reflexivity|]. split; [cbn [fst snd]; rewrite <- ?map_rev, ?if_map, ?map_right_conn; reflexivity|]. exact H1.
Qed.

(** ** Programs *)

Definition darel (p p' : danswer * decomp T) : Prop := fst p' = ren_danswer f (fst p) /\ drel (snd p) (snd p').

Lemma ren_do_dcall k k' d d' : renamed_dcall f k k' -> drel d d' -> rres darel (do_dcall k d) (do_dcall k' d').
Proof.
  intros K H. destruct K as [fuel limit c|rounds fuel target target' limit Ht|e l r]; cbn [do_dcall].
  - apply (rres_bind _ _ _ _ _ _ (ren_decomposition_step fuel limit c d d' H)). intros [st g] [st' g'] [E G]. cbn [fst snd] in *. subst st'. split; [reflexivity|exact G].
  - apply (rres_bind _ _ _ _ _ _ (ren_decompose target target' Ht rounds fuel limit d d' H)). intros [o g] [o' g'] [E G]. cbn [fst snd] in *. subst o'. split; [reflexivity|exact G].
  - apply (rres_bind _ _ _ _ _ _ (ren_inject d d' e l r H)). intros [[a b] g] [[a' b'] g'] (E1 & E2 & G). cbn [fst snd] in *. subst a' b'. split; [reflexivity|exact G].
Qed.

Lemma ren_drun q q' : Forall2 (renamed_dcall f) q q' -> forall d d', drel d d' ->
  rres (fun p p' => fst p' = map (ren_danswer f) (fst p) /\ drel (snd p) (snd p')) (drun q d) (drun q' d').
Proof.
  induction 1 as [|k k' q q' K _ IH]; intros d d' H; [split; [reflexivity|exact H]|]. cbn [drun].
  apply (rres_bind _ _ _ _ _ _ (ren_do_dcall k k' d d' K H)). intros [a g] [a' g'] [E G]. cbn [fst snd] in *. subst a'.
  apply (rres_bind _ _ _ _ _ _ (IH g g' G)). intros [l h] [l' h'] [E H1]. cbn [fst snd] in *. subst l'. split; [reflexivity|exact H1].
Qed.

Lemma ren_views d d' : drel d d' -> rres (Forall2 (renamed_view f)) (views d) (views d').
Proof.
  intro H. unfold views. rewrite (Forall2_len _ _ _ (proj2 (proj2 (proj2 (proj2 H))))). induction (seq 0 (length (d_comps d))) as [|c cs IH]; [constructor|].
  cbn [mapM]. apply (rres_bind _ _ _ _ _ _ (ren_comp_view d d' c H)). intros v v' V. apply (rres_bind _ _ _ _ _ _ IH). intros vs vs' VS. constructor; assumption.
Qed.

Definition callrel (p p' : answer * iet T * list (iet T) * slen T) : Prop :=
  fst (fst (fst p')) = ren_answer f (fst (fst (fst p))) /\ irel (snd (fst (fst p))) (snd (fst (fst p'))) /\
  Forall2 irel (snd (fst p)) (snd (fst p')) /\ srel (snd p) (snd p').

Lemma sample_zorich i i' s s' : irel i i' -> srel s s' -> rres (@qrel f T (slen T) srel bool) (zorich sample_lens i s) (zorich sample_lens i' s').
Proof.
  apply (ren_zorich f inj sample_lens sample_lens srel); cbn [sample_lens li_push li_pop li_cmp1 li_cmp2 li_subtract li_subrep li_base].
  - intros. apply ren_push. assumption.
  - intros. apply ren_pop; assumption.
  - intros. apply ren_cmp1; assumption.
  - intros. apply ren_cmp2; assumption.
  - intros. apply ren_subtract; assumption.
  - intros. apply ren_subrep; assumption.
Qed.

Lemma sample_induce fuel limit i i' s s' : irel i i' -> srel s s' -> rres (@nrel f T (slen T) srel) (induce sample_lens fuel limit i s) (induce sample_lens fuel limit i' s').
Proof.
  apply (ren_induce f inj sample_lens sample_lens srel); cbn [sample_lens li_push li_pop li_cmp1 li_cmp2 li_subtract li_subrep li_base].
  - intros. apply ren_push. assumption.
  - intros. apply ren_pop; assumption.
  - intros. apply ren_cmp1; assumption.
  - intros. apply ren_cmp2; assumption.
  - intros. apply ren_subtract; assumption.
  - intros. apply ren_subrep; assumption.
  - auto.
Qed.

Lemma ren_call_ok o i i' s s' : irel i i' -> srel s s' -> rres callrel (call o i s) (call (ren_op f o) i' s').
Proof.
  intros Hi H. destruct o; cbn [ren_op call].
  - split; [reflexivity|]. split; [apply ren_iet_swap, Hi|]. split; [constructor|exact H].
  - apply (rres_bind _ _ _ _ _ _ (sample_zorich i i' s s' Hi H)). intros [[b j] t] [[b' j'] t'] (E & J & S). cbn [fst snd] in *. subst b'.
    split; [reflexivity|]. split; [exact J|]. split; [constructor|exact S].
  - apply (rres_bind _ _ _ _ _ _ (ren_reduce f inj i i' s s' Hi H)). intros [r j] [r' j'] [J R]. cbn [fst snd] in *.
    destruct r as [g|], r' as [g'|]; try contradiction; (split; [reflexivity|]; split; [exact J|]; split; [first [constructor; [exact R|constructor]|constructor]|exact H]).
  - apply (rres_bind _ _ _ _ _ _ (sample_induce fuel limit i i' s s' Hi H)). intros [[st j] t] [[st' j'] t'] ((E1 & E2 & A) & J & S). cbn [fst snd] in *.
    split; [cbn; rewrite E1, E2; reflexivity|]. split; [exact J|]. split; [|exact S]. cbn [fst snd].
    destruct (is_additional st), (is_additional st'); try contradiction; first [constructor; [exact A|constructor]|constructor].
  - apply (rres_bind _ _ _ _ _ _ (ren_saf_invariant f inj i i' s s' Hi H)). intros [v j] [v' j'] [E J]. cbn [fst snd] in *. subst v'.
    split; [reflexivity|]. split; [exact J|]. split; [constructor|exact H].
  - apply (rres_bind _ _ _ _ _ _ (ren_bosh f inj i i' s s' Hi H)). intros [v j] [v' j'] [E J]. cbn [fst snd] in *. subst v'.
    split; [reflexivity|]. split; [exact J|]. split; [constructor|exact H].
  - rewrite (ren_saddle f inj i i' s s' Hi H). apply rres_same. intros b _. split; [reflexivity|]. split; [exact Hi|]. split; [constructor|exact H].
  - rewrite (ren_saddle2 f inj i i' s s' t b Hi H). apply rres_same. intros r _. split; [reflexivity|]. split; [exact Hi|]. split; [constructor|exact H].
Qed.

Lemma Forall2_firstn {A B} (P : A -> B -> Prop) n : forall l l', Forall2 P l l' -> Forall2 P (firstn n l) (firstn n l').
Proof. induction n as [|n IH]; intros l l' H; [constructor|]. destruct H; constructor; [assumption|apply IH; assumption]. Qed.
Lemma Forall2_skipn {A B} (P : A -> B -> Prop) n : forall l l', Forall2 P l l' -> Forall2 P (skipn n l) (skipn n l').
Proof. induction n as [|n IH]; intros l l' H; [exact H|]. destruct H; [constructor|apply IH; assumption]. Qed.

Definition runrel (p p' : list answer * list (iet T) * slen T) : Prop :=
  fst (fst p') = map (ren_answer f) (fst (fst p)) /\ Forall2 irel (snd (fst p)) (snd (fst p')) /\ srel (snd p) (snd p').

Lemma ren_run : forall p pool pool' s s', Forall2 irel pool pool' -> srel s s' ->
  rres runrel (run p pool s) (run (map (ren_call f) p) pool' s').
Proof.
  induction p as [|[n o] p IH]; intros pool pool' s s' P H; [split; [reflexivity|split; assumption]|]. cbn [map run ren_call fst snd].
  pose proof (Forall2_nth _ _ _ n P) as N. destruct (nth_error pool n) as [i|], (nth_error pool' n) as [i'|]; try contradiction; [|exact I].
  apply (rres_bind _ _ _ _ _ _ (ren_call_ok o i i' s s' N H)). intros [[[a j] ex] t] [[[a' j'] ex'] t'] (E & J & X & S). cbn [fst snd] in *. subst a'.
  assert (P' : Forall2 irel (firstn n pool ++ j :: ex ++ skipn (Datatypes.S n) pool) (firstn n pool' ++ j' :: ex' ++ skipn (Datatypes.S n) pool')).
  { apply Forall2_app; [apply Forall2_firstn, P|]. constructor; [exact J|]. apply Forall2_app; [exact X|]. apply Forall2_skipn, P. }
  apply (rres_bind _ _ _ _ _ _ (IH _ _ t t' P' S)). intros [[l q] u] [[l' q'] u'] (E & Q & U). cbn [fst snd] in *. subst l'.
  split; [reflexivity|split; assumption].
Qed.

Lemma start_rel ls ls' : moved_lengths f ls ls' -> srel (mkslen [] ls) (mkslen [] ls').
Proof. intro H. split; [reflexivity|exact H]. Qed.

Lemma ren_session_rel top bottom p s s' : srel s s' ->
  rres runrel (session top bottom p s) (session (map f top) (map f bottom) (map (ren_call f) p) s').
Proof.
  intro H. unfold session. apply (rres_bind _ _ _ _ _ _ (ren_make f inj s s' top bottom H)). intros i i' J.
  apply ren_run; [constructor; [exact J|constructor]|exact H].
Qed.

Lemma Forall2_rows pool pool' : Forall2 irel pool pool' -> map rows pool' = map (ren_rows f) (map rows pool).
Proof. induction 1 as [|i i' l l' (E1 & E2 & _) _ IH]; [reflexivity|]. cbn [map]. rewrite IH. f_equal. unfold rows, ren_rows. cbn. rewrite E1, E2. reflexivity. Qed.

Theorem ren_session top bottom p ls ls' : moved_lengths f ls ls' ->
  both (fun r r' =>
      fst (fst r') = map (ren_answer f) (fst (fst r)) /\
      map rows (snd (fst r')) = map (ren_rows f) (map rows (snd (fst r))) /\
      moved_lengths f (sl_lens (snd r)) (sl_lens (snd r')))
    (session top bottom p (mkslen [] ls)) (session (map f top) (map f bottom) (map (ren_call f) p) (mkslen [] ls')).
Proof.
  intro H. pose proof (ren_session_rel top bottom p _ _ (start_rel _ _ H)) as K.
  destruct (session top bottom p (mkslen [] ls)) as [[[a q] s]| | | |], (session (map f top) _ _ _) as [[[a' q'] s']| | | |]; try contradiction; try exact I.
  destruct K as (E & Q & S). split; [exact E|]. split; [apply Forall2_rows, Q|apply S].
Qed.

Theorem ren_decomposing top bottom p n q q' ls ls' : moved_lengths f ls ls' -> Forall2 (renamed_dcall f) q q' ->
  both (fun r r' =>
      fst (fst r') = map (ren_answer f) (fst (fst r)) /\
      snd (fst r') = map (ren_danswer f) (snd (fst r)) /\
      Forall2 (renamed_view f) (snd r) (snd r'))
    (decomposing top bottom p n q (mkslen [] ls)) (decomposing (map f top) (map f bottom) (map (ren_call f) p) n q' (mkslen [] ls')).
Proof.
  intros H Hq. unfold decomposing.
  apply (rres_bind _ _ _ _ _ _ (ren_session_rel top bottom p _ _ (start_rel _ _ H))). intros [[a pool] s] [[a' pool'] s'] (E & P & S). cbn [fst snd] in *. subst a'.
  pose proof (Forall2_nth _ _ _ n P) as N. destruct (nth_error pool n) as [i|], (nth_error pool' n) as [i'|]; try contradiction; [|exact I].
  apply (rres_bind _ _ _ _ _ _ (ren_dec_make i i' s s' N S)). intros d d' D.
  apply (rres_bind _ _ _ _ _ _ (ren_drun q q' Hq d d' D)). intros [b e] [b' e'] [E E1]. cbn [fst snd] in *. subst b'.
  apply (rres_bind _ _ _ _ _ _ (ren_views e e' E1)). intros v v' V. split; [reflexivity|split; [reflexivity|exact V]].
Qed.

End RenDec.
