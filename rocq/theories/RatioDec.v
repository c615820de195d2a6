(** Two decompositions over lengths with the same ratios. *)
From Coq Require Import List Reals Lra Lia Permutation.
From Verif Require Import Base QcTac LenT FM Subspace Lengths IET Decomp Twin Api ZorichProof Saf InduceProof World Spec DecompSim DecompRef Detect Ratio Mixed RatioIet RatioLink RatioInduce RatioInv.
Open Scope nat_scope.

(** * What does not look at the lengths *)

Section Shape.
Context {T T' : Type}.

Record rows_eq (x : dcomp T) (x' : dcomp T') : Prop := {
  re_top : i_top (dc_iet x') = i_top (dc_iet x);
  re_bot : i_bottom (dc_iet x') = i_bottom (dc_iet x);
  re_swap : i_swap (dc_iet x') = i_swap (dc_iet x);
}.

Record shape (d : decomp T) (d' : decomp T') : Prop := {
  sh_keys : d_keys d' = d_keys d;
  sh_conns : d_conns d' = d_conns d;
  sh_comps : Forall2 rows_eq (d_comps d) (d_comps d');
}.

Lemma Forall2_nth {X Y} (P : X -> Y -> Prop) l l' : Forall2 P l l' -> forall c,
  match nth_error l c, nth_error l' c with Some x, Some y => P x y | None, None => True | _, _ => False end.
Proof. induction 1 as [|x y l l' H F IH]; intros [|k]; cbn; auto; apply IH. Qed.

Lemma Forall2_len {X Y} (P : X -> Y -> Prop) l l' : Forall2 P l l' -> length l = length l'.
Proof. induction 1; cbn; congruence. Qed.

Lemma shape_comp d d' c : shape d d' -> rres rows_eq (comp_at d c) (comp_at d' c).
Proof.
  intro H. pose proof (Forall2_nth _ _ _ (sh_comps _ _ H) c) as G. unfold comp_at.
  destruct (nth_error (d_comps d) c), (nth_error (d_comps d') c); try contradiction; [exact G|exact I].
Qed.

Lemma shape_conns_at d d' l : shape d d' -> conns_at d l = conns_at d' l.
Proof. intro H. unfold conns_at. rewrite (sh_keys _ _ H), (sh_conns _ _ H). reflexivity. Qed.

Ltac comp H c :=
  let x := fresh "x" in let x' := fresh "x'" in let R := fresh "R" in
  apply (rres_bind _ _ _ _ _ _ (shape_comp _ _ c H)); intros x x' R;
  rewrite ?(re_top _ _ R), ?(re_bot _ _ R), ?(re_swap _ _ R).

Lemma rres_refl {X} (m : res X) : rres eq m m.
Proof. destruct m; simpl; auto. Qed.

Lemma shape_top d d' c : shape d d' -> top_contour d c = top_contour d' c.
Proof. intro H. apply rres_eq. unfold top_contour. comp H c. reflexivity. Qed.
Lemma shape_bottom d d' c : shape d d' -> bottom_contour d c = bottom_contour d' c.
Proof. intro H. apply rres_eq. unfold bottom_contour. comp H c. reflexivity. Qed.

Lemma shape_he_component d d' e : shape d d' -> he_component d e = he_component d' e.
Proof. intro H. unfold he_component. rewrite (shape_top d d' _ H), (shape_bottom d d' _ H). reflexivity. Qed.
Lemma shape_he_left d d' e : shape d d' -> he_left d e = he_left d' e.
Proof. intro H. unfold he_left. rewrite (shape_conns_at d d' _ H). reflexivity. Qed.
Lemma shape_he_right d d' e : shape d d' -> he_right d e = he_right d' e.
Proof. intro H. unfold he_right. rewrite (shape_conns_at d d' _ H). reflexivity. Qed.
Lemma shape_he_cross d d' e : shape d d' -> he_cross d e = he_cross d' e.
Proof. intro H. unfold he_cross. rewrite (shape_he_left d d' _ H), (shape_he_right d d' _ H). reflexivity. Qed.
Lemma shape_he_next d d' e : shape d d' -> he_next d e = he_next d' e.
Proof. intro H. apply rres_eq. unfold he_next. comp H (he_comp e). apply rres_refl. Qed.
Lemma shape_he_previous d d' e : shape d d' -> he_previous d e = he_previous d' e.
Proof. intro H. apply rres_eq. unfold he_previous. comp H (he_comp e). apply rres_refl. Qed.
Lemma shape_sep_top d d' l : shape d d' -> sep_at_top d l = sep_at_top d' l.
Proof. intro H. unfold sep_at_top. rewrite (shape_conns_at d d' _ H). reflexivity. Qed.
Lemma shape_sep_bottom d d' l : shape d d' -> sep_at_bottom d l = sep_at_bottom d' l.
Proof. intro H. unfold sep_at_bottom. rewrite (shape_conns_at d d' _ H). reflexivity. Qed.

Lemma shape_comp_left d d' c : shape d d' -> comp_left d c = comp_left d' c.
Proof.
  intro H. apply rres_eq. unfold comp_left. comp H c. apply rres_same. intros b _. apply rres_same. intros t _.
  rewrite !(shape_conns_at d d' _ H). apply rres_refl.
Qed.
Lemma shape_comp_right d d' c : shape d d' -> comp_right d c = comp_right d' c.
Proof.
  intro H. apply rres_eq. unfold comp_right. comp H c. apply rres_same. intros b _. apply rres_same. intros t _.
  rewrite !(shape_conns_at d d' _ H). apply rres_refl.
Qed.

Lemma shape_walk d d' : shape d d' -> forall fuel from to, walk_clockwise fuel d from to = walk_clockwise fuel d' from to.
Proof.
  intro H. induction fuel as [|fuel IH]; intros from to; [reflexivity|]. cbn [walk_clockwise].
  rewrite (shape_he_component d d' from H), (shape_he_component d d' to H).
  destruct (he_component d' from) as [c1| | | |]; try reflexivity. destruct (he_component d' to) as [c2| | | |]; try reflexivity. cbn [bind].
  destruct (Nat.eqb c1 c2); [|reflexivity]. cbn [assert_]. rewrite (shape_top d d' c1 H), (shape_bottom d d' c1 H).
  destruct (top_contour d' c1) as [tops| | | |]; try reflexivity. destruct (bottom_contour d' c1) as [bots| | | |]; try reflexivity. cbn [bind].
  destruct (negb (he_top from) && he_top to).
  { destruct bots as [|b bots]; [reflexivity|]. destruct tops as [|t tops]; [reflexivity|]. rewrite !IH. reflexivity. }
  destruct (he_top from && negb (he_top to)).
  { destruct (rev bots) as [|b bs]; [reflexivity|]. destruct (rev tops) as [|t ts]; [reflexivity|]. rewrite !IH. reflexivity. }
  rewrite (shape_he_cross d d' from H), (shape_he_next d d' from H), (shape_he_previous d d' from H).
  destruct (he_cross d' from) as [cr| | | |]; try reflexivity. cbn [bind]. destruct (he_eqb from to) as [[|]| | | |]; try reflexivity. cbn [bind].
  destruct (if he_top from then he_next d' from else he_previous d' from) as [[n|]| | | |]; try reflexivity; cbn [bind].
  - rewrite IH. reflexivity.
  - destruct (if he_top from then rev bots else tops) as [|f fs]; [reflexivity|]. rewrite IH. reflexivity.
Qed.

Lemma shape_set_conns d d' f : shape d d' -> shape (set_conns d f) (set_conns d' f).
Proof. intros []. constructor; auto. Qed.

Lemma shape_register d d' l sep r : shape d d' ->
  rres (fun e e' => exists f, e = set_conns d f /\ e' = set_conns d' f) (register_separating d l sep r) (register_separating d' l sep r).
Proof.
  intro H. unfold register_separating. apply rres_assert, rres_assert.
  apply (rres_bind _ _ _ _ _ _ (shape_comp d d' l H)). intros x x' X.
  apply (rres_bind _ _ _ _ _ _ (shape_comp d d' r H)). intros y y' Y. rewrite (re_bot _ _ X), (re_bot _ _ Y).
  apply rres_same. intros b _. rewrite (shape_conns_at d d' b H). apply rres_same. intros cb _.
  apply rres_same. intros b' _. rewrite (sh_conns _ _ H). set (f := upd (d_conns d) b _).
  pose proof (shape_set_conns d d' f H) as H1. rewrite (shape_conns_at _ _ b' H1). apply rres_same. intros cb' _.
  cbn [set_conns d_conns]. set (g := upd f b' _).
  pose proof (shape_set_conns d d' g H) as H2. change (set_conns (set_conns d f) g) with (set_conns d g). change (set_conns (set_conns d' f) g) with (set_conns d' g).
  rewrite (shape_comp_right _ _ l H2). apply rres_same. intros p _. apply rres_assert.
  rewrite (shape_comp_left _ _ r H2). apply rres_same. intros q _. apply rres_assert. exists g. split; reflexivity.
Qed.
End Shape.

(** * Decompositions *)

Section RatioDec.
Context {T : Type} {O : LenOps T} {W : MixedLaws T}.
Context {T' : Type} {O' : LenOps T'} {W' : LenLaws T'}.
Variable c : R.
Hypothesis Hc : (0 < c)%R.
Variable A : label -> Prop.

Notation irel := (@RatioIet.irel T T' A).
Notation near := (@Ratio.near T O W T' O' W' c A None).
Notation link := (@RatioLink.link T O W T' O' W' c A).

Record crel (x : dcomp T) (x' : dcomp T') : Prop := {
  cr_iet : irel (dc_iet x) (dc_iet x');
  cr_cylinder : dc_cylinder x' = dc_cylinder x;
  cr_wpt : dc_wpt x' = dc_wpt x;
  cr_keane : dc_keane x' = dc_keane x;
}.

Record same_parts (d : decomp T) (d' : decomp T') : Prop := {
  sp_keys : d_keys d' = d_keys d;
  sp_conns : d_conns d' = d_conns d;
  sp_comps : Forall2 crel (d_comps d) (d_comps d');
}.

Definition dduring (a : label) (d : decomp T) (d' : decomp T') : Prop :=
  during c A a (d_len d) (d_len d') /\ d_stack d = sl_stack (d_len d) /\ d_stack d' = d_stack d /\ same_parts d d'.
Definition drel (d : decomp T) (d' : decomp T') : Prop :=
  idle c A (d_len d) (d_len d') /\ d_stack d = [] /\ d_stack d' = [] /\ same_parts d d'.

Lemma parts_lens d d' s st s' st' : same_parts d d' -> same_parts (set_lens d s st) (set_lens d' s' st').
Proof. intros []. constructor; auto. Qed.

Lemma parts_shape d d' : same_parts d d' -> shape d d'.
Proof.
  intros [K C F]. constructor; auto. clear K C. induction F as [|x x' l l' [H _ _ _] F IH]; constructor; auto.
  constructor; apply H.
Qed.

Lemma crel_view d d' k v : same_parts d d' -> views_with k v (d_comps d) = views_with k v (d_comps d').
Proof.
  intros [_ _ F]. revert k. induction F as [|x x' l l' H F IH]; intros k; [destruct k; reflexivity|].
  assert (E : forall x x', crel x x' -> i_view (dc_iet x) = i_view (dc_iet x')).
  { intros y y' [R _ _ _]. unfold i_view. rewrite (ir_top _ _ _ R), (ir_swap _ _ _ R). reflexivity. }
  destruct k as [|k]; cbn [views_with].
  - f_equal. clear IH H. induction F as [|y y' l l' H F IH]; [reflexivity|]. cbn [map]. rewrite (E _ _ H), IH. reflexivity.
  - rewrite (E _ _ H), IH. reflexivity.
Qed.

Lemma rel_subtract2 k v m sub d d' : same_parts d d' ->
  rres (fun e e' => exists f, e = set_conns d f /\ e' = set_conns d' f) (lwc_subtract2 k v m sub d) (lwc_subtract2 k v m sub d').
Proof.
  intro H. unfold lwc_subtract2. rewrite <- (crel_view d d' k v H). rewrite !(shape_conns_at d d' _ (parts_shape d d' H)), (sp_conns _ _ H).
  apply rres_same. intros _ _. apply rres_same. intros _ _. apply rres_same. intros f _. exists f. split; reflexivity.
Qed.

Lemma parts_conns d d' f : same_parts d d' -> same_parts (set_conns d f) (set_conns d' f).
Proof. intros []. constructor; auto. Qed.

Lemma drel_start a d d' : drel d d' -> dduring a d d'.
Proof.
  intros (I & S & S' & P). split; [apply idle_during; exact I|]. split; [|split; [congruence|exact P]]. destruct I as [_ E]. congruence.
Qed.

Lemma rel_push a l d d' : A l -> l <> a -> dduring a d d' -> rres (dduring a) (lwc_push l d) (lwc_push l d').
Proof.
  intros Hl Na (D & S & S' & P). unfold lwc_push. rewrite S'. apply rres_assert. split; [|split; [|split]].
  - cbn. apply during_push; [split; assumption|exact D].
  - cbn. rewrite S. reflexivity.
  - reflexivity.
  - apply parts_lens. exact P.
Qed.

Lemma rel_pop a d d' : dduring a d d' -> rres (dduring a) (lwc_pop d) (lwc_pop d').
Proof.
  intros (D & S & S' & P). unfold lwc_pop. rewrite S'. apply rres_assert.
  pose proof (during_pop c A a _ _ D) as R. unfold sl_pop in *. destruct D as [[D E] F]. rewrite E in *.
  destruct (sl_stack (d_len d)) as [|h st] eqn:Es; [exact I|]. cbn [bind rres] in *. split; [exact R|]. split; [|split].
  - cbn. rewrite S. reflexivity.
  - reflexivity.
  - apply parts_lens. exact P.
Qed.

Lemma rel_subtract k v a d d' : A a -> dduring a d d' -> rres drel (lwc_subtract k v a d) (lwc_subtract k v a d').
Proof.
  intros Ha (D & S & S' & P). unfold lwc_subtract. rewrite S'. destruct (d_stack d) as [|sub st] eqn:Es.
  - split; [|split; [exact Es|split; [congruence|exact P]]]. destruct D as [D _]. split; [exact D|]. congruence.
  - apply (rres_bind _ _ _ _ _ _ (during_subtract c Hc A a _ _ Ha D)). intros s s' Hs.
    eapply rres_bind; [apply rel_subtract2; apply (parts_lens d d' s (sub :: st) s' (sub :: st)); exact P|].
    intros e e' (f & -> & ->). split; [exact Hs|]. split; [reflexivity|]. split; [reflexivity|].
    apply parts_lens, parts_conns, parts_lens. exact P.
Qed.

Lemma rel_subrep k v a d d' : A a -> dduring a d d' ->
  rres (fun p p' => fst p = fst p' /\ drel (snd p) (snd p')) (lwc_subrep k v a d) (lwc_subrep k v a d').
Proof.
  intros Ha (D & S & S' & P). unfold lwc_subrep. rewrite S'. destruct (d_stack d) as [|sub st] eqn:Es; [exact I|].
  apply (rres_bind _ _ _ _ _ _ (during_subrep c Hc A a _ _ Ha D)). intros [r s] [r' s'] [Er Hs]. cbn [fst snd] in *.
  eapply rres_bind; [apply rel_subtract2; apply (parts_lens d d' s (sub :: st) s' (sub :: st)); exact P|].
  intros e e' (f & -> & ->). split; [exact Er|]. split; [exact Hs|]. split; [reflexivity|]. split; [reflexivity|].
  apply parts_lens, parts_conns, parts_lens. exact P.
Qed.

(** The operations do not change the components. *)
Lemma push_comps {V} {OV : LenOps V} l (d e : decomp V) : lwc_push l d = Ok e -> d_comps e = d_comps d.
Proof. unfold lwc_push. destruct (negb _); cbn [assert_]; [|discriminate]. intro E. injection E as <-. reflexivity. Qed.

Lemma pop_comps {V} {OV : LenOps V} (d e : decomp V) : lwc_pop d = Ok e -> d_comps e = d_comps d.
Proof.
  unfold lwc_pop. destruct (negb _); cbn [assert_]; [|discriminate]. destruct (sl_pop _); cbn [bind]; try discriminate.
  intro E. injection E as <-. reflexivity.
Qed.

Lemma subtract2_comps {V} {OV : LenOps V} k v m sub (d e : decomp V) : lwc_subtract2 k v m sub d = Ok e -> d_comps e = d_comps d.
Proof.
  unfold lwc_subtract2. destruct (conns_at d sub); cbn [bind]; try discriminate. destruct (conns_at d m); cbn [bind]; try discriminate.
  destruct (conn_subtract _ _ _ _); cbn [bind]; try discriminate. intro E. injection E as <-. reflexivity.
Qed.

Lemma subtract_comps {V} {OV : LenOps V} k v m (d e : decomp V) : lwc_subtract k v m d = Ok e -> d_comps e = d_comps d.
Proof.
  unfold lwc_subtract. destruct (d_stack d) as [|sub st]; [intro E; injection E as <-; reflexivity|].
  destruct (sl_subtract m (d_len d)) as [s| | | |]; cbn [bind]; try discriminate.
  destruct (lwc_subtract2 _ _ _ _ _) as [d1| | | |] eqn:E1; cbn [bind]; try discriminate. apply subtract2_comps in E1. intro E. injection E as <-. exact E1.
Qed.

Lemma subrep_comps {V} {OV : LenOps V} k v m (d : decomp V) p : lwc_subrep k v m d = Ok p -> d_comps (snd p) = d_comps d.
Proof.
  unfold lwc_subrep. destruct (d_stack d) as [|sub st]; [discriminate|].
  destruct (sl_subrep m (d_len d)) as [[r s]| | | |]; cbn [bind]; try discriminate.
  destruct (lwc_subtract2 _ _ _ _ _) as [d1| | | |] eqn:E1; cbn [bind]; try discriminate. apply subtract2_comps in E1. intro E. injection E as <-. exact E1.
Qed.

Lemma zorich_rows {V St} {OV : LenOps V} (L : lens V St) i s f j t : zorich L i s = Ok (f, j, t) ->
  i_top j = i_top i /\ i_swap j = i_swap i /\ Permutation (i_bottom i) (i_bottom j).
Proof.
  unfold zorich. destruct (i_top i) as [|a X] eqn:Et; [discriminate|]. destruct (i_bottom i) as [|b Y] eqn:Eb; [discriminate|].
  destruct (Nat.eqb a b); [intro E; injection E as _ <- _; rewrite Eb; auto|].
  destruct (zloop _ _ _ _ _ _) as [[r s1]| | | |]; cbn [bind]; try discriminate.
  destruct (splice _ _ _) as [l| | | |] eqn:El; cbn [bind]; try discriminate. destruct l as [|b' l]; [discriminate|].
  destruct (li_cmp2 _ _ _ _) as [k| | | |]; cbn [bind]; try discriminate. intro E. injection E as _ <- _. cbn. rewrite Et. repeat split; auto.
  exact (splice_perm _ _ _ _ El).
Qed.

Definition keeping (cs : list (dcomp T)) (R : decomp T -> decomp T' -> Prop) (d : decomp T) (d' : decomp T') : Prop := R d d' /\ d_comps d = cs.

Lemma rel_dinduce cs k fuel limit i i' d d' : irel i i' -> keeping cs drel d d' -> link True i i' (d_len d') ->
  i_swap i' = false /\ fits k (i_top i') d' ->
  rres (ratio_step c A (dec_lens k) (keeping cs drel)) (induce (dec_lens k) fuel limit i d) (induce (dec_lens k) fuel limit i' d').
Proof.
  apply (ratio_induce c Hc A (dec_lens k) (dec_lens k) (keeping cs drel) (fun a => keeping cs (dduring a))) with (F := fun i' d' => i_swap i' = false /\ fits k (i_top i') d');
    cbn [dec_lens li_push li_pop li_cmp1 li_cmp2 li_subtract li_subrep li_base].
  - intros a s s' [H E]. split; [apply drel_start; exact H|exact E].
  - intros a l s s' Hl Na [H E]. eapply rres_mono; [apply rres_eqn; exact (rel_push a l s s' Hl Na H)|].
    intros e e' (He & Ee & _). split; [exact He|]. apply push_comps in Ee. congruence.
  - intros a s s' [H E]. eapply rres_mono; [apply rres_eqn; exact (rel_pop a s s' H)|].
    intros e e' (He & Ee & _). split; [exact He|]. apply pop_comps in Ee. congruence.
  - intros a s s' l Hl ((D & _) & _). apply (during_cmp1 c Hc A a); assumption.
  - intros s s' l m Hl Hm (([[D _] _] & _) & _). apply (idle_cmp2 c Hc A); assumption.
  - intros v a s s' Ha [H E]. eapply rres_mono; [apply rres_eqn; exact (rel_subtract k v a s s' Ha H)|].
    intros e e' (He & Ee & _). split; [exact He|]. apply subtract_comps in Ee. congruence.
  - intros v a s s' Ha [H E]. eapply rres_mono; [apply rres_eqn; exact (rel_subrep k v a s s' Ha H)|].
    intros e e' ((Hp & He) & Ee & _). split; [exact Hp|]. split; [exact He|]. apply subrep_comps in Ee. congruence.
  - intros s s' (([[D E] F] & _) & _). split; [exact D|]. split; [exact F|]. rewrite E. exact F.
  - intros j j2 s E1 _ E3 [H1 H2]. rewrite E3, E1. split; assumption.
  - intros j s f j2 s2 Wj [Sw F] E. destruct (iteration_sim k j s Wj Sw F) as (f' & i2 & t & g & E1 & E2 & _).
    rewrite E in E2. injection E2 as <- <- ->. split; [exact E1|].
    assert (R : Permutation (i_top j) (i_top j2) /\ i_swap j2 = i_swap j).
    { pose proof E1 as E3. unfold iteration in E3.
      destruct (zorich sample_lens j (d_len s)) as [[[f1 i1] s1]| | | |] eqn:Z1; cbn [bind] in E3; try discriminate.
      destruct (zorich_rows _ _ _ _ _ _ Z1) as (P1 & Q1 & Q1').
      destruct f1; [injection E3 as <- <- <-; rewrite P1; auto|].
      destruct (zorich sample_lens (iet_swap i1) s1) as [[[f2 i3] s3]| | | |] eqn:Z2; cbn [bind] in E3; try discriminate.
      destruct (zorich_rows _ _ _ _ _ _ Z2) as (P2 & Q2 & Q2'). injection E3 as <- <- <-. cbn in *. rewrite Q2, Q1, <- P1. rewrite Bool.negb_involutive. split; [exact Q2'|reflexivity]. }
    destruct R as [P Sj]. rewrite Sj. split; [exact Sw|]. apply (fits_perm _ _ _ _ P), fits_with. exact F.
  - reflexivity.
Qed.

(** ** Components *)

Lemma rel_comp d d' k : same_parts d d' -> rres crel (comp_at d k) (comp_at d' k).
Proof.
  intro H. pose proof (Forall2_nth _ _ _ (sp_comps _ _ H) k) as G. unfold comp_at.
  destruct (nth_error (d_comps d) k), (nth_error (d_comps d') k); try contradiction; [exact G|exact I].
Qed.

Lemma Forall2_set {X Y} (P : X -> Y -> Prop) l l' : Forall2 P l l' -> forall k x y, P x y ->
  match set_nth k x l, set_nth k y l' with Some m, Some m' => Forall2 P m m' | None, None => True | _, _ => False end.
Proof.
  induction 1 as [|u v l l' H F IH]; intros [|k] x y Hxy; cbn; auto.
  specialize (IH k x y Hxy). destruct (set_nth k x l), (set_nth k y l'); auto.
Qed.

Lemma rel_comp_set d d' k x x' : drel d d' -> crel x x' -> rres drel (comp_set d k x) (comp_set d' k x').
Proof.
  intros (D & S & S' & P) H. pose proof (Forall2_set _ _ _ (sp_comps _ _ P) k x x' H) as G. unfold comp_set.
  destruct (set_nth k x (d_comps d)), (set_nth k x' (d_comps d')); try contradiction; [|exact I].
  split; [exact D|]. split; [exact S|]. split; [exact S'|]. destruct P. constructor; auto.
Qed.

Lemma crel_set x x' i i' : crel x x' -> irel i i' -> crel (iet_set x i) (iet_set x' i').
Proof. intros [] H. constructor; auto. Qed.

Lemma rel_base d d' : drel d d' -> near (d_len d) (d_len d') /\ sl_stack (d_len d) = [] /\ sl_stack (d_len d') = [].
Proof. intros ([[D E] F] & _). split; [exact D|]. split; [exact F|]. rewrite E. exact F. Qed.

(** The invariant: the decompositions correspond to each other, all components of the second
    one are in a good state, and so are the caches and trackers of the first one. *)
Definition linked (d : decomp T) (d' : decomp T') : Prop :=
  Forall2 (fun x x' => link True (dc_iet x) (dc_iet x') (d_len d')) (d_comps d) (d_comps d').
Definition wrel (X : list (iet T * iet T')) (d : decomp T) (d' : decomp T') : Prop :=
  drel d d' /\ sound (map snd X) d' /\ linked d d' /\ Forall (fun p => link True (fst p) (snd p) (d_len d')) X.

Lemma Forall2_replace {X Y} (P Q : X -> Y -> Prop) l l' : Forall2 P l l' -> forall k x y m m',
  (forall j u v, j <> k -> nth_error l j = Some u -> nth_error l' j = Some v -> P u v -> Q u v) -> Q x y ->
  set_nth k x l = Some m -> set_nth k y l' = Some m' -> Forall2 Q m m'.
Proof.
  induction 1 as [|u v l l' H F IH]; intros [|k] x y m m' K Hxy E E'; cbn in E, E'; try discriminate.
  - injection E as <-. injection E' as <-. constructor; [exact Hxy|].
    assert (G : forall j a b, nth_error l j = Some a -> nth_error l' j = Some b -> P a b -> Q a b) by (intros j a b Ha Hb; apply (K (Datatypes.S j)); auto).
    clear IH K. induction F as [|a b l l' Hab F IH]; constructor; [apply (G 0 a b); auto|]. apply IH. intros j p q Hp Hq. apply (G (Datatypes.S j)); assumption.
  - destruct (set_nth k x l) as [m0|] eqn:E0; [|discriminate]. destruct (set_nth k y l') as [m0'|] eqn:E0'; [|discriminate].
    injection E as <-. injection E' as <-. constructor; [apply (K 0 u v); auto|].
    apply (IH k x y); auto. intros j a b Nj Ha Hb. apply (K (Datatypes.S j)); auto.
Qed.

Lemma Forall2_all {X Y} (P Q : X -> Y -> Prop) l l' : Forall2 P l l' -> (forall x y, In y l' -> P x y -> Q x y) -> Forall2 Q l l'.
Proof. induction 1 as [|u v l l' H F IH]; intro K; constructor; [apply K; [left; reflexivity|exact H]|]. apply IH. intros x y Hy. apply K. right. exact Hy. Qed.

Lemma comp_at_nth {V} (d : decomp V) k x : comp_at d k = Ok x -> nth_error (d_comps d) k = Some x.
Proof. unfold comp_at. destruct (nth_error (d_comps d) k); [|discriminate]. intro E. injection E as <-. reflexivity. Qed.

Lemma comp_set_comps {V} (d : decomp V) k z e : comp_set d k z = Ok e -> set_nth k z (d_comps d) = Some (d_comps e) /\ d_len e = d_len d.
Proof. unfold comp_set. destruct (set_nth k z (d_comps d)) eqn:E; [|discriminate]. intro H. injection H as <-. split; reflexivity. Qed.

Lemma linked_set d d' k z z' e e' : linked d d' -> link True (dc_iet z) (dc_iet z') (d_len d') -> comp_set d k z = Ok e -> comp_set d' k z' = Ok e' -> linked e e'.
Proof.
  intros H Hz E E'. apply comp_set_comps in E. apply comp_set_comps in E'. destruct E as [E _], E' as [E' El]. unfold linked. rewrite El.
  eapply Forall2_replace; [exact H| |exact Hz|exact E|exact E']. auto.
Qed.

Lemma linked_at d d' k x x' : linked d d' -> nth_error (d_comps d) k = Some x -> nth_error (d_comps d') k = Some x' -> link True (dc_iet x) (dc_iet x') (d_len d').
Proof. intros H E E'. pose proof (Forall2_nth _ _ _ H k) as G. rewrite E, E' in G. exact G. Qed.

Lemma wrel_set d d' k x x' : wrel [] d d' -> comp_at d k = Ok x -> comp_at d' k = Ok x' -> forall z z', crel z z' -> dc_iet z = dc_iet x -> dc_iet z' = dc_iet x' ->
  rres (wrel []) (comp_set d k z) (comp_set d' k z').
Proof.
  intros (H & So & Li & _) Ex Ex' z z' Hz Ez Ez'. eapply rres_mono; [apply rres_eqn; apply (rel_comp_set d d' k z z' H Hz)|].
  intros e e' (He & Ee & Ee'). split; [exact He|]. destruct (comp_set_iets d' k x' z' e' (comp_at_nth _ _ _ Ex') Ez' Ee') as (E1 & E2 & E3 & E4).
  split; [exact (sound_flags _ d' e' So E1 E2 E3 E4)|]. split; [|constructor]. apply (linked_set d d' k z z' e e' Li); auto.
  rewrite Ez, Ez'. exact (linked_at d d' k x x' Li (comp_at_nth _ _ _ Ex) (comp_at_nth _ _ _ Ex')).
Qed.

Definition cost_ok (cost : option Z) : Prop := match cost with Some k => (0 <= k <= INT_MAX)%Z | None => True end.

Lemma rel_step_start k d d' : wrel [] d d' ->
  rres (fun p p' => fst p = fst p' /\ cost_ok (fst p) /\ wrel [] (snd p) (snd p')) (step_start k d) (step_start k d').
Proof.
  intros (H & So & Li & _). destruct (rel_base d d' H) as (B & B1 & B2). unfold step_start.
  apply (rres_bind _ _ _ _ _ _ (rres_eqn _ _ _ (rel_comp d d' k (proj2 (proj2 (proj2 H)))))). intros x x' (X & Ex & Ex').
  assert (E : fully_decomposed x' = fully_decomposed x) by (unfold fully_decomposed; rewrite (cr_cylinder _ _ X), (cr_keane _ _ X); reflexivity).
  rewrite E. apply rres_assert.
  apply (rres_bind (fun p p' => fst p = fst p' /\ cost_ok (fst p) /\ irel (snd p) (snd p') /\ link True (snd p) (snd p') (d_len d') /\ exists v, iet_saf (dc_iet x') (d_len d') = Ok (v, snd p'))).
  - unfold bosh_cost, saf_invariant.
    pose proof (link_saf c Hc A True _ _ _ _ (cr_iet _ _ X) B (linked_at d d' k x x' Li (comp_at_nth _ _ _ Ex) (comp_at_nth _ _ _ Ex'))) as R.
    destruct (iet_saf (dc_iet x) (d_len d)) as [[u j]| | | |], (iet_saf (dc_iet x') (d_len d')) as [[v j']| | | |]; cbn [rres] in R; try contradiction; try exact I.
    destruct R as (V & J & Lj & _). cbn [fst snd bind rres] in *.
    assert (G : forall w, vis0 (if i_swap j then vneg w else w) = vis0 w) by (intro w; destruct (i_swap j); [apply vis0_vneg|reflexivity]).
    rewrite (ir_swap _ _ _ J), !G, V. split; [reflexivity|]. split; [destruct (vis0 v); [exact I|cbn; unfold INT_MAX; lia]|]. split; [exact J|]. split; [exact Lj|]. exists v. reflexivity.
  - intros [cost i] [cost' i'] (Ec & Co & Hi & Lj & v & Es). cbn [fst snd] in *. subst cost'.
    apply (rres_bind _ _ _ _ _ _ (rres_eqn _ _ _ (rel_comp_set d d' k _ _ H (crel_set _ _ _ _ X Hi)))). intros e e' (He & Ee & Ee').
    split; [reflexivity|]. split; [exact Co|]. split; [exact He|]. split; [exact (sound_set d' k x' i' e' v So (comp_at_nth _ _ _ Ex') Es Ee')|].
    split; [|constructor]. exact (linked_set d d' k (iet_set x i) (iet_set x' i') e e' Li Lj Ee Ee').
Qed.

Definition extras (st : istep T) (st' : istep T') : list (iet T * iet T') :=
  match is_additional st, is_additional st' with Some j, Some j' => [(j, j')] | _, _ => [] end.

Definition same_loop (p : istep T * decomp T) (p' : istep T' * decomp T') : Prop :=
  same_istep A (fst p) (fst p') /\ (is_result (fst p) <> SEPARATING_CONNECTION -> is_additional (fst p') = None) /\ wrel (extras (fst p) (fst p')) (snd p) (snd p').

Lemma sound_apart d C1 x C2 j y : sound [] d -> d_comps d = C1 ++ x :: C2 -> j <> length C1 -> nth_error (d_comps d) j = Some y ->
  forall l, In l (i_top (dc_iet y)) -> ~ In l (i_top (dc_iet x : iet T')).
Proof.
  intros [_ _ N _] E Nj Ey l Hy Hx. rewrite app_nil_r in N. unfold comp_iets in N. rewrite E, map_app in N. cbn [map] in N.
  rewrite used_app in N. cbn in N. apply NoDup_app_inv in N. destruct N as (_ & N2 & N3). apply NoDup_app_inv in N2. destruct N2 as (_ & _ & N4).
  rewrite E in Ey. destruct (Nat.lt_ge_cases j (length C1)) as [Lt|Ge].
  - rewrite nth_error_app1 in Ey by exact Lt. apply nth_error_In in Ey. apply (N3 l); [|apply in_or_app; left; exact Hx].
    unfold used. apply in_flat_map. exists (dc_iet y). split; [apply in_map; exact Ey|exact Hy].
  - rewrite nth_error_app2 in Ey by exact Ge. destruct (j - length C1) as [|n] eqn:En; [lia|]. cbn in Ey. apply nth_error_In in Ey.
    apply (N4 l Hx). apply in_flat_map. exists (dc_iet y). split; [apply in_map; exact Ey|exact Hy].
Qed.

Lemma plain_induce k fuel limit (i' : iet T') d' st j e : induce (dec_lens k) fuel limit i' d' = Ok (st, j, e) -> is_result st <> SEPARATING_CONNECTION -> is_additional st = None.
Proof.
  intros E N. unfold induce in E.
  destruct (_ =? 1); [injection E as <- _ _; reflexivity|].
  destruct (if (limit =? 0)%Z then _ else _) as [[[[f|] i1] s1]| | | |]; cbn [bind] in E; try discriminate; [|injection E as <- _ _; reflexivity].
  unfold induce_finish in E. destruct (reduce i1 _) as [[[r|] i2]| | | |]; cbn [bind] in E; try discriminate.
  - destruct (rev (i_bottom i2)); [discriminate|]. destruct (rev (i_top i2)); [discriminate|]. injection E as <- _ _. cbn in N. congruence.
  - destruct (i_top i2) as [|a X]; [discriminate|]. destruct (i_bottom i2) as [|b Y]; [discriminate|].
    destruct (li_cmp2 _ _ a b) as [k0| | | |]; cbn [bind] in E; try discriminate. destruct k0.
    + destruct (merge_first i2) as [i3| | | |]; cbn [bind] in E; try discriminate. injection E as <- _ _. reflexivity.
    + destruct (negb f); cbn [assert_] in E; [|discriminate]. destruct (bosh_no_periodic i2 _) as [[z i3]| | | |]; cbn [bind] in E; try discriminate. injection E as <- _ _. reflexivity.
    + destruct (negb f); cbn [assert_] in E; [|discriminate]. destruct (bosh_no_periodic i2 _) as [[z i3]| | | |]; cbn [bind] in E; try discriminate. injection E as <- _ _. reflexivity.
Qed.

Lemma rel_step_loop fuel cost k : cost_ok cost -> forall rounds limit d d', (limit <= INT_MAX)%Z -> wrel [] d d' ->
  rres same_loop (step_loop rounds fuel cost limit k d) (step_loop rounds fuel cost limit k d').
Proof.
  intro Co. induction rounds as [|rounds IH]; intros limit d d' Hl (H & So & Li & _); [exact I|]. cbn [step_loop].
  set (steps := match cost with Some k0 => if (limit <? 2 * k0)%Z then limit else k0 | None => limit end).
  assert (Hs : (steps <= INT_MAX)%Z /\ (limit - steps <= INT_MAX)%Z).
  { unfold steps, INT_MAX in *. destruct cost as [m|]; [|lia]. cbn in Co. unfold INT_MAX in Co. destruct (Z.ltb_spec limit (2 * m)); lia. }
  apply (rres_bind _ _ _ _ _ _ (rres_eqn _ _ _ (rel_comp d d' k (proj2 (proj2 (proj2 H)))))). intros x x' (X & Ex & Ex').
  destruct (rel_base d d' H) as (B & B1 & B2). pose proof (comp_at_nth _ _ _ Ex') as Nx.
  destruct (nth_split _ _ _ Nx) as (C1 & C2 & Ec & Ek).
  pose proof (linked_at d d' k x x' Li (comp_at_nth _ _ _ Ex) Nx) as Lx.
  assert (Sx : i_swap (dc_iet x') = false).
  { apply (so_good _ _ So (dc_iet x')). rewrite app_nil_r. unfold comp_iets. rewrite Ec. apply in_map. apply in_or_app. right. left. reflexivity. }
  assert (Fx : fits k (i_top (dc_iet x')) d') by (rewrite <- Ek; apply (sound_fits d' C1 x' C2); auto).
  eapply rres_bind; [apply rres_eqn; exact (rel_dinduce (d_comps d) k fuel steps _ _ d d' (cr_iet _ _ X) (conj H eq_refl) Lx (conj Sx Fx))|].
  intros [[st i] d1] [[st' i'] d1'] ((E1 & I1 & (H1 & Hc1) & L1 & L2) & _ & Ei). cbn [fst snd dec_lens li_base] in *.
  apply (rres_bind _ _ _ _ _ _ (rres_eqn _ _ _ (rel_comp_set d1 d1' k _ _ H1 (crel_set _ _ _ _ X I1)))). intros e e' (He & Ee & Ee').
  assert (Pl : is_result st <> SEPARATING_CONNECTION -> is_additional st' = None).
  { intro N. rewrite <- (si_result _ _ _ E1) in N. exact (plain_induce _ _ _ _ _ _ _ _ Ei N). }
  assert (Hw : wrel (extras st st') e e').
  { split; [exact He|]. subst k. destruct (sound_induce d' C1 x' C2 fuel steps st' i' d1' So Ec (proj1 Hs) Ei) as (e2 & Ee2 & So2 & Cm & S2 & Le2 & Fr2).
    rewrite Ee' in Ee2. injection Ee2 as <-. pose proof (comp_set_comps _ _ _ _ Ee) as [Sc _]. pose proof (comp_set_comps _ _ _ _ Ee') as [Sc' El'].
    unfold extras. split; [|split].
    - pose proof (si_additional _ _ _ E1) as Ad. destruct (is_additional st), (is_additional st'); try contradiction; exact So2.
    - unfold linked. rewrite El'. rewrite Hc1 in Sc. rewrite Cm in Sc'.
      eapply Forall2_replace; [exact Li| |exact (L1 : (fun u v => link True (dc_iet u) (dc_iet v) (d_len d1')) (iet_set x i) (iet_set x' i'))|exact Sc|exact Sc']. intros j u v Nj _ Ev Luv.
      apply (link_frame c A (dc_iet u) (dc_iet v) (d_len d')); auto. intros l Hlv. apply Fr2. exact (sound_apart d' C1 x' C2 j v So Ec Nj Ev l Hlv).
    - rewrite El'. destruct (is_additional st) as [j|], (is_additional st') as [j'|]; constructor; [|constructor]. exact (L2 j j' eq_refl eq_refl). }
  rewrite (si_result _ _ _ E1). destruct (is_result st) eqn:Er; try (split; [exact E1|split; [cbn [fst]; rewrite Er; exact Pl|exact Hw]]).
  destruct (Z.eqb _ 0); [split; [exact E1|split; [cbn [fst]; rewrite Er; exact Pl|exact Hw]]|].
  apply IH; [apply Hs|]. unfold extras in Hw. rewrite (Pl ltac:(discriminate)) in Hw. destruct (is_additional st); exact Hw.
Qed.

Definition same_dstep (p : dstep * decomp T) (p' : dstep * decomp T') : Prop := fst p = fst p' /\ wrel [] (snd p) (snd p').

Lemma drel_conns d d' f : drel d d' -> drel (set_conns d f) (set_conns d' f).
Proof. intros (D & S & S' & P). split; [exact D|]. split; [exact S|]. split; [exact S'|]. apply parts_conns. exact P. Qed.

Lemma wrel_conns X d d' f : wrel X d d' -> wrel X (set_conns d f) (set_conns d' f).
Proof. intros (H & So & Li & Lx). split; [apply drel_conns; exact H|]. split; [apply (sound_flags _ d'); auto|]. split; [exact Li|exact Lx]. Qed.

Lemma rel_separating fuel k b t j j' d d' : irel j j' -> wrel [(j, j')] d d' ->
  rres same_dstep (step_separating fuel k b t j d) (step_separating fuel k b t j' d').
Proof.
  intros Hj (H & So & Li & Lx). pose proof (parts_shape _ _ (proj2 (proj2 (proj2 H)))) as Sh. unfold step_separating.
  rewrite (shape_bottom d d' k Sh), (shape_top d d' k Sh). apply rres_same. intros bots _. apply rres_same. intros tops _.
  apply rres_same. intros lb _. apply rres_same. intros lt _. rewrite (shape_walk d d' Sh). apply rres_same. intros eq _.
  rewrite (shape_sep_bottom d d' b Sh), (shape_sep_top d d' t Sh). apply rres_same. intros src _. apply rres_same. intros tgt _.
  assert (El : length (d_comps d') = length (d_comps d)) by (symmetry; eapply Forall2_len; exact (sp_comps _ _ (proj2 (proj2 (proj2 H))))).
  rewrite El. set (e := set_comps d _). set (e' := set_comps d' _).
  assert (He : wrel [] e e').
  { split; [|split; [|split; [|constructor]]].
    - destruct H as (D & S & S' & P). split; [exact D|]. split; [exact S|]. split; [exact S'|]. destruct P. constructor; auto.
      cbn. apply Forall2_app; [assumption|]. constructor; [|constructor]. constructor; auto.
    - destruct So as [G1 G2 G3 G4]; cbn [map snd] in *; constructor; cbn [map]; rewrite ?app_nil_r; auto;
        unfold e'; unfold comp_iets in *; cbn [set_comps d_comps d_keys d_len d_stack]; rewrite ?map_app; assumption.
    - unfold linked, e, e'. cbn. apply Forall2_app; [exact Li|]. constructor; [|constructor]. exact (Forall_inv Lx). }
  eapply rres_bind; [apply shape_register; apply parts_shape; exact (proj2 (proj2 (proj2 (proj1 He))))|].
  intros d1 d1' (f & -> & ->). split; [reflexivity|]. apply wrel_conns. exact He.
Qed.

Lemma rel_non_separating k b t d d' : wrel [] d d' -> rres same_dstep (step_non_separating k b t d) (step_non_separating k b t d').
Proof.
  intros Hw. pose proof (proj1 Hw) as H. pose proof (parts_shape _ _ (proj2 (proj2 (proj2 H)))) as Sh. unfold step_non_separating. apply rres_assert.
  rewrite !(shape_he_cross d d' _ Sh), (shape_sep_bottom d d' b Sh), (shape_sep_top d d' t Sh).
  apply rres_same. intros x1 _. apply rres_same. intros x2 _. apply rres_same. intros src _. apply rres_same. intros tgt _.
  apply (rres_bind _ _ _ _ _ _ (shape_comp d d' k Sh)). intros x x' X. rewrite (re_top _ _ X). apply rres_same. intros first _.
  apply rres_assert. rewrite !(shape_conns_at d d' _ Sh). apply rres_same. intros _ _. apply rres_same. intros _ _. apply rres_same. intros _ _.
  rewrite (sh_conns _ _ Sh). pose proof (wrel_conns [] d d' (merge_conns b t first (mkconn src tgt) (d_conns d)) Hw) as H1.
  rewrite (shape_comp_left _ _ k (parts_shape _ _ (proj2 (proj2 (proj2 (proj1 H1)))))). apply rres_same. intros p _. apply rres_assert.
  split; [reflexivity|exact H1].
Qed.

Lemma rel_step_finish fuel st st' k d d' : same_loop (st, d) (st', d') ->
  rres same_dstep (step_finish fuel st k d) (step_finish fuel st' k d').
Proof.
  intros (E & Pl & Hw). cbn [fst snd] in *. pose proof (proj1 Hw) as H. unfold step_finish.
  apply (rres_bind _ _ _ _ _ _ (rres_eqn _ _ _ (rel_comp d d' k (proj2 (proj2 (proj2 H)))))). intros x x' (X & Ex & Ex').
  rewrite (si_result _ _ _ E), (si_connection _ _ _ E). pose proof (si_additional _ _ _ E) as Ad.
  assert (Hw0 : is_result st <> SEPARATING_CONNECTION -> wrel [] d d') by (intro N; unfold extras in Hw; rewrite (Pl N) in Hw; destruct (is_additional st); exact Hw).
  assert (Set_ : forall z z', is_result st <> SEPARATING_CONNECTION -> crel z z' -> dc_iet z = dc_iet x -> dc_iet z' = dc_iet x' -> rres (wrel []) (comp_set d k z) (comp_set d' k z')).
  { intros z z' N Hz Ez Ez'. apply (wrel_set d d' k x x'); auto. }
  destruct (is_result st).
  - split; [reflexivity|]. apply Hw0. discriminate.
  - eapply rres_bind; [apply Set_; [discriminate|constructor; cbn; auto; apply X|reflexivity|reflexivity]|]. intros e e' He. split; [reflexivity|exact He].
  - destruct (is_connection st) as [[b t]|]; [|exact I]. unfold extras in Hw.
    destruct (is_additional st) as [j|], (is_additional st') as [j'|]; try contradiction; [|exact I]. apply rel_separating; assumption.
  - destruct (is_connection st) as [[b t]|]; [|exact I]. apply rel_non_separating, Hw0. discriminate.
  - eapply rres_bind; [apply Set_; [discriminate|constructor; cbn; auto; apply X|reflexivity|reflexivity]|]. intros e e' He. split; [reflexivity|exact He].
  - eapply rres_bind; [apply Set_; [discriminate|constructor; cbn; auto; apply X|reflexivity|reflexivity]|]. intros e e' He. split; [reflexivity|exact He].
Qed.

Lemma rel_step_limited fuel limit k d d' : (limit <= INT_MAX)%Z -> wrel [] d d' -> rres same_dstep (step_limited fuel limit k d) (step_limited fuel limit k d').
Proof.
  intros Hl H. unfold step_limited. apply (rres_bind _ _ _ _ _ _ (rel_step_start k d d' H)). intros [cost d1] [cost' d1'] (Ec & Co & H1).
  cbn [fst snd] in *. subst cost'. apply (rres_bind _ _ _ _ _ _ (rel_step_loop fuel cost k Co fuel limit d1 d1' Hl H1)).
  intros [st d2] [st' d2'] E2. apply rel_step_finish; assumption.
Qed.

Lemma rel_step_unlimited fuel cost k : cost_ok cost -> forall rounds limit d d', (limit <= INT_MAX)%Z -> wrel [] d d' ->
  rres same_dstep (step_unlimited rounds fuel cost limit k d) (step_unlimited rounds fuel cost limit k d').
Proof.
  intro Co. induction rounds as [|rounds IH]; intros limit d d' Hl H; [exact I|]. cbn [step_unlimited].
  apply (rres_bind _ _ _ _ _ _ (rel_step_limited fuel limit k d d' Hl H)). intros [st d1] [st' d1'] [Es H1]. cbn [fst snd] in *. subst st'.
  destruct (dst_result st); try (split; [reflexivity|exact H1]).
  destruct cost as [m|]; (destruct (Z.leb_spec (2 * (limit + 1)) INT_MAX); [apply IH; [|exact H1]|exact I]); [apply Co|assumption].
Qed.

Theorem rel_decomposition_step fuel limit k d d' : (limit <= INT_MAX)%Z -> wrel [] d d' ->
  rres same_dstep (decomposition_step fuel limit k d) (decomposition_step fuel limit k d').
Proof.
  intros Hl H. unfold decomposition_step. destruct (Z.eqb limit (-1)); [|apply rel_step_limited; assumption].
  apply (rres_bind _ _ _ _ _ _ (rel_step_start k d d' H)). intros [cost d1] [cost' d1'] (Ec & Co & H1).
  cbn [fst snd] in *. subst cost'. apply rel_step_unlimited; auto. unfold INT_MAX. lia.
Qed.

(** ** decompose *)

Definition same_flag (p : bool * decomp T) (p' : bool * decomp T') : Prop := fst p = fst p' /\ wrel [] (snd p) (snd p').

(** What a callback sees. *)
Record vrel (v : cview T) (v' : cview T') : Prop := {
  vr_top : cv_top v' = cv_top v;
  vr_bot : cv_bottom v' = cv_bottom v;
  vr_len : Forall2 (fun x y => val y = (c * mval x)%R) (cv_lengths v) (cv_lengths v');
  vr_cyl : cv_cylinder v' = cv_cylinder v;
  vr_wpt : cv_wpt v' = cv_wpt v;
  vr_keane : cv_keane v' = cv_keane v;
}.

Lemma rres_mapM {X Y Z} (P : Y -> Z -> Prop) (f : X -> res Y) (g : X -> res Z) l : (forall x, In x l -> rres P (f x) (g x)) ->
  rres (Forall2 P) (mapM f l) (mapM g l).
Proof.
  induction l as [|x l IH]; intro H; cbn [mapM]; [constructor|]. apply (rres_bind _ _ _ _ _ _ (H x (or_introl eq_refl))).
  intros y z Hyz. assert (G : rres (Forall2 P) (mapM f l) (mapM g l)) by (apply IH; intros w Hw; apply H; right; exact Hw).
  apply (rres_bind _ _ _ _ _ _ G). intros ys zs HF. constructor; assumption.
Qed.

Lemma mapM_fun {X Y} (f g : X -> res Y) l : (forall x, f x = g x) -> mapM f l = mapM g l.
Proof. intro H. induction l as [|x l IH]; [reflexivity|]. cbn [mapM]. rewrite H, IH. reflexivity. Qed.

Lemma rel_comp_view d d' k : drel d d' -> rres vrel (comp_view d k) (comp_view d' k).
Proof.
  intro H. destruct (rel_base d d' H) as (B & _). pose proof (proj2 (proj2 (proj2 H))) as P. pose proof (parts_shape _ _ P) as Sh. unfold comp_view.
  pose proof (rel_comp d d' k P) as G. unfold top_contour at 1. unfold top_contour at 1. rewrite (shape_bottom d d' k Sh).
  destruct (comp_at d k) as [x| | | |] eqn:Ex, (comp_at d' k) as [x'| | | |] eqn:Ex'; cbn [rres] in G; try contradiction; try exact I. cbn [bind].
  pose proof (cr_iet _ _ G) as J. rewrite (ir_swap _ _ _ J), (ir_top _ _ _ J), (ir_bot _ _ _ J).
  apply rres_same. intros bots _.
  assert (Ev : forall l, mapM (fun e => l <- he_left d e ;; r <- he_right d e ;; Ok (he_label e, l, r)) l =
                         mapM (fun e => l <- he_left d' e ;; r <- he_right d' e ;; Ok (he_label e, l, r)) l).
  { intro l. apply mapM_fun. intro e. rewrite (shape_he_left d d' e Sh), (shape_he_right d d' e Sh). reflexivity. }
  rewrite !Ev. apply rres_same. intros ts _. apply rres_same. intros bs _.
  eapply rres_bind.
  - apply (rres_mapM (fun x y => val y = (c * mval x)%R)). intros e He. apply in_map_iff in He. destruct He as (l & <- & Hl). cbn [he_label].
    eapply rres_mono; [apply (near_at c A None _ _ l B)|].
    + destruct (i_swap (dc_iet x)); [pose proof (irel_in_bot _ _ _ J) as F|pose proof (ir_in _ _ _ J) as F]; rewrite Forall_forall in F; auto.
    + intros u v [R _]. exact R.
  - intros ls ls' HF. constructor; cbn; auto; apply G.
Qed.

Variable target : cview T -> bool.
Variable target' : cview T' -> bool.
Hypothesis Htarget : forall v v', vrel v v' -> target v = target' v'.

Theorem rel_comp_decompose fuel limit : (limit <= INT_MAX)%Z -> forall rounds k d d', wrel [] d d' ->
  rres same_flag (comp_decompose rounds fuel target limit k d) (comp_decompose rounds fuel target' limit k d').
Proof.
  intro Hl. induction rounds as [|rounds IH]; intros k d d' H; [exact I|]. cbn [comp_decompose].
  apply (rres_bind _ _ _ _ _ _ (rel_comp_view d d' k (proj1 H))). intros v v' V. rewrite <- (Htarget v v' V).
  destruct (target v); [split; [reflexivity|exact H]|].
  apply (rres_bind _ _ _ _ _ _ (rel_decomposition_step fuel limit k d d' Hl H)). intros [st d1] [st' d1'] [Es H1]. cbn [fst snd] in *. subst st'.
  assert (G : rres same_flag
    ('(ok1, d0) <- match dst_additional st with Some c' => comp_decompose rounds fuel target limit c' d1 | None => Ok (true, d1) end ;;
     '(ok2, d0) <- comp_decompose rounds fuel target limit k d0 ;; Ok (ok1 && ok2, d0))
    ('(ok1, d0) <- match dst_additional st with Some c' => comp_decompose rounds fuel target' limit c' d1' | None => Ok (true, d1') end ;;
     '(ok2, d0) <- comp_decompose rounds fuel target' limit k d0 ;; Ok (ok1 && ok2, d0))).
  { apply (rres_bind same_flag).
    - destruct (dst_additional st); [apply IH; exact H1|split; [reflexivity|exact H1]].
    - intros [o e] [o' e'] [Eo He]. cbn [fst snd] in *. subst o'. apply (rres_bind _ _ _ _ _ _ (IH k e e' He)).
      intros [o2 e2] [o2' e2'] [Eo2 He2]. cbn [fst snd] in *. subst o2'. split; [reflexivity|exact He2]. }
  destruct (dst_result st); [split; [reflexivity|exact H1]|exact G..].
Qed.

Lemma rel_decompose_all rounds fuel limit : (limit <= INT_MAX)%Z -> forall cs d d', wrel [] d d' ->
  rres same_flag (decompose_all rounds fuel target limit cs d) (decompose_all rounds fuel target' limit cs d').
Proof.
  intro Hl. induction cs as [|k cs IH]; intros d d' H; [split; [reflexivity|exact H]|]. cbn [decompose_all].
  apply (rres_bind _ _ _ _ _ _ (rel_comp_decompose fuel limit Hl rounds k d d' H)). intros [o e] [o' e'] [Eo He]. cbn [fst snd] in *. subst o'.
  destruct o; [apply IH; exact He|split; [reflexivity|exact He]].
Qed.

Theorem rel_decompose rounds fuel limit d d' : (limit <= INT_MAX)%Z -> wrel [] d d' ->
  rres same_flag (decompose rounds fuel target limit d) (decompose rounds fuel target' limit d').
Proof.
  intros Hl H. unfold decompose. rewrite (Forall2_len _ _ _ (sp_comps _ _ (proj2 (proj2 (proj2 (proj1 H)))))). apply rel_decompose_all; assumption.
Qed.
End RatioDec.
