(** How the connections of a decomposition with injected connections are related to those of
    the same decomposition without them. *)
From Coq Require Import Reals List Permutation Lia.
From Verif Require Import Base Spec Dyn Saddle Path Direct Decomp DecompSim DecompInv InjApi.
Import ListNotations.
Open Scope nat_scope.

(** * Interleavings *)

Lemma il_app {A} (a b l a' b' l' : list A) : interleaved a b l -> interleaved a' b' l' -> interleaved (a ++ a') (b ++ b') (l ++ l').
Proof. induction 1; intro H'; [exact H'| |]; simpl; constructor; auto. Qed.
Lemma il_only_left {A} (a : list A) : interleaved a [] a.
Proof. induction a; constructor; auto. Qed.
Lemma il_only_right {A} (a : list A) : interleaved [] a a.
Proof. induction a; constructor; auto. Qed.
Lemma il_perm {A} (a b l : list A) : interleaved a b l -> Permutation l (a ++ b).
Proof.
  induction 1; [constructor| |]; simpl; [constructor; assumption|].
  etransitivity; [constructor; eassumption|]. apply Permutation_middle.
Qed.
Lemma il_nil_inv {A} (a b : list A) : interleaved a b [] -> a = [] /\ b = [].
Proof. inversion 1. auto. Qed.

(** * Chains *)

Lemma links_inj l xs ys : links l xs = links l ys -> xs = ys.
Proof.
  assert (Q : forall xs l, map (fun k => sp_label (cn_target k)) (links l xs) = xs).
  { induction xs0 as [|x xs0 IH]; intro m; [reflexivity|]. simpl. rewrite IH. reflexivity. }
  intro H. rewrite <- (Q xs l), <- (Q ys l), H. reflexivity.
Qed.

Definition toplinks (ys : list label) (t : label) : list connection :=
  match ys with [] => [] | y :: r => links y (r ++ [t]) end.

Lemma skip_top_links y : forall xs, skip_top (last xs y) (rev (links y xs)) = Ok (mksep y ANTIPARALLEL).
Proof.
  induction xs as [|x xs IH] using rev_ind; [reflexivity|].
  rewrite last_snoc, links_app. cbn [links]. rewrite rev_app_distr. cbn [rev app skip_top cn_target cn_source sp_label].
  unfold sep_eqb. cbn [sp_label sp_orient orient_eqb]. rewrite Nat.eqb_refl. cbn [andb assert_]. exact IH.
Qed.

Lemma skip_toplinks ys t : skip_top t (rev (toplinks ys t)) = Ok (mksep (hd t ys) ANTIPARALLEL).
Proof.
  destruct ys as [|y r]; [reflexivity|]. cbn [toplinks hd].
  pose proof (skip_top_links y (r ++ [t])) as Q. rewrite last_snoc in Q. exact Q.
Qed.

Lemma toplinks_links z ys t : links z (ys ++ [t]) = mkconn (mksep z PARALLEL) (mksep (hd t ys) ANTIPARALLEL) :: toplinks ys t.
Proof. destruct ys; reflexivity. Qed.

Lemma merge_conns_left b a first c f l : a <> b -> first <> a ->
  topLeft (merge_conns b a first c f l) = (if Nat.eqb l a then [] else if Nat.eqb l first then conn_neg c :: topLeft (f l) else topLeft (f l)) /\
  bottomLeft (merge_conns b a first c f l) =
    (if Nat.eqb l a then [] else if Nat.eqb l b then bottomLeft (f b) ++ topLeft (f a) ++ bottomLeft (f a) else bottomLeft (f l)).
Proof.
  intros N1 N2. unfold merge_conns.
  destruct (Nat.eqb_spec l a) as [->|Na]; [rewrite upd_same; split; reflexivity|].
  rewrite (upd_other _ a) by exact Na.
  destruct (Nat.eqb_spec l b) as [->|Nb].
  - rewrite upd_same. cbn [topLeft bottomLeft].
    rewrite (upd_other _ first _ a) by congruence. rewrite (upd_other _ b _ a) by congruence.
    destruct (Nat.eqb_spec b first) as [->|Nf].
    + rewrite !upd_same. cbn [topLeft bottomLeft]. split; reflexivity.
    + rewrite (upd_other _ first) by exact Nf. rewrite upd_same. split; reflexivity.
  - rewrite (upd_other _ b) by exact Nb.
    destruct (Nat.eqb_spec l first) as [->|Nf].
    + rewrite upd_same. cbn [topLeft bottomLeft]. rewrite upd_other by exact Nb. split; reflexivity.
    + rewrite !upd_other by assumption. split; reflexivity.
Qed.

(** * The relation *)

Section Rel.
Variable keys : list label.
Variables TC BC : label -> list label.
Variables JL JR : list connection.

Definition far (s : separatrix) : separatrix :=
  match sp_orient s with
  | PARALLEL => mksep (last (BC (sp_label s)) (sp_label s)) PARALLEL
  | ANTIPARALLEL => mksep (hd (sp_label s) (TC (sp_label s))) ANTIPARALLEL
  end.
Definition farc (k : connection) : connection := mkconn (far (cn_source k)) (far (cn_target k)).

Lemma farc_neg k : farc (conn_neg k) = conn_neg (farc k).
Proof. reflexivity. Qed.

(** What the label [d] in a chain becomes: if it has been merged, the chains at its top and
    bottom half edges are part of the chain. *)
Definition ext (lv : list label) (d : label) : list label :=
  if memb d lv then [hd d (TC d)] else TC d ++ d :: BC d.

Record rel (lv : list label) (f f2 : label -> conns) : Prop := {
  rl_top : forall l, In l lv -> topRight (f2 l) = toplinks (TC l) l;
  rl_bot : forall l, In l lv -> exists ch, bottomRight (f l) = links l ch /\
    bottomRight (f2 l) = links l (BC l ++ flat_map (ext lv) ch);
  rl_dead : forall l, In l keys -> ~ In l lv -> f2 l = no_conns;
  rl_left : exists g, (forall l, In l keys -> interleaved (topLeft (g l)) (map farc (topLeft (f l))) (topLeft (f2 l)) /\
                                 interleaved (bottomLeft (g l)) (map farc (bottomLeft (f l))) (bottomLeft (f2 l))) /\
    Permutation (flat_map (fun l => left_conns (g l)) keys) JL;
  rl_right : Permutation (flat_map (fun l => right_conns (f2 l)) keys) (JR ++ map farc (flat_map (fun l => right_conns (f l)) keys));
}.

Lemma ext_lv lv lv' d : (In d lv <-> In d lv') -> ext lv d = ext lv' d.
Proof.
  intro H. unfold ext. destruct (memb d lv) eqn:E1, (memb d lv') eqn:E2; try reflexivity; exfalso.
  - apply memb_In in E1. apply H in E1. apply memb_In in E1. congruence.
  - apply memb_In in E2. apply H in E2. apply memb_In in E2. congruence.
Qed.

Lemma rel_lv lv lv' f f2 : (forall l, In l lv <-> In l lv') -> rel lv f f2 -> rel lv' f f2.
Proof.
  intros H [A B C D E]. constructor; auto.
  - intros l Hl. apply A, H, Hl.
  - intros l Hl. destruct (B l (proj2 (H l) Hl)) as (ch & E1 & E2). exists ch. split; [exact E1|].
    rewrite E2. f_equal. f_equal. apply flat_map_same. intros x _. apply ext_lv. apply H.
  - intros l Hk Hl. apply C; [exact Hk|]. intro Q. apply Hl, H, Q.
Qed.

Lemma occ_perm g f f' : (forall x, occ g keys f' x = occ g keys f x) -> Permutation (flat_map (fun l => g (f' l)) keys) (flat_map (fun l => g (f l)) keys).
Proof. intro H. apply (Permutation_count_occ conn_dec). exact H. Qed.

Lemma occ_perm1 g f f' c : (forall x, occ g keys f' x = occ g keys f x + count_occ conn_dec [c] x) ->
  Permutation (flat_map (fun l => g (f' l)) keys) (c :: flat_map (fun l => g (f l)) keys).
Proof.
  intro H. apply (Permutation_count_occ conn_dec). intro x. change (c :: flat_map (fun l => g (f l)) keys) with ([c] ++ flat_map (fun l => g (f l)) keys).
  rewrite count_occ_app. specialize (H x). unfold occ in H. lia.
Qed.

Lemma right_conns_ext f f' : (forall l, topRight (f' l) = topRight (f l) /\ bottomRight (f' l) = bottomRight (f l)) ->
  flat_map (fun l => right_conns (f' l)) keys = flat_map (fun l => right_conns (f l)) keys.
Proof. intro H. apply flat_map_same. intros l _. unfold right_conns. destruct (H l) as [-> ->]. reflexivity. Qed.

Section Moves.
Variable lv : list label.
Hypothesis ND : NoDup keys.
Hypothesis Hk : incl lv keys.

Lemma rel_move top a b f f2 : In a lv -> In b lv -> a <> b -> rel lv f f2 -> rel lv (conn_move top a b f) (conn_move top a b f2).
Proof.
  intros Ha Hb N [A B C (g & D1 & D2) E]. constructor.
  - intros l Hl. destruct (conn_move_right top a b f2 l N) as [-> _]. apply A. exact Hl.
  - intros l Hl. destruct (conn_move_right top a b f2 l N) as [_ ->]. destruct (conn_move_right top a b f l N) as [_ ->]. apply B. exact Hl.
  - intros l Hl Hn. rewrite conn_move_out; [apply C; assumption| |]; intros ->; contradiction.
  - exists (conn_move top a b g). split.
    + intros l Kl. unfold conn_move. destruct (Nat.eq_dec l a) as [->|Na].
      { rewrite !upd_same. cbn [topLeft bottomLeft map]. split; constructor. }
      rewrite !(upd_other _ a) by exact Na. destruct (Nat.eq_dec l b) as [->|Nb].
      { rewrite !upd_same. destruct (D1 a) as [P1 P2]; [auto|]. destruct (D1 b) as [P3 P4]; [auto|].
        destruct top; cbn [topLeft bottomLeft]; rewrite !map_app; split; repeat apply il_app; assumption. }
      rewrite !upd_other by exact Nb. apply D1, Kl.
    + rewrite <- D2. apply occ_perm. intro x. apply conn_move_left; auto.
  - rewrite (right_conns_ext f2 (conn_move top a b f2)), (right_conns_ext f (conn_move top a b f)) by (intro l; apply conn_move_right; exact N).
    exact E.
Qed.

Lemma last_far ch b : Forall (fun d => ~ In d lv) ch ->
  last (BC b ++ flat_map (ext lv) ch) b = last (BC (last ch b)) (last ch b).
Proof.
  intro H. destruct ch as [|d0 ch0] using rev_ind; [simpl; rewrite app_nil_r; reflexivity|]. clear IHch0.
  apply Forall_app in H. destruct H as [_ H]. inversion H; subst. rewrite last_snoc.
  rewrite flat_map_app. cbn [flat_map]. rewrite app_nil_r. unfold ext at 2.
  destruct (memb d0 lv) eqn:E; [apply memb_In in E; contradiction|].
  rewrite app_assoc, app_assoc, last_app_cons, last_cons. reflexivity.
Qed.

Section Found.
Variables (f f2 : label -> conns) (b t : label) (ch : list label).
Hypothesis R : rel lv f f2.
Hypothesis Hb : In b lv.
Hypothesis Ht : In t lv.
Hypothesis Hch : bottomRight (f b) = links b ch.
Hypothesis Hdead : Forall (fun d => ~ In d lv) ch.

Lemma rel_chain l ch' : In l lv -> bottomRight (f l) = links l ch' -> bottomRight (f2 l) = links l (BC l ++ flat_map (ext lv) ch').
Proof. intros Hl E. destruct (rl_bot _ _ _ R l Hl) as (c & E1 & E2). rewrite E in E1. apply links_inj in E1. subst c. exact E2. Qed.

Lemma rel_skip_bottom : skip_bottom b (bottomRight (f2 b)) = Ok (far (mksep (last ch b) PARALLEL)).
Proof. rewrite (rel_chain b ch Hb Hch), skip_links, last_far by exact Hdead. reflexivity. Qed.

Lemma rel_skip_top : skip_top t (rev (topRight (f2 t))) = Ok (far (mksep t ANTIPARALLEL)).
Proof. rewrite (rl_top _ _ _ R t Ht). apply skip_toplinks. Qed.

Let c := right_conn (last ch b, t).

Lemma rel_register b' : In b' lv -> b <> b' -> rel lv (register b b' c f) (register b b' (farc c) f2).
Proof.
  intros Hb' N. constructor.
  - intros l Hl. destruct (register_right b b' (farc c) f2 l N) as [-> _]. apply R. exact Hl.
  - intros l Hl. destruct (register_right b b' (farc c) f2 l N) as [_ ->]. destruct (register_right b b' c f l N) as [_ ->].
    destruct (Nat.eqb_spec l b) as [->|Nb].
    + exists (ch ++ [t]). split.
      * rewrite Hch, links_app. reflexivity.
      * rewrite (rel_chain b ch Hb Hch), flat_map_app, app_assoc. rewrite (links_app b (BC b ++ flat_map (ext lv) ch)), last_far by exact Hdead.
        cbn [flat_map app]. unfold ext at 3. rewrite (proj2 (memb_In t lv) Ht). reflexivity.
    + destruct (rl_bot _ _ _ R l Hl) as (c0 & E1 & E2). exists c0. rewrite !app_nil_r. auto.
  - intros l Hl Hn. unfold register. rewrite !upd_other; [apply (rl_dead _ _ _ R); assumption| |]; intros ->; contradiction.
  - destruct (rl_left _ _ _ R) as (g & D1 & D2). exists g. split; [|exact D2]. intros l Kl. destruct (D1 l Kl) as [P1 P2].
    unfold register. destruct (Nat.eq_dec l b') as [->|N1].
    + rewrite !upd_same. cbn [topLeft bottomLeft]. rewrite !upd_other by congruence. split; [exact P1|].
      rewrite map_app. cbn [map]. rewrite <- (app_nil_r (bottomLeft (g b'))). apply il_app; [exact P2|]. rewrite farc_neg. apply il_only_right.
    + rewrite !(upd_other _ b') by exact N1. destruct (Nat.eq_dec l b) as [->|N2]; [rewrite !upd_same; cbn; auto|].
      rewrite !upd_other by exact N2. auto.
  - etransitivity; [apply (occ_perm1 right_conns f2 _ (farc c)); intro x; apply register_rights; auto|].
    assert (P : Permutation (flat_map (fun l => right_conns (register b b' c f l)) keys) (c :: flat_map (fun l => right_conns (f l)) keys)).
    { apply occ_perm1. intro x. apply register_rights; auto. }
    rewrite P. cbn [map]. rewrite <- Permutation_middle. constructor. apply (rl_right _ _ _ R).
Qed.

Lemma rel_merge lv' first : In first lv -> t <> b -> first <> t -> topRight (f t) = [] ->
  (forall l, In l lv' <-> In l lv /\ l <> t) ->
  (forall l c0, In l lv -> bottomRight (f l) = links l c0 -> ~ In t c0) ->
  rel lv' (merge_conns b t first c f) (merge_conns b t first (farc c) f2).
Proof.
  intros Hf N1 N2 Tt Hlv Hfree.
  assert (Ext : forall c0, ~ In t c0 -> flat_map (ext lv) c0 = flat_map (ext lv') c0).
  { intros c0 Hn. apply flat_map_same. intros x Hx. apply ext_lv. rewrite Hlv. split; [|tauto]. intro Hl. split; [exact Hl|]. intros ->. contradiction. }
  constructor.
  - intros l Hl. apply Hlv in Hl. destruct Hl as [Hl Nt]. destruct (merge_conns_right b t first (farc c) f2 l N1 N2) as [-> _].
    destruct (Nat.eqb_spec l t); [contradiction|]. apply R. exact Hl.
  - intros l Hl. apply Hlv in Hl. destruct Hl as [Hl Nt]. destruct (merge_conns_right b t first (farc c) f2 l N1 N2) as [_ ->].
    destruct (merge_conns_right b t first c f l N1 N2) as [_ ->].
    destruct (Nat.eqb_spec l t); [contradiction|]. destruct (Nat.eqb_spec l b) as [->|Nb].
    + destruct (rl_bot _ _ _ R t Ht) as (ct & E1 & E2). exists (ch ++ t :: ct). split.
      * rewrite Hch, Tt, E1, links_app. cbn [links app]. rewrite <- app_assoc. reflexivity.
      * rewrite (rel_chain b ch Hb Hch), (rl_top _ _ _ R t Ht), E2, flat_map_app. cbn [flat_map].
        rewrite <- (Ext ch) by (apply (Hfree b); assumption). rewrite <- (Ext ct) by (apply (Hfree t); assumption).
        replace (ext lv' t) with (TC t ++ t :: BC t).
        2:{ unfold ext. destruct (memb t lv') eqn:E; [|reflexivity]. apply memb_In in E. apply Hlv in E. destruct E. contradiction. }
        rewrite (app_assoc (BC b)). rewrite (links_app b (BC b ++ flat_map (ext lv) ch)), last_far by exact Hdead.
        rewrite <- !app_assoc. f_equal. cbn [app].
        replace (TC t ++ t :: BC t ++ flat_map (ext lv) ct) with ((TC t ++ [t]) ++ (BC t ++ flat_map (ext lv) ct)) by (rewrite <- app_assoc; reflexivity).
        rewrite (links_app _ (TC t ++ [t])), last_snoc, toplinks_links. reflexivity.
    + destruct (rl_bot _ _ _ R l Hl) as (c0 & E1 & E2). exists c0. split; [exact E1|]. rewrite E2, (Ext c0); [reflexivity|]. apply (Hfree l); assumption.
  - intros l Hl Hn. destruct (Nat.eq_dec l t) as [->|Nt]; [unfold merge_conns; apply upd_same|].
    assert (Hn' : ~ In l lv) by (intro C; apply Hn, Hlv; auto).
    rewrite merge_conns_out; [apply (rl_dead _ _ _ R); assumption| | |]; try exact Nt; intros ->; contradiction.
  - destruct (rl_left _ _ _ R) as (g & D1 & D2).
    set (g1 := upd g b (mkconns (topLeft (g b)) [] (bottomLeft (g b) ++ topLeft (g t) ++ bottomLeft (g t)) [])).
    set (g' := upd g1 t no_conns).
    exists g'. split.
    + intros l Kl. destruct (merge_conns_left b t first c f l N1 N2) as [-> ->]. destruct (merge_conns_left b t first (farc c) f2 l N1 N2) as [-> ->].
      destruct (D1 l Kl) as [P1 P2]. destruct (D1 t (Hk t Ht)) as [P3 P4].
      destruct (Nat.eqb_spec l t) as [->|Nt]; [unfold g'; rewrite upd_same; split; constructor|].
      unfold g'. rewrite (upd_other _ t) by exact Nt. unfold g1. split.
      * replace (topLeft (upd g b _ l)) with (topLeft (g l)) by (unfold upd; destruct (Nat.eqb_spec l b) as [->|]; reflexivity).
        destruct (Nat.eqb l first); [cbn [map]; rewrite farc_neg; constructor|]; exact P1.
      * destruct (Nat.eqb_spec l b) as [->|Nb]; [|rewrite upd_other by exact Nb; exact P2].
        rewrite upd_same. cbn [bottomLeft]. rewrite !map_app. repeat apply il_app; assumption.
    + rewrite <- D2. apply occ_perm. intro x.
      pose proof (occ_upd left_conns keys g b (mkconns (topLeft (g b)) [] (bottomLeft (g b) ++ topLeft (g t) ++ bottomLeft (g t)) []) x ND (Hk b Hb)) as Q1.
      pose proof (occ_upd left_conns keys g1 t no_conns x ND (Hk t Ht)) as Q2. fold g1 in Q1. fold g' in Q2.
      assert (E : g1 t = g t) by (unfold g1; apply upd_other; exact N1). rewrite E in Q2.
      unfold left_conns in *. cbn [topLeft bottomLeft no_conns] in *. rewrite ?count_occ_app in *. cbn [count_occ] in Q2. lia.
  - etransitivity; [apply (occ_perm1 right_conns f2 _ (farc c)); intro x; apply merge_conns_occ; auto|].
    assert (P : Permutation (flat_map (fun l => right_conns (merge_conns b t first c f l)) keys) (c :: flat_map (fun l => right_conns (f l)) keys)).
    { apply occ_perm1. intro x. apply merge_conns_occ; auto. }
    rewrite P. cbn [map]. rewrite <- Permutation_middle. constructor. apply (rl_right _ _ _ R).
Qed.
End Found.
End Moves.
End Rel.
