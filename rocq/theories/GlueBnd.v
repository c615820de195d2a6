(** The boundaries that a program computes, and their sides. *)
From Coq Require Import Reals List Lia Permutation.
From Verif Require Import Base QcTac LenT FM Subspace Lengths IET Api Spec Dyn SpecGlue Glue Decomp DecompSim DecompInv DecompRef DecompNav DecompCons DecompAll PerimProof GlueApi GlueDec.
Import ListNotations.
Open Scope list_scope.
Open Scope nat_scope.

Lemma tip_links l ls : tip l (links l ls) = mksep (last ls l) PARALLEL.
Proof. revert l. induction ls as [|x ls IH]; intro l; [reflexivity|]. rewrite last_cons. cbn [links tip cn_target sp_label]. apply IH. Qed.

Lemma mapM_cons {A B} (g : A -> res B) x l : mapM g (x :: l) = (y <- g x ;; ys <- mapM g l ;; Ok (y :: ys)).
Proof. reflexivity. Qed.

Section Bnd.
Context {T : Type} {O : LenOps T} {W : LenLaws T}.
Variables (e0 : exch) (d : decomp T).
Hypothesis Ok0 : dec_ok e0 d.

Section One.
Variables (C1 C2 : list (dcomp T)) (x : dcomp T).
Hypothesis Hc : d_comps d = C1 ++ x :: C2.
Let c := length C1.
Let i := dc_iet x.
Let f := d_conns d.

Let Hx : comp_at d c = Ok x := comp_here d C1 C2 x Hc.
Let Sw : i_swap i = false := comp_swap e0 d Ok0 C1 C2 x Hc.
Let Nd : NoDup (i_top i) := comp_nodup e0 d Ok0 C1 C2 x Hc.
Let Pm : Permutation (i_top i) (i_bottom i) := comp_perm e0 d Ok0 C1 C2 x Hc.
Let Ks : incl (i_top i) (d_keys d) := comp_keys e0 d Ok0 C1 C2 x Hc.
Let Kb : incl (i_bottom i) (d_keys d) := comp_bottom_keys e0 d Ok0 C1 C2 x Hc.

Lemma crossing_items l top : map as_item (crossing d c l top) = if top then tcross f l else bcross f l.
Proof.
  destruct top; unfold crossing, tcross, bcross, lft, rgt, f; rewrite !map_app, map_rev, !map_map; reflexivity.
Qed.

Lemma lower_ok S : forall P, i_bottom i = P ++ S -> exists ls,
  mapM (fun e => cs <- he_cross d e ;; o <- he_separatrix d e ;; Ok (map as_item cs ++ corner o)) (map (fun l => mkhe c l false) S) = Ok ls /\
  concat ls = removelast (flat_map (bm f) S).
Proof.
  induction S as [|l S IH]; intros P E; [exists []; split; reflexivity|].
  destruct (IH (P ++ [l])) as (ls & E1 & E2); [rewrite <- app_assoc; exact E|].
  assert (Il : In l (i_bottom i)) by (rewrite E; apply in_app_iff; right; left; reflexivity).
  rewrite map_cons, mapM_cons. rewrite (he_cross_ok d c l false) by (apply Kb, Il). cbn [bind].
  assert (Hs : he_separatrix d (mkhe c l false) = match S with [] => Ok None | _ => s <- sep_at_bottom d l ;; Ok (Some s) end).
  { unfold he_separatrix. rewrite (he_next_ok d c x Hx Nd Pm false P l S E). destruct S; reflexivity. }
  rewrite Hs, crossing_items. destruct S as [|l' S'].
  - cbn [bind map mapM] in *. injection E1 as <-. eexists. split; [reflexivity|]. cbn [corner concat flat_map]. rewrite !app_nil_r. unfold bm. rewrite removelast_last. reflexivity.
  - destruct (separatrix_at_bottom e0 d Ok0 C1 C2 x Hc l) as (xs & F1 & F2); [apply (Permutation_in _ (Permutation_sym Pm)), Il|].
    rewrite F2. cbn [bind]. rewrite E1. cbn [bind]. eexists. split; [reflexivity|]. cbn [corner concat]. rewrite E2.
    change (flat_map (bm f) (l :: l' :: S')) with (bm f l ++ flat_map (bm f) (l' :: S')).
    rewrite removelast_tail by (apply flat_nonempty; [intro; apply bm_nonempty|discriminate]).
    unfold bm at 2. unfold f in *. unfold rgt in F1. rewrite F1, tip_links. reflexivity.
Qed.

Lemma upper_ok S : forall P, i_top i = P ++ S -> exists ls,
  mapM (fun e => cs <- he_cross d e ;; o <- he_separatrix d e ;; Ok (corner o ++ map as_item cs)) (rev (map (fun l => mkhe c l true) S)) = Ok ls /\
  concat ls = tl (flat_map (tm f) (rev S)).
Proof.
  induction S as [|l S IH]; intros P E; [exists []; split; reflexivity|].
  destruct (IH (P ++ [l])) as (ls & E1 & E2); [rewrite <- app_assoc; exact E|].
  assert (Il : In l (i_top i)) by (rewrite E; apply in_app_iff; right; left; reflexivity).
  rewrite map_cons. cbn [rev]. rewrite mapM_app, E1. cbn [bind mapM]. rewrite (he_cross_ok d c l true) by (apply Ks, Il). cbn [bind].
  assert (Hs : he_separatrix d (mkhe c l true) = match S with [] => Ok None | _ => s <- sep_at_top d l ;; Ok (Some s) end).
  { unfold he_separatrix. rewrite (he_next_ok d c x Hx Nd Pm true P l S E). destruct S; reflexivity. }
  rewrite Hs, crossing_items. destruct S as [|l' S'].
  - cbn [map rev mapM] in E1. injection E1 as <-. cbn [bind]. eexists. split; [reflexivity|]. cbn. rewrite !app_nil_r. reflexivity.
  - rewrite (separatrix_at_top e0 d Ok0 C1 C2 x Hc l Il). cbn [bind]. eexists. split; [reflexivity|].
    rewrite concat_app, E2. rewrite flat_map_app. cbn [flat_map concat corner]. rewrite !app_nil_r.
    rewrite tl_head; [reflexivity|]. apply flat_nonempty; [discriminate|]. cbn [rev]. destruct (rev S'); discriminate.
Qed.

Lemma boundary_word : boundary d c = Ok (word f (exch_of i (d_len d))).
Proof.
  unfold boundary. rewrite (bottom_contour_ok d c x Hx Sw), (top_contour_ok d c x Hx Sw). cbn [bind]. fold i.
  destruct (lower_ok (i_bottom i) []) as (ls & E1 & E2); [reflexivity|]. destruct (upper_ok (i_top i) []) as (us & E3 & E4); [reflexivity|].
  rewrite E1. cbn [bind]. rewrite E3. cbn [bind]. rewrite E2, E4. reflexivity.
Qed.
End One.

Lemma boundaries_words : boundaries d = Ok (map (word (d_conns d)) (pieces d)).
Proof.
  unfold boundaries, pieces. rewrite map_map.
  assert (Q : forall C2 C1, d_comps d = C1 ++ C2 -> mapM (boundary d) (seq (length C1) (length C2)) = Ok (map (fun x => word (d_conns d) (exch_of (dc_iet x) (d_len d))) C2)).
  { induction C2 as [|x C2 IH]; intros C1 E; [reflexivity|]. cbn [length seq mapM map].
    rewrite (boundary_word C1 C2 x E). cbn [bind]. specialize (IH (C1 ++ [x])). rewrite app_length in IH. cbn [length] in IH. rewrite Nat.add_1_r in IH.
    rewrite IH by (rewrite <- app_assoc; exact E). reflexivity. }
  exact (Q (d_comps d) [] eq_refl).
Qed.

(** ** The sides *)

Lemma filter_conns cs : filter is_side (map cv cs) = map cv cs.
Proof. induction cs as [|k cs IH]; [reflexivity|]. cbn. rewrite IH. reflexivity. Qed.

Lemma filter_rev' (l : list item) : filter is_side (rev l) = rev (filter is_side l).
Proof. induction l as [|x l IH]; [reflexivity|]. cbn [rev filter]. rewrite filter_app, IH. cbn [filter]. destruct (is_side x); cbn [rev]; rewrite ?app_nil_r; reflexivity. Qed.

Lemma bm_sides f l : filter is_side (bm f l) = bcross f l.
Proof. unfold bm, bcross. rewrite !filter_app. cbn [filter is_side]. rewrite filter_rev', !filter_conns. apply app_nil_r. Qed.

Lemma tm_sides f l : filter is_side (tm f l) = tcross f l.
Proof. unfold tm, tcross. cbn [filter is_side]. rewrite filter_app. cbn [filter is_side]. rewrite filter_rev', !filter_conns. reflexivity. Qed.

Lemma filter_flat {A B} (p : B -> bool) (g : A -> list B) l : filter p (flat_map g l) = flat_map (fun x => filter p (g x)) l.
Proof. induction l as [|x l IH]; [reflexivity|]. cbn. rewrite filter_app, IH. reflexivity. Qed.

Lemma removelast_sides f l : filter is_side (removelast (flat_map (bm f) l)) = flat_map (bcross f) l.
Proof.
  destruct l as [|y l'] using rev_ind; [reflexivity|]. rewrite flat_map_app. cbn [flat_map]. rewrite app_nil_r. unfold bm at 2. rewrite app_assoc, removelast_last.
  rewrite filter_app, filter_flat, flat_map_app. cbn [flat_map]. rewrite app_nil_r. f_equal.
  - apply flat_map_ext. intro. apply bm_sides.
  - rewrite <- (bm_sides f y) at 2. unfold bm. rewrite filter_app. cbn. rewrite app_nil_r. reflexivity.
Qed.

Lemma tl_sides f l : filter is_side (tl (flat_map (tm f) l)) = flat_map (tcross f) l.
Proof.
  transitivity (filter is_side (flat_map (tm f) l)).
  - destruct l; reflexivity.
  - rewrite filter_flat. apply flat_map_ext. intro. apply tm_sides.
Qed.

Lemma word_sides f e : filter is_side (word f e) = flat_map (bcross f) (e_bot e) ++ flat_map (tcross f) (rev (e_top e)).
Proof. unfold word. rewrite filter_app, removelast_sides, tl_sides. reflexivity. Qed.

Definition own (f : label -> conns) (l : label) : list item :=
  [Edge l false; Edge l true] ++ map cv (left_conns (f l) ++ right_conns (f l)).

Lemma own_perm f l : Permutation (bcross f l ++ tcross f l) (own f l).
Proof.
  unfold bcross, tcross, own, left_conns, right_conns. rewrite !map_app. cbn [app].
  set (a := map cv (bottomLeft (f l))). set (b := map cv (bottomRight (f l))). set (u := map cv (topLeft (f l))). set (v := map cv (topRight (f l))).
  rewrite <- app_assoc. cbn [app]. etransitivity; [symmetry; apply Permutation_middle|]. apply perm_skip.
  rewrite !app_assoc. etransitivity; [symmetry; apply Permutation_middle|]. apply perm_skip.
  rewrite <- !Permutation_rev. rewrite <- !app_assoc.
  rewrite (Permutation_app_comm a). rewrite <- !app_assoc. rewrite (Permutation_app_comm b). rewrite <- !app_assoc.
  rewrite (Permutation_app_comm v). rewrite <- !app_assoc. apply Permutation_app_head. rewrite (Permutation_app_comm b).
  apply Permutation_app_tail. reflexivity.
Qed.

Lemma flat_perm {A B} (g h : A -> list B) l : Permutation (flat_map g l ++ flat_map h l) (flat_map (fun x => g x ++ h x) l).
Proof.
  induction l as [|x l IH]; [constructor|]. cbn [flat_map]. rewrite <- IH. rewrite <- !app_assoc. apply Permutation_app_head.
  rewrite !app_assoc. apply Permutation_app_tail. apply Permutation_app_comm.
Qed.

Lemma word_own f e : Permutation (e_top e) (e_bot e) -> Permutation (filter is_side (word f e)) (flat_map (own f) (e_top e)).
Proof.
  intro P. rewrite word_sides. rewrite (Permutation_flat_map (bcross f) (Permutation_sym P)).
  rewrite (Permutation_flat_map (tcross f) (Permutation_sym (Permutation_rev (e_top e)))).
  rewrite flat_perm. clear P. induction (e_top e) as [|l ls IH]; [constructor|]. cbn [flat_map]. rewrite own_perm. apply Permutation_app_head, IH.
Qed.

Lemma words_own f E : (forall e, In e E -> Permutation (e_top e) (e_bot e)) -> Permutation (filter is_side (concat (map (word f) E))) (flat_map (own f) (live E)).
Proof.
  induction E as [|e E IH]; intro H; [constructor|]. cbn [map concat]. rewrite filter_app. change (live (e :: E)) with (e_top e ++ live E). rewrite flat_map_app.
  apply Permutation_app; [apply word_own, H; left; reflexivity|]. apply IH. intros e' He'. apply H. right. exact He'.
Qed.

Lemma live_conns x : In x (flat_map (fun l => left_conns (d_conns d l) ++ right_conns (d_conns d l)) (live (pieces d))) <-> In x (lefts d ++ rights d).
Proof.
  destruct (dk_inv _ _ Ok0) as (D & C). rewrite in_app_iff, (lefts_eq _ _ Ok0), (rights_eq _ _ Ok0), !in_flat_map. split.
  - intros (l & Hl & I). apply in_app_iff in I. pose proof (ci_keys _ _ _ _ _ C Hl) as K. destruct I as [I|I]; [left|right]; exists l; auto.
  - assert (Q : forall l, In l (e_top e0) -> d_conns d l <> no_conns -> In l (live (pieces d))).
    { intros l Hl N. apply (Permutation_in _ (ci_part _ _ _ _ C)) in Hl. apply in_flat_map in Hl. destruct Hl as (l' & Hl' & [->|I]); [exact Hl'|].
      exfalso. apply N. exact (ci_dead _ _ _ _ C l' l Hl' I). }
    intros [(l & Hl & I)|(l & Hl & I)]; exists l; (split; [apply Q; [exact Hl|]; intro Z; rewrite Z in I; exact I|]); apply in_app_iff; auto.
Qed.

Lemma NoDup_map_of {A B} (g : A -> B) l : NoDup (map g l) -> NoDup l.
Proof. induction l as [|x l IH]; intro H; [constructor|]. cbn in H. inversion H; subst. constructor; [|apply IH; assumption]. intro I. apply (in_map g) in I. contradiction. Qed.

Lemma live_conns_nodup : NoDup (map cn_source (flat_map (fun l => left_conns (d_conns d l) ++ right_conns (d_conns d l)) (live (pieces d)))).
Proof.
  destruct (dk_inv _ _ Ok0) as (D & C). pose proof (conns_sources _ _ Ok0) as N. rewrite (lefts_eq _ _ Ok0), (rights_eq _ _ Ok0) in N.
  assert (P : Permutation (flat_map (fun l => left_conns (d_conns d l) ++ right_conns (d_conns d l)) (e_top e0))
    (flat_map (fun l => left_conns (d_conns d l)) (e_top e0) ++ flat_map (fun l => right_conns (d_conns d l)) (e_top e0))) by (symmetry; apply flat_perm).
  assert (N' : NoDup (map cn_source (flat_map (fun l => left_conns (d_conns d l) ++ right_conns (d_conns d l)) (e_top e0)))).
  { eapply Permutation_NoDup; [|exact N]. apply Permutation_map, Permutation_sym, P. }
  assert (S : exists R, Permutation (e_top e0) (live (pieces d) ++ R)).
  { exists (flat_map D (live (pieces d))). rewrite (ci_part _ _ _ _ C). change (fun l => l :: D l) with (fun l => [l] ++ D l). rewrite <- flat_perm. apply Permutation_app_tail.
    clear. induction (live (pieces d)) as [|a l IH]; [constructor|]. cbn. constructor. exact IH. }
  destruct S as (R & S). rewrite (Permutation_flat_map _ S), flat_map_app, map_app in N'. apply NoDup_app_l in N'. apply N'.
Qed.

Lemma own_split f L : Permutation (flat_map (own f) L) (flat_map (fun l => [Edge l false; Edge l true]) L ++ map cv (flat_map (fun l => left_conns (f l) ++ right_conns (f l)) L)).
Proof. unfold own. rewrite <- flat_perm. apply Permutation_app_head. rewrite map_flat_map. reflexivity. Qed.

Lemma sides_own : Permutation (filter is_side (concat (map (word (d_conns d)) (pieces d))))
  (flat_map (fun l => [Edge l false; Edge l true]) (live (pieces d)) ++ map cv (flat_map (fun l => left_conns (d_conns d l) ++ right_conns (d_conns d l)) (live (pieces d)))).
Proof.
  destruct (dk_inv _ _ Ok0) as (D & C). rewrite words_own; [apply own_split|].
  intros e He. destruct (ci_proper _ _ _ _ C e He) as ((_ & P & _) & _). exact P.
Qed.

Lemma sides_nodup : NoDup (filter is_side (concat (map (word (d_conns d)) (pieces d)))).
Proof.
  eapply Permutation_NoDup; [symmetry; apply sides_own|]. apply NoDup_app_intro.
  - destruct (dk_inv _ _ Ok0) as (D & C). destruct (ci_parts _ _ _ _ C) as (N & _). apply NoDup_flat_map; [exact N| |].
    + intros l _. constructor; [intros [Q|[]]; discriminate|]. constructor; [intros []|constructor].
    + intros l l' y _ _ [<-|[<-|[]]] [Q|[Q|[]]]; injection Q; congruence.
  - pose proof live_conns_nodup as N. apply NoDup_map_of in N as N'. apply NoDup_map_inj; [|exact N'].
    intros [s t] [s' t'] _ _ Q. injection Q as -> ->. reflexivity.
  - intros y I J. apply in_flat_map in I. destruct I as (l & _ & I). apply in_map_iff in J. destruct J as (k & <- & _). destruct I as [I|[I|[]]]; discriminate.
Qed.

Lemma sides_glued x : In x (filter is_side (concat (map (word (d_conns d)) (pieces d)))) -> In (glued x) (filter is_side (concat (map (word (d_conns d)) (pieces d)))).
Proof.
  assert (Q : forall y, In y (filter is_side (concat (map (word (d_conns d)) (pieces d)))) <->
    In y (flat_map (fun l => [Edge l false; Edge l true]) (live (pieces d))) \/ exists k, y = cv k /\ In k (lefts d ++ rights d)).
  { intro y. split.
    - intro I. apply (Permutation_in _ sides_own) in I. apply in_app_iff in I. destruct I as [I|I]; [left; exact I|right].
      apply in_map_iff in I. destruct I as (k & <- & I). exists k. split; [reflexivity|]. apply live_conns, I.
    - intro I. apply (Permutation_in _ (Permutation_sym sides_own)). apply in_app_iff. destruct I as [I|(k & -> & I)]; [left; exact I|right].
      apply in_map, live_conns, I. }
  rewrite !Q. intros [I|(k & -> & I)].
  - left. apply in_flat_map in I. destruct I as (l & Hl & I). apply in_flat_map. exists l. split; [exact Hl|].
    destruct I as [<-|[<-|[]]]; cbn; auto.
  - right. exists (conn_neg k). split; [reflexivity|]. pose proof (conns_reverse _ _ Ok0) as P. apply in_app_iff in I. apply in_app_iff. destruct I as [I|I].
    + right. apply (Permutation_in _ P) in I. apply in_map_iff in I. destruct I as (k' & <- & I). replace (conn_neg (conn_neg k')) with k' by (destruct k'; reflexivity). exact I.
    + left. apply (Permutation_in _ (Permutation_sym P)). apply in_map, I.
Qed.

End Bnd.
