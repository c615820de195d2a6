(** What the moves of a decomposition do to the pieces and their connections, and the
    invariant that every sequence of moves preserves. *)
From Coq Require Import Reals List Permutation Lia.
From Verif Require Import Base Spec Dyn Saddle Path Direct Decomp DecompSim.
Import ListNotations.
Open Scope nat_scope.

(** * Counting connections *)

Definition conn_dec (a b : connection) : {a = b} + {a <> b}.
Proof. repeat decide equality. Defined.

Definition occ (g : conns -> list connection) (keys : list label) (f : label -> conns) (x : connection) : nat :=
  count_occ conn_dec (flat_map (fun l => g (f l)) keys) x.

Lemma upd_same f l c : upd f l c l = c.
Proof. unfold upd. rewrite Nat.eqb_refl. reflexivity. Qed.
Lemma upd_other f l c x : x <> l -> upd f l c x = f x.
Proof. intro H. unfold upd. destruct (Nat.eqb_spec x l); [contradiction|reflexivity]. Qed.

Lemma flat_map_same {A B} (g h : A -> list B) l : (forall x, In x l -> g x = h x) -> flat_map g l = flat_map h l.
Proof.
  induction l as [|x l IH]; intro H; [reflexivity|]. simpl. rewrite H by (left; reflexivity).
  rewrite IH; [reflexivity|]. intros y Hy. apply H. right. exact Hy.
Qed.

Lemma occ_ext g keys f f' x : (forall l, In l keys -> f' l = f l) -> occ g keys f' x = occ g keys f x.
Proof. intro H. unfold occ. rewrite (flat_map_same (fun l => g (f' l)) (fun l => g (f l))); [reflexivity|]. intros l Hl. rewrite H; auto. Qed.

Lemma occ_upd g keys f l c x : NoDup keys -> In l keys ->
  occ g keys (upd f l c) x + count_occ conn_dec (g (f l)) x = occ g keys f x + count_occ conn_dec (g c) x.
Proof.
  intros ND Hl. destruct (in_split _ _ Hl) as (K1 & K2 & ->).
  pose proof (NoDup_remove_2 _ _ _ ND) as Hn.
  unfold occ. rewrite !flat_map_app, !count_occ_app. cbn [flat_map]. rewrite !count_occ_app, upd_same.
  rewrite (flat_map_same (fun l0 => g (upd f l c l0)) (fun l0 => g (f l0)) K1).
  2:{ intros y Hy. rewrite upd_other; [reflexivity|]. intros ->. apply Hn, in_or_app. left. exact Hy. }
  rewrite (flat_map_same (fun l0 => g (upd f l c l0)) (fun l0 => g (f l0)) K2).
  2:{ intros y Hy. rewrite upd_other; [reflexivity|]. intros ->. apply Hn, in_or_app. right. exact Hy. }
  lia.
Qed.

Definition left_conns (c : conns) := topLeft c ++ bottomLeft c.
Definition right_conns (c : conns) := topRight c ++ bottomRight c.

(** * Pieces *)

(** The same exchange up to lengths of labels that do not occur. *)
Definition agree (e e' : exch) : Prop :=
  e_top e = e_top e' /\ e_bot e = e_bot e' /\
  forall a, In a (e_top e) \/ In a (e_bot e) -> e_len e a = e_len e' a.

Lemma agree_sym e e' : agree e e' -> agree e' e.
Proof.
  intros (Ht & Hb & Hl). repeat split; try congruence. intros a Ha. symmetry. apply Hl. rewrite Ht, Hb. exact Ha.
Qed.

Lemma agree_refl e : agree e e.
Proof. repeat split; auto. Qed.

Lemma agree_proper e e' : agree e e' -> proper e -> proper e'.
Proof.
  intros (Ht & Hb & Hl) (H1 & H2 & H3). repeat split; try (rewrite <- ?Ht, <- ?Hb; assumption).
  intros a Ha. rewrite <- Ht in Ha. rewrite <- Hl by (left; exact Ha). apply H3. exact Ha.
Qed.

Lemma agree_right_end len len' l b x : (forall a, In a l -> len a = len' a) -> right_end len l b x -> right_end len' l b x.
Proof.
  intros H (X & Y & -> & ->). exists X, Y. split; [reflexivity|].
  rewrite (total_ext len len' X) by (intros c Hc; apply H, in_or_app; left; exact Hc).
  rewrite H by (apply in_or_app; right; left; reflexivity). reflexivity.
Qed.

Lemma agree_singular e e' z : agree e e' -> singular e z -> singular e' z.
Proof.
  intros (Ht & Hb & Hl) (t & H). exists t. rewrite <- Ht. eapply agree_right_end; [|exact H]. auto.
Qed.

Lemma agree_maps e e' y z : agree e e' -> maps e y z -> maps e' y z.
Proof.
  intros (Ht & Hb & Hl). rewrite !maps_iff. intros (a & X & Y & X' & Y' & H1 & H2 & H3 & H4).
  exists a, X, Y, X', Y'. rewrite <- Ht, <- Hb. split; [exact H1|]. split; [exact H2|].
  rewrite <- (total_ext (e_len e) (e_len e') X).
  2:{ intros c Hc. apply Hl. left. rewrite H1. apply in_or_app. left. exact Hc. }
  rewrite <- (total_ext (e_len e) (e_len e') X').
  2:{ intros c Hc. apply Hl. right. rewrite H2. apply in_or_app. left. exact Hc. }
  rewrite <- Hl by (left; rewrite H1; apply in_or_app; right; left; reflexivity).
  split; assumption.
Qed.

Lemma agree_total e e' : agree e e' -> total (e_len e) (e_top e) = total (e_len e') (e_top e') /\
  total (e_len e) (e_bot e) = total (e_len e') (e_bot e').
Proof. intros (Ht & Hb & Hl). rewrite <- Ht, <- Hb. split; apply total_ext; auto. Qed.

Lemma agree_direct e e' b t : agree e e' -> direct_connection e b t -> direct_connection e' b t.
Proof.
  intros A (x & y & n & Hx & Hy & Hx' & Hy' & H). exists x, y, n.
  destruct (agree_total _ _ A) as [T1 T2]. rewrite <- T1, <- T2.
  pose proof A as (Ht & Hb & Hl).
  split; [rewrite <- Hb; eapply agree_right_end; [|exact Hx]; auto|].
  split; [rewrite <- Ht; eapply agree_right_end; [|exact Hy]; auto|].
  split; [exact Hx'|]. split; [exact Hy'|].
  clear Hx Hy Hx' Hy'. revert x H. induction n as [|n IH]; intros x H; [exact H|].
  destruct H as (z & (Hs & Hm) & H). exists z. split; [|apply IH; exact H]. split.
  - intro S. apply Hs. eapply agree_singular; [apply agree_sym; exact A|exact S].
  - eapply agree_maps; eassumption.
Qed.

Lemma same_agree e e' : same_exch e e' -> agree e e'.
Proof. intros (H1 & H2 & H3). repeat split; auto. Qed.

(** ** Induction *)

Lemma last_app_cons {A} (X : list A) a Y d : last (X ++ a :: Y) d = last (a :: Y) d.
Proof. induction X as [|x X IH]; [reflexivity|]. simpl app. rewrite <- IH. destruct X; reflexivity. Qed.

Lemma last_snoc {A} (X : list A) a d : last (X ++ [a]) d = a.
Proof. rewrite last_app_cons. reflexivity. Qed.

Lemma last_cons {A} (x : A) xs d : last (x :: xs) d = last xs x.
Proof. revert x d. induction xs as [|y xs IH]; intros x d; [reflexivity|]. change (last (y :: xs) d = last (y :: xs) x). rewrite !IH. reflexivity. Qed.

Lemma last_in {A} (l : list A) d : l <> [] -> In (last l d) l.
Proof.
  intro H. destruct (exists_last H) as (X & a & ->). rewrite last_snoc. apply in_or_app. right. left. reflexivity.
Qed.

Lemma step_lasts e e' d : rauzy_step e e' -> last (e_top e') d = last (e_top e) d /\ last (e_bot e') d = last (e_bot e) d.
Proof.
  intros (a & b & X & Y1 & Y2 & H1 & H2 & H3 & H4 & H5 & _). rewrite H4. split; [reflexivity|].
  rewrite H5, H2. change (b :: Y1 ++ a :: Y2) with ((b :: Y1) ++ a :: Y2).
  rewrite (last_app_cons (b :: Y1)). change (b :: a :: Y2) with ([b] ++ a :: Y2).
  rewrite app_assoc, last_app_cons. reflexivity.
Qed.

Record moved (e : exch) (f : label -> conns) (e' : exch) (f' : label -> conns) : Prop := {
  mv_path : rauzy_path e e';
  mv_last_top : forall d, last (e_top e') d = last (e_top e) d;
  mv_last_bot : forall d, last (e_bot e') d = last (e_bot e) d;
  mv_topR : forall l, topRight (f' l) = topRight (f l);
  mv_botR : forall l, bottomRight (f' l) = bottomRight (f l);
  mv_out : forall l, ~ In l (e_top e) -> f' l = f l;
  mv_left : forall keys x, NoDup keys -> incl (e_top e) keys -> occ left_conns keys f' x = occ left_conns keys f x;
}.

Lemma conn_move_right top a b f l : a <> b ->
  topRight (conn_move top a b f l) = topRight (f l) /\ bottomRight (conn_move top a b f l) = bottomRight (f l).
Proof.
  intro N. unfold conn_move, upd. destruct (Nat.eqb_spec l a) as [->|]; [split; reflexivity|].
  destruct (Nat.eqb_spec l b) as [->|]; [destruct top; split; reflexivity|split; reflexivity].
Qed.

Lemma conn_move_out top a b f l : l <> a -> l <> b -> conn_move top a b f l = f l.
Proof. intros H1 H2. unfold conn_move. rewrite !upd_other by assumption. reflexivity. Qed.

Lemma conn_move_left top a b f keys x : a <> b -> NoDup keys -> In a keys -> In b keys ->
  occ left_conns keys (conn_move top a b f) x = occ left_conns keys f x.
Proof.
  intros N ND Ha Hb. unfold conn_move.
  match goal with |- occ _ _ (upd (upd f b ?B) a ?A) _ = _ =>
    pose proof (occ_upd left_conns keys (upd f b B) a A x ND Ha) as E1;
    pose proof (occ_upd left_conns keys f b B x ND Hb) as E2 end.
  rewrite upd_other in E1 by exact N.
  destruct top; unfold left_conns in *; cbn [topLeft bottomLeft] in *; rewrite ?count_occ_app in *; simpl in E1; lia.
Qed.

Lemma moved_trans e f e1 f1 e' f' : proper e -> moved e f e1 f1 -> moved e1 f1 e' f' -> moved e f e' f'.
Proof.
  intros P H1 H2. pose proof (path_labels _ _ P (mv_path _ _ _ _ H1)) as Pm. constructor.
  - eapply rauzy_path_trans; [apply H1|apply H2].
  - intro d. rewrite (mv_last_top _ _ _ _ H2). apply H1.
  - intro d. rewrite (mv_last_bot _ _ _ _ H2). apply H1.
  - intro l. rewrite (mv_topR _ _ _ _ H2). apply H1.
  - intro l. rewrite (mv_botR _ _ _ _ H2). apply H1.
  - intros l Hl. rewrite (mv_out _ _ _ _ H2); [apply H1; exact Hl|]. intro C. apply Hl.
    apply (Permutation_in _ (Permutation_sym Pm)). exact C.
  - intros keys x ND I. rewrite (mv_left _ _ _ _ H2); [apply H1; assumption|exact ND|].
    intros l Hl. apply I. apply (Permutation_in _ (Permutation_sym Pm)). exact Hl.
Qed.

Lemma hd_error_In {A} (l : list A) a : hd_error l = Some a -> In a l.
Proof. destruct l; [discriminate|]. intro H. inversion H. left. reflexivity. Qed.

Lemma moved_step top e f e1 f1 a b : proper e -> a <> b -> In a (e_top e) -> In b (e_top e) ->
  rauzy_path e e1 -> (forall d, last (e_top e1) d = last (e_top e) d) ->
  (forall d, last (e_bot e1) d = last (e_bot e) d) ->
  (forall l, f1 l = conn_move top a b f l) -> moved e f e1 f1.
Proof.
  intros P N Ha Hb Hp H1 H2 Hf. constructor; auto.
  - intro l. rewrite Hf. apply conn_move_right. exact N.
  - intro l. rewrite Hf. apply conn_move_right. exact N.
  - intros l Hl. rewrite Hf. apply conn_move_out; intros ->; contradiction.
  - intros keys x ND I. rewrite (occ_ext left_conns keys (conn_move top a b f) f1) by auto.
    apply conn_move_left; auto.
Qed.

Lemma step_head_neq e e1 a b : proper e -> rauzy_step e e1 -> hd_error (e_top e) = Some a ->
  hd_error (e_bot e) = Some b -> a <> b.
Proof.
  intros P S Ha Hb. destruct (step_heads _ _ P S) as (a' & b' & H1 & H2 & _ & N). congruence.
Qed.

Lemma cpath_moved e f e' f' : proper e -> cpath e f e' f' -> moved e f e' f'.
Proof.
  intros P H. induction H as [e e' f f' S Hf|e f e1 f1 e' f' a b S Ha Hb Hf H IH|e f e1 f1 e' f' a b S Ha Hb Hf H IH].
  - pose proof S as (S1 & S2 & S3). constructor; auto.
    + apply path_refl. exact S.
    + intro d. rewrite S1. reflexivity.
    + intro d. rewrite S2. reflexivity.
    + intro l. rewrite Hf. reflexivity.
    + intro l. rewrite Hf. reflexivity.
    + intros keys x ND I. apply occ_ext. auto.
  - pose proof (rauzy_step_proper _ _ P S) as P1.
    eapply moved_trans; [exact P| |apply IH; exact P1].
    pose proof (step_lasts e e1) as L.
    apply (moved_step true e f e1 f1 a b); auto.
    + exact (step_head_neq _ _ _ _ P S Ha Hb).
    + apply hd_error_In. exact Ha.
    + destruct P as (_ & Pp & _). apply (Permutation_in _ (Permutation_sym Pp)). apply hd_error_In. exact Hb.
    + eapply path_top; [exact S|]. apply path_refl. apply same_exch_refl.
    + intro d. apply (L d S).
    + intro d. apply (L d S).
  - destruct (bot_step_facts _ _ P S) as [_ P1].
    eapply moved_trans; [exact P| |apply IH; exact P1].
    pose proof (step_lasts (flip e) (flip e1)) as L.
    apply (moved_step false e f e1 f1 a b); auto.
    + eapply (step_head_neq (flip e)); [apply flip_proper; exact P|exact S|exact Ha|exact Hb].
    + destruct P as (_ & Pp & _). apply (Permutation_in _ (Permutation_sym Pp)). apply hd_error_In. exact Ha.
    + apply hd_error_In. exact Hb.
    + eapply path_bot; [exact S|]. apply path_refl. apply same_exch_refl.
    + intro d. apply (L d S).
    + intro d. apply (L d S).
Qed.

(** ** The moves *)

(** Registration of a separating connection (component.cc 330-342) between the left part,
    whose last bottom label is [b], and the right part, whose first bottom label is [b']. *)
Definition register (b b' : label) (conn : connection) (f : label -> conns) : label -> conns :=
  let cb := f b in
  let f := upd f b (mkconns (topLeft cb) (topRight cb) (bottomLeft cb) (bottomRight cb ++ [conn])) in
  let cb' := f b' in
  upd f b' (mkconns (topLeft cb') (topRight cb') (bottomLeft cb' ++ [conn_neg conn]) (bottomRight cb')).

Inductive astep : list exch -> (label -> conns) -> list exch -> (label -> conns) -> Prop :=
| a_agree E E' f f' : Forall2 agree E E' -> (forall l, f' l = f l) -> astep E f E' f'
| a_path E1 e E2 f e' f' : cpath e f e' f' -> astep (E1 ++ e :: E2) f (E1 ++ e' :: E2) f'
| a_split E1 e E2 f k b t b' src tgt f' :
    invariant_prefix e k ->
    hd_error (rev (firstn k (e_bot e))) = Some b -> hd_error (rev (firstn k (e_top e))) = Some t ->
    hd_error (skipn k (e_bot e)) = Some b' ->
    skip_bottom b (bottomRight (f b)) = Ok src -> skip_top t (rev (topRight (f t))) = Ok tgt ->
    (forall l, f' l = register b b' (mkconn src tgt) f l) ->
    astep (E1 ++ e :: E2) f (E1 ++ left_of e k :: E2 ++ [right_of e k]) f'
| a_merge E1 e E2 f a b first e' src tgt f' :
    merge_step e e' -> hd_error (e_top e) = Some a -> hd_error (e_bot e) = Some b -> 
    hd_error (e_top e') = Some first ->
    skip_bottom b (bottomRight (f b)) = Ok src -> skip_top a (rev (topRight (f a))) = Ok tgt ->
    (forall l, f' l = merge_conns b a first (mkconn src tgt) f l) ->
    astep (E1 ++ e :: E2) f (E1 ++ e' :: E2) f'.

Inductive asteps : list exch -> (label -> conns) -> list exch -> (label -> conns) -> Prop :=
| as_refl E f : asteps E f E f
| as_step E f E1 f1 E' f' : astep E f E1 f1 -> asteps E1 f1 E' f' -> asteps E f E' f'.

Lemma asteps_trans E f E1 f1 E' f' : asteps E f E1 f1 -> asteps E1 f1 E' f' -> asteps E f E' f'.
Proof. induction 1; intro H'; [exact H'|]. eapply as_step; eauto. Qed.

Lemma asteps_one E f E' f' : astep E f E' f' -> asteps E f E' f'.
Proof. intro H. eapply as_step; [exact H|apply as_refl]. Qed.

(** * The invariant *)

(** A chain of connections through the right ends of [l], then of the labels [xs]. *)
Fixpoint links (l : label) (xs : list label) : list connection :=
  match xs with
  | [] => []
  | x :: xs' => mkconn (mksep l PARALLEL) (mksep x ANTIPARALLEL) :: links x xs'
  end.

Lemma links_app l xs ys : links l (xs ++ ys) = links l xs ++ links (last xs l) ys.
Proof.
  revert l. induction xs as [|x xs IH]; intro l; [reflexivity|]. rewrite last_cons. simpl app. cbn [links]. rewrite IH. reflexivity.
Qed.

Lemma skip_links l xs : skip_bottom l (links l xs) = Ok (mksep (last xs l) PARALLEL).
Proof.
  revert l. induction xs as [|x xs IH]; intro l; [reflexivity|]. rewrite last_cons.
  cbn [links skip_bottom]. unfold sep_eqb. cbn [cn_source cn_target sp_label sp_orient orient_eqb]. rewrite Nat.eqb_refl. cbn [andb assert_].
  apply IH.
Qed.

(** The last label of a row; rows are never empty. *)
Definition lst (l : list label) : label := last l 0.

(** What comes behind the chain of [l]: if [l] is the last label on the bottom, the
    connection to the last label on top, except in the piece with the right end of the
    whole exchange, whose last top label is [z]. *)
Definition tail_of (z : label) (e : exch) (l : label) : list label :=
  if Nat.eqb l (lst (e_bot e)) then if Nat.eqb (lst (e_top e)) z then [] else [lst (e_top e)] else [].

Definition live (E : list exch) : list label := flat_map e_top E.

Record conn_inv (e0 : exch) (E : list exch) (f : label -> conns) (D : label -> list label) : Prop := {
  ci_start : proper e0;
  ci_proper : forall e, In e E -> proper e /\ e_top e <> [];
  ci_part : Permutation (e_top e0) (flat_map (fun l => l :: D l) (live E));
  ci_dead : forall l x, In l (live E) -> In x (D l) -> f x = no_conns;
  ci_topR : forall l, topRight (f l) = [];
  ci_chain : forall e l, In e E -> In l (e_top e) -> bottomRight (f l) = links l (D l ++ tail_of (lst (e_top e0)) e l);
  ci_lefts : forall x, occ left_conns (e_top e0) f x = occ right_conns (e_top e0) f (conn_neg x);
  ci_open : exists e, In e E /\ lst (e_top e) = lst (e_top e0) /\
    last (D (lst (e_bot e))) (lst (e_bot e)) = lst (e_bot e0);
  ci_lift : forall e b t, In e E -> direct_connection e b t -> direct_connection e0 (last (D b) b) t;
  ci_real : forall x, In x (flat_map (fun l => right_conns (f l)) (e_top e0)) ->
    exists b t, x = right_conn (b, t) /\ direct_connection e0 b t;
}.

Lemma conn_inv_init e0 : proper e0 -> e_top e0 <> [] -> conn_inv e0 [e0] (fun _ => no_conns) (fun _ => []).
Proof.
  intros P N. constructor; auto.
  - intros e [<-|[]]. auto.
  - unfold live. simpl. rewrite app_nil_r. clear. induction (e_top e0) as [|a l IH]; [constructor|]. simpl. constructor. exact IH.
  - intros e l [<-|[]] Hl. simpl. unfold tail_of. rewrite Nat.eqb_refl. destruct (Nat.eqb l _); reflexivity.
  - intro x. unfold occ. simpl. induction (e_top e0) as [|a l IH]; [reflexivity|]. simpl.
    destruct l; [reflexivity|]. apply IH. discriminate.
  - exists e0. split; [left; reflexivity|]. split; reflexivity.
  - intros e b t [<-|[]] H. exact H.
  - intros x Hx. apply in_flat_map in Hx. destruct Hx as (l & _ & []).
Qed.

(** ** Facts about the labels of the pieces *)

Lemma in_live E l : In l (live E) <-> exists e, In e E /\ In l (e_top e).
Proof. apply in_flat_map. Qed.

Lemma live_app E1 E2 : live (E1 ++ E2) = live E1 ++ live E2.
Proof. apply flat_map_app. Qed.

Lemma NoDup_app_l {A} (l m : list A) : NoDup (l ++ m) -> NoDup l /\ NoDup m /\ (forall x, In x l -> ~ In x m).
Proof.
  induction l as [|a l IH]; intro H; [repeat split; auto; constructor|].
  simpl in H. apply NoDup_cons_iff in H. destruct H as [Ha H]. destruct (IH H) as (H1 & H2 & H3).
  split; [constructor; [intro C; apply Ha, in_or_app; left; exact C|exact H1]|]. split; [exact H2|].
  intros x [<-|Hx] C; [apply Ha, in_or_app; right; exact C|exact (H3 x Hx C)].
Qed.

Lemma NoDup_parts {A} (g : A -> list A) L : NoDup (flat_map (fun l => l :: g l) L) ->
  NoDup L /\ (forall l x, In l L -> In x (g l) -> ~ In x L) /\
  (forall l l' x, In l L -> In l' L -> In x (l :: g l) -> In x (l' :: g l') -> l = l').
Proof.
  induction L as [|a L IH]; intro H; [repeat split; [constructor|intros ? ? []|intros ? ? ? []]|].
  change (NoDup ((a :: g a) ++ flat_map (fun l => l :: g l) L)) in H.
  destruct (NoDup_app_l _ _ H) as (H1 & H2 & H3). destruct (IH H2) as (I1 & I2 & I3).
  assert (In_f : forall l x, In l L -> In x (l :: g l) -> In x (flat_map (fun l => l :: g l) L)).
  { intros l x Hl Hx. apply in_flat_map. exists l. auto. }
  split; [constructor; [|exact I1]|split].
  - intro C. apply (H3 a (or_introl eq_refl)). apply (In_f a a C). left. reflexivity.
  - intros l x [<-|Hl] Hx [C|C].
    + subst x. apply NoDup_cons_iff in H1. destruct H1. contradiction.
    + apply (H3 x (or_intror Hx)). apply (In_f x x C). left. reflexivity.
    + subst x. apply (H3 a (or_introl eq_refl)). apply (In_f l a Hl). right. exact Hx.
    + exact (I2 l x Hl Hx C).
  - intros l l' x [<-|Hl] [<-|Hl'] Hx Hx'; [reflexivity| | |exact (I3 l l' x Hl Hl' Hx Hx')].
    + exfalso. exact (H3 x Hx (In_f l' x Hl' Hx')).
    + exfalso. exact (H3 x Hx' (In_f l x Hl Hx)).
Qed.

Lemma ci_parts e0 E f D : conn_inv e0 E f D ->
  NoDup (live E) /\ (forall l x, In l (live E) -> In x (D l) -> ~ In x (live E)) /\
  (forall l l' x, In l (live E) -> In l' (live E) -> In x (l :: D l) -> In x (l' :: D l') -> l = l').
Proof.
  intro H. apply NoDup_parts. eapply Permutation_NoDup; [apply (ci_part _ _ _ _ H)|]. apply (ci_start _ _ _ _ H).
Qed.

Lemma ci_keys e0 E f D l : conn_inv e0 E f D -> In l (live E) -> In l (e_top e0).
Proof.
  intros H Hl. apply (Permutation_in _ (Permutation_sym (ci_part _ _ _ _ H))).
  apply in_flat_map. exists l. split; [exact Hl|]. left. reflexivity.
Qed.

Lemma pieces_disjoint E1 e E2 e' l : NoDup (live (E1 ++ e :: E2)) -> In e' (E1 ++ E2) ->
  In l (e_top e) -> ~ In l (e_top e').
Proof.
  intros ND He' Hl C. rewrite live_app in ND. destruct (NoDup_app_l _ _ ND) as (_ & N2 & N3).
  change (live (e :: E2)) with (e_top e ++ live E2) in *.
  apply in_app_or in He'. destruct He' as [He'|He'].
  - apply (N3 l); [apply in_live; exists e'; auto|]. apply in_or_app. left. exact Hl.
  - destruct (NoDup_app_l _ _ N2) as (_ & _ & N). apply (N l Hl). apply in_live. exists e'. auto.
Qed.

Lemma in_middle {A} (E1 : list A) e E2 x : In x (E1 ++ e :: E2) <-> x = e \/ In x (E1 ++ E2).
Proof.
  rewrite !in_app_iff. simpl. split; intros [H|H]; auto.
  - destruct H as [H|H]; auto.
  - destruct H; auto.
Qed.

Lemma bot_in e l : proper e -> In l (e_bot e) <-> In l (e_top e).
Proof.
  intros (_ & P & _). split; apply Permutation_in; [apply Permutation_sym|]; exact P.
Qed.

Lemma bot_nonempty e : proper e -> e_top e <> [] -> e_bot e <> [].
Proof.
  intros (_ & P & _) N C. rewrite C in P. apply N. apply Permutation_nil. apply Permutation_sym. exact P.
Qed.

Lemma lst_in l : l <> [] -> In (lst l) l.
Proof. apply last_in. Qed.

Lemma occ_in g keys f x : In x (flat_map (fun l => g (f l)) keys) <-> occ g keys f x > 0.
Proof. unfold occ. apply count_occ_In. Qed.

Lemma conn_neg_neg c : conn_neg (conn_neg c) = c.
Proof. destruct c. reflexivity. Qed.

Lemma count_neg c x : count_occ conn_dec [conn_neg c] x = count_occ conn_dec [c] (conn_neg x).
Proof.
  cbn [count_occ]. destruct (conn_dec (conn_neg c) x) as [E1|N1], (conn_dec c (conn_neg x)) as [E2|N2]; try reflexivity; exfalso.
  - apply N2. rewrite <- E1. symmetry. apply conn_neg_neg.
  - apply N1. rewrite E2. apply conn_neg_neg.
Qed.

(** ** Induction preserves the invariant *)

Lemma inv_path e0 E1 e E2 f e' f' D : conn_inv e0 (E1 ++ e :: E2) f D -> cpath e f e' f' ->
  conn_inv e0 (E1 ++ e' :: E2) f' D.
Proof.
  intros H C. assert (He : In e (E1 ++ e :: E2)) by (apply in_middle; auto).
  destruct (ci_proper _ _ _ _ H e He) as [P Ne]. pose proof (cpath_moved _ _ _ _ P C) as M.
  pose proof (mv_path _ _ _ _ M) as Pa. destruct (path_induced _ _ P Pa) as [_ P'].
  pose proof (path_labels _ _ P Pa) as Pl.
  destruct (ci_parts _ _ _ _ H) as (ND & ND2 & ND3).
  assert (Live : Permutation (live (E1 ++ e :: E2)) (live (E1 ++ e' :: E2))).
  { rewrite !live_app. apply Permutation_app_head. change (Permutation (e_top e ++ live E2) (e_top e' ++ live E2)).
    apply Permutation_app_tail. exact Pl. }
  assert (Lv : forall l, In l (live (E1 ++ e' :: E2)) -> In l (live (E1 ++ e :: E2))).
  { intro l. apply Permutation_in. apply Permutation_sym. exact Live. }
  assert (Hk : incl (e_top e) (e_top e0)).
  { intros l Hl. eapply ci_keys; [exact H|]. apply in_live. exists e. auto. }
  assert (RR : forall l, right_conns (f' l) = right_conns (f l)).
  { intro l. unfold right_conns. rewrite (mv_topR _ _ _ _ M), (mv_botR _ _ _ _ M). reflexivity. }
  pose proof (ci_start _ _ _ _ H) as P0.
  constructor.
  - exact P0.
  - intros x Hx. apply in_middle in Hx. destruct Hx as [->|Hx].
    + split; [exact P'|]. intro C'. rewrite C' in Pl. apply Ne. apply Permutation_nil. apply Permutation_sym. exact Pl.
    + apply (ci_proper _ _ _ _ H). apply in_middle. auto.
  - rewrite (ci_part _ _ _ _ H). apply Permutation_flat_map. exact Live.
  - intros l x Hl Hx. rewrite (mv_out _ _ _ _ M).
    + apply (ci_dead _ _ _ _ H l); auto.
    + intro C'. apply (ND2 l x (Lv l Hl) Hx). apply in_live. exists e. auto.
  - intro l. rewrite (mv_topR _ _ _ _ M). apply (ci_topR _ _ _ _ H).
  - intros x l Hx Hl. rewrite (mv_botR _ _ _ _ M). apply in_middle in Hx. destruct Hx as [->|Hx].
    + rewrite (ci_chain _ _ _ _ H e l He).
      * unfold tail_of, lst. rewrite (mv_last_bot _ _ _ _ M), (mv_last_top _ _ _ _ M). reflexivity.
      * apply (Permutation_in _ (Permutation_sym Pl)). exact Hl.
    + apply (ci_chain _ _ _ _ H); [apply in_middle; auto|exact Hl].
  - intro x. rewrite (mv_left _ _ _ _ M); [|apply P0|exact Hk]. rewrite (ci_lefts _ _ _ _ H).
    unfold occ. rewrite (flat_map_same (fun l => right_conns (f' l)) (fun l => right_conns (f l))); auto.
  - destruct (ci_open _ _ _ _ H) as (x & Hx & L1 & L2). apply in_middle in Hx. destruct Hx as [->|Hx].
    + exists e'. split; [apply in_middle; auto|].
      unfold lst in *. rewrite (mv_last_bot _ _ _ _ M), (mv_last_top _ _ _ _ M). auto.
    + exists x. split; [apply in_middle; auto|]. auto.
  - intros x b t Hx Hd. apply in_middle in Hx. destruct Hx as [->|Hx].
    + apply (ci_lift _ _ _ _ H e); [exact He|]. eapply path_direct; eassumption.
    + apply (ci_lift _ _ _ _ H x); [apply in_middle; auto|exact Hd].
  - intros x Hx. apply (ci_real _ _ _ _ H).
    rewrite (flat_map_same (fun l => right_conns (f l)) (fun l => right_conns (f' l))); auto.
Qed.

Lemma Forall2_in_r {A B} (R : A -> B -> Prop) l l' y : Forall2 R l l' -> In y l' -> exists x, In x l /\ R x y.
Proof.
  induction 1 as [|a b l l' Hab H IH]; intros []; subst.
  - exists a. split; [left; reflexivity|exact Hab].
  - destruct (IH H0) as (x & Hx & Hr). exists x. split; [right; exact Hx|exact Hr].
Qed.

Lemma Forall2_in_l {A B} (R : A -> B -> Prop) l l' x : Forall2 R l l' -> In x l -> exists y, In y l' /\ R x y.
Proof.
  induction 1 as [|a b l l' Hab H IH]; intros []; subst.
  - exists b. split; [left; reflexivity|exact Hab].
  - destruct (IH H0) as (y & Hy & Hr). exists y. split; [right; exact Hy|exact Hr].
Qed.

Lemma agree_live E E' : Forall2 agree E E' -> live E' = live E.
Proof.
  induction 1 as [|a b l l' (Hab & _) H IH]; [reflexivity|].
  change (e_top b ++ live l' = e_top a ++ live l). rewrite IH, Hab. reflexivity.
Qed.

Lemma inv_agree e0 E E' f f' D : conn_inv e0 E f D -> Forall2 agree E E' -> (forall l, f' l = f l) -> conn_inv e0 E' f' D.
Proof.
  intros H A Hf. pose proof (agree_live _ _ A) as Lv.
  assert (OE : forall g x, occ g (e_top e0) f' x = occ g (e_top e0) f x) by (intros; apply occ_ext; auto).
  constructor.
  - apply (ci_start _ _ _ _ H).
  - intros x Hx. destruct (Forall2_in_r _ _ _ _ A Hx) as (y & Hy & R).
    destruct (ci_proper _ _ _ _ H y Hy) as [P N]. split; [eapply agree_proper; eassumption|].
    destruct R as (<- & _). exact N.
  - rewrite Lv. apply (ci_part _ _ _ _ H).
  - intros l x. rewrite Lv, Hf. apply (ci_dead _ _ _ _ H).
  - intro l. rewrite Hf. apply (ci_topR _ _ _ _ H).
  - intros x l Hx Hl. destruct (Forall2_in_r _ _ _ _ A Hx) as (y & Hy & R & Rb & _).
    rewrite Hf. rewrite <- R in Hl. rewrite (ci_chain _ _ _ _ H y l Hy Hl). unfold tail_of. rewrite R, Rb. reflexivity.
  - intro x. rewrite !OE. apply (ci_lefts _ _ _ _ H).
  - destruct (ci_open _ _ _ _ H) as (x & Hx & L1 & L2). destruct (Forall2_in_l _ _ _ _ A Hx) as (y & Hy & R & Rb & _).
    exists y. rewrite <- R, <- Rb. auto.
  - intros x b t Hx Hd. destruct (Forall2_in_r _ _ _ _ A Hx) as (y & Hy & R).
    apply (ci_lift _ _ _ _ H y); [exact Hy|]. eapply agree_direct; [apply agree_sym; exact R|exact Hd].
  - intros x Hx. apply (ci_real _ _ _ _ H). apply occ_in. rewrite <- OE. apply occ_in. exact Hx.
Qed.

(** ** Splitting *)

Lemma hd_rev_last {A} (l : list A) a d : hd_error (rev l) = Some a -> last l d = a /\ l <> [].
Proof.
  intro H. destruct l as [|x l] using rev_ind; [discriminate|]. rewrite rev_app_distr in H. inversion H; subst.
  split; [apply last_snoc|]. intro C. destruct l; discriminate.
Qed.

Lemma last_app {A} (l m : list A) d : m <> [] -> last (l ++ m) d = last m d.
Proof. intro H. destruct m as [|x m]; [contradiction|]. apply last_app_cons. Qed.

Lemma register_right b b' c f l : b <> b' ->
  topRight (register b b' c f l) = topRight (f l) /\
  bottomRight (register b b' c f l) = bottomRight (f l) ++ (if Nat.eqb l b then [c] else []).
Proof.
  intro N. unfold register, upd. destruct (Nat.eqb_spec l b') as [->|N'].
  - destruct (Nat.eqb_spec b' b) as [->|]; [contradiction|]. rewrite app_nil_r. split; reflexivity.
  - destruct (Nat.eqb_spec l b) as [->|]; [split; reflexivity|]. rewrite app_nil_r. split; reflexivity.
Qed.

Lemma register_left b b' c f keys x : b <> b' -> NoDup keys -> In b keys -> In b' keys ->
  occ left_conns keys (register b b' c f) x = occ left_conns keys f x + count_occ conn_dec [conn_neg c] x.
Proof.
  intros N ND Hb Hb'. unfold register.
  match goal with |- occ _ _ (upd (upd f b ?B) b' ?A) _ = _ =>
    pose proof (occ_upd left_conns keys (upd f b B) b' A x ND Hb') as E1;
    pose proof (occ_upd left_conns keys f b B x ND Hb) as E2 end.
  rewrite upd_other in * by congruence.
  unfold left_conns in *. cbn [topLeft bottomLeft] in *. rewrite ?count_occ_app in *. lia.
Qed.

Lemma register_rights b b' c f keys x : b <> b' -> NoDup keys -> In b keys -> In b' keys ->
  occ right_conns keys (register b b' c f) x = occ right_conns keys f x + count_occ conn_dec [c] x.
Proof.
  intros N ND Hb Hb'. unfold register.
  match goal with |- occ _ _ (upd (upd f b ?B) b' ?A) _ = _ =>
    pose proof (occ_upd right_conns keys (upd f b B) b' A x ND Hb') as E1;
    pose proof (occ_upd right_conns keys f b B x ND Hb) as E2 end.
  rewrite upd_other in * by congruence.
  unfold right_conns in *. cbn [topRight bottomRight] in *. rewrite ?count_occ_app in *. lia.
Qed.

Section Split.
Variables (e0 : exch) (E1 : list exch) (e : exch) (E2 : list exch) (f : label -> conns) (D : label -> list label).
Variables (k : nat) (b t b' : label).
Hypothesis H : conn_inv e0 (E1 ++ e :: E2) f D.
Hypothesis Hk : invariant_prefix e k.
Hypothesis Hb : hd_error (rev (firstn k (e_bot e))) = Some b.
Hypothesis Ht : hd_error (rev (firstn k (e_top e))) = Some t.
Hypothesis Hb' : hd_error (skipn k (e_bot e)) = Some b'.

Let He : In e (E1 ++ e :: E2).
Proof. apply in_middle. auto. Qed.
Let P : proper e.
Proof. apply (ci_proper _ _ _ _ H e He). Qed.

Lemma split_rows : proper (left_of e k) /\ proper (right_of e k) /\
  firstn k (e_top e) <> [] /\ skipn k (e_top e) <> [] /\ skipn k (e_bot e) <> [] /\
  lst (firstn k (e_bot e)) = b /\ lst (firstn k (e_top e)) = t /\
  lst (skipn k (e_bot e)) = lst (e_bot e) /\ lst (skipn k (e_top e)) = lst (e_top e) /\
  b <> b' /\ b <> lst (e_bot e) /\ t <> lst (e_top e) /\ In b (firstn k (e_top e)) /\ In t (firstn k (e_top e)) /\ 
  In b' (skipn k (e_top e)) /\
  (forall l, In l (firstn k (e_top e)) -> l <> lst (e_bot e)) /\
  (forall l, In l (skipn k (e_top e)) -> l <> b).
Proof.
  pose proof P as (ND & Pm & _). pose proof (proper_bot_nodup _ P) as NB.
  destruct Hk as (Kr & Kp). pose proof (Permutation_length Pm) as Len.
  pose proof (firstn_skipn k (e_top e)) as St. pose proof (firstn_skipn k (e_bot e)) as Sb.
  destruct (cut_proper e _ _ _ _ P (eq_sym St) (eq_sym Sb) Kp) as [PL PR].
  pose proof (skipn_length k (e_top e)) as L1. pose proof (skipn_length k (e_bot e)) as L2.
  assert (N1 : skipn k (e_top e) <> []) by (intro C; rewrite C in L1; simpl in L1; lia).
  assert (N2 : skipn k (e_bot e) <> []) by (intro C; rewrite C in L2; simpl in L2; lia).
  destruct (hd_rev_last _ _ 0 Hb) as [B1 B2]. destruct (hd_rev_last _ _ 0 Ht) as [T1 T2].
  assert (LB : lst (skipn k (e_bot e)) = lst (e_bot e)) by (rewrite <- Sb at 2; unfold lst; rewrite last_app; auto).
  assert (LT : lst (skipn k (e_top e)) = lst (e_top e)) by (rewrite <- St at 2; unfold lst; rewrite last_app; auto).
  rewrite <- Sb in NB. destruct (NoDup_app_l _ _ NB) as (_ & _ & DB).
  rewrite <- St in ND. destruct (NoDup_app_l _ _ ND) as (_ & _ & DT).
  pose proof (last_in _ 0 B2) as B3. rewrite B1 in B3. pose proof (last_in _ 0 T2) as T3. rewrite T1 in T3.
  pose proof (hd_error_In _ _ Hb') as B4.
  pose proof (lst_in _ N2) as B5. rewrite LB in B5. pose proof (lst_in _ N1) as T5. rewrite LT in T5.
  assert (PS : Permutation (skipn k (e_top e)) (skipn k (e_bot e))) by apply PR.
  repeat (split; [first [exact PL|exact PR|exact T2|exact N1|exact N2|exact B1|exact T1|exact LB|exact LT|idtac]|]).
  - intros ->. exact (DB b' B3 B4).
  - intros C. rewrite C in B3. exact (DB _ B3 B5).
  - intros C. rewrite C in T3. exact (DT _ T3 T5).
  - apply (Permutation_in _ (Permutation_sym Kp)). exact B3.
  - exact T3.
  - apply (Permutation_in _ (Permutation_sym PS)). exact B4.
  - intros l Hl ->. apply (DB _ (Permutation_in _ Kp Hl) B5).
  - intros l Hl ->. apply (DB b B3). apply (Permutation_in _ PS). exact Hl.
Qed.

Lemma split_tail : bottomRight (f b) = links b (D b) /\ t <> lst (e_top e0).
Proof.
  destruct split_rows as (PL & PR & T2 & N1 & N2 & B1 & T1 & LB & LT & Nb & Bl & Tl & B3 & T3 & B4 & F1 & F2).
  assert (Hbe : In b (e_top e)) by (rewrite <- (firstn_skipn k (e_top e)); apply in_or_app; left; exact B3).
  split.
  - rewrite (ci_chain _ _ _ _ H e b He Hbe). unfold tail_of. destruct (Nat.eqb_spec b (lst (e_bot e))); [contradiction|].
    rewrite app_nil_r. reflexivity.
  - intro C. destruct (ci_open _ _ _ _ H) as (x & Hx & L1 & _). apply in_middle in Hx. destruct Hx as [->|Hx].
    + congruence.
    + destruct (ci_parts _ _ _ _ H) as (ND & _). apply (pieces_disjoint E1 e E2 x t ND Hx).
      * rewrite <- (firstn_skipn k (e_top e)). apply in_or_app. left. exact T3.
      * rewrite C, <- L1. apply lst_in. apply (ci_proper _ _ _ _ H). apply in_middle. auto.
Qed.

Lemma split_sep src tgt : skip_bottom b (bottomRight (f b)) = Ok src -> skip_top t (rev (topRight (f t))) = Ok tgt ->
  mkconn src tgt = right_conn (last (D b) b, t) /\ direct_connection e0 (last (D b) b) t.
Proof.
  destruct split_tail as [E _]. rewrite E, skip_links, (ci_topR _ _ _ _ H). simpl. intros Q1 Q2.
  injection Q1 as <-. injection Q2 as <-. split; [reflexivity|].
  apply (ci_lift _ _ _ _ H e b t He). eapply prefix_direct; eassumption.
Qed.

Lemma inv_split f' : (forall l, f' l = register b b' (right_conn (last (D b) b, t)) f l) ->
  conn_inv e0 (E1 ++ left_of e k :: E2 ++ [right_of e k]) f' D.
Proof.
  intro Hf. 
  destruct split_rows as (PL & PR & T2 & N1 & N2 & B1 & T1 & LB & LT & Nb & Bl & Tl & B3 & T3 & B4 & F1 & F2).
  destruct split_tail as [Eb Nt]. destruct (ci_parts _ _ _ _ H) as (ND & ND2 & ND3).
  pose proof (firstn_skipn k (e_top e)) as St. pose proof (firstn_skipn k (e_bot e)) as Sb.
  assert (Il : incl (firstn k (e_top e)) (e_top e)) by (rewrite <- St at 2; intros l Hl; apply in_or_app; auto).
  assert (Ir : incl (skipn k (e_top e)) (e_top e)) by (rewrite <- St at 2; intros l Hl; apply in_or_app; auto).
  set (c := right_conn (last (D b) b, t)) in *.
  pose proof (ci_start _ _ _ _ H) as P0.
  assert (Live : Permutation (live (E1 ++ e :: E2)) (live (E1 ++ left_of e k :: E2 ++ [right_of e k]))).
  { rewrite !live_app. apply Permutation_app_head. change (Permutation (e_top e ++ live E2) (firstn k (e_top e) ++ live (E2 ++ [right_of e k]))).
    rewrite live_app. rewrite <- St at 1. rewrite <- app_assoc. apply Permutation_app_head.
    change (live [right_of e k]) with (skipn k (e_top e) ++ []). rewrite app_nil_r. apply Permutation_app_comm. }
  assert (Lv : forall l, In l (live (E1 ++ left_of e k :: E2 ++ [right_of e k])) -> In l (live (E1 ++ e :: E2))).
  { intro l. apply Permutation_in. apply Permutation_sym. exact Live. }
  assert (LvE : forall l, In l (e_top e) -> In l (live (E1 ++ e :: E2))) by (intros l Hl; apply in_live; exists e; auto).
  assert (Kb : In b (e_top e0)) by (eapply ci_keys; [exact H|auto]).
  assert (Kb' : In b' (e_top e0)) by (eapply ci_keys; [exact H|auto]).
  assert (Pieces : forall x, In x (E1 ++ left_of e k :: E2 ++ [right_of e k]) ->
            x = left_of e k \/ x = right_of e k \/ In x (E1 ++ E2)).
  { intros x Hx. apply in_middle in Hx. destruct Hx as [->|Hx]; auto. rewrite app_assoc in Hx.
    apply in_app_or in Hx. destruct Hx as [Hx|[<-|[]]]; auto. }
  assert (BR : forall l, l <> b -> bottomRight (f' l) = bottomRight (f l)).
  { intros l Hl. rewrite Hf. destruct (register_right b b' c f l Nb) as [_ ->].
    destruct (Nat.eqb_spec l b); [contradiction|]. apply app_nil_r. }
  assert (OL : forall x, occ left_conns (e_top e0) f' x = occ left_conns (e_top e0) f x + count_occ conn_dec [conn_neg c] x).
  { intro x. rewrite (occ_ext left_conns _ (register b b' c f) f') by auto. apply register_left; auto. apply P0. }
  assert (OR : forall x, occ right_conns (e_top e0) f' x = occ right_conns (e_top e0) f x + count_occ conn_dec [c] x).
  { intro x. rewrite (occ_ext right_conns _ (register b b' c f) f') by auto. apply register_rights; auto. apply P0. }
  constructor.
  - exact P0.
  - intros x Hx. destruct (Pieces x Hx) as [->|[->|Hx']]; [auto|auto|]. apply (ci_proper _ _ _ _ H). apply in_middle. auto.
  - rewrite (ci_part _ _ _ _ H). apply Permutation_flat_map. exact Live.
  - intros l x Hl Hx. pose proof (ND2 l x (Lv l Hl) Hx) as Hn. rewrite Hf. unfold register. rewrite !upd_other.
    + apply (ci_dead _ _ _ _ H l); auto.
    + intros ->. apply Hn. auto.
    + intros ->. apply Hn. auto.
  - intro l. rewrite Hf. destruct (register_right b b' c f l Nb) as [-> _]. apply (ci_topR _ _ _ _ H).
  - intros x l Hx Hl. destruct (Pieces x Hx) as [->|[->|Hx']].
    + change (e_top (left_of e k)) with (firstn k (e_top e)) in Hl.
      unfold tail_of. change (e_bot (left_of e k)) with (firstn k (e_bot e)). change (e_top (left_of e k)) with (firstn k (e_top e)).
      rewrite B1, T1. destruct (Nat.eqb_spec l b) as [->|N].
      * destruct (Nat.eqb_spec t (lst (e_top e0))); [contradiction|]. rewrite Hf.
        destruct (register_right b b' c f b Nb) as [_ ->]. rewrite Nat.eqb_refl, Eb, links_app. reflexivity.
      * rewrite BR by exact N. rewrite (ci_chain _ _ _ _ H e l He (Il l Hl)). unfold tail_of.
        destruct (Nat.eqb_spec l (lst (e_bot e))); [exfalso; eapply F1; eauto|reflexivity].
    + change (e_top (right_of e k)) with (skipn k (e_top e)) in Hl.
      rewrite BR by auto. rewrite (ci_chain _ _ _ _ H e l He (Ir l Hl)). unfold tail_of.
      change (e_bot (right_of e k)) with (skipn k (e_bot e)). change (e_top (right_of e k)) with (skipn k (e_top e)).
      rewrite LB, LT. reflexivity.
    + rewrite BR.
      * apply (ci_chain _ _ _ _ H); [apply in_middle; auto|exact Hl].
      * intros ->. exact (pieces_disjoint E1 e E2 x b ND Hx' (Il _ B3) Hl).
  - intro x. rewrite OL, OR, count_neg, (ci_lefts _ _ _ _ H). reflexivity.
  - destruct (ci_open _ _ _ _ H) as (x & Hx & L1 & L2). apply in_middle in Hx. destruct Hx as [->|Hx].
    + exists (right_of e k). split; [apply in_middle; right; rewrite app_assoc; apply in_or_app; right; left; reflexivity|].
      change (e_bot (right_of e k)) with (skipn k (e_bot e)). change (e_top (right_of e k)) with (skipn k (e_top e)).
      rewrite LB, LT. auto.
    + exists x. split; [apply in_middle; right; rewrite app_assoc; apply in_or_app; auto|]. auto.
  - intros x u v Hx Hd. destruct (Pieces x Hx) as [->|[->|Hx']].
    + apply (ci_lift _ _ _ _ H e); [exact He|]. 
      exact (direct_cut_left e _ _ _ _ u v P (eq_sym St) (eq_sym Sb) (proj2 Hk) Hd).
    + apply (ci_lift _ _ _ _ H e); [exact He|]. 
      exact (direct_cut_right e _ _ _ _ u v P (eq_sym St) (eq_sym Sb) (proj2 Hk) Hd).
    + apply (ci_lift _ _ _ _ H x); [apply in_middle; auto|exact Hd].
  - intros x Hx. apply occ_in in Hx. rewrite OR in Hx. cbn [count_occ] in Hx. destruct (conn_dec c x) as [<-|N].
    + exists (last (D b) b), t. split; [reflexivity|]. apply (ci_lift _ _ _ _ H e b t He). eapply prefix_direct; eassumption.
    + apply (ci_real _ _ _ _ H). apply occ_in. lia.
Qed.
End Split.

(** ** Merging *)

Lemma merge_conns_out b a first c f l : l <> b -> l <> a -> l <> first -> merge_conns b a first c f l = f l.
Proof. intros. unfold merge_conns. rewrite !upd_other by assumption. reflexivity. Qed.

Lemma merge_conns_right b a first c f l : a <> b -> first <> a ->
  topRight (merge_conns b a first c f l) = (if Nat.eqb l a then [] else topRight (f l)) /\
  bottomRight (merge_conns b a first c f l) =
    (if Nat.eqb l a then [] else if Nat.eqb l b then (bottomRight (f b) ++ [c]) ++ topRight (f a) ++ bottomRight (f a)
     else bottomRight (f l)).
Proof.
  intros N1 N2. unfold merge_conns.
  destruct (Nat.eqb_spec l a) as [->|Na]; [rewrite upd_same; split; reflexivity|].
  rewrite (upd_other _ a) by exact Na.
  destruct (Nat.eqb_spec l b) as [->|Nb].
  - rewrite upd_same. cbn [topRight bottomRight].
    rewrite (upd_other _ first _ a) by congruence. rewrite (upd_other _ b _ a) by congruence.
    destruct (Nat.eqb_spec b first) as [->|Nf].
    + rewrite !upd_same. cbn [topRight bottomRight]. split; reflexivity.
    + rewrite (upd_other _ first) by exact Nf. rewrite upd_same. split; reflexivity.
  - rewrite (upd_other _ b) by exact Nb.
    destruct (Nat.eqb_spec l first) as [->|Nf].
    + rewrite upd_same. cbn [topRight bottomRight]. rewrite upd_other by exact Nb. split; reflexivity.
    + rewrite !upd_other by assumption. split; reflexivity.
Qed.

Lemma merge_conns_occ b a first c f keys x : a <> b -> first <> a -> NoDup keys -> In a keys -> In b keys -> In first keys ->
  occ left_conns keys (merge_conns b a first c f) x = occ left_conns keys f x + count_occ conn_dec [conn_neg c] x /\
  occ right_conns keys (merge_conns b a first c f) x = occ right_conns keys f x + count_occ conn_dec [c] x.
Proof.
  intros N1 N2 ND Ha Hb Hf.
  set (f1 := upd f b (mkconns (topLeft (f b)) (topRight (f b)) (bottomLeft (f b)) (bottomRight (f b) ++ [c]))).
  set (f2 := upd f1 first (mkconns (conn_neg c :: topLeft (f1 first)) (topRight (f1 first)) (bottomLeft (f1 first)) (bottomRight (f1 first)))).
  set (f3 := upd f2 b (mkconns (topLeft (f2 b)) (topRight (f2 b)) (bottomLeft (f2 b) ++ topLeft (f2 a) ++ bottomLeft (f2 a))
                               (bottomRight (f2 b) ++ topRight (f2 a) ++ bottomRight (f2 a)))).
  change (merge_conns b a first c f) with (upd f3 a no_conns).
  assert (A3 : f3 a = f2 a) by (unfold f3; apply upd_other; exact N1).
  split;
    match goal with |- occ ?g _ _ _ = _ =>
      pose proof (occ_upd g keys f b _ x ND Hb : occ g keys f1 x + _ = _) as Q1;
      pose proof (occ_upd g keys f1 first _ x ND Hf : occ g keys f2 x + _ = _) as Q2;
      pose proof (occ_upd g keys f2 b _ x ND Hb : occ g keys f3 x + _ = _) as Q3;
      pose proof (occ_upd g keys f3 a no_conns x ND Ha) as Q4 end;
    rewrite A3 in Q4; clearbody f1; clearbody f2; clear A3; clearbody f3;
    unfold left_conns, right_conns in *; cbn [topLeft bottomLeft topRight bottomRight no_conns] in *;
    change (conn_neg c :: topLeft (f1 first)) with ([conn_neg c] ++ topLeft (f1 first)) in *;
    rewrite ?count_occ_app in *; cbn [count_occ] in Q4; lia.
Qed.

Section Merge.
Variables (e0 : exch) (E1 : list exch) (e : exch) (E2 : list exch) (f : label -> conns) (D : label -> list label).
Variables (e' : exch) (a b first : label) (X Y1 Y2 : list label).
Hypothesis H : conn_inv e0 (E1 ++ e :: E2) f D.
Hypothesis Et : e_top e = a :: X.
Hypothesis Eb : e_bot e = b :: Y1 ++ a :: Y2.
Hypothesis El : e_len e a = e_len e b.
Hypothesis Et' : e_top e' = X.
Hypothesis Eb' : e_bot e' = Y1 ++ b :: Y2.
Hypothesis El' : forall c, c <> a -> e_len e' c = e_len e c.
Hypothesis Hf : hd_error X = Some first.

Let He : In e (E1 ++ e :: E2).
Proof. apply in_middle. auto. Qed.
Let P : proper e.
Proof. apply (ci_proper _ _ _ _ H e He). Qed.
Let ND : NoDup (a :: X).
Proof. rewrite <- Et. apply P. Qed.
Let NB : NoDup (b :: Y1 ++ a :: Y2).
Proof. rewrite <- Eb. apply proper_bot_nodup. exact P. Qed.
Let Nab : a <> b.
Proof. intros C. rewrite C in NB. apply NoDup_cons_iff in NB. destruct NB as [Q _]. apply Q. apply in_or_app. right. left. reflexivity. Qed.
Let HbX : In b X.
Proof.
  assert (In b (e_top e)) as Q by (apply bot_in; [exact P|rewrite Eb; left; reflexivity]).
  rewrite Et in Q. destruct Q; [contradiction|assumption].
Qed.
Let HfX : In first X.
Proof. apply hd_error_In. exact Hf. Qed.
Let Nfa : first <> a.
Proof. intros C. apply NoDup_cons_iff in ND. apply (proj1 ND). rewrite <- C. exact HfX. Qed.
Let PM : merge_step e e'.
Proof. exists a, b, X, Y1, Y2. auto 7. Qed.

Lemma merge_lasts : lst (e_top e') = lst (e_top e) /\
  (Y2 = [] /\ lst (e_bot e) = a /\ lst (e_bot e') = b \/
   Y2 <> [] /\ lst (e_bot e') = lst (e_bot e) /\ lst (e_bot e) <> a /\ lst (e_bot e) <> b).
Proof.
  rewrite Et, Et', Eb, Eb'. split.
  - destruct X as [|x X']; [destruct HfX|]. reflexivity.
  - destruct Y2 as [|y Y2'].
    + left. unfold lst. change (b :: Y1 ++ [a]) with ((b :: Y1) ++ [a]). rewrite !last_snoc. auto.
    + right. split; [discriminate|]. unfold lst.
      assert (Q : forall Z c, last (Z ++ c :: y :: Y2') 0 = last (y :: Y2') 0).
      { intros Z c. rewrite last_app_cons. reflexivity. }
      change (b :: Y1 ++ a :: y :: Y2') with ((b :: Y1) ++ a :: y :: Y2'). rewrite !Q. split; [reflexivity|].
      assert (I : In (last (y :: Y2') 0) (y :: Y2')) by (apply last_in; discriminate).
      change (b :: Y1 ++ a :: y :: Y2') with ((b :: Y1) ++ a :: y :: Y2') in NB.
      split; intro C; rewrite C in I.
      * apply NoDup_remove_2 in NB. apply NB. apply in_or_app. right. exact I.
      * apply NoDup_cons_iff in NB. apply (proj1 NB). apply in_or_app. right. right. exact I.
Qed.

Lemma merge_tail : bottomRight (f b) = links b (D b).
Proof.
  rewrite (ci_chain _ _ _ _ H e b He); [|rewrite Et; right; exact HbX]. unfold tail_of.
  destruct (Nat.eqb_spec b (lst (e_bot e))) as [C|]; [|rewrite app_nil_r; reflexivity].
  exfalso. destruct merge_lasts as [_ [(_ & Q & _)|(_ & _ & _ & Q)]]; congruence.
Qed.

Lemma merge_sep src tgt : skip_bottom b (bottomRight (f b)) = Ok src -> skip_top a (rev (topRight (f a))) = Ok tgt ->
  mkconn src tgt = right_conn (last (D b) b, a) /\ direct_connection e0 (last (D b) b) a.
Proof.
  rewrite merge_tail, skip_links, (ci_topR _ _ _ _ H). simpl. intros Q1 Q2.
  injection Q1 as <-. injection Q2 as <-. split; [reflexivity|].
  apply (ci_lift _ _ _ _ H e b a He). apply (merge_direct e a b X (Y1 ++ a :: Y2)); auto.
  intros C. rewrite C in HbX. destruct HbX.
Qed.

Definition chain_merge (l : label) : list label := if Nat.eqb l b then D b ++ a :: D a else D l.

Lemma inv_merge f' : (forall l, f' l = merge_conns b a first (right_conn (last (D b) b, a)) f l) ->
  conn_inv e0 (E1 ++ e' :: E2) f' chain_merge.
Proof.
  intro Hf'. set (c := right_conn (last (D b) b, a)) in *.
  pose proof (ci_start _ _ _ _ H) as P0. destruct (ci_parts _ _ _ _ H) as (NDl & ND2 & ND3).
  pose proof (merge_step_proper _ _ P PM) as P'. destruct merge_lasts as [LT LB].
  assert (Xe : incl X (e_top e)) by (rewrite Et; intros l Hl; right; exact Hl).
  assert (Nbs : forall x l, In x (E1 ++ E2) -> In l (e_top x) -> l <> a /\ l <> b /\ l <> first).
  { intros x l Hx Hl. repeat split; intros ->; refine (pieces_disjoint E1 e E2 x _ NDl Hx _ Hl); rewrite Et; simpl; auto. }
  assert (NaX : ~ In a X) by (apply NoDup_cons_iff in ND; apply ND).
  assert (LvE : forall l, In l (e_top e) -> In l (live (E1 ++ e :: E2))) by (intros l Hl; apply in_live; exists e; auto).
  assert (Lv : forall l, In l (live (E1 ++ e' :: E2)) -> In l (live (E1 ++ e :: E2)) /\ l <> a).
  { intros l Hl. apply in_live in Hl. destruct Hl as (x & Hx & Hl). apply in_middle in Hx. destruct Hx as [->|Hx].
    - rewrite Et' in Hl. split; [apply LvE; auto|]. intros ->. contradiction.
    - split; [apply in_live; exists x; split; [apply in_middle; auto|exact Hl]|]. apply (Nbs x l Hx Hl). }
  assert (Ka : In a (e_top e0)) by (eapply ci_keys; [exact H|apply LvE; rewrite Et; left; reflexivity]).
  assert (Kb : In b (e_top e0)) by (eapply ci_keys; [exact H|auto]).
  assert (Kf : In first (e_top e0)) by (eapply ci_keys; [exact H|auto]).
  assert (OL : forall x, occ left_conns (e_top e0) f' x = occ left_conns (e_top e0) f x + count_occ conn_dec [conn_neg c] x).
  { intro x. rewrite (occ_ext left_conns _ (merge_conns b a first c f) f') by auto. apply merge_conns_occ; auto. apply P0. }
  assert (OR : forall x, occ right_conns (e_top e0) f' x = occ right_conns (e_top e0) f x + count_occ conn_dec [c] x).
  { intro x. rewrite (occ_ext right_conns _ (merge_conns b a first c f) f') by auto. apply merge_conns_occ; auto. apply P0. }
  assert (Dout : forall l, l <> b -> chain_merge l = D l).
  { intros l Hl. unfold chain_merge. destruct (Nat.eqb_spec l b); [contradiction|reflexivity]. }
  assert (Db : chain_merge b = D b ++ a :: D a) by (unfold chain_merge; rewrite Nat.eqb_refl; reflexivity).
  constructor.
  - exact P0.
  - intros x Hx. apply in_middle in Hx. destruct Hx as [->|Hx].
    + split; [exact P'|]. rewrite Et'. intros C. rewrite C in HbX. destruct HbX.
    + apply (ci_proper _ _ _ _ H). apply in_middle. auto.
  - rewrite (ci_part _ _ _ _ H), !live_app, !flat_map_app.
    rewrite (flat_map_same (fun l => l :: chain_merge l) (fun l => l :: D l) (live E1)).
    2:{ intros l Hl. rewrite Dout; [reflexivity|]. apply in_live in Hl. destruct Hl as (x & Hx & Hl).
        apply (Nbs x l); [apply in_or_app; auto|exact Hl]. }
    apply Permutation_app_head.
    change (live (e :: E2)) with (e_top e ++ live E2). change (live (e' :: E2)) with (e_top e' ++ live E2).
    rewrite !flat_map_app.
    rewrite (flat_map_same (fun l => l :: chain_merge l) (fun l => l :: D l) (live E2)).
    2:{ intros l Hl. rewrite Dout; [reflexivity|]. apply in_live in Hl. destruct Hl as (x & Hx & Hl).
        apply (Nbs x l); [apply in_or_app; auto|exact Hl]. }
    apply Permutation_app_tail. rewrite Et, Et'.
    destruct (in_split _ _ HbX) as (U & V & EX). rewrite EX in *.
    apply NoDup_cons_iff in ND. destruct ND as [_ NDX]. apply NoDup_remove_2 in NDX.
    cbn [flat_map]. rewrite !flat_map_app. cbn [flat_map]. rewrite Db.
    rewrite (flat_map_same (fun l => l :: chain_merge l) (fun l => l :: D l) U).
    2:{ intros l Hl. rewrite Dout; [reflexivity|]. intros ->. apply NDX. apply in_or_app. auto. }
    rewrite (flat_map_same (fun l => l :: chain_merge l) (fun l => l :: D l) V).
    2:{ intros l Hl. rewrite Dout; [reflexivity|]. intros ->. apply NDX. apply in_or_app. auto. }
    set (FU := flat_map (fun l => l :: D l) U). set (FV := flat_map (fun l => l :: D l) V).
    transitivity (FU ++ (a :: D a) ++ (b :: D b) ++ FV).
    { rewrite !app_assoc. apply Permutation_app_tail. apply Permutation_app_tail. apply Permutation_app_comm. }
    apply Permutation_app_head. rewrite !app_assoc. apply Permutation_app_tail.
    change (b :: D b ++ a :: D a) with ((b :: D b) ++ a :: D a). apply Permutation_app_comm.
  - intros l x Hl Hx. destruct (Lv l Hl) as [Hl' Na]. rewrite Hf'.
    assert (Q : forall y, In y (live (E1 ++ e :: E2)) -> In x (D y) -> merge_conns b a first c f x = no_conns).
    { intros y Hy Hxy. pose proof (ND2 y x Hy Hxy) as Hn. rewrite merge_conns_out.
      - apply (ci_dead _ _ _ _ H y); auto.
      - intros ->. apply Hn. auto.
      - intros ->. apply Hn. apply LvE. rewrite Et. left. reflexivity.
      - intros ->. apply Hn. auto. }
    destruct (Nat.eq_dec l b) as [->|Nb].
    + rewrite Db in Hx. apply in_app_or in Hx. destruct Hx as [Hx|[<-|Hx]].
      * apply (Q b); auto.
      * unfold merge_conns. apply upd_same.
      * apply (Q a); [apply LvE; rewrite Et; left; reflexivity|exact Hx].
    + rewrite Dout in Hx by exact Nb. apply (Q l); auto.
  - intro l. rewrite Hf'. destruct (merge_conns_right b a first c f l Nab Nfa) as [-> _].
    destruct (Nat.eqb l a); [reflexivity|]. apply (ci_topR _ _ _ _ H).
  - intros x l Hx Hl. rewrite Hf'. destruct (merge_conns_right b a first c f l Nab Nfa) as [_ ->].
    apply in_middle in Hx. destruct Hx as [->|Hx].
    + rewrite Et' in Hl. destruct (Nat.eqb_spec l a) as [->|Na]; [contradiction|].
      destruct (Nat.eqb_spec l b) as [->|Nb].
      * assert (TE : tail_of (lst (e_top e0)) e' b = tail_of (lst (e_top e0)) e a).
        { unfold tail_of. rewrite LT. destruct LB as [(_ & -> & ->)|(_ & -> & Q1 & Q2)].
          - rewrite !Nat.eqb_refl. reflexivity.
          - destruct (Nat.eqb_spec a (lst (e_bot e))); [congruence|]. destruct (Nat.eqb_spec b (lst (e_bot e))); [congruence|]. reflexivity. }
        rewrite merge_tail, (ci_topR _ _ _ _ H), Db, TE.
        rewrite (ci_chain _ _ _ _ H e a He) by (rewrite Et; left; reflexivity).
        generalize (tail_of (lst (e_top e0)) e a). intro tl.
        replace ((D b ++ a :: D a) ++ tl) with (D b ++ a :: (D a ++ tl)) by (rewrite <- app_assoc; reflexivity).
        rewrite (links_app b (D b)). cbn [links app]. rewrite <- app_assoc. reflexivity.
      * rewrite Dout by exact Nb. rewrite (ci_chain _ _ _ _ H e l He (Xe l Hl)). unfold tail_of. rewrite LT.
        destruct LB as [(_ & -> & ->)|(_ & -> & Q1 & Q2)]; [|reflexivity].
        destruct (Nat.eqb_spec l a); [contradiction|]. destruct (Nat.eqb_spec l b); [contradiction|]. reflexivity.
    + destruct (Nbs x l Hx Hl) as (Na & Nb & _). 
      destruct (Nat.eqb_spec l a); [contradiction|]. destruct (Nat.eqb_spec l b); [contradiction|]. rewrite Dout by exact Nb.
      apply (ci_chain _ _ _ _ H); [apply in_middle; auto|exact Hl].
  - intro x. rewrite OL, OR, count_neg, (ci_lefts _ _ _ _ H). reflexivity.
  - destruct (ci_open _ _ _ _ H) as (x & Hx & L1 & L2). apply in_middle in Hx. destruct Hx as [->|Hx].
    + exists e'. split; [apply in_middle; auto|]. split; [congruence|].
      destruct LB as [(_ & Q1 & Q2)|(_ & Q0 & Q1 & Q2)].
      * rewrite Q2, Db, last_app_cons, last_cons. rewrite Q1 in L2. exact L2.
      * rewrite Q0, Dout by exact Q2. exact L2.
    + exists x. split; [apply in_middle; auto|]. split; [exact L1|].
      rewrite Dout; [exact L2|]. destruct (ci_proper _ _ _ _ H x) as [Px Nx]; [apply in_middle; auto|].
      apply (Nbs x); [exact Hx|]. apply bot_in; [exact Px|]. apply lst_in. apply bot_nonempty; assumption.
  - intros x u v Hx Hd. apply in_middle in Hx. destruct Hx as [->|Hx].
    + pose proof (direct_merge e e' a b X Y1 Y2 u v P Et Eb El Et' Eb' El' Hd) as Q.
      pose proof (ci_lift _ _ _ _ H e _ v He Q) as R. destruct (Nat.eqb_spec u b) as [->|Nb].
      * rewrite Db, last_app_cons, last_cons. exact R.
      * rewrite Dout by exact Nb. exact R.
    + destruct (ci_proper _ _ _ _ H x) as [Px Nx]; [apply in_middle; auto|].
      rewrite Dout; [apply (ci_lift _ _ _ _ H x); [apply in_middle; auto|exact Hd]|].
      destruct (direct_not_last _ _ _ Px Hd) as [(U & y & V & Q) _].
      apply (Nbs x); [exact Hx|]. apply bot_in; [exact Px|]. rewrite Q. apply in_or_app. right. left. reflexivity.
  - intros x Hx. apply occ_in in Hx. rewrite OR in Hx. cbn [count_occ] in Hx. destruct (conn_dec c x) as [<-|N].
    + exists (last (D b) b), a. split; [reflexivity|]. apply (ci_lift _ _ _ _ H e b a He).
      apply (merge_direct e a b X (Y1 ++ a :: Y2)); auto. intros C. rewrite C in HbX. destruct HbX.
    + apply (ci_real _ _ _ _ H). apply occ_in. lia.
Qed.
End Merge.

(** ** All moves *)

Theorem astep_inv e0 E f E' f' D : conn_inv e0 E f D -> astep E f E' f' -> exists D', conn_inv e0 E' f' D'.
Proof.
  intros H S. destruct S as [E E' f f' A Hf|E1 e E2 f e' f' C|E1 e E2 f k b t b' src tgt f' Hk Hb Ht Hb' Hs Ht' Hf
    |E1 e E2 f a b first e' src tgt f' M Ha Hb Hfi Hs Ht Hf].
  - exists D. eapply inv_agree; eassumption.
  - exists D. eapply inv_path; eassumption.
  - exists D. destruct (split_sep _ _ _ _ _ _ k b t b' H Hk Hb Ht Hb' src tgt Hs Ht') as [Q _].
    eapply inv_split; try eassumption. intro l. rewrite <- Q. apply Hf.
  - destruct M as (a' & b0 & X & Y1 & Y2 & Q1 & Q2 & Q3 & Q4 & Q5 & Q6).
    rewrite Q1 in Ha. inversion Ha; subst a'. rewrite Q2 in Hb. inversion Hb; subst b0. rewrite Q4 in Hfi.
    assert (Q : mkconn src tgt = right_conn (last (D b) b, a)) by (eapply merge_sep; eassumption).
    exists (chain_merge D a b). eapply (inv_merge e0 E1 e E2 f D e' a b first X Y1 Y2); try eassumption.
    intro l. rewrite <- Q. apply Hf.
Qed.

Theorem asteps_inv e0 E f E' f' D : conn_inv e0 E f D -> asteps E f E' f' -> exists D', conn_inv e0 E' f' D'.
Proof.
  intros H S. revert D H. induction S as [E f|E f E1 f1 E' f' S1 S IH]; intros D H; [exists D; exact H|].
  destruct (astep_inv _ _ _ _ _ _ H S1) as (D1 & H1). exact (IH D1 H1).
Qed.
