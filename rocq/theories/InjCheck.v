(** Consistent injections pass the consistency check, at any time. *)
From Coq Require Import Reals Permutation Lia.
From Verif Require Import Base QcTac Spec LenT FM Subspace Lengths IET Api ZorichProof ReduceProof Saf Dyn Path Direct InduceProof InduceCons World.
From Verif Require Import Decomp DecompSim DecompInv DecompNav DecompRef DecompStep DecompCons DecompAll DecApi DecompBudget PerimProof InjApi Twin TwinDec InjRel InjStep InjHist InjMore.
Open Scope nat_scope.

(** * The check *)

(** Every connection is one of [K], if it is to the right, or the reverse of one of [K]. *)
Section Core.
Variables K L R : list connection.
Hypothesis Sh : forall k, In k K -> exists p, k = right_conn p.
Hypothesis Ns : NoDup (map cn_source K).
Hypothesis Nt : NoDup (map cn_target K).
Hypothesis IR : incl R K.
Hypothesis IL : incl L (map conn_neg K).
Hypothesis NL : NoDup L.
Hypothesis NR : NoDup R.

Lemma map_inj_in {A B} (f : A -> B) l x y : NoDup (map f l) -> In x l -> In y l -> f x = f y -> x = y.
Proof.
  induction l as [|a l IH]; intros N Hx Hy E; [contradiction|]. cbn [map] in N. inversion N as [|? ? Na N']; subst.
  destruct Hx as [->|Hx], Hy as [->|Hy]; auto.
  - exfalso. apply Na. rewrite E. apply in_map. exact Hy.
  - exfalso. apply Na. rewrite <- E. apply in_map. exact Hx.
Qed.

Lemma core_left k : In k L -> exists p, k = left_conn p /\ In (conn_neg k) K.
Proof.
  intro H. apply IL in H. apply in_map_iff in H as (k' & <- & H). destruct (Sh k' H) as ((b, t) & ->).
  exists (t, b). split; [reflexivity|exact H].
Qed.

Lemma core_nodup : NoDup (L ++ R).
Proof.
  apply NoDup_app_intro; auto. intros k Hl Hr. destruct (core_left k Hl) as (p & -> & _). destruct (Sh _ (IR _ Hr)) as (q & E). discriminate.
Qed.

Lemma core_ok s : separatrix_ok s (L ++ R) = true.
Proof.
  assert (U : forall x y, In x (L ++ R) -> In y (L ++ R) -> (cn_source x = s \/ cn_target x = s) -> (cn_source y = s \/ cn_target y = s) ->
    x = y \/ x = conn_neg y).
  { assert (Q : forall x, In x (L ++ R) -> (cn_source x = s \/ cn_target x = s) -> exists k, In k K /\ (x = k \/ x = conn_neg k) /\
               ((sp_orient s = PARALLEL /\ cn_source k = s) \/ (sp_orient s = ANTIPARALLEL /\ cn_target k = s))).
    { intros x Hx Hs. apply in_app_or in Hx as [Hx|Hx].
      - destruct (core_left x Hx) as (p & Ep & Hk). exists (conn_neg x). split; [exact Hk|]. split; [right; subst x; reflexivity|].
        subst x. cbn in *. destruct Hs as [<-|<-]; auto.
      - exists x. split; [apply IR, Hx|]. split; [auto|]. destruct (Sh x (IR _ Hx)) as (p & ->). cbn in *. destruct Hs as [<-|<-]; auto. }
    intros x y Hx Hy Sx Sy. destruct (Q x Hx Sx) as (k & Kk & Ex & Ok_). destruct (Q y Hy Sy) as (k' & Kk' & Ey & Ok').
    assert (k = k').
    { destruct Ok_ as [[A B]|[A B]], Ok' as [[A' B']|[A' B']]; try congruence.
      - apply (map_inj_in cn_source K); congruence.
      - apply (map_inj_in cn_target K); congruence. }
    subst k'. destruct Ex as [->| ->], Ey as [->| ->]; auto; right; destruct (Sh k Kk) as (p & ->); reflexivity. }
  assert (N : NoDup (at_separatrix s (L ++ R))).
  { apply at_sep_nodup; [exact core_nodup|]. intros x Hx. apply in_app_or in Hx as [Hx|Hx].
    - destruct (core_left x Hx) as (p & -> & _). discriminate.
    - destruct (Sh x (IR _ Hx)) as (p & ->). discriminate. }
  unfold separatrix_ok. destruct (at_separatrix s (L ++ R)) as [|x [|y [|z l]]] eqn:E; try reflexivity.
  - assert (Hx : In x (at_separatrix s (L ++ R))) by (rewrite E; left; reflexivity).
    assert (Hy : In y (at_separatrix s (L ++ R))) by (rewrite E; right; left; reflexivity).
    apply at_sep_in in Hx as [Hx Sx]. apply at_sep_in in Hy as [Hy Sy].
    destruct (U x y Hx Hy Sx Sy) as [->| ->]; [|apply conn_eqb_eq; reflexivity].
    inversion N as [|? ? Nx _]; subst. exfalso. apply Nx. left. reflexivity.
  - exfalso. assert (Hx : In x (at_separatrix s (L ++ R))) by (rewrite E; left; reflexivity).
    assert (Hy : In y (at_separatrix s (L ++ R))) by (rewrite E; right; left; reflexivity).
    assert (Hz : In z (at_separatrix s (L ++ R))) by (rewrite E; right; right; left; reflexivity).
    apply at_sep_in in Hx as [Hx Sx]. apply at_sep_in in Hy as [Hy Sy]. apply at_sep_in in Hz as [Hz Sz].
    inversion N as [|? ? Nx N']; subst. inversion N' as [|? ? Ny _]; subst.
    destruct (U x y Hx Hy Sx Sy) as [->| ->]; [apply Nx; left; reflexivity|].
    destruct (U z y Hz Hy Sz Sy) as [->| ->]; [apply Ny; left; reflexivity|]. apply Nx. right. left. reflexivity.
Qed.

End Core.

Lemma check_of {T} (d : decomp T) K :
  (forall k, In k K -> exists p, k = right_conn p) -> NoDup (map cn_source K) -> NoDup (map cn_target K) ->
  incl (rights d) K -> incl (lefts d) (map conn_neg K) -> NoDup (lefts d) -> NoDup (rights d) -> dec_check d = Ok tt.
Proof.
  intros Sh Ns Nt IR IL NL NR. unfold dec_check.
  assert (E1 : forallb (fun c => negb (conn_parallel c)) (lefts d) = true).
  { apply forallb_forall. intros k Hk. destruct (core_left K (lefts d) Sh IL k Hk) as (p & -> & _). reflexivity. }
  assert (E2 : forallb conn_parallel (rights d) = true).
  { apply forallb_forall. intros k Hk. destruct (Sh _ (IR _ Hk)) as (p & ->). reflexivity. }
  rewrite E1, E2. cbn [assert_].
  assert (E3 : forallb (fun c => separatrix_ok (cn_source c) (lefts d ++ rights d) && separatrix_ok (cn_target c) (lefts d ++ rights d)) (lefts d ++ rights d) = true).
  { apply forallb_forall. intros k Hk. rewrite !(core_ok K (lefts d) (rights d)) by assumption. reflexivity. }
  rewrite E3. reflexivity.
Qed.

(** * Consistent injections *)

Lemma flat_change {A} (f g : label -> list A) x l L : NoDup L -> In l L -> (forall m, m <> l -> f m = g m) -> Permutation (f l) (x ++ g l) ->
  Permutation (flat_map f L) (x ++ flat_map g L).
Proof.
  intros N Hl Ho Hc. apply in_split in Hl as (L1 & L2 & ->).
  assert (Q : forall L', ~ In l L' -> flat_map f L' = flat_map g L') by (intros L' H; apply flat_map_same; intros m Hm; apply Ho; intros ->; contradiction).
  apply NoDup_remove_2 in N. rewrite in_app_iff in N.
  rewrite !flat_map_app. cbn [flat_map]. rewrite (Q L1), (Q L2) by tauto. rewrite Hc.
  rewrite <- app_assoc. rewrite !app_assoc. apply Permutation_app_tail. apply Permutation_app_tail. apply Permutation_app_comm.
Qed.

Definition group (J : list injection) (l : label) : list label := behind_top J l ++ l :: behind_bottom J l.
Definition chains (J : list injection) (l : label) : list connection := toplinks (behind_top J l) l ++ links l (behind_bottom J l).

Section Plan.
Variables (tops : list label) (X : list injection).
Hypothesis Nd : NoDup tops.
Hypothesis C : consistent tops X.

Lemma behind_top_cons j J l : behind_top (j :: J) l = (if he_top (ij_at j) && Nat.eqb (he_label (ij_at j)) l then rev (map fst (ij_right j)) else []) ++ behind_top J l.
Proof. reflexivity. Qed.
Lemma behind_bottom_cons j J l : behind_bottom (j :: J) l = (if negb (he_top (ij_at j)) && Nat.eqb (he_label (ij_at j)) l then map snd (ij_right j) else []) ++ behind_bottom J l.
Proof. reflexivity. Qed.

Lemma groups_perm : Permutation (tops ++ flat_map chain_labels X) (flat_map (group X) tops).
Proof.
  assert (A := cs_at _ _ C). revert A. clear C. induction X as [|j J IH]; intro A.
  - cbn [flat_map]. rewrite app_nil_r. assert (E : flat_map (group []) tops = tops).
    { unfold group. cbn. clear. induction tops; cbn; congruence. }
    rewrite E. reflexivity.
  - cbn [flat_map]. destruct (A j (or_introl eq_refl)) as [Hl _]. rewrite (flat_change (group (j :: J)) (group J) (chain_labels j) (he_label (ij_at j)) tops); auto.
    + rewrite Permutation_app_swap_app. apply Permutation_app_head. apply IH. intros; apply A; right; assumption.
    + intros m Nm. unfold group. rewrite behind_top_cons, behind_bottom_cons.
      destruct (Nat.eqb_spec (he_label (ij_at j)) m); [congruence|]. rewrite !Bool.andb_false_r. reflexivity.
    + unfold group, chain_labels. rewrite behind_top_cons, behind_bottom_cons, Nat.eqb_refl. destruct (he_top (ij_at j)); cbn [negb andb app].
      * rewrite <- Permutation_rev, <- app_assoc. reflexivity.
      * rewrite (Permutation_app_swap_app (map snd (ij_right j))). apply Permutation_app_head. apply Permutation_middle.
Qed.

Lemma groups_nodup : NoDup (flat_map (group X) tops).
Proof. eapply Permutation_NoDup; [apply groups_perm|]. apply (cs_new _ _ C). Qed.

Lemma behind_none j J : NoDup (map (fun j => (he_label (ij_at j), he_top (ij_at j))) (filter (fun j => negb (length (ij_right j) =? 0)) (j :: J))) ->
  ij_right j <> [] -> if he_top (ij_at j) then behind_top J (he_label (ij_at j)) = [] else behind_bottom J (he_label (ij_at j)) = [].
Proof.
  intros N Hr. cbn [filter] in N. destruct (ij_right j) as [|p q] eqn:Er; [contradiction|]. cbn [length Nat.eqb negb map] in N.
  inversion N as [|? ? Na _]; subst. clear N.
  assert (Q : forall k, In k J -> he_label (ij_at k) = he_label (ij_at j) -> he_top (ij_at k) = he_top (ij_at j) -> ij_right k = []).
  { intros k Hk E1 E2. destruct (ij_right k) eqn:Ek; [reflexivity|]. exfalso. apply Na. rewrite <- E1, <- E2.
    apply (in_map (fun j => (he_label (ij_at j), he_top (ij_at j)))). apply filter_In. split; [exact Hk|]. rewrite Ek. reflexivity. }
  destruct (he_top (ij_at j)) eqn:Et; unfold behind_top, behind_bottom; apply flat_map_nil; intros k Hk.
  - destruct (he_top (ij_at k)) eqn:E2; [|reflexivity]. cbn [andb]. destruct (Nat.eqb_spec (he_label (ij_at k)) (he_label (ij_at j))) as [E1|]; [|reflexivity].
    rewrite (Q k Hk E1 E2). reflexivity.
  - destruct (he_top (ij_at k)) eqn:E2; [reflexivity|]. cbn [andb negb]. destruct (Nat.eqb_spec (he_label (ij_at k)) (he_label (ij_at j))) as [E1|]; [|reflexivity].
    rewrite (Q k Hk E1 E2). reflexivity.
Qed.

Lemma chains_perm : Permutation (injected_rights X) (flat_map (chains X) tops).
Proof.
  assert (A := cs_at _ _ C). assert (B := cs_once _ _ C). revert A B. clear C. induction X as [|j J IH]; intros A B.
  - cbn. rewrite flat_map_nil; [constructor|reflexivity].
  - cbn [injected_rights flat_map]. destruct (A j (or_introl eq_refl)) as [Hl Cn].
    rewrite (flat_change (chains (j :: J)) (chains J) (map right_conn (ij_right j)) (he_label (ij_at j)) tops); auto.
    + apply Permutation_app_head. apply IH; [intros; apply A; right; assumption|].
      cbn [filter] in B. destruct (negb _); [cbn [map] in B; inversion B; assumption|exact B].
    + intros m Nm. unfold chains. rewrite behind_top_cons, behind_bottom_cons.
      destruct (Nat.eqb_spec (he_label (ij_at j)) m); [congruence|]. rewrite !Bool.andb_false_r. reflexivity.
    + unfold chains. rewrite behind_top_cons, behind_bottom_cons, Nat.eqb_refl, !Bool.andb_true_r.
      destruct (empty_or (ij_right j)) as [Er|Nr]; [rewrite Er; destruct (he_top (ij_at j)); reflexivity|].
      pose proof (behind_none j J B Nr) as Z. unfold continuous in Cn. destruct (he_top (ij_at j)); cbn [negb app]; rewrite Z.
      * rewrite app_nil_r. cbn [toplinks app]. apply Permutation_app_tail. destruct Cn as (y & Ch). rewrite <- map_rev.
        rewrite <- (chained_top (rev (ij_right j)) y _); [rewrite map_rev; symmetry; apply Permutation_rev| |exact Ch].
        intro Q. apply Nr. rewrite <- (rev_involutive (ij_right j)), Q. reflexivity.
      * rewrite app_nil_r. cbn [links]. rewrite app_nil_r. destruct Cn as (r & Ch). rewrite <- (chained_bottom _ _ _ Ch). apply Permutation_app_comm.
Qed.

End Plan.

(** * All connections have different ends *)

Lemma flat_owner {A} (g : label -> list A) L l m x : NoDup L -> NoDup (flat_map g L) -> In l L -> In m L -> In x (g l) -> In x (g m) -> l = m.
Proof.
  intros _ N Hl Hm Xl Xm. destruct (Nat.eq_dec l m) as [E|Ne]; [exact E|]. exfalso.
  apply in_split in Hl as (L1 & L2 & ->). apply in_middle in Hm as [E|Hm]; [congruence|].
  assert (P : Permutation (flat_map g (L1 ++ l :: L2)) (flat_map g (l :: L1 ++ L2))) by (apply Permutation_flat_map; symmetry; apply Permutation_middle).
  pose proof (Permutation_NoDup P N) as N'. cbn [flat_map] in N'. apply NoDup_app_l in N' as (_ & _ & N').
  apply (N' x Xl). apply in_flat_map. exists m. auto.
Qed.

Lemma pick_nodup (g h : label -> list label) (pick : label -> label) tops L0 : NoDup tops -> NoDup (flat_map g tops) ->
  (forall l, In l tops -> NoDup (h l ++ [pick l]) /\ incl (h l ++ [pick l]) (g l)) -> NoDup L0 -> incl L0 tops ->
  NoDup (flat_map h tops ++ map pick L0).
Proof.
  intros Nd N Hh N0 I0.
  assert (Ow : forall l m x, In l tops -> In m tops -> In x (h l ++ [pick l]) -> In x (h m ++ [pick m]) -> l = m).
  { intros l m x Hl Hm Xl Xm. apply (flat_owner g tops l m x); auto; [apply (Hh l Hl), Xl|apply (Hh m Hm), Xm]. }
  apply NoDup_app_intro.
  - apply NoDup_flat_map; auto.
    + intros l Hl. destruct (Hh l Hl) as [Q _]. apply NoDup_app_l in Q. apply Q.
    + intros l m x Hl Hm Xl Xm. apply (Ow l m x); auto; apply in_or_app; auto.
  - apply NoDup_map_inj; [|exact N0]. intros l m Hl Hm E. apply (Ow l m (pick l)); auto; apply in_or_app; right; left; [reflexivity|symmetry; exact E].
  - intros x Hx Hp. apply in_map_iff in Hp as (m & <- & Hm). apply in_flat_map in Hx as (l & Hl & Hx).
    assert (l = m) by (apply (Ow l m (pick m)); auto; apply in_or_app; [left; exact Hx|right; left; reflexivity]). subst m.
    destruct (Hh l Hl) as [Q _]. apply NoDup_app_l in Q as (_ & _ & Q). apply (Q (pick l) Hx). left. reflexivity.
Qed.

Lemma toplinks_source ys t : map cn_source (toplinks ys t) = map (fun b => mksep b PARALLEL) ys.
Proof.
  destruct ys as [|y r]; [reflexivity|]. cbn [toplinks]. rewrite links_source.
  change (y :: r ++ [t]) with ((y :: r) ++ [t]). rewrite removelast_last. reflexivity.
Qed.
Lemma toplinks_target ys t : map cn_target (toplinks ys t) = map (fun b => mksep b ANTIPARALLEL) (tl (ys ++ [t])).
Proof. destruct ys as [|y r]; [reflexivity|]. cbn [toplinks]. rewrite links_target. reflexivity. Qed.

Section Ends.
Variables (tops : list label) (X : list injection) (R0 : list connection).
Hypothesis Nd : NoDup tops.
Hypothesis C : consistent tops X.
Hypothesis Ns : NoDup (map cn_source R0).
Hypothesis Nt : NoDup (map cn_target R0).
Hypothesis Sh : forall k, In k R0 -> exists b t, k = right_conn (b, t) /\ In b tops /\ In t tops.

Let K := injected_rights X ++ map (stretch X) R0.

Lemma ends_shape k : In k K -> exists p, k = right_conn p.
Proof.
  unfold K. rewrite in_app_iff. intros [H|H].
  - unfold injected_rights in H. apply in_flat_map in H as (j & _ & H). apply in_map_iff in H as (p & <- & _). eauto.
  - apply in_map_iff in H as (k' & <- & H). destruct (Sh k' H) as (b & t & -> & _). unfold stretch, stretched, right_conn. cbn. eexists (_, _). reflexivity.
Qed.

Lemma group_nodup l : In l tops -> NoDup (group X l).
Proof.
  intro Hl. pose proof (groups_nodup tops X Nd C) as N. apply in_split in Hl as (L1 & L2 & ->). rewrite flat_map_app in N. cbn [flat_map] in N.
  apply NoDup_app_l in N as (_ & N & _). apply NoDup_app_l in N as (N & _ & _). exact N.
Qed.

Lemma ends_sources : NoDup (map cn_source K).
Proof.
  set (L0 := map (fun k => sp_label (cn_source k)) R0).
  assert (P : Permutation (map cn_source K) (map (fun b => mksep b PARALLEL)
    (flat_map (fun l => behind_top X l ++ removelast (l :: behind_bottom X l)) tops ++ map (fun l => last (behind_bottom X l) l) L0))).
  { unfold K. rewrite map_app, (Permutation_map _ (chains_perm tops X Nd C)), map_app. apply Permutation_app.
    - rewrite !map_flat_map. apply Permutation_refl'. apply flat_map_same. intros l _. unfold chains. rewrite !map_app, toplinks_source, links_source. reflexivity.
    - unfold L0. rewrite !map_map. apply Permutation_refl'. apply map_ext_in. intros k Hk. destruct (Sh k Hk) as (b & t & -> & _). reflexivity. }
  eapply Permutation_NoDup; [apply Permutation_sym, P|]. apply NoDup_map_inj; [congruence|].
  apply (pick_nodup (group X) _ (fun l => last (behind_bottom X l) l) tops L0); auto.
  - apply groups_nodup; assumption.
  - intros l Hl. pose proof (group_nodup l Hl) as Q. unfold group in Q.
    assert (E : (behind_top X l ++ removelast (l :: behind_bottom X l)) ++ [last (behind_bottom X l) l] = behind_top X l ++ l :: behind_bottom X l).
    { rewrite <- app_assoc. f_equal. rewrite <- (last_cons l (behind_bottom X l) l). symmetry. apply app_removelast_last. discriminate. }
    rewrite E. split; [exact Q|]. unfold group. apply incl_refl.
  - unfold L0. clear - Ns Sh. induction R0 as [|k R IH]; [constructor|]. cbn [map] in *. inversion Ns as [|? ? N1 N2]; subst. constructor.
    + intro H. apply N1. apply in_map_iff in H as (k' & E & H). apply in_map_iff. exists k'. split; [|exact H].
      destruct (Sh k (or_introl eq_refl)) as (b & t & -> & _). destruct (Sh k' (or_intror H)) as (b' & t' & -> & _). cbn in E. subst b'. reflexivity.
    + apply IH; [exact N2|]. intros k' Hk'. apply Sh. right. exact Hk'.
  - intros l Hl. apply in_map_iff in Hl as (k & <- & Hk). destruct (Sh k Hk) as (b & t & -> & Hb & _). exact Hb.
Qed.

Lemma ends_targets : NoDup (map cn_target K).
Proof.
  set (L0 := map (fun k => sp_label (cn_target k)) R0).
  assert (P : Permutation (map cn_target K) (map (fun b => mksep b ANTIPARALLEL)
    (flat_map (fun l => tl (behind_top X l ++ [l]) ++ behind_bottom X l) tops ++ map (fun l => hd l (behind_top X l)) L0))).
  { unfold K. rewrite map_app, (Permutation_map _ (chains_perm tops X Nd C)), map_app. apply Permutation_app.
    - rewrite !map_flat_map. apply Permutation_refl'. apply flat_map_same. intros l _. unfold chains. rewrite !map_app, toplinks_target, links_target. reflexivity.
    - unfold L0. rewrite !map_map. apply Permutation_refl'. apply map_ext_in. intros k Hk. destruct (Sh k Hk) as (b & t & -> & _). reflexivity. }
  eapply Permutation_NoDup; [apply Permutation_sym, P|]. apply NoDup_map_inj; [congruence|].
  apply (pick_nodup (group X) _ (fun l => hd l (behind_top X l)) tops L0); auto.
  - apply groups_nodup; assumption.
  - intros l Hl. pose proof (group_nodup l Hl) as Q. unfold group in *.
    assert (E : Permutation ((tl (behind_top X l ++ [l]) ++ behind_bottom X l) ++ [hd l (behind_top X l)]) (behind_top X l ++ l :: behind_bottom X l)).
    { rewrite Permutation_app_comm. cbn [app]. destruct (behind_top X l); cbn; rewrite <- ?app_assoc; reflexivity. }
    split; [eapply Permutation_NoDup; [apply Permutation_sym, E|exact Q]|]. intros z Hz. apply (Permutation_in _ E). exact Hz.
  - unfold L0. clear - Nt Sh. induction R0 as [|k R IH]; [constructor|]. cbn [map] in *. inversion Nt as [|? ? N1 N2]; subst. constructor.
    + intro H. apply N1. apply in_map_iff in H as (k' & E & H). apply in_map_iff. exists k'. split; [|exact H].
      destruct (Sh k (or_introl eq_refl)) as (b & t & -> & _). destruct (Sh k' (or_intror H)) as (b' & t' & -> & _). cbn in E. subst t'. reflexivity.
    + apply IH; [exact N2|]. intros k' Hk'. apply Sh. right. exact Hk'.
  - intros l Hl. apply in_map_iff in Hl as (k & <- & Hk). destruct (Sh k Hk) as (b & t & -> & _ & Ht). exact Ht.
Qed.

End Ends.

(** * Histories *)

Section Hist.
Context {T : Type} {O : LenOps T} {W : LenLaws T}.

Lemma plain_shape e0 (d : decomp T) : dec_ok e0 d -> proper e0 ->
  NoDup (map cn_source (rights d)) /\ NoDup (map cn_target (rights d)) /\
  forall k, In k (rights d) -> exists b t, k = right_conn (b, t) /\ In b (e_top e0) /\ In t (e_top e0).
Proof.
  intros H P0. pose proof (conns_sources e0 d H) as N. rewrite map_app in N. apply NoDup_app_l in N as (N1 & N2 & _). split; [exact N2|]. split.
  - eapply Permutation_NoDup; [|exact N1]. rewrite (Permutation_map cn_source (conns_reverse e0 d H)), map_map. reflexivity.
  - intros k Hk. destruct (conns_right e0 d H k Hk) as (b & t & -> & D). exists b, t. split; [reflexivity|].
    destruct D as (x & y & n & (X & Y & E & _) & (U & V & E' & _) & _). split.
    + apply bot_in; [exact P0|]. rewrite E. apply in_or_app. right. left. reflexivity.
    + rewrite E'. apply in_or_app. right. left. reflexivity.
Qed.

Variables (i : iet T) (s : slen T) (J rest : list injection) (tr : list dstep) (d2 : decomp T).
Hypothesis H : injected_decomposition i s J tr d2.
Hypothesis C : consistent (i_top i) (J ++ rest).
Hypothesis Z : tr = [] \/ rest = [].

Lemma injected_connections : exists K, (tr = [] -> K = injected_rights (J ++ rest)) /\
  (forall k, In k K -> exists p, k = right_conn p) /\ NoDup (map cn_source K) /\ NoDup (map cn_target K) /\
  incl (rights d2) K /\ incl (lefts d2) (map conn_neg K) /\ NoDup (lefts d2) /\ NoDup (rights d2) /\
  incl (injected_rights (J ++ rest)) K /\ (tr = [] -> Permutation (rights d2) (injected_rights J) /\ Permutation (lefts d2) (injected_lefts J)).
Proof.
  destruct (injected_history i s J tr d2 H) as (tr0 & d & Hh & LK & F & P). pose proof (history_ok _ _ _ _ Hh) as Hd.
  assert (P0 : proper (exch_of i s)) by (destruct (dk_inv _ _ Hd) as (D & CI); apply (ci_start _ _ _ _ CI)).
  assert (Nd : NoDup (i_top i)) by apply P0.
  destruct (plain_shape _ _ Hd P0) as (Ns & Nt & Sh).
  set (X := J ++ rest) in *. set (K := injected_rights X ++ map (stretch X) (rights d)).
  assert (Em : map (stretch X) (rights d) = map (stretch J) (rights d)).
  { destruct Z as [->| ->]; [|unfold X; rewrite app_nil_r; reflexivity].
    inversion F; subst. cbn in P. apply Permutation_sym, Permutation_nil in P. rewrite P. reflexivity. }
  pose proof (seen_rights i s J tr0 d d2 Hh LK) as PR. pose proof (seen_lefts i s J tr0 d d2 Hh LK) as PL.
  rewrite (Permutation_map (stretch J) (conns_reverse _ d Hd)) in PL. rewrite map_map in PL.
  change (fun x => stretch J (conn_neg x)) with (fun x => conn_neg (stretch J x)) in PL. rewrite <- map_map, <- Em in PL. rewrite <- Em in PR.
  assert (NK : NoDup K) by (eapply NoDup_map_inv; apply (ends_sources (i_top i) X (rights d) Nd C Ns Sh)).
  assert (IJ : injected_rights X = injected_rights J ++ injected_rights rest) by (unfold X, injected_rights; apply flat_map_app).
  assert (ILJ : incl (injected_lefts J) (map conn_neg (injected_rights X))).
  { intros k Hk. unfold injected_lefts in Hk. apply in_flat_map in Hk as (j & Hj & Hk). apply in_map_iff in Hk as ((t, b) & <- & Hk).
    assert (Q : In (b, t) (flat_map ij_right X)).
    { apply (cs_reverse _ _ C). apply in_flat_map. exists j. split; [unfold X; apply in_or_app; auto|exact Hk]. }
    apply in_flat_map in Q as (j' & Hj' & Q). apply in_map_iff. exists (right_conn (b, t)). split; [reflexivity|].
    unfold injected_rights. apply in_flat_map. exists j'. split; [exact Hj'|]. apply in_map. exact Q. }
  exists K. split; [|split; [|split; [|split; [|split; [|split; [|split; [|split; [|split]]]]]]]].
  - intros ->. inversion F; subst. cbn in P. apply Permutation_sym, Permutation_nil in P. unfold K. rewrite P. apply app_nil_r.
  - apply (ends_shape (i_top i)). exact Sh.
  - apply (ends_sources (i_top i)); assumption.
  - apply (ends_targets (i_top i)); assumption.
  - intros k Hk. apply (Permutation_in _ PR) in Hk. unfold K. rewrite IJ. rewrite !in_app_iff in *. tauto.
  - intros k Hk. apply (Permutation_in _ PL) in Hk. unfold K. rewrite map_app. apply in_app_or in Hk as [Hk|Hk]; apply in_or_app; [left; apply ILJ, Hk|right; exact Hk].
  - eapply Permutation_NoDup; [apply Permutation_sym, PL|]. unfold K in NK. apply NoDup_app_l in NK as (N1 & N2 & N3).
    apply NoDup_app_intro.
    + unfold injected_lefts. rewrite <- map_flat_map. apply NoDup_map_inj; [intros [] [] _ _ Q; unfold left_conn in Q; cbn in Q; congruence|].
      pose proof (cs_left _ _ C) as Q. unfold X in Q. rewrite flat_map_app in Q. apply NoDup_app_l in Q. apply Q.
    + apply NoDup_map_inj; [|exact N2]. intros [a b] [a' b'] _ _ Q. unfold conn_neg in Q. cbn in Q. congruence.
    + intros k H1 H2. apply ILJ in H1. apply in_map_iff in H1 as (k1 & E1 & H1). apply in_map_iff in H2 as (k2 & E2 & H2).
      assert (k1 = k2) by (destruct k1, k2; unfold conn_neg in *; cbn in *; congruence). subst k2. exact (N3 _ H1 H2).
  - eapply Permutation_NoDup; [apply Permutation_sym, PR|]. unfold K in NK. rewrite IJ in NK.
    assert (Q : Permutation ((injected_rights J ++ injected_rights rest) ++ map (stretch X) (rights d)) (injected_rights rest ++ injected_rights J ++ map (stretch X) (rights d))).
    { rewrite <- app_assoc. apply Permutation_app_swap_app. }
    apply (Permutation_NoDup Q) in NK. apply NoDup_app_l in NK. apply NK.
  - intros k Hk. unfold K. apply in_or_app. auto.
  - intros ->. inversion F; subst. cbn in P. apply Permutation_sym, Permutation_nil in P. rewrite P in PR, PL. cbn in PR, PL. rewrite app_nil_r in *. auto.
Qed.

Theorem injected_check : dec_check d2 = Ok tt.
Proof.
  destruct injected_connections as (K & _ & A1 & A2 & A3 & A4 & A5 & A6 & A7 & _). exact (check_of d2 K A1 A2 A3 A4 A5 A6 A7).
Qed.

Theorem injected_distinct : NoDup (map cn_source (lefts d2 ++ rights d2)).
Proof.
  destruct injected_connections as (K & _ & A1 & A2 & A3 & A4 & A5 & A6 & A7 & _). rewrite map_app. apply NoDup_app_intro.
  - apply NoDup_map_inj; [|exact A6]. intros x y Hx Hy E. apply A5 in Hx, Hy. apply in_map_iff in Hx as (k & <- & Hk). apply in_map_iff in Hy as (k' & <- & Hk').
    f_equal. apply (map_inj_in cn_target K); auto.
  - apply NoDup_map_inj; [|exact A7]. intros x y Hx Hy E. apply (map_inj_in cn_source K); auto.
  - intros z Hx Hy. apply in_map_iff in Hx as (x & <- & Hx). apply in_map_iff in Hy as (y & E & Hy). apply A5 in Hx. apply A4 in Hy.
    apply in_map_iff in Hx as (k & <- & Hk). destruct (A1 k Hk) as (p & ->). destruct (A1 y Hy) as (q & ->). discriminate.
Qed.

Theorem injected_perimeter c x : component d2 c x ->
  comp_at d2 c = Ok x /\ i_swap (dc_iet x) = false /\ NoDup (i_top (dc_iet x)) /\ Permutation (i_top (dc_iet x)) (i_bottom (dc_iet x)) /\
  incl (i_top (dc_iet x)) (d_keys d2) /\ (exists a ta b tb, i_top (dc_iet x) = a :: ta /\ i_bottom (dc_iet x) = b :: tb) /\
  NoDup (flat_map (conns_of d2) (d_keys d2)).
Proof.
  intro Hx. destruct (injected_history i s J tr d2 H) as (tr0 & d & Hh & LK & _). pose proof (history_ok _ _ _ _ Hh) as Hd.
  assert (Ec : d_comps d = d_comps d2) by apply LK. assert (Ek : d_keys d = d_keys d2) by apply LK.
  assert (Hx' : component d c x) by (unfold component in *; rewrite Ec; exact Hx).
  destruct (component_mid _ _ _ Hx') as (C1 & C2 & HD & <-).
  split; [apply comp_at_nth; exact Hx|]. split; [exact (comp_swap _ d Hd C1 C2 x HD)|]. split; [exact (comp_nodup _ d Hd C1 C2 x HD)|].
  split; [exact (comp_perm _ d Hd C1 C2 x HD)|]. split; [rewrite <- Ek; exact (comp_keys _ d Hd C1 C2 x HD)|].
  split; [exact (rows_cons _ d Hd C1 C2 x HD)|].
  pose proof injected_distinct as N. apply NoDup_map_inv in N.
  eapply Permutation_NoDup; [apply Permutation_sym, (conn_app_perm (fun l => left_conns (d_conns d2 l)) (fun l => right_conns (d_conns d2 l)))|]. exact N.
Qed.

End Hist.

(** * Consistent injections are accepted *)

Section Accept.
Context {T : Type} {O : LenOps T} {W : LenLaws T}.

Definition with_injected (d : decomp T) (e : hedge) (ls rs : list (label * label)) : decomp T :=
  let c := d_conns d (he_label e) in
  let newl := map left_conn (if he_top e then rev ls else ls) in
  let newr := map right_conn (if he_top e then rev rs else rs) in
  set_conns d (upd (d_conns d) (he_label e)
    (if he_top e then mkconns (topLeft c ++ newl) (topRight c ++ newr) (bottomLeft c) (bottomRight c)
     else mkconns (topLeft c) (topRight c) (bottomLeft c ++ newl) (bottomRight c ++ newr))).

Lemma inject_accept (d : decomp T) e ls rs : In (he_label e) (d_keys d) -> dec_check d = Ok tt ->
  ls = [] \/ lft d (he_label e) (he_top e) = [] -> rs = [] \/ rgt d (he_label e) (he_top e) = [] ->
  dec_check (with_injected d e ls rs) = Ok tt ->
  inject d e ls rs = Ok (map left_conn ls, map right_conn rs, with_injected d e ls rs).
Proof.
  intros Hk C1 Hl Hr C2. unfold inject. rewrite C1. cbn [bind]. rewrite (conns_at_ok d _ Hk). cbn [bind]. set (c := d_conns d (he_label e)) in *.
  assert (A1 : ((length (map left_conn (if he_top e then rev ls else ls)) =? 0) || (length (if he_top e then topLeft c else bottomLeft c) =? 0))%bool = true).
  { destruct Hl as [->|Hl]; [destruct (he_top e); reflexivity|]. unfold lft in Hl. fold c in Hl. rewrite Hl. apply Bool.orb_true_r. }
  assert (A2 : ((length (map right_conn (if he_top e then rev rs else rs)) =? 0) || (length (if he_top e then topRight c else bottomRight c) =? 0))%bool = true).
  { destruct Hr as [->|Hr]; [destruct (he_top e); reflexivity|]. unfold rgt in Hr. fold c in Hr. rewrite Hr. apply Bool.orb_true_r. }
  rewrite A1, A2. cbn [assert_]. unfold with_injected in *. fold c in C2 |- *. cbv zeta in C2 |- *.
  destruct (he_top e) eqn:Et; rewrite C2; cbn [bind]; rewrite <- ?map_rev, ?rev_involutive; reflexivity.
Qed.

Lemma added_rights (d : decomp T) e ls rs : NoDup (d_keys d) -> In (he_label e) (d_keys d) ->
  Permutation (rights (with_injected d e ls rs)) (map right_conn rs ++ rights d).
Proof.
  intros ND Kl. unfold rights, with_injected. cbn [set_conns d_conns d_keys].
  assert (P : Permutation (map right_conn (if he_top e then rev rs else rs)) (map right_conn rs)).
  { apply Permutation_map. destruct (he_top e); [apply Permutation_sym, Permutation_rev|reflexivity]. }
  rewrite <- P. apply (Permutation_count_occ conn_dec). intro x. rewrite count_occ_app.
  match goal with |- context [upd (d_conns d) (he_label e) ?c'] => pose proof (occ_upd right_conns (d_keys d) (d_conns d) (he_label e) c' x ND Kl) as Q end.
  unfold occ in Q. unfold right_conns in Q. destruct (he_top e); cbn [topRight bottomRight] in *; rewrite ?count_occ_app in *; lia.
Qed.

Lemma added_lefts (d : decomp T) e ls rs : NoDup (d_keys d) -> In (he_label e) (d_keys d) ->
  Permutation (lefts (with_injected d e ls rs)) (map left_conn ls ++ lefts d).
Proof.
  intros ND Kl. unfold lefts, with_injected. cbn [set_conns d_conns d_keys].
  assert (P : Permutation (map left_conn (if he_top e then rev ls else ls)) (map left_conn ls)).
  { apply Permutation_map. destruct (he_top e); [apply Permutation_sym, Permutation_rev|reflexivity]. }
  rewrite <- P. apply (Permutation_count_occ conn_dec). intro x. rewrite count_occ_app.
  match goal with |- context [upd (d_conns d) (he_label e) ?c'] => pose proof (occ_upd left_conns (d_keys d) (d_conns d) (he_label e) c' x ND Kl) as Q end.
  unfold occ in Q. unfold left_conns in Q. destruct (he_top e); cbn [topLeft bottomLeft] in *; rewrite ?count_occ_app in *; lia.
Qed.

Lemma filter_perm {A} (f : A -> bool) l m : Permutation l m -> Permutation (filter f l) (filter f m).
Proof.
  induction 1 as [|x l m H IH|x y l|l m n H1 IH1 H2 IH2]; cbn [filter]; [constructor| | |etransitivity; eassumption].
  - destruct (f x); [constructor|]; exact IH.
  - destruct (f x), (f y); try reflexivity. constructor.
Qed.

Theorem injected_accepted (i : iet T) (s : slen T) J j rest d2 x :
  injected_decomposition i s J [] d2 -> consistent (i_top i) (J ++ j :: rest) ->
  component d2 (he_comp (ij_at j)) x -> in_row x (he_top (ij_at j)) (he_label (ij_at j)) ->
  ij_left j = [] \/ he_left d2 (ij_at j) = Ok [] ->
  exists d', inject d2 (ij_at j) (ij_left j) (ij_right j) = Ok (map left_conn (ij_left j), map right_conn (ij_right j), d').
Proof.
  intros H C Hx Hr Hl.
  pose proof (injected_check i s J (j :: rest) [] d2 H C (or_introl eq_refl)) as Ck.
  destruct (injected_connections i s J (j :: rest) [] d2 H C (or_introl eq_refl)) as (K & EK & A1 & A2 & A3 & A4 & A5 & A6 & A7 & A8 & A9).
  specialize (EK eq_refl). destruct (A9 eq_refl) as [PR PL]. clear A9.
  destruct (injected_history i s J [] d2 H) as (tr0 & d & Hh & LK & F & P). pose proof (history_ok _ _ _ _ Hh) as Hd.
  assert (P0 : proper (exch_of i s)) by (destruct (dk_inv _ _ Hd) as (D & CI); apply (ci_start _ _ _ _ CI)).
  assert (Nd : NoDup (i_top i)) by apply P0.
  assert (K2 : d_keys d2 = i_top i) by (rewrite <- (history_keys _ _ _ _ Hh); symmetry; apply LK).
  assert (Kl : In (he_label (ij_at j)) (i_top i)) by (apply (cs_at _ _ C j); apply in_or_app; right; left; reflexivity).
  exists (with_injected d2 (ij_at j) (ij_left j) (ij_right j)). apply inject_accept.
  - rewrite K2. exact Kl.
  - exact Ck.
  - destruct Hl as [Hl|Hl]; [left; exact Hl|right]. destruct (ij_at j) as [c l top]. cbn [he_label he_top] in *.
    rewrite he_left_ok in Hl by (rewrite K2; exact Kl). injection Hl as ->. reflexivity.
  - destruct (empty_or (ij_right j)) as [Er|Nr]; [left; exact Er|right].
    assert (Ecm : d_comps d = d_comps d2) by apply LK.
    assert (Hx' : component d (he_comp (ij_at j)) x) by (unfold component in *; rewrite Ecm; exact Hx).
    pose proof (row_live _ _ _ _ _ _ Hd Hx' Hr) as Lv.
    assert (HK : rel (i_top i) (behind_top J) (behind_bottom J) (injected_lefts J) (injected_rights J) (live (pieces d)) (d_conns d) (d_conns d2)) by apply LK.
    assert (B : NoDup (map (fun j => (he_label (ij_at j), he_top (ij_at j))) (filter (fun j => negb (length (ij_right j) =? 0)) (j :: J ++ rest)))).
    { eapply Permutation_NoDup; [|exact (cs_once _ _ C)]. apply Permutation_map, filter_perm. symmetry. apply Permutation_middle. }
    pose proof (behind_none j (J ++ rest) B Nr) as Z. unfold rgt. destruct (he_top (ij_at j)).
    + rewrite (rl_top _ _ _ _ _ _ _ _ HK _ Lv). unfold behind_top in *. rewrite flat_map_app in Z. apply app_eq_nil in Z as [-> _]. reflexivity.
    + destruct (rl_bot _ _ _ _ _ _ _ _ HK _ Lv) as (ch & E1 & E2). rewrite E2.
      assert (Ech : ch = []).
      { inversion F; subst. cbn in P. apply Permutation_sym, Permutation_nil in P. apply (links_nil (he_label (ij_at j))). rewrite <- E1.
        destruct (bottomRight (d_conns d (he_label (ij_at j)))) as [|k q] eqn:Eq; [reflexivity|]. exfalso.
        assert (Q : In k (rights d)); [|rewrite P in Q; exact Q].
        unfold rights. apply in_flat_map. exists (he_label (ij_at j)). split; [rewrite (history_keys _ _ _ _ Hh); exact Kl|]. rewrite Eq. apply in_or_app. right. left. reflexivity. }
      rewrite Ech. unfold behind_bottom in *. rewrite flat_map_app in Z. apply app_eq_nil in Z as [-> _]. reflexivity.
  - assert (QR : Permutation (rights (with_injected d2 (ij_at j) (ij_left j) (ij_right j))) (map right_conn (ij_right j) ++ injected_rights J)).
    { rewrite added_rights by (rewrite K2; assumption). apply Permutation_app_head. exact PR. }
    assert (QL : Permutation (lefts (with_injected d2 (ij_at j) (ij_left j) (ij_right j))) (map left_conn (ij_left j) ++ injected_lefts J)).
    { rewrite added_lefts by (rewrite K2; assumption). apply Permutation_app_head. exact PL. }
    assert (EX : injected_rights (J ++ j :: rest) = injected_rights J ++ map right_conn (ij_right j) ++ injected_rights rest) by (unfold injected_rights; rewrite flat_map_app; reflexivity).
    assert (NK : NoDup K) by (eapply NoDup_map_inv; exact A2).
    apply (check_of _ K); auto.
    + intros k Hk. apply (Permutation_in _ QR) in Hk. rewrite EK, EX. rewrite !in_app_iff in *. tauto.
    + intros k Hk. apply (Permutation_in _ QL) in Hk. apply in_app_or in Hk as [Hk|Hk].
      * apply in_map_iff in Hk as ((t, b) & <- & Hk).
        assert (Q : In (b, t) (flat_map ij_right (J ++ j :: rest))).
        { apply (cs_reverse _ _ C). apply in_flat_map. exists j. split; [apply in_or_app; right; left; reflexivity|exact Hk]. }
        apply in_flat_map in Q as (j' & Hj' & Q). apply in_map_iff. exists (right_conn (b, t)). split; [reflexivity|].
        rewrite EK. unfold injected_rights. apply in_flat_map. exists j'. split; [exact Hj'|]. apply in_map. exact Q.
      * apply A5. apply (Permutation_in _ (Permutation_sym PL)). exact Hk.
    + eapply Permutation_NoDup; [apply Permutation_sym, QL|]. rewrite Permutation_app_comm. unfold injected_lefts. rewrite <- map_flat_map, <- map_app.
      apply NoDup_map_inj; [intros [] [] _ _ Q; unfold left_conn in Q; cbn in Q; congruence|].
      pose proof (cs_left _ _ C) as Q. rewrite flat_map_app in Q. cbn [flat_map] in Q. rewrite app_assoc in Q. apply NoDup_app_l in Q. apply Q.
    + eapply Permutation_NoDup; [apply Permutation_sym, QR|]. rewrite Permutation_app_comm. rewrite EK, EX, app_assoc in NK. apply NoDup_app_l in NK. apply NK.
Qed.

End Accept.
