(** Consequences of the invariant: the stored connections, the half edges and the
    perimeters of a decomposition. *)
From Coq Require Import Reals Permutation Lia.
From Verif Require Import Base QcTac Spec LenT FM Subspace Lengths IET Api ZorichProof Dyn Path Direct InduceProof.
From Verif Require Import Decomp DecompSim DecompInv DecompNav DecompRef.
Open Scope nat_scope.

(** * Lists *)

Lemma NoDup_app_intro {A} (l m : list A) : NoDup l -> NoDup m -> (forall x, In x l -> ~ In x m) -> NoDup (l ++ m).
Proof.
  induction l as [|a l IH]; simpl; intros H1 H2 H3; [exact H2|]. inversion H1 as [|? ? Ha H1']; subst. constructor.
  - rewrite in_app_iff. intros [C|C]; [exact (Ha C)|exact (H3 a (or_introl eq_refl) C)].
  - apply IH; auto.
Qed.

Lemma NoDup_flat_map {A B} (g : A -> list B) L : NoDup L -> (forall l, In l L -> NoDup (g l)) ->
  (forall l l' x, In l L -> In l' L -> In x (g l) -> In x (g l') -> l = l') -> NoDup (flat_map g L).
Proof.
  induction L as [|a L IH]; intros ND H1 H2; [constructor|]. inversion ND as [|? ? Ha ND']; subst. simpl.
  apply NoDup_app_intro.
  - apply H1. left. reflexivity.
  - apply IH; auto.
    + intros l Hl. apply H1. right. exact Hl.
    + intros l l' x Hl Hl'. apply H2; right; assumption.
  - intros x Hx C. apply in_flat_map in C as (l & Hl & Hx'). apply Ha.
    rewrite (H2 a l x); [exact Hl|left; reflexivity|right; exact Hl|exact Hx|exact Hx'].
Qed.

Lemma flat_map_flat_map {A B C} (g : B -> list C) (h : A -> list B) L :
  flat_map g (flat_map h L) = flat_map (fun l => flat_map g (h l)) L.
Proof. induction L as [|a L IH]; [reflexivity|]. simpl. rewrite flat_map_app, IH. reflexivity. Qed.

Lemma map_flat_map {A B C} (g : B -> C) (h : A -> list B) L : map g (flat_map h L) = flat_map (fun l => map g (h l)) L.
Proof. induction L as [|a L IH]; [reflexivity|]. simpl. rewrite map_app, IH. reflexivity. Qed.

Lemma flat_map_nil {A B} (g : A -> list B) L : (forall x, In x L -> g x = []) -> flat_map g L = [].
Proof. intro H. rewrite (flat_map_same g (fun _ => []) L H). clear H. induction L; simpl; auto. Qed.

Lemma length_flat_map {A B} (g : A -> list B) L : length (flat_map g L) = list_sum (map (fun x => length (g x)) L).
Proof. induction L as [|a L IH]; [reflexivity|]. simpl. rewrite app_length, IH. reflexivity. Qed.

Lemma links_source l xs : map cn_source (links l xs) = map (fun b => mksep b PARALLEL) (removelast (l :: xs)).
Proof.
  revert l. induction xs as [|x xs IH]; intro l; [reflexivity|]. cbn [links map cn_source]. rewrite IH. reflexivity.
Qed.
Lemma links_target l xs : map cn_target (links l xs) = map (fun t => mksep t ANTIPARALLEL) xs.
Proof. revert l. induction xs as [|x xs IH]; intro l; [reflexivity|]. cbn [links map cn_target]. rewrite IH. reflexivity. Qed.
Lemma links_length l xs : length (links l xs) = length xs.
Proof. revert l. induction xs as [|x xs IH]; intro l; [reflexivity|]. cbn [links length]. rewrite IH. reflexivity. Qed.

Lemma removelast_in {A} (l : list A) x : In x (removelast l) -> In x l.
Proof.
  induction l as [|a [|b l] IH]; intro H; [exact H|destruct H|]. destruct H as [->|H]; [left; reflexivity|]. right. apply IH, H.
Qed.
Lemma removelast_nodup {A} (l : list A) : NoDup l -> NoDup (removelast l).
Proof.
  induction l as [|a [|b l] IH]; intro H; [exact H|constructor|]. inversion H as [|? ? Ha H']; subst.
  change (NoDup (a :: removelast (b :: l))). constructor; [|apply IH, H'].
  intro C. apply Ha, removelast_in, C.
Qed.

Lemma NoDup_map_inj {A B} (g : A -> B) l : (forall x y, In x l -> In y l -> g x = g y -> x = y) -> NoDup l -> NoDup (map g l).
Proof.
  induction l as [|a l IH]; intros H ND; [constructor|]. inversion ND as [|? ? Ha ND']; subst. simpl. constructor.
  - intro C. apply in_map_iff in C as (y & E & Hy). apply Ha. rewrite (H a y); [exact Hy|left; reflexivity|right; exact Hy|symmetry; exact E].
  - apply IH; [|exact ND']. intros x y Hx Hy. apply H; right; assumption.
Qed.

(** * What the invariant says about the connections *)

Section Conns.
Variables (e0 : exch) (E : list exch) (f : label -> conns) (D : label -> list label).
Hypothesis H : conn_inv e0 E f D.
Let z := lst (e_top e0).
Let R := flat_map (fun l => right_conns (f l)) (e_top e0).
Let L := flat_map (fun l => left_conns (f l)) (e_top e0).

Let chain (e : exch) (l : label) := D l ++ tail_of z e l.

Lemma ci_nodup_pieces : NoDup E.
Proof.
  pose proof (proj1 (ci_parts _ _ _ _ H)) as ND. assert (Ne : forall e, In e E -> e_top e <> []) by (intros e He; apply (ci_proper _ _ _ _ H e He)).
  revert ND Ne. clear. intros ND Ne. induction E as [|e E' IH]; [constructor|].
  change (live (e :: E')) with (e_top e ++ live E') in ND. destruct (NoDup_app_l _ _ ND) as (_ & N2 & N3).
  constructor; [|apply IH; [exact N2|intros x Hx; apply Ne; right; exact Hx]].
  intro C. destruct (e_top e) as [|a l] eqn:Ea; [apply (Ne e (or_introl eq_refl) Ea)|].
  apply (N3 a (or_introl eq_refl)). apply in_live. exists e. rewrite Ea. split; [exact C|left; reflexivity].
Qed.

Lemma ci_same_piece e e' l : In e E -> In e' E -> In l (e_top e) -> In l (e_top e') -> e = e'.
Proof.
  intros He He' Hl Hl'. apply in_split in He as (E1 & E2 & EE).
  pose proof (proj1 (ci_parts _ _ _ _ H)) as ND. rewrite EE in ND, He'. apply in_middle in He' as [->|He']; [reflexivity|].
  exfalso. exact (pieces_disjoint E1 e E2 e' l ND He' Hl Hl').
Qed.

Lemma ci_live e l : In e E -> In l (e_top e) -> In l (live E).
Proof. intros He Hl. apply in_live. exists e. auto. Qed.

Lemma ci_rights : Permutation R (flat_map (fun e => flat_map (fun l => links l (chain e l)) (e_top e)) E).
Proof.
  unfold R. rewrite (Permutation_flat_map (fun l => right_conns (f l)) (ci_part _ _ _ _ H)).
  rewrite flat_map_flat_map. unfold live. rewrite flat_map_flat_map.
  rewrite (flat_map_same (fun e => flat_map (fun l => flat_map (fun l0 => right_conns (f l0)) (l :: D l)) (e_top e))
            (fun e => flat_map (fun l => links l (chain e l)) (e_top e))); [reflexivity|].
  intros e He. apply flat_map_same. intros l Hl. cbn [flat_map]. rewrite (flat_map_nil _ (D l)), app_nil_r.
  - unfold right_conns. rewrite (ci_topR _ _ _ _ H). apply (ci_chain _ _ _ _ H e l He Hl).
  - intros x Hx. rewrite (ci_dead _ _ _ _ H l x (ci_live e l He Hl) Hx). reflexivity.
Qed.

Lemma ci_chain_nodup l : In l (live E) -> NoDup (l :: D l).
Proof.
  intro Hl. assert (ND : NoDup (flat_map (fun l => l :: D l) (live E))).
  { eapply Permutation_NoDup; [apply (ci_part _ _ _ _ H)|]. apply (ci_start _ _ _ _ H). }
  apply in_split in Hl as (A & B & EE). rewrite EE, flat_map_app in ND. apply NoDup_app_l in ND as (_ & ND & _).
  change (NoDup ((l :: D l) ++ flat_map (fun l => l :: D l) B)) in ND. apply NoDup_app_l in ND. apply ND.
Qed.

Lemma in_tail e l x : In x (tail_of z e l) -> x = lst (e_top e) /\ l = lst (e_bot e).
Proof.
  unfold tail_of. destruct (Nat.eqb_spec l (lst (e_bot e))); [|intros []]. destruct (Nat.eqb _ z); [intros []|].
  intros [<-|[]]. auto.
Qed.

Lemma ci_sources : NoDup (map cn_source R).
Proof.
  eapply Permutation_NoDup; [apply Permutation_map, Permutation_sym, ci_rights|].
  rewrite map_flat_map. rewrite (flat_map_same _ (fun e => flat_map (fun l => map (fun b => mksep b PARALLEL) (removelast (l :: chain e l))) (e_top e))).
  2:{ intros e He. rewrite map_flat_map. apply flat_map_same. intros l Hl. apply links_source. }
  assert (Sub : forall e l x, In x (removelast (l :: chain e l)) -> In x (l :: D l)).
  { intros e l x. unfold chain, tail_of. destruct (Nat.eqb l _); [destruct (Nat.eqb _ z)|]; rewrite ?app_nil_r; [apply removelast_in| |apply removelast_in].
    rewrite app_comm_cons, removelast_last. auto. }
  apply NoDup_flat_map; [apply ci_nodup_pieces| |].
  - intros e He. apply NoDup_flat_map.
    + apply (ci_proper _ _ _ _ H e He).
    + intros l Hl. apply NoDup_map_inj; [intros x y _ _ Q; congruence|]. pose proof (ci_chain_nodup l (ci_live e l He Hl)) as N.
      unfold chain, tail_of. destruct (Nat.eqb l _); [destruct (Nat.eqb _ z)|]; rewrite ?app_nil_r; [apply removelast_nodup, N| |apply removelast_nodup, N].
      rewrite app_comm_cons, removelast_last. exact N.
    + intros l l' x Hl Hl' Hx Hx'. apply in_map_iff in Hx as (b & <- & Hb). apply in_map_iff in Hx' as (b' & Eb & Hb').
      injection Eb as ->. destruct (ci_parts _ _ _ _ H) as (_ & _ & I). 
      apply (I l l' b); eauto using ci_live.
  - intros e e' x He He' Hx Hx'. apply in_flat_map in Hx as (l & Hl & Hx). apply in_flat_map in Hx' as (l' & Hl' & Hx').
    apply in_map_iff in Hx as (b & <- & Hb). apply in_map_iff in Hx' as (b' & Eb & Hb').
    injection Eb as ->. destruct (ci_parts _ _ _ _ H) as (_ & _ & I).
    assert (l = l') by (apply (I l l' b); eauto using ci_live). subst l'. exact (ci_same_piece e e' l He He' Hl Hl').
Qed.

Lemma ci_targets : NoDup (map cn_target R).
Proof.
  eapply Permutation_NoDup; [apply Permutation_map, Permutation_sym, ci_rights|].
  rewrite map_flat_map. rewrite (flat_map_same _ (fun e => flat_map (fun l => map (fun b => mksep b ANTIPARALLEL) (chain e l)) (e_top e))).
  2:{ intros e He. rewrite map_flat_map. apply flat_map_same. intros l Hl. apply links_target. }
  destruct (ci_parts _ _ _ _ H) as (_ & I1 & I).
  assert (Lin : forall e, In e E -> In (lst (e_top e)) (e_top e)) by (intros e He; apply lst_in, (ci_proper _ _ _ _ H e He)).
  assert (K : forall e e' l l' x, In e E -> In e' E -> In l (e_top e) -> In l' (e_top e') -> In x (chain e l) -> In x (chain e' l') -> l = l').
  { intros e e' l l' x He He' Hl Hl' Hx Hx'. apply in_app_or in Hx as [Hx|Hx]; apply in_app_or in Hx' as [Hx'|Hx'].
    - apply (I l l' x); eauto using ci_live; right; assumption.
    - exfalso. apply in_tail in Hx' as [-> _]. apply (I1 l (lst (e_top e'))); eauto using ci_live.
    - exfalso. apply in_tail in Hx as [-> _]. apply (I1 l' (lst (e_top e))); eauto using ci_live.
    - apply in_tail in Hx as [-> ->]. apply in_tail in Hx' as [Ex ->].
      rewrite (ci_same_piece e e' (lst (e_top e)) He He'); [reflexivity|auto|]. rewrite Ex. auto. }
  apply NoDup_flat_map; [apply ci_nodup_pieces| |].
  - intros e He. apply NoDup_flat_map.
    + apply (ci_proper _ _ _ _ H e He).
    + intros l Hl. apply NoDup_map_inj; [intros x y _ _ Q; congruence|]. pose proof (ci_chain_nodup l (ci_live e l He Hl)) as N.
      inversion N as [|? ? _ N']; subst. unfold chain. apply NoDup_app_intro; [exact N'| |].
      * unfold tail_of. destruct (Nat.eqb l _); [destruct (Nat.eqb _ z)|]; repeat constructor. intros [].
      * intros x Hx C. apply in_tail in C as [-> _]. apply (I1 l (lst (e_top e))); eauto using ci_live.
    + intros l l' x Hl Hl' Hx Hx'. apply in_map_iff in Hx as (b & <- & Hb). apply in_map_iff in Hx' as (b' & Eb & Hb').
      injection Eb as ->. exact (K e e l l' b He He Hl Hl' Hb Hb').
  - intros e e' x He He' Hx Hx'. apply in_flat_map in Hx as (l & Hl & Hx). apply in_flat_map in Hx' as (l' & Hl' & Hx').
    apply in_map_iff in Hx as (b & <- & Hb). apply in_map_iff in Hx' as (b' & Eb & Hb').
    injection Eb as ->. assert (l = l') by exact (K e e' l l' b He He' Hl Hl' Hb Hb'). subst l'. exact (ci_same_piece e e' l He He' Hl Hl').
Qed.

Lemma ci_lefts_perm : Permutation L (map conn_neg R).
Proof.
  apply (Permutation_count_occ conn_dec). intro x. pose proof (ci_lefts _ _ _ _ H x) as Q. unfold occ in Q. unfold L. rewrite Q.
  rewrite (count_occ_map conn_neg conn_dec conn_dec).
  - rewrite conn_neg_neg. reflexivity.
  - intros a b Q'. rewrite <- (conn_neg_neg a), <- (conn_neg_neg b), Q'. reflexivity.
Qed.

Lemma ci_right_shape x : In x R -> exists b t, x = right_conn (b, t) /\ direct_connection e0 b t.
Proof. apply (ci_real _ _ _ _ H). Qed.

Lemma ci_rights_nodup : NoDup R.
Proof. eapply NoDup_map_inv. exact ci_sources. Qed.

Lemma ci_all_sources : NoDup (map cn_source (L ++ R)).
Proof.
  rewrite map_app. apply NoDup_app_intro.
  - eapply Permutation_NoDup; [apply Permutation_map, Permutation_sym, ci_lefts_perm|]. rewrite map_map. exact ci_targets.
  - exact ci_sources.
  - intros s Hs C. apply (Permutation_in _ (Permutation_map cn_source ci_lefts_perm)) in Hs. rewrite map_map in Hs.
    apply in_map_iff in Hs as (x & Ex & Hx). apply in_map_iff in C as (y & Ey & Hy).
    destruct (ci_right_shape x Hx) as (b & t & -> & _). destruct (ci_right_shape y Hy) as (b' & t' & -> & _).
    subst s. discriminate.
Qed.

(** ** The number of connections *)

Lemma sum_unit (A : list label) l k : NoDup A -> In l A -> list_sum (map (fun x => if Nat.eqb x l then k else 0) A) = k.
Proof.
  intros ND Hl. apply in_split in Hl as (A1 & A2 & ->). apply NoDup_remove_2 in ND. rewrite map_app, list_sum_app. cbn [map list_sum fold_right].
  assert (Z : forall B, ~ In l B -> list_sum (map (fun x => if Nat.eqb x l then k else 0) B) = 0).
  { induction B as [|b B IH]; intro N; [reflexivity|]. cbn [map list_sum fold_right]. destruct (Nat.eqb_spec b l) as [->|]; [exfalso; apply N; left; reflexivity|].
    apply IH. intro C. apply N. right. exact C. }
  change (fold_right Init.Nat.add 0) with list_sum.
  rewrite Nat.eqb_refl, !Z; [lia| |]; intro C; apply ND, in_or_app; auto.
Qed.

Lemma sum_add {A} (g h : A -> nat) l : list_sum (map (fun x => g x + h x) l) = list_sum (map g l) + list_sum (map h l).
Proof. induction l as [|a l IH]; [reflexivity|]. cbn [map list_sum fold_right] in *. unfold list_sum in IH. lia. Qed.

Lemma ci_number : length R + length (live E) + 1 = length (e_top e0) + length E.
Proof.
  rewrite (Permutation_length ci_rights), (Permutation_length (ci_part _ _ _ _ H)). 
  unfold live at 2. rewrite flat_map_flat_map. rewrite !length_flat_map. unfold live. rewrite length_flat_map.
  set (t e := if Nat.eqb (lst (e_top e)) z then 0 else 1).
  assert (Q1 : map (fun e => length (flat_map (fun l => links l (chain e l)) (e_top e))) E =
               map (fun e => list_sum (map (fun l => length (D l)) (e_top e)) + t e) E).
  { apply map_ext_in. intros e He. rewrite length_flat_map.
    destruct (ci_proper _ _ _ _ H e He) as [(N & Pm & _) Ne].
    assert (Hl : In (lst (e_bot e)) (e_top e)).
    { apply bot_in; [apply (ci_proper _ _ _ _ H e He)|]. apply lst_in, bot_nonempty; [apply (ci_proper _ _ _ _ H e He)|exact Ne]. }
    rewrite (map_ext (fun l => length (links l (chain e l))) (fun l => length (D l) + if Nat.eqb l (lst (e_bot e)) then t e else 0)).
    - rewrite sum_add. rewrite (sum_unit (e_top e) (lst (e_bot e)) (t e) N Hl). reflexivity.
    - intro l. rewrite links_length. unfold chain. rewrite app_length. f_equal. unfold tail_of, t.
      destruct (Nat.eqb l _); [destruct (Nat.eqb _ z)|]; reflexivity. }
  rewrite Q1, sum_add.
  assert (Q2 : map (fun e => length (flat_map (fun l => l :: D l) (e_top e))) E =
               map (fun e => length (e_top e) + list_sum (map (fun l => length (D l)) (e_top e))) E).
  { apply map_ext. intro e. rewrite length_flat_map. induction (e_top e) as [|a l IH]; [reflexivity|].
    cbn [map list_sum fold_right length] in *. unfold list_sum in IH. lia. }
  rewrite Q2, sum_add.
  enough (Q3 : list_sum (map t E) + 1 = length E) by lia.
  destruct (ci_open _ _ _ _ H) as (e & He & Hz & _). fold z in Hz. pose proof ci_nodup_pieces as ND.
  apply in_split in He as (E1 & E2 & EE). rewrite EE in *.
  assert (One : forall B, (forall e', In e' B -> lst (e_top e') <> z) -> list_sum (map t B) = length B).
  { induction B as [|b B IH]; intro N; [reflexivity|]. cbn [map list_sum fold_right length]. unfold list_sum in IH. rewrite IH by (intros; apply N; right; assumption).
    unfold t. destruct (Nat.eqb_spec (lst (e_top b)) z) as [Q|]; [exfalso; apply (N b (or_introl eq_refl) Q)|reflexivity]. }
  assert (Oth : forall e', In e' (E1 ++ E2) -> lst (e_top e') <> z).
  { intros e' He' C. rewrite <- EE in *. assert (In e' E) by (rewrite EE; apply in_middle; auto). assert (In e E) by (rewrite EE; apply in_middle; auto).
    assert (e = e').
    { apply (ci_same_piece e e' z); auto; [rewrite <- Hz|rewrite <- C]; apply lst_in, (ci_proper _ _ _ _ H); assumption. }
    subst e'. rewrite EE in ND. apply NoDup_remove_2 in ND. contradiction. }
  rewrite map_app, list_sum_app, app_length. cbn [map list_sum fold_right length]. change (fold_right Init.Nat.add 0) with list_sum.
  rewrite !One by (intros e' He'; apply Oth, in_or_app; auto). unfold t. rewrite Hz, Nat.eqb_refl. lia.
Qed.

(** ** Completeness *)

Lemma ci_complete b t : (forall e, In e E -> length (e_top e) = 1) -> direct_connection e0 b t -> In (right_conn (b, t)) R.
Proof.
  intros One Hd. pose proof (ci_start _ _ _ _ H) as P0.
  assert (Len : length (live E) = length E).
  { clear -One. induction E as [|e E' IH]; [reflexivity|]. change (live (e :: E')) with (e_top e ++ live E'). rewrite app_length, (One e (or_introl eq_refl)), IH.
    - reflexivity.
    - intros x Hx. apply One. right. exact Hx. }
  pose proof ci_number as N. rewrite Len in N.
  set (S := map (fun x => sp_label (cn_source x)) R).
  assert (NS : NoDup S).
  { unfold S. apply NoDup_map_inj; [|apply ci_rights_nodup]. intros x y Hx Hy Q.
    destruct (ci_right_shape x Hx) as (b1 & t1 & -> & D1). destruct (ci_right_shape y Hy) as (b2 & t2 & -> & D2).
    simpl in Q. subst b2. rewrite (direct_target e0 b1 t1 t2 P0 D1 D2). reflexivity. }
  assert (Sub : forall a, In a S -> In a (removelast (e_bot e0))).
  { intros a Ha. apply in_map_iff in Ha as (x & <- & Hx). destruct (ci_right_shape x Hx) as (b1 & t1 & -> & D1).
    destruct (direct_not_last e0 b1 t1 P0 D1) as [(X & c & Y & EX) _]. simpl. rewrite EX.
    change (X ++ b1 :: c :: Y) with (X ++ [b1] ++ c :: Y). rewrite app_assoc, removelast_app by discriminate. apply in_or_app. left. apply in_or_app. right. left. reflexivity. }
  assert (Lb : length (e_bot e0) = length (e_top e0)) by (symmetry; apply Permutation_length, P0).
  assert (Lr : length (removelast (e_bot e0)) <= length S).
  { unfold S. rewrite map_length. assert (length (removelast (e_bot e0)) + 1 <= length (e_bot e0) \/ e_bot e0 = []).
    { destruct (e_bot e0) as [|c l] eqn:Eb; [right; reflexivity|left]. rewrite (app_removelast_last 0 (l := c :: l)) at 2 by discriminate.
      rewrite app_length. simpl. lia. }
    destruct H0 as [Q|Q]; [lia|]. rewrite Q. simpl. lia. }
  assert (Hb : In b S).
  { apply (NoDup_length_incl NS Lr Sub). destruct (direct_not_last e0 b t P0 Hd) as [(X & c & Y & EX) _]. rewrite EX.
    change (X ++ b :: c :: Y) with (X ++ [b] ++ c :: Y). rewrite app_assoc, removelast_app by discriminate. apply in_or_app. left. apply in_or_app. right. left. reflexivity. }
  apply in_map_iff in Hb as (x & Ex & Hx). destruct (ci_right_shape x Hx) as (b1 & t1 & -> & D1). simpl in Ex. subst b1.
  rewrite (direct_target e0 b t t1 P0 Hd D1). exact Hx.
Qed.

(** ** The consistency check *)

Lemma sep_eqb_eq a b : sep_eqb a b = true <-> a = b.
Proof.
  unfold sep_eqb. rewrite andb_true_iff, Nat.eqb_eq. destruct a as [la oa], b as [lb ob]. simpl. split.
  - intros [-> Q]. destruct oa, ob; try discriminate; reflexivity.
  - intro Q. injection Q as -> ->. destruct ob; auto.
Qed.
Lemma conn_eqb_eq a b : conn_eqb a b = true <-> a = b.
Proof.
  unfold conn_eqb. rewrite andb_true_iff, !sep_eqb_eq. destruct a, b. simpl. split; [intros [-> ->]; reflexivity|]. intro Q. injection Q as -> ->. auto.
Qed.

Lemma at_sep_neg s (X : list connection) :
  at_separatrix s (map conn_neg X) = map conn_neg (at_separatrix s X).
Proof.
  induction X as [|x X IH]; [reflexivity|]. cbn [map at_separatrix flat_map]. fold (at_separatrix s (map conn_neg X)). fold (at_separatrix s X).
  rewrite IH, map_app. f_equal. cbn [conn_neg cn_source cn_target].
  destruct (sep_eqb (cn_target x) s), (sep_eqb (cn_source x) s); reflexivity.
Qed.

Lemma at_sep_perm s X Y : Permutation X Y -> Permutation (at_separatrix s X) (at_separatrix s Y).
Proof. intro P. unfold at_separatrix. apply Permutation_flat_map, P. Qed.

Lemma at_sep_in s X x : In x (at_separatrix s X) -> In x X /\ (cn_source x = s \/ cn_target x = s).
Proof.
  intro Q. apply in_flat_map in Q as (y & Hy & Q). apply in_app_or in Q as [Q|Q].
  - destruct (sep_eqb (cn_source y) s) eqn:Es; [|destruct Q]. destruct Q as [<-|[]]. apply sep_eqb_eq in Es. auto.
  - destruct (sep_eqb (cn_target y) s) eqn:Es; [|destruct Q]. destruct Q as [<-|[]]. apply sep_eqb_eq in Es. auto.
Qed.

Lemma at_sep_nodup s X : NoDup X -> (forall x, In x X -> cn_source x <> cn_target x) -> NoDup (at_separatrix s X).
Proof.
  intros ND N. unfold at_separatrix. apply NoDup_flat_map; [exact ND| |].
  - intros x Hx. destruct (sep_eqb (cn_source x) s) eqn:Q1, (sep_eqb (cn_target x) s) eqn:Q2.
    + apply sep_eqb_eq in Q1, Q2. exfalso. apply (N x Hx). congruence.
    + repeat constructor. intros [].
    + repeat constructor. intros [].
    + constructor.
  - assert (K : forall l x, In x ((if sep_eqb (cn_source l) s then [l] else []) ++ (if sep_eqb (cn_target l) s then [l] else [])) -> x = l).
    { intros l x Q. apply in_app_or in Q as [Q|Q]; destruct (sep_eqb _ s); try destruct Q as [Q|[]]; auto; destruct Q. }
    intros l l' x _ _ Hx Hx'. rewrite <- (K l x Hx). apply K, Hx'.
Qed.

Lemma at_sep_R s : at_separatrix s R = [] \/ exists x, at_separatrix s R = [x].
Proof.
  assert (N : forall x, In x R -> cn_source x <> cn_target x).
  { intros x Hx. destruct (ci_right_shape x Hx) as (b & t & -> & _). discriminate. }
  pose proof (at_sep_nodup s R ci_rights_nodup N) as ND.
  assert (U : forall x y, In x (at_separatrix s R) -> In y (at_separatrix s R) -> x = y).
  { intros x y Hx Hy. apply at_sep_in in Hx as [Hx Sx], Hy as [Hy Sy].
    destruct (ci_right_shape x Hx) as (b1 & t1 & -> & D1). destruct (ci_right_shape y Hy) as (b2 & t2 & -> & D2).
    pose proof (ci_start _ _ _ _ H) as P0. simpl in Sx, Sy.
    destruct Sx as [<-|<-], Sy as [Q|Q]; try discriminate Q; injection Q as ->.
    - rewrite (direct_target e0 b1 t1 t2 P0 D1 D2). reflexivity.
    - rewrite (direct_source e0 b1 b2 t1 P0 D1 D2). reflexivity. }
  destruct (at_separatrix s R) as [|x [|y l]]; [left; reflexivity|right; exists x; reflexivity|].
  exfalso. inversion ND as [|? ? Hn _]; subst. apply Hn. rewrite (U x y); [left; reflexivity|left; reflexivity|right; left; reflexivity].
Qed.

Lemma ci_separatrix_ok s : separatrix_ok s (L ++ R) = true.
Proof.
  unfold separatrix_ok. assert (Q : at_separatrix s (L ++ R) = at_separatrix s L ++ at_separatrix s R) by apply flat_map_app.
  rewrite Q. pose proof (at_sep_perm s _ _ ci_lefts_perm) as PL. rewrite at_sep_neg in PL.
  destruct (at_sep_R s) as [Z|(x & Z)]; rewrite Z in *.
  - apply Permutation_sym, Permutation_nil in PL. rewrite PL. reflexivity.
  - apply Permutation_sym, Permutation_length_1_inv in PL. rewrite PL. simpl. apply conn_eqb_eq. reflexivity.
Qed.

End Conns.

(** * The state of a decomposition *)

Definition conns_of {T} (d : decomp T) (l : label) : list connection := left_conns (d_conns d l) ++ right_conns (d_conns d l).

Section State.
Context {T : Type} {O : LenOps T} {W : LenLaws T}.
Variables (e0 : exch) (d : decomp T).
Hypothesis Ok0 : dec_ok e0 d.

Lemma lefts_eq : lefts d = flat_map (fun l => left_conns (d_conns d l)) (e_top e0).
Proof. unfold lefts. rewrite (dk_keys _ _ Ok0). reflexivity. Qed.
Lemma rights_eq : rights d = flat_map (fun l => right_conns (d_conns d l)) (e_top e0).
Proof. unfold rights. rewrite (dk_keys _ _ Ok0). reflexivity. Qed.

Lemma conns_reverse : Permutation (lefts d) (map conn_neg (rights d)).
Proof. rewrite lefts_eq, rights_eq. destruct (dk_inv _ _ Ok0) as (D & C). exact (ci_lefts_perm _ _ _ _ C). Qed.

Lemma conns_sources : NoDup (map cn_source (lefts d ++ rights d)).
Proof. rewrite lefts_eq, rights_eq. destruct (dk_inv _ _ Ok0) as (D & C). exact (ci_all_sources _ _ _ _ C). Qed.

Lemma conns_right x : In x (rights d) -> exists b t, x = right_conn (b, t) /\ direct_connection e0 b t.
Proof. rewrite rights_eq. destruct (dk_inv _ _ Ok0) as (D & C). exact (ci_right_shape _ _ _ _ C x). Qed.

Lemma conns_left x : In x (lefts d) -> exists b t, x = left_conn (t, b) /\ direct_connection e0 b t.
Proof.
  intro Hx. apply (Permutation_in _ conns_reverse) in Hx. apply in_map_iff in Hx as (y & <- & Hy).
  destruct (conns_right y Hy) as (b & t & -> & Hd). exists b, t. auto.
Qed.

Lemma check_ok : dec_check d = Ok tt.
Proof.
  unfold dec_check.
  assert (Q1 : forallb (fun c => negb (conn_parallel c)) (lefts d) = true).
  { apply forallb_forall. intros x Hx. destruct (conns_left x Hx) as (b & t & -> & _). reflexivity. }
  assert (Q2 : forallb conn_parallel (rights d) = true).
  { apply forallb_forall. intros x Hx. destruct (conns_right x Hx) as (b & t & -> & _). reflexivity. }
  assert (Q3 : forallb (fun c => separatrix_ok (cn_source c) (lefts d ++ rights d) && separatrix_ok (cn_target c) (lefts d ++ rights d)) (lefts d ++ rights d) = true).
  { apply forallb_forall. intros x _. rewrite lefts_eq, rights_eq. destruct (dk_inv _ _ Ok0) as (D & C).
    rewrite !(ci_separatrix_ok _ _ _ _ C). reflexivity. }
  rewrite Q1, Q2, Q3. reflexivity.
Qed.

Lemma sizes_pos x : In x (d_comps d) -> 1 <= i_size (dc_iet x).
Proof.
  intro Hx. destruct (dk_inv _ _ Ok0) as (D & C). destruct (ci_proper _ _ _ _ C (exch_of (dc_iet x) (d_len d))) as [_ Ne].
  - apply (in_map (fun x => exch_of (dc_iet x) (d_len d)) _ _ Hx).
  - simpl in Ne. unfold i_size. destruct (i_top (dc_iet x)); [contradiction|simpl; lia].
Qed.

Lemma conns_number : length (rights d) + list_sum (map (fun x => i_size (dc_iet x) - 1) (d_comps d)) + 1 = length (d_keys d).
Proof.
  rewrite rights_eq, (dk_keys _ _ Ok0). destruct (dk_inv _ _ Ok0) as (D & C). pose proof (ci_number _ _ _ _ C) as N.
  unfold pieces in N at 2. rewrite map_length in N.
  assert (Q : length (live (pieces d)) = list_sum (map (fun x => i_size (dc_iet x) - 1) (d_comps d)) + length (d_comps d)).
  { unfold live, pieces. rewrite length_flat_map, map_map. pose proof sizes_pos as P.
    clear N C. induction (d_comps d) as [|x l IH]; [reflexivity|]. cbn [map list_sum fold_right length]. unfold list_sum in IH.
    pose proof (P x (or_introl eq_refl)) as Px. rewrite IH by (intros y Hy; apply P; right; exact Hy).
    change (length (e_top (exch_of (dc_iet x) (d_len d)))) with (i_size (dc_iet x)). lia. }
  lia.
Qed.

Lemma conns_complete b t : (forall x, In x (d_comps d) -> i_size (dc_iet x) = 1) -> direct_connection e0 b t ->
  In (right_conn (b, t)) (rights d).
Proof.
  intro One. rewrite rights_eq. destruct (dk_inv _ _ Ok0) as (D & C). apply (ci_complete _ _ _ _ C).
  intros e He. apply in_map_iff in He as (x & <- & Hx). exact (One x Hx).
Qed.

(** ** One component *)

Variables (C1 C2 : list (dcomp T)) (x : dcomp T).
Hypothesis Hc : d_comps d = C1 ++ x :: C2.
Let c := length C1.
Let i := dc_iet x.

Lemma comp_in : In x (d_comps d).
Proof. rewrite Hc. apply in_middle. auto. Qed.
Lemma comp_here : comp_at d c = Ok x.
Proof. apply (comp_at_mid _ _ _ _ Hc). Qed.
Lemma comp_swap : i_swap i = false.
Proof. apply (dk_good _ _ Ok0 x comp_in). Qed.
Lemma comp_wf : wf i (d_len d).
Proof. apply (dk_good _ _ Ok0 x comp_in). Qed.
Lemma comp_nodup : NoDup (i_top i).
Proof. apply comp_wf. Qed.
Lemma comp_perm : Permutation (i_top i) (i_bottom i).
Proof. apply comp_wf. Qed.
Lemma comp_keys : incl (i_top i) (d_keys d).
Proof. intros l Hl. exact (dk_label _ _ x l Ok0 comp_in Hl). Qed.
Lemma comp_bottom_keys : incl (i_bottom i) (d_keys d).
Proof. intros l Hl. apply comp_keys. apply (Permutation_in _ (Permutation_sym comp_perm) Hl). Qed.

(** The chain of connections at the right of the half edges. *)

Lemma right_top l : rgt d l true = [].
Proof. unfold rgt. destruct (dk_inv _ _ Ok0) as (D & C). apply (ci_topR _ _ _ _ C). Qed.

Lemma right_bottom l : In l (i_top i) -> exists ls, rgt d l false = links l ls /\ incl ls (d_keys d) /\
  (forall t, direct_connection (exch_of i (d_len d)) l t -> direct_connection e0 (last ls l) t).
Proof.
  intro Hl. destruct (dk_inv _ _ Ok0) as (D & C). unfold rgt.
  assert (He : In (exch_of i (d_len d)) (pieces d)) by apply (in_map (fun x => exch_of (dc_iet x) (d_len d)) _ _ comp_in).
  rewrite (ci_chain _ _ _ _ C (exch_of i (d_len d)) l He Hl). eexists. split; [reflexivity|]. split.
  - intros a Ha. rewrite (dk_keys _ _ Ok0). apply in_app_or in Ha as [Ha|Ha].
    + apply (Permutation_in _ (Permutation_sym (ci_part _ _ _ _ C))). apply in_flat_map. exists l. split; [|right; exact Ha].
      exact (ci_live _ _ _ He Hl).
    + apply in_tail in Ha as [-> _]. apply (ci_keys _ _ _ _ _ C). apply (ci_live _ _ _ He). apply lst_in.
      apply (ci_proper _ _ _ _ C _ He).
  - intros t Ht. pose proof (ci_lift _ _ _ _ C _ l t He Ht) as Q. 
    assert (Z : tail_of (lst (e_top e0)) (exch_of i (d_len d)) l = []).
    { unfold tail_of. destruct (Nat.eqb_spec l (lst (e_bot (exch_of i (d_len d))))) as [El|]; [|reflexivity]. exfalso.
      destruct (ci_proper _ _ _ _ C _ He) as [P Ne]. destruct (direct_not_last _ _ _ P Ht) as [(X & y & Y & EX) _].
      pose proof (proper_bot_nodup _ P) as N. rewrite EX in N, El. unfold lst in El.
      change (X ++ l :: y :: Y) with (X ++ [l] ++ y :: Y) in El. rewrite app_assoc, last_app in El by discriminate.
      apply NoDup_remove_2 in N. apply N. apply in_or_app. right. rewrite El. apply last_in. discriminate. }
    rewrite Z, app_nil_r. exact Q.
Qed.

Lemma separatrix_at_bottom l : In l (i_top i) -> exists ls, rgt d l false = links l ls /\
  sep_at_bottom d l = Ok (mksep (last ls l) PARALLEL).
Proof.
  intro Hl. destruct (right_bottom l Hl) as (ls & E & _). exists ls. split; [exact E|].
  unfold sep_at_bottom. rewrite (conns_at_ok d l (comp_keys l Hl)). cbn [bind]. unfold rgt in E. rewrite E. apply skip_links.
Qed.

Lemma separatrix_at_top l : In l (i_top i) -> sep_at_top d l = Ok (mksep l ANTIPARALLEL).
Proof.
  intro Hl. unfold sep_at_top. rewrite (conns_at_ok d l (comp_keys l Hl)). cbn [bind].
  pose proof (right_top l) as Q. unfold rgt in Q. rewrite Q. reflexivity.
Qed.

(** ** Preparation of the perimeter *)

Lemma conn_app_perm {A} (g h : A -> list connection) L : Permutation (flat_map (fun l => g l ++ h l) L) (flat_map g L ++ flat_map h L).
Proof.
  induction L as [|a L IH]; [reflexivity|]. simpl. rewrite IH, <- !app_assoc. apply Permutation_app_head.
  rewrite !app_assoc. apply Permutation_app_tail. apply Permutation_app_comm.
Qed.

Lemma conns_nodup : NoDup (flat_map (conns_of d) (d_keys d)).
Proof.
  eapply Permutation_NoDup; [apply Permutation_sym, (conn_app_perm (fun l => left_conns (d_conns d l)) (fun l => right_conns (d_conns d l)))|].
  eapply NoDup_map_inv. exact conns_sources.
Qed.

Lemma rows_cons : exists a ta b tb, i_top i = a :: ta /\ i_bottom i = b :: tb.
Proof.
  pose proof (sizes_pos x comp_in) as S. fold i in S. unfold i_size in S. pose proof (Permutation_length comp_perm) as L.
  destruct (i_top i) as [|a ta]; [simpl in S; lia|]. destruct (i_bottom i) as [|b tb]; [simpl in L; lia|]. eauto 6.
Qed.


End State.

(** ** The perimeter *)

Section Perim.
Context {T : Type} {O : LenOps T}.
Variables (d : decomp T) (c : nat) (x : dcomp T).
Let i := dc_iet x.
Hypothesis comp_here : comp_at d c = Ok x.
Hypothesis comp_swap : i_swap i = false.
Hypothesis comp_nodup : NoDup (i_top i).
Hypothesis comp_perm : Permutation (i_top i) (i_bottom i).
Hypothesis comp_keys : incl (i_top i) (d_keys d).
Hypothesis rows_cons : exists a ta b tb, i_top i = a :: ta /\ i_bottom i = b :: tb.
Hypothesis conns_nodup : NoDup (flat_map (conns_of d) (d_keys d)).

Let comp_bottom_keys : incl (i_bottom i) (d_keys d).
Proof. intros l Hl. apply comp_keys. apply (Permutation_in _ (Permutation_sym comp_perm) Hl). Qed.

Definition pre (top : bool) (l : label) : list side :=
  if top then map SConn (lft d l true) else rev (map SConn (lft d l false)).
Definition post (top : bool) (l : label) : list side :=
  if top then rev (map SConn (rgt d l true)) else map SConn (rgt d l false).
Definition sweep (top : bool) (l : label) : list side := pre top l ++ [SEdge (mkhe c l top)] ++ post top l.

Lemma sweep_crossing top l : sweep top l = if top then rev (crossing d c l true) else crossing d c l false.
Proof.
  unfold sweep, pre, post, crossing. destruct top; [|reflexivity]. rewrite !rev_app_distr, rev_involutive. simpl.
  rewrite <- app_assoc. reflexivity.
Qed.

Lemma horizontal_ok top : forall ls a first, incl (a :: ls) (d_keys d) ->
  exists r, horizontal_loop d top first (map (fun l => mkhe c l top) (a :: ls)) = Ok r /\
    (if first then pre top a else []) ++ r ++ post top (last ls a) = flat_map (sweep top) (a :: ls).
Proof.
  induction ls as [|b ls IH]; intros a first K.
  - cbn [map horizontal_loop he_label]. rewrite (conns_at_ok d a) by (apply K; left; reflexivity). cbn [bind].
    eexists. split; [reflexivity|]. cbn [last flat_map]. rewrite app_nil_r. unfold sweep, pre, post, lft, rgt.
    destruct first, top; simpl; rewrite ?map_rev, ?app_nil_r, <- ?app_assoc; reflexivity.
  - destruct (IH b false) as (r & Er & Hr); [intros y Hy; apply K; right; exact Hy|].
    cbn [map] in Er |- *. cbn [horizontal_loop he_label]. rewrite (conns_at_ok d a) by (apply K; left; reflexivity). cbn [bind].
    cbn [horizontal_loop he_label] in Er. rewrite Er. cbn [bind]. eexists. split; [reflexivity|].
    rewrite last_cons. cbn [flat_map] in Hr |- *. cbn [app] in Hr. rewrite <- Hr. unfold sweep, pre, post, lft, rgt.
    destruct first, top; simpl; rewrite ?map_rev, <- ?app_assoc; simpl; rewrite <- ?app_assoc; reflexivity.
Qed.

Lemma rev_flat_map {A B} (g : A -> list B) l : rev (flat_map g l) = flat_map (fun x => rev (g x)) (rev l).
Proof. induction l as [|a l IH]; [reflexivity|]. simpl. rewrite rev_app_distr, IH, flat_map_app. simpl. rewrite app_nil_r. reflexivity. Qed.

(** Every side across the bottom, from left to right, then across the top, from right to left. *)
Definition around : list side := flat_map (fun l => crossing d c l false) (i_bottom i) ++ flat_map (fun l => crossing d c l true) (rev (i_top i)).

Lemma comp_left_ok a ta b tb : i_top i = a :: ta -> i_bottom i = b :: tb ->
  comp_left d c = Ok (rev (map SConn (lft d a true)) ++ pre false b).
Proof.
  intros Et Eb. unfold comp_left. rewrite comp_here. cbn [bind]. fold i. rewrite comp_swap, Et, Eb. cbn [hd_label bind].
  rewrite !conns_at_ok.
  - cbn [bind]. rewrite map_app, rev_app_distr. reflexivity.
  - apply comp_keys. rewrite Et. left. reflexivity.
  - apply comp_bottom_keys. rewrite Eb. left. reflexivity.
Qed.

Lemma hd_label_rev a l : hd_label (rev (a :: l)) = Ok (last l a).
Proof.
  rewrite (app_removelast_last a (l := a :: l)) by discriminate. rewrite rev_app_distr. cbn [rev app hd_label]. rewrite last_cons. reflexivity.
Qed.

Lemma comp_right_ok a ta b tb : i_top i = a :: ta -> i_bottom i = b :: tb ->
  comp_right d c = Ok (post false (last tb b) ++ map SConn (rgt d (last ta a) true)).
Proof.
  intros Et Eb. unfold comp_right. rewrite comp_here. cbn [bind]. fold i. rewrite comp_swap, Et, Eb. rewrite !hd_label_rev. cbn [bind].
  rewrite !conns_at_ok.
  - cbn [bind]. rewrite map_app. reflexivity.
  - apply comp_keys. rewrite Et, <- (last_cons a ta a). apply last_in. discriminate.
  - apply comp_bottom_keys. rewrite Eb, <- (last_cons b tb b). apply last_in. discriminate.
Qed.

Lemma perimeter_parts : exists a b X, hd_error (i_top i) = Some a /\ hd_error (i_bottom i) = Some b /\
  (exists pb pr pt pl, comp_bottom d c = Ok pb /\ comp_right d c = Ok pr /\ comp_top d c = Ok pt /\ comp_left d c = Ok pl /\
    pb ++ pr ++ pt ++ pl = X ++ pre false b) /\
  around = pre false b ++ X.
Proof.
  destruct rows_cons as (a & ta & b & tb & Et & Eb).
  destruct (horizontal_ok false tb b true) as (rb & Erb & Hrb); [rewrite <- Eb; apply comp_bottom_keys|].
  destruct (horizontal_ok true ta a true) as (rt & Ert & Hrt); [rewrite <- Et; apply comp_keys|].
  exists a, b, (rb ++ post false (last tb b) ++ map SConn (rgt d (last ta a) true) ++ rev rt ++ rev (map SConn (lft d a true))).
  split; [rewrite Et; reflexivity|]. split; [rewrite Eb; reflexivity|]. split.
  - exists rb, (post false (last tb b) ++ map SConn (rgt d (last ta a) true)), (rev rt), (rev (map SConn (lft d a true)) ++ pre false b).
    split; [|split; [|split; [|split]]].
    + unfold comp_bottom. rewrite (bottom_contour_ok d c x comp_here comp_swap). cbn [bind]. fold i. rewrite Eb. exact Erb.
    + exact (comp_right_ok a ta b tb Et Eb).
    + unfold comp_top. rewrite (top_contour_ok d c x comp_here comp_swap). cbn [bind]. fold i. rewrite Et, Ert. reflexivity.
    + exact (comp_left_ok a ta b tb Et Eb).
    + rewrite <- !app_assoc. reflexivity.
  - unfold around. rewrite (flat_map_same (fun l => crossing d c l false) (sweep false)) by (intros; symmetry; apply sweep_crossing).
    rewrite Eb, <- Hrb.
    rewrite (flat_map_same (fun l => crossing d c l true) (fun l => rev (sweep true l))).
    2:{ intros l _. rewrite sweep_crossing, rev_involutive. reflexivity. }
    rewrite <- rev_flat_map, Et, <- Hrt. rewrite !rev_app_distr. unfold post at 2, pre at 2. rewrite rev_involutive.
    rewrite <- !app_assoc. reflexivity.
Qed.

(** No side occurs twice. *)

Lemma side_dec (s t : side) : {s = t} + {s <> t}.
Proof. repeat decide equality. Defined.

Lemma NoDup_sub {A B} (g : A -> list B) L M : NoDup (flat_map g M) -> NoDup L -> incl L M -> NoDup (flat_map g L).
Proof.
  intros N ND I. revert M N I. induction ND as [|a L Ha ND IH]; intros M N I; [constructor|].
  assert (Ham : In a M) by (apply I; left; reflexivity). apply in_split in Ham as (M1 & M2 & ->).
  assert (P : Permutation (flat_map g (M1 ++ a :: M2)) (flat_map g (a :: M1 ++ M2))).
  { apply Permutation_flat_map. symmetry. apply Permutation_middle. }
  pose proof (Permutation_NoDup P N) as N'. simpl in N' |- *. apply NoDup_app_l in N' as (N1 & N2 & N3).
  assert (I' : incl L (M1 ++ M2)).
  { intros y Hy. assert (Q : In y (M1 ++ a :: M2)) by (apply I; right; exact Hy). apply in_middle in Q as [->|Q]; [contradiction|exact Q]. }
  apply NoDup_app_intro; [exact N1|apply (IH (M1 ++ M2)); assumption|].
  intros y Hy C. apply (N3 y Hy). apply in_flat_map in C as (l & Hl & C). apply in_flat_map. exists l. auto.
Qed.

Lemma sides_perm top L : Permutation (flat_map (fun l => crossing d c l top) L)
  (map SEdge (map (fun l => mkhe c l top) L) ++ map SConn (flat_map (fun l => lft d l top ++ rgt d l top) L)).
Proof.
  induction L as [|a L IH]; [reflexivity|]. cbn [flat_map map]. rewrite IH, !map_app.
  set (E := map SEdge _). set (F := map SConn (flat_map _ L)).
  assert (P : Permutation (crossing d c a top) (SEdge (mkhe c a top) :: map SConn (lft d a top) ++ map SConn (rgt d a top))).
  { unfold crossing. destruct top; cbn [app].
    - rewrite <- Permutation_rev. rewrite <- Permutation_middle. apply perm_skip. apply Permutation_app_comm.
    - rewrite <- Permutation_rev. rewrite <- Permutation_middle. reflexivity. }
  rewrite P. cbn [app]. apply perm_skip. rewrite !app_assoc. apply Permutation_app_tail. rewrite (Permutation_app_comm _ E).
  rewrite app_assoc. reflexivity.
Qed.

Lemma around_nodup : NoDup around.
Proof.
  unfold around. pose proof comp_nodup as Nt. assert (Nb : NoDup (i_bottom i)) by (eapply Permutation_NoDup; [apply comp_perm|exact Nt]).
  assert (Nr : NoDup (rev (i_top i))) by (apply NoDup_rev, Nt).
  set (L1 := flat_map (fun l => lft d l false ++ rgt d l false) (i_bottom i)).
  set (L2 := flat_map (fun l => lft d l true ++ rgt d l true) (rev (i_top i))).
  assert (NL : NoDup (L1 ++ L2)).
  { assert (P1 : Permutation L1 (flat_map (fun l => lft d l false ++ rgt d l false) (i_top i))) by (apply Permutation_flat_map, Permutation_sym, comp_perm).
    assert (P2 : Permutation L2 (flat_map (fun l => lft d l true ++ rgt d l true) (i_top i))) by (apply Permutation_flat_map, Permutation_sym, Permutation_rev).
    eapply Permutation_NoDup; [apply Permutation_sym, Permutation_app; [exact P1|exact P2]|].
    eapply Permutation_NoDup; [apply conn_app_perm|].
    assert (P3 : Permutation (flat_map (fun l => (lft d l false ++ rgt d l false) ++ lft d l true ++ rgt d l true) (i_top i)) (flat_map (conns_of d) (i_top i))).
    { clear. induction (i_top i) as [|a l IH]; [reflexivity|]. cbn [flat_map]. apply Permutation_app; [|exact IH].
      unfold conns_of, left_conns, right_conns, lft, rgt. destruct (d_conns d a) as [a1 a2 a3 a4]. simpl.
      rewrite (Permutation_app_comm (a3 ++ a4)). rewrite <- !app_assoc. apply Permutation_app_head. rewrite !app_assoc. apply Permutation_app_tail. apply Permutation_app_comm. }
    eapply Permutation_NoDup; [apply Permutation_sym, P3|]. apply (NoDup_sub _ _ (d_keys d)); [exact conns_nodup|exact Nt|exact comp_keys]. }
  destruct (NoDup_app_l _ _ NL) as (N1 & N2 & N3).
  assert (One : forall top L (K : NoDup L) (M : NoDup (flat_map (fun l => lft d l top ++ rgt d l top) L)), NoDup (flat_map (fun l => crossing d c l top) L)).
  { intros top L K M. eapply Permutation_NoDup; [apply Permutation_sym, sides_perm|]. apply NoDup_app_intro.
    - rewrite map_map. apply NoDup_map_inj; [|exact K]. intros u v _ _ Q. congruence.
    - apply NoDup_map_inj; [|exact M]. intros u v _ _ Q. congruence.
    - intros s Hs Q. apply in_map_iff in Hs as (u & <- & _). apply in_map_iff in Q as (v & Q & _). discriminate. }
  apply NoDup_app_intro; [apply One; assumption|apply One; assumption|].
  intros s Hs Q. apply (Permutation_in _ (sides_perm _ _)) in Hs. apply (Permutation_in _ (sides_perm _ _)) in Q.
  fold L1 in Hs. fold L2 in Q. rewrite !in_app_iff, !in_map_iff in *.
  destruct Hs as [(u & <- & Hu)|(u & <- & Hu)], Q as [(v & E & Hv)|(v & E & Hv)]; try discriminate; injection E as ->.
  - apply in_map_iff in Hu as (l & <- & _). apply in_map_iff in Hv as (l' & Q & _). discriminate.
  - exact (N3 u Hu Hv).
Qed.

Lemma side_find_ok s l : (forall e, In (SEdge e) (s :: l) -> he_comp e = c) -> ~ In s l -> side_find s l = Ok false.
Proof.
  induction l as [|t l IH]; intros K N; [reflexivity|]. cbn [side_find].
  assert (Q : side_eqb t s = Ok false).
  { destruct t as [ct|et], s as [cs|es]; try reflexivity.
    - simpl. f_equal. apply Bool.not_true_iff_false. intro C. apply conn_eqb_eq in C. subst. apply N. left. reflexivity.
    - simpl. unfold he_eqb. destruct (Nat.eqb_spec (he_label et) (he_label es)) as [El|]; [|reflexivity].
      assert (A1 : he_comp et = c) by (apply K; right; left; reflexivity). assert (A2 : he_comp es = c) by (apply K; left; reflexivity).
      rewrite A1, A2, Nat.eqb_refl. cbn [assert_]. f_equal. apply Bool.not_true_iff_false. intro C. apply Bool.eqb_prop in C.
      apply N. left. destruct et, es. simpl in *. congruence. }
  rewrite Q. cbn [bind]. apply IH.
  - intros e He. apply K. destruct He as [He|He]; [left; exact He|right; right; exact He].
  - intro C. apply N. right. exact C.
Qed.

Lemma side_distinct_ok l : (forall e, In (SEdge e) l -> he_comp e = c) -> NoDup l -> side_distinct l = Ok (length l).
Proof.
  induction l as [|s l IH]; intros K ND; [reflexivity|]. inversion ND as [|? ? Hs ND']; subst. cbn [side_distinct].
  rewrite IH by (try exact ND'; intros e He; apply K; right; exact He). cbn [bind]. rewrite side_find_ok by assumption. reflexivity.
Qed.

Lemma around_edges e : In (SEdge e) around -> he_comp e = c.
Proof.
  intro Q. apply in_app_or in Q as [Q|Q]; apply (Permutation_in _ (sides_perm _ _)) in Q; rewrite in_app_iff, !in_map_iff in Q;
    destruct Q as [(v & E & Hv)|(v & E & Hv)]; try discriminate; injection E as ->; apply in_map_iff in Hv as (l & <- & _); reflexivity.
Qed.

Theorem perimeter_gen : exists b X, hd_error (i_bottom i) = Some b /\ comp_perimeter d c = Ok (X ++ rev (map SConn (lft d b false))) /\
  around = rev (map SConn (lft d b false)) ++ X /\ NoDup around.
Proof.
  destruct perimeter_parts as (a & b & X & _ & Hb & (pb & pr & pt & pl & E1 & E2 & E3 & E4 & EX) & Ea).
  exists b, X. split; [exact Hb|]. change (rev (map SConn (lft d b false))) with (pre false b). split; [|split; [exact Ea|exact around_nodup]].
  unfold comp_perimeter. rewrite E1, E2, E3, E4. cbn [bind].
  rewrite EX. rewrite side_distinct_ok; [cbn [bind]; rewrite Nat.eqb_refl; reflexivity| |].
  - intros e He. apply around_edges. rewrite Ea. apply in_app_or in He. apply in_or_app. tauto.
  - eapply Permutation_NoDup; [apply Permutation_app_comm|]. rewrite <- Ea. exact around_nodup.
Qed.

End Perim.

Theorem perimeter_ok {T} {O : LenOps T} {W : LenLaws T} (e0 : exch) (d : decomp T) (Ok0 : dec_ok e0 d) C1 C2 x (Hc : d_comps d = C1 ++ x :: C2) :
  exists b X, hd_error (i_bottom (dc_iet x)) = Some b /\ comp_perimeter d (length C1) = Ok (X ++ rev (map SConn (lft d b false))) /\
  around d (length C1) x = rev (map SConn (lft d b false)) ++ X /\ NoDup (around d (length C1) x).
Proof.
  apply perimeter_gen.
  - apply (comp_here d C1 C2 x Hc).
  - apply (comp_swap e0 d Ok0 C1 C2 x Hc).
  - apply (comp_nodup e0 d Ok0 C1 C2 x Hc).
  - apply (comp_perm e0 d Ok0 C1 C2 x Hc).
  - apply (comp_keys e0 d Ok0 C1 C2 x Hc).
  - apply (rows_cons e0 d Ok0 C1 C2 x Hc).
  - apply (conns_nodup e0 d Ok0).
Qed.
