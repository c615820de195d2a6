(** The exchanges that remain of an exchange when a program has worked on it and on what was
    split off: up to the direction they are the bases of towers. *)
From Coq Require Import Reals Permutation Lia Lra.
From Verif Require Import Base Spec SpecDec SpecTower SpecCanon Dyn Path Direct Bosh Endless InduceProof Decomp DecompSim DecompInv DecompDyn Tower Canon.
Open Scope R_scope.

Definition pieces (e0 : exch) (E : list exch) : Prop :=
  exists Ts, towers e0 Ts /\ Forall2 (fun t e => tw_base t = e \/ tw_base t = flip e) Ts E.

(** * Order *)

Lemma fop_perm {A} (R : A -> A -> Prop) l l' : (forall a b, R a b -> R b a) -> Permutation l l' -> ForallOrdPairs R l -> ForallOrdPairs R l'.
Proof.
  intros Sy Pm. induction Pm as [|x l l' Pm IH|x y l|l l1 l' P1 IH1 P2 IH2]; intro H.
  - exact H.
  - inversion H as [|? ? A1 A2]; subst. constructor; [|exact (IH A2)]. rewrite Forall_forall in *. intros z Hz. apply A1, (Permutation_in _ (Permutation_sym Pm)), Hz.
  - inversion H as [|? ? A1 A2]; subst. inversion A2 as [|? ? A3 A4]; subst. inversion A1 as [|? ? A5 A6]; subst. constructor; [constructor; [apply Sy, A5|exact A3]|]. constructor; assumption.
  - auto.
Qed.

Lemma areas_perm l l' : Permutation l l' -> areas l = areas l'.
Proof. induction 1; cbn [areas fold_right] in *; try fold (areas l) (areas l') in *; lra. Qed.

Lemma towers_perm e0 Ts Ts' : Permutation Ts Ts' -> towers e0 Ts -> towers e0 Ts'.
Proof.
  intros Pm (A & B & C & D). split; [|split; [|split]].
  - intros t I. apply A, (Permutation_in _ (Permutation_sym Pm)), I.
  - apply (fop_perm _ Ts); [|exact Pm|exact B]. intros t t' H a k a' k' x F F'. exact (H _ _ _ _ _ F' F).
  - intros x Hx. destruct (C x Hx) as (t & a & k & I & F). exists t, a, k. split; [exact (Permutation_in _ Pm I)|exact F].
  - rewrite <- (areas_perm _ _ Pm). exact D.
Qed.

(** * Steps *)

Lemma pieces_start e : proper e -> pieces e [e].
Proof. intro P. exists [mktower e 0 (fun _ => 1%nat)]. split; [apply towers_start, P|]. repeat constructor. Qed.

Lemma forall2_mid {A B} (Rel : A -> B -> Prop) l E1 e E2 : Forall2 Rel l (E1 ++ e :: E2) ->
  exists T1 t T2, l = T1 ++ t :: T2 /\ Forall2 Rel T1 E1 /\ Rel t e /\ Forall2 Rel T2 E2.
Proof.
  intro F. apply Forall2_app_inv_r in F as (T1 & l2 & F1 & F2 & ->). inversion F2 as [|t ? T2 ? Ht F3]; subst. exists T1, t, T2. auto.
Qed.

Lemma forall2_put {A B} (Rel : A -> B -> Prop) T1 E1 t e T2 E2 : Forall2 Rel T1 E1 -> Rel t e -> Forall2 Rel T2 E2 -> Forall2 Rel (T1 ++ t :: T2) (E1 ++ e :: E2).
Proof. intros. apply Forall2_app; [assumption|]. constructor; assumption. Qed.

Lemma agree_flip e e' : agree e e' -> agree (flip e) (flip e').
Proof. intros (A & B & C). split; [exact B|]. split; [exact A|]. cbn. intros c [H|H]; apply C; auto. Qed.

Lemma pieces_replace e0 E1 e E2 e' : pieces e0 (E1 ++ e :: E2) ->
  (forall o h, tower_of e0 (mktower e o h) -> exists o' h', refines e0 (mktower e o h) (mktower e' o' h')) ->
  (forall o h, tower_of e0 (mktower (flip e) o h) -> exists o' h', refines e0 (mktower (flip e) o h) (mktower (flip e') o' h')) ->
  pieces e0 (E1 ++ e' :: E2).
Proof.
  intros (Ts & HT & F) H1 H2. apply forall2_mid in F as (T1 & [b o h] & T2 & -> & F1 & Hb & F2). cbn [tw_base] in Hb.
  assert (Tb : tower_of e0 (mktower b o h)) by (apply HT, in_middle; auto). destruct Hb as [-> | ->].
  - destruct (H1 o h Tb) as (o' & h' & R). exists (T1 ++ mktower e' o' h' :: T2). split; [exact (towers_replace _ _ _ _ _ HT R)|].
    apply forall2_put; auto.
  - destruct (H2 o h Tb) as (o' & h' & R). exists (T1 ++ mktower (flip e') o' h' :: T2). split; [exact (towers_replace _ _ _ _ _ HT R)|].
    apply forall2_put; auto.
Qed.

Lemma pieces_agree1 e0 E1 e E2 e' : agree e e' -> pieces e0 (E1 ++ e :: E2) -> pieces e0 (E1 ++ e' :: E2).
Proof.
  intros A H. apply (pieces_replace e0 E1 e E2 e' H); intros o h T; exists o, h; apply agree_tower; auto using agree_flip.
Qed.

Lemma pieces_agree e0 E E' : Forall2 agree E E' -> pieces e0 E -> pieces e0 E'.
Proof.
  intro F. assert (G : forall E0, pieces e0 (E0 ++ E) -> pieces e0 (E0 ++ E')); [|exact (G [])].
  induction F as [|e e' E E' A F IH]; intros E0 H; [exact H|]. apply (pieces_agree1 e0 E0 e E e' A) in H.
  specialize (IH (E0 ++ [e'])). rewrite <- !app_assoc in IH. exact (IH H).
Qed.

Lemma pieces_path e0 E1 e E2 e' : proper e0 -> proper e -> rauzy_path e e' -> pieces e0 (E1 ++ e :: E2) -> pieces e0 (E1 ++ e' :: E2).
Proof.
  intros P0 P R H. apply (pieces_replace e0 E1 e E2 e' H); intros o h T; apply path_tower; auto using flip_proper, path_flip.
Qed.

Lemma pieces_merge e0 E1 e E2 e' : proper e0 -> proper e -> merge_step e e' -> pieces e0 (E1 ++ e :: E2) -> pieces e0 (E1 ++ e' :: E2).
Proof.
  intros P0 P R H. apply (pieces_replace e0 E1 e E2 e' H); intros o h T; [apply merge_tower; auto|].
  apply merge_flip_tower; [exact P0|exact (flip_proper _ P)|rewrite !flip_flip; exact R|exact T].
Qed.

Lemma pieces_flip e0 E1 e E2 : pieces e0 (E1 ++ e :: E2) -> pieces e0 (E1 ++ flip e :: E2).
Proof.
  intros (Ts & HT & F). exists Ts. split; [exact HT|]. apply forall2_mid in F as (T1 & t & T2 & -> & F1 & Hb & F2).
  apply forall2_put; auto. rewrite flip_flip. tauto.
Qed.

Lemma pieces_cut e0 E1 e E2 k : proper e -> invariant_prefix e k -> pieces e0 (E1 ++ e :: E2) ->
  pieces e0 (E1 ++ left_of e k :: right_of e k :: E2).
Proof.
  intros P K (Ts & HT & F). apply forall2_mid in F as (T1 & [b o h] & T2 & -> & F1 & Hb & F2). cbn [tw_base] in Hb.
  assert (G : forall b, proper b -> invariant_prefix b k -> towers e0 (T1 ++ mktower b o h :: T2) ->
    exists tl tr, tw_base tl = left_of b k /\ tw_base tr = right_of b k /\ towers e0 (T1 ++ tl :: tr :: T2)).
  { clear b Hb HT. intros b Pb Kb HT. pose proof (towers_split e0 T1 b o h T2 k Pb Kb HT) as HS.
    exists (mktower (left_of b k) o h), (mktower (right_of b k) (o + size (left_of b k)) h). split; [reflexivity|]. split; [reflexivity|].
    refine (towers_perm _ _ _ _ HS). apply Permutation_app_head, perm_skip, Permutation_sym, Permutation_cons_append. }
  destruct Hb as [-> | ->].
  - destruct (G e P K HT) as (tl & tr & El & Er & HS). exists (T1 ++ tl :: tr :: T2). split; [exact HS|].
    apply forall2_put; auto.
  - destruct (G (flip e) (flip_proper _ P)) as (tl & tr & El & Er & HS); [|exact HT|].
    { apply (invariant_flip (flip e)); [exact (flip_proper _ P)|]. rewrite flip_flip. exact K. }
    exists (T1 ++ tl :: tr :: T2). split; [exact HS|]. apply forall2_put; auto. 
Qed.

(** * Widths *)

Lemma flip_periodic e : has_periodic_point (flip e) <-> has_periodic_point e.
Proof.
  split; intros (x & n & Hn & H); exists x, n; (split; [exact Hn|]); [apply iter_flip in H|apply iter_flip]; exact H.
Qed.

Lemma flip_single e : proper e -> forall a, e_top (flip e) = [a] <-> e_top e = [a].
Proof.
  intros (_ & Pm & _) a. cbn. split; intro H; rewrite H in Pm; [apply Permutation_sym in Pm|]; apply Permutation_length_1_inv in Pm; exact Pm.
Qed.

Lemma pieces_widths e0 E E' : proper e0 -> pieces e0 E -> pieces e0 E' ->
  (forall e, In e E \/ In e E' -> proper e /\ (length (e_top e) = 1%nat \/ ~ has_periodic_point e)) ->
  Permutation (widths E) (widths E').
Proof.
  intros P0 (Ts & HT & F) (Ts' & HT' & F') H.
  assert (G : forall Ts E, towers e0 Ts -> Forall2 (fun t e => tw_base t = e \/ tw_base t = flip e) Ts E ->
    (forall e, In e E -> proper e /\ (length (e_top e) = 1%nat \/ ~ has_periodic_point e)) ->
    sorted e0 Ts /\ widths E = widths (map tw_base Ts)).
  { clear. intros Ts E HT F H. assert (Q : forall t, In t Ts -> proper (tw_base t) /\ ((exists a, e_top (tw_base t) = [a]) \/ ~ has_periodic_point (tw_base t))).
    { clear HT. induction F as [|t e Ts E Hb F IH]; [intros t []|]. intros u [<-|Hu]; [|apply IH; [intros; apply H; right; assumption|exact Hu]].
      destruct (H e (or_introl eq_refl)) as (P & S).
      assert (S' : (exists a, e_top e = [a]) \/ ~ has_periodic_point e).
      { destruct S as [S|S]; [left|right; exact S]. destruct (e_top e) as [|a [|b l]]; try discriminate. exists a. reflexivity. }
      destruct Hb as [-> | ->]; [auto|]. split; [apply flip_proper, P|]. rewrite flip_periodic. destruct S' as [(a & S')|S']; [left|auto].
      exists a. apply (flip_single e P), S'. }
    split; [split; [split; [exact HT|]|]; intros t I; apply Q, I|]. clear HT Q.
    induction F as [|t e Ts E Hb F IH]; [reflexivity|]. unfold widths in *. cbn [map flat_map].
    rewrite IH by (intros; apply H; right; assumption). f_equal. destruct Hb as [-> | ->]; [reflexivity|].
    destruct (H e (or_introl eq_refl)) as (P & _). pose proof (proj1 (proj2 P)) as Pm. pose proof (Permutation_length Pm) as Le. pose proof (flip_single e P) as Sg. cbn in Le, Sg |- *.
    destruct (e_top e) as [|a [|b l]].
    - destruct (e_bot e); [reflexivity|discriminate].
    - rewrite (proj2 (Sg a) eq_refl). reflexivity.
    - destruct (e_bot e) as [|a' [|b' l']]; try discriminate. reflexivity. }
  destruct (G Ts E HT F) as (S & W); [intros; apply H; auto|]. destruct (G Ts' E' HT' F') as (S' & W'); [intros; apply H; auto|].
  rewrite W, W'. apply (same_widths e0 P0); assumption.
Qed.

(** * Decompositions *)

Lemma forall2_flip {A B} (Rel : A -> B -> Prop) l l' : Forall2 Rel l l' -> Forall2 (fun b a => Rel a b) l' l.
Proof. induction 1; constructor; assumption. Qed.

Lemma pieces_perm e0 E E' : Permutation E E' -> pieces e0 E -> pieces e0 E'.
Proof.
  intros Pm (Ts & HT & F). apply forall2_flip in F. destruct (Permutation_Forall2 Pm F) as (Ts' & PT & F').
  exists Ts'. split; [exact (towers_perm _ _ _ PT HT)|]. apply forall2_flip in F'. exact F'.
Qed.

Lemma pieces_astep e0 e1 E f E' f' D : proper e0 -> conn_inv e1 E f D -> astep E f E' f' -> pieces e0 E -> pieces e0 E'.
Proof.
  intros P0 CI S H. assert (Pe : forall e, In e E -> proper e) by (intros e I; apply (ci_proper _ _ _ _ CI e I)). destruct S.
  - apply (pieces_agree e0 E E'); assumption.
  - apply (pieces_path e0 E1 e E2 e'); auto; [apply Pe, in_middle; auto|]. eapply cpath_path; eassumption.
  - apply (pieces_cut e0 E1 e E2 k) in H; [|apply Pe, in_middle; auto|assumption]. revert H. apply pieces_perm.
    apply Permutation_app_head, perm_skip, Permutation_cons_append.
  - apply (pieces_merge e0 E1 e E2 e'); auto. apply Pe, in_middle; auto.
Qed.

Lemma pieces_asteps e0 e1 E f E' f' D : proper e0 -> conn_inv e1 E f D -> asteps E f E' f' -> pieces e0 E -> pieces e0 E'.
Proof.
  intros P0 CI S. revert D CI. induction S as [|E f E1 f1 E' f' S1 S IH]; intros D CI H; [exact H|].
  destruct (astep_inv _ _ _ _ _ _ CI S1) as (D1 & CI1). exact (IH D1 CI1 (pieces_astep _ _ _ _ _ _ _ P0 CI S1 H)).
Qed.
