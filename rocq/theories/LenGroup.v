(** Decomposing does not change the group that is generated by the lengths. *)
From Coq Require Import Reals Permutation Lia Lra.
From Verif Require Import Base Spec SpecGroup Dyn Path Decomp DecompSim DecompInv.
Open Scope R_scope.

Lemma gen_in (G : R -> Prop) x : G x -> generated G x.
Proof. intro H. replace x with (x + 0) by lra. apply gen_plus; [exact H|apply gen_zero]. Qed.
Lemma gen_add G x y : generated G x -> generated G y -> generated G (x + y).
Proof.
  induction 1 as [|x r Hx _ IH|x r Hx _ IH]; intro Hy.
  - replace (0 + y) with y by lra. exact Hy.
  - replace (x + r + y) with (x + (r + y)) by lra. apply gen_plus; auto.
  - replace (r - x + y) with (r + y - x) by lra. apply gen_minus; auto.
Qed.
Lemma gen_opp G x : generated G x -> generated G (- x).
Proof.
  induction 1 as [|x r Hx _ IH|x r Hx _ IH].
  - replace (-0) with 0 by lra. apply gen_zero.
  - replace (- (x + r)) with (- r - x) by lra. apply gen_minus; auto.
  - replace (- (r - x)) with (x + - r) by lra. apply gen_plus; auto.
Qed.
Lemma gen_sub G x y : generated G x -> generated G y -> generated G (x - y).
Proof. intros Hx Hy. apply gen_add; [exact Hx|apply gen_opp, Hy]. Qed.
Lemma gen_mono (G G' : R -> Prop) r : (forall x, G x -> generated G' x) -> generated G r -> generated G' r.
Proof.
  intros H. induction 1 as [|x r Hx _ IH|x r Hx _ IH]; [apply gen_zero|apply gen_add; auto|apply gen_sub; auto].
Qed.

(** The lengths of each list generate those of the other one. *)
Definition equigen (E E' : list exch) : Prop :=
  (forall r, is_length E' r -> generated (is_length E) r) /\ (forall r, is_length E r -> generated (is_length E') r).

Lemma equigen_group E E' r : equigen E E' -> (generated (is_length E) r <-> generated (is_length E') r).
Proof. intros (A & B). split; apply gen_mono; assumption. Qed.
Lemma equigen_trans E E1 E2 : equigen E E1 -> equigen E1 E2 -> equigen E E2.
Proof.
  intros H H'. split; intros r Hr.
  - apply (equigen_group _ _ r H). apply (equigen_group _ _ r H'). apply gen_in, Hr.
  - apply (equigen_group _ _ r H'). apply (equigen_group _ _ r H). apply gen_in, Hr.
Qed.
Lemma equigen_same E E' : (forall r, is_length E r <-> is_length E' r) -> equigen E E'.
Proof. intro H. split; intros r Hr; apply gen_in, H, Hr. Qed.
Lemma equigen_one E1 e E2 e' : equigen [e] [e'] -> equigen (E1 ++ e :: E2) (E1 ++ e' :: E2).
Proof.
  assert (S : forall E1 e E2, (forall r, is_length [e] r -> is_length (E1 ++ e :: E2) r)).
  { intros F1 f F2 r (g & a & [<-|[]] & H). exists f, a. split; [apply in_middle; auto|exact H]. }
  assert (Q : forall e e', (forall r, is_length [e'] r -> generated (is_length [e]) r) ->
    forall r, is_length (E1 ++ e' :: E2) r -> generated (is_length (E1 ++ e :: E2)) r).
  { intros f f' H r (g & a & I & J). apply in_app_or in I as [I|[<-|I]].
    - apply gen_in. exists g, a. split; [apply in_or_app; auto|exact J].
    - eapply gen_mono; [intros x Hx; apply gen_in, S, Hx|]. apply H. exists f', a. split; [left; reflexivity|exact J].
    - apply gen_in. exists g, a. split; [apply in_or_app; right; right; exact I|exact J]. }
  intros (A & B). split; apply Q; assumption.
Qed.

Lemma rauzy_equigen e e' : proper e -> rauzy_step e e' -> equigen [e] [e'].
Proof.
  intros P S. destruct S as (a & b & X & Y1 & Y2 & Et & Eb & Hlt & Et' & Eb' & Ha & Hc). pose proof P as [N [Pm Pos]].
  pose proof (proper_bot_nodup _ P) as NB. rewrite Eb in NB.
  assert (Hab : b <> a) by (inversion NB as [|? ? Q _]; intros ->; apply Q; apply in_or_app; right; left; reflexivity).
  assert (Ia : In a (e_top e)) by (rewrite Et; left; reflexivity).
  assert (Ib : In b (e_top e)) by (apply (Permutation_in _ (Permutation_sym Pm)); rewrite Eb; left; reflexivity).
  assert (L : forall f c, In c (e_top f) -> generated (is_length [f]) (e_len f c)) by (intros f c H; apply gen_in; exists f, c; split; [left; reflexivity|auto]).
  split; intros r (f & c & [<-|[]] & Hi & ->).
  - rewrite Et' in Hi. destruct (Nat.eq_dec c a) as [->|Ca]; [rewrite Ha; apply gen_sub; apply L; assumption|rewrite (Hc c Ca); apply L, Hi].
  - rewrite <- Et' in *. destruct (Nat.eq_dec c a) as [->|Ca].
    + replace (e_len e a) with (e_len e' a + e_len e' b) by (rewrite Ha, (Hc b Hab); lra). apply gen_add; apply L; assumption.
    + rewrite <- (Hc c Ca). apply L, Hi.
Qed.

Lemma flip_equigen e e' : proper e -> proper e' -> equigen [flip e] [flip e'] -> equigen [e] [e'].
Proof.
  intros P P'. assert (Q : forall f, proper f -> forall r, is_length [flip f] r <-> is_length [f] r).
  { intros f (_ & Pm & _) r. split; intros (g & a & [<-|[]] & I & ->).
    - exists f, a. split; [left; reflexivity|]. split; [|reflexivity]. apply (Permutation_in _ (Permutation_sym Pm)), I.
    - exists (flip f), a. split; [left; reflexivity|]. split; [|reflexivity]. apply (Permutation_in _ Pm), I. }
  intros (A & B). split; intros r Hr.
  - eapply gen_mono; [|apply A, Q; [exact P'|exact Hr]]. intros x Hx. apply gen_in, Q; assumption.
  - eapply gen_mono; [|apply B, Q; [exact P|exact Hr]]. intros x Hx. apply gen_in, Q; assumption.
Qed.

Lemma agree_equigen e e' : agree e e' -> equigen [e] [e'].
Proof.
  intros (Ht & _ & Hl). apply equigen_same. intro r. split; intros (f & c & [<-|[]] & Hi & ->).
  - exists e', c. split; [left; reflexivity|]. rewrite <- Ht. split; [exact Hi|apply Hl; auto].
  - exists e, c. split; [left; reflexivity|]. rewrite Ht. split; [exact Hi|]. symmetry. apply Hl. rewrite Ht. auto.
Qed.

Lemma path_equigen e e' : proper e -> rauzy_path e e' -> equigen [e] [e'].
Proof.
  intros P Q. revert P. induction Q as [e e' S|e e1 e' S Q IH|e e1 e' S Q IH]; intro P.
  - apply agree_equigen. destruct S as (A & B & C). repeat split; auto.
  - eapply equigen_trans; [apply rauzy_equigen; eassumption|apply IH, (rauzy_step_proper _ _ P S)].
  - destruct (bot_step_facts _ _ P S) as (_ & P1). eapply equigen_trans; [|apply IH, P1].
    apply flip_equigen; [exact P|exact P1|]. apply rauzy_equigen; [apply flip_proper, P|exact S].
Qed.

Lemma merge_equigen e e' : proper e -> merge_step e e' -> equigen [e] [e'].
Proof.
  intros P (a & b & X & Y1 & Y2 & Et & Eb & Hl & Et' & Eb' & Hc). pose proof P as [N [Pm Pos]].
  pose proof (proper_bot_nodup _ P) as NB. rewrite Eb in NB.
  assert (Hab : b <> a) by (inversion NB as [|? ? Q _]; intros ->; apply Q; apply in_or_app; right; left; reflexivity).
  assert (Ib : In b (e_top e)) by (apply (Permutation_in _ (Permutation_sym Pm)); rewrite Eb; left; reflexivity).
  assert (NX : ~ In a X) by (rewrite Et in N; inversion N; assumption).
  rewrite Et in Ib. destruct Ib as [?|Ib]; [congruence|].
  apply equigen_same. intro r. split; intros (f & c & [<-|[]] & Hi & ->).
  - rewrite Et in Hi. destruct (Nat.eq_dec c a) as [->|Ca].
    + exists e', b. split; [left; reflexivity|]. rewrite Et', (Hc b Hab). auto.
    + exists e', c. split; [left; reflexivity|]. rewrite Et', (Hc c Ca). destruct Hi; [congruence|auto].
  - rewrite Et' in Hi. exists e, c. split; [left; reflexivity|]. rewrite Et. split; [right; exact Hi|]. apply Hc. intros ->. contradiction.
Qed.

Lemma split_equigen E1 e E2 k : equigen (E1 ++ e :: E2) (E1 ++ left_of e k :: E2 ++ [right_of e k]).
Proof.
  assert (Et : forall a, In a (e_top e) <-> In a (firstn k (e_top e)) \/ In a (skipn k (e_top e))).
  { intro a. rewrite <- (firstn_skipn k (e_top e)) at 1. apply in_app_iff. }
  apply equigen_same. intro r. split; intros (f & c & I & Hi & ->).
  - apply in_app_or in I as [I|[<-|I]].
    + exists f, c. split; [apply in_or_app; auto|auto].
    + apply Et in Hi as [Hi|Hi].
      * exists (left_of e k), c. split; [apply in_middle; auto|auto].
      * exists (right_of e k), c. split; [apply in_or_app; right; right; apply in_or_app; right; left; reflexivity|auto].
    + exists f, c. split; [apply in_or_app; right; right; apply in_or_app; auto|auto].
  - apply in_app_or in I as [I|[<-|I]]; [exists f, c; split; [apply in_or_app; auto|auto]| |apply in_app_or in I as [I|[<-|[]]]].
    + exists e, c. split; [apply in_middle; auto|]. split; [apply Et; auto|reflexivity].
    + exists f, c. split; [apply in_or_app; right; right; exact I|auto].
    + exists e, c. split; [apply in_middle; auto|]. split; [apply Et; auto|reflexivity].
Qed.

Lemma agree_equigen_all E E' : Forall2 agree E E' -> forall E0, equigen (E0 ++ E) (E0 ++ E').
Proof.
  induction 1 as [|e e' E E' A F IH]; intro E0; [apply equigen_same; intro; reflexivity|].
  eapply equigen_trans; [apply equigen_one, agree_equigen, A|]. specialize (IH (E0 ++ [e'])). rewrite <- !app_assoc in IH. exact IH.
Qed.

Lemma astep_equigen e0 E f E' f' D : conn_inv e0 E f D -> astep E f E' f' -> equigen E E'.
Proof.
  intros CI S. destruct S.
  - apply (agree_equigen_all E E' H []).
  - assert (Pe : proper e) by (apply (ci_proper _ _ _ _ CI), in_middle; auto).
    apply equigen_one, path_equigen; [exact Pe|]. eapply cpath_path; eassumption.
  - apply split_equigen.
  - assert (Pe : proper e) by (apply (ci_proper _ _ _ _ CI), in_middle; auto).
    apply equigen_one, merge_equigen; assumption.
Qed.

Theorem asteps_equigen e0 E f E' f' D : conn_inv e0 E f D -> asteps E f E' f' -> equigen E E'.
Proof.
  intros CI S. revert D CI. induction S as [|E f E1 f1 E' f' S1 S IH]; intros D CI; [apply equigen_same; intro; reflexivity|].
  destruct (astep_inv _ _ _ _ _ _ CI S1) as (D1 & CI1). eapply equigen_trans; [eapply astep_equigen; eassumption|exact (IH D1 CI1)].
Qed.

Lemma generated_measured u E r : measured_by u E -> generated (is_length E) r -> exists n : Z, r = IZR n * u.
Proof.
  intros M. induction 1 as [|x r Hx _ (n & ->)|x r Hx _ (n & ->)].
  - exists 0%Z. lra.
  - destruct (M x Hx) as (m & ->). exists (m + n)%Z. rewrite plus_IZR. lra.
  - destruct (M x Hx) as (m & ->). exists (n - m)%Z. rewrite minus_IZR. lra.
Qed.

Lemma equigen_measured u E E' : equigen E E' -> (measured_by u E <-> measured_by u E').
Proof.
  intros (A & B). split; intros M r Hr; [eapply generated_measured; [exact M|apply A, Hr]|eapply generated_measured; [exact M|apply B, Hr]].
Qed.
