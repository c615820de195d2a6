(** Programs over two number types that pick a basis for every list. *)
From Coq Require Import List Reals Lra Lia Permutation.
From Verif Require Import Base QcTac LenT FM Subspace Lengths IET Decomp Api Twin Mixed RatioIet RatioRun RatioApi MixedApi MixedUniv.
Open Scope nat_scope.

Lemma both_trans {X Y Z} (P : X -> Y -> Prop) (Q : Z -> Y -> Prop) (R : X -> Z -> Prop) m n k :
  rres P m n -> rres Q k n -> (forall x y z, P x y -> Q z y -> R x z) -> both R m k.
Proof. destruct m, n, k; simpl; intros; auto; try contradiction. eauto. Qed.

Lemma list_max_le (l : list nat) n : In n l -> n <= list_max l.
Proof. intro H. pose proof (proj1 (list_max_le l (list_max l)) (le_n _)) as F. rewrite Forall_forall in F. apply F, H. Qed.

Section MixedRun.
Context {T : Type} {O : LenOps T} {W : MixedLaws T}.
Context {T' : Type} {O' : LenOps T'} {W' : MixedLaws T'}.
Variable c : R.
Hypothesis Hc : (0 < c)%R.
Variable top bottom : list label.
Variable ls : list T.
Variable ls' : list T'.
Hypothesis Hv : mixed_input (mkslen [] ls) top bottom.
Hypothesis Hp : mixed_proportional c top (mkslen [] ls) (mkslen [] ls').

(** A uniform number type with the same lengths. *)
Lemma middle : exists (U : Type) (OU : LenOps U) (WU : LenLaws U) (us : list U),
  (forall l, In l top -> exists x y, nth_error ls l = Some x /\ nth_error us l = Some y /\ val y = (1 * mval x)%R /\ (0 < mval x)%R) /\
  (forall l, In l top -> exists x y, nth_error ls' l = Some x /\ nth_error us l = Some y /\ val y = (/ c * mval x)%R /\ (0 < mval x)%R).
Proof.
  set (n := S (list_max top)). set (f := fun l => mixed_length (mkslen [] ls) l).
  destruct (free_for (map f (seq 0 n))) as (b & F & L & Sp).
  destruct (span_list b L n f) as (us & Lu & Eu).
  { intros l Hl. apply Sp. apply in_map. apply in_seq. lia. }
  exists (span b), (span_ops b), (span_laws b F L), us. destruct Hv as (_ & _ & _ & V). split.
  - intros l Hl. destruct (V l Hl) as (x & Ex & Px). destruct (Eu l) as (u & Enu & Evu); [unfold n; pose proof (list_max_le top l Hl); lia|].
    exists x, u. split; [exact Ex|]. split; [exact Enu|]. split; [|exact Px]. cbn. rewrite Evu. unfold f, mixed_length. cbn [sl_lens] in *. rewrite Ex. ring.
  - intros l Hl. destruct (V l Hl) as (x & Ex & Px). destruct (Eu l) as (u & Enu & Evu); [unfold n; pose proof (list_max_le top l Hl); lia|].
    specialize (Hp l Hl). unfold mixed_length in Hp. cbn [sl_lens] in *. rewrite Ex in Hp.
    destruct (nth_error ls' l) as [y|] eqn:Ey; [|nra]. exists y, u. split; [reflexivity|]. split; [exact Enu|]. split; [|nra].
    cbn. rewrite Evu. unfold f, mixed_length. cbn [sl_lens]. rewrite Ex, Hp. field. lra.
Qed.

Theorem session_mixed p : Forall (fun x => op_legal (snd x)) p ->
  both (fun r r' => fst (fst r') = fst (fst r) /\ map rows (snd (fst r')) = map rows (snd (fst r)) /\ mixed_proportional c top (snd r) (snd r'))
    (session top bottom p (mkslen [] ls)) (session top bottom p (mkslen [] ls')).
Proof.
  intro Lg. destruct middle as (U & OU & WU & us & H1 & H2). destruct Hv as (V1 & V2 & V3 & _).
  assert (Hi : (0 < / c)%R) by (apply Rinv_0_lt_compat; exact Hc).
  eapply both_trans; [exact (rel_session 1 Rlt_0_1 top bottom ls us V1 V2 V3 H1 p Lg)|exact (rel_session (/ c) Hi top bottom ls' us V1 V2 V3 H2 p Lg)|].
  intros x y z P Q. apply run_seen in P. apply run_seen in Q. destruct P as (P1 & P2 & P3), Q as (Q1 & Q2 & Q3).
  split; [congruence|]. split; [congruence|]. intros l Hl. specialize (P3 l Hl). specialize (Q3 l Hl). rewrite P3 in Q3.
  unfold lamM in Q3. unfold mixed_length. set (u := match nth_error (sl_lens (snd x)) l with Some _ => _ | None => _ end) in *.
  set (v := match nth_error (sl_lens (snd z)) l with Some _ => _ | None => _ end) in *. clearbody u v.
  assert (E : (c * (1 * u) = c * (/ c * v))%R) by (rewrite Q3; reflexivity). rewrite <- Rmult_assoc, <- Rmult_assoc, Rinv_r, Rmult_1_r, Rmult_1_l in E by lra. symmetry. exact E.
Qed.

Theorem decomposing_mixed p n q : Forall (fun x => op_legal (snd x)) p -> Forall dcall_legal q ->
  both (fun r r' => fst r' = fst r /\ Forall2 (mixed_view c) (snd r) (snd r'))
    (decomposing top bottom p n q (mkslen [] ls)) (decomposing top bottom p n q (mkslen [] ls')).
Proof.
  intros Lg Lq. destruct middle as (U & OU & WU & us & H1 & H2). destruct Hv as (V1 & V2 & V3 & _).
  assert (Hi : (0 < / c)%R) by (apply Rinv_0_lt_compat; exact Hc).
  eapply both_trans; [exact (rel_decomposing 1 Rlt_0_1 top bottom ls us V1 V2 V3 H1 p n q Lg Lq)|exact (rel_decomposing (/ c) Hi top bottom ls' us V1 V2 V3 H2 p n q Lg Lq)|].
  intros x y z (P1 & P2) (Q1 & Q2). split; [congruence|]. clear P1 Q1. revert P2 Q2. generalize (snd x), (snd y), (snd z). clear x y z.
  intros l m k HF. revert k. induction HF as [|v u l m (E1 & E2) HF IH]; intros k Q; inversion Q as [|w u2 k2 m2 (E3 & E4) HQ]; subst; constructor; [|apply IH; assumption].
  split; [congruence|]. clear E1 E3 HF HQ IH Q. revert E4. generalize (cv_lengths w). induction E2 as [|a d r t Ha Hr IH]; intros g Q; inversion Q as [|e d2 g2 t2 He HQ]; subst; constructor; [|apply IH; assumption].
  assert (E : (c * (1 * mval a) = c * (/ c * mval e))%R) by (rewrite <- Ha, He; reflexivity). rewrite <- !Rmult_assoc, Rinv_r, Rmult_1_r, Rmult_1_l in E by lra. symmetry. exact E.
Qed.
End MixedRun.
