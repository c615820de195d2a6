(** Proofs of the properties in [PropPtr]. *)
From Coq Require Import Reals Permutation.
From Verif Require Import Base QcTac LenT FM Subspace Lengths IET Api Ptr Spec.
From Verif Require Import ReduceProof World PtrProof.
Open Scope nat_scope.

Lemma claim_C50_links : forall (T : Type) (O : LenOps T) (W : LenLaws T) (l : list (piet T)) (s : slen T) p,
  p_history l s -> In p l ->
  NoDup (p_top p ++ p_bottom p) /\
  (forall q, In q (p_top p) -> exists x r, In r (p_bottom p) /\
     nth_error (p_heap p) q = Some (Some (mknode x (Some r))) /\ nth_error (p_heap p) r = Some (Some (mknode x (Some q)))) /\
  (forall q, In q (p_bottom p) -> exists x r, In r (p_top p) /\
     nth_error (p_heap p) q = Some (Some (mknode x (Some r))) /\ nth_error (p_heap p) r = Some (Some (mknode x (Some q)))).
Proof.
  intros T O W l s p H Hp. destruct (p_history_in l s p H Hp) as (i & _ & [Lk _ _ _ _ _ _] & _). pose proof Lk as [N Ht Hb]. split; [exact N|]. split; intros q Hq.
  - destruct (Ht q Hq) as (Q1 & Q2 & Q3 & Q4). destruct (Hb _ Q2) as (R1 & _). rewrite Q3, Q4 in R1. eauto.
  - destruct (Hb q Hq) as (Q1 & Q2 & Q3 & Q4). destruct (Ht _ Q2) as (R1 & _). rewrite Q3, Q4 in R1. eauto.
Qed.

Lemma claim_C50_calls : forall (T : Type) (O : LenOps T) (W : LenLaws T) (l : list (piet T)) (s : slen T) p o,
  p_history l s -> In p l ->
  exists i, p_view p = Ok i /\ seen (p_run_op o p s) = run_op o i s.
Proof.
  intros T O W l s p o H Hp. destruct (p_history_in l s p H Hp) as (i & _ & R & _). exists i. split; [apply rep_view, R|]. apply seen_rep, run_op_rep, R.
Qed.

Lemma claim_C50_induce : forall (T : Type) (O : LenOps T) (W : LenLaws T) (l : list (piet T)) (s : slen T) p (S : Type) (L : lens T S) (u : S) fuel limit,
  p_history l s -> In p l ->
  exists i, p_view p = Ok i /\ seen_step (p_induce L fuel limit p u) = induce L fuel limit i u.
Proof.
  intros T O W l s p S L u fuel limit H Hp. destruct (p_history_in l s p H Hp) as (i & _ & R & _). exists i. split; [apply rep_view, R|]. apply seen_step_rep, induce_rep, R.
Qed.

Lemma claim_C50_safe : forall (T : Type) (O : LenOps T) (W : LenLaws T) (l1 l2 : list (piet T)) (s : slen T) p o,
  p_history (l1 ++ p :: l2) s -> op_legal o ->
  (exists i, p_view p = Ok i /\ failure o i (seen (p_run_op o p s))) \/
  exists p' extra s', p_run_op o p s = Ok (p', extra, s') /\ p_history (l1 ++ p' :: extra ++ l2) s'.
Proof.
  intros T O W l1 l2 s p o H Lg. assert (Hp : In p (l1 ++ p :: l2)) by (apply in_elt). destruct (p_history_in _ s p H Hp) as (i & l' & R & H' & Hi).
  assert (G : obtainable i s) by (exists l'; auto). apply obtainable_good in G.
  assert (E : seen (p_run_op o p s) = run_op o i s) by (apply seen_rep, run_op_rep, R).
  destruct (op_ok o i s G Lg) as [F|(i' & ex & s' & F & _)].
  - left. exists i. split; [apply rep_view, R|]. rewrite E. exact F.
  - right. pose proof (run_op_rep o p i s R) as Q. rewrite F in Q. destruct (p_run_op o p s) as [[[p' extra] s'']| | | |] eqn:Ep; try contradiction.
    exists p', extra, s''. split; [reflexivity|]. exact (ph_op l1 p l2 s o p' extra s'' H Lg Ep).
Qed.

Lemma claim_C50_histories : forall (T : Type) (O : LenOps T) (W : LenLaws T) (s : slen T),
  (forall l, p_history l s -> exists l', history l' s /\ Forall2 (fun p i => p_view p = Ok i) l l') /\
  (forall l', history l' s -> exists l, p_history l s /\ Forall2 (fun p i => p_view p = Ok i) l l').
Proof.
  intros T O W s. split.
  - intros l H. destruct (p_history_rep l s H) as (l' & H' & F). exists l'. split; [exact H'|apply forall2_views, F].
  - intros l' H. destruct (history_rep l' s H) as (l & H' & F). exists l. split; [exact H'|apply forall2_views, F].
Qed.

