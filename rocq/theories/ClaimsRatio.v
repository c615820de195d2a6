(** Proofs of the properties in PropRatio.v. *)
From Coq Require Import Reals Permutation Lia Lra.
From Verif Require Import Base QcTac LenT FM Subspace Lengths IET Decomp LenInst Sqrt2 Fixtures Spec Api RatioApi.
From Verif Require Import RatioRun.
Open Scope nat_scope.
(** The lengths 7, 5, 3, 4 as integers, and the lengths 7, 5, 3, 4 times the square root of
    two in a quadratic field. *)
Definition plain_lengths : list Z := [7; 5; 3; 4]%Z.
Definition root_lengths : list q2 := [q2_of 0 7; q2_of 0 5; q2_of 0 3; q2_of 0 4].

Lemma scaled_root : proportional r2 [0; 1; 2; 3] (mkslen [] plain_lengths) (mkslen [] root_lengths).
Proof.
  intros l Hl. assert (G : forall n, q2_val (q2_of 0 n) = (r2 * IZR n)%R).
  { intro n. unfold q2_val, q2_of. cbn [fst snd]. rewrite !Qc2R_zq. ring. }
  repeat (destruct Hl as [<-|Hl]; [exact (G _)|]). destruct Hl.
Qed.

Definition sample_program : list (nat * op) := [(0, op_saf); (0, op_bosh_saddle); (0, op_zorich); (0, op_swap); (0, op_induce 100 1); (0, op_induce 100 (-1)); (0, op_reduce)].
Definition sample_calls : list dcall :=
  [dc_inject (mkhe 0 0 false) [] [(0, 5)]; dc_step 100 1 0; dc_decompose 100 100 (fun v => match lk_cylinder v with Some true => true | _ => false end) (-1)].

Lemma claim_C66_program : forall (T : Type) (O : LenOps T) (W : LenLaws T) (T' : Type) (O' : LenOps T') (W' : LenLaws T')
    (c : R) (top bottom : list label) (ls : list T) (ls' : list T') (p : list (nat * op)),
  (0 < c)%R -> valid_input (mkslen [] ls) top bottom -> proportional c top (mkslen [] ls) (mkslen [] ls') ->
  Forall (fun x => op_legal (snd x)) p ->
  both (fun r r' =>
      fst (fst r') = fst (fst r) /\
      map rows (snd (fst r')) = map rows (snd (fst r)) /\
      proportional c top (snd r) (snd r'))
    (session top bottom p (mkslen [] ls)) (session top bottom p (mkslen [] ls')).
Proof.
  intros T O W T' O' W' c top bottom ls ls' p. apply session_ratio.
Qed.

Lemma claim_C66_decomposition : forall (T : Type) (O : LenOps T) (W : LenLaws T) (T' : Type) (O' : LenOps T') (W' : LenLaws T')
    (c : R) (top bottom : list label) (ls : list T) (ls' : list T') (p : list (nat * op)) (n : nat) (q : list dcall),
  (0 < c)%R -> valid_input (mkslen [] ls) top bottom -> proportional c top (mkslen [] ls) (mkslen [] ls') ->
  Forall (fun x => op_legal (snd x)) p -> Forall dcall_legal q ->
  both (fun r r' => fst r' = fst r /\ Forall2 (same_view c) (snd r) (snd r'))
    (decomposing top bottom p n q (mkslen [] ls)) (decomposing top bottom p n q (mkslen [] ls')).
Proof.
  intros T O W T' O' W' c top bottom ls ls' p n q. apply decomposing_ratio.
Qed.

