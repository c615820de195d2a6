(** Proofs of the properties in PropFloorDiv.v. *)
From Coq Require Import Reals Permutation Lia Lra Qround.
From Verif Require Import Base QcTac LenT FM Subspace Lengths IET Decomp LenInst Fixtures Spec Api RatioApi MachineInt FloorDiv.
From Verif Require Import FloorDivProof RatioRun.
Open Scope nat_scope.
Lemma both_map {A B} (P Q : A -> B -> Prop) m n : (forall a b, P a b -> Q a b) -> both P m n -> both Q m n.
Proof.
  destruct m, n; cbn; auto.
Qed.
Lemma claim_C67_mpz : forall x y : Z, fd_mpz x y = Ok (x / y)%Z <-> (y <> 0 /\ (0 <= x * y \/ (y | x)))%Z.
Proof.
  exact fd_mpz_floor.
Qed.

Lemma claim_C67_int : forall n x y : Z, (- n - 1 <= x <= n)%Z -> (- n - 1 <= y <= n)%Z ->
  (fd_int (- n - 1) n x y = Ok (x / y)%Z <-> (y <> 0 /\ ~ (x = - n - 1 /\ y = -1) /\ (0 <= x * y \/ (y | x)))%Z).
Proof.
  exact fd_int_floor.
Qed.

Lemma claim_C67_mpq : forall x y : Qc,
  fd_mpq x y = Ok (Qfloor (this x / this y)) <-> y <> 0%Qc /\ ((0 <= x * y)%Qc \/ exists q, x = (zq q * y)%Qc).
Proof.
  exact fd_mpq_floor.
Qed.

Lemma claim_C67_program : forall (T : Type) (O : LenOps T) (W : LenLaws T) (f : T -> T -> option Z)
    (top bottom : list label) (ls : list T) (p : list (nat * op)),
  (forall x y, (0 <= val x)%R -> (0 < val y)%R -> f x y = l_div x y) ->
  valid_input (mkslen [] ls) top bottom -> Forall (fun x => op_legal (snd x)) p ->
  both (fun r r' =>
      fst (fst r') = fst (fst r) /\
      map rows (snd (fst r')) = map rows (snd (fst r)) /\
      forall l, In l top -> lamR (snd r') l = lamR (snd r) l)
    (session top bottom p (mkslen [] ls)) (@session T (with_div O f) top bottom p (mkslen [] ls)).
Proof.
  intros T O W f top bottom ls p Hf Hv Hp.
  pose proof (@session_ratio T O W T (with_div O f) (with_div_laws f Hf) 1%R top bottom ls ls p Rlt_0_1 Hv) as H.
  assert (P : @proportional T O W T (with_div O f) (with_div_laws f Hf) 1 top (mkslen [] ls) (mkslen [] ls)).
  { intros l _. rewrite Rmult_1_l. reflexivity. }
  specialize (H P Hp).
  revert H. apply both_map. intros r r' (H1 & H2 & H3). split; [exact H1|]. split; [exact H2|]. intros l Hl. specialize (H3 l Hl). rewrite Rmult_1_l in H3. exact H3.
Qed.

Definition strict_div (x y : Z) : option Z := if ((0 <=? x) && (0 <? y))%Z then Some (x / y)%Z else None.
Lemma strict_div_ok x y : (0 <= @val Z _ _ x)%R -> (0 < @val Z _ _ y)%R -> strict_div x y = l_div x y.
Proof.
  intros Hx Hy. cbn in Hx, Hy. apply le_IZR in Hx. apply lt_IZR in Hy. unfold strict_div. cbn.
  destruct (Z.leb_spec 0 x); [|lia]. destruct (Z.ltb_spec 0 y); [|lia]. destruct (Z.eqb_spec y 0); [lia|]. cbn. rewrite Z.quot_div_nonneg by lia. reflexivity.
Qed.
Definition div_program : list (nat * op) := [(0, op_zorich); (0, op_swap); (0, op_zorich); (0, op_induce 100 (-1)); (0, op_reduce)].
Lemma claim_C67_decomposition : forall (T : Type) (O : LenOps T) (W : LenLaws T) (f : T -> T -> option Z)
    (top bottom : list label) (ls : list T) (p : list (nat * op)) (n : nat) (q : list dcall),
  (forall x y, (0 <= val x)%R -> (0 < val y)%R -> f x y = l_div x y) ->
  valid_input (mkslen [] ls) top bottom -> Forall (fun x => op_legal (snd x)) p -> Forall dcall_legal q ->
  both (fun r r' => r' = r)
    (decomposing top bottom p n q (mkslen [] ls)) (@decomposing T (with_div O f) top bottom p n q (mkslen [] ls)).
Proof.
  intros T O W f top bottom ls p n q Hf Hv Hp Hq.
  pose proof (@decomposing_ratio T O W T (with_div O f) (with_div_laws f Hf) 1%R top bottom ls ls p n q Rlt_0_1 Hv) as H.
  assert (P : @proportional T O W T (with_div O f) (with_div_laws f Hf) 1 top (mkslen [] ls) (mkslen [] ls)).
  { intros l _. rewrite Rmult_1_l. reflexivity. }
  specialize (H P Hp Hq).
  revert H. apply both_map. intros r r' (H1 & H2). destruct r as [a v], r' as [a' v']. cbn [fst snd] in *. f_equal; [exact H1|]. clear - H2.
  induction H2 as [|v v' l l' (E & F) G IH]; [reflexivity|]. f_equal; [|exact IH].
  assert (cv_lengths v' = cv_lengths v) as Q.
  { clear - F. induction F as [|x y l l' E F IH]; [reflexivity|]. f_equal; [|exact IH]. apply (@val_inj T O W). rewrite Rmult_1_l in E. exact E. }
  unfold look_at in E. destruct v, v'. cbn in *. congruence.
Qed.

