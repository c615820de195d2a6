(** C67: [FloorDivision] is exact where the library uses it. *)
From Coq Require Import Reals Permutation Qround.
From Verif Require Import Base QcTac LenT FM Subspace Lengths IET Decomp LenInst Fixtures Spec Api RatioApi MachineInt FloorDiv.
From Verif Require Import ClaimsFloorDiv.
Open Scope nat_scope.
(** [FloorDivision<mpz_class>] computes the floor of the quotient (which is what [/] means
    in Coq) if and only if the divisor is not zero and the quotient is not negative or
    an integer. *)
Theorem C67_mpz : forall x y : Z, fd_mpz x y = Ok (x / y)%Z <-> (y <> 0 /\ (0 <= x * y \/ (y | x)))%Z.
Proof. exact claim_C67_mpz. Qed.
Print Assumptions C67_mpz.

Example C67_mpz_example : fd_mpz 17 5 = Ok 3%Z /\ (17 / 5 = 3)%Z /\ fd_mpz (-17) 5 = Ok (-3)%Z /\ (-17 / 5 = -4)%Z /\ fd_mpz 17 0 = UB.
Proof.
  repeat split; vm_compute; reflexivity.
Qed.

(** The same for signed machine integers with values from [-n - 1] to [n], except that the
    quotient of the smallest number and [-1] is undefined as well. *)
Theorem C67_int : forall n x y : Z, (- n - 1 <= x <= n)%Z -> (- n - 1 <= y <= n)%Z ->
  (fd_int (- n - 1) n x y = Ok (x / y)%Z <-> (y <> 0 /\ ~ (x = - n - 1 /\ y = -1) /\ (0 <= x * y \/ (y | x)))%Z).
Proof. exact claim_C67_int. Qed.
Print Assumptions C67_int.

Example C67_int_example : fd_int (-128) 127 100 7 = Ok 14%Z /\ fd_int (-128) 127 (-128) (-1) = UB /\ fd_int (-128) 127 (-100) 7 = Ok (-14)%Z.
Proof.
  repeat split; vm_compute; reflexivity.
Qed.

(** The same for rational numbers. *)
Theorem C67_mpq : forall x y : Qc,
  fd_mpq x y = Ok (Qfloor (this x / this y)) <-> y <> 0%Qc /\ ((0 <= x * y)%Qc \/ exists q, x = (zq q * y)%Qc).
Proof. exact claim_C67_mpq. Qed.
Print Assumptions C67_mpq.

Example C67_mpq_example : fd_mpq (zq 7 / zq 2) (zq 2 / zq 3) = Ok 5%Z /\ fd_mpq (- (zq 7 / zq 2)) (zq 2 / zq 3) = Ok (-5)%Z /\ fd_mpq (zq 7) 0 = UB.
Proof.
  repeat split; vm_compute; reflexivity.
Qed.

(** Programs on IETs only divide non-negative lengths by positive ones: replace the floor
    division by [f], which agrees with it for such lengths but may do anything for others
    (another number, or a crash), and run the same program.  It gets the same answers or
    fails in the same way, and in the end the IETs have the same rows and the lengths
    are the same. *)
Theorem C67_program : forall (T : Type) (O : LenOps T) (W : LenLaws T) (f : T -> T -> option Z)
    (top bottom : list label) (ls : list T) (p : list (nat * op)),
  (forall x y, (0 <= val x)%R -> (0 < val y)%R -> f x y = l_div x y) ->
  valid_input (mkslen [] ls) top bottom -> Forall (fun x => op_legal (snd x)) p ->
  both (fun r r' =>
      fst (fst r') = fst (fst r) /\
      map rows (snd (fst r')) = map rows (snd (fst r)) /\
      forall l, In l top -> lamR (snd r') l = lamR (snd r) l)
    (session top bottom p (mkslen [] ls)) (@session T (with_div O f) top bottom p (mkslen [] ls)).
Proof. exact claim_C67_program. Qed.
Print Assumptions C67_program.

(** A division that rounds down, or crashes, where the one of the library rounds up. *)
Example C67_program_example :
  (forall x y, (0 <= @val Z _ _ x)%R -> (0 < @val Z _ _ y)%R -> strict_div x y = l_div x y) /\
  strict_div (-7) 2 = None /\ @l_div Z _ (-7)%Z 2%Z = Some (-3)%Z /\
  valid_input (mkslen [] [47; 3; 4; 31]%Z) [0; 1; 2; 3] [3; 2; 1; 0] /\ Forall (fun x => op_legal (snd x)) div_program /\
  match @session Z (with_div ZOps strict_div) [0; 1; 2; 3] [3; 2; 1; 0] div_program (mkslen [] [47; 3; 4; 31]%Z) with
  | Ok (a, _, _) => length a = 5
  | _ => False
  end.
Proof.
  split; [exact strict_div_ok|]. split; [reflexivity|]. split; [reflexivity|]. split; [apply valid_inputb_ok; vm_compute; reflexivity|].
  split; [repeat constructor; vm_compute; discriminate|]. vm_compute. reflexivity.
Qed.

(** The same for programs that decompose. *)
Theorem C67_decomposition : forall (T : Type) (O : LenOps T) (W : LenLaws T) (f : T -> T -> option Z)
    (top bottom : list label) (ls : list T) (p : list (nat * op)) (n : nat) (q : list dcall),
  (forall x y, (0 <= val x)%R -> (0 < val y)%R -> f x y = l_div x y) ->
  valid_input (mkslen [] ls) top bottom -> Forall (fun x => op_legal (snd x)) p -> Forall dcall_legal q ->
  both (fun r r' => r' = r)
    (decomposing top bottom p n q (mkslen [] ls)) (@decomposing T (with_div O f) top bottom p n q (mkslen [] ls)).
Proof. exact claim_C67_decomposition. Qed.
Print Assumptions C67_decomposition.

Example C67_decomposition_example :
  Forall dcall_legal [dc_step 100 1 0; dc_step 100 (-1) 0] /\
  match @decomposing Z (with_div ZOps strict_div) [0; 1; 2; 3] [3; 2; 1; 0] [(0, op_zorich)] 0 [dc_step 100 1 0; dc_step 100 (-1) 0] (mkslen [] [47; 3; 4; 31]%Z) with
  | Ok (_, b, v) => length b = 2 /\ v <> []
  | _ => False
  end.
Proof.
  split; [repeat constructor; vm_compute; discriminate|]. vm_compute. split; [reflexivity|discriminate].
Qed.
