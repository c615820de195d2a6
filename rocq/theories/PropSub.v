(** Properties C18-C21: [RationalAffineSubspace].

    [subspace r h d P] ([SubApi]): the object [r] was built by constructors and
    transformations; it should contain the vectors of length [d] with [P]; [h] tells
    whether it is homogeneous.  [p_mem (r_sub r) x]: the polyhedron that represents [r]
    contains [x]. *)
From Coq Require Import QArith Qcanon.
From Verif Require Import Base LenT FM Subspace SpecLin SubApi.
From Verif Require Import ClaimsSub.
Open Scope nat_scope.

(** ** C18: The three implementations of hasNonZeroNonNegativeVector agree. *)

(** [eqs] are the equations that PPL finds for the subspace. *)
Theorem C18_agree : forall r d P eqs,
  subspace r true d P ->
  (forall x, length x = d -> (P x <-> Forall (fun e => dot e x = 0%Qc) eqs)) ->
  exists b, nznn r = Ok b /\ nznn_mip r = Ok b /\ nznn_polyhedron r = Ok b /\ nznn_quotient r eqs = Ok b /\
    (b = true <-> exists x, length x = d /\ P x /\ vnonneg x /\ vnonzero x).
Proof. exact claim_C18_agree. Qed.
Print Assumptions C18_agree.

(** The integer program of the MIP implementation is unbounded iff there is a solution. *)
Theorem C18_integer_program : forall r d P,
  subspace r true d P ->
  ((exists x, length x = d /\ P x /\ vnonneg x /\ vnonzero x) <->
   (forall M : Qc, exists x, length x = d /\ P x /\ vnonneg x /\
      Forall (fun q => exists n : Z, q = Q2Qc (inject_Z n)) x /\ (M < fold_right Qcplus 0 x)%Qc)).
Proof. exact claim_C18_integer_program. Qed.
Print Assumptions C18_integer_program.

Theorem C18_rejects : forall r d P eqs,
  subspace r false d P ->
  nznn r = Throw /\ nznn_mip r = Throw /\ nznn_polyhedron r = Throw /\ nznn_quotient r eqs = Throw.
Proof. exact claim_C18_rejects. Qed.
Print Assumptions C18_rejects.

(** The plane 2 x = y + z / 3, and the line x = 1 in two dimensions. *)
Example C18_example :
  (exists r, subspace r true 3 (solves [[Q2Qc 2; Q2Qc (-1); Q2Qc (-1 # 3)]] [0%Qc]) /\ nznn r = Ok true) /\
  (exists r, subspace r true 2 (solves [[1%Qc; 1%Qc]] [0%Qc]) /\ nznn r = Ok false) /\
  (exists r, subspace r false 2 (solves [[1%Qc; 0%Qc]] [1%Qc])).
Proof.
  split; [|split]; eexists.
  - split; [eapply (sub_equations [[Q2Qc 2; Q2Qc (-1); Q2Qc (-1 # 3)]]); [vm_compute; reflexivity | repeat constructor]|].
    vm_compute. reflexivity.
  - split; [eapply (sub_equations [[1%Qc; 1%Qc]]); [vm_compute; reflexivity | repeat constructor]|]. vm_compute. reflexivity.
  - eapply (sub_affine [[1%Qc; 0%Qc]]); [vm_compute; reflexivity|]. intros H. inversion H as [|? ? H1 _]. discriminate.
Qed.

(** ** C19: hasNonNegativeVector and hasPositiveVector decide what they say. *)

Theorem C19_non_negative : forall r h d P,
  subspace r h d P -> (has_nonneg r = true <-> exists x, length x = d /\ P x /\ vnonneg x).
Proof. exact claim_C19_non_negative. Qed.
Print Assumptions C19_non_negative.

Theorem C19_positive : forall r h d P,
  subspace r h d P -> (has_pos r = true <-> d <> 0 /\ exists x, length x = d /\ P x /\ vpos x).
Proof. exact claim_C19_positive. Qed.
Print Assumptions C19_positive.

(** The line x + y = 1, z = 0 contains a non-negative but no positive vector. *)
Example C19_example :
  exists r, subspace r false 3 (solves [[1%Qc; 1%Qc]; [0%Qc; 0%Qc; 1%Qc]] [1%Qc; 0%Qc]) /\
    has_nonneg r = true /\ has_pos r = false.
Proof.
  eexists. split; [eapply (sub_affine [[1%Qc; 1%Qc]; [0%Qc; 0%Qc; 1%Qc]]); [vm_compute; reflexivity|]|].
  - intros H. inversion H as [|? ? H1 _]. discriminate.
  - vm_compute. split; reflexivity.
Qed.

(** ** C20: Subspace construction and elementary transformations are exact. *)

(** Every object contains exactly the vectors it should. *)
Theorem C20_exact : forall r h d P,
  subspace r h d P -> forall x, p_mem (r_sub r) x <-> length x = d /\ P x.
Proof. exact claim_C20_exact. Qed.
Print Assumptions C20_exact.

(** The constructors never trip an assertion; they only reject sizes that do not match. *)
Theorem C20_constructors : forall eqs y gens,
  (length eqs = length y -> exists r, ras_equations eqs y = Ok r) /\
  (length eqs <> length y -> ras_equations eqs y = Throw) /\
  (exists r, ras_generators gens = Ok r).
Proof. exact claim_C20_constructors. Qed.
Print Assumptions C20_constructors.

(** Clearing denominators multiplies both sides by the same positive integer, and the
    result is integral. *)
Theorem C20_normalization : forall v rhs,
  exists den : Z, (0 < den)%Z /\
    let m q := (Q2Qc (inject_Z den) * q)%Qc in
    lin_expr v rhs = Ok (map m v, m rhs) /\
    forall q, In q (rhs :: v) -> exists n : Z, m q = Q2Qc (inject_Z n).
Proof. exact claim_C20_normalization. Qed.
Print Assumptions C20_normalization.

(** Two objects are equal iff they have the same dimension and the same points. *)
Theorem C20_equality : forall r h d P r' h' d' P',
  subspace r h d P -> subspace r' h' d' P' ->
  (ras_eqb r r' = true <-> d = d' /\ forall x, length x = d -> (P x <-> P' x)).
Proof. exact claim_C20_equality. Qed.
Print Assumptions C20_equality.

(** [x_i := x_i + c x_j] applies to all dimensions of the space, and to no others. *)
Theorem C20_elementary : forall r h d P i j c,
  subspace r h d P ->
  ((0 <= i < Z.of_nat d)%Z /\ (0 <= j < Z.of_nat d)%Z ->
   exists r', ras_elementary r i j c = Ok r' /\
     subspace r' h d (fun x' => exists x, length x = d /\ P x /\ x' = add_multiple (Z.to_nat i) (Z.to_nat j) c x)) /\
  (~ ((0 <= i < Z.of_nat d)%Z /\ (0 <= j < Z.of_nat d)%Z) -> ras_elementary r i j c = Throw).
Proof. exact claim_C20_elementary. Qed.
Print Assumptions C20_elementary.

Theorem C20_undo : forall r h d P i j c,
  subspace r h d P -> i <> j -> i < d -> j < d ->
  exists s t, ras_elementary r (Z.of_nat i) (Z.of_nat j) c = Ok s /\
    ras_elementary s (Z.of_nat i) (Z.of_nat j) (- c)%Qc = Ok t /\ ras_eqb r t = true.
Proof. exact claim_C20_undo. Qed.
Print Assumptions C20_undo.

(** The line spanned by (1, 1/2), sheared. *)
Example C20_example :
  exists r s, subspace r true 2 (combination_of 2 [[1%Qc; Q2Qc (1 # 2)]]) /\
    ras_elementary r 0 1 (Q2Qc (-3)) = Ok s /\ ras_eqb r s = false /\ has_pos r = true /\ has_pos s = false.
Proof.
  do 2 eexists. split; [|split].
  - eapply (sub_generators [[1%Qc; Q2Qc (1 # 2)]]); [vm_compute; reflexivity|]. repeat constructor.
    exists 1%Qc. split; [left; reflexivity | discriminate].
  - vm_compute. reflexivity.
  - vm_compute. auto.
Qed.

(** ** C21: RationalAffineSubspace::swap. *)

(** Full statement: for [i, j < d], [ras_swap] succeeds and exchanges the coordinates [i]
    and [j].  Proved: whenever it succeeds.  The rest is false, see below. *)
Theorem C21_partial : forall r h d P i j r',
  subspace r h d P -> ras_swap r (Z.of_nat i) (Z.of_nat j) = Ok r' ->
  forall x', p_mem (r_sub r') x' <->
    length x' = d /\ exists x, length x = d /\ P x /\ x' = exchange i j x.
Proof. exact claim_C21_partial. Qed.
Print Assumptions C21_partial.

(** In dimension three or more no call has a defined result, and no call with [i = j] in
    dimension two. *)
Theorem C21_refuted : 
  (forall r h d P i j, subspace r h d P -> 3 <= d -> ras_swap r (Z.of_nat i) (Z.of_nat j) = UB) /\
  (forall r h P i, subspace r h 2 P -> ras_swap r (Z.of_nat i) (Z.of_nat i) = UB) /\
  exists r, subspace r true 3 (solves [[1%Qc; 1%Qc; 1%Qc]] [0%Qc]) /\ ras_swap r 0 1 = UB.
Proof. exact claim_C21_refuted. Qed.
Print Assumptions C21_refuted.

Example C21_example :
  exists r s, subspace r true 2 (solves [[1%Qc; Q2Qc 2]] [0%Qc]) /\ ras_swap r 0 1 = Ok s /\ ras_eqb r s = false.
Proof.
  do 2 eexists. split; [|split].
  - eapply (sub_equations [[1%Qc; Q2Qc 2]]); [vm_compute; reflexivity | repeat constructor].
  - vm_compute. reflexivity.
  - vm_compute. reflexivity.
Qed.
