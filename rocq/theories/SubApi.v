(** The affine subspaces a program can build with [RationalAffineSubspace] and the sets of
    rational vectors they stand for. *)
From Verif Require Import Base QcTac LenT FM Subspace SpecLin.
Open Scope nat_scope.

(** [subspace r h d P]: some calls of constructors and transformations produce the object
    [r]; mathematically it should be the set of the vectors of length [d] with [P], and
    [h] tells whether it was built without inhomogeneous equations.  Missing trailing
    entries of equations and generators count as zero; [d] is the length of the longest
    one. *)
Inductive subspace : ras -> bool -> nat -> (vec -> Prop) -> Prop :=
| sub_default : subspace ras_default true 0 (fun _ => True)
| sub_equations eqs y r :
    ras_equations eqs y = Ok r -> Forall (fun k => k = 0%Qc) y -> subspace r true (max_dim eqs) (solves eqs y)
| sub_affine eqs y r :
    ras_equations eqs y = Ok r -> ~ Forall (fun k => k = 0%Qc) y -> subspace r false (max_dim eqs) (solves eqs y)
| sub_generators gens r :
    ras_generators gens = Ok r -> Forall vnonzero gens ->
    subspace r true (max_dim gens) (combination_of (max_dim gens) gens)
| sub_elementary r h d P i j c r' :
    subspace r h d P -> ras_elementary r (Z.of_nat i) (Z.of_nat j) c = Ok r' ->
    subspace r' h d (fun x' => exists x, length x = d /\ P x /\ x' = add_multiple i j c x)
| sub_swap r h d P i j r' :
    subspace r h d P -> ras_swap r (Z.of_nat i) (Z.of_nat j) = Ok r' ->
    subspace r' h d (fun x' => exists x, length x = d /\ P x /\ x' = exchange i j x).
