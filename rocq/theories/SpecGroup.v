(** The numbers that are integer combinations of given ones. *)
From Coq Require Import Reals List.
From Verif Require Import Spec.
Import ListNotations.
Open Scope R_scope.

(** The subgroup of the real numbers that is generated by the numbers in [G]. *)
Inductive generated (G : R -> Prop) : R -> Prop :=
| gen_zero : generated G 0
| gen_plus x r : G x -> generated G r -> generated G (x + r)
| gen_minus x r : G x -> generated G r -> generated G (r - x).

(** [r] is a length of one of the exchanges. *)
Definition is_length (E : list exch) (r : R) : Prop :=
  exists e a, In e E /\ In a (e_top e) /\ r = e_len e a.

(** All lengths are integer multiples of [u]. *)
Definition measured_by (u : R) (E : list exch) : Prop :=
  forall r, is_length E r -> exists n : Z, r = IZR n * u.
