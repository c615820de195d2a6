(** Independent specification: the real numbers behind elements of number fields and exact
    reals, and what it means that vectors describe them. *)
From Coq Require Import List Reals.
From Verif Require Import Base QcTac LenT Renf Lengths.
Import ListNotations.
Open Scope nat_scope.

(** Real numbers that are linearly independent over the rationals. *)
Definition independent (b : list R) : Prop := forall v : list Qc, length v = length b -> lin v b = 0%R -> v = vzero (length b).

(** The vectors are the coordinates of the numbers with respect to one list of real numbers
    that are independent over the rationals. *)
Definition coordinates (cs : list (list Qc)) (xs : list R) : Prop :=
  exists b, 1 <= length b /\ independent b /\ Forall2 (fun c x => length c = length b /\ lin c b = x) cs xs.

(** Number fields: [power p] are the powers of the generator of the field [p]. *)
Record fields {F : Type} (same : F -> F -> bool) (degree : F -> nat) (power : F -> list R) : Prop := {
  fl_same : forall p q, same p q = true <-> p = q;
  fl_degree : forall p, length (power p) = degree p;
  fl_one : forall p, exists r, power p = 1%R :: r;
  fl_free : forall p, independent (power p);
}.

Definition renf_value {F} (power : F -> list R) (x : renf F) : R := lin (re_coords x) (power (re_parent x)).
Definition renf_ok {F} (degree : F -> nat) (x : renf F) : Prop := length (re_coords x) = degree (re_parent x).

Definition rational (x : R) : Prop := exists q : Qc, x = Qc2R q.

(** Exact reals: [gen g] is the value of the generator [g]. *)
Fixpoint element_value (gen : nat -> R) (x : element) : R :=
  match x with
  | [] => 0%R
  | (g, q) :: x' => (Qc2R q * gen g + element_value gen x')%R
  end.
Definition element_ok (x : element) : Prop := NoDup (el_module x).

(** Number fields that contain the rational numbers. *)
Class OverQLaws (K : Type) {O : LenOps K} {W : LenLaws K} {E : OverQ K} := {
  from_q_coef : forall q, l_coef (from_q q) = q :: vzero (l_deg K - 1);
  basis_one : exists r, basis K = 1%R :: r;
  basis_free : independent (basis K);
}.

(** The length of a label, for lengths that are rational numbers or elements of a number field. *)
Definition field_length {K} {O : LenOps K} {W : LenLaws K} {E : OverQ K} (s : slen (mixed K)) (l : label) : R :=
  match nth_error (sl_lens s) l with Some x => val (to_k x) | None => 0%R end.
