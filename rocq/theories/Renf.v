(** The coefficients of elements of number fields and of exact reals: the two number types
    that pick a basis by looking at the list they are given. *)
From Coq Require Import List Bool Arith.
From Verif Require Import Base QcTac LenT FM Subspace LenInst.
Import ListNotations.
Open Scope nat_scope.

(** * Number fields *)

(** An [eantic::renf_elem_class]: its parent and its coordinates with respect to the powers
    of the generator of the parent.  (Modelled is what renf_elem_coefficients.hpp relies on:
    [parent()], [is_rational()], [num_vector()] over [den()].) *)
Record renf (F : Type) := mkrenf { re_parent : F; re_coords : list Qc }.
Arguments mkrenf {F}.
Arguments re_parent {F}.
Arguments re_coords {F}.

Section Renf.
Context {F : Type}.
Variable same : F -> F -> bool.    (* comparison of parents *)
Variable degree : F -> nat.        (* renf_class::degree() *)

(** renf_elem_class::is_rational(): only the first coordinate may be non-zero. *)
Definition is_rational (x : renf F) : bool := forallb (fun q => qc_eqb q 0) (tl (re_coords x)).

(** renf_elem_coefficients.hpp 41-48: the loop that picks the parent. *)
Fixpoint pick_parent (p : F) (xs : list (renf F)) : res F :=
  match xs with
  | [] => Ok p
  | x :: xs' =>
    if is_rational x then pick_parent p xs'
    else
      let p := if degree p =? 1 then re_parent x else p in
      if same p (re_parent x) then pick_parent p xs' else Throw
  end.

(** renf_elem_coefficients.hpp 52: the coercion of [x] to the parent and 54-60, its coordinates.
    Elements of the parent and rational numbers can be coerced. *)
Definition coerce (p : F) (x : renf F) : res (list Qc) :=
  if same p (re_parent x) then Ok (re_coords x)
  else if is_rational x then Ok (hd 0%Qc (re_coords x) :: vzero (degree p - 1))
  else Throw.

(** renf_elem_coefficients.hpp 36-66 *)
Definition renf_coefficients (xs : list (renf F)) : res (list (list Qc)) :=
  match xs with
  | [] => Ok []
  | x :: _ => p <- pick_parent (re_parent x) xs ;; mapM (coerce p) xs
  end.
End Renf.

(** * Exact reals *)

(** An [exactreal::Element] over the rationals or integers: the generators of its module and
    the coefficients. *)
Definition element : Type := list (nat * Qc).
Definition el_module (x : element) : list nat := map fst x.

(** [Module::span]: the generators of both modules. *)
Definition mod_span (p m : list nat) : list nat := p ++ filter (fun g => negb (memb g p)) m.

(** The coefficient of a generator; the ones that are not there are zero. *)
Fixpoint el_coef (x : element) (g : nat) : Qc :=
  match x with
  | [] => 0%Qc
  | (h, q) :: x' => if h =? g then q else el_coef x' g
  end.

(** [promote(parent)] and its coefficients *)
Definition el_promote (p : list nat) (x : element) : list Qc := map (el_coef x) p.

(** element_coefficients.hpp 39-58 (for coefficients that are rational numbers; over the
    elements of a number field every coefficient is itself replaced by its coordinates). *)
Definition element_coefficients (xs : list element) : res (list (list Qc)) :=
  match xs with
  | [] => Ok []
  | x :: _ =>
    let parent := fold_left (fun p y => mod_span p (el_module y)) xs (el_module x) in
    Ok (map (el_promote parent) xs)
  end.

(** * Rational numbers and elements of one number field in the same program *)

(** What a number field needs to take part: it contains the rational numbers, and the first
    element of its basis is one. *)
Class OverQ (K : Type) {O : LenOps K} := { from_q : Qc -> K }.

Inductive mixed (K : Type) := in_q (q : Qc) | in_k (x : K).
Arguments in_q {K}.
Arguments in_k {K}.

Section Mix.
Context {K : Type} {O : LenOps K} {E : OverQ K}.

(** As an element of the number field. *)
Definition to_k (x : mixed K) : K := match x with in_q q => from_q q | in_k k => k end.

(** The parents: the rationals ([false]) and the number field ([true]). *)
Definition to_renf (x : mixed K) : renf bool :=
  match x with in_q q => mkrenf false [q] | in_k k => mkrenf true (l_coef k) end.
Definition mix_degree (p : bool) : nat := if p then l_deg K else 1.

(** The arithmetic of renf_elem_class: two rational numbers give a rational number, otherwise
    the result lives in the number field.  Comparisons, floordiv and products do not depend
    on the parent. *)
Definition mix_op (f : Qc -> Qc -> Qc) (g : K -> K -> K) (x y : mixed K) : mixed K :=
  match x, y with
  | in_q a, in_q b => in_q (f a b)
  | _, _ => in_k (g (to_k x) (to_k y))
  end.

Global Instance MixOps : LenOps (mixed K) := {
  l_zero := in_q 0%Qc;
  l_add := mix_op Qcplus l_add;
  l_sub := mix_op Qcminus l_sub;
  l_scale n x := match x with in_q q => in_q (zq n * q)%Qc | in_k k => in_k (l_scale n k) end;
  l_cmp x y := l_cmp (to_k x) (to_k y);
  l_div x y := l_div (to_k x) (to_k y);
  l_cross x y' y x' := l_cross (to_k x) (to_k y') (to_k y) (to_k x');
  l_coefs xs := renf_coefficients Bool.eqb mix_degree (map to_renf xs);
  l_deg := 1;
  l_coef _ := [];
}.
End Mix.
