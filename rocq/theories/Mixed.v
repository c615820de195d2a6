(** Number types that pick a basis for every list: the contract of the template parameters
    [T], [FloorDivision], [Coefficients] of [sample::Lengths] (intervalxt/sample/lengths.hpp)
    without the assumption that all elements live in one module.

    renf_elem_coefficients.hpp 36-66 coerces the elements of a list into a parent that it
    picks by looking at the list: a list of rational numbers may come out as vectors of size
    one or as vectors of the size of a number field.  element_coefficients.hpp 39-58 uses
    the span of the modules of the elements in the list. *)
From Coq Require Import Reals.
From Verif Require Import Base QcTac LenT SpecLin.
Open Scope nat_scope.

(** Numbers with exact arithmetic.  Of the vectors of a list of numbers one only knows that
    they all have the same size and that a rational linear relation holds between the
    numbers if and only if it holds between the vectors. *)
Class MixedLaws (T : Type) {O : LenOps T} := {
  mval : T -> R;
  mval_zero : mval l_zero = 0%R;
  mval_add : forall x y, mval (l_add x y) = (mval x + mval y)%R;
  mval_sub : forall x y, mval (l_sub x y) = (mval x - mval y)%R;
  mval_scale : forall n x, mval (l_scale n x) = (IZR n * mval x)%R;
  mcmp_val : forall x y,
    match l_cmp x y with
    | Lt => (mval x < mval y)%R
    | Eq => mval x = mval y
    | Gt => (mval x > mval y)%R
    end;
  mdiv_val : forall x y, (0 <= mval x)%R -> (0 < mval y)%R ->
    exists q, l_div x y = Some q /\
      (IZR q * mval y <= mval x < (IZR q + 1) * mval y)%R;
  mcross_val : forall x y' y x',
    l_cross x y' y x' = true <-> (mval x * mval y' = mval y * mval x')%R;
  mcoefs : forall xs, xs <> [] -> exists cs d,
    l_coefs xs = Ok cs /\ length cs = length xs /\ 1 <= d /\ Forall (fun c => length c = d) cs /\
    forall q : list Qc, length q = length xs ->
      (lin q (map mval xs) = 0%R <-> forall k, k < d -> dot q (map (fun c => nth k c 0%Qc) cs) = 0%Qc);
}.
