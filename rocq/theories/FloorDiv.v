(** Model of [FloorDivision] for the number types that are implemented in this library
    (intervalxt/sample/*_floor_division.hpp).  For [renf_elem_class] and
    [exactreal::Element] the operator only calls [floordiv] of another library. *)
From Verif Require Import Base QcTac LenT FM Subspace MachineInt.
Open Scope Z_scope.

(** integer_floor_division.hpp 33-37 for a signed type with values [lo], ..., [hi]: [/]
    truncates towards zero; dividing by zero and leaving the range are undefined. *)
Definition fd_int (lo hi : Z) (x y : Z) : res Z := if y =? 0 then UB else mi lo hi (Z.quot x y).

(** mpz_floor_division.hpp 35-37: [/] of [mpz_class] is [mpz_tdiv_q], it truncates; dividing
    by zero raises a signal. *)
Definition fd_mpz (x y : Z) : res Z := if y =? 0 then UB else Ok (Z.quot x y).

(** mpq_floor_division.hpp 35-37 *)
Definition fd_mpq (x y : Qc) : res Z := fd_mpz (qnum x * qden y) (qden x * qnum y).

(** A number type with another floor division. *)
Definition with_div {T} (O : LenOps T) (f : T -> T -> option Z) : LenOps T :=
  Build_LenOps T l_zero l_add l_sub l_scale l_cmp f l_cross l_coefs (l_deg T) l_coef.
