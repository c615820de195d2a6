(** What becomes of one IET: the IETs that a program obtains from it by any calls, on it or
    on the parts that were split off. *)
From Coq Require Import List ZArith.
From Verif Require Import Base LenT FM Subspace Lengths IET Api.

Section Final.
Context {T : Type} {O : LenOps T} {W : LenLaws T}.

(** [family i s l t]: after some calls, the IETs [l] with the lengths [t] are what is left
    of [i] with the lengths [s]. *)
Inductive family (i : iet T) (s : slen T) : list (iet T) -> slen T -> Prop :=
| fam_start : family i s [i] s
| fam_call l1 j l2 t o j' extra t' :
    family i s (l1 ++ j :: l2) t -> op_legal o -> run_op o j t = Ok (j', extra, t') ->
    family i s (l1 ++ j' :: extra ++ l2) t'.
End Final.
