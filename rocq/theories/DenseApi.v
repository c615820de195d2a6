(** Ways to call the library that the theorems about induction without end quantify over. *)
From Coq Require Import Reals ZArith List.
From Verif Require Import Base LenT FM Subspace Lengths IET Api.
Open Scope nat_scope.

Section DenseApi.
Context {T : Type} {O : LenOps T}.

(** Calls of [induce] on the same IET with these limits, one after the other, that all find
    neither a cylinder nor a connection nor a similarity. *)
Inductive quiet : list Z -> iet T -> slen T -> Prop :=
| qt_nil i s : quiet [] i s
| qt_cons limit ls i s fuel st j t : (0 <= limit <= INT_MAX)%Z ->
    induce sample_lens fuel limit i s = Ok (st, j, t) ->
    is_result st = LIMIT_REACHED \/ is_result st = WITHOUT_PERIODIC_TRAJECTORY_BOSHERNITZAN ->
    quiet ls j t -> quiet (limit :: ls) i s.

End DenseApi.
