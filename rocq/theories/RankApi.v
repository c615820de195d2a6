(** Ways to call the library that the theorems about lengths spanned by two numbers quantify
    over. *)
From Coq Require Import Reals ZArith List.
From Verif Require Import Base LenT FM Subspace Lengths IET Decomp Api.
Open Scope nat_scope.

Section RankApi.
Context {T : Type} {O : LenOps T}.

(** Calls of [induce] on the same IET with these limits, one after the other, that all
    answer LIMIT_REACHED. *)
Inductive stalls : list Z -> iet T -> slen T -> Prop :=
| st_nil i s : stalls [] i s
| st_cons limit ls i s fuel st j t : (0 <= limit <= INT_MAX)%Z ->
    induce sample_lens fuel limit i s = Ok (st, j, t) -> is_result st = LIMIT_REACHED -> stalls ls j t -> stalls (limit :: ls) i s.

Definition zsuml (l : list Z) : Z := fold_right Z.add 0%Z l.

(** [worked d tr d']: calls of [decompositionStep] on components of [d], in any order, each
    unlimited or with a positive limit; the results are [tr]. *)
Inductive worked : decomp T -> list dstep -> decomp T -> Prop :=
| wk_nil d : worked d [] d
| wk_cons d fuel limit c st d1 tr d2 : (limit = -1 \/ 1 <= limit <= INT_MAX)%Z -> c < length (d_comps d) ->
    decomposition_step fuel limit c d = Ok (st, d1) -> worked d1 tr d2 -> worked d (st :: tr) d2.

(** The step found out what its component is. *)
Definition final (st : dstep) : Prop :=
  dst_result st = D_CYLINDER \/ dst_result st = D_WITHOUT_PERIODIC_TRAJECTORY_BOSHERNITZAN \/
  dst_result st = D_WITHOUT_PERIODIC_TRAJECTORY_AUTO_SIMILAR.

(** [n] calls of [decompose(limit)] that all answer [false]. *)
Inductive retried (rounds fuel : nat) (limit : Z) : nat -> decomp T -> decomp T -> Prop :=
| rt_0 d : retried rounds fuel limit 0 d d
| rt_S n d d1 d2 : decompose rounds fuel default_target limit d = Ok (false, d1) -> retried rounds fuel limit n d1 d2 ->
    retried rounds fuel limit (S n) d d2.

End RankApi.
