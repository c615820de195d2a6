(** Properties C60 and C61: lengths spanned by two numbers, such as the elements of a
    quadratic field.

    [rank_two] is specified in [SpecRank]; [stalls], [worked], [retried] are the ways of
    calling the library ([RankApi]). *)
From Coq Require Import Reals Permutation QArith Qcanon.
From Verif Require Import Base LenT FM Subspace Lengths IET LenInst Sqrt2 Decomp Spec SpecRank Api DecApi RankApi Fixtures RankFixtures.
From Verif Require Import ClaimsRank.
Open Scope nat_scope.

(** ** C60: Induction decides when the lengths are spanned by two numbers. *)

(** Elements of a field of degree two are such lengths. *)
Theorem C60_quadratic : forall (T : Type) (O : LenOps T) (W : LenLaws T) (i : iet T) (s : slen T),
  obtainable i s -> l_deg T = 2 -> rank_two (exch_of i s).
Proof. exact claim_C60_quadratic. Qed.
Print Assumptions C60_quadratic.

(** However often and with whatever limits [induce] is called on the same IET, it answers
    LIMIT_REACHED only until the limits sum up to some number [N]. *)
Theorem C60_calls : forall (T : Type) (O : LenOps T) (W : LenLaws T) (i : iet T) (s : slen T),
  obtainable i s -> rank_two (exch_of i s) ->
  exists N, forall ls, stalls ls i s -> (zsuml ls < N)%Z.
Proof. exact claim_C60_calls. Qed.
Print Assumptions C60_calls.

(** In particular a single call with a limit of at least [N] returns something else. *)
Theorem C60_call : forall (T : Type) (O : LenOps T) (W : LenLaws T) (i : iet T) (s : slen T),
  obtainable i s -> rank_two (exch_of i s) ->
  exists N, forall limit fuel, (N <= limit <= INT_MAX)%Z -> (limit < Z.of_nat fuel)%Z ->
    exists st j t, induce sample_lens fuel limit i s = Ok (st, j, t) /\ is_result st <> LIMIT_REACHED.
Proof. exact claim_C60_call. Qed.
Print Assumptions C60_call.

(** If the SAF invariant vanishes, then the answer is not that of Boshernitzan's criterion
    (for any lengths), so for lengths spanned by two numbers [induce] finds a cylinder, a
    saddle connection or claims self-similarity. *)
Theorem C60_saf : forall (T : Type) (O : LenOps T) (W : LenLaws T) (i : iet T) (s : slen T) v i' fuel limit st j t,
  obtainable i s -> saf_invariant i s = Ok (v, i') -> Forall (fun q => q = 0%Qc) v -> (limit <= INT_MAX)%Z ->
  induce sample_lens fuel limit i s = Ok (st, j, t) -> is_result st <> WITHOUT_PERIODIC_TRAJECTORY_BOSHERNITZAN.
Proof. exact claim_C60_saf. Qed.
Print Assumptions C60_saf.

(** Lengths in the field of sqrt 2 for which the limit is reached four times. *)
Example C60_example : obtainable u_iet u_lens /\ rank_two (exch_of u_iet u_lens) /\
  stalls [3; 1]%Z u_iet u_lens /\
  match induce sample_lens 9 5 u_iet u_lens with
  | Ok (st, _, _) => is_result st = WITHOUT_PERIODIC_TRAJECTORY_BOSHERNITZAN
  | _ => False
  end.
Proof.
  split; [exact u_obtainable|]. split; [apply claim_C60_quadratic; [exact u_obtainable | reflexivity]|]. split.
  - apply (stalls_run_ok 9). vm_compute. reflexivity.
  - vm_compute. reflexivity.
Qed.

(** In the field of sqrt 2, with vanishing SAF invariant. *)
Example C60_example_saf :
  let s := mkslen [] [q2_of 1 0; q2_of 0 1; q2_of 0 1; q2_of 1 0] in
  let i := fresh [0; 1; 2; 3] [3; 2; 1; 0] in
  obtainable i s /\
  match saf_invariant i s, induce sample_lens 9 5 i s with
  | Ok (v, _), Ok (st, _, _) => forallb (fun q => Qc_eq_bool q 0%Qc) v = true /\ is_result st = NON_SEPARATING_CONNECTION
  | _, _ => False
  end.
Proof. split; [apply fresh_obtainable; vm_compute; reflexivity|]. vm_compute. split; reflexivity. Qed.

(** ** C61: Decomposition makes progress until it is complete when the lengths are spanned
    by two numbers. *)

(** An endless sequence of steps on the components of a decomposition, in any order, with
    any positive limits or without limits (here in blocks, [results n] are those of the
    block that leads from [D n] to [D (n + 1)]): all but finitely many of the steps answer
    that their component is a cylinder or has no periodic trajectory. *)
Theorem C61_history : forall (T : Type) (O : LenOps T) (W : LenLaws T) (i : iet T) (s : slen T) tr (D : nat -> decomp T) (results : nat -> list dstep),
  decomposition i s tr (D 0) -> rank_two (exch_of i s) -> (forall n, worked (D n) (results n) (D (S n))) ->
  exists N, forall n st, N <= n -> In st (results n) -> final st.
Proof. exact claim_C61_history. Qed.
Print Assumptions C61_history.

(** Repeating [decompose] with a fixed positive limit answers [true] after finitely many
    calls, and then the decomposition is complete. *)
Theorem C61_decompose : forall (T : Type) (O : LenOps T) (W : LenLaws T) (i : iet T) (s : slen T) tr d rounds fuel limit,
  decomposition i s tr d -> rank_two (exch_of i s) -> (1 <= limit <= INT_MAX)%Z ->
  length (i_top i) < rounds -> length (i_top i) < fuel -> (limit < Z.of_nat fuel)%Z ->
  exists n d1 d2, retried rounds fuel limit n d d1 /\ decompose rounds fuel default_target limit d1 = Ok (true, d2) /\
    forall c x, component d2 c x -> dc_cylinder x = Some true \/ dc_wpt x = Some true.
Proof. exact claim_C61_decompose. Qed.
Print Assumptions C61_decompose.

(** An unlimited step on a component whose SAF invariant does not vanish terminates, for
    some number of rounds [F], and so does not overflow. *)
Theorem C61_unlimited : forall (T : Type) (O : LenOps T) (W : LenLaws T) (i : iet T) (s : slen T) tr d c x v j,
  decomposition i s tr d -> rank_two (exch_of i s) -> component d c x ->
  saf_invariant (dc_iet x) (d_len d) = Ok (v, j) -> ~ Forall (fun q => q = 0%Qc) v ->
  exists F, forall fuel, F <= fuel -> exists st d', decomposition_step fuel (-1) c d = Ok (st, d').
Proof. exact claim_C61_unlimited. Qed.
Print Assumptions C61_unlimited.

Example C61_example : exists d, decomposition u_iet u_lens [] d /\ rank_two (exch_of u_iet u_lens) /\
  (exists d1 d2, retried 5 5 2 2 d d1 /\ decompose 5 5 default_target 2 d1 = Ok (true, d2) /\
     map (fun x => (dc_cylinder x, dc_wpt x)) (d_comps d2) = [(Some false, Some true)]) /\
  match nth_error (d_comps d) 0 with
  | Some x => match saf_invariant (dc_iet x) (d_len d) with Ok (v, _) => forallb (fun q => Qc_eq_bool q 0%Qc) v = false | _ => False end
  | None => False
  end.
Proof.
  eexists. split; [apply dh_new; [exact u_obtainable | vm_compute; reflexivity]|].
  split; [apply claim_C60_quadratic; [exact u_obtainable | reflexivity]|]. split.
  - apply retry_ok. vm_compute. reflexivity.
  - vm_compute. reflexivity.
Qed.
