(** What a program can do with IETs through the public interface: which inputs are
    legal, what an IET in the model denotes, and the histories of calls on any number of
    IETs that share one lengths object.  The properties quantify over these histories. *)
From Coq Require Import Reals Permutation.
From Verif Require Import Base QcTac LenT FM Subspace Lengths IET.
From Verif Require Spec.

Section Api.
Context {T : Type} {O : LenOps T} {W : LenLaws T}.

(** Real length of a label in a store (0 if the store does not know it). *)
Definition lamR (s : slen T) (l : label) : R :=
  match nth_error (sl_lens s) l with Some x => val x | None => 0%R end.

(** The exchange of intervals of the real line that an IET denotes. *)
Definition exch_of (i : iet T) (s : slen T) : Spec.exch :=
  Spec.mkexch (i_top i) (i_bottom i) (lamR s).

(** Legal arguments of the constructor (intervalxt/interval_exchange_transformation.hpp
    46-60): both rows list the same labels, each once, there is at least one label and all
    lengths are known and positive. *)
Definition valid_input (s : slen T) (top bottom : list label) : Prop :=
  NoDup top /\ Permutation top bottom /\ top <> [] /\
  forall l, In l top -> exists x, nth_error (sl_lens s) l = Some x /\ (0 < val x)%R.

(** The calls on one IET.  [op_induce fuel limit] bounds the number of rounds of the loop
    in the model; [limit] is the C++ argument. *)
Inductive op :=
| op_swap
| op_zorich
| op_reduce
| op_induce (fuel : nat) (limit : Z)
| op_saf
| op_bosh_periodic
| op_bosh_saddle
| op_bosh_saddle2 (t b : label).

(** Result of a call: the IET afterwards, an IET that was split off, the lengths. *)
Definition run_op (o : op) (i : iet T) (s : slen T) : res (iet T * list (iet T) * slen T) :=
  match o with
  | op_swap => Ok (iet_swap i, [], s)
  | op_zorich => '(_, i, s) <- zorich sample_lens i s ;; Ok (i, [], s)
  | op_reduce =>
    '(r, i) <- reduce i s ;; Ok (i, match r with Some j => [j] | None => [] end, s)
  | op_induce fuel limit =>
    '(st, i, s) <- induce sample_lens fuel limit i s ;;
    Ok (i, match is_additional st with Some j => [j] | None => [] end, s)
  | op_saf => '(_, i) <- saf_invariant i s ;; Ok (i, [], s)
  | op_bosh_periodic => '(_, i) <- bosh_no_periodic i s ;; Ok (i, [], s)
  | op_bosh_saddle => _ <- bosh_no_saddle i s ;; Ok (i, [], s)
  | op_bosh_saddle2 t b => _ <- bosh_no_saddle2 i s t b ;; Ok (i, [], s)
  end.

(** Arguments that fit the C++ types. *)
Definition op_legal (o : op) : Prop :=
  match o with
  | op_induce _ limit => (- INT_MAX - 1 <= limit <= INT_MAX)%Z
  | _ => True
  end.

(** Labels in use. *)
Definition used (l : list (iet T)) : list label := flat_map (fun i => i_top i) l.

(** Histories: start with a lengths object, construct IETs on labels that are not in use
    yet and call operations on any of them in any order.  [history l s]: [l] are the
    IETs that exist at the end, [s] is the state of the lengths they share. *)
Inductive history : list (iet T) -> slen T -> Prop :=
| h_start ls : history [] (mkslen [] ls)
| h_new l s top bottom i :
    history l s -> valid_input s top bottom ->
    (forall c, In c top -> ~ In c (used l)) ->
    iet_make s top bottom = Ok i -> history (i :: l) s
| h_op l1 i l2 s o i' extra s' :
    history (l1 ++ i :: l2) s -> op_legal o ->
    run_op o i s = Ok (i', extra, s') -> history (l1 ++ i' :: extra ++ l2) s'.

(** An IET that some program can obtain, with its lengths. *)
Definition obtainable (i : iet T) (s : slen T) : Prop := exists l, history l s /\ In i l.

(** When and how a call may fail: the model of [induce] runs out of fuel (only if the
    fuel does not exceed the limit, or there is none), the counter of an unlimited
    [induce] overflows after more than [INT_MAX] rounds, or a query is about a label that is last or unknown. *)
Definition failure (o : op) (i : iet T) (r : res (iet T * list (iet T) * slen T)) : Prop :=
  match o with
  | op_induce fuel limit =>
    (r = OutOfFuel /\ limit <> 0%Z /\ (limit = -1 \/ Z.of_nat fuel <= Z.max 0 limit)%Z) \/
    (r = UB /\ limit = (-1)%Z /\ (INT_MAX < Z.of_nat fuel)%Z)
  | op_bosh_saddle2 t b =>
    (r = Throw /\ (In t (i_top i) /\ ~ Spec.not_last (i_top i) t \/ In b (i_bottom i) /\ ~ Spec.not_last (i_bottom i) b)) \/
    (r = UB /\ (~ In t (i_top i) \/ ~ In b (i_bottom i)))
  | _ => False
  end.

(** [inducing i s n j t]: [j] with lengths [t] results from [i] with lengths [s] by calls
    of [zorichInduction], [swap] ([n] times) and [induce] that did not split the IET. *)
Inductive inducing (i : iet T) (s : slen T) : nat -> iet T -> slen T -> Prop :=
| ind_start : inducing i s 0 i s
| ind_zorich n j t found j' t' :
    inducing i s n j t -> zorich sample_lens j t = Ok (found, j', t') -> inducing i s n j' t'
| ind_induce n j t fuel limit st j' t' :
    inducing i s n j t -> (limit <= INT_MAX)%Z ->
    induce sample_lens fuel limit j t = Ok (st, j', t') -> is_additional st = None -> inducing i s n j' t'
| ind_swap n j t : inducing i s n j t -> inducing i s (S n) (iet_swap j) t.

(** [elsewhere j l s l' s']: calls on other IETs than [j] lead from the IETs [l] with
    lengths [s] to the IETs [l'] with lengths [s']. *)
Inductive elsewhere (j : iet T) : list (iet T) -> slen T -> list (iet T) -> slen T -> Prop :=
| else_done l s : In j l -> elsewhere j l s l s
| else_op l1 i l2 s o i' extra s' l' s'' :
    In j (l1 ++ l2) -> op_legal o -> run_op o i s = Ok (i', extra, s') ->
    elsewhere j (l1 ++ i' :: extra ++ l2) s' l' s'' -> elsewhere j (l1 ++ i :: l2) s l' s''.

(** The [k]-th rational coordinate of the length of a label. *)
Definition coordinate (s : slen T) (k : nat) (a : label) : Qc :=
  match nth_error (sl_lens s) a with Some x => nth k (l_coef x) 0%Qc | None => 0%Qc end.

End Api.
