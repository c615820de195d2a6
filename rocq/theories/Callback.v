(** decompose() with an arbitrary function as its target.

    The target is a [std::function<bool(const Component&)>] that the user provides.  [Decomp.v]
    models it as a pure function of what one can see of the component.  Here it may be anything
    that a C++ function can be: it may have a state of its own (type [A]: captured variables, a
    clock, a counter), it may throw an exception, and it may use the decomposition, which it can
    reach through the component it is given, to make steps itself. *)
From Coq Require Import List ZArith.
From Verif Require Import Base QcTac LenT FM Subspace Lengths IET Decomp.
Open Scope nat_scope.

(** How a call of the target, and likewise a call of decompose(), ends. *)
Inductive reply := Accept | Reject | Raise.

Section Callback.
Context {T : Type} {O : LenOps T} {A : Type}.

(** The target is called with its own state, the decomposition and the number of the component. *)
Definition callback : Type := A -> decomp T -> nat -> res (A * decomp T * reply).

(** component.cc 444-464.  [limitReached] is kept as the reply: an exception leaves both the loop
    and the recursion at once, whatever has been done stays done.  As in [comp_decompose] the loop and
    the recursion share one bound. *)
Fixpoint comp_decompose_with (rounds fuel : nat) (target : callback) (limit : Z) (c : nat) (a : A) (d : decomp T)
  : res (A * decomp T * reply) :=
  match rounds with
  | 0 => OutOfFuel
  | S rounds' =>
    '(a, d, r) <- target a d c ;;
    match r with
    | Accept => Ok (a, d, Accept)
    | Raise => Ok (a, d, Raise)
    | Reject =>
      '(st, d) <- decomposition_step fuel limit c d ;;
      match dst_result st with
      | D_LIMIT_REACHED => Ok (a, d, Reject)
      | _ =>
        '(a, d, r1) <-
          match dst_additional st with
          | Some c' => comp_decompose_with rounds' fuel target limit c' a d
          | None => Ok (a, d, Accept)
          end ;;
        match r1 with
        | Raise => Ok (a, d, Raise)
        | _ =>
          '(a, d, r2) <- comp_decompose_with rounds' fuel target limit c a d ;;
          Ok (a, d, match r2 with Accept => r1 | _ => r2 end)
        end
      end
    end
  end.

(** dynamical_decomposition.cc 65-68 *)
Fixpoint decompose_all_with (rounds fuel : nat) (target : callback) (limit : Z) (cs : list nat) (a : A) (d : decomp T)
  : res (A * decomp T * reply) :=
  match cs with
  | [] => Ok (a, d, Accept)
  | c :: cs' =>
    '(a, d, r) <- comp_decompose_with rounds fuel target limit c a d ;;
    match r with
    | Accept => decompose_all_with rounds fuel target limit cs' a d
    | _ => Ok (a, d, r)
    end
  end.
Definition decompose_with (rounds fuel : nat) (target : callback) (limit : Z) (a : A) (d : decomp T)
  : res (A * decomp T * reply) :=
  decompose_all_with rounds fuel target limit (seq 0 (length (d_comps d))) a d.

(** A target that only looks at the component (as in [Decomp.v]). *)
Definition looking (target : cview T -> bool) : callback := fun a d c =>
  v <- comp_view d c ;; Ok (a, d, if target v then Accept else Reject).

End Callback.
Arguments callback : clear implicits.
