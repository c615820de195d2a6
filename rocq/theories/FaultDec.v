(** Exceptions thrown by the lengths while a decomposition is computed: [Decomp] once more,
    with what is in the objects when an exception passes through ([Fault] for the IETs). *)
From Verif Require Import Base QcTac LenT FM Subspace Lengths IET Decomp Api RatioApi Fault.
Open Scope nat_scope.

Section FaultDec.
Context {T : Type} {O : LenOps T}.

(** lengths_with_connections.cc 36-40: the label is on the stack of the wrapper before the wrapped lengths are called. *)
Definition fd_push (l : label) : prog T (decomp T) unit :=
  _ <~ change (fun d => assert_ (negb (memb l (d_stack d))) (Ok (set_lens d (d_len d) (d_stack d ++ [l])))) ;;
  member (fun d => Ok (tt, set_lens d (sl_push l (d_len d)) (d_stack d))).

(** lengths_with_connections.cc 42-46 *)
Definition fd_pop : prog T (decomp T) unit :=
  _ <~ change (fun d => assert_ (negb (length (d_stack d) =? 0)) (Ok (set_lens d (d_len d) (removelast (d_stack d))))) ;;
  member (fun d => s <- sl_pop (d_len d) ;; Ok (tt, set_lens d s (d_stack d))).

(** lengths_with_connections.cc 57-79 *)
Definition fd_subtract2 (c : nat) (m sub : label) : prog T (decomp T) unit :=
  i <~ this ;; change (lwc_subtract2 c (i_view i) m sub).

(** lengths_with_connections.cc 48-55 *)
Definition fd_subtract (c : nat) (m : label) : prog T (decomp T) unit :=
  d <~ state ;;
  match d_stack d with
  | [] => fret tt
  | sub :: _ =>
    _ <~ member (fun d => s <- sl_subtract m (d_len d) ;; Ok (tt, set_lens d s (d_stack d))) ;;
    _ <~ fd_subtract2 c m sub ;;
    change (fun d => Ok (set_lens d (d_len d) []))
  end.

(** lengths_with_connections.cc 81-90 *)
Definition fd_subrep (c : nat) (m : label) : prog T (decomp T) label :=
  d <~ state ;;
  match d_stack d with
  | [] => pure AssertFail
  | sub :: _ =>
    r <~ member (fun d => '(r, s) <- sl_subrep m (d_len d) ;; Ok (r, set_lens d s (d_stack d))) ;;
    _ <~ fd_subtract2 c m sub ;;
    _ <~ change (fun d => Ok (set_lens d (d_len d) [])) ;;
    fret r
  end.

(** lengths_with_connections.cc 36-122 as seen by the IET of component [c], with wrapped lengths whose members may throw *)
Definition dec_flens (c : nat) : flens T (decomp T) := mkflens fd_push fd_pop (fd_subtract c) (fd_subrep c) d_len.

(** A call on a decomposition that returns, with the number of calls of members that are still to succeed; or an exception
    together with the decomposition at that time. *)
Inductive dout (A : Type) :=
| D_did (a : A) (k : nat) (d : decomp T)
| D_raised (d : decomp T)
| D_fails (f : failure).
Arguments D_did {A}.
Arguments D_raised {A}.
Arguments D_fails {A}.

Definition dprog (A : Type) := nat -> decomp T -> dout A.

Definition dret {A} (a : A) : dprog A := fun k d => D_did a k d.
Definition dbind {A B} (m : dprog A) (f : A -> dprog B) : dprog B := fun k d =>
  match m k d with
  | D_did a k d => f a k d
  | D_raised d => D_raised d
  | D_fails e => D_fails e
  end.
Notation "x <== m ;; f" := (dbind m (fun x => f)) (at level 61, m at next level, right associativity).

(** Code that does not call the lengths. *)
Definition dpure {A} (f : decomp T -> res (A * decomp T)) : dprog A := fun k d =>
  match f d with
  | Ok (a, d) => D_did a k d
  | Throw => D_raised d
  | AssertFail => D_fails F_assert
  | UB => D_fails F_undefined
  | OutOfFuel => D_fails F_fuel
  end.

(** A call of a method of the IET of component [c]. *)
Definition on_iet {A} (c : nat) (p : prog T (decomp T) A) : dprog A := fun k d =>
  match nth_error (d_comps d) c with
  | None => D_fails F_undefined
  | Some x =>
    match p k (dc_iet x) d with
    | Did a k i d => match comp_set d c (iet_set x i) with Ok d => D_did a k d | _ => D_fails F_undefined end
    | Raised i d => match comp_set d c (iet_set x i) with Ok d => D_raised d | _ => D_fails F_undefined end
    | Fails e => D_fails e
    end
  end.

(** component.cc 165-170 and 344-356 *)
Definition fd_start (c : nat) : dprog (option Z) :=
  _ <== dpure (fun d => x <- comp_at d c ;; assert_ (negb (fully_decomposed x)) (Ok (tt, d))) ;;
  v <== on_iet c (f_saf_invariant (dec_flens c)) ;;
  dret (if vis0 v then None else Some 64%Z).

(** component.cc 186-201 *)
Fixpoint fd_loop (rounds fuel : nat) (cost : option Z) (limit : Z) (c : nat) : dprog (istep T) :=
  match rounds with
  | 0 => dpure (fun _ => OutOfFuel)
  | S rounds' =>
    let steps := match cost with
                 | Some k => if (limit <? 2 * k)%Z then limit else k
                 | None => limit
                 end in
    let limit := (limit - steps)%Z in
    st <== on_iet c (f_induce (dec_flens c) fuel steps) ;;
    match is_result st with
    | LIMIT_REACHED => if (limit =? 0)%Z then dret st else fd_loop rounds' fuel cost limit c
    | _ => dret st
    end
  end.

(** component.cc 165-287 for [limit <> -1] *)
Definition fd_limited (fuel : nat) (limit : Z) (c : nat) : dprog dstep :=
  cost <== fd_start c ;;
  st <== fd_loop fuel fuel cost limit c ;;
  dpure (step_finish fuel st c).

(** component.cc 172-182 *)
Fixpoint fd_unlimited (rounds fuel : nat) (cost : option Z) (limit : Z) (c : nat) : dprog dstep :=
  match rounds with
  | 0 => dpure (fun _ => OutOfFuel)
  | S rounds' =>
    st <== fd_limited fuel limit c ;;
    match dst_result st with
    | D_LIMIT_REACHED =>
      match cost with
      | Some k =>
        if (2 * (limit + 1) <=? INT_MAX)%Z then fd_unlimited rounds' fuel cost k c else dpure (fun _ => UB)
      | None =>
        if (2 * (limit + 1) <=? INT_MAX)%Z then fd_unlimited rounds' fuel cost (2 * (limit + 1)) c else dpure (fun _ => UB)
      end
    | _ => dret st
    end
  end.

(** component.cc 165-287 *)
Definition fd_step (fuel : nat) (limit : Z) (c : nat) : dprog dstep :=
  if (limit =? -1)%Z then cost <== fd_start c ;; fd_unlimited fuel fuel cost 0 c
  else fd_limited fuel limit c.

(** component.cc 444-464; the target does not call the lengths. *)
Fixpoint fd_comp_decompose (rounds fuel : nat) (target : cview T -> bool) (limit : Z) (c : nat) : dprog bool :=
  match rounds with
  | 0 => dpure (fun _ => OutOfFuel)
  | S rounds' =>
    v <== dpure (fun d => v <- comp_view d c ;; Ok (v, d)) ;;
    if target v then dret true
    else
      st <== fd_step fuel limit c ;;
      match dst_result st with
      | D_LIMIT_REACHED => dret false
      | _ =>
        ok1 <== match dst_additional st with
                | Some c' => fd_comp_decompose rounds' fuel target limit c'
                | None => dret true
                end ;;
        ok2 <== fd_comp_decompose rounds' fuel target limit c ;;
        dret (ok1 && ok2)
      end
  end.

(** dynamical_decomposition.cc 65-68 *)
Fixpoint fd_decompose_all (rounds fuel : nat) (target : cview T -> bool) (limit : Z) (cs : list nat) : dprog bool :=
  match cs with
  | [] => dret true
  | c :: cs' =>
    ok <== fd_comp_decompose rounds fuel target limit c ;;
    if (ok : bool) then fd_decompose_all rounds fuel target limit cs' else dret false
  end.
Definition fd_decompose (rounds fuel : nat) (target : cview T -> bool) (limit : Z) : dprog bool :=
  fun k d => fd_decompose_all rounds fuel target limit (seq 0 (length (d_comps d))) k d.

End FaultDec.
Arguments dout : clear implicits.
Arguments D_did {T A}.
Arguments D_raised {T A}.
Arguments D_fails {T A}.
Arguments dprog : clear implicits.
Notation "x <== m ;; f" := (dbind m (fun x => f)) (at level 61, m at next level, right associativity).
