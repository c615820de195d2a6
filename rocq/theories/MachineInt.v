(** Model of [sample::Lengths<T>] for a signed machine integer [T] with values [lo], ...,
    [hi]: the same functions as in [Lengths], but arithmetic that leaves this range is
    undefined behaviour. *)
From Verif Require Import Base QcTac LenT FM Subspace Lengths IET LenInst Api.
Open Scope nat_scope.

Section Machine.
Variables lo hi : Z.

(** The result [z] of an arithmetic operation on [T]. *)
Definition mi (z : Z) : res Z := if ((lo <=? z) && (z <=? hi))%Z then Ok z else UB.

(** lengths.ipp 81-83 *)
Fixpoint ms_accumulate (s : slen Z) (acc : Z) (st : list label) : res Z :=
  match st with
  | [] => Ok acc
  | l :: st' => x <- sl_at s l ;; acc <- mi (acc + x) ;; ms_accumulate s acc st'
  end.
Definition ms_sum (s : slen Z) : res Z := ms_accumulate s 0%Z (sl_stack s).

(** lengths.ipp 116-118 *)
Definition ms_cmp1 (s : slen Z) (r : label) : res comparison :=
  x <- ms_sum s ;; y <- sl_at s r ;; Ok (x ?= y)%Z.

(** lengths.ipp 126-130 *)
Definition ms_subtract (from : label) (s : slen Z) : res (slen Z) :=
  x <- sl_at s from ;; t <- ms_sum s ;; d <- mi (x - t) ;;
  s <- sl_set s from d ;;
  assert_ (0 <? d)%Z (Ok (sl_clear s)).

(** lengths.ipp 149-157 *)
Fixpoint ms_subrep_loop (from : label) (stop : label) (st : list label) (s : slen Z) : res (label * slen Z) :=
  match st with
  | [] => Throw
  | l :: st' =>
    x <- sl_at s l ;; y <- sl_at s from ;;
    if (y <=? x)%Z then Ok (stop, sl_clear s)
    else
      d <- mi (y - x) ;; s <- sl_set s from d ;;
      assert_ (0 <? d)%Z (ms_subrep_loop from l st' s)
  end.

(** lengths.ipp 133-160 and integer_floor_division.hpp 33-37; the quotient of the smallest
    integer and -1 is out of range. *)
Definition ms_subrep (from : label) (s : slen Z) : res (label * slen Z) :=
  match sl_stack s with
  | [] => Throw
  | _ =>
    x <- sl_at s from ;; t <- ms_sum s ;;
    if (t =? 0)%Z then UB
    else
      quo <- mi (Z.quot x t) ;; p <- mi (quo * t) ;; y <- mi (x - p) ;;
      s <- sl_set s from y ;;
      assert_ (0 <=? y)%Z (
        s <- (if (y =? 0)%Z then t' <- ms_sum s ;; y <- mi (y + t') ;; sl_set s from y else Ok s) ;;
        ms_subrep_loop from (last (sl_stack s) 0) (sl_stack s) s)
  end.

(** The interface that the IET uses.  The multiplications in [similar] (lengths.ipp 219)
    are not part of it: the coefficients of integers have one entry only, so that the
    similarity tracker is never asked (iet.cc 214-216). *)
Definition machine_lens : lens Z (slen Z) :=
  mklens (fun l s => Ok (sl_push l s)) sl_pop ms_cmp1 sl_cmp2
         (fun _ => ms_subtract) (fun _ => ms_subrep) (fun s => s).

(** The calls on an IET with such lengths, see [run_op]; the other calls do not compute
    with [T] but with [mpq_class]. *)
Definition mrun_op (o : op) (i : iet Z) (s : slen Z) : res (iet Z * list (iet Z) * slen Z) :=
  match o with
  | op_zorich => '(_, i, s) <- zorich machine_lens i s ;; Ok (i, [], s)
  | op_induce fuel limit =>
    '(st, i, s) <- induce machine_lens fuel limit i s ;;
    Ok (i, match is_additional st with Some j => [j] | None => [] end, s)
  | _ => run_op o i s
  end.

End Machine.
