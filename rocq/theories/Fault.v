(** Exceptions thrown by the lengths: the members of the interface [Lengths] are code of the user, and each call of
    one of them may throw.  This is the model of [IET] once more, with what is in the objects when
    an exception passes through. *)
From Verif Require Import Base QcTac LenT FM Subspace Lengths IET Api RatioApi.
Open Scope nat_scope.

Section Fault.
Context {T : Type} {O : LenOps T} {S : Type}.

(** How a call may end when it does neither return nor throw. *)
Inductive failure := F_assert | F_undefined | F_fuel.

(** A call that returns, with the number of calls of members that are still to succeed, the IET and
    its lengths; or an exception together with the IET and its lengths at that time. *)
Inductive out (A : Type) :=
| Did (a : A) (k : nat) (i : iet T) (s : S)
| Raised (i : iet T) (s : S)
| Fails (f : failure).
Arguments Did {A}.
Arguments Raised {A}.
Arguments Fails {A}.

(** A program gets the number of calls of members that succeed: the next one throws. *)
Definition prog (A : Type) := nat -> iet T -> S -> out A.

Definition fret {A} (a : A) : prog A := fun k i s => Did a k i s.
Definition fbind {A B} (m : prog A) (f : A -> prog B) : prog B := fun k i s =>
  match m k i s with
  | Did a k i s => f a k i s
  | Raised i s => Raised i s
  | Fails e => Fails e
  end.
Notation "x <~ m ;; f" := (fbind m (fun x => f)) (at level 61, m at next level, right associativity).

(** Code that does not call the lengths. *)
Definition pure {A} (r : res A) : prog A := fun k i s =>
  match r with
  | Ok a => Did a k i s
  | Throw => Raised i s
  | AssertFail => Fails F_assert
  | UB => Fails F_undefined
  | OutOfFuel => Fails F_fuel
  end.

(** A call of a member of the lengths (intervalxt/lengths.hpp); if it throws then it has not changed the lengths. *)
Definition member {A} (f : S -> res (A * S)) : prog A := fun k i s =>
  match k with
  | 0 => Raised i s
  | Datatypes.S k =>
    match f s with
    | Ok (a, s) => Did a k i s
    | Throw => Raised i s
    | AssertFail => Fails F_assert
    | UB => Fails F_undefined
    | OutOfFuel => Fails F_fuel
    end
  end.
(** Code that works on the lengths object without calling a member that may throw. *)
Definition change (f : S -> res S) : prog unit := fun k i s =>
  match f s with
  | Ok s => Did tt k i s
  | Throw => Raised i s
  | AssertFail => Fails F_assert
  | UB => Fails F_undefined
  | OutOfFuel => Fails F_fuel
  end.

Definition this : prog (iet T) := fun k i s => Did i k i s.
Definition put (i : iet T) : prog unit := fun k _ s => Did tt k i s.
Definition state : prog S := fun k i s => Did s k i s.

(** The lengths of an IET (intervalxt/lengths.hpp 30-80) as programs; [fl_base] as [li_base] in [IET]. *)
Record flens := mkflens {
  fl_push : label -> prog unit;
  fl_pop : prog unit;
  fl_subtract : label -> prog unit;
  fl_subrep : label -> prog label;
  fl_base : S -> slen T;
}.

Context (F : flens).

(** [const] members *)
Definition query {A} (f : slen T -> res A) : prog A := member (fun s => a <- f (fl_base F s) ;; Ok (a, s)).

(** iet.cc 84-110 *)
Fixpoint f_zloop (a : label) (rpre rest : list label) : prog (list label) :=
  match rest with
  | [] => pure UB
  | b :: rest' =>
    if Nat.eqb b a then
      stop <~ fl_subrep F a ;;
      if Nat.eqb a stop then pure UB
      else match back_to stop rpre with
           | None => pure UB
           | Some r => fret r
           end
    else
      _ <~ fl_push F b ;;
      c <~ query (fun s => sl_cmp1 s a) ;;
      match c with
      | Lt => f_zloop a (b :: rpre) rest'
      | _ =>
        _ <~ fl_pop F ;;
        _ <~ fl_subtract F a ;;
        fret rpre
      end
  end.

(** iet.cc 79-115: the rows are changed before the last comparison. *)
Definition f_zorich : prog bool :=
  i <~ this ;;
  match i_top i, i_bottom i with
  | a :: _, b :: _ =>
    if Nat.eqb a b then fret true
    else
      r <~ f_zloop a [] (i_bottom i) ;;
      bottom <~ pure (splice a (i_bottom i) (length r)) ;;
      match bottom with
      | [] => pure UB
      | b' :: _ =>
        _ <~ put (set_bottom i bottom) ;;
        c <~ query (fun s => sl_cmp2 s a b') ;;
        fret match c with Eq => true | _ => false end
      end
  | _, _ => pure UB
  end.

(** iet.cc 417-438: the coefficients are asked for twice, the second time by [translations]. *)
Definition f_saf : prog vec :=
  i <~ this ;;
  match i_saf i with
  | Some v => fret v
  | None =>
    cs <~ query (iet_coefficients i) ;;
    match cs with
    | [] => pure UB
    | c0 :: _ =>
      let d := length c0 in
      v <~ (if d <=? 1 then fret [] else ts <~ query (translations i) ;; pure (saf_sum cs ts (vzero (d * (d - 1) / 2)))) ;;
      let v := if i_swap i then vneg v else v in
      _ <~ put (set_saf i (Some v)) ;;
      fret v
    end
  end.

(** iet.cc 440-443 *)
Definition f_saf0 : prog bool := v <~ f_saf ;; fret (vis0 v).

(** iet.cc 117-123 *)
Definition f_saf_invariant : prog vec := v <~ f_saf ;; i <~ this ;; fret (if i_swap i then vneg v else v).

(** iet.cc 125-138, 170-181 *)
Definition f_bosh_no_periodic : prog bool :=
  z <~ f_saf0 ;;
  if z then fret false
  else
    i <~ this ;;
    if i_size i <=? 1 then fret false
    else
      eqs <~ query (bosh_equations i) ;;
      r <~ pure (ras_equations eqs (vzero (length eqs))) ;;
      b <~ pure (nznn r) ;;
      fret (negb b).

(** iet.cc 155-168, 183-196 *)
Definition f_bosh_no_saddle2 (t b : label) : prog bool :=
  i <~ this ;;
  v <~ query (fun s => bosh_values i s t b) ;;
  if vis0 v then fret false
  else
    eqs <~ query (bosh_equations i) ;;
    r <~ pure (ras_equations eqs v) ;;
    fret (negb (has_nonneg r)).

Fixpoint f_all {A} (f : A -> prog bool) (l : list A) : prog bool :=
  match l with
  | [] => fret true
  | x :: l' => b <~ f x ;; if b then f_all f l' else fret false
  end.

(** iet.cc 140-153 *)
Definition f_bosh_no_saddle : prog bool :=
  i <~ this ;;
  if i_size i <=? 1 then fret false
  else f_all (fun p => f_bosh_no_saddle2 (fst p) (snd p)) (list_prod (tl (rev (i_top i))) (tl (rev (i_bottom i)))).

(** iet.cc 306-360: the intervals of the second part have been erased before the new IET is
    constructed, whose constructor asks for the lengths (iet.cc 414). *)
Definition f_reduce : prog (option (iet T)) :=
  i <~ this ;;
  tb <~ pure (red_loop (i_top i) (i_bottom i) [] 0 0) ;;
  match fst tb with
  | [] => pure (assert_ (match snd tb with [] => true | _ => false end) (Ok None))
  | _ =>
    let tl_ := firstn (length (i_top i) - length (fst tb)) (i_top i) in
    let bl_ := firstn (length (i_bottom i) - length (snd tb)) (i_bottom i) in
    _ <~ pure (assert_ (length tl_ =? length bl_) (Ok tt)) ;;
    _ <~ put (set_saf (set_labels i tl_ bl_) None) ;;
    j <~ query (fun s => iet_make s (fst tb) (snd tb)) ;;
    fret (Some j)
  end.

(** similarity_tracker.cc 41-50 *)
Fixpoint f_similar (k : tracker T) (top : list label) : prog bool :=
  match top with
  | a :: ((b :: _) as top') =>
    r <~ query (fun s => sl_similar (tk_lengths k) a b s a b) ;;
    if (r : bool) then f_similar k top' else fret false
  | _ => fret true
  end.

(** similarity_tracker.cc 25-70: [ttl--] is executed first, so that [ttl] is 2^64 - 1 while [reset] runs,
    and [reset] stores the top row before it asks for a copy of the lengths. *)
Definition f_tracker : prog bool :=
  i <~ this ;;
  let k := i_trk i in
  if (tk_ttl k =? 0)%N then
    _ <~ put (set_trk i (mktracker (i_top i) (tk_bottom k) (tk_lengths k) (tk_bound k) (size_t_mod - 1))) ;;
    only <~ query (fun s => Ok (sl_only (sl_forget s) (i_top i))) ;;
    _ <~ put (set_trk i (mktracker (i_top i) (flat_map (fun b => positions b (i_top i) 0) (i_bottom i)) only
                                   (N.modulo (tk_bound k * 2) size_t_mod) (tk_bound k))) ;;
    fret false
  else
    let k := mktracker (tk_top k) (tk_bottom k) (tk_lengths k) (tk_bound k) (tk_ttl k - 1) in
    _ <~ put (set_trk i k) ;;
    if negb (i_size i =? length (tk_top k)) then fret false
    else
      p <~ pure (same_permutation (i_top i) (i_bottom i) (tk_bottom k)) ;;
      if (p : bool) then f_similar k (tk_top k) else fret false.

(** iet.cc 289-292 *)
Definition f_swap : prog unit := i <~ this ;; put (iet_swap i).

(** iet.cc 209-229: an exception in the second induction leaves the IET swapped. *)
Fixpoint f_loop (fuel : nat) (saf0 : bool) (limit n : Z) : prog (option bool) :=
  match fuel with
  | 0 => pure OutOfFuel
  | Datatypes.S fuel' =>
    if negb ((limit =? -1)%Z || (n <? limit)%Z) then fret (Some false)
    else
      similar <~ (if saf0 then v <~ f_saf ;; if length v =? 0 then fret false else f_tracker else fret false) ;;
      if (similar : bool) then fret None
      else
        found <~ f_zorich ;;
        if (found : bool) then fret (Some true)
        else
          _ <~ f_swap ;;
          found <~ f_zorich ;;
          _ <~ f_swap ;;
          if (found : bool) then fret (Some true)
          else if (n =? INT_MAX)%Z then pure UB
          else f_loop fuel' saf0 limit (n + 1)
  end.

(** iet.cc 231-270 *)
Definition f_finish (found : bool) : prog (istep T) :=
  red <~ f_reduce ;;
  i <~ this ;;
  match red with
  | Some rgt =>
    match rev (i_bottom i), rev (i_top i) with
    | b :: _, t :: _ => fret (mkistep SEPARATING_CONNECTION (Some (b, t)) (Some rgt))
    | _, _ => pure UB
    end
  | None =>
    match i_top i, i_bottom i with
    | a :: _, b :: _ =>
      c <~ query (fun s => sl_cmp2 s a b) ;;
      match c with
      | Eq =>
        j <~ pure (merge_first i) ;;
        _ <~ put j ;;
        fret (mkistep NON_SEPARATING_CONNECTION (Some (b, a)) None)
      | _ =>
        _ <~ pure (assert_ (negb found) (Ok tt)) ;;
        z <~ f_bosh_no_periodic ;;
        fret (mkistep (if (z : bool) then WITHOUT_PERIODIC_TRAJECTORY_BOSHERNITZAN else LIMIT_REACHED) None None)
      end
    | _, _ => pure UB
    end
  end.

(** iet.cc 198-271 *)
Definition f_induce (fuel : nat) (limit : Z) : prog (istep T) :=
  i <~ this ;;
  if i_size i =? 1 then fret (mkistep CYLINDER None None)
  else
    found <~ (if (limit =? 0)%Z then fret (Some false) else z <~ f_saf0 ;; f_loop fuel z limit 0) ;;
    match (found : option bool) with
    | None => fret (mkistep WITHOUT_PERIODIC_TRAJECTORY_AUTO_SIMILAR None None)
    | Some found => f_finish found
    end.

End Fault.
Arguments out : clear implicits.
Arguments Did {T S A}.
Arguments Raised {T S A}.
Arguments Fails {T S A}.
Arguments prog : clear implicits.
Arguments flens : clear implicits.
Arguments mkflens {T S}.
Arguments fl_push {T S}.
Arguments fl_pop {T S}.
Arguments fl_subtract {T S}.
Arguments fl_subrep {T S}.
Arguments fl_base {T S}.
Notation "x <~ m ;; f" := (fbind m (fun x => f)) (at level 61, m at next level, right associativity).

Section Call.
Context {T : Type} {O : LenOps T}.

(** [sample::Lengths] (or other code of the user that does the same) whose members may throw. *)
Definition sample_flens : flens T (slen T) :=
  mkflens (fun l => member (fun s => Ok (tt, sl_push l s)))
          (member (fun s => s <- sl_pop s ;; Ok (tt, s)))
          (fun l => member (fun s => s <- sl_subtract l s ;; Ok (tt, s)))
          (fun l => member (sl_subrep l))
          (fun s => s).

(** The calls of [RatioApi.call]. *)
Definition f_call (o : op) : prog T (slen T) (answer * list (iet T)) :=
  match o with
  | op_swap => _ <~ f_swap ;; fret (ans_nothing, [])
  | op_zorich => found <~ f_zorich sample_flens ;; fret (ans_found found, [])
  | op_reduce => r <~ f_reduce sample_flens ;; fret match r with Some j => (ans_split true, [j]) | None => (ans_split false, []) end
  | op_induce fuel limit =>
    st <~ f_induce sample_flens fuel limit ;;
    fret (ans_induce (is_result st) (is_connection st), match is_additional st with Some j => [j] | None => [] end)
  | op_saf => v <~ f_saf_invariant sample_flens ;; fret (ans_saf_zero (vis0 v), [])
  | op_bosh_periodic => b <~ f_bosh_no_periodic sample_flens ;; fret (ans_flag b, [])
  | op_bosh_saddle => b <~ f_bosh_no_saddle sample_flens ;; fret (ans_flag b, [])
  | op_bosh_saddle2 t b => r <~ f_bosh_no_saddle2 sample_flens t b ;; fret (ans_flag r, [])
  end.

End Call.
