(** Model of [sample::Lengths<T>] (intervalxt/sample/detail/lengths.ipp). *)
From Verif Require Import Base QcTac LenT.

Section Lengths.
Context {T : Type} {O : LenOps T}.

(** Fields of [sample::Lengths], intervalxt/sample/lengths.hpp: the work stack of
    labels (front of the C++ vector first) and the vector of lengths. *)
Record slen := mkslen { sl_stack : list label; sl_lens : list T }.

(** lengths.ipp 57-62: the constructor rejects negative lengths (but accepts 0). *)
Definition sl_make (ls : list T) : res slen :=
  if existsb (fun x => match l_cmp x l_zero with Lt => true | _ => false end) ls
  then Throw else Ok (mkslen [] ls).

(** lengths.ipp 74-78: labels 0, ..., n-1. *)
Definition sl_labels (s : slen) : list label := seq 0 (length (sl_lens s)).

(** lengths.ipp 91-98 ([at]; throws std::out_of_range) and 86-88 ([get]).
    The index of a label is its hash, i.e. its id (lengths.ipp 39-41, label.cc). *)
Definition sl_at (s : slen) (l : label) : res T :=
  match nth_error (sl_lens s) l with Some x => Ok x | None => Throw end.

(** Assignment through [T& at(label)]. *)
Definition sl_set (s : slen) (l : label) (v : T) : res slen :=
  match set_nth l v (sl_lens s) with
  | Some ls => Ok (mkslen (sl_stack s) ls)
  | None => Throw
  end.

(** lengths.ipp 81-83: [operator T], the sum of the lengths on the stack. *)
Fixpoint sl_accumulate (s : slen) (acc : T) (st : list label) : res T :=
  match st with
  | [] => Ok acc
  | l :: st' => x <- sl_at s l ;; sl_accumulate s (l_add acc x) st'
  end.
Definition sl_sum (s : slen) : res T := sl_accumulate s l_zero (sl_stack s).

(** lengths.ipp 101-103 *)
Definition sl_push (l : label) (s : slen) : slen := mkslen (sl_stack s ++ [l]) (sl_lens s).

(** lengths.ipp 106-108; [pop_back] of an empty vector is undefined. *)
Definition sl_pop (s : slen) : res slen :=
  match sl_stack s with
  | [] => UB
  | _ => Ok (mkslen (removelast (sl_stack s)) (sl_lens s))
  end.

(** lengths.ipp 111-113 *)
Definition sl_clear (s : slen) : slen := mkslen [] (sl_lens s).

(** lengths.ipp 116-118: compare the sum on the stack with a length. *)
Definition sl_cmp1 (s : slen) (r : label) : res comparison :=
  x <- sl_sum s ;; y <- sl_at s r ;; Ok (l_cmp x y).

(** lengths.ipp 121-123: compare two lengths. *)
Definition sl_cmp2 (s : slen) (l r : label) : res comparison :=
  x <- sl_at s l ;; y <- sl_at s r ;; Ok (l_cmp x y).

Definition is_pos (x : T) : bool := match l_cmp x l_zero with Gt => true | _ => false end.
Definition is_nonneg (x : T) : bool := match l_cmp x l_zero with Lt => false | _ => true end.

(** lengths.ipp 126-130 *)
Definition sl_subtract (from : label) (s : slen) : res slen :=
  x <- sl_at s from ;; t <- sl_sum s ;;
  s <- sl_set s from (l_sub x t) ;;
  assert_ (is_pos (l_sub x t)) (Ok (sl_clear s)).

(** lengths.ipp 149-157: the loop over the stack in [subtractRepeated]. *)
Fixpoint sl_subrep_loop (from : label) (stop : label) (st : list label) (s : slen) : res (label * slen) :=
  match st with
  | [] => Throw (* "Floor Division inconsistent with cmp()/subtract()" *)
  | l :: st' =>
    x <- sl_at s l ;; y <- sl_at s from ;;
    match l_cmp x y with
    | Lt =>
      s <- sl_set s from (l_sub y x) ;;
      assert_ (is_pos (l_sub y x)) (sl_subrep_loop from l st' s)
    | _ => Ok (stop, sl_clear s)
    end
  end.

(** lengths.ipp 133-160 *)
Definition sl_subrep (from : label) (s : slen) : res (label * slen) :=
  match sl_stack s with
  | [] => Throw (* "Cannot subtractRepeated() without push()" *)
  | _ =>
    x <- sl_at s from ;; t <- sl_sum s ;;
    match l_div x t with
    | None => UB
    | Some quo =>
      (* at(from) -= quo * T(this): the sum is read again before the assignment *)
      s <- sl_set s from (l_sub x (l_scale quo t)) ;;
      y <- sl_at s from ;;
      assert_ (is_nonneg y) (
        s <- (if l_bool y then Ok s
              else t' <- sl_sum s ;; sl_set s from (l_add y t')) ;;
        sl_subrep_loop from (last (sl_stack s) 0) (sl_stack s) s)
    end
  end.

(** lengths.ipp 163-168 *)
Definition sl_coefficients (s : slen) (ls : list label) : res (list vec) :=
  xs <- mapM (sl_at s) ls ;; l_coefs xs.

(** lengths.ipp 187-193 *)
Definition sl_only (s : slen) (ls : list label) : slen :=
  mkslen [] (map (fun p => if memb (fst p) ls then snd p else l_zero)
                 (combine (sl_labels s) (sl_lens s))).

(** lengths.ipp 196-198 *)
Definition sl_forget (s : slen) : slen := mkslen [] (sl_lens s).

(** lengths.ipp 201-203: the stack is ignored. *)
Definition sl_eqb (s s' : slen) : bool :=
  (length (sl_lens s) =? length (sl_lens s')) &&
  forallb (fun p => match l_cmp (fst p) (snd p) with Eq => true | _ => false end)
          (combine (sl_lens s) (sl_lens s')).

(** lengths.ipp 206-220 *)
Definition sl_similar (s : slen) (a b : label) (other : slen) (aa bb : label) : res bool :=
  x <- sl_at s a ;; ox <- sl_at other aa ;;
  if negb (l_bool x) && negb (l_bool ox) then Ok true
  else
    y <- sl_at s b ;; oy <- sl_at other bb ;;
    if negb (l_bool y) && negb (l_bool oy) then Ok true
    else Ok (l_cross x oy y ox).

End Lengths.
Arguments slen : clear implicits.
