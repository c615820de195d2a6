(** Threads: programs that use IETs from several threads at the same time.  A call is a sequence of accesses to
    memory that several threads may share: the rows of an IET, its cache for the SAF invariant, and the lengths.  This
    is the model of [IET] once more, with these accesses made explicit, and with what a scheduler may do.

    Simplifications: each member of the lengths is one access (for lengths that are protected by a lock this is what happens; otherwise it is
    even worse); the fields of an IET other than the cache are one location; the IETs that are split off by a thread are returned to that thread. *)
From Verif Require Import Base QcTac LenT FM Subspace Lengths IET Api RatioApi.
Open Scope nat_scope.

(** What threads may have in common: [L_rows j] is the IET with number [j] but for its cache (src/impl/interval_exchange_transformation.impl.hpp 65-67,
    69-70), [L_cache j] its field [safCache] (line 68), [L_lens l] is the lengths object with number [l]. *)
Inductive location := L_rows (j : nat) | L_cache (j : nat) | L_lens (l : nat).

Section Par.
Context {T : Type} {O : LenOps T}.

(** The IETs and the lengths objects. *)
Record memory := mkmem { m_iets : list (iet T); m_lens : list (slen T) }.

(** The list with another element at the given position (if it has that many elements). *)
Definition upd {A} (n : nat) (x : A) (l : list A) : list A := if n <? length l then firstn n l ++ x :: skipn (S n) l else l.

(** One access: read or write an IET or its cache; call a [const] member of the lengths or one that is not. *)
Inductive action : Type -> Type :=
| a_rows (j : nat) : action (iet T)
| a_put (j : nat) (i : iet T) : action unit
| a_cache (j : nat) : action (option vec)
| a_set_cache (j : nat) (c : option vec) : action unit
| a_look (l : nat) {B : Type} (f : slen T -> res B) : action B
| a_change (l : nat) {B : Type} (f : slen T -> res (B * slen T)) : action B.

(** The locations that are accessed; [true] is a write access. *)
Definition accesses {B} (a : action B) : list (location * bool) :=
  match a with
  | a_rows j => [(L_rows j, false)]
  | a_put j _ => [(L_rows j, true)]
  | a_cache j => [(L_cache j, false)]
  | a_set_cache j _ => [(L_cache j, true)]
  | a_look l _ => [(L_lens l, false)]
  | a_change l _ => [(L_lens l, true)]
  end.

Definition on_iet_at {B} (j : nat) (m : memory) (f : iet T -> res (B * iet T)) : res (B * memory) :=
  match nth_error (m_iets m) j with
  | Some i => '(b, i) <- f i ;; Ok (b, mkmem (upd j i (m_iets m)) (m_lens m))
  | None => UB
  end.
Definition on_lens_at {B} (l : nat) (m : memory) (f : slen T -> res (B * slen T)) : res (B * memory) :=
  match nth_error (m_lens m) l with
  | Some s => '(b, s) <- f s ;; Ok (b, mkmem (m_iets m) (upd l s (m_lens m)))
  | None => UB
  end.

(** What an access does.  The cache is not visible in what [a_rows] reads, nor is it overwritten by [a_put]. *)
Definition perform {B} (a : action B) : memory -> res (B * memory) :=
  match a in action B return memory -> res (B * memory) with
  | a_rows j => fun m => on_iet_at j m (fun i => Ok (set_saf i None, i))
  | a_put j x => fun m => on_iet_at j m (fun i => Ok (tt, set_saf x (i_saf i)))
  | a_cache j => fun m => on_iet_at j m (fun i => Ok (i_saf i, i))
  | a_set_cache j c => fun m => on_iet_at j m (fun i => Ok (tt, set_saf i c))
  | a_look l f => fun m => on_lens_at l m (fun s => b <- f s ;; Ok (b, s))
  | a_change l f => fun m => on_lens_at l m f
  end.

(** A thread: it has returned; or it has stopped with an exception, a failed assertion, ...; or it is about to make an access. *)
Inductive thread (A : Type) : Type :=
| Returned (a : A)
| Stopped (e : res Empty_set)
| Next {B : Type} (x : action B) (k : B -> thread A).
Arguments Returned {A}.
Arguments Stopped {A}.
Arguments Next {A B}.

(** * What the scheduler does *)

Definition stop_of {A B} (r : res A) : res B :=
  match r with Ok _ => UB | Throw => Throw | AssertFail => AssertFail | UB => UB | OutOfFuel => OutOfFuel end.

(** The next access of one thread. *)
Definition turn {A} (t : thread A) (m : memory) : thread A * memory :=
  match t with
  | Next x k => match perform x m with Ok (b, m') => (k b, m') | e => (Stopped (stop_of e), m) end
  | _ => (t, m)
  end.

(** A schedule says which thread is next, again and again. *)
Fixpoint schedule {A} (turns : list nat) (threads : list (thread A)) (m : memory) : list (thread A) * memory :=
  match turns with
  | [] => (threads, m)
  | n :: turns' =>
    match nth_error threads n with
    | Some t => let '(t', m') := turn t m in schedule turns' (upd n t' threads) m'
    | None => schedule turns' threads m
    end
  end.

(** Two accesses to the same location, at least one of which is a write access. *)
Definition conflict {B C} (x : action B) (y : action C) : Prop :=
  exists l v w, In (l, v) (accesses x) /\ In (l, w) (accesses y) /\ (v || w = true).

(** A data race: two threads are about to make conflicting accesses. *)
Definition data_race {A} (threads : list (thread A)) : Prop :=
  exists n p B (x : action B) k C (y : action C) k', n <> p /\
    nth_error threads n = Some (Next x k) /\ nth_error threads p = Some (Next y k') /\ conflict x y.

(** * The programs *)

Fixpoint tbind {A B} (t : thread A) (f : A -> thread B) : thread B :=
  match t with
  | Returned a => f a
  | Stopped e => Stopped e
  | Next x k => Next x (fun b => tbind (k b) f)
  end.
Notation "x <- m ;;; f" := (tbind m (fun x => f)) (at level 61, m at next level, right associativity).

Definition act {B} (x : action B) : thread B := Next x (fun b => Returned b).
Definition tpure {A} (r : res A) : thread A := match r with Ok a => Returned a | e => Stopped (stop_of e) end.

(** The programs are those of one IET [j] with lengths [l]. *)
Section Calls.
Variables (j l : nat).

Definition t_this : thread (iet T) := act (a_rows j).
Definition t_put (i : iet T) : thread unit := act (a_put j i).
Definition t_look {B} (f : slen T -> res B) : thread B := act (a_look l f).

(** iet.cc 84-110 *)
Fixpoint t_zloop (a : label) (rpre rest : list label) : thread (list label) :=
  match rest with
  | [] => tpure UB
  | b :: rest' =>
    if Nat.eqb b a then
      stop <- act (a_change l (sl_subrep a)) ;;;
      if Nat.eqb a stop then tpure UB
      else match back_to stop rpre with
           | None => tpure UB
           | Some r => Returned r
           end
    else
      _ <- act (a_change l (fun s => Ok (tt, sl_push b s))) ;;;
      c <- t_look (fun s => sl_cmp1 s a) ;;;
      match c with
      | Lt => t_zloop a (b :: rpre) rest'
      | _ =>
        _ <- act (a_change l (fun s => s <- sl_pop s ;; Ok (tt, s))) ;;;
        _ <- act (a_change l (fun s => s <- sl_subtract a s ;; Ok (tt, s))) ;;;
        Returned rpre
      end
  end.

(** iet.cc 79-115 *)
Definition t_zorich : thread bool :=
  i <- t_this ;;;
  match i_top i, i_bottom i with
  | a :: _, b :: _ =>
    if Nat.eqb a b then Returned true
    else
      r <- t_zloop a [] (i_bottom i) ;;;
      bottom <- tpure (splice a (i_bottom i) (length r)) ;;;
      match bottom with
      | [] => tpure UB
      | b' :: _ =>
        _ <- t_put (set_bottom i bottom) ;;;
        c <- t_look (fun s => sl_cmp2 s a b') ;;;
        Returned match c with Eq => true | _ => false end
      end
  | _, _ => tpure UB
  end.

(** [*safCache] *)
Definition t_cached : thread vec :=
  c <- act (a_cache j) ;;; match c with Some v => Returned v | None => tpure UB end.

(** iet.cc 429-430: the sum is formed in the cache. *)
Fixpoint t_saf_sum (cs ts : list vec) : thread unit :=
  match cs, ts with
  | c :: cs', t :: ts' =>
    w <- tpure (wedge_c c t) ;;;
    v <- t_cached ;;;
    v <- tpure (vadd_c v w) ;;;
    _ <- act (a_set_cache j (Some v)) ;;;
    t_saf_sum cs' ts'
  | _, _ => Returned tt
  end.

(** iet.cc 417-438; the signs are changed in one access. *)
Definition t_saf : thread vec :=
  c <- act (a_cache j) ;;;
  match c with
  | Some v => Returned v
  | None =>
    i <- t_this ;;;
    cs <- t_look (iet_coefficients i) ;;;
    match cs with
    | [] => tpure UB
    | c0 :: _ =>
      let d := length c0 in
      _ <- (if d <=? 1 then act (a_set_cache j (Some []))
            else
              ts <- t_look (translations i) ;;;
              _ <- act (a_set_cache j (Some (vzero (d * (d - 1) / 2)))) ;;;
              t_saf_sum cs ts) ;;;
      _ <- (if i_swap i then v <- t_cached ;;; act (a_set_cache j (Some (vneg v))) else Returned tt) ;;;
      t_cached
    end
  end.

(** iet.cc 440-443 *)
Definition t_saf0 : thread bool := v <- t_saf ;;; Returned (vis0 v).

(** iet.cc 117-123 *)
Definition t_saf_invariant : thread vec := v <- t_saf ;;; i <- t_this ;;; Returned (if i_swap i then vneg v else v).

(** iet.cc 125-138, 170-181 *)
Definition t_bosh_no_periodic : thread bool :=
  z <- t_saf0 ;;;
  if (z : bool) then Returned false
  else
    i <- t_this ;;;
    if i_size i <=? 1 then Returned false
    else
      eqs <- t_look (bosh_equations i) ;;;
      r <- tpure (ras_equations eqs (vzero (length eqs))) ;;;
      b <- tpure (nznn r) ;;;
      Returned (negb b).

(** iet.cc 155-168, 183-196 *)
Definition t_bosh_no_saddle2 (t b : label) : thread bool :=
  i <- t_this ;;;
  v <- t_look (fun s => bosh_values i s t b) ;;;
  if vis0 v then Returned false
  else
    eqs <- t_look (bosh_equations i) ;;;
    r <- tpure (ras_equations eqs v) ;;;
    Returned (negb (has_nonneg r)).

Fixpoint t_all {A} (f : A -> thread bool) (xs : list A) : thread bool :=
  match xs with
  | [] => Returned true
  | x :: xs' => b <- f x ;;; if (b : bool) then t_all f xs' else Returned false
  end.

(** iet.cc 140-153 *)
Definition t_bosh_no_saddle : thread bool :=
  i <- t_this ;;;
  if i_size i <=? 1 then Returned false
  else t_all (fun p => t_bosh_no_saddle2 (fst p) (snd p)) (list_prod (tl (rev (i_top i))) (tl (rev (i_bottom i)))).

(** iet.cc 306-360 *)
Definition t_reduce : thread (option (iet T)) :=
  i <- t_this ;;;
  tb <- tpure (red_loop (i_top i) (i_bottom i) [] 0 0) ;;;
  match fst tb with
  | [] => tpure (assert_ (match snd tb with [] => true | _ => false end) (Ok None))
  | _ =>
    let tl_ := firstn (length (i_top i) - length (fst tb)) (i_top i) in
    let bl_ := firstn (length (i_bottom i) - length (snd tb)) (i_bottom i) in
    _ <- tpure (assert_ (length tl_ =? length bl_) (Ok tt)) ;;;
    _ <- t_put (set_labels i tl_ bl_) ;;;
    _ <- act (a_set_cache j None) ;;;
    x <- t_look (fun s => iet_make s (fst tb) (snd tb)) ;;;
    Returned (Some x)
  end.

(** similarity_tracker.cc 41-50 *)
Fixpoint t_similar (k : tracker T) (top : list label) : thread bool :=
  match top with
  | a :: ((b :: _) as top') =>
    r <- t_look (fun s => sl_similar (tk_lengths k) a b s a b) ;;;
    if (r : bool) then t_similar k top' else Returned false
  | _ => Returned true
  end.

(** similarity_tracker.cc 25-70 *)
Definition t_tracker : thread bool :=
  i <- t_this ;;;
  let k := i_trk i in
  if (tk_ttl k =? 0)%N then
    only <- t_look (fun s => Ok (sl_only (sl_forget s) (i_top i))) ;;;
    _ <- t_put (set_trk i (mktracker (i_top i) (flat_map (fun b => positions b (i_top i) 0) (i_bottom i)) only
                                   (N.modulo (tk_bound k * 2) size_t_mod) (tk_bound k))) ;;;
    Returned false
  else
    let k := mktracker (tk_top k) (tk_bottom k) (tk_lengths k) (tk_bound k) (tk_ttl k - 1) in
    _ <- t_put (set_trk i k) ;;;
    if negb (i_size i =? length (tk_top k)) then Returned false
    else
      p <- tpure (same_permutation (i_top i) (i_bottom i) (tk_bottom k)) ;;;
      if (p : bool) then t_similar k (tk_top k) else Returned false.

(** iet.cc 289-292 *)
Definition t_swap : thread unit := i <- t_this ;;; t_put (iet_swap i).

(** iet.cc 209-229 *)
Fixpoint t_loop (fuel : nat) (saf0 : bool) (limit n : Z) : thread (option bool) :=
  match fuel with
  | 0 => tpure OutOfFuel
  | S fuel' =>
    if negb ((limit =? -1)%Z || (n <? limit)%Z) then Returned (Some false)
    else
      similar <- (if saf0 then v <- t_saf ;;; if length v =? 0 then Returned false else t_tracker else Returned false) ;;;
      if (similar : bool) then Returned None
      else
        found <- t_zorich ;;;
        if (found : bool) then Returned (Some true)
        else
          _ <- t_swap ;;;
          found <- t_zorich ;;;
          _ <- t_swap ;;;
          if (found : bool) then Returned (Some true)
          else if (n =? INT_MAX)%Z then tpure UB
          else t_loop fuel' saf0 limit (n + 1)
  end.

(** iet.cc 231-270 *)
Definition t_finish (found : bool) : thread (istep T) :=
  red <- t_reduce ;;;
  i <- t_this ;;;
  match red with
  | Some rgt =>
    match rev (i_bottom i), rev (i_top i) with
    | b :: _, t :: _ => Returned (mkistep SEPARATING_CONNECTION (Some (b, t)) (Some rgt))
    | _, _ => tpure UB
    end
  | None =>
    match i_top i, i_bottom i with
    | a :: _, b :: _ =>
      c <- t_look (fun s => sl_cmp2 s a b) ;;;
      match c with
      | Eq =>
        x <- tpure (merge_first i) ;;;
        _ <- t_put x ;;;
        Returned (mkistep NON_SEPARATING_CONNECTION (Some (b, a)) None)
      | _ =>
        _ <- tpure (assert_ (negb found) (Ok tt)) ;;;
        z <- t_bosh_no_periodic ;;;
        Returned (mkistep (if (z : bool) then WITHOUT_PERIODIC_TRAJECTORY_BOSHERNITZAN else LIMIT_REACHED) None None)
      end
    | _, _ => tpure UB
    end
  end.

(** iet.cc 198-271 *)
Definition t_induce (fuel : nat) (limit : Z) : thread (istep T) :=
  i <- t_this ;;;
  if i_size i =? 1 then Returned (mkistep CYLINDER None None)
  else
    found <- (if (limit =? 0)%Z then Returned (Some false) else z <- t_saf0 ;;; t_loop fuel z limit 0) ;;;
    match (found : option bool) with
    | None => Returned (mkistep WITHOUT_PERIODIC_TRAJECTORY_AUTO_SIMILAR None None)
    | Some found => t_finish found
    end.

(** The calls of [RatioApi.call]: the answer and the IETs that have been split off. *)
Definition t_call (o : op) : thread (answer * list (iet T)) :=
  match o with
  | op_swap => _ <- t_swap ;;; Returned (ans_nothing, [])
  | op_zorich => found <- t_zorich ;;; Returned (ans_found found, [])
  | op_reduce => r <- t_reduce ;;; Returned match r with Some x => (ans_split true, [x]) | None => (ans_split false, []) end
  | op_induce fuel limit =>
    st <- t_induce fuel limit ;;;
    Returned (ans_induce (is_result st) (is_connection st), match is_additional st with Some x => [x] | None => [] end)
  | op_saf => v <- t_saf_invariant ;;; Returned (ans_saf_zero (vis0 v), [])
  | op_bosh_periodic => b <- t_bosh_no_periodic ;;; Returned (ans_flag b, [])
  | op_bosh_saddle => b <- t_bosh_no_saddle ;;; Returned (ans_flag b, [])
  | op_bosh_saddle2 t b => r <- t_bosh_no_saddle2 t b ;;; Returned (ans_flag r, [])
  end.

(** One call after the other. *)
Fixpoint t_calls (os : list op) : thread (list (answer * list (iet T))) :=
  match os with
  | [] => Returned []
  | o :: os' => a <- t_call o ;;; rest <- t_calls os' ;;; Returned (a :: rest)
  end.

(** * The [const] members of an IET *)

(** iet.cc 388-390 *)
Fixpoint t_same_lengths (l' : nat) (ls : list label) : thread bool :=
  match ls with
  | [] => Returned true
  | c :: ls' =>
    x <- t_look (fun s => sl_at s c) ;;; y <- act (a_look l' (fun s => sl_at s c)) ;;;
    match l_cmp x y with Eq => t_same_lengths l' ls' | _ => Returned false end
  end.

(** iet.cc 383-393: [operator==] with the IET [j'] that has lengths [l']. *)
Definition t_eqb (j' l' : nat) : thread bool :=
  i <- t_this ;;; i' <- act (a_rows j') ;;;
  if (if list_eq_dec Nat.eq_dec (i_top i) (i_top i') then true else false)
     && (if list_eq_dec Nat.eq_dec (i_bottom i) (i_bottom i') then true else false)
  then t_same_lengths l' (i_top i)
  else Returned false.

(** iet.cc 373-375 *)
Fixpoint t_lengths (l' : nat) (ls : list label) : thread (list T) :=
  match ls with
  | [] => Returned []
  | c :: ls' => x <- act (a_look l' (fun s => sl_at s c)) ;;; xs <- t_lengths l' ls' ;;; Returned (x :: xs)
  end.

(** iet.cc 362-381 *)
Definition t_equivalent (j' l' : nat) : thread bool :=
  i <- t_this ;;; i' <- act (a_rows j') ;;;
  if negb (i_size i =? i_size i') then Returned false
  else if negb (if list_eq_dec Nat.eq_dec (map (fun b => find_pos b (i_top i)) (i_bottom i))
                                 (map (fun b => find_pos b (i_top i')) (i_bottom i'))
                then true else false) then Returned false
  else
    u <- t_lengths l (i_top i) ;;;
    v <- t_lengths l' (i_top i') ;;;
    Returned (vec_eqb u v).

End Calls.
End Par.
Arguments memory : clear implicits.
Arguments action : clear implicits.
Arguments thread : clear implicits.
Arguments Returned {T A}.
Arguments Stopped {T A}.
Arguments Next {T A B}.
Notation "x <- m ;;; f" := (tbind m (fun x => f)) (at level 61, m at next level, right associativity).

(** The [const] members of an IET (intervalxt/interval_exchange_transformation.hpp 63-110); [q_rows] is [top], [bottom], [swapped] and [size]. *)
Inductive query :=
| q_rows
| q_saf
| q_bosh_periodic
| q_bosh_saddle
| q_bosh_saddle2 (t b : label)
| q_equations
| q_values (t b : label)
| q_equal (j l : nat)
| q_equivalent (j l : nat).

Inductive reply :=
| r_rows (top bottom : list label) (swapped : bool)
| r_vector (v : vec)
| r_matrix (m : list vec)
| r_flag (b : bool).

Section Queries.
Context {T : Type} {O : LenOps T}.

(** A [const] member called on the IET [j] with lengths [l]; iet.cc 281-287, 294-296, 302-304 for the rows. *)
Definition t_query (j l : nat) (q : query) : thread T reply :=
  match q with
  | q_rows => i <- t_this j ;;; Returned (r_rows (i_top i) (i_bottom i) (i_swap i))
  | q_saf => v <- t_saf_invariant j l ;;; Returned (r_vector v)
  | q_bosh_periodic => b <- t_bosh_no_periodic j l ;;; Returned (r_flag b)
  | q_bosh_saddle => b <- t_bosh_no_saddle j l ;;; Returned (r_flag b)
  | q_bosh_saddle2 t b => r <- t_bosh_no_saddle2 j l t b ;;; Returned (r_flag r)
  | q_equations => i <- t_this j ;;; eqs <- t_look l (bosh_equations i) ;;; Returned (r_matrix eqs)
  | q_values t b => i <- t_this j ;;; v <- t_look l (fun s => bosh_values i s t b) ;;; Returned (r_vector v)
  | q_equal j' l' => b <- t_eqb j l j' l' ;;; Returned (r_flag b)
  | q_equivalent j' l' => b <- t_equivalent j l j' l' ;;; Returned (r_flag b)
  end.

Fixpoint t_queries (qs : list (nat * nat * query)) : thread T (list reply) :=
  match qs with
  | [] => Returned []
  | (j, l, q) :: qs' => a <- t_query j l q ;;; rest <- t_queries qs' ;;; Returned (a :: rest)
  end.
End Queries.
