(** Model of [IntervalExchangeTransformation] and its implementation
    (src/interval_exchange_transformation.cc, "iet.cc" in the comments) and of
    [SimilarityTracker] (src/similarity_tracker.cc), at the level of label lists.
    The lists of intervals with twin iterators are modelled in [Ptr]. *)
From Verif Require Import Base QcTac LenT FM Subspace Lengths.

(** * Free functions on coefficient vectors *)

(** iet.cc 46-61: wedge product, entries [v1_i v2_j - v1_j v2_i] for [i < j]. *)
Fixpoint wedge (v1 v2 : vec) : vec :=
  match v1, v2 with
  | x :: u, y :: v => vsub (vscale x v) (vscale y u) ++ wedge u v
  | _, _ => []
  end.

(** iet.cc 47 *)
Definition wedge_c (v1 v2 : vec) : res vec :=
  check_ (length v1 =? length v2) (Ok (wedge v1 v2)).

(** iet.cc 63-75: in-place addition and subtraction with a size assertion. *)
Definition vadd_c (u v : vec) : res vec := assert_ (length u =? length v) (Ok (vadd u v)).
Definition vsub_c (u v : vec) : res vec := assert_ (length u =? length v) (Ok (vsub u v)).

(** What a call on the lengths can observe of the IET that is being induced: its
    current top labels and whether it is swapped (used by LengthsWithConnections). *)
Definition view := (list label * bool)%type.

Section IET.
Context {T : Type} {O : LenOps T}.

(** The interface [Lengths] (intervalxt/lengths.hpp) as used by the IET: an erased
    type with its own state [S].  [li_base] is the underlying [sample::Lengths] that
    [get], [coefficients], [similar], [only] and [forget] read. *)
Record lens (S : Type) := mklens {
  li_push : label -> S -> res S;
  li_pop : S -> res S;
  li_cmp1 : S -> label -> res comparison;
  li_cmp2 : S -> label -> label -> res comparison;
  li_subtract : view -> label -> S -> res S;
  li_subrep : view -> label -> S -> res (label * S);
  li_base : S -> slen T;
}.
Arguments mklens {S}.
Arguments li_push {S}.
Arguments li_pop {S}.
Arguments li_cmp1 {S}.
Arguments li_cmp2 {S}.
Arguments li_subtract {S}.
Arguments li_subrep {S}.
Arguments li_base {S}.

(** [sample::Lengths] as such an object. *)
Definition sample_lens : lens (slen T) :=
  mklens (fun l s => Ok (sl_push l s)) sl_pop sl_cmp1 sl_cmp2
         (fun _ => sl_subtract) (fun _ => sl_subrep) (fun s => s).

(** [SimilarityTracker], src/impl/similarity_tracker.hpp 38-43 *)
Record tracker := mktracker {
  tk_top : list label;
  tk_bottom : list nat;
  tk_lengths : slen T;
  tk_bound : N;
  tk_ttl : N;
}.
Definition tracker_init : tracker := mktracker [] [] (mkslen [] []) 1 0.

(** Fields of src/impl/interval_exchange_transformation.impl.hpp 65-70 except for the
    pointer to the lengths, which are threaded through explicitly. *)
Record iet := mkiet {
  i_top : list label;
  i_bottom : list label;
  i_swap : bool;
  i_saf : option vec;
  i_trk : tracker;
}.

Definition set_bottom (i : iet) (b : list label) : iet :=
  mkiet (i_top i) b (i_swap i) (i_saf i) (i_trk i).
Definition set_saf (i : iet) (c : option vec) : iet :=
  mkiet (i_top i) (i_bottom i) (i_swap i) c (i_trk i).
Definition set_trk (i : iet) (t : tracker) : iet :=
  mkiet (i_top i) (i_bottom i) (i_swap i) (i_saf i) t.
Definition set_labels (i : iet) (t b : list label) : iet :=
  mkiet t b (i_swap i) (i_saf i) (i_trk i).

Definition i_view (i : iet) : view := (i_top i, i_swap i).

(** iet.cc 302-304 *)
Definition i_size (i : iet) : nat := length (i_top i).

(** iet.cc 395-415 and 276-279: the constructor with its assertions.  The twin
    iterators of labels that do not occur on the other side stay singular; on this
    level a later use shows up as a failing search, i.e. [UB]. *)
Definition iet_make (base : slen T) (top bottom : list label) : res iet :=
  assert_ (length top =? length bottom) (
  assert_ (length (nodup Nat.eq_dec top) =? length (nodup Nat.eq_dec bottom)) (
  assert_ (length (nodup Nat.eq_dec top) =? length top) (
  bs <- mapM (fun l => x <- sl_at base l ;; Ok (l_bool x)) top ;;
  assert_ (forallb (fun b => b) bs) (
  assert_ (negb (length top =? 0)) (
  Ok (mkiet top bottom false None tracker_init)))))).

(** iet.cc 289-292 *)
Definition iet_swap (i : iet) : iet :=
  mkiet (i_bottom i) (i_top i) (negb (i_swap i)) (i_saf i) (i_trk i).

(** * Zorich induction, iet.cc 79-115 *)

(** iet.cc 94: [while ( *bottom != stop) bottom--;] over the labels passed so far
    (nearest first); running past the beginning is undefined. *)
Fixpoint back_to (stop : label) (rpre : list label) : option (list label) :=
  match rpre with
  | [] => None
  | x :: r => if Nat.eqb x stop then Some (x :: r) else back_to stop r
  end.

(** iet.cc 84-110 up to the splice: [a] is the first top label, [rpre] the bottom labels
    already passed (nearest first), [rest] the remaining ones.  Returns the labels of
    the range [begin(bottom), bottom) to be moved, in reverse order. *)
Fixpoint zloop {S} (L : lens S) (v : view) (a : label) (rpre rest : list label) (s : S) {struct rest}
  : res (list label * S) :=
  match rest with
  | [] => UB
  | b :: rest' =>
    if Nat.eqb b a then
      '(stop, s) <- li_subrep L v a s ;;
      if Nat.eqb a stop then UB (* the range to be spliced would contain its target *)
      else match back_to stop rpre with
           | None => UB
           | Some r => Ok (r, s)
           end
    else
      s <- li_push L b s ;;
      c <- li_cmp1 L s a ;;
      match c with
      | Lt => zloop L v a (b :: rpre) rest' s
      | _ =>
        s <- li_pop L s ;;
        s <- li_subtract L v a s ;;
        Ok (rpre, s)
      end
  end.

(** iet.cc 112: splice the range (a prefix of the bottom of the given length) in front
    of the twin of the first top interval. *)
Definition splice (a : label) (bottom : list label) (n : nat) : res (list label) :=
  match split_at a (skipn n bottom) with
  | None => UB
  | Some (q1, q2) => Ok (q1 ++ firstn n bottom ++ a :: q2)
  end.

(** iet.cc 79-115 *)
Definition zorich {S} (L : lens S) (i : iet) (s : S) : res (bool * iet * S) :=
  match i_top i, i_bottom i with
  | a :: _, b :: _ =>
    if Nat.eqb a b then Ok (true, i, s)
    else
      '(r, s) <- zloop L (i_view i) a [] (i_bottom i) s ;;
      bottom <- splice a (i_bottom i) (length r) ;;
      match bottom with
      | [] => UB
      | b' :: _ =>
        c <- li_cmp2 L s a b' ;;
        Ok (match c with Eq => true | _ => false end, set_bottom i bottom, s)
      end
  | _, _ => UB
  end.

(** * SAF invariant and Boshernitzan's equations *)

(** iet.cc 445-447 *)
Definition iet_coefficients (i : iet) (base : slen T) : res (list vec) :=
  sl_coefficients base (i_top i).

(** iet.cc 449-455: map from labels to coefficients (association list). *)
Definition coefmap := list (label * vec).
Definition label_to_coefficients (i : iet) (base : slen T) : res coefmap :=
  cs <- iet_coefficients i base ;; Ok (combine (i_top i) cs).

(** [unordered_map::at] *)
Fixpoint cm_at (m : coefmap) (l : label) : res vec :=
  match m with
  | [] => Throw
  | (k, v) :: m' => if Nat.eqb k l then Ok v else cm_at m' l
  end.

(** iet.cc 471-475 and 477-481: accumulate the coefficients in front of a label. *)
Fixpoint walk_until (op : vec -> vec -> res vec) (m : coefmap) (stop : label)
         (ls : list label) (acc : vec) : res vec :=
  match ls with
  | [] => Ok acc
  | l :: ls' =>
    if Nat.eqb l stop then Ok acc
    else v <- cm_at m l ;; acc <- op acc v ;; walk_until op m stop ls' acc
  end.

(** iet.cc 468-484 *)
Definition translation (i : iet) (t b : label) (m : coefmap) : res vec :=
  match m with
  | [] => UB
  | (_, v) :: _ =>
    x <- walk_until vsub_c m t (i_top i) (vzero (length v)) ;;
    walk_until vadd_c m b (i_bottom i) x
  end.

(** iet.cc 457-466 *)
Definition translations (i : iet) (base : slen T) : res (list vec) :=
  m <- label_to_coefficients i base ;;
  mapM (fun l => translation i l l m) (i_top i).

Fixpoint saf_sum (cs ts : list vec) (acc : vec) : res vec :=
  match cs, ts with
  | c :: cs', t :: ts' => w <- wedge_c c t ;; acc <- vadd_c acc w ;; saf_sum cs' ts' acc
  | _, _ => Ok acc
  end.

(** iet.cc 418-435: the SAF invariant from scratch (before the sign for [swap]). *)
Definition saf_raw (i : iet) (base : slen T) : res vec :=
  cs <- iet_coefficients i base ;;
  match cs with
  | [] => UB
  | c0 :: _ =>
    let d := length c0 in
    if d <=? 1 then Ok []
    else ts <- translations i base ;; saf_sum cs ts (vzero (d * (d - 1) / 2))
  end.

(** iet.cc 417-438: [saf()] with its cache. *)
Definition iet_saf (i : iet) (base : slen T) : res (vec * iet) :=
  match i_saf i with
  | Some v => Ok (v, i)
  | None =>
    v <- saf_raw i base ;;
    let v := if i_swap i then vneg v else v in
    Ok (v, set_saf i (Some v))
  end.

(** iet.cc 440-443 *)
Definition iet_saf0 (i : iet) (base : slen T) : res (bool * iet) :=
  '(v, i) <- iet_saf i base ;; Ok (vis0 v, i).

(** iet.cc 117-123 *)
Definition saf_invariant (i : iet) (base : slen T) : res (vec * iet) :=
  '(v, i) <- iet_saf i base ;;
  Ok (if i_swap i then vneg v else v, i).

(** iet.cc 170-181: transpose of the translations. *)
Definition bosh_equations (i : iet) (base : slen T) : res (list vec) :=
  ts <- translations i base ;;
  match ts with
  | [] => UB
  | t0 :: _ => Ok (map (fun d => map (fun t => nth d t 0%Qc) ts) (seq 0 (length t0)))
  end.

(** iet.cc 125-138 *)
Definition bosh_no_periodic (i : iet) (base : slen T) : res (bool * iet) :=
  '(z, i) <- iet_saf0 i base ;;
  if z then Ok (false, i)
  else if i_size i <=? 1 then Ok (false, i)
  else
    eqs <- bosh_equations i base ;;
    r <- ras_equations eqs (vzero (length eqs)) ;;
    b <- nznn r ;;
    Ok (negb b, i).

(** The label behind [x] ([++std::find(...)]): [None] if [x] is missing (incrementing
    the end iterator is undefined), [Some None] if [x] is last. *)
Definition next_label (x : label) (l : list label) : option (option label) :=
  match split_at x l with
  | None => None
  | Some (_, []) => Some None
  | Some (_, y :: _) => Some (Some y)
  end.

(** iet.cc 183-196 *)
Definition bosh_values (i : iet) (base : slen T) (t b : label) : res vec :=
  match next_label t (i_top i) with
  | None => UB
  | Some None => Throw
  | Some (Some t') =>
    match next_label b (i_bottom i) with
    | None => UB
    | Some None => Throw
    | Some (Some b') =>
      m <- label_to_coefficients i base ;;
      v <- translation i t' b' m ;;
      Ok (vneg v)
    end
  end.

(** iet.cc 155-168 *)
Definition bosh_no_saddle2 (i : iet) (base : slen T) (t b : label) : res bool :=
  v <- bosh_values i base t b ;;
  if vis0 v then Ok false
  else
    eqs <- bosh_equations i base ;;
    r <- ras_equations eqs v ;;
    Ok (negb (has_nonneg r)).

Fixpoint all_false_exit {A} (f : A -> res bool) (l : list A) : res bool :=
  match l with
  | [] => Ok true
  | x :: l' => b <- f x ;; if b then all_false_exit f l' else Ok false
  end.

(** iet.cc 140-153: all pairs of labels that are not last, from right to left. *)
Definition bosh_no_saddle (i : iet) (base : slen T) : res bool :=
  if i_size i <=? 1 then Ok false
  else all_false_exit (fun p => bosh_no_saddle2 i base (fst p) (snd p))
         (list_prod (tl (rev (i_top i))) (tl (rev (i_bottom i)))).

(** * reduce, iet.cc 306-360 *)

Definition mark (x : label) (marks : list label) : list label := x :: marks.
Definition unmark (x : label) (marks : list label) : list label := remove Nat.eq_dec x marks.

(** iet.cc 312-338: the loop that walks top and bottom in parallel.  [marks] are the
    labels whose two copies currently differ in the last bit of their id.  Returns
    what remains behind the position where the loop stops. *)
Fixpoint red_loop (t b : list label) (marks : list label) (ta ba : Z) : res (list label * list label) :=
  match t, b with
  | x :: t', y :: b' =>
    let '(marks, ta, ba) :=
      if memb x marks then (unmark x marks, ta, ba - 1)%Z else (mark x marks, ta + 1, ba)%Z in
    let '(marks, ta, ba) :=
      if memb y marks then (unmark y marks, ta - 1, ba)%Z else (mark y marks, ta, ba + 1)%Z in
    if (ta =? 0)%Z && (ba =? 0)%Z then Ok (t', b')
    else red_loop t' b' marks ta ba
  | _, _ => AssertFail
  end.

(** iet.cc 306-360.  An empty IET dereferences [begin] of an empty list. *)
Definition reduce (i : iet) (base : slen T) : res (option iet * iet) :=
  '(t', b') <- red_loop (i_top i) (i_bottom i) [] 0 0 ;;
  match t' with
  | [] => assert_ (match b' with [] => true | _ => false end) (Ok (None, i))
  | _ =>
    let tl_ := firstn (length (i_top i) - length t') (i_top i) in
    let bl_ := firstn (length (i_bottom i) - length b') (i_bottom i) in
    assert_ (length tl_ =? length bl_) (
      i' <- iet_make base t' b' ;;
      Ok (Some i', set_saf (set_labels i tl_ bl_) None))
  end.

(** * The similarity tracker *)

(** Positions of a label in a list (similarity_tracker.cc 61-65: all matching positions). *)
Fixpoint positions (x : label) (l : list label) (k : nat) : list nat :=
  match l with
  | [] => []
  | y :: l' => if Nat.eqb y x then k :: positions x l' (S k) else positions x l' (S k)
  end.

(** similarity_tracker.cc 55-70; [size_t] arithmetic is modulo 2^64. *)
Definition size_t_mod : N := 2 ^ 64.
Definition tracker_reset (k : tracker) (i : iet) (base : slen T) : tracker :=
  mktracker (i_top i)
            (flat_map (fun b => positions b (i_top i) 0) (i_bottom i))
            (sl_only (sl_forget base) (i_top i))
            (N.modulo (tk_bound k * 2) size_t_mod)
            (tk_bound k).

(** similarity_tracker.cc 37-39 *)
Fixpoint same_permutation (top : list label) (bottom : list label) (perm : list nat) : res bool :=
  match bottom with
  | [] => Ok true
  | b :: bottom' =>
    match perm with
    | [] => UB
    | p :: perm' =>
      match nth_error top p with
      | None => UB
      | Some x => if Nat.eqb b x then same_permutation top bottom' perm' else Ok false
      end
    end
  end.

(** similarity_tracker.cc 41-50: consecutive ratios.  Note that the labels [othera],
    [otherb] are those of the tracker, as in the code. *)
Fixpoint similar_lengths (k : tracker) (base : slen T) (top : list label) : res bool :=
  match top with
  | a :: ((b :: _) as top') =>
    r <- sl_similar (tk_lengths k) a b base a b ;;
    if r then similar_lengths k base top' else Ok false
  | _ => Ok true
  end.

(** similarity_tracker.cc 25-53 *)
Definition tracker_loop (k : tracker) (i : iet) (base : slen T) : res (bool * tracker) :=
  if (tk_ttl k =? 0)%N then Ok (false, tracker_reset k i base)
  else
    let k := mktracker (tk_top k) (tk_bottom k) (tk_lengths k) (tk_bound k) (tk_ttl k - 1) in
    if negb (i_size i =? length (tk_top k)) then Ok (false, k)
    else
      p <- same_permutation (i_top i) (i_bottom i) (tk_bottom k) ;;
      if p then r <- similar_lengths k base (tk_top k) ;; Ok (r, k)
      else Ok (false, k).

(** * induce, iet.cc 198-271 *)

(** intervalxt/induction_step.hpp *)
Inductive iresult :=
| LIMIT_REACHED
| CYLINDER
| SEPARATING_CONNECTION
| NON_SEPARATING_CONNECTION
| WITHOUT_PERIODIC_TRAJECTORY_BOSHERNITZAN
| WITHOUT_PERIODIC_TRAJECTORY_AUTO_SIMILAR.

Record istep := mkistep {
  is_result : iresult;
  is_connection : option (label * label);
  is_additional : option iet;
}.

Definition INT_MAX : Z := 2147483647.

(** Outcome of the loop in [induce]: [None] for the early return AUTO_SIMILAR,
    otherwise the value of [foundSaddleConnection]. *)
Fixpoint induce_loop {S} (L : lens S) (fuel : nat) (saf0 : bool) (limit n : Z) (i : iet) (s : S)
  : res (option bool * iet * S) :=
  match fuel with
  | 0 => OutOfFuel
  | Datatypes.S fuel' =>
    if negb ((limit =? -1)%Z || (n <? limit)%Z) then Ok (Some false, i, s)
    else
      (* iet.cc 211-220 *)
      '(similar, i) <-
        (if saf0 then
           '(v, i) <- iet_saf i (li_base L s) ;;
           if length v =? 0 then Ok (false, i)
           else '(r, k) <- tracker_loop (i_trk i) i (li_base L s) ;; Ok (r, set_trk i k)
         else Ok (false, i)) ;;
      if (similar : bool) then Ok (None, i, s)
      else
        '(found, i, s) <- zorich L i s ;;
        if (found : bool) then Ok (Some true, i, s)
        else
          '(found, i, s) <- zorich L (iet_swap i) s ;;
          let i := iet_swap i in
          if (found : bool) then Ok (Some true, i, s)
          else if (n =? INT_MAX)%Z then UB
          else induce_loop L fuel' saf0 limit (n + 1) i s
  end.

(** iet.cc 240-262: merge the first top label into the first bottom label. *)
Definition merge_first (i : iet) : res iet :=
  match i_top i, i_bottom i with
  | a :: X, b :: Y =>
    match split_at a Y with
    | None => UB
    | Some (p, q) => Ok (set_labels i X (p ++ b :: q))
    end
  | _, _ => UB
  end.

(** iet.cc 231-270: what follows the loop. *)
Definition induce_finish {S} (L : lens S) (found : bool) (i : iet) (s : S) : res (istep * iet * S) :=
  '(red, i) <- reduce i (li_base L s) ;;
  match red with
  | Some rgt =>
    match rev (i_bottom i), rev (i_top i) with
    | b :: _, t :: _ => Ok (mkistep SEPARATING_CONNECTION (Some (b, t)) (Some rgt), i, s)
    | _, _ => UB
    end
  | None =>
    match i_top i, i_bottom i with
    | a :: _, b :: _ =>
      c <- li_cmp2 L s a b ;;
      match c with
      | Eq =>
        i <- merge_first i ;;
        Ok (mkistep NON_SEPARATING_CONNECTION (Some (b, a)) None, i, s)
      | _ =>
        assert_ (negb found) (
          '(z, i) <- bosh_no_periodic i (li_base L s) ;;
          Ok (mkistep (if (z : bool) then WITHOUT_PERIODIC_TRAJECTORY_BOSHERNITZAN else LIMIT_REACHED) None None, i, s))
      end
    | _, _ => UB
    end
  end.

(** iet.cc 198-271 *)
Definition induce {S} (L : lens S) (fuel : nat) (limit : Z) (i : iet) (s : S) : res (istep * iet * S) :=
  if i_size i =? 1 then Ok (mkistep CYLINDER None None, i, s)
  else
    '(found, i, s) <-
      (if (limit =? 0)%Z then Ok (Some false, i, s)
       else '(z, i) <- iet_saf0 i (li_base L s) ;; induce_loop L fuel z limit 0 i s) ;;
    match (found : option bool) with
    | None => Ok (mkistep WITHOUT_PERIODIC_TRAJECTORY_AUTO_SIMILAR None None, i, s)
    | Some found => induce_finish L found i s
    end.

(** * Equality and equivalence *)

Definition vec_eqb (u v : list T) : bool :=
  (length u =? length v) &&
  forallb (fun p => match l_cmp (fst p) (snd p) with Eq => true | _ => false end) (combine u v).

(** [std::find(begin, end, b) - begin] *)
Fixpoint find_pos (x : label) (l : list label) : nat :=
  match l with
  | [] => 0
  | y :: l' => if Nat.eqb y x then 0 else S (find_pos x l')
  end.

(** iet.cc 362-381 *)
Definition iet_equivalent (i : iet) (base : slen T) (j : iet) (base' : slen T) : res bool :=
  if negb (i_size i =? i_size j) then Ok false
  else if negb (if list_eq_dec Nat.eq_dec (map (fun b => find_pos b (i_top i)) (i_bottom i))
                                 (map (fun b => find_pos b (i_top j)) (i_bottom j))
                then true else false) then Ok false
  else
    u <- mapM (sl_at base) (i_top i) ;;
    v <- mapM (sl_at base') (i_top j) ;;
    Ok (vec_eqb u v).

Fixpoint same_lengths (base base' : slen T) (ls : list label) : res bool :=
  match ls with
  | [] => Ok true
  | l :: ls' =>
    x <- sl_at base l ;; y <- sl_at base' l ;;
    match l_cmp x y with Eq => same_lengths base base' ls' | _ => Ok false end
  end.

(** iet.cc 383-393 *)
Definition iet_eqb (i : iet) (base : slen T) (j : iet) (base' : slen T) : res bool :=
  if (if list_eq_dec Nat.eq_dec (i_top i) (i_top j) then true else false)
     && (if list_eq_dec Nat.eq_dec (i_bottom i) (i_bottom j) then true else false)
  then same_lengths base base' (i_top i)
  else Ok false.

End IET.

Arguments lens T S : clear implicits.
Arguments mklens {T S}.
Arguments li_push {T S}.
Arguments li_pop {T S}.
Arguments li_cmp1 {T S}.
Arguments li_cmp2 {T S}.
Arguments li_subtract {T S}.
Arguments li_subrep {T S}.
Arguments li_base {T S}.
Arguments tracker T : clear implicits.
Arguments iet T : clear implicits.
Arguments istep T : clear implicits.
