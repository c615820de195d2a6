(** Model of the linked representation of an IET: two [std::list]s of intervals, each
    with its label and an iterator to its twin on the other side (src/impl/interval.hpp,
    src/impl/interval_exchange_transformation.impl.hpp 65-70).

    The nodes of the lists live in a heap; an iterator is the address of a node.  Reading
    an erased or missing node is undefined behaviour.  The functions of
    src/interval_exchange_transformation.cc ("iet.cc") that only read the labels in order
    are those of [IET], applied to the labels read from the nodes. *)
From Verif Require Import Base QcTac LenT FM Subspace Lengths IET Api.
Open Scope nat_scope.

(** src/impl/interval.hpp 30-42; [None] is a singular iterator. *)
Record node := mknode { n_label : label; n_twin : option nat }.

(** The heap: [None] marks erased nodes. *)
Definition heap := list (option node).

Definition deref (h : heap) (p : nat) : res node :=
  match nth_error h p with Some (Some n) => Ok n | _ => UB end.

Definition twin (h : heap) (p : nat) : res nat :=
  n <- deref h p ;; match n_twin n with Some q => Ok q | None => UB end.

(** Assignments to the fields of a node. *)
Definition put (h : heap) (p : nat) (n : option node) : res heap :=
  match set_nth p n h with Some h => Ok h | None => UB end.
Definition set_label (h : heap) (p : nat) (l : label) : res heap :=
  n <- deref h p ;; put h p (Some (mknode l (n_twin n))).
Definition set_twin (h : heap) (p : nat) (q : nat) : res heap :=
  n <- deref h p ;; put h p (Some (mknode (n_label n) (Some q))).

(** [list::erase]: the node is gone. *)
Definition free (h : heap) (p : nat) : res heap := _ <- deref h p ;; put h p None.

(** [list::insert] of a copy of a node. *)
Definition alloc (h : heap) (n : node) : nat * heap := (length h, h ++ [Some n]).

Definition label_at (h : heap) (p : nat) : res label := n <- deref h p ;; Ok (n_label n).

(** [id ^= 1] *)
Definition xor1 (l : label) : label := Nat.lxor l 1.

Fixpoint foldM {A B} (f : B -> A -> res B) (l : list A) (b : B) : res B :=
  match l with [] => Ok b | x :: l => b <- f b x ;; foldM f l b end.

Section Ptr.
Context {T : Type} {O : LenOps T}.

Record piet := mkpiet {
  p_top : list nat;
  p_bottom : list nat;
  p_heap : heap;
  p_swap : bool;
  p_saf : option vec;
  p_trk : tracker T;
}.

(** iet.cc 281-287: [top()] and [bottom()]. *)
Definition p_view (p : piet) : res (iet T) :=
  t <- mapM (label_at (p_heap p)) (p_top p) ;;
  b <- mapM (label_at (p_heap p)) (p_bottom p) ;;
  Ok (mkiet t b (p_swap p) (p_saf p) (p_trk p)).

(** The changes of the cache and the tracker by functions that do not change the lists. *)
Definition p_with (p : piet) (i : iet T) : piet :=
  mkpiet (p_top p) (p_bottom p) (p_heap p) (p_swap p) (i_saf i) (i_trk i).

(** ** Constructor, iet.cc 395-415 and 276-279 *)

(** iet.cc 405-410 *)
Definition link (h : heap) (tb : nat * nat) : res heap :=
  let '(t, b) := tb in
  x <- label_at h t ;; y <- label_at h b ;;
  if Nat.eqb x y then h <- set_twin h t b ;; set_twin h b t else Ok h.

Definition p_make (base : slen T) (top bottom : list label) : res piet :=
  let h := map (fun l => Some (mknode l None)) (top ++ bottom) in
  let tp := seq 0 (length top) in
  let bp := seq (length top) (length bottom) in
  assert_ (length top =? length bottom) (
  assert_ (length (nodup Nat.eq_dec top) =? length (nodup Nat.eq_dec bottom)) (
  assert_ (length (nodup Nat.eq_dec top) =? length top) (
  h <- foldM link (list_prod tp bp) h ;;
  bs <- mapM (fun l => x <- sl_at base l ;; Ok (l_bool x)) top ;;
  assert_ (forallb (fun b => b) bs) (
  assert_ (negb (length top =? 0)) (
  Ok (mkpiet tp bp h false None tracker_init)))))).

(** iet.cc 289-292; iterators stay valid when lists are swapped. *)
Definition p_swap_rows (p : piet) : piet :=
  mkpiet (p_bottom p) (p_top p) (p_heap p) (negb (p_swap p)) (p_saf p) (p_trk p).

(** ** zorichInduction, iet.cc 79-115 *)

(** iet.cc 94 *)
Fixpoint p_back (h : heap) (stop : label) (rpre : list nat) : res (list nat) :=
  match rpre with
  | [] => UB
  | q :: r => x <- label_at h q ;; if Nat.eqb x stop then Ok (q :: r) else p_back h stop r
  end.

(** iet.cc 84-110: the iterator [bottom] stands between [rpre] (nearest first) and [rest].
    Returns what lies in front of it at the end. *)
Fixpoint p_zloop {S} (L : lens T S) (v : view) (h : heap) (a : nat) (rpre rest : list nat) (s : S) {struct rest}
  : res (list nat * S) :=
  match rest with
  | [] => UB
  | q :: rest' =>
    b <- label_at h q ;; x <- label_at h a ;;
    if Nat.eqb b x then
      '(stop, s) <- li_subrep L v x s ;;
      r <- p_back h stop (q :: rpre) ;;
      Ok (r, s)
    else
      s <- li_push L b s ;;
      c <- li_cmp1 L s x ;;
      match c with
      | Lt => p_zloop L v h a (q :: rpre) rest' s
      | _ =>
        s <- li_pop L s ;;
        s <- li_subtract L v x s ;;
        Ok (rpre, s)
      end
  end.

(** iet.cc 112: move the first [n] nodes of the list in front of the node [pos], which must
    be in the list but not in the range. *)
Definition p_splice (pos : nat) (l : list nat) (n : nat) : res (list nat) :=
  match split_at pos (skipn n l) with
  | None => UB
  | Some (q1, q2) => Ok (q1 ++ firstn n l ++ pos :: q2)
  end.

Definition p_zorich {S} (L : lens T S) (p : piet) (s : S) : res (bool * piet * S) :=
  match p_top p, p_bottom p with
  | a :: _, b :: _ =>
    x <- label_at (p_heap p) a ;; y <- label_at (p_heap p) b ;;
    if Nat.eqb x y then Ok (true, p, s)
    else
      i <- p_view p ;;
      '(r, s) <- p_zloop L (i_view i) (p_heap p) a [] (p_bottom p) s ;;
      w <- twin (p_heap p) a ;;
      bottom <- p_splice w (p_bottom p) (length r) ;;
      match bottom with
      | [] => UB
      | b' :: _ =>
        y' <- label_at (p_heap p) b' ;;
        c <- li_cmp2 L s x y' ;;
        Ok (match c with Eq => true | _ => false end,
            mkpiet (p_top p) bottom (p_heap p) (p_swap p) (p_saf p) (p_trk p), s)
      end
  | _, _ => UB
  end.

(** ** reduce, iet.cc 306-360 *)

(** iet.cc 316-322 and 324-330: compare the node with its twin and mark one of them.  [other]
    is decreased if they differ, [own] is increased otherwise. *)
Definition p_mark (h : heap) (x : nat) (own other : Z) : res (heap * Z * Z) :=
  l <- label_at h x ;; w <- twin h x ;; m <- label_at h w ;;
  if negb (Nat.eqb l m) then h <- set_label h w (xor1 m) ;; Ok (h, own, other - 1)%Z
  else h <- set_label h x (xor1 l) ;; Ok (h, own + 1, other)%Z.

(** iet.cc 312-338 *)
Fixpoint p_red_loop (t b : list nat) (h : heap) (ta ba : Z) : res (list nat * list nat * heap) :=
  match t, b with
  | x :: t', y :: b' =>
    '(h, ta, ba) <- p_mark h x ta ba ;;
    '(h, ba, ta) <- p_mark h y ba ta ;;
    if (ta =? 0)%Z && (ba =? 0)%Z then Ok (t', b', h)
    else p_red_loop t' b' h ta ba
  | _, _ => AssertFail
  end.

(** iet.cc 350-353: collect the labels and erase the nodes. *)
Fixpoint p_erase (h : heap) (l : list nat) : res (list label * heap) :=
  match l with
  | [] => Ok ([], h)
  | q :: l => x <- label_at h q ;; h <- free h q ;; '(xs, h) <- p_erase h l ;; Ok (x :: xs, h)
  end.

Definition p_reduce (p : piet) (base : slen T) : res (option piet * piet) :=
  '(t', b', h) <- p_red_loop (p_top p) (p_bottom p) (p_heap p) 0 0 ;;
  match t' with
  | [] => assert_ (match b' with [] => true | _ => false end)
            (Ok (None, mkpiet (p_top p) (p_bottom p) h (p_swap p) (p_saf p) (p_trk p)))
  | _ =>
    '(nt, h) <- p_erase h t' ;;
    '(nb, h) <- p_erase h b' ;;
    let tl_ := firstn (length (p_top p) - length t') (p_top p) in
    let bl_ := firstn (length (p_bottom p) - length b') (p_bottom p) in
    assert_ (length tl_ =? length bl_) (
      p' <- p_make base nt nb ;;
      Ok (Some p', mkpiet tl_ bl_ h (p_swap p) None (p_trk p)))
  end.

(** ** induce, iet.cc 198-271 *)

Fixpoint p_induce_loop {S} (L : lens T S) (fuel : nat) (saf0 : bool) (limit n : Z) (p : piet) (s : S)
  : res (option bool * piet * S) :=
  match fuel with
  | 0 => OutOfFuel
  | Datatypes.S fuel' =>
    if negb ((limit =? -1)%Z || (n <? limit)%Z) then Ok (Some false, p, s)
    else
      '(similar, p) <-
        (if saf0 then
           i <- p_view p ;; '(v, i) <- iet_saf i (li_base L s) ;;
           if length v =? 0 then Ok (false, p_with p i)
           else '(r, k) <- tracker_loop (i_trk i) i (li_base L s) ;; Ok (r, p_with p (set_trk i k))
         else Ok (false, p)) ;;
      if (similar : bool) then Ok (None, p, s)
      else
        '(found, p, s) <- p_zorich L p s ;;
        if (found : bool) then Ok (Some true, p, s)
        else
          '(found, p, s) <- p_zorich L (p_swap_rows p) s ;;
          let p := p_swap_rows p in
          if (found : bool) then Ok (Some true, p, s)
          else if (n =? INT_MAX)%Z then UB
          else p_induce_loop L fuel' saf0 limit (n + 1) p s
  end.

(** Erase the node [q] from a list. *)
Definition unlink (q : nat) (l : list nat) : res (list nat) :=
  match split_at q l with Some (u, v) => Ok (u ++ v) | None => UB end.

(** iet.cc 248-260: [firstTop] and [firstBottom] are copies of the first nodes. *)
Definition p_merge (p : piet) : res piet :=
  match p_top p, p_bottom p with
  | a :: X, b :: Y =>
    firstTop <- deref (p_heap p) a ;; firstBottom <- deref (p_heap p) b ;;
    w <- (match n_twin firstTop with Some w => Ok w | None => UB end) ;;
    (* insert a copy of the first bottom node in front of the twin of the first top node *)
    '(u, v) <- (match split_at w (p_bottom p) with Some uv => Ok uv | None => UB end) ;;
    let '(c, h) := alloc (p_heap p) firstBottom in
    let bottom := u ++ c :: w :: v in
    (* erase the first bottom node *)
    bottom <- (match bottom with [] => UB | _ :: bottom => Ok bottom end) ;;
    h <- free h (match u with [] => c | q :: _ => q end) ;;
    (* let the twin point to the copy *)
    ct <- twin h c ;; h <- set_twin h ct c ;;
    (* drop the first top label *)
    h <- free h a ;; bottom <- unlink w bottom ;; h <- free h w ;;
    Ok (mkpiet X bottom h (p_swap p) (p_saf p) (p_trk p))
  | _, _ => UB
  end.

Record pstep := mkpstep {
  ps_result : iresult;
  ps_connection : option (label * label);
  ps_additional : option piet;
}.

(** iet.cc 231-270 *)
Definition p_induce_finish {S} (L : lens T S) (found : bool) (p : piet) (s : S) : res (pstep * piet * S) :=
  '(red, p) <- p_reduce p (li_base L s) ;;
  match red with
  | Some rgt =>
    match rev (p_bottom p), rev (p_top p) with
    | b :: _, t :: _ =>
      y <- label_at (p_heap p) b ;; x <- label_at (p_heap p) t ;;
      Ok (mkpstep SEPARATING_CONNECTION (Some (y, x)) (Some rgt), p, s)
    | _, _ => UB
    end
  | None =>
    match p_top p, p_bottom p with
    | a :: _, b :: _ =>
      x <- label_at (p_heap p) a ;; y <- label_at (p_heap p) b ;;
      c <- li_cmp2 L s x y ;;
      match c with
      | Eq =>
        p <- p_merge p ;;
        Ok (mkpstep NON_SEPARATING_CONNECTION (Some (y, x)) None, p, s)
      | _ =>
        assert_ (negb found) (
          i <- p_view p ;;
          '(z, i) <- bosh_no_periodic i (li_base L s) ;;
          Ok (mkpstep (if (z : bool) then WITHOUT_PERIODIC_TRAJECTORY_BOSHERNITZAN else LIMIT_REACHED) None None, p_with p i, s))
      end
    | _, _ => UB
    end
  end.

(** iet.cc 198-271 *)
Definition p_induce {S} (L : lens T S) (fuel : nat) (limit : Z) (p : piet) (s : S) : res (pstep * piet * S) :=
  if length (p_top p) =? 1 then Ok (mkpstep CYLINDER None None, p, s)
  else
    '(found, p, s) <-
      (if (limit =? 0)%Z then Ok (Some false, p, s)
       else i <- p_view p ;; '(z, i) <- iet_saf0 i (li_base L s) ;; p_induce_loop L fuel z limit 0 (p_with p i) s) ;;
    match (found : option bool) with
    | None => Ok (mkpstep WITHOUT_PERIODIC_TRAJECTORY_AUTO_SIMILAR None None, p, s)
    | Some found => p_induce_finish L found p s
    end.

(** ** Calls and histories, see [Api] *)

Definition p_run_op (o : op) (p : piet) (s : slen T) : res (piet * list piet * slen T) :=
  match o with
  | op_swap => Ok (p_swap_rows p, [], s)
  | op_zorich => '(_, p, s) <- p_zorich sample_lens p s ;; Ok (p, [], s)
  | op_reduce => '(r, p) <- p_reduce p s ;; Ok (p, match r with Some q => [q] | None => [] end, s)
  | op_induce fuel limit =>
    '(st, p, s) <- p_induce sample_lens fuel limit p s ;;
    Ok (p, match ps_additional st with Some q => [q] | None => [] end, s)
  | op_saf => i <- p_view p ;; '(_, i) <- saf_invariant i s ;; Ok (p_with p i, [], s)
  | op_bosh_periodic => i <- p_view p ;; '(_, i) <- bosh_no_periodic i s ;; Ok (p_with p i, [], s)
  | op_bosh_saddle => i <- p_view p ;; _ <- bosh_no_saddle i s ;; Ok (p, [], s)
  | op_bosh_saddle2 t b => i <- p_view p ;; _ <- bosh_no_saddle2 i s t b ;; Ok (p, [], s)
  end.

(** Histories as in [Api.history]. *)
Inductive p_history {W : LenLaws T} : list piet -> slen T -> Prop :=
| ph_start ls : p_history [] (mkslen [] ls)
| ph_new l s top bottom p :
    p_history l s -> valid_input s top bottom ->
    (forall c q i, In c top -> In q l -> p_view q = Ok i -> ~ In c (i_top i)) ->
    p_make s top bottom = Ok p -> p_history (p :: l) s
| ph_op l1 p l2 s o p' extra s' :
    p_history (l1 ++ p :: l2) s -> op_legal o ->
    p_run_op o p s = Ok (p', extra, s') -> p_history (l1 ++ p' :: extra ++ l2) s'.

(** What the caller of an operation can see of its results through [top()], [bottom()], ... *)
Definition seen (r : res (piet * list piet * slen T)) : res (iet T * list (iet T) * slen T) :=
  '(p, extra, s) <- r ;; i <- p_view p ;; js <- mapM p_view extra ;; Ok (i, js, s).
Definition seen_step {S} (r : res (pstep * piet * S)) : res (istep T * iet T * S) :=
  '(st, p, s) <- r ;; i <- p_view p ;;
  a <- match ps_additional st with Some q => j <- p_view q ;; Ok (Some j) | None => Ok None end ;;
  Ok (mkistep (ps_result st) (ps_connection st) a, i, s).

End Ptr.
Arguments piet T : clear implicits.
Arguments pstep T : clear implicits.
