(** Lengths that a user brings along: any type with the members of the interface can be used to
    construct an IET.  This is what its members have to do. *)
From Coq Require Import Reals Permutation.
From Verif Require Import Base QcTac LenT FM Subspace Lengths IET Spec SpecLengths Api RatioApi.
Open Scope nat_scope.

Section Contract.
Context {T : Type} {O : LenOps T} {W : LenLaws T} {S : Type}.

(** The label [l] has a length, and it is positive. *)
Definition known (b : slen T) (l : label) : Prop := l < length (sl_lens b) /\ (0 < lamR b l)%R.

(** intervalxt/lengths.hpp 41-80: the interface of lengths; the states of the object are [S], those in [sound] are
    the ones in which it can be.  [li_base L s] is what it stands for: the labels that have been pushed and
    the lengths of all labels, as [get], [coefficients] and [similar] tell them (simplified: they tell
    them as [sample::Lengths] does, and do not depend on anything else).  The arguments [view] are not
    part of the C++ interface: they are what [LengthsWithConnections] knows about the IET, others cannot use them. *)
Record contract (L : lens T S) (sound : S -> Prop) : Prop := {
  (** push(l) puts [l] on the stack *)
  ct_push : forall s l, sound s -> known (li_base L s) l -> exists s', li_push L l s = Ok s' /\ sound s' /\
    sl_stack (li_base L s') = sl_stack (li_base L s) ++ [l] /\ sl_lens (li_base L s') = sl_lens (li_base L s);
  (** pop() takes the last label off the stack *)
  ct_pop : forall s st l, sound s -> sl_stack (li_base L s) = st ++ [l] -> known (li_base L s) l ->
    exists s', li_pop L s = Ok s' /\ sound s' /\ sl_stack (li_base L s') = st /\ sl_lens (li_base L s') = sl_lens (li_base L s);
  (** cmp(a) compares the sum of the lengths on the stack with the length of [a] *)
  ct_cmp1 : forall s a, sound s -> (forall l, In l (a :: sl_stack (li_base L s)) -> known (li_base L s) l) ->
    exists c, li_cmp1 L s a = Ok c /\
      (c = Lt <-> (total (lamR (li_base L s)) (sl_stack (li_base L s)) < lamR (li_base L s) a)%R) /\
      (c = Eq <-> total (lamR (li_base L s)) (sl_stack (li_base L s)) = lamR (li_base L s) a);
  (** cmp(a, b) compares two lengths *)
  ct_cmp2 : forall s a b, sound s -> known (li_base L s) a -> known (li_base L s) b ->
    exists c, li_cmp2 L s a b = Ok c /\ (c = Lt <-> (lamR (li_base L s) a < lamR (li_base L s) b)%R) /\
      (c = Eq <-> lamR (li_base L s) a = lamR (li_base L s) b);
  (** subtract(a) subtracts the lengths on the stack from the length of [a], which has to be
      greater, and clears the stack *)
  ct_subtract : forall s v a, sound s ->
    (forall l, In l (a :: sl_stack (li_base L s)) -> known (li_base L s) l) ->
    (total (lamR (li_base L s)) (sl_stack (li_base L s)) < lamR (li_base L s) a)%R ->
    exists s', li_subtract L v a s = Ok s' /\ sound s' /\ sl_stack (li_base L s') = [] /\
      length (sl_lens (li_base L s')) = length (sl_lens (li_base L s)) /\
      lamR (li_base L s') a = (lamR (li_base L s) a - total (lamR (li_base L s)) (sl_stack (li_base L s)))%R /\
      forall c, c <> a -> lamR (li_base L s') c = lamR (li_base L s) c;
  (** subtractRepeated(a) subtracts the lengths on the stack one after the other, again and again, as
      long as something remains, clears the stack and returns the label that was subtracted last *)
  ct_subrep : forall s v a, sound s ->
    (forall l, In l (a :: sl_stack (li_base L s)) -> known (li_base L s) l) ->
    ~ In a (sl_stack (li_base L s)) -> sl_stack (li_base L s) <> [] ->
    (total (lamR (li_base L s)) (sl_stack (li_base L s)) < lamR (li_base L s) a)%R ->
    let st := sl_stack (li_base L s) in
    exists n s', length st <= n /\ li_subrep L v a s = Ok (nth ((n - 1) mod length st) st 0, s') /\ sound s' /\
      sl_stack (li_base L s') = [] /\ length (sl_lens (li_base L s')) = length (sl_lens (li_base L s)) /\
      (forall c, c <> a -> lamR (li_base L s') c = lamR (li_base L s) c) /\
      lamR (li_base L s') a = (lamR (li_base L s) a - cycled (lamR (li_base L s)) st n)%R /\
      (0 < lamR (li_base L s') a <= lamR (li_base L s) (nth (n mod length st) st 0%nat))%R;
}.

(** Programs ([RatioApi]) on an IET with such lengths. *)
Definition call_with (L : lens T S) (o : op) (i : iet T) (s : S) : res (answer * iet T * list (iet T) * S) :=
  match o with
  | op_swap => Ok (ans_nothing, iet_swap i, [], s)
  | op_zorich => '(found, i, s) <- zorich L i s ;; Ok (ans_found found, i, [], s)
  | op_reduce =>
    '(r, i) <- reduce i (li_base L s) ;;
    Ok match r with Some j => (ans_split true, i, [j], s) | None => (ans_split false, i, [], s) end
  | op_induce fuel limit =>
    '(st, i, s) <- induce L fuel limit i s ;;
    Ok (ans_induce (is_result st) (is_connection st), i, match is_additional st with Some j => [j] | None => [] end, s)
  | op_saf => '(v, i) <- saf_invariant i (li_base L s) ;; Ok (ans_saf_zero (vis0 v), i, [], s)
  | op_bosh_periodic => '(b, i) <- bosh_no_periodic i (li_base L s) ;; Ok (ans_flag b, i, [], s)
  | op_bosh_saddle => b <- bosh_no_saddle i (li_base L s) ;; Ok (ans_flag b, i, [], s)
  | op_bosh_saddle2 t b => r <- bosh_no_saddle2 i (li_base L s) t b ;; Ok (ans_flag r, i, [], s)
  end.

Fixpoint run_with (L : lens T S) (p : list (nat * op)) (pool : list (iet T)) (s : S) : res (list answer * list (iet T) * S) :=
  match p with
  | [] => Ok ([], pool, s)
  | (n, o) :: p' =>
    match nth_error pool n with
    | None => UB
    | Some i =>
      '(a, i', extra, s') <- call_with L o i s ;;
      '(rest, pool', t) <- run_with L p' (firstn n pool ++ i' :: extra ++ skipn (Datatypes.S n) pool) s' ;;
      Ok (a :: rest, pool', t)
    end
  end.

Definition session_with (L : lens T S) (top bottom : list label) (p : list (nat * op)) (s : S) : res (list answer * list (iet T) * S) :=
  i <- iet_make (li_base L s) top bottom ;; run_with L p [i] s.

End Contract.

(** An example of such lengths: they keep the sum of the stack instead of computing it again for each
    comparison. *)
Section Cached.
Context {T : Type} {O : LenOps T} {W : LenLaws T}.

Definition cached_lens : lens T (slen T * T) :=
  mklens
    (fun l p => let '(s, c) := p in x <- sl_at s l ;; Ok (sl_push l s, l_add c x))
    (fun p => let '(s, c) := p in
       match rev (sl_stack s) with [] => UB | l :: _ => x <- sl_at s l ;; s <- sl_pop s ;; Ok (s, l_sub c x) end)
    (fun p a => let '(s, c) := p in y <- sl_at s a ;; Ok (l_cmp c y))
    (fun p a b => sl_cmp2 (fst p) a b)
    (fun _ a p => let '(s, c) := p in x <- sl_at s a ;; s <- sl_set s a (l_sub x c) ;; Ok (sl_clear s, l_zero))
    (fun _ a p => '(r, s) <- sl_subrep a (fst p) ;; Ok (r, (s, l_zero)))
    fst.

Definition cached_sound (p : slen T * T) : Prop := val (snd p) = total (lamR (fst p)) (sl_stack (fst p)).

End Cached.
