(** What threads may do with IETs (for the properties about threads), and what a program that does the same in one thread observes. *)
From Verif Require Import Base QcTac LenT FM Subspace Lengths IET Api RatioApi Par.
Open Scope nat_scope.

Section ParApi.
Context {T : Type} {O : LenOps T}.

(** Calls on one IET, one after the other, in a single thread: answers and split off IETs, the IET and the lengths afterwards. *)
Fixpoint calls (os : list op) (i : iet T) (s : slen T) : res (list (answer * list (iet T)) * iet T * slen T) :=
  match os with
  | [] => Ok ([], i, s)
  | o :: os' => '(a, i, extra, s) <- call o i s ;; '(rest, i, s) <- calls os' i s ;; Ok ((a, extra) :: rest, i, s)
  end.

(** What a [const] member called on IET [j] with lengths [l] returns in a program with a single thread. *)
Definition ask (m : memory T) (x : nat * nat * query) : res reply :=
  let '(j, l, q) := x in
  match nth_error (m_iets m) j, nth_error (m_lens m) l with
  | Some i, Some s =>
    match q with
    | q_rows => Ok (r_rows (i_top i) (i_bottom i) (i_swap i))
    | q_saf => '(v, _) <- saf_invariant i s ;; Ok (r_vector v)
    | q_bosh_periodic => '(b, _) <- bosh_no_periodic i s ;; Ok (r_flag b)
    | q_bosh_saddle => b <- bosh_no_saddle i s ;; Ok (r_flag b)
    | q_bosh_saddle2 t b => r <- bosh_no_saddle2 i s t b ;; Ok (r_flag r)
    | q_equations => eqs <- bosh_equations i s ;; Ok (r_matrix eqs)
    | q_values t b => v <- bosh_values i s t b ;; Ok (r_vector v)
    | q_equal j' l' =>
      match nth_error (m_iets m) j', nth_error (m_lens m) l' with Some i', Some s' => b <- iet_eqb i s i' s' ;; Ok (r_flag b) | _, _ => UB end
    | q_equivalent j' l' =>
      match nth_error (m_iets m) j', nth_error (m_lens m) l' with Some i', Some s' => b <- iet_equivalent i s i' s' ;; Ok (r_flag b) | _, _ => UB end
    end
  | _, _ => UB
  end.

(** The IETs (with their lengths) that are read. *)
Definition reads_of (x : nat * nat * query) : list (nat * nat) :=
  let '(j, l, q) := x in (j, l) :: match q with q_equal j' l' | q_equivalent j' l' => [(j', l')] | _ => [] end.

(** The call wants to know the SAF invariant. *)
Definition wants_saf (q : query) : bool := match q with q_saf | q_bosh_periodic => true | _ => false end.

(** The IETs exist, and the SAF invariant is known if it is asked for. *)
Definition ready (m : memory T) (x : nat * nat * query) : Prop :=
  (forall j l, In (j, l) (reads_of x) -> j < length (m_iets m) /\ l < length (m_lens m)) /\
  (wants_saf (snd x) = true -> exists i v, nth_error (m_iets m) (fst (fst x)) = Some i /\ i_saf i = Some v).

(** What a thread does: it makes calls on one IET, or it calls [const] members of any number of IETs. *)
Inductive work := W_calls (j l : nat) (os : list op) | W_queries (qs : list (nat * nat * query)).
Definition uses (w : work) : list (nat * nat) :=
  match w with W_calls j l _ => [(j, l)] | W_queries qs => flat_map reads_of qs end.

Definition result : Type := list (answer * list (iet T)) + list reply.
Definition t_work (w : work) : thread T result :=
  match w with
  | W_calls j l os => r <- t_calls j l os ;;; Returned (inl r)
  | W_queries qs => r <- t_queries qs ;;; Returned (inr r)
  end.

(** The thread may start. *)
Definition startable (m : memory T) (w : work) : Prop :=
  match w with
  | W_calls j l _ => j < length (m_iets m) /\ l < length (m_lens m)
  | W_queries qs => forall x, In x qs -> ready m x
  end.

(** No thread uses an IET or lengths on which another thread makes calls that are not [const]. *)
Definition compatible (ws : list work) : Prop :=
  forall n p j l os w j' l', n <> p -> nth_error ws n = Some (W_calls j l os) -> nth_error ws p = Some w -> In (j', l') (uses w) -> j' <> j /\ l' <> l.

End ParApi.
