(** Properties C93, C94: programs with several threads.

    [schedule turns threads m] ([Par]): what has become of the threads and of the memory (IETs and lengths) when the threads have
    taken turns as [turns] says; each turn is one access to the memory.  A thread has [Returned], has [Stopped] with a failure,
    or is about to make its [Next] access.  [data_race threads]: two of the threads are about to make conflicting
    accesses to the same location.  [t_queries], [t_calls], [t_work]: threads which call [const] members of IETs, other members, or
    either ([ParApi]).  [ask], [calls]: the same in a program with a single thread, by the model in [IET]. *)
From Coq Require Import Reals Permutation.
From Verif Require Import Base LenT FM Subspace Lengths IET LenInst Sqrt2 Spec Api RatioApi Par ParApi Fixtures.
From Verif Require Import ClaimsPar.
Open Scope nat_scope.
(** ** C93: [const] members of IETs can be called by several threads at the same time. *)

(** Missing: this if the SAF invariant of an IET is asked for which is not known yet ([ready] says that it is); see below.  Otherwise, whatever the scheduler does,
    there is no data race, nothing changes, and each thread that returns has got the answers that it would have got if it were alone. *)
Theorem C93_partial : forall (T : Type) (O : LenOps T) (m : memory T) (programs : list (list (nat * nat * query))) (turns : list nat),
  (forall qs x, In qs programs -> In x qs -> ready m x) ->
  exists threads, schedule turns (map t_queries programs) m = (threads, m) /\ ~ data_race threads /\
  forall n qs, nth_error programs n = Some qs -> exists t, nth_error threads n = Some t /\
    match t with
    | Returned answers => mapM (ask m) qs = Ok answers
    | Stopped e => mapM (ask m) qs = stop_of e
    | Next _ _ => True
    end.
Proof. exact claim_C93_partial. Qed.
Print Assumptions C93_partial.

(** How to get there: the SAF invariant is known once [safInvariant] or [boshernitzanNoPeriodicTrajectory] has returned, and stays
    known until [reduce] or [induce] splits the IET. *)
Theorem C93_known : forall (T : Type) (O : LenOps T) (o : op) (i : iet T) (s : slen T) (a : answer) (i' : iet T) (extra : list (iet T)) (s' : slen T),
  call o i s = Ok (a, i', extra, s') -> o = op_saf \/ o = op_bosh_periodic \/ (i_saf i <> None /\ extra = []) -> i_saf i' <> None.
Proof. exact claim_C93_known. Qed.
Print Assumptions C93_known.

(** Not if two threads ask for the SAF invariant of a new IET: there can be a data race. *)
Theorem C93_race_refuted : exists (i : iet q2) (s : slen q2) (turns : list nat), obtainable i s /\
  data_race (fst (schedule turns [t_queries [(0, 0, q_saf)]; t_queries [(0, 0, q_saf)]] (mkmem [i] [s]))).
Proof. exact claim_C93_race_refuted. Qed.
Print Assumptions C93_race_refuted.

(** And even if accesses to the cache were atomic, one thread can get the wrong answer: it sees the sum that the other one has begun to form. *)
Theorem C93_value_refuted : exists (i : iet q2) (s : slen q2) (turns : list nat) (v : vec), obtainable i s /\
  ask (mkmem [i] [s]) (0, 0, q_saf) = Ok (r_vector v) /\ vis0 v = false /\
  exists w, nth_error (fst (schedule turns [t_queries [(0, 0, q_saf)]; t_queries [(0, 0, q_saf)]] (mkmem [i] [s]))) 1 = Some (Returned [r_vector w]) /\ vis0 w = true.
Proof. exact claim_C93_value_refuted. Qed.
Print Assumptions C93_value_refuted.

Example C93_example : let m := mkmem [match saf_invariant w_iet w_lens with Ok (_, i) => i | _ => w_iet end] [w_lens] in
  let program := [(0, 0, q_saf); (0, 0, q_bosh_periodic); (0, 0, q_equal 0 0)] in
  (forall qs x, In qs [program; program] -> In x qs -> ready m x) /\
  exists a, nth_error (fst (schedule (concat (repeat [0; 1] 30)) (map t_queries [program; program]) m)) 1 = Some (Returned a) /\ length a = 3.
Proof.
  cbv zeta. split.
  - intros qs x [<-|[<-|[]]] [<-|[<-|[<-|[]]]]; (split; [intros j l I; cbn in I; repeat destruct I as [I|I]; try injection I as <- <-; try contradiction; split; vm_compute; auto|]); cbn [wants_saf snd fst]; intro; try discriminate; do 2 eexists; split; vm_compute; reflexivity.
  - eexists. split; vm_compute; reflexivity.
Qed.

(** ** C94: Different IETs can be used by different threads. *)

(** Missing: this for IETs that have their lengths in common; see below.  If each IET and each lengths object is either used by a single thread, or used by [const] members
    only, then there is no data race, and each thread that is done has got the answers, and leaves its IET and its lengths, as if it were alone. *)
Theorem C94_partial : forall (T : Type) (O : LenOps T) (m : memory T) (works : list work) (turns : list nat),
  compatible works -> (forall w, In w works -> startable m w) ->
  let '(threads, m') := schedule turns (map t_work works) m in
  ~ data_race threads /\
  forall n w, nth_error works n = Some w -> exists t, nth_error threads n = Some t /\
    match w with
    | W_calls j l os => exists i s, nth_error (m_iets m) j = Some i /\ nth_error (m_lens m) l = Some s /\
      match t with
      | Returned r => exists answers i' s', r = inl answers /\ calls os i s = Ok (answers, i', s') /\ nth_error (m_iets m') j = Some i' /\ nth_error (m_lens m') l = Some s'
      | Stopped e => calls os i s = stop_of e
      | Next _ _ => True
      end
    | W_queries qs =>
      match t with
      | Returned r => exists answers, r = inr answers /\ mapM (ask m) qs = Ok answers
      | Stopped e => mapM (ask m) qs = stop_of e
      | Next _ _ => True
      end
    end.
Proof. exact claim_C94_partial. Qed.
Print Assumptions C94_partial.

(** Each such thread is done after sufficiently many turns. *)
Theorem C94_done : forall (T : Type) (O : LenOps T) (m : memory T) (works : list work) (n : nat) (w : work),
  compatible works -> (forall w, In w works -> startable m w) -> nth_error works n = Some w ->
  exists N, forall turns, N <= count_occ Nat.eq_dec turns n ->
  exists t, nth_error (fst (schedule turns (map t_work works) m)) n = Some t /\ match t with Next _ _ => False | _ => True end.
Proof. exact claim_C94_done. Qed.
Print Assumptions C94_done.

(** Not if two IETs have their lengths in common, like the parts of an IET that has been split: [zorichInduction] on the one can make [zorichInduction] on the other claim that there is a saddle connection where
    there is none and change the lengths in a wrong way.  (Here every member of the lengths runs undisturbed by the other thread.)  In any order one after the other, there is no connection. *)
Theorem C94_refuted : exists (i0 i1 : iet Z) (s : slen Z) (turns : list nat), history [i1; i0] s /\
  (let m := mkmem [i0; i1] [s] in let program := [t_calls 0 0 [op_zorich]; t_calls 1 0 [op_zorich]] in
   (exists t m', schedule turns program m = ([t; Returned [(ans_found true, [])]], m') /\ map (fun s => sl_lens s) (m_lens m') = [[8; 3; 2; 2]%Z]) /\
   forall order, order = [0; 1] \/ order = [1; 0] -> exists m', schedule (flat_map (fun n => repeat n 20) order) program m = ([Returned [(ans_found false, [])]; Returned [(ans_found false, [])]], m') /\
     map (fun s => sl_lens s) (m_lens m') = [[2; 3; 1; 2]%Z]).
Proof. exact claim_C94_refuted. Qed.
Print Assumptions C94_refuted.

Example C94_example : let works := [W_calls 0 0 [op_zorich; op_induce 10 5]; W_queries [(1, 1, q_rows); (2, 1, q_equal 1 1)]; W_queries [(2, 1, q_equivalent 1 1)]] in
  let m := mkmem [z_iet; z_iet; r_iet] [z_lens; z_lens] in
  compatible works /\ (forall w, In w works -> startable m w) /\
  match schedule (concat (repeat [2; 1; 0] 100)) (map t_work works) m with
  | ([Returned (inl [_; _]); Returned (inr [r_rows _ _ false; r_flag false]); Returned (inr [r_flag false])], _) => True
  | _ => False
  end.
Proof.
  cbv zeta. split; [|split].
  - intros n p j l os w j' l' N En Ep I. destruct n as [|[|[|n]]]; cbn in En; try discriminate; [|destruct n; discriminate]. injection En as <- <- <-.
    destruct p as [|[|[|p]]]; cbn in Ep; [congruence|injection Ep as <-|injection Ep as <-|destruct p; discriminate]; cbn in I; repeat destruct I as [I|I]; try injection I as <- <-; try contradiction; split; discriminate.
  - intros w [<-|[<-|[<-|[]]]]; [split; cbn; auto with arith|..]; intros x Hx; repeat destruct Hx as [<-|Hx]; try contradiction; (split; [intros j l I; cbn in I; repeat destruct I as [I|I]; try injection I as <- <-; try contradiction; split; cbn; auto with arith|discriminate]).
  - vm_compute. exact I.
Qed.
