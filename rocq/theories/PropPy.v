(** Properties C79, C80 and C81: the Python module.

    [session avail st] ([Py]): a Python process can be in the state [st]: it has created
    [Lengths] objects and IETs, called methods on them in any order, pickled IETs and
    unpickled those of any other process.  The IETs of a [group] share their lengths in C++. *)
From Coq Require Import Reals Permutation String Ascii.
From Verif Require Import Base LenT Lengths IET LenInst Decomp Misc Spec Api Fixtures Py.
From Verif Require Import ClaimsPy.
Open Scope string_scope.
Open Scope list_scope.
Open Scope nat_scope.

(** ** C79: IETs of a Python program do not affect each other. *)

(** Everything that holds for the IETs that a C++ program can obtain holds in Python. *)
Theorem C79_obtainable : forall (El : string -> Type) (ops : forall n, LenOps (El n)) (laws : forall n, LenLaws (El n))
    avail (st : pyst El) gr x,
  session avail st -> In gr (py_groups st) -> In x (gr_objs gr) -> obtainable (ob_iet x) (gr_len gr).
Proof. exact claim_C79_obtainable. Qed.
Print Assumptions C79_obtainable.

(** The constructor accepts a permutation of 0, ..., n - 1, and builds an IET with lengths
    of its own: the [Lengths] object may be used again. *)
Theorem C79_constructor : forall (El : string -> Type) (ops : forall n, LenOps (El n)) (laws : forall n, LenLaws (El n))
    avail (st : pyst El) k l p,
  session avail st -> nth_error (py_lens st) k = Some l -> legal_iet l p ->
  exists i st', py_iet k p st = Ok st' /\ py_lens st' = py_lens st /\
    py_groups st' = py_groups st ++ [mkgroup (pl_ty l) [mkobj i (Some k)] (pl_len l)] /\
    i_top i = seq 0 (List.length p) /\ map Z.of_nat (i_bottom i) = p.
Proof. exact claim_C79_constructor. Qed.
Print Assumptions C79_constructor.

(** A method changes no [Lengths] object and no other IET: neither those made from the same
    [Lengths] object nor those that have been split off from it or that it was split off from. *)
Theorem C79_independent : forall (El : string -> Type) (ops : forall n, LenOps (El n)) (laws : forall n, LenLaws (El n))
    avail (st st' : pyst El) o g m g' m' gr x,
  session avail st -> op_legal o -> py_method o g m st = Ok st' ->
  nth_error (py_groups st) g' = Some gr -> nth_error (gr_objs gr) m' = Some x -> (g', m') <> (g, m) ->
  py_lens st' = py_lens st /\
  exists gr' x', nth_error (py_groups st') g' = Some gr' /\ In x' (gr_objs gr') /\ ob_attr x' = ob_attr x /\
    i_top (ob_iet x') = i_top (ob_iet x) /\ i_bottom (ob_iet x') = i_bottom (ob_iet x) /\
    (forall c, In c (i_top (ob_iet x)) -> lamR (gr_len gr') c = lamR (gr_len gr) c) /\
    forall y z, maps (exch_of (ob_iet x') (gr_len gr')) y z <-> maps (exch_of (ob_iet x) (gr_len gr)) y z.
Proof. exact claim_C79_independent. Qed.
Print Assumptions C79_independent.

(** Two IETs made from the same [Lengths] object, with lengths 18 and 3; Zorich induction on
    the first one makes its lengths 3 and 3, the other one keeps 18 and 3. *)
Example C79_example : session anything p_run /\ py_method op_zorich 0 0 p_two = Ok p_run /\
  map (fun g : group Ints => sl_lens (gr_len g) : list Z) (py_groups p_run) = [[3; 3]; [18; 3]]%Z.
Proof. split; [exact p_run_session|]. split; vm_compute; reflexivity. Qed.

(** ** C80: In Python, lengths() returns the lengths of the IET. *)

(** False: for an IET that has been constructed in Python it always returns the [Lengths]
    object that has been passed to the constructor, so after a call that changes the lengths
    it returns the old ones. *)
Theorem C80_refuted : exists (st0 st1 st2 : pyst Ints) gr x l,
  py_lengths anything "int" [18; 3]%Z None py_start = Ok st0 /\ py_iet 0 [1; 0]%Z st0 = Ok st1 /\
  py_method op_zorich 0 0 st1 = Ok st2 /\ session anything st2 /\
  py_groups st2 = [gr] /\ gr_objs gr = [x] /\ lengths_of st2 gr x = Some l /\
  exists c, In c (i_top (ob_iet x)) /\ lamR (pl_len l) c <> lamR (gr_len gr) c.
Proof. exact claim_C80_refuted. Qed.
Print Assumptions C80_refuted.

(** What is true: [lengths()] always returns lengths that know the labels of the IET, so
    names are right and [lengths().get(label)] is no exception; and for an IET that has been
    split off or unpickled they are its lengths.  (Full statement: without [ob_attr x = None].) *)
Theorem C80_partial : forall (El : string -> Type) (ops : forall n, LenOps (El n)) (laws : forall n, LenLaws (El n))
    avail (st : pyst El) gr x,
  session avail st -> In gr (py_groups st) -> In x (gr_objs gr) ->
  exists l, lengths_of st gr x = Some l /\ pl_ty l = gr_ty gr /\
    (forall c, In c (i_top (ob_iet x)) -> exists v, sl_at (pl_len l) c = Ok v) /\
    (ob_attr x = None -> forall c, lamR (pl_len l) c = lamR (gr_len gr) c).
Proof. exact claim_C80_partial. Qed.
Print Assumptions C80_partial.

(** The two IETs above: after the call, [lengths()] of the first one still says 18 and 3. *)
Example C80_example : session anything p_run /\
  map (fun g => map (fun x => option_map (fun l : plen Ints => sl_lens (pl_len l) : list Z) (lengths_of p_run g x)) (gr_objs g)) (py_groups p_run) =
    [[Some [18; 3]%Z]; [Some [18; 3]%Z]].
Proof. split; [exact p_run_session | vm_compute; reflexivity]. Qed.

(** ** C81: Pickles can be loaded anywhere. *)

(** An IET whose lengths have a type that its process has used in the constructor and that
    GMP does not provide can be pickled, and the pickle can be loaded in any process in which
    the headers that the first process has used are there: in whatever order the registrars go
    through their sets and whatever has happened in the two processes before.  The
    result has the same labels and lengths, and lengths of its own. *)
Theorem C81_partial : forall (El : string -> Type) (ops : forall n, LenOps (El n)) (laws : forall n, LenLaws (El n))
    avail avail' (st st' : pyst El) g m gr x order,
  session avail st -> session avail' st' ->
  nth_error (py_groups st) g = Some gr -> nth_error (gr_objs gr) m = Some x ->
  known_here st (gr_ty gr) -> is_gmp (cpp_name (gr_ty gr)) = false ->
  (forall n hs h, In (n, hs) (py_known st) -> In h hs -> avail' h = true) ->
  Permutation order (py_known st) ->
  exists st1 p, py_dumps avail order g m st = (st1, Some p) /\
    forall order', Permutation order' (pk_known p) ->
    exists st2 j, py_loads avail' order' p st' = (st2, true) /\ py_lens st2 = py_lens st' /\
      py_groups st2 = py_groups st' ++ [mkgroup (gr_ty gr) [mkobj j None] (gr_len gr)] /\
      i_top j = i_top (ob_iet x) /\ i_bottom j = i_bottom (ob_iet x).
Proof. exact claim_C81_partial. Qed.
Print Assumptions C81_partial.

(** This applies to all IETs that have been constructed in the process and what has been split
    off from them. *)
Theorem C81_known : forall (El : string -> Type) (ops : forall n, LenOps (El n)) (laws : forall n, LenLaws (El n))
    avail (st : pyst El) gr x,
  session avail st -> In gr (py_groups st) -> In x (gr_objs gr) -> ob_attr x <> None -> known_here st (gr_ty gr).
Proof. exact claim_C81_known. Qed.
Print Assumptions C81_known.

(** With lengths from GMP, pickling is an exception. *)
Theorem C81_gmp : forall (El : string -> Type) (ops : forall n, LenOps (El n)) (laws : forall n, LenLaws (El n))
    avail (st : pyst El) g m gr order,
  session avail st -> nth_error (py_groups st) g = Some gr ->
  is_gmp (cpp_name (gr_ty gr)) = true -> Permutation order (py_known st) ->
  snd (py_dumps avail order g m st) = None.
Proof. exact claim_C81_gmp. Qed.
Print Assumptions C81_gmp.

(** The condition is needed: an IET that has been unpickled can be pickled again, but a
    new process cannot load this pickle although nothing is missing, because the type of its
    lengths is not in the registrar of the second process. *)
Theorem C81_refuted : exists (st st1 : pyst Ints) gr x p,
  session anything st /\ nth_error (py_groups st) 0 = Some gr /\ nth_error (gr_objs gr) 0 = Some x /\
  is_gmp (cpp_name (gr_ty gr)) = false /\
  py_dumps anything (py_known st) 0 0 st = (st1, Some p) /\
  forall order, Permutation order (pk_known p) -> snd (py_loads anything order p py_start) = false.
Proof. exact claim_C81_refuted. Qed.
Print Assumptions C81_refuted.

(** Pickled with lengths 18 and 3 and loaded in a new process. *)
Example C81_example : session anything p_one /\ known_here p_one "int" /\ is_gmp (cpp_name "int") = false /\
  is_gmp (cpp_name "__gmp_expr<__mpz_struct[1], __mpz_struct[1]>") = true /\
  map (fun g : group Ints => sl_lens (gr_len g) : list Z) (py_groups p_relay) = [[18; 3]]%Z.
Proof.
  split; [exact p_one_session|]. split; [eexists; left; reflexivity|]. split; [vm_compute; reflexivity|].
  split; vm_compute; reflexivity.
Qed.
