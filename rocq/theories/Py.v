(** Model of the Python module: [pyintervalxt/src/pyintervalxt/cppyy_intervalxt.py], with
    the helper [intervalxt/cppyy.hpp] and the serialization of type-erased lengths
    ([intervalxt/erased]).

    A type of lengths is identified by the C++ name of the elements of the vector;
    [El] is the type in the model. *)
From Coq Require Import Reals String Ascii Permutation.
From Verif Require Import Base QcTac LenT FM Subspace Lengths IET Decomp Misc Api.
Open Scope string_scope.
Open Scope list_scope.
Open Scope nat_scope.

Definition mem (n : string) (l : list string) : bool := existsb (String.eqb n) l.

(** cppyy_intervalxt.py 194, 196: the C++ name of the type of the lengths. *)
Definition cpp_name (n : string) : string := ("intervalxt::cppyy::Lengths<std::vector<" ++ n ++ "> >")%string.

(** Python's [name.replace(' ', '')]. *)
Fixpoint no_spaces (n : string) : string :=
  match n with
  | EmptyString => EmptyString
  | String c n => if Ascii.eqb c " " then no_spaces n else String c (no_spaces n)
  end.

(** cppyy_intervalxt.py 60 and 65: lengths that cannot be serialized. *)
Definition is_gmp (name : string) : bool :=
  String.eqb (no_spaces name) "intervalxt::cppyy::Lengths<std::vector<__gmp_expr<__mpz_struct[1],__mpz_struct[1]>>>" ||
  String.eqb (no_spaces name) "intervalxt::cppyy::Lengths<std::vector<__gmp_expr<__mpq_struct[1],__mpq_struct[1]>>>".

(** cppyy_intervalxt.py 177-189: the headers for the known types. *)
Definition default_headers (n : string) : option (list string) :=
  if String.eqb n "int" then Some ["intervalxt/sample/integer_coefficients.hpp"; "intervalxt/sample/integer_floor_division.hpp"]
  else if String.eqb n "__gmp_expr<__mpz_struct[1],__mpz_struct[1]>" then Some ["intervalxt/sample/mpz_coefficients.hpp"; "intervalxt/sample/mpz_floor_division.hpp"]
  else if String.eqb n "__gmp_expr<__mpq_struct[1],__mpq_struct[1]>" then Some ["intervalxt/sample/mpq_coefficients.hpp"; "intervalxt/sample/mpq_floor_division.hpp"]
  else if String.eqb n "eantic::renf_elem_class" then Some ["intervalxt/sample/renf_elem_coefficients.hpp"; "intervalxt/sample/renf_elem_floor_division.hpp"; "e-antic/cereal.hpp"]
  else if mem n ["exactreal::Element<exactreal::IntegerRing>"; "exactreal::Element<exactreal::RationalField>"; "exactreal::Element<exactreal::NumberField>"]
       then Some ["intervalxt/sample/element_coefficients.hpp"; "intervalxt/sample/element_floor_division.hpp"; "exact-real/cereal.hpp"]
  else None.

(** cppyy_intervalxt.py 48-55: what [LengthRegistrar] knows: names with their headers. *)
Definition known := list (string * list string).

(** cppyy_intervalxt.py 54-55: [known_lengths] is a set. *)
Definition entry_eqb (a b : string * list string) : bool :=
  String.eqb (fst a) (fst b) && (if list_eq_dec string_dec (snd a) (snd b) then true else false).
Definition track (k : known) (name : string) (headers : list string) : known :=
  if existsb (entry_eqb (name, headers)) k then k else k ++ [(name, headers)].

(** [rg_done] is [LengthRegistrar.REGISTERED_LENGTHS] (cppyy_intervalxt.py 49),
    [rg_defs] what has been defined with LIBINTERVALXT_ERASED_REGISTER: the types that
    cereal knows how to save and load through a pointer to a type-erased object. *)
Record reg := mkreg { rg_done : list string; rg_defs : list string }.

(** cppyy_intervalxt.py 57-75.  Python does not say in which order a set is iterated; here
    [k] is the set in the order of the iteration.  [avail]: the headers that can be included.
    The answer [false] is an exception: a header is not there or (cppdef) a type is defined
    twice.  What has been registered before that stays registered. *)
Fixpoint registrar (avail : string -> bool) (k : known) (r : reg) : reg * bool :=
  match k with
  | [] => (r, true)
  | (name, headers) :: k =>
    if mem name (rg_done r) then registrar avail k r
    else if is_gmp name then registrar avail k r
    else if forallb avail headers then
      if mem name (rg_defs r) then (r, false)
      else registrar avail k (mkreg (name :: rg_done r) (name :: rg_defs r))
    else (r, false)
  end.

Section Py.
Context {El : string -> Type} {ops : forall n, LenOps (El n)}.

(** A [Lengths] object of Python (a C++ [cppyy::Lengths], intervalxt/cppyy.hpp 31-57). *)
Record plen := mkplen { pl_ty : string; pl_len : slen (El pl_ty) }.

(** An IET object of Python.  The constructor in Python shadows the method [lengths] by one that
    returns the [Lengths] object with which it has been called (cppyy_intervalxt.py 209):
    [ob_attr] is its index. *)
Record obj (T : Type) := mkobj { ob_iet : iet T; ob_attr : option nat }.
Arguments mkobj {T}. Arguments ob_iet {T}. Arguments ob_attr {T}.

(** The IETs whose C++ objects share one lengths object. *)
Record group := mkgroup { gr_ty : string; gr_objs : list (obj (El gr_ty)); gr_len : slen (El gr_ty) }.

(** A Python process. *)
Record pyst := mkpy { py_lens : list plen; py_groups : list group; py_known : known; py_reg : reg }.

Definition py_start : pyst := mkpy [] [] [] (mkreg [] []).

(** [Lengths(lengths, headers)], cppyy_intervalxt.py 169-198. *)
Definition py_lengths (avail : string -> bool) (n : string) (ls : list (El n)) (headers : option (list string)) (st : pyst) : res pyst :=
  if (length ls =? 0) then Throw
  else match (match headers with Some h => Some h | None => default_headers n end) with
  | None => Throw
  | Some hs =>
    if forallb avail hs then
      s <- sl_make ls ;;
      Ok (mkpy (py_lens st ++ [mkplen n s]) (py_groups st) (track (py_known st) (cpp_name n) hs) (py_reg st))
    else Throw
  end.

(** [IntervalExchangeTransformation(lengths, permutation)] for a [Lengths] object,
    cppyy_intervalxt.py 201-217.  (For a tuple or a list, [Lengths] is called first.) *)
Definition py_iet (k : nat) (permutation : list Z) (st : pyst) : res pyst :=
  match nth_error (py_lens st) k with
  | None => Throw
  | Some l =>
    '(i, s) <- cpp_iet (pl_len l) permutation ;;
    Ok (mkpy (py_lens st) (py_groups st ++ [mkgroup (pl_ty l) [mkobj i (Some k)] s]) (py_known st) (py_reg st))
  end.

(** A method of the [m]-th IET of the group [g].  IETs that are split off by [reduce] or
    [induce] are C++ objects without the attribute of the Python constructor. *)
Definition method (o : op) (m : nat) (g : group) : res group :=
  match nth_error (gr_objs g) m with
  | None => Throw
  | Some x =>
    '(i, extra, s) <- run_op o (ob_iet x) (gr_len g) ;;
    Ok (mkgroup (gr_ty g) (firstn m (gr_objs g) ++ mkobj i (ob_attr x) :: map (fun j => mkobj j None) extra ++ skipn (S m) (gr_objs g)) s)
  end.
Definition py_method (o : op) (g m : nat) (st : pyst) : res pyst :=
  match nth_error (py_groups st) g with
  | None => Throw
  | Some gr =>
    gr <- method o m gr ;;
    Ok (mkpy (py_lens st) (firstn g (py_groups st) ++ gr :: skipn (S g) (py_groups st)) (py_known st) (py_reg st))
  end.

(** Methods of a [Lengths] object (push, pop, subtract, ...) change the object; here it may
    become any other one of the same type. *)
Definition touch (l : plen) (ls : nat -> El (pl_ty l)) (stack : list label) : plen :=
  mkplen (pl_ty l) (mkslen stack (map ls (seq 0 (length (sl_lens (pl_len l)))))).

(** [iet.lengths()] in Python. *)
Definition lengths_of (st : pyst) (g : group) (x : obj (El (gr_ty g))) : option plen :=
  match ob_attr x with
  | Some k => nth_error (py_lens st) k
  | None => Some (mkplen (gr_ty g) (gr_len g))
  end.

(** What [pickle.dumps] of an IET contains: the registrar with the types it knows
    (cppyy_intervalxt.py 82: it is among the headers; a pickle repeats the headers because
    they have to be included again when it is loaded), the name of the type of the lengths
    (cereal's name of the type behind the polymorphic pointer,
    intervalxt/erased/detail/serializable.hpp) and the data. *)
Record pickled := mkpk { pk_known : known; pk_ty : string; pk_data : avalue (El pk_ty) }.

(** [pickle.dumps(iet)]: the registrar is called, then cereal saves the IET
    (intervalxt/cereal.hpp 69-74, erased/serializable.hpp [saveErased]), which is an exception
    if the type of the lengths has not been registered.  The result is the state afterwards and
    the pickle, if there is no exception.  Contract of cppyythonizations ([enable_cereal], not
    part of the repository): headers are included and callables among them called. *)
Definition py_dumps (avail : string -> bool) (order : known) (g m : nat) (st : pyst) : pyst * option pickled :=
  let (r, ok) := registrar avail order (py_reg st) in
  (mkpy (py_lens st) (py_groups st) (py_known st) r,
   match nth_error (py_groups st) g with
   | None => None
   | Some gr =>
     match nth_error (gr_objs gr) m with
     | None => None
     | Some x =>
       if ok && mem (cpp_name (gr_ty gr)) (rg_defs r)
       then Some (mkpk (py_known st) (gr_ty gr) (save_iet (ob_iet x) (Some (gr_len gr))))
       else None
     end
   end).

(** [pickle.loads]: calls the registrar that is part of the pickle, then loads
    (intervalxt/cereal.hpp 76-93, erased/serializable.hpp [loadErased]).  The new IET has a
    lengths object of its own. *)
Definition py_loads (avail : string -> bool) (order : known) (p : pickled) (st : pyst) : pyst * bool :=
  let (r, ok) := registrar avail order (py_reg st) in
  let st' := mkpy (py_lens st) (py_groups st) (py_known st) r in
  if ok && mem (cpp_name (pk_ty p)) (rg_defs r) then
    match load_iet (pk_data p) with
    | Ok (i, Some s) => (mkpy (py_lens st) (py_groups st ++ [mkgroup (pk_ty p) [mkobj i None] s]) (py_known st) r, true)
    | _ => (st', false)
    end
  else (st', false).

End Py.
Arguments plen : clear implicits.
Arguments group : clear implicits.
Arguments pyst : clear implicits.
Arguments pickled : clear implicits.
Arguments mkobj {T}. Arguments ob_iet {T}. Arguments ob_attr {T}.

(** * Programs: what can be reached from a new process. *)

Section Sessions.
Context {El : string -> Type} {ops : forall n, LenOps (El n)} {laws : forall n, LenLaws (El n)}.

(** Legal arguments of the constructor: positive lengths, an empty stack, a permutation of
    0, ..., n - 1. *)
Definition legal_iet (l : plen El) (permutation : list Z) : Prop :=
  sl_stack (pl_len l) = [] /\ (forall x, In x (sl_lens (pl_len l)) -> (0 < val x)%R) /\
  Permutation permutation (map Z.of_nat (seq 0 (length (sl_lens (pl_len l))))).

(** [session avail st]: a process in which the headers [avail] can be included can be in the
    state [st].  Pickles may come from any process. *)
Inductive session : (string -> bool) -> pyst El -> Prop :=
| s_start avail : session avail py_start
| s_lengths avail st n ls headers st' :
    session avail st -> py_lengths avail n ls headers st = Ok st' -> session avail st'
| s_touch avail st a l b ls stack :
    session avail st -> py_lens st = a ++ l :: b ->
    session avail (mkpy (a ++ touch l ls stack :: b) (py_groups st) (py_known st) (py_reg st))
| s_iet avail st k l p st' :
    session avail st -> nth_error (py_lens st) k = Some l -> legal_iet l p -> py_iet k p st = Ok st' -> session avail st'
| s_method avail st o g m st' :
    session avail st -> op_legal o -> py_method o g m st = Ok st' -> session avail st'
| s_dumps avail st order g m st' r :
    session avail st -> Permutation order (py_known st) -> py_dumps avail order g m st = (st', r) -> session avail st'
| s_loads avail st avail0 st0 order0 g m st0' p order st' b :
    session avail st -> session avail0 st0 -> Permutation order0 (py_known st0) ->
    py_dumps avail0 order0 g m st0 = (st0', Some p) ->
    Permutation order (pk_known p) -> py_loads avail order p st = (st', b) -> session avail st'.

(** [known_here st g]: the lengths of the group [g] have a type that the process has used
    itself (and not only seen in a pickle). *)
Definition known_here (st : pyst El) (n : string) : Prop := exists hs, In (cpp_name n, hs) (py_known st).

End Sessions.
