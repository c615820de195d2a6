(** Programs that use interval exchange transformations or decompositions, as far as they can
    be written down without fixing a number type.  Running such a program yields what it
    observes: the answers to its calls and the state in the end. *)
From Coq Require Import Reals Permutation.
From Verif Require Import Base QcTac LenT FM Subspace Lengths IET Decomp Spec Api.
Open Scope nat_scope.

(** Two runs either both return or fail in the same way. *)
Definition both {A B} (Q : A -> B -> Prop) (m : res A) (n : res B) : Prop :=
  match m, n with
  | Ok a, Ok b => Q a b
  | Throw, Throw | AssertFail, AssertFail | UB, UB | OutOfFuel, OutOfFuel => True
  | _, _ => False
  end.

(** * Programs on interval exchange transformations *)

(** What a call answers. *)
Inductive answer :=
| ans_nothing
| ans_found (found : bool)                                           (* zorichInduction *)
| ans_split (split : bool)                                           (* reduce *)
| ans_induce (result : iresult) (connection : option (label * label)) (* induce *)
| ans_saf_zero (zero : bool)                                         (* safInvariant, whether it vanishes *)
| ans_flag (flag : bool).                                            (* the Boshernitzan criteria *)

Section Programs.
Context {T : Type} {O : LenOps T}.

(** A call on one IET: the answer, the IET afterwards, the IETs split off, the lengths. *)
Definition call (o : op) (i : iet T) (s : slen T) : res (answer * iet T * list (iet T) * slen T) :=
  match o with
  | op_swap => Ok (ans_nothing, iet_swap i, [], s)
  | op_zorich => '(found, i, s) <- zorich sample_lens i s ;; Ok (ans_found found, i, [], s)
  | op_reduce =>
    '(r, i) <- reduce i s ;;
    Ok match r with Some j => (ans_split true, i, [j], s) | None => (ans_split false, i, [], s) end
  | op_induce fuel limit =>
    '(st, i, s) <- induce sample_lens fuel limit i s ;;
    Ok (ans_induce (is_result st) (is_connection st), i, match is_additional st with Some j => [j] | None => [] end, s)
  | op_saf => '(v, i) <- saf_invariant i s ;; Ok (ans_saf_zero (vis0 v), i, [], s)
  | op_bosh_periodic => '(b, i) <- bosh_no_periodic i s ;; Ok (ans_flag b, i, [], s)
  | op_bosh_saddle => b <- bosh_no_saddle i s ;; Ok (ans_flag b, i, [], s)
  | op_bosh_saddle2 t b => r <- bosh_no_saddle2 i s t b ;; Ok (ans_flag r, i, [], s)
  end.

(** A program is a list of calls, each on the IET with the given number; an IET that is split
    off comes behind the one it was split off from.  (Naming an IET that does not exist is
    an error.) *)
Fixpoint run (p : list (nat * op)) (pool : list (iet T)) (s : slen T) : res (list answer * list (iet T) * slen T) :=
  match p with
  | [] => Ok ([], pool, s)
  | (n, o) :: p' =>
    match nth_error pool n with
    | None => UB
    | Some i =>
      '(a, i', extra, s') <- call o i s ;;
      '(rest, pool', t) <- run p' (firstn n pool ++ i' :: extra ++ skipn (Datatypes.S n) pool) s' ;;
      Ok (a :: rest, pool', t)
    end
  end.

(** The labels in the rows of an IET. *)
Definition rows (i : iet T) : list label * list label := (i_top i, i_bottom i).

(** ** Programs on decompositions *)

(** What a callback of [decompose] sees of a component, apart from its lengths. *)
Record look := mklook {
  lk_top : list (label * list connection * list connection);
  lk_bottom : list (label * list connection * list connection);
  lk_cylinder : option bool;
  lk_wpt : option bool;
  lk_keane : option bool;
}.
Definition look_at (v : cview T) : look := mklook (cv_top v) (cv_bottom v) (cv_cylinder v) (cv_wpt v) (cv_keane v).
End Programs.

(** Calls on a decomposition: a step on a component, [decompose], [inject]. *)
Inductive dcall :=
| dc_step (fuel : nat) (limit : Z) (c : nat)
| dc_decompose (rounds fuel : nat) (target : look -> bool) (limit : Z)
| dc_inject (e : hedge) (left right : list (label * label)).

(** Arguments that fit the C++ types. *)
Definition dcall_legal (k : dcall) : Prop :=
  match k with
  | dc_step _ limit _ | dc_decompose _ _ _ limit => (- INT_MAX - 1 <= limit <= INT_MAX)%Z
  | dc_inject _ _ _ => True
  end.

Inductive danswer :=
| dans_step (st : dstep)
| dans_decompose (ok : bool)
| dans_inject (left right : list connection).

Section DecPrograms.
Context {T : Type} {O : LenOps T}.

Definition do_dcall (k : dcall) (d : decomp T) : res (danswer * decomp T) :=
  match k with
  | dc_step fuel limit c => '(st, d) <- decomposition_step fuel limit c d ;; Ok (dans_step st, d)
  | dc_decompose rounds fuel target limit =>
    '(ok, d) <- decompose rounds fuel (fun v => target (look_at v)) limit d ;; Ok (dans_decompose ok, d)
  | dc_inject e ls rs => '(l, r, d) <- inject d e ls rs ;; Ok (dans_inject l r, d)
  end.

Fixpoint drun (p : list dcall) (d : decomp T) : res (list danswer * decomp T) :=
  match p with
  | [] => Ok ([], d)
  | k :: p' => '(a, d) <- do_dcall k d ;; '(rest, d) <- drun p' d ;; Ok (a :: rest, d)
  end.

(** All components of a decomposition as one can see them. *)
Definition views (d : decomp T) : res (list (cview T)) := mapM (comp_view d) (seq 0 (length (d_comps d))).
End DecPrograms.

(** ** Whole programs *)

Section Whole.
Context {T : Type} {O : LenOps T}.

(** Construct an IET and run a program on it. *)
Definition session (top bottom : list label) (p : list (nat * op)) (s : slen T) : res (list answer * list (iet T) * slen T) :=
  i <- iet_make s top bottom ;; run p [i] s.

(** Do so, then decompose the IET with number [n] by a second program and look at the
    components. *)
Definition decomposing (top bottom : list label) (p : list (nat * op)) (n : nat) (q : list dcall) (s : slen T)
  : res (list answer * list danswer * list (cview T)) :=
  '(a, pool, s) <- session top bottom p s ;;
  match nth_error pool n with
  | None => UB
  | Some i => d <- dec_make i s ;; '(b, d) <- drun q d ;; v <- views d ;; Ok (a, b, v)
  end.
End Whole.

(** ** Lengths with the same ratios *)

Section Proportional.
Context {T : Type} {O : LenOps T} {W : LenLaws T}.
Context {T' : Type} {O' : LenOps T'} {W' : LenLaws T'}.

(** The lengths in [s'] of the given labels are [c] times their lengths in [s]. *)
Definition proportional (c : R) (ls : list label) (s : slen T) (s' : slen T') : Prop :=
  forall l, In l ls -> lamR s' l = (c * lamR s l)%R.

(** Two components look the same, up to the scale. *)
Definition same_view (c : R) (v : cview T) (v' : cview T') : Prop :=
  look_at v' = look_at v /\ Forall2 (fun x y => val y = (c * val x)%R) (cv_lengths v) (cv_lengths v').
End Proportional.
