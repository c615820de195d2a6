(** Model of [RationalAffineSubspace] (src/rational_affine_subspace.cc,
    src/impl/rational_affine_subspace.hpp).

    The polyhedra of the Parma Polyhedra Library are represented by a list of linear
    constraints; the queries the code makes (emptiness, boundedness, unboundedness of
    an objective, equality, affine images, lines of a cone) are answered with the
    verified procedure of [FM].  That PPL answers these queries correctly is part of
    the trusted base. *)
From Verif Require Import Base QcTac LenT FM.

Definition zq (z : Z) : Qc := Q2Qc (inject_Z z).
Definition qden (q : Qc) : Z := Zpos (Qden (this q)).
Definition qnum (q : Qc) : Z := Qnum (this q).

(** PPL's [NNC_Polyhedron]: a space dimension and constraints. *)
Record poly := mkpoly { p_dim : nat; p_cs : list cstr }.

(** The point set of a polyhedron. *)
Definition p_mem (p : poly) (x : vec) : Prop := length x = p_dim p /\ Forall (sat x) (p_cs p).

(** rational_affine_subspace.cc 59-77: multiply a vector and a right-hand side by the
    least common multiple of the denominators. *)
Definition lin_expr (v : vec) (rhs : Qc) : res (vec * Qc) :=
  let den := fold_left (fun d c => Z.lcm d (qden c)) v (qden rhs) in
  lin <- mapM (fun x => let num := (zq den * x)%Qc in
                        assert_ (qden num =? 1)%Z (Ok (zq (qnum num)))) v ;;
  let rhs' := (rhs * zq den)%Qc in
  assert_ (qden rhs' =? 1)%Z (Ok (lin, rhs')).

(** A [RationalAffineSubspace]; fields of src/impl/rational_affine_subspace.hpp. *)
Record ras := mkras { r_sub : poly; r_homog : bool }.

(** rational_affine_subspace.cc 82: the default constructor. *)
Definition ras_default : ras := mkras (mkpoly 0 []) true.

Definition max_dim (vs : list vec) : nat := fold_right Nat.max 0 (map (@length Qc) vs).

Fixpoint ras_constraints (eqs : list vec) (y : vec) : res (list cstr) :=
  match eqs, y with
  | e :: eqs', k :: y' =>
    '(lin, rhs) <- lin_expr e k ;;
    cs <- ras_constraints eqs' y' ;;
    Ok (eq_cstr lin (zq (qnum rhs)) ++ cs)
  | _, _ => Ok []
  end.

(** rational_affine_subspace.cc 96-107: the space of solutions of [equations . x = y].
    PPL's convention on dimensions: the dimension of the space is the maximal
    dimension of a constraint, i.e. the length of the longest row. *)
Definition ras_equations (eqs : list vec) (y : vec) : res ras :=
  check_ (length eqs =? length y) (
    cs <- ras_constraints eqs y ;;
    Ok (mkras (mkpoly (max_dim eqs) cs) (forallb (fun k => qc_eqb k 0) y))).

(** The [i]-th unit vector. *)
Definition unitv (i : nat) : vec := vzero i ++ [1%Qc].

(** Eliminate the first [k] variables (PPL: projection). *)
Fixpoint project (k : nat) (cs : list cstr) : list cstr :=
  match k with
  | O => cs
  | S k' => project k' (eliminate cs)
  end.

(** PPL's conversion of a system of lines through the origin to constraints: the set of
    [x] of length [d] that are linear combinations of [lines]. *)
Definition span_cs (d : nat) (lines : list vec) : list cstr :=
  project (length lines)
    (flat_map (fun i => eq_cstr (map (fun g => nth i g 0%Qc) lines ++ vneg (unitv i)) 0%Qc) (seq 0 d)).

(** rational_affine_subspace.cc 84-94: the space spanned by generators. *)
Definition ras_generators (gens : list vec) : res ras :=
  lines <- mapM (fun g => '(lin, _) <- lin_expr g 0%Qc ;; Ok lin) gens ;;
  let lines := filter (fun l => negb (vis0 l)) lines in
  Ok (mkras (mkpoly (max_dim lines) (span_cs (max_dim lines) lines)) true).

(** rational_affine_subspace.cc 109-116 *)
Definition positive (d : nat) : list cstr := map (fun i => mkcstr true (unitv i) 0%Qc) (seq 0 d).
(** rational_affine_subspace.cc 118-125 *)
Definition non_negative (d : nat) : list cstr := map (fun i => mkcstr false (unitv i) 0%Qc) (seq 0 d).

(** PPL: is the linear objective unbounded from above on a polyhedron?  Introduce a
    variable for the objective, eliminate all others, and look for an upper bound. *)
Definition embed_cstr (d : nat) (c : cstr) : cstr :=
  mkcstr (c_strict c) (firstn d (c_coef c)) (c_const c).
Definition unbounded (d : nat) (cs : list cstr) (obj : vec) : bool :=
  let cs1 := project d (map (embed_cstr d) cs ++ eq_cstr (vneg obj ++ [1%Qc]) 0%Qc) in
  feasible 1 cs1 && forallb (fun c => negb (is_upper c)) cs1.

Definition ones (d : nat) : vec := repeat 1%Qc d.
(** The [i]-th unit vector of dimension [d]. *)
Definition unitd (d i : nat) : vec := map (fun k => if Nat.eqb k i then 1%Qc else 0%Qc) (seq 0 d).

(** rational_affine_subspace.cc 138-141: [!polyhedron.is_bounded()] for the intersection
    with the non-negative orthant. *)
Definition nznn_polyhedron (r : ras) : res bool :=
  if negb (r_homog r) then Throw
  else if p_dim (r_sub r) =? 0 then Ok false
  else Ok (existsb (fun i => unbounded (p_dim (r_sub r))
                                       (p_cs (r_sub r) ++ non_negative (p_dim (r_sub r)))
                                       (unitd (p_dim (r_sub r)) i))
                   (seq 0 (p_dim (r_sub r)))).

(** PPL: does the cone generated by some rays contain a line, i.e. [v] and [-v] for some
    [v <> 0]?  Variables are two lists of non-negative multipliers [c], [d] with
    [sum c_i r_i = v] and [sum d_i r_i = -v]. *)
Definition cone_has_line (m : nat) (rays : list vec) : bool :=
  let n := length rays in
  let row j := map (fun r => nth j r 0%Qc) rays in
  existsb (fun j =>
    feasible (n + n)
      (non_negative (n + n)
       ++ flat_map (fun j => eq_cstr (row j ++ row j) 0%Qc) (seq 0 m)
       ++ [mkcstr true (row j) 0%Qc]))
    (seq 0 m).

(** rational_affine_subspace.cc 142-167.  [equations] is what PPL's
    [minimized_constraints()] returns: left-hand sides of homogeneous equations
    defining the subspace. *)
Definition nznn_quotient (r : ras) (equations : list vec) : res bool :=
  if negb (r_homog r) then Throw
  else if p_dim (r_sub r) =? 0 then Ok false
  else match equations with
       | [] => Ok true
       | _ =>
         let rays := map (fun i => map (fun e => nth i e 0%Qc) equations) (seq 0 (p_dim (r_sub r))) in
         if existsb vis0 rays then Ok true
         else Ok (cone_has_line (length equations) rays)
       end.

(** rational_affine_subspace.cc 168-188: maximize the sum of the coordinates over the
    non-negative integer points; PPL's MIP solver reports [UNBOUNDED_MIP_PROBLEM]. *)
Definition nznn_mip (r : ras) : res bool :=
  if negb (r_homog r) then Throw
  else if p_dim (r_sub r) =? 0 then Ok false
  else Ok (unbounded (p_dim (r_sub r)) (non_negative (p_dim (r_sub r)) ++ p_cs (r_sub r))
                     (ones (p_dim (r_sub r)))).

(** rational_affine_subspace.cc 127-136: the default is the MIP implementation. *)
Definition nznn (r : ras) : res bool :=
  if negb (r_homog r) then Throw else nznn_mip r.

(** rational_affine_subspace.cc 194-198 *)
Definition has_nonneg (r : ras) : bool :=
  feasible (p_dim (r_sub r)) (p_cs (r_sub r) ++ non_negative (p_dim (r_sub r))).

(** rational_affine_subspace.cc 200-208 *)
Definition has_pos (r : ras) : bool :=
  if p_dim (r_sub r) =? 0 then false
  else feasible (p_dim (r_sub r)) (p_cs (r_sub r) ++ positive (p_dim (r_sub r))).

(** Negation of a constraint, to decide inclusion of polyhedra. *)
Definition neg_cstr (c : cstr) : cstr :=
  mkcstr (negb (c_strict c)) (vneg (c_coef c)) (- c_const c)%Qc.
Definition p_subset (p q : poly) : bool :=
  forallb (fun c => negb (feasible (p_dim p) (p_cs p ++ [neg_cstr c]))) (p_cs q).

(** rational_affine_subspace.cc 210-212: PPL's equality of polyhedra. *)
Definition ras_eqb (r s : ras) : bool :=
  (p_dim (r_sub r) =? p_dim (r_sub s)) && p_subset (r_sub r) (r_sub s) && p_subset (r_sub s) (r_sub r).

(** rational_affine_subspace.cc 48-57: where [SwapDimensions{dimension, i, j}] sends a
    dimension. *)
Definition swap_maps (i j x : nat) : nat := if x =? i then j else i.

(** PPL's [map_space_dimensions] requires an injective map of dimensions into
    [0, max_in_codomain]; otherwise the result is undefined. For an injective map,
    dimension [x] is renamed [f x]. *)
Definition map_space_dimensions (p : poly) (f : nat -> nat) : res poly :=
  let img := map f (seq 0 (p_dim p)) in
  if nodupb img && forallb (fun y => y <? p_dim p) img then
    Ok (mkpoly (p_dim p)
         (map (fun c => mkcstr (c_strict c)
                 (fold_right vaddp [] (map (fun x => vscale (nth x (c_coef c) 0%Qc) (unitv (f x)))
                                           (seq 0 (p_dim p))))
                 (c_const c)) (p_cs p)))
  else UB.

(** rational_affine_subspace.cc 214-216; [numeric_cast<size_t>] throws on negative
    arguments. *)
Definition ras_swap (r : ras) (i j : Z) : res ras :=
  check_ ((0 <=? i)%Z && (0 <=? j)%Z) (
    p <- map_space_dimensions (r_sub r) (swap_maps (Z.to_nat i) (Z.to_nat j)) ;;
    Ok (mkras p (r_homog r))).

(** PPL's [affine_image]: the image of the polyhedron under [x_i := x_i + c * x_j].
    Old coordinates are the first [d] variables, new ones the last [d]. *)
Definition image_rows (d i j : nat) (c : Qc) : list cstr :=
  flat_map (fun k =>
    eq_cstr (map (fun l => ((if Nat.eqb l k then 1 else 0) +
                            (if Nat.eqb k i then (if Nat.eqb l j then c else 0) else 0))%Qc) (seq 0 d)
             ++ vneg (unitv k)) 0%Qc) (seq 0 d).
Definition affine_image (p : poly) (i j : nat) (c : Qc) : poly :=
  mkpoly (p_dim p)
    (project (p_dim p) (map (embed_cstr (p_dim p)) (p_cs p) ++ image_rows (p_dim p) i j c)).

(** rational_affine_subspace.cc 218-220; PPL throws if a variable is not a dimension of
    the space. *)
Definition ras_elementary (r : ras) (i j : Z) (c : Qc) : res ras :=
  check_ ((0 <=? i)%Z && (0 <=? j)%Z && (Z.to_nat i <? p_dim (r_sub r)) && (Z.to_nat j <? p_dim (r_sub r))) (
    Ok (mkras (affine_image (r_sub r) (Z.to_nat i) (Z.to_nat j) c) (r_homog r))).
