(** Model of [DynamicalDecomposition], [Component], [HalfEdge], [Connection],
    [Separatrix] and [LengthsWithConnections] (src/dynamical_decomposition.cc,
    src/component.cc, src/half_edge.cc, src/connection.cc, src/separatrix.cc,
    src/lengths_with_connections.cc, src/impl/decomposition_state.hpp). *)
From Verif Require Import Base QcTac LenT FM Subspace Lengths IET.

(** * State *)

(** decomposition_state.hpp 42-50 *)
Inductive orientation := PARALLEL | ANTIPARALLEL.
Record separatrix := mksep { sp_label : label; sp_orient : orientation }.

(** decomposition_state.hpp 52-55 *)
Record connection := mkconn { cn_source : separatrix; cn_target : separatrix }.

(** decomposition_state.hpp 57-62 *)
Record conns := mkconns {
  topLeft : list connection;
  topRight : list connection;
  bottomLeft : list connection;
  bottomRight : list connection;
}.
Definition no_conns : conns := mkconns [] [] [] [].

Definition orient_eqb (a b : orientation) : bool :=
  match a, b with PARALLEL, PARALLEL => true | ANTIPARALLEL, ANTIPARALLEL => true | _, _ => false end.

(** separatrix.cc 34-44 *)
Definition sep_parallel (s : separatrix) : bool := orient_eqb (sp_orient s) PARALLEL.
Definition sep_eqb (a b : separatrix) : bool :=
  Nat.eqb (sp_label a) (sp_label b) && orient_eqb (sp_orient a) (sp_orient b).

(** connection.cc 40-57 (separatrices of different decompositions are identified, see the
    comment there; a model state holds one decomposition) *)
Definition conn_eqb (a b : connection) : bool :=
  sep_eqb (cn_source a) (cn_source b) && sep_eqb (cn_target a) (cn_target b).
Definition conn_parallel (c : connection) : bool := sep_parallel (cn_source c).
Definition conn_neg (c : connection) : connection := mkconn (cn_target c) (cn_source c).

(** A half edge (src/impl/half_edge.impl.hpp): the component it was created for, its
    label and whether it is in the top contour. *)
Record hedge := mkhe { he_comp : nat; he_label : label; he_top : bool }.

(** half_edge.cc 118-123 *)
Definition he_neg (e : hedge) : hedge := mkhe (he_comp e) (he_label e) (negb (he_top e)).

(** [Side], the variant of intervalxt/component.hpp *)
Inductive side :=
| SConn (c : connection)
| SEdge (e : hedge).

(** intervalxt/decomposition_step.hpp; KEANE is never produced *)
Inductive dresult :=
| D_LIMIT_REACHED
| D_CYLINDER
| D_SEPARATING_CONNECTION
| D_NON_SEPARATING_CONNECTION
| D_WITHOUT_PERIODIC_TRAJECTORY_BOSHERNITZAN
| D_WITHOUT_PERIODIC_TRAJECTORY_AUTO_SIMILAR
| D_KEANE.

Record dstep := mkdstep {
  dst_result : dresult;
  dst_connection : option connection;
  dst_equivalent : option (list side);
  dst_additional : option nat;
}.

Section Decomp.
Context {T : Type} {O : LenOps T}.

(** decomposition_state.hpp 34-40; a tribool is an [option bool]. *)
Record dcomp := mkdcomp {
  dc_iet : iet T;
  dc_cylinder : option bool;
  dc_wpt : option bool;
  dc_keane : option bool;
}.

(** The whole state: the lengths object of the caller's IET that is shared
    ([LengthsWithConnections::lengths]), the stack of [LengthsWithConnections], the map of
    connections (its keys and their values) and the components.  A [Component] of the
    public interface is an index into [d_comps] (the C++ pointer into a deque, whose
    elements never move). *)
Record decomp := mkdecomp {
  d_len : slen T;
  d_stack : list label;
  d_keys : list label;
  d_conns : label -> conns;
  d_comps : list dcomp;
}.

Definition set_comps (d : decomp) (cs : list dcomp) : decomp :=
  mkdecomp (d_len d) (d_stack d) (d_keys d) (d_conns d) cs.
Definition set_conns (d : decomp) (f : label -> conns) : decomp :=
  mkdecomp (d_len d) (d_stack d) (d_keys d) f (d_comps d).
Definition set_lens (d : decomp) (s : slen T) (st : list label) : decomp :=
  mkdecomp s st (d_keys d) (d_conns d) (d_comps d).

(** Assignment to one entry of the map. *)
Definition upd (f : label -> conns) (l : label) (c : conns) : label -> conns :=
  fun x => if Nat.eqb x l then c else f x.

(** implementation_of_decomposition.cc 41-47: [connections.at(label)]. *)
Definition conns_at (d : decomp) (l : label) : res conns :=
  if memb l (d_keys d) then Ok (d_conns d l) else Throw.

(** Dereferencing the component pointer. *)
Definition comp_at (d : decomp) (c : nat) : res dcomp :=
  match nth_error (d_comps d) c with Some x => Ok x | None => UB end.
Definition comp_set (d : decomp) (c : nat) (x : dcomp) : res decomp :=
  match set_nth c x (d_comps d) with Some cs => Ok (set_comps d cs) | None => UB end.
Definition iet_set (x : dcomp) (i : iet T) : dcomp := mkdcomp i (dc_cylinder x) (dc_wpt x) (dc_keane x).

(** * LengthsWithConnections *)

(** lengths_with_connections.cc 61-62, for one component: its first top label is the
    minuend and it is not swapped.  (The IET of a component is never empty.) *)
Definition on_top (m : label) (v : view) : bool :=
  match fst v with x :: _ => Nat.eqb x m && negb (snd v) | [] => false end.

(** The components as seen by lengths_with_connections.cc 61-62 while the IET of component
    [c] is being modified and currently looks like [v]. *)
Fixpoint views_with (c : nat) (v : view) (cs : list dcomp) : list view :=
  match cs, c with
  | [], _ => []
  | _ :: cs', 0 => v :: map (fun x => i_view (dc_iet x)) cs'
  | x :: cs', S c' => i_view (dc_iet x) :: views_with c' v cs'
  end.

(** lengths_with_connections.cc 57-79.  Splicing a list into itself is undefined. *)
Definition conn_subtract (onTop : bool) (m sub : label) (f : label -> conns) : res (label -> conns) :=
  if Nat.eqb m sub then UB
  else
    let cs := f sub in
    let cm := f m in
    let cs' :=
      if onTop then mkconns (topLeft cs) (topRight cs) (bottomLeft cs ++ topLeft cm ++ bottomLeft cm) (bottomRight cs)
      else mkconns (topLeft cm ++ bottomLeft cm ++ topLeft cs) (topRight cs) (bottomLeft cs) (bottomRight cs) in
    let cm' := mkconns [] (topRight cm) [] (bottomRight cm) in
    Ok (upd (upd f sub cs') m cm').

Definition lwc_subtract2 (c : nat) (v : view) (m sub : label) (d : decomp) : res decomp :=
  let onTop := existsb (on_top m) (views_with c v (d_comps d)) in
  _ <- conns_at d sub ;;
  _ <- conns_at d m ;;
  f <- conn_subtract onTop m sub (d_conns d) ;;
  Ok (set_conns d f).

(** lengths_with_connections.cc 36-40 *)
Definition lwc_push (l : label) (d : decomp) : res decomp :=
  assert_ (negb (memb l (d_stack d))) (Ok (set_lens d (sl_push l (d_len d)) (d_stack d ++ [l]))).

(** lengths_with_connections.cc 42-46 *)
Definition lwc_pop (d : decomp) : res decomp :=
  assert_ (negb (length (d_stack d) =? 0)) (
    s <- sl_pop (d_len d) ;; Ok (set_lens d s (removelast (d_stack d)))).

(** lengths_with_connections.cc 48-55 *)
Definition lwc_subtract (c : nat) (v : view) (m : label) (d : decomp) : res decomp :=
  match d_stack d with
  | [] => Ok d
  | sub :: _ =>
    s <- sl_subtract m (d_len d) ;;
    d <- lwc_subtract2 c v m sub (set_lens d s (d_stack d)) ;;
    Ok (set_lens d (d_len d) [])
  end.

(** lengths_with_connections.cc 81-90 *)
Definition lwc_subrep (c : nat) (v : view) (m : label) (d : decomp) : res (label * decomp) :=
  match d_stack d with
  | [] => AssertFail
  | sub :: _ =>
    '(r, s) <- sl_subrep m (d_len d) ;;
    d <- lwc_subtract2 c v m sub (set_lens d s (d_stack d)) ;;
    Ok (r, set_lens d (d_len d) [])
  end.

(** lengths_with_connections.cc 36-122: the lengths object shared by the components, as
    seen by the IET of component [c].  [get], [coefficients], [only], [forget] and
    [similar] are answered by the wrapped lengths (lines 92-122). *)
Definition dec_lens (c : nat) : lens T decomp :=
  mklens lwc_push lwc_pop
         (fun d => sl_cmp1 (d_len d)) (fun d => sl_cmp2 (d_len d))
         (lwc_subtract c) (lwc_subrep c) d_len.

(** * Construction *)

(** dynamical_decomposition.cc 45-56 with iet.cc 486-488: the IET of the only component is
    constructed from the rows and the (shared) lengths of the given one; it is not
    swapped.  Then one (empty) entry per label is put in the map. *)
Definition dec_make (i : iet T) (s : slen T) : res decomp :=
  j <- iet_make s (i_top i) (i_bottom i) ;;
  Ok (mkdecomp s [] (i_top i) (fun _ => no_conns) [mkdcomp j None None None]).

(** * Contours and half edges *)

(** component.cc 92-106 *)
Definition top_contour (d : decomp) (c : nat) : res (list hedge) :=
  x <- comp_at d c ;;
  let i := dc_iet x in
  Ok (map (fun l => mkhe c l true) (if i_swap i then i_bottom i else i_top i)).
Definition bottom_contour (d : decomp) (c : nat) : res (list hedge) :=
  x <- comp_at d c ;;
  let i := dc_iet x in
  Ok (map (fun l => mkhe c l false) (if i_swap i then i_top i else i_bottom i)).

(** half_edge.cc 48-54 (within one decomposition) *)
Definition he_eqb (a b : hedge) : res bool :=
  if Nat.eqb (he_label a) (he_label b) then
    assert_ (Nat.eqb (he_comp a) (he_comp b)) (Ok (Bool.eqb (he_top a) (he_top b)))
  else Ok false.

Fixpoint he_find (e : hedge) (l : list hedge) : res bool :=
  match l with
  | [] => Ok false
  | x :: l' => b <- he_eqb x e ;; if (b : bool) then Ok true else he_find e l'
  end.

(** half_edge.cc 103-116 *)
Definition he_component (d : decomp) (e : hedge) : res nat :=
  l <- (if he_top e then top_contour d (he_comp e) else bottom_contour d (he_comp e)) ;;
  b <- he_find e l ;;
  assert_ b (Ok (he_comp e)).

(** half_edge.cc 79-93 *)
Definition he_left (d : decomp) (e : hedge) : res (list connection) :=
  c <- conns_at d (he_label e) ;; Ok (if he_top e then topLeft c else bottomLeft c).
Definition he_right (d : decomp) (e : hedge) : res (list connection) :=
  c <- conns_at d (he_label e) ;; Ok (if he_top e then topRight c else bottomRight c).

(** half_edge.cc 60-77 *)
Definition he_cross (d : decomp) (e : hedge) : res (list side) :=
  l <- he_left d e ;; r <- he_right d e ;;
  Ok (if he_top e then map SConn r ++ [SEdge e] ++ rev (map SConn l)
      else rev (map SConn l) ++ [SEdge e] ++ map SConn r).

(** component.cc 426-442: [next] and [previous] search the row [top()] or [bottom()] of the
    IET (they do not look at [swapped()]). *)
Definition he_next (d : decomp) (e : hedge) : res (option hedge) :=
  x <- comp_at d (he_comp e) ;;
  match split_at (he_label e) (if he_top e then i_top (dc_iet x) else i_bottom (dc_iet x)) with
  | None => AssertFail
  | Some (_, []) => Ok None
  | Some (_, l :: _) => Ok (Some (mkhe (he_comp e) l (he_top e)))
  end.
Definition he_previous (d : decomp) (e : hedge) : res (option hedge) :=
  x <- comp_at d (he_comp e) ;;
  match split_at (he_label e) (if he_top e then i_top (dc_iet x) else i_bottom (dc_iet x)) with
  | None => AssertFail
  | Some (p, _) =>
    Ok (match rev p with [] => None | l :: _ => Some (mkhe (he_comp e) l (he_top e)) end)
  end.

(** separatrix.cc 58-66 and 68-76: skip over the connections that are collapsed at the
    right end of a half edge. *)
Fixpoint skip_top (l : label) (cs : list connection) : res separatrix :=
  match cs with
  | [] => Ok (mksep l ANTIPARALLEL)
  | c :: cs' =>
    assert_ (sep_eqb (mksep l ANTIPARALLEL) (cn_target c)) (skip_top (sp_label (cn_source c)) cs')
  end.
Definition sep_at_top (d : decomp) (l : label) : res separatrix :=
  c <- conns_at d l ;; skip_top l (rev (topRight c)).
Fixpoint skip_bottom (l : label) (cs : list connection) : res separatrix :=
  match cs with
  | [] => Ok (mksep l PARALLEL)
  | c :: cs' =>
    assert_ (sep_eqb (mksep l PARALLEL) (cn_source c)) (skip_bottom (sp_label (cn_target c)) cs')
  end.
Definition sep_at_bottom (d : decomp) (l : label) : res separatrix :=
  c <- conns_at d l ;; skip_bottom l (bottomRight c).

(** half_edge.cc 125-132 *)
Definition he_separatrix (d : decomp) (e : hedge) : res (option separatrix) :=
  n <- he_next d e ;;
  match n with
  | None => Ok None
  | Some _ =>
    s <- (if he_top e then sep_at_top d (he_label e) else sep_at_bottom d (he_label e)) ;; Ok (Some s)
  end.

(** * Perimeters *)

Definition hd_label (l : list label) : res label := match l with x :: _ => Ok x | [] => UB end.

(** component.cc 54-61 and 63-70 *)
Definition comp_left (d : decomp) (c : nat) : res (list side) :=
  x <- comp_at d c ;;
  let i := dc_iet x in
  b <- hd_label (if i_swap i then i_top i else i_bottom i) ;;
  t <- hd_label (if i_swap i then i_bottom i else i_top i) ;;
  cb <- conns_at d b ;; ct <- conns_at d t ;;
  Ok (rev (map SConn (bottomLeft cb ++ topLeft ct))).
Definition comp_right (d : decomp) (c : nat) : res (list side) :=
  x <- comp_at d c ;;
  let i := dc_iet x in
  b <- hd_label (rev (if i_swap i then i_top i else i_bottom i)) ;;
  t <- hd_label (rev (if i_swap i then i_bottom i else i_top i)) ;;
  cb <- conns_at d b ;; ct <- conns_at d t ;;
  Ok (map SConn (bottomRight cb ++ topRight ct)).

(** component.cc 303-319: the loop of [horizontal]; [first] tells whether [edge] is the
    first one. *)
Fixpoint horizontal_loop (d : decomp) (top first : bool) (es : list hedge) : res (list side) :=
  match es with
  | [] => Ok []
  | e :: es' =>
    c <- conns_at d (he_label e) ;;
    rest <- horizontal_loop d top false es' ;;
    let before := if first then [] else if top then topLeft c else rev (bottomLeft c) in
    let behind := match es' with [] => [] | _ => if top then rev (topRight c) else bottomRight c end in
    Ok (map SConn before ++ [SEdge e] ++ map SConn behind ++ rest)
  end.

(** component.cc 293-324 and 72-78 *)
Definition comp_bottom (d : decomp) (c : nat) : res (list side) :=
  es <- bottom_contour d c ;; horizontal_loop d false true es.
Definition comp_top (d : decomp) (c : nat) : res (list side) :=
  es <- top_contour d c ;; r <- horizontal_loop d true true es ;; Ok (rev r).

(** Equality of sides, [std::variant::operator==]. *)
Definition side_eqb (a b : side) : res bool :=
  match a, b with
  | SConn x, SConn y => Ok (conn_eqb x y)
  | SEdge x, SEdge y => he_eqb x y
  | _, _ => Ok false
  end.

Fixpoint side_find (a : side) (l : list side) : res bool :=
  match l with
  | [] => Ok false
  | x :: l' => b <- side_eqb x a ;; if (b : bool) then Ok true else side_find a l'
  end.

(** Number of distinct sides, the size of the [unordered_set]. *)
Fixpoint side_distinct (l : list side) : res nat :=
  match l with
  | [] => Ok 0
  | x :: l' => n <- side_distinct l' ;; b <- side_find x l' ;; Ok (if (b : bool) then n else S n)
  end.

(** component.cc 46-52 *)
Definition comp_perimeter (d : decomp) (c : nat) : res (list side) :=
  b <- comp_bottom d c ;; r <- comp_right d c ;; t <- comp_top d c ;; l <- comp_left d c ;;
  let p := b ++ r ++ t ++ l in
  n <- side_distinct p ;;
  assert_ (n =? length p) (Ok p).

(** component.cc 373-386: the sides across a half edge in clockwise order; half edges are
    not reversed. *)
Definition side_back (s : side) : side :=
  match s with SConn c => SConn (conn_neg c) | SEdge e => SEdge e end.
Definition backwards (l : list side) : list side := map side_back (rev l).

(** component.cc 359-424.  [rbegin]/[begin] of an empty contour would be undefined; a
    contour is never empty.  One round of the loops at 373 and 398 is a recursive call
    here, which repeats the (then always satisfied) assertion of line 360. *)
Fixpoint walk_clockwise (fuel : nat) (d : decomp) (from to : hedge) : res (list side) :=
  match fuel with
  | 0 => OutOfFuel
  | S fuel' =>
    c <- he_component d from ;; c' <- he_component d to ;;
    assert_ (Nat.eqb c c') (
    tops <- top_contour d c ;; bots <- bottom_contour d c ;;
    if negb (he_top from) && he_top to then
      match bots, tops with
      | b :: _, t :: _ =>
        x <- walk_clockwise fuel' d from b ;; y <- walk_clockwise fuel' d t to ;; Ok (x ++ y)
      | _, _ => UB
      end
    else if he_top from && negb (he_top to) then
      match rev bots, rev tops with
      | b :: _, t :: _ =>
        x <- walk_clockwise fuel' d from t ;; y <- walk_clockwise fuel' d b to ;; Ok (x ++ y)
      | _, _ => UB
      end
    else
      cr <- he_cross d from ;;
      eq <- he_eqb from to ;;
      if (eq : bool) then Ok (backwards cr)
      else
        n <- (if he_top from then he_next d from else he_previous d from) ;;
        match n with
        | Some n => y <- walk_clockwise fuel' d n to ;; Ok (backwards cr ++ y)
        | None =>
          match (if he_top from then rev bots else tops) with
          | [] => UB
          | f :: _ => y <- walk_clockwise fuel' d f to ;; Ok (backwards cr ++ y)
          end
        end)
  end.

(** * decompositionStep *)

(** component.cc 344-356; [safInvariant] fills the cache of the IET. *)
Definition bosh_cost (i : iet T) (base : slen T) : res (option Z * iet T) :=
  '(v, i) <- saf_invariant i base ;;
  Ok (if vis0 v then None else Some 64%Z, i).

(** component.cc 186-201 *)
Fixpoint step_loop (rounds fuel : nat) (cost : option Z) (limit : Z) (c : nat) (d : decomp)
  : res (istep T * decomp) :=
  match rounds with
  | 0 => OutOfFuel
  | S rounds' =>
    let steps := match cost with
                 | Some k => if (limit <? 2 * k)%Z then limit else k
                 | None => limit
                 end in
    let limit := (limit - steps)%Z in
    x <- comp_at d c ;;
    '(st, i, d) <- induce (dec_lens c) fuel steps (dc_iet x) d ;;
    d <- comp_set d c (iet_set x i) ;;
    match is_result st with
    | LIMIT_REACHED => if (limit =? 0)%Z then Ok (st, d) else step_loop rounds' fuel cost limit c d
    | _ => Ok (st, d)
    end
  end.

(** component.cc 330-342 *)
Definition register_separating (d : decomp) (l : nat) (sep : connection) (r : nat) : res decomp :=
  assert_ (conn_parallel sep) (
  assert_ (negb (Nat.eqb l r)) (
  x <- comp_at d l ;; y <- comp_at d r ;;
  b <- hd_label (rev (i_bottom (dc_iet x))) ;;
  cb <- conns_at d b ;;
  let d := set_conns d (upd (d_conns d) b
             (mkconns (topLeft cb) (topRight cb) (bottomLeft cb) (bottomRight cb ++ [sep]))) in
  b' <- hd_label (i_bottom (dc_iet y)) ;;
  cb' <- conns_at d b' ;;
  let d := set_conns d (upd (d_conns d) b'
             (mkconns (topLeft cb') (topRight cb') (bottomLeft cb' ++ [conn_neg sep]) (bottomRight cb'))) in
  p <- comp_right d l ;;
  assert_ (negb (length p =? 0)) (
  q <- comp_left d r ;;
  assert_ (negb (length q =? 0)) (Ok d)))).

(** component.cc 213-227 with dynamical_decomposition.cc 76-85 *)
Definition step_separating (fuel : nat) (c : nat) (b t : label) (j : iet T) (d : decomp) : res (dstep * decomp) :=
  bots <- bottom_contour d c ;; tops <- top_contour d c ;;
  lb <- hd_label (map he_label (rev bots)) ;; lt <- hd_label (map he_label (rev tops)) ;;
  eq <- walk_clockwise fuel d (he_neg (mkhe c lb true)) (mkhe c lt true) ;;
  src <- sep_at_bottom d b ;; tgt <- sep_at_top d t ;;
  let conn := mkconn src tgt in
  let r := length (d_comps d) in
  let d := set_comps d (d_comps d ++ [mkdcomp j None None None]) in
  d <- register_separating d c conn r ;;
  Ok (mkdstep D_SEPARATING_CONNECTION (Some conn) (Some eq) (Some r), d).

(** component.cc 252-267 *)
Definition merge_conns (b t first : label) (conn : connection) (f : label -> conns) : label -> conns :=
  let cb := f b in
  let f := upd f b (mkconns (topLeft cb) (topRight cb) (bottomLeft cb) (bottomRight cb ++ [conn])) in
  let cf := f first in
  let f := upd f first (mkconns (conn_neg conn :: topLeft cf) (topRight cf) (bottomLeft cf) (bottomRight cf)) in
  let cb := f b in
  let ct := f t in
  let f := upd f b (mkconns (topLeft cb) (topRight cb)
                            (bottomLeft cb ++ topLeft ct ++ bottomLeft ct)
                            (bottomRight cb ++ topRight ct ++ bottomRight ct)) in
  upd f t no_conns.

(** component.cc 228-275 *)
Definition step_non_separating (c : nat) (b t : label) (d : decomp) : res (dstep * decomp) :=
  assert_ (negb (Nat.eqb b t)) (
  x1 <- he_cross d (mkhe c t true) ;;
  x2 <- he_cross d (he_neg (mkhe c b true)) ;;
  src <- sep_at_bottom d b ;; tgt <- sep_at_top d t ;;
  let conn := mkconn src tgt in
  x <- comp_at d c ;;
  first <- hd_label (i_top (dc_iet x)) ;;
  assert_ (negb (Nat.eqb first t)) (
  _ <- conns_at d b ;; _ <- conns_at d first ;; _ <- conns_at d t ;;
  let d := set_conns d (merge_conns b t first conn (d_conns d)) in
  p <- comp_left d c ;;
  assert_ (negb (length p =? 0)) (
  Ok (mkdstep D_NON_SEPARATING_CONNECTION (Some conn) (Some (backwards (x1 ++ x2))) None, d)))).

(** component.cc 203-286 *)
Definition step_finish (fuel : nat) (st : istep T) (c : nat) (d : decomp) : res (dstep * decomp) :=
  x <- comp_at d c ;;
  match is_result st with
  | LIMIT_REACHED => Ok (mkdstep D_LIMIT_REACHED None None None, d)
  | CYLINDER =>
    d <- comp_set d c (mkdcomp (dc_iet x) (Some true) (Some false) (Some false)) ;;
    Ok (mkdstep D_CYLINDER None None None, d)
  | SEPARATING_CONNECTION =>
    match is_connection st, is_additional st with
    | Some (b, t), Some j => step_separating fuel c b t j d
    | _, _ => UB
    end
  | NON_SEPARATING_CONNECTION =>
    match is_connection st with
    | Some (b, t) => step_non_separating c b t d
    | None => UB
    end
  | WITHOUT_PERIODIC_TRAJECTORY_BOSHERNITZAN =>
    d <- comp_set d c (mkdcomp (dc_iet x) (Some false) (Some true) (dc_keane x)) ;;
    Ok (mkdstep D_WITHOUT_PERIODIC_TRAJECTORY_BOSHERNITZAN None None None, d)
  | WITHOUT_PERIODIC_TRAJECTORY_AUTO_SIMILAR =>
    d <- comp_set d c (mkdcomp (dc_iet x) (Some false) (Some true) (dc_keane x)) ;;
    Ok (mkdstep D_WITHOUT_PERIODIC_TRAJECTORY_AUTO_SIMILAR None None None, d)
  end.

(** [!a || !b] for tribools, then [static_cast<bool>(not ...)] of src/util/assert.ipp: the
    assertion fails only if both are true. *)
Definition fully_decomposed (x : dcomp) : bool :=
  match dc_cylinder x, dc_keane x with Some true, Some true => true | _, _ => false end.

(** component.cc 165-170: the assertion and the cost, which start every call. *)
Definition step_start (c : nat) (d : decomp) : res (option Z * decomp) :=
  x <- comp_at d c ;;
  assert_ (negb (fully_decomposed x)) (
  '(cost, i) <- bosh_cost (dc_iet x) (d_len d) ;;
  d <- comp_set d c (iet_set x i) ;;
  Ok (cost, d)).

(** component.cc 165-287 for [limit <> -1] *)
Definition step_limited (fuel : nat) (limit : Z) (c : nat) (d : decomp) : res (dstep * decomp) :=
  '(cost, d) <- step_start c d ;;
  '(st, d) <- step_loop fuel fuel cost limit c d ;;
  step_finish fuel st c d.

(** component.cc 172-182; [2 * (limit + 1)] is computed in [int]. *)
Fixpoint step_unlimited (rounds fuel : nat) (cost : option Z) (limit : Z) (c : nat) (d : decomp)
  : res (dstep * decomp) :=
  match rounds with
  | 0 => OutOfFuel
  | S rounds' =>
    '(st, d) <- step_limited fuel limit c d ;;
    match dst_result st with
    | D_LIMIT_REACHED =>
      match cost with
      | Some k =>
        if (2 * (limit + 1) <=? INT_MAX)%Z then step_unlimited rounds' fuel cost k c d else UB
      | None =>
        if (2 * (limit + 1) <=? INT_MAX)%Z then step_unlimited rounds' fuel cost (2 * (limit + 1)) c d else UB
      end
    | _ => Ok (st, d)
    end
  end.

(** component.cc 165-287 *)
Definition decomposition_step (fuel : nat) (limit : Z) (c : nat) (d : decomp) : res (dstep * decomp) :=
  if (limit =? -1)%Z then
    '(cost, d) <- step_start c d ;; step_unlimited fuel fuel cost 0 c d
  else step_limited fuel limit c d.

(** * decompose *)

(** What the callback of [decompose] can see of a component: its contours from left to
    right, each half edge with the connections to its left and right, the lengths, and the
    three flags. *)
Record cview := mkcview {
  cv_top : list (label * list connection * list connection);
  cv_bottom : list (label * list connection * list connection);
  cv_lengths : list T;
  cv_cylinder : option bool;
  cv_wpt : option bool;
  cv_keane : option bool;
}.

Definition comp_view (d : decomp) (c : nat) : res cview :=
  x <- comp_at d c ;;
  tops <- top_contour d c ;; bots <- bottom_contour d c ;;
  ts <- mapM (fun e => l <- he_left d e ;; r <- he_right d e ;; Ok (he_label e, l, r)) tops ;;
  bs <- mapM (fun e => l <- he_left d e ;; r <- he_right d e ;; Ok (he_label e, l, r)) bots ;;
  ls <- mapM (fun e => sl_at (d_len d) (he_label e)) tops ;;
  Ok (mkcview ts bs ls (dc_cylinder x) (dc_wpt x) (dc_keane x)).

(** intervalxt/component.hpp 80-82: the default target. *)
Definition default_target (v : cview) : bool :=
  match cv_cylinder v, cv_wpt v with
  | Some true, _ => true
  | _, Some true => true
  | _, _ => false
  end.

(** component.cc 444-464.  The loop and the recursion share one bound. *)
Fixpoint comp_decompose (rounds fuel : nat) (target : cview -> bool) (limit : Z) (c : nat) (d : decomp)
  : res (bool * decomp) :=
  match rounds with
  | 0 => OutOfFuel
  | S rounds' =>
    v <- comp_view d c ;;
    if target v then Ok (true, d)
    else
      '(st, d) <- decomposition_step fuel limit c d ;;
      match dst_result st with
      | D_LIMIT_REACHED => Ok (false, d)
      | _ =>
        '(ok1, d) <-
          match dst_additional st with
          | Some c' => comp_decompose rounds' fuel target limit c' d
          | None => Ok (true, d)
          end ;;
        '(ok2, d) <- comp_decompose rounds' fuel target limit c d ;;
        Ok (ok1 && ok2, d)
      end
  end.

(** dynamical_decomposition.cc 65-68: [all_of] over the components that exist at the
    beginning; stops at the first failure. *)
Fixpoint decompose_all (rounds fuel : nat) (target : cview -> bool) (limit : Z) (cs : list nat) (d : decomp)
  : res (bool * decomp) :=
  match cs with
  | [] => Ok (true, d)
  | c :: cs' =>
    '(ok, d) <- comp_decompose rounds fuel target limit c d ;;
    if (ok : bool) then decompose_all rounds fuel target limit cs' d else Ok (false, d)
  end.
Definition decompose (rounds fuel : nat) (target : cview -> bool) (limit : Z) (d : decomp) : res (bool * decomp) :=
  decompose_all rounds fuel target limit (seq 0 (length (d_comps d))) d.

(** component.cc 466-469: a copy of the IET with its own lengths. *)
Definition comp_iet (d : decomp) (c : nat) : res (iet T * slen T) :=
  x <- comp_at d c ;;
  let s := sl_forget (d_len d) in
  i <- iet_make s (i_top (dc_iet x)) (i_bottom (dc_iet x)) ;; Ok (i, s).

(** * check and inject *)

(** dynamical_decomposition.cc 88-107: all connections, left ones and right ones. *)
Definition lefts (d : decomp) : list connection :=
  flat_map (fun l => topLeft (d_conns d l) ++ bottomLeft (d_conns d l)) (d_keys d).
Definition rights (d : decomp) : list connection :=
  flat_map (fun l => topRight (d_conns d l) ++ bottomRight (d_conns d l)) (d_keys d).

(** The vector of connections that dynamical_decomposition.cc 95-96, 103-104 collects for a
    separatrix (in some order, which does not matter for the assertions). *)
Definition at_separatrix (s : separatrix) (cs : list connection) : list connection :=
  flat_map (fun c => (if sep_eqb (cn_source c) s then [c] else []) ++ (if sep_eqb (cn_target c) s then [c] else [])) cs.

(** dynamical_decomposition.cc 109-114 *)
Definition separatrix_ok (s : separatrix) (cs : list connection) : bool :=
  match at_separatrix s cs with
  | [] => true
  | [_] => true
  | [x; y] => conn_eqb x (conn_neg y)
  | _ => false
  end.

(** dynamical_decomposition.cc 87-115 *)
Definition dec_check (d : decomp) : res unit :=
  assert_ (forallb (fun c => negb (conn_parallel c)) (lefts d)) (
  assert_ (forallb conn_parallel (rights d)) (
  let all := lefts d ++ rights d in
  assert_ (forallb (fun c => separatrix_ok (cn_source c) all && separatrix_ok (cn_target c) all) all) (Ok tt))).

Definition left_conn (p : label * label) : connection :=
  mkconn (mksep (fst p) ANTIPARALLEL) (mksep (snd p) PARALLEL).
Definition right_conn (p : label * label) : connection :=
  mkconn (mksep (fst p) PARALLEL) (mksep (snd p) ANTIPARALLEL).

(** component.cc 112-163 *)
Definition inject (d : decomp) (at_ : hedge) (left_ right_ : list (label * label))
  : res (list connection * list connection * decomp) :=
  _ <- dec_check d ;;
  let top := he_top at_ in
  let l := he_label at_ in
  c <- conns_at d l ;;
  let lefts0 := if top then topLeft c else bottomLeft c in
  let rights0 := if top then topRight c else bottomRight c in
  let newl := map left_conn (if top then rev left_ else left_) in
  let newr := map right_conn (if top then rev right_ else right_) in
  assert_ ((length newl =? 0) || (length lefts0 =? 0)) (
  assert_ ((length newr =? 0) || (length rights0 =? 0)) (
  let c' := if top then mkconns (lefts0 ++ newl) (rights0 ++ newr) (bottomLeft c) (bottomRight c)
            else mkconns (topLeft c) (topRight c) (lefts0 ++ newl) (rights0 ++ newr) in
  let d := set_conns d (upd (d_conns d) l c') in
  _ <- dec_check d ;;
  Ok ((if top then rev newl else newl), (if top then rev newr else newr), d))).

End Decomp.

Arguments dcomp T : clear implicits.
Arguments decomp T : clear implicits.
Arguments cview T : clear implicits.
