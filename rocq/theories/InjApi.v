(** Histories of a decomposition in which connections are also injected
    ([Component::inject]), and what the injected connections mean: the right end of a half
    edge is then not where it is in the interval exchange but at the end of a chain of
    connections that the caller has put behind it. *)
From Coq Require Import Reals Permutation.
From Verif Require Import Base QcTac LenT FM Subspace Lengths IET Decomp Spec Api DecApi.
Open Scope nat_scope.

(** A successful call [inject({left}, {right})] at the half edge [ij_at]. *)
Record injection := mkinj { ij_at : hedge; ij_left : list (label * label); ij_right : list (label * label) }.

(** intervalxt/component.hpp 88-93: the connections given for the right of a half edge lead
    from the half edge into the interior of the component and are oriented from bottom to
    top; so they form a chain that starts at the half edge if it is a bottom one, and one
    that, read backwards, ends at the half edge if it is a top one. *)
Definition continuous (e : hedge) (rs : list (label * label)) : Prop :=
  if he_top e then exists y, chained y (map right_conn (rev rs)) (he_label e)
  else exists r, chained (he_label e) (map right_conn rs) r.

Section InjApi.
Context {T : Type} {O : LenOps T} {W : LenLaws T}.

(** [injected_decomposition i s J tr d]: like [decomposition i s tr d], but in between the
    injections [J] have been made at half edges of components. *)
Inductive injected_decomposition (i : iet T) (s : slen T) : list injection -> list dstep -> decomp T -> Prop :=
| ih_new d : obtainable i s -> dec_make i s = Ok d -> injected_decomposition i s [] [] d
| ih_step J tr d fuel limit c st d' :
    injected_decomposition i s J tr d -> (limit <= INT_MAX)%Z -> c < length (d_comps d) ->
    decomposition_step fuel limit c d = Ok (st, d') -> injected_decomposition i s J (tr ++ [st]) d'
| ih_inject J tr d e x ls rs L R d' :
    injected_decomposition i s J tr d -> component d (he_comp e) x -> in_row x (he_top e) (he_label e) ->
    continuous e rs -> inject d e ls rs = Ok (L, R, d') ->
    injected_decomposition i s (J ++ [mkinj e ls rs]) tr d'.

End InjApi.

(** The labels that the injected chain at the bottom half edge [b] leads through and the
    ones that the injected chain at the top half edge [t] leads through. *)
Definition behind_bottom (J : list injection) (b : label) : list label :=
  flat_map (fun j => if negb (he_top (ij_at j)) && Nat.eqb (he_label (ij_at j)) b then map snd (ij_right j) else []) J.
Definition behind_top (J : list injection) (t : label) : list label :=
  flat_map (fun j => if he_top (ij_at j) && Nat.eqb (he_label (ij_at j)) t then rev (map fst (ij_right j)) else []) J.

(** Where a separatrix starts once the injected connections are taken into account. *)
Definition stretched (J : list injection) (s : separatrix) : separatrix :=
  match sp_orient s with
  | PARALLEL => mksep (last (behind_bottom J (sp_label s)) (sp_label s)) PARALLEL
  | ANTIPARALLEL => mksep (hd (sp_label s) (behind_top J (sp_label s))) ANTIPARALLEL
  end.
Definition stretch (J : list injection) (k : connection) : connection :=
  mkconn (stretched J (cn_source k)) (stretched J (cn_target k)).

(** All injected connections. *)
Definition injected_lefts (J : list injection) : list connection := flat_map (fun j => map left_conn (ij_left j)) J.
Definition injected_rights (J : list injection) : list connection := flat_map (fun j => map right_conn (ij_right j)) J.

(** The half edges in a path. *)
Definition edges_of (p : list side) : list hedge :=
  flat_map (fun s => match s with SEdge e => [e] | SConn _ => [] end) p.

(** [st'] reports what [st] reports, with the injected connections taken into account. *)
Definition same_step (J : list injection) (st st' : dstep) : Prop :=
  dst_result st' = dst_result st /\
  dst_connection st' = option_map (stretch J) (dst_connection st) /\
  dst_additional st' = dst_additional st /\
  option_map edges_of (dst_equivalent st') = option_map edges_of (dst_equivalent st).

(** [l] consists of the elements of [a] and [b], each in its order. *)
Inductive interleaved {A} : list A -> list A -> list A -> Prop :=
| il_nil : interleaved [] [] []
| il_left x a b l : interleaved a b l -> interleaved (x :: a) b (x :: l)
| il_right x a b l : interleaved a b l -> interleaved a (x :: b) (x :: l).

(** The connections reported by some steps. *)
Definition reported (tr : list dstep) : list connection :=
  flat_map (fun st => match dst_connection st with Some k => [k] | None => [] end) tr.

Section Without.
Context {T : Type} {O : LenOps T} {W : LenLaws T}.

(** [d0] with the steps [tr0] is a history without injections that has done the same as [d]
    with the steps [tr] and the injections [J]: the components are the same, and the steps
    reported the same. *)
Definition without_injections (i : iet T) (s : slen T) (J : list injection) (tr : list dstep) (d : decomp T)
  (tr0 : list dstep) (d0 : decomp T) : Prop :=
  decomposition i s tr0 d0 /\ d_len d0 = d_len d /\ d_comps d0 = d_comps d /\ Forall2 (same_step J) tr0 tr.

(** A callback that does not look at the connections. *)
Definition ignores_connections (target : cview T -> bool) : Prop :=
  forall v v', map (fun e => fst (fst e)) (cv_top v) = map (fun e => fst (fst e)) (cv_top v') ->
    map (fun e => fst (fst e)) (cv_bottom v) = map (fun e => fst (fst e)) (cv_bottom v') ->
    cv_lengths v = cv_lengths v' -> cv_cylinder v = cv_cylinder v' -> cv_wpt v = cv_wpt v' -> cv_keane v = cv_keane v' ->
    target v = target v'.

(** Both calls have the same outcome, and results that are related by [P] if they return. *)
Definition same_outcome {A} (P : A -> A -> Prop) (r r' : res A) : Prop :=
  match r, r' with
  | Ok a, Ok a' => P a a'
  | Throw, Throw | AssertFail, AssertFail | UB, UB | OutOfFuel, OutOfFuel => True
  | _, _ => False
  end.

End Without.

(** The labels that a chain leads through. *)
Definition chain_labels (j : injection) : list label :=
  if he_top (ij_at j) then map fst (ij_right j) else map snd (ij_right j).

(** Injections that describe an artificial piece of surface consistently: every half edge gets
    at most one chain to its right, the chains lead through labels that are new and all
    different, and every connection to the left of a half edge is the reverse of one to the
    right of another, and is only given once. *)
Record consistent (tops : list label) (J : list injection) : Prop := {
  cs_at : forall j, In j J -> In (he_label (ij_at j)) tops /\ continuous (ij_at j) (ij_right j);
  cs_once : NoDup (map (fun j => (he_label (ij_at j), he_top (ij_at j))) (filter (fun j => negb (length (ij_right j) =? 0)) J));
  cs_new : NoDup (tops ++ flat_map chain_labels J);
  cs_left : NoDup (flat_map ij_left J);
  cs_reverse : forall t b, In (t, b) (flat_map ij_left J) -> In (b, t) (flat_map ij_right J)
}.
