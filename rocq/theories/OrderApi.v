(** What it means to process the components of a decomposition in some order. *)
From Coq Require Import List Permutation.
From Verif Require Import Base QcTac LenT FM Subspace Lengths IET Decomp.
Open Scope nat_scope.

(** The same connection, or half edges that carry the same label on the same side; the
    number of the component, which depends on the order, is ignored. *)
Definition same_side (s s' : side) : Prop :=
  match s, s' with
  | SConn k, SConn k' => k = k'
  | SEdge h, SEdge h' => he_label h = he_label h' /\ he_top h = he_top h'
  | _, _ => False
  end.

(** Two steps reported the same: the same kind of result, the same connection, the same
    equivalent walk, and both or none created a component. *)
Definition same_answer (st st' : dstep) : Prop :=
  dst_result st = dst_result st' /\
  dst_connection st = dst_connection st' /\
  match dst_equivalent st, dst_equivalent st' with
  | None, None => True
  | Some w, Some w' => Forall2 same_side w w'
  | _, _ => False
  end /\
  (dst_additional st = None <-> dst_additional st' = None).

Section Order.
Context {T : Type} {O : LenOps T}.

(** Two states of a decomposition that differ only in the order in which the components are
    listed. *)
Record same_up_to_numbering (d e : decomp T) : Prop := {
  su_lengths : d_len d = d_len e;
  su_labels : d_keys d = d_keys e;
  su_connections : forall l, d_conns d l = d_conns e l;
  su_stack : d_stack d = d_stack e;
  su_components : Permutation (d_comps d) (d_comps e);
}.

(** The component [c] does not satisfy the target yet. *)
Definition pending (target : cview T -> bool) (d : decomp T) (c : nat) : Prop :=
  exists v, comp_view d c = Ok v /\ target v = false.

(** All components satisfy the target. *)
Definition finished (target : cview T -> bool) (d : decomp T) : Prop :=
  forall c, c < length (d_comps d) -> exists v, comp_view d c = Ok v /\ target v = true.

(** [schedule target limit d tr d']: from [d], steps with the given limit were made, one after the
    other, each on some component that did not satisfy the target at that time; they answered
    [tr] and led to [d']. *)
Inductive schedule (target : cview T -> bool) (limit : Z) : decomp T -> list dstep -> decomp T -> Prop :=
| sch_done d : schedule target limit d [] d
| sch_step d c fuel st d1 tr d2 :
    c < length (d_comps d) -> pending target d c ->
    decomposition_step fuel limit c d = Ok (st, d1) ->
    schedule target limit d1 tr d2 -> schedule target limit d (st :: tr) d2.
End Order.

(** The same answers, in some order. *)
Definition same_answers (tr tr' : list dstep) : Prop :=
  exists tr1, Permutation tr tr1 /\ Forall2 same_answer tr1 tr'.
