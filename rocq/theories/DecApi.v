(** What a program can do with a decomposition through the public interface.  The
    properties of decompositions quantify over these histories. *)
From Coq Require Import Reals Permutation.
From Verif Require Import Base QcTac LenT FM Subspace Lengths IET Decomp Spec Api.
Open Scope nat_scope.

Section DecApi.
Context {T : Type} {O : LenOps T} {W : LenLaws T}.

(** [decomposition i s tr d]: [d] is a state of the decomposition that was constructed from
    the IET [i] with lengths [s]; [tr] are the results of the steps that were made on its
    components (in any order and with any limits) to get there.  Calls of [decompose] are
    sequences of steps ([C27_history]). *)
Inductive decomposition (i : iet T) (s : slen T) : list dstep -> decomp T -> Prop :=
| dh_new d : obtainable i s -> dec_make i s = Ok d -> decomposition i s [] d
| dh_step tr d fuel limit c st d' :
    decomposition i s tr d -> (limit <= INT_MAX)%Z -> c < length (d_comps d) ->
    decomposition_step fuel limit c d = Ok (st, d') -> decomposition i s (tr ++ [st]) d'.

(** The exchange of the component [x]. *)
Definition comp_exch (d : decomp T) (x : dcomp T) : exch := exch_of (dc_iet x) (d_len d).

(** A sequence of sides walked the other way: connections are reversed, half edges are named
    by the same object. *)
Definition reversed (p : list side) : list side :=
  map (fun s => match s with SConn k => SConn (conn_neg k) | SEdge e => SEdge e end) (rev p).

(** The component number [c]. *)
Definition component (d : decomp T) (c : nat) (x : dcomp T) : Prop := nth_error (d_comps d) c = Some x.

(** Histories in which, whenever a step says AUTO_SIMILAR, the top row lists the labels in the same order as
    when the similarity tracker of the component was started. *)
Inductive straight (i : iet T) (s : slen T) : list dstep -> decomp T -> Prop :=
| sh_new d : obtainable i s -> dec_make i s = Ok d -> straight i s [] d
| sh_step tr d fuel limit c st d' :
    straight i s tr d -> (limit <= INT_MAX)%Z -> c < length (d_comps d) ->
    decomposition_step fuel limit c d = Ok (st, d') ->
    (dst_result st = D_WITHOUT_PERIODIC_TRAJECTORY_AUTO_SIMILAR ->
     forall x, component d' c x -> tk_top (i_trk (dc_iet x)) = i_top (dc_iet x)) ->
    straight i s (tr ++ [st]) d'.

(** [l]'s own half edge occurs in the row. *)
Definition in_row (x : dcomp T) (top : bool) (l : label) : Prop :=
  In l (if top then i_top (dc_iet x) else i_bottom (dc_iet x)).

End DecApi.

(** The first of the connections [cs] starts at the right end of the bottom interval [l];
    when one ends at the right end of the top interval [t], the next one starts at the right
    end of the bottom interval [t]; the last one ends at [r]. *)
Inductive chained : label -> list connection -> label -> Prop :=
| chained_nil l : chained l [] l
| chained_cons l t cs r : chained t cs r ->
    chained l (mkconn (mksep l PARALLEL) (mksep t ANTIPARALLEL) :: cs) r.

(** The corresponding results of an induction step and a decomposition step. *)
Definition dresult_of (r : iresult) : dresult :=
  match r with
  | LIMIT_REACHED => D_LIMIT_REACHED
  | CYLINDER => D_CYLINDER
  | SEPARATING_CONNECTION => D_SEPARATING_CONNECTION
  | NON_SEPARATING_CONNECTION => D_NON_SEPARATING_CONNECTION
  | WITHOUT_PERIODIC_TRAJECTORY_BOSHERNITZAN => D_WITHOUT_PERIODIC_TRAJECTORY_BOSHERNITZAN
  | WITHOUT_PERIODIC_TRAJECTORY_AUTO_SIMILAR => D_WITHOUT_PERIODIC_TRAJECTORY_AUTO_SIMILAR
  end.
