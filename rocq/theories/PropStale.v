(** Property C89: half edges that are kept while the decomposition goes on.

    A half edge [e] is determined by the component for which it was created [he_comp e], its label [he_label e]
    and its contour [he_top e] ([Decomp]); the functions of the model take the decomposition as it is now.
    [later d d'] ([CallApi]): some steps lead from [d] to [d'].
    [decomposition i s tr d], [component d c x] ([DecApi]): [d] is any state that a program can reach with a
    decomposition of the IET [i] with lengths [s]; [x] is its component number [c]. *)
From Coq Require Import Reals Permutation.
From Verif Require Import Base LenT FM Subspace Lengths IET LenInst Sqrt2 Decomp Spec SpecDec Api DecApi Callback CallApi Fixtures DecFixtures.
From Verif Require Import ClaimsStale.
Open Scope nat_scope.

(** ** C89: Half edges that are kept. *)

(** If the label is still in the component, then the half edge is one of its contour now and everything said
    about half edges holds for it; otherwise the assertions in component(), next(), previous()
    and separatrix() fail: there is no other outcome. *)
Theorem C89_kept : forall (T : Type) (O : LenOps T) (W : LenLaws T) (i : iet T) (s : slen T) tr d d' e x,
  decomposition i s tr d -> later d d' -> component d (he_comp e) x -> In (he_label e) (i_top (dc_iet x)) ->
  exists y, component d' (he_comp e) y /\
    (In (he_label e) (i_top (dc_iet y)) ->
       he_component d' e = Ok (he_comp e) /\
       exists es, (if he_top e then top_contour d' (he_comp e) else bottom_contour d' (he_comp e)) = Ok es /\ In e es) /\
    (~ In (he_label e) (i_top (dc_iet y)) ->
       he_component d' e = AssertFail /\ he_next d' e = AssertFail /\ he_previous d' e = AssertFail /\ he_separatrix d' e = AssertFail).
Proof. exact claim_C89_kept. Qed.
Print Assumptions C89_kept.

(** What is lost never comes back, and it can only be found in a component that did not exist before. *)
Theorem C89_lost : forall (T : Type) (O : LenOps T) (W : LenLaws T) (i : iet T) (s : slen T) tr d d' c x l,
  decomposition i s tr d -> later d d' -> component d c x ->
  (~ In l (i_top (dc_iet x)) -> exists y, component d' c y /\ ~ In l (i_top (dc_iet y))) /\
  (In l (i_top (dc_iet x)) -> forall c' z, component d' c' z -> In l (i_top (dc_iet z)) -> c' = c \/ length (d_comps d) <= c' < length (d_comps d')) /\
  ((forall c x, component d c x -> ~ In l (i_top (dc_iet x))) -> forall c y, component d' c y -> ~ In l (i_top (dc_iet y))).
Proof. exact claim_C89_lost. Qed.
Print Assumptions C89_lost.

(** The connections next to a half edge that was kept can always be asked for: they are those next to the half
    edge with that label in its present component, and there are none if the label has been merged with another
    one; cross() says where the half edge is between them. *)
Theorem C89_sides : forall (T : Type) (O : LenOps T) (W : LenLaws T) (i : iet T) (s : slen T) tr d d' e x,
  decomposition i s tr d -> later d d' -> component d (he_comp e) x -> In (he_label e) (i_top (dc_iet x)) ->
  exists l r, he_left d' e = Ok l /\ he_right d' e = Ok r /\
    he_cross d' e = Ok (if he_top e then map SConn r ++ SEdge e :: map SConn (rev l) else map SConn (rev l) ++ SEdge e :: map SConn r) /\
    (forall c y, component d' c y -> In (he_label e) (i_top (dc_iet y)) ->
       he_left d' (mkhe c (he_label e) (he_top e)) = Ok l /\ he_right d' (mkhe c (he_label e) (he_top e)) = Ok r) /\
    ((forall c y, component d' c y -> ~ In (he_label e) (i_top (dc_iet y))) -> l = [] /\ r = []).
Proof. exact claim_C89_sides. Qed.
Print Assumptions C89_sides.

(** Half edges of the labels 1, 3 and 0 in the only component are kept during two steps: label 1 has been
    merged with another one, 3 is in the new component, 0 is where it was. *)
Example C89_example : exists tr d, decomposition m_iet m_lens tr d /\ tr = [] /\
  match play [0; 0] d with
  | Ok (_, d') => later d d' /\ he_component d' (mkhe 0 0 true) = Ok 0 /\
      he_component d' (mkhe 0 1 true) = AssertFail /\ he_left d' (mkhe 0 1 true) = Ok [] /\ he_right d' (mkhe 0 1 true) = Ok [] /\
      he_component d' (mkhe 0 3 false) = AssertFail /\ he_component d' (mkhe 1 3 false) = Ok 1 /\ he_right d' (mkhe 0 3 false) = Ok [par 3 1]
  | _ => False
  end.
Proof.
  apply (after_play _ _ [0; 0]); [exact m_obtainable|]. vm_compute. repeat split.
Qed.
