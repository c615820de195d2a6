(** Walking around a component with the public interface.  This is a program that uses the
    library, not a part of it. *)
From Verif Require Import Base QcTac LenT FM Subspace Lengths IET Decomp SpecGlue.
Import ListNotations.
Open Scope nat_scope.

(** A side of a component; half edges are named by their label and contour, connections by the
    separatrices at their ends. *)
Definition as_item (x : side) : item separatrix :=
  match x with
  | SConn k => Conn (cn_source k) (cn_target k)
  | SEdge e => Edge (he_label e) (he_top e)
  end.

Definition corner (o : option separatrix) : list (item separatrix) :=
  match o with Some s => [Sep s] | None => [] end.

Section GlueApi.
Context {T : Type} {O : LenOps T}.

(** The bottom contour from left to right, then the top contour from right to left: what is
    crossed at each half edge ([HalfEdge::cross()]) and the separatrix at its right end
    ([HalfEdge::separatrix()]). *)
Definition boundary (d : decomp T) (c : nat) : res (list (item separatrix)) :=
  bs <- bottom_contour d c ;;
  ts <- top_contour d c ;;
  lower <- mapM (fun e => cs <- he_cross d e ;; o <- he_separatrix d e ;; Ok (map as_item cs ++ corner o)) bs ;;
  upper <- mapM (fun e => cs <- he_cross d e ;; o <- he_separatrix d e ;; Ok (corner o ++ map as_item cs)) (rev ts) ;;
  Ok (concat lower ++ concat upper).

Definition boundaries (d : decomp T) : res (list (list (item separatrix))) :=
  mapM (boundary d) (seq 0 (length (d_comps d))).

End GlueApi.
