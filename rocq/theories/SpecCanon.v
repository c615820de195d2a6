(** What it means that two decompositions of an exchange consist of the same cylinders (for
    the claims about the independence of the way in which one decomposes).  Nothing in this
    file refers to the model of the code. *)
From Coq Require Import Reals List.
From Verif Require Import Spec SpecDec SpecTower.
Import ListNotations.
Open Scope R_scope.

(** The widths of the cylinders, i.e., of the exchanges of a single interval. *)
Definition widths (es : list exch) : list R :=
  flat_map (fun e => match e_top e with [a] => [e_len e a] | _ => [] end) es.

(** The towers that stand over a cylinder. *)
Definition cylinders (Ts : list tower) : list tower :=
  filter (fun t => match e_top (tw_base t) with [_] => true | _ => false end) Ts.

(** The other ones. *)
Definition noncylinders (Ts : list tower) : list tower :=
  filter (fun t => match e_top (tw_base t) with [_] => false | _ => true end) Ts.

(** The towers consist of the same points. *)
Definition same_points (e0 : exch) (t t' : tower) : Prop :=
  forall x, (exists a k, on_floor e0 t a k x) <-> (exists a k, on_floor e0 t' a k x).

(** The towers are over cylinders of the same width, they have the same height and they
    consist of the same points. *)
Definition same_cylinder (e0 : exch) (t t' : tower) : Prop :=
  exists a a', e_top (tw_base t) = [a] /\ e_top (tw_base t') = [a'] /\
    e_len (tw_base t) a = e_len (tw_base t') a' /\ tw_height t a = tw_height t' a' /\ same_points e0 t t'.
