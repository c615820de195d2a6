(** The surface that is obtained by gluing polygons along their sides, and the vertical
    directions (separatrices) around its vertices.  Nothing in this file refers to the model of
    the code. *)
From Coq Require Import List.
From Verif Require Import Spec.
Import ListNotations.

Section Glue.
Context {S : Type}.

(** What one meets walking counterclockwise around a polygon:
    - [Edge l top]: the interval with label [l], on the top or on the bottom; these two are
      glued to each other;
    - [Conn s t]: a vertical side that leaves its start in the direction [s]; its end is left in
      the direction [t] if one goes back.  It is glued to [Conn t s];
    - [Sep s]: a corner in whose interior there is the vertical direction [s]. *)
Inductive item :=
| Edge (l : lab) (top : bool)
| Conn (s t : S)
| Sep (s : S).

(** The item [y] comes right behind [x] around the polygon. *)
Definition before (w : list item) (x y : item) : Prop :=
  (exists u v, w = u ++ x :: y :: v) \/ (exists u, w = y :: u /\ last w y = x).

(** [sees W y s]: turning counterclockwise around a vertex of the surface that is glued from the
    polygons [W], the first vertical direction behind [y] is [s].  Here [y] is a side that starts
    at the vertex or a direction in the interior of a corner at the vertex.  The interior of the
    corner to the left of [y] ends at the item before [y]: this is a direction in the corner, or
    a side that ends at the vertex; the vertical ones are directions, intervals are crossed. *)
Inductive sees (W : list (list item)) : item -> S -> Prop :=
| sees_sep w y s : In w W -> before w (Sep s) y -> sees W y s
| sees_conn w y s t : In w W -> before w (Conn s t) y -> sees W y t
| sees_edge w y l top s : In w W -> before w (Edge l top) y -> sees W (Edge l (negb top)) s -> sees W y s.

(** Around a vertex the direction [s] is followed by [s'], counterclockwise. *)
Definition next (W : list (list item)) (s s' : S) : Prop :=
  sees W (Sep s) s' \/ exists t, sees W (Conn s t) s'.

(** The polygon of an exchange: the bottom row from left to right, then the top row from right
    to left.  At the right end of the interval [l] at the bottom there is the direction [up l] into the
    polygon, at the right end of [l] on the top [down l], except at the right end of the polygon. *)
Definition polygon (up down : lab -> S) (top bot : list lab) : list item :=
  removelast (flat_map (fun l => [Edge l false; Sep (up l)]) bot) ++
  tl (flat_map (fun l => [Sep (down l); Edge l true]) (rev top)).

(** [b] comes right behind [a] in the row [l]. *)
Definition adjacent (l : list lab) (a b : lab) : Prop := exists X Y, l = X ++ a :: b :: Y.

(** Turning around the vertices of the surface of an exchange, in terms of the two rows only. *)
Inductive turn (up down : lab -> S) (top bot : list lab) : S -> S -> Prop :=
| turn_up b : not_last bot b -> not_last top b -> turn up down top bot (up b) (down b)
| turn_up_end b b' : not_last bot b -> last_label top b -> last_label bot b' -> turn up down top bot (up b) (down b')
| turn_down t t' b : adjacent top t t' -> adjacent bot b t' -> turn up down top bot (down t) (up b)
| turn_down_start t t' t0 b : adjacent top t t' -> hd_error bot = Some t' -> hd_error top = Some t0 -> adjacent bot b t0 ->
    turn up down top bot (down t) (up b).

(** The reverse of a side, to which it is glued. *)
Definition glued (x : item) : item :=
  match x with
  | Edge l top => Edge l (negb top)
  | Conn s t => Conn t s
  | Sep s => Sep s
  end.

(** Sides, not directions in corners. *)
Definition is_side (x : item) : bool := match x with Sep _ => false | _ => true end.

(** The vertical directions of an exchange. *)
Definition direction (up down : lab -> S) (top bot : list lab) (s : S) : Prop :=
  (exists b, not_last bot b /\ s = up b) \/ (exists t, not_last top t /\ s = down t).

End Glue.
Arguments item : clear implicits.
