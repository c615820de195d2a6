(** Independent specification: interval exchange transformations as maps on real
    points, and the combinatorial and dynamical notions the properties speak about.
    Nothing in this file refers to the model of the code. *)
From Coq Require Import Reals List Permutation ZArith.
Import ListNotations.
Open Scope R_scope.

Notation lab := nat (only parsing).

(** An interval exchange: labels on top from left to right, labels on the bottom from
    left to right, and the length of each label. *)
Record exch := mkexch { e_top : list lab; e_bot : list lab; e_len : lab -> R }.

(** Total length of a list of labels. *)
Fixpoint total (len : lab -> R) (l : list lab) : R :=
  match l with
  | [] => 0
  | x :: l' => len x + total len l'
  end.

(** Top and bottom list the same labels once each, and all lengths are positive. *)
Definition proper (e : exch) : Prop :=
  NoDup (e_top e) /\ Permutation (e_top e) (e_bot e) /\
  (forall a, In a (e_top e) -> 0 < e_len e a).

(** [span len l a x w]: in the row [l] the label [a] occupies the interval [x, x + w). *)
Definition span (len : lab -> R) (l : list lab) (a : lab) (x w : R) : Prop :=
  exists X Y, l = X ++ a :: Y /\ x = total len X /\ w = len a.

(** The map: a point in the top interval of [a] is translated to the bottom interval
    of [a]. *)
Definition maps (e : exch) (y z : R) : Prop :=
  exists a x x' w,
    span (e_len e) (e_top e) a x w /\ span (e_len e) (e_bot e) a x' w /\
    x <= y < x + w /\ z = y - x + x'.

(** Iteration of a relation. *)
Fixpoint iter {A} (f : A -> A -> Prop) (n : nat) (x y : A) : Prop :=
  match n with
  | O => x = y
  | S n' => exists z, f x z /\ iter f n' z y
  end.

Definition periodic {A} (f : A -> A -> Prop) (x : A) : Prop :=
  exists n, (n >= 1)%nat /\ iter f n x x.

(** [x] returns to [J] first at [y]. *)
Definition first_return {A} (f : A -> A -> Prop) (J : A -> Prop) (x y : A) : Prop :=
  exists n, (n >= 1)%nat /\ iter f n x y /\ J y /\
    forall k z, (1 <= k < n)%nat -> iter f k x z -> ~ J z.

(** The inverse relation. *)
Definition inverse {A} (f : A -> A -> Prop) : A -> A -> Prop := fun x y => f y x.

(** Elementary (left) Rauzy step: the first top interval [a] is longer than the first
    bottom interval [b]; cut off the left end of length [b]. *)
Definition rauzy_step (e e' : exch) : Prop :=
  exists a b X Y1 Y2,
    e_top e = a :: X /\ e_bot e = b :: Y1 ++ a :: Y2 /\
    e_len e b < e_len e a /\
    e_top e' = e_top e /\ e_bot e' = Y1 ++ b :: a :: Y2 /\
    e_len e' a = e_len e a - e_len e b /\
    (forall c, c <> a -> e_len e' c = e_len e c).

(** Two descriptions of the same exchange. *)
Definition same_exch (e e' : exch) : Prop :=
  e_top e = e_top e' /\ e_bot e = e_bot e' /\ forall c, e_len e c = e_len e' c.

(** Any number of elementary steps. *)
Inductive rauzy_run : exch -> exch -> Prop :=
| run_refl e e' : same_exch e e' -> rauzy_run e e'
| run_step e e1 e' : rauzy_step e e1 -> rauzy_run e1 e' -> rauzy_run e e'.

(** No elementary step is possible. *)
Definition rauzy_stuck (e : exch) : Prop := ~ exists e', rauzy_step e e'.

(** [k] is a proper invariant prefix: the first [k] labels of top and bottom agree as
    sets. *)
Definition invariant_prefix (e : exch) (k : nat) : Prop :=
  (0 < k < length (e_top e))%nat /\ Permutation (firstn k (e_top e)) (firstn k (e_bot e)).

Definition reducible (e : exch) : Prop := exists k, invariant_prefix e k.

(** Position of the right end point of label [a] in a row. *)
Definition right_end (len : lab -> R) (l : list lab) (a : lab) (x : R) : Prop :=
  exists X Y, l = X ++ a :: Y /\ x = total len X + len a.

(** Saddle connection from the bottom label [b] to the top label [t]: the orbit of the
    right end of [b] on the bottom hits the right end of [t] on the top after [n >= 0]
    steps.  The right ends of the two rows are not singularities. *)
Definition saddle_connection (e : exch) (b t : lab) : Prop :=
  exists x y n,
    right_end (e_len e) (e_bot e) b x /\ right_end (e_len e) (e_top e) t y /\
    x < total (e_len e) (e_bot e) /\ y < total (e_len e) (e_top e) /\
    iter (maps e) n x y.

(** Discontinuities of the map on top: the right ends of the top intervals. *)
Definition singular (e : exch) (z : R) : Prop := exists t, right_end (e_len e) (e_top e) t z.

(** A saddle connection that does not run through another discontinuity: the orbit of the
    right end of [b] on the bottom first meets a discontinuity in the right end of [t]. *)
Definition direct_connection (e : exch) (b t : lab) : Prop :=
  exists x y n,
    right_end (e_len e) (e_bot e) b x /\ right_end (e_len e) (e_top e) t y /\
    x < total (e_len e) (e_bot e) /\ y < total (e_len e) (e_top e) /\
    iter (fun u v => ~ singular e u /\ maps e u v) n x y.

Definition has_saddle_connection (e : exch) : Prop := exists b t, saddle_connection e b t.

Definition has_periodic_point (e : exch) : Prop := exists x, periodic (maps e) x.

(** Left end point of label [a] in a row. *)
Fixpoint left_end (len : lab -> R) (l : list lab) (a : lab) : R :=
  match l with
  | [] => 0
  | c :: l' => if Nat.eqb c a then 0 else len c + left_end len l' a
  end.

(** By how much the exchange moves the points of the interval [a]. *)
Definition shift (e : exch) (a : lab) : R :=
  left_end (e_len e) (e_bot e) a - left_end (e_len e) (e_top e) a.

(** The inverse exchange: top and bottom trade places. *)
Definition flip (e : exch) : exch := mkexch (e_bot e) (e_top e) (e_len e).

(** Induction of either type: any sequence of elementary steps in which either the top
    or the bottom interval is the longer one. *)
Inductive rauzy_path : exch -> exch -> Prop :=
| path_refl e e' : same_exch e e' -> rauzy_path e e'
| path_top e e1 e' : rauzy_step e e1 -> rauzy_path e1 e' -> rauzy_path e e'
| path_bot e e1 e' : rauzy_step (flip e) (flip e1) -> rauzy_path e1 e' -> rauzy_path e e'.

(** [e'] is the first-return map of [e] to the right sub-interval of the same total
    length, and every orbit of [e] visits that sub-interval. *)
Definition induced (e e' : exch) : Prop :=
  let d := total (e_len e) (e_top e) - total (e_len e') (e_top e') in
  0 <= d /\
  (forall y z, 0 <= y ->
     (maps e' y z <-> first_return (maps e) (fun u => d <= u) (y + d) (z + d))) /\
  (forall y, 0 <= y < total (e_len e) (e_top e) -> exists n z, iter (maps e) n y z /\ d <= z).

(** Merging the two first labels when they have the same length. *)
Definition merge_step (e e' : exch) : Prop :=
  exists a b X Y1 Y2,
    e_top e = a :: X /\ e_bot e = b :: Y1 ++ a :: Y2 /\ e_len e a = e_len e b /\
    e_top e' = X /\ e_bot e' = Y1 ++ b :: Y2 /\ (forall c, c <> a -> e_len e' c = e_len e c).

(** The first [k] labels and the remaining ones. *)
Definition left_of (e : exch) (k : nat) : exch :=
  mkexch (firstn k (e_top e)) (firstn k (e_bot e)) (e_len e).
Definition right_of (e : exch) (k : nat) : exch :=
  mkexch (skipn k (e_top e)) (skipn k (e_bot e)) (e_len e).

(** There are multiplicities, not all zero, for which the displacements cancel. *)
Definition balanced (e : exch) : Prop :=
  exists n : lab -> nat, (exists a, In a (e_top e) /\ n a <> 0%nat) /\
    total (fun a => INR (n a) * shift e a) (e_top e) = 0.

(** [a] occurs in the row [l] with some label behind it. *)
Definition not_last (l : list lab) (a : lab) : Prop := exists X c Y, l = X ++ a :: c :: Y.

(** The lengths of the listed labels are rational multiples of one another. *)
Definition commensurable (lam : lab -> R) (ls : list lab) : Prop :=
  forall a b, In a ls -> In b ls -> exists n m, (0 < n)%nat /\ (0 < m)%nat /\ (INR n * lam a = INR m * lam b).

(** All lengths are integer multiples of the unit [u]. *)
Definition integral (u : R) (e : exch) : Prop :=
  forall a, In a (e_top e) -> exists n : Z, e_len e a = (IZR n * u)%R.

(** The first intervals on top and bottom have the same length. *)
Definition first_equal (e : exch) : Prop :=
  exists a b X Y, e_top e = a :: X /\ e_bot e = b :: Y /\ e_len e a = e_len e b.

(** The last label of a row. *)
Definition last_label (l : list lab) (a : lab) : Prop := exists X, l = X ++ [a].
