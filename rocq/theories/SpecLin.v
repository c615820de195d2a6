(** Independent specification: rational coordinates of lengths, displacements and the
    Sah-Arnoux-Fathi invariant.  Nothing in this file refers to the model of the code. *)
From Coq Require Import List QArith Qcanon Reals Qreals.
From Verif Require Import Spec.
Import ListNotations.
Open Scope Qc_scope.

(** Sum of a rational function over a list of labels. *)
Fixpoint qsum (f : nat -> Qc) (l : list nat) : Qc :=
  match l with
  | [] => 0
  | c :: r => f c + qsum f r
  end.

(** Sum over the labels to the left of [a]. *)
Fixpoint before (f : nat -> Qc) (l : list nat) (a : nat) : Qc :=
  match l with
  | [] => 0
  | c :: r => if Nat.eqb c a then 0 else f c + before f r a
  end.

(** By how much the exchange moves the interval [a], in one coordinate [f] of the
    lengths. *)
Definition displacement (f : nat -> Qc) (top bot : list nat) (a : nat) : Qc :=
  before f bot a - before f top a.

(** The coordinates [(i, j)] with [i < j < d] in lexicographic order. *)
Fixpoint pairs (d : nat) : list (nat * nat) :=
  match d with
  | O => []
  | S d' => map (fun j => (O, S j)) (seq 0 d') ++ map (fun p => (S (fst p), S (snd p))) (pairs d')
  end.

(** The entry of [sum_a length(a) wedge displacement(a)] for two coordinates [x], [y]. *)
Definition saf_entry (x y : nat -> Qc) (top bot : list nat) : Qc :=
  qsum (fun a => x a * displacement y top bot a - y a * displacement x top bot a) top.

(** The SAF invariant of an exchange whose label [a] has [d] coordinates [c k a]. *)
Definition saf_vector (d : nat) (c : nat -> nat -> Qc) (top bot : list nat) : list Qc :=
  map (fun p => saf_entry (c (fst p)) (c (snd p)) top bot) (pairs d).

(** * Rational vectors and linear equations *)

(** Scalar product; missing entries count as zero. *)
Fixpoint dot (u v : list Qc) : Qc :=
  match u, v with
  | x :: u', y :: v' => x * y + dot u' v'
  | _, _ => 0
  end.

(** [x] solves the equations with the given rows and right-hand sides. *)
Definition solves (eqs : list (list Qc)) (y x : list Qc) : Prop := Forall2 (fun e k => dot e x = k) eqs y.

Definition vnonneg (x : list Qc) : Prop := Forall (fun q => 0 <= q) x.
Definition vpos (x : list Qc) : Prop := Forall (fun q => 0 < q) x.
Definition vnonzero (x : list Qc) : Prop := exists q, In q x /\ q <> 0.

(** [x] with [c] times the entry [j] added to the entry [i]. *)
Definition add_multiple (i j : nat) (c : Qc) (x : list Qc) : list Qc :=
  map (fun k => if Nat.eqb k i then nth k x 0 + c * nth j x 0 else nth k x 0) (seq 0 (length x)).

(** [x] with the entries [i] and [j] exchanged. *)
Definition exchange (i j : nat) (x : list Qc) : list Qc :=
  map (fun k => nth (if Nat.eqb k i then j else if Nat.eqb k j then i else k) x 0) (seq 0 (length x)).

(** [x], of length [d], is a linear combination of some vectors; missing entries count
    as zero. *)
Definition combination_of (d : nat) (gens : list (list Qc)) (x : list Qc) : Prop :=
  length x = d /\
  exists c, length c = length gens /\
    forall i, (i < d)%nat -> nth i x 0 = dot (map (fun g => nth i g 0) gens) c.

(** * The necessary condition for a saddle connection from [b] to [t]: some non-negative
    rational multiplicities of the displacements lead from the right end of [b] on the
    bottom to the right end of [t] on the top. *)
Definition connectable (e : exch) (b t : nat) : Prop :=
  exists (q : nat -> Qc) x y, (forall a, 0 <= q a) /\
    right_end (e_len e) (e_bot e) b x /\ right_end (e_len e) (e_top e) t y /\
    (x + total (fun a => Q2R (this (q a)) * shift e a)%R (e_top e) = y)%R.
