(** What it means that an exchange is cut into towers over smaller ones (for the claims
    about return times). Nothing in this file refers to the model of the code. *)
From Coq Require Import Reals List.
From Verif Require Import Spec SpecDec.
Import ListNotations.
Open Scope R_scope.

(** A tower over an exchange that is moved to the interval from [tw_at] on: over each of
    its intervals stands a column with [tw_height] floors. *)
Record tower := mktower { tw_base : exch; tw_at : R; tw_height : lab -> nat }.

(** The point [x] is in the top interval [a] of the base. *)
Definition in_base (t : tower) (a : lab) (x : R) : Prop :=
  let e := tw_base t in
  In a (e_top e) /\ left_end (e_len e) (e_top e) a <= x - tw_at t < left_end (e_len e) (e_top e) a + e_len e a.

(** The point [x] is on floor [k] of the column [a]: the orbit of a point of the base reaches
    it after [k] steps, which is less than the height. *)
Definition on_floor (e0 : exch) (t : tower) (a : lab) (k : nat) (x : R) : Prop :=
  (k < tw_height t a)%nat /\ exists y, in_base t a y /\ iter (maps e0) k y x.

(** The point [x] is in the top interval [c] of the exchange. *)
Definition in_interval (e : exch) (c : lab) (x : R) : Prop :=
  In c (e_top e) /\ left_end (e_len e) (e_top e) c <= x < left_end (e_len e) (e_top e) c + e_len e c.

(** The columns have floors; from the roof one gets back to the base, by the exchange of
    the base; no point is on two floors; each floor is a translate of the interval of the
    base; each floor is inside one of the top intervals of [e0]; in each column some floor
    has the same right end as the top interval of [e0] that it is in. *)
Definition tower_of (e0 : exch) (t : tower) : Prop :=
  (forall a, In a (e_top (tw_base t)) -> (1 <= tw_height t a)%nat) /\
  (forall a y, in_base t a y -> iter (maps e0) (tw_height t a) y (y + shift (tw_base t) a)) /\
  (forall a k a' k' x, on_floor e0 t a k x -> on_floor e0 t a' k' x -> a = a' /\ k = k') /\
  (forall a k, (k <= tw_height t a)%nat -> exists d, forall y, in_base t a y -> iter (maps e0) k y (y + d)) /\
  (forall a k, In a (e_top (tw_base t)) -> (k < tw_height t a)%nat ->
     exists c, forall y x, in_base t a y -> iter (maps e0) k y x -> in_interval e0 c x) /\
  (forall a, In a (e_top (tw_base t)) -> exists k d c, (k < tw_height t a)%nat /\ In c (e_top e0) /\
     (forall y, in_base t a y -> iter (maps e0) k y (y + d)) /\
     tw_at t + left_end (e_len (tw_base t)) (e_top (tw_base t)) a + e_len (tw_base t) a + d =
       left_end (e_len e0) (e_top e0) c + e_len e0 c).

Definition apart_towers (e0 : exch) (t t' : tower) : Prop :=
  forall a k a' k' x, on_floor e0 t a k x -> on_floor e0 t' a' k' x -> False.

(** Width times height of all columns. *)
Definition area (t : tower) : R :=
  total (fun a => INR (tw_height t a) * e_len (tw_base t) a) (e_top (tw_base t)).

Definition areas (Ts : list tower) : R := fold_right (fun t x => area t + x) 0 Ts.

(** The towers fill the domain of [e0] without overlap. *)
Definition towers (e0 : exch) (Ts : list tower) : Prop :=
  (forall t, In t Ts -> tower_of e0 t) /\ ForallOrdPairs (apart_towers e0) Ts /\
  (forall x, 0 <= x < size e0 -> exists t a k, In t Ts /\ on_floor e0 t a k x) /\
  areas Ts = size e0.
