(** Specification for ownership: what it means that an object is alive, that somebody still holds
    it, and that an operation is applied to a variable of the right kind. *)
From Verif Require Import Base Own.

(** The object has not been destroyed. *)
Definition alive (m : memory) (i : nat) : Prop :=
  exists c, nth_error (heap_of m) i = Some (Some c).

(** Some variable leads to the object through [shared_ptr]s. *)
Inductive held (m : memory) : nat -> Prop :=
| held_variable : forall x, In x (vars m) -> held m (holds x)
| held_inside : forall i c j,
    held m i -> nth_error (heap_of m) i = Some (Some c) -> In j (strong (c_obj c)) -> held m j.

(** The object is the state of a decomposition with [n] components. *)
Definition has_components (m : memory) (d n : nat) : Prop :=
  exists ws q, nth_error (heap_of m) d = Some (Some (mkcell (ODec ws) q)) /\ List.length ws = n.

(** The program compiles: the variable named exists and has a type with this method; the
    component asked for is one of the vector returned by [components()]. *)
Definition compiles (o : op) (m : memory) : Prop :=
  let var v := nth_error (vars m) v in
  match o with
  | MakeLengths => True
  | MakeIet v => exists l, var v = Some (HLen l)
  | SplitIet v | UseIet v | LengthsOf v | Decompose v => exists l, var v = Some (HIet l)
  | Components v k => exists d n, var v = Some (HDec d) /\ has_components m d n /\ k < n
  | Edge v | Connect v | Step v _ | IetOf v => exists d k, var v = Some (HComp d k)
  | ComponentOf v => exists d k, var v = Some (HEdge d k)
  | Sep v => exists d, var v = Some (HConn d)
  | Visit v => exists d k, var v = Some (HComp d k) \/ var v = Some (HEdge d k)
  | Copy v => exists x, var v = Some x /\ forall l, x <> HIet l
  | Destroy v => v < List.length (vars m)
  end.

(** A state that some program reaches. *)
Definition reached (m : memory) : Prop := exists os, exec_all os start = Ok m.
