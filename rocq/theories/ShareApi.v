(** Programs of several parts that use the same lengths.  Each part starts with one IET and
    works on its own IETs and decompositions; the calls of the parts come in any order. *)
From Coq Require Import List.
From Verif Require Import Base LenT Lengths IET Decomp Api RatioApi.
Open Scope nat_scope.

(** What a part calls: a member of its IET with the given number, the constructor of a
    decomposition (the IET is not used any more after that), a member of a decomposition. *)
Inductive task :=
| t_op (n : nat) (o : op)
| t_make (n : nat)
| t_call (n : nat) (k : dcall).

Definition task_legal (t : task) : Prop :=
  match t with t_op _ o => op_legal o | t_make _ => True | t_call _ k => dcall_legal k end.

Inductive reply :=
| r_iet (a : answer)
| r_made
| r_dec (a : danswer).

(** The items that belong to one part. *)
Definition part_of {X} (k : nat) (p : list (nat * X)) : list X := map snd (filter (fun x => Nat.eqb (fst x) k) p).

Section Share.
Context {T : Type} {O : LenOps T}.

Inductive thing := an_iet (i : iet T) | a_dec (d : decomp T).

(** A decomposition has the lengths that the IET had that it was constructed from (the
    constructor copies a [shared_ptr], dynamical_decomposition.cc 45-53); [s] is their state. *)
Definition with_lengths (d : decomp T) (s : slen T) : decomp T := mkdecomp s (d_stack d) (d_keys d) (d_conns d) (d_comps d).

Definition put (n : nat) (l : list thing) (new : list thing) : list thing := firstn n l ++ new ++ skipn (S n) l.

Definition do_task (t : task) (l : list thing) (s : slen T) : res (reply * list thing * slen T) :=
  match t with
  | t_op n o =>
    match nth_error l n with
    | Some (an_iet i) => '(a, i, extra, s) <- call o i s ;; Ok (r_iet a, put n l (an_iet i :: map an_iet extra), s)
    | _ => UB
    end
  | t_make n =>
    match nth_error l n with
    | Some (an_iet i) => d <- dec_make i s ;; Ok (r_made, put n l [a_dec d], s)
    | _ => UB
    end
  | t_call n k =>
    match nth_error l n with
    | Some (a_dec d) => '(a, d) <- do_dcall k (with_lengths d s) ;; Ok (r_dec a, put n l [a_dec d], d_len d)
    | _ => UB
    end
  end.

(** One part on its own. *)
Fixpoint alone (p : list task) (l : list thing) (s : slen T) : res (list reply * list thing * slen T) :=
  match p with
  | [] => Ok ([], l, s)
  | t :: p =>
    '(r, l, s) <- do_task t l s ;; '(rs, l, s) <- alone p l s ;; Ok (r :: rs, l, s)
  end.

(** All parts, in the given order. *)
Fixpoint together (p : list (nat * task)) (L : list (list thing)) (s : slen T) : res (list (nat * reply) * list (list thing) * slen T) :=
  match p with
  | [] => Ok ([], L, s)
  | (k, t) :: p =>
    match nth_error L k with
    | None => UB
    | Some l =>
      '(r, l, s) <- do_task t l s ;;
      '(rs, L, s) <- together p (firstn k L ++ l :: skipn (S k) L) s ;; Ok ((k, r) :: rs, L, s)
    end
  end.

Definition start (s : slen T) (r : list label * list label) : res (list thing) := i <- iet_make s (fst r) (snd r) ;; Ok [an_iet i].

Definition run_alone (r : list label * list label) (p : list task) (s : slen T) : res (list reply * list thing * slen T) :=
  l <- start s r ;; alone p l s.
Definition run_together (rs : list (list label * list label)) (p : list (nat * task)) (s : slen T) : res (list (nat * reply) * list (list thing) * slen T) :=
  L <- mapM (start s) rs ;; together p L s.

(** Nobody can tell the difference between [x] with lengths [s] and [x'] with lengths [s']. *)
Definition looks_same (s s' : slen T) (x x' : thing) : Prop :=
  match x, x' with
  | an_iet i, an_iet i' => i_top i' = i_top i /\ i_bottom i' = i_bottom i /\ i_swap i' = i_swap i /\ map (sl_at s') (i_top i) = map (sl_at s) (i_top i)
  | a_dec d, a_dec d' => views (with_lengths d' s') = views (with_lengths d s)
  | _, _ => False
  end.
End Share.
Arguments thing : clear implicits.
