(** Properties C55, C56: [sample::Lengths] as a container of lengths with a stack of labels. *)
From Coq Require Import Reals Permutation.
From Verif Require Import Base QcTac LenT Lengths FM Subspace IET LenInst Api Spec SpecLengths.
From Verif Require Import ClaimsLengths.
Open Scope nat_scope.

(** ** C55: Lengths store what they are given. *)

(** The constructor throws exactly if some length is negative; otherwise the lengths can be
    read back by the labels [labels()], in order, and all other labels throw. *)
Theorem C55_constructor : forall (T : Type) (O : LenOps T) (W : LenLaws T) (ls : list T),
  ((exists x, In x ls /\ (val x < 0)%R) -> sl_make ls = Throw) /\
  ((forall x, In x ls -> (0 <= val x)%R) -> exists s, sl_make ls = Ok s /\ sl_stack s = [] /\
     length (sl_labels s) = length ls /\ NoDup (sl_labels s) /\
     mapM (sl_at s) (sl_labels s) = Ok ls /\
     forall l, ~ In l (sl_labels s) -> sl_at s l = Throw).
Proof. exact claim_C55_constructor. Qed.
Print Assumptions C55_constructor.

(** The stack: [push] and [pop] add and remove at the back, [clear] empties it, none of them
    changes a length; [pop] without [push] is undefined. *)
Theorem C55_stack : forall (T : Type) (O : LenOps T) (s : slen T) (l : label),
  sl_pop (sl_push l s) = Ok s /\ sl_stack (sl_push l s) = sl_stack s ++ [l] /\ sl_lens (sl_push l s) = sl_lens s /\
  sl_stack (sl_clear s) = [] /\ sl_lens (sl_clear s) = sl_lens s /\
  (sl_stack s = [] -> sl_pop s = UB).
Proof. exact claim_C55_stack. Qed.
Print Assumptions C55_stack.

(** As a number the object is the sum of the lengths on the stack, and the comparisons compare
    that sum, or the length of a label, with the length of a label. *)
Theorem C55_compare : forall (T : Type) (O : LenOps T) (W : LenLaws T) (s : slen T) (a b : label),
  (forall l, In l (a :: b :: sl_stack s) -> l < length (sl_lens s)) ->
  exists t c d, sl_sum s = Ok t /\ val t = total (lamR s) (sl_stack s) /\
    sl_cmp1 s a = Ok c /\ sl_cmp2 s a b = Ok d /\
    (c = Lt <-> (total (lamR s) (sl_stack s) < lamR s a)%R) /\ (c = Eq <-> total (lamR s) (sl_stack s) = lamR s a) /\
    (d = Lt <-> (lamR s a < lamR s b)%R) /\ (d = Eq <-> lamR s a = lamR s b).
Proof. exact claim_C55_compare. Qed.
Print Assumptions C55_compare.

(** Equality compares the lengths and ignores the stack. *)
Theorem C55_equality : forall (T : Type) (O : LenOps T) (W : LenLaws T) (s s' : slen T),
  sl_eqb s s' = true <-> length (sl_lens s) = length (sl_lens s') /\ forall l, lamR s l = lamR s' l.
Proof. exact claim_C55_equality. Qed.
Print Assumptions C55_equality.

Example C55_example : exists s, sl_make [3; 0; 2]%Z = Ok s /\ sl_labels s = [0; 1; 2] /\ sl_sum (sl_push 2 (sl_push 0 s)) = Ok 5%Z /\
  sl_make [3; -1]%Z = Throw.
Proof. eexists. vm_compute. repeat split. Qed.

(** ** C56: Subtracting from a length. *)

(** [subtract] subtracts the sum of the stack from one length and clears the stack; it is
    meant for a sum that is smaller than the length and asserts otherwise. *)
Theorem C56_subtract : forall (T : Type) (O : LenOps T) (W : LenLaws T) (s : slen T) (a : label),
  (forall l, In l (a :: sl_stack s) -> l < length (sl_lens s) /\ (0 < lamR s l)%R) ->
  ((total (lamR s) (sl_stack s) < lamR s a)%R -> exists s', sl_subtract a s = Ok s' /\ sl_stack s' = [] /\
     length (sl_lens s') = length (sl_lens s) /\
     lamR s' a = (lamR s a - total (lamR s) (sl_stack s))%R /\ forall c, c <> a -> lamR s' c = lamR s c) /\
  ((lamR s a <= total (lamR s) (sl_stack s))%R -> sl_subtract a s = AssertFail).
Proof. exact claim_C56_subtract. Qed.
Print Assumptions C56_subtract.

(** [subtractRepeated] subtracts the lengths on the stack, one after the other and starting
    again with the first after the last, [n] times in total, as long as a positive length
    remains: it stops when the next one does not leave a positive length.  It returns the
    label subtracted last and clears the stack. *)
Theorem C56_repeated : forall (T : Type) (O : LenOps T) (W : LenLaws T) (s : slen T) (a : label),
  (forall l, In l (a :: sl_stack s) -> l < length (sl_lens s) /\ (0 < lamR s l)%R) -> ~ In a (sl_stack s) -> sl_stack s <> [] ->
  (total (lamR s) (sl_stack s) < lamR s a)%R ->
  exists n s', length (sl_stack s) <= n /\
    sl_subrep a s = Ok (nth ((n - 1) mod length (sl_stack s)) (sl_stack s) 0, s') /\
    sl_stack s' = [] /\ length (sl_lens s') = length (sl_lens s) /\ (forall c, c <> a -> lamR s' c = lamR s c) /\
    lamR s' a = (lamR s a - cycled (lamR s) (sl_stack s) n)%R /\
    (0 < lamR s' a <= lamR s (nth (n mod length (sl_stack s)) (sl_stack s) 0%nat))%R.
Proof. exact claim_C56_repeated. Qed.
Print Assumptions C56_repeated.

Theorem C56_empty : forall (T : Type) (O : LenOps T) (s : slen T) (a : label), sl_stack s = [] -> sl_subrep a s = Throw.
Proof. exact claim_C56_empty. Qed.
Print Assumptions C56_empty.

(** 20 = 2 * (3 + 4) + 3 + 3, the next length is 4. *)
Example C56_example : let s := mkslen [1; 2] [20; 3; 4]%Z in
  sl_subrep 0 s = Ok (1, mkslen [] [3; 3; 4]%Z) /\ (forall l, In l (0 :: sl_stack s) -> l < length (sl_lens s) /\ (0 < lamR s l)%R) /\ sl_subtract 0 s = Ok (mkslen [] [13; 3; 4]%Z).
Proof.
  split; [vm_compute; reflexivity|]. split; [|vm_compute; reflexivity].
  intros l [<-|[<-|[<-|[]]]]; (split; [cbn; lia|cbn; apply (IZR_lt 0); lia]).
Qed.
