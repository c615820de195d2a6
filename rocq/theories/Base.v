(** Outcomes of C++ calls and small list utilities shared by the whole model. *)
From Coq Require Export List Arith ZArith Bool Lia.
Export ListNotations.

(** A label is identified by its id.
    Models intervalxt/label.hpp 33-56 and src/label.cc 28-34 ([Label] wraps a
    [size_t id]; [operator==] compares ids).  Simplification: ids are natural
    numbers, not 64-bit words; the few places where the word size matters
    (hash, render) are modelled separately. *)
Notation label := nat (only parsing).
Definition label_eqb : label -> label -> bool := Nat.eqb.

(** The possible outcomes of a call (not part of the code; our semantics of it):
    - [Ok a]: normal return
    - [Throw]: a C++ exception ([throw ...], [std::vector::at], CHECK_ARGUMENT)
    - [AssertFail]: a failed [assert]/LIBINTERVALXT_ASSERT (src/util/assert.ipp)
    - [UB]: undefined behaviour (end() dereferenced, division by zero, signed overflow)
    - [OutOfFuel]: the model's loop bound was too small (never a normal value). *)
Inductive res (A : Type) : Type :=
| Ok (a : A)
| Throw
| AssertFail
| UB
| OutOfFuel.
Arguments Ok {A} a.
Arguments Throw {A}.
Arguments AssertFail {A}.
Arguments UB {A}.
Arguments OutOfFuel {A}.

Definition bind {A B} (m : res A) (f : A -> res B) : res B :=
  match m with
  | Ok a => f a
  | Throw => Throw
  | AssertFail => AssertFail
  | UB => UB
  | OutOfFuel => OutOfFuel
  end.

Declare Scope res_scope.
Notation "x <- m ;; k" := (bind m (fun x => k))
  (at level 61, m at next level, right associativity) : res_scope.
Notation "' p <- m ;; k" := (bind m (fun p => k))
  (at level 61, p pattern, m at next level, right associativity) : res_scope.
Open Scope res_scope.

(** [assert_ b k]: LIBINTERVALXT_ASSERT(b) followed by [k]. *)
Definition assert_ {B} (b : bool) (k : res B) : res B := if b then k else AssertFail.
(** [check_ b k]: LIBINTERVALXT_CHECK_ARGUMENT(b) followed by [k]. *)
Definition check_ {B} (b : bool) (k : res B) : res B := if b then k else Throw.

Definition is_ok {A} (m : res A) : Prop := exists a, m = Ok a.

Lemma bind_ok {A B} (m : res A) (f : A -> res B) b :
  bind m f = Ok b -> exists a, m = Ok a /\ f a = Ok b.
Proof. destruct m; simpl; try discriminate. intros H; eauto. Qed.

(** Monadic map over a list, left to right. *)
Fixpoint mapM {A B} (f : A -> res B) (l : list A) : res (list B) :=
  match l with
  | [] => Ok []
  | x :: l' => y <- f x ;; ys <- mapM f l' ;; Ok (y :: ys)
  end.

Lemma mapM_ok {A B} (f : A -> res B) (g : A -> B) l :
  (forall x, In x l -> f x = Ok (g x)) -> mapM f l = Ok (map g l).
Proof.
  induction l as [|x l IH]; intros H; simpl; [reflexivity|].
  rewrite (H x) by (left; reflexivity). simpl.
  rewrite IH by (intros y Hy; apply H; right; exact Hy). reflexivity.
Qed.

(** Membership test, [std::find(...) != end]. *)
Definition memb (a : label) (l : list label) : bool := existsb (Nat.eqb a) l.

Lemma memb_In a l : memb a l = true <-> In a l.
Proof.
  unfold memb. rewrite existsb_exists. split.
  - intros [x [Hx He]]. apply Nat.eqb_eq in He. subst. exact Hx.
  - intros H. exists a. split; [exact H | apply Nat.eqb_refl].
Qed.

Lemma memb_nIn a l : memb a l = false <-> ~ In a l.
Proof.
  rewrite <- memb_In. destruct (memb a l); split; intros H; try congruence.
Qed.

(** [split_at a l]: the part of [l] in front of the first [a] and the part behind
    it (iterator search [std::find]); [None] if [a] does not occur. *)
Fixpoint split_at (a : label) (l : list label) : option (list label * list label) :=
  match l with
  | [] => None
  | x :: l' =>
    if Nat.eqb x a then Some ([], l')
    else match split_at a l' with
         | None => None
         | Some (p, q) => Some (x :: p, q)
         end
  end.

Lemma split_at_some a l p q :
  split_at a l = Some (p, q) -> l = p ++ a :: q /\ ~ In a p.
Proof.
  revert p q; induction l as [|x l IH]; simpl; intros p q H; [discriminate|].
  destruct (Nat.eqb_spec x a) as [->|Hne].
  - injection H as <- <-. split; [reflexivity | intros []].
  - destruct (split_at a l) as [[p' q']|]; [|discriminate].
    injection H as <- <-. destruct (IH p' q' eq_refl) as [-> Hn].
    split; [reflexivity|]. intros [->|Hin]; [apply Hne; reflexivity | exact (Hn Hin)].
Qed.

Lemma split_at_intro a p q : ~ In a p -> split_at a (p ++ a :: q) = Some (p, q).
Proof.
  induction p as [|x p IH]; intros Hn; simpl.
  - rewrite Nat.eqb_refl. reflexivity.
  - destruct (Nat.eqb_spec x a) as [->|Hne].
    + exfalso; apply Hn; left; reflexivity.
    + rewrite IH; [reflexivity|]. intros Hin; apply Hn; right; exact Hin.
Qed.

Lemma split_at_none a l : split_at a l = None <-> ~ In a l.
Proof.
  induction l as [|x l IH]; simpl.
  - split; [intros _ [] | reflexivity].
  - destruct (Nat.eqb_spec x a) as [->|Hne].
    + split; [discriminate | intros H; exfalso; apply H; left; reflexivity].
    + destruct (split_at a l) as [[p q]|].
      * split; [discriminate|]. intros H. exfalso.
        assert (Hn : ~ In a l) by (intros Hin; apply H; right; exact Hin).
        apply IH in Hn. discriminate.
      * split; [|reflexivity]. intros _ [He|Hin]; [exact (Hne He)|].
        apply IH in Hin; [exact Hin | reflexivity].
Qed.

(** In-place assignment [l[i] = v]; [None] if [i] is out of range
    (std::vector::at throws in that case). *)
Fixpoint set_nth {A} (i : nat) (v : A) (l : list A) {struct l} : option (list A) :=
  match l, i with
  | [], _ => None
  | _ :: l', O => Some (v :: l')
  | x :: l', S i' => match set_nth i' v l' with
                     | None => None
                     | Some l'' => Some (x :: l'')
                     end
  end.

Lemma set_nth_some {A} i (v : A) l :
  i < length l -> exists l', set_nth i v l = Some l'.
Proof.
  revert i; induction l as [|x l IH]; intros i Hi; simpl in *; [lia|].
  destruct i as [|i]; [eexists; reflexivity|].
  destruct (IH i) as [l' ->]; [lia|]. eexists; reflexivity.
Qed.

Lemma set_nth_length {A} i (v : A) l l' : set_nth i v l = Some l' -> length l' = length l.
Proof.
  revert i l'; induction l as [|x l IH]; intros i l' H; simpl in *; [discriminate|].
  destruct i as [|i].
  - injection H as <-. reflexivity.
  - destruct (set_nth i v l) as [l''|] eqn:E; [|discriminate].
    injection H as <-. simpl. f_equal. eapply IH; eassumption.
Qed.

Lemma set_nth_same {A} i (v : A) l l' :
  set_nth i v l = Some l' -> nth_error l' i = Some v.
Proof.
  revert i l'; induction l as [|x l IH]; intros i l' H; simpl in *; [discriminate|].
  destruct i as [|i].
  - injection H as <-. reflexivity.
  - destruct (set_nth i v l) as [l''|] eqn:E; [|discriminate].
    injection H as <-. simpl. eapply IH; eassumption.
Qed.

Lemma set_nth_other {A} i j (v : A) l l' :
  set_nth i v l = Some l' -> i <> j -> nth_error l' j = nth_error l j.
Proof.
  revert i j l'; induction l as [|x l IH]; intros i j l' H Hne; simpl in *; [discriminate|].
  destruct i as [|i].
  - injection H as <-. destruct j as [|j]; [lia | reflexivity].
  - destruct (set_nth i v l) as [l''|] eqn:E; [|discriminate].
    injection H as <-. destruct j as [|j]; [reflexivity|]. simpl.
    eapply IH; [eassumption | lia].
Qed.

(** Duplicate-freeness of label lists as a boolean
    (size of an unordered_set equals size of the list). *)
Fixpoint nodupb (l : list label) : bool :=
  match l with
  | [] => true
  | x :: l' => negb (memb x l') && nodupb l'
  end.

Lemma nodupb_NoDup l : nodupb l = true <-> NoDup l.
Proof.
  induction l as [|x l IH]; simpl.
  - split; [constructor | reflexivity].
  - rewrite andb_true_iff, negb_true_iff, IH. split.
    + intros [Hm Hd]. constructor; [apply memb_nIn; exact Hm | exact Hd].
    + intros H; inversion H; subst. split; [apply memb_nIn; assumption | assumption].
Qed.
