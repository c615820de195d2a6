(** Canonical rationals (model of GMP's [mpq_class]): a linear arithmetic tactic and
    vector operations. *)
From Coq Require Export QArith Qcanon.
From Coq Require Import Lqa.
From Verif Require Import Base.
Open Scope Qc_scope.

Lemma this_plus x y : (this (x + y)%Qc == this x + this y)%Q.
Proof. apply Qred_correct. Qed.
Lemma this_mult x y : (this (x * y)%Qc == this x * this y)%Q.
Proof. apply Qred_correct. Qed.
Lemma this_opp x : (this (- x)%Qc == - this x)%Q.
Proof. apply Qred_correct. Qed.
Lemma this_minus x y : (this (x - y)%Qc == this x - this y)%Q.
Proof. unfold Qcminus. rewrite this_plus, this_opp. reflexivity. Qed.
Lemma this_0 : (this 0%Qc == 0)%Q. Proof. reflexivity. Qed.
Lemma this_1 : (this 1%Qc == 1)%Q. Proof. reflexivity. Qed.

Lemma Qc_eq_iff x y : x = y <-> (this x == this y)%Q.
Proof.
  split; [intros ->; reflexivity|]. apply Qc_is_canon.
Qed.

Lemma Qc_neq_iff x y : x <> y <-> ~ (this x == this y)%Q.
Proof. rewrite Qc_eq_iff. reflexivity. Qed.

(** Linear arithmetic over Qc, by translation to Q. *)
Ltac qc2q :=
  unfold Qcle, Qclt in *;
  repeat match goal with
  | H : @eq Qc _ _ |- _ => apply (proj1 (Qc_eq_iff _ _)) in H
  | H : ~ (@eq Qc _ _) |- _ => apply (proj1 (Qc_neq_iff _ _)) in H
  | |- @eq Qc _ _ => apply (proj2 (Qc_eq_iff _ _))
  end;
  repeat (rewrite ?this_plus, ?this_mult, ?this_opp, ?this_minus, ?this_0, ?this_1 in * ).
Ltac qclra := qc2q; lra.

Lemma Qc_test (x y : Qc) : x <= y -> 0 < x -> 0 < x + y.
Proof. intros; qclra. Qed.
Lemma Qc_test2 (x y : Qc) : x + y = 0 -> x = - y.
Proof. intros; qclra. Qed.
Open Scope nat_scope.
