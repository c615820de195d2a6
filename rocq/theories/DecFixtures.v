(** Concrete decompositions for the examples beside the theorems. *)
From Coq Require Import Reals Permutation.
From Verif Require Import Base QcTac LenT FM Subspace Lengths IET LenInst Sqrt2 Decomp Spec Api DecApi Fixtures.
Open Scope nat_scope.

Section DecFixtures.
Context {T : Type} {O : LenOps T} {W : LenLaws T}.

(** Unlimited steps on the listed components. *)
Fixpoint play (cs : list nat) (d : decomp T) : res (list dstep * decomp T) :=
  match cs with
  | [] => Ok ([], d)
  | c :: cs' =>
    if c <? length (d_comps d) then
      '(st, d) <- decomposition_step 100 (-1) c d ;; '(tr, d) <- play cs' d ;; Ok (st :: tr, d)
    else UB
  end.

Lemma play_history (i : iet T) (s : slen T) : forall cs tr d tr' d', decomposition i s tr d -> play cs d = Ok (tr', d') ->
  decomposition i s (tr ++ tr') d'.
Proof.
  induction cs as [|c cs IH]; intros tr d tr' d' H E; cbn [play] in E.
  - injection E as <- <-. rewrite app_nil_r. exact H.
  - destruct (Nat.ltb_spec c (length (d_comps d))); [|discriminate].
    apply bind_ok in E as ([st d1] & E1 & E). apply bind_ok in E as ([tr2 d2] & E2 & E). injection E as <- <-.
    specialize (IH (tr ++ [st]) d1 tr2 d2). rewrite <- app_assoc in IH. apply IH; [|exact E2].
    eapply dh_step; [exact H| |eassumption|exact E1]. discriminate.
Qed.

(** The state after these steps. *)
Definition after (i : iet T) (s : slen T) (cs : list nat) (P : list dstep -> decomp T -> Prop) : Prop :=
  match (d <- dec_make i s ;; play cs d) with Ok (tr, d) => P tr d | _ => False end.

Lemma after_history (i : iet T) (s : slen T) cs P : obtainable i s -> after i s cs P -> exists tr d, decomposition i s tr d /\ P tr d.
Proof.
  unfold after. intros H Q. destruct (dec_make i s) as [d0| | | |] eqn:E; try contradiction. cbn [bind] in Q.
  destruct (play cs d0) as [[tr d]| | | |] eqn:E1; try contradiction. exists tr, d. split; [|exact Q].
  exact (play_history i s cs [] d0 tr d (dh_new _ _ _ H E) E1).
Qed.

End DecFixtures.

(** Lengths 1, 3, sqrt 2, 3, 3 on five labels; decomposes into a minimal component and a
    cylinder. *)
Definition m_lens : slen q2 := mkslen [] [q2_of 1 0; q2_of 3 0; q2_of 0 1; q2_of 3 0; q2_of 3 0].
Definition m_iet : iet q2 := fresh [1; 0; 2; 3; 4] [3; 2; 0; 4; 1].
Lemma m_obtainable : obtainable m_iet m_lens.
Proof. apply fresh_obtainable. vm_compute. reflexivity. Qed.

(** An abbreviation for the connections. *)
Definition par (b t : label) : connection := mkconn (mksep b PARALLEL) (mksep t ANTIPARALLEL).
Definition anti (t b : label) : connection := mkconn (mksep t ANTIPARALLEL) (mksep b PARALLEL).
