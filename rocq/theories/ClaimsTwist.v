(** Proofs of the properties in [PropTwist]. *)
From Coq Require Import Reals Lra Lia Permutation QArith Qcanon Classical.
From Verif Require Import Base QcTac LenT FM Subspace Lengths IET LenInst Sqrt3 Decomp Spec SpecDec Api Fixtures KeaneFixtures.
From Verif Require Import Bosh ZorichProof Dyn Path Similar InduceProof InduceCons World Seq ClaimsIET ClaimsInduce ClaimsDecomp.
Open Scope nat_scope.

(** The lengths [3 - sqrt 3], [2 + 2 sqrt 3], .... *)
Definition k3_of (a b : Z) : k3 := K3 (zq a) (zq b).
Definition tx_lens : slen k3 := mkslen [] [k3_of 3 (-1); k3_of 2 2; k3_of (-1) 1; k3_of 9 (-5); k3_of (-5) 3; k3_of (-1) 1; k3_of 4 2; k3_of 2 0].
Definition tx_iet : iet k3 := fresh [0; 1; 2; 3; 4; 5; 6; 7] [5; 4; 0; 2; 3; 6; 7; 1].
Lemma tx_obtainable : obtainable tx_iet tx_lens.
Proof. apply fresh_obtainable. vm_compute. reflexivity. Qed.
Definition tx_calls : list op := [op_induce 9 1;
  op_zorich; op_swap; op_zorich; op_swap; op_zorich; op_swap; op_zorich; op_swap; op_zorich; op_swap;
  op_zorich; op_swap; op_zorich; op_swap; op_zorich; op_swap; op_zorich; op_swap].

(** Follow one of the parts whenever the IET is split. *)
Section Seek.
Context {T : Type} {O : LenOps T} {W : LenLaws T}.
Fixpoint seek (p : list bool) (i : iet T) (s : slen T) : option (iet T * slen T) :=
  match p with
  | [] => Some (i, s)
  | b :: p =>
    match induce sample_lens 40 (-1) i s with
    | Ok (st, j, t) => match b, is_additional st with false, _ => seek p j t | true, Some r => seek p r t | _, _ => None end
    | _ => None
    end
  end.
Lemma seek_cylinder p : forall i s j t, obtainable i s -> seek p i s = Some (j, t) -> length (i_top j) = 1 -> has_periodic_point (exch_of i s).
Proof.
  induction p as [|b p IH]; intros i s j t H E L; cbn [seek] in E.
  - injection E as <- <-. pose proof (wf_proper _ _ (proj1 (obtainable_good i s H))) as P.
    destruct (i_top i) as [|a [|]] eqn:Et; try discriminate.
    exists 0%R, 1. split; [lia|]. assert (S0 : (0 < size (exch_of i s))%R).
    { unfold size. change (e_top (exch_of i s)) with (i_top i). rewrite Et. destruct P as (_ & _ & Pos).
      specialize (Pos a). change (e_top (exch_of i s)) with (i_top i) in Pos. rewrite Et in Pos. specialize (Pos (or_introl eq_refl)). set (f := e_len (exch_of i s)) in *. clearbody f. cbn. lra. }
    exists 0%R. split; [apply (single_fixed _ a P Et); lra|reflexivity].
  - destruct (induce sample_lens 40 (-1) i s) as [[[st j1] t1]| | | |] eqn:E1; try discriminate.
    assert (HL : (-1 <= INT_MAX)%Z) by (vm_compute; discriminate).
    assert (HO : op_legal (op_induce 40 (-1))) by (split; vm_compute; discriminate).
    assert (Rn : run_op (op_induce 40 (-1)) i s = Ok (j1, match is_additional st with Some j => [j] | None => [] end, t1)) by (unfold run_op; rewrite E1; reflexivity).
    assert (Ob : forall k, In k (j1 :: match is_additional st with Some j => [j] | None => [] end) -> obtainable k t1)
      by (intros k Hk; exact (step_obtainable i s (op_induce 40 (-1)) j1 _ t1 k H HO Rn Hk)).
    destruct (is_additional st) as [r|] eqn:Ea.
    + apply (claim_C06_split T O W i s 40 (-1)%Z st j1 t1 r H HL E1 Ea).
      destruct b; [right|left]; (eapply IH; [apply Ob; simpl; auto|exact E|exact L]).
    + destruct b; [discriminate|].
      apply (claim_C06_periodic_preserved T O W i s 0 j1 t1 H).
      * exact (ind_induce i s 0 i s 40 (-1)%Z st j1 t1 (ind_start i s) HL E1 Ea).
      * eapply IH; [apply Ob; simpl; auto|exact E|exact L].
Qed.
End Seek.
Lemma claim_C24_refuted : exists (i : iet k3) (s : slen k3) st j t,
  obtainable i s /\ induce sample_lens 9 1 i s = Ok (st, j, t) /\
  is_result st = WITHOUT_PERIODIC_TRAJECTORY_AUTO_SIMILAR /\ has_periodic_point (exch_of i s).
Proof.
  destruct (chain tx_calls tx_iet tx_lens) as [[i s]|] eqn:E; [|exfalso; vm_compute in E; discriminate].
  assert (Hi : obtainable i s).
  { apply (chain_obtainable tx_calls) with (i := tx_iet) (s := tx_lens); [|exact tx_obtainable|exact E].
    unfold tx_calls. repeat constructor; vm_compute; discriminate. }
  assert (Hf : valid_inputb (sl_lens s) (i_top i) (i_bottom i) = true) by (vm_compute in E; injection E as <- <-; vm_compute; reflexivity).
  assert (Hs : s = mkslen [] (sl_lens s)) by (vm_compute in E; injection E as <- <-; reflexivity).
  pose proof (fresh_obtainable (sl_lens s) (i_top i) (i_bottom i) Hf) as Hj. rewrite <- Hs in Hj.
  destruct (induce sample_lens 9 1 i s) as [[[st j] t]| | | |] eqn:E1; try (exfalso; vm_compute in E; injection E as <- <-; vm_compute in E1; discriminate).
  exists i, s, st, j, t. split; [exact Hi|]. split; [exact E1|].
  split; [clear - E E1; vm_compute in E; injection E as <- <-; vm_compute in E1; injection E1 as <- _ _; reflexivity|].
  change (exch_of i s) with (exch_of (fresh (i_top i) (i_bottom i)) s).
  destruct (seek (repeat false 6) (fresh (i_top i) (i_bottom i)) s) as [[k u]|] eqn:E2; [|exfalso; clear - E E2; vm_compute in E; injection E as <- <-; vm_compute in E2; discriminate].
  apply (seek_cylinder _ _ _ k u Hj E2). clear - E E2. vm_compute in E. injection E as <- <-. vm_compute in E2. injection E2 as <- _. reflexivity.
Qed.

