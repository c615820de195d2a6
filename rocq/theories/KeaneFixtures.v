(** Sample data for the theorems about induction without end. *)
From Coq Require Import Reals QArith Qcanon List ZArith Lia Classical.
From Verif Require Import Base LenT FM Subspace Lengths IET LenInst Sqrt2 Decomp Spec SpecDec Api DecApi RankApi DenseApi Fixtures.
From Verif Require Import ZorichProof Dyn Saf Path Direct Similar InduceProof InduceCons World Seq DecompInv DecompRef DecompStep DecompAll DecompBudget RankDec Ends EndsDec.
Open Scope nat_scope.

(** Runs for the examples. *)
Section Runs.
Context {T : Type} {O : LenOps T} {W : LenLaws T}.

Fixpoint quiet_run (fuel : nat) (ls : list Z) (i : iet T) (s : slen T) : bool :=
  match ls with
  | [] => true
  | l :: ls => (0 <=? l)%Z && (l <=? INT_MAX)%Z &&
    match induce sample_lens fuel l i s with
    | Ok (st, j, t) =>
      match is_result st with
      | LIMIT_REACHED | WITHOUT_PERIODIC_TRAJECTORY_BOSHERNITZAN => quiet_run fuel ls j t
      | _ => false
      end
    | _ => false
    end
  end.
Lemma quiet_run_ok fuel ls : forall i s, quiet_run fuel ls i s = true -> quiet ls i s.
Proof.
  induction ls as [|l ls IH]; intros i s H; [constructor|]. cbn [quiet_run] in H.
  apply andb_prop in H as [H H']. apply andb_prop in H as [H1 H2]. apply Z.leb_le in H1, H2.
  destruct (induce sample_lens fuel l i s) as [[[st j] t]| | | |] eqn:E; try discriminate.
  destruct (is_result st) eqn:Er; try discriminate; (econstructor; [lia | exact E | rewrite Er; auto | exact (IH j t H')]).
Qed.

(** Calls on a single IET. *)
Fixpoint chain (p : list op) (i : iet T) (s : slen T) : option (iet T * slen T) :=
  match p with
  | [] => Some (i, s)
  | o :: p => match run_op o i s with Ok (j, _, t) => chain p j t | _ => None end
  end.
Lemma chain_obtainable p : Forall op_legal p -> forall i s j t, obtainable i s -> chain p i s = Some (j, t) -> obtainable j t.
Proof.
  induction 1 as [|o p Ho _ IH]; intros i s j t H E; cbn [chain] in E; [injection E as <- <-; exact H|].
  destruct (run_op o i s) as [[[i1 ex] s1]| | | |] eqn:R; try discriminate.
  apply (IH i1 s1); [|exact E]. exact (step_obtainable i s o i1 ex s1 i1 H Ho R (or_introl eq_refl)).
Qed.

(** A decomposition that consists of a single component without connections and with
    nonvanishing SAF invariant stays so. *)
Definition steady (e0 : exch) (d : decomp T) : Prop :=
  dec_ok e0 d /\ exists x, d_comps d = [x] /\ i_size (dc_iet x) <> 1 /\ vis0 (saf_now (dc_iet x) (d_len d)) = false.

Lemma steady_step e0 d fuel limit st d' : ~ has_saddle_connection e0 -> steady e0 d -> (1 <= limit <= INT_MAX)%Z ->
  decomposition_step fuel limit 0 d = Ok (st, d') -> open_ st /\ steady e0 d'.
Proof.
  intros Ns (H & x & Ec & Sz & Vs) HL E.
  destruct (big_call e0 d fuel limit 0 st d' H ltac:(lia) ltac:(rewrite Ec; simpl; lia) E) as (C1 & x' & C2 & Ec' & Hl & P).
  destruct C1; [|discriminate]. rewrite Ec' in Ec. simpl in Ec. injection Ec as -> ->.
  destruct (dk_good _ _ H x) as [Gx Sw]; [rewrite Ec'; left; reflexivity|].
  assert (Keep : forall y, d_comps d' = [] ++ y :: [] -> reach (dc_iet x) (d_len d) (dc_iet y) (d_len d') -> steady e0 d').
  { intros y Ey R. split; [apply P|]. exists y. split; [exact Ey|]. split.
    - intros C. apply Sz. rewrite <- C. exact (Permutation.Permutation_length (reach_labels _ _ _ _ (proj1 Gx) R)).
    - rewrite (reach_saf _ _ _ _ (proj1 Gx) R). exact Vs. }
  pose proof (sp_case _ _ _ _ _ _ _ P) as Q. unfold dstep_post in Q. unfold open_. destruct (dst_result st) eqn:Er.
  - destruct Q as (i' & Ed & R & _). split; [auto|]. exact (Keep _ Ed R).
  - destruct Q as (i' & Hs & _). contradiction.
  - destruct Q as (i1 & k & b & t & w & _ & _ & _ & _ & Dc & _). exfalso. apply Ns. exists b, t. exact (direct_saddle _ _ _ Dc).
  - destruct Q as (i1 & i' & b & t & w & _ & _ & _ & _ & Dc & _). exfalso. apply Ns. exists b, t. exact (direct_saddle _ _ _ Dc).
  - destruct Q as (i' & Ed & R & _). split; [auto|]. exact (Keep _ Ed R).
  - exfalso. destruct (step_is_induce e0 fuel limit d [] x [] st d' H Ec' ltac:(lia) E) as (v & i0 & k & f & ist & j & y & extra & Es & Hk & Ei & Ed & Hy & _ & Hres & Hlim).
    destruct (saf_invariant_ok (dc_iet x) (d_len d) (proj1 Gx) (proj1 (proj2 Gx))) as (w & Q1 & Cw). rewrite Q1 in Es. injection Es as _ <-.
    assert (Hir : is_result ist = WITHOUT_PERIODIC_TRAJECTORY_AUTO_SIMILAR) by (rewrite Er in Hres; destruct (is_result ist); try discriminate; reflexivity).
    pose proof (similar_saf f k _ _ ist j (d_len d') (good_set_saf _ _ _ Gx Cw) ltac:(lia) Ei Hir) as V.
    change (saf_now (set_saf (dc_iet x) (Some w)) (d_len d)) with (saf_now (dc_iet x) (d_len d)) in V. congruence.
  - destruct Q.
Qed.
End Runs.

(** Lengths 1 and sqrt 2: a rotation. *)
Definition rot_lens : slen q2 := mkslen [] [q2_of 1 0; q2_of 0 1].
Definition rot_iet : iet q2 := fresh [0; 1] [1; 0].
Lemma rot_obtainable : obtainable rot_iet rot_lens.
Proof. apply fresh_obtainable. vm_compute. reflexivity. Qed.

(** An IET for which the similarity tracker is wrong about saddle connections. *)
Definition tw_lens : slen q2 := mkslen [] [q2_of 4 0; q2_of 1 0; q2_of (-2) 2; q2_of 1 2; q2_of 2 2; q2_of 1 0; q2_of 2 0].
Definition tw_iet : iet q2 := fresh [0; 1; 2; 3; 4; 5; 6] [2; 0; 6; 5; 4; 3; 1].
Lemma tw_obtainable : obtainable tw_iet tw_lens.
Proof. apply fresh_obtainable. vm_compute. reflexivity. Qed.
Definition tw_calls : list op := [op_induce 9 1;
  op_zorich; op_swap; op_zorich; op_swap; op_zorich; op_swap; op_zorich; op_swap;
  op_zorich; op_swap; op_zorich; op_swap; op_zorich; op_swap; op_zorich].
