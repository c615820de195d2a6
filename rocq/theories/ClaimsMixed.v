(** Proofs of the properties in PropMixed.v. *)
From Coq Require Import Reals Permutation Lia Lra.
From Verif Require Import Base QcTac LenT FM Subspace Lengths IET Decomp LenInst Sqrt2 Fixtures Spec Api RatioApi Mixed MixedApi Renf RenfApi.
From Verif Require Import RatioIet MixedRun RenfProof.
Open Scope nat_scope.
(** The quadratic field contains the rational numbers. *)
Global Instance Q2OverQ : OverQ q2 := { from_q q := (q, 0%Qc) }.
Lemma q2_free : independent [1%R; r2].
Proof.
  intros [|a [|b [|x v]]] L H; try discriminate L.
  assert (Z : q2_val (a, b) = 0%R) by (unfold q2_val; cbn [fst snd]; rewrite <- H; cbn [lin]; ring).
  apply q2_val_0 in Z. cbn [length vzero]. apply pair_equal_spec in Z. destruct Z as [-> ->]. reflexivity.
Qed.
Global Instance Q2OverQLaws : OverQLaws q2.
Proof. split; [intro q; reflexivity|exists [r2]; reflexivity|exact q2_free]. Qed.

(** The lengths 7, 5 (as rational numbers), 3 (as an element of the quadratic field) and
    4 times the square root of two. *)
Definition some_lengths : list (mixed q2) := [in_q (zq 7); in_q (zq 5); in_k (q2_of 3 0); in_k (q2_of 0 4)].

(** The lengths 7, 5, 3, 4 in both ways. *)
Definition even_lengths : list (mixed q2) := [in_q (zq 7); in_k (q2_of 5 0); in_q (zq 3); in_k (q2_of 4 0)].

Definition mixed_program : list (nat * op) := [(0, op_saf); (0, op_reduce); (0, op_saf); (1, op_saf); (0, op_bosh_periodic); (1, op_bosh_periodic); (0, op_induce 100 (-1)); (1, op_zorich)].
Definition mixed_calls : list dcall :=
  [dc_inject (mkhe 0 0 false) [] [(0, 5)]; dc_step 100 1 0; dc_decompose 100 100 (fun v => match lk_cylinder v with Some true => true | _ => false end) (-1)].
Definition field_calls : list dcall := [dc_inject (mkhe 0 0 false) [] [(0, 5)]; dc_step 100 1 0; dc_step 100 4 0; dc_step 100 (-1) 1; dc_step 100 1 0].
Definition even_program : list (nat * op) := [(0, op_zorich); (0, op_saf); (0, op_bosh_periodic); (0, op_induce 100 2)].

Definition field_laws : MixedLaws (mixed q2) := mix_laws.
Definition integer_laws : MixedLaws Z := mixed_of_uniform.

Lemma even_scaled : @mixed_proportional (mixed q2) _ field_laws Z _ integer_laws 1 [0; 1; 2; 3] (mkslen [] even_lengths) (mkslen [] [7; 5; 3; 4]%Z).
Proof.
  intros l Hl. assert (G : forall n m, IZR n = (1 * q2_val (q2_of n m))%R -> IZR n = (1 * q2_val (zq n, zq m))%R) by (intros; assumption).
  assert (G1 : forall n, IZR n = (1 * q2_val (q2_of n 0))%R) by (intro n; unfold q2_val, q2_of; cbn [fst snd]; rewrite !Qc2R_zq; ring).
  assert (G2 : forall n, IZR n = (1 * q2_val (zq n, 0%Qc))%R) by (intro n; unfold q2_val; cbn [fst snd]; rewrite Qc2R_zq, Qc2R_0; ring).
  destruct Hl as [<-|Hl]; [exact (G2 _)|]. destruct Hl as [<-|Hl]; [exact (G1 _)|]. destruct Hl as [<-|Hl]; [exact (G2 _)|].
  destruct Hl as [<-|Hl]; [exact (G1 _)|]. destruct Hl.
Qed.

Lemma even_input : @mixed_input (mixed q2) _ field_laws (mkslen [] even_lengths) [0; 1; 2; 3] [3; 2; 1; 0].
Proof.
  assert (G : valid_input (mkslen [] [7; 5; 3; 4]%Z) [0; 1; 2; 3] [3; 2; 1; 0]) by (apply valid_inputb_ok; vm_compute; reflexivity).
  destruct G as (V1 & V2 & V3 & V4).
  split; [exact V1|]. split; [exact V2|]. split; [exact V3|].
  intros l Hl. pose proof (even_scaled l Hl) as E. destruct (V4 l Hl) as (x & Ex & Px). unfold mixed_length in E. rewrite Ex in E.
  change (@mval Z _ integer_laws x) with (val x) in E. rewrite Rmult_1_l in E.
  destruct (nth_error (sl_lens (mkslen [] even_lengths)) l) as [y|]; [|exfalso; rewrite E in Px; apply (Rlt_irrefl 0), Px].
  exists y. split; [reflexivity|]. rewrite <- E. exact Px.
Qed.

Lemma claim_C68_program : forall (T : Type) (O : LenOps T) (W : MixedLaws T) (T' : Type) (O' : LenOps T') (W' : MixedLaws T')
    (c : R) (top bottom : list label) (ls : list T) (ls' : list T') (p : list (nat * op)),
  (0 < c)%R -> mixed_input (mkslen [] ls) top bottom -> mixed_proportional c top (mkslen [] ls) (mkslen [] ls') ->
  Forall (fun x => op_legal (snd x)) p ->
  both (fun r r' =>
      fst (fst r') = fst (fst r) /\
      map rows (snd (fst r')) = map rows (snd (fst r)) /\
      mixed_proportional c top (snd r) (snd r'))
    (session top bottom p (mkslen [] ls)) (session top bottom p (mkslen [] ls')).
Proof.
  intros T O W T' O' W' c top bottom ls ls' p Hc Hv Hp. apply session_mixed; assumption.
Qed.

Lemma claim_C68_decomposition : forall (T : Type) (O : LenOps T) (W : MixedLaws T) (T' : Type) (O' : LenOps T') (W' : MixedLaws T')
    (c : R) (top bottom : list label) (ls : list T) (ls' : list T') (p : list (nat * op)) (n : nat) (q : list dcall),
  (0 < c)%R -> mixed_input (mkslen [] ls) top bottom -> mixed_proportional c top (mkslen [] ls) (mkslen [] ls') ->
  Forall (fun x => op_legal (snd x)) p -> Forall dcall_legal q ->
  both (fun r r' => fst r' = fst r /\ Forall2 (mixed_view c) (snd r) (snd r'))
    (decomposing top bottom p n q (mkslen [] ls)) (decomposing top bottom p n q (mkslen [] ls')).
Proof.
  intros T O W T' O' W' c top bottom ls ls' p n q Hc Hv Hp. apply decomposing_mixed; assumption.
Qed.

Lemma claim_C68_fields : forall (K : Type) (O : LenOps K) (W : LenLaws K) (E : OverQ K), OverQLaws K -> forall
    (top bottom : list label) (ls : list (mixed K)) (p : list (nat * op)),
  valid_input (mkslen [] (map to_k ls)) top bottom -> Forall (fun x => op_legal (snd x)) p ->
  both (fun r r' =>
      fst (fst r') = fst (fst r) /\
      map rows (snd (fst r')) = map rows (snd (fst r)) /\
      forall l, In l top -> field_length (snd r) l = lamR (snd r') l)
    (session top bottom p (mkslen [] ls)) (session top bottom p (mkslen [] (map to_k ls))).
Proof.
  intros K O W E V. apply session_fields.
Qed.

Lemma claim_C68_fields_decomposition : forall (K : Type) (O : LenOps K) (W : LenLaws K) (E : OverQ K), OverQLaws K -> forall
    (top bottom : list label) (ls : list (mixed K)) (p : list (nat * op)) (n : nat) (q : list dcall),
  valid_input (mkslen [] (map to_k ls)) top bottom -> Forall (fun x => op_legal (snd x)) p -> Forall dcall_legal q ->
  both (fun r r' => fst r' = fst r /\
      Forall2 (fun v v' => look_at v' = look_at v /\ map (fun x => val (to_k x)) (cv_lengths v) = map val (cv_lengths v')) (snd r) (snd r'))
    (decomposing top bottom p n q (mkslen [] ls)) (decomposing top bottom p n q (mkslen [] (map to_k ls))).
Proof.
  intros K O W E V. apply decomposing_fields.
Qed.

