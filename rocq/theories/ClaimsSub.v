(** Proofs of the properties in [PropSub]. *)
From Coq Require Import Reals Lra Permutation.
From Verif Require Import Base QcTac LenT FM Subspace SpecLin SubApi SubspaceProof SubApiProof.
Open Scope nat_scope.

Lemma nznn_spec_ok r h d P : subspace r h d P ->
  (nznn_spec r <-> exists x, length x = d /\ P x /\ vnonneg x /\ vnonzero x).
Proof.
  intros H. destruct (subspace_ok r h d P H) as (_ & _ & Hm & _). unfold nznn_spec, vnonzero. split.
  - intros (x & Hx & Hn & Hz). apply Hm in Hx. exists x. tauto.
  - intros (x & Hl & Hx & Hn & Hz). exists x. rewrite Hm. tauto.
Qed.

Lemma claim_C18_agree : forall r d P eqs,
  subspace r true d P ->
  (forall x, length x = d -> (P x <-> Forall (fun e => dot e x = 0%Qc) eqs)) ->
  exists b, nznn r = Ok b /\ nznn_mip r = Ok b /\ nznn_polyhedron r = Ok b /\ nznn_quotient r eqs = Ok b /\
    (b = true <-> exists x, length x = d /\ P x /\ vnonneg x /\ vnonzero x).
Proof.
  intros r d P eqs H He. destruct (subspace_ok r true d P H) as (Hd & Hh & Hm & Hl). specialize (Hl eq_refl).
  destruct (nznn_ok r Hl Hh) as (b0 & E0 & H0). destruct (nznn_mip_ok r Hl Hh) as (b1 & E1 & H1).
  destruct (nznn_polyhedron_ok r Hl Hh) as (b2 & E2 & H2).
  destruct (nznn_quotient_ok r eqs Hh) as (b3 & E3 & H3).
  { intros x. rewrite Hm, Hd. split; intros [A B]; (split; [exact A|]); apply He; assumption. }
  assert (U : forall x y : bool, (x = true <-> nznn_spec r) -> (y = true <-> nznn_spec r) -> x = y).
  { intros x y Hx Hy. destruct x, y; try reflexivity; [symmetry; apply Hy, Hx | apply Hx, Hy]; reflexivity. }
  exists b0. rewrite E0, E1, E2, E3, (U b1 b0 H1 H0), (U b2 b0 H2 H0), (U b3 b0 H3 H0).
  do 4 (split; [reflexivity|]). rewrite H0. apply (nznn_spec_ok r true d P H).
Qed.

Lemma claim_C18_integer_program : forall r d P,
  subspace r true d P ->
  ((exists x, length x = d /\ P x /\ vnonneg x /\ vnonzero x) <->
   (forall M : Qc, exists x, length x = d /\ P x /\ vnonneg x /\
      Forall (fun q => exists n : Z, q = Q2Qc (inject_Z n)) x /\ (M < fold_right Qcplus 0 x)%Qc)).
Proof.
  intros r d P H. destruct (subspace_ok r true d P H) as (Hd & Hh & Hm & Hl). specialize (Hl eq_refl).
  rewrite <- (nznn_spec_ok r true d P H), (nznn_mip_integer r Hl). split; intros G M; destruct (G M) as (x & Hx).
  - destruct Hx as (Hx & Hn & Hi & Hs). apply Hm in Hx. exists x. split; [apply Hx|]. split; [apply Hx|]. split; [exact Hn|].
    split; [exact Hi|]. rewrite <- (dot_ones x _ eq_refl). exact Hs.
  - destruct Hx as (Hx & Hp & Hn & Hi & Hs). exists x. split; [apply Hm; auto|]. split; [exact Hn|]. split; [exact Hi|].
    rewrite (dot_ones x _ eq_refl). exact Hs.
Qed.

Lemma claim_C18_rejects : forall r d P eqs,
  subspace r false d P ->
  nznn r = Throw /\ nznn_mip r = Throw /\ nznn_polyhedron r = Throw /\ nznn_quotient r eqs = Throw.
Proof.
  intros r d P eqs H. destruct (subspace_ok r false d P H) as (_ & Hh & _).
  destruct (nznn_inhomogeneous r Hh) as (A & B & C & D). auto.
Qed.

Lemma claim_C19_non_negative : forall r h d P,
  subspace r h d P -> (has_nonneg r = true <-> exists x, length x = d /\ P x /\ vnonneg x).
Proof.
  intros r h d P H. destruct (subspace_ok r h d P H) as (Hd & Hh & Hm & Hl). rewrite has_nonneg_ok.
  split; intros (x & Hx); exists x; [rewrite Hm in Hx | rewrite Hm]; tauto.
Qed.

Lemma claim_C19_positive : forall r h d P,
  subspace r h d P -> (has_pos r = true <-> d <> 0 /\ exists x, length x = d /\ P x /\ vpos x).
Proof.
  intros r h d P H. destruct (subspace_ok r h d P H) as (Hd & Hh & Hm & Hl). rewrite has_pos_ok, Hd.
  split; intros (Hz & x & Hx); (split; [exact Hz|]); exists x; [rewrite Hm in Hx | rewrite Hm]; tauto.
Qed.

Lemma claim_C20_exact : forall r h d P,
  subspace r h d P -> forall x, p_mem (r_sub r) x <-> length x = d /\ P x.
Proof.
  intros r h d P H. apply (subspace_ok r h d P H).
Qed.

Lemma claim_C20_constructors : forall eqs y gens,
  (length eqs = length y -> exists r, ras_equations eqs y = Ok r) /\
  (length eqs <> length y -> ras_equations eqs y = Throw) /\
  (exists r, ras_generators gens = Ok r).
Proof.
  intros eqs y gens. split; [|split].
  - intros H. destruct (ras_equations_ok eqs y H) as (r & E & _). exists r. exact E.
  - apply ras_equations_mismatch.
  - destruct (ras_generators_ok gens) as (r & E & _). exists r. exact E.
Qed.

Lemma claim_C20_normalization : forall v rhs,
  exists den : Z, (0 < den)%Z /\
    let m q := (Q2Qc (inject_Z den) * q)%Qc in
    lin_expr v rhs = Ok (map m v, m rhs) /\
    forall q, In q (rhs :: v) -> exists n : Z, m q = Q2Qc (inject_Z n).
Proof.
  intros v rhs. destruct (lin_expr_ok v rhs) as (den & Hd & E & Hv & n & Hr). exists den. split; [exact Hd|].
  rewrite vscale_map in E. replace (rhs * zq den)%Qc with (zq den * rhs)%Qc in * by ring. split; [exact E|].
  intros q [<-|Hq]; [exists n; exact Hr | apply Hv, Hq].
Qed.

Lemma claim_C20_equality : forall r h d P r' h' d' P',
  subspace r h d P -> subspace r' h' d' P' ->
  (ras_eqb r r' = true <-> d = d' /\ forall x, length x = d -> (P x <-> P' x)).
Proof.
  intros r h d P r' h' d' P' H H'. destruct (subspace_ok _ _ _ _ H) as (Hd & _ & Hm & _).
  destruct (subspace_ok _ _ _ _ H') as (Hd' & _ & Hm' & _). rewrite ras_eqb_ok, Hd, Hd'. split.
  - intros [E G]. split; [exact E|]. rewrite <- E in Hm'. intros x Hx. specialize (G x). rewrite Hm, Hm' in G. tauto.
  - intros [E G]. split; [exact E|]. rewrite E in *. intros x. rewrite Hm, Hm'. split; intros [A B]; (split; [exact A|]); apply G; assumption.
Qed.

Lemma claim_C20_elementary : forall r h d P i j c,
  subspace r h d P ->
  ((0 <= i < Z.of_nat d)%Z /\ (0 <= j < Z.of_nat d)%Z ->
   exists r', ras_elementary r i j c = Ok r' /\
     subspace r' h d (fun x' => exists x, length x = d /\ P x /\ x' = add_multiple (Z.to_nat i) (Z.to_nat j) c x)) /\
  (~ ((0 <= i < Z.of_nat d)%Z /\ (0 <= j < Z.of_nat d)%Z) -> ras_elementary r i j c = Throw).
Proof.
  intros r h d P i j c H. destruct (subspace_ok _ _ _ _ H) as (Hd & _). split.
  - intros [Hi Hj]. destruct (ras_elementary_ok r (Z.to_nat i) (Z.to_nat j) c) as (s & E & _); [lia|lia|].
    exists s. split; [rewrite !Z2Nat.id in E by lia; exact E|]. exact (sub_elementary r h d P _ _ c s H E).
  - intros Hn. apply ras_elementary_throws. rewrite Hd. exact Hn.
Qed.

Lemma claim_C20_undo : forall r h d P i j c,
  subspace r h d P -> i <> j -> i < d -> j < d ->
  exists s t, ras_elementary r (Z.of_nat i) (Z.of_nat j) c = Ok s /\
    ras_elementary s (Z.of_nat i) (Z.of_nat j) (- c)%Qc = Ok t /\ ras_eqb r t = true.
Proof.
  intros r h d P i j c H Hij Hi Hj. destruct (subspace_ok _ _ _ _ H) as (Hd & _).
  apply ras_elementary_inverse; [exact Hij | lia | lia].
Qed.

Lemma claim_C21_partial : forall r h d P i j r',
  subspace r h d P -> ras_swap r (Z.of_nat i) (Z.of_nat j) = Ok r' ->
  forall x', p_mem (r_sub r') x' <->
    length x' = d /\ exists x, length x = d /\ P x /\ x' = exchange i j x.
Proof.
  intros r h d P i j r' H E. apply (subspace_ok r' h d). exact (sub_swap r h d P i j r' H E).
Qed.

Lemma claim_C21_refuted : 
  (forall r h d P i j, subspace r h d P -> 3 <= d -> ras_swap r (Z.of_nat i) (Z.of_nat j) = UB) /\
  (forall r h P i, subspace r h 2 P -> ras_swap r (Z.of_nat i) (Z.of_nat i) = UB) /\
  exists r, subspace r true 3 (solves [[1%Qc; 1%Qc; 1%Qc]] [0%Qc]) /\ ras_swap r 0 1 = UB.
Proof.
  split; [|split].
  - intros r h d P i j H Hd. destruct (subspace_ok _ _ _ _ H) as (E & _). apply ras_swap_undefined; lia.
  - intros r h P i H. destruct (subspace_ok _ _ _ _ H) as (E & _). apply ras_swap_same; lia.
  - eexists. split; [eapply (sub_equations [[1%Qc; 1%Qc; 1%Qc]]); [vm_compute; reflexivity | repeat constructor]|].
    vm_compute. reflexivity.
Qed.

