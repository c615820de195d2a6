(** Correctness of the operations on rational subspaces. *)
From Verif Require Import Base QcTac LenT SpecLin FM Subspace LenInst.

Local Open Scope nat_scope.

(** * Vectors *)

Lemma dot_app_exact u v x y : length u = length x -> dot (u ++ v) (x ++ y) = (dot u x + dot v y)%Qc.
Proof.
  revert x; induction u as [|a u IH]; intros [|b x] H; simpl in *; try lia; [ring|].
  rewrite IH by lia. ring.
Qed.

Lemma dot_firstn d u x z : length x = d -> dot (firstn d u) (x ++ z) = dot u x.
Proof.
  revert d x; induction u as [|a u IH]; intros d x H.
  - rewrite firstn_nil. destruct x; reflexivity.
  - destruct d as [|d]; destruct x as [|b x]; simpl in *; try lia; [reflexivity|].
    rewrite IH by lia. reflexivity.
Qed.

Lemma dot_app_r u x y : length u <= length x -> dot u (x ++ y) = dot u x.
Proof.
  revert x; induction u as [|a u IH]; intros [|b x] H; simpl in *; try lia; [reflexivity | reflexivity |].
  rewrite IH by lia. reflexivity.
Qed.

Lemma dot_unitv i x : dot (unitv i) x = nth i x 0%Qc.
Proof.
  unfold unitv. revert x; induction i as [|i IH]; intros [|b x]; simpl; try reflexivity.
  - destruct x; ring.
  - rewrite IH. ring.
Qed.

Lemma unitv_length i : length (unitv i) = S i.
Proof. unfold unitv. rewrite app_length, vzero_length. simpl. lia. Qed.

Lemma dot_vscale_r c u x : dot u (vscale c x) = (c * dot u x)%Qc.
Proof. rewrite dot_comm, dot_vscale, dot_comm. reflexivity. Qed.

Lemma vscale_length c u : length (vscale c u) = length u.
Proof. induction u; simpl; congruence. Qed.

Lemma vscale_map c u : vscale c u = map (fun x => (c * x)%Qc) u.
Proof. induction u; simpl; congruence. Qed.

Lemma nth_vscale c u i : nth i (vscale c u) 0%Qc = (c * nth i u 0)%Qc.
Proof. revert i; induction u as [|a u IH]; intros [|i]; simpl; try ring. apply IH. Qed.

Lemma nth_vadd u v i : length u = length v -> nth i (vadd u v) 0%Qc = (nth i u 0 + nth i v 0)%Qc.
Proof.
  revert v i; induction u as [|a u IH]; intros [|b v] [|i] H; simpl in *; try lia; try ring. apply IH; lia.
Qed.
Lemma nth_vsub u v i : length u = length v -> nth i (vsub u v) 0%Qc = (nth i u 0 - nth i v 0)%Qc.
Proof.
  revert v i; induction u as [|a u IH]; intros [|b v] [|i] H; simpl in *; try lia; try ring. apply IH; lia.
Qed.
Lemma nth_vzero d i : nth i (vzero d) 0%Qc = 0%Qc.
Proof. revert i; induction d as [|d IH]; intros [|i]; simpl; auto. Qed.

Lemma vec_ext (u v : vec) : length u = length v -> (forall i, nth i u 0%Qc = nth i v 0%Qc) -> u = v.
Proof.
  revert v; induction u as [|a u IH]; intros [|b v] H E; simpl in *; try lia; [reflexivity|].
  f_equal; [apply (E 0) | apply IH; [lia | intros i; apply (E (S i))]].
Qed.

Lemma dot_vadd_r u x y : length x = length y -> dot u (vadd x y) = (dot u x + dot u y)%Qc.
Proof.
  revert x y; induction u as [|a u IH]; intros [|b x] [|c y] H; simpl in *; try lia; try ring.
  rewrite IH by lia. ring.
Qed.

Lemma dot_vzero_r u d : dot u (vzero d) = 0%Qc.
Proof. revert d; induction u as [|a u IH]; intros [|d]; simpl; try reflexivity. rewrite IH. ring. Qed.

Lemma map_seq_nth (x : vec) d : length x = d -> map (fun i => nth i x 0%Qc) (seq 0 d) = x.
Proof.
  revert d; induction x as [|a x IH]; intros d H; subst d; simpl; [reflexivity|]. f_equal.
  rewrite <- seq_shift, map_map. apply IH. reflexivity.
Qed.

Lemma nth_map_seq (f : nat -> Qc) d i : i < d -> nth i (map f (seq 0 d)) 0%Qc = f i.
Proof.
  intros H. rewrite (nth_indep _ 0%Qc (f 0)) by (rewrite map_length, seq_length; exact H).
  rewrite map_nth, seq_nth by exact H. reflexivity.
Qed.

Lemma dot_map_scaled (f : nat -> Qc) d x : length x = d ->
  dot (map f (seq 0 d)) x = fold_right Qcplus 0%Qc (map (fun i => (f i * nth i x 0)%Qc) (seq 0 d)).
Proof.
  revert f d; induction x as [|a x IH]; intros f d H; subst d; simpl; [reflexivity|].
  rewrite <- seq_shift, !map_map. rewrite (IH (fun i => f (S i)) (length x) eq_refl). reflexivity.
Qed.

(** * Denominators *)

Lemma this_inject z : this (Q2Qc (inject_Z z)) = inject_Z z.
Proof.
  change (this (Q2Qc (inject_Z z))) with (Qred (inject_Z z)). apply Qred_identity. simpl. apply Z.gcd_1_r.
Qed.

Lemma qden_zq z : qden (zq z) = 1%Z.
Proof. unfold qden, zq. rewrite this_inject. reflexivity. Qed.
Lemma qnum_zq z : qnum (zq z) = z.
Proof. unfold qnum, zq. rewrite this_inject. reflexivity. Qed.

Lemma zq_of_int (q : Qc) z : (this q == inject_Z z)%Q -> q = zq z.
Proof. intros H. apply Qc_is_canon. rewrite H. symmetry. apply Qred_correct. Qed.

Lemma zq_mul_den den (x : Qc) : (qden x | den)%Z -> exists n, (zq den * x)%Qc = zq n.
Proof.
  intros [k ->]. exists (k * qnum x)%Z. apply zq_of_int. rewrite this_mult, this_zq.
  unfold qden, qnum. destruct (this x) as [n d]. unfold Qeq. simpl. lia.
Qed.

Lemma fold_lcm_div v : forall d0,
  (d0 | fold_left (fun d c => Z.lcm d (qden c)) v d0)%Z /\
  (forall x, In x v -> (qden x | fold_left (fun d c => Z.lcm d (qden c)) v d0)%Z).
Proof.
  induction v as [|a v IH]; intros d0; simpl.
  - split; [apply Z.divide_refl | intros x []].
  - destruct (IH (Z.lcm d0 (qden a))) as [H1 H2]. split.
    + eapply Z.divide_trans; [apply Z.divide_lcm_l | exact H1].
    + intros x [->|Hx]; [|apply H2, Hx]. eapply Z.divide_trans; [apply Z.divide_lcm_r | exact H1].
Qed.

Lemma fold_lcm_pos v : forall d0, (0 < d0)%Z -> (0 < fold_left (fun d c => Z.lcm d (qden c)) v d0)%Z.
Proof.
  induction v as [|a v IH]; intros d0 H; simpl; [exact H|]. apply IH.
  assert (Hn : Z.lcm d0 (qden a) <> 0%Z) by (intros E; apply Z.lcm_eq_0 in E; unfold qden in E; lia).
  pose proof (Z.lcm_nonneg d0 (qden a)). lia.
Qed.

Lemma zq_pos n : (0 < n)%Z -> (0 < zq n)%Qc.
Proof. intros H. unfold Qclt. rewrite this_zq, this_0. unfold Qlt; simpl. lia. Qed.

(** Normalization multiplies by a positive integer and never fails. *)
Lemma lin_expr_ok v rhs : exists den, (0 < den)%Z /\
  lin_expr v rhs = Ok (vscale (zq den) v, (rhs * zq den)%Qc) /\
  (forall x, In x v -> exists n, (zq den * x)%Qc = zq n) /\
  exists n, (rhs * zq den)%Qc = zq n.
Proof.
  unfold lin_expr. set (den := fold_left (fun d c => Z.lcm d (qden c)) v (qden rhs)).
  exists den. destruct (fold_lcm_div v (qden rhs)) as [H1 H2]. fold den in H1, H2.
  split; [apply fold_lcm_pos; reflexivity|].
  assert (Hr : exists n, (rhs * zq den)%Qc = zq n).
  { rewrite Qcmult_comm. apply zq_mul_den, H1. }
  assert (Hx : forall x, In x v -> exists n, (zq den * x)%Qc = zq n).
  { intros x Hin. apply zq_mul_den, H2, Hin. }
  split; [|split; [exact Hx | exact Hr]].
  rewrite (mapM_ok _ (fun x => (zq den * x)%Qc)).
  - cbn [bind]. destruct Hr as [n En]. cbv zeta. rewrite En, qden_zq. cbn [Z.eqb Pos.eqb assert_].
    rewrite vscale_map. reflexivity.
  - intros x Hin. destruct (Hx x Hin) as [n En]. cbv zeta. rewrite En, qden_zq, qnum_zq. reflexivity.
Qed.

Lemma Qcmul_cancel (c a b : Qc) : (0 < c)%Qc -> (c * a = c * b)%Qc -> a = b.
Proof.
  intros Hc E. assert (Hn : c <> 0%Qc) by (intros ->; revert Hc; apply Qclt_not_eq || (intros; qclra)).
  rewrite <- (Qcmult_1_l a), <- (Qcmult_1_l b), <- (Qcmult_inv_l c Hn), <- !Qcmult_assoc, E. reflexivity.
Qed.


Lemma ras_constraints_ok eqs : forall y, length eqs = length y ->
  exists cs, ras_constraints eqs y = Ok cs /\ forall x, Forall (sat x) cs <-> solves eqs y x.
Proof.
  induction eqs as [|e eqs IH]; intros [|k y] H; cbn [length] in H; try lia; cbn [ras_constraints].
  - exists []. split; [reflexivity|]. intros x. split; [intros _; constructor | constructor].
  - destruct (lin_expr_ok e k) as [den [Hd [E [_ [n En]]]]]. rewrite E. cbn [bind].
    destruct (IH y ltac:(lia)) as [cs [Ec Hc]]. rewrite Ec. cbn [bind].
    eexists. split; [reflexivity|]. intros x. rewrite Forall_app, Hc, eq_cstr_sat.
    rewrite En, qnum_zq, <- En. rewrite dot_vscale.
    assert (Hp := zq_pos den Hd). unfold solves. split.
    + intros [H1 H2]. constructor; [|exact H2]. apply (Qcmul_cancel (zq den) _ _ Hp). rewrite H1. ring.
    + intros H1. inversion H1; subst. split; [ring | assumption].
Qed.

Lemma ras_equations_ok eqs y : length eqs = length y ->
  exists r, ras_equations eqs y = Ok r /\ p_dim (r_sub r) = max_dim eqs /\
    r_homog r = forallb (fun k => qc_eqb k 0) y /\
    forall x, p_mem (r_sub r) x <-> length x = max_dim eqs /\ solves eqs y x.
Proof.
  intros H. unfold ras_equations. rewrite H, Nat.eqb_refl. cbn [check_].
  destruct (ras_constraints_ok eqs y H) as [cs [Ec Hc]]. rewrite Ec. cbn [bind].
  eexists. split; [reflexivity|]. split; [reflexivity|]. split; [reflexivity|].
  intros x. unfold p_mem. simpl. rewrite Hc. reflexivity.
Qed.

Lemma ras_equations_mismatch eqs y : length eqs <> length y -> ras_equations eqs y = Throw.
Proof. intros H. unfold ras_equations. apply Nat.eqb_neq in H. rewrite H. reflexivity. Qed.

(** * Orthants *)

Lemma Forall_map_seq {A} (P : A -> Prop) f d : Forall P (map f (seq 0 d)) <-> forall i, i < d -> P (f i).
Proof.
  rewrite Forall_forall. split.
  - intros H i Hi. apply H. apply in_map, in_seq. lia.
  - intros H x Hx. apply in_map_iff in Hx. destruct Hx as [i [<- Hi]]. apply H. apply in_seq in Hi. lia.
Qed.


Lemma Forall_nth_Qc (P : Qc -> Prop) x : Forall P x <-> forall i, i < length x -> P (nth i x 0%Qc).
Proof.
  split.
  - intros H i Hi. rewrite Forall_forall in H. apply H, nth_In, Hi.
  - intros H. apply Forall_forall. intros q Hq. destruct (In_nth _ _ 0%Qc Hq) as [i [Hi <-]]. apply H, Hi.
Qed.

Lemma non_negative_sat d x : length x = d -> (Forall (sat x) (non_negative d) <-> vnonneg x).
Proof.
  intros H. unfold non_negative, vnonneg. rewrite Forall_map_seq, Forall_nth_Qc. rewrite H.
  unfold sat; simpl. split; intros G i Hi; specialize (G i Hi); rewrite dot_unitv in *; qclra.
Qed.

Lemma positive_sat d x : length x = d -> (Forall (sat x) (positive d) <-> vpos x).
Proof.
  intros H. unfold positive, vpos. rewrite Forall_map_seq, Forall_nth_Qc. rewrite H.
  unfold sat; simpl. split; intros G i Hi; specialize (G i Hi); rewrite dot_unitv in *; qclra.
Qed.

Theorem has_nonneg_ok r : has_nonneg r = true <-> exists x, p_mem (r_sub r) x /\ vnonneg x.
Proof.
  unfold has_nonneg. rewrite feasible_spec. split.
  - intros [x [H1 H2]]. rewrite Forall_app, non_negative_sat in H2 by exact H1. exists x. unfold p_mem. tauto.
  - intros [x [[H1 H2] H3]]. exists x. rewrite Forall_app, non_negative_sat by exact H1. tauto.
Qed.

Theorem has_pos_ok r : has_pos r = true <-> p_dim (r_sub r) <> 0 /\ exists x, p_mem (r_sub r) x /\ vpos x.
Proof.
  unfold has_pos. destruct (Nat.eqb_spec (p_dim (r_sub r)) 0) as [E|E].
  - split; [discriminate | intros [H _]; contradiction].
  - rewrite feasible_spec. split.
    + intros [x [H1 H2]]. rewrite Forall_app, positive_sat in H2 by exact H1. split; [exact E|]. exists x. unfold p_mem. tauto.
    + intros [_ [x [[H1 H2] H3]]]. exists x. rewrite Forall_app, positive_sat by exact H1. tauto.
Qed.

(** * Projection and unboundedness *)

Lemma project_ok k : forall cs xs, Forall (sat xs) (project k cs) <->
  exists ys, length ys = k /\ Forall (sat (ys ++ xs)) cs.
Proof.
  induction k as [|k IH]; intros cs xs; simpl.
  - split; [intros H; exists []; auto | intros [ys [Hl H]]; destruct ys; [exact H | discriminate]].
  - rewrite IH. split.
    + intros [ys [Hl H]]. apply eliminate_spec in H. destruct H as [x0 H]. exists (x0 :: ys). simpl. auto.
    + intros [ys [Hl H]]. destruct ys as [|x0 ys]; [discriminate|]. exists ys. split; [simpl in Hl; lia|].
      apply eliminate_spec. exists x0. exact H.
Qed.

Lemma embed_sat d cs x z : length x = d ->
  (Forall (sat (x ++ z)) (map (embed_cstr d) cs) <-> Forall (sat x) cs).
Proof.
  intros H. rewrite Forall_map, !Forall_forall.
  assert (E : forall c, sat (x ++ z) (embed_cstr d c) <-> sat x c).
  { intros c. unfold sat, embed_cstr; simpl. rewrite dot_firstn by exact H. reflexivity. }
  split; intros G c Hc; apply E, G, Hc.
Qed.

Lemma Qc_max_bound (L : list Qc) : exists M : Qc, forall q, In q L -> (q <= M)%Qc.
Proof.
  induction L as [|a L [M HM]].
  - exists 0%Qc. intros q [].
  - destruct (Qclt_le_dec a M) as [H|H].
    + exists M. intros q [<-|Hq]; [qclra | apply HM, Hq].
    + exists a. intros q [<-|Hq]; [qclra | specialize (HM q Hq); qclra].
Qed.

Theorem unbounded_ok d cs obj : length obj = d ->
  (unbounded d cs obj = true <->
   forall M : Qc, exists x, length x = d /\ Forall (sat x) cs /\ (M < dot obj x)%Qc).
Proof.
  intros Ho. unfold unbounded.
  set (cs1 := project d (map (embed_cstr d) cs ++ eq_cstr (vneg obj ++ [1%Qc]) 0%Qc)).
  assert (H1 : forall z, Forall (sat [z]) cs1 <-> exists x, length x = d /\ Forall (sat x) cs /\ z = dot obj x).
  { intros z. unfold cs1. rewrite project_ok. split.
    - intros [x [Hl H]]. apply Forall_app in H. destruct H as [A B]. exists x. split; [exact Hl|].
      apply (embed_sat d cs x [z] Hl) in A. split; [exact A|].
      apply eq_cstr_sat in B. rewrite dot_app_exact in B by (rewrite vneg_length; lia).
      rewrite dot_vneg in B. simpl in B. qclra.
    - intros [x [Hl [A B]]]. exists x. split; [exact Hl|]. apply Forall_app. split.
      + apply embed_sat; assumption.
      + apply eq_cstr_sat. rewrite dot_app_exact by (rewrite vneg_length; lia). rewrite dot_vneg. simpl. rewrite B. ring. }
  assert (Hs : forall c z, sat [z] c <-> sat1 z (c_strict c, c_hd c, c_const c)).
  { intros c z. unfold sat, sat1, c_hd. rewrite dot_cons, dot_nil_r.
    destruct (c_strict c); split; intros H; qclra. }
  rewrite andb_true_iff. split.
  - intros [F N] M. apply feasible_spec in F. destruct F as [zs [Hl HF]].
    destruct zs as [|z0 zs]; [discriminate|]. destruct zs; [|simpl in Hl; lia].
    set (z := if Qclt_le_dec M z0 then z0 else (M + 1)%Qc).
    assert (Hz : (z0 <= z)%Qc /\ (M < z)%Qc).
    { unfold z. destruct (Qclt_le_dec M z0); split; qclra. }
    assert (HFz : Forall (sat [z]) cs1).
    { rewrite Forall_forall in *. intros c Hc. rewrite forallb_forall in N. specialize (N c Hc). specialize (HF c Hc).
      rewrite negb_true_iff in N. assert (Hnn : (0 <= c_hd c)%Qc).
      { destruct (Qclt_le_dec (c_hd c) 0) as [Hneg|Hnn]; [|exact Hnn]. apply is_upper_spec in Hneg. congruence. }
      apply Hs. apply Hs in HF. unfold sat1 in *.
      assert (Hm : (c_hd c * z0 <= c_hd c * z)%Qc).
      { assert (Hd : (0 <= c_hd c * (z - z0))%Qc) by (apply Qcmul_nonneg; [exact Hnn | qclra]).
        replace (c_hd c * (z - z0))%Qc with (c_hd c * z - c_hd c * z0)%Qc in Hd by ring.
        revert Hd. generalize (c_hd c * z)%Qc (c_hd c * z0)%Qc. intros p q Hd. qclra. }
      revert Hm HF. generalize (c_hd c * z)%Qc (c_hd c * z0)%Qc. intros p q Hm HF. destruct (c_strict c); qclra. }
    apply H1 in HFz. destruct HFz as [x [Hx1 [Hx2 Hx3]]]. exists x. rewrite <- Hx3. tauto.
  - intros H. split.
    + apply feasible_spec. destruct (H 0%Qc) as [x [Hx1 [Hx2 _]]]. exists [dot obj x]. split; [reflexivity|].
      apply H1. exists x. auto.
    + apply forallb_forall. intros c Hc. rewrite negb_true_iff. destruct (is_upper c) eqn:E; [|reflexivity].
      exfalso. apply is_upper_spec in E.
      destruct (H (- c_const c / c_hd c)%Qc) as [x [Hx1 [Hx2 Hx3]]].
      assert (HF : Forall (sat [dot obj x]) cs1) by (apply H1; exists x; auto).
      rewrite Forall_forall in HF. specialize (HF c Hc). apply Hs in HF.
      apply (sat1_upper _ _ _ _ E) in HF. unfold upb in HF. simpl in HF. destruct (c_strict c); qclra.
Qed.

(** * Non-zero non-negative vectors *)

(** All that is needed of a linear subspace: it contains the multiples of its points. *)
Definition linear_sub (r : ras) : Prop :=
  forall c x, p_mem (r_sub r) x -> p_mem (r_sub r) (vscale c x).

Definition nznn_spec (r : ras) : Prop :=
  exists x, p_mem (r_sub r) x /\ vnonneg x /\ exists q, In q x /\ q <> 0%Qc.

Lemma linear_scale r c x : linear_sub r -> p_mem (r_sub r) x -> p_mem (r_sub r) (vscale c x).
Proof.
  intros H. apply H.
Qed.

Lemma solves_scale eqs y c x : Forall (fun k => k = 0%Qc) y -> solves eqs y x -> solves eqs y (vscale c x).
Proof.
  intros H S. induction S as [|e k eqs y E S IH]; [constructor|]. constructor; [|apply IH; exact (Forall_inv_tail H)].
  pose proof (Forall_inv H) as Hk. cbv beta in Hk. rewrite dot_vscale_r, E, Hk. ring.
Qed.

Lemma vnonneg_scale c x : (0 <= c)%Qc -> vnonneg x -> vnonneg (vscale c x).
Proof.
  intros Hc H. induction H; simpl; constructor; auto. apply Qcmul_nonneg; assumption.
Qed.

Lemma dot_ones x d : length x = d -> dot (ones d) x = fold_right Qcplus 0%Qc x.
Proof.
  unfold ones. revert d; induction x as [|a x IH]; intros [|d] H; simpl in *; try lia; try reflexivity.
  rewrite (IH d) by lia. ring.
Qed.

Lemma sum_pos x : vnonneg x -> (exists q, In q x /\ q <> 0%Qc) -> (0 < fold_right Qcplus 0 x)%Qc.
Proof.
  assert (Hnn : forall x, vnonneg x -> (0 <= fold_right Qcplus 0 x)%Qc).
  { induction 1; simpl; qclra. }
  intros H [q [Hq Hne]]. induction H as [|a x Ha Hx IH]; simpl in *; [contradiction|].
  destruct Hq as [->|Hq].
  - specialize (Hnn x Hx). assert (0 < q)%Qc.
    { apply Qcle_lt_or_eq in Ha. destruct Ha as [Ha|Ha]; [exact Ha | congruence]. }
    qclra.
  - specialize (IH Hq). qclra.
Qed.

Lemma pos_nonzero x : (0 < fold_right Qcplus 0 x)%Qc -> exists q, In q x /\ q <> 0%Qc.
Proof.
  induction x as [|a x IH]; simpl; intros H; [qclra|].
  destruct (Qc_eq_dec a 0) as [->|Hne]; [|exists a; auto].
  destruct IH as [q [Hq Hn]]; [qclra|]. exists q; auto.
Qed.

Lemma ones_length d : length (ones d) = d.
Proof. apply repeat_length. Qed.

(** Scaling a vector with a positive objective makes the objective unbounded. *)
Lemma scale_beyond (v M : Qc) : (0 < v)%Qc -> exists c, (0 < c)%Qc /\ (M < c * v)%Qc.
Proof.
  intros Hv. assert (Hn : v <> 0%Qc) by (intros ->; qclra).
  destruct (Qclt_le_dec M 0) as [H|H].
  - exists 1%Qc. split; [reflexivity | qclra].
  - exists ((M + 1) / v)%Qc. assert (E : ((M + 1) / v * v = M + 1)%Qc) by (field; exact Hn).
    split.
    + apply (Qcmul_pos_inv v); [exact Hv|]. rewrite Qcmult_comm, E. qclra.
    + rewrite E. qclra.
Qed.

Theorem nznn_mip_ok r : linear_sub r -> r_homog r = true ->
  exists b, nznn_mip r = Ok b /\ (b = true <-> nznn_spec r).
Proof.
  intros L Hh. unfold nznn_mip. rewrite Hh. cbn [negb].
  destruct (Nat.eqb_spec (p_dim (r_sub r)) 0) as [E|E].
  - exists false. split; [reflexivity|]. split; [discriminate|].
    intros [x [[Hl _] [_ [q [Hq _]]]]]. rewrite E in Hl. destruct x; [destruct Hq | discriminate].
  - eexists. split; [reflexivity|]. rewrite unbounded_ok by apply ones_length. split.
    + intros H. destruct (H 0%Qc) as [x [Hl [Hs Hd]]]. apply Forall_app in Hs. destruct Hs as [H1 H2].
      rewrite non_negative_sat in H1 by exact Hl. rewrite dot_ones in Hd by exact Hl.
      exists x. split; [split; assumption|]. split; [exact H1|]. apply pos_nonzero, Hd.
    + intros [x [Hm [Hnn Hnz]]] M. pose proof (sum_pos x Hnn Hnz) as Hp.
      destruct (scale_beyond _ M Hp) as [c [Hc1 Hc2]]. exists (vscale c x).
      pose proof (linear_scale r c x L Hm) as [Hl Hf]. split; [exact Hl|]. split.
      * apply Forall_app. split; [|exact Hf]. apply non_negative_sat; [exact Hl|].
        apply vnonneg_scale; [qclra | exact Hnn].
      * rewrite dot_vscale_r, dot_ones by (destruct Hm; assumption). exact Hc2.
Qed.

Theorem nznn_ok r : linear_sub r -> r_homog r = true ->
  exists b, nznn r = Ok b /\ (b = true <-> nznn_spec r).
Proof. intros L Hh. unfold nznn. rewrite Hh. cbn [negb]. apply nznn_mip_ok; assumption. Qed.

Lemma nznn_inhomogeneous r : r_homog r = false -> nznn r = Throw /\ nznn_polyhedron r = Throw /\
  nznn_mip r = Throw /\ forall eqs, nznn_quotient r eqs = Throw.
Proof. intros H. unfold nznn, nznn_polyhedron, nznn_mip, nznn_quotient. rewrite H. auto. Qed.

Lemma dot_unitd d i x : length x = d -> i < d -> dot (unitd d i) x = nth i x 0%Qc.
Proof.
  unfold unitd. intros H Hi. rewrite dot_map_scaled by exact H.
  assert (G : forall l, NoDup l -> (In i l ->
      fold_right Qcplus 0%Qc (map (fun k => ((if Nat.eqb k i then 1 else 0) * nth k x 0)%Qc) l) = nth i x 0%Qc) /\
      (~ In i l -> fold_right Qcplus 0%Qc (map (fun k => ((if Nat.eqb k i then 1 else 0) * nth k x 0)%Qc) l) = 0%Qc)).
  { induction l as [|k l IH]; intros N; simpl; [split; [intros [] | reflexivity]|].
    inversion N as [|? ? Hk Nl]; subst. destruct (IH Nl) as [I1 I2]. split.
    - intros [->|Hin].
      + rewrite Nat.eqb_refl, (I2 Hk). ring.
      + destruct (Nat.eqb_spec k i) as [->|_]; [contradiction|]. rewrite (I1 Hin). ring.
    - intros Hn. destruct (Nat.eqb_spec k i) as [->|_]; [exfalso; apply Hn; left; reflexivity|].
      rewrite I2 by (intros Hin; apply Hn; right; exact Hin). ring. }
  apply G; [apply seq_NoDup | apply in_seq; lia].
Qed.

Lemma unitd_length d i : length (unitd d i) = d.
Proof. unfold unitd. rewrite map_length, seq_length. reflexivity. Qed.

Theorem nznn_polyhedron_ok r : linear_sub r -> r_homog r = true ->
  exists b, nznn_polyhedron r = Ok b /\ (b = true <-> nznn_spec r).
Proof.
  intros L Hh. unfold nznn_polyhedron. rewrite Hh. cbn [negb].
  destruct (Nat.eqb_spec (p_dim (r_sub r)) 0) as [E|E].
  - exists false. split; [reflexivity|]. split; [discriminate|].
    intros [x [[Hl _] [_ [q [Hq _]]]]]. rewrite E in Hl. destruct x; [destruct Hq | discriminate].
  - eexists. split; [reflexivity|]. rewrite existsb_exists. split.
    + intros [i [Hi H]]. apply in_seq in Hi. rewrite unbounded_ok in H by apply unitd_length.
      destruct (H 0%Qc) as [x [Hl [Hs Hd]]]. apply Forall_app in Hs. destruct Hs as [H1 H2].
      rewrite non_negative_sat in H2 by exact Hl. rewrite dot_unitd in Hd by (auto; lia).
      exists x. split; [split; assumption|]. split; [exact H2|]. exists (nth i x 0%Qc).
      split; [apply nth_In; lia | intros E0; rewrite E0 in Hd; qclra].
    + intros [x [Hm [Hnn [q [Hq Hne]]]]]. destruct (In_nth _ _ 0%Qc Hq) as [i [Hi Eq]].
      pose proof Hm as [Hl _]. exists i. split; [apply in_seq; lia|].
      apply unbounded_ok; [apply unitd_length|]. intros M.
      assert (Hp : (0 < nth i x 0)%Qc).
      { rewrite Eq. unfold vnonneg in Hnn. rewrite Forall_forall in Hnn. specialize (Hnn q Hq).
        apply Qcle_lt_or_eq in Hnn. destruct Hnn as [H|H]; [exact H | congruence]. }
      destruct (scale_beyond _ M Hp) as [c [Hc1 Hc2]]. exists (vscale c x).
      pose proof (linear_scale r c x L Hm) as [Hl' Hf]. split; [exact Hl'|]. split.
      * apply Forall_app. split; [exact Hf|]. apply non_negative_sat; [exact Hl'|].
        apply vnonneg_scale; [qclra | exact Hnn].
      * rewrite dot_vscale_r, dot_unitd by (auto; lia). exact Hc2.
Qed.

(** ** The quotient implementation *)

Definition row (equations : list vec) (d j : nat) : vec :=
  map (fun i => nth i (nth j equations []) 0%Qc) (seq 0 d).

Lemma dot_row_gen (e x : vec) : dot (map (fun i => nth i e 0%Qc) (seq 0 (length x))) x = dot e x.
Proof.
  revert x; induction e as [|a e IH]; intros x.
  - assert (E : forall l x, dot (map (fun i => nth i (@nil Qc) 0%Qc) l) x = 0%Qc).
    { induction l as [|k l IH]; intros [|b y]; simpl; try reflexivity. rewrite IH. destruct k; ring. }
    rewrite E. reflexivity.
  - destruct x as [|b x]; simpl; [reflexivity|].
    rewrite <- seq_shift, map_map. rewrite <- (IH x). reflexivity.
Qed.

Lemma nth_map_nth (l : list vec) i j : nth j (map (fun e => nth i e 0%Qc) l) 0%Qc = nth i (nth j l []) 0%Qc.
Proof.
  revert j; induction l as [|e l IH]; intros [|j]; simpl; try reflexivity; try (destruct i; reflexivity).
  apply IH.
Qed.

Theorem nznn_quotient_ok r equations : r_homog r = true ->
  (forall x, p_mem (r_sub r) x <-> length x = p_dim (r_sub r) /\ Forall (fun e => dot e x = 0%Qc) equations) ->
  exists b, nznn_quotient r equations = Ok b /\ (b = true <-> nznn_spec r).
Proof.
  intros Hh Hm. unfold nznn_quotient. rewrite Hh. cbn [negb].
  set (d := p_dim (r_sub r)) in *.
  destruct (Nat.eqb_spec d 0) as [E|E].
  - exists false. split; [reflexivity|]. split; [discriminate|].
    intros [x [[Hl _] [_ [q [Hq _]]]]]. fold d in Hl. rewrite E in Hl. destruct x; [destruct Hq | discriminate].
  - assert (Hunit : forall i, i < d -> Forall (fun e => nth i e 0%Qc = 0%Qc) equations -> nznn_spec r).
    { intros i Hi He. exists (unitd d i). split; [|split].
      - apply Hm. split; [apply unitd_length|]. rewrite Forall_forall in *. intros e Hin.
        rewrite dot_comm. rewrite <- (He e Hin). clear - Hi.
        (* dot (unitd d i) e = nth i e 0 for any e *)
        unfold unitd. rewrite <- (Nat.add_0_l i) at 1.
        assert (G : forall d k e, i < d -> dot (map (fun j => if Nat.eqb j (k + i) then 1%Qc else 0%Qc) (seq k d)) e = nth i e 0%Qc).
        { clear. induction i as [|i IH]; intros d k e Hi; destruct d as [|d]; try lia; simpl.
          - destruct e as [|a e]; [reflexivity|]. rewrite Nat.add_0_r, Nat.eqb_refl. simpl.
            assert (Z : forall l e, (forall j, In j l -> k < j) -> dot (map (fun j => if Nat.eqb j k then 1%Qc else 0%Qc) l) e = 0%Qc).
            { clear. induction l as [|j l IH]; intros [|b e] H; simpl; try reflexivity.
              rewrite IH by (intros; apply H; right; assumption).
              destruct (Nat.eqb_spec j k); [specialize (H j (or_introl eq_refl)); lia | ring]. }
            rewrite Z by (intros j Hj; apply in_seq in Hj; lia). ring.
          - destruct e as [|a e]; [reflexivity|].
            destruct (Nat.eqb_spec k (k + S i)); [lia|]. simpl.
            replace (k + S i) with (S k + i) by lia. rewrite IH by lia. ring. }
        apply (G d 0 e Hi).
      - apply Forall_forall. intros q Hq. unfold unitd in Hq. apply in_map_iff in Hq. destruct Hq as [k [<- _]].
        destruct (Nat.eqb k i); discriminate.
      - exists 1%Qc. split; [|discriminate]. unfold unitd. apply in_map_iff. exists i. rewrite Nat.eqb_refl.
        split; [reflexivity | apply in_seq; lia]. }
    destruct equations as [|e0 eqs0] eqn:Eeq.
    { exists true. split; [reflexivity|]. split; [|reflexivity]. intros _. apply (Hunit 0); [lia | constructor]. }
    rewrite <- Eeq in *. clear Eeq e0 eqs0.
    set (rays := map (fun i => map (fun e => nth i e 0%Qc) equations) (seq 0 d)).
    destruct (existsb vis0 rays) eqn:Ez.
    + exists true. split; [reflexivity|]. split; [|reflexivity]. intros _.
      apply existsb_exists in Ez. destruct Ez as [ry [Hr Hz]]. unfold rays in Hr. apply in_map_iff in Hr.
      destruct Hr as [i [<- Hi]]. apply in_seq in Hi. apply (Hunit i); [lia|].
      unfold vis0 in Hz. rewrite forallb_forall in Hz. apply Forall_forall. intros e He.
      specialize (Hz (nth i e 0%Qc) (in_map (fun e => nth i e 0%Qc) _ _ He)).
      destruct (Qc_eq_dec (nth i e 0%Qc) 0); [assumption | discriminate].
    + eexists. split; [reflexivity|].
      set (m := length equations).
      assert (Hrl : @length vec rays = d) by (unfold rays; rewrite map_length, seq_length; reflexivity).
      (* row j of the system of rays is the j-th equation *)
      assert (Hrow : forall j x, length x = d -> dot (map (fun r => nth j r 0%Qc) rays) x = dot (nth j equations []) x).
      { intros j x Hx. unfold rays. rewrite map_map.
        rewrite (map_ext _ (fun i => nth i (nth j equations []) 0%Qc)) by (intros i; apply nth_map_nth).
        rewrite <- Hx. apply dot_row_gen. }
      assert (Hzero : forall x, length x = d -> ((forall j, j < m -> dot (nth j equations []) x = 0%Qc) <-> p_mem (r_sub r) x)).
      { intros x Hx. rewrite Hm. split.
        - intros H. split; [exact Hx|]. apply Forall_forall. intros e He.
          destruct (In_nth _ _ [] He) as [j [Hj <-]]. apply H, Hj.
        - intros [_ H] j Hj. rewrite Forall_forall in H. apply H, nth_In, Hj. }
      unfold cone_has_line. cbv zeta. rewrite Hrl.
      assert (Hfe : forall j, feasible (d + d)
               (non_negative (d + d) ++
                flat_map (fun j0 => eq_cstr (map (fun r0 => nth j0 r0 0%Qc) rays ++ map (fun r0 => nth j0 r0 0%Qc) rays) 0) (seq 0 m) ++
                [mkcstr true (map (fun r0 => nth j r0 0%Qc) rays) 0%Qc]) = true <->
               exists c e, length c = d /\ length e = d /\ vnonneg c /\ vnonneg e /\
                 p_mem (r_sub r) (vadd c e) /\ (0 < dot (nth j equations []) c)%Qc).
      { intros j. rewrite feasible_spec. split.
        - intros [x [Hx HF]]. rewrite !Forall_app in HF. destruct HF as [F1 [F2 F3]].
          exists (firstn d x), (skipn d x).
          assert (L1 : length (firstn d x) = d) by (rewrite firstn_length; lia).
          assert (L2 : length (skipn d x) = d) by (rewrite skipn_length; lia).
          rewrite non_negative_sat in F1 by exact Hx. rewrite <- (firstn_skipn d x) in F1, F2, F3.
          unfold vnonneg in F1. apply Forall_app in F1. destruct F1 as [N1 N2].
          split; [exact L1|]. split; [exact L2|]. split; [exact N1|]. split; [exact N2|]. split.
          + apply Hzero; [rewrite vadd_length; lia|]. intros k Hk.
            assert (F : Forall (sat (firstn d x ++ skipn d x)) (eq_cstr (map (fun r0 => nth k r0 0%Qc) rays ++ map (fun r0 => nth k r0 0%Qc) rays) 0)).
            { rewrite Forall_forall in *. intros c Hc. apply F2. apply in_flat_map. exists k. split; [apply in_seq; lia | exact Hc]. }
            apply eq_cstr_sat in F. rewrite dot_app_exact in F by (rewrite map_length; lia).
            rewrite !Hrow in F by assumption. rewrite dot_vadd_r by lia. exact F.
          + inversion F3 as [|? ? F _]; subst. unfold sat in F; simpl in F.
            rewrite dot_app_r in F by (rewrite map_length; lia). rewrite Hrow in F by exact L1. qclra.
        - intros (c & e & L1 & L2 & N1 & N2 & M & P). exists (c ++ e). rewrite app_length. split; [lia|].
          rewrite !Forall_app. split; [|split].
          + apply non_negative_sat; [rewrite app_length; lia | apply Forall_app; auto].
          + apply Forall_forall. intros cs Hc. apply in_flat_map in Hc. destruct Hc as [k [Hk Hc]]. apply in_seq in Hk.
            assert (F : Forall (sat (c ++ e)) (eq_cstr (map (fun r0 => nth k r0 0%Qc) rays ++ map (fun r0 => nth k r0 0%Qc) rays) 0)).
            { apply eq_cstr_sat. rewrite dot_app_exact by (rewrite map_length; lia).
              rewrite !Hrow by assumption. rewrite <- dot_vadd_r by lia. apply Hzero; [rewrite vadd_length; lia | exact M | lia]. }
            rewrite Forall_forall in F. apply F, Hc.
          + constructor; [|constructor]. unfold sat; simpl.
            rewrite dot_app_r by (rewrite map_length; lia). rewrite Hrow by exact L1. qclra. }
      rewrite existsb_exists. split.
      * intros [j [Hj H]]. apply Hfe in H. destruct H as (c & e & L1 & L2 & N1 & N2 & M & P).
        exists (vadd c e). split; [exact M|].
        assert (Hnn : vnonneg (vadd c e)).
        { unfold vnonneg in *. rewrite Forall_nth_Qc in *. intros i Hi. rewrite vadd_length in Hi by lia.
          rewrite nth_vadd by lia. specialize (N1 i Hi). specialize (N2 i ltac:(lia)). qclra. }
        split; [exact Hnn|].
        (* if c + e were zero then c would be zero *)
        destruct (existsb (fun q => negb (qc_eqb q 0)) (vadd c e)) eqn:Ex.
        { apply existsb_exists in Ex. destruct Ex as [q [Hq Hn]]. exists q. split; [exact Hq|].
          intros ->. assert (E0 : qc_eqb 0 0 = true) by (apply qc_eqb_spec; reflexivity). rewrite E0 in Hn. discriminate. }
        exfalso.
        assert (Hc0 : c = vzero d).
        { apply vec_ext; [rewrite vzero_length; exact L1|]. intros i. rewrite nth_vzero.
          destruct (le_lt_dec (length c) i) as [Hi|Hi]; [apply nth_overflow, Hi|].
          assert (Hz : nth i (vadd c e) 0%Qc = 0%Qc).
          { destruct (qc_eqb (nth i (vadd c e) 0%Qc) 0) eqn:Eq; [apply qc_eqb_spec, Eq|].
            assert (Hcon : existsb (fun q => negb (qc_eqb q 0)) (vadd c e) = true).
            { apply existsb_exists. exists (nth i (vadd c e) 0%Qc). split; [apply nth_In; rewrite vadd_length; lia | rewrite Eq; reflexivity]. }
            congruence. }
          rewrite nth_vadd in Hz by lia. unfold vnonneg in N1, N2. rewrite Forall_nth_Qc in N1, N2.
          specialize (N1 i Hi). specialize (N2 i ltac:(lia)). qclra. }
        rewrite Hc0, dot_vzero_r in P. qclra.
      * intros [x [M [Hnn [q [Hq Hne]]]]].
        assert (Lx : length x = d) by (destruct M; assumption).
        destruct (In_nth _ _ 0%Qc Hq) as [k [Hk Eq]].
        assert (Hqp : (0 < q)%Qc).
        { unfold vnonneg in Hnn. rewrite Forall_forall in Hnn. specialize (Hnn q Hq).
          apply Qcle_lt_or_eq in Hnn. destruct Hnn as [H|H]; [exact H | congruence]. }
        (* the ray of coordinate k does not vanish *)
        assert (Hray : exists j, j < m /\ nth k (nth j equations []) 0%Qc <> 0%Qc).
        { destruct (existsb (fun e => negb (qc_eqb (nth k e 0%Qc) 0)) equations) eqn:Ex.
          - apply existsb_exists in Ex. destruct Ex as [e [He Hn]]. destruct (In_nth _ _ [] He) as [j [Hj Ej]].
            exists j. split; [exact Hj|]. rewrite Ej. intros E0. rewrite (proj2 (qc_eqb_spec _ _) E0) in Hn. discriminate.
          - exfalso. assert (Hcon : existsb vis0 rays = true); [|congruence].
            apply existsb_exists. exists (map (fun e => nth k e 0%Qc) equations). split.
            + unfold rays. apply in_map_iff. exists k. split; [reflexivity | apply in_seq; lia].
            + unfold vis0. apply forallb_forall. intros v Hv. apply in_map_iff in Hv. destruct Hv as [e [<- He]].
              destruct (Qc_eq_dec (nth k e 0%Qc) 0) as [|Hn]; [reflexivity|]. exfalso.
              assert (Hc2 : existsb (fun e => negb (qc_eqb (nth k e 0%Qc) 0)) equations = true); [|congruence].
              apply existsb_exists. exists e. split; [exact He|].
              destruct (qc_eqb (nth k e 0%Qc) 0) eqn:E1; [apply qc_eqb_spec in E1; contradiction | reflexivity]. }
        destruct Hray as [j [Hj Hjk]]. exists j. split; [apply in_seq; lia|]. apply Hfe.
        set (c := vscale q (unitd d k)). set (e := vsub x c).
        assert (Lc : length c = d) by (unfold c; rewrite vscale_length; apply unitd_length).
        assert (Le : length e = d) by (unfold e; rewrite vsub_length; lia).
        assert (nc : forall i, nth i c 0%Qc = if Nat.eqb i k then q else 0%Qc).
        { intros i. unfold c. rewrite nth_vscale. unfold unitd.
          destruct (le_lt_dec d i) as [Hi|Hi].
          - rewrite nth_overflow by (rewrite map_length, seq_length; exact Hi).
            destruct (Nat.eqb_spec i k); [lia | ring].
          - rewrite (nth_map_seq (fun k0 => if Nat.eqb k0 k then 1%Qc else 0%Qc) d i Hi).
            destruct (Nat.eqb i k); ring. }
        assert (Ne : vnonneg e).
        { unfold vnonneg in *. rewrite Forall_nth_Qc in *. intros i Hi. unfold e. rewrite nth_vsub, nc by lia.
          specialize (Hnn i ltac:(lia)). destruct (Nat.eqb_spec i k) as [->|_]; [rewrite Eq; qclra | qclra]. }
        assert (Nc : vnonneg c).
        { unfold vnonneg. rewrite Forall_nth_Qc. intros i Hi. rewrite nc. destruct (Nat.eqb i k); qclra. }
        assert (Esum : vadd c e = x).
        { apply vec_ext; [rewrite vadd_length; lia|]. intros i. rewrite nth_vadd by lia. unfold e. rewrite nth_vsub by lia. ring. }
        assert (Esum' : vadd e c = x) by (rewrite vadd_comm; exact Esum).
        assert (Ed : dot (nth j equations []) c = (q * nth k (nth j equations []) 0%Qc)%Qc).
        { unfold c. rewrite dot_vscale_r. f_equal. rewrite <- (dot_row_gen (nth j equations []) (unitd d k)).
          rewrite unitd_length, dot_comm, dot_unitd by (rewrite ?map_length, ?seq_length; lia).
          apply (nth_map_seq (fun i => nth i (nth j equations []) 0%Qc)). lia. }
        assert (Es : (dot (nth j equations []) c + dot (nth j equations []) e = 0)%Qc).
        { rewrite <- dot_vadd_r, Esum by lia. apply Hzero; [exact Lx | exact M | exact Hj]. }
        destruct (Qclt_le_dec 0 (nth k (nth j equations []) 0%Qc)) as [Hpos|Hneg].
        -- exists c, e. repeat split; auto; [rewrite Esum; apply M | rewrite Esum; apply M | ].
           rewrite Ed. apply Qcmul_pos; assumption.
        -- exists e, c. repeat split; auto; [rewrite Esum'; apply M | rewrite Esum'; apply M | ].
           assert (Hp2 : (0 < q * - nth k (nth j equations []) 0%Qc)%Qc).
           { apply Qcmul_pos; [exact Hqp|]. apply Qcle_lt_or_eq in Hneg. destruct Hneg as [H|H]; [qclra | congruence]. }
           assert (Ed2 : dot (nth j equations []) e = (q * - nth k (nth j equations []) 0%Qc)%Qc).
           { replace (q * - nth k (nth j equations []) 0%Qc)%Qc with (- (q * nth k (nth j equations []) 0%Qc))%Qc by ring.
             rewrite <- Ed. qclra. }
           rewrite Ed2. exact Hp2.
Qed.

(** The mixed integer problem: unboundedness over the integer points is the same. *)
Definition vinteger (x : vec) : Prop := Forall (fun q => exists n, q = zq n) x.

Lemma vinteger_multiple x : exists den, (0 < den)%Z /\ vinteger (vscale (zq den) x).
Proof.
  destruct (lin_expr_ok x 0%Qc) as [den [Hd [_ [Hx _]]]]. exists den. split; [exact Hd|].
  rewrite vscale_map. unfold vinteger. apply Forall_map, Forall_forall. exact Hx.
Qed.

Lemma vinteger_scale n x : vinteger x -> vinteger (vscale (zq n) x).
Proof.
  intros H. rewrite vscale_map. apply Forall_map. eapply Forall_impl; [|exact H].
  intros q [m ->]. exists (n * m)%Z. symmetry. apply zq_mul.
Qed.

Lemma Qc_archimedes (v M : Qc) : (0 < v)%Qc -> exists n, (0 < n)%Z /\ (M < zq n * v)%Qc.
Proof.
  intros Hv. destruct (scale_beyond v M Hv) as [c [Hc HM]].
  exists (Zpos (Qden (this c)) * (Qnum (this c)))%Z.
  assert (Hn : (0 < Qnum (this c))%Z).
  { unfold Qclt in Hc. rewrite this_0 in Hc. unfold Qlt in Hc. simpl in Hc. lia. }
  split; [lia|].
  assert (Hle : (c <= zq (Z.pos (Qden (this c)) * Qnum (this c)))%Qc).
  { unfold Qcle. rewrite this_zq. revert Hn. destruct (this c) as [n d]. unfold Qle, inject_Z. cbn [Qnum Qden]. intros Hn.
    assert (HD : (1 <= Z.pos d)%Z) by lia. generalize dependent (Z.pos d). intros D HD. clear - Hn HD.
    rewrite Z.mul_1_r. replace (D * n * D)%Z with (n * (D * D))%Z by ring.
    assert (1 * 1 <= D * D)%Z by (apply Z.mul_le_mono_nonneg; lia). nia. }
  assert (Hm : (0 <= (zq (Z.pos (Qden (this c)) * Qnum (this c)) - c) * v)%Qc) by (apply Qcmul_nonneg; qclra).
  revert Hm HM. generalize (zq (Z.pos (Qden (this c)) * Qnum (this c))). intros z Hm HM.
  replace ((z - c) * v)%Qc with (z * v - c * v)%Qc in Hm by ring.
  revert Hm HM. generalize (z * v)%Qc (c * v)%Qc. intros; qclra.
Qed.

Theorem nznn_mip_integer r : linear_sub r ->
  (nznn_spec r <-> forall M : Qc, exists x, p_mem (r_sub r) x /\ vnonneg x /\ vinteger x /\ (M < dot (ones (length x)) x)%Qc).
Proof.
  intros L. split.
  - intros [x [Hm [Hnn Hnz]]] M. destruct (vinteger_multiple x) as [den [Hd Hi]].
    pose proof (zq_pos den Hd) as Hdp.
    pose proof (sum_pos x Hnn Hnz) as Hp. rewrite <- (dot_ones x _ eq_refl) in Hp.
    assert (Hp2 : (0 < zq den * dot (ones (length x)) x)%Qc) by (apply Qcmul_pos; assumption).
    destruct (Qc_archimedes _ M Hp2) as [n [Hn HM]].
    exists (vscale (zq n) (vscale (zq den) x)). split; [|split; [|split]].
    + apply (linear_scale r _ _ L), (linear_scale r _ _ L), Hm.
    + apply vnonneg_scale; [pose proof (zq_pos n Hn); qclra|]. apply vnonneg_scale; [qclra | exact Hnn].
    + apply vinteger_scale, Hi.
    + rewrite !vscale_length, !dot_vscale_r. exact HM.
  - intros H. destruct (H 0%Qc) as [x [Hm [Hnn [_ HM]]]]. exists x. split; [exact Hm|]. split; [exact Hnn|].
    apply pos_nonzero. rewrite <- (dot_ones x _ eq_refl). exact HM.
Qed.

(** * Spaces spanned by vectors *)

Fixpoint combination (d : nat) (c : vec) (gens : list vec) : vec :=
  match c, gens with
  | k :: c', g :: gens' => vadd (vscale k (map (fun i => nth i g 0%Qc) (seq 0 d))) (combination d c' gens')
  | _, _ => vzero d
  end.

Lemma combination_length d c gens : length (combination d c gens) = d.
Proof.
  revert gens; induction c as [|k c IH]; intros [|g gens]; simpl; try apply vzero_length.
  rewrite vadd_length; rewrite ?vscale_length, ?map_length, ?seq_length; [reflexivity | symmetry; apply IH].
Qed.

Lemma nth_combination d c gens i : i < d ->
  nth i (combination d c gens) 0%Qc = dot (map (fun g => nth i g 0%Qc) gens) c.
Proof.
  intros Hi. revert gens; induction c as [|k c IH]; intros [|g gens]; simpl; try apply nth_vzero.
  rewrite nth_vadd by (rewrite vscale_length, map_length, seq_length, combination_length; reflexivity).
  rewrite nth_vscale, (nth_map_seq (fun i => nth i g 0%Qc)), IH by exact Hi. ring.
Qed.

Lemma span_cs_ok d lines x : length x = d ->
  (Forall (sat x) (span_cs d lines) <-> exists c, length c = length lines /\ x = combination d c lines).
Proof.
  intros Hx. unfold span_cs. rewrite project_ok.
  assert (E : forall ys, length ys = length lines ->
    (Forall (sat (ys ++ x)) (flat_map (fun i => eq_cstr (map (fun g => nth i g 0%Qc) lines ++ vneg (unitv i)) 0%Qc) (seq 0 d))
     <-> x = combination d ys lines)).
  { intros ys Hy. split.
    - intros H. apply vec_ext; [rewrite combination_length; exact Hx|]. intros i.
      destruct (le_lt_dec d i) as [Hi|Hi].
      { rewrite !nth_overflow by (rewrite ?combination_length; lia). reflexivity. }
      rewrite nth_combination by exact Hi.
      assert (F : Forall (sat (ys ++ x)) (eq_cstr (map (fun g => nth i g 0%Qc) lines ++ vneg (unitv i)) 0%Qc)).
      { rewrite Forall_forall in *. intros c Hc. apply H. apply in_flat_map. exists i. split; [apply in_seq; lia | exact Hc]. }
      apply eq_cstr_sat in F. rewrite dot_app_exact in F by (rewrite map_length; lia).
      rewrite dot_vneg, dot_unitv in F. revert F. generalize (dot (map (fun g => nth i g 0%Qc) lines) ys). intros; qclra.
    - intros H. apply Forall_forall. intros c Hc. apply in_flat_map in Hc. destruct Hc as [i [Hi Hc]]. apply in_seq in Hi.
      assert (F : Forall (sat (ys ++ x)) (eq_cstr (map (fun g => nth i g 0%Qc) lines ++ vneg (unitv i)) 0%Qc)).
      { apply eq_cstr_sat. rewrite dot_app_exact by (rewrite map_length; lia). rewrite dot_vneg, dot_unitv, H, nth_combination by lia. ring. }
      rewrite Forall_forall in F. apply F, Hc. }
  split; intros [ys [Hy H]]; exists ys; (split; [exact Hy|]); apply (E ys Hy); exact H.
Qed.

Lemma vscale_inv_eq k (g : vec) : k <> 0%Qc -> vscale (/ k)%Qc (vscale k g) = g.
Proof.
  intros Hk. apply vec_ext; [rewrite !vscale_length; reflexivity|]. intros i. rewrite !nth_vscale. field. exact Hk.
Qed.

Lemma max_dim_le g gens : In g gens -> length g <= max_dim gens.
Proof.
  unfold max_dim. induction gens as [|h gens IH]; simpl; [intros [] | intros [->|H]; [lia | specialize (IH H); lia]].
Qed.

(** Generators with zero vectors removed; PPL does not see zero lines. *)
Definition nonzero (gens : list vec) : list vec := filter (fun l => negb (vis0 l)) gens.

Lemma vis0_vscale k g : k <> 0%Qc -> vis0 (vscale k g) = vis0 g.
Proof.
  intros Hk. unfold vis0. rewrite vscale_map. induction g as [|x g IH]; simpl; [reflexivity|]. rewrite IH. f_equal.
  destruct (Qc_eq_dec (k * x) 0) as [E|E], (Qc_eq_dec x 0) as [E'|E']; try reflexivity.
  - apply Qcmult_integral in E. tauto.
  - subst x. exfalso. apply E. ring.
Qed.

Theorem ras_generators_ok gens : exists r, ras_generators gens = Ok r /\
  p_dim (r_sub r) = max_dim (nonzero gens) /\ r_homog r = true /\
  forall x, p_mem (r_sub r) x <->
    length x = p_dim (r_sub r) /\ exists c, length c = length (nonzero gens) /\ x = combination (p_dim (r_sub r)) c (nonzero gens).
Proof.
  assert (H : exists ks, length ks = length gens /\ Forall (fun k => (0 < k)%Qc) ks /\
     mapM (fun g => '(lin, _) <- lin_expr g 0%Qc ;; Ok lin) gens = Ok (map (fun p => vscale (fst p) (snd p)) (combine ks gens))).
  { induction gens as [|g gens [ks [Hl [Hp E]]]].
    - exists []. repeat split; constructor.
    - destruct (lin_expr_ok g 0%Qc) as [den [Hd [Eg _]]].
      exists (zq den :: ks). split; [simpl; lia|]. split; [constructor; [apply zq_pos, Hd | exact Hp]|].
      cbn [mapM]. rewrite Eg. cbn [bind]. rewrite E. reflexivity. }
  destruct H as [ks [Hl [Hp E]]]. unfold ras_generators. rewrite E. cbn [bind]. clear E.
  set (lines := filter _ _). eexists. split; [reflexivity|]. cbn [p_dim r_sub r_homog].
  assert (H : exists ks', length ks' = length (nonzero gens) /\ Forall (fun k => (0 < k)%Qc) ks' /\
     lines = map (fun p => vscale (fst p) (snd p)) (combine ks' (nonzero gens))).
  { unfold lines, nonzero. clear lines. revert ks Hl Hp. induction gens as [|g gens IH]; intros [|k ks] Hl Hp; try discriminate.
    - exists []. repeat split; constructor.
    - inversion Hp; subst. destruct (IH ks) as [ks' [L [P E]]]; [simpl in Hl; lia | assumption|].
      simpl. rewrite vis0_vscale by (intros ->; qclra). destruct (vis0 g); simpl.
      + exists ks'. auto.
      + exists (k :: ks'). split; [simpl; lia|]. split; [constructor; assumption|]. simpl. f_equal. exact E. }
  clearbody lines. clear ks Hl Hp. destruct H as [ks [Hl [Hp E]]]. set (G := nonzero gens) in *. clearbody G. clear gens.
  assert (Ed : max_dim lines = max_dim G).
  { rewrite E. clear E Hp. unfold max_dim. revert ks Hl. induction G as [|g G IH]; intros [|k ks] Hl; try discriminate; [reflexivity|].
    simpl in *. rewrite vscale_length, IH by lia. reflexivity. }
  split; [exact Ed|]. split; [reflexivity|]. intros x. unfold p_mem. cbn [p_dim p_cs r_sub]. rewrite Ed.
  split.
  - intros [Hx H]. split; [exact Hx|]. apply span_cs_ok in H; [|exact Hx]. destruct H as [c [Hc ->]].
    exists (map (fun p => (fst p * snd p)%Qc) (combine c ks)).
    rewrite E in *. rewrite map_length, combine_length in *. split; [lia|].
    clear Ed E Hx Hp. generalize (max_dim G) as D. intros D. revert c ks Hl Hc. induction G as [|g G IH]; intros [|a c] [|k ks] Hl Hc; simpl in *; try lia; try reflexivity.
    rewrite IH by lia. f_equal. rewrite !vscale_map, !map_map. apply map_ext. intros i.
    rewrite <- vscale_map, nth_vscale. ring.
  - intros [Hx [c [Hc ->]]]. split; [apply combination_length|]. apply span_cs_ok; [apply combination_length|].
    exists (map (fun p => (fst p / snd p)%Qc) (combine c ks)).
    rewrite E in *. rewrite !map_length, !combine_length in *. split; [lia|].
    clear Ed E Hx. generalize (max_dim G) as D. intros D. revert c ks Hl Hc Hp. induction G as [|g G IH]; intros [|a c] [|k ks] Hl Hc Hp; simpl in *; try lia; try reflexivity.
    inversion Hp; subst. rewrite <- IH by (assumption || lia). f_equal. rewrite !vscale_map, !map_map. apply map_ext. intros i.
    rewrite <- vscale_map, nth_vscale. field. intros ->; qclra.
Qed.

(** * Equality *)

Lemma neg_cstr_sat x c : sat x (neg_cstr c) <-> ~ sat x c.
Proof.
  unfold sat, neg_cstr; cbn [c_strict c_coef c_const]. rewrite dot_vneg.
  generalize (dot (c_coef c) x). intros q. destruct (c_strict c); simpl; split; intros H.
  - intros G. qclra.
  - apply Qcnot_lt_le in H. qclra.
  - intros G. qclra.
  - apply Qcnot_le_lt in H. qclra.
Qed.

Lemma sat_dec x c : sat x c \/ ~ sat x c.
Proof.
  unfold sat. destruct (c_strict c).
  - destruct (Qclt_le_dec 0 (dot (c_coef c) x + c_const c)) as [H|H]; [left; exact H | right; apply Qcle_not_lt, H].
  - destruct (Qclt_le_dec (dot (c_coef c) x + c_const c) 0) as [H|H]; [right; apply Qclt_not_le, H | left; exact H].
Qed.

Lemma p_subset_ok p q : p_dim p = p_dim q -> (p_subset p q = true <-> forall x, p_mem p x -> p_mem q x).
Proof.
  intros Hd. unfold p_subset. rewrite forallb_forall. split.
  - intros H x [Hx Hs]. split; [congruence|]. apply Forall_forall. intros c Hc. specialize (H c Hc).
    rewrite negb_true_iff in H. destruct (sat_dec x c) as [Y|N]; [exact Y|]. exfalso.
    assert (feasible (p_dim p) (p_cs p ++ [neg_cstr c]) = true); [|congruence].
    apply feasible_spec. exists x. split; [exact Hx|]. apply Forall_app. split; [exact Hs|].
    constructor; [apply neg_cstr_sat, N | constructor].
  - intros H c Hc. rewrite negb_true_iff. destruct (feasible _ _) eqn:F; [|reflexivity]. exfalso.
    apply feasible_spec in F. destruct F as [x [Hx Hs]]. apply Forall_app in Hs. destruct Hs as [H1 H2].
    inversion H2 as [|? ? N _]; subst. apply neg_cstr_sat in N. apply N.
    destruct (H x (conj Hx H1)) as [_ Hq]. rewrite Forall_forall in Hq. apply Hq, Hc.
Qed.

Theorem ras_eqb_ok r s : ras_eqb r s = true <->
  p_dim (r_sub r) = p_dim (r_sub s) /\ forall x, p_mem (r_sub r) x <-> p_mem (r_sub s) x.
Proof.
  unfold ras_eqb. rewrite !andb_true_iff, Nat.eqb_eq. split.
  - intros [[Hd H1] H2]. split; [exact Hd|]. rewrite p_subset_ok in H1 by exact Hd.
    rewrite p_subset_ok in H2 by (symmetry; exact Hd). intros x; split; auto.
  - intros [Hd H]. rewrite !p_subset_ok by auto. split; [split; [exact Hd|]|]; intros x; apply H.
Qed.

(** * Elementary transformations *)


Lemma add_multiple_length i j c x : length (add_multiple i j c x) = length x.
Proof. unfold add_multiple. rewrite map_length, seq_length. reflexivity. Qed.

Lemma nth_add_multiple i j c x k : k < length x ->
  nth k (add_multiple i j c x) 0%Qc = if Nat.eqb k i then (nth k x 0 + c * nth j x 0)%Qc else nth k x 0%Qc.
Proof. intros H. unfold add_multiple. apply (nth_map_seq (fun k => if Nat.eqb k i then (nth k x 0 + c * nth j x 0)%Qc else nth k x 0%Qc)), H. Qed.

Lemma fold_plus_add {A} (f g : A -> Qc) l :
  fold_right Qcplus 0%Qc (map (fun i => (f i + g i)%Qc) l) = (fold_right Qcplus 0 (map f l) + fold_right Qcplus 0 (map g l))%Qc.
Proof. induction l as [|a l IH]; simpl; [ring|]. rewrite IH. ring. Qed.

Lemma dot_indicator d i (c : Qc) x : length x = d -> i < d ->
  dot (map (fun l => if Nat.eqb l i then c else 0%Qc) (seq 0 d)) x = (c * nth i x 0)%Qc.
Proof.
  intros Hx Hi. rewrite <- (dot_unitd d i x Hx Hi), <- dot_vscale. f_equal.
  unfold unitd. rewrite vscale_map, map_map. apply map_ext. intros l. destruct (Nat.eqb l i); ring.
Qed.

Lemma image_rows_ok d i j c x x' : length x = d -> length x' = d -> j < d ->
  (Forall (sat (x ++ x')) (image_rows d i j c) <-> x' = add_multiple i j c x).
Proof.
  intros Hx Hx' Hj.
  assert (E : forall k, k < d ->
     (Forall (sat (x ++ x')) (eq_cstr (map (fun l => ((if Nat.eqb l k then 1 else 0) +
          (if Nat.eqb k i then (if Nat.eqb l j then c else 0) else 0))%Qc) (seq 0 d) ++ vneg (unitv k)) 0%Qc)
      <-> nth k x' 0%Qc = nth k (add_multiple i j c x) 0%Qc)).
  { intros k Hk. rewrite eq_cstr_sat, dot_app_exact by (rewrite map_length, seq_length; lia).
    rewrite dot_vneg, dot_unitv, nth_add_multiple by lia.
    rewrite dot_map_scaled by exact Hx.
    rewrite (map_ext _ (fun l => (((if Nat.eqb l k then 1 else 0) * nth l x 0) +
        ((if Nat.eqb l j then (if Nat.eqb k i then c else 0) else 0) * nth l x 0))%Qc)).
    2:{ intros l. destruct (Nat.eqb l k), (Nat.eqb k i), (Nat.eqb l j); ring. }
    rewrite fold_plus_add.
    rewrite <- (dot_map_scaled (fun l => if Nat.eqb l k then 1%Qc else 0%Qc) d x Hx).
    rewrite <- (dot_map_scaled (fun l => if Nat.eqb l j then (if Nat.eqb k i then c else 0%Qc) else 0%Qc) d x Hx).
    rewrite !dot_indicator by assumption.
    destruct (Nat.eqb k i).
    - generalize (c * nth j x 0)%Qc. intros q. split; intros H; qclra.
    - split; intros H; qclra. }
  unfold image_rows. split.
  - intros H. apply vec_ext; [rewrite add_multiple_length; congruence|]. intros k.
    destruct (le_lt_dec d k) as [Hk|Hk]; [rewrite !nth_overflow by (rewrite ?add_multiple_length; lia); reflexivity|].
    apply (E k Hk). rewrite Forall_forall in *. intros cc Hc. apply H. apply in_flat_map. exists k. split; [apply in_seq; lia | exact Hc].
  - intros H. apply Forall_forall. intros cc Hc. apply in_flat_map in Hc. destruct Hc as [k [Hk Hc]]. apply in_seq in Hk.
    assert (F := proj2 (E k ltac:(lia)) (f_equal (fun v => nth k v 0%Qc) H)).
    rewrite Forall_forall in F. apply F, Hc.
Qed.

Theorem ras_elementary_ok r i j c : i < p_dim (r_sub r) -> j < p_dim (r_sub r) ->
  exists s, ras_elementary r (Z.of_nat i) (Z.of_nat j) c = Ok s /\ p_dim (r_sub s) = p_dim (r_sub r) /\ r_homog s = r_homog r /\
    forall x', p_mem (r_sub s) x' <-> exists x, p_mem (r_sub r) x /\ x' = add_multiple i j c x.
Proof.
  intros Hi Hj. unfold ras_elementary. rewrite !Nat2Z.id.
  replace (0 <=? Z.of_nat i)%Z with true by (symmetry; apply Z.leb_le; lia).
  replace (0 <=? Z.of_nat j)%Z with true by (symmetry; apply Z.leb_le; lia).
  rewrite (proj2 (Nat.ltb_lt _ _) Hi), (proj2 (Nat.ltb_lt _ _) Hj). cbn [andb check_].
  eexists. split; [reflexivity|]. split; [reflexivity|]. split; [reflexivity|]. intros x'.
  unfold affine_image, p_mem. cbn [p_dim p_cs r_sub]. set (d := p_dim (r_sub r)) in *. split.
  - intros [Hl H]. apply project_ok in H. destruct H as [x [Hx H]]. apply Forall_app in H. destruct H as [H1 H2].
    apply embed_sat in H1; [|exact Hx]. apply image_rows_ok in H2; auto. exists x. auto.
  - intros [x [[Hx H] ->]]. rewrite add_multiple_length. split; [exact Hx|]. apply project_ok. exists x. split; [exact Hx|].
    apply Forall_app. split; [apply embed_sat; assumption|]. apply image_rows_ok; auto. rewrite add_multiple_length. exact Hx.
Qed.

Lemma ras_elementary_throws r i j c :
  ~ ((0 <= i < Z.of_nat (p_dim (r_sub r)))%Z /\ (0 <= j < Z.of_nat (p_dim (r_sub r)))%Z) -> ras_elementary r i j c = Throw.
Proof.
  intros H. unfold ras_elementary.
  destruct ((0 <=? i)%Z && (0 <=? j)%Z && (Z.to_nat i <? p_dim (r_sub r)) && (Z.to_nat j <? p_dim (r_sub r))) eqn:E; [|reflexivity].
  exfalso. apply H. rewrite !andb_true_iff, !Z.leb_le, !Nat.ltb_lt in E. lia.
Qed.

Lemma add_multiple_inv i j c x : i <> j -> i < length x -> j < length x -> add_multiple i j (- c)%Qc (add_multiple i j c x) = x.
Proof.
  intros Hij Hi Hj. apply vec_ext; [rewrite !add_multiple_length; reflexivity|]. intros k.
  destruct (le_lt_dec (length x) k) as [Hk|Hk].
  { rewrite !nth_overflow by (rewrite ?add_multiple_length; lia). reflexivity. }
  rewrite nth_add_multiple by (rewrite add_multiple_length; exact Hk). rewrite !nth_add_multiple by assumption.
  assert (E : Nat.eqb j i = false) by (apply Nat.eqb_neq; auto). rewrite E.
  destruct (Nat.eqb k i); ring.
Qed.

(** Applying the opposite transformation restores the subspace. *)
Theorem ras_elementary_inverse r i j c : i <> j -> i < p_dim (r_sub r) -> j < p_dim (r_sub r) ->
  exists s t, ras_elementary r (Z.of_nat i) (Z.of_nat j) c = Ok s /\
    ras_elementary s (Z.of_nat i) (Z.of_nat j) (- c)%Qc = Ok t /\ ras_eqb r t = true.
Proof.
  intros Hij Hi Hj. destruct (ras_elementary_ok r i j c Hi Hj) as [s [E1 [D1 [_ M1]]]].
  destruct (ras_elementary_ok s i j (- c)%Qc ltac:(lia) ltac:(lia)) as [t [E2 [D2 [_ M2]]]].
  exists s, t. split; [exact E1|]. split; [exact E2|]. apply ras_eqb_ok. split; [congruence|].
  intros x. rewrite M2. split.
  - intros H. exists (add_multiple i j c x). split; [apply M1; eauto|]. symmetry.
    destruct H as [Hl _]. apply add_multiple_inv; congruence.
  - intros [y [Hy ->]]. apply M1 in Hy. destruct Hy as [z [Hz ->]]. pose proof Hz as [Hl _].
    rewrite add_multiple_inv by congruence. exact Hz.
Qed.

(** * Swapping *)

Theorem ras_swap_undefined r i j : 3 <= p_dim (r_sub r) -> (0 <= i)%Z -> (0 <= j)%Z -> ras_swap r i j = UB.
Proof.
  intros H Hi Hj. unfold ras_swap. rewrite (proj2 (Z.leb_le _ _) Hi), (proj2 (Z.leb_le _ _) Hj). cbn [andb check_].
  unfold map_space_dimensions. destruct (nodupb _ && _) eqn:E; [|reflexivity]. exfalso.
  apply andb_true_iff in E. destruct E as [E _]. apply nodupb_NoDup in E.
  destruct (p_dim (r_sub r)) as [|[|[|d]]]; try lia. simpl in E.
  inversion E as [|? ? N1 E1]; subst. inversion E1 as [|? ? N2 E2]; subst. clear E E1 E2.
  unfold swap_maps in *. simpl in N1, N2.
  destruct (Z.to_nat i) as [|[|k]]; destruct (Z.to_nat j) as [|[|l]]; simpl in *; try tauto;
  repeat match goal with H : context[if ?b then _ else _] |- _ => destruct b end; tauto.
Qed.

Lemma dot_two u a b : dot u [a; b] = (nth 0 u 0 * a + nth 1 u 0 * b)%Qc.
Proof. destruct u as [|p [|q u]]; cbn [dot nth]; try ring. destruct u; cbn [dot]; ring. Qed.

(** In dimension two the coordinates are exchanged. *)
Theorem ras_swap_two r i j : p_dim (r_sub r) = 2 -> (i = 0%Z /\ j = 1%Z) \/ (i = 1%Z /\ j = 0%Z) ->
  exists s, ras_swap r i j = Ok s /\ p_dim (r_sub s) = 2 /\ r_homog s = r_homog r /\
    forall a b, p_mem (r_sub s) [a; b] <-> p_mem (r_sub r) [b; a].
Proof.
  intros Hd Hij. unfold ras_swap, map_space_dimensions. rewrite Hd.
  assert (E : (0 <=? i)%Z && (0 <=? j)%Z = true) by (destruct Hij as [[-> ->]|[-> ->]]; reflexivity).
  assert (Ef : map (swap_maps (Z.to_nat i) (Z.to_nat j)) (seq 0 2) = [1; 0]) by (destruct Hij as [[-> ->]|[-> ->]]; reflexivity).
  assert (F0 : swap_maps (Z.to_nat i) (Z.to_nat j) 0 = 1) by (destruct Hij as [[-> ->]|[-> ->]]; reflexivity).
  assert (F1 : swap_maps (Z.to_nat i) (Z.to_nat j) 1 = 0) by (destruct Hij as [[-> ->]|[-> ->]]; reflexivity).
  rewrite E, Ef. cbn [check_ nodupb memb forallb negb andb orb Nat.eqb Nat.ltb Nat.leb bind].
  eexists. split; [reflexivity|]. cbn [r_sub p_dim r_homog]. split; [reflexivity|]. split; [reflexivity|].
  intros a b. unfold p_mem. cbn [p_dim p_cs]. rewrite Hd, Forall_map.
  assert (Es : forall c, sat [a; b] (mkcstr (c_strict c) (fold_right vaddp [] (map (fun x => vscale (nth x (c_coef c) 0%Qc) (unitv (swap_maps (Z.to_nat i) (Z.to_nat j) x))) (seq 0 2))) (c_const c)) <-> sat [b; a] c).
  { intros c. unfold sat; cbn [c_strict c_coef c_const seq map fold_right].
    rewrite F0, F1, !dot_vaddp, !dot_vscale, !dot_unitv, (dot_two (c_coef c)).
    change (nth 1 [a; b] 0%Qc) with b. change (nth 0 [a; b] 0%Qc) with a. change (dot [] [a; b]) with 0%Qc.
    replace (nth 0 (c_coef c) 0 * b + (nth 1 (c_coef c) 0 * a + 0))%Qc with (nth 0 (c_coef c) 0 * b + nth 1 (c_coef c) 0 * a)%Qc by ring.
    reflexivity. }
  split; intros [_ H]; (split; [reflexivity|]); rewrite Forall_forall in *; intros c Hc; apply Es, H, Hc.
Qed.

(** Swapping a coordinate with itself is not the identity either. *)
Theorem ras_swap_same r i : 2 <= p_dim (r_sub r) -> (0 <= i)%Z -> ras_swap r i i = UB.
Proof.
  intros H Hi. unfold ras_swap. rewrite (proj2 (Z.leb_le _ _) Hi). cbn [andb check_].
  unfold map_space_dimensions. destruct (nodupb _ && _) eqn:E; [|reflexivity]. exfalso.
  apply andb_true_iff in E. destruct E as [E _]. apply nodupb_NoDup in E.
  destruct (p_dim (r_sub r)) as [|[|d]]; try lia. cbn [seq map] in E.
  inversion E as [|? ? N1 _]; subst. apply N1. left. unfold swap_maps.
  destruct (Z.to_nat i) as [|[|k]]; reflexivity.
Qed.

(** The constructors produce linear subspaces. *)
Lemma ras_equations_linear eqs y r : ras_equations eqs y = Ok r -> Forall (fun k => k = 0%Qc) y -> linear_sub r /\ r_homog r = true.
Proof.
  intros E H. assert (L : length eqs = length y).
  { destruct (Nat.eq_dec (length eqs) (length y)) as [L|L]; [exact L|]. rewrite ras_equations_mismatch in E by exact L. discriminate. }
  destruct (ras_equations_ok eqs y L) as [r' [E' [Hd [Hh Hm]]]]. rewrite E in E'. inversion E'; subst r'. split.
  - intros c x. rewrite !Hm, vscale_length. intros [H1 H2]. split; [exact H1 | apply solves_scale; assumption].
  - rewrite Hh. apply forallb_forall. intros k Hk. apply qc_eqb_spec. rewrite Forall_forall in H. apply H, Hk.
Qed.
