(** The real quadratic field Q(sqrt 3) as a length type: an [eantic::renf_elem_class]
    of degree 2 (intervalxt/sample/renf_elem_floor_division.hpp,
    renf_elem_coefficients.hpp).  Elements are [K3 a b], meaning [a + b sqrt 3]. *)
From Coq Require Import Reals Lra Lia Qreals Psatz.
From Verif Require Import Base QcTac LenT FM Subspace LenInst.
Open Scope Z_scope.

Inductive k3 := K3 (a b : Qc).
Definition k3_re (x : k3) : Qc := let (a, _) := x in a.
Definition k3_im (x : k3) : Qc := let (_, b) := x in b.

Lemma K3_eq a b c d : K3 a b = K3 c d -> a = c /\ b = d.
Proof. intros H. split; [exact (f_equal k3_re H)|exact (f_equal k3_im H)]. Qed.

Definition k3_add (x y : k3) : k3 := K3 (k3_re x + k3_re y) (k3_im x + k3_im y).
Definition k3_sub (x y : k3) : k3 := K3 (k3_re x - k3_re y) (k3_im x - k3_im y).
Definition k3_mul (x y : k3) : k3 :=
  K3 (k3_re x * k3_re y + zq 3 * k3_im x * k3_im y) (k3_re x * k3_im y + k3_im x * k3_re y).
Definition k3_scale (c : Qc) (x : k3) : k3 := K3 (c * k3_re x) (c * k3_im x).

(** The sign of [a + b sqrt 3]. *)
Definition k3_sign (x : k3) : comparison :=
  let (a, b) := x in
  match (a ?= 0)%Qc, (b ?= 0)%Qc with
  | Eq, Eq => Eq
  | Eq, s => s
  | s, Eq => s
  | Gt, Gt => Gt
  | Lt, Lt => Lt
  | Gt, Lt => (a * a ?= zq 3 * b * b)%Qc
  | Lt, Gt => (zq 3 * b * b ?= a * a)%Qc
  end.

(** The integer part of [a + b sqrt 3]. *)
Definition k3_floor (x : k3) : Z :=
  let (a, b) := x in
  let p := qnum a * qden b in
  let q := qnum b * qden a in
  let d := qden a * qden b in
  (p + (if 0 <=? q then Z.sqrt (3 * q * q) else - Z.sqrt (3 * q * q) - 1)) / d.

Definition k3_inv (y : k3) : k3 :=
  let (a, b) := y in k3_scale (/ (a * a - zq 3 * b * b))%Qc (K3 a (- b)).

Global Instance K3Ops : LenOps k3 := {
  l_zero := K3 0 0;
  l_add := k3_add;
  l_sub := k3_sub;
  l_scale n x := k3_scale (zq n) x;
  l_cmp x y := k3_sign (k3_sub x y);
  l_div x y := match k3_sign y with Eq => None | _ => Some (k3_floor (k3_mul x (k3_inv y))) end;
  l_cross x y' y x' := match k3_sign (k3_sub (k3_mul x y') (k3_mul y x')) with Eq => true | _ => false end;
  l_coefs xs := Ok (map (fun x => [k3_re x; k3_im x]) xs);
  l_deg := 2%nat;
  l_coef x := [k3_re x; k3_im x];
}.

(** ** Irrationality *)

Lemma no_sqrt3_nat : forall d n : nat, (n * n = 3 * (d * d))%nat -> d = 0%nat.
Proof.
  intros d. induction d as [d IH] using lt_wf_ind. intros n H.
  assert (Three : forall k l : nat, (k * k = 3 * l)%nat -> exists m, (k = 3 * m)%nat).
  { intros k l E. exists (k / 3)%nat. pose proof (Nat.div_mod k 3 ltac:(lia)) as M. pose proof (Nat.mod_upper_bound k 3 ltac:(lia)) as B.
    set (q := (k / 3)%nat) in *. set (r := (k mod 3)%nat) in *. clearbody q r. subst k.
    destruct r as [|[|[|r]]]; [lia|exfalso; lia|exfalso; lia|lia]. }
  destruct (Three n (d * d)%nat H) as [m ->]. destruct (Three d (m * m)%nat ltac:(lia)) as [e ->].
  destruct e as [|e]; [reflexivity|]. exfalso.
  specialize (IH (Datatypes.S e) ltac:(lia) m). assert (Datatypes.S e = 0%nat) by (apply IH; lia). lia.
Qed.

Lemma no_sqrt3 n d : n * n = 3 * (d * d) -> d = 0.
Proof.
  intros H. assert (G : Z.abs_nat d = 0%nat).
  { apply (no_sqrt3_nat _ (Z.abs_nat n)). apply Nat2Z.inj. rewrite !Nat2Z.inj_mul, !Zabs2Nat.id_abs. simpl Z.of_nat. nia. }
  lia.
Qed.

Definition rt3 : R := sqrt 3.
Lemma rt3_pos : (0 < rt3)%R. Proof. apply sqrt_lt_R0. lra. Qed.
Lemma rt3_sq : (rt3 * rt3 = 3)%R. Proof. apply sqrt_def. lra. Qed.

Lemma rt3_irrational_Z (n d : Z) : (IZR n + IZR d * rt3 = 0)%R -> n = 0 /\ d = 0.
Proof.
  intros H. assert (E : (IZR n * IZR n = 3 * (IZR d * IZR d))%R).
  { assert (IZR n = - (IZR d * rt3))%R by lra. rewrite H0. pose proof rt3_sq. nra. }
  assert (Z : n * n = 3 * (d * d)) by (apply eq_IZR; rewrite !mult_IZR; exact E).
  pose proof (no_sqrt3 _ _ Z). subst d. split; [|reflexivity]. lia.
Qed.

Definition k3_val (x : k3) : R := (Qc2R (k3_re x) + Qc2R (k3_im x) * rt3)%R.

Lemma qden_pos q : 0 < qden q. Proof. reflexivity. Qed.

Lemma k3_val_frac a b :
  (k3_val (K3 a b) * IZR (qden a * qden b) = IZR (qnum a * qden b) + IZR (qnum b * qden a) * rt3)%R.
Proof.
  unfold k3_val. simpl k3_re. simpl k3_im. rewrite !Qc_num_den, !mult_IZR.
  assert (IZR (qden a) <> 0)%R by (apply not_0_IZR; pose proof (qden_pos a); lia).
  assert (IZR (qden b) <> 0)%R by (apply not_0_IZR; pose proof (qden_pos b); lia). field. auto.
Qed.

Lemma qnum_0 q : qnum q = 0 -> q = 0%Qc.
Proof. intros H. apply Qc2R_inj. rewrite Qc_num_den, H, Qc2R_0. unfold Rdiv. ring. Qed.

Lemma k3_val_0 x : k3_val x = 0%R -> x = K3 0 0.
Proof.
  destruct x as [a b]. intros H. pose proof (k3_val_frac a b) as E. rewrite H, Rmult_0_l in E. symmetry in E.
  apply rt3_irrational_Z in E. destruct E as [E1 E2]. pose proof (qden_pos a). pose proof (qden_pos b).
  rewrite (qnum_0 a), (qnum_0 b) by nia. reflexivity.
Qed.

Lemma k3_val_add x y : k3_val (k3_add x y) = (k3_val x + k3_val y)%R.
Proof. unfold k3_val, k3_add; simpl. rewrite !Qc2R_plus. ring. Qed.
Lemma k3_val_sub x y : k3_val (k3_sub x y) = (k3_val x - k3_val y)%R.
Proof. unfold k3_val, k3_sub; simpl. rewrite !Qc2R_minus. ring. Qed.
Lemma k3_val_mul x y : k3_val (k3_mul x y) = (k3_val x * k3_val y)%R.
Proof.
  unfold k3_val, k3_mul; simpl. rewrite !Qc2R_plus, !Qc2R_mult, Qc2R_zq. pose proof rt3_sq as E.
  transitivity (Qc2R (k3_re x) * Qc2R (k3_re y) + (rt3 * rt3) * (Qc2R (k3_im x) * Qc2R (k3_im y)) +
    (Qc2R (k3_re x) * Qc2R (k3_im y) + Qc2R (k3_im x) * Qc2R (k3_re y)) * rt3)%R; [rewrite E; ring | ring].
Qed.
Lemma k3_val_scale c x : k3_val (k3_scale c x) = (Qc2R c * k3_val x)%R.
Proof. unfold k3_val, k3_scale; simpl. rewrite !Qc2R_mult. ring. Qed.

Lemma k3_val_inj x y : k3_val x = k3_val y -> x = y.
Proof.
  intros H. assert (E : k3_sub x y = K3 0 0) by (apply k3_val_0; rewrite k3_val_sub; lra).
  destruct x as [a b], y as [c d]. unfold k3_sub in E. cbn [k3_re k3_im] in E. apply K3_eq in E. destruct E as [E1 E2].
  f_equal; apply Qc2R_inj; [apply (f_equal Qc2R) in E1 | apply (f_equal Qc2R) in E2];
    rewrite Qc2R_minus, Qc2R_0 in *; lra.
Qed.

Lemma Qccompare_R (x y : Qc) :
  match (x ?= y)%Qc with Lt => (Qc2R x < Qc2R y)%R | Eq => Qc2R x = Qc2R y | Gt => (Qc2R x > Qc2R y)%R end.
Proof.
  destruct (x ?= y)%Qc eqn:E.
  - f_equal. apply Qceq_alt. exact E.
  - apply Qc2R_lt. apply Qclt_alt. exact E.
  - apply Rlt_gt. apply Qc2R_lt. apply Qcgt_alt. exact E.
Qed.

Lemma k3_sign_ok x :
  match k3_sign x with Lt => (k3_val x < 0)%R | Eq => k3_val x = 0%R | Gt => (k3_val x > 0)%R end.
Proof.
  destruct x as [a b]. unfold k3_sign, k3_val. simpl k3_re. simpl k3_im. pose proof rt3_pos as P. pose proof rt3_sq as E.
  pose proof (Qccompare_R a 0) as A. pose proof (Qccompare_R b 0) as B.
  pose proof (Qccompare_R (a * a) (zq 3 * b * b)) as C. pose proof (Qccompare_R (zq 3 * b * b) (a * a)) as D.
  rewrite !Qc2R_mult, Qc2R_zq in C, D. rewrite Qc2R_0 in A, B.
  set (u := Qc2R a) in *. set (v := Qc2R b) in *.
  assert (F : (0 < u -> v < 0 -> (u + v * rt3) * (u - v * rt3) = u * u - 3 * v * v)%R).
  { intros _ _. transitivity (u * u - (rt3 * rt3) * v * v)%R; [ring | rewrite E; ring]. }
  destruct (a ?= 0)%Qc, (b ?= 0)%Qc.
  - rewrite A, B. ring.
  - rewrite A. nra.
  - rewrite A. nra.
  - rewrite B. lra.
  - nra.
  - assert (G : ((u + v * rt3) * (v * rt3 - u) = 3 * v * v - u * u)%R).
    { transitivity ((rt3 * rt3) * v * v - u * u)%R; [ring | rewrite E; ring]. }
    assert (Q : (0 < v * rt3 - u)%R) by nra.
    destruct (zq 3 * b * b ?= a * a)%Qc.
    + assert ((u + v * rt3) * (v * rt3 - u) = 0)%R by lra. apply Rmult_integral in H. lra.
    + assert ((u + v * rt3) * (v * rt3 - u) < 0)%R by lra. nra.
    + assert (0 < (u + v * rt3) * (v * rt3 - u))%R by lra. nra.
  - rewrite B. lra.
  - assert (Q : (0 < u - v * rt3)%R) by nra. assert (0 < u)%R by lra. specialize (F H B).
    destruct (a * a ?= zq 3 * b * b)%Qc.
    + assert ((u + v * rt3) * (u - v * rt3) = 0)%R by lra. apply Rmult_integral in H0. lra.
    + assert ((u + v * rt3) * (u - v * rt3) < 0)%R by lra. nra.
    + assert (0 < (u + v * rt3) * (u - v * rt3))%R by lra. nra.
  - nra.
Qed.

(** ** Integer part *)

Lemma floor_root3 q : let f := if 0 <=? q then Z.sqrt (3 * q * q) else - Z.sqrt (3 * q * q) - 1 in
  (IZR f <= IZR q * rt3 < IZR f + 1)%R.
Proof.
  intros f. pose proof rt3_pos as P. pose proof rt3_sq as E.
  destruct (Z.sqrt_spec (3 * q * q)) as [S1 S2]; [nia|]. pose proof (Z.sqrt_nonneg (3 * q * q)) as S0.
  subst f. set (t := Z.sqrt (3 * q * q)) in *. clearbody t.
  apply IZR_le in S0. 
  assert (R1 : (IZR t * IZR t <= 3 * IZR q * IZR q)%R) by (rewrite <- !mult_IZR; apply IZR_le; lia).
  assert (R2 : (3 * IZR q * IZR q < (IZR t + 1) * (IZR t + 1))%R).
  { change 1%R with (IZR 1). rewrite <- plus_IZR, <- !mult_IZR. apply IZR_lt. lia. }
  assert (Sq : ((IZR q * rt3) * (IZR q * rt3) = 3 * IZR q * IZR q)%R).
  { transitivity ((rt3 * rt3) * IZR q * IZR q)%R; [ring | rewrite E; ring]. }
  set (w := (IZR q * rt3)%R) in *.
  destruct (Z.leb_spec 0 q) as [Hq|Hq].
  - assert (Hw : (0 <= w)%R) by (apply Rmult_le_pos; [apply IZR_le; exact Hq | lra]). split; nra.
  - assert (Hw : (w < 0)%R) by (apply IZR_lt in Hq; unfold w; nra).
    rewrite minus_IZR, opp_IZR.
    assert (Hs : (w <> - IZR t)%R).
    { intros C. assert (G : (IZR t + IZR q * rt3 = 0)%R) by (unfold w in C; lra). apply rt3_irrational_Z in G. lia. }
    split; [nra|]. assert (w <= - IZR t)%R by nra. lra.
Qed.

Lemma k3_floor_ok x : (IZR (k3_floor x) <= k3_val x < IZR (k3_floor x) + 1)%R.
Proof.
  destruct x as [a b]. pose proof (k3_val_frac a b) as E. unfold k3_floor.
  set (p := qnum a * qden b) in *. set (q := qnum b * qden a) in *. set (d := qden a * qden b) in *.
  assert (Hd : 0 < d) by (pose proof (qden_pos a); pose proof (qden_pos b); nia). clearbody p q d.
  pose proof (floor_root3 q) as F. cbv zeta in F. set (f := if 0 <=? q then _ else _) in *. clearbody f.
  pose proof (Z.div_mod (p + f) d ltac:(lia)) as M. pose proof (Z.mod_pos_bound (p + f) d Hd) as B.
  set (k := (p + f) / d) in *. clearbody k.
  assert (G1 : (IZR k * IZR d <= IZR p + IZR f)%R) by (rewrite <- plus_IZR, <- mult_IZR; apply IZR_le; nia).
  assert (G2 : (IZR p + IZR f + 1 <= (IZR k + 1) * IZR d)%R).
  { change 1%R with (IZR 1). rewrite <- !plus_IZR, <- mult_IZR. apply IZR_le. nia. }
  assert (Hd' : (0 < IZR d)%R) by (apply IZR_lt; exact Hd).
  split; apply Rnot_lt_le || idtac.
  - intros C. assert (k3_val (K3 a b) * IZR d < IZR k * IZR d)%R by (apply Rmult_lt_compat_r; assumption). lra.
  - apply (Rmult_lt_reg_r (IZR d)); [exact Hd' | lra].
Qed.

Lemma k3_inv_ok y : k3_val y <> 0%R -> (k3_val (k3_inv y) = / k3_val y)%R.
Proof.
  destruct y as [a b]. intros H. unfold k3_inv. rewrite k3_val_scale.
  set (n := (a * a - zq 3 * b * b)%Qc).
  assert (N : (Qc2R n = k3_val (K3 a b) * k3_val (K3 a (- b)))%R).
  { unfold n, k3_val. simpl. rewrite Qc2R_minus, !Qc2R_mult, Qc2R_zq, Qc2R_opp. pose proof rt3_sq as E.
    transitivity (Qc2R a * Qc2R a - (rt3 * rt3) * Qc2R b * Qc2R b)%R; [rewrite E; ring | ring]. }
  assert (H' : k3_val (K3 a (- b)) <> 0%R).
  { intros C. apply k3_val_0 in C. apply K3_eq in C. destruct C as [C1 C2]. apply H. unfold k3_val. cbn [k3_re k3_im].
    apply (f_equal Qc2R) in C1, C2. rewrite Qc2R_opp, Qc2R_0 in C2. rewrite Qc2R_0 in C1. rewrite C1. nra. }
  assert (Hn : n <> 0%Qc).
  { intros C. rewrite C, Qc2R_0 in N. symmetry in N. apply Rmult_integral in N. tauto. }
  assert (I : (Qc2R (/ n) = / Qc2R n)%R).
  { assert (Hr : Qc2R n <> 0%R) by (intros C; apply Hn, Qc2R_inj; rewrite C, Qc2R_0; reflexivity).
    apply (Rmult_eq_reg_l (Qc2R n)); [|exact Hr]. rewrite <- Qc2R_mult, Qcmult_inv_r, Qc2R_1 by exact Hn.
    rewrite Rinv_r; [reflexivity | exact Hr]. }
  rewrite I, N. field. auto.
Qed.

Global Instance K3Laws : LenLaws k3.
Proof.
  refine {| val := k3_val; basis := [1%R; rt3] |}.
  - apply k3_val_inj.
  - unfold k3_val; simpl. rewrite Qc2R_0. ring.
  - apply k3_val_add.
  - apply k3_val_sub.
  - intros. simpl. rewrite k3_val_scale, Qc2R_zq. reflexivity.
  - intros x y. change (l_cmp x y) with (k3_sign (k3_sub x y)). pose proof (k3_sign_ok (k3_sub x y)) as H. rewrite k3_val_sub in H.
    destruct (k3_sign (k3_sub x y)); [lra | lra | lra].
  - intros x y Hx Hy. cbn [l_div K3Ops]. pose proof (k3_sign_ok y) as S. exists (k3_floor (k3_mul x (k3_inv y))).
    split; [destruct (k3_sign y); try reflexivity; lra|].
    pose proof (k3_floor_ok (k3_mul x (k3_inv y))) as F. rewrite k3_val_mul, k3_inv_ok in F by lra.
    set (k := IZR (k3_floor _)) in *. clearbody k. destruct F as [F1 F2]. split.
    + apply (Rmult_le_compat_r (k3_val y)) in F1; [|lra]. rewrite Rmult_assoc, Rinv_l, Rmult_1_r in F1 by lra. exact F1.
    + apply (Rmult_lt_compat_r (k3_val y)) in F2; [|lra]. rewrite Rmult_assoc, Rinv_l, Rmult_1_r in F2 by lra. exact F2.
  - intros. cbn [l_cross K3Ops]. pose proof (k3_sign_ok (k3_sub (k3_mul x y') (k3_mul y x'))) as H.
    rewrite k3_val_sub, !k3_val_mul in H. destruct (k3_sign _); split; intros; try discriminate; try lra; reflexivity.
  - reflexivity.
  - simpl. lia.
  - reflexivity.
  - reflexivity.
  - reflexivity.
  - reflexivity.
  - intros x. simpl. unfold k3_val. ring.
Defined.
