(** The real quadratic field Q(sqrt 2) as a length type: an [eantic::renf_elem_class]
    of degree 2 (intervalxt/sample/renf_elem_floor_division.hpp,
    renf_elem_coefficients.hpp).  Elements are pairs [(a, b)], meaning [a + b sqrt 2]. *)
From Coq Require Import Reals Lra Lia Qreals Psatz.
From Verif Require Import Base QcTac LenT FM Subspace LenInst.
Open Scope Z_scope.

Definition q2 := (Qc * Qc)%type.

Definition q2_add (x y : q2) : q2 := ((fst x + fst y)%Qc, (snd x + snd y)%Qc).
Definition q2_sub (x y : q2) : q2 := ((fst x - fst y)%Qc, (snd x - snd y)%Qc).
Definition q2_mul (x y : q2) : q2 :=
  ((fst x * fst y + zq 2 * snd x * snd y)%Qc, (fst x * snd y + snd x * fst y)%Qc).
Definition q2_scale (c : Qc) (x : q2) : q2 := ((c * fst x)%Qc, (c * snd x)%Qc).

(** The sign of [a + b sqrt 2]. *)
Definition q2_sign (x : q2) : comparison :=
  let '(a, b) := x in
  match (a ?= 0)%Qc, (b ?= 0)%Qc with
  | Eq, Eq => Eq
  | Eq, s => s
  | s, Eq => s
  | Gt, Gt => Gt
  | Lt, Lt => Lt
  | Gt, Lt => (a * a ?= zq 2 * b * b)%Qc
  | Lt, Gt => (zq 2 * b * b ?= a * a)%Qc
  end.

(** The integer part of [a + b sqrt 2]. *)
Definition q2_floor (x : q2) : Z :=
  let '(a, b) := x in
  let p := qnum a * qden b in
  let q := qnum b * qden a in
  let d := qden a * qden b in
  (p + (if 0 <=? q then Z.sqrt (2 * q * q) else - Z.sqrt (2 * q * q) - 1)) / d.

Definition q2_inv (y : q2) : q2 :=
  let '(a, b) := y in q2_scale (/ (a * a - zq 2 * b * b))%Qc (a, (- b)%Qc).

Global Instance Q2Ops : LenOps q2 := {
  l_zero := (0%Qc, 0%Qc);
  l_add := q2_add;
  l_sub := q2_sub;
  l_scale n x := q2_scale (zq n) x;
  l_cmp x y := q2_sign (q2_sub x y);
  l_div x y := match q2_sign y with Eq => None | _ => Some (q2_floor (q2_mul x (q2_inv y))) end;
  l_cross x y' y x' := match q2_sign (q2_sub (q2_mul x y') (q2_mul y x')) with Eq => true | _ => false end;
  l_coefs xs := Ok (map (fun x => [fst x; snd x]) xs);
  l_deg := 2%nat;
  l_coef x := [fst x; snd x];
}.

(** ** Irrationality *)

Lemma no_sqrt2_nat : forall d n : nat, (n * n = 2 * (d * d))%nat -> d = 0%nat.
Proof.
  intros d. induction d as [d IH] using lt_wf_ind. intros n H.
  assert (En : exists m, (n = 2 * m)%nat).
  { destruct (Nat.Even_or_Odd n) as [[m Hm]|[m Hm]]; [exists m; exact Hm|]. exfalso. subst n. lia. }
  destruct En as [m ->].
  assert (Ed : exists e, (d = 2 * e)%nat).
  { destruct (Nat.Even_or_Odd d) as [[e He]|[e He]]; [exists e; exact He|]. exfalso. subst d. lia. }
  destruct Ed as [e ->].
  destruct e as [|e]; [reflexivity|]. exfalso.
  specialize (IH (Datatypes.S e) ltac:(lia) m). assert (Datatypes.S e = 0%nat) by (apply IH; lia). lia.
Qed.

Lemma no_sqrt2 n d : n * n = 2 * (d * d) -> d = 0.
Proof.
  intros H. assert (G : Z.abs_nat d = 0%nat).
  { apply (no_sqrt2_nat _ (Z.abs_nat n)). apply Nat2Z.inj. rewrite !Nat2Z.inj_mul, !Zabs2Nat.id_abs. simpl Z.of_nat. nia. }
  lia.
Qed.

Definition r2 : R := sqrt 2.
Lemma r2_pos : (0 < r2)%R. Proof. apply sqrt_lt_R0. lra. Qed.
Lemma r2_sq : (r2 * r2 = 2)%R. Proof. apply sqrt_def. lra. Qed.

Lemma r2_irrational_Z (n d : Z) : (IZR n + IZR d * r2 = 0)%R -> n = 0 /\ d = 0.
Proof.
  intros H. assert (E : (IZR n * IZR n = 2 * (IZR d * IZR d))%R).
  { assert (IZR n = - (IZR d * r2))%R by lra. rewrite H0. pose proof r2_sq. nra. }
  assert (Z : n * n = 2 * (d * d)) by (apply eq_IZR; rewrite !mult_IZR; exact E).
  pose proof (no_sqrt2 _ _ Z). subst d. split; [|reflexivity]. lia.
Qed.

Definition q2_val (x : q2) : R := (Qc2R (fst x) + Qc2R (snd x) * r2)%R.

Lemma qden_pos q : 0 < qden q. Proof. reflexivity. Qed.

Lemma q2_val_frac a b :
  (q2_val (a, b) * IZR (qden a * qden b) = IZR (qnum a * qden b) + IZR (qnum b * qden a) * r2)%R.
Proof.
  unfold q2_val. simpl fst. simpl snd. rewrite !Qc_num_den, !mult_IZR.
  assert (IZR (qden a) <> 0)%R by (apply not_0_IZR; pose proof (qden_pos a); lia).
  assert (IZR (qden b) <> 0)%R by (apply not_0_IZR; pose proof (qden_pos b); lia). field. auto.
Qed.

Lemma qnum_0 q : qnum q = 0 -> q = 0%Qc.
Proof. intros H. apply Qc2R_inj. rewrite Qc_num_den, H, Qc2R_0. unfold Rdiv. ring. Qed.

Lemma q2_val_0 x : q2_val x = 0%R -> x = (0%Qc, 0%Qc).
Proof.
  destruct x as [a b]. intros H. pose proof (q2_val_frac a b) as E. rewrite H, Rmult_0_l in E. symmetry in E.
  apply r2_irrational_Z in E. destruct E as [E1 E2]. pose proof (qden_pos a). pose proof (qden_pos b).
  rewrite (qnum_0 a), (qnum_0 b) by nia. reflexivity.
Qed.

Lemma q2_val_add x y : q2_val (q2_add x y) = (q2_val x + q2_val y)%R.
Proof. unfold q2_val, q2_add; simpl. rewrite !Qc2R_plus. ring. Qed.
Lemma q2_val_sub x y : q2_val (q2_sub x y) = (q2_val x - q2_val y)%R.
Proof. unfold q2_val, q2_sub; simpl. rewrite !Qc2R_minus. ring. Qed.
Lemma q2_val_mul x y : q2_val (q2_mul x y) = (q2_val x * q2_val y)%R.
Proof.
  unfold q2_val, q2_mul; simpl. rewrite !Qc2R_plus, !Qc2R_mult, Qc2R_zq. pose proof r2_sq as E.
  transitivity (Qc2R (fst x) * Qc2R (fst y) + (r2 * r2) * (Qc2R (snd x) * Qc2R (snd y)) +
    (Qc2R (fst x) * Qc2R (snd y) + Qc2R (snd x) * Qc2R (fst y)) * r2)%R; [rewrite E; ring | ring].
Qed.
Lemma q2_val_scale c x : q2_val (q2_scale c x) = (Qc2R c * q2_val x)%R.
Proof. unfold q2_val, q2_scale; simpl. rewrite !Qc2R_mult. ring. Qed.

Lemma q2_val_inj x y : q2_val x = q2_val y -> x = y.
Proof.
  intros H. assert (E : q2_sub x y = (0%Qc, 0%Qc)) by (apply q2_val_0; rewrite q2_val_sub; lra).
  destruct x as [a b], y as [c d]. unfold q2_sub in E. cbn [fst snd] in E. apply pair_equal_spec in E. destruct E as [E1 E2].
  f_equal; apply Qc2R_inj; [apply (f_equal Qc2R) in E1 | apply (f_equal Qc2R) in E2];
    rewrite Qc2R_minus, Qc2R_0 in *; lra.
Qed.

Lemma Qccompare_R (x y : Qc) :
  match (x ?= y)%Qc with Lt => (Qc2R x < Qc2R y)%R | Eq => Qc2R x = Qc2R y | Gt => (Qc2R x > Qc2R y)%R end.
Proof.
  destruct (x ?= y)%Qc eqn:E.
  - f_equal. apply Qceq_alt. exact E.
  - apply Qc2R_lt. apply Qclt_alt. exact E.
  - apply Rlt_gt. apply Qc2R_lt. apply Qcgt_alt. exact E.
Qed.

Lemma q2_sign_ok x :
  match q2_sign x with Lt => (q2_val x < 0)%R | Eq => q2_val x = 0%R | Gt => (q2_val x > 0)%R end.
Proof.
  destruct x as [a b]. unfold q2_sign, q2_val. simpl fst. simpl snd. pose proof r2_pos as P. pose proof r2_sq as E.
  pose proof (Qccompare_R a 0) as A. pose proof (Qccompare_R b 0) as B.
  pose proof (Qccompare_R (a * a) (zq 2 * b * b)) as C. pose proof (Qccompare_R (zq 2 * b * b) (a * a)) as D.
  rewrite !Qc2R_mult, Qc2R_zq in C, D. rewrite Qc2R_0 in A, B.
  set (u := Qc2R a) in *. set (v := Qc2R b) in *.
  assert (F : (0 < u -> v < 0 -> (u + v * r2) * (u - v * r2) = u * u - 2 * v * v)%R).
  { intros _ _. transitivity (u * u - (r2 * r2) * v * v)%R; [ring | rewrite E; ring]. }
  destruct (a ?= 0)%Qc, (b ?= 0)%Qc.
  - rewrite A, B. ring.
  - rewrite A. nra.
  - rewrite A. nra.
  - rewrite B. lra.
  - nra.
  - assert (G : ((u + v * r2) * (v * r2 - u) = 2 * v * v - u * u)%R).
    { transitivity ((r2 * r2) * v * v - u * u)%R; [ring | rewrite E; ring]. }
    assert (Q : (0 < v * r2 - u)%R) by nra.
    destruct (zq 2 * b * b ?= a * a)%Qc.
    + assert ((u + v * r2) * (v * r2 - u) = 0)%R by lra. apply Rmult_integral in H. lra.
    + assert ((u + v * r2) * (v * r2 - u) < 0)%R by lra. nra.
    + assert (0 < (u + v * r2) * (v * r2 - u))%R by lra. nra.
  - rewrite B. lra.
  - assert (Q : (0 < u - v * r2)%R) by nra. assert (0 < u)%R by lra. specialize (F H B).
    destruct (a * a ?= zq 2 * b * b)%Qc.
    + assert ((u + v * r2) * (u - v * r2) = 0)%R by lra. apply Rmult_integral in H0. lra.
    + assert ((u + v * r2) * (u - v * r2) < 0)%R by lra. nra.
    + assert (0 < (u + v * r2) * (u - v * r2))%R by lra. nra.
  - nra.
Qed.

(** ** Integer part *)

Lemma floor_root q : let f := if 0 <=? q then Z.sqrt (2 * q * q) else - Z.sqrt (2 * q * q) - 1 in
  (IZR f <= IZR q * r2 < IZR f + 1)%R.
Proof.
  intros f. pose proof r2_pos as P. pose proof r2_sq as E.
  destruct (Z.sqrt_spec (2 * q * q)) as [S1 S2]; [nia|]. pose proof (Z.sqrt_nonneg (2 * q * q)) as S0.
  subst f. set (t := Z.sqrt (2 * q * q)) in *. clearbody t.
  apply IZR_le in S0. 
  assert (R1 : (IZR t * IZR t <= 2 * IZR q * IZR q)%R) by (rewrite <- !mult_IZR; apply IZR_le; lia).
  assert (R2 : (2 * IZR q * IZR q < (IZR t + 1) * (IZR t + 1))%R).
  { change 1%R with (IZR 1). rewrite <- plus_IZR, <- !mult_IZR. apply IZR_lt. lia. }
  assert (Sq : ((IZR q * r2) * (IZR q * r2) = 2 * IZR q * IZR q)%R).
  { transitivity ((r2 * r2) * IZR q * IZR q)%R; [ring | rewrite E; ring]. }
  set (w := (IZR q * r2)%R) in *.
  destruct (Z.leb_spec 0 q) as [Hq|Hq].
  - assert (Hw : (0 <= w)%R) by (apply Rmult_le_pos; [apply IZR_le; exact Hq | lra]). split; nra.
  - assert (Hw : (w < 0)%R) by (apply IZR_lt in Hq; unfold w; nra).
    rewrite minus_IZR, opp_IZR.
    assert (Hs : (w <> - IZR t)%R).
    { intros C. assert (G : (IZR t + IZR q * r2 = 0)%R) by (unfold w in C; lra). apply r2_irrational_Z in G. lia. }
    split; [nra|]. assert (w <= - IZR t)%R by nra. lra.
Qed.

Lemma q2_floor_ok x : (IZR (q2_floor x) <= q2_val x < IZR (q2_floor x) + 1)%R.
Proof.
  destruct x as [a b]. pose proof (q2_val_frac a b) as E. unfold q2_floor.
  set (p := qnum a * qden b) in *. set (q := qnum b * qden a) in *. set (d := qden a * qden b) in *.
  assert (Hd : 0 < d) by (pose proof (qden_pos a); pose proof (qden_pos b); nia). clearbody p q d.
  pose proof (floor_root q) as F. cbv zeta in F. set (f := if 0 <=? q then _ else _) in *. clearbody f.
  pose proof (Z.div_mod (p + f) d ltac:(lia)) as M. pose proof (Z.mod_pos_bound (p + f) d Hd) as B.
  set (k := (p + f) / d) in *. clearbody k.
  assert (G1 : (IZR k * IZR d <= IZR p + IZR f)%R) by (rewrite <- plus_IZR, <- mult_IZR; apply IZR_le; nia).
  assert (G2 : (IZR p + IZR f + 1 <= (IZR k + 1) * IZR d)%R).
  { change 1%R with (IZR 1). rewrite <- !plus_IZR, <- mult_IZR. apply IZR_le. nia. }
  assert (Hd' : (0 < IZR d)%R) by (apply IZR_lt; exact Hd).
  split; apply Rnot_lt_le || idtac.
  - intros C. assert (q2_val (a, b) * IZR d < IZR k * IZR d)%R by (apply Rmult_lt_compat_r; assumption). lra.
  - apply (Rmult_lt_reg_r (IZR d)); [exact Hd' | lra].
Qed.

Lemma q2_inv_ok y : q2_val y <> 0%R -> (q2_val (q2_inv y) = / q2_val y)%R.
Proof.
  destruct y as [a b]. intros H. unfold q2_inv. rewrite q2_val_scale.
  set (n := (a * a - zq 2 * b * b)%Qc).
  assert (N : (Qc2R n = q2_val (a, b) * q2_val (a, (- b)%Qc))%R).
  { unfold n, q2_val. simpl. rewrite Qc2R_minus, !Qc2R_mult, Qc2R_zq, Qc2R_opp. pose proof r2_sq as E.
    transitivity (Qc2R a * Qc2R a - (r2 * r2) * Qc2R b * Qc2R b)%R; [rewrite E; ring | ring]. }
  assert (H' : q2_val (a, (- b)%Qc) <> 0%R).
  { intros C. apply q2_val_0 in C. apply pair_equal_spec in C. destruct C as [C1 C2]. apply H. unfold q2_val. cbn [fst snd].
    apply (f_equal Qc2R) in C1, C2. rewrite Qc2R_opp, Qc2R_0 in C2. rewrite Qc2R_0 in C1. rewrite C1. nra. }
  assert (Hn : n <> 0%Qc).
  { intros C. rewrite C, Qc2R_0 in N. symmetry in N. apply Rmult_integral in N. tauto. }
  assert (I : (Qc2R (/ n) = / Qc2R n)%R).
  { assert (Hr : Qc2R n <> 0%R) by (intros C; apply Hn, Qc2R_inj; rewrite C, Qc2R_0; reflexivity).
    apply (Rmult_eq_reg_l (Qc2R n)); [|exact Hr]. rewrite <- Qc2R_mult, Qcmult_inv_r, Qc2R_1 by exact Hn.
    rewrite Rinv_r; [reflexivity | exact Hr]. }
  rewrite I, N. field. auto.
Qed.

Global Instance Q2Laws : LenLaws q2.
Proof.
  refine {| val := q2_val; basis := [1%R; r2] |}.
  - apply q2_val_inj.
  - unfold q2_val; simpl. rewrite Qc2R_0. ring.
  - apply q2_val_add.
  - apply q2_val_sub.
  - intros. simpl. rewrite q2_val_scale, Qc2R_zq. reflexivity.
  - intros x y. change (l_cmp x y) with (q2_sign (q2_sub x y)). pose proof (q2_sign_ok (q2_sub x y)) as H. rewrite q2_val_sub in H.
    destruct (q2_sign (q2_sub x y)); [lra | lra | lra].
  - intros x y Hx Hy. cbn [l_div Q2Ops]. pose proof (q2_sign_ok y) as S. exists (q2_floor (q2_mul x (q2_inv y))).
    split; [destruct (q2_sign y); try reflexivity; lra|].
    pose proof (q2_floor_ok (q2_mul x (q2_inv y))) as F. rewrite q2_val_mul, q2_inv_ok in F by lra.
    set (k := IZR (q2_floor _)) in *. clearbody k. destruct F as [F1 F2]. split.
    + apply (Rmult_le_compat_r (q2_val y)) in F1; [|lra]. rewrite Rmult_assoc, Rinv_l, Rmult_1_r in F1 by lra. exact F1.
    + apply (Rmult_lt_compat_r (q2_val y)) in F2; [|lra]. rewrite Rmult_assoc, Rinv_l, Rmult_1_r in F2 by lra. exact F2.
  - intros. cbn [l_cross Q2Ops]. pose proof (q2_sign_ok (q2_sub (q2_mul x y') (q2_mul y x'))) as H.
    rewrite q2_val_sub, !q2_val_mul in H. destruct (q2_sign _); split; intros; try discriminate; try lra; reflexivity.
  - reflexivity.
  - simpl. lia.
  - reflexivity.
  - reflexivity.
  - reflexivity.
  - reflexivity.
  - intros x. simpl. unfold q2_val. ring.
Defined.
