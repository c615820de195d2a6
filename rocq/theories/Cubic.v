(** A cubic number field as a length type: an [eantic::renf_elem_class] of degree 3
    (intervalxt/sample/renf_elem_floor_division.hpp, renf_elem_coefficients.hpp).
    Elements are triples [(a, b, c)], meaning [a + b g + c g^2], where [g] is the real
    root of [x^3 - 4 x^2 + 6 x - 2], so [1 - g] is the root of [x^3 + x^2 + x - 1] that
    Arnoux and Yoccoz use.  The other two roots are complex, so the sign of an element is
    the sign of its norm. *)
From Coq Require Import Reals Lra Lia Qreals Psatz.
From Verif Require Import Base QcTac LenT FM Subspace LenInst Sqrt2.
Open Scope Z_scope.

Definition q3 := (Qc * Qc * Qc)%type.

Definition q3_add (x y : q3) : q3 :=
  let '(a, b, c) := x in let '(a', b', c') := y in ((a + a')%Qc, (b + b')%Qc, (c + c')%Qc).
Definition q3_sub (x y : q3) : q3 :=
  let '(a, b, c) := x in let '(a', b', c') := y in ((a - a')%Qc, (b - b')%Qc, (c - c')%Qc).
Definition q3_scale (k : Qc) (x : q3) : q3 :=
  let '(a, b, c) := x in ((k * a)%Qc, (k * b)%Qc, (k * c)%Qc).
(** Multiplication by [g]. *)
Definition q3_shift (x : q3) : q3 :=
  let '(a, b, c) := x in ((zq 2 * c)%Qc, (a - zq 6 * c)%Qc, (b + zq 4 * c)%Qc).
Definition q3_mul (x y : q3) : q3 :=
  let '(a, b, c) := x in
  q3_add (q3_scale a y) (q3_add (q3_scale b (q3_shift y)) (q3_scale c (q3_shift (q3_shift y)))).

(** The product of the two complex conjugates. *)
Definition q3_conj (x : q3) : q3 :=
  let '(a, b, c) := x in
  ((a * a + zq 4 * a * b + zq 4 * a * c + zq 6 * b * b + zq 22 * b * c + zq 28 * c * c)%Qc,
   (- (a * b + zq 4 * b * b + zq 16 * b * c + zq 22 * c * c))%Qc,
   (b * b + zq 4 * b * c + zq 6 * c * c - a * c)%Qc).

Definition q3_norm (x : q3) : Qc :=
  let '(a, b, c) := x in
  (a * a * a + zq 4 * a * a * b + zq 4 * a * a * c + zq 6 * a * b * b + zq 18 * a * b * c + zq 20 * a * c * c
   + zq 2 * b * b * b + zq 8 * b * b * c + zq 12 * b * c * c + zq 4 * c * c * c)%Qc.

Definition q3_sign (x : q3) : comparison := (q3_norm x ?= 0)%Qc.
Definition q3_inv (x : q3) : q3 := q3_scale (/ q3_norm x)%Qc (q3_conj x).

(** The largest integer below [x], searched between [lo] and [hi]. *)
Fixpoint q3_bisect (fuel : nat) (lo hi : Z) (x : q3) : Z :=
  match fuel with
  | O => lo
  | Datatypes.S fuel =>
    let m := (lo + hi) / 2 in
    match q3_sign (q3_sub x (zq m, 0%Qc, 0%Qc)) with
    | Lt => q3_bisect fuel lo m x
    | _ => q3_bisect fuel m hi x
    end
  end.

Definition qc_bound (a : Qc) : Z := Z.abs (qnum a).
Definition q3_floor (x : q3) : Z :=
  let '(a, b, c) := x in
  let k := qc_bound a + qc_bound b + qc_bound c in
  q3_bisect (Z.to_nat (Z.log2_up (2 * k + 1))) (- k) (k + 1) x.

Global Instance Q3Ops : LenOps q3 := {
  l_zero := (0%Qc, 0%Qc, 0%Qc);
  l_add := q3_add;
  l_sub := q3_sub;
  l_scale n x := q3_scale (zq n) x;
  l_cmp x y := q3_sign (q3_sub x y);
  l_div x y := match q3_sign y with Eq => None | _ => Some (q3_floor (q3_mul x (q3_inv y))) end;
  l_cross x y' y x' := match q3_sign (q3_sub (q3_mul x y') (q3_mul y x')) with Eq => true | _ => false end;
  l_coefs xs := Ok (map (fun x => let '(a, b, c) := x in [a; b; c]) xs);
  l_deg := 3%nat;
  l_coef x := let '(a, b, c) := x in [a; b; c];
}.

(** ** The root *)

Definition cubic (x : R) : R := (x * x * x - 4 * (x * x) + 6 * x - 2)%R.

Lemma cubic_root : { g : R | (0 <= g <= 1)%R /\ cubic g = 0%R }.
Proof.
  apply (IVT cubic 0 1); [|lra | unfold cubic; lra | unfold cubic; lra].
  unfold cubic. intros x. reg.
Qed.

Definition r3 : R := proj1_sig cubic_root.
Lemma r3_range : (0 <= r3 <= 1)%R. Proof. exact (proj1 (proj2_sig cubic_root)). Qed.
Lemma r3_cube : (r3 * r3 * r3 = 4 * (r3 * r3) - 6 * r3 + 2)%R.
Proof. pose proof (proj2 (proj2_sig cubic_root)) as H. fold r3 in H. unfold cubic in H. lra. Qed.

Definition q3_val (x : q3) : R :=
  let '(a, b, c) := x in (Qc2R a + Qc2R b * r3 + Qc2R c * (r3 * r3))%R.

Lemma q3_val_add x y : q3_val (q3_add x y) = (q3_val x + q3_val y)%R.
Proof. destruct x as [[a b] c], y as [[a' b'] c']. unfold q3_val, q3_add. rewrite !Qc2R_plus. ring. Qed.
Lemma q3_val_sub x y : q3_val (q3_sub x y) = (q3_val x - q3_val y)%R.
Proof. destruct x as [[a b] c], y as [[a' b'] c']. unfold q3_val, q3_sub. rewrite !Qc2R_minus. ring. Qed.
Lemma q3_val_scale k x : q3_val (q3_scale k x) = (Qc2R k * q3_val x)%R.
Proof. destruct x as [[a b] c]. unfold q3_val, q3_scale. rewrite !Qc2R_mult. ring. Qed.
Lemma q3_val_shift x : q3_val (q3_shift x) = (r3 * q3_val x)%R.
Proof.
  destruct x as [[a b] c]. unfold q3_val, q3_shift. rewrite Qc2R_plus, Qc2R_minus, !Qc2R_mult, !Qc2R_zq.
  transitivity (Qc2R a * r3 + Qc2R b * (r3 * r3) + Qc2R c * (r3 * r3 * r3))%R; [rewrite r3_cube; ring | ring].
Qed.
Lemma q3_val_mul x y : q3_val (q3_mul x y) = (q3_val x * q3_val y)%R.
Proof.
  destruct x as [[a b] c]. unfold q3_mul. rewrite !q3_val_add, !q3_val_scale, !q3_val_shift.
  unfold q3_val at 4. ring.
Qed.

(** ** The norm *)

Definition zn (a b c : Z) : Z :=
  a * a * a + 4 * a * a * b + 4 * a * a * c + 6 * a * b * b + 18 * a * b * c + 20 * a * c * c
   + 2 * b * b * b + 8 * b * b * c + 12 * b * c * c + 4 * c * c * c.

Lemma even_cube a : Z.Even (a * a * a) -> exists k, a = 2 * k.
Proof.
  intros [m Hm]. destruct (Z.Even_or_Odd a) as [[k Hk]|[k Hk]]; [exists k; exact Hk|]. exfalso. subst a.
  replace ((2 * k + 1) * (2 * k + 1) * (2 * k + 1)) with (2 * (4 * k * k * k + 6 * k * k + 3 * k) + 1) in Hm by ring. lia.
Qed.

Lemma zn_0 : forall n a b c, Z.abs a + Z.abs b + Z.abs c <= Z.of_nat n -> zn a b c = 0 -> a = 0 /\ b = 0 /\ c = 0.
Proof.
  induction n as [n IH] using lt_wf_ind. intros a b c Hn H.
  destruct (even_cube a) as [a1 ->].
  { exists (- (2 * a * a * b + 2 * a * a * c + 3 * a * b * b + 9 * a * b * c + 10 * a * c * c
      + b * b * b + 4 * b * b * c + 6 * b * c * c + 2 * c * c * c)). unfold zn in H. nia. }
  destruct (even_cube b) as [b1 ->].
  { exists (- (2 * a1 * a1 * a1 + 4 * a1 * a1 * b + 4 * a1 * a1 * c + 3 * a1 * b * b + 9 * a1 * b * c + 10 * a1 * c * c
      + 2 * b * b * c + 3 * b * c * c + c * c * c)). unfold zn in H. nia. }
  destruct (even_cube c) as [c1 ->].
  { exists (- (a1 * a1 * a1 + 4 * a1 * a1 * b1 + 2 * a1 * a1 * c + 6 * a1 * b1 * b1 + 9 * a1 * b1 * c + 5 * a1 * c * c
      + 2 * b1 * b1 * b1 + 4 * b1 * b1 * c + 3 * b1 * c * c)). unfold zn in H. nia. }
  assert (H' : zn a1 b1 c1 = 0) by (unfold zn in *; nia).
  destruct (Z.eq_dec (Z.abs a1 + Z.abs b1 + Z.abs c1) 0) as [E|E]; [lia|].
  destruct (IH (Z.to_nat (Z.abs a1 + Z.abs b1 + Z.abs c1))) with (a := a1) (b := b1) (c := c1) as (? & ? & ?); lia.
Qed.

Lemma q3_norm_R a b c : (Qc2R (q3_norm (a, b, c)) =
  let a := Qc2R a in let b := Qc2R b in let c := Qc2R c in
  a * a * a + 4 * a * a * b + 4 * a * a * c + 6 * a * b * b + 18 * a * b * c + 20 * a * c * c
   + 2 * b * b * b + 8 * b * b * c + 12 * b * c * c + 4 * c * c * c)%R.
Proof. unfold q3_norm. rewrite !Qc2R_plus, !Qc2R_mult, !Qc2R_zq. reflexivity. Qed.

Lemma q3_norm_0 x : Qc2R (q3_norm x) = 0%R -> x = (0%Qc, 0%Qc, 0%Qc).
Proof.
  destruct x as [[a b] c]. rewrite q3_norm_R. cbv zeta. rewrite (Qc_num_den a), (Qc_num_den b), (Qc_num_den c).
  pose proof (qden_pos a). pose proof (qden_pos b). pose proof (qden_pos c).
  set (d := qden a * qden b * qden c).
  assert (Ha : (IZR (qden a) <> 0)%R) by (apply not_0_IZR; lia).
  assert (Hb : (IZR (qden b) <> 0)%R) by (apply not_0_IZR; lia).
  assert (Hc : (IZR (qden c) <> 0)%R) by (apply not_0_IZR; lia).
  intros E.
  assert (G : zn (qnum a * qden b * qden c) (qnum b * qden a * qden c) (qnum c * qden a * qden b) = 0).
  { apply eq_IZR. unfold zn. rewrite !plus_IZR, !mult_IZR.
    match type of E with ?l = _ => transitivity (l * (IZR (qden a) * IZR (qden b) * IZR (qden c)) ^ 3)%R end; [|rewrite E; ring].
    field. auto. }
  apply (zn_0 (Z.to_nat (Z.abs (qnum a * qden b * qden c) + Z.abs (qnum b * qden a * qden c) + Z.abs (qnum c * qden a * qden b)))) in G;
    [|lia].
  destruct G as (G1 & G2 & G3). rewrite (qnum_0 a), (qnum_0 b), (qnum_0 c) by nia. reflexivity.
Qed.

Lemma q3_norm_val x : (Qc2R (q3_norm x) = q3_val x * q3_val (q3_conj x))%R.
Proof.
  destruct x as [[a b] c]. rewrite q3_norm_R. unfold q3_val, q3_conj. cbv zeta.
  rewrite ?Qc2R_opp, ?Qc2R_minus, !Qc2R_plus, !Qc2R_mult, !Qc2R_zq.
  set (u := Qc2R a). set (v := Qc2R b). set (w := Qc2R c).
  pose proof r3_cube as E.
  assert (E4 : (r3 * r3 * (r3 * r3) = 10 * (r3 * r3) - 22 * r3 + 8)%R).
  { transitivity (r3 * (r3 * r3 * r3))%R; [ring|]. rewrite E.
    transitivity (4 * (r3 * r3 * r3) - 6 * (r3 * r3) + 2 * r3)%R; [ring|]. rewrite E. ring. }
  set (q0 := (u * u + 4 * u * v + 4 * u * w + 6 * v * v + 22 * v * w + 28 * w * w)%R).
  set (q1 := (- (u * v + 4 * v * v + 16 * v * w + 22 * w * w))%R).
  set (q2' := (v * v + 4 * v * w + 6 * w * w - u * w)%R).
  transitivity (u * q0 + (u * q1 + v * q0) * r3 + (u * q2' + v * q1 + w * q0) * (r3 * r3)
     + (v * q2' + w * q1) * (r3 * r3 * r3) + w * q2' * (r3 * r3 * (r3 * r3)))%R; [|ring].
  rewrite E, E4. unfold q0, q1, q2'. ring.
Qed.

(** The product of the conjugates is a sum of squares. *)
Lemma q3_conj_nonneg x : (0 <= q3_val (q3_conj x))%R.
Proof.
  destruct x as [[a b] c]. unfold q3_val, q3_conj.
  rewrite ?Qc2R_opp, ?Qc2R_minus, !Qc2R_plus, !Qc2R_mult, !Qc2R_zq.
  set (u := Qc2R a). set (v := Qc2R b). set (w := Qc2R c).
  pose proof r3_cube as E. pose proof r3_range as P.
  assert (E4 : (r3 * r3 * (r3 * r3) = 10 * (r3 * r3) - 22 * r3 + 8)%R).
  { transitivity (r3 * (r3 * r3 * r3))%R; [ring|]. rewrite E.
    transitivity (4 * (r3 * r3 * r3) - 6 * (r3 * r3) + 2 * r3)%R; [ring|]. rewrite E. ring. }
  set (t := (4 - r3)%R). set (m := (6 - 4 * r3 + r3 * r3)%R).
  assert (Hk : (0 <= m - t * t / 4)%R) by (unfold m, t; nra).
  assert (Et : (t * t - 2 * m = 4 - r3 * r3)%R) by (unfold m, t; ring).
  assert (Em : (m * t = 22 - 16 * r3 + 4 * (r3 * r3))%R).
  { transitivity (24 - 22 * r3 + 8 * (r3 * r3) - r3 * r3 * r3)%R; [unfold m, t; ring | rewrite E; ring]. }
  assert (Emm : (m * m = 28 - 22 * r3 + 6 * (r3 * r3))%R).
  { transitivity (36 - 48 * r3 + 28 * (r3 * r3) - 8 * (r3 * r3 * r3) + r3 * r3 * (r3 * r3))%R; [unfold m; ring | rewrite E, E4; ring]. }
  match goal with |- (0 <= ?g)%R =>
    replace g with (u * u + u * v * t + u * w * (t * t - 2 * m) + v * v * m + v * w * (m * t) + w * w * (m * m))%R end.
  2:{ rewrite Et, Em, Emm. unfold t, m. ring. }
  replace (u * u + u * v * t + u * w * (t * t - 2 * m) + v * v * m + v * w * (m * t) + w * w * (m * m))%R
    with (Rsqr (u + v * t / 2 + w * (t * t / 2 - m)) + (m - t * t / 4) * Rsqr (v + w * t))%R by (unfold Rsqr; field).
  pose proof (Rle_0_sqr (u + v * t / 2 + w * (t * t / 2 - m))). pose proof (Rle_0_sqr (v + w * t)). nra.
Qed.

Lemma q3_sign_ok x :
  match q3_sign x with Lt => (q3_val x < 0)%R | Eq => q3_val x = 0%R | Gt => (q3_val x > 0)%R end.
Proof.
  unfold q3_sign. pose proof (Qccompare_R (q3_norm x) 0) as C. rewrite Qc2R_0 in C.
  pose proof (q3_conj_nonneg x) as P. pose proof (q3_norm_val x) as N.
  destruct (q3_norm x ?= 0)%Qc.
  - rewrite (q3_norm_0 x C). unfold q3_val. rewrite Qc2R_0. ring.
  - nra.
  - nra.
Qed.

Lemma q3_val_0 x : q3_val x = 0%R -> x = (0%Qc, 0%Qc, 0%Qc).
Proof. intros H. apply q3_norm_0. rewrite q3_norm_val, H. ring. Qed.

Lemma q3_val_inj x y : q3_val x = q3_val y -> x = y.
Proof.
  intros H. assert (E : q3_sub x y = (0%Qc, 0%Qc, 0%Qc)) by (apply q3_val_0; rewrite q3_val_sub; lra).
  destruct x as [[a b] c], y as [[a' b'] c']. unfold q3_sub in E.
  apply pair_equal_spec in E. destruct E as [E E3]. apply pair_equal_spec in E. destruct E as [E1 E2].
  apply (f_equal Qc2R) in E1, E2, E3. rewrite Qc2R_minus, Qc2R_0 in *.
  repeat f_equal; apply Qc2R_inj; lra.
Qed.

Lemma q3_inv_ok y : q3_val y <> 0%R -> (q3_val (q3_inv y) = / q3_val y)%R.
Proof.
  intros H. unfold q3_inv. rewrite q3_val_scale. pose proof (q3_norm_val y) as N.
  assert (Hr : Qc2R (q3_norm y) <> 0%R).
  { intros C. apply H. rewrite (q3_norm_0 y C). unfold q3_val. rewrite Qc2R_0. ring. }
  assert (I : (Qc2R (/ q3_norm y) = / Qc2R (q3_norm y))%R).
  { apply (Rmult_eq_reg_l (Qc2R (q3_norm y))); [|exact Hr]. rewrite <- Qc2R_mult, Qcmult_inv_r, Qc2R_1.
    - rewrite Rinv_r; [reflexivity | exact Hr].
    - intros C. apply Hr. rewrite C. apply Qc2R_0. }
  rewrite I. apply (Rmult_eq_reg_l (Qc2R (q3_norm y))); [|exact Hr]. rewrite <- Rmult_assoc, Rinv_r, Rmult_1_l by exact Hr.
  rewrite N. field. exact H.
Qed.

(** ** Integer part *)

Lemma q3_bisect_ok fuel : forall lo hi x, (IZR lo <= q3_val x < IZR hi)%R -> hi - lo <= 2 ^ Z.of_nat fuel ->
  (IZR (q3_bisect fuel lo hi x) <= q3_val x < IZR (q3_bisect fuel lo hi x) + 1)%R.
Proof.
  induction fuel as [|fuel IH]; intros lo hi x H B.
  - simpl in *. split; [lra|]. change 1%R with (IZR 1). rewrite <- plus_IZR. apply Rlt_le_trans with (IZR hi); [lra | apply IZR_le; lia].
  - cbn [q3_bisect]. set (m := (lo + hi) / 2). rewrite Nat2Z.inj_succ, Z.pow_succ_r in B by lia.
    pose proof (Z.div_mod (lo + hi) 2 ltac:(lia)) as D. pose proof (Z.mod_pos_bound (lo + hi) 2 ltac:(lia)) as M. fold m in D.
    pose proof (q3_sign_ok (q3_sub x (zq m, 0%Qc, 0%Qc))) as S. rewrite q3_val_sub in S.
    assert (V : q3_val (zq m, 0%Qc, 0%Qc) = IZR m) by (unfold q3_val; rewrite Qc2R_zq, Qc2R_0; ring).
    rewrite V in S. destruct (q3_sign _); apply IH; try lra; lia.
Qed.

Lemma qc_bound_ok a : (- IZR (qc_bound a) <= Qc2R a <= IZR (qc_bound a))%R.
Proof.
  unfold qc_bound. rewrite Qc_num_den, <- opp_IZR. pose proof (qden_pos a) as P.
  assert (Q : (0 < IZR (qden a))%R) by (apply IZR_lt; exact P).
  split; apply (Rmult_le_reg_r (IZR (qden a))); try exact Q; unfold Rdiv; rewrite Rmult_assoc, Rinv_l, Rmult_1_r by lra;
    rewrite <- mult_IZR; apply IZR_le; nia.
Qed.

Lemma q3_floor_ok x : (IZR (q3_floor x) <= q3_val x < IZR (q3_floor x) + 1)%R.
Proof.
  destruct x as [[a b] c]. unfold q3_floor. set (k := qc_bound a + qc_bound b + qc_bound c).
  assert (K : 0 <= k) by (unfold k, qc_bound; lia).
  apply q3_bisect_ok.
  - rewrite opp_IZR, plus_IZR. unfold k. rewrite !plus_IZR. unfold q3_val. pose proof r3_range as [P1 P2].
    pose proof (qc_bound_ok a). pose proof (qc_bound_ok b). pose proof (qc_bound_ok c).
    assert (S : (0 <= r3 * r3 <= 1)%R) by nra.
    assert (B : forall z q t, (- z <= q <= z -> 0 <= t <= 1 -> - z <= q * t <= z)%R) by (intros; nra).
    pose proof (B _ _ _ H0 (conj P1 P2)). pose proof (B _ _ _ H1 S). lra.
  - rewrite Z2Nat.id by apply Z.log2_up_nonneg. 
    destruct (Z.eq_dec k 0) as [->|Hk]; [reflexivity|].
    pose proof (Z.log2_up_spec (2 * k + 1) ltac:(lia)). lia.
Qed.

Global Instance Q3Laws : LenLaws q3.
Proof.
  refine {| val := q3_val; basis := [1%R; r3; (r3 * r3)%R] |}.
  - apply q3_val_inj.
  - unfold q3_val; simpl. rewrite Qc2R_0. ring.
  - apply q3_val_add.
  - apply q3_val_sub.
  - intros. simpl. rewrite q3_val_scale, Qc2R_zq. reflexivity.
  - intros x y. change (l_cmp x y) with (q3_sign (q3_sub x y)). pose proof (q3_sign_ok (q3_sub x y)) as H. rewrite q3_val_sub in H.
    destruct (q3_sign (q3_sub x y)); [lra | lra | lra].
  - intros x y Hx Hy. cbn [l_div Q3Ops]. pose proof (q3_sign_ok y) as S. exists (q3_floor (q3_mul x (q3_inv y))).
    split; [destruct (q3_sign y); try reflexivity; lra|].
    pose proof (q3_floor_ok (q3_mul x (q3_inv y))) as F. rewrite q3_val_mul, q3_inv_ok in F by lra.
    set (k := IZR (q3_floor _)) in *. clearbody k. destruct F as [F1 F2]. split.
    + apply (Rmult_le_compat_r (q3_val y)) in F1; [|lra]. rewrite Rmult_assoc, Rinv_l, Rmult_1_r in F1 by lra. exact F1.
    + apply (Rmult_lt_compat_r (q3_val y)) in F2; [|lra]. rewrite Rmult_assoc, Rinv_l, Rmult_1_r in F2 by lra. exact F2.
  - intros. cbn [l_cross Q3Ops]. pose proof (q3_sign_ok (q3_sub (q3_mul x y') (q3_mul y x'))) as H.
    rewrite q3_val_sub, !q3_val_mul in H. destruct (q3_sign _); split; intros; try discriminate; try lra; reflexivity.
  - reflexivity.
  - simpl. lia.
  - intros [[a b] c]. reflexivity.
  - intros [[a b] c] [[a' b'] c']. reflexivity.
  - intros [[a b] c] [[a' b'] c']. reflexivity.
  - reflexivity.
  - intros [[a b] c]. simpl. ring.
Defined.
