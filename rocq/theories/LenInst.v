(** Instances of the length type interface: integers ([int]/[mpz_class] without
    overflow), rationals ([mpq_class]) and the real quadratic field Q(sqrt 2)
    (as an [eantic::renf_elem_class]). *)
From Coq Require Import Reals Lra Qreals.
From Verif Require Import Base QcTac LenT FM Subspace.
Open Scope Z_scope.

(** intervalxt/sample/integer_floor_division.hpp 33-37, mpz_floor_division.hpp 33-37:
    [/] truncates; division by zero is undefined.  integer_coefficients.hpp 34-44. *)
Global Instance ZOps : LenOps Z := {
  l_zero := 0;
  l_add := Z.add;
  l_sub := Z.sub;
  l_scale := Z.mul;
  l_cmp := Z.compare;
  l_div x y := if y =? 0 then None else Some (Z.quot x y);
  l_cross x y' y x' := (x * y' =? y * x');
  l_coefs xs := Ok (map (fun x => [zq x]) xs);
  l_deg := 1;
  l_coef x := [zq x];
}.

(** intervalxt/sample/mpq_floor_division.hpp 32-36 and mpq_coefficients.hpp 35-41. *)
Global Instance QOps : LenOps Qc := {
  l_zero := 0%Qc;
  l_add := Qcplus;
  l_sub := Qcminus;
  l_scale n x := (zq n * x)%Qc;
  l_cmp := Qccompare;
  l_div x y := if qnum y =? 0 then None
               else Some (Z.quot (qnum x * qden y) (qden x * qnum y));
  l_cross x y' y x' := qc_eqb (x * y') (y * x');
  l_coefs xs := Ok (map (fun x => [x]) xs);
  l_deg := 1;
  l_coef x := [x];
}.

Lemma this_zq x : (this (zq x) == inject_Z x)%Q.
Proof. apply Qred_correct. Qed.
Lemma zq_add x y : zq (x + y) = (zq x + zq y)%Qc.
Proof. apply Qc_is_canon. rewrite this_plus, !this_zq. rewrite inject_Z_plus. reflexivity. Qed.
Lemma zq_opp x : zq (- x) = (- zq x)%Qc.
Proof. apply Qc_is_canon. rewrite this_opp, !this_zq. rewrite inject_Z_opp. reflexivity. Qed.
Lemma zq_sub x y : zq (x - y) = (zq x - zq y)%Qc.
Proof. unfold Z.sub. rewrite zq_add, zq_opp. reflexivity. Qed.
Lemma zq_mul x y : zq (x * y) = (zq x * zq y)%Qc.
Proof. apply Qc_is_canon. rewrite this_mult, !this_zq. rewrite inject_Z_mult. reflexivity. Qed.
Lemma Qc2R_zq x : Qc2R (zq x) = IZR x.
Proof. unfold Qc2R. rewrite (Qeq_eqR _ _ (this_zq x)). unfold Q2R; simpl. lra. Qed.

Lemma quot_spec x y : 0 <= x -> 0 < y -> Z.quot x y * y <= x < (Z.quot x y + 1) * y.
Proof.
  intros Hx Hy. rewrite Z.quot_div_nonneg by lia.
  pose proof (Z.div_mod x y). pose proof (Z.mod_pos_bound x y). lia.
Qed.

Global Instance ZLaws : LenLaws Z.
Proof.
  refine {| val := IZR; basis := [1%R] |}.
  - apply eq_IZR.
  - reflexivity.
  - apply plus_IZR.
  - apply minus_IZR.
  - intros; apply mult_IZR.
  - intros x y. simpl. destruct (Z.compare_spec x y); [subst; reflexivity | apply IZR_lt; lia | apply Rlt_gt, IZR_lt; lia].
  - intros x y Hx Hy. apply le_IZR in Hx. apply lt_IZR in Hy. simpl.
    destruct (Z.eqb_spec y 0); [lia|]. exists (Z.quot x y). split; [reflexivity|].
    pose proof (quot_spec x y Hx Hy) as [H1 H2]. rewrite <- mult_IZR.
    change 1%R with (IZR 1). rewrite <- plus_IZR, <- mult_IZR. split; [apply IZR_le | apply IZR_lt]; assumption.
  - intros. simpl. rewrite Z.eqb_eq, <- !mult_IZR. split; [intros ->; reflexivity | apply eq_IZR].
  - reflexivity.
  - simpl. lia.
  - reflexivity.
  - intros; simpl. rewrite zq_add. reflexivity.
  - intros; simpl. rewrite zq_sub. reflexivity.
  - reflexivity.
  - intros x. simpl. rewrite Qc2R_zq. lra.
Defined.

Lemma Qc_num_den (x : Qc) : (Qc2R x = IZR (qnum x) / IZR (qden x))%R.
Proof. reflexivity. Qed.

Global Instance QLaws : LenLaws Qc.
Proof.
  refine {| val := Qc2R; basis := [1%R] |}.
  - apply Qc2R_inj.
  - apply Qc2R_0.
  - apply Qc2R_plus.
  - apply Qc2R_minus.
  - intros; simpl. rewrite Qc2R_mult, Qc2R_zq. reflexivity.
  - intros x y. simpl. destruct (x ?= y)%Qc eqn:E.
    + f_equal. apply Qceq_alt. exact E.
    + apply Qc2R_lt. apply Qclt_alt. exact E.
    + apply Rlt_gt. apply Qc2R_lt. apply Qcgt_alt. exact E.
  - intros x y Hx Hy. unfold l_div, QOps.
    rewrite Qc_num_den in Hx, Hy.
    assert (Dx : (0 < IZR (qden x))%R) by (apply IZR_lt; reflexivity).
    assert (Dy : (0 < IZR (qden y))%R) by (apply IZR_lt; reflexivity).
    assert (Nx : (0 <= IZR (qnum x))%R).
    { apply (Rmult_le_compat_r (IZR (qden x))) in Hx; [|lra]. unfold Rdiv in Hx. rewrite Rmult_assoc, Rinv_l in Hx; lra. }
    assert (Ny : (0 < IZR (qnum y))%R).
    { apply (Rmult_lt_compat_r (IZR (qden y))) in Hy; [|lra]. unfold Rdiv in Hy. rewrite Rmult_assoc, Rinv_l in Hy; lra. }
    assert (Nx' := Nx). assert (Ny' := Ny). assert (Dx' := Dx). assert (Dy' := Dy).
    apply le_IZR in Nx'. apply lt_IZR in Ny', Dx', Dy'.
    destruct (Z.eqb_spec (qnum y) 0); [lia|].
    exists (Z.quot (qnum x * qden y) (qden x * qnum y)). split; [reflexivity|].
    destruct (quot_spec (qnum x * qden y) (qden x * qnum y)) as [H1 H2].
    { apply Z.mul_nonneg_nonneg; lia. }
    { apply Z.mul_pos_pos; lia. }
    set (q := Z.quot (qnum x * qden y) (qden x * qnum y)) in *. clearbody q.
    apply IZR_le in H1. apply IZR_lt in H2. rewrite !mult_IZR in H1, H2. rewrite plus_IZR in H2.
    rewrite !Qc_num_den.
    set (a := IZR (qnum x)) in *. set (b := IZR (qden x)) in *. set (c := IZR (qnum y)) in *. set (d := IZR (qden y)) in *.
    set (r := IZR q) in *. clearbody a b c d r.
    split.
    + apply (Rmult_le_reg_r (b * d)); [apply Rmult_lt_0_compat; lra|].
      replace (r * (c / d) * (b * d))%R with (r * (b * c))%R by (field; lra).
      replace (a / b * (b * d))%R with (a * d)%R by (field; lra). lra.
    + apply (Rmult_lt_reg_r (b * d)); [apply Rmult_lt_0_compat; lra|].
      replace ((r + 1) * (c / d) * (b * d))%R with ((r + 1) * (b * c))%R by (field; lra).
      replace (a / b * (b * d))%R with (a * d)%R by (field; lra). lra.
  - intros. simpl. rewrite qc_eqb_spec, <- !Qc2R_mult. split; [intros ->; reflexivity | apply Qc2R_inj].
  - reflexivity.
  - simpl. lia.
  - reflexivity.
  - reflexivity.
  - reflexivity.
  - reflexivity.
  - intros x. simpl. lra.
Defined.
