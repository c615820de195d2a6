(** Length types: the template parameter [T] of [sample::Lengths<T, FloorDivision,
    Coefficients>] (intervalxt/sample/lengths.hpp), as a record of computable
    operations [LenOps] and the laws [LenLaws] the proofs rely on. *)
From Coq Require Import Reals Lra Qreals.
From Verif Require Import Base QcTac.

(** Rational vectors, [std::vector<mpq_class>]. *)
Local Open Scope nat_scope.

Notation vec := (list Qc) (only parsing).
Fixpoint vzero (d : nat) : vec := match d with O => [] | S d' => 0%Qc :: vzero d' end.
Fixpoint vadd (u v : vec) : vec :=
  match u, v with
  | x :: u', y :: v' => (x + y)%Qc :: vadd u' v'
  | _, _ => []
  end.
Fixpoint vsub (u v : vec) : vec :=
  match u, v with
  | x :: u', y :: v' => (x - y)%Qc :: vsub u' v'
  | _, _ => []
  end.
Fixpoint vneg (u : vec) : vec := match u with [] => [] | x :: u' => (- x)%Qc :: vneg u' end.
Fixpoint vscale (c : Qc) (u : vec) : vec := match u with [] => [] | x :: u' => (c * x)%Qc :: vscale c u' end.
Definition vis0 (u : vec) : bool := forallb (fun x => if Qc_eq_dec x 0 then true else false) u.

(** The operations of a length type.
    - [l_div]: FloorDivision (intervalxt/sample/*_floor_division.hpp); [None] models
      the crash / undefined behaviour of a division by zero.
    - [l_cross x y' y x']: the test [x * y' == y * x'] of
      intervalxt/sample/detail/lengths.ipp 219.
    - [l_coefs]: Coefficients (intervalxt/sample/*_coefficients.hpp), which turns a list of
      elements into a list of vectors.
    - [l_deg] and [l_coef] are not used by the code.  They describe [l_coefs] for number
      types that compute the vectors element by element with respect to one fixed basis
      of size [l_deg] (integers, rationals, elements of one number field).  Number types
      that pick a basis for every list are the subject of [Mixed]. *)
Class LenOps (T : Type) := {
  l_zero : T;
  l_add : T -> T -> T;
  l_sub : T -> T -> T;
  l_scale : Z -> T -> T;
  l_cmp : T -> T -> comparison;
  l_div : T -> T -> option Z;
  l_cross : T -> T -> T -> T -> bool;
  l_coefs : list T -> res (list vec);
  l_deg : nat;
  l_coef : T -> vec;
}.

Arguments l_deg T {LenOps}.

(** [explicit operator bool] of a length: is it non-zero? *)
Definition l_bool {T} {O : LenOps T} (x : T) : bool :=
  match l_cmp x l_zero with Eq => false | _ => true end.

Definition Qc2R (q : Qc) : R := Q2R (this q).

(** Real value of a coefficient vector with respect to a basis. *)
Fixpoint lin (c : vec) (b : list R) : R :=
  match c, b with
  | x :: c', y :: b' => (Qc2R x * y + lin c' b')%R
  | _, _ => 0%R
  end.

(** The laws: lengths are real numbers with exact arithmetic.
    These are the contracts of int (without overflow), mpz_class, mpq_class,
    renf_elem_class, exactreal::Element. *)
Class LenLaws (T : Type) {O : LenOps T} := {
  val : T -> R;
  val_inj : forall x y, val x = val y -> x = y;
  val_zero : val l_zero = 0%R;
  val_add : forall x y, val (l_add x y) = (val x + val y)%R;
  val_sub : forall x y, val (l_sub x y) = (val x - val y)%R;
  val_scale : forall n x, val (l_scale n x) = (IZR n * val x)%R;
  cmp_val : forall x y,
    match l_cmp x y with
    | Lt => (val x < val y)%R
    | Eq => val x = val y
    | Gt => (val x > val y)%R
    end;
  div_val : forall x y, (0 <= val x)%R -> (0 < val y)%R ->
    exists q, l_div x y = Some q /\
      (IZR q * val y <= val x < (IZR q + 1) * val y)%R;
  cross_val : forall x y' y x',
    l_cross x y' y x' = true <-> (val x * val y' = val y * val x')%R;
  coefs_map : forall xs, l_coefs xs = Ok (map l_coef xs);
  deg_pos : 1 <= l_deg T;
  coef_length : forall x, length (l_coef x) = l_deg T;
  coef_add : forall x y, l_coef (l_add x y) = vadd (l_coef x) (l_coef y);
  coef_sub : forall x y, l_coef (l_sub x y) = vsub (l_coef x) (l_coef y);
  basis : list R;
  basis_length : length basis = l_deg T;
  val_coef : forall x, val x = lin (l_coef x) basis;
}.

Arguments basis T {O LenLaws}.
Lemma vadd_length u v : length u = length v -> length (vadd u v) = length u.
Proof. revert v; induction u as [|x u IH]; intros [|y v] H; simpl in *; try lia. rewrite IH; lia. Qed.
Lemma vsub_length u v : length u = length v -> length (vsub u v) = length u.
Proof. revert v; induction u as [|x u IH]; intros [|y v] H; simpl in *; try lia. rewrite IH; lia. Qed.
Lemma vzero_length d : length (vzero d) = d.
Proof. induction d; simpl; congruence. Qed.

Lemma vsub_diag u : vsub u u = vzero (length u).
Proof.
  induction u as [|x u IH]; simpl; [reflexivity|]. f_equal; [ring | exact IH].
Qed.
Lemma vadd_0_l u d : length u = d -> vadd (vzero d) u = u.
Proof.
  revert d; induction u as [|x u IH]; intros d H; subst d; simpl; [reflexivity|].
  f_equal; [ring | apply IH; reflexivity].
Qed.
Lemma vadd_0_r u d : length u = d -> vadd u (vzero d) = u.
Proof.
  revert d; induction u as [|x u IH]; intros d H; subst d; simpl; [reflexivity|].
  f_equal; [ring | apply IH; reflexivity].
Qed.
Lemma vsub_0_r u d : length u = d -> vsub u (vzero d) = u.
Proof.
  revert d; induction u as [|x u IH]; intros d H; subst d; simpl; [reflexivity|].
  f_equal; [ring | apply IH; reflexivity].
Qed.
Lemma vadd_comm u v : vadd u v = vadd v u.
Proof.
  revert v; induction u as [|x u IH]; intros [|y v]; simpl; try reflexivity.
  f_equal; [ring | apply IH].
Qed.
Lemma vadd_assoc u v w : vadd u (vadd v w) = vadd (vadd u v) w.
Proof.
  revert v w; induction u as [|x u IH]; intros [|y v] [|z w]; simpl; try reflexivity.
  f_equal; [ring | apply IH].
Qed.
Lemma vsub_vadd u v w : length u = length v -> length v = length w ->
  vsub (vadd u v) w = vadd u (vsub v w).
Proof.
  revert v w; induction u as [|x u IH]; intros [|y v] [|z w]; simpl; intros H1 H2; try reflexivity; try lia.
  f_equal; [ring | apply IH; lia].
Qed.
Lemma vneg_length u : length (vneg u) = length u.
Proof. induction u; simpl; congruence. Qed.
Lemma vneg_involutive u : vneg (vneg u) = u.
Proof. induction u as [|x u IH]; simpl; [reflexivity|]. f_equal; [ring | exact IH]. Qed.
Lemma vneg_vsub u v : vneg (vsub u v) = vsub v u.
Proof.
  revert v; induction u as [|x u IH]; intros [|y v]; simpl; try reflexivity.
  f_equal; [ring | apply IH].
Qed.
Lemma vneg_zero d : vneg (vzero d) = vzero d.
Proof. induction d as [|d IH]; simpl; [reflexivity|]. rewrite IH; f_equal; ring. Qed.
Lemma vneg_vadd u v : vneg (vadd u v) = vadd (vneg u) (vneg v).
Proof.
  revert v; induction u as [|x u IH]; intros [|y v]; simpl; try reflexivity.
  f_equal; [ring | apply IH].
Qed.
Lemma vsub_vneg u v : vsub u v = vadd u (vneg v).
Proof.
  revert v; induction u as [|x u IH]; intros [|y v]; simpl; try reflexivity.
  f_equal. apply IH.
Qed.
Lemma vis0_spec u : vis0 u = true <-> u = vzero (length u).
Proof.
  induction u as [|x u IH]; simpl; [tauto|].
  destruct (Qc_eq_dec x 0) as [->|Hx]; simpl.
  - rewrite IH. split; [intros H; rewrite <- H; reflexivity | intros H; injection H; auto].
  - split; [discriminate | intros H; injection H; intros; contradiction].
Qed.
Lemma vis0_vneg u : vis0 (vneg u) = vis0 u.
Proof.
  induction u as [|x u IH]; simpl; [reflexivity|]. rewrite IH. f_equal.
  destruct (Qc_eq_dec x 0) as [Hx|Hx]; destruct (Qc_eq_dec (- x) 0) as [Hy|Hy]; try reflexivity.
  - exfalso. apply Hy. rewrite Hx. ring.
  - exfalso. apply Hx. replace x with (- - x)%Qc by ring. rewrite Hy. ring.
Qed.

Lemma Qc2R_plus x y : Qc2R (x + y) = (Qc2R x + Qc2R y)%R.
Proof. unfold Qc2R. rewrite <- Q2R_plus. apply Qeq_eqR, this_plus. Qed.
Lemma Qc2R_mult x y : Qc2R (x * y) = (Qc2R x * Qc2R y)%R.
Proof. unfold Qc2R. rewrite <- Q2R_mult. apply Qeq_eqR, this_mult. Qed.
Lemma Qc2R_opp x : Qc2R (- x) = (- Qc2R x)%R.
Proof. unfold Qc2R. rewrite <- Q2R_opp. apply Qeq_eqR, this_opp. Qed.
Lemma Qc2R_minus x y : Qc2R (x - y) = (Qc2R x - Qc2R y)%R.
Proof. unfold Qc2R. rewrite <- Q2R_minus. apply Qeq_eqR, this_minus. Qed.
Lemma Qc2R_0 : Qc2R 0 = 0%R.
Proof. unfold Qc2R. simpl. unfold Q2R; simpl. lra. Qed.
Lemma Qc2R_1 : Qc2R 1 = 1%R.
Proof. unfold Qc2R. simpl. unfold Q2R; simpl. lra. Qed.
Lemma Qc2R_inj x y : Qc2R x = Qc2R y -> x = y.
Proof. intros H. apply Qc_is_canon. apply eqR_Qeq. exact H. Qed.
Lemma Qc2R_lt x y : (x < y)%Qc <-> (Qc2R x < Qc2R y)%R.
Proof. unfold Qclt, Qc2R. split; [apply Qlt_Rlt | apply Rlt_Qlt]. Qed.
Lemma Qc2R_le x y : (x <= y)%Qc <-> (Qc2R x <= Qc2R y)%R.
Proof. unfold Qcle, Qc2R. split; [apply Qle_Rle | apply Rle_Qle]. Qed.

Section Laws.
Context {T : Type} {O : LenOps T} {W : LenLaws T}.

Lemma cmp_Lt x y : l_cmp x y = Lt <-> (val x < val y)%R.
Proof. pose proof (cmp_val x y) as H. destruct (l_cmp x y); split; intros; try discriminate; try lra; reflexivity. Qed.
Lemma cmp_Eq x y : l_cmp x y = Eq <-> x = y.
Proof.
  pose proof (cmp_val x y) as H. destruct (l_cmp x y); split; intros E; try discriminate; try (subst; lra); try reflexivity.
  apply val_inj; exact H.
Qed.
Lemma cmp_Gt x y : l_cmp x y = Gt <-> (val x > val y)%R.
Proof. pose proof (cmp_val x y) as H. destruct (l_cmp x y); split; intros; try discriminate; try lra; reflexivity. Qed.

Lemma l_bool_true x : l_bool x = true <-> val x <> 0%R.
Proof.
  unfold l_bool. pose proof (cmp_val x l_zero) as H. rewrite val_zero in H.
  destruct (l_cmp x l_zero); split; intros; try discriminate; try lra; try reflexivity.
Qed.

Lemma coef_zero : l_coef l_zero = vzero (l_deg T).
Proof.
  assert (E : l_sub l_zero l_zero = l_zero).
  { apply val_inj. rewrite val_sub, val_zero. lra. }
  rewrite <- E, coef_sub, vsub_diag, coef_length. reflexivity.
Qed.

Lemma coef_inj x y : l_coef x = l_coef y -> x = y.
Proof. intros H. apply val_inj. rewrite !val_coef, H. reflexivity. Qed.

End Laws.
Open Scope nat_scope.
