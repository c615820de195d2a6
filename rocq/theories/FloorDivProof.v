(** Proofs about [FloorDivision]. *)
From Coq Require Import Reals Lra Lia Qround Qreals.
From Verif Require Import Base QcTac LenT FM Subspace MachineInt LenInst FloorDiv.
Open Scope Z_scope.

Lemma quot_div x y : y <> 0 -> (Z.quot x y = x / y <-> 0 <= x * y \/ (y | x)).
Proof.
  intro Hy. assert (Nn : forall a b, 0 <= a -> 0 < b -> Z.quot a b = a / b) by (intros; apply Z.quot_div_nonneg; lia).
  assert (Op : forall a b, b <> 0 -> (- a) / (- b) = a / b) by (intros; apply Z.div_opp_opp; assumption).
  assert (Ne : forall a b, 0 < a -> 0 < b -> (Z.quot (- a) b = (- a) / b <-> (b | a))).
  { intros a b Ha Hb. rewrite Z.quot_opp_l by lia. rewrite Nn by lia. split.
    - intro E. destruct (Z.eq_dec (a mod b) 0) as [M|M]; [apply Z.mod_divide in M; [exact M|lia]|].
      rewrite Z.div_opp_l_nz in E by lia. lia.
    - intro D. rewrite Z.div_opp_l_z; [reflexivity|lia|]. apply Z.mod_divide; [lia|exact D]. }
  destruct (Z_lt_le_dec x 0) as [Hx|Hx], (Z_lt_le_dec y 0) as [Hy'|Hy'].
  - split; [intros _; left; nia|intros _]. rewrite <- (Op x y Hy), <- Z.quot_opp_opp by lia. apply Nn; lia.
  - replace x with (- - x) by lia. rewrite (Ne (- x) y) by lia. rewrite Z.divide_opp_r. rewrite Z.opp_involutive. split; [auto|]. intros [H|H]; [exfalso; nia|exact H].
  - destruct (Z.eq_dec x 0) as [->|Hx0].
    + rewrite Z.quot_0_l, Z.div_0_l by lia. split; [intros _; left; lia|reflexivity].
    + rewrite <- (Op x y Hy), <- Z.quot_opp_opp by lia. rewrite (Ne x (- y)) by lia. rewrite Z.divide_opp_l. split; [auto|]. intros [H|H]; [exfalso; nia|exact H].
  - rewrite Nn by lia. split; [intros _; left; nia|reflexivity].
Qed.

Lemma fd_mpz_floor x y : fd_mpz x y = Ok (x / y) <-> y <> 0 /\ (0 <= x * y \/ (y | x)).
Proof.
  unfold fd_mpz. destruct (Z.eqb_spec y 0) as [E|E].
  - split; [discriminate|]. intros [H _]. contradiction.
  - rewrite <- quot_div by exact E. split; [intro H; injection H as H; auto|]. intros [_ ->]. reflexivity.
Qed.

Lemma quot_between x y : y <> 0 -> - Z.abs x <= Z.quot x y <= Z.abs x.
Proof.
  intro Hy. apply Z.abs_le. rewrite <- Z.quot_abs by exact Hy. rewrite Z.quot_div_nonneg by lia. apply Z.div_le_upper_bound; nia.
Qed.

Lemma fd_int_floor n x y : - n - 1 <= x <= n -> - n - 1 <= y <= n ->
  (fd_int (- n - 1) n x y = Ok (x / y) <-> y <> 0 /\ ~ (x = - n - 1 /\ y = -1) /\ (0 <= x * y \/ (y | x))).
Proof.
  intros Hx Hy. unfold fd_int, mi. destruct (Z.eqb_spec y 0) as [E|E].
  - split; [discriminate|]. intros [H _]. contradiction.
  - rewrite <- quot_div by exact E. destruct (Z.leb_spec (- n - 1) (Z.quot x y)) as [L|L], (Z.leb_spec (Z.quot x y) n) as [U|U]; cbn [andb].
    + split.
      * intro H. injection H as H. split; [exact E|]. split; [|exact H]. intros [-> ->].
        change (-1) with (- (1)) in U. rewrite Z.quot_opp_r, Z.quot_1_r in U by lia. lia.
      * intros (_ & _ & ->). reflexivity.
    + split; [discriminate|]. intros (_ & N & _). exfalso. apply N. pose proof (quot_between x y E) as Q.
      assert (x = - n - 1) by lia. split; [assumption|]. subst x.
      destruct (Z.eq_dec y (-1)) as [|D]; [assumption|]. exfalso.
      destruct (Z_lt_le_dec y 0) as [Y|Y].
      * rewrite <- Z.quot_opp_opp in U by lia. rewrite Z.quot_div_nonneg in U by lia.
        assert ((- (- n - 1)) / (- y) <= n); [|lia]. apply Z.div_le_upper_bound; nia.
      * assert (Z.quot (- n - 1) y <= 0); [|lia]. replace (- n - 1) with (- (n + 1)) by lia. rewrite Z.quot_opp_l by lia. rewrite Z.quot_div_nonneg by lia.
        pose proof (Z.div_pos (n + 1) y ltac:(lia) ltac:(lia)). lia.
    + pose proof (quot_between x y E). exfalso. lia.
    + exfalso. lia.
Qed.

Lemma Qfloor_div (x y : Qc) : y <> 0%Qc -> Qfloor (this x / this y) = (qnum x * qden y) / (qden x * qnum y).
Proof.
  intro Hy. unfold qnum, qden. destruct (this x) as [a b]. assert (N : ~ (this y == 0)%Q) by (intro H; apply Hy, Qc_is_canon; exact H).
  destruct (this y) as [[|n|n] d]; [exfalso; apply N; reflexivity| |]; unfold Qdiv, Qmult, Qinv, Qfloor; cbn [Qnum Qden].
  - reflexivity.
  - rewrite Pos2Z.inj_mul. replace (Z.pos b * Z.neg n) with (- (Z.pos b * Z.pos n)) by lia.
    replace (a * Z.neg d) with (- (a * Z.pos d)) by lia. rewrite <- (Z.div_opp_opp (a * Z.pos d)) by lia. rewrite Z.opp_involutive. reflexivity.
Qed.

Lemma qnum_zero (y : Qc) : qnum y = 0 <-> y = 0%Qc.
Proof.
  unfold qnum. split.
  - intro H. apply Qc_is_canon. unfold Qeq. cbn. rewrite H. reflexivity.
  - intros ->. reflexivity.
Qed.

Lemma fd_mpq_floor (x y : Qc) :
  fd_mpq x y = Ok (Qfloor (this x / this y)) <-> y <> 0%Qc /\ ((0 <= x * y)%Qc \/ exists q, x = (zq q * y)%Qc).
Proof.
  unfold fd_mpq. destruct (Qc_eq_dec y 0) as [->|Hy].
  - split; [|intros [H _]; contradiction]. unfold fd_mpz. rewrite Z.mul_0_r. discriminate.
  - rewrite Qfloor_div by exact Hy. rewrite fd_mpz_floor.
    assert (D : forall q, 0 < qden q) by (intro; reflexivity). pose proof (D x) as Dx. pose proof (D y) as Dy.
    assert (N : qnum y <> 0) by (rewrite qnum_zero; exact Hy).
    assert (S : 0 <= qnum x * qden y * (qden x * qnum y) <-> (0 <= x * y)%Qc).
    { unfold Qcle. rewrite this_mult, this_0. unfold Qle. cbn [Qnum Qden Qmult]. rewrite Z.mul_1_r, Z.mul_0_l. fold (qnum x) (qnum y).
      replace (qnum x * qden y * (qden x * qnum y)) with ((qnum x * qnum y) * (qden x * qden y)) by ring.
      assert (0 < qden x * qden y) by nia. split; intro; nia. }
    assert (V : (qden x * qnum y | qnum x * qden y) <-> exists q, x = (zq q * y)%Qc).
    { split; intros [q E]; exists q.
      - apply Qc_is_canon. rewrite this_mult, this_zq. unfold Qeq, inject_Z. cbn [Qnum Qden Qmult]. fold (qnum x) (qnum y).
        change (Zpos (1 * Qden (this y))) with (qden y). fold (qden x). rewrite E. ring.
      - apply (f_equal this) in E. assert (E' : (this x == inject_Z q * this y)%Q) by (rewrite E; rewrite this_mult, this_zq; reflexivity).
        unfold Qeq, inject_Z in E'. cbn [Qnum Qden Qmult] in E'. change (Zpos (1 * Qden (this y))) with (qden y) in E'.
        fold (qnum x) (qnum y) (qden x) in E'. rewrite E'. ring. }
    rewrite S, V. split; intros [_ H]; (split; [|exact H]); [exact Hy|nia].
Qed.

Section Other.
Context {T : Type} {O : LenOps T} {W : LenLaws T}.

(** The laws do not say anything about other operands. *)
Definition with_div_laws (f : T -> T -> option Z) (Hf : forall x y, (0 <= val x)%R -> (0 < val y)%R -> f x y = l_div x y) :
  @LenLaws T (with_div O f).
Proof.
  refine (@Build_LenLaws T (with_div O f) (@val T O W) (@val_inj T O W) (@val_zero T O W) (@val_add T O W) (@val_sub T O W) (@val_scale T O W) (@cmp_val T O W) _ (@cross_val T O W) (@coefs_map T O W) (@LenT.deg_pos T O W) (@coef_length T O W) (@coef_add T O W) (@coef_sub T O W) (@basis T O W) (@basis_length T O W) (@val_coef T O W)).
  intros x y Hx Hy. cbn. rewrite (Hf x y Hx Hy). apply div_val; assumption.
Defined.
End Other.
