(** A number type for given real numbers: the rational vector space they span. *)
From Coq Require Import List Reals Lra Lia Classical Eqdep_dec Bool.
From Verif Require Import Base QcTac LenT FM Subspace SubspaceProof LenInst.
Open Scope nat_scope.

(** * Bases *)

Lemma lin_vadd u : forall v b, length u = length b -> length v = length b -> lin (vadd u v) b = (lin u b + lin v b)%R.
Proof.
  induction u as [|x u IH]; intros [|y v] [|z b] H1 H2; simpl in *; try lia; try ring.
  rewrite IH by lia. rewrite Qc2R_plus. ring.
Qed.
Lemma lin_vsub u : forall v b, length u = length b -> length v = length b -> lin (vsub u v) b = (lin u b - lin v b)%R.
Proof.
  induction u as [|x u IH]; intros [|y v] [|z b] H1 H2; simpl in *; try lia; try ring.
  rewrite IH by lia. rewrite Qc2R_minus. ring.
Qed.
Lemma lin_vscale c u : forall b, lin (vscale c u) b = (Qc2R c * lin u b)%R.
Proof.
  induction u as [|x u IH]; intros [|z b]; simpl; try ring. rewrite IH, Qc2R_mult. ring.
Qed.
Lemma lin_vzero n : forall b, lin (vzero n) b = 0%R.
Proof. induction n as [|n IH]; intros [|z b]; simpl; try reflexivity. rewrite IH, Qc2R_0. ring. Qed.

Definition free (b : list R) : Prop := forall v, length v = length b -> lin v b = 0%R -> v = vzero (length b).
Definition in_span (b : list R) (x : R) : Prop := exists v, length v = length b /\ lin v b = x.

Lemma free_one : free [1%R].
Proof.
  intros [|x [|]] H E; try discriminate. simpl in *. f_equal. apply Qc2R_inj. rewrite Qc2R_0. lra.
Qed.

Lemma free_more b x : free b -> exists b', free b' /\ length b <= length b' /\ (forall y, in_span b y -> in_span b' y) /\ in_span b' x.
Proof.
  intro F. destruct (classic (in_span b x)) as [H|H]; [exists b; auto|]. exists (x :: b). split; [|split; [simpl; lia|split]].
  - intros [|q v] Hl E; [discriminate|]. simpl in Hl, E. destruct (Qc_eq_dec q 0) as [->|Nq].
    + simpl. f_equal. apply F; [lia|]. rewrite Qc2R_0 in E. lra.
    + exfalso. apply H. exists (vscale (- / q) v). split; [rewrite vscale_length; lia|].
      assert (Hr : Qc2R q <> 0%R) by (intros C; apply Nq, Qc2R_inj; rewrite C, Qc2R_0; reflexivity).
      rewrite lin_vscale, Qc2R_opp.
      assert (I : (Qc2R (/ q) * Qc2R q = 1)%R) by (rewrite <- Qc2R_mult, Qcmult_comm, Qcmult_inv_r, Qc2R_1 by exact Nq; reflexivity).
      assert (E2 : lin v b = (- (Qc2R q * x))%R) by lra. rewrite E2.
      replace (- Qc2R (/ q) * - (Qc2R q * x))%R with ((Qc2R (/ q) * Qc2R q) * x)%R by ring. rewrite I. ring.
  - intros y (v & Hv & Ev). exists (0%Qc :: v). split; [simpl; lia|]. simpl. rewrite Qc2R_0, Ev. ring.
  - exists (1%Qc :: vzero (length b)). split; [simpl; rewrite vzero_length; reflexivity|]. simpl. rewrite lin_vzero, Qc2R_1. ring.
Qed.

Lemma free_for (xs : list R) : exists b, free b /\ 1 <= length b /\ forall x, In x xs -> in_span b x.
Proof.
  induction xs as [|x xs (b & F & L & H)].
  - exists [1%R]. split; [exact free_one|]. split; [simpl; lia|]. intros x [].
  - destruct (free_more b x F) as (b' & F' & L' & K & Hx). exists b'. split; [exact F'|]. split; [lia|].
    intros y [<-|Hy]; [exact Hx|]. apply K, H, Hy.
Qed.

(** * The number type *)

Section Span.
Variable b : list R.
Hypothesis Hf : free b.
Hypothesis Hb : 1 <= length b.

Definition span : Type := { v : list Qc | (length v =? length b) = true }.
Definition sp_make (v : list Qc) (H : length v = length b) : span := exist _ v (proj2 (Nat.eqb_eq _ _) H).
Lemma sp_len (x : span) : length (proj1_sig x) = length b.
Proof. apply Nat.eqb_eq. exact (proj2_sig x). Qed.
Definition sp_val (x : span) : R := lin (proj1_sig x) b.

Lemma sp_inj x y : sp_val x = sp_val y -> x = y.
Proof.
  intro E. pose proof (sp_len x) as Lx. pose proof (sp_len y) as Ly. destruct x as [u Hu], y as [v Hv]. unfold sp_val in E. cbn [proj1_sig] in *.
  assert (D : u = v).
  { assert (Z : vsub u v = vzero (length b)) by (apply Hf; [rewrite vsub_length; congruence|rewrite lin_vsub by assumption; lra]).
    clear Hu Hv E. revert v Lx Ly Z. generalize (length b) as n. induction u as [|x u IH]; intros n [|y v] Lx Ly Z; cbn [length] in *; subst n; try discriminate; [reflexivity|].
    cbn [vsub vzero] in Z. pose proof (f_equal (fun l => hd 0%Qc l) Z) as Z1. pose proof (f_equal (fun l => tl l) Z) as Z2. cbn [hd tl] in Z1, Z2.
    f_equal; [|apply (IH (length u)); congruence]. transitivity ((x - y) + y)%Qc; [ring|]. rewrite Z1. ring. }
  subst v. f_equal. apply UIP_dec, bool_dec.
Qed.

Definition sp_cmp (x y : span) : comparison :=
  match total_order_T (sp_val x) (sp_val y) with inleft (left _) => Lt | inleft (right _) => Eq | inright _ => Gt end.

Definition span_ops : LenOps span.
Proof.
  refine {|
    l_zero := sp_make (vzero (length b)) _;
    l_add x y := sp_make (vadd (proj1_sig x) (proj1_sig y)) _;
    l_sub x y := sp_make (vsub (proj1_sig x) (proj1_sig y)) _;
    l_scale n x := sp_make (vscale (zq n) (proj1_sig x)) _;
    l_cmp := sp_cmp;
    l_div x y := Some (Int_part (sp_val x / sp_val y));
    l_cross x y' y x' := if Req_EM_T (sp_val x * sp_val y') (sp_val y * sp_val x') then true else false;
    l_coefs xs := Ok (map (fun x : span => proj1_sig x) xs);
    l_deg := length b;
    l_coef x := proj1_sig x
  |}.
  - apply vzero_length.
  - rewrite vadd_length; rewrite ?sp_len; reflexivity.
  - rewrite vsub_length; rewrite ?sp_len; reflexivity.
  - rewrite vscale_length. apply sp_len.
Defined.

Definition span_laws : @LenLaws span span_ops.
Proof.
  refine {| val := sp_val : span -> R; basis := b |}.
  - apply sp_inj.
  - apply lin_vzero.
  - intros x y. apply lin_vadd; apply sp_len.
  - intros x y. apply lin_vsub; apply sp_len.
  - intros n x. unfold sp_val. cbn. rewrite lin_vscale, Qc2R_zq. reflexivity.
  - intros x y. cbn. unfold sp_cmp. destruct (total_order_T _ _) as [[H|H]|H]; assumption.
  - intros x y Hx Hy. exists (Int_part (sp_val x / sp_val y)). split; [reflexivity|].
    destruct (base_Int_part (sp_val x / sp_val y)) as [I1 I2]. set (k := IZR (Int_part _)) in *. clearbody k.
    assert (E : sp_val x = (sp_val x / sp_val y * sp_val y)%R) by (field; lra). set (r := (sp_val x / sp_val y)%R) in *. clearbody r. rewrite E. split; nra.
  - intros x y' y x'. cbn. destruct (Req_EM_T _ _); split; intro H; try discriminate; auto; contradiction.
  - reflexivity.
  - exact Hb.
  - apply sp_len.
  - reflexivity.
  - reflexivity.
  - reflexivity.
  - reflexivity.
Defined.

Lemma span_elem x : in_span b x -> exists u : span, sp_val u = x.
Proof. intros (v & H & E). exists (sp_make v H). exact E. Qed.

Lemma span_list (n : nat) (f : nat -> R) : (forall l, l < n -> in_span b (f l)) -> exists us : list span, length us = n /\ forall l, l < n -> exists u, nth_error us l = Some u /\ sp_val u = f l.
Proof.
  induction n as [|n IH]; intro H; [exists []; split; [reflexivity|lia]|].
  destruct IH as (us & L & K); [intros l Hl; apply H; lia|]. destruct (span_elem (f n)) as (u & Eu); [apply H; lia|].
  exists (us ++ [u]). split; [rewrite app_length; simpl; lia|]. intros l Hl. destruct (Nat.eq_dec l n) as [->|Nl].
  - exists u. split; [rewrite nth_error_app2, L, Nat.sub_diag by lia; reflexivity|exact Eu].
  - destruct (K l) as (w & Ew & Vw); [lia|]. exists w. split; [rewrite nth_error_app1 by lia; exact Ew|exact Vw].
Qed.
End Span.
