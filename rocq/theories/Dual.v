(** Functions on a finite set that satisfy the same rational relations span the same space;
    hence an alternating form that vanishes on the one family vanishes on the other. *)
From Coq Require Import List Permutation Lia.
From Verif Require Import Base QcTac LenT SpecLin Saf.
Open Scope nat_scope.

Section Dual.
Variable top : list nat.
Hypothesis N : NoDup top.

Definition pair (g f : nat -> Qc) : Qc := qsum (fun a => (g a * f a)%Qc) top.

Inductive span (us : list (nat -> Qc)) : (nat -> Qc) -> Prop :=
| span_zero f : (forall a, In a top -> f a = 0%Qc) -> span us f
| span_add u c g f : In u us -> span us g -> (forall a, In a top -> f a = (c * u a + g a)%Qc) -> span us f.

Lemma span_incl us vs f : incl us vs -> span us f -> span vs f.
Proof.
  intros H. induction 1 as [f Hf|u c g f Hu Hg IH Hf]; [apply span_zero; exact Hf|].
  apply (span_add _ u c g); auto.
Qed.

Lemma qsum_delta f a l : NoDup l -> In a l -> qsum (fun b => ((if Nat.eqb b a then 1 else 0) * f b)%Qc) l = f a.
Proof.
  induction l as [|b l IH]; intros Nl Ha; [contradiction|]. inversion Nl as [|? ? Hb Nl']; subst. cbn [qsum].
  destruct (Nat.eqb_spec b a) as [E|E].
  - rewrite (qsum_ext _ (fun _ => (0 * 0)%Qc)), (qsum_scale 0%Qc (fun _ => 0%Qc)); [rewrite E; ring|].
    intros c Hc. destruct (Nat.eqb_spec c a) as [E'|_]; [congruence|ring].
  - destruct Ha as [Ha|Ha]; [congruence|]. rewrite IH by assumption. ring.
Qed.

Lemma pair_sub g f c u : pair g (fun a => (f a - c * u a)%Qc) = (pair g f - c * pair g u)%Qc.
Proof.
  unfold pair. rewrite <- qsum_scale, <- qsum_sub. apply qsum_ext. intros; ring.
Qed.

Lemma pair_sub_l g c h f : pair (fun a => (g a - c * h a)%Qc) f = (pair g f - c * pair h f)%Qc.
Proof.
  unfold pair. rewrite <- qsum_scale, <- qsum_sub. apply qsum_ext. intros; ring.
Qed.

Lemma pair_scale_l c h f : pair (fun a => (c * h a)%Qc) f = (c * pair h f)%Qc.
Proof. unfold pair. rewrite <- qsum_scale. apply qsum_ext. intros; ring. Qed.

Theorem dual us : forall f, (forall g, (forall u, In u us -> pair g u = 0%Qc) -> pair g f = 0%Qc) -> ~ ~ span us f.
Proof.
  induction us as [|u us IH]; intros f H K.
  - apply K. apply span_zero. intros a Ha.
    rewrite <- (qsum_delta f a top N Ha). apply (H (fun b => if Nat.eqb b a then 1%Qc else 0%Qc)). intros w [].
  - assert (E : ~ exists g, (forall w, In w us -> pair g w = 0%Qc) /\ pair g u = 1%Qc).
    { intros (g0 & H0 & H1). apply (IH (fun a => (f a - pair g0 f * u a)%Qc)).
      - intros g Hg. rewrite pair_sub.
        assert (Z : pair (fun a => (g a - pair g u * g0 a)%Qc) f = 0%Qc).
        { apply H. intros w [<-|Hw]; rewrite pair_sub_l; [rewrite H1; ring|]. rewrite (Hg w Hw), (H0 w Hw). ring. }
        rewrite pair_sub_l in Z. rewrite Qcmult_comm. exact Z.
      - intro S. apply K. apply (span_add _ u (pair g0 f) (fun a => (f a - pair g0 f * u a)%Qc)).
        + left. reflexivity.
        + apply (span_incl us); [|exact S]. intros w Hw. right. exact Hw.
        + intros; ring. }
    apply (IH f).
    + intros g Hg. apply H. intros w [<-|Hw]; [|auto].
      destruct (Qc_eq_dec (pair g u) 0) as [Z|NZ]; [exact Z|]. exfalso. apply E.
      exists (fun a => (/ pair g u * g a)%Qc). split.
      * intros w Hw. rewrite pair_scale_l, (Hg w Hw). ring.
      * rewrite pair_scale_l. rewrite Qcmult_comm. apply Qcmult_inv_r. exact NZ.
    + intro S. apply K. apply (span_incl us); [|exact S]. intros w Hw. right. exact Hw.
Qed.

Variable bot : list nat.
Hypothesis P : Permutation top bot.

Lemma half_span us f y : span us f -> (forall u, In u us -> half u y top bot = 0%Qc) -> half f y top bot = 0%Qc.
Proof.
  intros S H. induction S as [f Hf|u c g f Hu Hg IH Hf].
  - unfold half. rewrite (qsum_ext _ (fun _ => (0 * 0)%Qc)), (qsum_scale 0%Qc (fun _ => 0%Qc)); [ring|].
    intros a Ha. rewrite (Hf a Ha). ring.
  - unfold half. rewrite (qsum_ext _ (fun a => (c * (u a * displacement y top bot a) + g a * displacement y top bot a)%Qc)).
    + rewrite qsum_add, (qsum_scale c (fun a => (u a * displacement y top bot a)%Qc)).
      change (c * half u y top bot + half g y top bot = 0)%Qc. rewrite (H u Hu), IH. ring.
    + intros a Ha. rewrite (Hf a Ha). ring.
Qed.

Lemma half_self x : half x x top bot = 0%Qc.
Proof.
  pose proof (half_antisym x x top bot N P) as H. revert H. generalize (half x x top bot). intros h H. qclra.
Qed.

Theorem saf_zero_transfer (x y : nat -> nat -> Qc) d d' :
  (forall q, q < d' -> forall g, (forall k, k < d -> pair g (x k) = 0%Qc) -> pair g (y q) = 0%Qc) ->
  (forall p q, p < q < d -> saf_entry (x p) (x q) top bot = 0%Qc) ->
  forall p q, p < d' -> q < d' -> saf_entry (y p) (y q) top bot = 0%Qc.
Proof.
  intros R Z p q Hp Hq. set (us := map x (seq 0 d)).
  assert (Hu : forall u, In u us -> exists k, k < d /\ u = x k).
  { intros u Hu. apply in_map_iff in Hu. destruct Hu as (k & <- & Hk). apply in_seq in Hk. exists k. split; [lia|reflexivity]. }
  assert (Sp : forall r, r < d' -> ~ ~ span us (y r)).
  { intros r Hr. apply dual. intros g Hg. apply (R r Hr). intros k Hk. apply Hg. apply in_map. apply in_seq. lia. }
  assert (H2 : forall a b, a < d -> b < d -> half (x a) (x b) top bot = 0%Qc).
  { intros a b Ha Hb. destruct (lt_eq_lt_dec a b) as [[L|E]|L].
    - apply saf_entry_zero_half; auto.
    - rewrite E. apply half_self.
    - rewrite half_antisym by assumption. rewrite saf_entry_zero_half by auto. ring. }
  assert (G : forall p q, p < d' -> q < d' -> half (y p) (y q) top bot = 0%Qc).
  { clear p q Hp Hq. intros p q Hp Hq. destruct (Qc_eq_dec (half (y p) (y q) top bot) 0) as [E|E]; [exact E|exfalso].
    apply (Sp p Hp). intro S1. apply (Sp q Hq). intro S2. apply E. apply (half_span us); [exact S1|].
    intros u U. rewrite half_antisym by assumption. rewrite (half_span us); [ring|exact S2|].
    intros w Wu. destruct (Hu u U) as (k & Hk & ->). destruct (Hu w Wu) as (k' & Hk' & ->). apply H2; assumption. }
  rewrite saf_entry_half, !G by assumption. ring.
Qed.
End Dual.
