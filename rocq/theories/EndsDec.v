(** Repeated steps on the components of a decomposition: a component that is never settled
    has dense orbits only. *)
From Coq Require Import Reals Lra Lia Permutation List ZArith Classical.
From Verif Require Import RankApi Endless Rank2 RankEnd SpecDense.
From Verif Require Import Base QcTac LenT FM Subspace Lengths IET Decomp Spec SpecDec SpecRank Api DecApi DenseApi.
From Verif Require Import ZorichProof Dyn Saddle ReduceProof Saf Bosh Path Direct Similar InduceProof InduceCons World Seq.
From Verif Require Import DecompSim DecompInv DecompNav DecompRef DecompStep DecompAll DecompEnds DecompDyn DecompCons DecompMore Fuel DecompBudget.
From Verif Require Import Rank RankDec Keane Ends.
Open Scope nat_scope.

Lemma keane_later e : proper e -> has_saddle_connection e \/ has_periodic_point e \/ ~ minimal e ->
  exists N, forall n e', N <= n -> later n e e' -> able e' -> reducible e'.
Proof.
  intros P R. destruct (keane_ends e P R) as (N & HN). exists N. intros n e' Hn [A B] Ab.
  apply (agree_reducible _ _ A), (HN n); [exact Hn | split; [apply same_exch_refl | exact B] | exact (agree_able _ _ (agree_sym _ _ A) Ab)].
Qed.

Section EndsDec.
Context {T : Type} {O : LenOps T} {W : LenLaws T}.

Definition open_ (st : dstep) : Prop :=
  dst_result st = D_LIMIT_REACHED \/ dst_result st = D_WITHOUT_PERIODIC_TRAJECTORY_BOSHERNITZAN.

Lemma step_open e0 d fuel limit c st d' : dec_ok e0 d -> (1 <= limit <= INT_MAX)%Z -> c < length (d_comps d) ->
  decomposition_step fuel limit c d = Ok (st, d') -> open_ st ->
  exists e e' m, at_ d c e /\ at_ d' c e' /\ 1 <= m /\ later m e e' /\ able e' /\ ~ reducible e'.
Proof.
  intros H HL Hc E Hr. destruct (nth_error (d_comps d) c) as [x|] eqn:En; [|apply nth_error_None in En; lia].
  destruct (component_mid d c x En) as (C1 & C2 & Ec & <-).
  destruct (step_is_induce e0 fuel limit d C1 x C2 st d' H Ec ltac:(lia) E) as (v & i0 & k & f & ist & j & y & extra & Es & Hk & Ei & Ed & Hy & _ & Hres & Hlim).
  assert (Hx : In x (d_comps d)) by (rewrite Ec; apply in_middle; auto).
  destruct (dk_good _ _ H x Hx) as [Gx Sw].
  assert (Gi : good i0 (d_len d) /\ exch_of i0 (d_len d) = exch_of (dc_iet x) (d_len d)).
  { destruct (saf_invariant_ok (dc_iet x) (d_len d) (proj1 Gx) (proj1 (proj2 Gx))) as (w & Q & Cw). rewrite Q in Es. injection Es as _ <-.
    split; [|reflexivity]. apply good_set_saf; assumption. }
  destruct Gi as [Gi Ee].
  assert (Hir : undecided ist) by (unfold open_, undecided in *; rewrite Hres in Hr; destruct (is_result ist), Hr; try discriminate; auto).
  destruct (induce_undecided k f i0 (d_len d) ist j (d_len d') Gi ltac:(lia) Ei Hir) as (m & Hm & A & Ab & Nr & _).
  exists (exch_of (dc_iet x) (d_len d)), (exch_of j (d_len d')), m.
  split; [exists x; auto|]. split; [exists y; rewrite Hy; split; [rewrite Ed, nth_error_app2, Nat.sub_diag by lia; reflexivity | reflexivity]|].
  split; [lia|]. split; [apply after_later; rewrite <- Ee; exact A|]. auto.
Qed.

Theorem endless_steps e0 (D : nat -> decomp T) (fuel choice : nat -> nat) (limit : nat -> Z) (st : nat -> dstep) : dec_ok e0 (D 0) ->
  (forall n, (1 <= limit n <= INT_MAX)%Z /\ choice n < length (d_comps (D n)) /\
     decomposition_step (fuel n) (limit n) (choice n) (D n) = Ok (st n, D (S n))) ->
  exists N, (forall n, N <= n -> ~ connects (st n)) /\
    forall n c x, N <= n -> nth_error (d_comps (D n)) c = Some x ->
      (forall m, exists k, m <= k /\ choice k = c /\ open_ (st k)) ->
      minimal (exch_of (dc_iet x) (d_len (D n))) /\ ~ has_saddle_connection (exch_of (dc_iet x) (d_len (D n))).
Proof.
  intros H0 Run. assert (Wk : forall n, worked (D n) [st n] (D (S n))).
  { intros n. destruct (Run n) as (HL & Hc & E). econstructor; [right; exact HL | exact Hc | exact E | constructor]. }
  assert (Hn : forall n, dec_ok e0 (D n)) by (induction n as [|n IH]; [exact H0 | exact (proj1 (worked_ok _ _ _ _ IH (Wk n)))]).
  destruct (eventually_constant (fun n => weight (D n)) 0) as (N & _ & HN).
  { intros n _. apply (worked_ok _ _ _ _ (Hn n) (Wk n)). }
  assert (NC : forall n, N <= n -> ~ connects (st n)).
  { intros n Hle C. destruct (worked_ok _ _ _ _ (Hn n) (Wk n)) as (_ & _ & Hlt).
    specialize (Hlt (ex_intro _ (st n) (conj (or_introl eq_refl) C))). pose proof (HN n Hle) as Q1. pose proof (HN (S n) ltac:(lia)) as Q2. simpl in Q1, Q2. lia. }
  exists N. split; [exact NC|]. intros n0 c x Hn0 Hx Inf.
  assert (St : forall n, N <= n -> forall e, at_ (D n) c e -> exists e' m, at_ (D (S n)) c e' /\ later m e e').
  { intros n Hle e He. destruct (worked_later e0 (D n) [st n] (D (S n)) (Hn n) (Wk n)) as (_ & B & _); [intros s' [<-|[]]; exact (NC n Hle)|]. exact (B c e He). }
  set (e := exch_of (dc_iet x) (d_len (D n0))).
  assert (He : at_ (D n0) c e) by (exists x; auto).
  assert (Go : forall n n', n0 <= n <= n' -> forall e' m, at_ (D n) c e' -> later m e e' ->
    exists e'' m', at_ (D n') c e'' /\ later m' e e'' /\ m <= m').
  { intros n n' [Hle Hn']. induction Hn' as [|n' Hn' IH]; intros e' m A1 A2; [exists e', m; auto|].
    destruct (IH e' m A1 A2) as (e1 & m1 & B1 & B2 & B3). destruct (St n' ltac:(lia) e1 B1) as (e2 & m2 & C1 & C2).
    exists e2, (m1 + m2). split; [exact C1|]. split; [exact (later_plus _ _ _ _ _ B2 C2) | lia]. }
  assert (Far : forall j, exists n e' m, n0 <= n /\ j <= m /\ at_ (D n) c e' /\ later m e e' /\ (0 < j -> able e' /\ ~ reducible e')).
  { induction j as [|j (n & e' & m & F1 & F2 & F3 & F4 & _)].
    - exists n0, e, 0. split; [lia|]. split; [lia|]. split; [exact He |]. split; [apply later_0, agree_refl|]. lia.
    - destruct (Inf n) as (k & Hk & Ck & Ok). destruct (Run k) as (HL & Hc & E). rewrite Ck in Hc, E.
      destruct (step_open e0 (D k) (fuel k) (limit k) c (st k) (D (S k)) (Hn k) HL Hc E Ok) as (f & f' & m1 & S1 & S2 & S3 & S4 & S5 & S6).
      destruct (Go n k ltac:(lia) e' m F3 F4) as (e1 & m3 & G1 & G2 & G3).
      assert (e1 = f) as -> by (destruct G1 as (z1 & Q1 & ->); destruct S1 as (z2 & Q2 & ->); congruence).
      exists (S k), f', (m3 + m1). split; [lia|]. split; [lia|]. split; [exact S2|]. split; [exact (later_plus _ _ _ _ _ G2 S4)|]. auto. }
  assert (Pe : proper e) by (apply wf_proper, (dk_good _ _ (Hn n0) x (nth_error_In _ _ Hx))).
  assert (No : ~ (has_saddle_connection e \/ has_periodic_point e \/ ~ minimal e)).
  { intros Q. destruct (keane_later e Pe Q) as (M & HM). destruct (Far (S M)) as (n & e' & m & _ & F2 & _ & F4 & F5).
    destruct F5 as [Ab Nr]; [lia|]. apply Nr, (HM m e'); [lia | exact F4 | exact Ab]. }
  split; [apply NNPP|]; intros C; apply No; auto.
Qed.
End EndsDec.
