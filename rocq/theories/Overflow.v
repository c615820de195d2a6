(** Two intervals whose lengths are consecutive Fibonacci numbers: the unlimited decomposition
    step makes more rounds than its counter can count. *)
From Coq Require Import Reals Permutation ZArith Lia.
From Verif Require Import Base QcTac LenT FM Subspace Lengths IET LenInst Decomp Spec Api DecApi.
From Verif Require Import ClaimsDecomp.
Open Scope nat_scope.

(** Fibonacci numbers number [2 n + 1] and [2 n]. *)
Fixpoint fibs (n : nat) : Z * Z :=
  match n with
  | 0 => (1, 0)%Z
  | S n' => let '(x, y) := fibs n' in (2 * x + y, x + y)%Z
  end.
Definition fib_lens (n : nat) : slen Z := mkslen [] [fst (fibs n); snd (fibs n)].

Lemma fibs_lt n : (0 <= snd (fibs n) < fst (fibs n))%Z.
Proof. induction n as [|n IH]; cbn [fibs fst snd]; [lia|]. destruct (fibs n) as [x y]. cbn [fst snd] in *. lia. Qed.
Lemma fibs_pos n : (0 < snd (fibs (S n)))%Z.
Proof. pose proof (fibs_lt n). cbn [fibs]. destruct (fibs n) as [x y]. cbn [fst snd] in *. lia. Qed.

Lemma cmp_lt x y : (x < y)%Z -> (x ?= y)%Z = Lt. Proof. apply Z.compare_lt_iff. Qed.
Lemma cmp_gt x y : (y < x)%Z -> (x ?= y)%Z = Gt. Proof. intro. apply Z.compare_gt_iff. lia. Qed.

(** The exchange of the two intervals, with any tracker; the SAF invariant is trivial. *)
Definition two (i : iet Z) : Prop := i_top i = [0; 1] /\ i_bottom i = [1; 0] /\ (i_saf i = None \/ i_saf i = Some []).

Lemma two_saf i s : two i -> length (sl_lens s) = 2 -> iet_saf i s = Ok ([], set_saf i (Some [])).
Proof.
  intros (A & B & C) L. destruct i as [t b w c k]. cbn [i_top i_bottom i_saf] in *. subst. destruct s as [st [|x [|y [|]]]]; try discriminate.
  destruct C as [-> | ->]; [|reflexivity]. unfold iet_saf. cbn [i_saf]. destruct w; reflexivity.
Qed.

Lemma quot_one x y : (0 < y < x)%Z -> (x < 2 * y)%Z -> Z.quot x y = 1%Z.
Proof. intros A B. rewrite Z.quot_div_nonneg by lia. symmetry. apply (Z.div_unique x y 1 (x - y)); lia. Qed.

Section Step.
Local Opaque Z.mul Z.add Z.sub Z.compare Z.quot Z.eqb.

Lemma zorich_once (u v : Z) a b (ls ls' : list Z) w c k : a <> b -> (0 < v < u)%Z -> (u < 2 * v)%Z ->
  nth_error ls a = Some u -> nth_error ls b = Some v -> set_nth a (u - v)%Z ls = Some ls' -> nth_error ls' a = Some (u - v)%Z -> nth_error ls' b = Some v ->
  zorich sample_lens (mkiet [a; b] [b; a] w c k) (mkslen [] ls) = Ok (false, mkiet [a; b] [b; a] w c k, mkslen [] ls').
Proof.
  intros N A B Ha Hb Es Ha' Hb'. unfold zorich. cbn [i_top i_bottom].
  destruct (Nat.eqb_spec a b) as [E|_]; [congruence|]. unfold i_view. cbn [i_top i_swap].
  cbn [zloop]. destruct (Nat.eqb_spec b a) as [E|_]; [congruence|]. rewrite Nat.eqb_refl.
  cbn [sample_lens li_push li_cmp1 li_subrep li_cmp2 bind].
  unfold sl_push, sl_cmp1, sl_sum. cbn [sl_stack sl_lens app sl_accumulate]. unfold sl_at at 1. cbn [sl_lens]. rewrite Hb. cbn [bind]. unfold sl_at at 1. cbn [sl_lens]. rewrite Ha. cbn [bind].
  cbn [l_cmp l_add l_zero ZOps]. rewrite Z.add_0_l, (cmp_lt v u) by lia.
  assert (Sr : sl_subrep a (mkslen [b] ls) = Ok (b, mkslen [] ls')).
  { unfold sl_subrep. cbn [sl_stack]. unfold sl_at at 1. cbn [sl_lens]. rewrite Ha. cbn [bind].
    unfold sl_sum at 1. cbn [sl_stack sl_accumulate]. unfold sl_at at 1. cbn [sl_lens]. rewrite Hb. cbn [bind].
    cbn [l_div l_add l_zero l_sub l_scale l_cmp ZOps]. rewrite Z.add_0_l. destruct (Z.eqb_spec v 0) as [E|_]; [lia|]. rewrite quot_one by lia. rewrite Z.mul_1_l.
    unfold sl_set at 1. cbn [sl_lens sl_stack]. rewrite Es. cbn [bind]. unfold sl_at at 1. cbn [sl_lens]. rewrite Ha'. cbn [bind].
    unfold is_nonneg. cbn [l_cmp l_zero ZOps]. rewrite (cmp_gt (u - v) 0) by lia. cbn [assert_].
    unfold l_bool. cbn [l_cmp l_zero ZOps]. rewrite (cmp_gt (u - v) 0) by lia. cbn [bind sl_stack last sl_subrep_loop].
    unfold sl_at. cbn [sl_lens]. rewrite Hb', Ha'. cbn [bind l_cmp ZOps]. rewrite (cmp_gt v (u - v)) by lia. reflexivity. }
  rewrite Sr. cbn [bind]. destruct (Nat.eqb_spec a b) as [E|_]; [congruence|]. cbn [back_to]. rewrite Nat.eqb_refl. cbn [bind length].
  unfold splice. cbn [skipn]. unfold split_at. rewrite ?Nat.eqb_refl. cbn [bind app firstn].
  unfold sl_cmp2, sl_at. cbn [sl_lens]. rewrite Ha', Hb'. cbn [bind l_cmp ZOps]. rewrite (cmp_lt (u - v) v) by lia. reflexivity.
Qed.

Lemma fib_round (n : nat) w c k :
  zorich sample_lens (mkiet [0; 1] [1; 0] w c k) (fib_lens (S (S n))) = Ok (false, mkiet [0; 1] [1; 0] w c k, mkslen [] [fst (fibs (S n)); snd (fibs (S (S n)))]) /\
  zorich sample_lens (mkiet [1; 0] [0; 1] w c k) (mkslen [] [fst (fibs (S n)); snd (fibs (S (S n)))]) = Ok (false, mkiet [1; 0] [0; 1] w c k, fib_lens (S n)).
Proof.
  pose proof (fibs_lt (S n)) as L. pose proof (fibs_pos n) as P. unfold fib_lens.
  change (fibs (S (S n))) with (let '(x, y) := fibs (S n) in (2 * x + y, x + y)%Z). destruct (fibs (S n)) as [x y]. cbn [fst snd] in *. split.
  - eapply (zorich_once (2 * x + y) (x + y)); try reflexivity; try lia. cbn [set_nth]. do 3 f_equal. lia. cbn [nth_error]. f_equal. lia.
  - eapply (zorich_once (x + y) x); try reflexivity; try lia. cbn [set_nth]. do 4 f_equal. lia. cbn [nth_error]. f_equal. lia.
Qed.
End Step.

Lemma fib_len2 n : length (sl_lens (fib_lens n)) = 2. Proof. reflexivity. Qed.

Lemma fib_loop m : forall fuel n limit i r, two i -> (n + Z.of_nat m = limit)%Z -> (0 <= n)%Z -> (limit <= INT_MAX)%Z ->
  forall o, induce_loop sample_lens fuel true limit n i (fib_lens (m + S r)) = Ok o ->
  exists j, o = (Some false, j, fib_lens (S r)) /\ two j.
Proof.
  induction m as [|m IH]; intros fuel n limit i r Ti El H0 Hl o E; (destruct fuel as [|fuel]; [discriminate|]); cbn [induce_loop] in E.
  - assert (Eb : ((limit =? -1) || (n <? limit))%Z = false).
    { apply Bool.orb_false_iff. split; [apply Z.eqb_neq; lia | apply Z.ltb_ge; lia]. }
    rewrite Eb in E. cbn [negb] in E. injection E as <-. exists i. split; [reflexivity|exact Ti].
  - assert (Eb : ((limit =? -1) || (n <? limit))%Z = true).
    { apply Bool.orb_true_iff. right. apply Z.ltb_lt. lia. }
    rewrite Eb in E. cbn [negb] in E. cbn [sample_lens li_base] in E. rewrite (two_saf i _ Ti (fib_len2 _)) in E. cbn [bind length Nat.eqb] in E.
    destruct i as [t b w c k]. destruct Ti as (Et & Eb' & Ec). cbn [i_top i_bottom i_saf] in *. subst t b.
    unfold set_saf in E. cbn [i_top i_bottom i_swap i_trk] in E. replace (S m + S r) with (S (S (m + r))) in E by lia.
    destruct (fib_round (m + r) w (Some []) k) as [R1 _]. rewrite R1 in E. cbn [bind] in E. unfold iet_swap in E. cbn [i_top i_bottom i_swap i_saf i_trk] in E.
    destruct (fib_round (m + r) (negb w) (Some []) k) as [_ R2]. rewrite R2 in E. cbn [bind i_top i_bottom i_swap i_saf i_trk] in E.
    destruct (Z.eqb_spec n INT_MAX) as [En|_]; [lia|]. replace (S (m + r)) with (m + S r) in E by lia.
    eapply (IH fuel (n + 1)%Z limit _ r); [|lia|lia|exact Hl|exact E]. split; [reflexivity|]. split; [reflexivity|right; reflexivity].
Qed.

Lemma fib_induce m fuel i r ist j s' : two i -> (Z.of_nat m <= INT_MAX)%Z ->
  induce sample_lens fuel (Z.of_nat m) i (fib_lens (m + S r)) = Ok (ist, j, s') ->
  is_result ist = LIMIT_REACHED /\ two j /\ s' = fib_lens (S r).
Proof.
  intros Ti Hm E. unfold induce in E. pose proof Ti as (Et & Eb & Ec). unfold i_size in E. rewrite Et in E. cbn [length Nat.eqb] in E.
  assert (G : exists i', two i' /\ induce_finish sample_lens false i' (fib_lens (S r)) = Ok (ist, j, s')).
  { destruct m as [|m].
    - cbn [Z.of_nat Z.eqb bind] in E. exists i. split; [exact Ti|exact E].
    - destruct (Z.eqb_spec (Z.of_nat (S m)) 0) as [Ez|_]; [lia|]. unfold iet_saf0 in E. cbn [sample_lens li_base] in E.
      rewrite (two_saf i _ Ti (fib_len2 _)) in E. cbn [bind vis0 forallb] in E.
      destruct (induce_loop sample_lens fuel true (Z.of_nat (S m)) 0 (set_saf i (Some [])) (fib_lens (S m + S r))) as [[[f i'] s1]| | | |] eqn:El; try discriminate.
      apply (fib_loop (S m)) in El as (j' & Ej & Tj); [|split; [exact Et|split; [exact Eb|right; reflexivity]]|lia|lia|exact Hm].
      injection Ej as -> -> ->. cbn [bind] in E. exists j'. split; [exact Tj|exact E]. }
  destruct G as (i' & Ti' & Ef). clear E. unfold induce_finish in Ef. destruct i' as [t b w c k]. pose proof Ti' as (Et' & Eb' & _). cbn [i_top i_bottom i_saf] in *. subst t b.
  cbn [sample_lens li_base li_cmp2] in Ef. 
  assert (Er : reduce (mkiet [0; 1] [1; 0] w c k) (fib_lens (S r)) = Ok (None, mkiet [0; 1] [1; 0] w c k)) by reflexivity.
  rewrite Er in Ef. cbn [bind i_top i_bottom] in Ef. unfold sl_cmp2, sl_at in Ef. unfold fib_lens in Ef at 1 2. cbn [sl_lens nth_error bind] in Ef.
  pose proof (fibs_lt (S r)) as L. cbn [l_cmp ZOps] in Ef. rewrite cmp_gt in Ef by lia. cbn [assert_ negb] in Ef.
  unfold bosh_no_periodic, iet_saf0 in Ef. rewrite (two_saf _ _ Ti' (fib_len2 _)) in Ef. cbn [bind vis0 forallb] in Ef.
  injection Ef as <- <- <-. split; [reflexivity|]. split; [|reflexivity]. split; [reflexivity|]. split; [reflexivity|]. right. reflexivity.
Qed.

Definition fib_state (d : decomp Z) (n : nat) : Prop :=
  exists x, component d 0 x /\ two (dc_iet x) /\ d_len d = fib_lens n.

Definition fib_iet : iet Z := mkiet [0; 1] [1; 0] false None tracker_init.

Lemma fib_step s0 tr d fuel m r : decomposition fib_iet s0 tr d -> fib_state d (m + S r) ->
  (Z.of_nat m <= INT_MAX)%Z -> 2 < fuel -> m < fuel ->
  exists st d', decomposition_step fuel (Z.of_nat m) 0 d = Ok (st, d') /\ dst_result st = D_LIMIT_REACHED /\
    fib_state d' (S r) /\ decomposition fib_iet s0 (tr ++ [st]) d'.
Proof.
  intros D (x & Cx & Tx & Ex) Hm F2 Fm.
  destruct (claim_C48_terminates Z ZOps ZLaws fib_iet s0 tr d 0 x fuel (Z.of_nat m) D Cx Hm ltac:(lia) ltac:(cbn; lia) ltac:(lia)) as (st & d' & E).
  exists st, d'. split; [exact E|].
  destruct (claim_C48_budget Z ZOps ZLaws fib_iet s0 tr d 0 x fuel (Z.of_nat m) st d' D Cx ltac:(lia) E) as (v & i0 & k & f & ist & j & y & Es & Hk & _ & Ei & Er & Cy & Ey & _ & Hl).
  rewrite Ex in *. unfold saf_invariant in Es. rewrite (two_saf _ _ Tx (fib_len2 _)) in Es. cbn [bind] in Es. injection Es as <- <-.
  assert (T0 : two (set_saf (dc_iet x) (Some []))) by (destruct Tx as (A & B & _); split; [exact A|]; split; [exact B|right; reflexivity]).
  set (m' := Z.to_nat k). assert (Ek : k = Z.of_nat m') by (unfold m'; rewrite Z2Nat.id; lia). rewrite Ek in *. assert (Hm' : m' <= m) by lia.
  replace (m + S r) with (m' + S (m - m' + r)) in Ei by lia.
  apply fib_induce in Ei as (Ri & Tj & Ed'); [|exact T0|lia].
  assert (Rst : dst_result st = D_LIMIT_REACHED) by (rewrite Er, Ri; reflexivity). split; [exact Rst|].
  specialize (Hl Rst). assert (m' = m) by lia. replace (m - m' + r) with r in Ed' by lia. split.
  - exists y. split; [exact Cy|]. rewrite Ey. split; [exact Tj|exact Ed'].
  - eapply dh_step; [exact D| |apply nth_error_Some; unfold component in Cx; rewrite Cx; discriminate|exact E]. exact Hm.
Qed.

Lemma fib_unlimited s0 fuel : 2 < fuel -> (INT_MAX < Z.of_nat fuel)%Z ->
  forall e rounds limit tr d n, decomposition fib_iet s0 tr d -> fib_state d n ->
  (Z.of_nat e * 2147483648 < Z.of_nat n)%Z -> (0 <= limit <= INT_MAX)%Z -> (2 ^ 30 < (limit + 2) * 2 ^ (Z.of_nat e - 1))%Z -> 1 <= e <= rounds ->
  step_unlimited rounds fuel None limit 0 d = UB.
Proof.
  intros F2 FI. induction e as [|e IH]; intros rounds limit tr d n D Sd Hn Hl Hp H1; [lia|]. destruct rounds as [|rounds]; [lia|]. cbn [step_unlimited].
  set (m := Z.to_nat limit). assert (Em : limit = Z.of_nat m) by (unfold m; rewrite Z2Nat.id; lia).
  assert (B : INT_MAX = 2147483647%Z) by reflexivity.
  destruct (fib_step s0 tr d fuel m (n - m - 1) D) as (st & d' & E & Rs & Sd' & D'); [|lia|lia|lia|].
  { replace (m + S (n - m - 1)) with n by lia. exact Sd. }
  unfold decomposition_step in E. destruct (Z.eqb_spec (Z.of_nat m) (-1)) as [X|_]; [lia|]. rewrite <- Em in E. rewrite E. cbn [bind]. rewrite Rs.
  destruct (Z.leb_spec (2 * (limit + 1)) INT_MAX) as [Hle|_]; [|reflexivity].
  destruct e as [|e].
  { exfalso. cbn [Z.of_nat Pos.of_succ_nat] in Hp. change (2 ^ (1 - 1))%Z with 1%Z in Hp. change (2 ^ 30)%Z with 1073741824%Z in Hp. lia. }
  eapply IH; [exact D'|exact Sd'|lia|lia| |lia].
  replace (2 * (limit + 1) + 2)%Z with ((limit + 2) * 2)%Z by lia.
  replace (Z.of_nat (S (S e)) - 1)%Z with (1 + (Z.of_nat (S e) - 1))%Z in Hp by lia. rewrite Z.pow_add_r in Hp by lia. rewrite Z.pow_1_r in Hp. rewrite <- Z.mul_assoc. exact Hp.
Qed.

Lemma fib_valid n : 1 <= n -> valid_input (fib_lens n) [0; 1] [1; 0].
Proof.
  intros Hn. destruct n as [|n]; [lia|]. pose proof (fibs_lt (S n)). pose proof (fibs_pos n).
  split; [repeat constructor; cbn; intuition discriminate|]. split; [apply perm_swap|]. split; [discriminate|].
  intros l [<-|[<-|[]]]; cbn [fib_lens sl_lens nth_error]; eexists; (split; [reflexivity|]); cbn [val ZLaws]; apply (IZR_lt 0); lia.
Qed.

Lemma fib_obtainable n : 1 <= n -> obtainable fib_iet (fib_lens n).
Proof.
  intros Hn. pose proof (fib_valid n Hn) as V. exists [fib_iet]. split; [|left; reflexivity].
  apply (h_new [] _ [0; 1] [1; 0]); [constructor|exact V|intros ? _ []|].
  destruct V as (H1 & H2 & H3 & H4). apply ReduceProof.iet_make_ok; assumption.
Qed.

Lemma fib_overflow n : (68719476736 < Z.of_nat n)%Z ->
  exists d, decomposition fib_iet (fib_lens n) [] d /\ forall fuel, (INT_MAX < Z.of_nat fuel)%Z -> decomposition_step fuel (-1) 0 d = UB.
Proof.
  intros Hn. assert (N1 : 1 <= n) by lia. pose proof (fib_valid n N1) as V.
  set (d := mkdecomp (fib_lens n) [] [0; 1] (fun _ => no_conns) [mkdcomp fib_iet None None None]).
  assert (E : dec_make fib_iet (fib_lens n) = Ok d).
  { unfold dec_make. destruct V as (H1 & H2 & H3 & H4). cbn [i_top i_bottom fib_iet]. rewrite ReduceProof.iet_make_ok by assumption. reflexivity. }
  assert (D : decomposition fib_iet (fib_lens n) [] d) by (apply dh_new; [apply fib_obtainable; lia|exact E]).
  exists d. split; [exact D|]. intros fuel Hf. assert (B : INT_MAX = 2147483647%Z) by reflexivity.
  unfold decomposition_step. cbn [Z.eqb].
  set (d1 := mkdecomp (fib_lens n) [] [0; 1] (fun _ => no_conns) [mkdcomp (set_saf fib_iet (Some [])) None None None]).
  assert (S0 : step_start 0 d = Ok (None, d1)) by reflexivity.
  assert (S1 : step_start 0 d1 = Ok (None, d1)) by reflexivity.
  rewrite S0. cbn [bind].
  assert (X : forall k, step_unlimited k fuel None 0 0 d1 = step_unlimited k fuel None 0 0 d).
  { intros [|k]; [reflexivity|]. cbn [step_unlimited]. unfold step_limited. rewrite S0, S1. reflexivity. }
  rewrite X. apply (fib_unlimited (fib_lens n) fuel ltac:(lia) Hf 31 fuel 0 [] d n D); try lia.
  exists (mkdcomp fib_iet None None None). split; [reflexivity|]. split; [|reflexivity]. split; [reflexivity|]. split; [reflexivity|]. left. reflexivity.
Qed.
