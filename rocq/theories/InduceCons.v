(** Consequences of the classification of [induce]'s results: genuine connections,
    periodicity, integral lengths, splitting of budgets. *)
From Coq Require Import Reals Lra Permutation.
From Verif Require Import Base QcTac LenT FM Subspace Lengths IET SpecLin Api ZorichProof SubspaceProof Saf
  Dyn Saddle ReduceProof Bosh Path Similar InduceProof.
From Verif Require Import Spec.

Local Open Scope nat_scope.

Section InduceCons.
Context {T : Type} {O : LenOps T} {W : LenLaws T}.

(** * Consequences *)

Lemma reach_periodic i s i' s' : wf i s -> reach i s i' s' ->
  (has_periodic_point (exch_of i s) <-> has_periodic_point (exch_of i' s')).
Proof.
  intros H R. destruct (path_induced _ _ (wf_proper _ _ H) (r_path _ _ _ _ R)) as [I P].
  apply induced_periodic; [apply wf_proper, H | exact P | exact I].
Qed.

Lemma merge_reach_periodic i s i1 i' s' : wf i s -> reach i s i1 s' -> merge_step (exch_of i1 s') (exch_of i' s') ->
  (has_periodic_point (exch_of i s) <-> has_periodic_point (exch_of i' s')).
Proof.
  intros H R M. rewrite (reach_periodic i s i1 s' H R). pose proof (wf_proper _ _ (r_wf _ _ _ _ R)) as P.
  apply induced_periodic; [exact P | exact (merge_step_proper _ _ P M) | exact (merge_step_induced _ _ P M)].
Qed.

Lemma find_pos_map_inj top bot bot' : incl bot top -> incl bot' top ->
  map (fun b => find_pos b top) bot = map (fun b => find_pos b top) bot' -> bot = bot'.
Proof.
  revert bot'; induction bot as [|b bot IH]; intros [|b' bot'] H H' E; simpl in E; try discriminate; [reflexivity|].
  injection E as E1 E2. f_equal.
  - rewrite <- (proj1 (find_pos_nth top b (H b (or_introl eq_refl)))), E1. apply find_pos_nth, H'. left; reflexivity.
  - apply IH; [intros x Hx; apply H; right; exact Hx | intros x Hx; apply H'; right; exact Hx | exact E2].
Qed.

(** If the labels are in the same order as when the tracker took its snapshot then a
    reported similarity is genuine. *)
Lemma similar_aperiodic i s : wf i s -> similar_state i s -> tk_top (i_trk i) = i_top i ->
  ~ has_periodic_point (exch_of i s).
Proof.
  intros H (e1 & c & P1 & Hc & Ht & Hp & Hpat & Hlen) E.
  pose proof H as (N & Pe & _). rewrite E in Ht.
  assert (Hb : e_bot e1 = i_bottom i).
  { rewrite Ht in Hpat. apply find_pos_map_inj with (top := i_top i); auto.
    - intros x Hx. destruct P1 as (_ & Pe1 & _). rewrite <- Ht, Pe1. exact Hx.
    - intros x Hx. rewrite Pe. exact Hx. }
  assert (Sc : scaled c e1 (exch_of i s)).
  { split; [simpl; congruence|]. split; [simpl; congruence | exact Hlen]. }
  assert (G : ~ has_periodic_point e1).
  { destruct Hp as [Hp|Hp]; destruct (path_induced _ _ P1 Hp) as [I _].
    - apply (self_similar_aperiodic e1 (exch_of i s) (exch_of i s) c); auto.
    - apply (self_similar_aperiodic e1 (exch_of i s) (flip (exch_of i s)) c); auto. }
  intros G'. apply G. destruct Hp as [Hp|Hp]; destruct (path_induced _ _ P1 Hp) as [I P2].
  - apply (induced_periodic _ _ P1 P2 I). exact G'.
  - apply (induced_periodic _ _ P1 P2 I). apply flip_periodic. exact G'.
Qed.

(** The connection that [induce] reports is a saddle connection of the IET it was called
    on, with the same labels. *)
Lemma induce_connection_genuine limit i s st i' s' b t : wf i s -> induce_post limit i s st i' s' ->
  is_connection st = Some (b, t) -> saddle_connection (exch_of i s) b t.
Proof.
  intros H P E. unfold induce_post in P. destruct (is_result st).
  - destruct P as (_ & _ & _ & _ & _ & _ & ->). discriminate.
  - destruct P as (_ & -> & _). discriminate.
  - destruct P as (i1 & k & b' & t' & _ & R & Hk & _ & -> & Hb & Ht & -> & _). injection E as -> ->.
    apply (path_saddle _ _ (wf_proper _ _ H) (r_path _ _ _ _ R)).
    apply (prefix_saddle _ k); auto. apply wf_proper, R.
  - destruct P as (i1 & a & b' & _ & R & Hnr & Ha & Hb & Hab & M & Htl & _ & _ & ->). injection E as -> ->.
    apply (path_saddle _ _ (wf_proper _ _ H) (r_path _ _ _ _ R)).
    pose proof (wf_proper _ _ (r_wf _ _ _ _ R)) as P1. pose proof (r_wf _ _ _ _ R) as (_ & Pe & _).
    destruct M as (x & y & X & Y1 & Y2 & Ex & Ey & Hxy & El & _).
    change (i_top i1 = x :: X) in Ex. change (i_bottom i1 = y :: Y1 ++ x :: Y2) in Ey.
    rewrite Ex in Ha. rewrite Ey in Hb. cbn in Ha, Hb.
    assert (Ex' : x = t) by congruence. assert (Ey' : y = b) by congruence. subst x y.
    apply (merge_saddle _ t b X _ P1 Ex Ey Hxy). intros ->. rewrite Ex, Ey in Pe. apply Permutation_length in Pe.
    simpl in Pe. rewrite app_length in Pe. simpl in Pe. lia.
  - destruct P as (_ & _ & _ & _ & _ & _ & ->). discriminate.
  - destruct P as (_ & _ & _ & _ & ->). discriminate.
Qed.

(** * Integral lengths *)

(** Integer combinations of the lengths. *)
Inductive gen (e : exch) : R -> Prop :=
| gen_0 : gen e 0
| gen_add x a : gen e x -> In a (e_top e) -> gen e (x + e_len e a)
| gen_sub x a : gen e x -> In a (e_top e) -> gen e (x - e_len e a).

Lemma path_gen e e' : proper e -> rauzy_path e e' -> forall x, gen e' x -> gen e x.
Proof.
  intros P H.
  assert (Step : forall e e1 a b, (forall c, In c (e_top e1) -> In c (e_top e)) -> In b (e_top e) ->
    e_len e1 a = (e_len e a - e_len e b)%R -> (forall c, c <> a -> e_len e1 c = e_len e c) -> forall x, gen e1 x -> gen e x).
  { clear. intros e e1 a b HI Hb Ha Hc x G. induction G as [|x c G IH Hin|x c G IH Hin]; [constructor | |].
    - destruct (Nat.eq_dec c a) as [->|N].
      + rewrite Ha. replace (x + (e_len e a - e_len e b))%R with (x + e_len e a - e_len e b)%R by lra.
        apply gen_sub; [apply gen_add; auto | exact Hb].
      + rewrite (Hc c N). apply gen_add; auto.
    - destruct (Nat.eq_dec c a) as [->|N].
      + rewrite Ha. replace (x - (e_len e a - e_len e b))%R with (x - e_len e a + e_len e b)%R by lra.
        apply gen_add; [apply gen_sub; auto | exact Hb].
      + rewrite (Hc c N). apply gen_sub; auto. }
  induction H as [e e' (A & B & C) | e e1 e' H H' IH | e e1 e' H H' IH]; intros x G.
  - induction G as [|x c G IG Hin|x c G IG Hin]; [constructor | |]; rewrite <- C; [apply gen_add | apply gen_sub]; auto; rewrite A; exact Hin.
  - pose proof (rauzy_step_proper _ _ P H) as P1. specialize (IH P1 x G).
    destruct H as (a & b & X & Y1 & Y2 & Ht & Hb & _ & E & _ & Ha & Hc).
    apply (Step e e1 a b); auto.
    + intros c Hcin. rewrite <- E. exact Hcin.
    + destruct P as (_ & Pe & _). rewrite Pe, Hb. left; reflexivity.
  - destruct (bot_step_facts _ _ P H) as [_ P1]. specialize (IH P1 x G).
    assert (L : Permutation (e_top e) (e_top e1)).
    { apply path_labels; [exact P|]. apply path_bot with e1; [exact H | apply path_refl, same_exch_refl]. }
    destruct H as (a & b & X & Y1 & Y2 & Ht & Hb & _ & E & _ & Ha & Hc). simpl in *.
    apply (Step e e1 a b); auto.
    + intros c Hcin. rewrite L. exact Hcin.
    + rewrite Hb. left; reflexivity.
Qed.

Lemma gen_integral u e x : integral u e -> gen e x -> exists n : Z, x = (IZR n * u)%R.
Proof.
  intros H G. induction G as [|x a G (n & ->) Hin|x a G (n & ->) Hin].
  - exists 0%Z. lra.
  - destruct (H a Hin) as (m & ->). exists (n + m)%Z. rewrite plus_IZR. lra.
  - destruct (H a Hin) as (m & ->). exists (n - m)%Z. rewrite minus_IZR. lra.
Qed.

Lemma path_integral u e e' : proper e -> rauzy_path e e' -> integral u e -> integral u e'.
Proof.
  intros P H Hu a Ha. apply (gen_integral u e); [exact Hu|]. apply (path_gen e e' P H).
  rewrite <- (Rplus_0_l (e_len e' a)). apply gen_add; [constructor | exact Ha].
Qed.

Lemma integral_total u e : integral u e -> exists n : Z, total (e_len e) (e_top e) = (IZR n * u)%R.
Proof.
  unfold integral. induction (e_top e) as [|a l IH]; intros H; simpl; [exists 0%Z; lra|].
  destruct (H a (or_introl eq_refl)) as (m & ->). destruct IH as (n & ->); [intros b Hb; apply H; right; exact Hb|].
  exists (m + n)%Z. rewrite plus_IZR. lra.
Qed.

Lemma least_gen u e : (0 < u)%R -> integral u e -> proper e -> e_top e <> [] ->
  exists g, gen e g /\ (0 < g)%R /\ forall x, gen e x -> (0 < x)%R -> (g <= x)%R.
Proof.
  intros Hu Hi P Ne.
  assert (Ex : exists x, gen e x /\ (0 < x)%R).
  { destruct (e_top e) as [|a l] eqn:E; [congruence|]. exists (e_len e a). split.
    - rewrite <- (Rplus_0_l (e_len e a)). apply gen_add; [constructor | rewrite E; left; reflexivity].
    - apply P. rewrite E. left; reflexivity. }
  destruct Ex as (x & Gx & Px).
  assert (All : forall n : nat, forall x, gen e x -> (0 < x)%R -> (x <= INR n * u)%R ->
    exists g, gen e g /\ (0 < g)%R /\ forall x, gen e x -> (0 < x)%R -> (g <= x)%R).
  { induction n as [|n IH]; intros y Gy Py Hy; [simpl in Hy; lra|].
    destruct (Classical_Prop.classic (exists z, gen e z /\ (0 < z)%R /\ (z < y)%R)) as [(z & Gz & Pz & Hz)|Hno].
    - apply (IH z Gz Pz). destruct (gen_integral u e y Hi Gy) as (p & Ep). destruct (gen_integral u e z Hi Gz) as (q & Eq).
      rewrite S_INR in Hy. assert (q < p)%Z.
      { apply lt_IZR. apply (Rmult_lt_reg_r u); [exact Hu|]. lra. }
      assert (IZR q <= IZR p - 1)%R by (rewrite <- minus_IZR; apply IZR_le; lia).
      rewrite Eq. rewrite Ep in Hy. nra.
    - exists y. split; [exact Gy|]. split; [exact Py|]. intros w Gw Pw.
      destruct (Rle_or_lt y w) as [G|G]; [exact G|]. exfalso. apply Hno. exists w. auto. }
  destruct (gen_integral u e x Hi Gx) as (p & Ep).
  assert (0 < p)%Z. { apply lt_IZR. apply (Rmult_lt_reg_r u); [exact Hu|]. lra. }
  apply (All (Z.to_nat p) x Gx Px). rewrite INR_IZR_INZ, Z2Nat.id by lia. lra.
Qed.

(** For integral lengths no similarity is ever seen. *)
Lemma integral_not_similar u i s : (0 < u)%R -> wf i s -> integral u (exch_of i s) -> ~ similar_state i s.
Proof.
  intros Hu H Hi (e1 & c & P1 & Hc & _ & Hp & _ & Hlen).
  assert (Hlab : forall a, In a (e_top e1) <-> In a (i_top i)).
  { destruct Hp as [Hp|Hp]; apply (path_labels _ _ P1) in Hp; simpl in Hp; intros a; rewrite Hp; [tauto|].
    destruct H as (_ & Pe & _). rewrite Pe. tauto. }
  assert (Hgen : forall x, gen (exch_of i s) x -> gen e1 x).
  { intros x G. destruct Hp as [Hp|Hp]; apply (path_gen _ _ P1 Hp); [exact G|].
    destruct H as (_ & Pe & _). induction G as [|x a G IG Hin|x a G IG Hin]; [constructor | |];
      [apply (gen_add (flip (exch_of i s))) | apply (gen_sub (flip (exch_of i s)))]; auto; simpl in *; rewrite <- Pe; exact Hin. }
  assert (Hsc : forall x, gen e1 x -> gen (exch_of i s) (c * x)).
  { intros x G. induction G as [|x a G IG Hin|x a G IG Hin].
    - rewrite Rmult_0_r. constructor.
    - rewrite Rmult_plus_distr_l, <- (Hlen a Hin). apply (gen_add (exch_of i s)); [exact IG | apply Hlab, Hin].
    - rewrite Rmult_minus_distr_l, <- (Hlen a Hin). apply (gen_sub (exch_of i s)); [exact IG | apply Hlab, Hin]. }
  destruct (least_gen u (exch_of i s) Hu Hi (wf_proper _ _ H)) as (g & Gg & Pg & Hmin); [apply H|].
  pose proof (Hmin (c * g)%R (Hsc _ (Hgen _ Gg))) as G. assert (0 < c * g)%R by (apply Rmult_lt_0_compat; lra).
  specialize (G H0). nra.
Qed.

Lemma loop_integral u saf0 : (0 < u)%R -> forall fuel m n i s, good i s -> integral u (exch_of i s) ->
  ltot i s = (IZR m * u)%R -> (m <= Z.of_nat fuel)%Z -> (n + m <= INT_MAX + 1)%Z ->
  exists i' s', induce_loop sample_lens fuel saf0 (-1) n i s = Ok (Some true, i', s') /\
    loop_post (-1) i s (Some true) i' s'.
Proof.
  intros Hu fuel. induction fuel as [|fuel IH]; intros m n i s Hg Hi Hm Hf Hn; pose proof Hg as (H & C & K).
  - exfalso. assert (0 < ltot i s)%R.
    { apply total_pos; [intros a Ha; apply posl_lamR, H, Ha | apply H]. }
    simpl in Hf. assert (IZR m <= 0)%R by (apply IZR_le; exact Hf). rewrite Hm in H0. nra.
  - rewrite iteration_unfold. change (negb ((-1 =? -1)%Z || (n <? -1)%Z)) with false. cbv iota.
    destruct (tracking_ok saf0 i s Hg) as (b & i1 & E1 & R1 & Et1 & Eb1 & K1 & K1' & _). cbn [sample_lens li_base]. rewrite E1. cbn [bind].
    pose proof (r_wf _ _ _ _ R1) as H1. pose proof (r_cache _ _ _ _ R1) as C1.
    assert (Hi1 : integral u (exch_of i1 s)) by exact (path_integral u _ _ (wf_proper _ _ H) (r_path _ _ _ _ R1) Hi).
    destruct b; [exfalso; exact (integral_not_similar u i1 s Hu H1 Hi1 (proj2 (K1' eq_refl)))|].
    destruct (iteration_ok i1 s H1 C1) as (f & i2 & s2 & E2 & R2 & Et & _ & Hfd & Hdec). rewrite E2. cbn [bind].
    destruct f.
    { exists i2, s2. split; [reflexivity|]. split; [exact (reach_trans _ _ _ _ _ _ H R1 R2)|].
      split; [|apply Hfd; reflexivity]. exact (trk_extend False False i1 s i2 s2 H1 K1 R2 Et ltac:(tauto)). }
    specialize (Hdec eq_refl). pose proof (r_wf _ _ _ _ R2) as H2.
    assert (Hi2 : integral u (exch_of i2 s2)) by exact (path_integral u _ _ (wf_proper _ _ H1) (r_path _ _ _ _ R2) Hi1).
    destruct (integral_total u _ Hi2) as (m2 & Hm2). change (ltot i2 s2 = IZR m2 * u)%R in Hm2.
    assert (E12 : ltot i1 s = ltot i s) by (unfold ltot; rewrite Et1; reflexivity).
    assert (P2 : (0 < ltot i2 s2)%R).
    { apply total_pos; [intros a Ha; apply posl_lamR, H2, Ha | apply H2]. }
    assert (1 <= m2)%Z. { assert (0 < m2)%Z; [|lia]. apply lt_IZR, (Rmult_lt_reg_r u); [exact Hu | lra]. }
    assert (m2 < m)%Z. { apply lt_IZR, (Rmult_lt_reg_r u); [exact Hu | lra]. }
    destruct (Z.eqb_spec n INT_MAX) as [Ei|Ei]; [lia|].
    assert (Hg2 : good i2 s2).
    { split; [exact H2|]. split; [exact (r_cache _ _ _ _ R2)|].
      exact (trk_extend False True i1 s i2 s2 H1 K1 R2 Et ltac:(intros _; right; exact Hdec)). }
    destruct (IH m2 (n + 1)%Z i2 s2 Hg2 Hi2 Hm2) as (i' & s' & E & R3 & G); [lia | lia|].
    exists i', s'. split; [exact E|]. split; [|exact G].
    apply (reach_trans i s i1 s); [exact H | exact R1|]. exact (reach_trans _ _ _ _ _ _ H1 R2 R3).
Qed.

Theorem induce_integral u m fuel i s : (0 < u)%R -> good i s -> integral u (exch_of i s) ->
  ltot i s = (IZR m * u)%R -> (m <= INT_MAX)%Z -> (m <= Z.of_nat fuel)%Z ->
  exists st i' s', induce sample_lens fuel (-1) i s = Ok (st, i', s') /\ good i' s' /\ induce_post (-1) i s st i' s' /\
    (is_result st = CYLINDER \/ is_result st = SEPARATING_CONNECTION \/ is_result st = NON_SEPARATING_CONNECTION).
Proof.
  intros Hu Hg Hi Hm HI Hf. pose proof Hg as (H & C & K). unfold induce.
  destruct (Nat.eqb_spec (i_size i) 1) as [E1|E1].
  { eexists; exists i, s. split; [reflexivity|]. split; [exact Hg|]. split; [cbn [induce_post is_result]; auto | left; reflexivity]. }
  change (-1 =? 0)%Z with false. cbv iota.
  destruct (iet_saf0_ok i s H C) as (v & Ev & C' & _). cbn [sample_lens li_base]. rewrite Ev. cbn [bind].
  assert (Hg' : good (set_saf i (Some v)) s) by (apply good_set_saf; assumption).
  destruct (loop_integral u (vis0 (saf_now i s)) Hu fuel m 0%Z _ s Hg' Hi Hm Hf ltac:(lia)) as (i1 & s1 & G1 & R & G2).
  rewrite G1. cbn [bind].
  assert (Ri : reach i s i1 s1).
  { refine (reach_trans i s (set_saf i (Some v)) s _ _ H _ R). 
    exact (reach_caches i s i s (Some v) (i_trk i) (reach_refl i s H C) C'). }
  destruct (finish_ok (-1) i s true i1 s1 H E1) as (st & i' & E & G & P).
  { split; [exact Ri | exact G2]. }
  exists st, i', s1. rewrite E. repeat (split; [assumption || reflexivity|]).
  unfold induce_post in P. destruct (is_result st); auto; exfalso; try (destruct P as (_ & _ & _ & _ & _ & G' & _); congruence).
  destruct P as (_ & R' & G' & _).
  exact (integral_not_similar u i' s1 Hu (r_wf _ _ _ _ R') (path_integral u _ _ (wf_proper _ _ H) (r_path _ _ _ _ R') Hi) G').
Qed.

(** * Splitting the budget *)

Lemma saf_cached (i : iet T) (s : slen T) v : i_saf i = Some v -> iet_saf i s = Ok (v, i).
Proof. unfold iet_saf. intros ->. reflexivity. Qed.

(** More fuel does not change an outcome. *)
Lemma loop_fuel {S} (L : lens T S) saf0 limit : forall fuel fuel' n i s r, fuel <= fuel' ->
  induce_loop L fuel saf0 limit n i s = r -> r <> OutOfFuel -> induce_loop L fuel' saf0 limit n i s = r.
Proof.
  intros fuel. induction fuel as [|fuel IH]; intros [|fuel'] n i s r Hf E Hr; try lia; try (simpl in E; congruence).
  revert E. rewrite !iteration_unfold.
  destruct (negb _); [auto|]. destruct (if saf0 then _ else _) as [[b i1]| | | |]; cbn [bind]; auto.
  destruct b; [auto|]. destruct (iteration L i1 s) as [[[f i2] s2]| | | |]; cbn [bind]; auto.
  destruct f; [auto|]. destruct (n =? INT_MAX)%Z; [auto|]. intros E. apply IH; [lia | exact E | exact Hr].
Qed.

(** Only the distance between the counter and the limit matters. *)
Lemma loop_shift {S} (L : lens T S) saf0 d limit : (0 <= limit)%Z -> (0 <= d)%Z -> (limit + d <= INT_MAX)%Z ->
  forall fuel n i s, (0 <= n)%Z ->
  induce_loop L fuel saf0 (limit + d) (n + d) i s = induce_loop L fuel saf0 limit n i s.
Proof.
  intros Hl Hd Hm fuel. induction fuel as [|fuel IH]; intros n i s Hn; [reflexivity|].
  rewrite !iteration_unfold.
  replace ((limit + d =? -1)%Z || (n + d <? limit + d)%Z) with ((limit =? -1)%Z || (n <? limit)%Z).
  2: { destruct (Z.eqb_spec limit (-1)); [lia|]. destruct (Z.eqb_spec (limit + d) (-1)); [lia|].
       destruct (Z.ltb_spec n limit), (Z.ltb_spec (n + d) (limit + d)); try reflexivity; lia. }
  destruct (negb _) eqn:En; [reflexivity|].
  apply negb_false_iff, orb_true_iff in En. rewrite Z.eqb_eq, Z.ltb_lt in En.
  destruct (if saf0 then _ else _) as [[b i1]| | | |]; cbn [bind]; auto.
  destruct b; [auto|]. destruct (iteration L i1 s) as [[[f i2] s2]| | | |]; cbn [bind]; auto.
  destruct f; [auto|].
  destruct (Z.eqb_spec n INT_MAX); [lia|]. destruct (Z.eqb_spec (n + d) INT_MAX); [lia|].
  replace (n + d + 1)%Z with (n + 1 + d)%Z by lia. apply IH. lia.
Qed.

(** Running on after the budget [m] was used up. *)
Lemma loop_split {S} (L : lens T S) saf0 m d k : (0 <= m)%Z -> (0 <= d)%Z -> (m + d <= INT_MAX)%Z ->
  forall fuel n i s i1 s1, (0 <= n <= m)%Z ->
  induce_loop L fuel saf0 m n i s = Ok (Some false, i1, s1) ->
  (m - n < Z.of_nat fuel)%Z /\
  induce_loop L (fuel + k) saf0 (m + d) n i s = induce_loop L (fuel + k - Z.to_nat (m - n)) saf0 (m + d) m i1 s1.
Proof.
  intros Hm Hd HI fuel. induction fuel as [|fuel IH]; intros n i s i1 s1 Hn E; [simpl in E; discriminate|].
  rewrite iteration_unfold in E. cbn [Nat.add]. destruct (Z.eq_dec n m) as [->|Ne].
  - destruct (Z.eqb_spec m (-1)); [lia|]. rewrite Z.ltb_irrefl in E. cbn [negb orb] in E. injection E as -> ->.
    replace (Z.to_nat (m - m)) with 0 by lia. split; [lia | reflexivity].
  - assert (Hlt : ((m =? -1)%Z || (n <? m)%Z) = true) by (apply orb_true_iff; right; apply Z.ltb_lt; lia).
    assert (Hlt' : ((m + d =? -1)%Z || (n <? m + d)%Z) = true) by (apply orb_true_iff; right; apply Z.ltb_lt; lia).
    rewrite Hlt in E. rewrite (iteration_unfold L (fuel + k)), Hlt'. cbn [negb] in *. revert E.
    destruct (if saf0 then _ else _) as [[b j1]| | | |]; cbn [bind]; try discriminate.
    destruct b; [discriminate|]. destruct (iteration L j1 s) as [[[f j2] s2]| | | |]; cbn [bind]; try discriminate.
    destruct f; [discriminate|]. destruct (Z.eqb_spec n INT_MAX); [lia|]. intros E.
    destruct (IH (n + 1)%Z j2 s2 i1 s1) as [G1 G2]; [lia | exact E|]. split; [lia|]. rewrite G2. f_equal. lia.
Qed.

Lemma zorich_cache_kept {S} (L : lens T S) i s r i' s' : zorich L i s = Ok (r, i', s') ->
  i_saf i' = i_saf i.
Proof.
  unfold zorich. destruct (i_top i) as [|a X]; [discriminate|]. destruct (i_bottom i) as [|b Y]; [discriminate|].
  destruct (Nat.eqb a b); [injection 1; congruence|].
  destruct (zloop _ _ _ _ _ _) as [[rp s1]| | | |]; cbn [bind]; try discriminate.
  destruct (splice _ _ _) as [[|c bot]| | | |]; cbn [bind]; try discriminate.
  destruct (li_cmp2 _ _ _ _); cbn [bind]; try discriminate. injection 1. intros <- <- _. reflexivity.
Qed.

Lemma iteration_cache_kept {S} (L : lens T S) i s r i' s' : iteration L i s = Ok (r, i', s') -> i_saf i' = i_saf i.
Proof.
  unfold iteration. destruct (zorich L i s) as [[[f j] s1]| | | |] eqn:E; cbn [bind]; try discriminate.
  apply zorich_cache_kept in E. destruct f; [injection 1; congruence|].
  destruct (zorich L (iet_swap j) s1) as [[[f j2] s2]| | | |] eqn:E2; cbn [bind]; try discriminate.
  apply zorich_cache_kept in E2. cbn in E2. injection 1. intros <- <- _. cbn. congruence.
Qed.

Lemma loop_cache_kept {S} (L : lens T S) saf0 limit v : forall fuel n i s r i' s', i_saf i = Some v ->
  induce_loop L fuel saf0 limit n i s = Ok (r, i', s') -> i_saf i' = Some v.
Proof.
  intros fuel. induction fuel as [|fuel IH]; intros n i s r i' s' Hv; [discriminate|]. rewrite iteration_unfold.
  destruct (negb _); [injection 1; congruence|].
  assert (G : forall b i1, (if saf0 then
         '(v, i) <- iet_saf i (li_base L s) ;;
         if length v =? 0 then Ok (false, i)
         else '(r, k) <- tracker_loop (i_trk i) i (li_base L s) ;; Ok (r, set_trk i k)
       else Ok (false, i)) = Ok (b : bool, i1) -> i_saf i1 = Some v).
  { intros b i1. destruct saf0; [|injection 1; congruence]. rewrite (saf_cached _ _ v Hv). cbn [bind].
    destruct (length v =? 0); [injection 1; congruence|].
    destruct (tracker_loop _ _ _) as [[b' k]| | | |]; cbn [bind]; try discriminate. injection 1. intros <- _. exact Hv. }
  destruct (if saf0 then _ else _) as [[b i1]| | | |]; cbn [bind]; try discriminate. specialize (G _ _ eq_refl).
  destruct b; [injection 1; congruence|].
  destruct (iteration L i1 s) as [[[f j2] s2]| | | |] eqn:E; cbn [bind]; try discriminate.
  apply iteration_cache_kept in E. destruct f; [injection 1; congruence|].
  destruct (n =? INT_MAX)%Z; [discriminate|]. apply IH. congruence.
Qed.

(** After [LIMIT_REACHED], asking again for the rest does the same thing again. *)
Lemma finish_limit found i s st i1 s1 : wf i s -> cache_ok i s ->
  induce_finish sample_lens found i s = Ok (st, i1, s1) -> is_result st = LIMIT_REACHED ->
  s1 = s /\ (exists v, iet_saf i s = Ok (v, i1) /\ i_saf i1 = Some v) /\
  induce_finish sample_lens false i1 s1 = Ok (st, i1, s1).
Proof.
  intros H C E Hst. revert E. unfold induce_finish. cbn [sample_lens li_base].
  destruct (reduce_ok i s H) as [(k & Hk & Hmin & Er)|[Hnr Er]]; rewrite Er; cbn [bind].
  { destruct (rev (i_bottom (left_part i k))); [discriminate|]. destruct (rev (i_top (left_part i k))); [discriminate|].
    injection 1. intros _ _ <-. discriminate. }
  destruct (i_top i) as [|a X] eqn:Et; [discriminate|]. destruct (i_bottom i) as [|b Y] eqn:Eb; [discriminate|].
  destruct (li_cmp2 sample_lens s a b) as [c| | | |] eqn:Ec; cbn [bind]; try discriminate.
  destruct c.
  { destruct (merge_first i) as [j| | | |]; cbn [bind]; try discriminate. injection 1. intros _ _ <-. discriminate. }
  all: destruct found; cbn [negb assert_]; [discriminate|].
  all: pose proof (iet_saf_ok i s H C) as Ev; cbv zeta in Ev; set (v := if i_swap i then _ else _) in Ev.
  all: unfold bosh_no_periodic, iet_saf0; rewrite Ev; cbn [bind].
  all: set (i2 := set_saf i (Some v)) in *.
  all: change (i_size i2) with (i_size i).
  all: assert (H2 : wf i2 s) by exact H.
  all: assert (E2 : reduce i2 s = Ok (None, i2)) by
    (destruct (reduce_ok i2 s H2) as [(k & Hk & _)|[_ G]]; [exfalso; apply Hnr; exists k; exact Hk | exact G]).
  all: assert (E3 : iet_saf i2 s = Ok (v, i2)) by reflexivity.
  all: intros E;
    assert (G : i1 = i2 /\ s1 = s) by
     (destruct (vis0 v); cbn [bind] in E; [split; congruence|];
      destruct (i_size i <=? 1); cbn [bind] in E; [split; congruence|];
      destruct (bosh_equations i2 s); cbn [bind] in E; try discriminate;
      destruct (ras_equations _ _); cbn [bind] in E; try discriminate;
      destruct (nznn _); cbn [bind] in E; try discriminate; split; congruence).
  all: destruct G as [-> ->]; split; [reflexivity|]; split; [exists v; split; reflexivity|].
  all: rewrite E2; cbn [bind]; change (i_top i2) with (i_top i); change (i_bottom i2) with (i_bottom i); rewrite Et, Eb, Ec; cbn [bind negb assert_];
    rewrite E3; cbn [bind]; exact E.
Qed.

Theorem induce_split fuel m n i s st i1 s1 : good i s -> (0 <= m)%Z -> (0 <= n)%Z -> (m + n <= INT_MAX)%Z ->
  (m + n < Z.of_nat fuel)%Z ->
  induce sample_lens fuel m i s = Ok (st, i1, s1) -> is_result st = LIMIT_REACHED ->
  induce sample_lens fuel (m + n) i s = induce sample_lens fuel n i1 s1.
Proof.
  intros Hg Hm Hn HI Hf E Hst. pose proof Hg as (H & C & K).
  destruct (induce_ok m fuel i s ltac:(lia) Hg) as [(G & _)|[(G & _)|(st' & i1' & s1' & G & Hg1 & P)]]; try (rewrite G in E; discriminate).
  rewrite G in E. injection E as -> -> ->. unfold induce_post in P. rewrite Hst in P. destruct P as (Hs & R & _).
  assert (Hs1 : i_size i1 <> 1).
  { pose proof (Permutation_length (reach_labels _ _ _ _ H R)) as HL. unfold i_size in *. congruence. }
  revert G. unfold induce. rewrite (proj2 (Nat.eqb_neq _ _) Hs), (proj2 (Nat.eqb_neq _ _) Hs1).
  destruct (iet_saf0_ok i s H C) as (v & Ev & C' & Ez & _). cbn [sample_lens li_base].
  destruct (Z.eqb_spec m 0) as [->|Nm].
  - cbn [bind]. intros E. destruct (finish_limit _ _ _ _ _ _ H C E Hst) as (-> & (w & Ew & Hw) & E2).
    replace (0 + n)%Z with n by lia. destruct (n =? 0)%Z; cbn [bind]; [rewrite E, E2; reflexivity|].
    unfold iet_saf0. rewrite Ew, (saf_cached i1 s w Hw). reflexivity.
  - rewrite Ev. cbn [bind].
    assert (Hg' : good (set_saf i (Some v)) s) by (apply good_set_saf; assumption).
    destruct (induce_loop sample_lens fuel (vis0 (saf_now i s)) m 0 (set_saf i (Some v)) s) as [[[f i2] s2]| | | |] eqn:El; cbn [bind]; try discriminate.
    destruct f as [f|]; [|injection 1; intros _ _ <-; discriminate].
    intros E.
    destruct (loop_ok (vis0 (saf_now i s)) m ltac:(lia) fuel 0%Z (set_saf i (Some v)) s Hg') as [(G & _)|[(G & _)|(f' & i2' & s2' & G & R2 & P2)]];
      try (rewrite G in El; discriminate).
    rewrite G in El. injection El as -> -> ->.
    destruct (finish_limit _ _ _ _ _ _ (r_wf _ _ _ _ R2) (r_cache _ _ _ _ R2) E Hst) as (-> & (w & Ew & Hw) & E2).
    pose proof (loop_cache_kept sample_lens _ _ v _ _ _ _ _ _ _ (eq_refl : i_saf (set_saf i (Some v)) = Some v) G) as Hv2.
    rewrite (saf_cached _ _ _ Hv2) in Ew. injection Ew as -> ->.
    assert (f = false) as ->.
    { destruct f; [exfalso | reflexivity]. destruct P2 as [_ Heq]. 
      destruct (finish_ok m i s true i1 s2 H Hs) as (st' & i' & E' & _ & P').
      { split; [exact R|]. split; [|exact Heq]. destruct Hg1 as (_ & _ & K1).
        exact (trk_extend True False i1 s2 i1 s2 (r_wf _ _ _ _ R) K1 (reach_refl _ _ (r_wf _ _ _ _ R) (r_cache _ _ _ _ R)) eq_refl ltac:(tauto)). }
      rewrite E in E'. injection E' as <- <-. unfold induce_post in P'. rewrite Hst in P'. destruct P' as (_ & _ & _ & Hne & _). contradiction. }
    destruct (loop_split sample_lens (vis0 (saf_now i s)) m n 0 Hm Hn HI fuel 0%Z _ _ _ _ ltac:(lia) G) as [_ Sp].
    rewrite Nat.add_0_r in Sp.
    destruct (Z.eqb_spec (m + n) 0); [lia|]. rewrite Sp.
    destruct (Z.eqb_spec n 0) as [->|Nn].
    + rewrite Z.add_0_r. replace (fuel - Z.to_nat (m - 0)) with (Datatypes.S (fuel - Datatypes.S (Z.to_nat m))) by lia.
      rewrite iteration_unfold, Z.ltb_irrefl. destruct (Z.eqb_spec m (-1)); [lia|]. reflexivity.
    + unfold iet_saf0. rewrite (saf_cached _ _ _ Hv2). cbn [bind].
      rewrite Ez. pose proof (loop_shift sample_lens (vis0 (saf_now i s)) m n Hn Hm ltac:(lia) fuel 0%Z i1 s2 ltac:(lia)) as Sh.
      rewrite <- Sh. replace (n + m)%Z with (m + n)%Z by lia. rewrite Z.add_0_l.
      destruct (loop_ok (vis0 (saf_now i s)) (m + n) HI (fuel - Z.to_nat (m - 0)) m i1 s2 Hg1) as [(_ & [G'|G'])|Ok]; [lia | lia|].
      erewrite (loop_fuel sample_lens _ _ (fuel - Z.to_nat (m - 0)) fuel); [reflexivity | lia | reflexivity|].
      destruct Ok as [(-> & _)|(? & ? & ? & -> & _)]; discriminate.
Qed.

End InduceCons.
