(** Lemmas about histories of decompositions: they are histories of steps, a step is one
    induction with the rest of the state adjusted, and what it does to the labels. *)
From Coq Require Import Reals Lra Permutation.
From Verif Require Import Base QcTac LenT FM Subspace Lengths IET Decomp Spec SpecDec Api DecApi.
From Verif Require Import ZorichProof Dyn Saddle ReduceProof Saf Bosh Path Direct Similar InduceProof InduceCons World Seq.
From Verif Require Import DecompSim DecompInv DecompNav DecompRef DecompStep DecompAll DecompEnds DecompDyn DecompCons DecompMore Fuel.
Open Scope nat_scope.

Section Budget.
Context {T : Type} {O : LenOps T} {W : LenLaws T}.

Lemma obtainable_valid (i : iet T) (s : slen T) : obtainable i s -> valid_input s (i_top i) (i_bottom i) /\ sl_stack s = [].
Proof.
  intros H%obtainable_good. destruct H as ((H1 & H2 & H3 & H4 & H5) & _). split; [|exact H5].
  split; [exact H1|]. split; [exact H2|]. split; [exact H3|exact H4].
Qed.

Lemma made_ok (i : iet T) (s : slen T) d : obtainable i s -> dec_make i s = Ok d ->
  dec_ok (exch_of i s) d /\ pieces d = [exch_of i s] /\ d_len d = s /\
    d_comps d = [mkdcomp (mkiet (i_top i) (i_bottom i) false None tracker_init) None None None] /\
    d_conns d = fun _ => no_conns.
Proof.
  intros [V S]%obtainable_valid E. destruct (dec_make_ok i s V S) as (d' & E' & R). rewrite E in E'. injection E' as <-. exact R.
Qed.

Lemma steps_one (d : decomp T) fuel limit c st d' : (limit <= INT_MAX)%Z -> c < length (d_comps d) ->
  decomposition_step fuel limit c d = Ok (st, d') -> steps d [st] d'.
Proof.
  intros HL Hc E. set (f := Nat.max fuel (Datatypes.S (length (d_keys d)))).
  destruct (decomposition_step_more fuel f limit c d ltac:(lia)) as [Q|Q]; rewrite E in Q; [discriminate|].
  eapply steps_cons; [exact HL| |exact Hc|symmetry; exact Q|constructor]. lia.
Qed.

Lemma history_steps (i : iet T) (s : slen T) tr d : decomposition i s tr d ->
  exists d0, obtainable i s /\ dec_make i s = Ok d0 /\ steps d0 tr d.
Proof.
  induction 1 as [d H E|tr d fuel limit c st d' H (d0 & Hi & E0 & S) HL Hc E].
  - exists d. split; [exact H|]. split; [exact E|constructor].
  - exists d0. split; [exact Hi|]. split; [exact E0|]. eapply steps_app; [exact S|]. eapply steps_one; eassumption.
Qed.

Lemma steps_history (i : iet T) (s : slen T) d tr' d' : steps d tr' d' -> forall tr, decomposition i s tr d -> decomposition i s (tr ++ tr') d'.
Proof.
  induction 1 as [d|d fuel limit c st d1 tr' d2 HL HF Hc E S IH]; intros tr H.
  - rewrite app_nil_r. exact H.
  - specialize (IH (tr ++ [st])). rewrite <- app_assoc in IH. cbn [app] in IH. apply IH. eapply dh_step; eassumption.
Qed.

Lemma history_ok (i : iet T) (s : slen T) tr d : decomposition i s tr d -> dec_ok (exch_of i s) d.
Proof.
  intros (d0 & Hi & E0 & S)%history_steps. destruct (made_ok i s d0 Hi E0) as (H0 & _). apply (steps_ok _ _ _ _ H0 S).
Qed.

Lemma history_start (i : iet T) (s : slen T) tr d : decomposition i s tr d -> obtainable i s.
Proof. intros (d0 & Hi & _)%history_steps. exact Hi. Qed.

Lemma history_keys (i : iet T) (s : slen T) tr d : decomposition i s tr d -> d_keys d = i_top i.
Proof. intros H%history_ok. apply (dk_keys _ _ H). Qed.

Lemma component_mid (d : decomp T) c x : component d c x -> exists C1 C2, d_comps d = C1 ++ x :: C2 /\ length C1 = c.
Proof. apply DecompRef.nth_split. Qed.

Lemma more_fuel {A} (r r' : res A) a : upto r r' -> r = Ok a -> r' = Ok a.
Proof. intros [->| ->]; [discriminate|auto]. Qed.

(** A call with large enough bounds. *)
Lemma big_decompose rounds fuel target limit (d : decomp T) a : decompose rounds fuel target limit d = Ok a ->
  exists fuel', length (d_keys d) < fuel' /\ decompose rounds fuel' target limit d = Ok a.
Proof.
  intro E. exists (Nat.max fuel (Datatypes.S (length (d_keys d)))). split; [lia|].
  eapply more_fuel; [|exact E]. apply decompose_more; lia.
Qed.

Lemma big_comp_decompose rounds fuel target limit c (d : decomp T) a : comp_decompose rounds fuel target limit c d = Ok a ->
  exists fuel', length (d_keys d) < fuel' /\ comp_decompose rounds fuel' target limit c d = Ok a.
Proof.
  intro E. exists (Nat.max fuel (Datatypes.S (length (d_keys d)))). split; [lia|].
  eapply more_fuel; [|exact E]. apply comp_decompose_more; lia.
Qed.

Lemma big_step fuel limit c (d : decomp T) a : decomposition_step fuel limit c d = Ok a ->
  exists fuel', length (d_keys d) < fuel' /\ decomposition_step fuel' limit c d = Ok a.
Proof.
  intro E. exists (Nat.max fuel (Datatypes.S (length (d_keys d)))). split; [lia|].
  eapply more_fuel; [|exact E]. apply decomposition_step_more; lia.
Qed.

Lemma step_history_post (i : iet T) (s : slen T) tr d fuel limit c st d' : decomposition i s tr d -> (limit <= INT_MAX)%Z -> c < length (d_comps d) ->
  decomposition_step fuel limit c d = Ok (st, d') ->
  exists C1 x C2, d_comps d = C1 ++ x :: C2 /\ length C1 = c /\ step_post (exch_of i s) d C1 x C2 st d'.
Proof.
  intros H HL Hc E. destruct (big_step _ _ _ _ _ E) as (f & Hf & E'). eapply step_call; eauto. exact (history_ok _ _ _ _ H).
Qed.

(** * One step is one induction *)

Lemma big_induce {S} (L : lens T S) fuel fuel' limit i s a : induce L fuel limit i s = Ok a -> fuel <= fuel' -> induce L fuel' limit i s = Ok a.
Proof. intros E H. eapply more_fuel; [|exact E]. apply induce_more, H. Qed.

Lemma step_loop_induce e0 fuel cost : (cost = None \/ cost = Some 64%Z) ->
  forall rounds (d : decomp T) C1 x C2 limit st d', dec_ok e0 d -> d_comps d = C1 ++ x :: C2 ->
  (0 <= limit <= INT_MAX)%Z -> step_loop rounds fuel cost limit (length C1) d = Ok (st, d') ->
  exists k f j, (Z.min 1 limit <= k <= limit)%Z /\ induce sample_lens f k (dc_iet x) (d_len d) = Ok (st, j, d_len d') /\
    d_comps d' = C1 ++ iet_set x j :: C2 /\ (is_result st = LIMIT_REACHED -> k = limit).
Proof.
  intro HC. induction rounds as [|rounds IH]; intros d C1 x C2 limit st d' H0 HD HL E; [discriminate|].
  cbn [step_loop] in E. set (k0 := match cost with Some k => if (limit <? 2 * k)%Z then limit else k | None => limit end) in *.
  assert (Hk0 : (Z.min 1 limit <= k0 <= limit)%Z).
  { unfold k0. destruct HC as [->| ->]; [lia|]. destruct (limit <? 2 * 64)%Z eqn:Q; lia. }
  rewrite (comp_at_mid d C1 x C2 HD) in E. cbn [bind] in E.
  assert (Hx : In x (d_comps d)) by (rewrite HD; apply in_elt).
  destruct (dk_good _ _ H0 x Hx) as [G Sw]. pose proof (dk_fits _ _ _ _ _ H0 HD) as Ft.
  pose proof (induce_same (length C1) k0 fuel (dc_iet x) d ltac:(lia) G Sw Ft) as Same.
  destruct (induce sample_lens fuel k0 (dc_iet x) (d_len d)) as [[[st1 j] s1]| | | |] eqn:E1; try contradiction.
  2:{ rewrite Same in E. discriminate. }
  2:{ rewrite Same in E. discriminate. }
  destruct Same as (d1 & E2 & L1 & K1 & D1). rewrite E2 in E. cbn [bind] in E.
  assert (HD1 : d_comps d1 = C1 ++ x :: C2) by congruence.
  rewrite (comp_set_mid d1 C1 x C2 _ HD1) in E. cbn [bind] in E.
  set (d2 := set_comps d1 (C1 ++ iet_set x j :: C2)) in *.
  assert (Case : (is_result st1 <> LIMIT_REACHED /\ st1 = st /\ d2 = d') \/ (is_result st1 = LIMIT_REACHED /\ (k0 = limit /\ st1 = st /\ d2 = d' \/ step_loop rounds fuel cost (limit - k0) (length C1) d2 = Ok (st, d')))).
  { destruct (is_result st1) eqn:Er. 2-6: left; split; [discriminate|]; injection E as <- <-; auto.
    right. split; [reflexivity|]. destruct (limit - k0 =? 0)%Z eqn:Q; [left; injection E as <- <-; split; [lia|auto]|right; exact E]. }
  destruct Case as [(Er & <- & <-)|(Er & [(Hk & <- & <-)|E3])].
  - exists k0, fuel, j. split; [lia|]. split; [subst s1; exact E1|]. split; [reflexivity|]. intro C. contradiction.
  - exists k0, fuel, j. split; [lia|]. split; [subst s1; exact E1|]. split; [reflexivity|]. intros _. exact Hk.
  - assert (H2 : dec_ok e0 d2).
    { pose proof (induce_ok k0 fuel (dc_iet x) (d_len d) ltac:(lia) G) as [(Q & _)|[(Q & _)|(st' & j' & s' & Q & G' & P)]]; try (rewrite Q in E1; discriminate).
      cbv zeta in Q. rewrite Q in E1. injection E1 as -> -> ->.
      destruct (step_loop_ok e0 fuel None (or_introl eq_refl) 1 d C1 x C2 k0 H0 HD ltac:(lia) ltac:(lia)) as [(Q1 & _)|(st' & i' & d3 & Q1 & G1 & S1 & Kk & Dd & Cy & Po & _)].
      - cbn [step_loop] in Q1. rewrite (comp_at_mid d C1 x C2 HD) in Q1. cbn [bind] in Q1. rewrite E2 in Q1. cbn [bind] in Q1.
        rewrite (comp_set_mid d1 C1 x C2 _ HD1) in Q1. cbn [bind] in Q1. rewrite Er in Q1. replace (k0 - k0)%Z with 0%Z in Q1 by lia. discriminate.
      - cbn [step_loop] in Q1. rewrite (comp_at_mid d C1 x C2 HD) in Q1. cbn [bind] in Q1. rewrite E2 in Q1. cbn [bind] in Q1.
        rewrite (comp_set_mid d1 C1 x C2 _ HD1) in Q1. cbn [bind] in Q1. rewrite Er in Q1. replace (k0 - k0)%Z with 0%Z in Q1 by lia.
        injection Q1 as Q1 Q2. fold d2 in Q2. rewrite <- Q1, <- Q2 in *.
        assert (i' = j) as ->. { unfold d2 in Dd. cbn [d_comps set_comps] in Dd. apply app_inv_head in Dd. injection Dd as Dd. symmetry. congruence. }
        assert (Nc : is_result st1 <> CYLINDER) by (rewrite Er; discriminate). specialize (Po Nc).
        unfold dinduce_post in Po. rewrite Er in Po. destruct Po as (Ns & Cr & _).
        destruct (plain_ok e0 d C1 x C2 (iet_set x j) j d2 H0 HD eq_refl (dk_keane _ _ H0 x Hx) S1 Kk Dd G1 Cr) as (Res & _). exact Res. }
    assert (HD2 : d_comps d2 = C1 ++ iet_set x j :: C2) by reflexivity.
    destruct (IH d2 C1 (iet_set x j) C2 (limit - k0)%Z st d' H2 HD2 ltac:(lia) E3) as (k & f & j' & Hk & E4 & D4 & Hlim).
    cbn [dc_iet iet_set] in E4. change (d_len d2) with (d_len d1) in E4. rewrite L1 in E4.
    set (F := Nat.max (Nat.max fuel f) (Datatypes.S (Z.to_nat (k0 + k)))).
    exists (k0 + k)%Z, F, j'. split; [lia|]. split; [|split; [exact D4|intro Q; specialize (Hlim Q); lia]].
    rewrite (induce_split F k0 k (dc_iet x) (d_len d) st1 j s1 G ltac:(lia) ltac:(lia) ltac:(lia) ltac:(lia)).
    + eapply big_induce; [exact E4|lia].
    + eapply big_induce; [exact E1|lia].
    + exact Er.
Qed.

Lemma finish_result fuel st c (d : decomp T) st' d' : step_finish fuel st c d = Ok (st', d') -> 
  dst_result st' = dresult_of (is_result st) /\ d_len d' = d_len d.
Proof.
  unfold step_finish. intros (x & Ex & E)%bind_ok. destruct (is_result st) eqn:Er; cbn [dresult_of].
  - injection E as <- <-. auto.
  - apply bind_ok in E as (d1 & E1 & E). injection E as <- <-. unfold comp_set in E1. destruct (set_nth _ _ _); [|discriminate]. injection E1 as <-. auto.
  - destruct (is_connection st) as [[b t]|]; [|discriminate]. destruct (is_additional st) as [j|]; [|discriminate].
    unfold step_separating in E. do 7 (apply bind_ok in E as (? & _ & E)).
    match type of E with bind (register_separating ?d0 _ _ _) _ = _ => set (dd := d0) in E end.
    apply bind_ok in E as (d1 & E1 & E). injection E as <- <-. split; [reflexivity|].
    change (d_len d) with (d_len dd). clearbody dd. revert E1. unfold register_separating.
    destruct (conn_parallel _); [|discriminate]. cbn [assert_]. destruct (negb _); [|discriminate]. cbn [assert_].
    repeat (let Q := fresh in intro Q; apply bind_ok in Q as (? & _ & Q); revert Q).
    unfold assert_. destruct (negb _); [|discriminate]. intros Q. apply bind_ok in Q as (q & _ & Q). destruct (negb _); [|discriminate].
    injection Q as <-. reflexivity.
  - destruct (is_connection st) as [[b t]|]; [|discriminate]. unfold step_non_separating in E.
    destruct (negb (b =? t)); [|discriminate]. cbn [assert_] in E. repeat (apply bind_ok in E as (? & _ & E)).
    destruct (negb _); [|discriminate]. cbn [assert_] in E. repeat (apply bind_ok in E as (? & _ & E)).
    destruct (negb _); [|discriminate]. injection E as <- <-. auto.
  - apply bind_ok in E as (d1 & E1 & E). injection E as <- <-. unfold comp_set in E1. destruct (set_nth _ _ _); [|discriminate]. injection E1 as <-. auto.
  - apply bind_ok in E as (d1 & E1 & E). injection E as <- <-. unfold comp_set in E1. destruct (set_nth _ _ _); [|discriminate]. injection E1 as <-. auto.
Qed.

Lemma register_comps (d : decomp T) l sep r d' : register_separating d l sep r = Ok d' -> d_comps d' = d_comps d.
Proof.
  unfold register_separating.
  destruct (conn_parallel _); [|discriminate]. cbn [assert_]. destruct (negb _); [|discriminate]. cbn [assert_].
  repeat (let Q := fresh in intro Q; apply bind_ok in Q as (? & _ & Q); revert Q).
  unfold assert_. destruct (negb _); [|discriminate]. intros Q. apply bind_ok in Q as (q & _ & Q). destruct (negb _); [|discriminate].
  injection Q as <-. reflexivity.
Qed.

(** What [step_finish] does to the components. *)
Lemma finish_comps fuel st (d : decomp T) C1 x C2 st' d' : d_comps d = C1 ++ x :: C2 -> step_finish fuel st (length C1) d = Ok (st', d') ->
  exists y, d_comps d' = C1 ++ y :: C2 ++ match is_result st, is_additional st with SEPARATING_CONNECTION, Some r => [mkdcomp r None None None] | _, _ => [] end /\
    dc_iet y = dc_iet x.
Proof.
  intros HD E. unfold step_finish in E. rewrite (comp_at_mid d C1 x C2 HD) in E. cbn [bind] in E.
  destruct (is_result st) eqn:Er.
  - injection E as _ <-. exists x. rewrite app_nil_r. auto.
  - rewrite (comp_set_mid d C1 x C2 _ HD) in E. cbn [bind] in E. injection E as _ <-. eexists. rewrite app_nil_r. split; reflexivity.
  - destruct (is_connection st) as [[b t]|]; [|discriminate]. destruct (is_additional st) as [j|]; [|discriminate].
    unfold step_separating in E. do 7 (apply bind_ok in E as (? & _ & E)).
    apply bind_ok in E as (d1 & E1 & E). injection E as _ <-. apply register_comps in E1. rewrite E1. cbn [d_comps set_comps]. rewrite HD.
    exists x. split; [|reflexivity]. rewrite <- app_assoc. reflexivity.
  - destruct (is_connection st) as [[b t]|]; [|discriminate]. unfold step_non_separating in E.
    destruct (negb (b =? t)); [|discriminate]. cbn [assert_] in E. repeat (apply bind_ok in E as (? & _ & E)).
    destruct (negb _); [|discriminate]. cbn [assert_] in E. repeat (apply bind_ok in E as (? & _ & E)).
    destruct (negb _); [|discriminate]. injection E as _ <-. exists x. rewrite app_nil_r. auto.
  - rewrite (comp_set_mid d C1 x C2 _ HD) in E. cbn [bind] in E. injection E as _ <-. eexists. rewrite app_nil_r. split; reflexivity.
  - rewrite (comp_set_mid d C1 x C2 _ HD) in E. cbn [bind] in E. injection E as _ <-. eexists. rewrite app_nil_r. split; reflexivity.
Qed.

Theorem step_is_induce e0 fuel limit (d : decomp T) C1 x C2 st d' : dec_ok e0 d -> d_comps d = C1 ++ x :: C2 ->
  (0 <= limit <= INT_MAX)%Z -> decomposition_step fuel limit (length C1) d = Ok (st, d') ->
  exists v i0 k f ist j y extra, saf_invariant (dc_iet x) (d_len d) = Ok (v, i0) /\ (Z.min 1 limit <= k <= limit)%Z /\
    induce sample_lens f k i0 (d_len d) = Ok (ist, j, d_len d') /\
    d_comps d' = C1 ++ y :: C2 ++ extra /\ dc_iet y = j /\ map dc_iet extra = (match is_result ist, is_additional ist with SEPARATING_CONNECTION, Some r => [r] | _, _ => [] end) /\
    dst_result st = dresult_of (is_result ist) /\ (dst_result st = D_LIMIT_REACHED -> k = limit).
Proof.
  intros H0 HD HL E. unfold decomposition_step in E. destruct (Z.eqb_spec limit (-1)); [lia|]. unfold step_limited in E.
  destruct (step_start_ok e0 d C1 x C2 H0 HD) as (cost & v & E1 & Hc & H1). rewrite E1 in E. cbn [bind] in E.
  set (d1 := set_comps d (C1 ++ iet_set x (set_saf (dc_iet x) (Some v)) :: C2)) in *.
  apply bind_ok in E as ([ist d2] & E2 & E).
  assert (HC : cost = None \/ cost = Some 64%Z) by (rewrite Hc; destruct (vis0 _); auto).
  destruct (step_loop_induce e0 fuel cost HC fuel d1 C1 (iet_set x (set_saf (dc_iet x) (Some v))) C2 limit ist d2 H1 eq_refl HL E2)
    as (k & f & j & Hk & E3 & D2 & Hlim).
  destruct (finish_result fuel ist _ d2 st d' E) as (Hr & Hl).
  destruct (finish_comps fuel ist d2 C1 _ C2 st d' D2 E) as (y & D' & Hy).
  exists (saf_now (dc_iet x) (d_len d)), (set_saf (dc_iet x) (Some v)), k, f, ist, j, y. eexists. split.
  - unfold step_start in E1. rewrite (comp_at_mid d C1 x C2 HD) in E1. cbn [bind] in E1.
    destruct (negb (fully_decomposed x)); [|discriminate]. cbn [assert_] in E1. unfold bosh_cost in E1.
    destruct (dk_good _ _ H0 x) as [G Sw]; [rewrite HD; apply in_elt|].
    destruct (saf_invariant (dc_iet x) (d_len d)) as [[v' i']| | | |] eqn:Es; try discriminate. cbn [bind] in E1.
    rewrite (comp_set_mid d C1 x C2 _ HD) in E1. cbn [bind] in E1. injection E1 as E1 E1'.
    apply app_inv_head in E1'. injection E1' as E1'. rewrite E1'.
    destruct (saf_invariant_ok (dc_iet x) (d_len d) (proj1 G) (proj1 (proj2 G))) as (w & Q & _). rewrite Q in Es. injection Es as <- <-. reflexivity.
  - split; [exact Hk|]. rewrite Hl. split; [exact E3|]. split; [exact D'|]. split; [exact Hy|].
    split; [destruct (is_result ist); try reflexivity; destruct (is_additional ist); reflexivity|]. split; [exact Hr|].
    intro Q. apply Hlim. rewrite Hr in Q. destruct (is_result ist); try discriminate. reflexivity.
Qed.

End Budget.
