(** Proofs of the theorems in [PropCall]. *)
From Coq Require Import Reals Permutation Lia.
From Verif Require Import Base QcTac LenT FM Subspace Lengths IET LenInst Sqrt2 Decomp Spec SpecDec Api DecApi Callback CallApi Fixtures DecFixtures.
From Verif Require Import PtrProof InduceProof World DecompInv DecompSim DecompRef DecompNav DecompStep DecompAll Fuel DecompCons DecompBudget ClaimsDecomp.
Open Scope nat_scope.
Section Call.
Context {T : Type} {O : LenOps T} {W : LenLaws T}.

Lemma step_facts (i : iet T) (s : slen T) tr d c x fuel limit : decomposition i s tr d -> (limit <= INT_MAX)%Z -> component d c x ->
  decomposition_step fuel limit c d = OutOfFuel \/ (decomposition_step fuel limit c d = UB /\ limit = (-1)%Z) \/
  exists st d1 y, decomposition_step fuel limit c d = Ok (st, d1) /\ decomposition i s (tr ++ [st]) d1 /\ component d1 c y /\
    length (d_comps d) <= length (d_comps d1) /\
    (forall c', c' < length (d_comps d) -> c' <> c -> nth_error (d_comps d1) c' = nth_error (d_comps d) c' /\ comp_view d1 c' = comp_view d c') /\
    match dst_additional st with
    | None => length (d_comps d1) = length (d_comps d)
    | Some c' => c' = length (d_comps d) /\ length (d_comps d1) = S (length (d_comps d)) /\
        exists z, component d1 c' z /\ i_size (dc_iet z) < i_size (dc_iet x)
    end /\
    (dst_result st <> D_LIMIT_REACHED -> flagged y \/ i_size (dc_iet y) < i_size (dc_iet x)) /\
    (dst_result st = D_LIMIT_REACHED -> limit <> (-1)%Z).
Proof.
  intros Hh HM Hx. pose proof (history_ok _ _ _ _ Hh) as H. pose proof Hx as Hx'. apply component_mid in Hx' as (C1 & C2 & E & <-).
  assert (Hc : length C1 < length (d_comps d)) by (rewrite E, app_length; simpl; lia).
  set (f := Nat.max fuel (Datatypes.S (length (d_keys d)))).
  destruct (decomposition_step_more fuel f limit (length C1) d ltac:(lia)) as [Q|Q]; [left; exact Q|]. rewrite Q.
  destruct (decomposition_step_ok (exch_of i s) f d C1 x C2 limit H E HM ltac:(lia)) as [[Er _]|[(Er & Hl & _)|(st & d1 & Er & P & PL)]]; [left; exact Er|right; left; auto|].
  right. right. destruct (step_change _ d C1 x C2 st d1 H E P) as (y & extra & G & A & B1 & B2).
  pose proof (cg_ok _ _ _ _ _ _ _ _ G) as H1. pose proof (cg_comps _ _ _ _ _ _ _ _ G) as E1.
  exists st, d1, y. split; [exact Er|]. split; [eapply dh_step; eassumption|].
  assert (Hy : component d1 (length C1) y) by (unfold component; rewrite E1, nth_error_app2, Nat.sub_diag by lia; reflexivity).
  split; [exact Hy|].
  assert (Ln : length (d_comps d1) = length (d_comps d) + length extra) by (rewrite E1, E, !app_length; cbn [length]; rewrite !app_length; lia).
  split; [lia|]. split; [|split; [|split; [|intro L; exact (proj1 (PL L))]]].
  - intros c' Hc' Ne.
    assert (N : nth_error (d_comps d1) c' = nth_error (d_comps d) c').
    { rewrite E1, E. destruct (Nat.lt_ge_cases c' (length C1)) as [L|L]; [rewrite !nth_error_app1 by lia; reflexivity|].
      rewrite !(nth_error_app2 C1) by lia. rewrite E, app_length in Hc'. cbn [length] in Hc'.
      destruct (c' - length C1) as [|k] eqn:Ek; [lia|]. cbn [nth_error]. rewrite nth_error_app1 by lia. reflexivity. }
    split; [exact N|]. destruct (nth_error (d_comps d) c') as [z|] eqn:Ez; [|apply nth_error_None in Ez; lia].
    assert (In z (C1 ++ C2)).
    { rewrite E in Ez. apply in_or_app. destruct (Nat.lt_ge_cases c' (length C1)) as [L|L].
      - rewrite nth_error_app1 in Ez by lia. left. eapply nth_error_In; exact Ez.
      - rewrite nth_error_app2 in Ez by lia. destruct (c' - length C1) as [|k] eqn:Ek; [lia|]. right. eapply nth_error_In; exact Ez. }
    pose proof (change_view _ d C1 x C2 y extra d1 z H E G H0) as V.
    pose proof N as (Z1 & Z2 & Ea & La)%component_mid. pose proof Ez as (Z3 & Z4 & Eb & Lb)%component_mid.
    pose proof (comp_view_ok _ d1 Z1 z Z2 H1 Ea) as Va. pose proof (comp_view_ok _ d Z3 z Z4 H Eb) as Vb.
    rewrite La in Va. rewrite Lb in Vb. rewrite Va, Vb, V. reflexivity.
  - destruct (dst_additional st) as [c'|]; [|destruct A as [-> _]; cbn [length] in Ln; lia].
    destruct A as (-> & _ & z & -> & S1 & S2). cbn [length] in Ln. split; [reflexivity|]. split; [lia|]. exists z. split; [|exact S1].
    unfold component. rewrite E1, E. rewrite nth_error_app2 by (rewrite app_length; lia). rewrite app_length. cbn [length].
    replace (length C1 + S (length C2) - length C1) with (S (length C2)) by lia. cbn [nth_error]. rewrite nth_error_app2, Nat.sub_diag by lia. reflexivity.
  - intros NL. pose proof (sp_case _ _ _ _ _ _ _ P) as D. unfold dstep_post in D.
    assert (Un : forall z R, d_comps d1 = C1 ++ z :: R -> y = z).
    { intros z R Q'. rewrite E1 in Q'. apply app_inv_head in Q'. injection Q' as -> _. reflexivity. }
    destruct (dst_result st) eqn:Ers; try contradiction.
    + destruct D as (i' & _ & D & _). apply Un in D. left. rewrite D. left. reflexivity.
    + destruct (dst_additional st); [|destruct A; congruence]. destruct A as (_ & _ & zc & _ & _ & A). right. exact A.
    + right. apply B1. reflexivity.
    + destruct D as (i' & D & _). apply Un in D. left. rewrite D. right. reflexivity.
    + destruct D as (i' & D & _). apply Un in D. left. rewrite D. right. reflexivity.
Qed.

Lemma at_component (d : decomp T) c : c < length (d_comps d) -> exists x, component d c x.
Proof. intro H. unfold component. destruct (nth_error (d_comps d) c) as [x|] eqn:E; [eauto|apply nth_error_None in E; lia]. Qed.

Lemma later_history (i : iet T) (s : slen T) d d' : later d d' -> forall tr, decomposition i s tr d ->
  exists tr', decomposition i s (tr ++ tr') d' /\ length (d_comps d) <= length (d_comps d').
Proof.
  induction 1 as [d|d fuel limit c st d1 d2 HL Hc E L IH]; intros tr H; [exists []; rewrite app_nil_r; auto|].
  destruct (at_component d c Hc) as (x & Hx). destruct (step_facts i s tr d c x fuel limit H HL Hx) as [Q|[(Q & _)|(st' & d1' & y & Q & H1 & _ & Le & _)]]; rewrite E in Q; try discriminate.
  injection Q as <- <-. destruct (IH _ H1) as (tr' & H2 & Le2). exists (st :: tr'). rewrite <- app_assoc in H2. split; [exact H2|lia].
Qed.

Lemma passive_well {A} (i : iet T) (s : slen T) (f : callback T A) : passive i s f -> well_behaved i s f.
Proof. intros P a tr d c H Hc. right. destruct (P a tr d c H Hc) as (a' & r & E). exists a', d, r. split; [exact E|constructor]. Qed.

(** What the run of one component gives. *)
Lemma with_safe {A} (i : iet T) (s : slen T) (f : callback T A) limit fuel : well_behaved i s f -> (limit <= INT_MAX)%Z ->
  forall rounds a tr d c, decomposition i s tr d -> c < length (d_comps d) ->
  let R := comp_decompose_with rounds fuel f limit c a d in
  R = OutOfFuel \/ (R = UB /\ limit = (-1)%Z) \/
  exists a' d' r tr', R = Ok (a', d', r) /\ decomposition i s (tr ++ tr') d' /\ length (d_comps d) <= length (d_comps d').
Proof.
  intros Wb HM. induction rounds as [|rounds IH]; intros a tr d c H Hc R; [left; reflexivity|]. unfold R. cbn [comp_decompose_with].
  destruct (Wb a tr d c H Hc) as [Q|(a1 & d1 & r & Q & L)]; rewrite Q; [left; reflexivity|]. cbn [bind].
  destruct (later_history i s d d1 L tr H) as (tr1 & H1 & L1).
  destruct r; [right; right; do 4 eexists; eauto| |right; right; do 4 eexists; eauto].
  destruct (at_component d1 c ltac:(lia)) as (x & Hx).
  destruct (step_facts i s _ d1 c x fuel limit H1 HM Hx) as [Q1|[(Q1 & Hl)|(st & d2 & y & Q1 & H2 & Hy & L2 & _ & Ad & _)]]; rewrite Q1; [left; reflexivity|right; left; auto|].
  cbn [bind]. rewrite <- app_assoc in H2.
  assert (Go : let R := bind (match dst_additional st with Some c' => comp_decompose_with rounds fuel f limit c' a1 d2 | None => Ok (a1, d2, Accept) end)
      (fun '(a, d, r1) => match r1 with Raise => Ok (a, d, Raise) | _ => '(a, d, r2) <- comp_decompose_with rounds fuel f limit c a d ;; Ok (a, d, match r2 with Accept => r1 | _ => r2 end) end) in
    R = OutOfFuel \/ (R = UB /\ limit = (-1)%Z) \/
    exists a' d' r tr', R = Ok (a', d', r) /\ decomposition i s (tr ++ tr') d' /\ length (d_comps d) <= length (d_comps d')).
  { assert (M : let M := match dst_additional st with Some c' => comp_decompose_with rounds fuel f limit c' a1 d2 | None => Ok (a1, d2, Accept) end in
      M = OutOfFuel \/ (M = UB /\ limit = (-1)%Z) \/ exists a' d' r tr', M = Ok (a', d', r) /\ decomposition i s (tr ++ tr') d' /\ length (d_comps d2) <= length (d_comps d')).
    { destruct (dst_additional st) as [c'|]; [|right; right; do 4 eexists; split; [reflexivity|]; split; [exact H2|lia]].
      destruct Ad as (-> & La & _). destruct (IH a1 _ d2 (length (d_comps d1)) H2 ltac:(lia)) as [Q2|[Q2|(a' & d' & r & tr' & Q2 & H3 & L3)]]; auto.
      right. right. exists a', d', r, ((tr1 ++ [st]) ++ tr'). rewrite app_assoc. auto. }
    cbv zeta in M |- *. destruct M as [M|[(M & Hl)|(a2 & d3 & r1 & tr2 & M & H3 & L3)]]; rewrite M; [left; reflexivity|right; left; auto|]. cbn [bind].
    assert (Hc3 : c < length (d_comps d3)) by lia.
    destruct r1; [| |right; right; do 4 eexists; split; [reflexivity|]; split; [exact H3|lia]];
      (destruct (IH a2 _ d3 c H3 Hc3) as [Q2|[(Q2 & Hl)|(a' & d' & r & tr' & Q2 & H4 & L4)]]; rewrite Q2;
       [left; reflexivity|right; left; auto|right; right; exists a', d'; eexists; exists (tr2 ++ tr'); split; [reflexivity|]; rewrite app_assoc; split; [exact H4|lia]]). }
  destruct (dst_result st); try exact Go. right. right. do 4 eexists. split; [reflexivity|]. split; [exact H2|lia].
Qed.

Lemma all_safe {A} (i : iet T) (s : slen T) (f : callback T A) limit fuel rounds : well_behaved i s f -> (limit <= INT_MAX)%Z ->
  forall cs a tr d, decomposition i s tr d -> (forall c, In c cs -> c < length (d_comps d)) ->
  let R := decompose_all_with rounds fuel f limit cs a d in
  R = OutOfFuel \/ (R = UB /\ limit = (-1)%Z) \/
  exists a' d' r tr', R = Ok (a', d', r) /\ decomposition i s (tr ++ tr') d' /\ length (d_comps d) <= length (d_comps d').
Proof.
  intros Wb HM. induction cs as [|c cs IH]; intros a tr d H Hc R.
  - right. right. exists a, d, Accept, []. rewrite app_nil_r. auto.
  - unfold R. cbn [decompose_all_with].
    destruct (with_safe i s f limit fuel Wb HM rounds a tr d c H (Hc c (or_introl eq_refl))) as [Q|[(Q & Hl)|(a1 & d1 & r & tr1 & Q & H1 & L1)]]; rewrite Q; [left; reflexivity|right; left; auto|].
    cbn [bind]. destruct r; [|right; right; do 4 eexists; eauto|right; right; do 4 eexists; eauto].
    destruct (IH a1 _ d1 H1) as [Q1|[Q1|(a' & d' & r & tr' & Q1 & H2 & L2)]]; auto.
    { intros k Hk. specialize (Hc k (or_intror Hk)). lia. }
    right. right. exists a', d', r, (tr1 ++ tr'). rewrite app_assoc. split; [exact Q1|]. split; [exact H2|lia].
Qed.
(** The other components are not touched, and the target accepted what is left. *)
Definition agreed {A} (f : callback T A) (d : decomp T) (c : nat) : Prop :=
  exists a0 a1 d0, f a0 d0 c = Ok (a1, d0, Accept) /\ comp_view d0 c = comp_view d c.

Lemma with_frame {A} (i : iet T) (s : slen T) (f : callback T A) limit fuel : passive i s f -> (limit <= INT_MAX)%Z ->
  forall rounds a tr d c a' d' r, decomposition i s tr d -> c < length (d_comps d) ->
  comp_decompose_with rounds fuel f limit c a d = Ok (a', d', r) ->
  (exists tr', decomposition i s (tr ++ tr') d') /\ length (d_comps d) <= length (d_comps d') /\
  (forall c', c' < length (d_comps d) -> c' <> c -> nth_error (d_comps d') c' = nth_error (d_comps d) c' /\ comp_view d' c' = comp_view d c') /\
  (r = Accept -> forall c', c' < length (d_comps d') -> c' = c \/ length (d_comps d) <= c' -> agreed f d' c') /\
  (r = Reject -> limit <> (-1)%Z).
Proof.
  intros Ps HM. induction rounds as [|rounds IH]; intros a tr d c a' d' r H Hc E; [discriminate|]. cbn [comp_decompose_with] in E.
  destruct (Ps a tr d c H Hc) as (a1 & r0 & Q). rewrite Q in E. cbn [bind] in E.
  assert (Nil : exists tr', decomposition i s (tr ++ tr') d) by (exists []; rewrite app_nil_r; exact H).
  destruct r0.
  - injection E as <- <- <-. split; [exact Nil|]. split; [lia|]. split; [auto|]. split; [|discriminate].
    intros _ c' Hc' [->|L]; [|lia]. exists a, a1, d. auto.
  - destruct (at_component d c Hc) as (x & Hx).
    destruct (step_facts i s tr d c x fuel limit H HM Hx) as [Q1|[(Q1 & Hl)|(st & d2 & y & Q1 & H2 & Hy & L2 & Fr & Ad & _ & Lm)]]; rewrite Q1 in E; try discriminate. cbn [bind] in E.
    assert (Go : bind (match dst_additional st with Some c' => comp_decompose_with rounds fuel f limit c' a1 d2 | None => Ok (a1, d2, Accept) end)
      (fun '(a, d, r1) => match r1 with Raise => Ok (a, d, Raise) | _ => '(a, d, r2) <- comp_decompose_with rounds fuel f limit c a d ;; Ok (a, d, match r2 with Accept => r1 | _ => r2 end) end) = Ok (a', d', r) ->
      (exists tr', decomposition i s (tr ++ tr') d') /\ length (d_comps d) <= length (d_comps d') /\
      (forall c', c' < length (d_comps d) -> c' <> c -> nth_error (d_comps d') c' = nth_error (d_comps d) c' /\ comp_view d' c' = comp_view d c') /\
      (r = Accept -> forall c', c' < length (d_comps d') -> c' = c \/ length (d_comps d) <= c' -> agreed f d' c') /\
      (r = Reject -> limit <> (-1)%Z)).
    { clear E. intro E.
      assert (M : exists a2 d3 r1 tr2, match dst_additional st with Some c' => comp_decompose_with rounds fuel f limit c' a1 d2 | None => Ok (a1, d2, Accept) end = Ok (a2, d3, r1) /\
        decomposition i s (tr ++ tr2) d3 /\ length (d_comps d2) <= length (d_comps d3) /\
        (forall c', c' < length (d_comps d) -> nth_error (d_comps d3) c' = nth_error (d_comps d2) c' /\ comp_view d3 c' = comp_view d2 c') /\
        (r1 = Accept -> forall c', c' < length (d_comps d3) -> length (d_comps d) <= c' -> agreed f d3 c') /\ (r1 = Reject -> limit <> (-1)%Z)).
      { destruct (dst_additional st) as [k|].
        - destruct Ad as (-> & La & _). destruct (comp_decompose_with rounds fuel f limit (length (d_comps d)) a1 d2) as [[[a2 d3] r1]| | | |] eqn:E1; try discriminate.
          destruct (IH a1 _ d2 (length (d_comps d)) a2 d3 r1 H2 ltac:(lia) E1) as ((tr' & H3) & L3 & F3 & A3 & R3).
          exists a2, d3, r1, ([st] ++ tr'). rewrite app_assoc. split; [reflexivity|]. split; [exact H3|]. split; [exact L3|]. split; [|split; [|exact R3]].
          + intros c' Hc'. apply F3; lia.
          + intros Ha c' Hc' Le. apply A3; [exact Ha|exact Hc'|]. destruct (Nat.eq_dec c' (length (d_comps d))); [left; assumption|right; lia].
        - exists a1, d2, Accept, [st]. split; [reflexivity|]. split; [exact H2|]. split; [lia|]. split; [auto|]. split; [|discriminate]. intros _ c' Hc' Le. lia. }
      destruct M as (a2 & d3 & r1 & tr2 & M & H3 & L3 & F3 & A3 & R3). rewrite M in E. cbn [bind] in E.
      assert (Base : forall c', c' < length (d_comps d) -> c' <> c -> nth_error (d_comps d3) c' = nth_error (d_comps d) c' /\ comp_view d3 c' = comp_view d c').
      { intros c' Hc' Ne. destruct (Fr c' Hc' Ne) as (X1 & X2). destruct (F3 c' Hc') as (Y1 & Y2). rewrite Y1, Y2. auto. }
      assert (Go : r1 <> Raise -> ('(a, d, r2) <- comp_decompose_with rounds fuel f limit c a2 d3 ;; Ok (a, d, match r2 with Accept => r1 | _ => r2 end)) = Ok (a', d', r) ->
        (exists tr', decomposition i s (tr ++ tr') d') /\ length (d_comps d) <= length (d_comps d') /\
        (forall c', c' < length (d_comps d) -> c' <> c -> nth_error (d_comps d') c' = nth_error (d_comps d) c' /\ comp_view d' c' = comp_view d c') /\
        (r = Accept -> forall c', c' < length (d_comps d') -> c' = c \/ length (d_comps d) <= c' -> agreed f d' c') /\
        (r = Reject -> limit <> (-1)%Z)).
      { clear E. intros Nr E. destruct (comp_decompose_with rounds fuel f limit c a2 d3) as [[[a3 d4] r2]| | | |] eqn:E2; try discriminate. cbn [bind] in E. injection E as <- <- Er.
        destruct (IH a2 _ d3 c a3 d4 r2 H3 ltac:(lia) E2) as ((tr' & H4) & L4 & F4 & A4 & R4).
        split; [exists (tr2 ++ tr'); rewrite app_assoc; exact H4|]. split; [lia|]. split; [|split].
        - intros c' Hc' Ne. destruct (F4 c' ltac:(lia) Ne) as (X1 & X2). destruct (Base c' Hc' Ne) as (Y1 & Y2). rewrite X1, X2. auto.
        - intros -> c' Hc' Hk. destruct r2; try discriminate. specialize (A4 eq_refl c' Hc').
          destruct (Nat.lt_ge_cases c' (length (d_comps d3))) as [Lt|Ge]; [|apply A4; right; exact Ge].
          destruct (Nat.eq_dec c' c) as [->|Ne]; [apply A4; left; reflexivity|]. destruct Hk as [Hk|Hk]; [contradiction|].
          destruct (A3 Er c' Lt Hk) as (b0 & b1 & e0 & X1 & X2). exists b0, b1, e0. split; [exact X1|]. rewrite X2. symmetry. apply F4; [exact Lt|exact Ne].
        - intros ->. destruct r2; [apply R3; exact Er|apply R4; reflexivity|discriminate]. }
      destruct r1; [apply Go; [discriminate|exact E]|apply Go; [discriminate|exact E]|].
      injection E as <- <- <-. split; [eauto|]. split; [lia|]. split; [exact Base|]. split; discriminate. }
    destruct (dst_result st) eqn:Ers; try exact (Go E). injection E as <- <- <-. split; [eauto|]. split; [exact L2|]. split; [exact Fr|]. split; [discriminate|]. intros _. apply Lm. reflexivity.
  - injection E as <- <- <-. split; [exact Nil|]. split; [lia|]. split; [auto|]. split; discriminate.
Qed.

Lemma all_frame {A} (i : iet T) (s : slen T) (f : callback T A) limit fuel rounds : passive i s f -> (limit <= INT_MAX)%Z ->
  forall todo m a tr d a' d' r, decomposition i s tr d -> m + todo <= length (d_comps d) ->
  (forall c', c' < length (d_comps d) -> c' < m \/ m + todo <= c' -> agreed f d c') ->
  decompose_all_with rounds fuel f limit (seq m todo) a d = Ok (a', d', r) ->
  (r = Accept -> forall c', c' < length (d_comps d') -> agreed f d' c') /\ (r = Reject -> limit <> (-1)%Z).
Proof.
  intros Ps HM. induction todo as [|todo IH]; intros m a tr d a' d' r H L Ag E.
  - cbn [seq decompose_all_with] in E. injection E as <- <- <-. split; [|discriminate]. intros _ c' Hc'. apply Ag; [exact Hc'|]. lia.
  - cbn [seq decompose_all_with] in E. destruct (comp_decompose_with rounds fuel f limit m a d) as [[[a1 d1] r1]| | | |] eqn:E1; try discriminate. cbn [bind] in E.
    destruct (with_frame i s f limit fuel Ps HM rounds a tr d m a1 d1 r1 H ltac:(lia) E1) as ((tr1 & H1) & L1 & F1 & A1 & R1).
    destruct r1; [|injection E as <- <- <-; split; [discriminate|exact R1]|injection E as <- <- <-; split; discriminate].
    apply (IH (S m) a1 _ d1 a' d' r H1 ltac:(lia)); [|exact E].
    intros c' Hc' Hk. destruct (Nat.lt_ge_cases c' (length (d_comps d))) as [Lt|Ge]; [|apply A1; auto].
    destruct (Nat.eq_dec c' m) as [->|Ne]; [apply A1; auto|]. destruct (Ag c' Lt ltac:(lia)) as (b0 & b1 & e0 & X1 & X2).
    exists b0, b1, e0. split; [exact X1|]. rewrite X2. symmetry. apply F1; assumption.
Qed.

Lemma with_raise {A} (f : callback T A) limit fuel : forall rounds a (d : decomp T) c a' d',
  comp_decompose_with rounds fuel f limit c a d = Ok (a', d', Raise) -> exists a0 d0 c0, f a0 d0 c0 = Ok (a', d', Raise).
Proof.
  induction rounds as [|rounds IH]; intros a d c a' d' E; [discriminate|]. cbn [comp_decompose_with] in E.
  destruct (f a d c) as [[[a1 d1] r]| | | |] eqn:Ef; try discriminate. cbn [bind] in E. destruct r; [discriminate| |injection E as <- <-; eauto].
  destruct (decomposition_step fuel limit c d1) as [[st d2]| | | |]; try discriminate. cbn [bind] in E.
  assert (Go : bind (match dst_additional st with Some c' => comp_decompose_with rounds fuel f limit c' a1 d2 | None => Ok (a1, d2, Accept) end)
    (fun '(a, d, r1) => match r1 with Raise => Ok (a, d, Raise) | _ => '(a, d, r2) <- comp_decompose_with rounds fuel f limit c a d ;; Ok (a, d, match r2 with Accept => r1 | _ => r2 end) end) = Ok (a', d', Raise) ->
    exists a0 d0 c0, f a0 d0 c0 = Ok (a', d', Raise)).
  { clear E. intro E.
    assert (G2 : forall r1 b e, r1 <> Raise -> ('(a, d, r2) <- comp_decompose_with rounds fuel f limit c b e ;; Ok (a, d, match r2 with Accept => r1 | _ => r2 end)) = Ok (a', d', Raise) ->
      exists a0 d0 c0, f a0 d0 c0 = Ok (a', d', Raise)).
    { intros r1 b e Nr Q. destruct (comp_decompose_with rounds fuel f limit c b e) as [[[a3 d4] r2]| | | |] eqn:E2; try discriminate. cbn [bind] in Q.
      injection Q as <- <- Er. destruct r2; [contradiction|discriminate|]. exact (IH _ _ _ _ _ E2). }
    destruct (dst_additional st) as [k|].
    - destruct (comp_decompose_with rounds fuel f limit k a1 d2) as [[[a2 d3] r1]| | | |] eqn:E1; try discriminate. cbn [bind] in E.
      destruct r1; [apply (G2 Accept a2 d3); [discriminate|exact E]|apply (G2 Reject a2 d3); [discriminate|exact E]|]. injection E as <- <-. exact (IH _ _ _ _ _ E1).
    - cbn [bind] in E. apply (G2 Accept a1 d2); [discriminate|exact E]. }
  destruct (dst_result st); solve [exact (Go E) | discriminate].
Qed.

Lemma all_raise {A} (f : callback T A) limit fuel rounds : forall cs a (d : decomp T) a' d',
  decompose_all_with rounds fuel f limit cs a d = Ok (a', d', Raise) -> exists a0 d0 c0, f a0 d0 c0 = Ok (a', d', Raise).
Proof.
  induction cs as [|c cs IH]; intros a d a' d' E; [discriminate|]. cbn [decompose_all_with] in E.
  destruct (comp_decompose_with rounds fuel f limit c a d) as [[[a1 d1] r]| | | |] eqn:E1; try discriminate. cbn [bind] in E.
  destruct r; [exact (IH _ _ _ _ E)|discriminate|]. injection E as <- <-. exact (with_raise f limit fuel rounds _ _ _ _ _ E1).
Qed.

(** Termination *)
Lemma size_pos (i : iet T) (s : slen T) tr d c x : decomposition i s tr d -> component d c x -> 0 < i_size (dc_iet x).
Proof.
  intros H Hx. pose proof (history_ok _ _ _ _ H) as H1. destruct (dk_good _ _ H1 x (nth_error_In _ _ Hx)) as [((_ & _ & Ne & _) & _) _].
  unfold i_size. destruct (i_top (dc_iet x)); [contradiction|cbn; lia].
Qed.

Lemma with_returns {A} (i : iet T) (s : slen T) (f : callback T A) limit fuel : passive i s f ->
  (forall a tr d c, decomposition i s tr d -> decided d c -> exists a' r, f a d c = Ok (a', d, r) /\ r <> Reject) ->
  (limit <= INT_MAX)%Z -> limit <> (-1)%Z -> length (i_top i) < fuel -> (limit < Z.of_nat fuel)%Z ->
  forall rounds a tr d c x, decomposition i s tr d -> component d c x -> 0 < rounds -> (~ flagged x -> i_size (dc_iet x) < rounds) ->
  exists R, comp_decompose_with rounds fuel f limit c a d = Ok R.
Proof.
  intros Ps Ac HM HN HF HF'. induction rounds as [|rounds IH]; intros a tr d c x H Hx R0 Rx; [lia|]. cbn [comp_decompose_with].
  assert (Hc : c < length (d_comps d)) by (apply nth_error_Some; unfold component in Hx; congruence).
  destruct (Ps a tr d c H Hc) as (a1 & r & Q). rewrite Q. cbn [bind]. destruct r; [eauto| |eauto].
  assert (Nf : ~ flagged x).
  { intro Fx. destruct (Ac a tr d c H) as (a2 & r2 & Q2 & Nr); [exists x; auto|]. rewrite Q in Q2. injection Q2 as _ <-. contradiction. }
  specialize (Rx Nf). pose proof (size_pos i s tr d c x H Hx) as P.
  destruct (claim_C48_terminates T O W i s tr d c x fuel limit H Hx HM HN HF HF') as (st & d1 & E). rewrite E. cbn [bind].
  destruct (step_facts i s tr d c x fuel limit H HM Hx) as [Q1|[(Q1 & Hl)|(st' & d2 & y & Q1 & H2 & Hy & L2 & Fr & Ad & Sm & _)]]; rewrite E in Q1; try discriminate. injection Q1 as <- <-.
  destruct (dst_result st) eqn:Ers; [eauto|..].
  all: assert (Ry : ~ flagged y -> i_size (dc_iet y) < rounds) by (intro Ny; destruct (Sm ltac:(discriminate)); [contradiction|lia]).
  all: assert (M : exists a2 d3 r1 tr2, match dst_additional st with Some c' => comp_decompose_with rounds fuel f limit c' a1 d1 | None => Ok (a1, d1, Accept) end = Ok (a2, d3, r1) /\
      decomposition i s (tr ++ tr2) d3 /\ component d3 c y);
    [destruct (dst_additional st) as [k|];
     [destruct Ad as (-> & La & z & Hz & Sz); destruct (IH a1 _ d1 (length (d_comps d)) z H2 Hz ltac:(lia) ltac:(intros _; lia)) as ([[a2 d3] r1] & E1);
      destruct (with_frame i s f limit fuel Ps HM rounds a1 _ d1 (length (d_comps d)) a2 d3 r1 H2 ltac:(lia) E1) as ((tr' & H3) & L3 & F3 & _);
      exists a2, d3, r1, ([st] ++ tr'); rewrite app_assoc; split; [exact E1|]; split; [exact H3|]; unfold component; rewrite (proj1 (F3 c ltac:(lia) ltac:(lia))); exact Hy
     |exists a1, d1, Accept, [st]; auto]|].
  all: destruct M as (a2 & d3 & r1 & tr2 & M & H3 & Hy3); rewrite M; cbn [bind].
  all: destruct (IH a2 _ d3 c y H3 Hy3 ltac:(lia) Ry) as ([[a3 d4] r2] & E2).
  all: rewrite E2; cbn [bind]; destruct r1; eauto.
Qed.

Lemma all_returns {A} (i : iet T) (s : slen T) (f : callback T A) limit fuel rounds : passive i s f ->
  (forall a tr d c, decomposition i s tr d -> decided d c -> exists a' r, f a d c = Ok (a', d, r) /\ r <> Reject) ->
  (limit <= INT_MAX)%Z -> limit <> (-1)%Z -> length (i_top i) < fuel -> (limit < Z.of_nat fuel)%Z -> length (i_top i) < rounds ->
  forall cs a tr d, decomposition i s tr d -> (forall c, In c cs -> c < length (d_comps d)) ->
  exists R, decompose_all_with rounds fuel f limit cs a d = Ok R.
Proof.
  intros Ps Ac HM HN HF HF' HR. induction cs as [|c cs IH]; intros a tr d H Hc; [cbn; eauto|]. cbn [decompose_all_with].
  destruct (at_component d c (Hc c (or_introl eq_refl))) as (x & Hx).
  destruct (with_returns i s f limit fuel Ps Ac HM HN HF HF' rounds a tr d c x H Hx ltac:(lia)) as ([[a1 d1] r] & E).
  { intros _. eapply Nat.le_lt_trans; [|exact HR]. pose proof (history_ok _ _ _ _ H) as H1. rewrite <- (history_keys _ _ _ _ H).
    apply NoDup_incl_length; [apply (dk_good _ _ H1 x (nth_error_In _ _ Hx))|]. intros l Hl. eapply dk_label; [exact H1|exact (nth_error_In _ _ Hx)|exact Hl]. }
  rewrite E. cbn [bind]. destruct r; [|eauto|eauto].
  destruct (with_frame i s f limit fuel Ps HM rounds a tr d c a1 d1 Accept H (Hc c (or_introl eq_refl)) E) as ((tr' & H3) & L3 & _).
  apply (IH a1 _ d1 H3). intros k Hk. specialize (Hc k (or_intror Hk)). lia.
Qed.

(** A step on a component with one interval *)
Lemma single_step e0 (d : decomp T) C1 x C2 fuel limit : dec_ok e0 d -> d_comps d = C1 ++ x :: C2 -> i_size (dc_iet x) = 1 ->
  decomposition_step fuel limit (length C1) d = OutOfFuel \/
  exists st d1, decomposition_step fuel limit (length C1) d = Ok (st, d1) /\ dst_result st = D_CYLINDER.
Proof.
  intros H E S1.
  assert (St : forall (d : decomp T) x, dec_ok e0 d -> d_comps d = C1 ++ x :: C2 -> i_size (dc_iet x) = 1 ->
    exists cost d' x', step_start (length C1) d = Ok (cost, d') /\ dec_ok e0 d' /\ d_comps d' = C1 ++ x' :: C2 /\ i_size (dc_iet x') = 1).
  { clear. intros d x H E S1. destruct (step_start_ok e0 d C1 x C2 H E) as (cost & v & Q & Ec & H0). do 3 eexists. split; [exact Q|]. split; [exact H0|].
    split; [reflexivity|]. exact S1. }
  assert (Li : forall (d : decomp T) x limit, dec_ok e0 d -> d_comps d = C1 ++ x :: C2 -> i_size (dc_iet x) = 1 ->
    step_limited fuel limit (length C1) d = OutOfFuel \/
    exists st d1, step_limited fuel limit (length C1) d = Ok (st, d1) /\ dst_result st = D_CYLINDER).
  { clear - St. intros d x limit H E S1. unfold step_limited. destruct (St d x H E S1) as (cost & d2 & x' & E2 & H2 & E3 & S3). rewrite E2. cbn [bind].
    destruct fuel as [|g]; [left; reflexivity|]. right. cbn [step_loop].
    rewrite (comp_at_mid d2 C1 x' C2 E3). cbn [bind]. unfold induce. rewrite S3. cbn [Nat.eqb bind is_result].
    rewrite (comp_set_mid d2 C1 x' C2 _ E3). cbn [bind is_result]. unfold step_finish. cbn [is_result].
    rewrite (comp_at_mid (set_comps d2 (C1 ++ iet_set x' (dc_iet x') :: C2)) C1 (iet_set x' (dc_iet x')) C2 eq_refl). cbn [bind].
    rewrite (comp_set_mid (set_comps d2 (C1 ++ iet_set x' (dc_iet x') :: C2)) C1 (iet_set x' (dc_iet x')) C2 _ eq_refl). cbn [bind]. do 2 eexists. split; reflexivity. }
  unfold decomposition_step. destruct (limit =? -1)%Z; [|exact (Li d x limit H E S1)].
  destruct (St d x H E S1) as (cost & d2 & x' & E2 & H2 & E3 & S3). rewrite E2. cbn [bind].
  destruct fuel as [|g]; [left; reflexivity|]. cbn [step_unlimited].
  destruct (Li d2 x' 0%Z H2 E3 S3) as [E4|(st2 & d3 & E4 & R)]; rewrite E4; [left; reflexivity|]. cbn [bind]. rewrite R. right. eauto.
Qed.

Lemma view_here (i : iet T) (s : slen T) tr d c x : decomposition i s tr d -> component d c x -> exists v, comp_view d c = Ok v.
Proof.
  intros Hh Hx. apply component_mid in Hx as (C1 & C2 & Ec & <-). eexists. exact (comp_view_ok _ d C1 x C2 (history_ok _ _ _ _ Hh) Ec).
Qed.

Lemma cylinder_runs (i : iet T) (s : slen T) tr d c x fuel limit : decomposition i s tr d -> component d c x -> dc_cylinder x = Some true ->
  decomposition_step fuel limit c d <> UB.
Proof.
  intros Hh Hx Cy. pose proof (history_ok _ _ _ _ Hh) as H. pose proof Hx as Hx'. apply component_mid in Hx' as (C1 & C2 & Ec & <-).
  destruct (history_shape i s tr d x Hh (nth_error_In _ _ Hx)) as [A _].
  destruct (single_step _ d C1 x C2 fuel limit H Ec (A Cy)) as [Q|(st' & d' & Q & R)]; congruence.
Qed.

Lemma cylinder_step (i : iet T) (s : slen T) tr d c x fuel limit st d1 : decomposition i s tr d -> (limit <= INT_MAX)%Z -> component d c x -> dc_cylinder x = Some true ->
  decomposition_step fuel limit c d = Ok (st, d1) ->
  dst_result st = D_CYLINDER /\ dst_additional st = None /\ exists y, component d1 c y /\ dc_cylinder y = Some true /\ comp_view d1 c = comp_view d c.
Proof.
  intros Hh HM Hx Cy E. pose proof (history_ok _ _ _ _ Hh) as H. pose proof Hx as Hx'. apply component_mid in Hx' as (C1 & C2 & Ec & <-).
  destruct (history_shape i s tr d x Hh (nth_error_In _ _ Hx)) as [A B]. specialize (A Cy).
  assert (R : dst_result st = D_CYLINDER) by (destruct (single_step _ d C1 x C2 fuel limit H Ec A) as [Q|(st' & d' & Q & R)]; [congruence|]; rewrite E in Q; injection Q as <- _; exact R).
  split; [exact R|].
  set (f := Nat.max fuel (Datatypes.S (length (d_keys d)))).
  destruct (decomposition_step_more fuel f limit (length C1) d ltac:(lia)) as [Q|Q]; [congruence|]. rewrite E in Q. symmetry in Q.
  destruct (step_call _ d (length C1) f limit st d1 H HM ltac:(lia) ltac:(rewrite Ec, app_length; simpl; lia) Q) as (C1' & x' & C2' & Ec' & L' & Ps).
  assert (C1' = C1 /\ x' = x /\ C2' = C2) as (-> & -> & ->).
  { rewrite Ec in Ec'. assert (W1 : firstn (length C1) (C1 ++ x :: C2) = firstn (length C1') (C1' ++ x' :: C2')) by congruence.
    rewrite !firstn_app, !firstn_all, !Nat.sub_diag in W1. cbn [firstn] in W1. rewrite !app_nil_r in W1. subst C1'.
    apply app_inv_head in Ec'. injection Ec' as -> ->. auto. }
  pose proof (sp_case _ _ _ _ _ _ _ Ps) as D. unfold dstep_post in D. rewrite R in D. destruct D as (i' & _ & D1 & Dt & Db & Ds & Dc & Dst).
  rewrite Dst. split; [reflexivity|]. eexists. split; [unfold component; rewrite D1, nth_error_app2, Nat.sub_diag by lia; reflexivity|]. split; [reflexivity|].
  pose proof (sp_ok _ _ _ _ _ _ _ Ps) as H1. rewrite (comp_view_ok _ d1 C1 _ C2 H1 D1), (comp_view_ok _ d C1 x C2 H Ec).
  unfold view_of, lft, rgt. cbn [dc_iet dc_cylinder dc_wpt dc_keane]. rewrite Dt, Db, Dc, Ds, Cy.
  destruct B as [(B1 & B2 & B3)|[(B1 & B2 & B3)|(B1 & B2 & B3)]]; try congruence.
Qed.
End Call.
Lemma claim_C87_looking : forall (T : Type) (O : LenOps T) (A : Type) rounds fuel target limit (a : A) (d : decomp T),
  decompose_with rounds fuel (looking target) limit a d =
    ('(ok, d') <- decompose rounds fuel target limit d ;; Ok (a, d', if ok then Accept else Reject)).
Proof.
  intros T O A rounds fuel target limit a d. unfold decompose_with, decompose.
  assert (C : forall r c (d : decomp T), comp_decompose_with r fuel (looking target) limit c a d =
    ('(ok, d') <- comp_decompose r fuel target limit c d ;; Ok (a, d', if ok then Accept else Reject))).
  { induction r as [|r IH]; intros c d1; [reflexivity|]. cbn [comp_decompose_with comp_decompose]. unfold looking at 1.
    destruct (comp_view d1 c) as [v| | | |]; try reflexivity. cbn [bind]. destruct (target v); [reflexivity|].
    destruct (decomposition_step fuel limit c d1) as [[st d2]| | | |]; try reflexivity. cbn [bind].
    assert (Go : bind (match dst_additional st with Some c' => comp_decompose_with r fuel (looking target) limit c' a d2 | None => Ok (a, d2, Accept) end)
      (fun '(a, d, r1) => match r1 with Raise => Ok (a, d, Raise) | _ => '(a, d, r2) <- comp_decompose_with r fuel (looking target) limit c a d ;; Ok (a, d, match r2 with Accept => r1 | _ => r2 end) end) =
      bind (bind (match dst_additional st with Some c' => comp_decompose r fuel target limit c' d2 | None => Ok (true, d2) end)
        (fun '(ok1, d) => '(ok2, d) <- comp_decompose r fuel target limit c d ;; Ok (ok1 && ok2, d))) (fun '(ok, d') => Ok (a, d', if ok then Accept else Reject))).
    { assert (G2 : forall ok1 (d3 : decomp T), ('(a0, d, r2) <- comp_decompose_with r fuel (looking target) limit c a d3 ;; Ok (a0, d, match r2 with Accept => if (ok1 : bool) then Accept else Reject | _ => r2 end)) =
        bind ('(ok2, d) <- comp_decompose r fuel target limit c d3 ;; Ok (ok1 && ok2, d)) (fun '(ok, d') => Ok (a, d', if ok then Accept else Reject))).
      { intros ok1 d3. rewrite IH. destruct (comp_decompose r fuel target limit c d3) as [[ok2 d4]| | | |]; try reflexivity. destruct ok1, ok2; reflexivity. }
      destruct (dst_additional st) as [c'|].
      - rewrite IH. destruct (comp_decompose r fuel target limit c' d2) as [[ok1 d3]| | | |]; try reflexivity. cbn [bind]. destruct ok1; [apply (G2 true)|apply (G2 false)].
      - cbn [bind]. apply (G2 true). }
    destruct (dst_result st); solve [exact Go | reflexivity]. }
  generalize (seq 0 (length (d_comps d))) as cs. intro cs. revert d. induction cs as [|c cs IH]; intro d; [reflexivity|].
  cbn [decompose_all_with decompose_all]. rewrite C. destruct (comp_decompose rounds fuel target limit c d) as [[ok d1]| | | |]; try reflexivity.
  cbn [bind]. destruct ok; [apply IH|reflexivity].
Qed.

Lemma claim_C87_history : forall (T : Type) (O : LenOps T) (W : LenLaws T) (A : Type) (i : iet T) (s : slen T) (f : callback T A) tr d rounds fuel limit a,
  decomposition i s tr d -> (limit <= INT_MAX)%Z -> well_behaved i s f ->
  (forall a' d' r, decompose_with rounds fuel f limit a d = Ok (a', d', r) -> exists tr', decomposition i s (tr ++ tr') d') /\
  (forall c a' d' r, c < length (d_comps d) -> comp_decompose_with rounds fuel f limit c a d = Ok (a', d', r) ->
     exists tr', decomposition i s (tr ++ tr') d') /\
  (decompose_with rounds fuel f limit a d = UB -> limit = (-1)%Z) /\
  decompose_with rounds fuel f limit a d <> AssertFail /\ decompose_with rounds fuel f limit a d <> Throw.
Proof.
  intros T O W A i s f tr d rounds fuel limit a H HM Wb.
  destruct (all_safe i s f limit fuel rounds Wb HM (seq 0 (length (d_comps d))) a tr d H) as [Q|Q]; [intros c (_ & Hc)%in_seq; lia|..].
  - unfold decompose_with. cbv zeta in Q. rewrite Q. split; [discriminate|]. split; [|repeat split; discriminate].
    intros c a' d' r Hc E. destruct (with_safe i s f limit fuel Wb HM rounds a tr d c H Hc) as [R|[(R & _)|(a1 & d1 & r1 & tr1 & R & H1 & _)]]; cbv zeta in R; rewrite E in R; try discriminate.
    injection R as <- <- <-. eauto.
  - unfold decompose_with. cbv zeta in Q. split; [|split; [|destruct Q as [(Q & Hl)|(a1 & d1 & r1 & tr1 & Q & H1 & _)]; rewrite Q; repeat split; try discriminate; auto]].
    + intros a' d' r E. destruct Q as [(Q & _)|(a1 & d1 & r1 & tr1 & Q & H1 & _)]; rewrite E in Q; try discriminate. injection Q as <- <- <-. eauto.
    + intros c a' d' r Hc E. destruct (with_safe i s f limit fuel Wb HM rounds a tr d c H Hc) as [R|[(R & _)|(a1 & d1 & r1 & tr1 & R & H1 & _)]]; cbv zeta in R; rewrite E in R; try discriminate.
      injection R as <- <- <-. eauto.
Qed.

Lemma claim_C87_reply : forall (T : Type) (O : LenOps T) (W : LenLaws T) (A : Type) (i : iet T) (s : slen T) (f : callback T A) tr d rounds fuel limit a a' d' r,
  decomposition i s tr d -> (limit <= INT_MAX)%Z -> passive i s f ->
  decompose_with rounds fuel f limit a d = Ok (a', d', r) ->
  match r with
  | Accept => forall c, c < length (d_comps d') ->
      exists a0 a1 d0, f a0 d0 c = Ok (a1, d0, Accept) /\ comp_view d0 c = comp_view d' c
  | Reject => limit <> (-1)%Z
  | Raise => exists a0 d0 c, f a0 d0 c = Ok (a', d', Raise)
  end.
Proof.
  intros T O W A i s f tr d rounds fuel limit a a' d' r H HM Ps E. unfold decompose_with in E.
  destruct (all_frame i s f limit fuel rounds Ps HM (length (d_comps d)) 0 a tr d a' d' r H ltac:(lia) ltac:(intros; lia) E) as (X1 & X2).
  destruct r; [exact (X1 eq_refl)|exact (X2 eq_refl)|].
  exact (all_raise f limit fuel rounds _ _ _ _ _ E).
Qed.

Lemma claim_C88_returns : forall (T : Type) (O : LenOps T) (W : LenLaws T) (A : Type) (i : iet T) (s : slen T) (f : callback T A) tr d rounds fuel limit a,
  decomposition i s tr d -> passive i s f ->
  (forall a tr d c, decomposition i s tr d -> decided d c -> exists a' r, f a d c = Ok (a', d, r) /\ r <> Reject) ->
  (limit <= INT_MAX)%Z -> limit <> (-1)%Z ->
  length (i_top i) < rounds -> length (i_top i) < fuel -> (limit < Z.of_nat fuel)%Z ->
  exists a' d' r, decompose_with rounds fuel f limit a d = Ok (a', d', r).
Proof.
  intros T O W A i s f tr d rounds fuel limit a H Ps Ac HM HN HR HF HF'.
  destruct (all_returns i s f limit fuel rounds Ps Ac HM HN HF HF' HR (seq 0 (length (d_comps d))) a tr d H) as ([[a1 d1] r] & E); [intros c (_ & Hc)%in_seq; lia|].
  exists a1, d1, r. exact E.
Qed.

Lemma claim_C88_insists : forall (T : Type) (O : LenOps T) (W : LenLaws T) (i : iet T) (s : slen T) target tr d c x v rounds fuel limit,
  decomposition i s tr d -> (limit <= INT_MAX)%Z -> component d c x -> dc_cylinder x = Some true ->
  comp_view d c = Ok v -> target v = false ->
  comp_decompose rounds fuel target limit c d = OutOfFuel /\
  (c = 0 -> decompose rounds fuel target limit d = OutOfFuel).
Proof.
  intros T O W i s target tr d c x v rounds fuel limit H HM Hx Cy V Tv.
  assert (K : forall r tr d x, decomposition i s tr d -> component d c x -> dc_cylinder x = Some true -> comp_view d c = Ok v ->
    comp_decompose r fuel target limit c d = OutOfFuel).
  { clear - W HM Tv. induction r as [|r IH]; intros tr d x H Hx Cy V; [reflexivity|]. cbn [comp_decompose]. rewrite V. cbn [bind]. rewrite Tv.
    destruct (step_facts i s tr d c x fuel limit H HM Hx) as [Q|[(Q & Hl)|(st & d1 & y & Q & H1 & _)]];
      [rewrite Q; reflexivity|destruct (cylinder_runs i s tr d c x fuel limit H Hx Cy Q)|]. rewrite Q. cbn [bind].
    destruct (cylinder_step i s tr d c x fuel limit st d1 H HM Hx Cy Q) as (R & Ra & z & Hz & Cz & Vz). rewrite R, Ra. cbn [bind].
    rewrite (IH _ d1 z H1 Hz Cz ltac:(congruence)). reflexivity. }
  split; [exact (K rounds tr d x H Hx Cy V)|]. intros ->. specialize (K rounds tr d x H Hx Cy V). unfold decompose.
  destruct (length (d_comps d)) as [|n] eqn:El; [unfold component in Hx; destruct (d_comps d); discriminate|]. cbn [seq decompose_all].
  rewrite K. reflexivity.
Qed.

