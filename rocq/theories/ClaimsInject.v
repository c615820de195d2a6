(** Proofs of the properties in [PropInject]. *)
From Coq Require Import Reals Lra Permutation.
From Verif Require Import Base QcTac LenT FM Subspace Lengths IET Decomp Spec SpecDec Api DecApi InjApi.
From Verif Require Import ZorichProof Dyn Saddle ReduceProof Saf Bosh Path Direct Similar InduceProof InduceCons World Seq.
From Verif Require Import DecompSim DecompInv DecompNav DecompRef DecompStep DecompAll DecompEnds DecompDyn DecompCons DecompMore Fuel DecompBudget.
From Verif Require Import ClaimsDecomp Twin TwinDec InjRel InjStep InjHist InjMore InjCheck PerimProof.
Open Scope nat_scope.

Section Helpers.
Context {T : Type} {O : LenOps T} {W : LenLaws T}.

Lemma link_without (i : iet T) s J tr d tr0 d0 : decomposition i s tr0 d0 -> link i s J d0 d -> Forall2 (same_step J) tr0 tr ->
  without_injections i s J tr d tr0 d0.
Proof. intros H LK F. split; [exact H|]. split; [apply LK|]. split; [apply LK|exact F]. Qed.

Lemma inj_start (i : iet T) s J tr d : injected_decomposition i s J tr d -> obtainable i s.
Proof. induction 1; assumption. Qed.

Lemma outcome_of {A} (P Q : A -> A -> Prop) r r' : rres P r r' -> (forall a b, P a b -> Q a b) -> same_outcome Q r r'.
Proof. unfold rres, same_outcome. destruct r, r'; auto. Qed.
End Helpers.

Lemma claim_C54_reported : forall (T : Type) (O : LenOps T) (W : LenLaws T) (i : iet T) (s : slen T) tr d,
  decomposition i s tr d -> Permutation (rights d) (reported tr).
Proof.
  intros T O W i s tr d H. apply (plain_link i s tr d H).
Qed.

Lemma claim_C62_transparent : forall (T : Type) (O : LenOps T) (W : LenLaws T) (i : iet T) (s : slen T) J tr d,
  injected_decomposition i s J tr d ->
  exists tr0 d0, without_injections i s J tr d tr0 d0 /\
    (forall fuel limit c, length (i_top i) < fuel -> (limit <= INT_MAX)%Z -> c < length (d_comps d) ->
       same_outcome (fun r0 r => without_injections i s J (tr ++ [fst r]) (snd r) (tr0 ++ [fst r0]) (snd r0))
         (decomposition_step fuel limit c d0) (decomposition_step fuel limit c d)) /\
    (forall rounds fuel target limit, length (i_top i) < fuel -> (limit <= INT_MAX)%Z -> ignores_connections target ->
       same_outcome (fun r0 r => fst r = fst r0 /\
           exists tr' tr0', injected_decomposition i s J (tr ++ tr') (snd r) /\ without_injections i s J (tr ++ tr') (snd r) tr0' (snd r0))
         (decompose rounds fuel target limit d0) (decompose rounds fuel target limit d)).
Proof.
  intros T O W i s J tr d H. destruct (injected_history i s J tr d H) as (tr0 & d0 & Hh & LK & F & _).
  exists tr0, d0. split; [exact (link_without _ _ _ _ _ _ _ Hh LK F)|]. pose proof (history_keys _ _ _ _ Hh) as Ek.
  assert (Ec : d_comps d0 = d_comps d) by apply LK. split.
  - intros fuel limit c Hf HL Hc. rewrite <- Ec in Hc.
    pose proof (link_step i s J d0 d tr0 fuel limit c Hh LK HL Hc ltac:(rewrite Ek; exact Hf)) as Q.
    destruct (decomposition_step fuel limit c d0) as [[st0 d0']| | | |] eqn:E0, (decomposition_step fuel limit c d) as [[st d']| | | |]; try exact Q.
    destruct Q as (Q1 & Q2 & _). cbn [fst snd same_outcome] in *. apply link_without; [eapply dh_step; eassumption|exact Q2|].
    apply Forall2_app; [exact F|constructor; [exact Q1|constructor]].
  - intros rounds fuel target limit Hf HL IC.
    assert (R : run i s J tr d0 d) by (exists tr0, []; rewrite app_nil_r; auto).
    apply (outcome_of _ _ _ _ (run_decompose i s J tr target IC limit HL fuel Hf rounds d0 d R)).
    intros [ok0 d0'] [ok d'] (E & tr0' & tr' & H1 & H2 & H3 & H4). cbn [fst snd] in *. split; [symmetry; exact E|].
    exists tr', tr0'. split; [exact H1|]. exact (link_without _ _ _ _ _ _ _ H2 H3 H4).
Qed.

Lemma claim_C62_safe : forall (T : Type) (O : LenOps T) (W : LenLaws T) (i : iet T) (s : slen T) J tr d fuel limit c,
  injected_decomposition i s J tr d -> (limit <= INT_MAX)%Z -> c < length (d_comps d) ->
  match decomposition_step fuel limit c d with
  | Ok _ | OutOfFuel => True
  | UB => limit = (-1)%Z
  | Throw | AssertFail => False
  end.
Proof.
  intros T O W i s J tr d fuel limit c H HL Hc. destruct (injected_history i s J tr d H) as (tr0 & d0 & Hh & LK & F & _).
  assert (Ec : d_comps d0 = d_comps d) by apply LK. rewrite <- Ec in Hc.
  set (f := Nat.max fuel (Datatypes.S (length (d_keys d0)))).
  destruct (decomposition_step_more fuel f limit c d ltac:(lia)) as [Q|Q]; [rewrite Q; exact I|]. rewrite Q. clear Q.
  pose proof (link_step i s J d0 d tr0 f limit c Hh LK HL Hc ltac:(lia)) as Q.
  destruct (nth_error (d_comps d0) c) as [x|] eqn:Ex; [|apply nth_error_None in Ex; lia].
  destruct (component_mid d0 c x Ex) as (C1 & C2 & HD & <-).
  pose proof (decomposition_step_ok _ f d0 C1 x C2 limit (history_ok _ _ _ _ Hh) HD HL ltac:(lia)) as P. cbv zeta in P.
  destruct P as [(P & _)|[(P & P' & _)|(st & d' & P & _)]]; rewrite P in Q; destruct (decomposition_step f limit (length C1) d); try contradiction; try exact I.
  exact P'.
Qed.

Lemma claim_C62_cylinders : forall (T : Type) (O : LenOps T) (W : LenLaws T) (i : iet T) (s : slen T) J d u m rounds fuel,
  injected_decomposition i s J [] d -> (0 < u)%R -> integral u (exch_of i s) ->
  total (lamR s) (i_top i) = (IZR m * u)%R -> (m < 2147483646)%Z ->
  length (i_top i) < rounds -> length (i_top i) < fuel -> (Z.max 64 (2 * m + 2) < Z.of_nat fuel)%Z ->
  exists d', decompose rounds fuel default_target (-1) d = Ok (true, d') /\
    forall c x, component d' c x -> dc_cylinder x = Some true.
Proof.
  intros T O W i s J d u m rounds fuel H Hu Hi Hm Hm2 HR HF HF2. destruct (injected_history i s J [] d H) as (tr0 & d0 & Hh & LK & F & _).
  inversion F; subst. inversion Hh as [q Ho Eo E1 E2|tr1 d1 f1 l1 c1 st1 d1' X1 X2 X3 X4 E1 E2]; [|destruct tr1; discriminate]. subst q.
  destruct (claim_C29_cylinders T O W i s d0 u m rounds fuel Ho Eo Hu Hi Hm Hm2 HR HF HF2) as (d0' & E0 & A0).
  assert (R : run i s J [] d0 d) by (exists [], []; split; [exact H|split; [exact Hh|split; [exact LK|constructor]]]).
  assert (IC : ignores_connections (default_target (T := T))).
  { intros v v' _ _ _ E3 E4 _. unfold default_target. rewrite E3, E4. reflexivity. }
  pose proof (run_decompose i s J [] default_target IC (-1)%Z ltac:(discriminate) fuel HF rounds d0 d R) as Q. rewrite E0 in Q.
  destruct (decompose rounds fuel default_target (-1) d) as [[ok d']| | | |]; try contradiction.
  destruct Q as (Q1 & tr0' & tr' & _ & _ & Q2 & _). cbn [fst snd] in *. subst ok. exists d'. split; [reflexivity|].
  intros c x Hx. apply (A0 c x). unfold component in *. rewrite <- Hx. f_equal. apply Q2.
Qed.

Lemma claim_C63_kept : forall (T : Type) (O : LenOps T) (W : LenLaws T) (i : iet T) (s : slen T) J tr d,
  injected_decomposition i s J tr d ->
  exists tr0 d0, without_injections i s J tr d tr0 d0 /\
    Permutation (rights d) (injected_rights J ++ map (stretch J) (rights d0)) /\
    Permutation (lefts d) (injected_lefts J ++ map (stretch J) (lefts d0)) /\
    Permutation (rights d) (injected_rights J ++ reported tr).
Proof.
  intros T O W i s J tr d H. destruct (injected_history i s J tr d H) as (tr0 & d0 & Hh & LK & F & P).
  exists tr0, d0. split; [exact (link_without _ _ _ _ _ _ _ Hh LK F)|].
  split; [exact (seen_rights _ _ _ _ _ _ Hh LK)|]. split; [exact (seen_lefts _ _ _ _ _ _ Hh LK)|].
  rewrite (seen_rights _ _ _ _ _ _ Hh LK), P. apply Permutation_app_head.
  clear - F. induction F as [|st st' tr0 tr (_ & E & _) F IH]; [constructor|]. unfold reported in *. cbn [flat_map]. rewrite map_app, IH, E.
  destruct (dst_connection st); reflexivity.
Qed.

Lemma claim_C63_half_edges : forall (T : Type) (O : LenOps T) (W : LenLaws T) (i : iet T) (s : slen T) J tr d,
  injected_decomposition i s J tr d ->
  exists tr0 d0, without_injections i s J tr d tr0 d0 /\
    forall c x e, component d c x -> he_comp e = c -> in_row x (he_top e) (he_label e) ->
      (exists l l0 a, he_left d e = Ok l /\ he_left d0 e = Ok l0 /\ interleaved a (map (stretch J) l0) l /\ incl a (injected_lefts J)) /\
      (exists cs y r, he_right d e = Ok cs /\ chained y cs r /\
         if he_top e then r = he_label e /\ map (fun k => sp_label (cn_source k)) cs = behind_top J (he_label e)
         else y = he_label e /\ exists more, map (fun k => sp_label (cn_target k)) cs = behind_bottom J (he_label e) ++ more) /\
      (exists o, he_separatrix d0 e = Ok o /\ he_separatrix d e = Ok (option_map (stretched J) o)).
Proof.
  intros T O W i s J tr d H. destruct (injected_history i s J tr d H) as (tr0 & d0 & Hh & LK & F & _).
  exists tr0, d0. split; [exact (link_without _ _ _ _ _ _ _ Hh LK F)|]. intros c x e Hx Hc Hr.
  assert (Hx0 : component d0 c x) by (unfold component in *; rewrite <- Hx; f_equal; apply LK).
  pose proof (history_ok _ _ _ _ Hh) as Hd. pose proof (row_live _ _ _ _ _ _ Hd Hx0 Hr) as Lv.
  pose proof (live_keys _ _ Hd _ Lv) as Kl. split; [|split].
  - destruct (seen_left _ _ _ _ _ _ Hh LK c (he_label e) (he_top e) Kl) as (a & ls & E1 & I & ls2 & E2 & Q).
    replace (mkhe c (he_label e) (he_top e)) with e in * by (destruct e; cbn in *; subst; reflexivity). exists ls2, ls, a. auto.
  - destruct e as [c' l top]. cbn [he_comp he_label he_top] in *. subst c'. unfold in_row in Hr. destruct top.
    + destruct (seen_top _ _ _ _ _ _ Hh LK c x l Hx0 Hr) as (cs & E1 & E2 & _). exists cs, (hd l (behind_top J l)), l.
      split; [exact E1|]. split; [exact E2|]. split; [reflexivity|].
      pose proof (rl_top _ _ _ _ _ _ _ _ (tw_conns _ _ _ _ LK) l Lv) as Q.
      assert (Kl2 : In l (d_keys d)) by (rewrite <- (tw_keys _ _ _ _ LK), (history_keys _ _ _ _ Hh); exact Kl).
      rewrite (he_right_ok d c l true Kl2) in E1. injection E1 as <-. unfold rgt. rewrite Q.
      destruct (behind_top J l) as [|y r]; [reflexivity|]. cbn [toplinks].
      clear. revert y. induction r as [|z r IH]; intro y; [reflexivity|]. cbn [app links map]. rewrite IH. reflexivity.
    + destruct (seen_bottom _ _ _ _ _ _ Hh LK c x l Hx0 Hr) as (cs & r & E1 & E2 & E3 & _). exists cs, l, r.
      split; [exact E1|]. split; [exact E2|]. split; [reflexivity|exact E3].
  - exact (seen_separatrix _ _ _ _ _ _ Hh LK c x e Hx0 Hc Hr).
Qed.

Lemma claim_C64_accepted : forall (T : Type) (O : LenOps T) (W : LenLaws T) (i : iet T) (s : slen T) J e ls rs rest d x,
  injected_decomposition i s J [] d -> consistent (i_top i) (J ++ mkinj e ls rs :: rest) ->
  component d (he_comp e) x -> in_row x (he_top e) (he_label e) ->
  ls = [] \/ he_left d e = Ok [] ->
  exists d', inject d e ls rs = Ok (map left_conn ls, map right_conn rs, d') /\
    injected_decomposition i s (J ++ [mkinj e ls rs]) [] d'.
Proof.
  intros T O W i s J e ls rs rest d x H C Hx Hr Hl.
  destruct (injected_accepted i s J (mkinj e ls rs) rest d x H C Hx Hr Hl) as (d' & E). cbn [ij_at ij_left ij_right] in E.
  exists d'. split; [exact E|]. eapply ih_inject; [exact H|exact Hx|exact Hr| |exact E].
  apply (cs_at _ _ C (mkinj e ls rs)). apply in_or_app. right. left. reflexivity.
Qed.

Lemma claim_C64_check : forall (T : Type) (O : LenOps T) (W : LenLaws T) (i : iet T) (s : slen T) J tr d,
  injected_decomposition i s J tr d -> consistent (i_top i) J ->
  dec_check d = Ok tt /\ NoDup (map cn_source (lefts d ++ rights d)).
Proof.
  intros T O W i s J tr d H C. rewrite <- (app_nil_r J) in C.
  split; [exact (injected_check i s J [] tr d H C (or_intror eq_refl))|exact (injected_distinct i s J [] tr d H C (or_intror eq_refl))].
Qed.

Lemma claim_C64_perimeter : forall (T : Type) (O : LenOps T) (W : LenLaws T) (i : iet T) (s : slen T) J tr d c x,
  injected_decomposition i s J tr d -> consistent (i_top i) J -> component d c x ->
  (exists p, comp_perimeter d c = Ok p /\ NoDup p /\
    (forall e, In (SEdge e) p <-> he_comp e = c /\ in_row x (he_top e) (he_label e)) /\
    (forall k, In (SConn k) p <-> exists e cs, he_comp e = c /\ in_row x (he_top e) (he_label e) /\
       (he_left d e = Ok cs \/ he_right d e = Ok cs) /\ In k cs)) /\
  exists bs ts css p q first, bottom_contour d c = Ok bs /\ top_contour d c = Ok ts /\ mapM (he_cross d) (bs ++ rev ts) = Ok css /\
    comp_perimeter d c = Ok (p ++ q) /\ q ++ p = concat css /\ NoDup (concat css) /\
    hd_error bs = Some first /\ hd_error (p ++ q) = Some (SEdge first).
Proof.
  intros T O W i s J tr d c x H C Hx. rewrite <- (app_nil_r J) in C.
  destruct (injected_perimeter i s J [] tr d H C (or_intror eq_refl) c x Hx) as (A1 & A2 & A3 & A4 & A5 & A6 & A7).
  split; [apply perimeter_sides with (x := x); assumption|apply perimeter_cross with (x := x); assumption].
Qed.

