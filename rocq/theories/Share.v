(** Several IETs and decompositions that share their lengths: what one of them does is no
    business of the others. *)
From Coq Require Import List Reals Lra Lia Permutation ZArith.
From Verif Require Import Base QcTac LenT FM Subspace Lengths IET Decomp Spec SpecLin Api Twin Focus ZorichProof Saf Bosh ReduceProof InduceProof World DecompSim DecompRef Ratio Mixed RatioIet RatioLink RatioInduce RatioInv RatioDec RatioApi RatioRun ShareApi.
Open Scope nat_scope.

(** * What a call on a decomposition leaves alone *)

Section Frame.
Context {T : Type} {O : LenOps T} {W : LenLaws T}.

Record fr (d e : decomp T) : Prop := {
  fr_keys : d_keys e = d_keys d;
  fr_len : length (sl_lens (d_len e)) = length (sl_lens (d_len d));
  fr_out : forall l, ~ In l (d_keys d) -> nth_error (sl_lens (d_len e)) l = nth_error (sl_lens (d_len d)) l;
}.

Lemma fr_refl d : fr d d.
Proof. constructor; auto. Qed.
Lemma fr_trans d e f : fr d e -> fr e f -> fr d f.
Proof.
  intros [A1 A2 A3] [B1 B2 B3]. constructor; [congruence|congruence|]. intros l Hl. rewrite B3 by (rewrite A1; exact Hl). apply A3, Hl.
Qed.
Lemma fr_same d e : d_keys e = d_keys d -> d_len e = d_len d -> fr d e.
Proof. intros K L. constructor; [exact K|rewrite L; reflexivity|rewrite L; reflexivity]. Qed.

Lemma fr_comp_set d k x e : comp_set d k x = Ok e -> fr d e.
Proof. unfold comp_set. destruct (set_nth _ _ _); [|discriminate]. intro E. injection E as <-. apply fr_same; reflexivity. Qed.

Lemma fr_start k d cost e : step_start k d = Ok (cost, e) -> fr d e.
Proof.
  unfold step_start. destruct (comp_at d k) as [x| | | |]; cbn [bind]; try discriminate. destruct (negb _); cbn [assert_]; [|discriminate].
  destruct (bosh_cost _ _) as [[c i]| | | |]; cbn [bind]; try discriminate. destruct (comp_set d k _) as [f| | | |] eqn:E; cbn [bind]; try discriminate.
  intro Q. injection Q as _ <-. exact (fr_comp_set _ _ _ _ E).
Qed.

Lemma fr_loop fuel cost k : cost_ok cost -> forall rounds limit d st e, (limit <= INT_MAX)%Z -> sound [] d ->
  step_loop rounds fuel cost limit k d = Ok (st, e) -> fr d e.
Proof.
  intro Co. induction rounds as [|rounds IH]; intros limit d st e Hl So E; [discriminate|]. cbn [step_loop] in E.
  set (steps := match cost with Some k0 => if (limit <? 2 * k0)%Z then limit else k0 | None => limit end) in E.
  assert (Hs : (steps <= INT_MAX)%Z /\ (limit - steps <= INT_MAX)%Z).
  { unfold steps, INT_MAX in *. destruct cost as [m|]; [|lia]. cbn in Co. unfold INT_MAX in Co. destruct (Z.ltb_spec limit (2 * m)); lia. }
  destruct (comp_at d k) as [x| | | |] eqn:Ex; cbn [bind] in E; try discriminate. apply comp_at_nth in Ex.
  destruct (nth_error_split _ _ Ex) as (C1 & C2 & Ec & Ek). subst k.
  destruct (induce (dec_lens (length C1)) fuel steps (dc_iet x) d) as [[[st1 i1] d1]| | | |] eqn:Ei; cbn [bind] in E; try discriminate.
  destruct (sound_induce d C1 x C2 fuel steps st1 i1 d1 So Ec (proj1 Hs) Ei) as (e1 & Ee & So1 & _ & _ & Le & Fr).
  rewrite Ee in E. cbn [bind] in E.
  assert (F1 : fr d e1).
  { apply (fr_trans d d1); [|exact (fr_comp_set _ _ _ _ Ee)].
    pose proof (sound_fits d C1 x C2 So Ec) as F. destruct (so_good _ _ So (dc_iet x)) as [Gx Sx].
    { rewrite app_nil_r. unfold comp_iets. rewrite Ec. apply in_map. apply in_or_app. right. left. reflexivity. }
    destruct (dinduce_ok (length C1) steps fuel (dc_iet x) d (proj1 Hs) Gx Sx F) as [(E1 & _)|[(E1 & _)|(st' & j & d' & E1 & Gj & St & Ke & _)]]; rewrite Ei in E1; try discriminate.
    injection E1 as <- <- <-. constructor; [exact Ke|exact Le|]. intros l Hl0. apply Fr. intro Hx. apply Hl0. destruct F as (_ & K & _). exact (K l Hx). }
  assert (Done : Ok (st1, e1) = Ok (st, e) -> fr d e) by (intro Q; injection Q as _ <-; exact F1).
  destruct (is_result st1) eqn:Er; try (apply Done; exact E).
  destruct (Z.eqb _ 0); [apply Done; exact E|]. apply (fr_trans d e1 e F1). apply (IH _ _ _ _ (proj2 Hs)) in E; [exact E|].
  rewrite (plain_induce _ _ _ _ _ _ _ _ Ei) in So1 by (rewrite Er; discriminate). exact So1.
Qed.

Ltac dd E := match type of E with
  | bind ?m _ = _ => let a := fresh "a" in destruct m as [a| | | |] eqn:?; cbn [bind] in E; try discriminate
  | assert_ ?b _ = _ => destruct b; cbn [assert_] in E; [|discriminate]
  end.

Lemma fr_register d l sep r e : register_separating d l sep r = Ok e -> fr d e.
Proof.
  unfold register_separating. intro E. repeat dd E. injection E as <-. apply fr_same; reflexivity.
Qed.

Lemma fr_finish fuel st k d r e : step_finish fuel st k d = Ok (r, e) -> fr d e.
Proof.
  unfold step_finish. intro E. dd E. destruct (is_result st).
  - injection E as _ <-. apply fr_refl.
  - dd E. injection E as _ <-. eapply fr_comp_set; eassumption.
  - destruct (is_connection st) as [[b t]|]; [|discriminate]. destruct (is_additional st) as [j|]; [|discriminate].
    unfold step_separating in E. repeat dd E. injection E as _ <-.
    match goal with H : register_separating _ _ _ _ = Ok _ |- _ => apply fr_register in H; refine (fr_trans _ _ _ _ H) end. apply fr_same; reflexivity.
  - destruct (is_connection st) as [[b t]|]; [|discriminate]. unfold step_non_separating in E. repeat dd E. injection E as _ <-. apply fr_same; reflexivity.
  - dd E. injection E as _ <-. eapply fr_comp_set; eassumption.
  - dd E. injection E as _ <-. eapply fr_comp_set; eassumption.
Qed.
End Frame.

(** The relation of [RatioDec] at scale one, between what a part has alone (first) and what it
    has in the common program (second). *)
Section Part.
Context {T : Type} {O : LenOps T} {W : LenLaws T}.
Variable A : label -> Prop.
#[local] Instance WM : MixedLaws T := @mixed_of_uniform T O W.

Notation irel := (@RatioIet.irel T T A).
Notation wrel := (@RatioDec.wrel T O WM T O W 1%R A).
Notation both_at := (@RatioRun.both_at T O WM T O W 1%R A).
Notation Qs := (@RatioRun.Qs T O WM T O W 1%R A).

Lemma rres_ok {X Y} (P : X -> Y -> Prop) m b : rres P m (Ok b) -> exists a, m = Ok a /\ P a b.
Proof. destruct m; simpl; try contradiction. eauto. Qed.

Lemma fr_limited fuel limit k d d' st e : (limit <= INT_MAX)%Z -> wrel [] d d' -> step_limited fuel limit k d' = Ok (st, e) -> fr d' e.
Proof.
  intros Hl H E. unfold step_limited in E. destruct (step_start k d') as [[cost d1]| | | |] eqn:E1; cbn [bind] in E; try discriminate.
  pose proof (rel_step_start 1%R Rlt_0_1 A k d d' H) as R1. rewrite E1 in R1. apply rres_ok in R1. destruct R1 as ([c1 d2] & _ & Ec & Co & H1). cbn [fst snd] in *.
  destruct (step_loop fuel fuel cost limit k d1) as [[s1 d3]| | | |] eqn:E2; cbn [bind] in E; try discriminate.
  apply (fr_trans _ d1); [exact (fr_start _ _ _ _ E1)|]. apply (fr_trans _ d3); [|exact (fr_finish _ _ _ _ _ _ E)].
  apply (fr_loop fuel cost k ltac:(rewrite <- Ec; exact Co) fuel limit d1 s1 d3 Hl); [apply H1|exact E2].
Qed.

Lemma fr_unlimited fuel cost k : cost_ok cost -> forall rounds limit d d' st e, (limit <= INT_MAX)%Z -> wrel [] d d' ->
  step_unlimited rounds fuel cost limit k d' = Ok (st, e) -> fr d' e.
Proof.
  intro Co. induction rounds as [|rounds IH]; intros limit d d' st e Hl H E; [discriminate|]. cbn [step_unlimited] in E.
  destruct (step_limited fuel limit k d') as [[s1 d1]| | | |] eqn:E1; cbn [bind] in E; try discriminate.
  pose proof (fr_limited fuel limit k d d' s1 d1 Hl H E1) as F.
  pose proof (rel_step_limited 1%R Rlt_0_1 A fuel limit k d d' Hl H) as R1. rewrite E1 in R1. apply rres_ok in R1. destruct R1 as ([s2 d2] & _ & _ & H1). cbn [fst snd] in *.
  assert (Done : Ok (s1, d1) = Ok (st, e) -> fr d' e) by (intro Q; injection Q as _ <-; exact F).
  destruct (dst_result s1); try (apply Done; exact E).
  destruct cost as [m|]; (destruct (Z.leb_spec (2 * (limit + 1)) INT_MAX); [|discriminate]); apply (fr_trans _ d1 _ F); (eapply IH; [|exact H1|exact E]); [apply Co|assumption].
Qed.

Lemma fr_step fuel limit k d d' st e : (limit <= INT_MAX)%Z -> wrel [] d d' -> decomposition_step fuel limit k d' = Ok (st, e) -> fr d' e.
Proof.
  intros Hl H E. unfold decomposition_step in E. destruct (Z.eqb limit (-1)); [|exact (fr_limited _ _ _ _ _ _ _ Hl H E)].
  destruct (step_start k d') as [[cost d1]| | | |] eqn:E1; cbn [bind] in E; try discriminate.
  pose proof (rel_step_start 1%R Rlt_0_1 A k d d' H) as R1. rewrite E1 in R1. apply rres_ok in R1. destruct R1 as ([c1 d2] & _ & Ec & Co & H1). cbn [fst snd] in *.
  apply (fr_trans _ d1); [exact (fr_start _ _ _ _ E1)|]. refine (fr_unlimited fuel cost k ltac:(rewrite <- Ec; exact Co) fuel 0 d2 d1 st e _ H1 E). unfold INT_MAX. lia.
Qed.

Section Target.
Variable target : cview T -> bool.
Hypothesis Htarget : forall v v', vrel 1%R v v' -> target v = target v'.

Lemma fr_comp_decompose fuel limit : (limit <= INT_MAX)%Z -> forall rounds k d d' b e, wrel [] d d' ->
  comp_decompose rounds fuel target limit k d' = Ok (b, e) -> fr d' e.
Proof.
  intro Hl. induction rounds as [|rounds IH]; intros k d d' b e H E; [discriminate|]. cbn [comp_decompose] in E.
  destruct (comp_view d' k) as [v| | | |]; cbn [bind] in E; try discriminate. destruct (target v); [injection E as _ <-; apply fr_refl|].
  destruct (decomposition_step fuel limit k d') as [[st d1]| | | |] eqn:E1; cbn [bind] in E; try discriminate.
  pose proof (fr_step fuel limit k d d' st d1 Hl H E1) as F.
  pose proof (rel_decomposition_step 1%R Rlt_0_1 A fuel limit k d d' Hl H) as R1. rewrite E1 in R1. apply rres_ok in R1. destruct R1 as ([s2 d2] & _ & _ & H1). cbn [fst snd] in *.
  apply (fr_trans _ d1 _ F).
  assert (G : ('(ok1, d0) <- match dst_additional st with Some c' => comp_decompose rounds fuel target limit c' d1 | None => Ok (true, d1) end ;;
     '(ok2, d0) <- comp_decompose rounds fuel target limit k d0 ;; Ok (ok1 && ok2, d0)) = Ok (b, e) -> fr d1 e).
  { clear E. destruct (dst_additional st) as [c'|].
    - destruct (comp_decompose rounds fuel target limit c' d1) as [[o f]| | | |] eqn:E2; cbn [bind]; try discriminate.
      pose proof (rel_comp_decompose 1%R Rlt_0_1 A target target Htarget fuel limit Hl rounds c' d2 d1 H1) as R2. rewrite E2 in R2.
      apply rres_ok in R2. destruct R2 as ([o2 f2] & _ & _ & H2). cbn [fst snd] in *.
      destruct (comp_decompose rounds fuel target limit k f) as [[o3 f3]| | | |] eqn:E3; cbn [bind]; try discriminate. intro Q. injection Q as _ <-.
      apply (fr_trans _ f); [exact (IH _ _ _ _ _ H1 E2)|exact (IH _ _ _ _ _ H2 E3)].
    - cbn [bind]. destruct (comp_decompose rounds fuel target limit k d1) as [[o3 f3]| | | |] eqn:E3; cbn [bind]; try discriminate. intro Q. injection Q as _ <-.
      exact (IH _ _ _ _ _ H1 E3). }
  destruct (dst_result st); [injection E as _ <-; apply fr_refl|exact (G E)..].
Qed.

Lemma fr_decompose_all rounds fuel limit : (limit <= INT_MAX)%Z -> forall cs d d' b e, wrel [] d d' ->
  decompose_all rounds fuel target limit cs d' = Ok (b, e) -> fr d' e.
Proof.
  intro Hl. induction cs as [|k cs IH]; intros d d' b e H E; cbn [decompose_all] in E; [injection E as _ <-; apply fr_refl|].
  destruct (comp_decompose rounds fuel target limit k d') as [[o f]| | | |] eqn:E2; cbn [bind] in E; try discriminate.
  pose proof (fr_comp_decompose fuel limit Hl rounds k d d' o f H E2) as F.
  pose proof (rel_comp_decompose 1%R Rlt_0_1 A target target Htarget fuel limit Hl rounds k d d' H) as R2. rewrite E2 in R2.
  apply rres_ok in R2. destruct R2 as ([o2 f2] & _ & _ & H2). cbn [fst snd] in *.
  destruct o; [|injection E as _ <-; exact F]. exact (fr_trans _ f _ F (IH _ _ _ _ H2 E)).
Qed.
End Target.

Lemma fr_dcall k d d' a e : dcall_legal k -> wrel [] d d' -> do_dcall k d' = Ok (a, e) -> fr d' e.
Proof.
  intros Lg H E. destruct k as [fuel limit x|rounds fuel target limit|he ls rs]; cbn [do_dcall] in *.
  - destruct (decomposition_step fuel limit x d') as [[st f]| | | |] eqn:E1; cbn [bind] in E; try discriminate. injection E as _ <-.
    exact (fr_step _ _ _ _ _ _ _ (proj2 Lg) H E1).
  - destruct (decompose rounds fuel _ limit d') as [[st f]| | | |] eqn:E1; cbn [bind] in E; try discriminate. injection E as _ <-.
    refine (fr_decompose_all (fun v => target (look_at v)) _ rounds fuel limit (proj2 Lg) _ _ _ _ _ H E1).
    intros v v' V. f_equal. unfold look_at. destruct V. congruence.
  - destruct (inject d' he ls rs) as [[[l r] f]| | | |] eqn:E1; cbn [bind] in E; try discriminate. injection E as _ <-.
    unfold inject in E1. destruct (dec_check d'); cbn [bind] in E1; try discriminate. destruct (conns_at d' _); cbn [bind] in E1; try discriminate.
    destruct (_ || _); cbn [assert_] in E1; [|discriminate]. destruct (_ || _); cbn [assert_] in E1; [|discriminate].
    destruct (dec_check _); cbn [bind] in E1; try discriminate. injection E1 as _ _ <-. apply fr_same; reflexivity.
Qed.

(** * The things of a part *)

Lemma with_lengths_same (d : decomp T) : with_lengths d (d_len d) = d.
Proof. destruct d. reflexivity. Qed.

Definition used_by (x : thing T) : list label := match x with an_iet i => i_top i | a_dec d => d_keys d end.

Definition thing_rel (s s' : slen T) (x x' : thing T) : Prop :=
  match x, x' with
  | an_iet i, an_iet i' => both_at s' i i'
  | a_dec d, a_dec d' => wrel [] (with_lengths d s) (with_lengths d' s')
  | _, _ => False
  end.

Record part_rel (l : list (thing T)) (s : slen T) (l' : list (thing T)) (s' : slen T) : Prop := {
  pr_lens : Qs s s';
  pr_things : Forall2 (thing_rel s s') l l';
  pr_nodup : NoDup (flat_map used_by l');
  pr_in : Forall A (flat_map used_by l');
}.

Lemma sound_frame (d : decomp T) s s' : sound [] (with_lengths d s) -> sl_stack s' = [] -> length (sl_lens s') = length (sl_lens s) ->
  (forall l, In l (d_keys d) -> nth_error (sl_lens s') l = nth_error (sl_lens s) l) -> sound [] (with_lengths d s').
Proof.
  intros [S1 S2 S3 S4] St Le Fr. constructor; auto. intros i Hi. destruct (S2 i Hi) as [G Sw]. split; [|exact Sw].
  apply (good_frame i s s' G St Le). intros l Hl. apply Fr, S4. apply in_flat_map. exists i. auto.
Qed.

Lemma wrel_frame d d' s s' t t' : wrel [] (with_lengths d s) (with_lengths d' s') -> Qs t t' -> length (sl_lens t') = length (sl_lens s') ->
  (forall l, In l (d_keys d') -> nth_error (sl_lens t') l = nth_error (sl_lens s') l) -> wrel [] (with_lengths d t) (with_lengths d' t').
Proof.
  intros (D & So & Li & _) HQ Le Fr. destruct (Qs_base _ _ _ _ HQ) as (_ & _ & St).
  pose proof (sound_frame d' s' t' So St Le Fr) as So'. split; [|split; [exact So'|split; [|constructor]]].
  - destruct D as (_ & D2 & D3 & D4). split; [exact HQ|]. split; [exact D2|]. split; [exact D3|]. destruct D4. constructor; assumption.
  - unfold linked in *. cbn [with_lengths d_comps d_len] in *. eapply Forall2_all; [exact Li|]. intros x x' Hx' L.
    apply (link_frame 1%R A (dc_iet x) (dc_iet x') s' t' L St Le). intros l Hl. apply Fr. apply (so_keys _ _ So).
    rewrite app_nil_r. apply in_flat_map. exists (dc_iet x'). split; [apply in_map; exact Hx'|exact Hl].
Qed.

Lemma thing_frame x x' s s' t t' : thing_rel s s' x x' -> Qs t t' -> length (sl_lens t') = length (sl_lens s') ->
  (forall l, In l (used_by x') -> nth_error (sl_lens t') l = nth_error (sl_lens s') l) -> thing_rel t t' x x'.
Proof.
  intros H HQ Le Fr. destruct x as [i|d], x' as [i'|d']; try contradiction; cbn [thing_rel used_by] in *.
  - apply (both_frame 1%R A s' t'); [exact H|apply (Qs_base _ _ _ _ HQ)|exact Le|exact Fr].
  - exact (wrel_frame d d' s s' t t' H HQ Le Fr).
Qed.

(** What happened to lengths that do not belong to the part. *)
Definition outside (s' t' : slen T) : Prop :=
  sl_stack t' = [] /\ length (sl_lens t') = length (sl_lens s') /\ forall l, ~ A l -> nth_error (sl_lens t') l = nth_error (sl_lens s') l.

Definition same_task (p p' : reply * list (thing T) * slen T) (s' : slen T) : Prop :=
  fst (fst p) = fst (fst p') /\ part_rel (snd (fst p)) (snd p) (snd (fst p')) (snd p') /\ outside s' (snd p').

Lemma nth_cut {X} (l : list X) n x : nth_error l n = Some x -> l = firstn n l ++ x :: skipn (S n) l.
Proof. revert n. induction l as [|y l IH]; intros [|n] E; try discriminate; cbn in *; [congruence|]. f_equal. apply IH, E. Qed.

(** One thing is replaced by others that only use its labels. *)
Lemma part_put l s l' s' n x x' new new' t t' : part_rel l s l' s' -> nth_error l n = Some x -> nth_error l' n = Some x' ->
  Qs t t' -> length (sl_lens t') = length (sl_lens s') ->
  (forall c, ~ In c (used_by x') -> nth_error (sl_lens t') c = nth_error (sl_lens s') c) ->
  Forall2 (thing_rel t t') new new' -> NoDup (flat_map used_by new') -> incl (flat_map used_by new') (used_by x') ->
  part_rel (put n l new) t (put n l' new') t' /\ outside s' t'.
Proof.
  intros [H1 H2 H3 H4] En En' HQ Le Fr Hn Nn In_. 
  assert (Ax : Forall A (used_by x')) by (apply Forall_forall; intros c Hc; rewrite Forall_forall in H4; apply H4; apply in_flat_map; exists x'; split; [exact (nth_error_In _ _ En')|exact Hc]).
  rewrite (nth_cut l' n x' En') in H3, H4.
  pose proof (Forall2_firstn _ n _ _ H2) as P1. pose proof (Forall2_skipn _ (S n) _ _ H2) as P2.
  set (l1 := firstn n l') in *. set (l2 := skipn (S n) l') in *.
  rewrite flat_map_app in H3, H4. cbn [flat_map] in H3, H4.
  apply NoDup_app_inv in H3. destruct H3 as (N1 & N2 & N3). apply NoDup_app_inv in N2. destruct N2 as (N4 & N5 & N6).
  apply Forall_app in H4. destruct H4 as (A1 & A2). apply Forall_app in A2. destruct A2 as (_ & A3).
  split.
  - constructor.
    + exact HQ.
    + unfold put. fold l1 l2. apply Forall2_app; [|apply Forall2_app; [exact Hn|]].
      * eapply Forall2_all; [exact P1|]. intros y y' Hy R. apply (thing_frame y y' s s' t t' R HQ Le). intros c Hc. apply Fr. intro Hx.
        apply (N3 c); [apply in_flat_map; exists y'; auto|apply in_or_app; left; exact Hx].
      * eapply Forall2_all; [exact P2|]. intros y y' Hy R. apply (thing_frame y y' s s' t t' R HQ Le). intros c Hc. apply Fr. intro Hx.
        apply (N6 c Hx). apply in_flat_map. exists y'. auto.
    + unfold put. fold l1 l2. rewrite !flat_map_app. apply NoDup_app_intro; [exact N1|apply NoDup_app_intro; [exact Nn|exact N5|]|].
      * intros c Hc Hd. exact (N6 c (In_ c Hc) Hd).
      * intros c Hc Hd. apply (N3 c Hc). apply in_app_or in Hd. apply in_or_app. destruct Hd as [Hd|Hd]; [left; exact (In_ c Hd)|right; exact Hd].
    + unfold put. fold l1 l2. rewrite !flat_map_app. apply Forall_app. split; [exact A1|]. apply Forall_app. split; [|exact A3].
      apply Forall_forall. intros c Hc. rewrite Forall_forall in Ax. apply Ax, In_, Hc.
  - split; [apply (Qs_base _ _ _ _ HQ)|]. split; [exact Le|]. intros c Hc. apply Fr. intro Hx. apply Hc. rewrite Forall_forall in Ax. apply Ax, Hx.
Qed.

Lemma used_iets l : flat_map used_by (map an_iet l) = @used T l.
Proof. induction l as [|i l IH]; [reflexivity|]. cbn [map flat_map used_by]. rewrite IH. reflexivity. Qed.

Lemma rel_task t l s l' s' : task_legal t -> part_rel l s l' s' -> rres (fun p p' => same_task p p' s') (do_task t l s) (do_task t l' s').
Proof.
  intros Lg H. pose proof (pr_things _ _ _ _ H) as F. pose proof (pr_lens _ _ _ _ H) as HQ.
  destruct t as [n o|n|n k]; cbn [do_task]; pose proof (Forall2_nth _ _ _ F n) as G;
    (destruct (nth_error l n) as [[i|d]|] eqn:En, (nth_error l' n) as [[i'|d']|] eqn:En'; try contradiction; try exact I); cbn [thing_rel] in G.
  - apply (rres_bind _ _ _ _ _ _ (rres_eqn _ _ _ (rel_call 1%R Rlt_0_1 A o i i' s s' G HQ))).
    intros [[[a j] x] t] [[[a' j'] x'] t'] ((E & J & X & Ht) & _ & Ec). cbn [fst snd] in *. subst a'.
    pose proof (link_good _ _ _ _ _ (proj2 G)) as Gi. pose proof (call_run _ _ _ _ _ _ _ Ec) as Er.
    destruct (op_ok o i' s' Gi Lg) as [Bad|(i2 & x2 & s2 & Er2 & Ef)].
    { exfalso. rewrite Er in Bad. destruct o; cbn [failure] in Bad; try contradiction; destruct Bad as [[Bad _]|[Bad _]]; discriminate. }
    rewrite Er in Er2. injection Er2 as <- <- <-. split; [reflexivity|]. cbn [fst snd].
    apply (part_put l s l' s' n (an_iet i) (an_iet i')); auto.
    + exact (ef_len _ _ _ _ _ Ef).
    + exact (ef_frame _ _ _ _ _ Ef).
    + constructor; [exact J|]. clear -X. induction X; constructor; auto.
    + change (an_iet j' :: map an_iet x') with (map an_iet (j' :: x')). rewrite used_iets. exact (ef_nodup _ _ _ _ _ Ef).
    + change (an_iet j' :: map an_iet x') with (map an_iet (j' :: x')). rewrite used_iets. exact (ef_incl _ _ _ _ _ Ef).
  - apply (rres_bind _ _ _ _ _ _ (rres_eqn _ _ _ (rel_make 1%R Rlt_0_1 A i i' s s' (proj1 G) HQ (link_good _ _ _ _ _ (proj2 G))))).
    intros d d' (R & Ed & Ed'). split; [reflexivity|]. cbn [fst snd].
    assert (Sh : forall j (u : slen T) (e : decomp T), dec_make j u = Ok e -> d_len e = u /\ d_keys e = i_top j).
    { clear. intros j u e E. unfold dec_make in E. destruct (iet_make _ _ _); cbn [bind] in E; try discriminate. injection E as <-. auto. }
    destruct (Sh _ _ _ Ed) as (L1 & _). destruct (Sh _ _ _ Ed') as (L2 & K2).
    apply (part_put l s l' s' n (an_iet i) (an_iet i')); auto.
    + constructor; [|constructor]. cbn [thing_rel]. rewrite <- L1 at 1. rewrite <- L2 at 1. rewrite !with_lengths_same. exact R.
    + cbn [flat_map used_by]. rewrite app_nil_r, K2. destruct G as [J _]. rewrite (ir_top _ _ _ J). apply J.
    + cbn [flat_map used_by]. rewrite app_nil_r, K2. apply incl_refl.
  - apply (rres_bind _ _ _ _ _ _ (rres_eqn _ _ _ (rel_dcall 1%R Rlt_0_1 A k _ _ Lg G))).
    intros [a e] [a' e'] ((E & R) & _ & Ed'). cbn [fst snd] in *. subst a'. split; [reflexivity|]. cbn [fst snd].
    pose proof (fr_dcall k _ _ _ _ Lg G Ed') as [K L Fo]. cbn [with_lengths d_keys d_len] in *.
    assert (Nk : NoDup (d_keys d')).
    { pose proof (pr_nodup _ _ _ _ H) as N. rewrite (nth_cut l' n _ En'), flat_map_app in N. cbn [flat_map used_by] in N.
      apply NoDup_app_inv in N. destruct N as (_ & N & _). apply NoDup_app_inv in N. apply N. }
    apply (part_put l s l' s' n (a_dec d) (a_dec d')); auto.
    + exact (proj1 (proj1 R)).
    + constructor; [|constructor]. cbn [thing_rel]. rewrite !with_lengths_same. exact R.
    + cbn [flat_map used_by]. rewrite app_nil_r, K. exact Nk.
    + cbn [flat_map used_by]. rewrite app_nil_r, K. apply incl_refl.
Qed.

(** Somebody else does something. *)
Lemma part_outside l s l' s' t' : part_rel l s l' s' -> sl_stack t' = [] -> length (sl_lens t') = length (sl_lens s') ->
  (forall c, A c -> nth_error (sl_lens t') c = nth_error (sl_lens s') c) -> part_rel l s l' t'.
Proof.
  intros [H1 H2 H3 H4] St Le Fr. assert (HQ : Qs s t').
  { destruct H1 as [[D E] F]. split; [|exact F]. constructor; [|rewrite St, F; reflexivity].
    intros c Hc. rewrite (Fr c Hc). exact (D c Hc). }
  constructor; auto. eapply Forall2_all; [exact H2|]. intros x x' Hx R. apply (thing_frame x x' s s' s t' R HQ Le).
  intros c Hc. apply Fr. rewrite Forall_forall in H4. apply H4. apply in_flat_map. exists x'. auto.
Qed.

(** What one can see. *)
Lemma near_same s s' c : Qs s s' -> A c -> sl_at s' c = sl_at s c.
Proof.
  intros HQ Hc. destruct (Qs_base _ _ _ _ HQ) as (B & _). destruct (B c Hc) as (x & y & E & E' & R & _). unfold sl_at. rewrite E, E'.
  f_equal. apply val_inj. unfold rv in R. rewrite R. cbn [mval WM mixed_of_uniform]. ring.
Qed.

Lemma part_seen l s l' s' : part_rel l s l' s' -> Forall2 (looks_same s s') l l'.
Proof.
  intros H. pose proof (pr_lens _ _ _ _ H) as HQ. pose proof (pr_things _ _ _ _ H) as F. clear H.
  induction F as [|x x' l l' R F IH]; constructor; [|exact IH]. destruct x as [i|d], x' as [i'|d']; try contradiction; cbn [thing_rel looks_same] in *.
  - destruct R as [J _]. split; [apply J|]. split; [apply J|]. split; [apply J|]. apply map_ext_in. intros c Hc. apply near_same; [exact HQ|].
    pose proof (ir_in _ _ _ J) as Fa. rewrite Forall_forall in Fa. apply Fa, Hc.
  - pose proof (rel_views 1%R A _ _ (proj1 R)) as V. destruct (views (with_lengths d s)) as [v| | | |], (views (with_lengths d' s')) as [v'| | | |]; simpl in V; try contradiction; try reflexivity.
    f_equal. clear -V. induction V as [|x y v v' [H1 H2] V IH]; [reflexivity|]. f_equal; [|exact IH].
    assert (L : cv_lengths y = cv_lengths x).
    { clear -H2. induction H2 as [|a b m m' E F IH]; [reflexivity|]. f_equal; [|exact IH]. apply val_inj. rewrite E. cbn [mval WM mixed_of_uniform]. ring. }
    destruct x, y. unfold look_at in H1. cbn in *. injection H1. intros. subst. reflexivity.
Qed.
End Part.

(** * All parts *)

Section World.
Context {T : Type} {O : LenOps T} {W : LenLaws T}.
Variable As : list (list label).
Hypothesis Disjoint : NoDup (concat As).

Lemma concat_apart : forall (Bs : list (list label)) j k a b c, NoDup (concat Bs) -> nth_error Bs j = Some a -> nth_error Bs k = Some b -> j <> k -> In c a -> ~ In c b.
Proof.
  induction Bs as [|B Bs IH]; intros j k a b c N Ej Ek Njk Ha Hb; [destruct j; discriminate|]. cbn [concat] in N. apply NoDup_app_inv in N. destruct N as (_ & N & Ap).
  destruct j as [|j], k as [|k]; cbn in Ej, Ek.
  - congruence.
  - injection Ej as ->. apply (Ap c Ha). apply in_concat. exists b. split; [exact (nth_error_In _ _ Ek)|exact Hb].
  - injection Ek as ->. apply (Ap c Hb). apply in_concat. exists a. split; [exact (nth_error_In _ _ Ej)|exact Ha].
  - exact (IH j k a b c N Ej Ek ltac:(congruence) Ha Hb).
Qed.

Definition world_rel (X : nat -> list (thing T) * slen T) (L : list (list (thing T))) (s' : slen T) : Prop :=
  forall k l', nth_error L k = Some l' -> exists a, nth_error As k = Some a /\ part_rel (fun c => In c a) (fst (X k)) (snd (X k)) l' s'.

Definition set_at (X : nat -> list (thing T) * slen T) (k : nat) y : nat -> list (thing T) * slen T := fun j => if Nat.eqb j k then y else X j.

Lemma nth_replace {Y} (L : list Y) k y j : k < length L ->
  nth_error (firstn k L ++ y :: skipn (S k) L) j = if Nat.eqb j k then Some y else nth_error L j.
Proof.
  revert k j. induction L as [|x L IH]; intros k j Hk; [cbn in Hk; lia|]. destruct k as [|k]; cbn [firstn skipn app].
  - destruct j; reflexivity.
  - destruct j as [|j]; [reflexivity|]. cbn [nth_error Nat.eqb]. apply IH. cbn in Hk. lia.
Qed.
Lemma length_replace {Y} (L : list Y) k y : k < length L -> length (firstn k L ++ y :: skipn (S k) L) = length L.
Proof. intro H. rewrite app_length, firstn_length. cbn [length]. rewrite skipn_length. lia. Qed.

Lemma world_task X L s' k l' t : world_rel X L s' -> nth_error L k = Some l' -> task_legal t ->
  rres (fun p p' => fst (fst p) = fst (fst p') /\ world_rel (set_at X k (snd (fst p), snd p)) (firstn k L ++ snd (fst p') :: skipn (S k) L) (snd p'))
    (do_task t (fst (X k)) (snd (X k))) (do_task t l' s').
Proof.
  intros HW El Lg. destruct (HW k l' El) as (a & Ea & H). assert (Hk : k < length L) by (apply nth_error_Some; congruence).
  eapply rres_mono; [exact (rel_task (fun c => In c a) t _ _ _ _ Lg H)|]. intros [[r l1] s1] [[r' l1'] s1'] (E & H1 & Ou & Le & Fr). cbn [fst snd] in *.
  split; [exact E|]. intros j y Hj. rewrite nth_replace in Hj by exact Hk. unfold set_at. destruct (Nat.eqb_spec j k) as [->|N].
  - injection Hj as <-. exists a. split; [exact Ea|exact H1].
  - destruct (HW j y Hj) as (b & Eb & Hb). exists b. split; [exact Eb|]. apply (part_outside _ _ _ _ _ _ Hb Ou Le).
    intros c Hc. apply Fr. intro Ha. exact (concat_apart As j k b a c Disjoint Eb Ea N Hc Ha).
Qed.

Lemma part_of_same {Y} k (y : Y) p : part_of k ((k, y) :: p) = y :: part_of k p.
Proof. unfold part_of. cbn [filter fst]. rewrite Nat.eqb_refl. reflexivity. Qed.
Lemma part_of_other {Y} j k (y : Y) p : j <> k -> part_of j ((k, y) :: p) = part_of j p.
Proof. intro N. unfold part_of. cbn [filter fst]. destruct (Nat.eqb_spec k j); [congruence|reflexivity]. Qed.

Theorem together_alone : forall p X L s' rs L' t', Forall (fun x => task_legal (snd x)) p -> world_rel X L s' ->
  together p L s' = Ok (rs, L', t') ->
  length L' = length L /\ forall k a, k < length L -> nth_error As k = Some a -> exists l s l',
    alone (part_of k p) (fst (X k)) (snd (X k)) = Ok (part_of k rs, l, s) /\ nth_error L' k = Some l' /\ part_rel (fun c => In c a) l s l' t'.
Proof.
  induction p as [|[k t] p IH]; intros X L s' rs L' t' Lg HW E; cbn [together] in E.
  - injection E as <- <- <-. split; [reflexivity|]. intros k a Hk Ea. destruct (nth_error L k) as [l'|] eqn:El; [|apply nth_error_None in El; lia].
    destruct (HW k l' El) as (b & Eb & H). rewrite Ea in Eb. injection Eb as <-. exists (fst (X k)), (snd (X k)), l'. split; [reflexivity|]. split; [reflexivity|exact H].
  - destruct (nth_error L k) as [l0|] eqn:El; [|discriminate]. assert (Hk0 : k < length L) by (apply nth_error_Some; congruence).
    destruct (do_task t l0 s') as [[[r l1] s1]| | | |] eqn:Et; cbn [bind] in E; try discriminate.
    pose proof (world_task X L s' k l0 t HW El (Forall_inv Lg)) as R. rewrite Et in R. apply rres_ok in R. destruct R as ([[r2 l2] s2] & E2 & Er & HW1). cbn [fst snd] in *. subst r2.
    destruct (together p _ s1) as [[[rs1 L1] t1]| | | |] eqn:E3; cbn [bind] in E; try discriminate. injection E as <- <- <-.
    destruct (IH _ _ _ _ _ _ (Forall_inv_tail Lg) HW1 E3) as (Len & G). rewrite length_replace in Len, G by exact Hk0. split; [exact Len|].
    intros j a Hj Ea. destruct (G j a Hj Ea) as (l & s & l' & H1 & H2 & H3). exists l, s, l'. split; [|split; [exact H2|exact H3]].
    unfold set_at in H1. destruct (Nat.eqb_spec j k) as [->|N].
    + rewrite !part_of_same. cbn [alone]. rewrite E2. cbn [bind]. cbn [fst snd] in H1. rewrite H1. reflexivity.
    + rewrite !part_of_other by exact N. exact H1.
Qed.

Theorem together_fails : forall p X L s', Forall (fun x => task_legal (snd x)) p -> Forall (fun x => fst x < length L) p -> world_rel X L s' ->
  match together p L s' with
  | Ok _ => True
  | m => exists k, k < length L /\ both (fun _ _ => False) m (alone (part_of k p) (fst (X k)) (snd (X k)))
  end.
Proof.
  induction p as [|[k t] p IH]; intros X L s' Lg In_ HW; cbn [together]; [exact I|].
  pose proof (Forall_inv In_) as Hk0. cbn [fst] in Hk0. destruct (nth_error L k) as [l0|] eqn:El; [|apply nth_error_None in El; lia].
  pose proof (world_task X L s' k l0 t HW El (Forall_inv Lg)) as R.
  destruct (do_task t (fst (X k)) (snd (X k))) as [[[r2 l2] s2]| | | |] eqn:E2, (do_task t l0 s') as [[[r l1] s1]| | | |] eqn:Et; simpl in R; try contradiction; cbn [bind];
    try (exists k; split; [exact Hk0|]; rewrite part_of_same; cbn [alone]; rewrite E2; exact I).
  destruct R as (Er & HW1). subst r2.
  assert (In1 : Forall (fun x : nat * task => fst x < length (firstn k L ++ l1 :: skipn (S k) L)) p) by (rewrite length_replace by exact Hk0; exact (Forall_inv_tail In_)).
  specialize (IH _ _ _ (Forall_inv_tail Lg) In1 HW1). rewrite length_replace in IH by exact Hk0.
  assert (G : forall (m : res (list (nat * reply) * list (list (thing T)) * slen T)),
    (exists j, j < length L /\ both (fun _ _ => False) m (alone (part_of j p) (fst (set_at X k (l2, s2) j)) (snd (set_at X k (l2, s2) j)))) ->
    exists j, j < length L /\ both (fun _ _ => False) m (alone (part_of j ((k, t) :: p)) (fst (X j)) (snd (X j)))).
  { intros m (j & Hj & B). exists j. split; [exact Hj|]. unfold set_at in B. destruct (Nat.eqb_spec j k) as [->|N].
    - rewrite part_of_same. cbn [alone]. rewrite E2. cbn [bind fst snd] in *. destruct (alone (part_of k p) l2 s2) as [[[a b] c]| | | |], m; simpl in *; auto.
    - rewrite part_of_other by exact N. exact B. }
  destruct (together p _ s1) as [[[rs1 L1] t1]| | | |]; cbn [bind]; [exact I|apply (G _ IH)..].
Qed.
End World.

(** * From the start *)

Section Start.
Context {T : Type} {O : LenOps T} {W : LenLaws T}.

Lemma start_rel (ls : list T) r : valid_input (mkslen [] ls) (fst r) (snd r) ->
  exists l, start (mkslen [] ls) r = Ok l /\ part_rel (fun c => In c (fst r)) l (mkslen [] ls) l (mkslen [] ls).
Proof.
  intros V. pose proof V as (V1 & V2 & V3 & V4). destruct r as [top bottom]. cbn [fst snd] in *.
  destruct (iet_make (mkslen [] ls) top bottom) as [i| | | |] eqn:E.
  all: try (rewrite iet_make_ok in E by assumption; discriminate).
  exists [an_iet i]. unfold start. cbn [fst snd]. rewrite E. split; [reflexivity|].
  assert (HH : history [i] (mkslen [] ls)) by (apply (h_new [] _ top bottom); [constructor|exact V|intros l _ []|exact E]).
  pose proof (iet_make_shape _ _ _ _ E) as ->.
  constructor.
  - split; [|reflexivity]. constructor; [|reflexivity]. intros c Hc. destruct (V4 c Hc) as (x & Ex & Hx). exists x, x. split; [exact Ex|]. split; [exact Ex|].
    split; [unfold rv; cbn [mval WM mixed_of_uniform]; ring|]. intros _. exact Hx.
  - constructor; [|constructor]. cbn [thing_rel]. split; [apply irel_rows; auto; [apply Forall_forall; auto|exact I]|]. apply link_new; [|reflexivity]. apply (history_ok _ _ HH). left. reflexivity.
  - cbn. rewrite app_nil_r. exact V1.
  - cbn. rewrite app_nil_r. apply Forall_forall. auto.
Qed.

Lemma starts_rel (ls : list T) rs : (forall r, In r rs -> valid_input (mkslen [] ls) (fst r) (snd r)) ->
  exists L, mapM (start (mkslen [] ls)) rs = Ok L /\ length L = length rs /\
    forall k r, nth_error rs k = Some r -> exists l, nth_error L k = Some l /\ start (mkslen [] ls) r = Ok l /\ part_rel (fun c => In c (fst r)) l (mkslen [] ls) l (mkslen [] ls).
Proof.
  induction rs as [|r rs IH]; intro V.
  - exists []. split; [reflexivity|]. split; [reflexivity|]. intros [|k] r E; discriminate.
  - destruct (start_rel ls r (V r (or_introl eq_refl))) as (l & E & R). destruct IH as (L & EL & Len & H); [intros; apply V; right; assumption|].
    exists (l :: L). split; [cbn [mapM]; rewrite E; cbn [bind]; rewrite EL; reflexivity|]. split; [cbn; congruence|].
    intros [|k] r' Er; cbn in Er |- *; [injection Er as <-; exists l; auto|apply H, Er].
Qed.

Lemma start_world (ls : list T) rs L : mapM (start (mkslen [] ls)) rs = Ok L -> length L = length rs ->
  (forall k r, nth_error rs k = Some r -> exists l, nth_error L k = Some l /\ start (mkslen [] ls) r = Ok l /\ part_rel (fun c => In c (fst r)) l (mkslen [] ls) l (mkslen [] ls)) ->
  world_rel (map fst rs) (fun k => (nth k L [], mkslen [] ls)) L (mkslen [] ls).
Proof.
  intros E Len H k l El. assert (Hk : k < length rs) by (rewrite <- Len; apply nth_error_Some; congruence).
  destruct (nth_error rs k) as [r|] eqn:Er; [|apply nth_error_None in Er; lia]. destruct (H k r Er) as (l2 & El2 & _ & R). rewrite El in El2. injection El2 as <-.
  exists (fst r). split; [rewrite nth_error_map, Er; reflexivity|]. cbn [fst snd]. rewrite (nth_error_nth _ _ _ El). exact R.
Qed.

Theorem run_together_alone (ls : list T) rs p out L t : (forall r, In r rs -> valid_input (mkslen [] ls) (fst r) (snd r)) ->
  NoDup (concat (map fst rs)) -> Forall (fun x => task_legal (snd x)) p -> run_together rs p (mkslen [] ls) = Ok (out, L, t) ->
  forall k r, nth_error rs k = Some r -> exists l' s' l, run_alone r (part_of k p) (mkslen [] ls) = Ok (part_of k out, l', s') /\
    nth_error L k = Some l /\ Forall2 (looks_same s' t) l' l /\ forall c, In c (fst r) -> sl_at t c = sl_at s' c.
Proof.
  intros V D Lg E k r Er. destruct (starts_rel ls rs V) as (L0 & E0 & Len & H). unfold run_together in E. rewrite E0 in E. cbn [bind] in E.
  pose proof (start_world ls rs L0 E0 Len H) as HW. destruct (together_alone (map fst rs) D p _ L0 _ _ _ _ Lg HW E) as (_ & G).
  assert (Hk : k < length L0) by (rewrite Len; apply nth_error_Some; congruence).
  destruct (G k (fst r) Hk) as (l' & s' & l & H1 & H2 & H3); [rewrite nth_error_map, Er; reflexivity|]. cbn [fst snd] in H1.
  destruct (H k r Er) as (l0 & El0 & Es & _). rewrite (nth_error_nth _ _ _ El0) in H1.
  exists l', s', l. split; [unfold run_alone; rewrite Es; exact H1|]. split; [exact H2|]. split; [exact (part_seen _ _ _ _ _ H3)|].
  intros c Hc. exact (near_same (fun c => In c (fst r)) s' t c (pr_lens _ _ _ _ _ H3) Hc).
Qed.

Theorem run_together_fails (ls : list T) rs p : (forall r, In r rs -> valid_input (mkslen [] ls) (fst r) (snd r)) ->
  NoDup (concat (map fst rs)) -> Forall (fun x => task_legal (snd x)) p -> Forall (fun x => fst x < length rs) p ->
  match run_together rs p (mkslen [] ls) with
  | Ok _ => True
  | m => exists k r, nth_error rs k = Some r /\ both (fun _ _ => False) m (run_alone r (part_of k p) (mkslen [] ls))
  end.
Proof.
  intros V D Lg In_. destruct (starts_rel ls rs V) as (L0 & E0 & Len & H). unfold run_together. rewrite E0. cbn [bind].
  pose proof (start_world ls rs L0 E0 Len H) as HW. rewrite <- Len in In_.
  pose proof (together_fails (map fst rs) D p _ L0 _ Lg In_ HW) as G. cbn [fst snd] in G.
  assert (F : forall m : res (list (nat * reply) * list (list (thing T)) * slen T),
    (exists k, k < length L0 /\ both (fun _ _ => False) m (alone (part_of k p) (nth k L0 []) (mkslen [] ls))) ->
    exists k r, nth_error rs k = Some r /\ both (fun _ _ => False) m (run_alone r (part_of k p) (mkslen [] ls))).
  { intros m (k & Hk & B). rewrite Len in Hk. destruct (nth_error rs k) as [r|] eqn:Er; [|apply nth_error_None in Er; lia].
    exists k, r. split; [exact Er|]. destruct (H k r Er) as (l0 & El0 & Es & _). rewrite (nth_error_nth _ _ _ El0) in B. unfold run_alone. rewrite Es. exact B. }
  destruct (together p L0 (mkslen [] ls)) as [x| | | |]; [exact I|apply (F _ G)..].
Qed.
End Start.
