(** What can be seen of a decomposition with injected connections. *)
From Coq Require Import Reals Permutation Lia Lra.
From Verif Require Import Base QcTac Spec LenT FM Subspace Lengths IET Api ZorichProof ReduceProof Saf Dyn Path Direct InduceProof InduceCons World.
From Verif Require Import Decomp SpecDec DecompSim DecompInv DecompNav DecompRef DecompStep DecompCons DecompAll DecApi DecompBudget InjApi Twin TwinDec InjRel InjStep InjHist ClaimsDecomp.
Open Scope nat_scope.

Section More.
Context {T : Type} {O : LenOps T} {W : LenLaws T}.

(** Without injections *)
Lemma plain_link (i : iet T) s tr d : decomposition i s tr d -> link i s [] d d /\ Permutation (rights d) (reported tr).
Proof.
  induction 1 as [d Hi E|tr d fuel limit c st d' H [LK P] HL Hc E].
  - split; [apply link_new; assumption|]. destruct (made_ok i s d Hi E) as (_ & _ & _ & _ & Ec). unfold rights. rewrite Ec. cbn. rewrite flat_map_nil; [constructor|reflexivity].
  - destruct (big_step _ _ _ _ _ E) as (f & Hf & E2).
    pose proof (link_step i s [] d d tr f limit c H LK HL Hc Hf) as Q. rewrite E2 in Q. destruct Q as (_ & Q2 & Q3). cbn [fst snd] in *.
    split; [exact Q2|]. unfold reports in Q3. rewrite Q3, reported_snoc, P. apply Permutation_app_comm.
Qed.

Section Seen.
Variables (i : iet T) (s : slen T) (J : list injection) (tr0 : list dstep) (d d2 : decomp T).
Hypothesis Hh : decomposition i s tr0 d.
Hypothesis LK : link i s J d d2.

Let Hd : dec_ok (exch_of i s) d := history_ok _ _ _ _ Hh.
Let HK : rel (i_top i) (behind_top J) (behind_bottom J) (injected_lefts J) (injected_rights J) (live (pieces d)) (d_conns d) (d_conns d2).
Proof. apply LK. Qed.
Let K1 : d_keys d = i_top i.
Proof. exact (history_keys _ _ _ _ Hh). Qed.
Let K2 : d_keys d2 = i_top i.
Proof. rewrite <- K1. symmetry. apply LK. Qed.

Lemma seen_rights : Permutation (rights d2) (injected_rights J ++ map (stretch J) (rights d)).
Proof. unfold rights. rewrite K1, K2. exact (rl_right _ _ _ _ _ _ _ _ HK). Qed.

Lemma seen_lefts : Permutation (lefts d2) (injected_lefts J ++ map (stretch J) (lefts d)).
Proof.
  destruct (rl_left _ _ _ _ _ _ _ _ HK) as (g & G1 & G2). rewrite <- G2. unfold lefts. rewrite K1, K2. clear - G1.
  induction (i_top i) as [|l ks IH]; [constructor|]. cbn [flat_map]. rewrite !map_app.
  destruct (G1 l (or_introl eq_refl)) as [P1 P2]. rewrite IH by (intros m Hm; apply G1; right; exact Hm).
  apply il_perm in P1, P2. rewrite P1, P2. unfold left_conns. change (farc (behind_top J) (behind_bottom J)) with (stretch J).
  apply (Permutation_count_occ conn_dec). intro x. rewrite !count_occ_app. lia.
Qed.

Lemma seen_left c l top : In l (i_top i) -> exists a ls, he_left d (mkhe c l top) = Ok ls /\
  incl a (injected_lefts J) /\ exists ls2, he_left d2 (mkhe c l top) = Ok ls2 /\ interleaved a (map (stretch J) ls) ls2.
Proof.
  intro Hl. destruct (rl_left _ _ _ _ _ _ _ _ HK) as (g & G1 & G2). destruct (G1 l Hl) as [P1 P2].
  exists (if top then topLeft (g l) else bottomLeft (g l)), (lft d l top). split; [apply he_left_ok; rewrite K1; exact Hl|]. split.
  - intros k Hk. apply (Permutation_in _ G2). apply in_flat_map. exists l. split; [exact Hl|]. unfold left_conns. apply in_or_app. destruct top; auto.
  - exists (lft d2 l top). split; [apply he_left_ok; rewrite K2; exact Hl|]. unfold lft. destruct top; assumption.
Qed.

Lemma toplinks_chained ys t : chained (hd t ys) (toplinks ys t) t.
Proof.
  destruct ys as [|y r]; [constructor|]. cbn [hd toplinks]. pose proof (chained_links y (r ++ [t])) as Q. rewrite last_snoc in Q. exact Q.
Qed.

Lemma seen_top c x l : component d c x -> In l (i_top (dc_iet x)) ->
  exists cs, he_right d2 (mkhe c l true) = Ok cs /\ chained (hd l (behind_top J l)) cs l /\
    sep_at_top d2 l = Ok (stretched J (mksep l ANTIPARALLEL)).
Proof.
  intros Hx Hl. pose proof (row_live _ _ _ _ true _ Hd Hx Hl) as Lv.
  assert (Kl : In l (d_keys d2)) by (rewrite K2; apply (live_keys _ _ Hd); exact Lv).
  exists (toplinks (behind_top J l) l). split; [rewrite (he_right_ok d2 c l true Kl); unfold rgt; rewrite (rl_top _ _ _ _ _ _ _ _ HK l Lv); reflexivity|].
  split; [apply toplinks_chained|]. unfold sep_at_top. rewrite (conns_at_ok d2 l Kl). cbn [bind].
  rewrite (rl_top _ _ _ _ _ _ _ _ HK l Lv). apply skip_toplinks.
Qed.

Lemma seen_bottom c x l : component d c x -> In l (i_bottom (dc_iet x)) ->
  exists cs r, he_right d2 (mkhe c l false) = Ok cs /\ chained l cs r /\
    (exists rest, map (fun k => sp_label (cn_target k)) cs = behind_bottom J l ++ rest) /\
    sep_at_bottom d2 l = Ok (mksep r PARALLEL) /\
    forall A n B, i_bottom (dc_iet x) = A ++ l :: n :: B -> forall s0, sep_at_bottom d l = Ok s0 -> mksep r PARALLEL = stretched J s0.
Proof.
  intros Hx Hl. pose proof (row_live _ _ _ _ false _ Hd Hx Hl) as Lv.
  assert (Kl : In l (d_keys d2)) by (rewrite K2; apply (live_keys _ _ Hd); exact Lv).
  assert (Kl' : In l (d_keys d)) by (rewrite K1, <- K2; exact Kl).
  destruct (component_mid _ _ _ Hx) as (C1 & C2 & HD & Ec).
  pose proof (comp_perm _ d Hd C1 C2 x HD) as Pm.
  assert (Ht : In l (i_top (dc_iet x))) by exact (Permutation_in _ (Permutation_sym Pm) Hl).
  destruct (dk_inv _ _ Hd) as (D & CI).
  assert (He : In (exch_of (dc_iet x) (d_len d)) (pieces d)).
  { apply (in_map (fun x => exch_of (dc_iet x) (d_len d))). rewrite HD. apply in_middle. auto. }
  pose proof (ci_chain _ _ _ _ CI _ l He Ht) as Eb.
  set (ch := D l ++ tail_of (lst (e_top (exch_of i s))) (exch_of (dc_iet x) (d_len d)) l) in *.
  pose proof (rel_chain _ _ _ _ _ _ _ _ HK l ch Lv Eb) as Eb2.
  set (ch2 := behind_bottom J l ++ flat_map (ext (behind_top J) (behind_bottom J) (live (pieces d))) ch) in *.
  exists (links l ch2), (last ch2 l). split; [rewrite (he_right_ok d2 c l false Kl); unfold rgt; rewrite Eb2; reflexivity|].
  split; [apply chained_links|]. split.
  { exists (flat_map (ext (behind_top J) (behind_bottom J) (live (pieces d))) ch). fold ch2. clearbody ch2. clear.
    revert l. induction ch2 as [|y r IH]; intro l; [reflexivity|]. cbn [links map]. rewrite IH. reflexivity. }
  split; [unfold sep_at_bottom; rewrite (conns_at_ok d2 l Kl); cbn [bind]; rewrite Eb2; apply skip_links|].
  intros A n B Er s0 E0. unfold sep_at_bottom in E0. rewrite (conns_at_ok d l Kl') in E0. cbn [bind] in E0. rewrite Eb, skip_links in E0. injection E0 as <-.
  assert (Z : ch = D l).
  { unfold ch, tail_of. destruct (Nat.eqb_spec l (lst (e_bot (exch_of (dc_iet x) (d_len d))))) as [El|]; [|apply app_nil_r]. exfalso.
    pose proof (Permutation_NoDup Pm (comp_nodup _ d Hd C1 C2 x HD)) as N. cbn [exch_of e_bot] in El. rewrite Er in N, El. unfold lst in El.
    change (A ++ l :: n :: B) with (A ++ [l] ++ n :: B) in El. rewrite app_assoc, last_app in El by discriminate.
    apply NoDup_remove_2 in N. apply N. apply in_or_app. right. rewrite El. apply last_in. discriminate. }
  unfold ch2, stretched. cbn [sp_orient sp_label]. rewrite Z, last_far; [reflexivity|].
  apply Forall_forall. intros a Ha C. destruct (ci_parts _ _ _ _ CI) as (_ & I1 & _). exact (I1 l a Lv Ha C).
Qed.

Lemma seen_separatrix c x e : component d c x -> he_comp e = c -> in_row x (he_top e) (he_label e) ->
  exists o, he_separatrix d e = Ok o /\ he_separatrix d2 e = Ok (option_map (stretched J) o).
Proof.
  intros Hx Hc Hr. destruct e as [c' l top]. cbn [he_comp he_top he_label] in *. subst c'.
  destruct (component_mid _ _ _ Hx) as (C1 & C2 & HD & Ec).
  assert (HD2 : d_comps d2 = C1 ++ x :: C2) by (rewrite <- HD; symmetry; apply LK).
  pose proof (comp_perm _ d Hd C1 C2 x HD) as P. pose proof (comp_nodup _ d Hd C1 C2 x HD) as ND.
  pose proof (comp_here d C1 C2 x HD) as Hx1. pose proof (comp_here d2 C1 C2 x HD2) as Hx2. subst c.
  unfold in_row in Hr. pose proof Hr as Hs. apply in_split in Hs as (A & B & E).
  unfold he_separatrix. rewrite (he_next_ok d (length C1) x Hx1 ND P top A l B E), (he_next_ok d2 (length C1) x Hx2 ND P top A l B E).
  cbn [bind he_top he_label]. destruct B as [|n B]; [exists None; split; reflexivity|]. destruct top.
  - destruct (seen_top _ _ _ Hx Hr) as (cs & _ & _ & E2). rewrite E2, (separatrix_at_top _ d Hd C1 C2 x HD l Hr). eexists. split; reflexivity.
  - destruct (seen_bottom _ _ _ Hx Hr) as (cs & r & _ & _ & _ & E2 & E3).
    destruct (separatrix_at_bottom _ d Hd C1 C2 x HD l (Permutation_in _ (Permutation_sym P) Hr)) as (ls & _ & E1).
    rewrite E1, E2. cbn [bind]. eexists. split; [reflexivity|]. cbn [option_map]. rewrite (E3 A n B E _ E1). reflexivity.
Qed.

End Seen.

(** * decompose *)

Section Deco.
Variables (i : iet T) (s : slen T) (J : list injection) (tr1 : list dstep).
Variable target : cview T -> bool.
Hypothesis IC : ignores_connections target.
Variable limit : Z.
Hypothesis HL : (limit <= INT_MAX)%Z.
Variable fuel : nat.
Hypothesis HF : length (i_top i) < fuel.

Definition run (d d2 : decomp T) : Prop :=
  exists tr0 tr', injected_decomposition i s J (tr1 ++ tr') d2 /\ decomposition i s tr0 d /\ link i s J d d2 /\ Forall2 (same_step J) tr0 (tr1 ++ tr').

Lemma comp_at_nth (d : decomp T) c x : nth_error (d_comps d) c = Some x -> comp_at d c = Ok x.
Proof. unfold comp_at. intros ->. reflexivity. Qed.

Lemma view_conns (d : decomp T) c top ls : (forall l, In l ls -> In l (d_keys d)) ->
  mapM (fun e => l <- he_left d e ;; r <- he_right d e ;; Ok (he_label e, l, r)) (map (fun l => mkhe c l top) ls) =
  Ok (map (fun l => (l, lft d l top, rgt d l top)) ls).
Proof.
  induction ls as [|l ls IH]; intro H; [reflexivity|]. cbn [map mapM].
  rewrite he_left_ok, he_right_ok by (apply H; left; reflexivity). cbn [bind he_label]. rewrite IH by (intros m Hm; apply H; right; exact Hm). reflexivity.
Qed.

Lemma mapM_compose {A B C} (f : B -> res C) (g : A -> B) l : mapM f (map g l) = mapM (fun x => f (g x)) l.
Proof. induction l as [|a l IH]; [reflexivity|]. cbn [map mapM]. rewrite IH. reflexivity. Qed.

Lemma twin_view d d2 c : run d d2 -> c < length (d_comps d) ->
  rres (fun v v' => target v = target v') (comp_view d c) (comp_view d2 c).
Proof.
  intros (tr0 & tr' & _ & Hh & LK & _) Hc. pose proof (history_ok _ _ _ _ Hh) as Hd.
  destruct (nth_error (d_comps d) c) as [x|] eqn:Ex; [|apply nth_error_None in Ex; lia].
  assert (Ex2 : nth_error (d_comps d2) c = Some x) by (rewrite <- Ex; f_equal; symmetry; apply LK).
  destruct (component_mid d c x Ex) as (C1 & C2 & HD & _).
  pose proof (comp_keys _ d Hd C1 C2 x HD) as K1. pose proof (comp_bottom_keys _ d Hd C1 C2 x HD) as K2.
  pose proof (comp_swap _ d Hd C1 C2 x HD) as Sw.
  assert (Ek : d_keys d = d_keys d2) by apply LK. assert (El : d_len d = d_len d2) by apply LK.
  unfold comp_view, top_contour, bottom_contour. rewrite (comp_at_nth d c x Ex), (comp_at_nth d2 c x Ex2). cbn [bind]. rewrite Sw, !mapM_compose.
  rewrite <- !(mapM_compose (fun e => l <- he_left _ e ;; r <- he_right _ e ;; Ok (he_label e, l, r)) (fun l => mkhe c l _)).
  rewrite !view_conns by (intros l Hl; try rewrite <- Ek; auto). cbn [bind he_label]. rewrite El. apply rres_same. intros q _. apply IC; try reflexivity;
    cbn [cv_top cv_bottom]; rewrite !map_map; reflexivity.
Qed.

Lemma run_step d d2 c : run d d2 -> c < length (d_comps d) ->
  rres (fun p p' => dst_result (fst p) = dst_result (fst p') /\ dst_additional (fst p) = dst_additional (fst p') /\ run (snd p) (snd p') /\
          length (d_comps d) <= length (d_comps (snd p)) /\ (forall c', dst_additional (fst p) = Some c' -> c' < length (d_comps (snd p))))
    (decomposition_step fuel limit c d) (decomposition_step fuel limit c d2).
Proof.
  intros (tr0 & tr' & Hi & Hh & LK & F) Hc. pose proof (history_keys _ _ _ _ Hh) as Ek.
  assert (Ec : d_comps d = d_comps d2) by apply LK.
  pose proof (link_step i s J d d2 tr0 fuel limit c Hh LK HL Hc ltac:(rewrite Ek; exact HF)) as Q.
  destruct (decomposition_step fuel limit c d) as [[st d']| | | |] eqn:E1, (decomposition_step fuel limit c d2) as [[st' d2']| | | |] eqn:E2; try contradiction; try exact I.
  destruct Q as (Q1 & Q2 & _). cbn [rres fst snd] in *. pose proof Q1 as (R1 & _ & R3 & _).
  split; [symmetry; exact R1|]. split; [symmetry; exact R3|]. split.
  - exists (tr0 ++ [st]), (tr' ++ [st']). rewrite app_assoc. split; [eapply ih_step; [exact Hi|exact HL| |exact E2]; rewrite <- Ec; exact Hc|].
    split; [eapply dh_step; eassumption|]. split; [exact Q2|]. apply Forall2_app; [exact F|]. constructor; [exact Q1|constructor].
  - destruct (nth_error (d_comps d) c) as [x|] eqn:Ex; [|apply nth_error_None in Ex; lia].
    destruct (claim_C33_step T O W i s tr0 d fuel limit c x st d' Hh HL Ex E1) as (_ & y & _ & R).
    destruct (dst_result st).
    all: try (destruct R as (R2 & R & _); split; [lia|rewrite R2; discriminate]).
    destruct R as (z & R2 & _ & R & _). split; [lia|]. rewrite R2. intros c' Q. injection Q as <-. lia.
Qed.

Lemma run_comp rounds : forall c d d2, run d d2 -> c < length (d_comps d) ->
  rres (fun p p' => fst p = fst p' /\ run (snd p) (snd p') /\ length (d_comps d) <= length (d_comps (snd p)))
    (comp_decompose rounds fuel target limit c d) (comp_decompose rounds fuel target limit c d2).
Proof.
  induction rounds as [|rounds IH]; intros c d d2 R Hc; [exact I|]. cbn [comp_decompose].
  eapply rres_bind; [apply (twin_view d d2 c R Hc)|]. intros v v' Ev. cbn beta in Ev. rewrite <- Ev. destruct (target v); [cbn; auto|].
  eapply rres_bind; [apply (run_step d d2 c R Hc)|]. intros [st d'] [st' d2'] (E1 & E2 & R' & Ln & Hn). cbn [fst snd] in *. rewrite <- E1, <- E2.
  assert (Y : rres (fun p p' => fst p = fst p' /\ run (snd p) (snd p') /\ length (d_comps d) <= length (d_comps (snd p)))
     ('(ok1, d0) <- match dst_additional st with Some c' => comp_decompose rounds fuel target limit c' d' | None => Ok (true, d') end ;;
      '(ok2, d1) <- comp_decompose rounds fuel target limit c d0 ;; Ok ((ok1 && ok2)%bool, d1))
     ('(ok1, d0) <- match dst_additional st with Some c' => comp_decompose rounds fuel target limit c' d2' | None => Ok (true, d2') end ;;
      '(ok2, d1) <- comp_decompose rounds fuel target limit c d0 ;; Ok ((ok1 && ok2)%bool, d1))).
  { apply (rres_bind (fun p p' => fst p = fst p' /\ run (snd p) (snd p') /\ length (d_comps d') <= length (d_comps (snd p)))).
    - destruct (dst_additional st) as [c'|]; [|cbn; auto]. apply IH; [exact R'|]. apply Hn. reflexivity.
    - intros [ok1 d0] [ok1' d02] (Eo & R0 & L0). cbn [fst snd] in *. subst ok1'.
      eapply rres_bind; [apply (IH c d0 d02 R0); lia|]. intros [ok2 d3] [ok2' d32] (Eo & R3 & L3). cbn [fst snd rres] in *. subst ok2'. split; [reflexivity|]. split; [exact R3|lia]. }
  destruct (dst_result st); try exact Y. cbn. auto.
Qed.

Lemma run_all rounds : forall cs d d2, run d d2 -> (forall c, In c cs -> c < length (d_comps d)) ->
  rres (fun p p' => fst p = fst p' /\ run (snd p) (snd p'))
    (decompose_all rounds fuel target limit cs d) (decompose_all rounds fuel target limit cs d2).
Proof.
  induction cs as [|c cs IH]; intros d d2 R Hc; [cbn; auto|]. cbn [decompose_all].
  eapply rres_bind; [apply (run_comp rounds c d d2 R); apply Hc; left; reflexivity|].
  intros [ok d'] [ok' d2'] (E & R' & Ln). cbn [fst snd] in *. subst ok'. destruct ok; [|cbn; auto].
  apply IH; [exact R'|]. intros c' H'. specialize (Hc c' (or_intror H')). lia.
Qed.

Theorem run_decompose rounds d d2 : run d d2 ->
  rres (fun p p' => fst p = fst p' /\ run (snd p) (snd p')) (decompose rounds fuel target limit d) (decompose rounds fuel target limit d2).
Proof.
  intro R. unfold decompose. assert (E : d_comps d = d_comps d2) by (destruct R as (? & ? & _ & _ & LK & _); apply LK). rewrite <- E.
  apply run_all; [exact R|]. intros c Hc. apply in_seq in Hc. lia.
Qed.
End Deco.
End More.
