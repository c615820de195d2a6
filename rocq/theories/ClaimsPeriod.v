(** Proofs of the properties in [PropPeriod]. *)
From Coq Require Import Reals Lra Lia Permutation List ZArith.
From Verif Require Import Base QcTac LenT FM Subspace Lengths IET LenInst Sqrt2 Decomp Spec SpecDec SpecTower SpecCanon SpecRim SpecTime SpecGlue SpecSides Api DecApi GlueApi CanonApi SidesApi Fixtures DecFixtures.
From Verif Require Import ZorichProof InduceProof World Dyn Saddle Direct DecompSim DecompInv DecompRef DecompStep DecompNav DecompCons PerimProof DecompAll DecompBudget.
From Verif Require Import Tower Canon Rim Period Sides ClaimsDecomp ClaimsCanon ClaimsSides ClaimsRim.
Open Scope nat_scope.

Section Aux.
Context {T : Type} {O : LenOps T} {W : LenLaws T}.

Lemma timed_links e0 xs : forall l, (forall k, In k (links l xs) -> exists b u, k = right_conn (b, u) /\ direct_connection e0 b u) ->
  exists ns, timed e0 l xs ns /\ Forall2 (fun k n => exists b u, k = right_conn (b, u) /\ connection_time e0 b u n) (links l xs) ns.
Proof.
  induction xs as [|x xs IH]; intros l H; [exists []; split; constructor|]. cbn [links] in *.
  destruct (H _ (or_introl eq_refl)) as (b & u & E & Z). injection E as <- <-. apply time_direct in Z as (n & Z).
  destruct (IH x) as (ns & A & B); [intros k Hk; apply H; right; exact Hk|].
  exists (n :: ns). split; [constructor; [left; exact Z|exact A]|]. constructor; [exists l, x; auto|exact B].
Qed.

Lemma timed_snoc e0 xs : forall l ns u n, timed e0 l xs ns -> hop e0 (last xs l) u n -> timed e0 l (xs ++ [u]) (ns ++ [n]).
Proof.
  induction xs as [|x xs IH]; intros l ns u n H Hp; inversion H; subst; cbn [app].
  - constructor; [exact Hp|constructor].
  - rewrite last_cons in Hp. constructor; [assumption|]. apply IH; assumption.
Qed.

Lemma steps_snoc ns n : steps_of (ns ++ [n]) = steps_of ns + S n.
Proof. unfold steps_of. induction ns as [|m ns IH]; [cbn; lia|]. cbn [app fold_right]. rewrite IH. lia. Qed.

Lemma last_right (f : lab -> R) (xs : list lab) : xs <> [] -> right_end f xs (last xs 0) (total f xs).
Proof.
  intros N. pose proof (app_removelast_last 0 N) as E. exists (removelast xs), []. split; [exact E|]. rewrite E at 1. rewrite total_app. cbn. lra.
Qed.

End Aux.

Lemma claim_C103_period : forall (T : Type) (O : LenOps T) (W : LenLaws T) (i : iet T) (s : slen T) tr d,
  decomposition i s tr d ->
  exists Ts, map tw_base Ts = exchanges d /\ towers (exch_of i s) Ts /\
    forall c right left t, cylinder_sides d c right left -> nth_error Ts c = Some t ->
    exists l ns N, e_top (tw_base t) = [l] /\
      Forall2 (fun k n => exists b u, k = mkconn (mksep b PARALLEL) (mksep u ANTIPARALLEL) /\ connection_time (exch_of i s) b u n) right ns /\
      (~ floor_ends (exch_of i s) t l (last (i_top i) 0) -> N = steps_of ns) /\
      (floor_ends (exch_of i s) t l (last (i_top i) 0) -> N = steps_of ns + 1) /\
      (floor_ends (exch_of i s) t l (last (i_top i) 0) <-> l = last (i_top i) 0) /\
      tw_height t l = N /\
      forall k x, on_floor (exch_of i s) t l k x ->
        iter (maps (exch_of i s)) N x x /\ forall m, 1 <= m < N -> ~ iter (maps (exch_of i s)) m x x.
Proof.
  intros T O W i s tr d H. destruct (dec_rimmed i s tr d H) as (Ts & E & HT & D & C & R). exists Ts. split; [exact E|]. split; [exact HT|].
  intros c right left t Hs Ht. pose proof (history_ok _ _ _ _ H) as Ok0. destruct (claim_C101_walk T O W i s tr d c right left H Hs) as (Q & _).
  destruct Hs as (x & l & lb & rb & rt & lt & Hx & One & E1 & E2 & -> & _).
  pose proof Hx as Hc. apply component_mid in Hc as (C1 & C2 & HD & _).
  pose proof (comp_perm _ d Ok0 C1 C2 x HD) as Pm. 
  assert (Bot : i_bottom (dc_iet x) = [l]) by (rewrite One in Pm; apply Permutation_length_1_inv in Pm; exact Pm).
  assert (Kl : In l (d_keys d)) by (apply (comp_keys _ d Ok0 C1 C2 x HD); rewrite One; left; reflexivity).
  rewrite (he_cross_ok d _ l false Kl) in E1. injection E1 as E1. unfold crossing, lft, rgt in E1. rewrite <- map_rev in E1. apply split_edge in E1 as [_ E1].
  rewrite (he_cross_ok d _ l true Kl) in E2. injection E2 as E2. unfold crossing, lft, rgt in E2. rewrite (ci_topR _ _ _ _ C l), <- map_rev in E2.
  change (map SConn [] ++ SEdge (mkhe c l true) :: map SConn (rev (topLeft (d_conns d l))) = map SConn rt ++ SEdge (mkhe c l true) :: map SConn lt) in E2.
  apply split_edge in E2 as [E2 _]. subst rt. rewrite app_nil_r in *. subst rb.
  assert (Ie : In (comp_exch d x) (pieces d)) by (unfold pieces; apply (in_map (comp_exch d)), (nth_error_In _ _ Hx)).
  assert (Ch : bottomRight (d_conns d l) = links l (D l ++ (if Nat.eqb l (last (i_top i) 0) then [] else [l]))).
  { rewrite (ci_chain _ _ _ _ C (comp_exch d x) l Ie); [|cbn; rewrite One; left; reflexivity].
    f_equal. f_equal. unfold tail_of, lst. cbn [comp_exch exch_of e_top e_bot]. rewrite One, Bot. cbn [last]. rewrite Nat.eqb_refl. reflexivity. }
  rewrite Ch in *. pose proof (tower_at d Ts c x t E Hx Ht) as Eb. apply nth_error_In in Ht.
  assert (Et : e_top (tw_base t) = [l]) by (rewrite Eb; cbn; exact One). assert (Il : In l (e_top (tw_base t))) by (rewrite Et; left; reflexivity).
  pose proof (ci_start _ _ _ _ C) as P0.
  assert (Pt : proper (tw_base t)) by (rewrite Eb; exact (proj1 (ci_proper _ _ _ _ C _ Ie))).
  assert (NDp : NoDup (flat_map (fun l => l :: D l) (live (pieces d)))) by (exact (Permutation_NoDup (ci_part _ _ _ _ C) (proj1 P0))).
  assert (Ll : In l (live (pieces d))) by (apply in_live; exists (comp_exch d x); split; [exact Ie|cbn; rewrite One; left; reflexivity]).
  (* a label that is still there is in no other chain *)
  assert (Nd : forall a, In a (live (pieces d)) -> ~ In a (D l)).
  { intros a Ia Z. pose proof Ll as Ll'. apply in_split in Ll' as (L1 & L2 & El). rewrite El, flat_map_app in NDp. cbn [flat_map] in NDp.
    rewrite El in Ia. apply in_app_or in Ia as [Ia|[<-|Ia]].
    - apply NoDup_app_l in NDp as (_ & _ & Dj). apply (Dj a); [apply in_flat_map; exists a; split; [exact Ia|left; reflexivity]|]. right. apply in_or_app. left. exact Z.
    - apply NoDup_app_l in NDp as (_ & ND & _). cbn [app] in ND. apply NoDup_cons_iff in ND. apply (proj1 ND), in_or_app. left. exact Z.
    - apply NoDup_app_l in NDp as (_ & ND & _). apply NoDup_app_l in ND as (_ & _ & Dj). apply (Dj a); [right; exact Z|apply in_flat_map; exists a; split; [exact Ia|left; reflexivity]]. }
  destruct (ci_open _ _ _ _ C) as (e & He & O1 & O2).
  assert (Zl : In (last (i_top i) 0) (live (pieces d))).
  { apply in_live. exists e. split; [exact He|]. cbn [exch_of e_top] in O1. unfold lst in O1. rewrite <- O1. apply last_in, (ci_proper _ _ _ _ C e He). }
  assert (Open : floor_ends (exch_of i s) t l (last (i_top i) 0) <-> l = last (i_top i) 0).
  { rewrite <- (R t l _ Ht Il). cbn [In]. pose proof (Nd _ Zl). intuition. }
  assert (Fl : floor_ends (exch_of i s) t l l) by (apply (R t l l Ht Il); left; reflexivity).
  destruct (timed_links (exch_of i s) _ l Q) as (ns & Ti & F2).
  assert (Goal : forall N, N = steps_of ns + (if Nat.eqb l (last (i_top i) 0) then 1 else 0) -> tw_height t l = N).
  { intros N ->. destruct (Nat.eqb_spec l (last (i_top i) 0)) as [Z|Z].
    - rewrite app_nil_r in Ti. rewrite <- (steps_snoc ns 0). apply (around (exch_of i s) P0 t (proj1 HT t Ht) Pt l Et Ts (D l)); [exact HT|exact Ht|exact Fl| |exact (Nd l Ll)].
      apply timed_snoc; [exact Ti|]. right. split; [reflexivity|].
      assert (Ne : e = comp_exch d x).
      { destruct (ci_parts _ _ _ _ C) as (NDl & _). pose proof Ie as Ie'. apply in_split in Ie' as (X1 & X2 & Ep). cbn [exch_of e_top] in O1. unfold lst in O1.
        destruct (ci_proper _ _ _ _ C e He) as [_ Ne]. assert (Ile : In l (e_top e)) by (rewrite Z, <- O1; apply last_in, Ne).
        rewrite Ep in He, NDl. apply in_app_or in He.
        destruct He as [He|[He|He]]; [exfalso|symmetry; exact He|exfalso];
          (refine (pieces_disjoint X1 (comp_exch d x) X2 e l NDl _ _ Ile); [apply in_or_app; auto|cbn; rewrite One; left; reflexivity]). }
      subst e. unfold lst in O1, O2. cbn [comp_exch exch_of e_top e_bot] in O1, O2. rewrite Bot in O2. cbn [last] in O2. rewrite O2.
      assert (Nt : e_top (exch_of i s) <> []) by (intros Z'; pose proof (proj1 Fl) as Z2; rewrite Z' in Z2; exact Z2).
      split.
      + unfold size. rewrite (proper_total _ P0). apply last_right. intros Z'. apply Nt. destruct P0 as (_ & Pb & _). rewrite Z' in Pb. exact (Permutation_nil (Permutation_sym Pb)).
      + rewrite Z. unfold size. apply last_right. exact Nt.
    - rewrite Nat.add_0_r. apply (around (exch_of i s) P0 t (proj1 HT t Ht) Pt l Et Ts (D l)); [exact HT|exact Ht|exact Fl|exact Ti|exact (Nd l Ll)]. }
  specialize (Goal _ eq_refl). exists l, ns, (tw_height t l). split; [exact Et|]. split; [exact F2|].
  split; [intros Z; rewrite Goal; destruct (Nat.eqb_spec l (last (i_top i) 0)) as [Z'|Z']; [exfalso; apply Z, Open, Z'|lia]|].
  split; [intros Z; apply Open in Z; rewrite Goal; rewrite (proj2 (Nat.eqb_eq _ _) Z); lia|]. split; [exact Open|]. split; [reflexivity|].
  intros k y Fy. destruct (towers_cylinder (exch_of i s) Ts P0 HT t l k y Ht Pt Et Fy) as (A & B). split; [exact A|]. intros m Lm. apply B. lia.
Qed.

Lemma claim_C103_time : forall (T : Type) (O : LenOps T) (W : LenLaws T) (i : iet T) (s : slen T) tr d b u n n',
  decomposition i s tr d -> connection_time (exch_of i s) b u n -> connection_time (exch_of i s) b u n' -> n = n'.
Proof.
  intros T O W i s tr d b u n n' H. pose proof (history_ok _ _ _ _ H) as Ok0. destruct (dk_inv _ _ Ok0) as (D & C). exact (time_unique _ b u n n' (ci_start _ _ _ _ C)).
Qed.

Lemma claim_C103_same : forall (T : Type) (O : LenOps T) (W : LenLaws T) (i : iet T) (s : slen T) tr d tr' d',
  decomposition i s tr d -> decomposition i s tr' d' ->
  exists Ts Ts', map tw_base Ts = exchanges d /\ towers (exch_of i s) Ts /\ map tw_base Ts' = exchanges d' /\ towers (exch_of i s) Ts' /\
    forall c right left t c' right' left' t' k, cylinder_sides d c right left -> nth_error Ts c = Some t ->
      cylinder_sides d' c' right' left' -> nth_error Ts' c' = Some t' -> In k right -> In k right' ->
    exists N, forall x, (exists l j, on_floor (exch_of i s) t l j x) \/ (exists l j, on_floor (exch_of i s) t' l j x) ->
      iter (maps (exch_of i s)) N x x /\ forall m, 1 <= m < N -> ~ iter (maps (exch_of i s)) m x x.
Proof.
  intros T O W i s tr d tr' d' H H'. destruct (dec_rimmed i s tr d H) as (Ts & E & HT & D & C & R). destruct (dec_rimmed i s tr' d' H') as (Ts' & E' & HT' & D' & C' & R').
  exists Ts, Ts'. split; [exact E|]. split; [exact HT|]. split; [exact E'|]. split; [exact HT'|].
  intros c right left t c' right' left' t' k Hs Ht Hs' Ht' Hk Hk'.
  destruct (claim_C101_walk T O W i s tr d c right left H Hs) as (Q & _).
  destruct (right_labels i s tr d D c right left H C Hs) as (x & l & Hx & One & A & B). destruct (right_labels i s tr' d' D' c' right' left' H' C' Hs') as (x' & l' & Hx' & One' & A' & B').
  pose proof (tower_at d Ts c x t E Hx Ht) as Eb. pose proof (tower_at d' Ts' c' x' t' E' Hx' Ht') as Eb'.
  assert (Et : e_top (tw_base t) = [l]) by (rewrite Eb; cbn; exact One). assert (Et' : e_top (tw_base t') = [l']) by (rewrite Eb'; cbn; exact One').
  assert (Il : In l (e_top (tw_base t))) by (rewrite Et; left; reflexivity). assert (Il' : In l' (e_top (tw_base t'))) by (rewrite Et'; left; reflexivity).
  apply nth_error_In in Ht, Ht'. pose proof (ci_start _ _ _ _ C) as P0.
  destruct (Q k Hk) as (b & u & -> & Z).
  assert (Nu : u <> last (i_top i) 0).
  { intros Eu. destruct (direct_not_last _ _ _ P0 Z) as (_ & X & y & Y & EX). cbn [exch_of e_top] in EX. pose proof (proj1 P0) as ND. cbn [exch_of e_top] in ND.
    rewrite EX in ND, Eu. apply NoDup_remove_2 in ND. apply ND. apply in_or_app. right. rewrite Eu. rewrite last_app_cons, last_cons. apply last_in. discriminate. }
  assert (F : floor_ends (exch_of i s) t l u) by (apply (R t l u Ht Il), (A u Nu); exists b; exact Hk).
  assert (F' : floor_ends (exch_of i s) t' l' u) by (apply (R' t' l' u Ht' Il'), (A' u Nu); exists b; exact Hk').
  destruct (ends_meet _ _ _ _ _ _ F F') as (j & j' & y & G & G').
  assert (Pr : forall e0 E f D t, conn_inv e0 E f D -> In (tw_base t) E -> proper (tw_base t)) by (intros e0 E0 f D0 t0 C0 I0; exact (proj1 (ci_proper _ _ _ _ C0 _ I0))).
  assert (Pt : proper (tw_base t)) by (apply (Pr _ _ _ _ t C); change (pieces d) with (exchanges d); rewrite <- E; apply in_map, Ht).
  assert (Pt' : proper (tw_base t')) by (apply (Pr _ _ _ _ t' C'); change (pieces d') with (exchanges d'); rewrite <- E'; apply in_map, Ht').
  pose proof (towers_cylinder (exch_of i s) Ts P0 HT t l) as Cy. pose proof (towers_cylinder (exch_of i s) Ts' P0 HT' t' l') as Cy'.
  assert (Eh : tw_height t l = tw_height t' l').
  { destruct (Cy j y Ht Pt Et G) as (P1 & P2). destruct (Cy' j' y Ht' Pt' Et' G') as (P1' & P2'). destruct G as (G & _), G' as (G' & _).
    destruct (Nat.lt_trichotomy (tw_height t l) (tw_height t' l')) as [L|[L|L]]; [|exact L|]; exfalso; [apply (P2' (tw_height t l))|apply (P2 (tw_height t' l'))]; try assumption; lia. }
  exists (tw_height t l). intros v [(a & q & Hv)|(a & q & Hv)].
  - assert (Ia : In a (e_top (tw_base t))) by (destruct Hv as (_ & v0 & (Ia & _) & _); exact Ia). rewrite Et in Ia. destruct Ia as [<-|[]].
    destruct (Cy q v Ht Pt Et Hv) as (P1 & P2). split; [exact P1|]. intros m Lm. apply P2. lia.
  - assert (Ia : In a (e_top (tw_base t'))) by (destruct Hv as (_ & v0 & (Ia & _) & _); exact Ia). rewrite Et' in Ia. destruct Ia as [<-|[]]. rewrite Eh.
    destruct (Cy' q v Ht' Pt' Et' Hv) as (P1 & P2). split; [exact P1|]. intros m Lm. apply P2. lia.
Qed.

