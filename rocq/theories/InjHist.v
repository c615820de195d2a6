(** Histories of decompositions with injected connections: the same history without the
    injections has the same components and the same results. *)
From Coq Require Import Reals Permutation Lia Lra.
From Verif Require Import Base QcTac Spec LenT FM Subspace Lengths IET Api ZorichProof ReduceProof Saf Dyn Path Direct InduceProof InduceCons World.
From Verif Require Import Decomp DecompSim DecompInv DecompNav DecompRef DecompStep DecompCons DecompAll DecApi DecompBudget InjApi Twin TwinDec InjRel InjStep.
Open Scope nat_scope.

(** * Chains *)

Lemma chained_bottom b q r : chained b (map right_conn q) r -> map right_conn q = links b (map snd q).
Proof.
  revert b. induction q as [|[u v] q IH]; intros b H; [reflexivity|]. cbn [map] in H. inversion H as [|? ? ? ? H' E1 E2]; subst.
  cbn [map links fst snd]. rewrite (IH _ H'). reflexivity.
Qed.

Lemma chained_top q : forall y t, q <> [] -> chained y (map right_conn q) t -> map right_conn q = toplinks (map fst q) t.
Proof.
  destruct q as [|[u v] q]; intros y t N H; [contradiction|]. cbn [map fst] in *. inversion H as [|? ? ? ? H' E1 E2]; subst. clear H N. cbn [toplinks].
  revert v u H'. cbn [snd]. induction q as [|[u' v'] q IH]; intros v u H; cbn [map] in H; inversion H as [|? ? ? ? H' E1 E2]; subst; [reflexivity|].
  cbn [map fst links app]. unfold right_conn at 1. cbn [fst snd]. f_equal. apply IH. assumption.
Qed.

Lemma chained_last q : forall y t, q <> [] -> chained y (map right_conn q) t -> exists u, In (right_conn (u, t)) (map right_conn q).
Proof.
  induction q as [|[u v] q IH]; intros y t N H; [contradiction|]. cbn [map] in *. inversion H as [|? ? ? ? H' E1 E2]; subst. cbn [snd] in H'.
  destruct q as [|p q]; [inversion H'; subst; exists u; left; reflexivity|].
  destruct (IH v t ltac:(discriminate) H') as (w & Hw). exists w. right. exact Hw.
Qed.

Lemma toplinks_nil ys t : toplinks ys t = [] -> ys = [].
Proof. destruct ys as [|y r]; [reflexivity|]. cbn [toplinks]. destruct r; discriminate. Qed.

Lemma links_nil l xs : links l xs = [] -> xs = [].
Proof. destruct xs; [reflexivity|discriminate]. Qed.

Lemma empty_or {A} (l : list A) : l = [] \/ l <> [].
Proof. destruct l; [left; reflexivity|right; discriminate]. Qed.

(** * The consistency check *)

Lemma sep_eqb_refl s : sep_eqb s s = true.
Proof. unfold sep_eqb. rewrite Nat.eqb_refl. destruct (sp_orient s); reflexivity. Qed.

(** Two right connections at the same separatrix. *)
Lemma clash s c1 c2 rest cs : Permutation cs (c1 :: c2 :: rest) -> conn_parallel c1 = true -> conn_parallel c2 = true ->
  sep_parallel (cn_target c1) = false -> sep_parallel (cn_target c2) = false ->
  (cn_source c1 = s /\ cn_source c2 = s) \/ (cn_target c1 = s /\ cn_target c2 = s) -> separatrix_ok s cs = false.
Proof.
  intros P H1 H2 H3 H4 Hs. pose proof (at_sep_perm s _ _ P) as Q. unfold separatrix_ok.
  assert (X : exists l1 l2, at_separatrix s (c1 :: c2 :: rest) = l1 ++ l2 /\ Permutation l1 (c1 :: c2 :: tl (tl l1)) /\ length l1 >= 2).
  { unfold at_separatrix. cbn [flat_map].
    exists (((if sep_eqb (cn_source c1) s then [c1] else []) ++ (if sep_eqb (cn_target c1) s then [c1] else [])) ++
            ((if sep_eqb (cn_source c2) s then [c2] else []) ++ (if sep_eqb (cn_target c2) s then [c2] else []))).
    exists (at_separatrix s rest). split; [unfold at_separatrix; rewrite <- !app_assoc; reflexivity|].
    assert (Par : forall a b, sep_parallel a = true -> sep_parallel b = false -> sep_eqb b a = false /\ sep_eqb a b = false).
    { intros [? []] [? []] Ha Hb; try discriminate; unfold sep_eqb; cbn; rewrite !Bool.andb_false_r; auto. }
    destruct (Par (cn_source c1) (cn_target c1) H1 H3) as [E1 E2]. destruct (Par (cn_source c2) (cn_target c2) H2 H4) as [E3 E4].
    destruct Hs as [[<- Hs]|[<- Hs]]; rewrite Hs in *; rewrite !sep_eqb_refl; rewrite ?E1, ?E2, ?E3, ?E4; cbn; (split; [reflexivity|lia]). }
  destruct X as (l1 & l2 & Ex & Pl & Ln). rewrite Ex in Q.
  assert (I1 : In c1 (at_separatrix s cs)) by (apply (Permutation_in _ (Permutation_sym Q)), in_or_app; left; apply (Permutation_in _ (Permutation_sym Pl)); left; reflexivity).
  assert (I2 : In c2 (at_separatrix s cs)) by (apply (Permutation_in _ (Permutation_sym Q)), in_or_app; left; apply (Permutation_in _ (Permutation_sym Pl)); right; left; reflexivity).
  pose proof (Permutation_length Q) as Ql. rewrite app_length in Ql.
  destruct (at_separatrix s cs) as [|x [|y [|? ?]]]; cbn [length] in Ql; try lia; try reflexivity.
  destruct (conn_eqb x (conn_neg y)) eqn:Eq; [|reflexivity]. exfalso. apply conn_eqb_eq in Eq. subst x.
  assert (All : Permutation [conn_neg y; y] [c1; c2]).
  { rewrite Q. assert (l2 = []) by (destruct l2; [reflexivity|cbn in Ql; lia]). subst l2. rewrite app_nil_r.
    rewrite Pl. destruct l1 as [|? [|? [|? ?]]]; cbn in Ln, Ql; try lia. reflexivity. }
  assert (Py : conn_parallel y = true /\ sep_parallel (cn_target y) = false).
  { assert (In y [c1; c2]) as [<-|[<-|[]]] by (apply (Permutation_in _ All); right; left; reflexivity); auto. }
  assert (Pn : conn_parallel (conn_neg y) = true).
  { assert (In (conn_neg y) [c1; c2]) as [<-|[<-|[]]] by (apply (Permutation_in _ All); left; reflexivity); auto. }
  unfold conn_parallel, conn_neg in Pn. cbn [cn_source] in Pn. destruct Py. congruence.
Qed.

Section Hist.
Context {T : Type} {O : LenOps T} {W : LenLaws T}.

Lemma check_parts (d : decomp T) : dec_check d = Ok tt ->
  (forall c, In c (rights d) -> conn_parallel c = true) /\
  (forall c, In c (lefts d) -> conn_parallel c = false) /\
  (forall c, In c (lefts d ++ rights d) -> separatrix_ok (cn_source c) (lefts d ++ rights d) = true /\ separatrix_ok (cn_target c) (lefts d ++ rights d) = true).
Proof.
  unfold dec_check. intro H.
  destruct (forallb _ (lefts d)) eqn:E1; [|discriminate]. destruct (forallb _ (rights d)) eqn:E2; [|discriminate].
  destruct (forallb _ (lefts d ++ rights d)) eqn:E3; [|discriminate].
  rewrite forallb_forall in E1, E2, E3. split; [exact E2|]. split.
  - intros c Hc. specialize (E1 c Hc). destruct (conn_parallel c); [discriminate|reflexivity].
  - intros c Hc. specialize (E3 c Hc). apply andb_prop in E3. exact E3.
Qed.

(** What [inject] does. *)
Lemma inject_inv (d : decomp T) e ls rs L R d' : In (he_label e) (d_keys d) -> inject d e ls rs = Ok (L, R, d') ->
  let top := he_top e in let l := he_label e in let c := d_conns d l in
  let lefts0 := if top then topLeft c else bottomLeft c in
  let rights0 := if top then topRight c else bottomRight c in
  let newl := map left_conn (if top then rev ls else ls) in
  let newr := map right_conn (if top then rev rs else rs) in
  (ls = [] \/ lefts0 = []) /\ (rs = [] \/ rights0 = []) /\ dec_check d = Ok tt /\ dec_check d' = Ok tt /\
  L = map left_conn ls /\ R = map right_conn rs /\
  d' = set_conns d (upd (d_conns d) l (if top then mkconns (lefts0 ++ newl) (rights0 ++ newr) (bottomLeft c) (bottomRight c)
                                       else mkconns (topLeft c) (topRight c) (lefts0 ++ newl) (rights0 ++ newr))).
Proof.
  intros Hk E. cbv zeta. unfold inject in E. destruct (dec_check d) as [[]| | | |]; try discriminate. cbn [bind] in E.
  rewrite (conns_at_ok d _ Hk) in E. cbn [bind] in E. set (c := d_conns d (he_label e)) in *.
  destruct ((length (map left_conn (if he_top e then rev ls else ls)) =? 0) || (length (if he_top e then topLeft c else bottomLeft c) =? 0))%bool eqn:E1; [|discriminate].
  destruct ((length (map right_conn (if he_top e then rev rs else rs)) =? 0) || (length (if he_top e then topRight c else bottomRight c) =? 0))%bool eqn:E2; [|discriminate].
  cbn [assert_] in E.
  match type of E with context [dec_check ?dd] => destruct (dec_check dd) as [[]| | | |] eqn:E3 end; try discriminate. cbn [bind] in E.
  injection E as E4 E5 E6. rewrite E6 in E3.
  assert (LL : forall (f : label * label -> connection) q, length (map f (if he_top e then rev q else q)) = length q) by (intros f q; rewrite map_length; destruct (he_top e); [apply rev_length|reflexivity]).
  rewrite LL in E1, E2. apply Bool.orb_prop in E1. apply Bool.orb_prop in E2.
  assert (Z : forall A (q : list A), (length q =? 0) = true -> q = []) by (intros A [|? ?]; [reflexivity|discriminate]).
  split; [destruct E1; auto|]. split; [destruct E2; auto|]. split; [reflexivity|]. split; [exact E3|].
  split; [rewrite <- E4; destruct (he_top e); [rewrite <- map_rev, rev_involutive|]; reflexivity|].
  split; [rewrite <- E5; destruct (he_top e); [rewrite <- map_rev, rev_involutive|]; reflexivity|].
  symmetry. exact E6.
Qed.

(** * One injection *)

Section Inject.
Variable e0 : exch.
Variables TC BC : label -> list label.
Variables JL JR : list connection.
Variables (d d2 d2' : decomp T) (e : hedge) (ls rs : list (label * label)) (L R : list connection).
Hypothesis H : dec_ok e0 d.
Hypothesis LK : linked e0 TC BC JL JR d d2.
Hypothesis Hl : In (he_label e) (live (pieces d)).
Hypothesis Cn : continuous e rs.
Hypothesis E : inject d2 e ls rs = Ok (L, R, d2').

Let l := he_label e.
Variables TC' BC' : label -> list label.
Hypothesis TCe : forall t, TC' t = TC t ++ (if he_top e && Nat.eqb (he_label e) t then rev (map fst rs) else []).
Hypothesis BCe : forall b, BC' b = BC b ++ (if negb (he_top e) && Nat.eqb (he_label e) b then map snd rs else []).

Let Keys2 : d_keys d2 = e_top e0.
Proof. rewrite <- (tw_keys _ _ _ _ LK). apply (dk_keys _ _ H). Qed.
Let Kl : In l (e_top e0).
Proof. apply (live_keys e0 d H). exact Hl. Qed.
Let ND : NoDup (e_top e0).
Proof. eapply keys_nodup; eassumption. Qed.
Let HK : rel (e_top e0) TC BC JL JR (live (pieces d)) (d_conns d) (d_conns d2) := tw_conns _ _ _ _ LK.

Lemma inj_rights : Permutation (rights d2') (map right_conn rs ++ rights d2).
Proof.
  destruct (inject_inv d2 e ls rs L R d2' ltac:(rewrite Keys2; exact Kl) E) as (_ & _ & _ & _ & _ & _ & ->).
  unfold rights. cbn [set_conns d_conns d_keys]. rewrite Keys2.
  assert (P : Permutation (map right_conn (if he_top e then rev rs else rs)) (map right_conn rs)).
  { apply Permutation_map. destruct (he_top e); [apply Permutation_sym, Permutation_rev|reflexivity]. }
  rewrite <- P. apply (Permutation_count_occ conn_dec). intro x. rewrite count_occ_app.
  match goal with |- context [upd (d_conns d2) (he_label e) ?c'] => pose proof (occ_upd right_conns (e_top e0) (d_conns d2) (he_label e) c' x ND Kl) as Q end.
  unfold occ in Q.
  unfold right_conns in Q. destruct (he_top e); cbn [topRight bottomRight] in *; rewrite ?count_occ_app in *; lia.
Qed.

Lemma inj_clash c1 c2 : In c1 (map right_conn rs) -> In c2 (rights d2) ->
  sep_parallel (cn_target c2) = false -> cn_source c1 = cn_source c2 \/ cn_target c1 = cn_target c2 -> False.
Proof.
  intros H1 H2 Ht Hs. destruct (inject_inv d2 e ls rs L R d2' ltac:(rewrite Keys2; exact Kl) E) as (_ & _ & _ & Ck & _).
  destruct (check_parts d2' Ck) as (C1 & _ & C3).
  assert (I1 : In c1 (rights d2')) by (apply (Permutation_in _ (Permutation_sym inj_rights)), in_or_app; auto).
  assert (I2 : In c2 (rights d2')) by (apply (Permutation_in _ (Permutation_sym inj_rights)), in_or_app; auto).
  destruct (in_split _ _ H1) as (q1 & q2 & E1). destruct (in_split _ _ H2) as (q3 & q4 & E2).
  assert (P : Permutation (lefts d2' ++ rights d2') (c1 :: c2 :: ((q1 ++ q2) ++ q3 ++ q4) ++ lefts d2')).
  { rewrite inj_rights, E1, E2, Permutation_app_comm.
    change (c1 :: c2 :: ((q1 ++ q2) ++ q3 ++ q4) ++ lefts d2') with ((c1 :: c2 :: ((q1 ++ q2) ++ q3 ++ q4)) ++ lefts d2').
    apply Permutation_app_tail. rewrite <- (Permutation_middle q1 q2 c1). cbn [app]. constructor.
    rewrite <- (Permutation_middle q3 q4 c2). symmetry. apply Permutation_middle. }
  destruct (C3 c1 ltac:(apply in_or_app; auto)) as [S1 S2].
  assert (F1 : sep_parallel (cn_target c1) = false) by (apply in_map_iff in H1 as (p & <- & _); reflexivity).
  destruct Hs as [Hs|Hs].
  - rewrite (clash (cn_source c1) c1 c2 _ _ P (C1 c1 I1) (C1 c2 I2) F1 Ht) in S1; [discriminate|]. left. split; congruence.
  - rewrite (clash (cn_target c1) c1 c2 _ _ P (C1 c1 I1) (C1 c2 I2) F1 Ht) in S2; [discriminate|]. right. split; congruence.
Qed.

Lemma ext_some TC0 BC0 lv x : ext TC0 BC0 lv x <> [].
Proof. unfold ext. destruct (memb x lv); [discriminate|]. destruct (TC0 x); discriminate. Qed.

Lemma inj_free : rs <> [] -> if he_top e then TC l = [] else BC l = [] /\ bottomRight (d_conns d l) = [] .
Proof.
  intro N. destruct (inject_inv d2 e ls rs L R d2' ltac:(rewrite Keys2; exact Kl) E) as (_ & [X|X] & _); [contradiction|].
  destruct (he_top e).
  - fold l in X. rewrite (rl_top _ _ _ _ _ _ _ _ HK l Hl) in X. apply toplinks_nil in X. exact X.
  - fold l in X. destruct (rl_bot _ _ _ _ _ _ _ _ HK l Hl) as (ch & E1 & E2). rewrite E2 in X. apply links_nil in X.
    apply app_eq_nil in X as [X1 X2]. split; [exact X1|]. destruct ch as [|x ch]; [exact E1|].
    cbn [flat_map] in X2. apply app_eq_nil in X2 as [X2 _]. exfalso. exact (ext_some _ _ _ _ X2).
Qed.

Lemma TC_other t : t <> l \/ he_top e = false \/ rs = [] -> TC' t = TC t.
Proof.
  intro N. rewrite TCe. destruct (he_top e); [|apply app_nil_r]. cbn [andb]. destruct (Nat.eqb_spec (he_label e) t) as [E'|]; [|apply app_nil_r].
  destruct N as [N|[N|N]]; [exfalso; apply N; symmetry; exact E'|discriminate|]. rewrite N. apply app_nil_r.
Qed.
Lemma BC_other b : b <> l \/ he_top e = true \/ rs = [] -> BC' b = BC b.
Proof.
  intro N. rewrite BCe. destruct (he_top e); [apply app_nil_r|]. cbn [andb negb]. destruct (Nat.eqb_spec (he_label e) b) as [E'|]; [|apply app_nil_r].
  destruct N as [N|[N|N]]; [exfalso; apply N; symmetry; exact E'|discriminate|]. rewrite N. apply app_nil_r.
Qed.

Lemma far_in k : In k (rights d) -> In (farc TC BC k) (rights d2).
Proof.
  intro Hk. apply (Permutation_in (l := JR ++ map (farc TC BC) (rights d))).
  - rewrite (rights_eq e0 d H). unfold rights. rewrite Keys2. symmetry. apply (rl_right _ _ _ _ _ _ _ _ HK).
  - apply in_or_app. right. apply in_map. exact Hk.
Qed.

Lemma last_clash : rs <> [] -> he_top e = true -> exists k, In k (map right_conn rs) /\ cn_target k = mksep l ANTIPARALLEL.
Proof.
  intros N Ht. pose proof Cn as Cn'. unfold continuous in Cn'. rewrite Ht in Cn'. destruct Cn' as (y & Ch).
  assert (N' : rev rs <> []) by (intro X; apply N; rewrite <- (rev_involutive rs), X; reflexivity).
  destruct (chained_last (rev rs) y l N' Ch) as (u & Hu). exists (right_conn (u, l)). split; [|reflexivity].
  rewrite map_rev in Hu. apply in_rev in Hu. exact Hu.
Qed.
Lemma first_clash : rs <> [] -> he_top e = false -> exists k, In k (map right_conn rs) /\ cn_source k = mksep l PARALLEL.
Proof.
  intros N Ht. pose proof Cn as Cn'. unfold continuous in Cn'. rewrite Ht in Cn'. destruct Cn' as (r & Ch).
  clear - N Ch. destruct rs as [|[u v] q]; [contradiction|]. cbn [map] in Ch. inversion Ch as [|? ? ? ? Ch' E1 E2].
  exists (right_conn (u, v)). split; [rewrite E2; left; reflexivity|]. cbn. subst l. rewrite E2. reflexivity.
Qed.

Lemma tail_far k : In k (rights d) -> hd (sp_label (cn_target k)) (TC' (sp_label (cn_target k))) = hd (sp_label (cn_target k)) (TC (sp_label (cn_target k))).
Proof.
  intro Hk. destruct (conns_right e0 d H k Hk) as (b & t & -> & _). cbn [cn_target right_conn sp_label fst snd].
  destruct (Nat.eq_dec t l) as [Et|Nt]; [|rewrite TC_other; auto].
  destruct (Bool.bool_dec (he_top e) true) as [Ht|Ht]; [|apply Bool.not_true_is_false in Ht; rewrite TC_other; auto]. destruct (empty_or rs) as [N|N]; [rewrite TC_other; auto|].
  exfalso. destruct (last_clash N Ht) as (k & K1 & K2). pose proof (far_in _ Hk) as K3.
  apply (inj_clash k _ K1 K3); [reflexivity|]. right. rewrite K2. unfold farc, far, right_conn. cbn [cn_target sp_orient sp_label snd].
  pose proof (inj_free N) as X. rewrite Ht in X. rewrite Et, X. reflexivity.
Qed.

Lemma same_far k : In k (rights d) -> farc TC' BC' k = farc TC BC k.
Proof.
  intro Hk. pose proof (tail_far k Hk) as Ta. destruct (conns_right e0 d H k Hk) as (b & t & -> & _).
  cbn [cn_target right_conn sp_label fst snd] in Ta. unfold farc, far, right_conn. cbn [cn_target cn_source sp_orient sp_label fst snd]. rewrite Ta. f_equal.
  destruct (Nat.eq_dec b l) as [Et|Nb]; [|rewrite BC_other; auto].
  destruct (Bool.bool_dec (he_top e) true) as [Ht|Ht]; [rewrite BC_other; auto|apply Bool.not_true_is_false in Ht]. destruct (empty_or rs) as [N|N]; [rewrite BC_other; auto|].
  exfalso. destruct (first_clash N Ht) as (k & K1 & K2). pose proof (far_in _ Hk) as K3.
  apply (inj_clash k _ K1 K3); [reflexivity|]. left. rewrite K2. unfold farc, far, right_conn. cbn [cn_source sp_orient sp_label fst].
  pose proof (inj_free N) as X. rewrite Ht in X. destruct X as [X _]. rewrite Et, X. reflexivity.
Qed.

Lemma same_far_left k : In k (lefts d) -> farc TC' BC' k = farc TC BC k.
Proof.
  intro Hk. apply (Permutation_in _ (conns_reverse e0 d H)) in Hk. apply in_map_iff in Hk as (k' & <- & Hk).
  rewrite !farc_neg, same_far by exact Hk. reflexivity.
Qed.

Lemma same_ext l0 ch x : In l0 (live (pieces d)) -> bottomRight (d_conns d l0) = links l0 ch -> In x ch ->
  ext TC' BC' (live (pieces d)) x = ext TC BC (live (pieces d)) x.
Proof.
  intros H0 Hc Hx. unfold ext. destruct (memb x (live (pieces d))) eqn:Ex.
  - f_equal. assert (Ht : In (mksep x ANTIPARALLEL) (map cn_target (links l0 ch))) by (rewrite links_target; apply in_map_iff; exists x; auto).
    apply in_map_iff in Ht as (k & K1 & K2). pose proof (tail_far k) as Q. rewrite K1 in Q. cbn [sp_label] in Q. apply Q.
    rewrite (rights_eq e0 d H). apply in_flat_map. exists l0. split; [apply (live_keys e0 d H); exact H0|].
    unfold right_conns. apply in_or_app. right. rewrite Hc. exact K2.
  - assert (N : x <> l) by (intros ->; apply memb_In in Hl; fold l in Hl; congruence). rewrite TC_other, BC_other by auto. reflexivity.
Qed.

Theorem linked_inject : linked e0 TC' BC' (JL ++ map left_conn ls) (JR ++ map right_conn rs) d d2'.
Proof.
  pose proof inj_rights as PR. pose proof inj_free as Fr.
  destruct (inject_inv d2 e ls rs L R d2' ltac:(rewrite Keys2; exact Kl) E) as (_ & _ & _ & _ & _ & _ & E').
  apply linked_make; auto; try (rewrite E'; cbn [set_conns d_len d_stack d_keys d_comps]; symmetry; apply LK).
  destruct HK as [A B C (g & D1 & D2) F]. constructor.
  - intros t Ht. rewrite E'. cbn [set_conns d_conns]. rewrite TCe. destruct (Nat.eq_dec t (he_label e)) as [->|Nt].
    + rewrite upd_same, Nat.eqb_refl, Bool.andb_true_r. specialize (A _ Ht). destruct (he_top e) eqn:Et; cbn [topRight]; [|rewrite app_nil_r; exact A].
      destruct (empty_or rs) as [N|N]; [rewrite N; cbn; rewrite !app_nil_r; exact A|].
      specialize (Fr N). fold l in A. rewrite Fr in A. fold l. rewrite A, Fr. cbn [app]. rewrite <- map_rev.
      pose proof Cn as Cn'. unfold continuous in Cn'. rewrite Et in Cn'. destruct Cn' as (y & Ch). apply (chained_top (rev rs) y); [|exact Ch].
      intro X. apply N. rewrite <- (rev_involutive rs), X. reflexivity.
    + rewrite upd_other by exact Nt. destruct (Nat.eqb_spec (he_label e) t); [congruence|]. rewrite Bool.andb_false_r, app_nil_r. apply A. exact Ht.
  - intros b Hb. destruct (B b Hb) as (ch & E1 & E2). exists ch. split; [exact E1|].
    assert (X : flat_map (ext TC' BC' (live (pieces d))) ch = flat_map (ext TC BC (live (pieces d))) ch).
    { apply flat_map_same. intros x Hx. apply (same_ext b ch x Hb E1 Hx). }
    rewrite X, E'. cbn [set_conns d_conns]. rewrite BCe. destruct (Nat.eq_dec b (he_label e)) as [->|Nb].
    + rewrite upd_same, Nat.eqb_refl, Bool.andb_true_r. destruct (he_top e) eqn:Et; cbn [bottomRight negb]; [rewrite app_nil_r; exact E2|].
      destruct (empty_or rs) as [N|N]; [rewrite N; cbn; rewrite !app_nil_r; exact E2|].
      specialize (Fr N). fold l in E1, E2. destruct Fr as [F1 F2]. rewrite F2 in E1. symmetry in E1. apply links_nil in E1. subst ch. fold l. rewrite E2, F1.
      cbn [flat_map app links]. rewrite app_nil_r.
      pose proof Cn as Cn'. unfold continuous in Cn'. rewrite Et in Cn'. destruct Cn' as (r & Ch). apply (chained_bottom _ _ r Ch).
    + rewrite upd_other by exact Nb. destruct (Nat.eqb_spec (he_label e) b); [congruence|]. rewrite Bool.andb_false_r, app_nil_r. exact E2.
  - intros x Kx Nx. rewrite E'. cbn [set_conns d_conns]. rewrite upd_other; [apply C; assumption|]. intros ->. contradiction.
  - set (newl := map left_conn (if he_top e then rev ls else ls)).
    exists (upd g (he_label e) (if he_top e then mkconns (topLeft (g (he_label e)) ++ newl) (topRight (g (he_label e))) (bottomLeft (g (he_label e))) (bottomRight (g (he_label e)))
                                 else mkconns (topLeft (g (he_label e))) (topRight (g (he_label e))) (bottomLeft (g (he_label e)) ++ newl) (bottomRight (g (he_label e))))).
    split.
    + intros x Kx. destruct (D1 x Kx) as [P1 P2].
      assert (Lx : forall k, In k (left_conns (d_conns d x)) -> farc TC' BC' k = farc TC BC k).
      { intros k Hk. apply same_far_left. rewrite (lefts_eq e0 d H). apply in_flat_map. exists x. auto. }
      assert (M1 : map (farc TC' BC') (topLeft (d_conns d x)) = map (farc TC BC) (topLeft (d_conns d x))).
      { apply map_ext_in. intros k Hk. apply Lx. unfold left_conns. apply in_or_app. auto. }
      assert (M2 : map (farc TC' BC') (bottomLeft (d_conns d x)) = map (farc TC BC) (bottomLeft (d_conns d x))).
      { apply map_ext_in. intros k Hk. apply Lx. unfold left_conns. apply in_or_app. auto. }
      rewrite M1, M2, E'. cbn [set_conns d_conns]. destruct (Nat.eq_dec x (he_label e)) as [->|Nx].
      * rewrite !upd_same. fold newl. destruct (he_top e); cbn [topLeft bottomLeft]; (split; [|]); try assumption;
          (rewrite <- (app_nil_r (map (farc TC BC) _)); apply il_app; [assumption|apply il_only_left]).
      * rewrite !upd_other by exact Nx. auto.
    + assert (P : Permutation newl (map left_conn ls)) by (apply Permutation_map; destruct (he_top e); [apply Permutation_sym, Permutation_rev|reflexivity]).
      rewrite <- P, <- D2. apply (Permutation_count_occ conn_dec). intro x. rewrite count_occ_app.
      match goal with |- context [upd g (he_label e) ?c'] => pose proof (occ_upd left_conns (e_top e0) g (he_label e) c' x ND Kl) as Q end.
      unfold occ in Q. unfold left_conns in *. destruct (he_top e); cbn [topLeft bottomLeft] in *; rewrite ?count_occ_app in *; lia.
  - rewrite <- app_assoc. assert (Er : flat_map (fun l0 => right_conns (d_conns d2' l0)) (e_top e0) = rights d2').
    { unfold rights. rewrite E'. cbn [set_conns d_keys]. rewrite Keys2. reflexivity. }
    rewrite Er, PR. rewrite <- (rights_eq e0 d H) in *.
    rewrite (map_ext_in (farc TC' BC') (farc TC BC) (rights d)) by (intros k Hk; apply same_far; exact Hk).
    rewrite (Permutation_app_swap_app JR). apply Permutation_app_head.
    unfold rights at 1. rewrite Keys2. exact F.
Qed.

End Inject.

(** * Histories *)

Definition link (i : iet T) (s : slen T) (J : list injection) (d d2 : decomp T) : Prop :=
  linked (exch_of i s) (behind_top J) (behind_bottom J) (injected_lefts J) (injected_rights J) d d2.

Lemma row_live e0 (d : decomp T) c x top l : dec_ok e0 d -> component d c x -> in_row x top l -> In l (live (pieces d)).
Proof.
  intros H Hx R. apply live_in. destruct (component_mid _ _ _ Hx) as (C1 & C2 & HD & _). exists x. split; [rewrite HD; apply in_middle; auto|].
  unfold in_row in R. destruct top; [exact R|]. apply (Permutation_in _ (Permutation_sym (comp_perm e0 d H C1 C2 x HD))). exact R.
Qed.

Lemma same_step_farc J tr0 tr : Forall2 (same_step J) tr0 tr -> forall J', (forall k, In k (reported tr0) -> stretch J' k = stretch J k) ->
  Forall2 (same_step J') tr0 tr.
Proof.
  induction 1 as [|st st' tr0 tr (H1 & H2 & H3 & H4) F IH]; intros J' HJ; constructor.
  - split; [exact H1|]. split; [|auto]. rewrite H2. destruct (dst_connection st) as [k|] eqn:Ek; [|reflexivity].
    cbn [option_map]. rewrite HJ; [reflexivity|]. unfold reported. cbn [flat_map]. rewrite Ek. left. reflexivity.
  - apply IH. intros k Hk. apply HJ. unfold reported in *. cbn [flat_map]. apply in_or_app. right. exact Hk.
Qed.

Lemma reported_snoc tr st : reported (tr ++ [st]) = reported tr ++ match dst_connection st with Some k => [k] | None => [] end.
Proof. unfold reported. rewrite flat_map_app. cbn [flat_map]. rewrite app_nil_r. reflexivity. Qed.

Lemma link_step i s J d d2 tr0 fuel limit c : decomposition i s tr0 d -> link i s J d d2 -> (limit <= INT_MAX)%Z -> c < length (d_comps d) ->
  length (d_keys d) < fuel ->
  rres (fun p p' => same_step J (fst p) (fst p') /\ link i s J (snd p) (snd p') /\ reports d (fst p) (snd p))
    (decomposition_step fuel limit c d) (decomposition_step fuel limit c d2).
Proof.
  intros Hh LK HL Hc Hf. destruct (nth_error (d_comps d) c) as [x|] eqn:Ex; [|apply nth_error_None in Ex; lia].
  destruct (component_mid d c x Ex) as (C1 & C2 & HD & <-).
  exact (twin_step (exch_of i s) _ _ _ _ fuel d d2 C1 x C2 limit (history_ok _ _ _ _ Hh) HD LK HL Hf).
Qed.

Lemma link_new i s d : obtainable i s -> dec_make i s = Ok d -> link i s [] d d.
Proof.
  intros Hi E. destruct (made_ok i s d Hi E) as (H & _ & _ & _ & Ec). unfold link. apply linked_make; auto.
  rewrite Ec. constructor.
  - intros l _. reflexivity.
  - intros l _. exists []. split; reflexivity.
  - reflexivity.
  - exists (fun _ => no_conns). split; [intros l _; split; constructor|]. cbn.
    rewrite flat_map_nil; [constructor|reflexivity].
  - cbn [injected_rights flat_map app]. rewrite flat_map_nil by reflexivity. constructor.
Qed.

Lemma big_keys i s tr0 (d d2 : decomp T) : decomposition i s tr0 d -> d_keys d = d_keys d2 -> d_keys d2 = i_top i.
Proof. intros H E. rewrite <- E. exact (history_keys _ _ _ _ H). Qed.

Theorem injected_history i s J tr d2 : injected_decomposition i s J tr d2 ->
  exists tr0 d, decomposition i s tr0 d /\ link i s J d d2 /\ Forall2 (same_step J) tr0 tr /\ Permutation (rights d) (reported tr0).
Proof.
  induction 1 as [d Hi E|J tr d2 fuel limit c st d2' H (tr0 & d & Hh & LK & F & P) HL Hc E|J tr d2 e x ls rs L R d2' H (tr0 & d & Hh & LK & F & P) Hx Hr Cn E].
  - exists [], d. split; [apply dh_new; assumption|]. split; [apply link_new; assumption|]. split; [constructor|].
    destruct (made_ok i s d Hi E) as (_ & _ & _ & _ & Ec). unfold rights. rewrite Ec. cbn. rewrite flat_map_nil; [constructor|reflexivity].
  - destruct (big_step _ _ _ _ _ E) as (f & Hf & E2).
    assert (Ek : d_keys d = d_keys d2) by apply LK. assert (Ecm : d_comps d = d_comps d2) by apply LK.
    rewrite <- Ek in Hf. rewrite <- Ecm in Hc.
    pose proof (link_step i s J d d2 tr0 f limit c Hh LK HL Hc Hf) as Q. rewrite E2 in Q.
    destruct (decomposition_step f limit c d) as [[st0 d']| | | |] eqn:E0; try contradiction. destruct Q as (Q1 & Q2 & Q3). cbn [fst snd] in *.
    exists (tr0 ++ [st0]), d'. split; [eapply dh_step; eassumption|]. split; [exact Q2|]. split; [apply Forall2_app; [exact F|constructor; [exact Q1|constructor]]|].
    unfold reports in Q3. rewrite Q3, reported_snoc, P. apply Permutation_app_comm.
  - assert (Ecm : d_comps d = d_comps d2) by apply LK. pose proof (history_ok _ _ _ _ Hh) as Hd.
    assert (Hx' : component d (he_comp e) x) by (unfold component in *; rewrite Ecm; exact Hx).
    pose proof (row_live _ _ _ _ _ _ Hd Hx' Hr) as Hl.
    assert (TCe : forall t, behind_top (J ++ [mkinj e ls rs]) t = behind_top J t ++ (if he_top e && Nat.eqb (he_label e) t then rev (map fst rs) else [])).
    { intro t. unfold behind_top. rewrite flat_map_app. cbn [flat_map ij_at ij_right]. rewrite app_nil_r. reflexivity. }
    assert (BCe : forall t, behind_bottom (J ++ [mkinj e ls rs]) t = behind_bottom J t ++ (if negb (he_top e) && Nat.eqb (he_label e) t then map snd rs else [])).
    { intro t. unfold behind_bottom. rewrite flat_map_app. cbn [flat_map ij_at ij_right]. rewrite app_nil_r. reflexivity. }
    exists tr0, d. split; [exact Hh|]. split; [|split; [|exact P]].
    + unfold link, injected_lefts, injected_rights. rewrite !flat_map_app. cbn [flat_map ij_left ij_right]. rewrite !app_nil_r.
      exact (linked_inject (exch_of i s) _ _ _ _ d d2 d2' e ls rs L R Hd LK Hl Cn E _ _ TCe BCe).
    + apply (same_step_farc J _ _ F). intros k Hk. apply (Permutation_in _ (Permutation_sym P)) in Hk.
      exact (same_far (exch_of i s) _ _ _ _ d d2 d2' e ls rs L R Hd LK Hl Cn E _ _ TCe BCe k Hk).
Qed.

End Hist.
