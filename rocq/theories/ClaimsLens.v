(** Proofs of the theorems in [PropLens]. *)
From Coq Require Import Reals Permutation Lia Lra.
From Verif Require Import Base QcTac LenT FM Subspace Lengths IET LenInst Sqrt2 Spec SpecLengths Api RatioApi LensApi Fixtures.
From Verif Require Import ZorichProof ReduceProof Saf InduceProof World ClaimsLengths.
Open Scope nat_scope.
Section Lens.
Context {T : Type} {O : LenOps T} {W : LenLaws T} {S : Type} (L : lens T S) (sound : S -> Prop) (CT : contract L sound).

Lemma ext_nth {A} (l m : list A) : (forall k, nth_error l k = nth_error m k) -> l = m.
Proof.
  revert m. induction l as [|x l IH]; intros [|y m] E; [reflexivity|discriminate (E 0)|discriminate (E 0)|].
  pose proof (E 0) as E0. injection E0 as ->. f_equal. apply IH. intro k. exact (E (Datatypes.S k)).
Qed.

Lemma slen_ext (s t : slen T) : sl_stack s = sl_stack t -> length (sl_lens s) = length (sl_lens t) -> (forall l, lamR s l = lamR t l) -> s = t.
Proof.
  destruct s as [a ls], t as [b ms]. cbn [sl_stack sl_lens]. intros <- El E. f_equal. apply ext_nth. intro k. specialize (E k). unfold lamR in E. cbn [sl_lens] in E.
  destruct (nth_error ls k) as [x|] eqn:Ex, (nth_error ms k) as [y|] eqn:Ey; try reflexivity.
  - f_equal. apply val_inj. exact E.
  - apply nth_error_None in Ey. assert (k < length ls) by (apply nth_error_Some; congruence). lia.
  - apply nth_error_None in Ex. assert (k < length ms) by (apply nth_error_Some; congruence). lia.
Qed.

Lemma cmp_unique (c d : comparison) (P Q : Prop) : (c = Lt <-> P) -> (c = Eq <-> Q) -> (d = Lt <-> P) -> (d = Eq <-> Q) -> c = d.
Proof. destruct c, d; intuition congruence. Qed.

Notation ok s l := (known (li_base L s) l).

Lemma push_sim s l : sound s -> ok s l -> exists s', li_push L l s = Ok s' /\ sound s' /\ li_base L s' = sl_push l (li_base L s).
Proof.
  intros H K. destruct (ct_push L sound CT s l H K) as (s' & E & H' & A & B). exists s'. split; [exact E|]. split; [exact H'|].
  destruct (li_base L s') as [st ls]. cbn in A, B. subst. reflexivity.
Qed.

Lemma pop_sim s st l : sound s -> ok s l -> sl_stack (li_base L s) = st ++ [l] -> exists s', li_pop L s = Ok s' /\ sound s' /\ li_base L s' = mkslen st (sl_lens (li_base L s)).
Proof.
  intros H K Q. destruct (ct_pop L sound CT s st l H Q K) as (s' & E & H' & A & B). exists s'. split; [exact E|]. split; [exact H'|].
  destruct (li_base L s') as [st' ls]. cbn in A, B. subst. reflexivity.
Qed.

Lemma cmp1_sim s a : sound s -> (forall l, In l (a :: sl_stack (li_base L s)) -> ok s l) -> exists c, li_cmp1 L s a = Ok c /\ sl_cmp1 (li_base L s) a = Ok c /\
  (c = Lt <-> (total (lamR (li_base L s)) (sl_stack (li_base L s)) < lamR (li_base L s) a)%R).
Proof.
  intros H K. destruct (ct_cmp1 L sound CT s a H) as (c & E & A & B); [intros l I; apply K; exact I|].
  destruct (claim_C55_compare T O W (li_base L s) a a) as (t & c' & d & _ & _ & E' & _ & A' & B' & _); [intros l [<-|I]; apply K; [left; reflexivity|exact I]|].
  exists c. split; [exact E|]. rewrite E'. split; [f_equal; exact (cmp_unique c' c _ _ A' B' A B)|exact A].
Qed.

Lemma cmp2_sim s a b : sound s -> ok s a -> ok s b -> li_cmp2 L s a b = sl_cmp2 (li_base L s) a b.
Proof.
  intros H Ka Kb. destruct (ct_cmp2 L sound CT s a b H Ka Kb) as (c & E & A & B).
  destruct (claim_C55_compare T O W (mkslen [] (sl_lens (li_base L s))) a b) as (t & c' & d & _ & _ & _ & E' & _ & _ & A' & B'); [intros l [<-|[<-|[]]]; [apply Ka|apply Kb]|].
  change (sl_cmp2 (mkslen [] (sl_lens (li_base L s))) a b) with (sl_cmp2 (li_base L s) a b) in E'.
  rewrite E, E'. f_equal. exact (cmp_unique c d _ _ A B A' B').
Qed.

Lemma subtract_sim s v a : sound s -> (forall l, In l (a :: sl_stack (li_base L s)) -> ok s l) ->
  (total (lamR (li_base L s)) (sl_stack (li_base L s)) < lamR (li_base L s) a)%R ->
  exists s', li_subtract L v a s = Ok s' /\ sound s' /\ sl_subtract a (li_base L s) = Ok (li_base L s').
Proof.
  intros H K Lt. destruct (ct_subtract L sound CT s v a H K Lt) as (s' & E & H' & A & B & C & D). exists s'. split; [exact E|]. split; [exact H'|].
  destruct (claim_C56_subtract T O W (li_base L s) a K) as (Q & _). destruct (Q Lt) as (t & E' & A' & B' & C' & D'). rewrite E'. f_equal.
  apply slen_ext; [congruence|congruence|]. intro l. destruct (Nat.eq_dec l a) as [->|N]; [congruence|]. rewrite (D l N), (D' l N). reflexivity.
Qed.

Lemma cycled_step (f : nat -> R) st n : st <> [] -> cycled f st (Datatypes.S n) = (cycled f st n + f (nth (n mod length st) st 0%nat))%R.
Proof. intro N. unfold cycled. rewrite seq_S, map_app, total_app. cbn. lra. Qed.

Lemma cycled_le (f : nat -> R) st n m : st <> [] -> (forall l, In l st -> (0 < f l)%R) -> n <= m -> (cycled f st n <= cycled f st m)%R.
Proof.
  intros N P. induction 1 as [|m _ IH]; [lra|]. rewrite cycled_step by assumption. specialize (P (nth (m mod length st) st 0)).
  assert (In (nth (m mod length st) st 0) st) by (apply nth_In, Nat.mod_upper_bound; destruct st; [congruence|discriminate]). specialize (P H). lra.
Qed.

Lemma subrep_sim s v a : sound s -> (forall l, In l (a :: sl_stack (li_base L s)) -> ok s l) -> ~ In a (sl_stack (li_base L s)) -> sl_stack (li_base L s) <> [] ->
  (total (lamR (li_base L s)) (sl_stack (li_base L s)) < lamR (li_base L s) a)%R ->
  exists r s', li_subrep L v a s = Ok (r, s') /\ sound s' /\ sl_subrep a (li_base L s) = Ok (r, li_base L s').
Proof.
  intros H K Na Ne Lt. destruct (ct_subrep L sound CT s v a H K Na Ne Lt) as (n & s' & Ln & E & H' & A & B & D & C & (P1 & P2)).
  destruct (claim_C56_repeated T O W (li_base L s) a K Na Ne Lt) as (m & t & Lm & E' & A' & B' & D' & C' & (P1' & P2')).
  assert (Ps : forall l, In l (sl_stack (li_base L s)) -> (0 < lamR (li_base L s) l)%R) by (intros l I; apply K; right; exact I).
  assert (m = n) as ->.
  { rewrite C in P1, P2. rewrite C' in P1', P2'. pose proof (cycled_step (lamR (li_base L s)) _ n Ne) as Sn. pose proof (cycled_step (lamR (li_base L s)) _ m Ne) as Sm.
    destruct (Nat.lt_trichotomy m n) as [G|[G|G]]; [exfalso|exact G|exfalso].
    - pose proof (cycled_le (lamR (li_base L s)) _ (Datatypes.S m) n Ne Ps G). lra.
    - pose proof (cycled_le (lamR (li_base L s)) _ (Datatypes.S n) m Ne Ps G). lra. }
  eexists _, s'. split; [exact E|]. split; [exact H'|]. rewrite E'. do 2 f_equal.
  apply slen_ext; [congruence|congruence|]. intro l. destruct (Nat.eq_dec l a) as [->|N]; [congruence|]. rewrite (D l N), (D' l N). reflexivity.
Qed.

(** The simulation relation between the results. *)
Definition simulates {A} (r : res (A * slen T)) (r' : res (A * S)) : Prop :=
  both (fun x y => fst y = fst x /\ sound (snd y) /\ li_base L (snd y) = snd x) r r'.

Lemma zloop_sim v a rest : forall rpre s, sound s -> sl_stack (li_base L s) = rev rpre -> (forall l, In l (a :: rpre ++ rest) -> ok s l) -> ~ In a rpre -> In a rest ->
  (rpre = [] -> hd_error rest <> Some a) -> (total (lamR (li_base L s)) (rev rpre) < lamR (li_base L s) a)%R ->
  simulates (zloop sample_lens v a rpre rest (li_base L s)) (zloop L v a rpre rest s).
Proof.
  induction rest as [|b rest IH]; intros rpre s H St K Na Ia Hd Lt; [destruct Ia|]. cbn [zloop]. destruct (Nat.eqb_spec b a) as [->|Nb].
  - assert (Ne : sl_stack (li_base L s) <> []) by (rewrite St; intro Z; apply (f_equal (@rev _)) in Z; rewrite rev_involutive in Z; exact (Hd Z eq_refl)).
    destruct (subrep_sim s v a H) as (r & s' & E & H' & E'); [intros l [<-|I]; apply K; [left; reflexivity|right; apply in_or_app; left; apply in_rev; rewrite <- St; exact I]|rewrite St, <- in_rev; exact Na|exact Ne|rewrite St; exact Lt|].
    cbn [sample_lens li_subrep]. rewrite E, E'. cbn [bind]. destruct (Nat.eqb a r); [exact I|]. destruct (back_to r rpre); [cbn; auto|exact I].
  - assert (Kb : ok s b) by (apply K; right; apply in_or_app; right; left; reflexivity).
    destruct (push_sim s b H Kb) as (s1 & E1 & H1 & B1). cbn [sample_lens li_push]. rewrite E1. cbn [bind].
    assert (St1 : sl_stack (li_base L s1) = rev (b :: rpre)) by (rewrite B1; cbn; rewrite St; reflexivity).
    assert (Ln1 : sl_lens (li_base L s1) = sl_lens (li_base L s)) by (rewrite B1; reflexivity).
    assert (La1 : forall l, lamR (li_base L s1) l = lamR (li_base L s) l) by (intro; unfold lamR; rewrite Ln1; reflexivity).
    assert (K1 : forall l, ok s l -> ok s1 l) by (intros l; unfold known; rewrite Ln1, La1; auto).
    destruct (cmp1_sim s1 a H1) as (c & E2 & E2' & Lc).
    { rewrite St1. intros l [<-|I]; apply K1, K; [left; reflexivity|]. apply in_rev in I. destruct I as [<-|I]; right; apply in_or_app; [right; left; reflexivity|left; exact I]. }
    cbn [sample_lens li_cmp1]. rewrite E2. rewrite B1 in E2'. rewrite E2'. cbn [bind].
    assert (Go : simulates (s <- sl_pop (sl_push b (li_base L s)) ;; s <- sl_subtract a s ;; Ok (rpre, s)) (s <- li_pop L s1 ;; s <- li_subtract L v a s ;; Ok (rpre, s))).
    { destruct (pop_sim s1 (sl_stack (li_base L s)) b H1 (K1 b Kb)) as (s2 & E3 & H2 & B2); [rewrite B1; reflexivity|].
      rewrite E3. cbn [bind]. rewrite (proj1 (claim_C55_stack T O (li_base L s) b)). cbn [bind].
      assert (B3 : li_base L s2 = li_base L s) by (rewrite B2, Ln1; destruct (li_base L s); reflexivity).
      destruct (subtract_sim s2 v a H2) as (s3 & E4 & H3 & E4'); rewrite ?B3, ?St; [|exact Lt|].
      - intros l [<-|I]; apply K; [left; reflexivity|right; apply in_or_app; left; apply in_rev; exact I].
      - rewrite B3 in E4'. rewrite E4, E4'. cbn. auto. }
    destruct c; [exact Go| |exact Go]. rewrite <- B1. apply IH; [exact H1|exact St1| | |..].
    + intros l [<-|I]; apply K1, K; [left; reflexivity|]. right. rewrite in_app_iff in *. cbn in *. tauto.
    + intros [->|I]; [congruence|exact (Na I)].
    + destruct Ia as [->|I]; [congruence|exact I].
    + discriminate.
    + rewrite <- St1. apply Lc. reflexivity.
Qed.

Lemma zorich_sim i s : sound s -> wf i (li_base L s) -> simulates (zorich sample_lens i (li_base L s)) (zorich L i s).
Proof.
  intros H Wf. pose proof Wf as (ND & P & Ne & K & St). pose proof (zorich_ok i _ Wf) as (f & bt & t & Ez & Wz & _ & _ & _ & Lz & _).
  assert (Kt : forall l : nat, In l (i_top i) -> ok s l).
  { intros l I. destruct (K l I) as (x & E & Px). split; [apply nth_error_Some; congruence|]. unfold lamR. rewrite E. exact Px. }
  assert (Kb : forall l, In l (i_bottom i) -> ok s l) by (intros l I; apply Kt; exact (Permutation_in _ (Permutation_sym P) I)).
  revert Ez. unfold zorich. destruct (i_top i) as [|a X] eqn:Et; [congruence|]. destruct (i_bottom i) as [|b Y] eqn:Eb; [discriminate|].
  destruct (Nat.eqb_spec a b) as [->|N]; [intros _; cbn; auto|]. rewrite <- Eb in *.
  pose proof (zloop_sim (i_view i) a (i_bottom i) [] s H St) as Z. cbn [rev app total] in Z.
  assert (Ia : In a (i_bottom i)) by (apply (Permutation_in _ P); left; reflexivity).
  specialize (Z ltac:(intros l [<-|I]; [apply Kt; left; reflexivity|exact (Kb l I)]) ltac:(intros []) Ia ltac:(intros _; rewrite Eb; cbn; congruence) (proj2 (Kt a (or_introl eq_refl)))).
  unfold simulates, both in Z. destruct (zloop sample_lens (i_view i) a [] (i_bottom i) (li_base L s)) as [[r t1]| | | |], (zloop L (i_view i) a [] (i_bottom i) s) as [[r' s1]| | | |]; try contradiction; cbn [bind]; try discriminate.
  cbn [fst snd] in Z. destruct Z as (-> & H1 & <-). destruct (splice a (i_bottom i) (length r)) as [bot| | | |] eqn:Es; cbn [bind]; try discriminate.
  destruct bot as [|b' bot]; [discriminate|]. intro Ez. cbn [sample_lens li_cmp2] in Ez |- *.
  destruct (sl_cmp2 (li_base L s1) a b') as [c| | | |] eqn:Ec; cbn [bind] in Ez; try discriminate. injection Ez as _ Hb Ht.
  assert (M : forall l, In l (i_top i) -> ok s1 l).
  { intros l I. destruct Wz as (_ & _ & _ & Kz & _). rewrite <- Hb, <- Ht in Kz. destruct (Kz l ltac:(cbn; exact I)) as (x & E & Px). split; [apply nth_error_Some; congruence|]. unfold lamR. rewrite E. exact Px. }
  rewrite cmp2_sim; [rewrite Ec; cbn; auto|exact H1|apply M; rewrite Et; left; reflexivity|].
  apply M. destruct Wz as (_ & Pz & _). rewrite <- Hb in Pz. cbn in Pz. apply (Permutation_in _ (Permutation_sym Pz)). left. reflexivity.
Qed.

Lemma iteration_sim i s : sound s -> good i (li_base L s) -> simulates (iteration sample_lens i (li_base L s)) (iteration L i s).
Proof.
  intros H G. destruct (good_zorich i _ G) as (f & i1 & t1 & E & G1 & _). pose proof (zorich_sim i s H (proj1 G)) as Z.
  unfold iteration. rewrite E in Z |- *. unfold simulates, both in Z. destruct (zorich L i s) as [[x s1]| | | |]; try contradiction.
  cbn [fst snd] in Z. destruct Z as (-> & H1 & <-). cbn [bind]. destruct f; [cbn; auto|].
  pose proof (zorich_sim (iet_swap i1) s1 H1 (proj1 (good_swap _ _ G1))) as Z. unfold simulates, both in Z.
  destruct (zorich sample_lens (iet_swap i1) (li_base L s1)) as [[[f2 i2] t2]| | | |], (zorich L (iet_swap i1) s1) as [[x2 s2]| | | |]; try contradiction; try exact I.
  cbn [fst snd] in Z. destruct Z as (-> & H2 & <-). cbn. auto.
Qed.

Lemma loop_sim saf0 limit : (limit <= INT_MAX)%Z -> forall fuel n i s, sound s -> good i (li_base L s) ->
  simulates (induce_loop sample_lens fuel saf0 limit n i (li_base L s)) (induce_loop L fuel saf0 limit n i s).
Proof.
  intros HL fuel. induction fuel as [|fuel IH]; intros n i s H Hg; [exact I|]. rewrite !iteration_unfold.
  destruct (negb ((limit =? -1)%Z || (n <? limit)%Z)); [cbn; auto|].
  destruct (tracking_ok saf0 i _ Hg) as (b & i1 & E1 & R1 & _ & _ & K1 & K1' & _). change (li_base sample_lens (li_base L s)) with (li_base L s). rewrite E1. cbn [bind].
  destruct b; [cbn; auto|].
  pose proof (r_wf _ _ _ _ R1) as H1. pose proof (r_cache _ _ _ _ R1) as C1.
  destruct (iteration_ok i1 _ H1 C1) as (f & i2 & s2 & E2 & R2 & Et & _ & Hf & Hdec).
  assert (Z : simulates (iteration sample_lens i1 (li_base L s)) (iteration L i1 s)).
  { clear - CT H H1. unfold iteration.
    pose proof (zorich_sim i1 s H H1) as Z. destruct (zorich_ok i1 _ H1) as (f & bt & t & Ez & Wz & _). rewrite Ez in Z |- *. unfold simulates, both in Z.
    destruct (zorich L i1 s) as [[x s1]| | | |]; try contradiction. cbn [fst snd] in Z. destruct Z as (-> & H2 & <-). cbn [bind]. destruct f; [cbn; auto|].
    pose proof (zorich_sim (iet_swap (set_bottom i1 bt)) s1 H2 (swap_wf _ _ Wz)) as Z. unfold simulates, both in Z.
    destruct (zorich sample_lens (iet_swap (set_bottom i1 bt)) (li_base L s1)) as [[[f2 i2] t2]| | | |], (zorich L (iet_swap (set_bottom i1 bt)) s1) as [[x2 s2]| | | |]; try contradiction; try exact I.
    cbn [fst snd] in Z. destruct Z as (-> & H3 & <-). cbn. auto. }
  rewrite E2 in Z |- *. unfold simulates, both in Z. destruct (iteration L i1 s) as [[x s2']| | | |]; try contradiction. cbn [fst snd] in Z. destruct Z as (-> & H2 & <-). cbn [bind].
  destruct f; [cbn; auto|]. destruct (n =? INT_MAX)%Z; [exact I|]. apply IH; [exact H2|].
  split; [exact (r_wf _ _ _ _ R2)|]. split; [exact (r_cache _ _ _ _ R2)|].
  exact (trk_extend False True i1 _ i2 _ H1 K1 R2 Et ltac:(intros _; right; apply Hdec; reflexivity)).
Qed.

Lemma finish_sim limit i0 t0 found i s : sound s -> wf i0 t0 -> i_size i0 <> 1 -> loop_post limit i0 t0 (Some found) i (li_base L s) ->
  simulates (induce_finish sample_lens found i (li_base L s)) (induce_finish L found i s).
Proof.
  intros H W0 N0 HP. destruct (finish_ok limit i0 t0 found i _ W0 N0 HP) as (st & i' & E & _). revert E. unfold induce_finish.
  change (li_base sample_lens (li_base L s)) with (li_base L s). 
  destruct HP as (R & _). pose proof (r_wf _ _ _ _ R) as (ND & P & Ne & K & St).
  assert (Kt : forall l : nat, In l (i_top i) -> ok s l).
  { intros l I. destruct (K l I) as (x & E & Px). split; [apply nth_error_Some; congruence|]. unfold lamR. rewrite E. exact Px. }
  assert (Kb : forall l, In l (i_bottom i) -> ok s l) by (intros l I; apply Kt; exact (Permutation_in _ (Permutation_sym P) I)).
  destruct (reduce i (li_base L s)) as [[[rgt|] i1]| | | |] eqn:Er; cbn [bind]; try discriminate.
  - destruct (rev (i_bottom i1)), (rev (i_top i1)); try discriminate. intros _. cbn. auto.
  - assert (i1 = i) as -> by (destruct (reduce_ok i _ (r_wf _ _ _ _ R)) as [(k & _ & _ & Q)|(_ & Q)]; rewrite Er in Q; [discriminate|injection Q as ->; reflexivity]).
    destruct (i_top i) as [|a X] eqn:Et; [discriminate|]. destruct (i_bottom i) as [|b Y] eqn:Eb; [discriminate|].
    rewrite (cmp2_sim s a b H (Kt a (or_introl eq_refl)) (Kb b (or_introl eq_refl))). change (li_cmp2 sample_lens (li_base L s) a b) with (sl_cmp2 (li_base L s) a b).
    destruct (sl_cmp2 (li_base L s) a b) as [[]| | | |]; cbn [bind]; try discriminate.
    + destruct (merge_first i); cbn [bind]; try discriminate. intros _. cbn. auto.
    + unfold assert_. destruct found; cbn [negb]; [discriminate|]. destruct (bosh_no_periodic i (li_base L s)) as [[z i2]| | | |]; cbn [bind]; try discriminate. intros _. cbn. auto.
    + unfold assert_. destruct found; cbn [negb]; [discriminate|]. destruct (bosh_no_periodic i (li_base L s)) as [[z i2]| | | |]; cbn [bind]; try discriminate. intros _. cbn. auto.
Qed.

Lemma induce_sim limit fuel i s : (limit <= INT_MAX)%Z -> sound s -> good i (li_base L s) ->
  simulates (induce sample_lens fuel limit i (li_base L s)) (induce L fuel limit i s).
Proof.
  intros HL H Hg. pose proof Hg as (Wf & C & K). unfold induce. destruct (Nat.eqb_spec (i_size i) 1) as [E1|E1]; [cbn; auto|].
  destruct (Z.eqb_spec limit 0) as [E0|E0].
  { cbn [bind]. apply (finish_sim limit i (li_base L s)); [exact H|exact Wf|exact E1|]. split; [apply reach_refl; assumption|]. split; [exact K|lia]. }
  destruct (iet_saf0_ok i _ Wf C) as (v & Ev & C' & _). change (li_base sample_lens (li_base L s)) with (li_base L s). rewrite Ev. cbn [bind].
  assert (Hg' : good (set_saf i (Some v)) (li_base L s)) by (apply good_set_saf; assumption).
  pose proof (loop_ok (vis0 (saf_now i (li_base L s))) limit HL fuel 0%Z _ _ Hg') as Q. cbv zeta in Q.
  pose proof (loop_sim (vis0 (saf_now i (li_base L s))) limit HL fuel 0%Z _ s H Hg') as Z. unfold simulates, both in Z.
  destruct (induce_loop sample_lens fuel (vis0 (saf_now i (li_base L s))) limit 0 (set_saf i (Some v)) (li_base L s)) as [[[f i1] t1]| | | |],
    (induce_loop L fuel (vis0 (saf_now i (li_base L s))) limit 0 (set_saf i (Some v)) s) as [[x s1]| | | |]; try contradiction; try exact I.
  cbn [fst snd] in Z. destruct Z as (-> & H1 & <-). cbn [bind]. destruct f as [found|]; [|cbn; auto].
  destruct Q as [[Q _]|[[Q _]|(f' & i1' & s1' & Q & R & Q2)]]; try discriminate. injection Q as <- <- <-.
  apply (finish_sim limit (set_saf i (Some v)) (li_base L s)); [exact H1|exact Wf|exact E1|]. split; [exact R|exact Q2].
Qed.

Lemma call_sim o i s : op_legal o -> sound s -> good i (li_base L s) ->
  both (fun x y => fst y = fst x /\ sound (snd y) /\ li_base L (snd y) = snd x) (call o i (li_base L s)) (call_with L o i s).
Proof.
  intros Ho H G. destruct o as [| | |fuel limit| | | |t m]; cbn [call call_with].
  - cbn. auto.
  - pose proof (zorich_sim i s H (proj1 G)) as Z. unfold simulates, both in Z.
    destruct (zorich sample_lens i (li_base L s)) as [[[f i1] t1]| | | |], (zorich L i s) as [[x s1]| | | |]; try contradiction; try exact I.
    cbn [fst snd] in Z. destruct Z as (-> & H1 & <-). cbn. auto.
  - destruct (reduce i (li_base L s)) as [[[r|] i1]| | | |]; cbn; auto.
  - cbn in Ho. pose proof (induce_sim limit fuel i s (proj2 Ho) H G) as Z. unfold simulates, both in Z.
    destruct (induce sample_lens fuel limit i (li_base L s)) as [[[st i1] t1]| | | |], (induce L fuel limit i s) as [[x s1]| | | |]; try contradiction; try exact I.
    cbn [fst snd] in Z. destruct Z as (-> & H1 & <-). cbn. auto.
  - destruct (saf_invariant i (li_base L s)) as [[v i1]| | | |]; cbn; auto.
  - destruct (bosh_no_periodic i (li_base L s)) as [[v i1]| | | |]; cbn; auto.
  - destruct (bosh_no_saddle i (li_base L s)) as [v| | | |]; cbn; auto.
  - destruct (bosh_no_saddle2 i (li_base L s) t m) as [v| | | |]; cbn; auto.
Qed.

Lemma call_op o (i : iet T) (s : slen T) a i' extra s' : call o i s = Ok (a, i', extra, s') -> run_op o i s = Ok (i', extra, s').
Proof.
  destruct o; cbn [call run_op]; intro E.
  1: injection E as <- <- <- <-; reflexivity.
  all: match type of E with bind ?m _ = _ => destruct m as [x| | | |]; cbn [bind] in E |- *; try discriminate end.
  - destruct x as [[f i1] s1]. injection E as <- <- <- <-. reflexivity.
  - destruct x as [[r|] i1]; injection E as <- <- <- <-; reflexivity.
  - destruct x as [[st i1] s1]. injection E as <- <- <- <-. reflexivity.
  - destruct x as [v i1]. injection E as <- <- <- <-. reflexivity.
  - destruct x as [v i1]. injection E as <- <- <- <-. reflexivity.
  - injection E as <- <- <- <-. reflexivity.
  - injection E as <- <- <- <-. reflexivity.
Qed.

Lemma run_sim p : Forall (fun x => op_legal (snd x)) p -> forall pool s, sound s -> history pool (li_base L s) ->
  both (fun x y => fst y = fst x /\ sound (snd y) /\ li_base L (snd y) = snd x) (run p pool (li_base L s)) (run_with L p pool s).
Proof.
  induction 1 as [|[n o] p Ho _ IH]; intros pool s H Hh; cbn [run run_with]; [cbn; auto|].
  destruct (nth_error pool n) as [i|] eqn:En; [|exact I]. cbn [snd] in Ho.
  pose proof (call_sim o i s Ho H (obtainable_good i _ (ex_intro _ pool (conj Hh (nth_error_In _ _ En))))) as Z. unfold both in Z.
  destruct (call o i (li_base L s)) as [[[[a i'] extra] t1]| | | |] eqn:Ec, (call_with L o i s) as [[x s1]| | | |]; try contradiction; try exact I.
  cbn [fst snd] in Z. destruct Z as (-> & H1 & <-). cbn [bind].
  assert (Hh1 : history (firstn n pool ++ i' :: extra ++ skipn (Datatypes.S n) pool) (li_base L s1)).
  { apply (h_op _ i _ (li_base L s) o); [|exact Ho|exact (call_op _ _ _ _ _ _ _ Ec)].
    replace (firstn n pool ++ i :: skipn (Datatypes.S n) pool) with pool; [exact Hh|].
    clear - En. revert n En. induction pool as [|x pool IH]; intros [|n] En; try discriminate; cbn in *; [injection En as ->; reflexivity|]. f_equal. exact (IH n En). }
  specialize (IH _ s1 H1 Hh1). unfold both in IH.
  destruct (run p _ (li_base L s1)) as [[[rest pool'] t2]| | | |], (run_with L p _ s1) as [[y s2]| | | |]; try contradiction; try exact I.
  cbn [fst snd] in IH. destruct IH as (-> & H2 & <-). cbn. auto.
Qed.

End Lens.
Lemma claim_C90_any : forall (T : Type) (O : LenOps T) (W : LenLaws T) (S : Type) (L : lens T S) (sound : S -> Prop) (s : S)
    (top bottom : list label) (p : list (nat * op)),
  contract L sound -> sound s -> sl_stack (li_base L s) = [] -> valid_input (li_base L s) top bottom -> Forall (fun x => op_legal (snd x)) p ->
  both (fun r r' => fst (fst r') = fst (fst r) /\ snd (fst r') = snd (fst r) /\ li_base L (snd r') = snd r /\ sound (snd r'))
    (session top bottom p (li_base L s)) (session_with L top bottom p s).
Proof.
  intros T O W S L sound s top bottom p CT H St V Hp. unfold session, session_with.
  destruct (iet_make (li_base L s) top bottom) as [i| | | |] eqn:Ei; cbn [bind]; try exact I.
  assert (Hh : history [i] (li_base L s)).
  { apply (h_new [] _ top bottom); [|exact V|intros ? _ []|exact Ei]. destruct (li_base L s) as [st ls]. cbn in St. subst. constructor. }
  pose proof (run_sim L sound CT p Hp [i] s H Hh) as Z. unfold both in *.
  destruct (run p [i] (li_base L s)) as [[[a q] t]| | | |], (run_with L p [i] s) as [[y s2]| | | |]; try contradiction; try exact I.
  cbn [fst snd] in Z. destruct Z as (-> & H2 & <-). auto.
Qed.

Lemma claim_C90_sample : forall (T : Type) (O : LenOps T) (W : LenLaws T), contract sample_lens (fun _ : slen T => True).
Proof.
  intros T O W. constructor; cbn [sample_lens li_base li_push li_pop li_cmp1 li_cmp2 li_subtract li_subrep].
  - intros s l _ _. eexists. split; [reflexivity|]. auto.
  - intros s st l _ E _. unfold sl_pop. rewrite E. destruct (st ++ [l]) as [|x y] eqn:Z; [destruct st; discriminate|]. rewrite <- Z.
    rewrite removelast_last. eexists. split; [reflexivity|]. auto.
  - intros s a _ K. destruct (claim_C55_compare T O W s a a) as (t & c' & d & _ & _ & E' & _ & A' & B' & _); [intros l [<-|I]; apply K; [left; reflexivity|exact I]|]. eauto.
  - intros s a b _ Ka Kb. destruct (claim_C55_compare T O W (mkslen [] (sl_lens s)) a b) as (t & c' & d & _ & _ & _ & E' & _ & _ & A' & B'); [intros l [<-|[<-|[]]]; [apply Ka|apply Kb]|].
    exists d. split; [exact E'|]. split; [exact A'|exact B'].
  - intros s v a _ K Lt. destruct (claim_C56_subtract T O W s a K) as (Q & _). destruct (Q Lt) as (t & E' & A' & B' & C' & D'). exists t. auto 8.
  - intros s v a _ K Na Ne Lt. destruct (claim_C56_repeated T O W s a K Na Ne Lt) as (m & t & Lm & E' & A' & B' & D' & C' & P). exists m, t. auto 10.
Qed.

Lemma claim_C90_cached : forall (T : Type) (O : LenOps T) (W : LenLaws T),
  contract (cached_lens (T := T)) cached_sound /\ forall ls : list T, cached_sound (mkslen [] ls, l_zero).
Proof.
  intros T O W.
  assert (At : forall (s : slen T) l, l < length (sl_lens s) -> exists x, sl_at s l = Ok x /\ val x = lamR s l).
  { intros s l Hl. unfold sl_at, lamR. destruct (nth_error (sl_lens s) l) as [x|] eqn:E; [eauto|apply nth_error_None in E; lia]. }
  assert (Cm : forall x y : T, (l_cmp x y = Lt <-> (val x < val y)%R) /\ (l_cmp x y = Eq <-> val x = val y)).
  { intros x y. pose proof (cmp_val x y) as C. destruct (l_cmp x y); split; split; intro; try discriminate; try reflexivity; try lra; exact C. }
  split; [|intro ls; unfold cached_sound; cbn [fst snd sl_stack total]; apply val_zero].
  constructor; cbn [cached_lens li_base li_push li_pop li_cmp1 li_cmp2 li_subtract li_subrep].
  - intros (s & c) l H K. cbn [fst] in *. destruct (At s l (proj1 K)) as (x & E & V). rewrite E. cbn [bind]. eexists. split; [reflexivity|]. split; [|auto].
    unfold cached_sound in *. cbn [fst snd sl_push sl_stack] in *. rewrite val_add, H, V, total_app. cbn [total]. 
    rewrite (total_ext (lamR (sl_push l s)) (lamR s)) by reflexivity. change (lamR (sl_push l s) l) with (lamR s l). lra.
  - intros (s & c) st l H E K. cbn [fst] in *. destruct (At s l (proj1 K)) as (x & Ex & V). rewrite E, rev_app_distr. cbn [rev app]. rewrite Ex. cbn [bind].
    unfold sl_pop. rewrite E. destruct (st ++ [l]) as [|y z] eqn:Z; [destruct st; discriminate|]. rewrite <- Z, removelast_last. cbn [bind]. eexists. split; [reflexivity|]. split; [|auto].
    unfold cached_sound in *. cbn [fst snd sl_stack] in *. rewrite val_sub, H, V, E, <- Z, total_app. cbn [total]. 
    rewrite (total_ext (lamR (mkslen st (sl_lens s))) (lamR s)) by reflexivity. lra.
  - intros (s & c) a H K. cbn [fst] in *. destruct (At s a (proj1 (K a (or_introl eq_refl)))) as (x & Ex & V). rewrite Ex. cbn [bind]. eexists. split; [reflexivity|].
    destruct (Cm c x) as (A & B). rewrite A, B, V. unfold cached_sound in H. cbn [fst snd] in H. rewrite H. split; reflexivity.
  - intros (s & c) a b H Ka Kb. cbn [fst] in *. destruct (claim_C55_compare T O W (mkslen [] (sl_lens s)) a b) as (t & c' & d & _ & _ & _ & E' & _ & _ & A' & B'); [intros l [<-|[<-|[]]]; [apply Ka|apply Kb]|].
    exists d. split; [exact E'|]. split; [exact A'|exact B'].
  - intros (s & c) v a H K Lt. cbn [fst] in *. destruct (At s a (proj1 (K a (or_introl eq_refl)))) as (x & Ex & V). rewrite Ex. cbn [bind].
    destruct (set_nth_some a (l_sub x c) (sl_lens s) (proj1 (K a (or_introl eq_refl)))) as (ls & Es).
    unfold sl_set. rewrite Es. cbn [bind]. eexists. split; [reflexivity|]. unfold cached_sound in *. cbn [fst snd sl_clear sl_stack sl_lens total] in *.
    split; [apply val_zero|]. split; [reflexivity|]. split; [exact (set_nth_length _ _ _ _ Es)|].
    split.
    + rewrite <- H, <- V, <- val_sub. unfold lamR. cbn [sl_clear sl_lens]. rewrite (set_nth_same _ _ _ _ Es). reflexivity.
    + intros b Nb. unfold lamR. cbn [sl_clear sl_lens]. rewrite (set_nth_other _ _ _ _ _ Es (not_eq_sym Nb)). reflexivity.
  - intros (s & c) v a H K Na Ne Lt. cbn [fst] in *. destruct (claim_C56_repeated T O W s a K Na Ne Lt) as (m & t & Lm & E' & A' & B' & D' & C' & P). rewrite E'. cbn [bind].
    exists m, (t, l_zero). split; [exact Lm|]. split; [reflexivity|]. split; [|auto 8]. unfold cached_sound. cbn [fst snd]. rewrite A'. apply val_zero.
Qed.

