(** Proofs of the properties in [PropMisc]. *)
From Coq Require Import Reals Lra Permutation String Ascii NArith.
From Verif Require Import Base QcTac LenT FM Subspace Lengths IET Decomp Misc Spec Api DecApi.
From Verif Require Import ZorichProof Dyn ReduceProof Saf InduceProof InduceCons World Seq.
From Verif Require Import DecompInv DecompRef DecompStep DecompAll DecompCons DecompBudget Fixtures DecFixtures.
From Verif Require Import LenInst.
Open Scope nat_scope.

Section Helpers.
Context {T : Type} {O : LenOps T} {W : LenLaws T}.

Lemma load_labels l : load_vec (T := T) load_label (save_vec save_label l) = Ok l.
Proof.
  unfold load_vec, save_vec. induction l as [|a l IH]; [reflexivity|]. cbn [map mapM save_label load_label bind].
  rewrite Nat2N.id, IH. reflexivity.
Qed.

Lemma load_lens l : load_vec (T := T) load_len (save_vec ALen l) = Ok l.
Proof. unfold load_vec, save_vec. induction l as [|a l IH]; [reflexivity|]. cbn [map mapM load_len bind]. rewrite IH. reflexivity. Qed.

Lemma wf_at (i : iet T) (s : slen T) l : wf i s -> In l (i_top i) -> exists x, sl_at s l = Ok x /\ lamR s l = val x /\ (0 < val x)%R.
Proof.
  intros (_ & _ & _ & Hp & _) Hl. destruct (Hp l Hl) as (x & E & P). exists x. unfold sl_at, lamR. rewrite E. auto.
Qed.

Lemma cmp_eq_iff (x y : T) : l_cmp x y = Eq <-> val x = val y.
Proof.
  pose proof (cmp_val x y) as C. destruct (l_cmp x y); split; intro H; try reflexivity; try discriminate; try exact C; lra.
Qed.

(** The answer of [operator==] on well-formed IETs. *)
Lemma same_lengths_ok (s t : slen T) ls : (forall l, In l ls -> exists x y, sl_at s l = Ok x /\ sl_at t l = Ok y) ->
  exists b, same_lengths s t ls = Ok b /\ (b = true <-> forall l, In l ls -> lamR s l = lamR t l).
Proof.
  induction ls as [|a ls IH]; intro H; [exists true; split; [reflexivity|split; [intros _ l []|auto]]|].
  destruct IH as (b & E & Hb); [intros l Hl; apply H; right; exact Hl|].
  destruct (H a) as (x & y & Ex & Ey); [left; reflexivity|].
  cbn [same_lengths]. rewrite Ex, Ey. cbn [bind].
  assert (Lx : lamR s a = val x). { unfold sl_at, lamR in *. destruct (nth_error (sl_lens s) a); [injection Ex as ->; reflexivity|discriminate]. }
  assert (Ly : lamR t a = val y). { unfold sl_at, lamR in *. destruct (nth_error (sl_lens t) a); [injection Ey as ->; reflexivity|discriminate]. }
  destruct (l_cmp x y) eqn:C.
  - exists b. split; [exact E|]. rewrite Hb. apply cmp_eq_iff in C. split.
    + intros Q l [<-|Hl]; [congruence|apply Q, Hl].
    + intros Q l Hl. apply Q. right. exact Hl.
  - exists false. split; [reflexivity|]. split; [discriminate|]. intro Q. specialize (Q a (or_introl eq_refl)).
    rewrite Lx, Ly in Q. apply cmp_eq_iff in Q. congruence.
  - exists false. split; [reflexivity|]. split; [discriminate|]. intro Q. specialize (Q a (or_introl eq_refl)).
    rewrite Lx, Ly in Q. apply cmp_eq_iff in Q. congruence.
Qed.

Lemma eqb_ok (i j : iet T) (s t : slen T) : wf i s -> wf j t ->
  exists b, iet_eqb i s j t = Ok b /\
    (b = true <-> i_top i = i_top j /\ i_bottom i = i_bottom j /\ forall l, In l (i_top i) -> lamR s l = lamR t l).
Proof.
  intros Hi Hj. unfold iet_eqb. destruct (list_eq_dec Nat.eq_dec (i_top i) (i_top j)) as [Et|Et]; cbn [andb].
  2: exists false; split; [reflexivity|]; split; [discriminate|intros (Q & _); contradiction].
  destruct (list_eq_dec Nat.eq_dec (i_bottom i) (i_bottom j)) as [Eb|Eb].
  2: exists false; split; [reflexivity|]; split; [discriminate|intros (_ & Q & _); contradiction].
  destruct (same_lengths_ok s t (i_top i)) as (b & E & Hb).
  { intros l Hl. destruct (wf_at i s l Hi Hl) as (x & Ex & _). rewrite Et in Hl. destruct (wf_at j t l Hj Hl) as (y & Ey & _). eauto. }
  exists b. split; [exact E|]. rewrite Hb. tauto.
Qed.

Lemma find_pos_split (X Y : list label) a : ~ In a X -> find_pos a (X ++ a :: Y) = length X.
Proof.
  induction X as [|x X IH]; intro H; cbn; [rewrite Nat.eqb_refl; reflexivity|].
  destruct (Nat.eqb_spec x a) as [->|]; [exfalso; apply H; left; reflexivity|]. rewrite IH; [reflexivity|]. intro C. apply H. right. exact C.
Qed.

Lemma find_pos_nth (l : list label) a d : In a l -> find_pos a l < length l /\ nth (find_pos a l) l d = a.
Proof.
  induction l as [|x l IH]; intros H; [destruct H|]. cbn. destruct (Nat.eqb_spec x a) as [->|N]; [split; [lia|reflexivity]|].
  destruct H as [->|H]; [contradiction|]. destruct (IH H). split; [lia|assumption].
Qed.

Lemma find_pos_map (f : label -> label) l a : (forall b, In b l -> f b = f a -> b = a) -> In a l -> find_pos (f a) (map f l) = find_pos a l.
Proof.
  induction l as [|x l IH]; intros H Ha; [destruct Ha|]. cbn. destruct (Nat.eqb_spec x a) as [->|N]; [rewrite Nat.eqb_refl; reflexivity|].
  destruct (Nat.eqb_spec (f x) (f a)) as [E|_]; [exfalso; apply N, H; [left; reflexivity|exact E]|].
  destruct Ha as [->|Ha]; [contradiction|]. rewrite IH; [reflexivity|intros b Hb; apply H; right; exact Hb|exact Ha].
Qed.

Lemma vec_eqb_ok (u v : list T) : vec_eqb u v = true <-> u = v.
Proof.
  unfold vec_eqb. revert v. induction u as [|x u IH]; intros [|y v]; cbn; split; intro H; try reflexivity; try discriminate.
  - apply andb_prop in H as [H1 H2]. apply andb_prop in H2 as [H2 H3]. destruct (l_cmp x y) eqn:C; try discriminate.
    apply cmp_eq_iff, val_inj in C. subst y. f_equal. apply IH. rewrite H1, H3. reflexivity.
  - injection H as <- <-. assert (C : l_cmp x x = Eq) by (apply cmp_eq_iff; reflexivity). rewrite C. exact (proj2 (IH u) eq_refl).
Qed.

Lemma tops_ok (i : iet T) (s : slen T) : wf i s -> exists u, mapM (sl_at s) (i_top i) = Ok u /\ map val u = map (lamR s) (i_top i).
Proof.
  intro H. assert (Q : forall l, incl l (i_top i) -> exists u, mapM (sl_at s) l = Ok u /\ map val u = map (lamR s) l).
  { induction l as [|a l IH]; intro Hl; [exists []; split; reflexivity|]. destruct IH as (u & E & M); [intros x Hx; apply Hl; right; exact Hx|].
    destruct (wf_at i s a H) as (x & Ex & Lx & _); [apply Hl; left; reflexivity|]. exists (x :: u). cbn [mapM]. rewrite Ex. cbn [bind]. rewrite E. cbn [bind map].
    split; [reflexivity|]. rewrite M, Lx. reflexivity. }
  apply Q. intros x Hx. exact Hx.
Qed.

Lemma map_val_inj (u v : list T) : map val u = map val v -> u = v.
Proof.
  revert v. induction u as [|x u IH]; intros [|y v] H; try discriminate; [reflexivity|]. injection H as H1 H2. apply val_inj in H1. subst y. f_equal. apply IH, H2.
Qed.

(** [f] renames the labels of one IET to those of the other. *)
Definition renames (f : label -> label) (i j : iet T) (s t : slen T) : Prop :=
  map f (i_top i) = i_top j /\ map f (i_bottom i) = i_bottom j /\ forall l, In l (i_top i) -> lamR t (f l) = lamR s l.

Lemma nodup_map_inj (f : label -> label) l a b : NoDup (map f l) -> In a l -> In b l -> f a = f b -> a = b.
Proof.
  induction l as [|x l IH]; intros N Ha Hb E; [destruct Ha|]. cbn in N. apply NoDup_cons_iff in N as [Nx N].
  destruct Ha as [->|Ha], Hb as [->|Hb]; [reflexivity| | |apply IH; assumption].
  - exfalso. apply Nx. rewrite E. apply in_map, Hb.
  - exfalso. apply Nx. rewrite <- E. apply in_map, Ha.
Qed.

Lemma map_eq_in (g h : label -> R) m l : In l m -> map g m = map h m -> g l = h l.
Proof. induction m as [|y m IH]; intros H E; [destruct H|]. injection E as E1 E2. destruct H as [->|H]; [exact E1|apply IH; assumption]. Qed.

Lemma equivalent_ok (i j : iet T) (s t : slen T) : wf i s -> wf j t ->
  exists b, iet_equivalent i s j t = Ok b /\ (b = true <-> exists f, renames f i j s t).
Proof.
  intros Hi Hj. unfold iet_equivalent. pose proof Hi as (Ni & Pi & _). pose proof Hj as (Nj & Pj & _).
  destruct (Nat.eqb_spec (i_size i) (i_size j)) as [Es|Es]; cbn [negb].
  2: { exists false. split; [reflexivity|]. split; [discriminate|]. intros (f & E & _). exfalso. apply Es. unfold i_size. rewrite <- E, map_length. reflexivity. }
  destruct (list_eq_dec Nat.eq_dec _ _) as [Ep|Ep]; cbn [negb].
  2: { exists false. split; [reflexivity|]. split; [discriminate|]. intros (f & E1 & E2 & _). exfalso. apply Ep. rewrite <- E1, <- E2, map_map.
       apply map_ext_in. intros b Hb. apply (Permutation_in _ (Permutation_sym Pi)) in Hb. symmetry. apply find_pos_map; [|exact Hb].
       intros c Hc E. apply (nodup_map_inj f (i_top i)); auto. rewrite E1. exact Nj. }
  destruct (tops_ok i s Hi) as (u & Eu & Mu). destruct (tops_ok j t Hj) as (v & Ev & Mv). rewrite Eu. cbn [bind]. rewrite Ev. cbn [bind].
  exists (vec_eqb u v). split; [reflexivity|]. rewrite vec_eqb_ok. split.
  - intros <-. exists (fun a => nth (find_pos a (i_top i)) (i_top j) 0).
    assert (E1 : map (fun a => nth (find_pos a (i_top i)) (i_top j) 0) (i_top i) = i_top j).
    { clear - Es Ni. unfold i_size in Es. 
      assert (Q : forall X Y, i_top i = X ++ Y -> map (fun a => nth (find_pos a (i_top i)) (i_top j) 0) Y = skipn (length X) (i_top j)).
      { intros X Y. revert X. induction Y as [|a Y IH]; intros X E.
        - cbn [map]. rewrite skipn_all2; [reflexivity|]. rewrite <- Es, E, app_nil_r. lia.
        - cbn [map]. rewrite (IH (X ++ [a])); [|rewrite <- app_assoc; exact E].
          assert (NX : ~ In a X). { rewrite E in Ni. apply NoDup_remove_2 in Ni. intro C. apply Ni, in_or_app. auto. }
          rewrite E at 1. rewrite (find_pos_split X Y a NX), app_length. cbn [length].
          assert (L : length X < length (i_top j)) by (rewrite <- Es, E, app_length; cbn; lia).
          revert L. generalize (i_top j) as l. generalize (length X) as k. clear. induction k as [|k IHk]; intros [|x l] L; cbn in *; try lia; [reflexivity|]. apply IHk. lia. }
      apply (Q [] (i_top i) eq_refl). }
    split; [exact E1|]. split.
    + rewrite <- (map_id (i_bottom j)).
      rewrite <- (map_map (fun b => find_pos b (i_top i)) (fun k => nth k (i_top j) 0)), Ep, map_map. apply map_ext_in. intros b Hb.
      apply find_pos_nth. exact (Permutation_in _ (Permutation_sym Pj) Hb).
    + intros l Hl. assert (M : map (fun a => lamR t (nth (find_pos a (i_top i)) (i_top j) 0)) (i_top i) = map (lamR s) (i_top i)).
      { rewrite <- (map_map (fun a => nth (find_pos a (i_top i)) (i_top j) 0) (lamR t)), E1, <- Mv. exact Mu. }
      exact (map_eq_in (fun a => lamR t (nth (find_pos a (i_top i)) (i_top j) 0)) (lamR s) (i_top i) l Hl M).
  - intros (f & E1 & E2 & L). apply map_val_inj. rewrite Mu, Mv, <- E1, map_map. symmetry. apply map_ext_in. exact L.
Qed.

Lemma renames_inv f (i j : iet T) (s t : slen T) : wf i s -> wf j t -> renames f i j s t -> exists g, renames g j i t s.
Proof.
  intros Hi Hj (E1 & E2 & L). pose proof Hi as (Ni & Pi & _). pose proof Hj as (Nj & Pj & _).
  set (g := fun b => nth (find_pos b (map f (i_top i))) (i_top i) 0).
  assert (G : forall a, In a (i_top i) -> g (f a) = a).
  { intros a Ha. unfold g. rewrite find_pos_map; [|intros b Hb E; apply (nodup_map_inj f (i_top i)); auto; rewrite E1; exact Nj|exact Ha]. apply find_pos_nth, Ha. }
  exists g. split; [|split].
  - rewrite <- E1, map_map. rewrite <- (map_id (i_top i)) at 2. apply map_ext_in, G.
  - rewrite <- E2, map_map. rewrite <- (map_id (i_bottom i)) at 2. apply map_ext_in. intros a Ha. apply G, (Permutation_in _ (Permutation_sym Pi) Ha).
  - intros b Hb. rewrite <- E1 in Hb. apply in_map_iff in Hb as (a & <- & Ha). rewrite G by exact Ha. symmetry. apply L, Ha.
Qed.

Lemma renames_total f (i : iet T) (s t : slen T) X : (forall l, In l (i_top i) -> lamR t (f l) = lamR s l) -> incl X (i_top i) ->
  total (lamR t) (map f X) = total (lamR s) X.
Proof.
  intros L. induction X as [|x X IH]; intro H; [reflexivity|]. cbn. rewrite L by (apply H; left; reflexivity). rewrite IH; [reflexivity|].
  intros y Hy. apply H. right. exact Hy.
Qed.

Lemma renames_maps f (i j : iet T) (s t : slen T) y z : wf i s -> renames f i j s t -> maps (exch_of i s) y z -> maps (exch_of j t) y z.
Proof.
  intros (_ & P & _) (E1 & E2 & L) (a & x & x' & w & (X & Y & Ea & -> & ->) & (X' & Y' & Eb & -> & _) & R & ->).
  cbn [exch_of e_top e_bot e_len] in *.
  assert (In1 : incl X (i_top i)) by (rewrite Ea; intros q Hq; apply in_or_app; auto).
  assert (In2 : incl X' (i_top i)) by (intros q Hq; apply (Permutation_in _ (Permutation_sym P)); rewrite Eb; apply in_or_app; auto).
  assert (Ha : In a (i_top i)) by (rewrite Ea; apply in_elt).
  exists (f a), (total (lamR s) X), (total (lamR s) X'), (lamR s a). cbn [exch_of e_top e_bot e_len]. split; [|split; [|split; [exact R|reflexivity]]].
  - exists (map f X), (map f Y). rewrite <- E1, Ea, map_app. split; [reflexivity|]. rewrite (renames_total f i s t X L In1). split; [reflexivity|symmetry; apply L, Ha].
  - exists (map f X'), (map f Y'). rewrite <- E2, Eb, map_app. split; [reflexivity|]. rewrite (renames_total f i s t X' L In2). split; [reflexivity|symmetry; apply L, Ha].
Qed.

Lemma obtainable_wf (i : iet T) (s : slen T) : obtainable i s -> wf i s.
Proof. intros H%obtainable_good. apply H. Qed.

Lemma nodup_length_ok (l : list label) : length (nodup Nat.eq_dec l) = length l <-> NoDup l.
Proof.
  split; intro H; [rewrite <- (nodup_nop l H); apply NoDup_nodup|]. rewrite nodup_fixed_point by exact H. reflexivity.
Qed.

Lemma bools_ok (s : slen T) top : forall bs, mapM (fun l => x <- sl_at s l ;; Ok (l_bool x)) top = Ok bs -> forallb (fun b => b) bs = true ->
  forall l, In l top -> exists x, nth_error (sl_lens s) l = Some x /\ val x <> 0%R.
Proof.
  induction top as [|a top IH]; intros bs E F l Hl; [destruct Hl|]. cbn [mapM] in E. apply bind_ok in E as (b & Eb & E). apply bind_ok in E as (bs' & E' & E).
  injection E as <-. cbn in F. apply andb_prop in F as [F1 F2]. destruct Hl as [<-|Hl]; [|exact (IH bs' E' F2 l Hl)].
  apply bind_ok in Eb as (x & Ex & Eb). injection Eb as <-. unfold sl_at in Ex. destruct (nth_error (sl_lens s) a) as [y|]; [|discriminate]. injection Ex as ->.
  exists x. split; [reflexivity|]. intro Q. unfold l_bool in F1. assert (C : l_cmp x l_zero = Eq) by (apply cmp_eq_iff; rewrite val_zero; exact Q). rewrite C in F1. discriminate.
Qed.

Lemma bools_ok' (s : slen T) top : (forall l, In l top -> exists x, nth_error (sl_lens s) l = Some x /\ val x <> 0%R) ->
  exists bs, mapM (fun l => x <- sl_at s l ;; Ok (l_bool x)) top = Ok bs /\ forallb (fun b => b) bs = true.
Proof.
  induction top as [|a top IH]; intro H; [exists []; split; reflexivity|]. destruct IH as (bs & E & F); [intros l Hl; apply H; right; exact Hl|].
  destruct (H a (or_introl eq_refl)) as (x & Ex & N). exists (true :: bs). cbn [mapM]. unfold sl_at at 1. rewrite Ex. cbn [bind]. rewrite E. cbn [bind].
  assert (B : l_bool x = true). { unfold l_bool. destruct (l_cmp x l_zero) eqn:C; try reflexivity. apply cmp_eq_iff in C. rewrite val_zero in C. contradiction. }
  rewrite B. split; [reflexivity|exact F].
Qed.

Lemma total_app len X Y : total len (X ++ Y) = (total len X + total len Y)%R.
Proof. induction X as [|x X IH]; cbn; [lra|rewrite IH; lra]. Qed.

End Helpers.

(** The value of a rendered name. *)
Definition code (c : ascii) : N := let n := N_of_ascii c in if (97 <=? n)%N then (n - 97)%N else (n - 65 + 26)%N.
Fixpoint name_value (l : list ascii) : N := match l with [] => 0%N | c :: l => (code c + 52 * name_value l)%N end.
Definition is_letter (c : ascii) : Prop := (97 <= N_of_ascii c <= 122)%N \/ (65 <= N_of_ascii c <= 90)%N.

Lemma digit_ok (k : N) : (k < 52)%N ->
  let c := if (k <? 26)%N then ascii_of_N (97 + k) else ascii_of_N (65 + (k - 26)) in code c = k /\ is_letter c.
Proof.
  intro H. cbv zeta. unfold code, is_letter. destruct (N.ltb_spec k 26).
  - rewrite N_ascii_embedding by lia. destruct (N.leb_spec 97 (97 + k)); lia.
  - rewrite N_ascii_embedding by lia. destruct (N.leb_spec 97 (65 + (k - 26))); lia.
Qed.

Lemma render_ok : forall fuel n ret, (n < 52 ^ N.of_nat fuel)%N -> ret <> [] ->
  exists l, render_loop (S fuel) n ret = Ok (ret ++ l) /\ name_value l = n /\ Forall is_letter l.
Proof.
  induction fuel as [|fuel IH]; intros n ret H Hr.
  - assert (n = 0%N) as -> by (cbn in H; lia). exists []. cbn [render_loop]. rewrite app_nil_r.
    destruct ret; [contradiction|]. split; [reflexivity|]. split; [reflexivity|constructor].
  - cbn [render_loop]. destruct (N.eqb_spec n 0) as [->|Hn]; cbn [negb orb].
    + exists []. rewrite app_nil_r. destruct ret; [contradiction|]. split; [reflexivity|]. split; [reflexivity|constructor].
    + set (c := if (n mod 52 <? 26)%N then _ else _).
      assert (M : (n mod 52 < 52)%N) by (apply N.mod_lt; discriminate). destruct (digit_ok _ M) as [Hc Lc]. fold c in Hc, Lc.
      destruct (IH (n / 52)%N (ret ++ [c])) as (l & E & V & F).
      * rewrite Nat2N.inj_succ, N.pow_succ_r' in H. apply N.div_lt_upper_bound; [discriminate|exact H].
      * destruct ret; discriminate.
      * exists (c :: l). cbn [render_loop] in E. rewrite E, <- app_assoc. split; [reflexivity|]. split; [|constructor; assumption].
        cbn [name_value]. rewrite Hc, V. rewrite (N.div_mod n 52) at 3 by discriminate. lia.
Qed.

Lemma size_pow (n : N) : (n < 52 ^ N.of_nat (N.size_nat n))%N.
Proof.
  assert (H : (n < 2 ^ N.of_nat (N.size_nat n))%N).
  { destruct n as [|p]; [reflexivity|]. cbn [N.size_nat]. induction p as [p IH|p IH|]; cbn [Pos.size_nat]; try (rewrite Nat2N.inj_succ, N.pow_succ_r'; lia). }
  eapply N.lt_le_trans; [exact H|]. apply N.pow_le_mono_l. discriminate.
Qed.

Lemma render_name id : exists l, render id = Ok l /\ l <> [] /\ name_value l = id /\ Forall is_letter l.
Proof.
  unfold render. set (f := N.size_nat id). assert (H : (id < 52 ^ N.of_nat f)%N) by apply size_pow.
  cbn [render_loop]. rewrite orb_true_r.
  set (c := if (id mod 52 <? 26)%N then _ else _).
  assert (M : (id mod 52 < 52)%N) by (apply N.mod_lt; discriminate). destruct (digit_ok _ M) as [Hc Lc]. fold c in Hc, Lc.
  destruct (render_ok f (id / 52)%N [c]) as (l & E & V & F).
  - eapply N.le_lt_trans; [|exact H]. apply N.div_le_upper_bound; [discriminate|]. lia.
  - discriminate.
  - exists (c :: l). cbn [app]. split; [exact E|]. split; [discriminate|]. split; [|constructor; assumption].
    cbn [name_value]. rewrite Hc, V. rewrite (N.div_mod id 52) at 3 by discriminate. lia.
Qed.

Lemma claim_C39_refuted : exists (i : iet Z) s d st d', obtainable i s /\ dec_make i s = Ok d /\ d_len d = s /\
  decomposition_step 100 (-1) 0 d = Ok (st, d') /\
  exists l, In l (i_top i) /\ lamR (d_len d') l <> lamR (d_len d) l.
Proof.
  exists z_iet, z_lens.
  destruct (dec_make z_iet z_lens) as [d| | | |] eqn:E; try (vm_compute in E; discriminate).
  assert (H : match (d <- dec_make z_iet z_lens ;; decomposition_step 100 (-1) 0 d) with
              | Ok (st, d') => nth_error (sl_lens (d_len d')) 0 = Some 3%Z | _ => False end) by (vm_compute; reflexivity).
  rewrite E in H. cbn [bind] in H. destruct (decomposition_step 100 (-1) 0 d) as [[st d']| | | |] eqn:E1; try contradiction.
  assert (L : d_len d = z_lens) by (destruct (made_ok z_iet z_lens d z_obtainable E) as (_ & _ & Q & _); exact Q).
  exists d, st, d'. split; [exact z_obtainable|]. split; [reflexivity|]. split; [exact L|]. split; [exact E1|].
  exists 0. split; [left; reflexivity|]. unfold lamR. rewrite H, L. cbn. lra.
Qed.

Lemma claim_C39_others : forall (T : Type) (O : LenOps T) (W : LenLaws T) (i : iet T) (s : slen T) tr d l,
  decomposition i s tr d -> ~ In l (i_top i) -> sl_at (d_len d) l = sl_at s l.
Proof.
  intros T O W i s tr d l H Hl. induction H as [d Hi E|tr d fuel limit c st d1 H IH HL Hc E].
  - destruct (made_ok i s d Hi E) as (_ & _ & Q & _). rewrite Q. reflexivity.
  - rewrite <- IH. destruct (step_history_post _ _ _ _ _ _ _ _ _ H HL Hc E) as (C1 & x & C2 & HD & _ & P).
    unfold sl_at. rewrite (sp_lens _ _ _ _ _ _ _ P l); [reflexivity|]. intro C. apply Hl. rewrite <- (history_keys _ _ _ _ H).
    apply (dk_label _ _ x l (history_ok _ _ _ _ H)); [rewrite HD; apply in_elt|exact C].
Qed.

Lemma claim_C40_roundtrip : forall (T : Type) (O : LenOps T) (W : LenLaws T) (i : iet T) (s : slen T), obtainable i s ->
  exists j, load_iet (save_iet i (Some s)) = Ok (j, Some s) /\ i_top j = i_top i /\ i_bottom j = i_bottom i /\
    exch_of j s = exch_of i s /\ iet_eqb i s j s = Ok true /\ iet_equivalent i s j s = Ok true /\
    exists v i' j', saf_invariant i s = Ok (v, i') /\ saf_invariant j s = Ok (v, j').
Proof.
  intros T O W i s H%obtainable_good. destruct H as (Hw & Hc & _). pose proof Hw as (N & P & Ne & Po & St).
  set (j := mkiet (i_top i) (i_bottom i) false None tracker_init : iet T).
  assert (Hj : wf j s) by exact Hw.
  exists j. split.
  - unfold load_iet, save_iet. cbn [String.eqb Ascii.eqb Bool.eqb andb]. rewrite !load_labels. cbn [bind load_ptr save_ptr load_lengths save_lengths String.eqb Ascii.eqb Bool.eqb andb].
    rewrite load_lens, load_labels. cbn [bind]. destruct s as [st ls]. cbn [sl_stack sl_lens] in *.
    rewrite (iet_make_ok (mkslen st ls) (i_top i) (i_bottom i) N P Ne Po). reflexivity.
  - split; [reflexivity|]. split; [reflexivity|]. split; [reflexivity|]. split; [|split].
    + destruct (eqb_ok i j s s Hw Hj) as (b & E & B). rewrite E. f_equal. apply B. split; [reflexivity|]. split; [reflexivity|]. reflexivity.
    + destruct (equivalent_ok i j s s Hw Hj) as (b & E & B). rewrite E. f_equal. apply B. exists (fun a => a).
      split; [apply map_id|]. split; [apply map_id|]. reflexivity.
    + destruct (saf_invariant_ok i s Hw Hc) as (v & E & _). destruct (saf_invariant_ok j s Hj I) as (v' & E' & _).
      exists (saf_now i s), (set_saf i (Some v)), (set_saf j (Some v')). split; [exact E|exact E'].
Qed.

Lemma claim_C40_lengths : forall (T : Type) (O : LenOps T) (s : slen T) (l : label),
  load_lengths (save_lengths s) = Ok s /\ load_label (T := T) (save_label l) = Ok l /\
  load_iet (save_iet (T := T) iet_default None) = Ok (iet_default, None).
Proof.
  intros T O s l. split; [|split; [|reflexivity]].
  - unfold load_lengths, save_lengths. cbn [String.eqb Ascii.eqb Bool.eqb andb]. rewrite load_lens, load_labels. destruct s. reflexivity.
  - cbn [load_label save_label]. rewrite Nat2N.id. reflexivity.
Qed.

Lemma claim_C40_refuted : exists (i : iet Z) s j, obtainable i s /\ load_iet (save_iet i (Some s)) = Ok (j, Some s) /\ i_swap i <> i_swap j.
Proof.
  exists (iet_swap z_iet), z_lens, (fresh [3; 2; 1; 0] [0; 1; 2; 3]). split; [|split; [vm_compute; reflexivity|discriminate]].
  apply (step_obtainable z_iet z_lens op_swap (iet_swap z_iet) [] z_lens); [exact z_obtainable|exact I|reflexivity|left; reflexivity].
Qed.

Lemma claim_C41_meaning : forall (T : Type) (O : LenOps T) (W : LenLaws T) (i j : iet T) (s t : slen T), obtainable i s -> obtainable j t ->
  exists b c, iet_eqb i s j t = Ok b /\ iet_equivalent i s j t = Ok c /\
    (b = true <-> i_top i = i_top j /\ i_bottom i = i_bottom j /\ forall l, In l (i_top i) -> lamR s l = lamR t l) /\
    (c = true <-> exists f, map f (i_top i) = i_top j /\ map f (i_bottom i) = i_bottom j /\ forall l, In l (i_top i) -> lamR t (f l) = lamR s l).
Proof.
  intros T O W i j s t Hi%obtainable_wf Hj%obtainable_wf. destruct (eqb_ok i j s t Hi Hj) as (b & E & B). destruct (equivalent_ok i j s t Hi Hj) as (c & E' & C).
  exists b, c. split; [exact E|]. split; [exact E'|]. split; [exact B|exact C].
Qed.

Lemma claim_C41_equivalence : forall (T : Type) (O : LenOps T) (W : LenLaws T) (i j k : iet T) (s t u : slen T),
  obtainable i s -> obtainable j t -> obtainable k u ->
  iet_eqb i s i s = Ok true /\ iet_equivalent i s i s = Ok true /\
  iet_eqb i s j t = iet_eqb j t i s /\ iet_equivalent i s j t = iet_equivalent j t i s /\
  (iet_eqb i s j t = Ok true -> iet_eqb j t k u = Ok true -> iet_eqb i s k u = Ok true) /\
  (iet_equivalent i s j t = Ok true -> iet_equivalent j t k u = Ok true -> iet_equivalent i s k u = Ok true) /\
  (iet_eqb i s j t = Ok true -> iet_equivalent i s j t = Ok true).
Proof.
  intros T O W i j k s t u Hi%obtainable_wf Hj%obtainable_wf Hk%obtainable_wf.
  assert (TF : forall (a b : bool), (a = true <-> b = true) -> a = b) by (intros [] [] Q; try reflexivity; destruct Q as [Q1 Q2]; [symmetry; apply Q1; reflexivity|apply Q2; reflexivity]).
  assert (Tr : forall (r : res bool) (P : Prop), (exists b, r = Ok b /\ (b = true <-> P)) -> (r = Ok true <-> P)).
  { intros r P (b & -> & Q). rewrite <- Q. split; [intro E; injection E; auto|intros ->; reflexivity]. }
  pose proof (Tr _ _ (eqb_ok i j s t Hi Hj)) as Eij. pose proof (Tr _ _ (equivalent_ok i j s t Hi Hj)) as Vij.
  split; [|split; [|split; [|split; [|split; [|split]]]]].
  - apply (Tr _ _ (eqb_ok i i s s Hi Hi)). auto.
  - apply (Tr _ _ (equivalent_ok i i s s Hi Hi)). exists (fun a => a). split; [apply map_id|]. split; [apply map_id|reflexivity].
  - destruct (eqb_ok i j s t Hi Hj) as (b & E & B), (eqb_ok j i t s Hj Hi) as (b' & E' & B'). rewrite E, E'. f_equal. apply TF. rewrite B, B'.
    split; intros (Q1 & Q2 & Q3); (split; [symmetry; exact Q1|]); (split; [symmetry; exact Q2|]); intros l Hl; symmetry; apply Q3; congruence.
  - destruct (equivalent_ok i j s t Hi Hj) as (b & E & B), (equivalent_ok j i t s Hj Hi) as (b' & E' & B'). rewrite E, E'. f_equal. apply TF. rewrite B, B'.
    split; intros (f & Q); [apply (renames_inv f i j s t Hi Hj Q)|apply (renames_inv f j i t s Hj Hi Q)].
  - rewrite Eij, (Tr _ _ (eqb_ok j k t u Hj Hk)), (Tr _ _ (eqb_ok i k s u Hi Hk)). intros (Q1 & Q2 & Q3) (R1 & R2 & R3).
    split; [congruence|]. split; [congruence|]. intros l Hl. rewrite Q3 by exact Hl. apply R3. rewrite <- Q1. exact Hl.
  - rewrite Vij, (Tr _ _ (equivalent_ok j k t u Hj Hk)), (Tr _ _ (equivalent_ok i k s u Hi Hk)). intros (f & Q1 & Q2 & Q3) (g & R1 & R2 & R3).
    exists (fun a => g (f a)). split; [rewrite <- (map_map f g), Q1; exact R1|]. split; [rewrite <- (map_map f g), Q2; exact R2|].
    intros l Hl. rewrite R3; [apply Q3, Hl|]. rewrite <- Q1. apply in_map, Hl.
  - rewrite Eij, Vij. intros (Q1 & Q2 & Q3). exists (fun a => a). unfold renames. rewrite !map_id. split; [exact Q1|]. split; [exact Q2|]. intros l Hl. symmetry. apply Q3, Hl.
Qed.

Lemma claim_C41_same_map : forall (T : Type) (O : LenOps T) (W : LenLaws T) (i j : iet T) (s t : slen T), obtainable i s -> obtainable j t ->
  iet_equivalent i s j t = Ok true -> forall y z, maps (exch_of i s) y z <-> maps (exch_of j t) y z.
Proof.
  intros T O W i j s t Hi%obtainable_wf Hj%obtainable_wf E y z. destruct (equivalent_ok i j s t Hi Hj) as (b & E' & B). rewrite E in E'. injection E' as <-.
  destruct (proj1 B eq_refl) as (f & Q). destruct (renames_inv f i j s t Hi Hj Q) as (g & R). split; intro M.
  - exact (renames_maps f i j s t y z Hi Q M).
  - exact (renames_maps g j i t s y z Hj R M).
Qed.

Lemma claim_C42_names : forall a b : N,
  exists x y, render a = Ok x /\ render b = Ok y /\ (x = y -> a = b) /\ x <> [] /\
    Forall (fun c => (97 <= N_of_ascii c <= 122)%N \/ (65 <= N_of_ascii c <= 90)%N) x.
Proof.
  intros a b. destruct (render_name a) as (x & Ex & Nx & Vx & Fx), (render_name b) as (y & Ey & _ & Vy & _).
  exists x, y. split; [exact Ex|]. split; [exact Ey|]. split; [intros ->; congruence|]. split; [exact Nx|exact Fx].
Qed.

Lemma claim_C44_refuted : exists (s : slen Z) top bottom i, iet_make s top bottom = Ok i /\ ~ Permutation top bottom /\
  zorich sample_lens i s = UB.
Proof.
  exists (mkslen [] [3; 4; 5]%Z), [2; 1], [1; 0], (fresh [2; 1] [1; 0]). split; [vm_compute; reflexivity|]. split; [|vm_compute; reflexivity].
  intro P. apply (Permutation_in 2) in P; [|left; reflexivity]. destruct P as [P|[P|[]]]; discriminate.
Qed.

Lemma claim_C44_partial : forall (T : Type) (O : LenOps T) (W : LenLaws T) (s : slen T) top bottom,
  (exists i, iet_make s top bottom = Ok i /\ i_top i = top /\ i_bottom i = bottom /\ i_swap i = false) <->
  (NoDup top /\ NoDup bottom /\ length top = length bottom /\ top <> [] /\
   forall l, In l top -> exists x, nth_error (sl_lens s) l = Some x /\ val x <> 0%R).
Proof.
  intros T O W s top bottom. split.
  - intros (i & E & _). unfold iet_make, assert_ in E.
    destruct (Nat.eqb_spec (length top) (length bottom)) as [L|]; [|discriminate].
    destruct (Nat.eqb_spec (length (nodup Nat.eq_dec top)) (length (nodup Nat.eq_dec bottom))) as [N1|]; [|discriminate].
    destruct (Nat.eqb_spec (length (nodup Nat.eq_dec top)) (length top)) as [N2|]; [|discriminate].
    apply bind_ok in E as (bs & Eb & E). destruct (forallb (fun b => b) bs) eqn:F; [|discriminate].
    destruct (Nat.eqb_spec (length top) 0) as [|Z]; [discriminate|].
    split; [apply nodup_length_ok, N2|]. split; [apply nodup_length_ok; congruence|]. split; [exact L|]. split; [intros ->; apply Z; reflexivity|].
    exact (bools_ok s top bs Eb F).
  - intros (N1 & N2 & L & Ne & H). exists (mkiet top bottom false None tracker_init). split; [|repeat split].
    unfold iet_make, assert_. rewrite L, Nat.eqb_refl. apply nodup_length_ok in N1, N2. rewrite N1, N2, L, Nat.eqb_refl.
    destruct (bools_ok' s top H) as (bs & E & F). rewrite E. cbn [bind]. rewrite F.
    destruct (Nat.eqb_spec (length bottom) 0) as [Z|]; [|reflexivity]. rewrite <- L in Z. destruct top; [contradiction|discriminate].
Qed.

Lemma claim_C45_only_forget : forall (T : Type) (O : LenOps T) (s : slen T) ls l,
  sl_at (sl_forget s) l = sl_at s l /\ sl_stack (sl_forget s) = [] /\ sl_stack (sl_only s ls) = [] /\
  (In l ls -> sl_at (sl_only s ls) l = sl_at s l) /\
  (~ In l ls -> l < length (sl_lens s) -> sl_at (sl_only s ls) l = Ok l_zero) /\
  sl_labels (sl_only s ls) = sl_labels s.
Proof.
  intros T O s ls l. split; [reflexivity|]. split; [reflexivity|]. split; [reflexivity|].
  assert (Q : forall (xs : list T) m k, nth_error (map (fun p => if memb (fst p) ls then snd p else l_zero) (combine (seq m (length xs)) xs)) k =
    match nth_error xs k with Some x => Some (if memb (m + k) ls then x else l_zero) | None => None end).
  { induction xs as [|x xs IH]; intros m [|k]; cbn [length seq combine map nth_error fst snd]; try reflexivity.
    - rewrite Nat.add_0_r. reflexivity.
    - rewrite IH. replace (S m + k) with (m + S k) by lia. reflexivity. }
  assert (M : memb l ls = true <-> In l ls).
  { unfold memb. rewrite existsb_exists. split; [intros (y & Hy & E); apply Nat.eqb_eq in E; subst; exact Hy|intro H; exists l; split; [exact H|apply Nat.eqb_refl]]. }
  split; [|split].
  - intro H. unfold sl_at, sl_only, sl_labels. cbn [sl_lens]. rewrite Q. cbn [plus]. rewrite (proj2 M H). destruct (nth_error (sl_lens s) l); reflexivity.
  - intros H L. unfold sl_at, sl_only, sl_labels. cbn [sl_lens]. rewrite Q. cbn [plus]. destruct (nth_error (sl_lens s) l) eqn:E; [|apply nth_error_None in E; lia].
    destruct (memb l ls) eqn:B; [exfalso; apply H, M; reflexivity|reflexivity].
  - unfold sl_only, sl_labels. cbn [sl_lens]. rewrite map_length, combine_length, seq_length, Nat.min_id. reflexivity.
Qed.

Lemma claim_C45_similar : forall (T : Type) (O : LenOps T) (W : LenLaws T) (s t : slen T) a b a' b' x y x' y',
  sl_at s a = Ok x -> sl_at s b = Ok y -> sl_at t a' = Ok x' -> sl_at t b' = Ok y' ->
  (0 < val x)%R -> (0 < val y)%R -> (0 < val x')%R -> (0 < val y')%R ->
  exists r, sl_similar s a b t a' b' = Ok r /\ (r = true <-> (val x / val y = val x' / val y')%R).
Proof.
  intros T O W s t a b a' b' x y x' y' E1 E2 E3 E4 P1 P2 P3 P4. unfold sl_similar. rewrite E1. cbn [bind]. rewrite E3. cbn [bind].
  assert (B : forall z : T, (0 < val z)%R -> l_bool z = true).
  { intros z P. unfold l_bool. destruct (l_cmp z l_zero) eqn:C; try reflexivity. apply cmp_eq_iff in C. rewrite val_zero in C. lra. }
  rewrite (B x P1). cbn [negb andb]. rewrite E2. cbn [bind]. rewrite E4. cbn [bind]. rewrite (B y P2). cbn [negb andb].
  exists (l_cross x y' y x'). split; [reflexivity|]. rewrite cross_val. split; intro Q.
  - apply (Rmult_eq_reg_r (val y * val y')); [|nra]. transitivity (val x * val y')%R; [field; lra|]. rewrite Q. field. lra.
  - assert (Q' : (val x / val y * (val y * val y') = val x' / val y' * (val y * val y'))%R) by (rewrite Q; reflexivity).
    replace (val x / val y * (val y * val y'))%R with (val x * val y')%R in Q' by (field; lra).
    replace (val x' / val y' * (val y * val y'))%R with (val y * val x')%R in Q' by (field; lra). exact Q'.
Qed.

Lemma claim_C45_scaled : forall (T : Type) (O : LenOps T) (W : LenLaws T) (s t : slen T) (c : R) a b,
  length (sl_lens t) = length (sl_lens s) -> (forall l, lamR t l = (c * lamR s l)%R) ->
  a < length (sl_lens s) -> b < length (sl_lens s) -> sl_similar s a b t a b = Ok true.
Proof.
  intros T O W s t c a b L H Ha Hb.
  assert (At : forall l, l < length (sl_lens s) -> exists x y, sl_at s l = Ok x /\ sl_at t l = Ok y /\ val y = (c * val x)%R).
  { intros l Hl. specialize (H l). unfold sl_at, lamR in *. destruct (nth_error (sl_lens s) l) as [x|] eqn:E; [|apply nth_error_None in E; lia].
    destruct (nth_error (sl_lens t) l) as [y|] eqn:E'; [|apply nth_error_None in E'; lia]. exists x, y. auto. }
  destruct (At a Ha) as (x & x' & E1 & E2 & V1), (At b Hb) as (y & y' & E3 & E4 & V2).
  unfold sl_similar. rewrite E1. cbn [bind]. rewrite E2. cbn [bind]. destruct (negb (l_bool x) && negb (l_bool x')); [reflexivity|].
  rewrite E3. cbn [bind]. rewrite E4. cbn [bind]. destruct (negb (l_bool y) && negb (l_bool y')); [reflexivity|]. f_equal. apply cross_val.
  rewrite V1, V2. ring.
Qed.

Lemma claim_C47_hash : forall (l m : label) (e f : hedge) (s t : separatrix) (c k : connection),
  (N.of_nat l < 2 ^ 64)%N -> (N.of_nat m < 2 ^ 64)%N ->
  (label_hash l = label_hash m <-> l = m) /\
  (he_eqb e f = Ok true -> he_hash e = he_hash f) /\
  (sep_eqb s t = true -> sep_hash s = sep_hash t) /\
  (conn_eqb c k = true -> conn_hash c = conn_hash k).
Proof.
  intros l m e f s t c k Hl Hm. split; [|split; [|split]].
  - unfold label_hash, size_t. rewrite !N.mod_small by assumption. split; [apply Nat2N.inj|intros ->; reflexivity].
  - unfold he_eqb, he_hash. destruct (Nat.eqb_spec (he_label e) (he_label f)) as [->|]; [reflexivity|discriminate].
  - intro Q. apply sep_eqb_eq in Q. subst. reflexivity.
  - intro Q. apply conn_eqb_eq in Q. subst. reflexivity.
Qed.

Lemma claim_C49_helper : forall (T : Type) (O : LenOps T) (W : LenLaws T) (s : slen T) (p : list Z),
  sl_lens s <> [] -> (forall x, In x (sl_lens s) -> (0 < val x)%R) ->
  Permutation p (map Z.of_nat (seq 0 (length (sl_lens s)))) ->
  exists i, cpp_iet s p = Ok (i, s) /\ valid_input s (i_top i) (i_bottom i) /\
    i_top i = seq 0 (length (sl_lens s)) /\ map Z.of_nat (i_bottom i) = p /\
    forall k a y, nth_error p k = Some (Z.of_nat a) ->
      (total (lamR s) (seq 0 a) <= y < total (lamR s) (seq 0 (a + 1)))%R ->
      maps (exch_of i s) y (y - total (lamR s) (seq 0 a) + total (lamR s) (map Z.to_nat (firstn k p)))%R.
Proof.
  intros T O W s p Ne Pos Pm. set (n := length (sl_lens s)) in *. set (b := map Z.to_nat p).
  assert (Pb : Permutation (seq 0 n) b).
  { unfold b. apply Permutation_sym. transitivity (map Z.to_nat (map Z.of_nat (seq 0 n))); [apply Permutation_map, Pm|].
    rewrite map_map. rewrite (map_ext _ (fun a => a)); [rewrite map_id; reflexivity|]. intro a. apply Nat2Z.id. }
  assert (Bp : map Z.of_nat b = p).
  { unfold b. rewrite map_map. rewrite <- (map_id p) at 2. apply map_ext_in. intros z Hz. apply (Permutation_in _ Pm) in Hz. apply in_map_iff in Hz as (a & <- & _). rewrite Nat2Z.id. reflexivity. }
  assert (Ps : forall l, In l (seq 0 n) -> posl s l).
  { intros l Hl. apply in_seq in Hl. destruct (nth_error (sl_lens s) l) as [x|] eqn:E; [|apply nth_error_None in E; unfold n in Hl; lia].
    exists x. split; [exact E|]. apply Pos. eapply nth_error_In, E. }
  assert (N0 : seq 0 n <> []) by (unfold n; destruct (sl_lens s); [contradiction|discriminate]).
  exists (mkiet (seq 0 n) b false None tracker_init). cbn [i_top i_bottom]. split; [|split; [|split; [reflexivity|split; [exact Bp|]]]].
  - unfold cpp_iet, sl_labels. fold n.
    assert (E : mapM (fun z => if (z <? 0)%Z then UB else match nth_error (seq 0 n) (Z.to_nat z) with Some l => Ok l | None => UB end) p = Ok b).
    { unfold b. apply mapM_ok. intros z Hz. apply (Permutation_in _ Pm) in Hz. apply in_map_iff in Hz as (a & <- & Ha). apply in_seq in Ha.
      destruct (Z.ltb_spec (Z.of_nat a) 0); [lia|]. rewrite Nat2Z.id. 
      rewrite (nth_error_nth' _ 0) by (rewrite seq_length; lia). rewrite seq_nth by lia. reflexivity. }
    rewrite E. cbn [bind]. rewrite (iet_make_ok s (seq 0 n) b (seq_NoDup n 0) Pb N0 Ps). reflexivity.
  - split; [apply seq_NoDup|]. split; [exact Pb|]. split; [exact N0|exact Ps].
  - intros k a y Hk Hy.
    assert (Ha : a < n). { apply nth_error_In, (Permutation_in _ Pm), in_map_iff in Hk as (a' & E & Ha). apply Nat2Z.inj in E. rewrite <- E. apply in_seq in Ha. lia. }
    assert (La : lamR s a = (total (lamR s) (seq 0 (a + 1)) - total (lamR s) (seq 0 a))%R).
    { rewrite seq_app, total_app. cbn. lra. }
    exists a, (total (lamR s) (seq 0 a)), (total (lamR s) (map Z.to_nat (firstn k p))), (lamR s a). cbn [exch_of e_top e_bot e_len i_top i_bottom].
    split; [|split; [|split; [lra|reflexivity]]].
    + exists (seq 0 a), (seq (a + 1) (n - a - 1)). split; [|split; reflexivity].
      replace n with (a + (1 + (n - a - 1))) at 1 by lia. rewrite seq_app, seq_app. cbn [seq app plus]. rewrite Nat.add_1_r. reflexivity.
    + pose proof (nth_error_split _ _ Hk) as (A & B & EA & LA). exists (map Z.to_nat A), (map Z.to_nat B). split; [|split; [|reflexivity]].
      * unfold b. rewrite EA, map_app. cbn [map]. rewrite Nat2Z.id. reflexivity.
      * rewrite EA, <- LA, firstn_app, Nat.sub_diag, firstn_all. cbn [firstn]. rewrite app_nil_r. reflexivity.
Qed.

Lemma claim_C49_out_of_range : forall (T : Type) (O : LenOps T) (s : slen T) p q z,
  (forall x, In x p -> (0 <= x < Z.of_nat (length (sl_lens s)))%Z) -> (z < 0 \/ Z.of_nat (length (sl_lens s)) <= z)%Z ->
  cpp_iet s (p ++ z :: q) = UB.
Proof.
  intros T O s p q z H Hz. unfold cpp_iet, sl_labels. set (n := length (sl_lens s)) in *.
  set (f := fun z => if (z <? 0)%Z then UB else match nth_error (seq 0 n) (Z.to_nat z) with Some l => Ok l | None => UB end).
  assert (E : mapM f (p ++ z :: q) = UB); [|rewrite E; reflexivity].
  induction p as [|x p IH]; cbn [app mapM].
  - assert (E : f z = UB); [|rewrite E; reflexivity]. unfold f. destruct (Z.ltb_spec z 0); [reflexivity|]. 
    destruct (nth_error (seq 0 n) (Z.to_nat z)) eqn:E; [|reflexivity].
    assert (L : Z.to_nat z < length (seq 0 n)) by (apply nth_error_Some; rewrite E; discriminate). rewrite seq_length in L. lia.
  - assert (Hx := H x (or_introl eq_refl)). assert (E : f x = Ok (Z.to_nat x)).
    { unfold f. destruct (Z.ltb_spec x 0); [lia|]. rewrite (nth_error_nth' _ 0) by (rewrite seq_length; lia). rewrite seq_nth by lia. reflexivity. }
    rewrite E. cbn [bind]. rewrite IH; [reflexivity|]. intros y Hy. apply H. right. exact Hy.
Qed.

