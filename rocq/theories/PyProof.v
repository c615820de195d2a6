(** Proofs about the Python module. *)
From Coq Require Import Reals String Ascii Permutation Lia.
From Verif Require Import Base QcTac LenT FM Subspace Lengths IET Decomp Misc Spec Api Py.
From Verif Require Import ZorichProof ReduceProof InduceProof Seq World Fixtures ClaimsIET ClaimsMisc.
Open Scope list_scope.
Open Scope nat_scope.

Lemma mem_In n l : mem n l = true <-> In n l.
Proof.
  unfold mem. rewrite existsb_exists. split.
  - intros (x & Hx & E). apply String.eqb_eq in E. subst. exact Hx.
  - intros H. exists n. split; [exact H | apply String.eqb_refl].
Qed.

Lemma mem_out n l : mem n l = false -> ~ In n l.
Proof. intros H G. apply mem_In in G. congruence. Qed.

(** * The registrar *)

Definition reg_ok (r : reg) : Prop := rg_done r = rg_defs r /\ NoDup (rg_defs r) /\ forall n, In n (rg_defs r) -> is_gmp n = false.

Lemma registrar_ok avail k : forall r r' ok, reg_ok r -> registrar avail k r = (r', ok) ->
  reg_ok r' /\ incl (rg_defs r) (rg_defs r') /\
  (ok = true -> forall n hs, In (n, hs) k -> is_gmp n = false -> In n (rg_defs r')) /\
  ((forall n hs, In (n, hs) k -> forallb avail hs = true) -> ok = true) /\
  (forall n, In n (rg_defs r') -> In n (rg_defs r) \/ exists hs, In (n, hs) k).
Proof.
  induction k as [|[name hs] k IH]; intros r r' ok (E1 & E2 & E3) E; cbn [registrar] in E.
  - injection E as <- <-. split; [split; [|split]; assumption|]. split; [apply incl_refl|].
    split; [intros _ n hs []|]. split; [reflexivity | tauto].
  - destruct (mem name (rg_done r)) eqn:M.
    { destruct (IH r r' ok) as (A1 & A2 & A3 & A4 & A5); [split; [|split]; assumption | exact E|].
      split; [exact A1|]. split; [exact A2|]. split; [|split].
      - intros Ok n h [X|X] G; [|eapply A3; eassumption]. injection X as <- <-. apply A2. rewrite <- E1. apply mem_In, M.
      - intros H. apply A4. intros n h X. apply (H n h). right. exact X.
      - intros n Hn. destruct (A5 n Hn) as [|(h & ?)]; [tauto|]. right. exists h. right. assumption. }
    destruct (is_gmp name) eqn:G.
    { destruct (IH r r' ok) as (A1 & A2 & A3 & A4 & A5); [split; [|split]; assumption | exact E|].
      split; [exact A1|]. split; [exact A2|]. split; [|split].
      - intros Ok n h [X|X] G'; [|eapply A3; eassumption]. injection X as <- <-. congruence.
      - intros H. apply A4. intros n h X. apply (H n h). right. exact X.
      - intros n Hn. destruct (A5 n Hn) as [|(h & ?)]; [tauto|]. right. exists h. right. assumption. }
    destruct (forallb avail hs) eqn:V.
    + destruct (mem name (rg_defs r)) eqn:D.
      { exfalso. apply mem_In in D. rewrite <- E1 in D. apply mem_In in D. congruence. }
      destruct (IH (mkreg (name :: rg_done r) (name :: rg_defs r)) r' ok) as (A1 & A2 & A3 & A4 & A5); [|exact E|].
      { split; [|split]; cbn.
        - rewrite E1. reflexivity.
        - constructor; [apply mem_out, D | exact E2].
        - intros n [<-|H]; [exact G | apply E3, H]. }
      cbn in A2. split; [exact A1|]. split; [intros n Hn; apply A2; right; exact Hn|]. split; [|split].
      * intros Ok n h [X|X] G'; [|eapply A3; eassumption]. injection X as <- <-. apply A2. left. reflexivity.
      * intros H. apply A4. intros n h X. apply (H n h). right. exact X.
      * intros n Hn. destruct (A5 n Hn) as [[<-|H]|(h & H)]; [right; exists hs; left; reflexivity | left; exact H|].
        right. exists h. right. exact H.
    + injection E as <- <-. split; [split; [|split]; assumption|]. split; [apply incl_refl|].
      split; [discriminate|]. split; [|tauto]. intros H. exfalso.
      rewrite (H name hs (or_introl eq_refl)) in V. discriminate.
Qed.

Lemma track_In k n hs x : In x (track k n hs) <-> In x k \/ x = (n, hs).
Proof.
  unfold track. destruct (existsb (entry_eqb (n, hs)) k) eqn:E.
  - split; [tauto|]. intros [H| ->]; [exact H|]. apply existsb_exists in E. destruct E as ((n' & h') & H & E).
    unfold entry_eqb in E. cbn [fst snd] in E. apply andb_true_iff in E. destruct E as (E1 & E2). apply String.eqb_eq in E1.
    destruct (list_eq_dec string_dec hs h') as [E3|]; [|discriminate E2]. subst. exact H.
  - rewrite in_app_iff. cbn. split; [intros [H|[H|[]]]; [left; exact H | right; symmetry; exact H] | intros [H|H]; [left; exact H | right; left; symmetry; exact H]].
Qed.

(** * One IET *)

Section One.
Context {T : Type} {O : LenOps T} {W : LenLaws T}.

Lemma good_valid (i : iet T) s : good i s -> valid_input s (i_top i) (i_bottom i).
Proof. intros ((W1 & W2 & W3 & W4 & _) & _). split; [exact W1|]. split; [exact W2|]. split; [exact W3 | exact W4]. Qed.

Lemma loaded (i : iet T) s : obtainable i s ->
  exists j, load_iet (save_iet i (Some s)) = Ok (j, Some s) /\ i_top j = i_top i /\ i_bottom j = i_bottom i /\ history [j] s.
Proof.
  intros H. destruct (claim_C40_roundtrip T O W i s H) as (j & E & Et & Eb & _). exists j. split; [exact E|].
  split; [exact Et|]. split; [exact Eb|].
  pose proof (obtainable_good i s H) as G. pose proof (good_valid i s G) as V.
  assert (S0 : sl_stack s = []) by (destruct H as (l & Hh & _); apply (history_ok l s Hh)).
  assert (Es : s = mkslen [] (sl_lens s)) by (destruct s; cbn in *; rewrite S0; reflexivity).
  assert (Ej : iet_make s (i_top i) (i_bottom i) = Ok j).
  { destruct V as (V1 & V2 & V3 & V4). rewrite (ReduceProof.iet_make_ok s _ _ V1 V2 V3 V4).
    unfold load_iet, save_iet in E. cbn [String.eqb Ascii.eqb Bool.eqb andb] in E.
    change (i_top i) with (i_top i) in E. revert E.
    assert (R : forall l, load_vec (T := T) load_label (save_vec save_label l) = Ok l).
    { intros l. unfold load_vec, save_vec. induction l as [|x l IH]; [reflexivity|]. cbn [map mapM].
      unfold save_label at 1, load_label at 1. cbn [bind]. rewrite IH. cbn [bind]. rewrite Nnat.Nat2N.id. reflexivity. }
    rewrite !R. cbn [bind].
    assert (P : load_ptr (save_ptr (Some s)) = Ok (Some s)).
    { unfold load_ptr, save_ptr. rewrite (proj1 (claim_C40_lengths T O s 0)). reflexivity. }
    rewrite P. cbn [bind]. rewrite (ReduceProof.iet_make_ok s _ _ V1 V2 V3 V4). cbn [bind]. intros E. injection E as <-. reflexivity. }
  rewrite Es. eapply (h_new [] _ (i_top i) (i_bottom i)); [apply h_start | rewrite <- Es; exact V | intros c _ [] | rewrite <- Es; exact Ej].
Qed.

Lemma op_effect (l1 : list (iet T)) i l2 s o i' extra s' : history (l1 ++ i :: l2) s -> op_legal o ->
  run_op o i s = Ok (i', extra, s') -> effect i s i' extra s'.
Proof.
  intros Hh Lg E. assert (Gi : good i s) by (apply (history_ok _ _ Hh); apply in_or_app; right; left; reflexivity).
  destruct (op_ok o i s Gi Lg) as [F|(? & ? & ? & E' & F)].
  - exfalso. rewrite E in F. destruct o; cbn in F; try contradiction; destruct F as [[F _]|[F _]]; discriminate.
  - rewrite E in E'. injection E' as -> -> ->. exact F.
Qed.

(** Calls on one IET leave the others alone. *)
Lemma op_others (l1 : list (iet T)) i l2 s o i' extra s' j : history (l1 ++ i :: l2) s -> op_legal o ->
  run_op o i s = Ok (i', extra, s') -> In j (l1 ++ l2) ->
  (forall c, In c (i_top j) -> lamR s' c = lamR s c) /\ forall y z, maps (exch_of j s') y z <-> maps (exch_of j s) y z.
Proof.
  intros Hh Lg E Hj.
  destruct (claim_C37_independent T O W (l1 ++ i :: l2) s j (l1 ++ i' :: extra ++ l2) s' Hh) as (_ & A & B & _).
  - eapply else_op; [exact Hj | exact Lg | exact E|]. apply else_done. rewrite in_app_iff in *. cbn. rewrite in_app_iff. tauto.
  - split; [|exact B]. intros c Hc. unfold lamR. rewrite (A c Hc). reflexivity.
Qed.

End One.

Lemma split_nth {A} (l : list A) m x : nth_error l m = Some x -> l = firstn m l ++ x :: skipn (S m) l.
Proof.
  revert m. induction l as [|y l IH]; intros [|m] E; try discriminate.
  - injection E as ->. reflexivity.
  - cbn [firstn skipn app]. f_equal. apply IH. exact E.
Qed.

(** * Sessions *)

Section Sessions.
Context {El : string -> Type} {ops : forall n, LenOps (El n)} {laws : forall n, LenLaws (El n)}.

Record py_ok (avail : string -> bool) (st : pyst El) : Prop := {
  ok_groups : forall g, In g (py_groups st) -> history (map ob_iet (gr_objs g)) (gr_len g);
  ok_known : forall n hs, In (n, hs) (py_known st) -> forallb avail hs = true;
  ok_reg : reg_ok (py_reg st);
  ok_lens : forall l, In l (py_lens st) -> known_here st (pl_ty l) /\ sl_lens (pl_len l) <> [];
  ok_attr : forall g x k, In g (py_groups st) -> In x (gr_objs g) -> ob_attr x = Some k ->
    exists l, nth_error (py_lens st) k = Some l /\ pl_ty l = gr_ty g /\
      forall c, In c (i_top (ob_iet x)) -> c < length (sl_lens (pl_len l))
}.

Lemma method_ok o m (g g' : group El) : history (map ob_iet (gr_objs g)) (gr_len g) -> op_legal o -> method o m g = Ok g' ->
  gr_ty g' = gr_ty g /\ history (map ob_iet (gr_objs g')) (gr_len g') /\
  (forall x k, In x (gr_objs g') -> ob_attr x = Some k ->
     exists y, In y (gr_objs g) /\ ob_attr y = Some k /\ incl (i_top (ob_iet x)) (i_top (ob_iet y))) /\
  (forall n y, nth_error (gr_objs g) n = Some y -> n <> m -> exists y', In y' (gr_objs g') /\ ob_attr y' = ob_attr y /\
     i_top (ob_iet y') = i_top (ob_iet y) /\ i_bottom (ob_iet y') = i_bottom (ob_iet y) /\
     (forall c, In c (i_top (ob_iet y)) -> lamR (gr_len g') c = lamR (gr_len g) c) /\
     forall a b, maps (exch_of (ob_iet y') (gr_len g')) a b <-> maps (exch_of (ob_iet y) (gr_len g)) a b).
Proof.
  destruct g as [n objs s]. cbn [gr_ty gr_objs gr_len]. unfold method. cbn [gr_ty gr_objs gr_len].
  destruct (nth_error objs m) as [x|] eqn:Em; [|discriminate]. intros Hh Lg E.
  pose proof (split_nth _ _ _ Em) as Sp.
  destruct (run_op o (ob_iet x) s) as [[[i extra] s']| | | |] eqn:Eo; try discriminate. cbn [bind] in E. injection E as <-.
  cbn [gr_ty gr_objs gr_len]. set (l1 := firstn m objs) in *. set (l2 := skipn (S m) objs) in *.
  assert (L1 : length l1 = m).
  { unfold l1. apply firstn_length_le. apply Nat.lt_le_incl, nth_error_Some. congruence. }
  assert (Hh' : history (map ob_iet l1 ++ ob_iet x :: map ob_iet l2) s).
  { rewrite Sp, map_app in Hh. exact Hh. }
  split; [reflexivity|]. split; [|split].
  - rewrite map_app. cbn [map]. rewrite map_app, map_map. cbn [ob_iet]. rewrite map_id.
    eapply h_op; eassumption.
  - intros y k Hy Ek. rewrite in_app_iff in Hy. cbn [In] in Hy. rewrite in_app_iff in Hy.
    rewrite Sp. destruct Hy as [Hy|[<-|[Hy|Hy]]].
    + exists y. split; [apply in_or_app; left; exact Hy|]. split; [exact Ek | apply incl_refl].
    + exists x. split; [apply in_or_app; right; left; reflexivity|]. split; [exact Ek|]. cbn [ob_iet].
      intros c Hc. apply (ef_incl _ _ _ _ _ (op_effect _ _ _ _ _ _ _ _ Hh' Lg Eo)). cbn. apply in_or_app. left. exact Hc.
    + apply in_map_iff in Hy. destruct Hy as (j & <- & _). discriminate.
    + exists y. split; [apply in_or_app; right; right; exact Hy|]. split; [exact Ek | apply incl_refl].
  - intros k y Ek Hk.
    assert (Hy : In y (l1 ++ l2)).
    { rewrite Sp in Ek. destruct (Nat.lt_ge_cases k m) as [K|K].
      - rewrite nth_error_app1 in Ek by lia. apply in_or_app. left. apply nth_error_In in Ek. exact Ek.
      - rewrite nth_error_app2 in Ek by lia. apply in_or_app. right.
        destruct (k - length l1) as [|q] eqn:Q; [lia|]. cbn [nth_error] in Ek. apply nth_error_In in Ek. exact Ek. }
    assert (Hj : In (ob_iet y) (map ob_iet l1 ++ map ob_iet l2)).
    { rewrite <- map_app. apply in_map. exact Hy. }
    destruct (op_others _ _ _ _ _ _ _ _ _ Hh' Lg Eo Hj) as (A & B).
    exists y. split; [rewrite in_app_iff in *; cbn [In]; rewrite in_app_iff; tauto|].
    split; [reflexivity|]. split; [reflexivity|]. split; [reflexivity|]. split; assumption.
Qed.

Lemma method_attr o m (g g' : group El) : method o m g = Ok g' -> gr_ty g' = gr_ty g.
Proof.
  unfold method. destruct (nth_error (gr_objs g) m) as [x|]; [|discriminate].
  destruct (run_op o (ob_iet x) (gr_len g)) as [[[i extra] s']| | | |]; try discriminate. intros E. injection E as <-. reflexivity.
Qed.

Lemma dumps_ok avail order g m (st st' : pyst El) r : py_ok avail st -> Permutation order (py_known st) ->
  py_dumps avail order g m st = (st', r) ->
  py_ok avail st' /\ py_lens st' = py_lens st /\ py_groups st' = py_groups st /\ py_known st' = py_known st /\
  forall gr x, nth_error (py_groups st) g = Some gr -> nth_error (gr_objs gr) m = Some x ->
    if mem (cpp_name (gr_ty gr)) (rg_defs (py_reg st'))
    then r = Some (mkpk (py_known st) (gr_ty gr) (save_iet (ob_iet x) (Some (gr_len gr)))) else r = None.
Proof.
  intros K P E. unfold py_dumps in E. destruct (registrar avail order (py_reg st)) as [r' ok] eqn:Er.
  destruct (registrar_ok avail order _ _ _ (ok_reg _ _ K) Er) as (A1 & A2 & A3 & A4 & _).
  assert (Ok : ok = true).
  { apply A4. intros n hs Hn. apply (ok_known _ _ K n). eapply Permutation_in; eassumption. }
  injection E as <- <-. cbn [py_lens py_groups py_known py_reg].
  split; [|split; [|split; [|split]]]; try reflexivity.
  - destruct K. constructor; assumption.
  - intros gr x Eg Ex. rewrite Eg, Ex, Ok. cbn [andb]. destruct (mem _ _); reflexivity.
Qed.

(** A pickle that comes from an IET. *)
Lemma dumps_some avail order g m (st st' : pyst El) p : py_ok avail st -> Permutation order (py_known st) ->
  py_dumps avail order g m st = (st', Some p) ->
  exists gr x, nth_error (py_groups st) g = Some gr /\ nth_error (gr_objs gr) m = Some x /\
    obtainable (ob_iet x) (gr_len gr) /\
    p = mkpk (py_known st) (gr_ty gr) (save_iet (ob_iet x) (Some (gr_len gr))).
Proof.
  intros K P E. destruct (dumps_ok _ _ _ _ _ _ _ K P E) as (_ & _ & _ & _ & H).
  destruct (nth_error (py_groups st) g) as [gr|] eqn:Eg.
  - destruct (nth_error (gr_objs gr) m) as [x|] eqn:Ex.
    + exists gr, x. split; [reflexivity|]. split; [exact Ex|]. split.
      * exists (map ob_iet (gr_objs gr)). split; [apply (ok_groups _ _ K), (nth_error_In _ _ Eg)|].
        apply in_map, (nth_error_In _ _ Ex).
      * specialize (H gr x eq_refl Ex). destruct (mem _ _); [injection H as ->; reflexivity | discriminate].
    + exfalso. unfold py_dumps in E. rewrite Eg, Ex in E. destruct (registrar _ _ _). discriminate.
  - exfalso. unfold py_dumps in E. rewrite Eg in E. destruct (registrar _ _ _). discriminate.
Qed.

Lemma loads_ok avail order n kn (i : iet (El n)) s (st st' : pyst El) b : py_ok avail st -> obtainable i s ->
  py_loads avail order (mkpk kn n (save_iet i (Some s))) st = (st', b) ->
  py_ok avail st' /\ py_lens st' = py_lens st /\ py_known st' = py_known st /\
  (if b then exists j, i_top j = i_top i /\ i_bottom j = i_bottom i /\ py_groups st' = py_groups st ++ [mkgroup n [mkobj j None] s]
   else py_groups st' = py_groups st) /\
  ((forall m hs, In (m, hs) order -> forallb avail hs = true) ->
   b = true <-> In (cpp_name n) (rg_defs (py_reg st')) ).
Proof.
  intros K Ob E. unfold py_loads in E. cbn [pk_ty pk_data] in E.
  destruct (registrar avail order (py_reg st)) as [r' ok] eqn:Er.
  destruct (registrar_ok avail order _ _ _ (ok_reg _ _ K) Er) as (A1 & A2 & A3 & A4 & _).
  destruct (loaded i s Ob) as (j & Ej & Et & Eb & Hj).
  assert (K' : py_ok avail (mkpy (py_lens st) (py_groups st) (py_known st) r')) by (destruct K; constructor; assumption).
  destruct (ok && mem (cpp_name n) (rg_defs r')) eqn:C.
  - rewrite Ej in E. injection E as <- <-. cbn [py_lens py_groups py_known py_reg]. apply andb_true_iff in C. destruct C as (C1 & C2).
    split; [|split; [reflexivity|split; [reflexivity|]]].
    + destruct K. constructor; cbn [py_lens py_groups py_known py_reg] in *; try assumption.
      * intros g Hg. apply in_app_or in Hg. destruct Hg as [Hg|[<-|[]]]; [apply ok_groups0, Hg | exact Hj].
      * intros g x k Hg Hx Ek. apply in_app_or in Hg. destruct Hg as [Hg|[<-|[]]]; [eapply ok_attr0; eassumption|].
        cbn [gr_objs] in Hx. destruct Hx as [<-|[]]. discriminate.
    + split; [exists j; split; [exact Et|split; [exact Eb|reflexivity]]|].
      intros _. split; [intros _; apply mem_In, C2 | reflexivity].
  - injection E as <- <-. split; [exact K'|]. cbn [py_lens py_groups py_known py_reg]. split; [reflexivity|]. split; [reflexivity|]. split; [reflexivity|].
    intros H. rewrite (A4 H) in C. cbn [andb] in C. split; [discriminate|]. intros G. apply mem_In in G. congruence.
Qed.

Lemma session_ok avail (st : pyst El) : session avail st -> py_ok avail st.
Proof.
  induction 1 as [avail|avail st n ls headers st' _ K E|avail st a l b ls stack _ K Es|avail st k l p st' _ K El' (L1 & L2 & L3) E
    |avail st o g m st' _ K Lg E|avail st order g m st' r _ K P E|avail st avail0 st0 order0 g m st0' p order st' b _ K _ K0 P0 E0 P E].
  - constructor; cbn; try (intros; contradiction). split; [reflexivity|]. split; [constructor | intros n []].
  - unfold py_lengths in E. destruct (length ls =? 0) eqn:L0; [discriminate|].
    destruct (match headers with Some h => Some h | None => default_headers n end) as [hs|]; [|discriminate].
    destruct (forallb avail hs) eqn:V; [|discriminate]. destruct (sl_make ls) as [s| | | |] eqn:Es; try discriminate.
    cbn [bind] in E. injection E as <-. destruct K. constructor; cbn [py_lens py_groups py_known py_reg] in *.
    + assumption.
    + intros m h Hm. apply track_In in Hm. destruct Hm as [Hm|Hm]; [eapply ok_known0; exact Hm | injection Hm as -> ->; exact V].
    + assumption.
    + intros l Hl. apply in_app_or in Hl. destruct Hl as [Hl|[<-|[]]].
      * destruct (ok_lens0 l Hl) as ((h & Hh) & Hn). split; [|exact Hn]. exists h. cbn [py_known]. apply track_In. left. exact Hh.
      * cbn [pl_ty pl_len]. split; [exists hs; cbn [py_known]; apply track_In; right; reflexivity|].
        unfold sl_make in Es. destruct (existsb _ ls); [discriminate|]. injection Es as <-. cbn. intros ->. discriminate.
    + intros g x k Hg Hx Ek. destruct (ok_attr0 g x k Hg Hx Ek) as (l & E1 & E2). exists l. split; [|exact E2].
      rewrite nth_error_app1; [exact E1|]. apply nth_error_Some. congruence.
  - assert (Hl : In l (py_lens st)) by (rewrite Es; apply in_or_app; right; left; reflexivity).
    destruct K. constructor; cbn [py_lens py_groups py_known py_reg] in *; try assumption.
    + intros l' Hl'. apply in_app_or in Hl'. destruct Hl' as [Hl'|[<-|Hl']].
      * apply ok_lens0. rewrite Es. apply in_or_app. left. exact Hl'.
      * destruct (ok_lens0 l Hl) as (A & B). split; [exact A|]. cbn [touch pl_len sl_lens]. destruct (sl_lens (pl_len l)); [congruence|]. discriminate.
      * apply ok_lens0. rewrite Es. apply in_or_app. right. right. exact Hl'.
    + intros g x k Hg Hx Ek. destruct (ok_attr0 g x k Hg Hx Ek) as (l' & E1 & E2). rewrite Es in E1.
      destruct (Nat.eq_dec k (length a)) as [->|Hk].
      * rewrite nth_error_app2, Nat.sub_diag in E1 by lia. injection E1 as <-. exists (touch l ls stack).
        rewrite nth_error_app2, Nat.sub_diag by lia. split; [reflexivity|]. cbn [touch pl_ty pl_len sl_lens]. rewrite map_length, seq_length. exact E2.
      * exists l'. split; [|exact E2]. destruct (Nat.lt_ge_cases k (length a)).
        -- rewrite nth_error_app1 in * by lia. exact E1.
        -- rewrite nth_error_app2 in * by lia. destruct (k - length a) as [|q] eqn:Q; [lia|]. exact E1.
  - unfold py_iet in E. rewrite El' in E. pose proof (nth_error_In _ _ El') as Hl. destruct (ok_lens _ _ K l Hl) as (Kn & Ne).
    destruct (claim_C49_helper _ _ _ (pl_len l) p Ne L2 L3) as (i & Ei & V & Et & Eb & _).
    rewrite Ei in E. cbn [bind] in E. injection E as <-.
    destruct K. constructor; cbn [py_lens py_groups py_known py_reg] in *; try assumption.
    + intros g Hg. apply in_app_or in Hg. destruct Hg as [Hg|[<-|[]]]; [apply ok_groups0, Hg|]. cbn [gr_objs gr_len map ob_iet].
      assert (Es : pl_len l = mkslen [] (sl_lens (pl_len l))) by (destruct (pl_len l); cbn in *; rewrite L1; reflexivity).
      unfold cpp_iet in Ei. destruct (mapM _ p) as [bt| | | |] eqn:Eq; try discriminate. cbn [bind] in Ei.
      destruct (iet_make (pl_len l) (sl_labels (pl_len l)) bt) as [i'| | | |] eqn:Em; try discriminate. cbn [bind] in Ei. injection Ei as ->.
      assert (Vm : i_top i = sl_labels (pl_len l) /\ i_bottom i = bt).
      { unfold iet_make in Em. repeat match type of Em with
          | context [assert_ ?c _] => destruct c; cbn [assert_] in Em; [|discriminate]
          | (bind ?x _) = _ => destruct x; cbn [bind] in Em; try discriminate
          | (if ?c then _ else _) = _ => destruct c; try discriminate
          end; injection Em as <-; split; reflexivity. }
      rewrite Es. eapply (h_new [] _ (i_top i) (i_bottom i)); [apply h_start | rewrite <- Es; exact V | intros c _ []|].
      rewrite <- Es. destruct Vm as (-> & ->). exact Em.
    + intros g x q Hg Hx Ek. apply in_app_or in Hg. destruct Hg as [Hg|[<-|[]]]; [eapply ok_attr0; eassumption|].
      cbn [gr_objs gr_ty] in *. destruct Hx as [<-|[]]. cbn [ob_attr ob_iet] in *. injection Ek as <-. exists l. split; [exact El'|].
      split; [reflexivity|]. rewrite Et. intros c Hc. apply in_seq in Hc. lia.
  - unfold py_method in E. destruct (nth_error (py_groups st) g) as [gr|] eqn:Eg; [|discriminate].
    destruct (method o m gr) as [gr'| | | |] eqn:Em; try discriminate. cbn [bind] in E. injection E as <-.
    pose proof (nth_error_In _ _ Eg) as Hgr. pose proof (split_nth _ _ _ Eg) as Sp.
    destruct (method_ok o m gr gr' (ok_groups _ _ K gr Hgr) Lg Em) as (M1 & M2 & M3 & _).
    assert (Old : forall x, In x (firstn g (py_groups st)) \/ In x (skipn (S g) (py_groups st)) -> In x (py_groups st)).
    { intros x Hx. rewrite Sp. apply in_or_app. cbn [In]. tauto. }
    destruct K. constructor; cbn [py_lens py_groups py_known py_reg] in *; try assumption.
    + intros q Hq. apply in_app_or in Hq. destruct Hq as [Hq|[<-|Hq]]; [apply ok_groups0, Old; tauto | exact M2 | apply ok_groups0, Old; tauto].
    + intros q x k Hq Hx Ek. apply in_app_or in Hq. destruct Hq as [Hq|[<-|Hq]].
      * eapply ok_attr0; [apply Old; left; exact Hq | exact Hx | exact Ek].
      * destruct (M3 x k Hx Ek) as (y & Hy & Ey & Iy). destruct (ok_attr0 gr y k Hgr Hy Ey) as (l & E1 & E2 & E3).
        exists l. split; [exact E1|]. split; [congruence|]. intros c Hc. apply E3, Iy, Hc.
      * eapply ok_attr0; [apply Old; right; exact Hq | exact Hx | exact Ek].
  - apply (dumps_ok _ _ _ _ _ _ _ K P E).
  - destruct (dumps_some _ _ _ _ _ _ _ K0 P0 E0) as (gr & x & _ & _ & Ob & ->).
    apply (loads_ok _ _ _ _ _ _ _ _ _ K Ob E).
Qed.

End Sessions.
