(** Proofs of the properties in [PropPy]. *)
From Coq Require Import Reals Lra Lia Permutation String Ascii.
From Verif Require Import Base QcTac LenT FM Subspace Lengths IET LenInst Decomp Misc Spec Api Fixtures Py.
From Verif Require Import ZorichProof InduceProof World ClaimsIET ClaimsMisc PyProof.
Open Scope string_scope.
Open Scope list_scope.
Open Scope nat_scope.

Lemma claim_C79_obtainable : forall (El : string -> Type) (ops : forall n, LenOps (El n)) (laws : forall n, LenLaws (El n))
    avail (st : pyst El) gr x,
  session avail st -> In gr (py_groups st) -> In x (gr_objs gr) -> obtainable (ob_iet x) (gr_len gr).
Proof.
  intros El ops laws avail st gr x S Hg Hx. exists (map ob_iet (gr_objs gr)).
  split; [apply (ok_groups _ _ (session_ok _ _ S)), Hg | apply in_map, Hx].
Qed.

Lemma claim_C79_constructor : forall (El : string -> Type) (ops : forall n, LenOps (El n)) (laws : forall n, LenLaws (El n))
    avail (st : pyst El) k l p,
  session avail st -> nth_error (py_lens st) k = Some l -> legal_iet l p ->
  exists i st', py_iet k p st = Ok st' /\ py_lens st' = py_lens st /\
    py_groups st' = py_groups st ++ [mkgroup (pl_ty l) [mkobj i (Some k)] (pl_len l)] /\
    i_top i = seq 0 (List.length p) /\ map Z.of_nat (i_bottom i) = p.
Proof.
  intros El ops laws avail st k l p S Ek (L1 & L2 & L3).
  destruct (ok_lens _ _ (session_ok _ _ S) l (nth_error_In _ _ Ek)) as (_ & Ne).
  destruct (claim_C49_helper _ _ _ (pl_len l) p Ne L2 L3) as (i & Ei & _ & Et & Eb & _).
  exists i. eexists. unfold py_iet. rewrite Ek, Ei. cbn [bind]. split; [reflexivity|]. split; [reflexivity|].
  split; [reflexivity|]. split; [|exact Eb]. rewrite Et. f_equal.
  apply Permutation_length in L3. rewrite map_length, seq_length in L3. symmetry. exact L3.
Qed.

Lemma claim_C79_independent : forall (El : string -> Type) (ops : forall n, LenOps (El n)) (laws : forall n, LenLaws (El n))
    avail (st st' : pyst El) o g m g' m' gr x,
  session avail st -> op_legal o -> py_method o g m st = Ok st' ->
  nth_error (py_groups st) g' = Some gr -> nth_error (gr_objs gr) m' = Some x -> (g', m') <> (g, m) ->
  py_lens st' = py_lens st /\
  exists gr' x', nth_error (py_groups st') g' = Some gr' /\ In x' (gr_objs gr') /\ ob_attr x' = ob_attr x /\
    i_top (ob_iet x') = i_top (ob_iet x) /\ i_bottom (ob_iet x') = i_bottom (ob_iet x) /\
    (forall c, In c (i_top (ob_iet x)) -> lamR (gr_len gr') c = lamR (gr_len gr) c) /\
    forall y z, maps (exch_of (ob_iet x') (gr_len gr')) y z <-> maps (exch_of (ob_iet x) (gr_len gr)) y z.
Proof.
  intros El ops laws avail st st' o g m g' m' gr x S Lg E Eg' Em' Ne. pose proof (session_ok _ _ S) as K.
  unfold py_method in E. destruct (nth_error (py_groups st) g) as [g0|] eqn:Eg; [|discriminate].
  destruct (method o m g0) as [g1| | | |] eqn:Em; try discriminate. cbn [bind] in E. injection E as <-.
  cbn [py_lens py_groups]. split; [reflexivity|].
  assert (L1 : List.length (firstn g (py_groups st)) = g).
  { apply firstn_length_le. apply Nat.lt_le_incl, nth_error_Some. congruence. }
  destruct (Nat.eq_dec g' g) as [->|Hg].
  - rewrite Eg in Eg'. injection Eg' as <-.
    destruct (method_ok o m g0 g1 (ok_groups _ _ K g0 (nth_error_In _ _ Eg)) Lg Em) as (M1 & M2 & M3 & M4).
    destruct (M4 m' x Em') as (x' & A); [intros ->; apply Ne; reflexivity|].
    exists g1, x'. rewrite nth_error_app2, L1, Nat.sub_diag by lia. split; [reflexivity|]. exact A.
  - exists gr, x. split.
    + rewrite (split_nth _ _ _ Eg) in Eg'. destruct (Nat.lt_ge_cases g' g).
      * rewrite nth_error_app1 in * by lia. exact Eg'.
      * rewrite nth_error_app2 in * by lia. rewrite L1 in *. destruct (g' - g) as [|q] eqn:Q; [lia|]. exact Eg'.
    + split; [apply (nth_error_In _ _ Em')|]. repeat split; auto.
Qed.

(** Integers for all types of lengths. *)
Definition Ints (n : string) : Type := Z.
#[global] Instance ints_ops n : LenOps (Ints n) := ZOps.
#[global] Instance ints_laws n : LenLaws (Ints n) := ZLaws.

(** A process in which all headers are there; it makes a [Lengths] object and two IETs. *)
Definition anything : string -> bool := fun _ => true.
Definition ok_or (r : res (pyst Ints)) : pyst Ints := match r with Ok st => st | _ => py_start end.
Definition p_lengths : pyst Ints := ok_or (py_lengths anything "int" [18; 3]%Z None py_start).
Definition p_one : pyst Ints := ok_or (py_iet 0 [1; 0]%Z p_lengths).
Definition p_two : pyst Ints := ok_or (py_iet 0 [1; 0]%Z p_one).
Definition p_run : pyst Ints := ok_or (py_method op_zorich 0 0 p_two).

Lemma p_legal : legal_iet (El := Ints) (mkplen "int" (mkslen [] [18; 3]%Z)) [1; 0]%Z.
Proof.
  split; [reflexivity|]. split.
  - intros x [<-|[<-|[]]]; cbn; lra.
  - cbn. apply perm_swap.
Qed.

Lemma p_lengths_session : session anything p_lengths.
Proof. apply (s_lengths anything py_start "int" [18; 3]%Z None); [apply s_start|]. vm_compute. reflexivity. Qed.
Lemma p_one_session : session anything p_one.
Proof. eapply (s_iet _ p_lengths 0 (mkplen "int" (mkslen [] [18; 3]%Z))); [exact p_lengths_session | reflexivity | exact p_legal | vm_compute; reflexivity]. Qed.
Lemma p_two_session : session anything p_two.
Proof. eapply (s_iet _ p_one 0 (mkplen "int" (mkslen [] [18; 3]%Z))); [exact p_one_session | reflexivity | exact p_legal | vm_compute; reflexivity]. Qed.
Lemma p_run_session : session anything p_run.
Proof. eapply (s_method _ p_two op_zorich 0 0); [exact p_two_session | exact I | vm_compute; reflexivity]. Qed.
Lemma claim_C80_refuted : exists (st0 st1 st2 : pyst Ints) gr x l,
  py_lengths anything "int" [18; 3]%Z None py_start = Ok st0 /\ py_iet 0 [1; 0]%Z st0 = Ok st1 /\
  py_method op_zorich 0 0 st1 = Ok st2 /\ session anything st2 /\
  py_groups st2 = [gr] /\ gr_objs gr = [x] /\ lengths_of st2 gr x = Some l /\
  exists c, In c (i_top (ob_iet x)) /\ lamR (pl_len l) c <> lamR (gr_len gr) c.
Proof.
  exists p_lengths, p_one, (ok_or (py_method op_zorich 0 0 p_one)).
  eexists. eexists. eexists.
  split; [vm_compute; reflexivity|]. split; [vm_compute; reflexivity|]. split; [vm_compute; reflexivity|].
  split; [eapply (s_method _ p_one op_zorich 0 0); [exact p_one_session | exact I | vm_compute; reflexivity]|].
  split; [vm_compute; reflexivity|]. split; [reflexivity|]. split; [vm_compute; reflexivity|].
  exists 0. split; [left; reflexivity|]. cbn. lra.
Qed.

Lemma claim_C80_partial : forall (El : string -> Type) (ops : forall n, LenOps (El n)) (laws : forall n, LenLaws (El n))
    avail (st : pyst El) gr x,
  session avail st -> In gr (py_groups st) -> In x (gr_objs gr) ->
  exists l, lengths_of st gr x = Some l /\ pl_ty l = gr_ty gr /\
    (forall c, In c (i_top (ob_iet x)) -> exists v, sl_at (pl_len l) c = Ok v) /\
    (ob_attr x = None -> forall c, lamR (pl_len l) c = lamR (gr_len gr) c).
Proof.
  intros El ops laws avail st gr x S Hg Hx. pose proof (session_ok _ _ S) as K. unfold lengths_of.
  destruct (ob_attr x) as [k|] eqn:Ek.
  - destruct (ok_attr _ _ K gr x k Hg Hx Ek) as (l & E1 & E2 & E3). exists l. split; [exact E1|]. split; [exact E2|]. split; [|discriminate].
    intros c Hc. unfold sl_at. destruct (nth_error (sl_lens (pl_len l)) c) eqn:E; [eexists; reflexivity|].
    apply nth_error_None in E. specialize (E3 c Hc). lia.
  - exists (mkplen (gr_ty gr) (gr_len gr)). split; [reflexivity|]. split; [reflexivity|]. split; [|reflexivity]. cbn [pl_len pl_ty].
    intros c Hc. assert (G : good (ob_iet x) (gr_len gr)).
    { apply obtainable_good. exists (map ob_iet (gr_objs gr)). split; [apply (ok_groups _ _ K), Hg | apply in_map, Hx]. }
    destruct (good_valid _ _ G) as (_ & _ & _ & V). destruct (V c Hc) as (v & Ev & _). unfold sl_at. rewrite Ev. eexists. reflexivity.
Qed.

Lemma claim_C81_partial : forall (El : string -> Type) (ops : forall n, LenOps (El n)) (laws : forall n, LenLaws (El n))
    avail avail' (st st' : pyst El) g m gr x order,
  session avail st -> session avail' st' ->
  nth_error (py_groups st) g = Some gr -> nth_error (gr_objs gr) m = Some x ->
  known_here st (gr_ty gr) -> is_gmp (cpp_name (gr_ty gr)) = false ->
  (forall n hs h, In (n, hs) (py_known st) -> In h hs -> avail' h = true) ->
  Permutation order (py_known st) ->
  exists st1 p, py_dumps avail order g m st = (st1, Some p) /\
    forall order', Permutation order' (pk_known p) ->
    exists st2 j, py_loads avail' order' p st' = (st2, true) /\ py_lens st2 = py_lens st' /\
      py_groups st2 = py_groups st' ++ [mkgroup (gr_ty gr) [mkobj j None] (gr_len gr)] /\
      i_top j = i_top (ob_iet x) /\ i_bottom j = i_bottom (ob_iet x).
Proof.
  intros El ops laws avail avail' st st' g m gr x order S S' Eg Em (hs & Kn) Ng Av P.
  pose proof (session_ok _ _ S) as K. pose proof (session_ok _ _ S') as K'.
  destruct (py_dumps avail order g m st) as [st1 r] eqn:Ed.
  destruct (dumps_ok _ _ _ _ _ _ _ K P Ed) as (K1 & _ & _ & _ & H). specialize (H gr x Eg Em).
  assert (D : In (cpp_name (gr_ty gr)) (rg_defs (py_reg st1))).
  { unfold py_dumps in Ed. destruct (registrar avail order (py_reg st)) as [r' ok] eqn:Er.
    destruct (registrar_ok avail order _ _ _ (ok_reg _ _ K) Er) as (_ & _ & A3 & A4 & _).
    injection Ed as <- _. cbn [py_reg]. apply (A3 (A4 ltac:(intros n h Hn; apply (ok_known _ _ K n); eapply Permutation_in; eassumption)) _ hs); [|exact Ng].
    apply Permutation_sym in P. eapply Permutation_in; eassumption. }
  apply mem_In in D. rewrite D in H. subst r. exists st1. eexists. split; [reflexivity|].
  intros order' P'. cbn [pk_known] in P'.
  destruct (py_loads avail' order' (mkpk (py_known st) (gr_ty gr) (save_iet (ob_iet x) (Some (gr_len gr)))) st') as [st2 b] eqn:El'.
  assert (Ob : obtainable (ob_iet x) (gr_len gr)).
  { exists (map ob_iet (gr_objs gr)). split; [apply (ok_groups _ _ K), (nth_error_In _ _ Eg) | apply in_map, (nth_error_In _ _ Em)]. }
  destruct (loads_ok avail' order' (gr_ty gr) (py_known st) (ob_iet x) (gr_len gr) st' st2 b K' Ob El') as (_ & L & _ & Q & B).
  assert (Av' : forall n h, In (n, h) order' -> forallb avail' h = true).
  { intros n h Hn. apply forallb_forall. intros y Hy. eapply Av; [|exact Hy]. eapply Permutation_in; eassumption. }
  assert (Bt : b = true).
  { apply (B Av'). unfold py_loads in El'. cbn [pk_ty pk_data] in El'.
    destruct (registrar avail' order' (py_reg st')) as [r' ok] eqn:Er.
    destruct (registrar_ok avail' order' _ _ _ (ok_reg _ _ K') Er) as (_ & _ & A3 & A4 & _).
    assert (Er2 : py_reg st2 = r').
    { destruct (ok && mem (cpp_name (gr_ty gr)) (rg_defs r')); [destruct (load_iet _) as [[i [s|]]| | | |]|]; injection El' as <- _; reflexivity. }
    rewrite Er2. apply (A3 (A4 Av') _ hs); [|exact Ng]. apply Permutation_sym in P'. eapply Permutation_in; eassumption. }
  subst b. destruct Q as (j & Q1 & Q2 & Q3). exists st2, j. repeat split; assumption.
Qed.

Lemma claim_C81_known : forall (El : string -> Type) (ops : forall n, LenOps (El n)) (laws : forall n, LenLaws (El n))
    avail (st : pyst El) gr x,
  session avail st -> In gr (py_groups st) -> In x (gr_objs gr) -> ob_attr x <> None -> known_here st (gr_ty gr).
Proof.
  intros El ops laws avail st gr x S Hg Hx Ha. pose proof (session_ok _ _ S) as K.
  destruct (ob_attr x) as [k|] eqn:Ek; [|congruence].
  destruct (ok_attr _ _ K gr x k Hg Hx Ek) as (l & E1 & E2 & _). rewrite <- E2.
  apply (ok_lens _ _ K l (nth_error_In _ _ E1)).
Qed.

Lemma claim_C81_gmp : forall (El : string -> Type) (ops : forall n, LenOps (El n)) (laws : forall n, LenLaws (El n))
    avail (st : pyst El) g m gr order,
  session avail st -> nth_error (py_groups st) g = Some gr ->
  is_gmp (cpp_name (gr_ty gr)) = true -> Permutation order (py_known st) ->
  snd (py_dumps avail order g m st) = None.
Proof.
  intros El ops laws avail st g m gr order S Eg G P. pose proof (session_ok _ _ S) as K.
  unfold py_dumps. destruct (registrar avail order (py_reg st)) as [r' ok] eqn:Er.
  destruct (registrar_ok avail order _ _ _ (ok_reg _ _ K) Er) as ((_ & _ & A) & _).
  cbn [snd]. rewrite Eg. destruct (nth_error (gr_objs gr) m); [|reflexivity].
  destruct (mem (cpp_name (gr_ty gr)) (rg_defs r')) eqn:M; [|rewrite andb_false_r; reflexivity].
  apply mem_In in M. rewrite (A _ M) in G. discriminate.
Qed.

Definition p_pickle : option (pickled Ints) := snd (py_dumps anything (py_known p_one) 0 0 p_one).
Definition the_pickle (o : option (pickled Ints)) : pickled Ints := match o with Some p => p | None => mkpk [] "" ANull end.
Definition p_relay : pyst Ints := fst (py_loads anything (py_known p_one) (the_pickle p_pickle) py_start).
Definition p_again : option (pickled Ints) := snd (py_dumps anything [] 0 0 p_relay).

Lemma p_relay_session : session anything p_relay.
Proof.
  apply (s_loads anything py_start anything p_one (py_known p_one) 0 0 (fst (py_dumps anything (py_known p_one) 0 0 p_one)) (the_pickle p_pickle) (py_known p_one) p_relay true).
  - apply s_start.
  - exact p_one_session.
  - apply Permutation_refl.
  - vm_compute. reflexivity.
  - vm_compute. apply Permutation_refl.
  - vm_compute. reflexivity.
Qed.
Lemma claim_C81_refuted : exists (st st1 : pyst Ints) gr x p,
  session anything st /\ nth_error (py_groups st) 0 = Some gr /\ nth_error (gr_objs gr) 0 = Some x /\
  is_gmp (cpp_name (gr_ty gr)) = false /\
  py_dumps anything (py_known st) 0 0 st = (st1, Some p) /\
  forall order, Permutation order (pk_known p) -> snd (py_loads anything order p py_start) = false.
Proof.
  exists p_relay. eexists. eexists. eexists. eexists.
  split; [exact p_relay_session|]. split; [vm_compute; reflexivity|]. split; [vm_compute; reflexivity|].
  split; [vm_compute; reflexivity|]. split; [vm_compute; reflexivity|].
  intros order P. cbn in P. apply Permutation_sym, Permutation_nil in P. subst order. vm_compute. reflexivity.
Qed.

