(** Boshernitzan's criteria: what the methods decide and that they are sound. *)
From Coq Require Import Reals Lra Permutation Qreals.
From Verif Require Import Base QcTac LenT FM Subspace Lengths IET SpecLin Api ZorichProof SubspaceProof Saf Dyn.
From Verif Require Spec LenInst.

Local Open Scope nat_scope.

(** * Rational functionals *)

Lemma lin_tab_add (f g : nat -> Qc) b d : length b = d ->
  (lin (tab d (fun k => (f k + g k)%Qc)) b = lin (tab d f) b + lin (tab d g) b)%R.
Proof.
  revert f g d; induction b as [|y b IH]; intros f g d H; subst d; cbn [length]; [simpl; lra|].
  rewrite !tab_S. simpl. rewrite (IH (fun k => f (S k)) (fun k => g (S k)) _ eq_refl), Qc2R_plus. lra.
Qed.

Lemma lin_tab_scale (c : Qc) (f : nat -> Qc) b d : length b = d ->
  (lin (tab d (fun k => (c * f k)%Qc)) b = Qc2R c * lin (tab d f) b)%R.
Proof.
  revert f d; induction b as [|y b IH]; intros f d H; subst d; cbn [length]; [simpl; lra|].
  rewrite !tab_S. simpl. rewrite (IH (fun k => f (S k)) _ eq_refl), Qc2R_mult. lra.
Qed.

Lemma lin_tab_zero b d : length b = d -> lin (tab d (fun _ => 0%Qc)) b = 0%R.
Proof.
  revert d; induction b as [|y b IH]; intros d H; subst d; cbn [length]; [reflexivity|].
  rewrite !tab_S. simpl. rewrite (IH _ eq_refl), Qc2R_0. lra.
Qed.

Lemma lin_tab_qsum (q : label -> Qc) (f : nat -> label -> Qc) b d l : length b = d ->
  (lin (tab d (fun k => qsum (fun a => q a * f k a)%Qc l)) b
   = Spec.total (fun a => Qc2R (q a) * lin (tab d (fun k => f k a)) b) l)%R.
Proof.
  intros H. induction l as [|a l IH]; simpl.
  - apply lin_tab_zero, H.
  - rewrite (lin_tab_add (fun k => (q a * f k a)%Qc)) by exact H. rewrite IH, lin_tab_scale by exact H. reflexivity.
Qed.

Lemma Qc2R_dot (c q : vec) : length c = length q -> Qc2R (dot c q) = lin c (map Qc2R q).
Proof.
  revert q; induction c as [|x c IH]; intros [|y q] H; simpl in *; try lia; [apply Qc2R_0|].
  rewrite Qc2R_plus, Qc2R_mult, IH by lia. reflexivity.
Qed.

(** Rational numbers are dense. *)
Lemma rational_near (b eps : R) : (0 < eps)%R -> exists q : Qc, (Rabs (Qc2R q - b) <= eps)%R.
Proof.
  intros He. destruct (archimed (/ eps)) as [H1 _].
  set (n := up (/ eps)) in *. assert (Hi : (0 < / eps)%R) by (apply Rinv_0_lt_compat, He).
  assert (Hn : (0 < n)%Z) by (apply lt_IZR; lra).
  destruct (archimed (b * IZR n)) as [H2 H3]. set (z := up (b * IZR n)) in *.
  exists (Q2Qc (z # Z.to_pos n)).
  assert (E : (Qc2R (Q2Qc (z # Z.to_pos n)) = IZR z / IZR n)%R).
  { unfold Qc2R. change (this (Q2Qc (z # Z.to_pos n))) with (Qred (z # Z.to_pos n)). rewrite (Qeq_eqR _ _ (Qred_correct (z # Z.to_pos n))). unfold Q2R. cbn [Qnum Qden].
    rewrite Z2Pos.id by exact Hn. reflexivity. }
  rewrite E. assert (Hnr : (0 < IZR n)%R) by (apply IZR_lt, Hn).
  assert (Ed : (IZR z / IZR n - b = (IZR z - b * IZR n) * / IZR n)%R) by (field; lra).
  rewrite Ed, Rabs_pos_eq by (apply Rmult_le_pos; [lra | left; apply Rinv_0_lt_compat, Hnr]).
  apply Rle_trans with (1 * / IZR n)%R.
  - apply Rmult_le_compat_r; [left; apply Rinv_0_lt_compat, Hnr | lra].
  - rewrite Rmult_1_l, <- (Rinv_inv eps). apply Rinv_le_contravar; lra.
Qed.

Definition close (eps : R) (q : vec) (b : list R) : Prop := Forall2 (fun x y => (Rabs (Qc2R x - y) <= eps)%R) q b.

Lemma close_exists eps b : (0 < eps)%R -> exists q, close eps q b.
Proof.
  intros He. induction b as [|y b [q Hq]]; [exists []; constructor|].
  destruct (rational_near y eps He) as [x Hx]. exists (x :: q). constructor; assumption.
Qed.

Lemma close_weaken e e' q b : (e <= e')%R -> close e q b -> close e' q b.
Proof. intros He H. induction H; constructor; auto. lra. Qed.

Fixpoint weight (c : vec) : R := match c with [] => 0%R | x :: c' => (Rabs (Qc2R x) + weight c')%R end.

Lemma weight_nonneg c : (0 <= weight c)%R.
Proof. induction c as [|x c IH]; simpl; [lra|]. pose proof (Rabs_pos (Qc2R x)). lra. Qed.

Lemma lin_close eps (c q : vec) b : (0 <= eps)%R -> length c = length b -> close eps q b ->
  (Rabs (lin c (map Qc2R q) - lin c b) <= weight c * eps)%R.
Proof.
  intros He. revert q b; induction c as [|x c IH]; intros q b H Hc; inversion Hc as [|y z q' b' H1 H2]; subst; simpl in *; try lia.
  - rewrite Rminus_0_r, Rabs_R0. lra.
  - replace (Qc2R x * Qc2R y + lin c (map Qc2R q') - (Qc2R x * z + lin c b'))%R
      with (Qc2R x * (Qc2R y - z) + (lin c (map Qc2R q') - lin c b'))%R by ring.
    eapply Rle_trans; [apply Rabs_triang|]. rewrite Rabs_mult.
    specialize (IH q' b' ltac:(lia) H2).
    assert (Rabs (Qc2R x) * Rabs (Qc2R y - z) <= Rabs (Qc2R x) * eps)%R by (apply Rmult_le_compat_l; [apply Rabs_pos | exact H1]).
    lra.
Qed.

(** Finitely many positive linear forms stay positive near the given point. *)
Lemma positive_near (cs : list vec) (b : list R) :
  (forall c, In c cs -> length c = length b /\ (0 < lin c b)%R) ->
  exists eps, (0 < eps)%R /\ forall q, close eps q b -> forall c, In c cs -> (0 < lin c (map Qc2R q))%R.
Proof.
  induction cs as [|c cs IH]; intros H.
  - exists 1%R. split; [lra | intros q _ c []].
  - destruct IH as [e1 [He1 H1]]; [intros; apply H; right; assumption|].
    destruct (H c (or_introl eq_refl)) as [Hl Hp]. pose proof (weight_nonneg c) as Hw.
    set (e2 := (lin c b / (weight c + 1))%R).
    assert (He2 : (0 < e2)%R) by (apply Rdiv_lt_0_compat; lra).
    assert (Hm : (weight c * e2 < lin c b)%R).
    { unfold e2. apply (Rmult_lt_reg_r (weight c + 1)); [lra|].
      replace (weight c * (lin c b / (weight c + 1)) * (weight c + 1))%R with (weight c * lin c b)%R by (field; lra). nra. }
    exists (Rmin e1 e2). split; [apply Rmin_pos; assumption|]. intros q Hq d [<-|Hd].
    + assert (Hq2 : close e2 q b).
      { apply (close_weaken (Rmin e1 e2)); [apply Rmin_r | exact Hq]. }
      pose proof (lin_close e2 c q b ltac:(lra) Hl Hq2) as Hc. pose proof (Rabs_def2 _ _ (Rle_lt_trans _ _ _ Hc Hm)) as Hc'. lra.
    + apply (H1 q); [|exact Hd]. apply (close_weaken (Rmin e1 e2)); [apply Rmin_l | exact Hq].
Qed.

Section Bosh.
Context {T : Type} {O : LenOps T} {W : LenLaws T}.

(** * Equations *)

Lemma bosh_equations_ok i s : wf i s ->
  bosh_equations i s = Ok (map (fun k => map (displacement (co (lamT s) k) (i_top i) (i_bottom i)) (i_top i)) (seq 0 (l_deg T))).
Proof.
  intros H. unfold bosh_equations. rewrite translations_ok by exact H. cbn [bind].
  destruct H as (_ & _ & Hne & _). destruct (i_top i) as [|a0 X] eqn:Et; [contradiction|]. cbn [map].
  rewrite tab_length. f_equal. apply map_ext_in. intros k Hk. apply in_seq in Hk.
  rewrite tab_nth by lia. f_equal. rewrite map_map. apply map_ext. intros a. rewrite tab_nth by lia. reflexivity.
Qed.

(** Displacements as lengths. *)
Fixpoint tbefore (len : label -> T) (l : list label) (a : label) : T :=
  match l with
  | [] => l_zero
  | c :: r => if Nat.eqb c a then l_zero else l_add (len c) (tbefore len r a)
  end.
Definition tshift (len : label -> T) (top bot : list label) (a : label) : T :=
  l_sub (tbefore len bot a) (tbefore len top a).

Lemma coef_zero_nth k : nth k (l_coef l_zero) 0%Qc = 0%Qc.
Proof. rewrite coef_zero. apply nth_vzero. Qed.
Lemma coef_add_nth x y k : nth k (l_coef (l_add x y)) 0%Qc = (nth k (l_coef x) 0 + nth k (l_coef y) 0)%Qc.
Proof. rewrite coef_add, nth_vadd; [reflexivity|]. rewrite !coef_length; reflexivity. Qed.
Lemma coef_sub_nth x y k : nth k (l_coef (l_sub x y)) 0%Qc = (nth k (l_coef x) 0 - nth k (l_coef y) 0)%Qc.
Proof. rewrite coef_sub, nth_vsub; [reflexivity|]. rewrite !coef_length; reflexivity. Qed.
Lemma coef_scale_nth z x k : nth k (l_coef (l_scale z x)) 0%Qc = (zq z * nth k (l_coef x) 0)%Qc.
Proof.
  destruct (Z_le_gt_dec 0 z) as [Hz|Hz].
  - rewrite <- (Z2Nat.id z Hz), coef_scale_pos, nth_vscale. reflexivity.
  - assert (E : l_scale z x = l_sub l_zero (l_scale (Z.of_nat (Z.to_nat (- z))) x)).
    { apply val_inj. rewrite val_sub, !val_scale, val_zero, Z2Nat.id by lia. rewrite opp_IZR. lra. }
    rewrite E, coef_sub_nth, coef_zero_nth, coef_scale_pos, nth_vscale, Z2Nat.id by lia.
    rewrite LenInst.zq_opp. ring.
Qed.

Lemma tbefore_val len l a : val (tbefore len l a) = Spec.left_end (fun c => val (len c)) l a.
Proof.
  induction l as [|c l IH]; simpl; [apply val_zero|]. destruct (Nat.eqb c a); [apply val_zero|]. rewrite val_add, IH. reflexivity.
Qed.
Lemma tbefore_co len l a k : nth k (l_coef (tbefore len l a)) 0%Qc = before (co len k) l a.
Proof.
  induction l as [|c l IH]; simpl; [apply coef_zero_nth|]. destruct (Nat.eqb c a); [apply coef_zero_nth|].
  rewrite coef_add_nth, IH. reflexivity.
Qed.
Lemma tshift_co len top bot a k : nth k (l_coef (tshift len top bot a)) 0%Qc = displacement (co len k) top bot a.
Proof. unfold tshift. rewrite coef_sub_nth, !tbefore_co. reflexivity. Qed.

Lemma left_end_ext f g l a : (forall c, f c = g c) -> Spec.left_end f l a = Spec.left_end g l a.
Proof. intros H. induction l as [|c l IH]; simpl; [reflexivity|]. rewrite H, IH. reflexivity. Qed.

Lemma tshift_val i s a : val (tshift (lamT s) (i_top i) (i_bottom i) a) = Spec.shift (exch_of i s) a.
Proof.
  unfold tshift, Spec.shift. rewrite val_sub, !tbefore_val. simpl.
  rewrite !(left_end_ext (fun c => val (lamT s c)) (lamR s)) by apply val_lamT. reflexivity.
Qed.

Fixpoint tsum (f : label -> T) (l : list label) : T :=
  match l with [] => l_zero | c :: r => l_add (f c) (tsum f r) end.
Lemma tsum_val f l : val (tsum f l) = Spec.total (fun a => val (f a)) l.
Proof. induction l as [|c l IH]; simpl; [apply val_zero|]. rewrite val_add, IH. reflexivity. Qed.
Lemma tsum_co f l k : nth k (l_coef (tsum f l)) 0%Qc = qsum (fun a => nth k (l_coef (f a)) 0%Qc) l.
Proof. induction l as [|c l IH]; simpl; [apply coef_zero_nth|]. rewrite coef_add_nth, IH. reflexivity. Qed.

Lemma total_scale c f l : Spec.total (fun a => (c * f a)%R) l = (c * Spec.total f l)%R.
Proof. induction l as [|a l IH]; simpl; [lra|]. rewrite IH. lra. Qed.

(** An equation between displacements holds over the reals if and only if it holds in
    every rational coordinate. *)
Lemma rational_equation i s (rho : T) (q : label -> Qc) :
  (Spec.total (fun a => Qc2R (q a) * Spec.shift (exch_of i s) a)%R (i_top i) = val rho <->
   forall k, k < l_deg T ->
     qsum (fun a => q a * displacement (co (lamT s) k) (i_top i) (i_bottom i) a)%Qc (i_top i) = nth k (l_coef rho) 0%Qc).
Proof.
  set (top := i_top i). set (bot := i_bottom i). split.
  - intros H. destruct (lin_expr_ok (map q top) 0%Qc) as [den [Hd [_ [Hn _]]]].
    assert (HN : exists N : label -> Z, forall a, In a top -> (zq den * q a)%Qc = zq (N a)).
    { exists (fun a => qnum (zq den * q a)%Qc). intros a Ha. destruct (Hn (q a) (in_map q _ _ Ha)) as [n En].
      rewrite En, qnum_zq. reflexivity. }
    destruct HN as [N HN].
    assert (E : tsum (fun a => l_scale (N a) (tshift (lamT s) top bot a)) top = l_scale den rho).
    { apply val_inj. rewrite tsum_val, val_scale, <- H, <- total_scale. apply total_ext. intros a Ha.
      rewrite val_scale. unfold top, bot. rewrite tshift_val, <- LenInst.Qc2R_zq, <- HN by exact Ha.
      rewrite Qc2R_mult, LenInst.Qc2R_zq. ring. }
    intros k Hk. apply (f_equal (fun x => nth k (l_coef x) 0%Qc)) in E.
    rewrite tsum_co, coef_scale_nth in E. apply (Qcmul_cancel (zq den)); [apply zq_pos, Hd|].
    rewrite <- E, <- qsum_scale. apply qsum_ext. intros a Ha.
    rewrite coef_scale_nth, tshift_co, Qcmult_assoc, HN by exact Ha. reflexivity.
  - intros H. rewrite val_coef, (tab_of (l_coef rho) (l_deg T) (coef_length rho)).
    rewrite <- (tab_ext _ _ _ H), lin_tab_qsum by apply basis_length.
    apply total_ext. intros a _. rewrite <- tshift_val, val_coef. f_equal. f_equal.
    rewrite (tab_of (l_coef (tshift (lamT s) (i_top i) (i_bottom i) a)) (l_deg T) (coef_length _)).
    apply tab_ext. intros k _. apply tshift_co.
Qed.

(** * Solutions as vectors *)

Lemma dot_map_map (f g : label -> Qc) l : dot (map f l) (map g l) = qsum (fun a => (f a * g a)%Qc) l.
Proof. induction l as [|a l IH]; simpl; [reflexivity|]. rewrite IH. reflexivity. Qed.

(** Read a vector indexed by positions as a function of labels. *)
Fixpoint assign (l : list label) (x : vec) (a : label) : Qc :=
  match l, x with
  | c :: l', q :: x' => if Nat.eqb c a then q else assign l' x' a
  | _, _ => 0%Qc
  end.
Lemma map_assign l x : NoDup l -> length x = length l -> map (assign l x) l = x.
Proof.
  revert x; induction l as [|c l IH]; intros [|q x] N H; simpl in *; try lia; [reflexivity|].
  inversion N as [|? ? Hc Nl]; subst. rewrite Nat.eqb_refl. f_equal. transitivity (map (assign l x) l); [|apply IH; [exact Nl | lia]].
  apply map_ext_in. intros a Ha. destruct (Nat.eqb_spec c a); [congruence | reflexivity].
Qed.

Definition eqs_of (s : slen T) (top bot : list label) : list vec :=
  map (fun k => map (displacement (co (lamT s) k) top bot) top) (seq 0 (l_deg T)).

Lemma eqs_of_length s top bot : length (eqs_of s top bot) = l_deg T.
Proof. unfold eqs_of. rewrite map_length, seq_length. reflexivity. Qed.

Lemma eqs_of_dim s top bot : max_dim (eqs_of s top bot) = length top.
Proof.
  unfold max_dim, eqs_of. rewrite map_map. rewrite (map_ext _ (fun _ => length top)) by (intros; apply map_length).
  pose proof (deg_pos (T := T)) as H. destruct (l_deg T) as [|d]; [lia|]. simpl.
  assert (E : forall l : list nat, fold_right Nat.max 0 (map (fun _ => length top) l) <= length top).
  { induction l; simpl; lia. }
  specialize (E (seq 1 d)). lia.
Qed.

Lemma eqs_of_solves i s (y : T) g :
  solves (eqs_of s (i_top i) (i_bottom i)) (l_coef y) (map g (i_top i)) <->
  Spec.total (fun a => Qc2R (g a) * Spec.shift (exch_of i s) a)%R (i_top i) = val y.
Proof.
  rewrite rational_equation. unfold solves, eqs_of.
  assert (G : forall d j (v : vec), length v = d ->
    (Forall2 (fun e k => dot e (map g (i_top i)) = k)
       (map (fun k => map (displacement (co (lamT s) k) (i_top i) (i_bottom i)) (i_top i)) (seq j d)) v <->
     forall k, k < d -> qsum (fun a => g a * displacement (co (lamT s) (j + k)) (i_top i) (i_bottom i) a)%Qc (i_top i) = nth k v 0%Qc)).
  { induction d as [|d IH]; intros j [|x v] H; simpl in H; try lia.
    - simpl. split; [intros; lia | constructor].
    - cbn [seq map]. split.
      + intros F. inversion F as [|? ? ? ? F1 F2]; subst. rewrite IH in F2 by lia. intros [|k] Hk.
        * rewrite Nat.add_0_r. simpl nth. rewrite dot_map_map. apply qsum_ext. intros; ring.
        * specialize (F2 k ltac:(lia)). replace (j + S k) with (S j + k) by lia. exact F2.
      + intros F. constructor.
        * specialize (F 0 ltac:(lia)). rewrite Nat.add_0_r in F. simpl nth in F. rewrite dot_map_map, <- F. apply qsum_ext. intros; ring.
        * apply IH; [lia|]. intros k Hk. specialize (F (S k) ltac:(lia)). replace (S j + k) with (j + S k) by lia. exact F. }
  apply G, coef_length.
Qed.

(** * No periodic trajectory *)

Lemma bosh_space i s : wf i s ->
  exists r, (eqs <- bosh_equations i s ;; ras_equations eqs (vzero (length eqs))) = Ok r /\ linear_sub r /\ r_homog r = true /\
    forall x, p_mem (r_sub r) x <->
      length x = length (i_top i) /\
      Spec.total (fun a => Qc2R (assign (i_top i) x a) * Spec.shift (exch_of i s) a)%R (i_top i) = 0%R.
Proof.
  intros H. rewrite bosh_equations_ok by exact H. cbn [bind]. fold (eqs_of s (i_top i) (i_bottom i)).
  rewrite eqs_of_length, <- coef_zero.
  destruct (ras_equations_ok (eqs_of s (i_top i) (i_bottom i)) (l_coef l_zero)) as [r [E [Hd [Hh Hm]]]].
  { rewrite eqs_of_length, coef_length. reflexivity. }
  exists r. split; [exact E|].
  destruct (ras_equations_linear _ _ _ E) as [L1 L2].
  { rewrite coef_zero. induction (l_deg T); simpl; constructor; auto. }
  split; [exact L1|]. split; [exact L2|]. intros x. rewrite Hm, eqs_of_dim.
  destruct H as (N & _).
  split; intros [Hx HS]; (split; [exact Hx|]).
  - rewrite <- (map_assign (i_top i) x N Hx) in HS. apply eqs_of_solves in HS. rewrite val_zero in HS. exact HS.
  - rewrite <- (map_assign (i_top i) x N Hx). apply eqs_of_solves. rewrite val_zero. exact HS.
Qed.

Lemma assign_map_in l (g : label -> Qc) a : In a l -> assign l (map g l) a = g a.
Proof.
  induction l as [|c l IH]; intros H; [contradiction|]. simpl. destruct (Nat.eqb_spec c a) as [->|Hne]; [reflexivity|].
  apply IH. destruct H; [contradiction | assumption].
Qed.
Lemma assign_in l x a : NoDup l -> length x = length l -> In a l -> In (assign l x a) x.
Proof. intros N H Ha. rewrite <- (map_assign l x N H) at 2. apply in_map, Ha. Qed.

(** The non-zero non-negative rational solutions are multiples of such multiplicities. *)
Lemma bosh_space_balanced i s r : wf i s -> linear_sub r ->
  (forall x, p_mem (r_sub r) x <->
      length x = length (i_top i) /\
      Spec.total (fun a => Qc2R (assign (i_top i) x a) * Spec.shift (exch_of i s) a)%R (i_top i) = 0%R) ->
  (nznn_spec r <-> Spec.balanced (exch_of i s)).
Proof.
  intros H L Hm. destruct H as (N & _). split.
  - intros HS. pose proof (proj1 (nznn_mip_integer r L) HS) as HI. destruct (HI 0%Qc) as [x [Hx [Hnn [Hint HM]]]].
    apply Hm in Hx. destruct Hx as [Hl Hs].
    assert (HN : forall a, In a (i_top i) -> Qc2R (assign (i_top i) x a) = INR (Z.to_nat (qnum (assign (i_top i) x a)))).
    { intros a Ha. pose proof (assign_in _ _ _ N Hl Ha) as Hin. unfold vinteger, vnonneg in *. rewrite Forall_forall in *.
      destruct (Hint _ Hin) as [n En]. specialize (Hnn _ Hin). rewrite En in *. rewrite qnum_zq, LenInst.Qc2R_zq, INR_IZR_INZ, Z2Nat.id; [reflexivity|].
      apply Qc2R_le in Hnn. rewrite LenInst.Qc2R_zq, Qc2R_0 in Hnn. apply le_IZR. exact Hnn. }
    exists (fun a => Z.to_nat (qnum (assign (i_top i) x a))). split.
    + rewrite (dot_ones x _ eq_refl) in HM. destruct (pos_nonzero x HM) as [q [Hq Hne]].
      rewrite <- (map_assign _ x N Hl) in Hq. apply in_map_iff in Hq. destruct Hq as [a [Ea Ha]].
      exists a. split; [exact Ha|]. intros E0. apply Hne. rewrite <- Ea. apply Qc2R_inj. rewrite HN, E0, Qc2R_0 by exact Ha. reflexivity.
    + simpl. rewrite <- Hs. apply total_ext. intros a Ha. rewrite HN by exact Ha. reflexivity.
  - intros [n [[a [Ha Hna]] HS]]. simpl in Ha, HS.
    exists (map (fun a => zq (Z.of_nat (n a))) (i_top i)). split; [|split].
    + apply Hm. rewrite map_length. split; [reflexivity|]. rewrite <- HS. apply total_ext. intros c Hc.
      rewrite assign_map_in by exact Hc. rewrite LenInst.Qc2R_zq, <- INR_IZR_INZ. reflexivity.
    + apply Forall_map, Forall_forall. intros c _. apply Qc2R_le. rewrite LenInst.Qc2R_zq, Qc2R_0. apply IZR_le. lia.
    + exists (zq (Z.of_nat (n a))). split; [apply (in_map (fun a => zq (Z.of_nat (n a)))), Ha|].
      pose proof (zq_pos (Z.of_nat (n a)) ltac:(lia)) as Hp. intros E. rewrite E in Hp. qclra.
Qed.

(** If the SAF invariant vanishes then the displacements cancel with positive
    multiplicities. *)
Lemma saf_zero_solution i s : wf i s -> vis0 (saf_now i s) = true ->
  exists g : label -> Qc, (forall a, In a (i_top i) -> (0 < g a)%Qc) /\
    Spec.total (fun a => Qc2R (g a) * Spec.shift (exch_of i s) a)%R (i_top i) = 0%R.
Proof.
  intros (N & P & Hne & Hp & _) Hz.
  destruct (positive_near (map (fun a => l_coef (lamT s a)) (i_top i)) (basis T)) as [eps [He Hpos]].
  { intros c Hc. apply in_map_iff in Hc. destruct Hc as [a [<- Ha]]. rewrite coef_length, basis_length. split; [reflexivity|].
    rewrite <- val_coef, val_lamT. apply posl_lamR, Hp, Ha. }
  destruct (close_exists eps (basis T) He) as [q Hq]. specialize (Hpos q Hq).
  assert (Lq : length q = l_deg T) by (rewrite <- basis_length; clear - Hq; induction Hq; simpl; congruence).
  exists (fun a => dot (l_coef (lamT s a)) q). split.
  - intros a Ha. apply Qc2R_lt. rewrite Qc2R_0, Qc2R_dot by (rewrite coef_length; congruence).
    apply Hpos. apply (in_map (fun a => l_coef (lamT s a))), Ha.
  - rewrite <- val_zero. apply rational_equation. intros k Hk. rewrite coef_zero_nth.
    (* all half entries vanish *)
    assert (Hh : forall p, p < l_deg T -> half (co (lamT s) p) (co (lamT s) k) (i_top i) (i_bottom i) = 0%Qc).
    { assert (HS : forall p r, p < r < l_deg T -> saf_entry (co (lamT s) p) (co (lamT s) r) (i_top i) (i_bottom i) = 0%Qc).
      { intros p r Hpr. unfold vis0, saf_now, saf_of, saf_vector in Hz. rewrite forallb_forall in Hz.
        assert (Hin : In (saf_entry (co (lamT s) p) (co (lamT s) r) (i_top i) (i_bottom i))
           (map (fun p => saf_entry (co (lamT s) (fst p)) (co (lamT s) (snd p)) (i_top i) (i_bottom i)) (pairs (l_deg T)))).
        { apply in_map_iff. exists (p, r). split; [reflexivity | apply pairs_In; exact Hpr]. }
        specialize (Hz _ Hin). destruct (Qc_eq_dec _ 0) as [E|]; [exact E | discriminate]. }
      intros p Hpd. destruct (lt_eq_lt_dec p k) as [[Hlt| ->]|Hgt].
      - apply saf_entry_zero_half; auto.
      - pose proof (half_antisym (co (lamT s) k) (co (lamT s) k) _ _ N P) as Ha. revert Ha.
        generalize (half (co (lamT s) k) (co (lamT s) k) (i_top i) (i_bottom i)). intros c Hc; qclra.
      - rewrite half_antisym, saf_entry_zero_half by auto. ring. }
    assert (G : forall d, d <= l_deg T ->
       qsum (fun a => (fold_right Qcplus 0 (map (fun p => nth p (l_coef (lamT s a)) 0 * nth p q 0) (seq 0 d)) * displacement (co (lamT s) k) (i_top i) (i_bottom i) a)%Qc) (i_top i) = 0%Qc).
    { induction d as [|d IH]; intros Hd.
      - simpl. rewrite (qsum_ext _ (fun a => (0 * 1)%Qc)) by (intros; ring). rewrite (qsum_scale 0%Qc (fun _ => 1%Qc)). ring.
      - rewrite seq_S. simpl. 
        rewrite (qsum_ext _ (fun a => (fold_right Qcplus 0 (map (fun p => nth p (l_coef (lamT s a)) 0 * nth p q 0) (seq 0 d)) * displacement (co (lamT s) k) (i_top i) (i_bottom i) a
            + nth d q 0 * (co (lamT s) d a * displacement (co (lamT s) k) (i_top i) (i_bottom i) a))%Qc)).
        + rewrite qsum_add, IH by lia. rewrite (qsum_scale (nth d q 0%Qc) (fun a => (co (lamT s) d a * displacement (co (lamT s) k) (i_top i) (i_bottom i) a)%Qc)).
          fold (half (co (lamT s) d) (co (lamT s) k) (i_top i) (i_bottom i)). rewrite Hh by lia. ring.
        + intros a _. rewrite map_app, fold_right_app. simpl.
          assert (Ef : forall l z, fold_right Qcplus z l = (fold_right Qcplus 0 l + z)%Qc).
          { induction l as [|x l IHl]; intros z; simpl; [ring|]. rewrite IHl. ring. }
          rewrite Ef. unfold co. ring. }
    rewrite <- (G (l_deg T) (Nat.le_refl _)). apply qsum_ext. intros a _. f_equal.
    rewrite (tab_of (l_coef (lamT s a)) (l_deg T) (coef_length _)) at 1. unfold tab. rewrite dot_map_scaled by exact Lq. reflexivity.
Qed.

Lemma positive_balanced i s (g : label -> Qc) : wf i s -> (forall a, In a (i_top i) -> (0 < g a)%Qc) ->
  Spec.total (fun a => Qc2R (g a) * Spec.shift (exch_of i s) a)%R (i_top i) = 0%R -> Spec.balanced (exch_of i s).
Proof.
  intros H Hg HS. destruct (bosh_space i s H) as [r [_ [L [_ Hm]]]]. apply (bosh_space_balanced i s r H L Hm).
  pose proof H as (N & _ & Hne & _).
  exists (map g (i_top i)). split; [|split].
  - apply Hm. rewrite map_length. split; [reflexivity|]. rewrite <- HS. apply total_ext. intros a Ha. rewrite assign_map_in by exact Ha. reflexivity.
  - apply Forall_map, Forall_forall. intros a Ha. specialize (Hg a Ha). qclra.
  - destruct (i_top i) as [|a X]; [contradiction|]. exists (g a). split; [left; reflexivity|].
    specialize (Hg a (or_introl eq_refl)). intros E. rewrite E in Hg. qclra.
Qed.

(** [boshernitzanNoPeriodicTrajectory] decides whether the displacements can cancel. *)
Theorem bosh_no_periodic_ok i s : wf i s -> cache_ok i s ->
  exists b v, bosh_no_periodic i s = Ok (b, set_saf i (Some v)) /\ cache_ok (set_saf i (Some v)) s /\
    (b = true <-> ~ Spec.balanced (exch_of i s)).
Proof.
  intros H C. unfold bosh_no_periodic. destruct (iet_saf0_ok i s H C) as [v [E [C' _]]]. rewrite E. cbn [bind].
  destruct (vis0 (saf_now i s)) eqn:Hz.
  - exists false, v. split; [reflexivity|]. split; [exact C'|]. split; [discriminate|]. intros Hb. exfalso. apply Hb.
    destruct (saf_zero_solution i s H Hz) as [g [Hg HS]]. eapply positive_balanced; eassumption.
  - unfold i_size. change (i_top (set_saf i (Some v))) with (i_top i).
    destruct (Nat.leb_spec (length (i_top i)) 1) as [Hle|Hgt].
    + exists false, v. split; [reflexivity|]. split; [exact C'|]. split; [discriminate|]. intros Hb. exfalso. apply Hb.
      destruct H as (N & P & Hne & _). destruct (i_top i) as [|a [|? ?]] eqn:Et; [contradiction| |simpl in Hle; lia].
      apply Permutation_length_1_inv in P. exists (fun _ => 1). simpl. rewrite Et. split; [exists a; simpl; auto|].
      simpl. unfold Spec.shift. simpl. rewrite Et, P. simpl. rewrite Nat.eqb_refl. lra.
    + change (bosh_equations (set_saf i (Some v)) s) with (bosh_equations i s).
      destruct (bosh_space i s H) as [r [Er [L [Hh Hm]]]].
      destruct (bosh_equations i s) as [eqs| | | |]; try discriminate. cbn [bind] in Er |- *. rewrite Er. cbn [bind].
      destruct (nznn_ok r L Hh) as [b [Eb Hb]]. rewrite Eb. cbn [bind].
      exists (negb b), v. split; [reflexivity|]. split; [exact C'|].
      rewrite <- (bosh_space_balanced i s r H L Hm), <- Hb. destruct b; simpl; split; congruence || (intros; intuition congruence).
Qed.

(** * Orbits *)

Lemma left_end_split f X a Y : ~ In a X -> Spec.left_end f (X ++ a :: Y) a = Spec.total f X.
Proof.
  induction X as [|c X IH]; intros H; simpl.
  - rewrite Nat.eqb_refl. reflexivity.
  - destruct (Nat.eqb_spec c a) as [->|_]; [exfalso; apply H; left; reflexivity|].
    rewrite IH by (intros Hin; apply H; right; exact Hin). reflexivity.
Qed.

Lemma nodup_before {A} (X : list A) a Y : NoDup (X ++ a :: Y) -> ~ In a X.
Proof. intros H Hin. apply NoDup_remove_2 in H. apply H, in_app_iff. left; exact Hin. Qed.

Lemma maps_shift e y z : Spec.proper e -> Spec.maps e y z ->
  exists a, In a (Spec.e_top e) /\ z = (y + Spec.shift e a)%R.
Proof.
  intros (N & P & _) H. apply maps_iff in H. destruct H as (a & X & Y & X' & Y' & Et & Eb & Hy & ->).
  exists a. split; [rewrite Et; apply in_app_iff; right; left; reflexivity|].
  unfold Spec.shift. rewrite Et, Eb, !left_end_split; [lra| |].
  - apply (nodup_before X a Y). rewrite <- Et. exact N.
  - apply (nodup_before X' a Y'). rewrite <- Eb. eapply Permutation_NoDup; eassumption.
Qed.

(** An orbit segment visits labels; the displacement is the sum of their shifts. *)
Lemma iter_visits e n : Spec.proper e -> forall y z, Spec.iter (Spec.maps e) n y z ->
  exists vs, length vs = n /\ (forall a, In a vs -> In a (Spec.e_top e)) /\ z = (y + Spec.total (Spec.shift e) vs)%R.
Proof.
  intros Hp. induction n as [|n IH]; intros y z H; simpl in H.
  - subst z. exists []. simpl. split; [reflexivity|]. split; [intros a []|]. lra.
  - destruct H as [w [H1 H2]]. destruct (maps_shift e y w Hp H1) as [a [Ha ->]]. destruct (IH _ _ H2) as [vs [Hl [Hv ->]]].
    exists (a :: vs). simpl. split; [lia|]. split; [intros c [<-|Hc]; auto|]. lra.
Qed.

Lemma total_counts f top vs : NoDup top -> (forall a, In a vs -> In a top) ->
  Spec.total f vs = Spec.total (fun a => INR (count_occ Nat.eq_dec vs a) * f a)%R top.
Proof.
  intros N. induction vs as [|c vs IH]; intros H.
  - simpl. rewrite (total_ext _ (fun _ => (0 * 0)%R)) by (intros; lra). rewrite (total_scale 0%R (fun _ => 0%R)). lra.
  - cbn [Spec.total]. rewrite IH by (intros a Ha; apply H; right; exact Ha).
    assert (Hc : In c top) by (apply H; left; reflexivity). clear IH H.
    induction top as [|b top IHt]; [contradiction|]. inversion N as [|? ? Hb Nt]; subst. cbn [Spec.total count_occ].
    destruct (Nat.eq_dec c b) as [->|Hne].
    + rewrite S_INR.
      rewrite (total_ext (fun a => (INR (if Nat.eq_dec b a then S (count_occ Nat.eq_dec vs a) else count_occ Nat.eq_dec vs a) * f a)%R)
                         (fun a => (INR (count_occ Nat.eq_dec vs a) * f a)%R)); [lra|].
      intros a Ha. destruct (Nat.eq_dec b a); [congruence | reflexivity].
    + destruct Hc as [Hc|Hc]; [congruence|]. specialize (IHt Nt Hc). cbn [count_occ] in IHt. lra.
Qed.

(** A periodic point makes the displacements cancel. *)
Lemma periodic_balanced e : Spec.proper e -> Spec.has_periodic_point e -> Spec.balanced e.
Proof.
  intros Hp [x [n [Hn H]]]. destruct (iter_visits e n Hp x x H) as [vs [Hl [Hv E]]].
  exists (count_occ Nat.eq_dec vs). split.
  - destruct vs as [|a vs]; [simpl in Hl; lia|]. exists a. split; [apply Hv; left; reflexivity|].
    simpl. destruct (Nat.eq_dec a a); [discriminate | congruence].
  - rewrite <- total_counts by (exact Hv || apply Hp). lra.
Qed.

Lemma wf_proper i s : wf i s -> Spec.proper (exch_of i s).
Proof. intros (N & P & _ & Hp & _). split; [exact N|]. split; [exact P|]. intros a Ha. apply posl_lamR, Hp, Ha. Qed.

(** * No saddle connection *)

Lemma saddle_connectable e b t : Spec.proper e -> Spec.saddle_connection e b t -> connectable e b t.
Proof.
  intros Hp (x & y & n & Hx & Hy & _ & _ & Hi). destruct (iter_visits e n Hp x y Hi) as [vs [Hl [Hv E]]].
  exists (fun a => zq (Z.of_nat (count_occ Nat.eq_dec vs a))), x, y.
  split; [intros a; apply Qc2R_le; rewrite LenInst.Qc2R_zq, Qc2R_0; apply IZR_le; lia|].
  split; [exact Hx|]. split; [exact Hy|]. rewrite E. f_equal.
  rewrite (total_counts (Spec.shift e) (Spec.e_top e) vs) by (exact Hv || apply Hp).
  apply total_ext. intros a _. cbv beta. fold (Qc2R (zq (Z.of_nat (count_occ Nat.eq_dec vs a)))).
  rewrite LenInst.Qc2R_zq, <- INR_IZR_INZ. reflexivity.
Qed.

Lemma next_label_ok l a : NoDup l -> Spec.not_last l a -> exists X c Y, l = X ++ a :: c :: Y /\ next_label a l = Some (Some c).
Proof.
  intros N (X & c & Y & E). exists X, c, Y. split; [exact E|]. unfold next_label.
  rewrite E, split_at_intro; [reflexivity|]. apply (nodup_before X a (c :: Y)). rewrite <- E. exact N.
Qed.

Lemma right_end_fun len l a x y : NoDup l -> Spec.right_end len l a x -> Spec.right_end len l a y -> x = y.
Proof.
  intros N (X & Y & E & ->) (X' & Y' & E' & ->). destruct (nodup_split_unique l a X Y X' Y' N E E') as [-> _]. reflexivity.
Qed.

Lemma right_end_next len X a c Y l : NoDup l -> l = X ++ a :: c :: Y ->
  Spec.right_end len l a (Spec.left_end len l c).
Proof.
  intros N E. exists X, (c :: Y). split; [exact E|].
  assert (E' : l = (X ++ [a]) ++ c :: Y) by (rewrite E, <- app_assoc; reflexivity).
  rewrite E', left_end_split.
  - rewrite total_app. simpl. lra.
  - apply (nodup_before (X ++ [a]) c Y). rewrite <- E'. exact N.
Qed.

Theorem bosh_no_saddle2_ok i s t b : wf i s -> Spec.not_last (i_top i) t -> Spec.not_last (i_bottom i) b ->
  exists r, bosh_no_saddle2 i s t b = Ok r /\ (r = true <-> ~ connectable (exch_of i s) b t).
Proof.
  intros H Ht Hb. pose proof H as (N & P & Hne & Hp & _). pose proof (Permutation_NoDup P N) as Nb.
  destruct (next_label_ok _ _ N Ht) as (X & t' & Y & Et & Nt).
  destruct (next_label_ok _ _ Nb Hb) as (X' & b' & Y' & Eb & Nbl).
  unfold bosh_no_saddle2, bosh_values. rewrite Nt, Nbl, label_to_coefficients_ok by exact H. cbn [bind].
  rewrite translation_ok by exact H. cbn [bind]. rewrite vneg_tab.
  set (rho := l_sub (tbefore (lamT s) (i_top i) t') (tbefore (lamT s) (i_bottom i) b')).
  assert (Ev : tab (l_deg T) (fun k => (- (before (co (lamT s) k) (i_bottom i) b' - before (co (lamT s) k) (i_top i) t'))%Qc) = l_coef rho).
  { rewrite (tab_of (l_coef rho) (l_deg T) (coef_length rho)). apply tab_ext. intros k _. unfold rho.
    rewrite coef_sub_nth, !tbefore_co. ring. }
  rewrite Ev.
  assert (Vr : val rho = (Spec.left_end (lamR s) (i_top i) t' - Spec.left_end (lamR s) (i_bottom i) b')%R).
  { unfold rho. rewrite val_sub, !tbefore_val. rewrite !(left_end_ext (fun c => val (lamT s c)) (lamR s)) by apply val_lamT. reflexivity. }
  assert (Hcon : connectable (exch_of i s) b t <-> exists q : label -> Qc, (forall a, (0 <= q a)%Qc) /\
      Spec.total (fun a => Qc2R (q a) * Spec.shift (exch_of i s) a)%R (i_top i) = val rho).
  { pose proof (right_end_next (lamR s) X t t' Y _ N Et) as Rt. pose proof (right_end_next (lamR s) X' b b' Y' _ Nb Eb) as Rb.
    split.
    - intros (q & x & y & Hq & Hx & Hy & E). exists q. split; [exact Hq|]. simpl in Hx, Hy, E.
      assert (Ex : x = Spec.left_end (lamR s) (i_bottom i) b') by (exact (right_end_fun _ _ _ _ _ Nb Hx Rb)).
      assert (Ey : y = Spec.left_end (lamR s) (i_top i) t') by (exact (right_end_fun _ _ _ _ _ N Hy Rt)).
      rewrite Vr. subst x y. change (fun a => Qc2R (q a) * Spec.shift (exch_of i s) a)%R with (fun a => Q2R (q a) * Spec.shift (exch_of i s) a)%R. lra.
    - intros (q & Hq & E). exists q, (Spec.left_end (lamR s) (i_bottom i) b'), (Spec.left_end (lamR s) (i_top i) t').
      split; [exact Hq|]. split; [exact Rb|]. split; [exact Rt|].
      change (fun a => Q2R (q a) * Spec.shift (exch_of i s) a)%R with (fun a => Qc2R (q a) * Spec.shift (exch_of i s) a)%R.
      cbn [exch_of Spec.e_top]. rewrite E, Vr. lra. }
  destruct (vis0 (l_coef rho)) eqn:Ez.
  - exists false. split; [reflexivity|]. split; [discriminate|]. intros Hn. exfalso. apply Hn, Hcon.
    exists (fun _ => 0%Qc). split; [intros _; apply Qcle_refl|].
    rewrite (total_ext _ (fun _ => (0 * 0)%R)) by (intros; rewrite Qc2R_0; lra). rewrite (total_scale 0%R (fun _ => 0%R)).
    apply vis0_spec in Ez. rewrite coef_length, <- coef_zero in Ez. apply coef_inj in Ez. rewrite Ez, val_zero. lra.
  - rewrite bosh_equations_ok by exact H. cbn [bind]. fold (eqs_of s (i_top i) (i_bottom i)).
    destruct (ras_equations_ok (eqs_of s (i_top i) (i_bottom i)) (l_coef rho)) as [r [E [_ [_ Hm]]]].
    { rewrite eqs_of_length, coef_length. reflexivity. }
    rewrite E. cbn [bind]. exists (negb (has_nonneg r)). split; [reflexivity|]. rewrite Hcon.
    assert (Hhn : has_nonneg r = true <-> exists q : label -> Qc, (forall a, (0 <= q a)%Qc) /\
      Spec.total (fun a => Qc2R (q a) * Spec.shift (exch_of i s) a)%R (i_top i) = val rho).
    { rewrite has_nonneg_ok. split.
      - intros [x [Hx Hnn]]. apply Hm in Hx. rewrite eqs_of_dim in Hx. destruct Hx as [Hl HS].
        rewrite <- (map_assign _ x N Hl) in HS. apply eqs_of_solves in HS. exists (assign (i_top i) x). split; [|exact HS].
        intros a. clear - Hnn. revert x Hnn. induction (i_top i) as [|c l IH]; intros [|q x] Hnn; simpl; try apply Qcle_refl.
        inversion Hnn; subst. destruct (Nat.eqb c a); [assumption | apply IH; assumption].
      - intros [q [Hq E']]. exists (map q (i_top i)). split.
        + apply Hm. rewrite eqs_of_dim, map_length. split; [reflexivity|]. apply eqs_of_solves, E'.
        + apply Forall_map, Forall_forall. intros a _. apply Hq. }
    rewrite <- Hhn. destruct (has_nonneg r); simpl; split; congruence || (intros; intuition congruence).
Qed.

Lemma bosh_no_saddle2_throws i s t b : wf i s -> In t (i_top i) -> In b (i_bottom i) ->
  (~ Spec.not_last (i_top i) t \/ ~ Spec.not_last (i_bottom i) b) -> bosh_no_saddle2 i s t b = Throw.
Proof.
  intros H Ht Hb Hn. pose proof H as (N & P & _). pose proof (Permutation_NoDup P N) as Nb.
  assert (G : forall l a, NoDup l -> In a l ->
     (Spec.not_last l a /\ exists c, next_label a l = Some (Some c)) \/ (~ Spec.not_last l a /\ next_label a l = Some None)).
  { intros l a Nl Hin. apply in_split in Hin. destruct Hin as (X & Y & E). unfold next_label. rewrite E, split_at_intro.
    2:{ apply (nodup_before X a Y). rewrite <- E. exact Nl. }
    destruct Y as [|c Y]; [right | left; split; [exists X, c, Y; reflexivity | eauto]]. split; [|reflexivity].
    intros (X' & c & Y' & E'). rewrite E in Nl.
    destruct (nodup_split_unique (X ++ [a]) a X [] X' (c :: Y')) as [_ E2]; [exact Nl | reflexivity | exact E' | discriminate]. }
  unfold bosh_no_saddle2, bosh_values.
  destruct (G _ _ N Ht) as [[G1 [t' E1]]|[G1 E1]]; rewrite E1; [|reflexivity].
  destruct (G _ _ Nb Hb) as [[G2 [b' E2]]|[G2 E2]]; rewrite E2; [|reflexivity].
  exfalso. destruct Hn; contradiction.
Qed.

Lemma all_false_exit_ok {A} (f : A -> res bool) (Q : A -> Prop) l :
  (forall x, In x l -> exists r, f x = Ok r /\ (r = true <-> Q x)) ->
  exists r, all_false_exit f l = Ok r /\ (r = true <-> forall x, In x l -> Q x).
Proof.
  induction l as [|x l IH]; intros H; simpl.
  - exists true. split; [reflexivity|]. split; [intros _ x [] | reflexivity].
  - destruct (H x (or_introl eq_refl)) as [r [E Hr]]. rewrite E. cbn [bind]. destruct r.
    + destruct IH as [r' [E' Hr']]; [intros; apply H; right; assumption|]. exists r'. split; [exact E'|]. rewrite Hr'. split.
      * intros G y [<-|Hy]; [apply Hr; reflexivity | apply G, Hy].
      * intros G y Hy. apply G. right; exact Hy.
    + exists false. split; [reflexivity|]. split; [discriminate|]. intros G. specialize (G x (or_introl eq_refl)). apply Hr in G. exact G.
Qed.

Lemma tl_rev_not_last l a : In a (tl (rev l)) <-> Spec.not_last l a.
Proof.
  split.
  - intros H. destruct (rev l) as [|z r] eqn:E; [contradiction|]. simpl in H. apply in_split in H. destruct H as (U & V & ->).
    assert (El : l = rev (z :: U ++ a :: V)) by (rewrite <- E, rev_involutive; reflexivity).
    simpl in El. rewrite rev_app_distr in El. simpl in El. rewrite <- !app_assoc in El. simpl in El.
    destruct (rev U ++ [z]) as [|c Y] eqn:E2; [destruct (rev U); discriminate|].
    exists (rev V), c, Y. rewrite El. reflexivity.
  - intros (X & c & Y & ->). rewrite rev_app_distr. simpl. rewrite <- !app_assoc. simpl.
    destruct (rev Y) as [|z U] eqn:E; simpl; [left; reflexivity|]. apply in_app_iff. right. simpl. auto.
Qed.

Theorem bosh_no_saddle_ok i s : wf i s ->
  exists r, bosh_no_saddle i s = Ok r /\
    (r = true <-> 2 <= length (i_top i) /\
       forall t b, Spec.not_last (i_top i) t -> Spec.not_last (i_bottom i) b -> ~ connectable (exch_of i s) b t).
Proof.
  intros H. unfold bosh_no_saddle, i_size. destruct (Nat.leb_spec (length (i_top i)) 1) as [Hle|Hgt].
  - exists false. split; [reflexivity|]. split; [discriminate | lia].
  - destruct (all_false_exit_ok (fun p => bosh_no_saddle2 i s (fst p) (snd p)) (fun p => ~ connectable (exch_of i s) (snd p) (fst p))
       (list_prod (tl (rev (i_top i))) (tl (rev (i_bottom i))))) as [r [E Hr]].
    + intros [t b] Hin. apply in_prod_iff in Hin. destruct Hin as [Ht Hb].
      apply bosh_no_saddle2_ok; [exact H | apply tl_rev_not_last, Ht | apply tl_rev_not_last, Hb].
    + exists r. split; [exact E|]. rewrite Hr. split.
      * intros G. split; [lia|]. intros t b Ht Hb. apply (G (t, b)). apply in_prod_iff. split; apply tl_rev_not_last; assumption.
      * intros [_ G] [t b] Hin. apply in_prod_iff in Hin. apply G; apply tl_rev_not_last; tauto.
Qed.

(** Every saddle connection joins labels that are not last. *)
Lemma saddle_not_last e b t : Spec.proper e -> Spec.saddle_connection e b t ->
  Spec.not_last (Spec.e_top e) t /\ Spec.not_last (Spec.e_bot e) b.
Proof.
  intros Hp (x & y & n & (X & Y & Ex & ->) & (X' & Y' & Ey & ->) & Hx & Hy & _). split.
  - destruct Y' as [|c Y']; [|exists X', c, Y'; exact Ey]. exfalso. rewrite Ey in Hy. rewrite total_app in Hy. simpl in Hy. lra.
  - destruct Y as [|c Y]; [|exists X, c, Y; exact Ex]. exfalso. rewrite Ex in Hx. rewrite total_app in Hx. simpl in Hx. lra.
Qed.

End Bosh.
