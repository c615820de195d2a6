(** Arithmetic with machine integers is exact as long as the total length fits. *)
From Coq Require Import Reals Lra Permutation.
From Verif Require Import Base QcTac LenT FM Subspace Lengths IET LenInst Api MachineInt.
From Verif Require Import Spec ZorichProof Dyn Saddle ReduceProof Saf Bosh Path Direct Similar InduceProof World.
Open Scope nat_scope.

(** Lengths as integers. *)
Definition zl (s : slen Z) (l : label) : Z := nth l (sl_lens s) 0%Z.
Fixpoint zt (s : slen Z) (ls : list label) : Z := match ls with [] => 0%Z | l :: ls => (zl s l + zt s ls)%Z end.

Lemma zl_lamR (s : slen Z) l : lamR s l = IZR (zl s l).
Proof.
  unfold lamR, zl. destruct (nth_error (sl_lens s) l) as [x|] eqn:E.
  - apply nth_error_nth with (d := 0%Z) in E. rewrite E. reflexivity.
  - apply nth_error_None in E. rewrite nth_overflow by exact E. reflexivity.
Qed.

Lemma zt_total (s : slen Z) ls : total (lamR s) ls = IZR (zt s ls).
Proof. induction ls as [|l ls IH]; [reflexivity|]. simpl. rewrite plus_IZR, <- IH, <- zl_lamR. reflexivity. Qed.

Lemma zt_app s X Y : zt s (X ++ Y) = (zt s X + zt s Y)%Z.
Proof. induction X as [|x X IH]; [reflexivity|]. simpl. rewrite IH. lia. Qed.

(** A known label with positive length. *)
Definition zp (s : slen Z) (l : label) : Prop := sl_at s l = Ok (zl s l) /\ (0 < zl s l)%Z.

Lemma posl_zp (s : slen Z) l : posl s l -> zp s l.
Proof.
  intros (x & E & P). unfold zp, sl_at, zl. rewrite E. rewrite (nth_error_nth _ _ 0%Z E). split; [reflexivity|]. apply lt_IZR. exact P.
Qed.

Lemma zt_nonneg s ls : (forall l, In l ls -> zp s l) -> (0 <= zt s ls)%Z.
Proof. induction ls as [|l ls IH]; intro H; simpl; [lia|]. destruct (H l (or_introl eq_refl)). assert (0 <= zt s ls)%Z by (apply IH; intros; apply H; right; assumption). lia. Qed.

Lemma sl_set_zl (s s' : slen Z) a v : sl_set s a v = Ok s' -> zl s' a = v /\ (forall c, c <> a -> zl s' c = zl s c /\ sl_at s' c = sl_at s c) /\ sl_at s' a = Ok v /\ sl_stack s' = sl_stack s.
Proof.
  unfold sl_set, sl_at, zl. destruct (set_nth a v (sl_lens s)) as [ls|] eqn:E; [|discriminate]. intro Q. injection Q as <-. simpl.
  pose proof (set_nth_same _ _ _ _ E) as E1. rewrite E1. split; [apply (nth_error_nth _ _ 0%Z E1)|]. split; [|split; reflexivity]. intros c Hc.
  assert (E2 : nth_error ls c = nth_error (sl_lens s) c) by (eapply set_nth_other; [exact E|congruence]). rewrite E2. split; [|reflexivity].
  destruct (nth_error (sl_lens s) c) as [x|] eqn:Ec.
  - rewrite (nth_error_nth _ _ 0%Z Ec). apply nth_error_nth. exact E2.
  - assert (E3 : nth_error ls c = None) by exact E2. apply nth_error_None in Ec, E3. rewrite !nth_overflow by assumption. reflexivity.
Qed.

Lemma set_zp (s s' : slen Z) a v c : sl_set s a v = Ok s' -> c <> a -> zp s c -> zp s' c.
Proof. intros E Hc (H1 & H2). destruct (sl_set_zl _ _ _ _ E) as (_ & Q & _). destruct (Q c Hc) as (Q1 & Q2). unfold zp. rewrite Q1, Q2. auto. Qed.

Lemma set_zt (s s' : slen Z) a v ls : sl_set s a v = Ok s' -> ~ In a ls -> zt s' ls = zt s ls.
Proof.
  intros E. destruct (sl_set_zl _ _ _ _ E) as (_ & Q & _). induction ls as [|l ls IH]; intro H; [reflexivity|]. simpl.
  rewrite IH by (intro C; apply H; right; exact C). rewrite (proj1 (Q l ltac:(intros ->; apply H; left; reflexivity))). reflexivity.
Qed.

Section Bounds.
Variables lo hi : Z.
Hypothesis Hlo : (lo <= 0)%Z.

Lemma mi_ok z : (0 <= z <= hi)%Z -> mi lo hi z = Ok z.
Proof. intro H. unfold mi. destruct (Z.leb_spec lo z); [|lia]. destruct (Z.leb_spec z hi); [|lia]. reflexivity. Qed.

Lemma accumulate_eq (s : slen Z) st : forall acc, (0 <= acc)%Z -> (forall l, In l st -> zp s l) -> (acc + zt s st <= hi)%Z ->
  ms_accumulate lo hi s acc st = Ok (acc + zt s st)%Z /\ sl_accumulate s acc st = Ok (acc + zt s st)%Z.
Proof.
  induction st as [|l st IH]; intros acc Ha H B; cbn [ms_accumulate sl_accumulate zt] in *.
  - rewrite Z.add_0_r. auto.
  - destruct (H l (or_introl eq_refl)) as (E & P). rewrite E. cbn [bind].
    assert (N : (0 <= zt s st)%Z) by (apply zt_nonneg; intros; apply H; right; assumption).
    rewrite mi_ok by lia. cbn [bind]. destruct (IH (acc + zl s l)%Z) as (E1 & E2); [lia|intros; apply H; right; assumption|lia|].
    cbn [l_add ZOps]. rewrite E1, E2, Z.add_assoc. auto.
Qed.

Lemma sum_eq (s : slen Z) : (forall l, In l (sl_stack s) -> zp s l) -> (zt s (sl_stack s) <= hi)%Z ->
  ms_sum lo hi s = Ok (zt s (sl_stack s)) /\ sl_sum s = Ok (zt s (sl_stack s)).
Proof. intros H B. apply (accumulate_eq s (sl_stack s) 0%Z); [lia|exact H|lia]. Qed.

Lemma cmp_eq (s : slen Z) a : (forall l, In l (sl_stack s) -> zp s l) -> (zt s (sl_stack s) <= hi)%Z -> ms_cmp1 lo hi s a = sl_cmp1 s a.
Proof. intros H B. destruct (sum_eq s H B) as (E1 & E2). unfold ms_cmp1, sl_cmp1. rewrite E1, E2. reflexivity. Qed.

Lemma ispos_ltb (d : Z) : is_pos d = (0 <? d)%Z.
Proof. unfold is_pos. cbn [l_cmp ZOps l_zero]. destruct (Z.compare_spec d 0), (Z.ltb_spec 0 d); try reflexivity; lia. Qed.

Lemma subtract_eq (s : slen Z) a : zp s a -> (forall l, In l (sl_stack s) -> zp s l) -> (zt s (sl_stack s) < zl s a <= hi)%Z ->
  ms_subtract lo hi a s = sl_subtract a s.
Proof.
  intros (E & P) H B. destruct (sum_eq s H) as (E1 & E2); [lia|]. pose proof (zt_nonneg s _ H). unfold ms_subtract, sl_subtract. rewrite E, E1, E2. cbn [bind].
  rewrite mi_ok by lia. cbn [bind l_sub ZOps]. rewrite ispos_ltb. reflexivity.
Qed.

Lemma subrep_loop_eq a st : forall (s : slen Z) stop, zp s a -> (zl s a <= hi)%Z -> (forall l, In l st -> l <> a /\ zp s l) ->
  ms_subrep_loop lo hi a stop st s = sl_subrep_loop a stop st s.
Proof.
  induction st as [|l st IH]; intros s stop (E & P) B H; [reflexivity|]. cbn [ms_subrep_loop sl_subrep_loop].
  destruct (H l (or_introl eq_refl)) as (Nl & El & Pl). rewrite El, E. cbn [bind l_cmp l_sub ZOps].
  destruct (Z.leb_spec (zl s a) (zl s l)) as [Le|Lt].
  - destruct (Z.compare_spec (zl s l) (zl s a)); try reflexivity. lia.
  - destruct (Z.compare_spec (zl s l) (zl s a)); try lia. rewrite mi_ok by lia. cbn [bind]. rewrite ispos_ltb.
    destruct (sl_set s a (zl s a - zl s l)%Z) as [s1| | | |] eqn:Es; try reflexivity. cbn [bind]. unfold assert_.
    destruct (Z.ltb_spec 0 (zl s a - zl s l)) as [Q|Q]; [|reflexivity].
    destruct (sl_set_zl _ _ _ _ Es) as (Z1 & _ & Z3 & _). apply IH.
    + unfold zp. rewrite Z1, Z3. auto.
    + rewrite Z1. lia.
    + intros c Hc. destruct (H c (or_intror Hc)) as (Nc & Pc). split; [exact Nc|]. eapply set_zp; eassumption.
Qed.

Lemma subrep_eq (s : slen Z) a : zp s a -> (forall l, In l (sl_stack s) -> l <> a /\ zp s l) -> (zl s a <= hi)%Z -> (zt s (sl_stack s) <= hi)%Z ->
  ms_subrep lo hi a s = sl_subrep a s.
Proof.
  intros (E & P) H Ba Bt. unfold ms_subrep, sl_subrep. destruct (sl_stack s) as [|l0 st0] eqn:Est; [reflexivity|]. rewrite <- Est in *.
  assert (H' : forall l, In l (sl_stack s) -> zp s l) by (intros; apply H; assumption).
  destruct (sum_eq s H' Bt) as (E1 & E2). rewrite E, E1, E2. cbn [bind l_div l_sub l_scale ZOps].
  assert (Tp : (0 < zt s (sl_stack s))%Z).
  { rewrite Est. simpl. destruct (H' l0) as (_ & Q); [rewrite Est; left; reflexivity|]. pose proof (zt_nonneg s st0). 
    assert (0 <= zt s st0)%Z by (apply zt_nonneg; intros; apply H'; rewrite Est; right; assumption). lia. }
  clear Est l0 st0. set (t := zt s (sl_stack s)) in *. set (x := zl s a) in *.
  destruct (Z.eqb_spec t 0) as [|_]; [lia|].
  destruct (quot_spec x t ltac:(lia) Tp) as [Q1 Q2]. set (q := Z.quot x t) in *.
  assert (Hq : (0 <= q)%Z) by (apply Z.quot_pos; lia).
  assert (Hq' : (q <= x)%Z) by nia.
  rewrite mi_ok by lia. cbn [bind]. rewrite mi_ok by nia. cbn [bind]. rewrite mi_ok by nia. cbn [bind]. set (y := (x - q * t)%Z) in *.
  destruct (sl_set s a y) as [s1| | | |] eqn:Es; try reflexivity. cbn [bind]. destruct (sl_set_zl _ _ _ _ Es) as (Z1 & Z2 & Z3 & Z4). rewrite Z3. cbn [bind].
  assert (IN : is_nonneg y = (0 <=? y)%Z).
  { unfold is_nonneg. cbn [l_cmp ZOps l_zero]. destruct (Z.compare_spec y 0), (Z.leb_spec 0 y); try reflexivity; lia. }
  rewrite IN. unfold assert_. destruct (Z.leb_spec 0 y) as [Hy|]; [|reflexivity].
  unfold l_bool. cbn [l_cmp ZOps l_zero l_add].
  assert (H1 : forall l, In l (sl_stack s1) -> l <> a /\ zp s1 l).
  { intros l Hl. rewrite Z4 in Hl. destruct (H l Hl) as (N & Pl). split; [exact N|]. eapply set_zp; eassumption. }
  destruct (Z.eqb_spec y 0) as [Y0|Y0].
  - rewrite Y0. cbn [Z.compare]. assert (T1 : zt s1 (sl_stack s1) = t). { rewrite Z4. apply (set_zt _ _ _ _ _ Es). intro C. apply (H a C). reflexivity. }
    destruct (sum_eq s1) as (F1 & F2); [intros; apply H1; assumption|lia|]. rewrite F1, F2, T1. cbn [bind].
    rewrite mi_ok by lia. cbn [bind]. destruct (sl_set s1 a (0 + t)%Z) as [s2| | | |] eqn:Es2; try reflexivity. cbn [bind].
    destruct (sl_set_zl _ _ _ _ Es2) as (Y1 & Y2 & Y3 & Y4).
    apply subrep_loop_eq; [unfold zp; rewrite Y1, Y3; split; [reflexivity|lia]|rewrite Y1; lia|].
    intros l Hl. rewrite Y4 in Hl. destruct (H1 l Hl) as (N & Pl). split; [exact N|]. eapply set_zp; eassumption.
  - destruct (Z.compare_spec y 0); [contradiction|lia|]. cbn [bind].
    apply subrep_loop_eq; [unfold zp; rewrite Z1, Z3; split; [reflexivity|lia]|rewrite Z1; nia|exact H1].
Qed.

Lemma pop_push b (s : slen Z) : sl_pop (sl_push b s) = Ok s.
Proof.
  destruct s as [st ls]. unfold sl_pop, sl_push. cbn [sl_stack sl_lens]. rewrite removelast_last. destruct (st ++ [b]) eqn:E; [destruct st; discriminate|]. reflexivity.
Qed.

Lemma zloop_eq v a : forall rest rpre (s : slen Z), ~ In a rpre -> sl_stack s = rev rpre -> zp s a -> (forall l, In l (rev rpre ++ rest) -> zp s l) ->
  (zt s (rev rpre) < zl s a)%Z -> (zl s a <= hi)%Z -> (zt s (rev rpre ++ rest) <= hi)%Z ->
  zloop (machine_lens lo hi) v a rpre rest s = zloop sample_lens v a rpre rest s.
Proof.
  induction rest as [|b rest IH]; intros rpre s Nr St Pa Pl Lt Ba Bt; [reflexivity|]. cbn [zloop].
  assert (Pst : forall l, In l (sl_stack s) -> zp s l) by (intros l Hl; apply Pl, in_or_app; left; rewrite <- St; exact Hl).
  assert (Nn : (0 <= zt s (b :: rest))%Z) by (apply zt_nonneg; intros; apply Pl, in_or_app; right; assumption).
  rewrite zt_app in Bt.
  destruct (Nat.eqb_spec b a) as [->|Nb].
  - cbn [machine_lens sample_lens li_subrep]. rewrite subrep_eq; [reflexivity|exact Pa| |exact Ba|rewrite St; lia].
    intros l Hl. split; [|apply Pst, Hl]. intros ->. apply Nr. rewrite St in Hl. apply in_rev, Hl.
  - cbn [machine_lens sample_lens li_push li_cmp1 li_pop li_subtract bind].
    assert (Nr' : (0 <= zt s rest)%Z) by (apply zt_nonneg; intros; apply Pl, in_or_app; right; right; assumption).
    assert (St' : sl_stack (sl_push b s) = rev (b :: rpre)) by (cbn [sl_push sl_stack rev]; rewrite St; reflexivity).
    assert (Zt : forall ls, zt (sl_push b s) ls = zt s ls) by (intro ls; induction ls as [|c ls IHl]; [reflexivity|]; simpl; rewrite IHl; reflexivity).
    assert (Ps' : forall l, In l (rev (b :: rpre) ++ rest) -> zp (sl_push b s) l).
    { intros l Hl. change (zp s l). apply Pl. cbn [rev] in Hl. rewrite <- app_assoc in Hl. exact Hl. }
    assert (T1 : zt s (rev (b :: rpre)) = (zt s (rev rpre) + zl s b)%Z) by (cbn [rev]; rewrite zt_app; simpl; lia).
    cbn [zt] in Bt.
    rewrite cmp_eq; [|intros l Hl; apply Ps', in_or_app; left; rewrite <- St'; exact Hl|rewrite St', Zt, T1; lia].
    destruct (sl_cmp1 (sl_push b s) a) as [c| | | |] eqn:Ec; try reflexivity. cbn [bind]. destruct c.
    + rewrite pop_push. cbn [bind]. rewrite subtract_eq; [reflexivity|exact Pa|exact Pst|]. rewrite St. lia.
    + apply IH; try assumption.
      * intros [C|C]; [apply Nb; exact C|contradiction].
      * unfold sl_cmp1 in Ec. destruct (sum_eq (sl_push b s)) as (_ & E2); [intros l Hl; apply Ps', in_or_app; left; rewrite <- St'; exact Hl|rewrite St', Zt, T1; lia|].
        rewrite E2 in Ec. cbn [bind] in Ec. change (sl_at (sl_push b s) a) with (sl_at s a) in Ec. rewrite (proj1 Pa) in Ec. cbn [bind l_cmp ZOps] in Ec. injection Ec as Ec.
        rewrite <- St'. exact Ec.
      * rewrite Zt, zt_app, T1. lia.
    + rewrite pop_push. cbn [bind]. rewrite subtract_eq; [reflexivity|exact Pa|exact Pst|]. rewrite St. lia.
Qed.

Lemma zorich_eq (i : iet Z) (s : slen Z) : wf i s -> (ltot i s <= IZR hi)%R -> zorich (machine_lens lo hi) i s = zorich sample_lens i s.
Proof.
  intros (N & P & Ne & Po & St) B. unfold zorich. unfold ltot in B. rewrite (ZorichProof.total_perm _ _ _ P), zt_total in B. apply le_IZR in B.
  assert (Pz : forall l, In l (i_bottom i) -> zp s l) by (intros l Hl; apply posl_zp, Po, (Permutation_in _ (Permutation_sym P)), Hl).
  destruct (i_top i) as [|a X] eqn:Et; [contradiction|]. destruct (i_bottom i) as [|b Y] eqn:Eb; [reflexivity|].
  destruct (Nat.eqb a b); [reflexivity|]. rewrite <- Eb in *.
  assert (Pa : zp s a). { apply Pz, (Permutation_in _ P). left. reflexivity. }
  rewrite zloop_eq; [|tauto|exact St|exact Pa|exact Pz|apply Pa| |exact B].
  - destruct (zloop sample_lens (i_view i) a [] (i_bottom i) s) as [[r s1]| | | |]; reflexivity.
  - assert (Q : In a (i_bottom i)) by (apply (Permutation_in _ P); left; reflexivity). apply in_split in Q as (U & V & Q). rewrite Q, zt_app in B. simpl in B.
    assert (0 <= zt s U)%Z by (apply zt_nonneg; intros; apply Pz; rewrite Q; apply in_or_app; left; assumption).
    assert (0 <= zt s V)%Z by (apply zt_nonneg; intros; apply Pz; rewrite Q; apply in_or_app; right; right; assumption). lia.
Qed.

Lemma swap_ltot (i : iet Z) s : wf i s -> ltot (iet_swap i) s = ltot i s.
Proof. intros (_ & P & _). unfold ltot. symmetry. apply ZorichProof.total_perm, P. Qed.

Lemma loop_eq saf0 limit : forall fuel n (i : iet Z) (s : slen Z), wf i s -> cache_ok i s -> (ltot i s <= IZR hi)%R ->
  induce_loop (machine_lens lo hi) fuel saf0 limit n i s = induce_loop sample_lens fuel saf0 limit n i s.
Proof.
  induction fuel as [|fuel IH]; intros n i s H C B; [reflexivity|]. cbn [induce_loop].
  destruct (negb _); [reflexivity|]. change (li_base (machine_lens lo hi) s) with s. change (li_base sample_lens s) with s.
  match goal with |- bind ?x _ = bind ?x _ => destruct x as [[sim i1]| | | |] eqn:E; try reflexivity end. cbn [bind]. destruct sim; [reflexivity|].
  assert (HH : wf i1 s /\ cache_ok i1 s /\ (ltot i1 s <= IZR hi)%R).
  { destruct saf0; [|injection E as <-; auto]. destruct (iet_saf i s) as [[v i2]| | | |] eqn:Es; try discriminate. cbn [bind] in E.
    rewrite iet_saf_ok in Es by assumption. injection Es as Ev Ei.
    assert (H2 : wf i2 s /\ cache_ok i2 s /\ (ltot i2 s <= IZR hi)%R). { rewrite <- Ei. split; [exact H|]. split; [|exact B]. unfold cache_ok. simpl. reflexivity. }
    destruct (length v =? 0); [injection E as <-; exact H2|]. destruct (tracker_loop (i_trk i2) i2 s) as [[r k]| | | |]; try discriminate. cbn [bind] in E. injection E as _ <-. exact H2. }
  clear E H C B i. destruct HH as (H & C & B). rename i1 into i. rewrite zorich_eq by assumption.
  destruct (zorich_reach i s H C) as (f1 & b1 & s1 & E1 & R1 & _). rewrite E1. cbn [bind]. destruct f1; [reflexivity|].
  set (i1 := set_bottom i b1) in *. pose proof (r_wf _ _ _ _ R1) as W1. pose proof (r_cache _ _ _ _ R1) as C1.
  assert (B1 : (ltot i1 s1 <= IZR hi)%R) by (pose proof (reach_ltot _ _ _ _ H R1); lra).
  assert (W1' : wf (iet_swap i1) s1) by (apply swap_wf, W1). assert (C1' : cache_ok (iet_swap i1) s1) by (apply swap_cache; assumption).
  rewrite zorich_eq; [|exact W1'|rewrite swap_ltot by exact W1; exact B1].
  destruct (zorich_reach (iet_swap i1) s1 W1' C1') as (f2 & b2 & s2 & E2 & R2 & _). rewrite E2. cbn [bind]. destruct f2; [reflexivity|]. destruct (n =? INT_MAX)%Z; [reflexivity|].
  set (i2 := set_bottom (iet_swap i1) b2) in *. pose proof (r_wf _ _ _ _ R2) as W2. apply IH; [apply swap_wf, W2|apply swap_cache; [exact W2|apply R2]|].
  rewrite swap_ltot by exact W2. pose proof (reach_ltot _ _ _ _ W1' R2) as Q. rewrite swap_ltot in Q by exact W1. lra.
Qed.

Lemma induce_eq fuel limit (i : iet Z) (s : slen Z) : wf i s -> cache_ok i s -> (ltot i s <= IZR hi)%R ->
  induce (machine_lens lo hi) fuel limit i s = induce sample_lens fuel limit i s.
Proof.
  intros H C B. unfold induce. destruct (i_size i =? 1); [reflexivity|]. change (li_base (machine_lens lo hi) s) with s. change (li_base sample_lens s) with s.
  assert (Q : (if (limit =? 0)%Z then Ok (Some false, i, s) else '(z, i) <- iet_saf0 i s ;; induce_loop (machine_lens lo hi) fuel z limit 0 i s) =
              (if (limit =? 0)%Z then Ok (Some false, i, s) else '(z, i) <- iet_saf0 i s ;; induce_loop sample_lens fuel z limit 0 i s)).
  { destruct (limit =? 0)%Z; [reflexivity|]. unfold iet_saf0. rewrite iet_saf_ok by assumption. cbn [bind]. apply loop_eq; [exact H|reflexivity|exact B]. }
  rewrite Q. reflexivity.
Qed.

End Bounds.

(** ** Totals do not grow *)

Section Shrink.
Context {T : Type} {O : LenOps T} {W : LenLaws T}.

Lemma path_shrinks e e' : proper e -> rauzy_path e e' -> forall c, (e_len e' c <= e_len e c)%R.
Proof.
  intros Pr G. induction G as [e e' (_ & _ & L)|e e1 e' G _ IH|e e1 e' G _ IH]; intro c.
  - rewrite L. lra.
  - pose proof (rauzy_step_proper _ _ Pr G) as P1. specialize (IH P1 c). enough (e_len e1 c <= e_len e c)%R by lra. clear IH.
    destruct G as (a & b & X & Y1 & Y2 & G1 & G2 & G3 & _ & _ & G6 & G7). destruct (Nat.eq_dec c a) as [->|N]; [|rewrite G7 by exact N; lra].
    rewrite G6. destruct Pr as (_ & P & Po). assert (0 < e_len e b)%R; [|lra]. apply Po, (Permutation_in _ (Permutation_sym P)). rewrite G2. left. reflexivity.
  - assert (Pf : proper (flip e)) by (apply flip_proper, Pr). pose proof (rauzy_step_proper _ _ Pf G) as P1. assert (P1' : proper e1) by (rewrite <- (flip_flip e1); apply flip_proper, P1).
    specialize (IH P1' c). enough (e_len e1 c <= e_len e c)%R by lra. clear IH.
    destruct G as (a & b & X & Y1 & Y2 & G1 & G2 & G3 & _ & _ & G6 & G7). change (e_len (flip e1)) with (e_len e1) in *. change (e_len (flip e)) with (e_len e) in *.
    destruct (Nat.eq_dec c a) as [->|N]; [|rewrite G7 by exact N; lra].
    rewrite G6. destruct Pf as (_ & P & Po). assert (0 < e_len e b)%R; [|lra]. apply Po, (Permutation_in _ (Permutation_sym P)). rewrite G2. left. reflexivity.
Qed.

Lemma op_shrinks o (i : iet T) (s : slen T) i' extra s' : good i s -> op_legal o -> run_op o i s = Ok (i', extra, s') -> forall c, (lamR s' c <= lamR s c)%R.
Proof.
  intros Hg Hl E c. pose proof Hg as (H & C & _).
  assert (Same : forall r : res (iet T * list (iet T)), ('(i, l) <- r ;; Ok (i, l, s)) = Ok (i', extra, s') -> (lamR s' c <= lamR s c)%R).
  { intros r Er. destruct r as [[? ?]| | | |]; try discriminate. injection Er as _ _ <-. lra. }
  assert (Re : forall i1, reach i s i1 s' -> (lamR s' c <= lamR s c)%R).
  { intros i1 R. exact (path_shrinks _ _ (wf_proper _ _ H) (r_path _ _ _ _ R) c). }
  destruct o; cbn [run_op] in E.
  - injection E as _ _ <-. lra.
  - destruct (zorich_reach i s H C) as (f1 & b1 & s1 & E1 & R1 & _). rewrite E1 in E. injection E as <- <- <-. exact (Re _ R1).
  - destruct (reduce i s) as [[r j]| | | |]; try discriminate. injection E as _ _ <-. lra.
  - cbn [op_legal] in Hl. destruct (induce_ok limit fuel i s (proj2 Hl) Hg) as [Q|[Q|(st & j & s1 & Q & _ & P)]].
    + rewrite (proj1 Q) in E. discriminate.
    + rewrite (proj1 Q) in E. discriminate.
    + rewrite Q in E. cbn [bind] in E. injection E as <- _ <-. unfold induce_post in P. destruct (is_result st).
      * apply (Re j), P.
      * destruct P as (_ & _ & _ & ->). lra.
      * destruct P as (i1 & k & b & t & _ & R & _). exact (Re _ R).
      * destruct P as (i1 & a & b & _ & R & _). exact (Re _ R).
      * apply (Re j), P.
      * apply (Re j), P.
  - destruct (saf_invariant i s) as [[r j]| | | |]; try discriminate. injection E as _ _ <-. lra.
  - destruct (bosh_no_periodic i s) as [[r j]| | | |]; try discriminate. injection E as _ _ <-. lra.
  - destruct (bosh_no_saddle i s) as [r| | | |]; try discriminate. injection E as _ _ <-. lra.
  - destruct (bosh_no_saddle2 i s t b) as [r| | | |]; try discriminate. injection E as _ _ <-. lra.
Qed.

Lemma total_incl (f : label -> R) U : forall V, NoDup U -> incl U V -> (forall l, In l V -> 0 < f l)%R -> (total f U <= total f V)%R.
Proof.
  induction U as [|x U IH]; intros V N I P; [apply ZorichProof.total_nonneg, P|]. apply NoDup_cons_iff in N as [Nx N].
  assert (Hx : In x V) by (apply I; left; reflexivity). apply in_split in Hx as (V1 & V2 & ->).
  assert (Q : (total f U <= total f (V1 ++ V2))%R).
  { apply IH; [exact N| |intros l Hl; apply P; apply in_app_or in Hl as [Hl|Hl]; apply in_or_app; [left|right; right]; exact Hl].
    intros y Hy. specialize (I y (or_intror Hy)). apply in_app_or in I as [I|[->|I]]; [apply in_or_app; left; exact I|contradiction|apply in_or_app; right; exact I]. }
  rewrite ZorichProof.total_app in Q |- *. simpl. lra.
Qed.

Lemma total_le (f g : label -> R) U : (forall c, f c <= g c)%R -> (total f U <= total g U)%R.
Proof. intro H. induction U as [|x U IH]; simpl; [lra|]. specialize (H x). lra. Qed.

Lemma op_ltot o (i : iet T) (s : slen T) i' extra s' : good i s -> op_legal o -> run_op o i s = Ok (i', extra, s') ->
  forall j, In j (i' :: extra) -> (ltot j s' <= ltot i s)%R.
Proof.
  intros Hg Hl E j Hj. pose proof (op_shrinks _ _ _ _ _ _ Hg Hl E) as Sh. destruct (op_ok o i s Hg Hl) as [F|(i1 & ex1 & s1 & E1 & Ef)].
  - exfalso. unfold failure in F. rewrite E in F. destruct o; try contradiction; destruct F as [F|F]; destruct F as (F & _); discriminate.
  - rewrite E in E1. injection E1 as <- <- <-. destruct Ef as [_ Nd In _ _]. unfold ltot.
    assert (Nj : NoDup (i_top j) /\ incl (i_top j) (i_top i)).
    { split; [|intros c Hc; apply In; eapply in_used; eassumption]. clear - Nd Hj. revert Nd Hj. generalize (i' :: extra). intros l Nd Hj. apply in_split in Hj as (A & B & ->).
      rewrite used_app, used_cons in Nd. apply NoDup_app_inv in Nd as (_ & Nd & _). apply NoDup_app_inv in Nd as (Nd & _). exact Nd. }
    apply (Rle_trans _ (total (lamR s) (i_top j))); [apply total_le, Sh|]. apply total_incl; [apply Nj|apply Nj|]. intros l Hl'. destruct Hg as ((_ & _ & _ & Po & _) & _). apply posl_lamR, Po, Hl'.
Qed.

End Shrink.
