(** Proofs of the properties in [PropLengths]. *)
From Coq Require Import Reals Lra Permutation.
From Verif Require Import Base QcTac LenT Lengths FM Subspace IET Api Spec SpecLengths.
From Verif Require Import ZorichProof.
Open Scope nat_scope.

Lemma claim_C55_constructor : forall (T : Type) (O : LenOps T) (W : LenLaws T) (ls : list T),
  ((exists x, In x ls /\ (val x < 0)%R) -> sl_make ls = Throw) /\
  ((forall x, In x ls -> (0 <= val x)%R) -> exists s, sl_make ls = Ok s /\ sl_stack s = [] /\
     length (sl_labels s) = length ls /\ NoDup (sl_labels s) /\
     mapM (sl_at s) (sl_labels s) = Ok ls /\
     forall l, ~ In l (sl_labels s) -> sl_at s l = Throw).
Proof.
  intros T O W ls. unfold sl_make. split.
  - intros (x & Hx & Hn). assert (E : existsb (fun x => match l_cmp x l_zero with Lt => true | _ => false end) ls = true); [|rewrite E; reflexivity].
    apply existsb_exists. exists x. split; [exact Hx|]. pose proof (cmp_val x l_zero) as C. rewrite val_zero in C. destruct (l_cmp x l_zero); [lra|reflexivity|lra].
  - intros H. assert (E : existsb (fun x => match l_cmp x l_zero with Lt => true | _ => false end) ls = false).
    { apply Bool.not_true_iff_false. intro E. apply existsb_exists in E as (x & Hx & C). specialize (H x Hx). pose proof (cmp_val x l_zero) as V. rewrite val_zero in V. destruct (l_cmp x l_zero); try discriminate. lra. }
    rewrite E. eexists. split; [reflexivity|]. unfold sl_labels. cbn [sl_stack sl_lens]. rewrite seq_length. split; [reflexivity|]. split; [reflexivity|].
    split; [apply seq_NoDup|]. split.
    + assert (G : forall pre suf : list T, mapM (sl_at (mkslen [] (pre ++ suf))) (seq (length pre) (length suf)) = Ok suf).
      { intros pre suf. revert pre. induction suf as [|x suf IH]; intros pre; [reflexivity|]. cbn [length seq mapM].
        unfold sl_at at 1. cbn [sl_lens]. rewrite nth_error_app2 by lia. rewrite Nat.sub_diag. cbn [nth_error bind].
        specialize (IH (pre ++ [x])). rewrite <- app_assoc in IH. cbn [app] in IH. rewrite app_length in IH. cbn [length] in IH. rewrite Nat.add_1_r in IH. rewrite IH. reflexivity. }
      exact (G [] ls).
    + intros l Hl. unfold sl_at. cbn [sl_lens]. destruct (nth_error ls l) eqn:En; [|reflexivity]. exfalso. apply Hl, in_seq. assert (l < length ls) by (apply nth_error_Some; congruence). lia.
Qed.

Lemma claim_C55_stack : forall (T : Type) (O : LenOps T) (s : slen T) (l : label),
  sl_pop (sl_push l s) = Ok s /\ sl_stack (sl_push l s) = sl_stack s ++ [l] /\ sl_lens (sl_push l s) = sl_lens s /\
  sl_stack (sl_clear s) = [] /\ sl_lens (sl_clear s) = sl_lens s /\
  (sl_stack s = [] -> sl_pop s = UB).
Proof.
  intros T O s l. unfold sl_pop, sl_push, sl_clear. cbn [sl_stack sl_lens]. destruct s as [st ls]. cbn [sl_stack sl_lens].
  repeat split.
  - destruct (st ++ [l]) eqn:E; [destruct st; discriminate|]. rewrite <- E, removelast_last. reflexivity.
  - intros ->. reflexivity.
Qed.

Lemma claim_C55_compare : forall (T : Type) (O : LenOps T) (W : LenLaws T) (s : slen T) (a b : label),
  (forall l, In l (a :: b :: sl_stack s) -> l < length (sl_lens s)) ->
  exists t c d, sl_sum s = Ok t /\ val t = total (lamR s) (sl_stack s) /\
    sl_cmp1 s a = Ok c /\ sl_cmp2 s a b = Ok d /\
    (c = Lt <-> (total (lamR s) (sl_stack s) < lamR s a)%R) /\ (c = Eq <-> total (lamR s) (sl_stack s) = lamR s a) /\
    (d = Lt <-> (lamR s a < lamR s b)%R) /\ (d = Eq <-> lamR s a = lamR s b).
Proof.
  intros T O W s a b H.
  assert (K : forall l, l < length (sl_lens s) -> exists x, sl_at s l = Ok x /\ lamR s l = val x).
  { intros l Hl. destruct (nth_error (sl_lens s) l) as [x|] eqn:E; [|apply nth_error_None in E; lia].
    exists x. unfold sl_at, lamR. rewrite E. split; reflexivity. }
  assert (G : forall st acc, (forall l, In l st -> l < length (sl_lens s)) -> exists t, sl_accumulate s acc st = Ok t /\ val t = (val acc + total (lamR s) st)%R).
  { induction st as [|l st IH]; intros acc Hs; cbn [sl_accumulate total]; [exists acc; split; [reflexivity|lra]|].
    destruct (K l (Hs l (or_introl eq_refl))) as (x & Ex & Vx). rewrite Ex. cbn [bind].
    destruct (IH (l_add acc x)) as (t & Et & Vt); [intros; apply Hs; right; assumption|]. exists t. split; [exact Et|]. rewrite Vt, val_add, Vx. lra. }
  destruct (G (sl_stack s) l_zero) as (t & Et & Vt); [intros l Hl; apply H; right; right; exact Hl|]. rewrite val_zero in Vt.
  destruct (K a (H a (or_introl eq_refl))) as (x & Ex & Vx). destruct (K b (H b (or_intror (or_introl eq_refl)))) as (y & Ey & Vy).
  exists t, (l_cmp t x), (l_cmp x y). split; [exact Et|]. split; [lra|].
  unfold sl_cmp1, sl_cmp2, sl_sum. rewrite Et, Ex, Ey. cbn [bind]. split; [reflexivity|]. split; [reflexivity|].
  rewrite Vx, Vy. replace (total (lamR s) (sl_stack s)) with (val t) by lra.
  pose proof (cmp_val t x) as C. pose proof (cmp_val x y) as D. destruct (l_cmp t x), (l_cmp x y); repeat split; intros; try discriminate; try reflexivity; try lra.
Qed.

Lemma claim_C55_equality : forall (T : Type) (O : LenOps T) (W : LenLaws T) (s s' : slen T),
  sl_eqb s s' = true <-> length (sl_lens s) = length (sl_lens s') /\ forall l, lamR s l = lamR s' l.
Proof.
  intros T O W [st l] [st' l']. unfold sl_eqb, lamR. cbn [sl_lens]. clear st st'. revert l'. induction l as [|x l IH]; intros [|y l']; cbn [length Nat.eqb combine forallb andb fst snd].
  - split; auto.
  - split; [discriminate|]. intros [E _]. discriminate.
  - split; [discriminate|]. intros [E _]. discriminate.
  - specialize (IH l'). rewrite !Bool.andb_true_iff in *. pose proof (cmp_val x y) as C. split.
    + intros (A & B & D). destruct IH as [IH _]. destruct IH as [L E]; [split; assumption|]. split; [f_equal; exact L|]. intros [|k]; cbn [nth_error]; [|apply E]. destruct (l_cmp x y); try discriminate. exact C.
    + intros [L E]. injection L as L. destruct IH as [_ IH]. destruct IH as [A B]; [split; [exact L|]; intro k; exact (E (Datatypes.S k))|]. split; [exact A|]. split; [|exact B].
      specialize (E 0). cbn [nth_error] in E. destruct (l_cmp x y); [reflexivity|lra|lra].
Qed.

Lemma known_posl {T} {O : LenOps T} {W : LenLaws T} (s : slen T) l : l < length (sl_lens s) /\ (0 < lamR s l)%R -> posl s l.
Proof.
  unfold posl, lamR. intros [A B]. destruct (nth_error (sl_lens s) l) as [x|] eqn:E; [eauto|]. apply nth_error_None in E. lia.
Qed.

Lemma nth_last (l : list nat) d : l <> [] -> nth (length l - 1) l d = last l d.
Proof.
  intros H. destruct (exists_last H) as (l' & x & ->). rewrite last_last, app_length, app_nth2; cbn [length]; [|lia].
  replace (length l' + 1 - 1 - length l') with 0 by lia. reflexivity.
Qed.

Lemma seq_shift_n n m : map (fun j => n + j) (seq 0 m) = seq n m.
Proof.
  revert n. induction m as [|m IH]; intros n; [reflexivity|]. cbn [seq map]. f_equal; [lia|].
  rewrite <- seq_shift, map_map. rewrite <- (IH (S n)). apply map_ext. intro. lia.
Qed.

Lemma claim_C56_subtract : forall (T : Type) (O : LenOps T) (W : LenLaws T) (s : slen T) (a : label),
  (forall l, In l (a :: sl_stack s) -> l < length (sl_lens s) /\ (0 < lamR s l)%R) ->
  ((total (lamR s) (sl_stack s) < lamR s a)%R -> exists s', sl_subtract a s = Ok s' /\ sl_stack s' = [] /\
     length (sl_lens s') = length (sl_lens s) /\
     lamR s' a = (lamR s a - total (lamR s) (sl_stack s))%R /\ forall c, c <> a -> lamR s' c = lamR s c) /\
  ((lamR s a <= total (lamR s) (sl_stack s))%R -> sl_subtract a s = AssertFail).
Proof.
  intros T O W s a H0. pose proof (fun l Hl => known_posl s l (H0 l Hl)) as H. split.
  - intros Hlt. destruct (sl_subtract_ok s a) as (s' & E & U); [apply H; left; reflexivity| |exact Hlt|].
    { intros l Hl. apply H. right. exact Hl. }
    exists s'. split; [exact E|]. destruct (updated_lamR _ _ _ _ U) as [U1 U2]. destruct U as (U3 & U4 & _). auto.
  - intros Hle. destruct (H a (or_introl eq_refl)) as (x & Hx & Hp). unfold sl_subtract, sl_at. rewrite Hx. cbn [bind].
    destruct (sl_sum_ok s) as (t & Et & Ev); [intros l Hl; apply H; right; exact Hl|]. rewrite Et. cbn [bind].
    destruct (sl_set_ok s a (l_sub x t) x Hx) as (s' & Es & _). rewrite Es. cbn [bind].
    assert (E : is_pos (l_sub x t) = false).
    { apply Bool.not_true_iff_false. rewrite is_pos_true, val_sub. unfold lamR in Hle at 1. rewrite Hx in Hle. lra. }
    rewrite E. reflexivity.
Qed.

Lemma total_cycle_full f st k : total f (map (fun j => nth (j mod length st) st 0) (seq (k * length st) (length st))) = total f st.
Proof.
  assert (G : forall pre suf, st = pre ++ suf -> total f (map (fun j => nth (j mod length st) st 0) (seq (k * length st + length pre) (length suf))) = total f suf).
  { intros pre suf. revert pre. induction suf as [|x suf IH]; intros pre E; [reflexivity|]. cbn [length seq map total].
    replace (nth ((k * length st + length pre) mod length st) st 0) with x.
    - f_equal. specialize (IH (pre ++ [x])). rewrite <- app_assoc in IH. specialize (IH E). rewrite app_length in IH. cbn [length] in IH.
      replace (k * length st + (length pre + 1)) with (S (k * length st + length pre)) in IH by lia. exact IH.
    - rewrite Nat.add_comm, Nat.mod_add by (rewrite E, app_length; cbn [length]; lia). rewrite Nat.mod_small by (rewrite E, app_length; cbn [length]; lia).
      rewrite E, app_nth2 by lia. rewrite Nat.sub_diag. reflexivity. }
  specialize (G [] st eq_refl). cbn [length] in G. rewrite Nat.add_0_r in G. exact G.
Qed.

Lemma cycled_full f st q r : r <= length st -> cycled f st (q * length st + r) = (INR q * total f st + total f (firstn r st))%R.
Proof.
  intros Hr. induction q as [|q IH].
  - cbn [Nat.mul Nat.add]. unfold cycled. replace (map (fun j => nth (j mod length st) st 0) (seq 0 r)) with (firstn r st); [simpl; lra|].
    revert r Hr. assert (G : forall pre suf r, st = pre ++ suf -> r <= length suf -> firstn r suf = map (fun j => nth (j mod length st) st 0) (seq (length pre) r)).
    { intros pre suf r. revert pre suf. induction r as [|r IH]; intros pre suf E Hr; [reflexivity|]. destruct suf as [|x suf]; cbn [length] in Hr; [lia|]. cbn [firstn seq map]. f_equal.
      - rewrite Nat.mod_small by (rewrite E, app_length; cbn [length]; lia). rewrite E, app_nth2 by lia. rewrite Nat.sub_diag. reflexivity.
      - specialize (IH (pre ++ [x]) suf). rewrite <- app_assoc in IH. specialize (IH E ltac:(lia)). rewrite app_length in IH. cbn [length] in IH. rewrite Nat.add_1_r in IH. exact IH. }
    intros r Hr. apply (G [] st r eq_refl Hr).
  - replace (S q * length st + r) with (length st + (q * length st + r)) by lia. unfold cycled in *. rewrite seq_app, map_app, total_app.
    pose proof (total_cycle_full f st 0) as F0. cbn [Nat.mul] in F0. cbn [Nat.add]. rewrite F0.
    replace (map (fun j => nth (j mod length st) st 0) (seq (length st) (q * length st + r))) with (map (fun j => nth (j mod length st) st 0) (seq 0 (q * length st + r))).
    + rewrite IH, S_INR. lra.
    + rewrite <- (seq_shift_n (length st) (q * length st + r)). rewrite map_map. apply map_ext_in. intros j _.
      destruct st as [|x st']; [reflexivity|]. set (n := length (x :: st')). assert (n <> 0) by (unfold n; cbn; lia).
      replace (n + j) with (j + 1 * n) by lia. rewrite Nat.mod_add by lia. reflexivity.
Qed.

Lemma claim_C56_repeated : forall (T : Type) (O : LenOps T) (W : LenLaws T) (s : slen T) (a : label),
  (forall l, In l (a :: sl_stack s) -> l < length (sl_lens s) /\ (0 < lamR s l)%R) -> ~ In a (sl_stack s) -> sl_stack s <> [] ->
  (total (lamR s) (sl_stack s) < lamR s a)%R ->
  exists n s', length (sl_stack s) <= n /\
    sl_subrep a s = Ok (nth ((n - 1) mod length (sl_stack s)) (sl_stack s) 0, s') /\
    sl_stack s' = [] /\ length (sl_lens s') = length (sl_lens s) /\ (forall c, c <> a -> lamR s' c = lamR s c) /\
    lamR s' a = (lamR s a - cycled (lamR s) (sl_stack s) n)%R /\
    (0 < lamR s' a <= lamR s (nth (n mod length (sl_stack s)) (sl_stack s) 0%nat))%R.
Proof.
  intros T O W s a H0 Hn Hne Hlt. pose proof (fun l Hl => known_posl s l (H0 l Hl)) as H.
  destruct (sl_subrep_ok s a) as (m & B1 & b & B2 & s' & E & R & U & V); [apply H; left; reflexivity|intros l Hl; apply H; right; exact Hl|exact Hn|exact Hne|exact Hlt|].
  set (st := sl_stack s) in *. assert (L : length st = length B1 + S (length B2)) by (rewrite E, app_length; reflexivity).
  exists (S m * length st + length B1), s'. split; [nia|]. split.
  { rewrite R. do 2 f_equal. destruct (list_eq_dec Nat.eq_dec B1 []) as [EB|EB].
    - rewrite EB in *. cbn [length last]. rewrite Nat.add_0_r. replace (S m * length st - 1) with ((length st - 1) + m * length st) by (cbn [length] in L; nia).
      rewrite Nat.mod_add, Nat.mod_small by (cbn [length] in L; lia). symmetry. apply nth_last, Hne.
    - assert (LB : length B1 >= 1) by (destruct B1; [contradiction|cbn; lia]).
      replace (S m * length st + length B1 - 1) with ((length B1 - 1) + S m * length st) by nia.
      rewrite Nat.mod_add, Nat.mod_small by lia. generalize (last st 0) as dd. intro dd. rewrite E, app_nth1 by lia. rewrite <- (nth_last B1 dd) by exact EB.
      apply nth_indep. lia. }
  destruct (updated_lamR _ _ _ _ U) as [U1 U2]. destruct U as (U3 & U4 & _). split; [exact U3|]. split; [exact U4|]. split; [exact U2|].
  assert (C : cycled (lamR s) st (S m * length st + length B1) = (INR (S m) * total (lamR s) st + total (lamR s) B1)%R).
  { rewrite cycled_full by lia. do 2 f_equal. rewrite E, firstn_app, firstn_all, Nat.sub_diag. cbn [firstn]. apply app_nil_r. }
  split; [rewrite C, U1; lra|]. rewrite U1.
  replace (nth ((S m * length st + length B1) mod length st) st 0) with b; [exact V|].
  rewrite Nat.add_comm, Nat.mod_add by lia. rewrite Nat.mod_small by lia. rewrite E, app_nth2 by lia. rewrite Nat.sub_diag. reflexivity.
Qed.

Lemma claim_C56_empty : forall (T : Type) (O : LenOps T) (s : slen T) (a : label), sl_stack s = [] -> sl_subrep a s = Throw.
Proof.
  intros T O s a E. unfold sl_subrep. rewrite E. reflexivity.
Qed.

