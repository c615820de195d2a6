(** Renaming labels commutes with everything that is done to lengths and interval exchange
    transformations. *)
From Coq Require Import List Lia FinFun.
From Verif Require Import Base QcTac LenT FM Subspace Lengths IET Decomp Spec Api Twin RatioApi RenApi.
Open Scope nat_scope.

Section Ren.
Variable f : label -> label.
Hypothesis inj : forall a b, f a = f b -> a = b.

(** ** Lists *)

Lemma f_eqb a b : Nat.eqb (f a) (f b) = Nat.eqb a b.
Proof. destruct (Nat.eqb_spec a b) as [->|N]; [apply Nat.eqb_refl|]. apply Nat.eqb_neq. intro E. apply N, inj, E. Qed.

Lemma memb_map a l : memb (f a) (map f l) = memb a l.
Proof. unfold memb. induction l as [|x l IH]; [reflexivity|]. cbn [map existsb]. rewrite f_eqb, IH. reflexivity. Qed.

Lemma split_at_map a l : split_at (f a) (map f l) = option_map (fun p => (map f (fst p), map f (snd p))) (split_at a l).
Proof.
  induction l as [|x l IH]; [reflexivity|]. cbn [map split_at]. rewrite f_eqb. destruct (Nat.eqb x a); [reflexivity|].
  rewrite IH. destruct (split_at a l) as [[p q]|]; reflexivity.
Qed.

Lemma back_to_map a l : back_to (f a) (map f l) = option_map (map f) (back_to a l).
Proof. induction l as [|x l IH]; [reflexivity|]. cbn [map back_to]. rewrite f_eqb. destruct (Nat.eqb x a); [reflexivity|exact IH]. Qed.

Lemma remove_map a l : remove Nat.eq_dec (f a) (map f l) = map f (remove Nat.eq_dec a l).
Proof.
  induction l as [|x l IH]; [reflexivity|]. cbn [map remove].
  destruct (Nat.eq_dec a x) as [->|N].
  - destruct (Nat.eq_dec (f x) (f x)) as [_|N']; [exact IH|destruct (N' eq_refl)].
  - destruct (Nat.eq_dec (f a) (f x)) as [E|_]; [destruct (N (inj _ _ E))|]. cbn [map]. rewrite IH. reflexivity.
Qed.

Lemma in_map_f a l : In (f a) (map f l) <-> In a l.
Proof. rewrite <- !memb_In, memb_map. reflexivity. Qed.

Lemma nodup_map l : nodup Nat.eq_dec (map f l) = map f (nodup Nat.eq_dec l).
Proof.
  induction l as [|x l IH]; [reflexivity|]. cbn [map nodup].
  destruct (in_dec Nat.eq_dec x l) as [H|H]; destruct (in_dec Nat.eq_dec (f x) (map f l)) as [H'|H']; try (rewrite in_map_f in H'; contradiction).
  - exact IH.
  - cbn [map]. rewrite IH. reflexivity.
Qed.

Lemma positions_map x l k : positions (f x) (map f l) k = positions x l k.
Proof. revert k. induction l as [|y l IH]; intro k; [reflexivity|]. cbn [map positions]. rewrite f_eqb, IH. reflexivity. Qed.

Lemma find_pos_map x l : find_pos (f x) (map f l) = find_pos x l.
Proof. induction l as [|y l IH]; [reflexivity|]. cbn [map find_pos]. rewrite f_eqb, IH. reflexivity. Qed.

Lemma hd_map l : match map f l with x :: _ => Some x | [] => None end = option_map f (match l with x :: _ => Some x | [] => None end).
Proof. destruct l; reflexivity. Qed.

Lemma removelast_map {A B} (g : A -> B) l : removelast (map g l) = map g (removelast l).
Proof. induction l as [|x [|y l] IH]; [reflexivity..|]. cbn [map removelast] in *. rewrite IH. reflexivity. Qed.

Lemma last_map l d e : l <> [] -> last (map f l) d = f (last l e).
Proof. intro N. induction l as [|x [|y l] IH]; [destruct (N eq_refl)|reflexivity|]. cbn [map last] in *. apply IH. discriminate. Qed.

(** ** The lengths *)

Context {T : Type} {O : LenOps T}.

Definition srel (s s' : slen T) : Prop := sl_stack s' = map f (sl_stack s) /\ moved_lengths f (sl_lens s) (sl_lens s').

Lemma ren_at s s' l : srel s s' -> sl_at s' (f l) = sl_at s l.
Proof. intros [_ H]. unfold sl_at. rewrite (H l). reflexivity. Qed.

Lemma ren_set s s' l v : srel s s' -> rres srel (sl_set s l v) (sl_set s' (f l) v).
Proof.
  intros [Hs H]. unfold sl_set. specialize (H l) as Hl.
  destruct (set_nth l v (sl_lens s)) as [ls|] eqn:E, (set_nth (f l) v (sl_lens s')) as [ls'|] eqn:E'.
  - split; [exact Hs|]. cbn [sl_lens]. intro m. destruct (Nat.eq_dec l m) as [<-|N].
    + rewrite (set_nth_same _ _ _ _ E), (set_nth_same _ _ _ _ E'). reflexivity.
    + rewrite (set_nth_other _ _ _ _ _ E N), (set_nth_other _ _ _ _ _ E' (fun e => N (inj _ _ e))). apply H.
  - exfalso. assert (f l < length (sl_lens s')).
    { apply nth_error_Some. rewrite Hl. apply nth_error_Some. rewrite <- (set_nth_length _ _ _ _ E). apply nth_error_Some. rewrite (set_nth_same _ _ _ _ E). discriminate. }
    destruct (set_nth_some (f l) v (sl_lens s')) as [x Ex]; [assumption|]. congruence.
  - exfalso. assert (l < length (sl_lens s)).
    { apply nth_error_Some. rewrite <- Hl. apply nth_error_Some. rewrite <- (set_nth_length _ _ _ _ E'). apply nth_error_Some. rewrite (set_nth_same _ _ _ _ E'). discriminate. }
    destruct (set_nth_some l v (sl_lens s)) as [x Ex]; [assumption|]. congruence.
  - exact I.
Qed.

Lemma ren_accumulate s s' : srel s s' -> forall st acc, sl_accumulate s' acc (map f st) = sl_accumulate s acc st.
Proof.
  intro H. induction st as [|l st IH]; intro acc; [reflexivity|]. cbn [map sl_accumulate]. rewrite (ren_at _ _ _ H).
  destruct (sl_at s l); try reflexivity. apply IH.
Qed.

Lemma ren_sum s s' : srel s s' -> sl_sum s' = sl_sum s.
Proof. intro H. unfold sl_sum. rewrite (proj1 H). apply ren_accumulate, H. Qed.

Lemma ren_push s s' l : srel s s' -> srel (sl_push l s) (sl_push (f l) s').
Proof. intros [H1 H2]. split; [|exact H2]. cbn [sl_push sl_stack]. rewrite H1, map_app. reflexivity. Qed.

Lemma ren_pop s s' : srel s s' -> rres srel (sl_pop s) (sl_pop s').
Proof.
  intros [H1 H2]. unfold sl_pop. rewrite H1. destruct (sl_stack s) as [|x st]; [exact I|].
  split; [|exact H2]. cbn [sl_stack]. apply (removelast_map f (x :: st)).
Qed.

Lemma ren_clear s s' : srel s s' -> srel (sl_clear s) (sl_clear s').
Proof. intros [H1 H2]. split; [reflexivity|exact H2]. Qed.

Lemma ren_cmp1 s s' l : srel s s' -> sl_cmp1 s' (f l) = sl_cmp1 s l.
Proof. intro H. unfold sl_cmp1. rewrite (ren_sum _ _ H), (ren_at _ _ _ H). reflexivity. Qed.

Lemma ren_cmp2 s s' l m : srel s s' -> sl_cmp2 s' (f l) (f m) = sl_cmp2 s l m.
Proof. intro H. unfold sl_cmp2. rewrite !(ren_at _ _ _ H). reflexivity. Qed.

Lemma ren_subtract s s' m : srel s s' -> rres srel (sl_subtract m s) (sl_subtract (f m) s').
Proof.
  intro H. unfold sl_subtract. rewrite (ren_at _ _ _ H), (ren_sum _ _ H).
  apply rres_same. intros x _. apply rres_same. intros t _.
  apply (rres_bind _ _ _ _ _ _ (ren_set s s' m _ H)). intros s1 s1' H1. apply rres_assert. apply ren_clear, H1.
Qed.

Definition lrel (p p' : label * slen T) : Prop := fst p' = f (fst p) /\ srel (snd p) (snd p').

Lemma ren_subrep_loop from : forall st stop s s', srel s s' ->
  rres lrel (sl_subrep_loop from stop st s) (sl_subrep_loop (f from) (f stop) (map f st) s').
Proof.
  induction st as [|l st IH]; intros stop s s' H; [exact I|]. cbn [map sl_subrep_loop]. rewrite !(ren_at _ _ _ H).
  apply rres_same. intros x _. apply rres_same. intros y _. destruct (l_cmp x y).
  - split; [reflexivity|]. apply ren_clear, H.
  - apply (rres_bind _ _ _ _ _ _ (ren_set s s' from _ H)). intros s1 s1' H1. apply rres_assert. apply IH, H1.
  - split; [reflexivity|]. apply ren_clear, H.
Qed.

Lemma sl_set_stack (s : slen T) l v s1 : sl_set s l v = Ok s1 -> sl_stack s1 = sl_stack s.
Proof. unfold sl_set. destruct (set_nth l v (sl_lens s)); [|discriminate]. intro E. injection E as <-. reflexivity. Qed.

Lemma rres_ok {A B} (Q : A -> B -> Prop) m m' : rres Q m m' -> rres (fun a b => Q a b /\ m = Ok a) m m'.
Proof. destruct m, m'; simpl; auto. Qed.

Lemma ren_subrep s s' m : srel s s' -> rres lrel (sl_subrep m s) (sl_subrep (f m) s').
Proof.
  intro H. unfold sl_subrep. rewrite (ren_at _ _ _ H), (ren_sum _ _ H), (proj1 H).
  destruct (sl_stack s) as [|x0 st0] eqn:Es; [exact I|]. cbn [map]. 
  apply rres_same. intros x _. apply rres_same. intros t _. destruct (l_div x t) as [quo|]; [|exact I].
  apply (rres_bind _ _ _ _ _ _ (rres_ok _ _ _ (ren_set s s' m _ H))). intros s1 s1' [H1 E1].
  rewrite (ren_at _ _ _ H1). apply rres_same. intros y _. apply rres_assert.
  apply (rres_bind (fun a b => srel a b /\ sl_stack a = x0 :: st0)).
  - destruct (l_bool y); [split; [exact H1|rewrite (sl_set_stack _ _ _ _ E1); exact Es]|].
    rewrite (ren_sum _ _ H1). apply rres_same. intros t' _.
    refine (rres_mono _ _ _ _ (rres_ok _ _ _ (ren_set s1 s1' m _ H1)) _). intros a b [H2 E2].
    split; [exact H2|]. rewrite (sl_set_stack _ _ _ _ E2), (sl_set_stack _ _ _ _ E1). exact Es.
  - intros s2 s2' [H2 E2]. rewrite (proj1 H2). rewrite (last_map _ _ 0) by (rewrite E2; discriminate). apply ren_subrep_loop, H2.
Qed.

Lemma ren_mapM {A B C} (g : A -> res C) (h : B -> res C) (r : A -> B) l :
  (forall x, h (r x) = g x) -> mapM h (map r l) = mapM g l.
Proof. intro H. induction l as [|x l IH]; [reflexivity|]. cbn [map mapM]. rewrite H, IH. reflexivity. Qed.

Lemma ren_coefficients s s' ls : srel s s' -> sl_coefficients s' (map f ls) = sl_coefficients s ls.
Proof. intro H. unfold sl_coefficients. rewrite (ren_mapM (sl_at s) (sl_at s') f); [reflexivity|]. intro x. apply ren_at, H. Qed.

Lemma nth_error_labels {A} (l : list A) i k : nth_error (combine (seq k (length l)) l) i = option_map (fun x => (k + i, x)) (nth_error l i).
Proof.
  revert i k. induction l as [|x l IH]; intros i k; [destruct i; reflexivity|]. cbn [length seq combine].
  destruct i as [|i]; [cbn; rewrite Nat.add_0_r; reflexivity|]. cbn [nth_error]. rewrite IH. destruct (nth_error l i); [|reflexivity].
  cbn. rewrite Nat.add_succ_r. reflexivity.
Qed.

Lemma only_nth s ls l : nth_error (sl_lens (sl_only s ls)) l = option_map (fun x => if memb l ls then x else l_zero) (nth_error (sl_lens s) l).
Proof.
  cbn [sl_only sl_lens]. unfold sl_labels. rewrite nth_error_map, nth_error_labels. destruct (nth_error (sl_lens s) l); reflexivity.
Qed.

Lemma ren_only s s' ls : srel s s' -> srel (sl_only s ls) (sl_only s' (map f ls)).
Proof. intros [_ H]. split; [reflexivity|]. intro l. rewrite !only_nth, memb_map, (H l). reflexivity. Qed.

Lemma ren_forget s s' : srel s s' -> srel (sl_forget s) (sl_forget s').
Proof. intros [_ H]. split; [reflexivity|exact H]. Qed.

Lemma ren_similar s s' o o' a b aa bb : srel s s' -> srel o o' ->
  sl_similar s' (f a) (f b) o' (f aa) (f bb) = sl_similar s a b o aa bb.
Proof. intros H H'. unfold sl_similar. rewrite !(ren_at _ _ _ H), !(ren_at _ _ _ H'). reflexivity. Qed.

(** ** Interval exchange transformations *)

Definition trel (k k' : tracker T) : Prop :=
  tk_top k' = map f (tk_top k) /\ tk_bottom k' = tk_bottom k /\ srel (tk_lengths k) (tk_lengths k') /\ tk_bound k' = tk_bound k /\ tk_ttl k' = tk_ttl k.

Definition irel (i i' : iet T) : Prop :=
  i_top i' = map f (i_top i) /\ i_bottom i' = map f (i_bottom i) /\ i_swap i' = i_swap i /\ i_saf i' = i_saf i /\ trel (i_trk i) (i_trk i').

Lemma trel_init : trel tracker_init tracker_init.
Proof. repeat split. intro l. destruct l, (f _); reflexivity. Qed.

Lemma ren_size i i' : irel i i' -> i_size i' = i_size i.
Proof. intros (E & _). unfold i_size. rewrite E. apply map_length. Qed.

Lemma ren_iet_swap i i' : irel i i' -> irel (iet_swap i) (iet_swap i').
Proof. intros (E1 & E2 & E3 & E4 & K). repeat split; cbn; try assumption; try congruence; apply K. Qed.

Lemma irel_set_bottom i i' b : irel i i' -> irel (set_bottom i b) (set_bottom i' (map f b)).
Proof. intros (E1 & E2 & E3 & E4 & K). repeat split; cbn; try assumption; apply K. Qed.
Lemma irel_set_saf i i' v : irel i i' -> irel (set_saf i v) (set_saf i' v).
Proof. intros (E1 & E2 & E3 & E4 & K). repeat split; cbn; try assumption; apply K. Qed.
Lemma irel_set_trk i i' k k' : irel i i' -> trel k k' -> irel (set_trk i k) (set_trk i' k').
Proof. intros (E1 & E2 & E3 & E4 & _) K. repeat split; cbn; try assumption; apply K. Qed.
Lemma irel_set_labels i i' t b : irel i i' -> irel (set_labels i t b) (set_labels i' (map f t) (map f b)).
Proof. intros (E1 & E2 & E3 & E4 & K). repeat split; cbn; try assumption; apply K. Qed.

Lemma ren_make s s' top bottom : srel s s' -> rres irel (iet_make s top bottom) (iet_make s' (map f top) (map f bottom)).
Proof.
  intro H. unfold iet_make. rewrite !nodup_map, !map_length. do 3 apply rres_assert.
  rewrite (ren_mapM (fun l => x <- sl_at s l ;; Ok (l_bool x)) (fun l => x <- sl_at s' l ;; Ok (l_bool x)) f)
    by (intro x; rewrite (ren_at _ _ _ H); reflexivity).
  apply rres_same. intros bs _. do 2 apply rres_assert. repeat split; try reflexivity; apply trel_init.
Qed.

Definition vren (v : view) : view := (map f (fst v), snd v).

Lemma ren_view i i' : irel i i' -> i_view i' = vren (i_view i).
Proof. intros (E1 & E2 & E3 & _). unfold i_view, vren. cbn. rewrite E1, E3. reflexivity. Qed.

(** *** Induction over any pair of lengths objects that correspond *)

Section Induct.
Context {S : Type}.
Variable L L' : lens T S.
Variable Q : S -> S -> Prop.
Hypothesis Hpush : forall l s s', Q s s' -> rres Q (li_push L l s) (li_push L' (f l) s').
Hypothesis Hpop : forall s s', Q s s' -> rres Q (li_pop L s) (li_pop L' s').
Hypothesis Hcmp1 : forall s s', Q s s' -> forall l, li_cmp1 L' s' (f l) = li_cmp1 L s l.
Hypothesis Hcmp2 : forall s s', Q s s' -> forall l m, li_cmp2 L' s' (f l) (f m) = li_cmp2 L s l m.
Hypothesis Hsub : forall v m s s', Q s s' -> rres Q (li_subtract L v m s) (li_subtract L' (vren v) (f m) s').
Hypothesis Hrep : forall v m s s', Q s s' ->
  rres (fun p p' => fst p' = f (fst p) /\ Q (snd p) (snd p')) (li_subrep L v m s) (li_subrep L' (vren v) (f m) s').
Hypothesis Hbase : forall s s', Q s s' -> srel (li_base L s) (li_base L' s').

Lemma ren_zloop v a : forall rest rpre s s', Q s s' ->
  rres (fun p p' => fst p' = map f (fst p) /\ Q (snd p) (snd p')) (zloop L v a rpre rest s) (zloop L' (vren v) (f a) (map f rpre) (map f rest) s').
Proof.
  induction rest as [|b rest IH]; intros rpre s s' HQ; [exact I|]. cbn [map zloop]. rewrite f_eqb. destruct (Nat.eqb b a).
  - apply (rres_bind _ _ _ _ _ _ (Hrep v a s s' HQ)). intros [p s1] [p' s1']. cbn [fst snd]. intros [-> H1].
    rewrite f_eqb. destruct (Nat.eqb a p); [exact I|]. rewrite back_to_map. destruct (back_to p rpre); [|exact I]. split; [reflexivity|exact H1].
  - apply (rres_bind _ _ _ _ _ _ (Hpush b s s' HQ)). intros s1 s1' H1.
    rewrite (Hcmp1 _ _ H1). apply rres_same. intros c _.
    destruct c; [|apply (IH (b :: rpre)); assumption|];
      (apply (rres_bind _ _ _ _ _ _ (Hpop _ _ H1)); intros s2 s2' H2;
       apply (rres_bind _ _ _ _ _ _ (Hsub v a _ _ H2)); intros s3 s3' H3; split; [reflexivity|exact H3]).
Qed.

Definition qrel {B} (p p' : B * iet T * S) : Prop :=
  fst (fst p') = fst (fst p) /\ irel (snd (fst p)) (snd (fst p')) /\ Q (snd p) (snd p').

Lemma ren_splice a l n : splice (f a) (map f l) n = match splice a l n with Ok r => Ok (map f r) | Throw => Throw | AssertFail => AssertFail | UB => UB | OutOfFuel => OutOfFuel end.
Proof.
  unfold splice. rewrite skipn_map, split_at_map. destruct (split_at a (skipn n l)) as [[q1 q2]|]; [|reflexivity].
  cbn [option_map fst snd]. rewrite firstn_map, !map_app. reflexivity.
Qed.

Lemma ren_zorich i i' s s' : irel i i' -> Q s s' -> rres qrel (zorich L i s) (zorich L' i' s').
Proof.
  intros Hi HQ. pose proof Hi as (E1 & E2 & _). unfold zorich. rewrite (ren_view _ _ Hi), E1, E2.
  destruct (i_top i) as [|a X] eqn:Et; [exact I|]. destruct (i_bottom i) as [|b Y] eqn:Eb; [exact I|]. cbn [map]. rewrite f_eqb.
  destruct (Nat.eqb a b); [split; [reflexivity|split; assumption]|].
  apply (rres_bind _ _ _ _ _ _ (ren_zloop (i_view i) a (b :: Y) [] s s' HQ)).
  intros [r s1] [r' s1']. cbn [fst snd]. intros [-> H1]. rewrite map_length.
  change (f b :: map f Y) with (map f (b :: Y)). rewrite ren_splice.
  destruct (splice a (b :: Y) (length r)) as [l| | | |]; try exact I. cbn [bind].
  destruct l as [|b' l]; [exact I|]. cbn [map]. rewrite (Hcmp2 _ _ H1). apply rres_same. intros c _.
  split; [reflexivity|]. split; [|exact H1]. apply (irel_set_bottom i i' (b' :: l)), Hi.
Qed.
End Induct.

(** *** Vectors *)

Lemma ren_iet_coefficients i i' s s' : irel i i' -> srel s s' -> iet_coefficients i' s' = iet_coefficients i s.
Proof. intros (E & _) H. unfold iet_coefficients. rewrite E. apply ren_coefficients, H. Qed.

Definition mren (m : coefmap) : coefmap := map (fun p => (f (fst p), snd p)) m.

Lemma combine_mren ls (cs : list vec) : combine (map f ls) cs = mren (combine ls cs).
Proof. revert cs. induction ls as [|l ls IH]; intros [|c cs]; try reflexivity. cbn. rewrite IH. reflexivity. Qed.

Definition rmap {A B} (g : A -> B) (m : res A) : res B := x <- m ;; Ok (g x).

Lemma ren_label_to_coefficients i i' s s' : irel i i' -> srel s s' -> label_to_coefficients i' s' = rmap mren (label_to_coefficients i s).
Proof.
  intros Hi H. unfold label_to_coefficients, rmap. rewrite (ren_iet_coefficients _ _ _ _ Hi H). destruct (iet_coefficients i s); try reflexivity.
  cbn. rewrite (proj1 Hi), combine_mren. reflexivity.
Qed.

Lemma ren_cm_at m l : cm_at (mren m) (f l) = cm_at m l.
Proof. induction m as [|[k v] m IH]; [reflexivity|]. cbn [mren map fst snd cm_at]. rewrite f_eqb, <- IH. reflexivity. Qed.

Lemma ren_walk op m stop : forall ls acc, walk_until op (mren m) (f stop) (map f ls) acc = walk_until op m stop ls acc.
Proof.
  induction ls as [|l ls IH]; intro acc; [reflexivity|]. cbn [map walk_until]. rewrite f_eqb, ren_cm_at. destruct (Nat.eqb l stop); [reflexivity|].
  destruct (cm_at m l); try reflexivity. cbn [bind]. destruct (op acc a); try reflexivity. apply IH.
Qed.

Lemma ren_translation i i' t b m : irel i i' -> translation i' (f t) (f b) (mren m) = translation i t b m.
Proof.
  intros (E1 & E2 & _). unfold translation. destruct m as [|[k v] m]; [reflexivity|].
  change (mren ((k, v) :: m)) with ((f k, v) :: mren m) at 1. cbn iota beta. rewrite E1, E2.
  rewrite ren_walk. destruct (walk_until vsub_c _ _ _ _); try reflexivity. cbn [bind]. apply ren_walk.
Qed.

Lemma ren_translations i i' s s' : irel i i' -> srel s s' -> translations i' s' = translations i s.
Proof.
  intros Hi H. unfold translations. rewrite (ren_label_to_coefficients _ _ _ _ Hi H). unfold rmap. destruct (label_to_coefficients i s) as [m| | | |]; try reflexivity.
  cbn [bind]. rewrite (proj1 Hi). apply ren_mapM. intro x. apply ren_translation, Hi.
Qed.

Lemma ren_saf_raw i i' s s' : irel i i' -> srel s s' -> saf_raw i' s' = saf_raw i s.
Proof. intros Hi H. unfold saf_raw. rewrite (ren_iet_coefficients _ _ _ _ Hi H), (ren_translations _ _ _ _ Hi H). reflexivity. Qed.

Definition brel {B} (p p' : B * iet T) : Prop := fst p' = fst p /\ irel (snd p) (snd p').

Lemma ren_iet_saf i i' s s' : irel i i' -> srel s s' -> rres brel (iet_saf i s) (iet_saf i' s').
Proof.
  intros Hi H. pose proof Hi as (_ & _ & E3 & E4 & _). unfold iet_saf. rewrite E4, E3. destruct (i_saf i); [split; [reflexivity|exact Hi]|].
  rewrite (ren_saf_raw _ _ _ _ Hi H). apply rres_same. intros v _. split; [reflexivity|]. apply irel_set_saf, Hi.
Qed.

Lemma ren_iet_saf0 i i' s s' : irel i i' -> srel s s' -> rres brel (iet_saf0 i s) (iet_saf0 i' s').
Proof.
  intros Hi H. unfold iet_saf0. apply (rres_bind _ _ _ _ _ _ (ren_iet_saf _ _ _ _ Hi H)).
  intros [v j] [v' j'] [E J]. cbn [fst snd] in *. subst v'. split; [reflexivity|exact J].
Qed.

Lemma ren_saf_invariant i i' s s' : irel i i' -> srel s s' -> rres brel (saf_invariant i s) (saf_invariant i' s').
Proof.
  intros Hi H. unfold saf_invariant. apply (rres_bind _ _ _ _ _ _ (ren_iet_saf _ _ _ _ Hi H)).
  intros [v j] [v' j'] [E J]. cbn [fst snd] in *. subst v'. split; [cbn [fst]; destruct J as (_ & _ & -> & _); reflexivity|exact J].
Qed.

Lemma ren_equations i i' s s' : irel i i' -> srel s s' -> bosh_equations i' s' = bosh_equations i s.
Proof. intros Hi H. unfold bosh_equations. rewrite (ren_translations _ _ _ _ Hi H). reflexivity. Qed.

Lemma ren_bosh i i' s s' : irel i i' -> srel s s' -> rres brel (bosh_no_periodic i s) (bosh_no_periodic i' s').
Proof.
  intros Hi H. unfold bosh_no_periodic. apply (rres_bind _ _ _ _ _ _ (ren_iet_saf0 _ _ _ _ Hi H)).
  intros [z j] [z' j'] [E J]. cbn [fst snd] in *. subst z'. destruct z; [split; [reflexivity|exact J]|].
  rewrite (ren_size _ _ J). destruct (i_size j <=? 1); [split; [reflexivity|exact J]|].
  rewrite (ren_equations _ _ _ _ J H). apply rres_same. intros eqs _. apply rres_same. intros r _. apply rres_same. intros b _.
  split; [reflexivity|exact J].
Qed.

Lemma ren_next_label x l : next_label (f x) (map f l) = option_map (option_map f) (next_label x l).
Proof. unfold next_label. rewrite split_at_map. destruct (split_at x l) as [[p [|y q]]|]; reflexivity. Qed.

Lemma ren_values i i' s s' t b : irel i i' -> srel s s' -> bosh_values i' s' (f t) (f b) = bosh_values i s t b.
Proof.
  intros Hi H. pose proof Hi as (E1 & E2 & _). unfold bosh_values. rewrite E1, E2, !ren_next_label.
  destruct (next_label t (i_top i)) as [[t'|]|]; cbn [option_map]; try reflexivity.
  destruct (next_label b (i_bottom i)) as [[b'|]|]; cbn [option_map]; try reflexivity.
  rewrite (ren_label_to_coefficients _ _ _ _ Hi H). unfold rmap. destruct (label_to_coefficients i s) as [m| | | |]; try reflexivity.
  cbn [bind]. rewrite (ren_translation _ _ _ _ _ Hi). reflexivity.
Qed.

Lemma ren_saddle2 i i' s s' t b : irel i i' -> srel s s' -> bosh_no_saddle2 i' s' (f t) (f b) = bosh_no_saddle2 i s t b.
Proof. intros Hi H. unfold bosh_no_saddle2. rewrite (ren_values _ _ _ _ _ _ Hi H), (ren_equations _ _ _ _ Hi H). reflexivity. Qed.

Lemma ren_all_false {A B} (g : A -> res bool) (h : B -> res bool) (r : A -> B) l :
  (forall x, h (r x) = g x) -> all_false_exit h (map r l) = all_false_exit g l.
Proof. intro H. induction l as [|x l IH]; [reflexivity|]. cbn [map all_false_exit]. rewrite H, IH. reflexivity. Qed.

Lemma map_tl {A B} (g : A -> B) l : tl (map g l) = map g (tl l).
Proof. destruct l; reflexivity. Qed.

Lemma list_prod_map (l m : list label) : list_prod (map f l) (map f m) = map (ren_pair f) (list_prod l m).
Proof.
  induction l as [|x l IH]; [reflexivity|]. cbn [map list_prod]. rewrite IH, map_app. f_equal. rewrite !map_map. reflexivity.
Qed.

Lemma ren_saddle i i' s s' : irel i i' -> srel s s' -> bosh_no_saddle i' s' = bosh_no_saddle i s.
Proof.
  intros Hi H. pose proof Hi as (E1 & E2 & _). unfold bosh_no_saddle. rewrite (ren_size _ _ Hi), E1, E2, <- !map_rev, !map_tl, list_prod_map.
  destruct (i_size i <=? 1); [reflexivity|]. apply ren_all_false. intros [t b]. apply ren_saddle2; assumption.
Qed.

(** *** reduce *)

Lemma ren_red_loop : forall t b marks ta ba,
  red_loop (map f t) (map f b) (map f marks) ta ba = rmap (fun p => (map f (fst p), map f (snd p))) (red_loop t b marks ta ba).
Proof.
  induction t as [|x t IH]; intros [|y b] marks ta ba; try reflexivity. cbn [map red_loop]. rewrite memb_map.
  assert (K : forall m u v,
    (let '(marks, ta, ba) := if memb (f y) (map f m) then (unmark (f y) (map f m), u - 1, v)%Z else (mark (f y) (map f m), u, v + 1)%Z in
     if (ta =? 0)%Z && (ba =? 0)%Z then Ok (map f t, map f b) else red_loop (map f t) (map f b) marks ta ba) =
    rmap (fun p => (map f (fst p), map f (snd p)))
    (let '(marks, ta, ba) := if memb y m then (unmark y m, u - 1, v)%Z else (mark y m, u, v + 1)%Z in
     if (ta =? 0)%Z && (ba =? 0)%Z then Ok (t, b) else red_loop t b marks ta ba)).
  { intros m u v. rewrite memb_map. destruct (memb y m).
    - destruct ((u - 1 =? 0)%Z && (v =? 0)%Z); [reflexivity|]. unfold unmark. rewrite remove_map. apply IH.
    - destruct ((u =? 0)%Z && (v + 1 =? 0)%Z); [reflexivity|]. apply (IH b (y :: m)). }
  destruct (memb x marks).
  - replace (unmark (f x) (map f marks)) with (map f (unmark x marks)) by (symmetry; apply remove_map). apply K.
  - apply (K (x :: marks)).
Qed.

Definition orel (p p' : option (iet T) * iet T) : Prop :=
  irel (snd p) (snd p') /\
  match fst p, fst p' with Some a, Some b => irel a b | None, None => True | _, _ => False end.

Lemma ren_reduce i i' s s' : irel i i' -> srel s s' -> rres orel (reduce i s) (reduce i' s').
Proof.
  intros Hi H. pose proof Hi as (E1 & E2 & _). unfold reduce. rewrite E1, E2. change (@nil nat) with (map f []) at 2. rewrite ren_red_loop. unfold rmap.
  destruct (red_loop (i_top i) (i_bottom i) [] 0 0) as [[t b]| | | |]; try exact I. cbn [bind fst snd].
  destruct t as [|x t]; cbn [map].
  - destruct b; [|exact I]. cbn [map assert_ rres]. split; [exact Hi|exact I].
  - cbn zeta. change (f x :: map f t) with (map f (x :: t)). rewrite !firstn_map, !map_length.
    apply rres_assert. apply (rres_bind _ _ _ _ _ _ (ren_make s s' (x :: t) b H)). intros j j' J.
    split; [|exact J]. cbn [snd]. apply irel_set_saf, irel_set_labels, Hi.
Qed.

(** *** The similarity tracker *)

Lemma flat_map_map {A B C} (g : A -> B) (h : B -> list C) l : flat_map h (map g l) = flat_map (fun x => h (g x)) l.
Proof. induction l as [|x l IH]; [reflexivity|]. cbn. rewrite IH. reflexivity. Qed.

Lemma ren_tracker_reset k k' i i' s s' : trel k k' -> irel i i' -> srel s s' -> trel (tracker_reset k i s) (tracker_reset k' i' s').
Proof.
  intros (K1 & K2 & K3 & K4 & K5) (E1 & E2 & _) H. unfold tracker_reset. rewrite E1, E2, K4. split; [reflexivity|]. split.
  - cbn. rewrite flat_map_map. apply flat_map_ext. intro x. apply positions_map.
  - split; [|split; reflexivity]. apply ren_only, ren_forget, H.
Qed.

Lemma ren_same_permutation top : forall bottom perm, same_permutation (map f top) (map f bottom) perm = same_permutation top bottom perm.
Proof.
  induction bottom as [|b bottom IH]; intros perm; [reflexivity|]. cbn [map same_permutation]. destruct perm as [|p perm]; [reflexivity|].
  rewrite nth_error_map. destruct (nth_error top p); [|reflexivity]. cbn [option_map]. rewrite f_eqb, IH. reflexivity.
Qed.

Lemma ren_similar_lengths k k' s s' : trel k k' -> srel s s' -> forall top, similar_lengths k' s' (map f top) = similar_lengths k s top.
Proof.
  intros (_ & _ & K3 & _) H. induction top as [|a [|b top] IH]; [reflexivity..|]. cbn [map similar_lengths] in *.
  rewrite (ren_similar _ _ _ _ _ _ _ _ K3 H). destruct (sl_similar _ _ _ _ _ _) as [[]| | | |]; try reflexivity. exact IH.
Qed.

Definition krel (p p' : bool * tracker T) : Prop := fst p' = fst p /\ trel (snd p) (snd p').

Lemma ren_tracker_loop k k' i i' s s' : trel k k' -> irel i i' -> srel s s' -> rres krel (tracker_loop k i s) (tracker_loop k' i' s').
Proof.
  intros K Hi H. pose proof K as (K1 & K2 & K3 & K4 & K5). pose proof Hi as (E1 & E2 & _). unfold tracker_loop. rewrite K5.
  destruct (tk_ttl k =? 0)%N; [split; [reflexivity|apply ren_tracker_reset; assumption]|].
  cbn zeta. cbn [tk_top tk_bottom]. rewrite (ren_size _ _ Hi), K1, map_length, K2, E1, E2, ren_same_permutation.
  assert (K' : trel (mktracker (tk_top k) (tk_bottom k) (tk_lengths k) (tk_bound k) (tk_ttl k - 1))
                    (mktracker (map f (tk_top k)) (tk_bottom k) (tk_lengths k') (tk_bound k') (tk_ttl k - 1))).
  { split; [reflexivity|]. split; [reflexivity|]. split; [exact K3|]. split; [exact K4|reflexivity]. }
  destruct (negb _); [split; [reflexivity|exact K']|].
  apply rres_same. intros p _. destruct p; [|split; [reflexivity|exact K']].
  rewrite (ren_similar_lengths _ _ _ _ K' H). apply rres_same. intros r _. split; [reflexivity|exact K'].
Qed.

(** *** induce *)

Section Induce.
Context {S : Type}.
Variable L L' : lens T S.
Variable Q : S -> S -> Prop.
Hypothesis Hpush : forall l s s', Q s s' -> rres Q (li_push L l s) (li_push L' (f l) s').
Hypothesis Hpop : forall s s', Q s s' -> rres Q (li_pop L s) (li_pop L' s').
Hypothesis Hcmp1 : forall s s', Q s s' -> forall l, li_cmp1 L' s' (f l) = li_cmp1 L s l.
Hypothesis Hcmp2 : forall s s', Q s s' -> forall l m, li_cmp2 L' s' (f l) (f m) = li_cmp2 L s l m.
Hypothesis Hsub : forall v m s s', Q s s' -> rres Q (li_subtract L v m s) (li_subtract L' (vren v) (f m) s').
Hypothesis Hrep : forall v m s s', Q s s' ->
  rres (fun p p' => fst p' = f (fst p) /\ Q (snd p) (snd p')) (li_subrep L v m s) (li_subrep L' (vren v) (f m) s').
Hypothesis Hbase : forall s s', Q s s' -> srel (li_base L s) (li_base L' s').

Notation qrel B := (@qrel S Q B).

Lemma zor i i' s s' : irel i i' -> Q s s' -> rres (qrel bool) (zorich L i s) (zorich L' i' s').
Proof. apply ren_zorich; assumption. Qed.

Lemma ren_induce_loop saf0 limit : forall fuel n i i' s s', irel i i' -> Q s s' ->
  rres (qrel (option bool)) (induce_loop L fuel saf0 limit n i s) (induce_loop L' fuel saf0 limit n i' s').
Proof.
  induction fuel as [|fuel IH]; intros n i i' s s' Hi HQ; [exact I|]. cbn [induce_loop].
  destruct (negb _); [split; [reflexivity|split; assumption]|].
  pose proof (Hbase _ _ HQ) as HB.
  apply (rres_bind (@brel bool)).
  - destruct saf0; [|split; [reflexivity|exact Hi]].
    apply (rres_bind _ _ _ _ _ _ (ren_iet_saf _ _ _ _ Hi HB)). intros [v j] [v' j'] [E J]. cbn [fst snd] in *. subst v'.
    destruct (length v =? 0); [split; [reflexivity|exact J]|].
    apply (rres_bind _ _ _ _ _ _ (ren_tracker_loop _ _ _ _ _ _ (proj2 (proj2 (proj2 (proj2 J)))) J HB)).
    intros [r k] [r' k'] [E K]. cbn [fst snd] in *. subst r'. split; [reflexivity|]. apply irel_set_trk; assumption.
  - intros [sm i1] [sm' i1'] [E I1]. cbn [fst snd] in *. subst sm'. destruct sm; [split; [reflexivity|split; assumption]|].
    apply (rres_bind _ _ _ _ _ _ (zor _ _ _ _ I1 HQ)). intros [[b i2] s2] [[b' i2'] s2'] (E2 & I2 & Q2). cbn [fst snd] in *. subst b'.
    destruct b; [split; [reflexivity|split; assumption]|].
    apply (rres_bind _ _ _ _ _ _ (zor _ _ _ _ (ren_iet_swap _ _ I2) Q2)). intros [[b i3] s3] [[b' i3'] s3'] (E3 & I3 & Q3). cbn [fst snd] in *. subst b'.
    pose proof (ren_iet_swap _ _ I3) as I4. destruct b; [split; [reflexivity|split; assumption]|].
    destruct (Z.eqb n INT_MAX); [exact I|]. apply IH; assumption.
Qed.

Lemma ren_merge i i' : irel i i' -> rres irel (merge_first i) (merge_first i').
Proof.
  intro Hi. pose proof Hi as (E1 & E2 & _). unfold merge_first. rewrite E1, E2.
  destruct (i_top i) as [|a X]; [exact I|]. destruct (i_bottom i) as [|b Y]; [exact I|]. cbn [map]. rewrite split_at_map.
  destruct (split_at a Y) as [[p q]|]; [|exact I]. cbn [option_map fst snd]. change (map f p ++ f b :: map f q) with (map f p ++ map f (b :: q)).
  rewrite <- map_app. apply irel_set_labels, Hi.
Qed.

Definition step_rel (st st' : istep T) : Prop :=
  is_result st' = is_result st /\ is_connection st' = option_map (ren_pair f) (is_connection st) /\
  match is_additional st, is_additional st' with Some a, Some b => irel a b | None, None => True | _, _ => False end.

Definition nrel (p p' : istep T * iet T * S) : Prop :=
  step_rel (fst (fst p)) (fst (fst p')) /\ irel (snd (fst p)) (snd (fst p')) /\ Q (snd p) (snd p').

Lemma ren_finish found i i' s s' : irel i i' -> Q s s' -> rres nrel (induce_finish L found i s) (induce_finish L' found i' s').
Proof.
  intros Hi HQ. pose proof (Hbase _ _ HQ) as HB. unfold induce_finish.
  apply (rres_bind _ _ _ _ _ _ (ren_reduce _ _ _ _ Hi HB)). intros [r j] [r' j'] [J R]. cbn [fst snd] in *.
  pose proof J as (E1 & E2 & _).
  destruct r as [g|], r' as [g'|]; try contradiction.
  - rewrite E1, E2, <- !map_rev. destruct (rev (i_bottom j)) as [|b ?]; [exact I|]. destruct (rev (i_top j)) as [|t ?]; [exact I|].
    cbn [map]. split; [|split; assumption]. split; [reflexivity|]. split; [reflexivity|exact R].
  - rewrite E1, E2. destruct (i_top j) as [|a X]; [exact I|]. destruct (i_bottom j) as [|b Y]; [exact I|]. cbn [map].
    rewrite (Hcmp2 _ _ HQ). apply rres_same. intros c _.
    assert (B : forall z z' k k', @brel bool (z, k) (z', k') ->
      nrel (mkistep (if (z : bool) then WITHOUT_PERIODIC_TRAJECTORY_BOSHERNITZAN else LIMIT_REACHED) None None, k, s)
           (mkistep (if (z' : bool) then WITHOUT_PERIODIC_TRAJECTORY_BOSHERNITZAN else LIMIT_REACHED) None None, k', s')).
    { intros z z' k k' [E K]. cbn [fst snd] in *. subst z'. split; [|split; assumption]. split; [reflexivity|]. split; [reflexivity|exact I]. }
    destruct c; [apply (rres_bind _ _ _ _ _ _ (ren_merge _ _ J)); intros k k' K; split; [|split; assumption]; split; [reflexivity|split; [reflexivity|exact I]]| |];
      apply rres_assert; apply (rres_bind _ _ _ _ _ _ (ren_bosh _ _ _ _ J HB)); intros [z k] [z' k'] K; apply B, K.
Qed.

Theorem ren_induce fuel limit i i' s s' : irel i i' -> Q s s' -> rres nrel (induce L fuel limit i s) (induce L' fuel limit i' s').
Proof.
  intros Hi HQ. unfold induce. rewrite (ren_size _ _ Hi). destruct (i_size i =? 1).
  - split; [|split; assumption]. split; [reflexivity|]. split; [reflexivity|exact I].
  - apply (rres_bind (qrel (option bool))).
    + destruct (Z.eqb limit 0); [split; [reflexivity|split; assumption]|].
      apply (rres_bind _ _ _ _ _ _ (ren_iet_saf0 _ _ _ _ Hi (Hbase _ _ HQ))). intros [z j] [z' j'] [E J]. cbn [fst snd] in *. subst z'.
      apply ren_induce_loop; assumption.
    + intros [[b j] s1] [[b' j'] s1'] (E & J & Q1). cbn [fst snd] in *. subst b'. destruct b; [apply ren_finish; assumption|].
      split; [|split; assumption]. split; [reflexivity|]. split; [reflexivity|exact I].
Qed.
End Induce.

(** *** Comparisons *)

Lemma list_eq_map (l m : list label) :
  (if list_eq_dec Nat.eq_dec (map f l) (map f m) then true else false) = (if list_eq_dec Nat.eq_dec l m then true else false).
Proof.
  destruct (list_eq_dec Nat.eq_dec l m) as [->|N]; destruct (list_eq_dec Nat.eq_dec _ _) as [E|N']; try reflexivity; exfalso; auto.
  apply N. clear N. revert m E. induction l as [|x l IH]; intros [|y m] E; try discriminate; [reflexivity|]. injection E as E1 E2. apply inj in E1. subst y. rewrite (IH _ E2). reflexivity.
Qed.

Lemma ren_same_lengths s s' o o' : srel s s' -> srel o o' -> forall ls, same_lengths s' o' (map f ls) = same_lengths s o ls.
Proof.
  intros H H'. induction ls as [|l ls IH]; [reflexivity|]. cbn [map same_lengths]. rewrite (ren_at _ _ _ H), (ren_at _ _ _ H'), IH. reflexivity.
Qed.

Lemma ren_iet_eqb i i' s s' j j' o o' : irel i i' -> srel s s' -> irel j j' -> srel o o' -> iet_eqb i' s' j' o' = iet_eqb i s j o.
Proof.
  intros (E1 & E2 & _) H (E1' & E2' & _) H'. unfold iet_eqb. rewrite E1, E2, E1', E2', !list_eq_map, (ren_same_lengths _ _ _ _ H H'). reflexivity.
Qed.

Lemma ren_iet_equivalent i i' s s' j o : irel i i' -> srel s s' -> iet_equivalent i' s' j o = iet_equivalent i s j o.
Proof.
  intros Hi H. pose proof Hi as (E1 & E2 & _). unfold iet_equivalent. rewrite (ren_size _ _ Hi), E1, E2, map_map.
  rewrite (map_ext _ _ (fun b => find_pos_map b (i_top i))). rewrite (ren_mapM (sl_at s) (sl_at s') f) by (intro x; apply ren_at, H). reflexivity.
Qed.
Lemma ren_iet_equivalent_r i s j j' o o' : irel j j' -> srel o o' -> iet_equivalent i s j' o' = iet_equivalent i s j o.
Proof.
  intros Hi H. pose proof Hi as (E1 & E2 & _). unfold iet_equivalent. rewrite (ren_size _ _ Hi), E1, E2, map_map.
  rewrite (map_ext _ _ (fun b => find_pos_map b (i_top j))). rewrite (ren_mapM (sl_at o) (sl_at o') f) by (intro x; apply ren_at, H). reflexivity.
Qed.

End Ren.
