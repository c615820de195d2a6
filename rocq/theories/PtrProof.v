(** The linked representation behaves like the lists of labels. *)
From Coq Require Import Permutation.
From Verif Require Import Base QcTac LenT FM Subspace Lengths IET Api Ptr ReduceProof.
Open Scope nat_scope.

(** * Related results *)

Definition rres {A B} (R : A -> B -> Prop) (x : res A) (y : res B) : Prop :=
  match x, y with
  | Ok a, Ok b => R a b
  | Throw, Throw | AssertFail, AssertFail | UB, UB | OutOfFuel, OutOfFuel => True
  | _, _ => False
  end.

Lemma rres_bind {A B A' B'} (R : A -> B -> Prop) (R' : A' -> B' -> Prop) x y f g :
  rres R x y -> (forall a b, R a b -> rres R' (f a) (g b)) -> rres R' (bind x f) (bind y g).
Proof. intros H F. destruct x, y; try contradiction; cbn [bind]; try exact I. apply F, H. Qed.

Lemma rres_refl {A} (x : res A) : rres eq x x.
Proof. destruct x; cbn; auto. Qed.

Lemma rres_assert {A B} (R : A -> B -> Prop) b x y : rres R x y -> rres R (assert_ b x) (assert_ b y).
Proof. destruct b; cbn; auto. Qed.

Lemma rres_mono {A B} (R R' : A -> B -> Prop) x y : rres R x y -> (forall a b, R a b -> R' a b) -> rres R' x y.
Proof. destruct x, y; cbn; auto. Qed.

(** * Heaps *)

Definition node_at (h : heap) (p : nat) (n : node) : Prop := nth_error h p = Some (Some n).

Lemma deref_ok h p n : node_at h p n -> deref h p = Ok n.
Proof. unfold node_at, deref. intros ->. reflexivity. Qed.

Lemma put_other h h' p n q m : put h p n = Ok h' -> q <> p -> node_at h q m -> node_at h' q m.
Proof.
  unfold put, node_at. destruct (set_nth p n h) as [k|] eqn:E; [|discriminate]. intro Q. injection Q as <-. intros N H.
  rewrite <- H. eapply set_nth_other; [exact E|congruence].
Qed.

Lemma put_some h p m n : node_at h p m -> exists h', put h p n = Ok h' /\ nth_error h' p = Some n /\ forall q k, q <> p -> node_at h q k -> node_at h' q k.
Proof.
  intro H. unfold put. assert (L : p < length h) by (apply nth_error_Some; unfold node_at in H; congruence).
  destruct (set_nth_some p n h L) as [h' E]. rewrite E. exists h'. split; [reflexivity|]. split; [eapply set_nth_same, E|].
  intros q k N Q. unfold node_at in *. rewrite <- Q. eapply set_nth_other; [exact E|congruence].
Qed.

Lemma set_label_ok h p n l : node_at h p n -> exists h', set_label h p l = Ok h' /\ node_at h' p (mknode l (n_twin n)) /\ forall q k, q <> p -> node_at h q k -> node_at h' q k.
Proof. intro H. unfold set_label. rewrite (deref_ok _ _ _ H). cbn [bind]. exact (put_some h p n _ H). Qed.

Lemma set_twin_ok h p n w : node_at h p n -> exists h', set_twin h p w = Ok h' /\ node_at h' p (mknode (n_label n) (Some w)) /\ forall q k, q <> p -> node_at h q k -> node_at h' q k.
Proof. intro H. unfold set_twin. rewrite (deref_ok _ _ _ H). cbn [bind]. exact (put_some h p n _ H). Qed.

Lemma free_ok h p n : node_at h p n -> exists h', free h p = Ok h' /\ forall q k, q <> p -> node_at h q k -> node_at h' q k.
Proof. intro H. unfold free. rewrite (deref_ok _ _ _ H). cbn [bind]. destruct (put_some h p n None H) as (h' & E & _ & F). eauto. Qed.

Lemma xor1_xor1 l : xor1 (xor1 l) = l.
Proof. unfold xor1. rewrite Nat.lxor_assoc, Nat.lxor_nilpotent, Nat.lxor_0_r. reflexivity. Qed.

Lemma xor1_neq l : xor1 l <> l.
Proof. unfold xor1. intro E. assert (Q : Nat.lxor l (Nat.lxor l 1) = Nat.lxor l l) by congruence. rewrite <- Nat.lxor_assoc, Nat.lxor_nilpotent, Nat.lxor_0_l in Q. discriminate. Qed.

(** * Linked lists *)

(** Labels and twins as functions. *)
Definition lab (h : heap) (p : nat) : label := match nth_error h p with Some (Some n) => n_label n | _ => 0 end.
Definition tw (h : heap) (p : nat) : nat := match nth_error h p with Some (Some (mknode _ (Some q))) => q | _ => 0 end.

(** Every node has a twin on the other side with the same label whose twin it is. *)
Record linked (top bottom : list nat) (h : heap) : Prop := {
  lk_nodup : NoDup (top ++ bottom);
  lk_top : forall t, In t top -> node_at h t (mknode (lab h t) (Some (tw h t))) /\ In (tw h t) bottom /\ lab h (tw h t) = lab h t /\ tw h (tw h t) = t;
  lk_bottom : forall b, In b bottom -> node_at h b (mknode (lab h b) (Some (tw h b))) /\ In (tw h b) top /\ lab h (tw h b) = lab h b /\ tw h (tw h b) = b;
}.

Lemma node_lab h p n : node_at h p n -> lab h p = n_label n.
Proof. unfold node_at, lab. intros ->. reflexivity. Qed.
Lemma node_tw h p l q : node_at h p (mknode l (Some q)) -> tw h p = q.
Proof. unfold node_at, tw. intros ->. reflexivity. Qed.

Lemma linked_swap t b h : linked t b h -> linked b t h.
Proof.
  intros [N T B]. split; [|exact B|exact T]. apply (Permutation_NoDup (Permutation_app_comm _ _) N).
Qed.

Lemma linked_all t b h p : linked t b h -> In p (t ++ b) ->
  node_at h p (mknode (lab h p) (Some (tw h p))) /\ In (tw h p) (t ++ b) /\ lab h (tw h p) = lab h p /\ tw h (tw h p) = p /\ tw h p <> p.
Proof.
  intros [N T B] H. assert (D : forall x, In x t -> In x b -> False).
  { intros x H1 H2. clear - N H1 H2. induction t as [|y t IH]; [destruct H1|]. cbn in N. apply NoDup_cons_iff in N as [Ny N]. destruct H1 as [->|H1]; [apply Ny, in_or_app; auto|apply IH; assumption]. }
  apply in_app_or in H as [H|H]; [destruct (T p H) as (Q1 & Q2 & Q3 & Q4)|destruct (B p H) as (Q1 & Q2 & Q3 & Q4)]; (split; [exact Q1|]); (split; [apply in_or_app; auto|]);
    (split; [exact Q3|]); (split; [exact Q4|]); intro E; rewrite E in Q2; eauto.
Qed.

Lemma label_at_ok t b h p : linked t b h -> In p (t ++ b) -> label_at h p = Ok (lab h p).
Proof. intros L H. destruct (linked_all _ _ _ _ L H) as (Q & _). unfold label_at. rewrite (deref_ok _ _ _ Q). reflexivity. Qed.

Lemma twin_ok t b h p : linked t b h -> In p (t ++ b) -> twin h p = Ok (tw h p).
Proof. intros L H. destruct (linked_all _ _ _ _ L H) as (Q & _). unfold twin. rewrite (deref_ok _ _ _ Q). reflexivity. Qed.

Lemma labels_ok t b h ps : linked t b h -> incl ps (t ++ b) -> mapM (label_at h) ps = Ok (map (lab h) ps).
Proof. intros L H. apply mapM_ok. intros p Hp. apply (label_at_ok _ _ _ _ L), H, Hp. Qed.

(** With distinct labels on top, a label determines the node on each side. *)
Lemma lab_inj_top t b h p q : linked t b h -> NoDup (map (lab h) t) -> In p t -> In q t -> lab h p = lab h q -> p = q.
Proof.
  intros _ N Hp Hq E. induction t as [|x t IH]; [destruct Hp|]. cbn in N. apply NoDup_cons_iff in N as [Nx N].
  destruct Hp as [->|Hp], Hq as [->|Hq]; [reflexivity| | |apply IH; assumption].
  - exfalso. apply Nx. rewrite E. apply in_map, Hq.
  - exfalso. apply Nx. rewrite <- E. apply in_map, Hp.
Qed.

Lemma lab_inj_bottom t b h p q : linked t b h -> NoDup (map (lab h) t) -> In p b -> In q b -> lab h p = lab h q -> p = q.
Proof.
  intros L N Hp Hq E. destruct (lk_bottom _ _ _ L p Hp) as (_ & P2 & P3 & P4), (lk_bottom _ _ _ L q Hq) as (_ & Q2 & Q3 & Q4).
  assert (T : tw h p = tw h q) by (apply (lab_inj_top t b h); auto; congruence). congruence.
Qed.

(** Equal labels: the same node or twins. *)
Lemma lab_same t b h p q : linked t b h -> NoDup (map (lab h) t) -> In p (t ++ b) -> In q (t ++ b) -> lab h p = lab h q -> q = p \/ q = tw h p.
Proof.
  intros L N Hp Hq E. apply in_app_or in Hp, Hq. destruct Hp as [Hp|Hp], Hq as [Hq|Hq].
  - left. symmetry. eapply lab_inj_top; eassumption.
  - right. destruct (lk_top _ _ _ L p Hp) as (_ & P2 & P3 & _). apply (lab_inj_bottom t b h); auto. congruence.
  - right. destruct (lk_bottom _ _ _ L p Hp) as (_ & P2 & P3 & _). apply (lab_inj_top t b h); auto. congruence.
  - left. symmetry. eapply lab_inj_bottom; eassumption.
Qed.

Lemma nodup_map_bottom t b h : linked t b h -> NoDup (map (lab h) t) -> NoDup (map (lab h) b).
Proof.
  intros L N. assert (Nb : NoDup b). { pose proof (lk_nodup _ _ _ L) as Q. clear - Q. induction t as [|x t IH]; [exact Q|]. apply IH. cbn in Q. apply NoDup_cons_iff in Q. apply Q. }
  assert (I : forall p q, In p b -> In q b -> lab h p = lab h q -> p = q) by (intros; eapply lab_inj_bottom; eassumption).
  clear - Nb I. induction b as [|x b IH]; [constructor|]. apply NoDup_cons_iff in Nb as [Nx Nb]. cbn. constructor; [|apply IH; [exact Nb|intros; apply I; [right|right|]; assumption]].
  intro C. apply in_map_iff in C as (y & E & Hy). apply Nx. rewrite (I x y); [exact Hy|left; reflexivity|right; exact Hy|symmetry; exact E].
Qed.

Lemma linked_perm t b h : linked t b h -> NoDup (map (lab h) t) -> Permutation (map (lab h) t) (map (lab h) b).
Proof.
  intros L N. apply NoDup_Permutation; [exact N|apply (nodup_map_bottom _ _ _ L N)|]. intro x. split; intro H; apply in_map_iff in H as (p & <- & Hp).
  - destruct (lk_top _ _ _ L p Hp) as (_ & P2 & P3 & _). rewrite <- P3. apply in_map, P2.
  - destruct (lk_bottom _ _ _ L p Hp) as (_ & P2 & P3 & _). rewrite <- P3. apply in_map, P2.
Qed.

(** The lists may be permuted. *)
Lemma linked_reorder t b b' h : linked t b h -> Permutation b b' -> linked t b' h.
Proof.
  intros [N T B] P. split.
  - apply (Permutation_NoDup (Permutation_app_head t P) N).
  - intros x Hx. destruct (T x Hx) as (Q1 & Q2 & Q3). split; [exact Q1|]. split; [apply (Permutation_in _ P Q2)|exact Q3].
  - intros x Hx. apply B, (Permutation_in _ (Permutation_sym P) Hx).
Qed.

(** Sublists that are closed under twins, in a heap that agrees on them. *)
Lemma linked_sub t b h t' b' h' : linked t b h -> NoDup (t' ++ b') -> incl t' t -> incl b' b ->
  (forall p, In p (t' ++ b') -> node_at h p (mknode (lab h p) (Some (tw h p))) -> node_at h' p (mknode (lab h p) (Some (tw h p)))) ->
  (forall p, In p t' -> In (tw h p) b') -> (forall p, In p b' -> In (tw h p) t') ->
  linked t' b' h' /\ forall p, In p (t' ++ b') -> lab h' p = lab h p /\ tw h' p = tw h p.
Proof.
  intros [N T B] N' It Ib K Ct Cb.
  assert (Q : forall p, In p (t' ++ b') -> node_at h' p (mknode (lab h p) (Some (tw h p))) /\ lab h' p = lab h p /\ tw h' p = tw h p).
  { intros p Hp. assert (X : node_at h' p (mknode (lab h p) (Some (tw h p)))). { apply K; [exact Hp|]. apply in_app_or in Hp as [Hp|Hp]; [apply T, It, Hp|apply B, Ib, Hp]. }
    split; [exact X|]. split; [apply (node_lab _ _ _ X)|apply (node_tw _ _ _ _ X)]. }
  split; [split; [exact N'| |]|intros p Hp; apply Q, Hp].
  - intros x Hx. destruct (Q x (in_or_app _ _ _ (or_introl Hx))) as (X & E1 & E2). rewrite E1, E2. split; [exact X|]. split; [apply Ct, Hx|].
    destruct (Q (tw h x) (in_or_app _ _ _ (or_intror (Ct x Hx)))) as (_ & F1 & F2). rewrite F1, F2. apply (T x), It, Hx.
  - intros x Hx. destruct (Q x (in_or_app _ _ _ (or_intror Hx))) as (X & E1 & E2). rewrite E1, E2. split; [exact X|]. split; [apply Cb, Hx|].
    destruct (Q (tw h x) (in_or_app _ _ _ (or_introl (Cb x Hx)))) as (_ & F1 & F2). rewrite F1, F2. apply (B x), Ib, Hx.
Qed.

Section Ref.
Context {T : Type} {O : LenOps T}.

(** [p] represents [i]. *)
Record rep (p : piet T) (i : iet T) : Prop := {
  rp_link : linked (p_top p) (p_bottom p) (p_heap p);
  rp_top : i_top i = map (lab (p_heap p)) (p_top p);
  rp_bottom : i_bottom i = map (lab (p_heap p)) (p_bottom p);
  rp_nodup : NoDup (i_top i);
  rp_swap : i_swap i = p_swap p;
  rp_saf : i_saf i = p_saf p;
  rp_trk : i_trk i = p_trk p;
}.

Lemma rep_view p i : rep p i -> p_view p = Ok i.
Proof.
  intros [L Et Eb _ E1 E2 E3]. unfold p_view. rewrite (labels_ok _ _ _ _ L), (labels_ok _ _ _ _ L); [|apply incl_appr, incl_refl|apply incl_appl, incl_refl].
  cbn [bind]. rewrite <- Et, <- Eb, <- E1, <- E2, <- E3. destruct i; reflexivity.
Qed.

Lemma rep_with p i j : rep p i -> i_top j = i_top i -> i_bottom j = i_bottom i -> i_swap j = i_swap i -> rep (p_with p j) j.
Proof. intros [L Et Eb N E1 E2 E3] F1 F2 F3. split; cbn; try assumption; try reflexivity; congruence. Qed.

Lemma rep_swap p i : rep p i -> rep (p_swap_rows p) (iet_swap i).
Proof.
  intros [L Et Eb N E1 E2 E3]. split; cbn; try assumption; [apply linked_swap, L| |congruence]. rewrite Eb. apply (nodup_map_bottom _ _ _ L). rewrite <- Et. exact N.
Qed.

(** * zorichInduction *)

Lemma split_at_map (f : nat -> nat) w l : (forall x, In x l -> f x = f w -> x = w) ->
  split_at (f w) (map f l) = match split_at w l with Some (u, v) => Some (map f u, map f v) | None => None end.
Proof.
  induction l as [|x l IH]; intro H; [reflexivity|]. cbn [map split_at]. destruct (Nat.eqb_spec x w) as [->|N]; [rewrite Nat.eqb_refl; reflexivity|].
  destruct (Nat.eqb_spec (f x) (f w)) as [E|_]; [exfalso; apply N, H; [left; reflexivity|exact E]|].
  rewrite IH by (intros y Hy; apply H; right; exact Hy). destruct (split_at w l) as [[u v]|]; reflexivity.
Qed.

Lemma back_rep t b h stop : linked t b h -> forall rp, incl rp (t ++ b) ->
  match p_back h stop rp with
  | Ok r => back_to stop (map (lab h) rp) = Some (map (lab h) r) /\ exists u, rp = u ++ r
  | UB => back_to stop (map (lab h) rp) = None
  | _ => False
  end.
Proof.
  intros L. induction rp as [|q rp IH]; intro H; [reflexivity|]. cbn [p_back map back_to].
  rewrite (label_at_ok _ _ _ _ L) by (apply H; left; reflexivity). cbn [bind]. destruct (Nat.eqb (lab h q) stop).
  - split; [reflexivity|exists []; reflexivity].
  - specialize (IH ltac:(intros x Hx; apply H; right; exact Hx)). destruct (p_back h stop rp) as [r| | | |]; try exact IH. destruct IH as (E & u & ->). split; [exact E|]. exists (q :: u). reflexivity.
Qed.

Lemma zloop_rep {S C C'} (L : lens T S) (R : C -> C' -> Prop) v t bot h a (K : list nat * S -> res C) (K' : list label * S -> res C') :
  linked t bot h -> NoDup (map (lab h) t) -> In a t ->
  (forall r u s, bot = rev r ++ u -> rres R (K (r, s)) (K' (map (lab h) r, s))) ->
  (forall r s, K (tw h a :: r, s) = UB \/ ~ exists u, bot = rev r ++ tw h a :: u) ->
  forall rest rpre s, bot = rev rpre ++ rest ->
  rres R (bind (p_zloop L v h a rpre rest s) K) (bind (zloop L v (lab h a) (map (lab h) rpre) (map (lab h) rest) s) K').
Proof.
  intros Lk N Ha HK HU. assert (Ia : In a (t ++ bot)) by (apply in_or_app; auto).
  destruct (lk_top _ _ _ Lk a Ha) as (_ & A2 & A3 & A4).
  induction rest as [|q rest IH]; intros rpre s E; [exact I|]. cbn [p_zloop zloop map].
  assert (Iq : In q bot) by (rewrite E; apply in_elt).
  rewrite (label_at_ok _ _ _ q Lk), (label_at_ok _ _ _ a Lk) by (try exact Ia; apply in_or_app; auto). cbn [bind].
  destruct (Nat.eqb_spec (lab h q) (lab h a)) as [Q|Q].
  - assert (q = tw h a) as -> by (apply (lab_inj_bottom t bot h); auto; congruence).
    destruct (li_subrep L v (lab h a) s) as [[stop s1]| | | |]; try exact I. cbn [bind].
    assert (In1 : incl rpre (t ++ bot)) by (intros x Hx; apply in_or_app; right; rewrite E; apply in_or_app; left; apply in_rev in Hx; exact Hx).
    cbn [p_back]. rewrite (label_at_ok _ _ _ _ Lk) by (apply in_or_app; auto). cbn [bind]. rewrite A3. destruct (Nat.eqb (lab h a) stop).
    + cbn [bind]. destruct (HU rpre s1) as [->|F]; [exact I|]. exfalso. apply F. exists rest. exact E.
    + pose proof (back_rep _ _ _ stop Lk rpre In1) as Bk. destruct (p_back h stop rpre) as [r| | | |]; try contradiction.
      * destruct Bk as (-> & u & Eu). cbn [bind]. apply (HK r (rev u ++ tw h a :: rest) s1). rewrite E, Eu, rev_app_distr, <- app_assoc. reflexivity.
      * rewrite Bk. exact I.
  - destruct (li_push L (lab h q) s) as [s1| | | |]; try exact I. cbn [bind]. destruct (li_cmp1 L s1 (lab h a)) as [c| | | |]; try exact I. cbn [bind]. destruct c.
    + destruct (li_pop L s1) as [s2| | | |]; try exact I. cbn [bind]. destruct (li_subtract L v (lab h a) s2) as [s3| | | |]; try exact I. cbn [bind]. exact (HK rpre _ s3 E).
    + apply (IH (q :: rpre) s1). cbn [rev]. rewrite <- app_assoc. exact E.
    + destruct (li_pop L s1) as [s2| | | |]; try exact I. cbn [bind]. destruct (li_subtract L v (lab h a) s2) as [s3| | | |]; try exact I. cbn [bind]. exact (HK rpre _ s3 E).
Qed.

Definition rep_zorich {S} (x : bool * piet T * S) (y : bool * iet T * S) : Prop :=
  fst (fst x) = fst (fst y) /\ rep (snd (fst x)) (snd (fst y)) /\ snd x = snd y.

Lemma zorich_rep {S} (L : lens T S) p i s : rep p i -> rres rep_zorich (p_zorich L p s) (zorich L i s).
Proof.
  intros Rp. pose proof (rep_view _ _ Rp) as V. pose proof Rp as [Lk Et Eb N E1 E2 E3]. unfold p_zorich.
  destruct (p_top p) as [|a X] eqn:Pt; [unfold zorich; rewrite Et; exact I|]. destruct (p_bottom p) as [|b Y] eqn:Pb; [unfold zorich; rewrite Et, Eb; exact I|].
  rewrite <- Pb in *. rewrite <- Pt in *. set (h := p_heap p) in *.
  assert (Z : zorich L i s = if Nat.eqb (lab h a) (lab h b) then Ok (true, i, s) else
     '(r, s) <- zloop L (i_view i) (lab h a) [] (i_bottom i) s ;;
      bottom <- splice (lab h a) (i_bottom i) (length r) ;;
      match bottom with
      | [] => UB
      | b' :: _ =>
        c <- li_cmp2 L s (lab h a) b' ;;
        Ok (match c with Eq => true | _ => false end, set_bottom i bottom, s)
      end).
  { assert (Ht : i_top i = lab h a :: map (lab h) X) by (rewrite Et, Pt; reflexivity). assert (Hb : i_bottom i = lab h b :: map (lab h) Y) by (rewrite Eb, Pb; reflexivity).
    unfold zorich. rewrite Ht, Hb. reflexivity. }
  rewrite Z. clear Z.
  assert (Ha : In a (p_top p)) by (rewrite Pt; left; reflexivity). assert (Hb : In b (p_bottom p)) by (rewrite Pb; left; reflexivity).
  rewrite (label_at_ok _ _ _ a Lk), (label_at_ok _ _ _ b Lk) by (apply in_or_app; auto). cbn [bind].
  destruct (Nat.eqb (lab h a) (lab h b)).
  { split; [reflexivity|]. split; [exact Rp|reflexivity]. }
  rewrite V. cbn [bind]. rewrite Et in N.
  assert (Ht : i_top i = lab h a :: map (lab h) X) by (rewrite Et, Pt; reflexivity). 
  rewrite (twin_ok _ _ _ a Lk) by (apply in_or_app; auto). cbn [bind].
  destruct (lk_top _ _ _ Lk a Ha) as (_ & A2 & A3 & A4). rewrite Eb.
  apply (zloop_rep L rep_zorich (i_view i) (p_top p) (p_bottom p) h a _ _ Lk N Ha) with (rpre := []).
  - intros r u s1 E. unfold p_splice, splice. rewrite map_length, skipn_map, firstn_map, <- A3.
    assert (Sp : forall x, In x (skipn (length r) (p_bottom p)) -> lab h x = lab h (tw h a) -> x = tw h a).
    { intros x Hx Q. apply (lab_inj_bottom (p_top p) (p_bottom p) h); auto. rewrite <- (firstn_skipn (length r)). apply in_or_app. right. exact Hx. }
    rewrite (split_at_map (lab h) (tw h a) _ Sp). destruct (split_at (tw h a) (skipn (length r) (p_bottom p))) as [[q1 q2]|] eqn:Es; [|exact I]. cbn [bind].
    rewrite <- map_cons, <- !map_app. destruct (split_at_some _ _ _ _ Es) as [Es1 _].
    assert (P : Permutation (p_bottom p) (q1 ++ firstn (length r) (p_bottom p) ++ tw h a :: q2)).
    { rewrite <- (firstn_skipn (length r) (p_bottom p)) at 1. rewrite Es1. rewrite !app_assoc. apply Permutation_app_tail, Permutation_app_comm. }
    destruct (q1 ++ firstn (length r) (p_bottom p) ++ tw h a :: q2) as [|b' bt] eqn:Eq; [exact I|]. cbn [map].
    rewrite (label_at_ok _ _ _ b' Lk) by (apply in_or_app; right; apply (Permutation_in _ (Permutation_sym P)); left; reflexivity). cbn [bind]. rewrite A3.
    destruct (li_cmp2 L s1 (lab h a) (lab h b')) as [c| | | |]; try exact I. cbn [bind].
    split; [reflexivity|]. split; [|reflexivity]. cbn [fst snd]. split; cbn; try assumption; try reflexivity.
    + exact (linked_reorder _ _ _ _ Lk P).
    + rewrite Et. exact N.
  - intros r s1. destruct (split_at (tw h a) (skipn (length (tw h a :: r)) (p_bottom p))) as [[q1 q2]|] eqn:Es.
    + right. intros (u & E). destruct (split_at_some _ _ _ _ Es) as [Es1 _]. assert (Nb : NoDup (p_bottom p)).
      { pose proof (lk_nodup _ _ _ Lk) as Q. clear - Q. induction (p_top p) as [|x t IH]; [exact Q|]. apply IH. cbn in Q. apply NoDup_cons_iff in Q. apply Q. }
      rewrite E in Es1. cbn [length] in Es1. replace (Datatypes.S (length r)) with (length (rev r ++ [tw h a])) in Es1 by (rewrite app_length, rev_length; cbn; lia).
      change (tw h a :: u) with ([tw h a] ++ u) in Es1. rewrite app_assoc, skipn_app, skipn_all, Nat.sub_diag in Es1. cbn [app skipn] in Es1.
      rewrite E in Nb. apply NoDup_remove_2 in Nb. apply Nb, in_or_app. right. rewrite Es1. apply in_elt.
    + left. unfold p_splice. rewrite Es. reflexivity.
  - reflexivity.
Qed.

(** * Constructor *)

Lemma link_rep t b (f : nat -> label) : NoDup (t ++ b) -> (forall x y, In x t -> In y t -> f x = f y -> x = y) -> (forall x y, In x b -> In y b -> f x = f y -> x = y) ->
  forall todo h done, incl todo (list_prod t b) -> incl done (list_prod t b) ->
  (forall p, In p (t ++ b) -> exists w, node_at h p (mknode (f p) w)) ->
  (forall x y, In (x, y) done -> f x = f y -> node_at h x (mknode (f x) (Some y)) /\ node_at h y (mknode (f y) (Some x))) ->
  exists h', foldM link todo h = Ok h' /\ (forall p, In p (t ++ b) -> exists w, node_at h' p (mknode (f p) w)) /\
    forall x y, In (x, y) (done ++ todo) -> f x = f y -> node_at h' x (mknode (f x) (Some y)) /\ node_at h' y (mknode (f y) (Some x)).
Proof.
  intros N It Ib. assert (D : forall x, In x t -> In x b -> False).
  { intros x H1 H2. clear - N H1 H2. induction t as [|y t IH]; [destruct H1|]. cbn in N. apply NoDup_cons_iff in N as [Ny N]. destruct H1 as [->|H1]; [apply Ny, in_or_app; auto|apply IH; assumption]. }
  induction todo as [|[x y] todo IH]; intros h done Hi Hd Hn Hl.
  - exists h. split; [reflexivity|]. split; [exact Hn|]. rewrite app_nil_r. exact Hl.
  - cbn [foldM link]. assert (Hxy : In x t /\ In y b) by (apply in_prod_iff, Hi; left; reflexivity). destruct Hxy as [Hx Hy].
    destruct (Hn x (in_or_app _ _ _ (or_introl Hx))) as (wx & Nx). destruct (Hn y (in_or_app _ _ _ (or_intror Hy))) as (wy & Ny).
    unfold label_at at 1 2. rewrite (deref_ok _ _ _ Nx), (deref_ok _ _ _ Ny). cbn [bind n_label].
    assert (Hi' : incl todo (list_prod t b)) by (intros z Hz; apply Hi; right; exact Hz).
    assert (Hd' : incl (done ++ [(x, y)]) (list_prod t b)). { intros z Hz. apply in_app_or in Hz as [Hz|[<-|[]]]; [apply Hd, Hz|apply Hi; left; reflexivity]. }
    assert (Xy : x <> y) by (intros ->; eauto).
    destruct (Nat.eqb_spec (f x) (f y)) as [E|E].
    + destruct (set_twin_ok h x _ y Nx) as (h1 & E1 & N1 & F1). rewrite E1. cbn [bind n_label] in *.
      destruct (set_twin_ok h1 y _ x (F1 y _ ltac:(congruence) Ny)) as (h2 & E2 & N2 & F2). rewrite E2. cbn [bind n_label] in *.
      destruct (IH h2 (done ++ [(x, y)]) Hi' Hd') as (h' & E' & G1 & G2).
      * intros p Hp. destruct (Nat.eq_dec p y) as [->|Py]; [eauto|]. destruct (Nat.eq_dec p x) as [->|Px]; [exists (Some y); apply F2; assumption|].
        destruct (Hn p Hp) as (w & Q). exists w. apply F2, F1; assumption.
      * intros x' y' Hz Q. apply in_app_or in Hz as [Hz|[Hz|[]]].
        { assert (Hxy' : In x' t /\ In y' b) by (apply in_prod_iff, Hd, Hz). destruct Hxy' as [Hx' Hy'].
          destruct (Nat.eq_dec x' x) as [->|X'].
          - assert (y' = y) as -> by (apply Ib; auto; congruence). split; [apply F2; assumption|exact N2].
          - assert (Y' : y' <> y) by (intros ->; apply X', It; auto; congruence). destruct (Hl x' y' Hz Q) as (Q1 & Q2).
            assert (x' <> y) by (intros ->; eauto). assert (y' <> x) by (intros ->; eauto). split; apply F2, F1; auto. }
        { injection Hz as <- <-. split; [apply F2; assumption|exact N2]. }
      * exists h'. split; [exact E'|]. split; [exact G1|]. rewrite <- app_assoc in G2. exact G2.
    + destruct (IH h (done ++ [(x, y)]) Hi' Hd' Hn) as (h' & E' & G1 & G2).
      * intros x' y' Hz Q. apply in_app_or in Hz as [Hz|[Hz|[]]]; [apply Hl; assumption|]. injection Hz as <- <-. contradiction.
      * exists h'. split; [exact E'|]. split; [exact G1|]. rewrite <- app_assoc in G2. exact G2.
Qed.

Lemma make_rep (base : slen T) top bottom : NoDup top -> Permutation top bottom -> rres rep (p_make base top bottom) (iet_make base top bottom).
Proof.
  intros N P. unfold p_make, iet_make. apply rres_assert, rres_assert, rres_assert.
  set (tp := seq 0 (length top)). set (bp := seq (length top) (length bottom)). set (h0 := map (fun l => Some (mknode l None)) (top ++ bottom)).
  set (f := fun p => nth p (top ++ bottom) 0).
  assert (All : tp ++ bp = seq 0 (length (top ++ bottom))) by (unfold tp, bp; rewrite app_length, seq_app; reflexivity).
  assert (Nd : NoDup (tp ++ bp)) by (rewrite All; apply seq_NoDup).
  assert (Ft : map f tp = top). { unfold f, tp. clear. rewrite <- (firstn_all (top ++ bottom)). 
    assert (Q : forall l, map (fun p => nth p (l ++ bottom) 0) (seq 0 (length l)) = l).
    { clear. intro l. assert (G : forall a, map (fun p => nth p (a ++ l ++ bottom) 0) (seq (length a) (length l)) = l).
      { induction l as [|x l IH]; intro a; [reflexivity|]. cbn [length seq map]. f_equal; [rewrite app_nth2, Nat.sub_diag by lia; reflexivity|].
        specialize (IH (a ++ [x])). rewrite app_length, Nat.add_1_r in IH. rewrite <- IH at 2. apply map_ext. intro p. rewrite <- app_assoc. reflexivity. }
      apply (G []). }
    rewrite firstn_all. apply Q. }
  assert (Fb : map f bp = bottom). { unfold f, bp. clear. 
    assert (G : forall l a, map (fun p => nth p (a ++ l) 0) (seq (length a) (length l)) = l).
    { induction l as [|x l IH]; intro a; [reflexivity|]. cbn [length seq map]. f_equal; [rewrite app_nth2, Nat.sub_diag by lia; reflexivity|].
      specialize (IH (a ++ [x])). rewrite app_length, Nat.add_1_r in IH. rewrite <- IH at 2. apply map_ext. intro p. rewrite <- app_assoc. reflexivity. }
    apply G. }
  assert (NB : NoDup bottom) by (eapply Permutation_NoDup; eassumption).
  assert (Inj : forall l, NoDup (map f l) -> forall x y, In x l -> In y l -> f x = f y -> x = y).
  { clear. intros l N x y Hx Hy E. induction l as [|z l IH]; [destruct Hx|]. cbn in N. apply NoDup_cons_iff in N as [Nz N].
    destruct Hx as [->|Hx], Hy as [->|Hy]; [reflexivity| | |apply IH; assumption].
    - exfalso. apply Nz. rewrite E. apply in_map, Hy.
    - exfalso. apply Nz. rewrite <- E. apply in_map, Hx. }
  assert (It : forall x y, In x tp -> In y tp -> f x = f y -> x = y) by (apply Inj; rewrite Ft; exact N).
  assert (Ib : forall x y, In x bp -> In y bp -> f x = f y -> x = y) by (apply Inj; rewrite Fb; exact NB).
  destruct (link_rep tp bp f Nd It Ib (list_prod tp bp) h0 []) as (h & Eh & Hn & Hl).
  - apply incl_refl.
  - intros x [].
  - intros p Hp. exists None. unfold node_at, h0, f. rewrite All in Hp. apply in_seq in Hp. rewrite nth_error_map, (nth_error_nth' _ 0) by lia. reflexivity.
  - intros x y [].
  - rewrite Eh. cbn [bind]. destruct (mapM (fun l => x <- sl_at base l;; Ok (l_bool x)) top) as [bs| | | |]; try exact I. cbn [bind]. apply rres_assert, rres_assert.
    cbn [app] in Hl.
    assert (Lf : forall p, In p (tp ++ bp) -> lab h p = f p) by (intros p Hp; destruct (Hn p Hp) as (w & Q); apply (node_lab _ _ _ Q)).
    assert (Pr : forall x y, In x tp -> In y bp -> f x = f y -> node_at h x (mknode (f x) (Some y)) /\ node_at h y (mknode (f y) (Some x))) by (intros x y Hx Hy; apply Hl, in_prod; assumption).
    assert (Lt : map (lab h) tp = top) by (rewrite <- Ft; apply map_ext_in; intros p Hp; apply Lf, in_or_app; auto).
    assert (Lb : map (lab h) bp = bottom) by (rewrite <- Fb; apply map_ext_in; intros p Hp; apply Lf, in_or_app; auto).
    split; cbn [p_top p_bottom p_heap p_swap p_saf p_trk i_top i_bottom i_swap i_saf i_trk]; try reflexivity; [|symmetry; exact Lt|symmetry; exact Lb|exact N].
    split; [exact Nd| |].
    + intros x Hx. assert (Q : In (f x) bottom) by (apply (Permutation_in _ P); rewrite <- Ft; apply in_map, Hx). rewrite <- Fb in Q. apply in_map_iff in Q as (y & Ey & Hy).
      destruct (Pr x y Hx Hy (eq_sym Ey)) as (Q1 & Q2). rewrite (node_lab _ _ _ Q1), (node_tw _ _ _ _ Q1). cbn [n_label]. split; [exact Q1|]. split; [exact Hy|].
      rewrite (node_lab _ _ _ Q2), (node_tw _ _ _ _ Q2). split; [exact Ey|reflexivity].
    + intros y Hy. assert (Q : In (f y) top) by (apply (Permutation_in _ (Permutation_sym P)); rewrite <- Fb; apply in_map, Hy). rewrite <- Ft in Q. apply in_map_iff in Q as (x & Ex & Hx).
      destruct (Pr x y Hx Hy Ex) as (Q1 & Q2). rewrite (node_lab _ _ _ Q2), (node_tw _ _ _ _ Q2). cbn [n_label]. split; [exact Q2|]. split; [exact Hx|].
      rewrite (node_lab _ _ _ Q1), (node_tw _ _ _ _ Q1). split; [exact Ex|reflexivity].
Qed.

(** * reduce *)

Section Marks.
Variables (t0 b0 : list nat) (h0 : heap).
Hypothesis Lk : linked t0 b0 h0.
Hypothesis Nl : NoDup (map (lab h0) t0).

(** The heap when the nodes [V] have been visited. *)
Definition visited (h : heap) (V : list nat) : Prop := forall p, In p (t0 ++ b0) ->
  node_at h p (mknode (if memb p V && negb (memb (tw h0 p) V) then xor1 (lab h0 p) else lab h0 p) (Some (tw h0 p))).

(** The labels that are marked then. *)
Definition marked (marks : list label) (V : list nat) : Prop := forall p, In p (t0 ++ b0) ->
  memb (lab h0 p) marks = xorb (memb p V) (memb (tw h0 p) V).

Lemma memb_cons p x V : memb p (x :: V) = Nat.eqb p x || memb p V.
Proof. reflexivity. Qed.

Lemma visited_step h V x own other : visited h V -> In x (t0 ++ b0) -> ~ In x V ->
  exists h', p_mark h x own other = Ok (h', if memb (tw h0 x) V then own else (own + 1)%Z, if memb (tw h0 x) V then (other - 1)%Z else other) /\ visited h' (x :: V).
Proof.
  intros H Hx Nx. apply memb_nIn in Nx. destruct (linked_all _ _ _ _ Lk Hx) as (_ & W & El & Ew & Wx).
  set (w := tw h0 x) in *. pose proof (H x Hx) as Qx. pose proof (H w W) as Qw. rewrite Ew, Nx in Qw. rewrite Nx in Qx. cbn [andb negb] in Qx, Qw. rewrite andb_true_r in Qw.
  fold w in Qx. rewrite El in Qw.
  assert (Oth : forall p, In p (t0 ++ b0) -> p <> w -> Nat.eqb (tw h0 p) x = false).
  { intros p Hp N. apply Nat.eqb_neq. intro E. apply N. unfold w. rewrite <- E. symmetry. apply (linked_all _ _ _ _ Lk Hp). }
  assert (Ne : Nat.eqb w x = false) by (apply Nat.eqb_neq; exact Wx).
  unfold p_mark. unfold label_at at 1. rewrite (deref_ok _ _ _ Qx). unfold twin. rewrite (deref_ok _ _ _ Qx). cbn [bind n_label n_twin].
  unfold label_at. rewrite (deref_ok _ _ _ Qw). cbn [bind n_label].
  destruct (memb w V) eqn:Mw.
  - destruct (Nat.eqb_spec (lab h0 x) (xor1 (lab h0 x))) as [E|_]; [symmetry in E; apply xor1_neq in E; destruct E|]. cbn [negb].
    destruct (set_label_ok h w _ (xor1 (xor1 (lab h0 x))) Qw) as (h' & E' & N' & F'). rewrite E'. cbn [bind]. exists h'. split; [reflexivity|].
    intros p Hp. rewrite !memb_cons. destruct (Nat.eq_dec p w) as [->|Np].
    + rewrite Ew, Nat.eqb_refl, orb_true_l. cbn [negb]. rewrite andb_false_r. rewrite xor1_xor1 in N'. rewrite El. exact N'.
    + rewrite (Oth p Hp Np). cbn [orb]. destruct (Nat.eqb_spec p x) as [->|Px].
      * fold w. rewrite Mw. cbn. apply F'; [congruence|exact Qx].
      * cbn [orb]. apply F'; [exact Np|]. apply H, Hp.
  - rewrite Nat.eqb_refl. cbn [negb]. destruct (set_label_ok h x _ (xor1 (lab h0 x)) Qx) as (h' & E' & N' & F'). rewrite E'. cbn [bind]. exists h'. split; [reflexivity|].
    intros p Hp. rewrite !memb_cons. destruct (Nat.eq_dec p x) as [->|Px].
    + fold w. rewrite Ne, Mw, Nat.eqb_refl. cbn. exact N'.
    + destruct (Nat.eqb_spec p x) as [C|_]; [contradiction|]. cbn [orb]. destruct (Nat.eq_dec p w) as [->|Np].
      * rewrite Mw. cbn [andb]. apply F'; [exact Px|]. rewrite El, Ew. exact Qw.
      * rewrite (Oth p Hp Np). cbn [orb]. apply F'; [exact Px|]. apply H, Hp.
Qed.

Lemma memb_mark a x m : memb a (mark x m) = Nat.eqb a x || memb a m.
Proof. reflexivity. Qed.

Lemma memb_unmark a x m : memb a (unmark x m) = negb (Nat.eqb a x) && memb a m.
Proof.
  apply eq_true_iff_eq. rewrite andb_true_iff, negb_true_iff, Nat.eqb_neq, !memb_In. unfold unmark. split.
  - intro H. split; [intros ->; exact (remove_In _ _ _ H)|]. apply (in_remove _ _ _ _ H).
  - intros [N H]. apply in_in_remove; assumption.
Qed.

Lemma marked_step marks V x : marked marks V -> In x (t0 ++ b0) -> ~ In x V ->
  memb (lab h0 x) marks = memb (tw h0 x) V /\
  marked (if memb (tw h0 x) V then unmark (lab h0 x) marks else mark (lab h0 x) marks) (x :: V).
Proof.
  intros M Hx Nx. apply memb_nIn in Nx. assert (E : memb (lab h0 x) marks = memb (tw h0 x) V) by (rewrite (M x Hx), Nx; apply xorb_false_l). split; [exact E|].
  destruct (linked_all _ _ _ _ Lk Hx) as (_ & W & El & Ew & Wx).
  intros p Hp. rewrite !memb_cons. destruct (Nat.eq_dec p x) as [->|Px].
  - destruct (Nat.eqb_spec (tw h0 x) x) as [C|_]; [contradiction|]. rewrite Nat.eqb_refl. cbn [orb]. rewrite xorb_true_l.
    destruct (memb (tw h0 x) V); [rewrite memb_unmark|rewrite memb_mark]; rewrite Nat.eqb_refl; reflexivity.
  - destruct (Nat.eqb_spec p x) as [C|_]; [contradiction|]. cbn [orb]. destruct (Nat.eq_dec p (tw h0 x)) as [->|Np].
    + rewrite El, Ew, Nat.eqb_refl. cbn [orb]. rewrite xorb_true_r. destruct (memb (tw h0 x) V); [rewrite memb_unmark|rewrite memb_mark]; rewrite Nat.eqb_refl; reflexivity.
    + assert (D : Nat.eqb (lab h0 p) (lab h0 x) = false). { apply Nat.eqb_neq. intro C. destruct (lab_same _ _ _ _ _ Lk Nl Hx Hp (eq_sym C)); contradiction. }
      assert (D' : Nat.eqb (tw h0 p) x = false). { apply Nat.eqb_neq. intro C. apply Np. rewrite <- C. symmetry. apply (linked_all _ _ _ _ Lk Hp). }
      rewrite D'. cbn [orb]. rewrite <- (M p Hp). destruct (memb (tw h0 x) V); [rewrite memb_unmark|rewrite memb_mark]; rewrite D; reflexivity.
Qed.

Lemma red_loop_rep : forall t b h V marks ta ba, visited h V -> marked marks V -> NoDup (t ++ b) -> incl (t ++ b) (t0 ++ b0) -> (forall p, In p (t ++ b) -> ~ In p V) ->
  rres (fun (x : list nat * list nat * heap) (y : list label * list label) => exists k V', k <= length t /\ k <= length b /\
          x = (skipn k t, skipn k b, snd x) /\ y = (map (lab h0) (skipn k t), map (lab h0) (skipn k b)) /\
          visited (snd x) V' /\ forall p, In p V' <-> In p V \/ In p (firstn k t) \/ In p (firstn k b))
    (p_red_loop t b h ta ba) (red_loop (map (lab h0) t) (map (lab h0) b) marks ta ba).
Proof.
  induction t as [|x t IH]; intros b h V marks ta ba Hv Hm N Hi Hd; [exact I|]. destruct b as [|y b]; [exact I|]. cbn [p_red_loop red_loop map].
  assert (Ix : In x (t0 ++ b0)) by (apply Hi; left; reflexivity). assert (Iy : In y (t0 ++ b0)) by (apply Hi, in_or_app; right; left; reflexivity).
  assert (Vx : ~ In x V) by (apply Hd; left; reflexivity). 
  cbn [app] in N. apply NoDup_cons_iff in N as [N1 N]. pose proof (NoDup_remove_1 _ _ _ N) as N2. pose proof (NoDup_remove_2 _ _ _ N) as N3.
  assert (Vy : ~ In y (x :: V)). { intros [->|C]; [apply N1, in_elt|]. apply (Hd y); [apply in_or_app; right; left; reflexivity|exact C]. }
  destruct (visited_step h V x ta ba Hv Ix Vx) as (h1 & E1 & Hv1). destruct (marked_step marks V x Hm Ix Vx) as (F1 & Hm1).
  rewrite E1, F1. cbn [bind].
  destruct (visited_step h1 (x :: V) y (if memb (tw h0 x) V then (ba - 1)%Z else ba) (if memb (tw h0 x) V then ta else (ta + 1)%Z) Hv1 Iy Vy) as (h2 & E2 & Hv2).
  destruct (marked_step _ (x :: V) y Hm1 Iy Vy) as (F2 & Hm2). rewrite E2. cbn [bind].
  remember (memb (tw h0 x) V) as c1 eqn:C1. remember (memb (tw h0 y) (x :: V)) as c2 eqn:C2.
  set (m1 := if c1 then unmark (lab h0 x) marks else mark (lab h0 x) marks) in *.
  replace (if c1 then (unmark (lab h0 x) marks, ta, (ba - 1)%Z) else (mark (lab h0 x) marks, (ta + 1)%Z, ba)) with (m1, (if c1 then ta else ta + 1)%Z, (if c1 then ba - 1 else ba)%Z) by (unfold m1; destruct c1; reflexivity).
  cbv zeta. rewrite F2.
  set (m2 := if c2 then unmark (lab h0 y) m1 else mark (lab h0 y) m1) in *.
  set (ta1 := (if c1 then ta else ta + 1)%Z) in *. set (ba1 := (if c1 then ba - 1 else ba)%Z) in *.
  replace (if c2 then (unmark (lab h0 y) m1, (ta1 - 1)%Z, ba1) else (mark (lab h0 y) m1, ta1, (ba1 + 1)%Z)) with (m2, (if c2 then ta1 - 1 else ta1)%Z, (if c2 then ba1 else ba1 + 1)%Z) by (unfold m2; destruct c2; reflexivity).
  destruct (((if c2 then ta1 - 1 else ta1) =? 0)%Z && ((if c2 then ba1 else ba1 + 1) =? 0)%Z).
  - cbn. exists 1, (y :: x :: V). split; [lia|]. split; [lia|]. split; [reflexivity|]. split; [reflexivity|]. split; [exact Hv2|].
    intro p. cbn. tauto.
  - eapply rres_mono; [apply (IH b h2 (y :: x :: V) m2); try assumption|].
    + intros p Hp. apply Hi. apply in_app_or in Hp as [Hp|Hp]; [right; apply in_or_app; auto|apply in_or_app; right; right; exact Hp].
    + intros p Hp [->|[->|C]]; [contradiction|apply N1; apply in_app_or in Hp as [Hp|Hp]; apply in_or_app; [auto|right; right; exact Hp]|].
      apply (Hd p); [|exact C]. apply in_app_or in Hp as [Hp|Hp]; [right; apply in_or_app; auto|apply in_or_app; right; right; exact Hp].
    + intros r q (k & V' & K1 & K2 & K3 & K4 & K5 & K6). exists (Datatypes.S k), V'. cbn [length skipn firstn]. split; [lia|]. split; [lia|]. split; [exact K3|]. split; [exact K4|]. split; [exact K5|].
      intro p. rewrite K6. cbn. tauto.
Qed.

End Marks.

(** Erasing nodes. *)
Lemma erase_ok (f : nat -> label) : forall l h, NoDup l -> (forall p, In p l -> exists w, node_at h p (mknode (f p) w)) ->
  exists h', p_erase h l = Ok (map f l, h') /\ forall p n, ~ In p l -> node_at h p n -> node_at h' p n.
Proof.
  induction l as [|q l IH]; intros h N H; [exists h; split; [reflexivity|auto]|]. apply NoDup_cons_iff in N as [Nq N].
  destruct (H q (or_introl eq_refl)) as (w & Q). cbn [p_erase map]. unfold label_at. rewrite (deref_ok _ _ _ Q). cbn [bind n_label].
  destruct (free_ok h q _ Q) as (h1 & E1 & F1). rewrite E1. cbn [bind].
  destruct (IH h1 N) as (h2 & E2 & F2). { intros p Hp. destruct (H p (or_intror Hp)) as (w' & Q'). exists w'. apply F1; [intros ->; contradiction|exact Q']. }
  rewrite E2. cbn [bind]. exists h2. split; [reflexivity|]. intros p n Np Q'. apply F2; [intro C; apply Np; right; exact C|]. apply F1; [intros ->; apply Np; left; reflexivity|exact Q'].
Qed.

Lemma nodup_app_l {A} (u v : list A) : NoDup (u ++ v) -> NoDup u.
Proof. induction u as [|x u IH]; intro H; [constructor|]. cbn in H. apply NoDup_cons_iff in H as [H1 H2]. constructor; [intro C; apply H1, in_or_app; auto|apply IH, H2]. Qed.
Lemma nodup_app_r {A} (u v : list A) : NoDup (u ++ v) -> NoDup v.
Proof. induction u as [|x u IH]; intro H; [exact H|]. cbn in H. apply NoDup_cons_iff in H as [H1 H2]. apply IH, H2. Qed.
Lemma nodup_app_disj {A} (u v : list A) x : NoDup (u ++ v) -> In x u -> In x v -> False.
Proof. induction u as [|y u IH]; intros H H1 H2; [destruct H1|]. cbn in H. apply NoDup_cons_iff in H as [N H]. destruct H1 as [->|H1]; [apply N, in_or_app; auto|auto]. Qed.
Lemma in_firstn {A} n (l : list A) x : In x (firstn n l) -> In x l.
Proof. intro H. rewrite <- (firstn_skipn n l). apply in_or_app. auto. Qed.
Lemma in_skipn {A} n (l : list A) x : In x (skipn n l) -> In x l.
Proof. intro H. rewrite <- (firstn_skipn n l). apply in_or_app. auto. Qed.
Lemma nodup_firstn_app {A} j k (u v : list A) : NoDup (u ++ v) -> NoDup (firstn j u ++ firstn k v).
Proof.
  intro N. rewrite <- (firstn_skipn j u), <- (firstn_skipn k v) in N. rewrite <- app_assoc in N.
  assert (P : Permutation (firstn j u ++ skipn j u ++ firstn k v ++ skipn k v) ((firstn j u ++ firstn k v) ++ skipn j u ++ skipn k v)).
  { rewrite <- !app_assoc. apply Permutation_app_head. rewrite !app_assoc. apply Permutation_app_tail, Permutation_app_comm. }
  apply (Permutation_NoDup P) in N. exact (nodup_app_l _ _ N).
Qed.

Definition rep_reduce (x : option (piet T) * piet T) (y : option (iet T) * iet T) : Prop :=
  rep (snd x) (snd y) /\ match fst x, fst y with Some q, Some j => rep q j | None, None => True | _, _ => False end.

Lemma reduce_rep p i (base : slen T) : rep p i -> rres rep_reduce (p_reduce p base) (reduce i base).
Proof.
  intros Rp. pose proof Rp as [Lk Et Eb N E1 E2 E3]. set (h0 := p_heap p) in *.
  assert (Nt : NoDup (map (lab h0) (p_top p))) by (rewrite <- Et; exact N).
  pose proof (lk_nodup _ _ _ Lk) as Nd. pose proof (linked_perm _ _ _ Lk Nt) as Pm.
  assert (Nb : NoDup (map (lab h0) (p_bottom p))) by exact (nodup_map_bottom _ _ _ Lk Nt).
  unfold p_reduce, reduce. fold h0.
  destruct (p_top p) as [|a X] eqn:Pt; [rewrite Et; exact I|]. rewrite <- Pt in *.
  pose proof (red_loop_rep (p_top p) (p_bottom p) h0 Lk Nt (p_top p) (p_bottom p) h0 [] [] 0 0) as Q.
  assert (Q1 : visited (p_top p) (p_bottom p) h0 h0 []). { intros q Hq. cbn. apply (linked_all _ _ _ _ Lk Hq). }
  assert (Q2 : marked (p_top p) (p_bottom p) h0 [] []) by (intros q Hq; reflexivity).
  specialize (Q Q1 Q2 Nd (incl_refl _) ltac:(intros q _ [])). rewrite <- Et, <- Eb in Q.
  destruct (red_loop_ok (i_top i) (i_bottom i) [] [] []) as (k & K1 & K2 & K3 & _); cbn [app]; try assumption.
  { rewrite Eb. exact Nb. } { rewrite Et, Eb. exact Pm. } { reflexivity. } { intros c. cbn. tauto. } { rewrite Et, Pt. discriminate. }
  change (cnt [] []) with 0%Z in K2. rewrite K2 in *. cbn [app] in K3.
  destruct (p_red_loop (p_top p) (p_bottom p) h0 0 0) as [[[t' b'] h]| | | |]; try contradiction. cbn in Q.
  destruct Q as (k' & V & J1 & J2 & J3 & J4 & J5 & J6). injection J3 as -> ->. injection J4 as J4 J4'.
  assert (Lt : length (i_top i) = length (p_top p)) by (rewrite Et, map_length; reflexivity).
  assert (k' = k) as ->. { apply (f_equal (@length nat)) in J4. rewrite map_length, !skipn_length, Lt in J4. lia. }
  cbn [bind].
  assert (Cl : forall q, In q (firstn k (p_top p)) -> In (tw h0 q) (firstn k (p_bottom p))).
  { intros q Hq. assert (C : In (lab h0 q) (firstn k (i_bottom i))) by (apply (Permutation_in _ K3); rewrite Et, firstn_map; apply in_map, Hq).
    rewrite Eb, firstn_map in C. apply in_map_iff in C as (r & Er & Hr). destruct (lk_top _ _ _ Lk q (in_firstn _ _ _ Hq)) as (_ & P2 & P3 & _).
    assert (r = tw h0 q) as <-; [|exact Hr]. apply (lab_inj_bottom _ _ _ _ _ Lk Nt); [exact (in_firstn _ _ _ Hr)|exact P2|congruence]. }
  assert (Cb : forall q, In q (firstn k (p_bottom p)) -> In (tw h0 q) (firstn k (p_top p))).
  { intros q Hq. assert (C : In (lab h0 q) (firstn k (i_top i))) by (apply (Permutation_in _ (Permutation_sym K3)); rewrite Eb, firstn_map; apply in_map, Hq).
    rewrite Et, firstn_map in C. apply in_map_iff in C as (r & Er & Hr). destruct (lk_bottom _ _ _ Lk q (in_firstn _ _ _ Hq)) as (_ & P2 & P3 & _).
    assert (r = tw h0 q) as <-; [|exact Hr]. apply (lab_inj_top _ _ _ _ _ Lk Nt); [exact (in_firstn _ _ _ Hr)|exact P2|congruence]. }
  assert (Res : forall q, In q (p_top p ++ p_bottom p) -> node_at h q (mknode (lab h0 q) (Some (tw h0 q)))).
  { intros q Hq. pose proof (J5 q Hq) as C. cbn [snd] in C. destruct (memb q V) eqn:Mq; [|exact C]. apply memb_In, J6 in Mq as [[]|Mq].
    assert (M2 : memb (tw h0 q) V = true) by (apply memb_In, J6; right; destruct Mq as [Mq|Mq]; [right; apply Cl, Mq|left; apply Cb, Mq]).
    rewrite M2 in C. exact C. }
  destruct (linked_sub _ _ _ (p_top p) (p_bottom p) h Lk Nd (incl_refl _) (incl_refl _)) as (Lk' & Same).
  { intros q Hq _. apply Res, Hq. } { intros q Hq. apply (lk_top _ _ _ Lk q Hq). } { intros q Hq. apply (lk_bottom _ _ _ Lk q Hq). }
  assert (Mt : map (lab h) (p_top p) = map (lab h0) (p_top p)) by (apply map_ext_in; intros q Hq; apply Same, in_or_app; auto).
  assert (Mb : map (lab h) (p_bottom p) = map (lab h0) (p_bottom p)) by (apply map_ext_in; intros q Hq; apply Same, in_or_app; auto).
  assert (Lb : length (p_bottom p) = length (p_top p)) by (apply Permutation_length in Pm; rewrite !map_length in Pm; lia).
  destruct (skipn k (p_top p)) as [|c X'] eqn:Sk.
  - cbn [map] in J4. rewrite J4. assert (Kl : k = length (p_top p)) by (apply (f_equal (@length nat)) in Sk; rewrite skipn_length in Sk; cbn in Sk; lia).
    assert (S1 : skipn k (p_bottom p) = []) by (rewrite Kl, <- Lb; apply skipn_all). rewrite S1 in *. cbn [map] in J4'. rewrite J4'. cbn [assert_ rres].
    split; [|exact I]. cbn [snd]. split; cbn; try assumption; [rewrite Mt; exact Et|rewrite Mb; exact Eb].
  - rewrite <- Sk in *. assert (Ne : skipn k (p_top p) <> []) by (rewrite Sk; discriminate). assert (Kl : k < length (p_top p)).
    { apply Nat.nle_gt. intro C. apply Ne, skipn_all2, C. }
    assert (In1 : incl (skipn k (p_top p)) (p_top p)) by (intros q; apply in_skipn). assert (In2 : incl (skipn k (p_bottom p)) (p_bottom p)) by (intros q; apply in_skipn).
    pose proof (nodup_app_l _ _ Nd) as Ndt. pose proof (nodup_app_r _ _ Nd) as Ndb.
    assert (D1 : forall q, In q (firstn k (p_top p)) -> ~ In q (skipn k (p_top p))) by (intros q H1 H2; rewrite <- (firstn_skipn k (p_top p)) in Ndt; exact (nodup_app_disj _ _ _ Ndt H1 H2)).
    assert (D2 : forall q, In q (firstn k (p_bottom p)) -> ~ In q (skipn k (p_bottom p))) by (intros q H1 H2; rewrite <- (firstn_skipn k (p_bottom p)) in Ndb; exact (nodup_app_disj _ _ _ Ndb H1 H2)).
    assert (D3 : forall q, In q (p_top p) -> ~ In q (p_bottom p)) by (intros q H1 H2; exact (nodup_app_disj _ _ _ Nd H1 H2)).
    destruct (erase_ok (lab h0) (skipn k (p_top p)) h) as (h1 & G1 & G2).
    { rewrite <- (firstn_skipn k (p_top p)) in Ndt. exact (nodup_app_r _ _ Ndt). }
    { intros q Hq. exists (Some (tw h0 q)). apply Res, in_or_app. left. apply In1, Hq. }
    rewrite G1. cbn [bind].
    destruct (erase_ok (lab h0) (skipn k (p_bottom p)) h1) as (h2 & G3 & G4).
    { rewrite <- (firstn_skipn k (p_bottom p)) in Ndb. exact (nodup_app_r _ _ Ndb). }
    { intros q Hq. exists (Some (tw h0 q)). apply G2; [intro C; apply (D3 q (In1 _ C) (In2 _ Hq))|]. apply Res, in_or_app. right. apply In2, Hq. }
    rewrite G3. cbn [bind]. rewrite <- J4, <- J4'.
    destruct (skipn k (i_top i)) as [|d Z] eqn:Sk'; [rewrite Sk in J4; discriminate|]. rewrite <- Sk' in *. clear Sk Sk' c X' d Z.
    rewrite !skipn_length, Lt. replace (length (i_bottom i)) with (length (p_bottom p)) by (rewrite Eb, map_length; reflexivity).
    rewrite Lb. replace (length (p_top p) - (length (p_top p) - k)) with k by lia.
    rewrite !firstn_length. rewrite Lt, Lb. replace (length (i_bottom i)) with (length (p_top p)) by (rewrite Eb, map_length; congruence).
    apply rres_assert.
    assert (Ps : Permutation (skipn k (i_top i)) (skipn k (i_bottom i))).
    { assert (P : Permutation (i_top i) (i_bottom i)) by (rewrite Et, Eb; exact Pm). rewrite <- (firstn_skipn k (i_top i)), <- (firstn_skipn k (i_bottom i)), K3 in P.
      apply Permutation_app_inv_l in P. exact P. }
    eapply rres_bind; [apply make_rep; [|exact Ps]|].
    { rewrite <- (firstn_skipn k (i_top i)) in N. exact (nodup_app_r _ _ N). }
    intros q j Rq. split; [|exact Rq]. cbn [snd].
    destruct (linked_sub _ _ _ (firstn k (p_top p)) (firstn k (p_bottom p)) h2 Lk (nodup_firstn_app _ _ _ _ Nd)) as (Lk2 & Same2).
    { intro r; apply in_firstn. } { intro r; apply in_firstn. }
    { intros r Hr _. apply in_app_or in Hr. apply G4; [destruct Hr as [Hr|Hr]; [intro C; apply (D3 r (in_firstn _ _ _ Hr) (In2 _ C))|apply D2, Hr]|].
      apply G2; [destruct Hr as [Hr|Hr]; [apply D1, Hr|intro C; apply (D3 r (In1 _ C) (in_firstn _ _ _ Hr))]|].
      apply Res, in_or_app. destruct Hr as [Hr|Hr]; [left|right]; exact (in_firstn _ _ _ Hr). }
    { exact Cl. } { exact Cb. }
    split; cbn; try assumption; try reflexivity.
    + rewrite Et, firstn_map. apply map_ext_in. intros r Hr. symmetry. apply Same2, in_or_app. auto.
    + rewrite Eb, firstn_map. apply map_ext_in. intros r Hr. symmetry. apply Same2, in_or_app. auto.
    + rewrite <- (firstn_skipn k (i_top i)) in N. exact (nodup_app_l _ _ N).
Qed.

(** * The merge at the end of induce *)

Lemma alloc_new h n : node_at (h ++ [Some n]) (length h) n.
Proof. unfold node_at. rewrite nth_error_app2, Nat.sub_diag by lia. reflexivity. Qed.
Lemma alloc_old h n q m : node_at h q m -> node_at (h ++ [Some n]) q m.
Proof. unfold node_at. intro H. rewrite nth_error_app1; [exact H|]. apply nth_error_Some. congruence. Qed.
Lemma free_gone h p n : node_at h p n -> exists h', free h p = Ok h' /\ nth_error h' p = Some None /\ forall q k, q <> p -> node_at h q k -> node_at h' q k.
Proof. intro H. unfold free. rewrite (deref_ok _ _ _ H). cbn [bind]. exact (put_some h p n None H). Qed.

Lemma split_at_none x l : split_at x l = None -> ~ In x l.
Proof.
  induction l as [|y l IH]; cbn; [tauto|]. destruct (Nat.eqb_spec y x) as [->|N]; [discriminate|]. destruct (split_at x l) as [[u v]|]; [discriminate|].
  intros _ [->|H]; [congruence|]. apply IH; [reflexivity|exact H].
Qed.

Lemma split_at_notin x l : ~ In x l -> split_at x l = None.
Proof.
  intro H. destruct (split_at x l) as [[u v]|] eqn:E; [|reflexivity]. destruct (split_at_some _ _ _ _ E) as [-> _]. exfalso. apply H, in_elt.
Qed.

Lemma merge_rep p i : rep p i -> rres rep (p_merge p) (merge_first i).
Proof.
  intros Rp. pose proof Rp as [Lk Et Eb N E1 E2 E3]. set (h0 := p_heap p) in *.
  assert (Nt : NoDup (map (lab h0) (p_top p))) by (rewrite <- Et; exact N).
  pose proof (lk_nodup _ _ _ Lk) as Nd. pose proof (nodup_map_bottom _ _ _ Lk Nt) as Nb.
  unfold p_merge. fold h0. destruct (p_top p) as [|a X] eqn:Pt; [unfold merge_first; rewrite Et; exact I|].
  destruct (p_bottom p) as [|b Y] eqn:Pb; [unfold merge_first; rewrite Et, Eb; exact I|].
  assert (Mf : merge_first i = match split_at (lab h0 a) (map (lab h0) Y) with None => UB | Some (u, v) => Ok (set_labels i (map (lab h0) X) (u ++ lab h0 b :: v)) end)
    by (unfold merge_first; rewrite Et, Eb; reflexivity).
  rewrite Mf. clear Mf.
  destruct (lk_top _ _ _ Lk a (or_introl eq_refl)) as (A1 & A2 & A3 & A4). destruct (lk_bottom _ _ _ Lk b (or_introl eq_refl)) as (B1 & B2 & B3 & B4).
  rewrite (deref_ok _ _ _ A1), (deref_ok _ _ _ B1). cbn [bind n_twin]. set (w := tw h0 a) in *.
  pose proof (nodup_app_r _ _ Nd) as Ndb. pose proof (nodup_app_l _ _ Nd) as Ndt. apply NoDup_cons_iff in Ndb as [Nby Ndy]. apply NoDup_cons_iff in Ndt as [Nax Ndx].
  set (c := length h0) in *.
  assert (Fr : forall q, In q ((a :: X) ++ b :: Y) -> q < c). { intros q Hq. destruct (linked_all _ _ _ _ Lk Hq) as (Q & _). unfold c. apply nth_error_Some. unfold node_at in Q. congruence. }
  cbn [split_at]. destruct (Nat.eqb_spec b w) as [Ew|Ew].
  - (* both first intervals carry the same label *)
    cbn [bind alloc app]. destruct (free_gone (h0 ++ [Some (mknode (lab h0 b) (Some (tw h0 b)))]) c _ (alloc_new _ _)) as (h1 & F1 & F2 & _).
    fold c. cbn [bind]. rewrite F1. cbn [bind]. unfold twin, deref. rewrite F2. cbn [bind].
    rewrite split_at_notin; [exact I|]. rewrite <- A3, <- Ew. cbn in Nb. apply NoDup_cons_iff in Nb. apply Nb.
  - destruct A2 as [C|A2]; [congruence|].
    assert (Sp : forall x, In x Y -> lab h0 x = lab h0 w -> x = w). { intros x Hx Q. apply (lab_inj_bottom _ _ _ _ _ Lk Nt); [right; exact Hx|right; exact A2|exact Q]. }
    rewrite <- A3. rewrite (split_at_map (lab h0) w Y Sp). destruct (split_at w Y) as [[u v]|] eqn:Es; [|apply split_at_none in Es; contradiction].
    destruct (split_at_some _ _ _ _ Es) as [EY Nu]. cbn [bind alloc app]. fold c.
    set (h1 := h0 ++ [Some (mknode (lab h0 b) (Some (tw h0 b)))]).
    assert (Dab : forall q, In q (a :: X) -> In q (b :: Y) -> False) by (intros q H1 H2; exact (nodup_app_disj _ _ _ Nd H1 H2)).
    destruct B2 as [C|B2]; [exfalso; apply Ew; rewrite <- B4, <- C; reflexivity|].
    assert (Wb : In w (b :: Y)) by (right; exact A2).
    assert (Nab : a <> b) by (intro C; apply (Dab a); [left; reflexivity|rewrite C; left; reflexivity]).
    assert (Naw : a <> w) by (intro C; apply (Dab a); [left; reflexivity|rewrite C; exact Wb]).
    set (t := tw h0 b) in *. assert (Ntb : t <> b) by (intro C; apply (Dab t); [right; exact B2|rewrite C; left; reflexivity]).
    assert (Nta : t <> a) by (intros C; apply Nax; rewrite <- C; exact B2). assert (Ntw : t <> w) by (intros C; apply (Dab t); [right; exact B2|rewrite C; exact Wb]).
    assert (Lt : forall q, In q (a :: X) -> q < c) by (intros q Hq; apply Fr, in_or_app; auto). assert (Lb : forall q, In q (b :: Y) -> q < c) by (intros q Hq; apply Fr, in_or_app; auto).
    pose proof (Lt a (or_introl eq_refl)). pose proof (Lt t (or_intror B2)). pose proof (Lb b (or_introl eq_refl)). pose proof (Lb w Wb).
    destruct (free_ok h1 b _ (alloc_old _ _ _ _ B1)) as (h2 & F2 & G2). rewrite F2. cbn [bind].
    pose proof (G2 c _ ltac:(lia) (alloc_new h0 _)) as C2. unfold twin at 1. rewrite (deref_ok _ _ _ C2). cbn [bind n_twin].
    destruct (lk_top _ _ _ Lk t (or_intror B2)) as (T1 & T2 & T3 & T4).
    destruct (set_twin_ok h2 t _ c (G2 t _ Ntb (alloc_old _ _ _ _ T1))) as (h3 & F3 & N3 & G3). rewrite F3. cbn [bind].
    destruct (free_ok h3 a (mknode (lab h0 a) (Some w))) as (h4 & F4 & G4). { apply G3; [congruence|]. apply G2; [congruence|]. apply alloc_old, A1. }
    rewrite F4. cbn [bind]. unfold unlink. 
    assert (Su : split_at w (u ++ c :: w :: v) = Some (u ++ [c], v)).
    { change (u ++ c :: w :: v) with (u ++ [c] ++ w :: v). rewrite app_assoc. apply split_at_intro. intro C. apply in_app_or in C as [C|[C|[]]]; [contradiction|lia]. }
    rewrite Su. cbn [bind].
    destruct (lk_bottom _ _ _ Lk w Wb) as (W1 & W2 & W3 & W4).
    destruct (free_ok h4 w (mknode (lab h0 w) (Some (tw h0 w)))) as (h5 & F5 & G5). { apply G4; [congruence|]. apply G3; [congruence|]. apply G2; [congruence|]. apply alloc_old, W1. }
    rewrite F5. cbn [bind rres].
    (* the heap afterwards *)
    assert (Old : forall q, q <> b -> q <> t -> q <> a -> q <> w -> forall n, node_at h0 q n -> node_at h5 q n).
    { intros q Q1 Q2 Q3 Q4 n Q. apply G5; [exact Q4|]. apply G4; [exact Q3|]. apply G3; [exact Q2|]. apply G2; [exact Q1|]. apply alloc_old, Q. }
    assert (Tt : node_at h5 t (mknode (lab h0 b) (Some c))). { apply G5; [exact Ntw|]. apply G4; [exact Nta|]. cbn [n_label] in N3. rewrite B3 in N3. exact N3. }
    assert (Cc : node_at h5 c (mknode (lab h0 b) (Some t))). { apply G5; [lia|]. apply G4; [lia|]. apply G3; [lia|]. exact C2. }
    assert (Xo : forall x, In x X -> x <> t -> node_at h5 x (mknode (lab h0 x) (Some (tw h0 x)))).
    { intros x Hx Nx. apply Old; [intros ->; apply (Dab b); [right; exact Hx|left; reflexivity]|exact Nx|intros ->; contradiction|intros ->; apply (Dab w); [right; exact Hx|exact Wb]|]. apply (lk_top _ _ _ Lk x (or_intror Hx)). }
    assert (Nw : ~ In w (u ++ v)) by (rewrite EY in Ndy; exact (NoDup_remove_2 _ _ _ Ndy)).
    assert (Yi : forall y, In y (u ++ v) -> In y Y) by (intros y Hy; rewrite EY; apply in_app_or in Hy as [Hy|Hy]; apply in_or_app; [auto|right; right; exact Hy]).
    assert (Yo : forall y, In y (u ++ v) -> node_at h5 y (mknode (lab h0 y) (Some (tw h0 y)))).
    { intros y Hy. pose proof (Yi y Hy) as Hy'. apply Old; [intros ->; contradiction|intros ->; apply (Dab t); [right; exact B2|right; exact Hy']|intros ->; apply (Dab a); [left; reflexivity|right; exact Hy']|intros ->; contradiction|].
      apply (lk_bottom _ _ _ Lk y (or_intror Hy')). }
    rewrite <- app_assoc. cbn [app].
    assert (Li : forall y, In y (u ++ c :: v) -> y = c \/ In y (u ++ v)) by (intros y Hy; apply in_app_or in Hy as [Hy|[<-|Hy]]; [right; apply in_or_app; auto|left; reflexivity|right; apply in_or_app; auto]).
    assert (Il : forall y, In y (u ++ v) -> In y (u ++ c :: v)) by (intros y Hy; apply in_app_or in Hy as [Hy|Hy]; apply in_or_app; [auto|right; right; exact Hy]).
    assert (LabX : forall x, In x X -> lab h5 x = lab h0 x). { intros x Hx. destruct (Nat.eq_dec x t) as [->|Nx]; [rewrite (node_lab _ _ _ Tt); symmetry; exact B3|apply (node_lab _ _ _ (Xo x Hx Nx))]. }
    assert (LabY : forall y, In y (u ++ v) -> lab h5 y = lab h0 y) by (intros y Hy; apply (node_lab _ _ _ (Yo y Hy))).
    split; cbn [p_top p_bottom p_heap p_swap p_saf p_trk i_top i_bottom i_swap i_saf i_trk set_labels]; try assumption.
    + split.
      * assert (NU : NoDup (X ++ u ++ v)). { cbn in Nd. apply NoDup_cons_iff in Nd as [_ Nd]. apply NoDup_remove_1 in Nd. rewrite EY, app_assoc in Nd. apply NoDup_remove_1 in Nd. rewrite <- app_assoc in Nd. exact Nd. }
        apply (Permutation_NoDup (l := c :: X ++ u ++ v)); [rewrite !app_assoc; apply Permutation_middle|]. constructor; [|exact NU].
        intro C. apply in_app_or in C as [C|C]; [pose proof (Lt c (or_intror C)); lia|pose proof (Lb c (or_intror (Yi c C))); lia].
      * intros x Hx. destruct (Nat.eq_dec x t) as [->|Nx].
        { rewrite (node_lab _ _ _ Tt), (node_tw _ _ _ _ Tt). cbn [n_label]. split; [exact Tt|]. split; [apply in_elt|]. rewrite (node_lab _ _ _ Cc), (node_tw _ _ _ _ Cc). split; reflexivity. }
        { pose proof (Xo x Hx Nx) as Q. rewrite (node_lab _ _ _ Q), (node_tw _ _ _ _ Q). cbn [n_label]. split; [exact Q|].
          destruct (lk_top _ _ _ Lk x (or_intror Hx)) as (_ & Q2 & Q3 & Q4).
          assert (Hy : In (tw h0 x) (u ++ v)).
          { destruct Q2 as [Q2|Q2]; [exfalso; apply Nx; unfold t; rewrite Q2; congruence|]. rewrite EY in Q2. apply in_app_or in Q2 as [Q2|[Q2|Q2]]; [apply in_or_app; auto| |apply in_or_app; auto].
            exfalso. apply Nax. rewrite <- A4. fold w. rewrite Q2, Q4. exact Hx. }
          split; [apply Il, Hy|]. pose proof (Yo _ Hy) as Q'. rewrite (node_lab _ _ _ Q'), (node_tw _ _ _ _ Q'). cbn [n_label]. split; assumption. }
      * intros y Hy. destruct (Li y Hy) as [->|Hy'].
        { rewrite (node_lab _ _ _ Cc), (node_tw _ _ _ _ Cc). cbn [n_label]. split; [exact Cc|]. split; [exact B2|]. rewrite (node_lab _ _ _ Tt), (node_tw _ _ _ _ Tt). split; reflexivity. }
        { pose proof (Yo y Hy') as Q. rewrite (node_lab _ _ _ Q), (node_tw _ _ _ _ Q). cbn [n_label]. split; [exact Q|].
          destruct (lk_bottom _ _ _ Lk y (or_intror (Yi y Hy'))) as (_ & Q2 & Q3 & Q4).
          assert (Hx : In (tw h0 y) X). { destruct Q2 as [Q2|Q2]; [|exact Q2]. exfalso. apply Nw. unfold w. rewrite Q2, Q4. exact Hy'. }
          assert (Nx : tw h0 y <> t). { intro C. apply Nby. rewrite <- B4. fold t. rewrite <- C, Q4. apply Yi, Hy'. }
          split; [exact Hx|]. pose proof (Xo _ Hx Nx) as Q'. rewrite (node_lab _ _ _ Q'), (node_tw _ _ _ _ Q'). cbn [n_label]. split; assumption. }
    + apply map_ext_in. intros x Hx. symmetry. apply LabX, Hx.
    + rewrite map_app. cbn [map]. rewrite (node_lab _ _ _ Cc). cbn [n_label]. f_equal; [|f_equal]; apply map_ext_in; intros y Hy; symmetry; apply LabY, in_or_app; auto.
    + cbn in Nt. apply NoDup_cons_iff in Nt. apply Nt.
Qed.

(** * induce *)

Lemma saf_fields (i : iet T) base : forall v j, iet_saf i base = Ok (v, j) -> i_top j = i_top i /\ i_bottom j = i_bottom i /\ i_swap j = i_swap i.
Proof.
  intros v j. unfold iet_saf. destruct (i_saf i); [intro E; injection E as <- <-; auto|].
  destruct (saf_raw i base); try discriminate. cbn [bind]. intro E. injection E as <- <-. cbn. auto.
Qed.

Lemma saf0_fields (i : iet T) base : forall v j, iet_saf0 i base = Ok (v, j) -> i_top j = i_top i /\ i_bottom j = i_bottom i /\ i_swap j = i_swap i.
Proof. intros v j E. unfold iet_saf0 in E. apply bind_ok in E as ([w k] & E & E'). injection E' as <- <-. exact (saf_fields _ _ _ _ E). Qed.

Lemma saf_invariant_fields (i : iet T) base : forall v j, saf_invariant i base = Ok (v, j) -> i_top j = i_top i /\ i_bottom j = i_bottom i /\ i_swap j = i_swap i.
Proof. intros v j E. unfold saf_invariant in E. apply bind_ok in E as ([w k] & E & E'). injection E' as _ <-. exact (saf_fields _ _ _ _ E). Qed.

Lemma bosh_fields (i : iet T) base : forall v j, bosh_no_periodic i base = Ok (v, j) -> i_top j = i_top i /\ i_bottom j = i_bottom i /\ i_swap j = i_swap i.
Proof.
  intros v j E. unfold bosh_no_periodic in E. apply bind_ok in E as ([w k] & E & E'). pose proof (saf0_fields _ _ _ _ E) as F. destruct w; [injection E' as _ <-; exact F|].
  destruct (i_size k <=? 1); [injection E' as _ <-; exact F|]. apply bind_ok in E' as (? & _ & E'). apply bind_ok in E' as (? & _ & E'). apply bind_ok in E' as (? & _ & E'). injection E' as _ <-. exact F.
Qed.

(** A query that reads the labels and changes at most the cache and the tracker. *)
Lemma query_rep {A C C'} (R : C -> C' -> Prop) (p : piet T) i (q : iet T -> res (A * iet T)) (K : A * iet T -> res C) (K' : A * iet T -> res C') :
  rep p i -> (forall v j, q i = Ok (v, j) -> i_top j = i_top i /\ i_bottom j = i_bottom i /\ i_swap j = i_swap i) ->
  (forall v j, rep (p_with p j) j -> rres R (K (v, j)) (K' (v, j))) ->
  rres R (i <- p_view p ;; bind (q i) K) (bind (q i) K').
Proof.
  intros Rp F H. rewrite (rep_view _ _ Rp). cbn [bind]. destruct (q i) as [[v j]| | | |] eqn:E; try exact I. cbn [bind].
  apply H. destruct (F v j eq_refl) as (F1 & F2 & F3). exact (rep_with _ _ _ Rp F1 F2 F3).
Qed.

Definition rep_loop {S} (x : option bool * piet T * S) (y : option bool * iet T * S) : Prop :=
  fst (fst x) = fst (fst y) /\ rep (snd (fst x)) (snd (fst y)) /\ snd x = snd y.

Lemma induce_loop_rep {S} (L : lens T S) saf0 limit : forall fuel n p i s, rep p i -> rres rep_loop (p_induce_loop L fuel saf0 limit n p s) (induce_loop L fuel saf0 limit n i s).
Proof.
  induction fuel as [|fuel IH]; intros n p i s Rp; [exact I|]. cbn [p_induce_loop induce_loop].
  destruct (negb ((limit =? -1)%Z || (n <? limit)%Z)); [split; [reflexivity|]; split; [exact Rp|reflexivity]|].
  eapply rres_bind with (R := fun x y => fst x = fst y /\ rep (snd x) (snd y)).
  { destruct saf0; [|split; [reflexivity|exact Rp]]. 
    apply (query_rep _ p i (fun i => iet_saf i (li_base L s)) _ _ Rp (saf_fields i (li_base L s))). intros v j Rj.
    destruct (length v =? 0); [split; [reflexivity|exact Rj]|]. destruct (tracker_loop (i_trk j) j (li_base L s)) as [[r k]| | | |]; try exact I. cbn [bind].
    split; [reflexivity|]. cbn [snd]. destruct Rj as [J1 J2 J3 J4 J5 J6 J7]. split; cbn; try assumption; reflexivity. }
  intros [sim p1] [sim' i1] [Es R1]. cbn [fst snd] in *. subst sim'. destruct sim; [split; [reflexivity|]; split; [exact R1|reflexivity]|].
  eapply rres_bind; [exact (zorich_rep L _ _ s R1)|]. intros [[f p2] s2] [[f' i2] s2'] (Ef & R2 & E2). cbn [fst snd] in *. subst f' s2'.
  destruct f; [split; [reflexivity|]; split; [exact R2|reflexivity]|].
  eapply rres_bind; [exact (zorich_rep L _ _ s2 (rep_swap _ _ R2))|]. intros [[f p3] s3] [[f' i3] s3'] (Ef & R3 & E3). cbn [fst snd] in *. subst f' s3'.
  apply rep_swap in R3. destruct f; [split; [reflexivity|]; split; [exact R3|reflexivity]|]. destruct (n =? INT_MAX)%Z; [exact I|]. apply IH, R3.
Qed.

Definition rep_step {S} (x : pstep T * piet T * S) (y : istep T * iet T * S) : Prop :=
  (ps_result (fst (fst x)) = is_result (fst (fst y)) /\ ps_connection (fst (fst x)) = is_connection (fst (fst y)) /\
   match ps_additional (fst (fst x)), is_additional (fst (fst y)) with Some q, Some j => rep q j | None, None => True | _, _ => False end) /\
  rep (snd (fst x)) (snd (fst y)) /\ snd x = snd y.

Lemma induce_finish_rep {S} (L : lens T S) found p i s : rep p i -> rres rep_step (p_induce_finish L found p s) (induce_finish L found i s).
Proof.
  intro Rp. unfold p_induce_finish, induce_finish. eapply rres_bind; [exact (reduce_rep p i (li_base L s) Rp)|].
  intros [red p1] [red' i1] [R1 Rr]. cbn [fst snd] in *. pose proof R1 as [Lk Et Eb _ _ _ _].
  destruct red as [q|], red' as [j|]; try contradiction.
  - rewrite Et, Eb, <- !map_rev. destruct (rev (p_bottom p1)) as [|b Y] eqn:Rb; [exact I|]. destruct (rev (p_top p1)) as [|t X] eqn:Rt; [exact I|]. cbn [map].
    assert (Hb : In b (p_bottom p1)) by (apply in_rev; rewrite Rb; left; reflexivity). assert (Ht : In t (p_top p1)) by (apply in_rev; rewrite Rt; left; reflexivity).
    rewrite (label_at_ok _ _ _ b Lk), (label_at_ok _ _ _ t Lk) by (apply in_or_app; auto). cbn.
    split; [|split; [exact R1|reflexivity]]. cbn. auto.
  - assert (Ei : forall (A : Type) (F : label -> list label -> label -> list label -> res A), 
       (match i_top i1, i_bottom i1 with a :: X, b :: Y => F a X b Y | _, _ => UB end) =
       match p_top p1, p_bottom p1 with a :: X, b :: Y => F (lab (p_heap p1) a) (map (lab (p_heap p1)) X) (lab (p_heap p1) b) (map (lab (p_heap p1)) Y) | _, _ => UB end).
    { intros A F. rewrite Et, Eb. destruct (p_top p1), (p_bottom p1); reflexivity. }
    rewrite (Ei _ (fun a _ b _ => c <- li_cmp2 L s a b ;; match c with Eq => i <- merge_first i1 ;; Ok (mkistep NON_SEPARATING_CONNECTION (Some (b, a)) None, i, s) | _ => assert_ (negb found) (
          '(z, i) <- bosh_no_periodic i1 (li_base L s) ;;
          Ok (mkistep (if (z : bool) then WITHOUT_PERIODIC_TRAJECTORY_BOSHERNITZAN else LIMIT_REACHED) None None, i, s)) end)).
    destruct (p_top p1) as [|a X] eqn:Pt; [exact I|]. destruct (p_bottom p1) as [|b Y] eqn:Pb; [exact I|].
    rewrite (label_at_ok _ _ _ a Lk), (label_at_ok _ _ _ b Lk) by (first [left; reflexivity|apply in_or_app; right; left; reflexivity]). cbn [bind].
    assert (Qb : forall (x : iet T -> res (pstep T * piet T * S)), rres rep_step (assert_ (negb found) (i <- p_view p1 ;; '(z, i) <- bosh_no_periodic i (li_base L s) ;;
          Ok (mkpstep (if (z : bool) then WITHOUT_PERIODIC_TRAJECTORY_BOSHERNITZAN else LIMIT_REACHED) None None, p_with p1 i, s)))
        (assert_ (negb found) ('(z, i) <- bosh_no_periodic i1 (li_base L s) ;;
          Ok (mkistep (if (z : bool) then WITHOUT_PERIODIC_TRAJECTORY_BOSHERNITZAN else LIMIT_REACHED) None None, i, s)))).
    { intros _. apply rres_assert. apply (query_rep _ p1 i1 (fun i => bosh_no_periodic i (li_base L s)) _ _ R1 (bosh_fields i1 (li_base L s))). intros v j Rj.
      split; [|split; [exact Rj|reflexivity]]. cbn. auto. }
    specialize (Qb (fun _ => UB)).
    destruct (li_cmp2 L s (lab (p_heap p1) a) (lab (p_heap p1) b)) as [c| | | |]; try exact I. cbn [bind]. destruct c; [|exact Qb|exact Qb].
    eapply rres_bind; [exact (merge_rep _ _ R1)|]. intros p2 i2 R2. split; [|split; [exact R2|reflexivity]]. cbn. auto.
Qed.

Lemma induce_rep {S} (L : lens T S) fuel limit p i s : rep p i -> rres rep_step (p_induce L fuel limit p s) (induce L fuel limit i s).
Proof.
  intro Rp. unfold p_induce, induce. replace (i_size i) with (length (p_top p)) by (unfold i_size; rewrite (rp_top _ _ Rp), map_length; reflexivity).
  destruct (length (p_top p) =? 1). { split; [|split; [exact Rp|reflexivity]]. cbn. auto. }
  eapply rres_bind with (R := rep_loop).
  - destruct (limit =? 0)%Z; [split; [reflexivity|]; split; [exact Rp|reflexivity]|].
    apply (query_rep _ p i (fun i => iet_saf0 i (li_base L s)) _ _ Rp (saf0_fields i (li_base L s))). intros v j Rj. apply induce_loop_rep, Rj.
  - intros [[f p2] s2] [[f' i2] s2'] (Ef & R2 & E2). cbn [fst snd] in *. subst f' s2'. destruct f as [f|]; [exact (induce_finish_rep L f _ _ s2 R2)|].
    split; [|split; [exact R2|reflexivity]]. cbn. auto.
Qed.

(** * Calls *)

Definition rep_call (x : piet T * list (piet T) * slen T) (y : iet T * list (iet T) * slen T) : Prop :=
  rep (fst (fst x)) (fst (fst y)) /\ Forall2 rep (snd (fst x)) (snd (fst y)) /\ snd x = snd y.

Lemma run_op_rep o p i (s : slen T) : rep p i -> rres rep_call (p_run_op o p s) (run_op o i s).
Proof.
  intro Rp. destruct o as [| | |fuel limit| | | |t b]; cbn [p_run_op run_op].
  - split; [apply rep_swap, Rp|]. split; [constructor|reflexivity].
  - eapply rres_bind; [exact (zorich_rep _ _ _ s Rp)|]. intros [[f p2] s2] [[f' i2] s2'] (Ef & R2 & E2). cbn [fst snd] in *. subst s2'. split; [exact R2|]. split; [constructor|reflexivity].
  - eapply rres_bind; [exact (reduce_rep _ _ s Rp)|]. intros [r p2] [r' i2] (R2 & Q). cbn [fst snd] in *. split; [exact R2|]. cbn. destruct r, r'; try contradiction; (split; [first [exact (Forall2_nil _)|exact (Forall2_cons _ _ Q (Forall2_nil _))]|reflexivity]).
  - eapply rres_bind; [exact (induce_rep _ fuel limit _ _ s Rp)|]. intros [[st p2] s2] [[st' i2] s2'] ((_ & _ & Q) & R2 & E2). cbn [fst snd] in *. subst s2'. split; [exact R2|]. cbn [fst snd].
    destruct (ps_additional st), (is_additional st'); try contradiction; (split; [first [exact (Forall2_nil _)|exact (Forall2_cons _ _ Q (Forall2_nil _))]|reflexivity]).
  - apply (query_rep _ p i (fun i => saf_invariant i s) _ _ Rp (saf_invariant_fields i s)). intros v j Rj. split; [exact Rj|]. split; [constructor|reflexivity].
  - apply (query_rep _ p i (fun i => bosh_no_periodic i s) _ _ Rp (bosh_fields i s)). intros v j Rj. split; [exact Rj|]. split; [constructor|reflexivity].
  - rewrite (rep_view _ _ Rp). cbn [bind]. destruct (bosh_no_saddle i s) as [x| | | |]; try exact I. cbn. split; [exact Rp|]. split; [constructor|reflexivity].
  - rewrite (rep_view _ _ Rp). cbn [bind]. destruct (bosh_no_saddle2 i s t b) as [x| | | |]; try exact I. cbn. split; [exact Rp|]. split; [constructor|reflexivity].
Qed.

Lemma views_rep ps is : Forall2 rep ps is -> mapM p_view ps = Ok is.
Proof. induction 1 as [|p i ps is R _ IH]; [reflexivity|]. cbn [mapM]. rewrite (rep_view _ _ R). cbn [bind]. rewrite IH. reflexivity. Qed.

Lemma seen_rep x y : rres rep_call x y -> seen x = y.
Proof.
  destruct x as [[[p ps] s]| | | |], y as [[[i is] s']| | | |]; try contradiction; try reflexivity. cbn [rres]. intros (R & Rs & E). cbn [fst snd] in *.
  unfold seen. cbn [bind]. rewrite (rep_view _ _ R). cbn [bind]. rewrite (views_rep _ _ Rs). cbn [bind]. rewrite E. reflexivity.
Qed.

Lemma seen_step_rep {S} x (y : res (istep T * iet T * S)) : rres rep_step x y -> seen_step x = y.
Proof.
  destruct x as [[[st p] s]| | | |], y as [[[st' i] s']| | | |]; try contradiction; try reflexivity. cbn [rres]. intros ((E1 & E2 & Q) & R & E). cbn [fst snd] in *.
  unfold seen_step. cbn [bind]. rewrite (rep_view _ _ R). cbn [bind]. rewrite E, E1, E2. destruct st' as [r c a]. cbn in *.
  destruct (ps_additional st) as [q|], a as [j|]; try contradiction; [|reflexivity]. rewrite (rep_view _ _ Q). reflexivity.
Qed.

Section Hist.
Context {W : LenLaws T}.

Lemma p_history_rep l s : p_history l s -> exists l', history l' s /\ Forall2 rep l l'.
Proof.
  induction 1 as [ls|l s top bottom p H (l' & H' & F) V D E|l1 p l2 s o p' extra s' H (l' & H' & F) Lg E].
  - exists []. split; constructor.
  - pose proof V as (N & P & _). pose proof (make_rep s top bottom N P) as R. rewrite E in R. destruct (iet_make s top bottom) as [i| | | |] eqn:Ei; try contradiction. cbn in R.
    exists (i :: l'). split; [|constructor; assumption]. apply (h_new l' s top bottom i H' V); [|exact Ei].
    intros c Hc C. unfold used in C. apply in_flat_map in C as (j & Hj & Cj).
    assert (exists q, In q l /\ rep q j) as (q & Hq & Rq). { clear - F Hj. induction F as [|q k l l' R F IH]; [destruct Hj|]. destruct Hj as [->|Hj]; [exists q; split; [left; reflexivity|exact R]|]. destruct (IH Hj) as (r & H1 & H2). exists r. split; [right; exact H1|exact H2]. }
    exact (D c q j Hc Hq (rep_view _ _ Rq) Cj).
  - apply Forall2_app_inv_l in F as (l1' & l2' & F1 & F2 & ->). inversion F2 as [|? i ? l3' Rp F3]; subst.
    pose proof (run_op_rep o p i s Rp) as R. rewrite E in R. destruct (run_op o i s) as [[[i' ex'] s'']| | | |] eqn:Ei; try contradiction. cbn in R. destruct R as (R1 & R2 & R3). cbn [fst snd] in *. subst s''.
    exists (l1' ++ i' :: ex' ++ l3'). split; [exact (h_op l1' i l3' s o i' ex' s' H' Lg Ei)|]. apply Forall2_app; [exact F1|]. constructor; [exact R1|]. apply Forall2_app; assumption.
Qed.

Lemma history_rep l' s : history l' s -> exists l, p_history l s /\ Forall2 rep l l'.
Proof.
  induction 1 as [ls|l' s top bottom i H (l & H' & F) V D E|l1 i l2 s o i' extra s' H (l & H' & F) Lg E].
  - exists []. split; constructor.
  - pose proof V as (N & P & _). pose proof (make_rep s top bottom N P) as R. rewrite E in R. destruct (p_make s top bottom) as [p| | | |] eqn:Ep; try contradiction. cbn in R.
    exists (p :: l). split; [|constructor; assumption]. apply (ph_new l s top bottom p H' V); [|exact Ep].
    intros c q j Hc Hq Vq C. apply (D c Hc). unfold used. apply in_flat_map. exists j. split; [|exact C].
    clear - F Hq Vq. induction F as [|r k l l' R F IH]; [destruct Hq|]. destruct Hq as [->|Hq]; [left; rewrite (rep_view _ _ R) in Vq; congruence|right; apply IH, Hq].
  - apply Forall2_app_inv_r in F as (l1' & l2' & F1 & F2 & ->). inversion F2 as [|p ? l3' ? Rp F3]; subst.
    pose proof (run_op_rep o p i s Rp) as R. rewrite E in R. destruct (p_run_op o p s) as [[[p' ex'] s'']| | | |] eqn:Ep; try contradiction. cbn in R. destruct R as (R1 & R2 & R3). cbn [fst snd] in *. subst s''.
    exists (l1' ++ p' :: ex' ++ l3'). split; [exact (ph_op l1' p l3' s o p' ex' s' H' Lg Ep)|]. apply Forall2_app; [exact F1|]. constructor; [exact R1|]. apply Forall2_app; assumption.
Qed.

Lemma p_history_in l s p : p_history l s -> In p l -> exists i l', rep p i /\ history l' s /\ In i l'.
Proof.
  intros H Hp. destruct (p_history_rep l s H) as (l' & H' & F).
  assert (exists i, In i l' /\ rep p i) as (i & Hi & R). { clear - F Hp. induction F as [|q k l l' R F IH]; [destruct Hp|]. destruct Hp as [->|Hp]; [exists k; split; [left; reflexivity|exact R]|]. destruct (IH Hp) as (r & H1 & H2). exists r. split; [right; exact H1|exact H2]. }
  exists i, l'. auto.
Qed.

Lemma forall2_views l l' : Forall2 rep l l' -> Forall2 (fun p i => p_view p = Ok i) l l'.
Proof. induction 1 as [|p i l l' R _ IH]; constructor; [apply rep_view, R|exact IH]. Qed.

End Hist.

End Ref.
