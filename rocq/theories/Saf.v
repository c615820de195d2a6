(** The SAF invariant: what [safInvariant()] computes and that induction, [swap] and
    [reduce] treat it as they should. *)
From Coq Require Import Reals Lra Permutation.
From Verif Require Import Base QcTac LenT FM Subspace Lengths IET SpecLin Api ZorichProof SubspaceProof.
From Verif Require Spec.

Local Open Scope nat_scope.

Lemma nodup_app_l {A} (l l' : list A) : NoDup (l ++ l') -> NoDup l.
Proof.
  induction l as [|a l IH]; simpl; intros H; [constructor|]. inversion H; subst. constructor; auto.
  intros Hin; apply H2, in_app_iff; auto.
Qed.
Lemma nodup_app_r {A} (l l' : list A) : NoDup (l ++ l') -> NoDup l'.
Proof. induction l as [|a l IH]; simpl; intros H; [exact H|]. inversion H; subst; auto. Qed.

(** * Tabulated vectors *)

Definition tab (d : nat) (f : nat -> Qc) : vec := map f (seq 0 d).

Lemma tab_length d f : length (tab d f) = d.
Proof. unfold tab. rewrite map_length, seq_length. reflexivity. Qed.

Lemma tab_S d f : tab (S d) f = f 0 :: tab d (fun k => f (S k)).
Proof. unfold tab. simpl. rewrite <- seq_shift, map_map. reflexivity. Qed.

Lemma tab_nth d f k : k < d -> nth k (tab d f) 0%Qc = f k.
Proof. apply nth_map_seq. Qed.

Lemma tab_ext d f g : (forall k, k < d -> f k = g k) -> tab d f = tab d g.
Proof. intros H. unfold tab. apply map_ext_in. intros k Hk. apply in_seq in Hk. apply H. lia. Qed.

Lemma tab_of (v : vec) d : length v = d -> v = tab d (fun k => nth k v 0%Qc).
Proof. intros H. unfold tab. symmetry. apply map_seq_nth, H. Qed.

Lemma vadd_tab d f g : vadd (tab d f) (tab d g) = tab d (fun k => (f k + g k)%Qc).
Proof.
  revert f g; induction d as [|d IH]; intros f g; [reflexivity|]. rewrite !tab_S. simpl. f_equal. apply IH.
Qed.
Lemma vsub_tab d f g : vsub (tab d f) (tab d g) = tab d (fun k => (f k - g k)%Qc).
Proof.
  revert f g; induction d as [|d IH]; intros f g; [reflexivity|]. rewrite !tab_S. simpl. f_equal. apply IH.
Qed.
Lemma vscale_tab d c f : vscale c (tab d f) = tab d (fun k => (c * f k)%Qc).
Proof. unfold tab. rewrite vscale_map, map_map. reflexivity. Qed.
Lemma vneg_tab d f : vneg (tab d f) = tab d (fun k => (- f k)%Qc).
Proof.
  revert f; induction d as [|d IH]; intros f; [reflexivity|]. rewrite !tab_S. simpl. f_equal. apply IH.
Qed.
Lemma vzero_tab d : vzero d = tab d (fun _ => 0%Qc).
Proof. induction d as [|d IH]; [reflexivity|]. rewrite tab_S. simpl. f_equal. exact IH. Qed.

Lemma wedge_tab d f g :
  wedge (tab d f) (tab d g) = map (fun p => (f (fst p) * g (snd p) - f (snd p) * g (fst p))%Qc) (pairs d).
Proof.
  revert f g; induction d as [|d IH]; intros f g; [reflexivity|].
  rewrite !tab_S. cbn [wedge pairs]. rewrite map_app, !map_map, IH. cbn [fst snd]. f_equal.
  rewrite !vscale_tab, vsub_tab. unfold tab. apply map_ext. intros k. ring.
Qed.

Lemma pairs_length d : length (pairs d) * 2 = d * (d - 1).
Proof.
  induction d as [|d IH]; [reflexivity|]. cbn [pairs]. rewrite app_length, !map_length, seq_length. nia.
Qed.

Lemma pairs_length_div d : length (pairs d) = d * (d - 1) / 2.
Proof. rewrite <- pairs_length, Nat.div_mul by lia. reflexivity. Qed.

Lemma pairs_In d i j : In (i, j) (pairs d) <-> i < j < d.
Proof.
  revert i j; induction d as [|d IH]; intros i j; cbn [pairs]; [simpl; lia|].
  rewrite in_app_iff, !in_map_iff. split.
  - intros [[k [E Hk]]|[[a b] [E Hk]]].
    + inversion E; subst. apply in_seq in Hk. lia.
    + inversion E; subst. apply IH in Hk. simpl. lia.
  - intros H. destruct i as [|i].
    + left. exists (pred j). split; [f_equal; lia | apply in_seq; lia].
    + right. exists (i, pred j). split; [simpl; f_equal; lia | apply IH; lia].
Qed.

(** * Algebra of the invariant *)

Lemma qsum_app f X Y : qsum f (X ++ Y) = (qsum f X + qsum f Y)%Qc.
Proof. induction X as [|c X IH]; simpl; [ring|]. rewrite IH. ring. Qed.

Lemma qsum_ext f g l : (forall a, In a l -> f a = g a) -> qsum f l = qsum g l.
Proof.
  induction l as [|c l IH]; intros H; simpl; [reflexivity|].
  rewrite (H c) by (left; reflexivity). rewrite IH by (intros a Ha; apply H; right; exact Ha). reflexivity.
Qed.

Lemma qsum_perm f l l' : Permutation l l' -> qsum f l = qsum f l'.
Proof. induction 1; simpl; try congruence; ring. Qed.

Lemma qsum_add f g l : qsum (fun a => (f a + g a)%Qc) l = (qsum f l + qsum g l)%Qc.
Proof. induction l as [|c l IH]; simpl; [ring|]. rewrite IH. ring. Qed.
Lemma qsum_sub f g l : qsum (fun a => (f a - g a)%Qc) l = (qsum f l - qsum g l)%Qc.
Proof. induction l as [|c l IH]; simpl; [ring|]. rewrite IH. ring. Qed.
Lemma qsum_scale k f l : qsum (fun a => (k * f a)%Qc) l = (k * qsum f l)%Qc.
Proof. induction l as [|c l IH]; simpl; [ring|]. rewrite IH. ring. Qed.

Lemma before_ext f g l a : (forall c, In c l -> f c = g c) -> before f l a = before g l a.
Proof.
  induction l as [|c l IH]; intros H; simpl; [reflexivity|]. destruct (Nat.eqb c a); [reflexivity|].
  rewrite (H c) by (left; reflexivity). rewrite IH by (intros b Hb; apply H; right; exact Hb). reflexivity.
Qed.

Lemma before_split f X a Y : ~ In a X -> before f (X ++ a :: Y) a = qsum f X.
Proof.
  induction X as [|c X IH]; intros H; simpl.
  - rewrite Nat.eqb_refl. reflexivity.
  - destruct (Nat.eqb_spec c a) as [->|_]; [exfalso; apply H; left; reflexivity|].
    rewrite IH by (intros Hin; apply H; right; exact Hin). reflexivity.
Qed.

(** Antisymmetric sum over the pairs of labels in a row. *)
Fixpoint cross (x y : nat -> Qc) (l : list nat) : Qc :=
  match l with
  | [] => 0%Qc
  | c :: r => (qsum x r * y c - qsum y r * x c + cross x y r)%Qc
  end.

Lemma cross_app x y X Y :
  cross x y (X ++ Y) = (cross x y X + cross x y Y + (qsum x Y * qsum y X - qsum y Y * qsum x X))%Qc.
Proof. induction X as [|c X IH]; simpl; [ring|]. rewrite IH, !qsum_app. ring. Qed.

Lemma cross_ext x y x' y' l : (forall a, In a l -> x a = x' a) -> (forall a, In a l -> y a = y' a) ->
  cross x y l = cross x' y' l.
Proof.
  induction l as [|c l IH]; intros H G; simpl; [reflexivity|].
  assert (H' : forall a, In a l -> x a = x' a) by (intros; apply H; right; assumption).
  assert (G' : forall a, In a l -> y a = y' a) by (intros; apply G; right; assumption).
  rewrite (H c), (G c) by (left; reflexivity). rewrite (qsum_ext x x'), (qsum_ext y y'), IH by assumption. reflexivity.
Qed.

Lemma qsum_before x y l : NoDup l ->
  qsum (fun a => (x a * before y l a - y a * before x l a)%Qc) l = cross x y l.
Proof.
  induction l as [|c l IH]; intros N; simpl; [reflexivity|]. inversion N as [|? ? Hc Nl]; subst.
  rewrite Nat.eqb_refl.
  rewrite (qsum_ext _ (fun a => ((y c * x a - x c * y a) + (x a * before y l a - y a * before x l a))%Qc)).
  - rewrite qsum_add, IH, qsum_sub, !qsum_scale by exact Nl. ring.
  - intros a Ha. destruct (Nat.eqb_spec c a) as [->|_]; [contradiction|]. ring.
Qed.

Lemma saf_entry_cross x y top bot : NoDup top -> Permutation top bot ->
  saf_entry x y top bot = (cross x y bot - cross x y top)%Qc.
Proof.
  intros N P. unfold saf_entry, displacement.
  rewrite <- (qsum_before x y bot) by (eapply Permutation_NoDup; eassumption).
  rewrite <- (qsum_before x y top) by exact N.
  rewrite <- (qsum_perm _ _ _ P), <- qsum_sub. apply qsum_ext. intros a _. ring.
Qed.

Lemma perm_cons_split a b (X Y1 Y2 : list nat) : Permutation (a :: X) (b :: Y1 ++ a :: Y2) -> Permutation X (b :: Y1 ++ Y2).
Proof.
  intros P. apply (Permutation_cons_inv (a := a)). rewrite P.
  change (b :: Y1 ++ a :: Y2) with ((b :: Y1) ++ a :: Y2). symmetry. apply (Permutation_middle (b :: Y1) Y2 a).
Qed.

(** One elementary step does not change an entry of the invariant. *)
Lemma saf_entry_step x y x' y' a b X Y1 Y2 :
  NoDup (a :: X) -> Permutation (a :: X) (b :: Y1 ++ a :: Y2) ->
  x' a = (x a - x b)%Qc -> (forall c, c <> a -> x' c = x c) ->
  y' a = (y a - y b)%Qc -> (forall c, c <> a -> y' c = y c) ->
  saf_entry x' y' (a :: X) (Y1 ++ b :: a :: Y2) = saf_entry x y (a :: X) (b :: Y1 ++ a :: Y2).
Proof.
  intros N P Hxa Hx Hya Hy.
  assert (P' : Permutation (a :: X) (Y1 ++ b :: a :: Y2)).
  { rewrite P. apply (Permutation_middle Y1 (a :: Y2) b). }
  rewrite !saf_entry_cross by assumption.
  pose proof (Permutation_NoDup P N) as Nb. inversion Nb as [|? ? Hb Nb']; subst.
  assert (Hba : b <> a) by (intros ->; apply Hb, in_app_iff; right; left; reflexivity).
  assert (HY : forall c, In c (Y1 ++ Y2) -> c <> a).
  { intros c Hc ->. apply NoDup_remove_2 in Nb'. contradiction. }
  assert (HX : forall c, In c X -> c <> a) by (intros c Hc ->; inversion N; contradiction).
  pose proof (perm_cons_split _ _ _ _ _ P) as PX.
  assert (H1 : forall c, In c Y1 -> c <> a) by (intros; apply HY, in_app_iff; auto).
  assert (H2 : forall c, In c Y2 -> c <> a) by (intros; apply HY, in_app_iff; auto).
  simpl. rewrite !cross_app, !qsum_app. simpl. rewrite !Hxa, !Hya, !(Hx b), !(Hy b) by exact Hba.
  rewrite (qsum_ext x' x X), (qsum_ext y' y X), (cross_ext x' y' x y X),
    (qsum_ext x' x Y1), (qsum_ext y' y Y1), (cross_ext x' y' x y Y1),
    (qsum_ext x' x Y2), (qsum_ext y' y Y2), (cross_ext x' y' x y Y2) by auto.
  rewrite (qsum_perm x _ _ PX), (qsum_perm y _ _ PX). simpl. rewrite !qsum_app. ring.
Qed.

(** Merging two intervals of the same length does not change it either. *)
Lemma saf_entry_merge x y a b X Y1 Y2 :
  NoDup (a :: X) -> Permutation (a :: X) (b :: Y1 ++ a :: Y2) -> x a = x b -> y a = y b ->
  saf_entry x y X (Y1 ++ b :: Y2) = saf_entry x y (a :: X) (b :: Y1 ++ a :: Y2).
Proof.
  intros N P Hx Hy. pose proof (perm_cons_split _ _ _ _ _ P) as PX.
  assert (P' : Permutation X (Y1 ++ b :: Y2)) by (rewrite PX; apply Permutation_middle).
  inversion N as [|? ? Ha NX]; subst. rewrite !saf_entry_cross by assumption.
  simpl. rewrite !cross_app, !qsum_app. simpl.
  rewrite (qsum_perm x _ _ PX), (qsum_perm y _ _ PX). simpl. rewrite !qsum_app, Hx, Hy. ring.
Qed.

Lemma saf_entry_flip x y top bot : NoDup top -> Permutation top bot ->
  saf_entry x y bot top = (- saf_entry x y top bot)%Qc.
Proof.
  intros N P. rewrite !saf_entry_cross; auto using Permutation_sym; [ring|]. eapply Permutation_NoDup; eassumption.
Qed.

(** The invariant of an exchange with an invariant prefix is the sum of the invariants. *)
Lemma saf_entry_cut x y T1 T2 B1 B2 :
  NoDup (T1 ++ T2) -> Permutation T1 B1 -> Permutation T2 B2 ->
  saf_entry x y (T1 ++ T2) (B1 ++ B2) = (saf_entry x y T1 B1 + saf_entry x y T2 B2)%Qc.
Proof.
  intros N P1 P2.
  assert (N1 : NoDup T1) by (apply nodup_app_l in N; exact N).
  assert (N2 : NoDup T2) by (apply nodup_app_r in N; exact N).
  rewrite !saf_entry_cross by (auto using Permutation_app).
  rewrite !cross_app, (qsum_perm x _ _ P1), (qsum_perm y _ _ P1), (qsum_perm x _ _ P2), (qsum_perm y _ _ P2). ring.
Qed.

Lemma saf_entry_ext x y x' y' top bot : (forall a, In a top -> x a = x' a) -> (forall a, In a top -> y a = y' a) ->
  Permutation top bot -> saf_entry x y top bot = saf_entry x' y' top bot.
Proof.
  intros Hx Hy P. unfold saf_entry, displacement. apply qsum_ext. intros a Ha.
  assert (Hxb : forall a, In a bot -> x a = x' a) by (intros c Hc; apply Hx; eapply Permutation_in; [symmetry|]; eassumption).
  assert (Hyb : forall a, In a bot -> y a = y' a) by (intros c Hc; apply Hy; eapply Permutation_in; [symmetry|]; eassumption).
  rewrite (Hx a Ha), (Hy a Ha), (before_ext x x' top), (before_ext y y' top), (before_ext x x' bot), (before_ext y y' bot) by assumption.
  reflexivity.
Qed.

(** The two halves of an entry are opposite: [B(x, y) = - B(y, x)]. *)
Definition half (x y : nat -> Qc) (top bot : list nat) : Qc :=
  qsum (fun a => (x a * displacement y top bot a)%Qc) top.

Lemma qsum_square x y l : NoDup l ->
  (qsum (fun a => (x a * before y l a)%Qc) l + qsum (fun a => (y a * before x l a)%Qc) l + qsum (fun a => (x a * y a)%Qc) l
   = qsum x l * qsum y l)%Qc.
Proof.
  induction l as [|c l IH]; intros N; simpl; [ring|]. inversion N as [|? ? Hc Nl]; subst. specialize (IH Nl).
  rewrite Nat.eqb_refl.
  rewrite (qsum_ext (fun a => (x a * (if Nat.eqb c a then 0 else y c + before y l a))%Qc) (fun a => (y c * x a + x a * before y l a)%Qc)).
  2:{ intros a Ha. destruct (Nat.eqb_spec c a) as [->|_]; [contradiction | ring]. }
  rewrite (qsum_ext (fun a => (y a * (if Nat.eqb c a then 0 else x c + before x l a))%Qc) (fun a => (x c * y a + y a * before x l a)%Qc)).
  2:{ intros a Ha. destruct (Nat.eqb_spec c a) as [->|_]; [contradiction | ring]. }
  rewrite !qsum_add, !qsum_scale.
  replace ((x c + qsum x l) * (y c + qsum y l))%Qc with (x c * y c + x c * qsum y l + y c * qsum x l + qsum x l * qsum y l)%Qc by ring.
  rewrite <- IH. ring.
Qed.

Lemma half_antisym x y top bot : NoDup top -> Permutation top bot -> (half x y top bot = - half y x top bot)%Qc.
Proof.
  intros N P. unfold half, displacement.
  assert (E : forall x y, qsum (fun a => (x a * (before y bot a - before y top a))%Qc) top =
     (qsum (fun a => (x a * before y bot a)%Qc) bot - qsum (fun a => (x a * before y top a)%Qc) top)%Qc).
  { intros u v. rewrite <- (qsum_perm _ _ _ P), <- qsum_sub. apply qsum_ext. intros; ring. }
  rewrite !E. pose proof (qsum_square x y top N) as H1.
  pose proof (qsum_square x y bot (Permutation_NoDup P N)) as H2.
  rewrite <- (qsum_perm (fun a => (x a * y a)%Qc) _ _ P), <- (qsum_perm x _ _ P), <- (qsum_perm y _ _ P), <- H1 in H2.
  revert H2. generalize (qsum (fun a => (x a * y a)%Qc) top).
  repeat match goal with |- context[qsum ?f ?l] => generalize (qsum f l) end. intros; qclra.
Qed.

Lemma saf_entry_half x y top bot : saf_entry x y top bot = (half x y top bot - half y x top bot)%Qc.
Proof. unfold saf_entry, half. rewrite <- qsum_sub. reflexivity. Qed.

Lemma saf_entry_zero_half x y top bot : NoDup top -> Permutation top bot ->
  saf_entry x y top bot = 0%Qc -> half x y top bot = 0%Qc.
Proof.
  intros N P H. rewrite saf_entry_half in H. pose proof (half_antisym x y top bot N P).
  revert H H0. generalize (half x y top bot) (half y x top bot). intros; qclra.
Qed.

(** If all coordinates are multiples of one then the invariant vanishes. *)
Lemma saf_entry_proportional f p q top bot :
  saf_entry (fun a => (p * f a)%Qc) (fun a => (q * f a)%Qc) top bot = 0%Qc.
Proof.
  assert (E : forall k l a, before (fun a => (k * f a)%Qc) l a = (k * before f l a)%Qc).
  { intros k l a. induction l as [|c l IH]; simpl; [ring|]. destruct (Nat.eqb c a); [ring|]. rewrite IH. ring. }
  assert (G : forall l, qsum (fun a => (p * f a * displacement (fun a => q * f a) top bot a
      - q * f a * displacement (fun a => p * f a) top bot a)%Qc) l = 0%Qc).
  { induction l as [|c l IH]; simpl; [reflexivity|]. rewrite IH. unfold displacement. rewrite !E. ring. }
  apply G.
Qed.

(** * What the code computes *)

Section Model.
Context {T : Type} {O : LenOps T} {W : LenLaws T}.

(** Length of a label in a store. *)
Definition lamT (s : slen T) (l : label) : T :=
  match nth_error (sl_lens s) l with Some x => x | None => l_zero end.

Lemma val_lamT s l : val (lamT s l) = lamR s l.
Proof. unfold lamT, lamR. destruct (nth_error (sl_lens s) l); [reflexivity | apply val_zero]. Qed.

(** The [k]-th coordinate of the length of a label. *)
Definition co (len : label -> T) (k : nat) (a : label) : Qc := nth k (l_coef (len a)) 0%Qc.

Definition saf_of (len : label -> T) (top bot : list label) : vec := saf_vector (l_deg T) (co len) top bot.

Lemma coef_tab (len : label -> T) a : l_coef (len a) = tab (l_deg T) (fun k => co len k a).
Proof. apply tab_of, coef_length. Qed.

Lemma posl_at s l : posl s l -> sl_at s l = Ok (lamT s l).
Proof. intros [x [H _]]. unfold sl_at, lamT. rewrite H. reflexivity. Qed.

Lemma coefficients_ok (s : slen T) ls : (forall l, In l ls -> posl s l) ->
  sl_coefficients s ls = Ok (map (fun l => l_coef (lamT s l)) ls).
Proof.
  intros H. unfold sl_coefficients. rewrite (mapM_ok (sl_at s) (lamT s)) by (intros l Hl; apply posl_at, H, Hl).
  cbn [bind]. rewrite coefs_map, map_map. reflexivity.
Qed.

Definition cmap (s : slen T) (ls : list label) : coefmap := combine ls (map (fun l => l_coef (lamT s l)) ls).

Lemma cm_at_ok s ls l : In l ls -> cm_at (cmap s ls) l = Ok (l_coef (lamT s l)).
Proof.
  unfold cmap. induction ls as [|a ls IH]; intros H; [contradiction|]. simpl.
  destruct (Nat.eqb_spec a l) as [->|Hne]; [reflexivity|]. apply IH. destruct H; [contradiction | assumption].
Qed.

Lemma walk_add_ok s ls stop m f : (forall l, In l ls -> cm_at m l = Ok (l_coef (lamT s l))) ->
  walk_until vadd_c m stop ls (tab (l_deg T) f) = Ok (tab (l_deg T) (fun k => (f k + before (co (lamT s) k) ls stop)%Qc)).
Proof.
  revert f; induction ls as [|a ls IH]; intros f H; simpl.
  - f_equal. apply tab_ext. intros; ring.
  - destruct (Nat.eqb_spec a stop) as [->|Hne].
    + f_equal. apply tab_ext. intros; ring.
    + rewrite (H a) by (left; reflexivity). cbn [bind]. rewrite (coef_tab (lamT s) a).
      unfold vadd_c at 1. rewrite !tab_length, Nat.eqb_refl. cbn [assert_ bind]. rewrite vadd_tab.
      rewrite IH by (intros l Hl; apply H; right; exact Hl). f_equal. apply tab_ext. intros k _. ring.
Qed.

Lemma walk_sub_ok s ls stop m f : (forall l, In l ls -> cm_at m l = Ok (l_coef (lamT s l))) ->
  walk_until vsub_c m stop ls (tab (l_deg T) f) = Ok (tab (l_deg T) (fun k => (f k - before (co (lamT s) k) ls stop)%Qc)).
Proof.
  revert f; induction ls as [|a ls IH]; intros f H; simpl.
  - f_equal. apply tab_ext. intros; ring.
  - destruct (Nat.eqb_spec a stop) as [->|Hne].
    + f_equal. apply tab_ext. intros; ring.
    + rewrite (H a) by (left; reflexivity). cbn [bind]. rewrite (coef_tab (lamT s) a).
      unfold vsub_c at 1. rewrite !tab_length, Nat.eqb_refl. cbn [assert_ bind]. rewrite vsub_tab.
      rewrite IH by (intros l Hl; apply H; right; exact Hl). f_equal. apply tab_ext. intros k _. ring.
Qed.

Lemma label_to_coefficients_ok i s : wf i s -> label_to_coefficients i s = Ok (cmap s (i_top i)).
Proof.
  intros [_ [_ [_ [H _]]]]. unfold label_to_coefficients, iet_coefficients. rewrite coefficients_ok by exact H. reflexivity.
Qed.

Lemma translation_ok i s t b : wf i s ->
  translation i t b (cmap s (i_top i)) =
  Ok (tab (l_deg T) (fun k => (before (co (lamT s) k) (i_bottom i) b - before (co (lamT s) k) (i_top i) t)%Qc)).
Proof.
  intros [_ [P [Hne [Hp _]]]]. unfold translation.
  assert (Hd : exists l v m, cmap s (i_top i) = (l, v) :: m /\ length v = l_deg T).
  { unfold cmap. destruct (i_top i) as [|a X]; [contradiction|]. simpl. do 3 eexists. split; [reflexivity | apply coef_length]. }
  destruct Hd as [l [v [m [E Hv]]]]. rewrite E, Hv, <- E, vzero_tab.
  rewrite (walk_sub_ok s) by (intros c Hc; apply cm_at_ok, Hc). cbn [bind].
  rewrite (walk_add_ok s) by (intros c Hc; apply cm_at_ok; eapply Permutation_in; [symmetry|]; eassumption).
  f_equal. apply tab_ext. intros k _. ring.
Qed.

Lemma translations_ok i s : wf i s ->
  translations i s = Ok (map (fun a => tab (l_deg T) (fun k => displacement (co (lamT s) k) (i_top i) (i_bottom i) a)) (i_top i)).
Proof.
  intros H. unfold translations. rewrite label_to_coefficients_ok by exact H. cbn [bind].
  apply mapM_ok. intros a _. apply translation_ok, H.
Qed.

Lemma saf_sum_ok (len : label -> T) (t : label -> nat -> Qc) ls (acc : nat * nat -> Qc) :
  saf_sum (map (fun a => l_coef (len a)) ls) (map (fun a => tab (l_deg T) (t a)) ls) (map acc (pairs (l_deg T)))
  = Ok (map (fun p => (acc p + qsum (fun a => (co len (fst p) a * t a (snd p) - co len (snd p) a * t a (fst p))%Qc) ls)%Qc) (pairs (l_deg T))).
Proof.
  revert acc; induction ls as [|a ls IH]; intros acc; cbn [map saf_sum qsum].
  - f_equal. apply map_ext. intros; ring.
  - unfold wedge_c. rewrite coef_length, tab_length, Nat.eqb_refl. cbn [check_ bind].
    rewrite (coef_tab len a), wedge_tab. unfold vadd_c. rewrite !map_length, Nat.eqb_refl. cbn [assert_ bind].
    assert (E : forall f g (l : list (nat * nat)), vadd (map f l) (map g l) = map (fun p => (f p + g p)%Qc) l).
    { intros f g l; induction l as [|p l IHl]; simpl; [reflexivity | f_equal; exact IHl]. }
    rewrite E, IH. f_equal. apply map_ext. intros p. ring.
Qed.

(** [safInvariant] from scratch is [sum_a length(a) wedge displacement(a)]. *)
Lemma saf_raw_ok i s : wf i s -> saf_raw i s = Ok (saf_of (lamT s) (i_top i) (i_bottom i)).
Proof.
  intros H. unfold saf_raw, iet_coefficients. destruct H as [N [P [Hne [Hp Hst]]]].
  rewrite coefficients_ok by exact Hp. cbn [bind].
  destruct (i_top i) as [|a0 X] eqn:Et; [contradiction|]. cbn [map]. rewrite coef_length.
  pose proof (deg_pos (T := T)) as Hd.
  destruct (Nat.leb_spec (l_deg T) 1) as [Hle|Hgt].
  - assert (E : l_deg T = 1) by lia. unfold saf_of, saf_vector. rewrite E. reflexivity.
  - rewrite translations_ok by (unfold wf; rewrite Et; auto). cbn [bind]. rewrite Et.
    change (l_coef (lamT s a0) :: map (fun l => l_coef (lamT s l)) X) with (map (fun l => l_coef (lamT s l)) (a0 :: X)).
    rewrite <- pairs_length_div.
    assert (Ez : vzero (length (pairs (l_deg T))) = map (fun _ => 0%Qc) (pairs (l_deg T))).
    { induction (pairs (l_deg T)) as [|p l IH]; simpl; [reflexivity | f_equal; exact IH]. }
    rewrite Ez, (saf_sum_ok (lamT s) (fun a k => displacement (co (lamT s) k) (a0 :: X) (i_bottom i) a)).
    f_equal. unfold saf_of, saf_vector. apply map_ext. intros p. unfold saf_entry. ring.
Qed.

(** ** Invariance *)

Lemma saf_of_ext (len len' : label -> T) top bot : (forall a, In a top -> len a = len' a) -> Permutation top bot ->
  saf_of len top bot = saf_of len' top bot.
Proof.
  intros H P. unfold saf_of, saf_vector. apply map_ext. intros p.
  apply saf_entry_ext; [| |exact P]; intros a Ha; unfold co; rewrite (H a Ha); reflexivity.
Qed.

Lemma co_sub (len len' : label -> T) k a b : k < l_deg T -> len' a = l_sub (len a) (len b) ->
  co len' k a = (co len k a - co len k b)%Qc.
Proof. intros Hk E. unfold co. rewrite E, coef_sub, nth_vsub; [reflexivity|]. rewrite !coef_length. reflexivity. Qed.

Lemma saf_of_step (len len' : label -> T) a b X Y1 Y2 :
  NoDup (a :: X) -> Permutation (a :: X) (b :: Y1 ++ a :: Y2) ->
  len' a = l_sub (len a) (len b) -> (forall c, c <> a -> len' c = len c) ->
  saf_of len' (a :: X) (Y1 ++ b :: a :: Y2) = saf_of len (a :: X) (b :: Y1 ++ a :: Y2).
Proof.
  intros N P Ha Hc. unfold saf_of, saf_vector. apply map_ext_in. intros [p q] Hpq. apply pairs_In in Hpq. cbn [fst snd].
  apply saf_entry_step; auto; try (apply co_sub; [lia | exact Ha]);
    intros c Hcc; unfold co; rewrite (Hc c Hcc); reflexivity.
Qed.

Lemma saf_of_merge (len : label -> T) a b X Y1 Y2 :
  NoDup (a :: X) -> Permutation (a :: X) (b :: Y1 ++ a :: Y2) -> len a = len b ->
  saf_of len X (Y1 ++ b :: Y2) = saf_of len (a :: X) (b :: Y1 ++ a :: Y2).
Proof.
  intros N P H. unfold saf_of, saf_vector. apply map_ext. intros p.
  apply saf_entry_merge; auto; unfold co; rewrite H; reflexivity.
Qed.

Lemma vneg_map {A} (f : A -> Qc) l : vneg (map f l) = map (fun a => (- f a)%Qc) l.
Proof. induction l; simpl; congruence. Qed.

Lemma saf_of_flip (len : label -> T) top bot : NoDup top -> Permutation top bot ->
  saf_of len bot top = vneg (saf_of len top bot).
Proof.
  intros N P. unfold saf_of, saf_vector. rewrite vneg_map. apply map_ext. intros p. apply saf_entry_flip; assumption.
Qed.

Lemma saf_of_cut (len : label -> T) T1 T2 B1 B2 :
  NoDup (T1 ++ T2) -> Permutation T1 B1 -> Permutation T2 B2 ->
  saf_of len (T1 ++ T2) (B1 ++ B2) = vadd (saf_of len T1 B1) (saf_of len T2 B2).
Proof.
  intros N P1 P2. unfold saf_of, saf_vector. induction (pairs (l_deg T)) as [|p l IH]; simpl; [reflexivity|].
  f_equal; [apply saf_entry_cut; assumption | exact IH].
Qed.

(** Any run of elementary steps preserves the invariant. *)
Lemma saf_of_run e e' (len len' : label -> T) :
  Spec.rauzy_run e e' -> NoDup (Spec.e_top e) -> Permutation (Spec.e_top e) (Spec.e_bot e) ->
  (forall c, Spec.e_len e c = val (len c)) -> (forall c, Spec.e_len e' c = val (len' c)) ->
  saf_of len (Spec.e_top e) (Spec.e_bot e) = saf_of len' (Spec.e_top e') (Spec.e_bot e').
Proof.
  intros Hr. revert len. induction Hr as [e e' [E1 [E2 E3]]|e e1 e' Hs Hr IH]; intros len N P Hl Hl'.
  - rewrite <- E1, <- E2. apply saf_of_ext; [|exact P]. intros a _. apply val_inj. rewrite <- Hl, <- Hl'. apply E3.
  - destruct Hs as (a & b & X & Y1 & Y2 & Et & Eb & Hlt & Et' & Eb' & Ea & Ec).
    set (len1 := fun c => if Nat.eqb c a then l_sub (len a) (len b) else len c).
    assert (H1 : forall c, Spec.e_len e1 c = val (len1 c)).
    { intros c. unfold len1. destruct (Nat.eqb_spec c a) as [->|Hne].
      - rewrite Ea, val_sub, !Hl. reflexivity.
      - rewrite Ec, Hl by exact Hne. reflexivity. }
    assert (P1 : Permutation (a :: X) (Y1 ++ b :: a :: Y2)).
    { rewrite <- Et, P, Eb. apply (Permutation_middle Y1 (a :: Y2) b). }
    rewrite <- (IH len1); [| rewrite Et', Et in *; exact N | rewrite Et', Eb', Et; exact P1 | exact H1 | exact Hl'].
    rewrite Et', Eb', Et, Eb. symmetry. rewrite Et in N. rewrite Et, Eb in P. apply saf_of_step; auto.
    + unfold len1. rewrite Nat.eqb_refl. reflexivity.
    + intros c Hc. unfold len1. destruct (Nat.eqb_spec c a); [contradiction | reflexivity].
Qed.

(** ** The cache *)

(** The cached value is the invariant up to the sign for [swap]. *)
Definition saf_now (i : iet T) (s : slen T) : vec := saf_of (lamT s) (i_top i) (i_bottom i).

Definition cache_ok (i : iet T) (s : slen T) : Prop :=
  match i_saf i with
  | None => True
  | Some v => v = if i_swap i then vneg (saf_now i s) else saf_now i s
  end.

Lemma iet_saf_ok i s : wf i s -> cache_ok i s ->
  let v := if i_swap i then vneg (saf_now i s) else saf_now i s in
  iet_saf i s = Ok (v, set_saf i (Some v)).
Proof.
  intros H C v. unfold iet_saf, cache_ok in *. destruct i as [t b sw sf tr]; simpl in *. destruct sf as [w|]; simpl in *.
  - rewrite C. reflexivity.
  - rewrite saf_raw_ok by exact H. cbn [bind]. reflexivity.
Qed.

Lemma saf_invariant_ok i s : wf i s -> cache_ok i s ->
  exists v, saf_invariant i s = Ok (saf_now i s, set_saf i (Some v)) /\ cache_ok (set_saf i (Some v)) s.
Proof.
  intros H C. unfold saf_invariant. rewrite iet_saf_ok by assumption. cbn [bind].
  exists (if i_swap i then vneg (saf_now i s) else saf_now i s). split.
  - destruct (i_swap i) eqn:E; simpl; rewrite E; [rewrite vneg_involutive|]; reflexivity.
  - unfold cache_ok. destruct (i_swap i) eqn:E; simpl; rewrite E; reflexivity.
Qed.

Lemma iet_saf0_ok i s : wf i s -> cache_ok i s ->
  exists v, iet_saf0 i s = Ok (vis0 (saf_now i s), set_saf i (Some v)) /\ cache_ok (set_saf i (Some v)) s /\
    (vis0 v = vis0 (saf_now i s)) /\ length v = length (saf_now i s).
Proof.
  intros H C. unfold iet_saf0. rewrite iet_saf_ok by assumption. cbn [bind].
  assert (E0 : forall u, vis0 (vneg u) = vis0 u).
  { induction u as [|x u IH]; simpl; [reflexivity|]. rewrite IH. f_equal.
    destruct (Qc_eq_dec (- x) 0), (Qc_eq_dec x 0); try reflexivity; exfalso; [apply n | apply n]; qclra. }
  exists (if i_swap i then vneg (saf_now i s) else saf_now i s). split; [|split; [|split]].
  - destruct (i_swap i); [rewrite E0|]; reflexivity.
  - unfold cache_ok. destruct (i_swap i) eqn:E; simpl; rewrite E; reflexivity.
  - destruct (i_swap i); [apply E0 | reflexivity].
  - destruct (i_swap i); [apply vneg_length | reflexivity].
Qed.

Lemma cache_set_saf i s v : wf i s -> wf (set_saf i v) s.
Proof. intros H. exact H. Qed.

Lemma swap_wf i s : wf i s -> wf (iet_swap i) s.
Proof.
  intros (N & P & Hne & Hp & Hst). unfold wf, iet_swap; simpl. split; [eapply Permutation_NoDup; eassumption|].
  split; [apply Permutation_sym, P|]. split; [intros E; rewrite E in P; apply Permutation_sym, Permutation_nil in P; contradiction|].
  split; [|exact Hst]. intros l Hl. apply Hp. eapply Permutation_in; [symmetry|]; eassumption.
Qed.

Lemma swap_saf i s : wf i s -> saf_now (iet_swap i) s = vneg (saf_now i s).
Proof. intros (N & P & _). unfold saf_now; simpl. apply saf_of_flip; assumption. Qed.

Lemma swap_cache i s : wf i s -> cache_ok i s -> cache_ok (iet_swap i) s.
Proof.
  intros H C. unfold cache_ok in *. change (i_saf (iet_swap i)) with (i_saf i). destruct (i_saf i) as [v|]; [|exact I].
  rewrite swap_saf by exact H. change (i_swap (iet_swap i)) with (negb (i_swap i)).
  destruct (i_swap i); simpl; rewrite C; [|rewrite vneg_involutive]; reflexivity.
Qed.

Lemma zorich_saf i s found bottom s' : wf i s -> zorich sample_lens i s = Ok (found, set_bottom i bottom, s') ->
  saf_now (set_bottom i bottom) s' = saf_now i s.
Proof.
  intros H E. destruct (zorich_ok i s H) as (f & b & s1 & E1 & H1 & R & _). rewrite E in E1. inversion E1; subst f s1.
  assert (Eb : b = bottom) by (inversion E1; congruence). subst b.
  destruct H as (N & P & _). symmetry.
  exact (saf_of_run (exch_of i s) (exch_of (set_bottom i bottom) s') (lamT s) (lamT s') R N P
           (fun c => eq_sym (val_lamT s c)) (fun c => eq_sym (val_lamT s' c))).
Qed.

Lemma zorich_cache i s found bottom s' : wf i s -> zorich sample_lens i s = Ok (found, set_bottom i bottom, s') ->
  cache_ok i s -> cache_ok (set_bottom i bottom) s'.
Proof.
  intros H E C. pose proof (zorich_saf _ _ _ _ _ H E) as Es. unfold cache_ok in *. simpl in *.
  rewrite Es. exact C.
Qed.

(** ** Commensurable lengths *)

Lemma coef_scale_pos n x : l_coef (l_scale (Z.of_nat n) x) = vscale (zq (Z.of_nat n)) (l_coef x).
Proof.
  induction n as [|n IH].
  - assert (E : l_scale 0 x = l_zero) by (apply val_inj; rewrite val_scale, val_zero; lra).
    change (Z.of_nat 0) with 0%Z. rewrite E, coef_zero. apply vec_ext; [rewrite vzero_length, vscale_length, coef_length; reflexivity|].
    intros k. rewrite nth_vzero, nth_vscale. change (zq 0) with 0%Qc. ring.
  - assert (E : l_scale (Z.of_nat (S n)) x = l_add (l_scale (Z.of_nat n) x) x).
    { apply val_inj. rewrite val_add, !val_scale, Nat2Z.inj_succ, succ_IZR. lra. }
    rewrite E, coef_add, IH. apply vec_ext; [rewrite vadd_length; rewrite ?vscale_length, ?coef_length; reflexivity|].
    intros k. rewrite nth_vadd by (rewrite vscale_length; reflexivity). rewrite !nth_vscale.
    assert (Ez : zq (Z.of_nat (S n)) = (zq (Z.of_nat n) + 1)%Qc).
    { rewrite Nat2Z.inj_succ. unfold Z.succ. rewrite LenInst.zq_add. reflexivity. }
    rewrite Ez. ring.
Qed.

(** If all lengths are rational multiples of one then the invariant vanishes. *)
Lemma saf_commensurable i s : wf i s -> Spec.commensurable (lamR s) (i_top i) -> saf_now i s = vzero (length (saf_now i s)).
Proof.
  intros (N & P & Hne & Hp & _) Hc. destruct (i_top i) as [|a0 X] eqn:Et; [contradiction|].
  assert (Hr : forall a, In a (a0 :: X) -> exists r, forall k, co (lamT s) k a = (r * co (lamT s) k a0)%Qc).
  { intros a Ha. destruct (Hc a a0 Ha (or_introl eq_refl)) as (n & m & Hn & Hm & E).
    exists (zq (Z.of_nat m) / zq (Z.of_nat n))%Qc. intros k.
    assert (E' : l_scale (Z.of_nat n) (lamT s a) = l_scale (Z.of_nat m) (lamT s a0)).
    { apply val_inj. rewrite !val_scale, !val_lamT, <- !INR_IZR_INZ. exact E. }
    apply (f_equal l_coef) in E'. rewrite !coef_scale_pos in E'.
    apply (f_equal (fun v => nth k v 0%Qc)) in E'. rewrite !nth_vscale in E'. fold (co (lamT s) k a) (co (lamT s) k a0) in E'.
    assert (Hz : zq (Z.of_nat n) <> 0%Qc).
    { pose proof (zq_pos (Z.of_nat n) ltac:(lia)) as Hz. intros E0. rewrite E0 in Hz. qclra. }
    apply (f_equal (fun v => (/ zq (Z.of_nat n) * v)%Qc)) in E'.
    rewrite Qcmult_assoc, (Qcmult_comm _ (zq _)), Qcmult_inv_r, Qcmult_1_l in E' by exact Hz. rewrite E'. field. exact Hz. }
  assert (Hf : exists r : label -> Qc, forall a, In a (a0 :: X) -> forall k, co (lamT s) k a = (r a * co (lamT s) k a0)%Qc).
  { clear - Hr. induction (a0 :: X) as [|b l IH] in Hr |- *.
    - exists (fun _ => 0%Qc). intros a [].
    - destruct IH as [r Hr']; [intros; apply Hr; right; assumption|].
      destruct (Hr b (or_introl eq_refl)) as [q Hq].
      exists (fun a => if Nat.eqb a b then q else r a). intros a Ha k.
      destruct (Nat.eqb_spec a b) as [->|Hne]; [apply Hq | apply Hr'; destruct Ha; [congruence | assumption]]. }
  destruct Hf as [r Hf]. unfold saf_now, saf_of, saf_vector. rewrite Et, map_length.
  assert (E : forall l : list (nat * nat), map (fun p => saf_entry (co (lamT s) (fst p)) (co (lamT s) (snd p)) (a0 :: X) (i_bottom i)) l = vzero (length l)).
  { induction l as [|p l IH]; simpl map; [reflexivity|]. simpl length. cbn [vzero]. f_equal; [|exact IH].
    rewrite (saf_entry_ext _ _ (fun a => (co (lamT s) (fst p) a0 * r a)%Qc) (fun a => (co (lamT s) (snd p) a0 * r a)%Qc)).
    - apply saf_entry_proportional.
    - intros a Ha. rewrite (Hf a Ha). ring.
    - intros a Ha. rewrite (Hf a Ha). ring.
    - exact P. }
  apply E.
Qed.

End Model.
