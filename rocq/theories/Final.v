(** Positive answers of Boshernitzan's criteria survive induction, splitting and merging:
    the displacements of what is found later are non-negative integer combinations of the
    displacements now. *)
From Coq Require Import Reals Lra Lia Permutation QArith Qcanon List ZArith Classical.
From Verif Require Import Base QcTac LenT FM Subspace Lengths IET LenInst Decomp Spec SpecDec SpecLin Api DecApi RankApi.
From Verif Require Import ZorichProof Dyn Path Saf Bosh Saddle Direct Similar ReduceProof InduceProof InduceCons World Seq.
From Verif Require Import DecompSim DecompInv DecompNav DecompRef DecompStep DecompAll DecompEnds DecompMore DecompBudget Endless RankDec Tower Indep IndepDec.
Open Scope R_scope.

(** * Rows *)

Lemma right_end_left f l c x : NoDup l -> right_end f l c x <-> In c l /\ x = left_end f l c + f c.
Proof.
  intro N. split.
  - intros (X & Y & -> & ->). split; [apply in_elt|]. rewrite left_end_split; [reflexivity|].
    intro H. apply NoDup_remove_2 in N. apply N. rewrite in_app_iff. auto.
  - intros (H & ->). apply in_split in H as (X & Y & ->). exists X, Y. split; [reflexivity|].
    rewrite left_end_split; [reflexivity|]. intro H. apply NoDup_remove_2 in N. apply N. rewrite in_app_iff. auto.
Qed.

Lemma left_end_prefix f X Y c : In c X -> left_end f (X ++ Y) c = left_end f X c.
Proof.
  intro I. induction X as [|y X IH]; [destruct I|]. simpl. destruct (Nat.eqb_spec y c); [reflexivity|].
  rewrite IH; [reflexivity|]. destruct I; [contradiction|assumption].
Qed.

Lemma total_one w a l : NoDup l -> In a l -> total (fun c => if Nat.eqb c a then w else 0) l = w.
Proof.
  intros N I. apply in_split in I as (X & Y & ->). rewrite (total_perm _ _ _ (Permutation_sym (Permutation_middle X Y a))).
  cbn [total]. rewrite Nat.eqb_refl. rewrite total_zero; [lra|]. intros c Hc. destruct (Nat.eqb_spec c a) as [->|]; [|reflexivity].
  apply NoDup_remove_2 in N. contradiction.
Qed.

Lemma total_sum f g l : total (fun c => f c + g c) l = total f l + total g l.
Proof. induction l as [|a l IH]; simpl; [lra|]. rewrite IH. lra. Qed.

(** * The displacements after a step *)

(** What both kinds of steps have in common: [a] is followed by [b], and everything else
    is as before. *)
Record stepped (e e' : exch) (a b : lab) : Prop := {
  st_ne : a <> b;
  st_a : In a (e_top e);
  st_b : In b (e_top e');
  st_in : forall c, In c (e_top e') -> In c (e_top e);
  st_out : forall c, In c (e_top e) -> c = a \/ In c (e_top e');
  st_bin : forall c, In c (e_bot e') -> In c (e_bot e);
  st_shift : forall c, In c (e_top e') -> c <> b -> shift e' c = shift e c;
  st_shift_b : shift e' b = shift e b + shift e a;
  st_top : forall c, In c (e_top e') -> left_end (e_len e') (e_top e') c + e_len e' c = left_end (e_len e) (e_top e) c + e_len e c - e_len e b;
  st_bot : forall c, In c (e_top e') -> left_end (e_len e') (e_bot e') c + e_len e' c =
    left_end (e_len e) (e_bot e) c + e_len e c - e_len e b + (if Nat.eqb c b then shift e a else 0);
  st_last_top : forall c, not_last (e_top e') c -> not_last (e_top e) c;
  st_last_bot : forall c, not_last (e_bot e') c -> not_last (e_bot e) c;
}.

Lemma not_last_iff (l : list lab) c : NoDup l -> not_last l c <-> In c l /\ hd_error (rev l) <> Some c.
Proof.
  intro N. split.
  - intros (X & d & Y & ->). split; [apply in_elt|]. intro H.
    assert (E : X ++ c :: d :: Y = (X ++ [c]) ++ d :: Y) by (rewrite <- app_assoc; reflexivity).
    assert (Q : exists Z z, d :: Y = Z ++ [z]) by (destruct (exists_last (l := d :: Y)) as (Z & z & Q); [discriminate|eauto]).
    destruct Q as (Z & z & Q). rewrite E, Q, app_assoc, rev_app_distr in H. simpl in H. injection H as ->.
    rewrite E, Q, <- app_assoc in N. simpl in N. apply NoDup_remove_2 in N. apply N. rewrite !in_app_iff. right. right. left. reflexivity.
  - intros (H & L). apply in_split in H as (X & Y & ->). destruct Y as [|d Y]; [|exists X, d, Y; reflexivity].
    exfalso. apply L. rewrite rev_app_distr. reflexivity.
Qed.

Lemma rev_hd_app (X Y : list lab) : Y <> [] -> hd_error (rev (X ++ Y)) = hd_error (rev Y).
Proof. intro H. destruct (exists_last H) as (Z & z & ->). rewrite app_assoc, !rev_app_distr. reflexivity. Qed.

Lemma step_stepped e e' : proper e -> rauzy_step e e' -> exists a b, stepped e e' a b /\ Permutation (e_top e) (e_top e').
Proof.
  intros P S. pose proof (rauzy_step_proper _ _ P S) as P'. pose proof (proper_bot_nodup _ P') as NB'.
  destruct S as (a & b & X & Y1 & Y2 & Et & Eb & Hlt & Et' & Eb' & Ha & Hc).
  pose proof P as [N [Pm Pos]]. pose proof (proper_bot_nodup _ P) as NB. pose proof NB as NB0. rewrite Eb in NB0.
  assert (Hab : a <> b) by (inversion NB0 as [|? ? Q _]; intros ->; apply Q; apply in_or_app; right; left; reflexivity).
  assert (Ia : In a (e_top e)) by (rewrite Et; left; reflexivity).
  assert (Ib : In b (e_top e)) by (apply (Permutation_in _ (Permutation_sym Pm)); rewrite Eb; left; reflexivity).
  destruct (row_move (e_len e) (e_len e') a b Y1 Y2 NB0 Ha Hc) as (B1 & B2 & B3). rewrite <- Eb, <- Eb' in B1, B2, B3.
  assert (T3 : forall c, In c (e_top e) -> c <> a -> left_end (e_len e') (e_top e') c = left_end (e_len e) (e_top e) c - e_len e b).
  { intros c Hi Ca. rewrite Et', Et. rewrite !left_end_tl by auto. rewrite Et in N. rewrite (row_same (e_len e) (e_len e') a X c N Ca Hc), Ha. lra. }
  assert (Bb0 : left_end (e_len e) (e_bot e) b = 0) by (rewrite Eb; apply left_end_hd).
  assert (Ta0 : left_end (e_len e) (e_top e) a = 0) by (rewrite Et; apply left_end_hd).
  assert (Ta1 : left_end (e_len e') (e_top e') a = 0) by (rewrite Et', Et; apply left_end_hd).
  assert (PB : forall c, In c (e_bot e') -> In c (e_bot e)).
  { intros c. rewrite Eb, Eb'. simpl. rewrite !in_app_iff. simpl. tauto. }
  exists a, b. split; [|rewrite Et'; reflexivity]. split; auto.
  - rewrite Et'. exact Ib.
  - intros c. rewrite Et'. auto.
  - intros c. rewrite Et'. auto.
  - intros c Hi Cb. rewrite Et' in Hi. unfold shift. destruct (Nat.eq_dec c a) as [->|Ca]; [lra|].
    rewrite (B3 c Ca Cb), (T3 c Hi Ca). lra.
  - unfold shift. rewrite B1, (T3 b Ib) by auto. lra.
  - intros c Hi. rewrite Et' in Hi. destruct (Nat.eq_dec c a) as [->|Ca]; [lra|]. rewrite (T3 c Hi Ca), (Hc c Ca). lra.
  - intros c Hi. rewrite Et' in Hi. destruct (Nat.eqb_spec c b) as [->|Cb].
    + rewrite B1, Hc by auto. unfold shift. lra.
    + destruct (Nat.eq_dec c a) as [->|Ca]; [lra|]. rewrite (B3 c Ca Cb), (Hc c Ca). lra.
  - intros c. rewrite Et'. auto.
  - intros c. rewrite (not_last_iff _ c NB), (not_last_iff _ c NB'). intros (Hi & L). split; [apply PB, Hi|].
    intro H. apply L. rewrite <- H, Eb, Eb'. change (b :: Y1 ++ a :: Y2) with ((b :: Y1) ++ a :: Y2).
    rewrite (rev_hd_app Y1 (b :: a :: Y2)), (rev_hd_app (b :: Y1) (a :: Y2)) by discriminate.
    apply (rev_hd_app [b]). discriminate.
Qed.

Lemma merge_stepped e e' : proper e -> merge_step e e' -> exists a b, stepped e e' a b /\ e_top e = a :: e_top e'.
Proof.
  intros P S. destruct S as (a & b & X & Y1 & Y2 & Et & Eb & Hl & Et' & Eb' & Hc).
  pose proof P as [N [Pm Pos]]. pose proof (proper_bot_nodup _ P) as NB. pose proof N as N'. rewrite Et in N'. pose proof NB as NB0. rewrite Eb in NB0.
  assert (Hab : a <> b) by (inversion NB0 as [|? ? Q _]; intros ->; apply Q; apply in_or_app; right; left; reflexivity).
  assert (Ia : In a (e_top e)) by (rewrite Et; left; reflexivity).
  assert (Ib : In b (e_top e)) by (apply (Permutation_in _ (Permutation_sym Pm)); rewrite Eb; left; reflexivity).
  destruct (row_merge (e_len e) (e_len e') a b Y1 Y2 NB0 Hl Hc) as (B1 & B3). rewrite <- Eb, <- Eb' in B1, B3.
  assert (T3 : forall c, c <> a -> left_end (e_len e') (e_top e') c = left_end (e_len e) (e_top e) c - e_len e b).
  { intros c Ca. rewrite Et', Et. rewrite left_end_tl by auto. rewrite (row_same (e_len e) (e_len e') a X c N' Ca Hc), Hl. lra. }
  assert (Bb0 : left_end (e_len e) (e_bot e) b = 0) by (rewrite Eb; apply left_end_hd).
  assert (Ta0 : left_end (e_len e) (e_top e) a = 0) by (rewrite Et; apply left_end_hd).
  assert (HaX : ~ In a X) by (inversion N'; assumption).
  assert (IbX : In b X) by (rewrite Et in Ib; destruct Ib; [congruence|assumption]).
  assert (NX : NoDup X) by (inversion N'; assumption).
  assert (Ca : forall c, In c (e_top e') -> c <> a) by (intros c Hi ->; rewrite Et' in Hi; contradiction).
  assert (NY : NoDup (Y1 ++ b :: Y2)).
  { inversion NB0 as [|? ? Q1 Q2]; subst. apply (Permutation_NoDup (l := b :: Y1 ++ Y2)); [apply Permutation_middle|].
    constructor; [|apply (NoDup_remove_1 _ _ _ Q2)]. intro H. apply Q1. rewrite in_app_iff in *. simpl. tauto. }
  assert (PB : forall c, In c (e_bot e') -> In c (e_bot e)).
  { intros c. rewrite Eb, Eb'. simpl. rewrite !in_app_iff. simpl. tauto. }
  exists a, b. split; [|rewrite Et, Et'; reflexivity]. split; auto.
  - rewrite Et'. exact IbX.
  - intros c. rewrite Et', Et. right. assumption.
  - intros c. rewrite Et', Et. intros [H|H]; auto.
  - intros c Hi Cb. unfold shift. rewrite (B3 c (Ca c Hi) Cb), (T3 c (Ca c Hi)). lra.
  - unfold shift. rewrite B1, (T3 b) by auto. lra.
  - intros c Hi. rewrite (T3 c (Ca c Hi)), Hc by (apply Ca, Hi). lra.
  - intros c Hi. destruct (Nat.eqb_spec c b) as [->|Cb].
    + rewrite B1, Hc by auto. unfold shift. lra.
    + rewrite (B3 c (Ca c Hi) Cb), Hc by (apply Ca, Hi). lra.
  - intros c (U & d & V & E). rewrite Et' in E. exists (a :: U), d, V. rewrite Et, E. reflexivity.
  - intros c. rewrite Eb'. rewrite (not_last_iff _ c NB), (not_last_iff _ c NY). intros (Hi & L). rewrite <- Eb' in Hi. split; [apply PB, Hi|].
    rewrite Eb. change (b :: Y1 ++ a :: Y2) with ((b :: Y1) ++ a :: Y2). rewrite (rev_hd_app _ (a :: Y2)) by discriminate.
    rewrite (rev_hd_app Y1 (b :: Y2)) in L by discriminate. destruct Y2 as [|y Y2].
    + simpl. intro H. injection H as <-. rewrite Eb' in Hi. rewrite in_app_iff in Hi. simpl in Hi.
      inversion NB0 as [|? ? _ Q2]; subst. apply NoDup_remove_2 in Q2. rewrite app_nil_r in Q2. destruct Hi as [Hi|[Hi|[]]]; [auto|congruence].
    + pose proof (rev_hd_app [b] (y :: Y2)) as Q1. pose proof (rev_hd_app [a] (y :: Y2)) as Q2. cbn [app] in Q1, Q2.
      rewrite Q1 in L by discriminate. rewrite Q2 by discriminate. exact L.
Qed.

(** Multiplicities for [e'] as multiplicities for [e]. *)
Definition pulled (a b : lab) (keep : bool) (w : lab -> R) (c : lab) : R :=
  if Nat.eqb c a then (if keep then w a else 0) + w b else w c.

Lemma stepped_total e e' a b (keep : bool) (w : lab -> R) : NoDup (e_top e) -> stepped e e' a b ->
  (if keep then Permutation (e_top e) (e_top e') else e_top e = a :: e_top e') ->
  total (fun c => w c * shift e' c) (e_top e') = total (fun c => pulled a b keep w c * shift e c) (e_top e).
Proof.
  intros N S K. pose proof (st_ne _ _ _ _ S) as Hab. destruct keep.
  - rewrite (total_perm _ _ _ K). pose proof (Permutation_NoDup K N) as N'.
    assert (Ia : In a (e_top e')) by (apply (Permutation_in _ K), S).
    transitivity (total (fun c => pulled a b true w c * shift e c + ((if Nat.eqb c b then w b * shift e a else 0) + (if Nat.eqb c a then - (w b * shift e a) else 0))) (e_top e')).
    + apply total_ext. intros c Hc. unfold pulled. destruct (Nat.eqb_spec c b) as [->|Cb].
      * destruct (Nat.eqb_spec b a); [congruence|]. rewrite (st_shift_b _ _ _ _ S). lra.
      * rewrite (st_shift _ _ _ _ S c Hc Cb). destruct (Nat.eqb_spec c a) as [->|]; lra.
    + rewrite !total_sum, !total_one by (assumption || apply S). lra.
  - rewrite K. cbn [total]. rewrite K in N. inversion N as [|? ? Na N']; subst.
    transitivity (total (fun c => pulled a b false w c * shift e c + (if Nat.eqb c b then w b * shift e a else 0)) (e_top e')).
    + apply total_ext. intros c Hc. unfold pulled. assert (Ca : c <> a) by (intros ->; contradiction). apply Nat.eqb_neq in Ca. rewrite Ca.
      destruct (Nat.eqb_spec c b) as [->|Cb]; [rewrite (st_shift_b _ _ _ _ S)|rewrite (st_shift _ _ _ _ S c Hc Cb)]; lra.
    + rewrite total_sum, total_one by (assumption || apply S). unfold pulled at 2. rewrite Nat.eqb_refl. lra.
Qed.

Lemma stepped_balanced e e' a b (keep : bool) : NoDup (e_top e) -> stepped e e' a b ->
  (if keep then Permutation (e_top e) (e_top e') else e_top e = a :: e_top e') -> balanced e' -> balanced e.
Proof.
  intros N S K (n & (c & Hc & Hn) & H).
  exists (fun c => if Nat.eqb c a then (if keep then n a else 0) + n b else n c)%nat. split.
  - exists c. split; [apply S; exact Hc|]. destruct (Nat.eqb_spec c a) as [->|]; [|exact Hn].
    destruct keep; [lia|]. exfalso. rewrite K in N. inversion N; contradiction.
  - rewrite (stepped_total e e' a b keep (fun c => INR (n c)) N S K) in H. rewrite <- H. apply total_ext. intros x _. unfold pulled.
    destruct (Nat.eqb x a); [|reflexivity]. rewrite plus_INR. destruct keep; reflexivity.
Qed.

Lemma stepped_connectable e e' a b (keep : bool) x y : proper e -> NoDup (e_bot e') -> Permutation (e_top e') (e_bot e') -> stepped e e' a b ->
  (if keep then Permutation (e_top e) (e_top e') else e_top e = a :: e_top e') -> connectable e' x y -> connectable e x y.
Proof.
  intros P NB' Pm' S K (q & u & v & Hq & Hu & Hv & H). pose proof (proper_bot_nodup _ P) as NB. pose proof P as [N [Pm Pos]].
  pose proof (Permutation_NoDup (Permutation_sym Pm') NB') as N'.
  apply (right_end_left _ _ _ _ NB') in Hu as (Iu & Hu). apply (right_end_left _ _ _ _ N') in Hv as (Iv & Hv).
  assert (Iu' : In x (e_top e')) by (apply (Permutation_in _ (Permutation_sym Pm')), Iu).
  rewrite (st_bot _ _ _ _ S x Iu') in Hu. rewrite (st_top _ _ _ _ S y Iv) in Hv.
  exists (fun c => if Nat.eqb c a then (if keep then q a else 0%Qc) + q b + (if Nat.eqb x b then 1%Qc else 0%Qc) else q c)%Qc.
  exists (left_end (e_len e) (e_bot e) x + e_len e x), (left_end (e_len e) (e_top e) y + e_len e y).
  split; [|split; [|split]].
  - intro c. destruct (Nat.eqb c a); [|apply Hq]. apply Qc2R_le. rewrite !Qc2R_plus.
    pose proof (proj1 (Qc2R_le 0 (q a)) (Hq a)) as Q1. pose proof (proj1 (Qc2R_le 0 (q b)) (Hq b)) as Q2. rewrite Qc2R_0 in *.
    assert (0 <= Qc2R (if keep then q a else 0%Qc)) by (destruct keep; [exact Q1|rewrite Qc2R_0; lra]).
    assert (0 <= Qc2R (if Nat.eqb x b then 1%Qc else 0%Qc)) by (destruct (Nat.eqb x b); rewrite ?Qc2R_1, ?Qc2R_0; lra). lra.
  - apply right_end_left; [exact NB|]. split; [apply (st_bin _ _ _ _ S), Iu|reflexivity].
  - apply right_end_left; [exact N|]. split; [apply (st_in _ _ _ _ S), Iv|reflexivity].
  - change (u + total (fun c => Qc2R (q c) * shift e' c) (e_top e') = v) in H.
    rewrite (stepped_total e e' a b keep (fun c => Qc2R (q c)) N S K) in H.
    rewrite (total_ext _ (fun c => pulled a b keep (fun c => Qc2R (q c)) c * shift e c + (if Nat.eqb c a then (if Nat.eqb x b then shift e a else 0) else 0))).
    + rewrite total_sum, total_one by (assumption || apply S). unfold Qc2R in *. lra.
    + intros c _. unfold pulled. destruct (Nat.eqb_spec c a) as [->|]; [|unfold Qc2R; lra].
      change (Q2R (this ?z)) with (Qc2R z). rewrite !Qc2R_plus. destruct keep, (Nat.eqb x b); rewrite ?Qc2R_0, ?Qc2R_1; lra.
Qed.

(** * Induction *)

Lemma flip_shift e c : shift (flip e) c = - shift e c.
Proof. unfold shift. cbn [flip e_top e_bot e_len]. lra. Qed.

Lemma flip_balanced e : proper e -> balanced (flip e) <-> balanced e.
Proof.
  intros (_ & Pm & _). assert (Tot : forall n : lab -> nat, total (fun c => INR (n c) * shift (flip e) c) (e_bot e) = - total (fun c => INR (n c) * shift e c) (e_top e)).
  { intro n. rewrite <- (total_perm _ _ _ Pm). rewrite (total_ext _ (fun c => (-1) * (INR (n c) * shift e c))); [rewrite total_scale; lra|].
    intros c _. rewrite flip_shift. lra. }
  split; intros (n & (a & Ha & Hn) & H); exists n; cbn [flip e_top] in *.
  - split; [exists a; split; [apply (Permutation_in _ (Permutation_sym Pm)), Ha|exact Hn]|]. rewrite Tot in H. lra.
  - split; [exists a; split; [apply (Permutation_in _ Pm), Ha|exact Hn]|]. rewrite Tot. lra.
Qed.

Lemma flip_connectable e b t : proper e -> connectable (flip e) b t <-> connectable e t b.
Proof.
  intros (_ & Pm & _). assert (Tot : forall q : lab -> Qc, total (fun c => Q2R (this (q c)) * shift (flip e) c) (e_bot e) = - total (fun c => Q2R (this (q c)) * shift e c) (e_top e)).
  { intro q. rewrite <- (total_perm _ _ _ Pm). rewrite (total_ext _ (fun c => (-1) * (Q2R (this (q c)) * shift e c))); [rewrite total_scale; lra|].
    intros c _. rewrite flip_shift. lra. }
  split; intros (q & x & y & Hq & Hx & Hy & H); exists q, y, x; cbn [flip e_top e_bot e_len] in *.
  - rewrite Tot in H. repeat split; auto. lra.
  - rewrite Tot. repeat split; auto. lra.
Qed.

Lemma step_balanced e e' : proper e -> rauzy_step e e' -> balanced e' -> balanced e.
Proof.
  intros P S. destruct (step_stepped _ _ P S) as (a & b & Q & K). apply (stepped_balanced e e' a b true); [apply P|exact Q|exact K].
Qed.
Lemma step_connectable e e' b t : proper e -> rauzy_step e e' -> connectable e' b t -> connectable e b t.
Proof.
  intros P S. pose proof (rauzy_step_proper _ _ P S) as P'. destruct (step_stepped _ _ P S) as (x & y & Q & K).
  apply (stepped_connectable e e' x y true); auto; [apply proper_bot_nodup, P'|apply P'].
Qed.
Lemma merge_balanced e e' : proper e -> merge_step e e' -> balanced e' -> balanced e.
Proof.
  intros P S. destruct (merge_stepped _ _ P S) as (a & b & Q & K). apply (stepped_balanced e e' a b false); [apply P|exact Q|exact K].
Qed.
Lemma merge_connectable e e' b t : proper e -> proper e' -> merge_step e e' -> connectable e' b t -> connectable e b t.
Proof.
  intros P P' S. destruct (merge_stepped _ _ P S) as (x & y & Q & K).
  apply (stepped_connectable e e' x y false); auto; [apply proper_bot_nodup, P'|apply P'].
Qed.

Lemma agree_connectable e f b t : agree e f -> connectable e b t -> connectable f b t.
Proof.
  intros (A & B & C) (q & x & y & Hq & Hx & Hy & H). exists q, x, y. rewrite <- A, <- B.
  split; [exact Hq|]. split; [eapply agree_right_end; [|exact Hx]; auto|]. split; [eapply agree_right_end; [|exact Hy]; auto|].
  rewrite <- H. f_equal. apply total_ext. intros c _. unfold shift. rewrite <- A, <- B.
  rewrite (left_end_ext_in (e_len f) (e_len e) (e_bot e)) by (intros z Hz; symmetry; apply C; right; exact Hz).
  rewrite (left_end_ext_in (e_len f) (e_len e) (e_top e)) by (intros z Hz; symmetry; apply C; left; exact Hz). reflexivity.
Qed.
Lemma agree_lasts e f : agree e f -> (forall c, not_last (e_top f) c -> not_last (e_top e) c) /\ (forall c, not_last (e_bot f) c -> not_last (e_bot e) c).
Proof. intros (A & B & _). rewrite A, B. auto. Qed.

(** What [e'] inherits from [e]. *)
Record inherits (e e' : exch) : Prop := {
  in_balanced : balanced e' -> balanced e;
  in_connectable : forall b t, connectable e' b t -> connectable e b t;
  in_top : forall c, not_last (e_top e') c -> not_last (e_top e) c;
  in_bot : forall c, not_last (e_bot e') c -> not_last (e_bot e) c;
}.

Lemma inherits_trans e f g : inherits e f -> inherits f g -> inherits e g.
Proof. intros A B. split; intros; apply A, B; assumption. Qed.
Lemma inherits_agree e f : agree e f -> inherits e f.
Proof.
  intro A. split.
  - apply agree_balanced, agree_sym, A.
  - intros b t. apply agree_connectable, agree_sym, A.
  - apply (agree_lasts _ _ A).
  - apply (agree_lasts _ _ A).
Qed.
Lemma inherits_step e e' : proper e -> rauzy_step e e' -> inherits e e'.
Proof.
  intros P S. destruct (step_stepped _ _ P S) as (a & b & Q & K). split.
  - apply step_balanced; assumption.
  - intros b' t. apply step_connectable; assumption.
  - apply Q.
  - apply Q.
Qed.
Lemma inherits_flip e e' : proper e -> proper e' -> inherits (flip e) (flip e') -> inherits e e'.
Proof.
  intros P P' H. split.
  - intro B. apply (flip_balanced e P), H, (flip_balanced e' P'), B.
  - intros b t B. apply (flip_connectable e t b P), H, (flip_connectable e' t b P'), B.
  - apply (in_bot _ _ H).
  - apply (in_top _ _ H).
Qed.
Lemma inherits_path e e' : proper e -> rauzy_path e e' -> inherits e e'.
Proof.
  intros P R. induction R as [e e' S|e e1 e' S R IH|e e1 e' S R IH].
  - apply inherits_agree, same_agree, S.
  - eapply inherits_trans; [apply inherits_step; eassumption|]. apply IH. eapply rauzy_step_proper; eassumption.
  - assert (P1 : proper e1). { change e1 with (mkexch (e_bot (flip e1)) (e_top (flip e1)) (e_len (flip e1))) || idtac.
      pose proof (rauzy_step_proper _ _ (flip_proper _ P) S) as Q. apply flip_proper in Q. destruct e1; exact Q. }
    eapply inherits_trans; [|exact (IH P1)]. apply inherits_flip; auto. apply inherits_step; [apply flip_proper, P|exact S].
Qed.
Lemma inherits_merge e e' : proper e -> proper e' -> merge_step e e' -> inherits e e'.
Proof.
  intros P P' S. destruct (merge_stepped _ _ P S) as (a & b & Q & K). split.
  - apply merge_balanced; assumption.
  - intros b' t. apply merge_connectable; assumption.
  - apply Q.
  - apply Q.
Qed.

(** * Splitting *)

Lemma nodup_split (l : list lab) k c : NoDup l -> In c (skipn k l) -> ~ In c (firstn k l).
Proof.
  intros N H G. rewrite <- (firstn_skipn k l) in N. apply in_split in H as (X & Y & E). rewrite E, app_assoc in N.
  apply NoDup_remove_2 in N. apply N. rewrite !in_app_iff. auto.
Qed.

Lemma left_shift e k c : invariant_prefix e k -> In c (firstn k (e_top e)) -> shift (left_of e k) c = shift e c.
Proof.
  intros (_ & Pk) H. unfold shift. cbn [left_of e_top e_bot e_len]. pose proof (Permutation_in _ Pk H) as H'.
  rewrite <- (firstn_skipn k (e_top e)) at 2. rewrite <- (firstn_skipn k (e_bot e)) at 2. rewrite !(left_end_prefix _ _ _ c) by assumption. reflexivity.
Qed.
Lemma suffix_perm e k : proper e -> invariant_prefix e k -> Permutation (skipn k (e_top e)) (skipn k (e_bot e)).
Proof.
  intros (N & Pm & _) (_ & Pk). rewrite <- (firstn_skipn k (e_top e)), <- (firstn_skipn k (e_bot e)), Pk in Pm.
  eapply Permutation_app_inv_l. exact Pm.
Qed.
Lemma right_row f (l : list lab) k c : ~ In c (firstn k l) -> left_end f l c = total f (firstn k l) + left_end f (skipn k l) c.
Proof. intro H. rewrite <- left_end_app by exact H. rewrite firstn_skipn. reflexivity. Qed.
Lemma right_shift e k c : proper e -> invariant_prefix e k -> In c (skipn k (e_top e)) -> shift (right_of e k) c = shift e c.
Proof.
  intros P I H. pose proof (suffix_perm e k P I) as Pk. unfold shift. cbn [right_of e_top e_bot e_len].
  rewrite (right_row _ (e_top e) k c), (right_row _ (e_bot e) k c).
  - rewrite (total_perm (e_len e) _ _ (proj2 I)). lra.
  - apply nodup_split; [apply proper_bot_nodup, P|]. apply (Permutation_in _ Pk), H.
  - apply nodup_split; [apply P|exact H].
Qed.

(** Multiplicities on a part, extended by zero. *)
Lemma total_part (w s : lab -> R) l Z l' (P : Permutation (Z ++ l') l) (z : lab -> bool) :
  (forall c, In c l' -> z c = true) -> (forall c, In c Z -> z c = false) ->
  total (fun c => (if z c then w c else 0) * s c) l = total (fun c => w c * s c) l'.
Proof.
  intros H1 H2. rewrite <- (total_perm _ _ _ P). rewrite Dyn.total_app. rewrite total_zero by (intros c Hc; rewrite H2 by exact Hc; lra).
  rewrite (total_ext _ (fun c => w c * s c) l'); [lra|]. intros c Hc. rewrite H1 by exact Hc. reflexivity.
Qed.

Definition inb (l : list lab) (c : lab) : bool := if in_dec Nat.eq_dec c l then true else false.
Lemma inb_in l c : In c l -> inb l c = true.
Proof. intro H. unfold inb. destruct (in_dec Nat.eq_dec c l); [reflexivity|contradiction]. Qed.
Lemma inb_out l c : ~ In c l -> inb l c = false.
Proof. intro H. unfold inb. destruct (in_dec Nat.eq_dec c l); [contradiction|reflexivity]. Qed.

Lemma part_balanced e e' Z : Permutation (Z ++ e_top e') (e_top e) -> NoDup (e_top e) ->
  (forall c, In c (e_top e') -> shift e' c = shift e c) -> balanced e' -> balanced e.
Proof.
  intros P N Sh (n & (a & Ha & Hn) & H). exists (fun c => if inb (e_top e') c then n c else 0%nat). split.
  - exists a. split; [apply (Permutation_in _ P), in_app_iff; auto|]. rewrite inb_in by exact Ha. exact Hn.
  - rewrite (total_ext _ (fun c => (if inb (e_top e') c then INR (n c) else 0) * shift e c)) by (intros c _; destruct (inb _ c); reflexivity).
    rewrite (total_part (fun c => INR (n c)) (shift e) (e_top e) Z (e_top e') P (inb (e_top e'))).
    + rewrite <- H. apply total_ext. intros c Hc. rewrite (Sh c Hc). reflexivity.
    + apply inb_in.
    + intros c Hc. apply inb_out. intro G. pose proof (Permutation_NoDup (Permutation_sym P) N) as N'. apply in_split in Hc as (X & Y & ->).
      rewrite <- app_assoc in N'. simpl in N'. apply NoDup_remove_2 in N'. apply N'. rewrite !in_app_iff. auto.
Qed.

Lemma part_connectable e e' Z o b t : proper e -> NoDup (e_top e') -> NoDup (e_bot e') -> Permutation (Z ++ e_top e') (e_top e) -> Permutation (e_top e') (e_bot e') ->
  (forall c, In c (e_top e') -> shift e' c = shift e c) ->
  (forall c, In c (e_top e') -> e_len e' c = e_len e c /\ left_end (e_len e) (e_top e) c = o + left_end (e_len e') (e_top e') c /\
     left_end (e_len e) (e_bot e) c = o + left_end (e_len e') (e_bot e') c) ->
  connectable e' b t -> connectable e b t.
Proof.
  intros Pr N1 N2 P Pm' Sh Le (q & x & y & Hq & Hx & Hy & H). pose proof Pr as (N & Pm & _).
  apply (right_end_left _ _ _ _ N2) in Hx as (Ib & Hx). apply (right_end_left _ _ _ _ N1) in Hy as (It & Hy).
  apply (Permutation_in _ (Permutation_sym Pm')) in Ib. destruct (Le b Ib) as (Lb & _ & Lb'). destruct (Le t It) as (Lt & Lt' & _).
  assert (In' : forall c, In c (e_top e') -> In c (e_top e)) by (intros c Hc; apply (Permutation_in _ P), in_app_iff; auto).
  exists (fun c => if inb (e_top e') c then q c else 0%Qc), (x + o), (y + o). split; [|split; [|split]].
  - intro c. destruct (inb _ c); [apply Hq|apply Qcle_refl].
  - apply right_end_left; [apply proper_bot_nodup, Pr|]. split; [apply (Permutation_in _ Pm), In', Ib|]. lra.
  - apply right_end_left; [exact N|]. split; [apply In', It|]. lra.
  - rewrite (total_ext _ (fun c => (if inb (e_top e') c then Qc2R (q c) else 0) * shift e c)).
    2: { intros c _. destruct (inb _ c); [reflexivity|]. change (Q2R (this 0%Qc)) with (Qc2R 0). rewrite Qc2R_0. reflexivity. }
    rewrite (total_part (fun c => Qc2R (q c)) (shift e) (e_top e) Z (e_top e') P (inb (e_top e'))).
    + rewrite <- H. rewrite (total_ext _ (fun c => Q2R (this (q c)) * shift e' c)) by (intros c Hc; rewrite (Sh c Hc); reflexivity). lra.
    + apply inb_in.
    + intros c Hc. apply inb_out. intro G. pose proof (Permutation_NoDup (Permutation_sym P) N) as N'. apply in_split in Hc as (X & Y & ->).
      rewrite <- app_assoc in N'. simpl in N'. apply NoDup_remove_2 in N'. apply N'. rewrite !in_app_iff. auto.
Qed.

Lemma not_last_prefix (l : list lab) k c : not_last (firstn k l) c -> not_last l c.
Proof. intros (X & d & Y & E). exists X, d, (Y ++ skipn k l). rewrite <- (firstn_skipn k l) at 1. rewrite E, <- app_assoc. reflexivity. Qed.
Lemma not_last_suffix (l : list lab) k c : not_last (skipn k l) c -> not_last l c.
Proof. intros (X & d & Y & E). exists (firstn k l ++ X), d, Y. rewrite <- (firstn_skipn k l) at 1. rewrite E, <- app_assoc. reflexivity. Qed.

Lemma nodup_parts (l : list lab) k : NoDup l -> NoDup (firstn k l) /\ NoDup (skipn k l).
Proof.
  intro N. rewrite <- (firstn_skipn k l) in N. revert N. generalize (firstn k l) (skipn k l). induction l0 as [|a X IH]; intros Y N.
  - split; [constructor|exact N].
  - simpl in N. inversion N as [|? ? Na N']; subst. destruct (IH Y N') as (A & B). split; [|exact B]. constructor; [|exact A].
    intro H. apply Na. apply in_app_iff. auto.
Qed.

Lemma inherits_left e k : proper e -> invariant_prefix e k -> inherits e (left_of e k).
Proof.
  intros P I. pose proof P as (N & Pm & _). pose proof (proper_bot_nodup _ P) as NB.
  assert (Sp : Permutation (skipn k (e_top e) ++ firstn k (e_top e)) (e_top e)) by (rewrite Permutation_app_comm, firstn_skipn; reflexivity).
  split.
  - apply (part_balanced e (left_of e k) (skipn k (e_top e))); auto. intros c. apply (left_shift e k c I).
  - intros b t. apply (part_connectable e (left_of e k) (skipn k (e_top e)) 0); auto.
    + apply (nodup_parts _ k N).
    + apply (nodup_parts _ k NB).
    + apply I.
    + intros c. apply (left_shift e k c I).
    + cbn [left_of e_top e_bot e_len]. intros c Hc. pose proof (Permutation_in _ (proj2 I) Hc) as Hc'. split; [reflexivity|].
      rewrite <- (firstn_skipn k (e_top e)) at 1. rewrite <- (firstn_skipn k (e_bot e)) at 1. rewrite !(left_end_prefix _ _ _ c) by assumption. lra.
  - intros c. apply not_last_prefix.
  - intros c. apply not_last_prefix.
Qed.
Lemma inherits_right e k : proper e -> invariant_prefix e k -> inherits e (right_of e k).
Proof.
  intros P I. pose proof P as (N & Pm & _). pose proof (proper_bot_nodup _ P) as NB. pose proof (suffix_perm e k P I) as Pk.
  assert (Sp : Permutation (firstn k (e_top e) ++ skipn k (e_top e)) (e_top e)) by (rewrite firstn_skipn; reflexivity).
  split.
  - apply (part_balanced e (right_of e k) (firstn k (e_top e))); auto. intros c. apply (right_shift e k c P I).
  - intros b t. apply (part_connectable e (right_of e k) (firstn k (e_top e)) (total (e_len e) (firstn k (e_top e)))); auto.
    + apply (nodup_parts _ k N).
    + apply (nodup_parts _ k NB).
    + intros c. apply (right_shift e k c P I).
    + cbn [right_of e_top e_bot e_len]. intros c Hc. pose proof (Permutation_in _ Pk Hc) as Hc'. split; [reflexivity|].
      rewrite (right_row _ (e_top e) k c), (right_row _ (e_bot e) k c) by (apply nodup_split; assumption).
      rewrite (total_perm (e_len e) _ _ (proj2 I)). lra.
  - intros c. apply not_last_suffix.
  - intros c. apply not_last_suffix.
Qed.

(** * Calls *)
Section Calls.
Context {T : Type} {O : LenOps T} {W : LenLaws T}.
Local Open Scope nat_scope.

Lemma single_balanced i s : wf i s -> i_size i = 1 -> balanced (exch_of i s).
Proof.
  intros (N & P & Hne & _) Hs. unfold i_size in Hs. destruct (i_top i) as [|a [|? ?]] eqn:Et; [contradiction| |simpl in Hs; lia].
  apply Permutation_length_1_inv in P. exists (fun _ => 1). cbn [exch_of e_top e_bot]. rewrite Et. split; [exists a; simpl; auto|].
  simpl. unfold shift. cbn [exch_of e_top e_bot e_len]. rewrite Et, P. simpl. rewrite Nat.eqb_refl. lra.
Qed.
Lemma saf_balanced i s : wf i s -> vis0 (saf_now i s) = true -> balanced (exch_of i s).
Proof. intros H V. destruct (saf_zero_solution i s H V) as (g & Hg & HS). exact (positive_balanced i s g H Hg HS). Qed.

Lemma swap_exch (i : iet T) s : exch_of (iet_swap i) s = flip (exch_of i s).
Proof. reflexivity. Qed.

Lemma reach_inherits i s j t : wf i s -> reach i s j t -> inherits (exch_of i s) (exch_of j t).
Proof. intros H R. exact (inherits_path _ _ (wf_proper _ _ H) (r_path _ _ _ _ R)). Qed.
Lemma cut_inherits i s k : wf i s -> invariant_prefix (exch_of i s) k ->
  inherits (exch_of i s) (exch_of (left_part i k) s) /\ inherits (exch_of i s) (exch_of (right_part i k) s).
Proof. intros H Hk. pose proof (wf_proper _ _ H) as P. split; [exact (inherits_left _ k P Hk)|exact (inherits_right _ k P Hk)]. Qed.

Lemma op_inherits o i s i' extra s' : good i s -> op_legal o -> o <> op_swap -> run_op o i s = Ok (i', extra, s') ->
  forall j, In j (i' :: extra) -> inherits (exch_of i s) (exch_of j s').
Proof.
  intros G Lg No E. pose proof G as (H & C & K). pose proof (wf_proper _ _ H) as P.
  assert (Refl : forall j, i_top j = i_top i -> i_bottom j = i_bottom i -> inherits (exch_of i s) (exch_of j s)).
  { intros j Q1 Q2. unfold exch_of. rewrite Q1, Q2. apply inherits_agree, agree_refl. }
  destruct o as [| | |fuel limit| | | |t b]; cbn [run_op] in E.
  - congruence.
  - destruct (good_zorich i s G) as (f & i1 & s1 & Q & G' & R). rewrite Q in E. injection E as <- <- <-.
    intros j [<-|[]]. apply reach_inherits; assumption.
  - destruct (reduce_ok i s H) as [(k & Hk & _ & Q)|[_ Q]]; rewrite Q in E; cbn [bind] in E; injection E as <- <- <-.
    + destruct (cut_inherits i s k H Hk). intros j [<-|[<-|[]]]; assumption.
    + intros j [<-|[]]. apply Refl; reflexivity.
  - destruct (induce_ok limit fuel i s (proj2 Lg) G) as [(Q & A)|[(Q & A)|(st & i1 & s1 & Q & G' & Po)]]; rewrite Q in E; cbn [bind] in E; try discriminate.
    injection E as <- <- <-. unfold induce_post in Po. destruct (is_result st).
    + destruct Po as (_ & R & _ & _ & _ & _ & Est). rewrite Est. intros j [<-|[]]. apply reach_inherits; assumption.
    + destruct Po as (_ & Est & -> & ->). rewrite Est. intros j [<-|[]]. apply Refl; reflexivity.
    + destruct Po as (i2 & k & b & t & _ & R & Hk & _ & -> & _ & _ & -> & G2). cbn [is_additional].
      destruct (cut_inherits i2 s1 k (r_wf _ _ _ _ R) Hk). intros j [<-|[<-|[]]]; (eapply inherits_trans; [apply reach_inherits; eassumption|assumption]).
    + destruct Po as (i2 & a & b & _ & R & _ & _ & _ & _ & M & _ & _ & _ & ->). cbn [is_additional]. intros j [<-|[]].
      eapply inherits_trans; [apply reach_inherits; eassumption|]. apply inherits_merge; [apply wf_proper, R|apply wf_proper, G'|exact M].
    + destruct Po as (_ & R & _ & _ & _ & _ & Est). rewrite Est. intros j [<-|[]]. apply reach_inherits; assumption.
    + destruct Po as (_ & R & _ & _ & Est). rewrite Est. intros j [<-|[]]. apply reach_inherits; assumption.
  - destruct (saf_invariant_ok i s H C) as (v & Q & _). rewrite Q in E. injection E as <- <- <-. intros j [<-|[]]. apply Refl; reflexivity.
  - destruct (bosh_no_periodic_ok i s H C) as (r & v & Q & _). rewrite Q in E. injection E as <- <- <-. intros j [<-|[]]. apply Refl; reflexivity.
  - destruct (bosh_no_saddle_ok i s H) as (r & Q & _). rewrite Q in E. injection E as <- <- <-. intros j [<-|[]]. apply Refl; reflexivity.
  - destruct (bosh_no_saddle2 i s t b); try discriminate. injection E as <- <- <-. intros j [<-|[]]. apply Refl; reflexivity.
Qed.

Lemma op_good o i s i' extra s' : good i s -> op_legal o -> run_op o i s = Ok (i', extra, s') -> forall j, In j (i' :: extra) -> good j s'.
Proof.
  intros G Lg E. destruct (op_ok o i s G Lg) as [F|(i1 & ex & s1 & Q & Ef)].
  - rewrite E in F. destruct o; cbn [failure] in F; try contradiction; destruct F as [(F & _)|(F & _)]; discriminate.
  - rewrite Q in E. injection E as <- <- <-. apply Ef.
Qed.

Lemma op_unbalanced o i s i' extra s' : good i s -> op_legal o -> run_op o i s = Ok (i', extra, s') -> ~ balanced (exch_of i s) ->
  forall j, In j (i' :: extra) -> ~ balanced (exch_of j s').
Proof.
  intros G Lg E B j Hj. destruct o; try (intro Bj; apply B; revert Bj; apply (op_inherits _ i s i' extra s' G Lg ltac:(discriminate) E j Hj)).
  cbn [run_op] in E. injection E as <- <- <-. destruct Hj as [<-|[]]. rewrite swap_exch. intro Bj. apply B.
  apply (flip_balanced _ (wf_proper _ _ (proj1 G))), Bj.
Qed.

(** ** Exchanges without connectable ends *)

Definition unconnectable (e : exch) : Prop := forall t b, not_last (e_top e) t -> not_last (e_bot e) b -> ~ connectable e b t.

Lemma unconnectable_saddle e : proper e -> unconnectable e -> ~ has_saddle_connection e.
Proof. intros P U (b & t & S). destruct (saddle_not_last _ _ _ P S) as [Ht Hb]. exact (U t b Ht Hb (saddle_connectable _ _ _ P S)). Qed.
Lemma last_prefix (l : list lab) k : 0 < k < length l -> exists c, hd_error (rev (firstn k l)) = Some c /\ not_last l c /\ forall f, right_end f l c (total f (firstn k l)).
Proof.
  intro H. assert (Ne : firstn k l <> []) by (intro Q; apply (f_equal (@length _)) in Q; rewrite firstn_length in Q; simpl in Q; lia).
  assert (Ne' : skipn k l <> []) by (intro Q; apply (f_equal (@length _)) in Q; rewrite skipn_length in Q; simpl in Q; lia).
  destruct (exists_last Ne) as (X & c & E). destruct (skipn k l) as [|d Y] eqn:Es; [contradiction|].
  assert (El : l = X ++ c :: d :: Y) by (rewrite <- (firstn_skipn k l), E, Es, <- app_assoc; reflexivity).
  exists c. split; [rewrite E, rev_app_distr; reflexivity|]. split; [exists X, d, Y; exact El|].
  intro f. exists X, (d :: Y). split; [exact El|]. rewrite E, Dyn.total_app. simpl. lra.
Qed.
Lemma unconnectable_irreducible e : proper e -> unconnectable e -> ~ reducible e.
Proof.
  intros (N & Pm & _) U (k & Hk & Pk). destruct (last_prefix (e_top e) k Hk) as (t & _ & Ht & Rt).
  destruct (last_prefix (e_bot e) k) as (b & _ & Hb & Rb); [rewrite <- (Permutation_length Pm); exact Hk|].
  apply (U t b Ht Hb). exists (fun _ => 0%Qc), (total (e_len e) (firstn k (e_bot e))), (total (e_len e) (firstn k (e_top e))).
  split; [intro; apply Qcle_refl|]. split; [apply Rb|]. split; [apply Rt|]. rewrite (total_perm _ _ _ Pk).
  rewrite (total_zero (e_top e)); [lra|]. intros c _. change (Q2R (this 0%Qc)) with (Qc2R 0). rewrite Qc2R_0. lra.
Qed.
Lemma inherits_unconnectable e f : inherits e f -> unconnectable e -> unconnectable f.
Proof. intros H U t b Ht Hb C. exact (U t b (in_top _ _ H t Ht) (in_bot _ _ H b Hb) (in_connectable _ _ H b t C)). Qed.
Lemma flip_unconnectable e : proper e -> unconnectable e -> unconnectable (flip e).
Proof. intros P U t b Ht Hb C. apply (flip_connectable e b t P) in C. exact (U b t Hb Ht C). Qed.

Lemma op_unconnectable o i s i' extra s' : good i s -> op_legal o -> run_op o i s = Ok (i', extra, s') -> unconnectable (exch_of i s) ->
  extra = [] /\ length (i_top i') = length (i_top i) /\ unconnectable (exch_of i' s').
Proof.
  intros G Lg E U. pose proof G as (H & C & K). pose proof (wf_proper _ _ H) as P.
  assert (Un : unconnectable (exch_of i' s')).
  { destruct o; try (refine (inherits_unconnectable _ _ (op_inherits _ i s i' extra s' G Lg ltac:(discriminate) E i' (or_introl eq_refl)) U)).
    cbn [run_op] in E. injection E as <- <- <-. rewrite swap_exch. apply flip_unconnectable; assumption. }
  assert (RL : forall j t, reach i s j t -> length (i_top j) = length (i_top i)).
  { intros j t R. symmetry. exact (Permutation_length (reach_labels _ _ _ _ H R)). }
  enough (extra = [] /\ length (i_top i') = length (i_top i)) by tauto.
  destruct o as [| | |fuel limit| | | |t b]; cbn [run_op] in E.
  - injection E as <- <- <-. split; [reflexivity|]. cbn. symmetry. exact (Permutation_length (proj1 (proj2 H))).
  - destruct (good_zorich i s G) as (f & i1 & s1 & Q & G' & R). rewrite Q in E. injection E as <- <- <-. split; [reflexivity|]. exact (RL _ _ R).
  - destruct (reduce_ok i s H) as [(k & Hk & _ & Q)|[_ Q]]; rewrite Q in E; cbn [bind] in E; injection E as <- <- <-.
    + exfalso. apply (unconnectable_irreducible _ P U). exists k. exact Hk.
    + auto.
  - destruct (induce_ok limit fuel i s (proj2 Lg) G) as [(Q & A)|[(Q & A)|(st & i1 & s1 & Q & G' & Po)]]; rewrite Q in E; cbn [bind] in E; try discriminate.
    pose proof (induce_connection_genuine limit i s st i1 s1) as Gen. pose proof Po as Po0.
    injection E as <- <- <-. unfold induce_post in Po. destruct (is_result st).
    + destruct Po as (_ & R & _ & _ & _ & _ & Est). rewrite Est. split; [reflexivity|exact (RL _ _ R)].
    + destruct Po as (_ & Est & -> & ->). rewrite Est. auto.
    + destruct Po as (i2 & k & b & t & _ & _ & _ & _ & _ & _ & _ & Es & _). exfalso. apply (unconnectable_saddle _ P U). exists b, t.
      apply (Gen b t H Po0). rewrite Es. reflexivity.
    + destruct Po as (i2 & a & b & _ & _ & _ & _ & _ & _ & _ & _ & _ & _ & Es). exfalso. apply (unconnectable_saddle _ P U). exists b, a.
      apply (Gen b a H Po0). rewrite Es. reflexivity.
    + destruct Po as (_ & R & _ & _ & _ & _ & Est). rewrite Est. split; [reflexivity|exact (RL _ _ R)].
    + destruct Po as (_ & R & _ & _ & Est). rewrite Est. split; [reflexivity|exact (RL _ _ R)].
  - destruct (saf_invariant_ok i s H C) as (v & Q & _). rewrite Q in E. injection E as <- <- <-. auto.
  - destruct (bosh_no_periodic_ok i s H C) as (r & v & Q & _). rewrite Q in E. injection E as <- <- <-. auto.
  - destruct (bosh_no_saddle_ok i s H) as (r & Q & _). rewrite Q in E. injection E as <- <- <-. auto.
  - destruct (bosh_no_saddle2 i s t b); try discriminate. injection E as <- <- <-. auto.
Qed.

(** * Decompositions *)

Definition unb (e : exch) : Prop := ~ balanced e.
Lemma unb_agree e f : agree e f -> unb e -> unb f.
Proof. intros A U B. apply U. exact (agree_balanced _ _ (agree_sym _ _ A) B). Qed.
Lemma unb_path e f : proper e -> rauzy_path e f -> unb e -> unb f.
Proof. intros P R U B. apply U. exact (in_balanced _ _ (inherits_path e f P R) B). Qed.
Lemma unb_left e k : proper e -> invariant_prefix e k -> unb e -> unb (left_of e k).
Proof. intros P R U B. apply U. exact (in_balanced _ _ (inherits_left e k P R) B). Qed.
Lemma unb_right e k : proper e -> invariant_prefix e k -> unb e -> unb (right_of e k).
Proof. intros P R U B. apply U. exact (in_balanced _ _ (inherits_right e k P R) B). Qed.
Lemma unb_merge e f : proper e -> merge_step e f -> unb e -> unb f.
Proof. intros P R U B. apply U. exact (merge_balanced e f P R B). Qed.

Definition settled (r : dresult) : Prop :=
  r = D_SEPARATING_CONNECTION \/ r = D_NON_SEPARATING_CONNECTION \/ r = D_WITHOUT_PERIODIC_TRAJECTORY_BOSHERNITZAN.

Lemma unb_result e0 d C1 x C2 fuel limit st d' : dec_ok e0 d -> d_comps d = C1 ++ x :: C2 -> (limit <= INT_MAX)%Z ->
  decomposition_step fuel limit (length C1) d = Ok (st, d') -> step_post e0 d C1 x C2 st d' -> unb (exch_of (dc_iet x) (d_len d)) ->
  settled (dst_result st) /\
  ((forall y, In y (d_comps d) -> dc_cylinder y <> Some true) -> forall y, In y (d_comps d') -> dc_cylinder y <> Some true).
Proof.
  intros H E HL Es P Ux. unfold settled.
  assert (Hx : In x (d_comps d)) by (rewrite E; apply in_middle; auto).
  destruct (dk_good _ _ H x Hx) as [Gx Sw]. pose proof (proj1 Gx) as Wx.
  pose proof (sp_case _ _ _ _ _ _ _ P) as Q. unfold dstep_post in Q. destruct (dst_result st) eqn:Er.
  - destruct Q as (i' & Ed & R & _ & _ & _ & B & _). exfalso. apply Ux. exact (in_balanced _ _ (reach_inherits _ _ _ _ Wx R) B).
  - destruct Q as (i' & Hs & _). exfalso. apply Ux. apply single_balanced; assumption.
  - split; [auto|]. intros Cy. destruct Q as (i1 & k & b & t & w & _ & _ & _ & Ed & _). intros y Hy. rewrite Ed in Hy.
    apply in_middle in Hy as [->|Hy]; [cbn; apply (Cy x Hx)|]. rewrite app_assoc in Hy. apply in_app_or in Hy as [Hy|[<-|[]]]; [|cbn; discriminate].
    apply Cy. rewrite E. apply in_middle. auto.
  - split; [auto|]. intros Cy. destruct Q as (i1 & i' & b & t & w & _ & _ & _ & Ed & _). intros y Hy. rewrite Ed in Hy.
    apply in_middle in Hy as [->|Hy]; [cbn; apply (Cy x Hx)|]. apply Cy. rewrite E. apply in_middle. auto.
  - split; [auto|]. intros Cy. destruct Q as (i' & Ed & _). intros y Hy. rewrite Ed in Hy.
    apply in_middle in Hy as [->|Hy]; [cbn; discriminate|]. apply Cy. rewrite E. apply in_middle. auto.
  - exfalso. pose proof (step_similar_saf e0 fuel d C1 x C2 limit st d' H E HL Es Er) as V. exact (Ux (saf_balanced _ _ Wx V)).
  - destruct Q.
Qed.
Lemma unb_allP e0 d C1 x C2 st d' : dec_ok e0 d -> d_comps d = C1 ++ x :: C2 -> step_post e0 d C1 x C2 st d' -> allP unb d -> allP unb d'.
Proof. intros. eapply (step_allP e0 unb); eauto using unb_agree, unb_path, unb_left, unb_right, unb_merge. Qed.

Lemma unb_step_ends e0 fuel limit d C1 x C2 : (limit <= INT_MAX)%Z -> (limit < Z.of_nat fuel)%Z -> dec_ok e0 d -> d_comps d = C1 ++ x :: C2 ->
  unb (exch_of (dc_iet x) (d_len d)) -> length (d_keys d) < fuel -> exists st d', decomposition_step fuel limit (length C1) d = Ok (st, d').
Proof.
  intros HL HF H Ec Ux Hf.
  assert (Lim : forall d limit x, dec_ok e0 d -> d_comps d = C1 ++ x :: C2 -> (limit <= INT_MAX)%Z -> (limit <> -1)%Z -> length (d_keys d) < fuel -> (limit < Z.of_nat fuel)%Z ->
    exists st d', step_limited fuel limit (length C1) d = Ok (st, d') /\ step_post e0 d C1 x C2 st d').
  { clear. intros d limit x H Ec HL HN Hf HF.
    destruct (step_limited_ok e0 fuel d C1 x C2 limit H Ec HL HN Hf) as [(Q & B)|(st & d' & Q & P & _)]; [exfalso; lia|]. eauto. }
  destruct (Z.eqb_spec limit (-1)) as [->|D].
  2: { destruct (Lim d limit x H Ec HL D Hf HF) as (st & d' & E & _). exists st, d'. unfold decomposition_step. apply Z.eqb_neq in D. rewrite D. exact E. }
  unfold decomposition_step. rewrite Z.eqb_refl.
  destruct (step_start_ok e0 d C1 x C2 H Ec) as (cost & v & E1 & Hc & H1). rewrite E1. cbn [bind].
  set (d1 := set_comps d (C1 ++ iet_set x (set_saf (dc_iet x) (Some v)) :: C2)) in *.
  destruct (Lim d1 0%Z (iet_set x (set_saf (dc_iet x) (Some v))) H1 eq_refl ltac:(unfold INT_MAX; lia) ltac:(lia) Hf ltac:(lia)) as (st & d' & E2 & P2).
  destruct (unb_result e0 d1 C1 _ C2 fuel 0 st d' H1 eq_refl ltac:(unfold INT_MAX; lia) E2 P2 Ux) as (Es & _).
  exists st, d'. destruct fuel as [|fuel]; [lia|]. cbn [step_unlimited]. rewrite E2. cbn [bind].
  destruct Es as [Es|[Es|Es]]; rewrite Es; reflexivity.
Qed.

(** [decompose] never gives up, whatever it is looking for. *)
Lemma comp_decompose_true e0 fuel target limit : (limit <= INT_MAX)%Z ->
  forall rounds d c ok d', dec_ok e0 d -> length (d_keys d) < fuel -> allP unb d -> c < length (d_comps d) ->
  comp_decompose rounds fuel target limit c d = Ok (ok, d') ->
  ok = true /\ dec_ok e0 d' /\ allP unb d' /\ length (d_comps d) <= length (d_comps d') /\
  ((forall y, In y (d_comps d) -> dc_cylinder y <> Some true) -> forall y, In y (d_comps d') -> dc_cylinder y <> Some true).
Proof.
  intro HM. induction rounds as [|rounds IH]; intros d c ok d' H Hf A Hc E; [discriminate|]. cbn [comp_decompose] in E.
  destruct (comp_view d c) as [v| | | |]; try discriminate. cbn [bind] in E.
  destruct (target v); [injection E as <- <-; auto|].
  destruct (decomposition_step fuel limit c d) as [[st d1]| | | |] eqn:Es; try discriminate. cbn [bind] in E.
  destruct (step_call e0 d c fuel limit st d1 H HM Hf Hc Es) as (C1 & x & C2 & Ec & <- & P).
  assert (Hx : In x (d_comps d)) by (rewrite Ec; apply in_middle; auto).
  destruct (unb_result e0 d C1 x C2 fuel limit st d1 H Ec HM Es P (A x Hx)) as (Se & Cy).
  pose proof (unb_allP e0 d C1 x C2 st d1 H Ec P A) as A1. pose proof (sp_ok _ _ _ _ _ _ _ P) as H1.
  assert (Hf1 : length (d_keys d1) < fuel) by (rewrite (dk_keys _ _ H1), <- (dk_keys _ _ H); exact Hf).
  destruct (step_change e0 d C1 x C2 st d1 H Ec P) as (y & extra & G & Ad & _). pose proof (cg_comps _ _ _ _ _ _ _ _ G) as Ec1.
  assert (Ln : length (d_comps d1) = length (d_comps d) + length extra) by (rewrite Ec1, Ec, !app_length; simpl; rewrite app_length; lia).
  assert (E' : ('(ok1, d2) <- match dst_additional st with Some c' => comp_decompose rounds fuel target limit c' d1 | None => Ok (true, d1) end ;;
     '(ok2, d3) <- comp_decompose rounds fuel target limit (length C1) d2 ;; Ok (ok1 && ok2, d3)) = Ok (ok, d')).
  { destruct Se as [Se|[Se|Se]]; rewrite Se in E; exact E. }
  clear E.
  assert (Q : exists d2, match dst_additional st with Some c' => comp_decompose rounds fuel target limit c' d1 | None => Ok (true, d1) end = Ok (true, d2) /\
    dec_ok e0 d2 /\ allP unb d2 /\ length (d_comps d1) <= length (d_comps d2) /\
    ((forall y, In y (d_comps d1) -> dc_cylinder y <> Some true) -> forall y, In y (d_comps d2) -> dc_cylinder y <> Some true)).
  { destruct (dst_additional st) as [c'|].
    - destruct (comp_decompose rounds fuel target limit c' d1) as [[o2 d2]| | | |] eqn:E2; try discriminate.
      destruct Ad as (-> & _ & z & -> & _). destruct (IH d1 (length (d_comps d)) o2 d2 H1 Hf1 A1 ltac:(rewrite Ln; simpl; lia) E2) as (-> & Q). exists d2. auto.
    - exists d1. auto. }
  destruct Q as (d2 & Q & H2 & A2 & L2 & Cy2). rewrite Q in E'. cbn [bind] in E'.
  destruct (comp_decompose rounds fuel target limit (length C1) d2) as [[o3 d3]| | | |] eqn:E3; try discriminate. cbn [bind] in E'. injection E' as <- <-.
  assert (Hf2 : length (d_keys d2) < fuel) by (rewrite (dk_keys _ _ H2), <- (dk_keys _ _ H); exact Hf).
  destruct (IH d2 (length C1) o3 d3 H2 Hf2 A2 ltac:(lia) E3) as (-> & H3 & A3 & L3 & Cy3).
  split; [reflexivity|]. split; [exact H3|]. split; [exact A3|]. split; [lia|]. auto.
Qed.
Lemma decompose_true e0 fuel target limit rounds d ok d' : (limit <= INT_MAX)%Z -> dec_ok e0 d -> length (d_keys d) < fuel -> allP unb d ->
  decompose rounds fuel target limit d = Ok (ok, d') ->
  ok = true /\ dec_ok e0 d' /\ allP unb d' /\
  ((forall y, In y (d_comps d) -> dc_cylinder y <> Some true) -> forall y, In y (d_comps d') -> dc_cylinder y <> Some true).
Proof.
  intros HM. unfold decompose.
  assert (Gen : forall cs d, (forall c, In c cs -> c < length (d_comps d)) -> dec_ok e0 d -> length (d_keys d) < fuel -> allP unb d ->
    decompose_all rounds fuel target limit cs d = Ok (ok, d') ->
    ok = true /\ dec_ok e0 d' /\ allP unb d' /\
    ((forall y, In y (d_comps d) -> dc_cylinder y <> Some true) -> forall y, In y (d_comps d') -> dc_cylinder y <> Some true)).
  { clear d. induction cs as [|c cs IH]; intros d Hc H Hf A E; cbn [decompose_all] in E.
    - injection E as <- <-. auto.
    - destruct (comp_decompose rounds fuel target limit c d) as [[o1 d1]| | | |] eqn:E1; try discriminate. cbn [bind] in E.
      destruct (comp_decompose_true e0 fuel target limit HM rounds d c o1 d1 H Hf A (Hc c (or_introl eq_refl)) E1) as (-> & H1 & A1 & L1 & Cy1).
      assert (Hf1 : length (d_keys d1) < fuel) by (rewrite (dk_keys _ _ H1), <- (dk_keys _ _ H); exact Hf).
      assert (Hc1 : forall c', In c' cs -> c' < length (d_comps d1)) by (intros c' Hc'; specialize (Hc c' (or_intror Hc')); lia).
      destruct (IH d1 Hc1 H1 Hf1 A1 E) as (-> & H2 & A2 & Cy2). auto 10. }
  apply Gen. intros c Hc. apply in_seq in Hc. lia.
Qed.
Lemma unb_decompose e0 fuel limit rounds d : (limit <= INT_MAX)%Z -> (limit < Z.of_nat fuel)%Z -> dec_ok e0 d -> length (d_keys d) < fuel -> length (d_keys d) < rounds ->
  allP unb d -> exists d', decompose rounds fuel default_target limit d = Ok (true, d').
Proof.
  intros HM HF H Hf Hr A.
  destruct (decompose_ends e0 fuel limit unb HM) with (rounds := rounds) (d := d) as (ok & d' & Q & _); eauto using unb_agree, unb_path, unb_left, unb_right, unb_merge, unb_step_ends.
  destruct (decompose_true e0 fuel default_target limit rounds d ok d' HM H Hf A Q) as (-> & _). eauto.
Qed.
End Calls.
