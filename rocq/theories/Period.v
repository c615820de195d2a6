(** Once around a cylinder along its right side. *)
From Coq Require Import Reals List Permutation Lia Lra.
From Verif Require Import Base Spec SpecDec SpecTower SpecCanon SpecRim SpecTime Dyn Saddle Path Direct Decomp DecompInv Final Tower Canon Rim.
Import ListNotations.
Open Scope R_scope.

Lemma time_direct e b t : direct_connection e b t <-> exists n, connection_time e b t n.
Proof.
  split.
  - intros (x & y & n & H). exists n, x, y. exact H.
  - intros (n & x & y & H). exists x, y, n. exact H.
Qed.

Lemma time_unique e b t n n' : proper e -> connection_time e b t n -> connection_time e b t n' -> n = n'.
Proof.
  intros P.
  assert (Far : forall n n' x y, singular e y -> iter (fun u v => ~ singular e u /\ maps e u v) n x y -> iter (fun u v => ~ singular e u /\ maps e u v) n' x y -> (n < n')%nat -> False).
  { clear n n'. induction n as [|n IH]; intros n' x y Sy H H' L; (destruct n' as [|n']; [lia|]).
    - simpl in H. subst y. destruct H' as (z & (N & _) & _). exact (N Sy).
    - destruct H as (z & (_ & M) & H), H' as (z' & (_ & M') & H'). rewrite (maps_fun _ P _ _ _ M' M) in H'. exact (IH n' z y Sy H H' ltac:(lia)). }
  intros (x & y & A & B & _ & _ & H) (x' & y' & A' & B' & _ & _ & H').
  rewrite <- (right_end_unique _ _ _ _ _ (proper_bot_nodup _ P) A A') in H'. rewrite <- (right_end_unique _ _ _ _ _ (proj1 P) B B') in H'.
  assert (S : singular e y) by (exists t; exact B).
  destruct (Nat.lt_trichotomy n n') as [L|[L|L]]; [|exact L|]; exfalso; [exact (Far n n' x y S H H' L)|exact (Far n' n x y S H' H L)].
Qed.

Section Around.
Context (e0 : exch) (P0 : proper e0) (t : tower) (HT : tower_of e0 t) (Pt : proper (tw_base t)) (l : lab) (Et : e_top (tw_base t) = [l]).

Let w := e_len (tw_base t) l.
Let re (u : lab) : R := left_end (e_len e0) (e_top e0) u + e_len e0 u.
Let rb (u : lab) : R := left_end (e_len e0) (e_bot e0) u + e_len e0 u.

Lemma width_pos : 0 < w.
Proof. apply (proj2 (proj2 Pt)). rewrite Et. left. reflexivity. Qed.

(** [q] is the left end of a floor. *)
Definition edge (q : R) : Prop := exists k, (k < tw_height t l)%nat /\ forall x, on_floor e0 t l k x <-> q <= x < q + w.

Definition inside (q : R) (c : lab) : Prop := forall x, q <= x < q + w -> in_interval e0 c x.

Definition stp (q q' : R) : Prop := exists c, inside q c /\ q' = q + shift e0 c.

(** The floor ends at the right end of the top interval [u]. *)
Definition ends (q : R) (u : lab) : Prop := In u (e_top e0) /\ q + w = re u.

Lemma edge_next q : edge q -> exists q', stp q q' /\ edge q'.
Proof.
  intros (k & K & F). pose proof width_pos as Wp. pose proof HT as (_ & _ & _ & _ & T5 & _).
  assert (Il : In l (e_top (tw_base t))) by (rewrite Et; left; reflexivity).
  destruct (T5 l k Il K) as (c & Hc).
  assert (In_c : inside q c).
  { intros x Hx. apply F in Hx. destruct Hx as (_ & y & Hy & Hi). exact (Hc y x Hy Hi). }
  exists (q + shift e0 c). split; [exists c; auto|].
  destruct (cylinder_next e0 P0 t l k HT Pt Et K) as (k' & N).
  assert (M : forall x, q <= x < q + w -> on_floor e0 t l k' (x + shift e0 c)).
  { intros x Hx. apply (N x); [apply F, Hx|]. exact (interval_maps e0 c x P0 (In_c x Hx)). }
  assert (K' : (k' < tw_height t l)%nat) by (apply (M q); lra).
  destruct (floor_interval e0 P0 t l k' HT Il K') as (d & _ & G). fold w in G.
  set (q' := tw_at t + left_end (e_len (tw_base t)) (e_top (tw_base t)) l + d) in *.
  replace (tw_at t + left_end (e_len (tw_base t)) (e_top (tw_base t)) l + w + d) with (q' + w) in G by (unfold q'; lra).
  assert (Eq : q' = q + shift e0 c).
  { pose proof (proj1 (G _) (M q ltac:(lra))) as A. destruct (Rlt_le_dec q' (q + shift e0 c)) as [L|L]; [|lra]. exfalso.
    destruct (Rlt_le_dec (q' + w - shift e0 c) q) as [L'|L'].
    - pose proof (proj1 (G _) (M q ltac:(lra))). lra.
    - pose proof (proj1 (G _) (M (q' + w - shift e0 c) ltac:(lra))). lra. }
  exists k'. split; [exact K'|]. rewrite <- Eq. exact G.
Qed.

Lemma stp_fun q q1 q2 : stp q q1 -> stp q q2 -> q1 = q2.
Proof.
  intros (c & A & ->) (c' & A' & ->). pose proof width_pos. rewrite (interval_unique e0 c c' q P0 (A q ltac:(lra)) (A' q ltac:(lra))). reflexivity.
Qed.

Lemma stp_maps n : forall q q', iter stp n q q' -> iter (maps e0) n q q'.
Proof.
  induction n as [|n IH]; intros q q' H; [exact H|]. destruct H as (z & (c & A & Ez) & H). exists z. split; [|apply IH, H].
  subst z. pose proof width_pos. apply interval_maps; [exact P0|]. apply A. lra.
Qed.

Lemma stp_exists n : forall q, edge q -> exists q', iter stp n q q' /\ edge q'.
Proof.
  induction n as [|n IH]; intros q E; [exists q; split; [reflexivity|exact E]|]. destruct (edge_next q E) as (z & S & Ez). destruct (IH z Ez) as (q' & H & E').
  exists q'. split; [|exact E']. exists z. auto.
Qed.

Lemma ends_label q u c : inside q c -> ends q u -> u = c.
Proof.
  intros A (Iu & E). pose proof width_pos as Wp. pose proof (proj2 (proj2 P0) u Iu) as Lu.
  set (x := Rmax q (left_end (e_len e0) (e_top e0) u)). pose proof (Rmax_l q (left_end (e_len e0) (e_top e0) u)) as M1. pose proof (Rmax_r q (left_end (e_len e0) (e_top e0) u)) as M2.
  unfold re in E. assert (M3 : x < q + w) by (apply Rmax_lub_lt; lra).
  apply (interval_unique e0 u c x P0); [split; [exact Iu|]; unfold x in *; lra|]. apply A. unfold x in *; lra.
Qed.

Lemma ends_fun q u v : edge q -> ends q u -> ends q v -> u = v.
Proof.
  intros E A B. destruct (edge_next q E) as (_ & (c & C & _) & _). rewrite (ends_label q u c C A). symmetry. exact (ends_label q v c C B).
Qed.

(** Behind an end one is at the end of the same interval on the bottom. *)
Lemma ends_next q q' u : stp q q' -> ends q u -> q' + w = rb u.
Proof.
  intros (c & A & ->) E. pose proof (ends_label q u c A E) as ->. destruct E as (_ & E). unfold rb, shift. unfold re in E. lra.
Qed.

Lemma smooth_next q q' : edge q -> stp q q' -> ~ singular e0 (q + w) -> maps e0 (q + w) (q' + w).
Proof.
  intros Eq (c & A & ->) N. pose proof width_pos as Wp. assert (Ic : In c (e_top e0)) by (apply (A q); lra).
  assert (B : in_interval e0 c (q + w)).
  { split; [exact Ic|]. split; [pose proof (proj2 (A q ltac:(lra))); lra|].
    destruct (Rtotal_order (q + w) (left_end (e_len e0) (e_top e0) c + e_len e0 c)) as [L|[L|L]]; [exact L| |]; exfalso.
    - apply N. exists c. apply right_end_left; [apply P0|]. split; [exact Ic|exact L].
    - set (z := left_end (e_len e0) (e_top e0) c + e_len e0 c) in *. destruct (Rlt_le_dec z q) as [L'|L'].
      + pose proof (proj2 (A q ltac:(lra))). unfold z in *. lra.
      + pose proof (proj2 (A z ltac:(lra))). unfold z in *. lra. }
  replace (q + shift e0 c + w) with (q + w + shift e0 c) by lra. exact (interval_maps e0 c _ P0 B).
Qed.

Lemma smooth_run n : forall q x y, edge q -> q + w = x -> iter (fun u v => ~ singular e0 u /\ maps e0 u v) n x y ->
  exists q', iter stp n q q' /\ edge q' /\ q' + w = y /\ forall m q'' v, (m < n)%nat -> iter stp m q q'' -> ~ ends q'' v.
Proof.
  induction n as [|n IH]; intros q x y E Ex H.
  - simpl in H. exists q. split; [reflexivity|]. split; [exact E|]. split; [congruence|]. intros m q'' v L. lia.
  - destruct H as (z & (N & M) & H). destruct (edge_next q E) as (q1 & S & E1). rewrite <- Ex in N, M.
    pose proof (maps_fun _ P0 _ _ _ M (smooth_next q q1 E S N)) as Ez. destruct (IH q1 z y E1 (eq_sym Ez) H) as (q' & A & B & C & D).
    exists q'. split; [exists q1; auto|]. split; [exact B|]. split; [exact C|]. intros m q'' v L I. destruct m as [|m].
    + simpl in I. subst q''. intros (Iv & Ev). apply N. exists v. apply right_end_left; [apply P0|]. split; [exact Iv|exact Ev].
    + destruct I as (z' & S' & I). rewrite (stp_fun q z' q1 S' S) in I. apply (D m q'' v); [lia|exact I].
Qed.

(** From the end of one interval to the end of the next one. *)
Definition hop (b u : lab) (n : nat) : Prop :=
  connection_time e0 b u n \/ (n = 0%nat /\ right_end (e_len e0) (e_bot e0) b (size e0) /\ right_end (e_len e0) (e_top e0) u (size e0)).

Lemma hop_run b u n q : hop b u n -> edge q -> ends q b ->
  exists q', iter stp (S n) q q' /\ edge q' /\ ends q' u /\ forall m q'' v, (0 < m < S n)%nat -> iter stp m q q'' -> ~ ends q'' v.
Proof.
  intros Hp E Eb. destruct (edge_next q E) as (q1 & S & E1). pose proof (ends_next q q1 b S Eb) as R1.
  assert (G : forall x y, right_end (e_len e0) (e_bot e0) b x -> right_end (e_len e0) (e_top e0) u y -> iter (fun u v => ~ singular e0 u /\ maps e0 u v) n x y ->
    exists q', iter stp (Datatypes.S n) q q' /\ edge q' /\ ends q' u /\ forall m q'' v, (0 < m < Datatypes.S n)%nat -> iter stp m q q'' -> ~ ends q'' v).
  { intros x y Hx Hy Hi. apply right_end_left in Hx as (_ & Hx); [|apply proper_bot_nodup, P0]. apply right_end_left in Hy as (Iu & Hy); [|apply P0].
    destruct (smooth_run n q1 x y E1) as (q' & A & B & C & D); [rewrite R1; unfold rb; symmetry; exact Hx|exact Hi|].
    exists q'. split; [exists q1; auto|]. split; [exact B|]. split; [split; [exact Iu|rewrite C; exact Hy]|].
    intros m q'' v L I. destruct m as [|m]; [lia|]. destruct I as (z & S' & I). rewrite (stp_fun q z q1 S' S) in I. apply (D m q'' v); [lia|exact I]. }
  destruct Hp as [(x & y & Hx & Hy & _ & _ & Hi)|(-> & Hx & Hy)]; [exact (G x y Hx Hy Hi)|]. exact (G _ _ Hx Hy eq_refl).
Qed.

Inductive timed : lab -> list lab -> list nat -> Prop :=
| ti_nil b : timed b [] []
| ti_cons b u us n ns : hop b u n -> timed u us ns -> timed b (u :: us) (n :: ns).

Lemma iter_later n m q q1 q2 : (n <= m)%nat -> iter stp n q q1 -> iter stp m q q2 -> iter stp (m - n) q1 q2.
Proof.
  intros L A B. replace m with (n + (m - n))%nat in B by lia. apply iter_split in B as (z & B1 & B2). rewrite (iter_fun stp stp_fun _ _ _ _ A B1). exact B2.
Qed.

Lemma timed_run b us ns : timed b us ns -> forall q, edge q -> ends q b ->
  exists q', iter stp (steps_of ns) q q' /\ edge q' /\ ends q' (last us b) /\
    forall m q'' v, (0 < m < steps_of ns)%nat -> iter stp m q q'' -> ends q'' v -> In v (removelast us).
Proof.
  induction 1 as [b|b u us n ns Hp Ti IH]; intros q E Eb.
  - exists q. split; [reflexivity|]. split; [exact E|]. split; [exact Eb|]. intros m q'' v L. cbn in L. lia.
  - destruct (hop_run b u n q Hp E Eb) as (q1 & A & E1 & U1 & B). destruct (IH q1 E1 U1) as (q' & A' & E' & U' & B').
    exists q'. split; [cbn [steps_of fold_right]; eapply iter_add; eassumption|]. split; [exact E'|]. split; [rewrite last_cons; exact U'|].
    intros m q'' v L I Hv. cbn [steps_of fold_right] in L. fold (steps_of ns) in L.
    destruct (lt_eq_lt_dec m (S n)) as [[Lm|Em]|Lm].
    + exfalso. exact (B m q'' v ltac:(lia) I Hv).
    + subst m. pose proof (iter_fun stp stp_fun _ _ _ _ I A) as ->. rewrite (ends_fun q1 v u E1 Hv U1).
      destruct us as [|u' us]; [|left; reflexivity]. exfalso. inversion Ti. subst ns. cbn in L. lia.
    + pose proof (iter_later (S n) m q q1 q'' ltac:(lia) A I) as I'. pose proof (B' (m - S n)%nat q'' v ltac:(lia) I' Hv) as Hv'.
      destruct us as [|u' us]; [destruct Hv'|]. right. exact Hv'.
Qed.

(** The whole way around takes as long as the height. *)
Lemma around Ts us ns : towers e0 Ts -> In t Ts -> floor_ends e0 t l l -> timed l (us ++ [l]) ns -> ~ In l us -> tw_height t l = steps_of ns.
Proof.
  intros HTs It (Il0 & k & lo & hi & Eh & L & F) Ti Nl. pose proof width_pos as Wp.
  assert (Il : In l (e_top (tw_base t))) by (rewrite Et; left; reflexivity).
  assert (K : (k < tw_height t l)%nat) by (apply (F lo); lra).
  destruct (floor_interval e0 P0 t l k HT Il K) as (d & _ & G). fold w in G.
  set (q := tw_at t + left_end (e_len (tw_base t)) (e_top (tw_base t)) l + d) in *.
  replace (tw_at t + left_end (e_len (tw_base t)) (e_top (tw_base t)) l + w + d) with (q + w) in G by (unfold q; lra).
  destruct (same_ends lo hi q (q + w) L) as (_ & Eq); [intros x; rewrite <- F; apply G|].
  assert (E : edge q) by (exists k; auto). assert (U : ends q l) by (split; [exact Il0|]; rewrite <- Eq; exact Eh).
  destruct (timed_run l _ ns Ti q E U) as (q' & A & E' & U' & B). rewrite last_last in U'. rewrite removelast_last in B.
  assert (Q : q' = q) by (destruct U as (_ & U), U' as (_ & U'); lra). subst q'.
  assert (Fq : on_floor e0 t l k q) by (apply G; lra).
  destruct (towers_cylinder e0 Ts P0 HTs t l k q It Pt Et Fq) as (Pe & Mi).
  assert (Pos : (1 <= steps_of ns)%nat) by (destruct us; inversion Ti; subst; cbn; lia).
  destruct (lt_eq_lt_dec (steps_of ns) (tw_height t l)) as [[Lt|Eq']|Lt]; [|symmetry; exact Eq'|]; exfalso.
  - exact (Mi (steps_of ns) ltac:(lia) (stp_maps _ _ _ A)).
  - destruct (stp_exists (tw_height t l) q E) as (q2 & S2 & _). pose proof (iter_fun _ (maps_fun _ P0) _ _ _ _ (stp_maps _ _ _ S2) Pe) as ->.
    apply Nl. apply (B (tw_height t l) q l); [lia|exact S2|exact U].
Qed.

End Around.
