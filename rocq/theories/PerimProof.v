(** The perimeter of a component whose connections are pairwise distinct. *)
From Coq Require Import Reals Permutation Lia.
From Verif Require Import Base QcTac Spec LenT FM Subspace Lengths IET Api ZorichProof ReduceProof Saf Dyn Path Direct InduceProof InduceCons World.
From Verif Require Import Decomp DecompSim DecompInv DecompNav DecompRef DecompStep DecompCons DecompAll DecApi.
Open Scope nat_scope.

Lemma mapM_app {A B} (f : A -> res B) l m : mapM f (l ++ m) = (x <- mapM f l ;; y <- mapM f m ;; Ok (x ++ y)).
Proof.
  induction l as [|a l IH]; cbn [mapM app bind]; [destruct (mapM f m); reflexivity|].
  rewrite IH. destruct (f a); try reflexivity. cbn [bind]. destruct (mapM f l); try reflexivity. cbn [bind].
  destruct (mapM f m); reflexivity.
Qed.

Section Perim.
Context {T : Type} {O : LenOps T}.
Variables (d : decomp T) (c : nat) (x : dcomp T).
Hypothesis Hx : comp_at d c = Ok x.
Hypothesis Sw : i_swap (dc_iet x) = false.
Hypothesis Nd : NoDup (i_top (dc_iet x)).
Hypothesis P : Permutation (i_top (dc_iet x)) (i_bottom (dc_iet x)).
Hypothesis K : incl (i_top (dc_iet x)) (d_keys d).
Hypothesis Ne : exists a ta b tb, i_top (dc_iet x) = a :: ta /\ i_bottom (dc_iet x) = b :: tb.
Hypothesis Nc : NoDup (flat_map (conns_of d) (d_keys d)).

Lemma perimeter_sides : exists p, comp_perimeter d c = Ok p /\ NoDup p /\
    (forall e, In (SEdge e) p <-> he_comp e = c /\ in_row x (he_top e) (he_label e)) /\
    (forall k, In (SConn k) p <-> exists e cs, he_comp e = c /\ in_row x (he_top e) (he_label e) /\
       (he_left d e = Ok cs \/ he_right d e = Ok cs) /\ In k cs).
Proof.
  destruct (perimeter_gen d c x Hx Sw Nd P K Ne Nc) as (b & X & _ & E & Ar & ND).
  exists (X ++ rev (map SConn (lft d b false))). split; [exact E|].
  assert (Pm : Permutation (around d c x) (X ++ rev (map SConn (lft d b false)))) by (rewrite Ar; apply Permutation_app_comm).
  split; [exact (Permutation_NoDup Pm ND)|].
  assert (IA : forall z, In z (X ++ rev (map SConn (lft d b false))) <-> exists l top, in_row x top l /\ In z (crossing d c l top)).
  { intro z. split.
    - intro Hz. apply (Permutation_in _ (Permutation_sym Pm)) in Hz. apply in_app_or in Hz as [Hz|Hz]; apply in_flat_map in Hz as (l & Hl & Hz).
      + exists l, false. auto.
      + exists l, true. split; [apply in_rev, Hl|exact Hz].
    - intros (l & top & Hl & Hz). apply (Permutation_in _ Pm). apply in_or_app. destruct top; [right|left]; apply in_flat_map; exists l; (split; [|exact Hz]).
      + apply in_rev. rewrite rev_involutive. exact Hl.
      + exact Hl. }
  assert (IC : forall l top z, In z (crossing d c l top) <-> z = SEdge (mkhe c l top) \/ exists k, z = SConn k /\ (In k (lft d l top) \/ In k (rgt d l top))).
  { intros l top z. unfold crossing. destruct top; rewrite !in_app_iff, <- in_rev, !in_map_iff; cbn [In]; split; intro Q.
    - destruct Q as [(k & <- & Q)|[[<-|[]]|(k & <- & Q)]]; eauto 6.
    - destruct Q as [->|(k & -> & [Q|Q])]; eauto 6.
    - destruct Q as [(k & <- & Q)|[[<-|[]]|(k & <- & Q)]]; eauto 6.
    - destruct Q as [->|(k & -> & [Q|Q])]; eauto 6. }
  assert (RK : forall l top, in_row x top l -> In l (d_keys d)).
  { intros l [] Hl; apply K; [exact Hl|]. exact (Permutation_in _ (Permutation_sym P) Hl). }
  split.
  - intro e. rewrite IA. split.
    + intros (l & top & Hl & Q). apply IC in Q as [Q|(k & Q & _)]; [|discriminate]. injection Q as ->. cbn. auto.
    + intros [Q R]. exists (he_label e), (he_top e). split; [exact R|]. apply IC. left. destruct e. cbn in *. subst. reflexivity.
  - intro k. rewrite IA. split.
    + intros (l & top & Hl & Q). apply IC in Q as [Q|(k' & Q & Hk)]; [discriminate|]. injection Q as <-.
      exists (mkhe c l top). destruct Hk as [Hk|Hk]; [exists (lft d l top)|exists (rgt d l top)]; (split; [reflexivity|]); (split; [exact Hl|]); (split; [|exact Hk]).
      * left. exact (he_left_ok d c l top (RK l top Hl)).
      * right. exact (he_right_ok d c l top (RK l top Hl)).
    + intros (e & cs & Hc & R & Q & Hk). destruct e as [c' l top]. cbn [he_comp he_label he_top] in *. rewrite Hc in *. exists l, top. split; [exact R|]. apply IC. right. exists k. split; [reflexivity|].
      rewrite (he_left_ok d c l top (RK l top R)), (he_right_ok d c l top (RK l top R)) in Q.
      destruct Q as [Q|Q]; injection Q as <-; auto.
Qed.

Lemma perimeter_cross :
  exists bs ts css p q first, bottom_contour d c = Ok bs /\ top_contour d c = Ok ts /\ mapM (he_cross d) (bs ++ rev ts) = Ok css /\
    comp_perimeter d c = Ok (p ++ q) /\ q ++ p = concat css /\ NoDup (concat css) /\
    hd_error bs = Some first /\ hd_error (p ++ q) = Some (SEdge first).
Proof.
  assert (Kb : incl (i_bottom (dc_iet x)) (d_keys d)) by (intros l Hl; apply K; exact (Permutation_in _ (Permutation_sym P) Hl)).
  destruct (perimeter_gen d c x Hx Sw Nd P K Ne Nc) as (b & X & Hb & E & Ar & ND).
  exists (map (fun l => mkhe c l false) (i_bottom (dc_iet x))), (map (fun l => mkhe c l true) (i_top (dc_iet x))).
  exists (map (fun l => crossing d c l false) (i_bottom (dc_iet x)) ++ map (fun l => crossing d c l true) (rev (i_top (dc_iet x)))).
  exists X, (rev (map SConn (lft d b false))), (mkhe c b false).
  split; [exact (bottom_contour_ok d c x Hx Sw)|]. split; [exact (top_contour_ok d c x Hx Sw)|].
  assert (CC : concat (map (fun l => crossing d c l false) (i_bottom (dc_iet x)) ++ map (fun l => crossing d c l true) (rev (i_top (dc_iet x)))) = around d c x).
  { rewrite concat_app, <- !flat_map_concat_map. reflexivity. }
  split; [|split; [exact E|split; [rewrite CC; symmetry; exact Ar|split; [rewrite CC; exact ND|split]]]].
  - rewrite <- map_rev, mapM_app.
    rewrite (mapM_map _ _ (fun l => crossing d c l false)) by (intros a Ha; apply he_cross_ok, Kb, Ha). cbn [bind].
    rewrite (mapM_map _ _ (fun l => crossing d c l true)) by (intros a Ha; apply he_cross_ok, K, in_rev, Ha). reflexivity.
  - destruct (i_bottom (dc_iet x)); [discriminate|]. injection Hb as ->. reflexivity.
  - destruct (i_bottom (dc_iet x)) as [|b' tb] eqn:Eb; [discriminate|]. injection Hb as ->.
    unfold around in Ar. rewrite Eb in Ar. cbn [flat_map] in Ar. unfold crossing in Ar at 1. rewrite <- !app_assoc in Ar. apply app_inv_head in Ar.
    rewrite <- Ar. reflexivity.
Qed.

End Perim.
