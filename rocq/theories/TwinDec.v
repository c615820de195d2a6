(** Two decompositions side by side that differ only in their connections: [decompositionStep]
    makes the same moves in both. *)
From Coq Require Import List Lia.
From Verif Require Import Base QcTac LenT FM Subspace Lengths IET Decomp DecompSim Twin.
Open Scope nat_scope.

Section TwinDec.
Context {T : Type} {O : LenOps T}.
Variable A : label -> Prop.
Variable K : (label -> conns) -> (label -> conns) -> Prop.
Hypothesis Kmove : forall top a b f f2, A a -> A b -> a <> b -> K f f2 -> K (conn_move top a b f) (conn_move top a b f2).

Record twins (d d2 : decomp T) : Prop := {
  tw_len : d_len d = d_len d2;
  tw_stack : d_stack d = d_stack d2;
  tw_keys : d_keys d = d_keys d2;
  tw_comps : d_comps d = d_comps d2;
  tw_inside : Forall A (d_stack d);
  tw_rows : forall x, In x (d_comps d) -> inside A (dc_iet x);
  tw_conns : K (d_conns d) (d_conns d2);
}.

Lemma twins_lens d d2 s st : twins d d2 -> Forall A st -> twins (set_lens d s st) (set_lens d2 s st).
Proof. intros [] H. constructor; auto. Qed.

Lemma twin_push l d d2 : A l -> twins d d2 -> rres twins (lwc_push l d) (lwc_push l d2).
Proof.
  intros Hl H. unfold lwc_push. rewrite <- (tw_stack _ _ H), <- (tw_len _ _ H). apply rres_assert.
  apply twins_lens; [exact H|]. apply Forall_app. split; [apply H|]. constructor; [exact Hl|constructor].
Qed.

Lemma removelast_Forall {X} (P : X -> Prop) l : Forall P l -> Forall P (removelast l).
Proof.
  induction l as [|a l IH]; intro H; [exact H|]. inversion H; subst. destruct l; [constructor|].
  change (Forall P (a :: removelast (x :: l))). constructor; auto.
Qed.

Lemma twin_pop d d2 : twins d d2 -> rres twins (lwc_pop d) (lwc_pop d2).
Proof.
  intros H. unfold lwc_pop. rewrite <- (tw_stack _ _ H), <- (tw_len _ _ H). apply rres_assert. apply rres_same. intros s _.
  apply twins_lens; [exact H|]. apply removelast_Forall. apply H.
Qed.

Lemma conns_at_twin (d d2 : decomp T) l : d_keys d = d_keys d2 ->
  rres (fun c c2 => c = d_conns d l /\ c2 = d_conns d2 l /\ In l (d_keys d)) (conns_at d l) (conns_at d2 l).
Proof.
  intro E. unfold conns_at. rewrite <- E. destruct (memb l (d_keys d)) eqn:M; [|exact I]. apply memb_In in M. repeat split. exact M.
Qed.

Lemma twin_subtract2 c v m sub d d2 : A m -> A sub -> twins d d2 -> rres twins (lwc_subtract2 c v m sub d) (lwc_subtract2 c v m sub d2).
Proof.
  intros Hm Hs H. unfold lwc_subtract2. rewrite <- (tw_comps _ _ H).
  apply (rres_bind _ _ _ _ _ _ (conns_at_twin d d2 sub (tw_keys _ _ H))). intros _ _ _.
  apply (rres_bind _ _ _ _ _ _ (conns_at_twin d d2 m (tw_keys _ _ H))). intros _ _ _.
  destruct (Nat.eq_dec m sub) as [->|N]; [unfold conn_subtract; rewrite Nat.eqb_refl; exact I|].
  rewrite !conn_subtract_move by exact N. cbn [bind]. destruct H. constructor; auto. cbn. apply Kmove; assumption.
Qed.

Lemma twin_subtract c v m d d2 : A m -> twins d d2 -> rres twins (lwc_subtract c v m d) (lwc_subtract c v m d2).
Proof.
  intros Hm H. unfold lwc_subtract. rewrite <- (tw_stack _ _ H), <- (tw_len _ _ H).
  pose proof (tw_inside _ _ H) as HF. destruct (d_stack d) as [|sub st] eqn:E; [exact H|].
  inversion HF; subst. apply rres_same. intros s _.
  eapply rres_bind; [apply twin_subtract2; [exact Hm|assumption|]; apply twins_lens; [exact H|exact HF]|].
  intros d1 d12 H1. cbn beta. rewrite <- (tw_len _ _ H1). apply twins_lens; [exact H1|constructor].
Qed.

Lemma twin_subrep c v m d d2 : A m -> twins d d2 ->
  rres (fun p p' => fst p = fst p' /\ twins (snd p) (snd p')) (lwc_subrep c v m d) (lwc_subrep c v m d2).
Proof.
  intros Hm H. unfold lwc_subrep. rewrite <- (tw_stack _ _ H), <- (tw_len _ _ H).
  pose proof (tw_inside _ _ H) as HF. destruct (d_stack d) as [|sub st] eqn:E; [exact I|].
  inversion HF; subst. apply rres_same. intros [r s] _.
  eapply rres_bind; [apply twin_subtract2; [exact Hm|assumption|]; apply twins_lens; [exact H|exact HF]|].
  intros d1 d12 H1. cbn beta. rewrite <- (tw_len _ _ H1). split; [reflexivity|]. apply twins_lens; [exact H1|constructor].
Qed.

Lemma twin_dinduce c fuel limit i d d2 : inside A i -> twins d d2 ->
  rres (same_iet A twins) (induce (dec_lens c) fuel limit i d) (induce (dec_lens c) fuel limit i d2).
Proof.
  apply twin_induce; cbn [dec_lens li_push li_pop li_cmp1 li_cmp2 li_subtract li_subrep li_base].
  - apply twin_push.
  - apply twin_pop.
  - intros s s' H l. rewrite (tw_len _ _ H). reflexivity.
  - intros s s' H l m. rewrite (tw_len _ _ H). reflexivity.
  - intros v m s s'. apply twin_subtract.
  - intros v m s s'. apply twin_subrep.
  - intros s s' H. apply (tw_len _ _ H).
Qed.

(** ** Components *)

Lemma set_nth_in {X} c (x : X) l l' y : set_nth c x l = Some l' -> In y l' -> y = x \/ In y l.
Proof.
  revert c l'. induction l as [|z l IH]; intros [|c] l' E; try discriminate.
  - injection E as <-. intros [<-|H]; [left; reflexivity|right; right; exact H].
  - cbn [set_nth] in E. destruct (set_nth c x l) as [l1|] eqn:E1; [|discriminate]. injection E as <-.
    intros [<-|H]; [right; left; reflexivity|]. destruct (IH _ _ E1 H); [left|right; right]; assumption.
Qed.

Lemma comp_at_twin (d d2 : decomp T) c : d_comps d = d_comps d2 -> comp_at d c = comp_at d2 c.
Proof. intro E. unfold comp_at. rewrite E. reflexivity. Qed.

Lemma comp_at_in (d : decomp T) c x : comp_at d c = Ok x -> In x (d_comps d).
Proof. unfold comp_at. destruct (nth_error (d_comps d) c) eqn:E; [|discriminate]. intro H. injection H as <-. eapply nth_error_In; eassumption. Qed.

Lemma twin_comp_set d d2 c y : twins d d2 -> inside A (dc_iet y) -> rres twins (comp_set d c y) (comp_set d2 c y).
Proof.
  intros H Hy. unfold comp_set. rewrite <- (tw_comps _ _ H). destruct (set_nth c y (d_comps d)) as [cs|] eqn:E; [|exact I].
  destruct H. constructor; auto. intros z Hz. cbn in Hz. destruct (set_nth_in _ _ _ _ _ E Hz) as [->|Hz']; auto.
Qed.

Definition tw {B} (p p' : B * decomp T) : Prop := fst p = fst p' /\ twins (snd p) (snd p').

Lemma twin_step_loop fuel cost c : forall rounds limit d d2, twins d d2 ->
  rres tw (step_loop rounds fuel cost limit c d) (step_loop rounds fuel cost limit c d2).
Proof.
  induction rounds as [|rounds IH]; intros limit d d2 H; [exact I|]. cbn [step_loop].
  rewrite <- (comp_at_twin d d2 c (tw_comps _ _ H)). apply rres_same. intros x Hx. apply comp_at_in in Hx.
  eapply rres_bind; [apply twin_dinduce; [exact (tw_rows _ _ H x Hx)|exact H]|].
  intros [[st i] d1] [[st' i'] d12] (E1 & I1 & H1). cbn [fst snd] in *. injection E1 as <- <-.
  eapply rres_bind; [apply (twin_comp_set d1 d12 c (iet_set x i) H1 I1)|]. intros e e2 He.
  destruct (is_result st); try (split; [reflexivity|exact He]).
  destruct (Z.eqb _ 0); [split; [reflexivity|exact He]|apply IH; exact He].
Qed.

Lemma twin_step_start c d d2 : twins d d2 -> rres tw (step_start c d) (step_start c d2).
Proof.
  intro H. unfold step_start. rewrite <- (comp_at_twin d d2 c (tw_comps _ _ H)), <- (tw_len _ _ H).
  apply rres_same. intros x Hx. apply comp_at_in in Hx. apply rres_assert. apply rres_same. intros [cost i] Ec.
  eapply rres_bind; [apply twin_comp_set; [exact H|]|].
  - cbn [dc_iet iet_set]. unfold bosh_cost, saf_invariant in Ec.
    destruct (iet_saf (dc_iet x) (d_len d)) as [[v i2]| | | |] eqn:Es; try discriminate. cbn [bind] in Ec. injection Ec as _ <-.
    destruct (iet_saf_rows _ _ _ _ Es) as [R1 R2]. eapply inside_rows; [|exact R1|exact R2]. apply (tw_rows _ _ H x Hx).
  - intros e e2 He. split; [reflexivity|exact He].
Qed.
End TwinDec.
