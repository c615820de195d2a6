(** Concrete decompositions with injected connections for the examples beside the theorems. *)
From Coq Require Import Reals Permutation.
From Verif Require Import Base QcTac LenT FM Subspace Lengths IET LenInst Sqrt2 Decomp Spec Api DecApi Fixtures DecFixtures InjApi.
Open Scope nat_scope.

(** A call: an unlimited step on a component or an injection. *)
Inductive call := Step (c : nat) | Inject (e : hedge) (ls rs : list (label * label)).

Fixpoint follow (l : label) (q : list (label * label)) : option label :=
  match q with [] => Some l | (u, v) :: q' => if Nat.eqb u l then follow v q' else None end.

Lemma follow_chained q : forall l r, follow l q = Some r -> chained l (map right_conn q) r.
Proof.
  induction q as [|[u v] q IH]; intros l r E; cbn [follow] in E; [injection E as <-; constructor|].
  destruct (Nat.eqb_spec u l) as [->|]; [|discriminate]. cbn [map]. constructor. apply IH. exact E.
Qed.

Definition continuousb (e : hedge) (rs : list (label * label)) : bool :=
  if he_top e then
    match follow (match rev rs with [] => he_label e | (u, _) :: _ => u end) (rev rs) with Some r => Nat.eqb r (he_label e) | None => false end
  else match follow (he_label e) rs with Some _ => true | None => false end.

Lemma continuousb_ok e rs : continuousb e rs = true -> continuous e rs.
Proof.
  unfold continuousb, continuous. destruct (he_top e); intro H.
  - destruct (follow _ _) as [r|] eqn:E; [|discriminate]. apply Nat.eqb_eq in H. subst r. eexists. apply (follow_chained _ _ _ E).
  - destruct (follow _ _) as [r|] eqn:E; [|discriminate]. exists r. apply (follow_chained _ _ _ E).
Qed.

Section InjFixtures.
Context {T : Type} {O : LenOps T} {W : LenLaws T}.

Fixpoint calls (cs : list call) (d : decomp T) : res (list injection * list dstep * decomp T) :=
  match cs with
  | [] => Ok ([], [], d)
  | Step c :: cs' =>
    if c <? length (d_comps d) then
      '(st, d) <- decomposition_step 100 (-1) c d ;; '(J, tr, d) <- calls cs' d ;; Ok (J, st :: tr, d)
    else UB
  | Inject e ls rs :: cs' =>
    match nth_error (d_comps d) (he_comp e) with
    | Some x =>
      if (memb (he_label e) (if he_top e then i_top (dc_iet x) else i_bottom (dc_iet x)) && continuousb e rs)%bool then
        '(_, _, d) <- inject d e ls rs ;; '(J, tr, d) <- calls cs' d ;; Ok (mkinj e ls rs :: J, tr, d)
      else UB
    | None => UB
    end
  end.

Lemma calls_history (i : iet T) (s : slen T) : forall cs J tr d J' tr' d', injected_decomposition i s J tr d -> calls cs d = Ok (J', tr', d') ->
  injected_decomposition i s (J ++ J') (tr ++ tr') d'.
Proof.
  induction cs as [|[c|e ls rs] cs IH]; intros J tr d J' tr' d' H E; cbn [calls] in E.
  - injection E as <- <- <-. rewrite !app_nil_r. exact H.
  - destruct (Nat.ltb_spec c (length (d_comps d))); [|discriminate].
    apply bind_ok in E as ([st d1] & E1 & E). apply bind_ok in E as ([[J2 tr2] d2] & E2 & E). injection E as <- <- <-.
    specialize (IH J (tr ++ [st]) d1 J2 tr2 d2). rewrite <- app_assoc in IH. apply IH; [|exact E2].
    eapply ih_step; [exact H| |eassumption|exact E1]. discriminate.
  - destruct (nth_error (d_comps d) (he_comp e)) as [x|] eqn:Ex; [|discriminate].
    destruct (_ && _)%bool eqn:Eb; [|discriminate]. apply andb_prop in Eb as [B1 B2].
    apply bind_ok in E as ([[L R] d1] & E1 & E). apply bind_ok in E as ([[J2 tr2] d2] & E2 & E). injection E as <- <- <-.
    specialize (IH (J ++ [mkinj e ls rs]) tr d1 J2 tr2 d2). rewrite <- app_assoc in IH. apply IH; [|exact E2].
    eapply ih_inject; [exact H|exact Ex| |apply continuousb_ok; exact B2|exact E1]. apply memb_In. exact B1.
Qed.

Definition after_calls (i : iet T) (s : slen T) (cs : list call) (P : list injection -> list dstep -> decomp T -> Prop) : Prop :=
  match (d <- dec_make i s ;; calls cs d) with Ok (J, tr, d) => P J tr d | _ => False end.

Lemma after_calls_history (i : iet T) (s : slen T) cs P : obtainable i s -> after_calls i s cs P ->
  exists J tr d, injected_decomposition i s J tr d /\ P J tr d.
Proof.
  unfold after_calls. intros H Q. destruct (dec_make i s) as [d0| | | |] eqn:E; try contradiction. cbn [bind] in Q.
  destruct (calls cs d0) as [[[J tr] d]| | | |] eqn:E1; try contradiction. exists J, tr, d. split; [|exact Q].
  exact (calls_history i s cs [] [] d0 J tr d (ih_new _ _ _ H E) E1).
Qed.
End InjFixtures.

(** dynamical_decomposition.test.cc "Decomposition With Injected Connections": the labels
    a, ..., f are 0, ..., 5. *)
Definition j_lens : slen Z := mkslen [] [1; 1; 0; 0; 0; 0]%Z.
Definition j_iet : iet Z := fresh [0; 1] [1; 0].
Lemma j_obtainable : obtainable j_iet j_lens.
Proof. apply fresh_obtainable. vm_compute. reflexivity. Qed.
Definition j_injections : list call :=
  [Inject (mkhe 0 0 true) [(2, 0); (5, 4); (0, 3)] [(3, 0)]; Inject (mkhe 0 1 true) [(4, 1)] [];
   Inject (mkhe 0 1 false) [] [(1, 4); (4, 5)]; Inject (mkhe 0 0 false) [] [(0, 2)]].

Example j_before : after_calls j_iet j_lens j_injections (fun J tr d =>
  comp_perimeter d 0 = Ok [SEdge (mkhe 0 1 false); SConn (par 1 4); SConn (par 4 5); SEdge (mkhe 0 0 false); SConn (par 0 2);
    SEdge (mkhe 0 1 true); SConn (anti 4 1); SConn (par 3 0); SEdge (mkhe 0 0 true); SConn (anti 2 0); SConn (anti 5 4); SConn (anti 0 3)]).
Proof. vm_compute. reflexivity. Qed.

Example j_after : after_calls j_iet j_lens (j_injections ++ [Step 0; Step 0]) (fun J tr d =>
  map dst_result tr = [D_NON_SEPARATING_CONNECTION; D_CYLINDER] /\
  comp_perimeter d 0 = Ok [SEdge (mkhe 0 1 false); SConn (par 1 4); SConn (par 4 5); SConn (par 5 3); SConn (par 3 0); SConn (par 0 2);
    SEdge (mkhe 0 1 true); SConn (anti 4 1); SConn (anti 3 5); SConn (anti 2 0); SConn (anti 5 4); SConn (anti 0 3)]).
Proof. vm_compute. split; reflexivity. Qed.

(** A test for consistent injections. *)
Fixpoint nodupb {A} (eqb : A -> A -> bool) (l : list A) : bool :=
  match l with [] => true | x :: q => negb (existsb (eqb x) q) && nodupb eqb q end.
Lemma nodupb_ok {A} (eqb : A -> A -> bool) : (forall x, eqb x x = true) -> forall l, nodupb eqb l = true -> NoDup l.
Proof.
  intros R l. induction l as [|x l IH]; intro H; [constructor|]. cbn [nodupb] in H. apply andb_prop in H as [H1 H2]. constructor; [|apply IH; exact H2].
  intro Hx. apply Bool.negb_true_iff in H1. rewrite <- Bool.not_true_iff_false in H1. apply H1. apply existsb_exists. exists x. auto.
Qed.
Definition pair_eqb (p q : label * label) : bool := Nat.eqb (fst p) (fst q) && Nat.eqb (snd p) (snd q).
Definition consistentb (tops : list label) (J : list injection) : bool :=
  forallb (fun j => memb (he_label (ij_at j)) tops && continuousb (ij_at j) (ij_right j)) J &&
  nodupb (fun p q => Nat.eqb (fst p) (fst q) && Bool.eqb (snd p) (snd q))
    (map (fun j => (he_label (ij_at j), he_top (ij_at j))) (filter (fun j => negb (length (ij_right j) =? 0)) J)) &&
  nodupb Nat.eqb (tops ++ flat_map chain_labels J) &&
  nodupb pair_eqb (flat_map ij_left J) &&
  forallb (fun p => existsb (pair_eqb (snd p, fst p)) (flat_map ij_right J)) (flat_map ij_left J).
Lemma consistentb_ok tops J : consistentb tops J = true -> consistent tops J.
Proof.
  unfold consistentb. intro H. apply andb_prop in H as [H H5]. apply andb_prop in H as [H H4]. apply andb_prop in H as [H H3]. apply andb_prop in H as [H1 H2].
  constructor.
  - intros j Hj. rewrite forallb_forall in H1. specialize (H1 j Hj). apply andb_prop in H1 as [A B]. split; [apply memb_In, A|apply continuousb_ok, B].
  - revert H2. apply nodupb_ok. intros [a []]; cbn; rewrite Nat.eqb_refl; reflexivity.
  - revert H3. apply nodupb_ok. apply Nat.eqb_refl.
  - revert H4. apply nodupb_ok. intros [a b]. unfold pair_eqb. cbn. rewrite !Nat.eqb_refl. reflexivity.
  - intros t b Hp. rewrite forallb_forall in H5. specialize (H5 _ Hp). apply existsb_exists in H5 as ((b', t') & Hq & E). unfold pair_eqb in E. cbn in E.
    apply andb_prop in E as [E1 E2]. apply Nat.eqb_eq in E1, E2. subst. exact Hq.
Qed.
