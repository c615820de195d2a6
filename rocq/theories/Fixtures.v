(** Concrete inputs for the examples that stand beside the theorems. *)
From Coq Require Import Reals Permutation.
From Verif Require Import Base QcTac LenT FM Subspace Lengths IET LenInst Sqrt2 Cubic Api.
From Verif Require Import ZorichProof ReduceProof.
Open Scope nat_scope.

Section Fixtures.
Context {T : Type} {O : LenOps T} {W : LenLaws T}.

(** Decides whether an input of the constructor is legal. *)
Definition nodupb (l : list label) : bool := length (nodup Nat.eq_dec l) =? length l.
Definition valid_inputb (ls : list T) (top bottom : list label) : bool :=
  nodupb top && nodupb bottom && (length top =? length bottom) &&
  forallb (fun l => memb l bottom) top && negb (length top =? 0) &&
  forallb (fun l => match nth_error ls l with Some x => is_pos x | None => false end) top.

Lemma nodup_nop (l : list label) : length (nodup Nat.eq_dec l) = length l -> nodup Nat.eq_dec l = l.
Proof.
  induction l as [|x l IH]; simpl; [reflexivity|]. destruct (in_dec Nat.eq_dec x l) as [H|H]; intros E.
  - exfalso. pose proof (NoDup_incl_length (NoDup_nodup Nat.eq_dec l) (l' := l)) as G.
    rewrite E in G. specialize (G ltac:(intros y Hy; apply nodup_In in Hy; exact Hy)). lia.
  - simpl in E. rewrite IH by lia. reflexivity.
Qed.

Lemma nodupb_ok l : nodupb l = true -> NoDup l.
Proof. unfold nodupb. intros H%Nat.eqb_eq. rewrite <- (nodup_nop l H). apply NoDup_nodup. Qed.

Lemma valid_inputb_ok ls top bottom : valid_inputb ls top bottom = true ->
  valid_input (mkslen [] ls) top bottom.
Proof.
  unfold valid_inputb. rewrite !andb_true_iff. intros [[[[[H1 H2] H3] H4] H5] H6].
  apply nodupb_ok in H1, H2. apply Nat.eqb_eq in H3. rewrite forallb_forall in H4, H6.
  split; [exact H1|]. split; [|split].
  - apply NoDup_Permutation_bis; [exact H1 | lia|]. intros x Hx. specialize (H4 x Hx). unfold memb in H4.
    apply existsb_exists in H4. destruct H4 as (y & Hy & E). apply Nat.eqb_eq in E. subst. exact Hy.
  - intros ->. discriminate.
  - intros l Hl. specialize (H6 l Hl). simpl. destruct (nth_error ls l) as [x|]; [|discriminate].
    exists x. split; [reflexivity|]. apply is_pos_true. exact H6.
Qed.

(** The IET that the constructor returns for such an input. *)
Definition fresh (top bottom : list label) : iet T := mkiet top bottom false None tracker_init.

Lemma fresh_made s top bottom : valid_input s top bottom -> iet_make s top bottom = Ok (fresh top bottom).
Proof.
  intros (H1 & H2 & H3 & H4). apply ReduceProof.iet_make_ok; assumption.
Qed.

Lemma fresh_history ls top bottom : valid_inputb ls top bottom = true ->
  history [fresh top bottom] (mkslen [] ls).
Proof.
  intros H%valid_inputb_ok. apply (h_new [] _ top bottom); [constructor | exact H | intros ? _ []|].
  apply fresh_made. exact H.
Qed.

Lemma fresh_obtainable ls top bottom : valid_inputb ls top bottom = true ->
  obtainable (fresh top bottom) (mkslen [] ls).
Proof. intros H. eexists. split; [exact (fresh_history ls top bottom H) | left; reflexivity]. Qed.

Lemma step_obtainable i s o i' extra s' j : obtainable i s -> op_legal o -> run_op o i s = Ok (i', extra, s') ->
  In j (i' :: extra) -> obtainable j s'.
Proof.
  intros (l & Hl & Hi) Ho E Hj. apply in_split in Hi. destruct Hi as (l1 & l2 & ->).
  exists (l1 ++ i' :: extra ++ l2). split; [eapply h_op; eassumption|].
  apply in_or_app. right. simpl in *. rewrite in_app_iff. tauto.
Qed.

End Fixtures.

(** Integer lengths 7, 5, 3, 4 on four labels. *)
Definition z_lens : slen Z := mkslen [] [7; 5; 3; 4]%Z.
Definition z_iet : iet Z := fresh [0; 1; 2; 3] [3; 2; 1; 0].
Lemma z_obtainable : obtainable z_iet z_lens.
Proof. apply fresh_obtainable. vm_compute. reflexivity. Qed.

(** Integer lengths, reducible. *)
Definition r_lens : slen Z := mkslen [] [2; 3; 5; 4]%Z.
Definition r_iet : iet Z := fresh [0; 1; 2; 3] [1; 0; 3; 2].
Lemma r_obtainable : obtainable r_iet r_lens.
Proof. apply fresh_obtainable. vm_compute. reflexivity. Qed.

(** Lengths 1, sqrt 2, 4 - sqrt 2 on three labels. *)
Definition q2_of (a b : Z) : q2 := (zq a, zq b).
Definition w_lens : slen q2 := mkslen [] [q2_of 1 0; q2_of 0 1; q2_of 4 (-1)].
Definition w_iet : iet q2 := fresh [0; 1; 2] [2; 1; 0].
Lemma w_obtainable : obtainable w_iet w_lens.
Proof. apply fresh_obtainable. vm_compute. reflexivity. Qed.

(** The interval exchange transformation of Arnoux and Yoccoz (lengths doubled). *)
Definition q3_of (a b c : Z) : q3 := (zq a, zq b, zq c).
Definition ay_lens : slen q3 := mkslen [] [q3_of 0 1 0; q3_of 1 (-2) 0; q3_of 1 (-1) 0; q3_of 1 (-2) 1; q3_of 1 (-2) 1;
  q3_of (-1) 3 (-1); q3_of (-1) 3 (-1)].
Definition ay_iet : iet q3 := fresh [0; 1; 2; 3; 4; 5; 6] [1; 4; 3; 6; 5; 2; 0].
Lemma ay_obtainable : obtainable ay_iet ay_lens.
Proof. apply fresh_obtainable. vm_compute. reflexivity. Qed.
