(** Proofs of the properties in PropRen.v. *)
From Coq Require Import List Permutation.
From Verif Require Import Base QcTac LenT FM Subspace Lengths IET Decomp LenInst Spec Api RatioApi RenApi.
From Verif Require Import Ren RenDec.
Open Scope nat_scope.
(** Labels 0, 1, 2, 3 are turned around. *)
Definition turn (l : label) : label := if l <? 4 then 3 - l else l.

Lemma turn_inj a b : turn a = turn b -> a = b.
Proof. unfold turn. destruct (Nat.ltb_spec a 4), (Nat.ltb_spec b 4); lia. Qed.

Lemma turn_lengths : moved_lengths turn [7; 5; 3; 4]%Z [4; 3; 5; 7]%Z.
Proof.
  intro l. unfold turn. destruct (Nat.ltb_spec l 4) as [H|H].
  - do 4 (destruct l as [|l]; [reflexivity|]). lia.
  - rewrite !(proj2 (nth_error_None _ _)) by exact H. reflexivity.
Qed.

Lemma turn_lengths' : moved_lengths turn [5; 7; 3; 4]%Z [4; 3; 7; 5]%Z.
Proof.
  intro l. unfold turn. destruct (Nat.ltb_spec l 4) as [H|H].
  - do 4 (destruct l as [|l]; [reflexivity|]). lia.
  - rewrite !(proj2 (nth_error_None _ _)) by exact H. reflexivity.
Qed.

Definition ren_program : list (nat * op) := [(0, op_bosh_saddle2 1 2); (0, op_zorich); (0, op_swap); (0, op_induce 100 1); (0, op_induce 100 (-1)); (0, op_reduce)].
Definition wants (v : look) : bool := match lk_cylinder v with Some true => true | _ => false end.
Definition ren_calls : list dcall := [dc_inject (mkhe 0 0 false) [] [(0, 3)]; dc_step 100 1 0; dc_decompose 100 100 wants (-1)].
Definition ren_calls' : list dcall := [dc_inject (mkhe 0 3 false) [] [(3, 0)]; dc_step 100 1 0; dc_decompose 100 100 wants (-1)].

Lemma ren_calls_ok : Forall2 (renamed_dcall turn) ren_calls ren_calls'.
Proof.
  constructor; [exact (rd_inject turn (mkhe 0 0 false) [] [(0, 3)])|]. constructor; [constructor|]. constructor; [|constructor].
  constructor. intro v. reflexivity.
Qed.

Section Comparison.
Variable f : label -> label.
Hypothesis inj : forall a b, f a = f b -> a = b.
Context {T : Type} {O : LenOps T}.

Lemma no_stack (st st' : list label) (a b : list T) r : same_lengths (mkslen st a) (mkslen st' b) r = same_lengths (mkslen [] a) (mkslen [] b) r.
Proof.
  induction r as [|x r IH]; [reflexivity|]. cbn [same_lengths]. rewrite IH. reflexivity.
Qed.

Lemma comparison_ok (i i' j j' : iet T) (s s' o o' : slen T) :
  rows i' = ren_rows f (rows i) -> rows j' = ren_rows f (rows j) ->
  moved_lengths f (sl_lens s) (sl_lens s') -> moved_lengths f (sl_lens o) (sl_lens o') ->
  iet_eqb i' s' j' o' = iet_eqb i s j o /\ iet_equivalent i' s' j' o' = iet_equivalent i s j o.
Proof.
  destruct i as [it ib isw isf ik], i' as [it' ib' isw' isf' ik'], j as [jt jb jsw jsf jk], j' as [jt' jb' jsw' jsf' jk'], s as [ss sl], s' as [ss' sl'], o as [os ol], o' as [os' ol'].
  intros E1 E2 H1 H2. injection E1 as -> ->. injection E2 as -> ->. cbn [sl_lens] in *.
  set (m := fun t b => mkiet t b false None (@tracker_init T)).
  assert (I1 : irel f (m it ib) (m (map f it) (map f ib))) by (repeat split; try reflexivity; apply trel_init).
  assert (I2 : irel f (m jt jb) (m (map f jt) (map f jb))) by (repeat split; try reflexivity; apply trel_init).
  assert (S1 : srel f (mkslen [] sl) (mkslen [] sl')) by (split; [reflexivity|exact H1]).
  assert (S2 : srel f (mkslen [] ol) (mkslen [] ol')) by (split; [reflexivity|exact H2]).
  pose proof (ren_iet_eqb f inj _ _ _ _ _ _ _ _ I1 S1 I2 S2) as A.
  pose proof (ren_iet_equivalent f inj _ _ _ _ (m jt jb) (mkslen [] ol) I1 S1) as B.
  pose proof (ren_iet_equivalent_r f inj (m (map f it) (map f ib)) (mkslen [] sl') _ _ _ _ I2 S2) as C.
  split; [|exact (eq_trans C B)].
  revert A. unfold iet_eqb. cbn [m i_top i_bottom]. rewrite !(no_stack ss), !(no_stack ss'). auto.
Qed.
End Comparison.
Lemma claim_C72_program : forall (T : Type) (O : LenOps T) (f : label -> label) (top bottom : list label)
    (p : list (nat * op)) (ls ls' : list T),
  (forall a b, f a = f b -> a = b) -> moved_lengths f ls ls' ->
  both (fun r r' =>
      fst (fst r') = map (ren_answer f) (fst (fst r)) /\
      map rows (snd (fst r')) = map (ren_rows f) (map rows (snd (fst r))) /\
      moved_lengths f (sl_lens (snd r)) (sl_lens (snd r')))
    (session top bottom p (mkslen [] ls))
    (session (map f top) (map f bottom) (map (ren_call f) p) (mkslen [] ls')).
Proof.
  intros T O f top bottom p ls ls' inj H. exact (ren_session f inj top bottom p ls ls' H).
Qed.

Lemma claim_C72_decomposition : forall (T : Type) (O : LenOps T) (f : label -> label) (top bottom : list label)
    (p : list (nat * op)) (n : nat) (q q' : list dcall) (ls ls' : list T),
  (forall a b, f a = f b -> a = b) -> moved_lengths f ls ls' -> Forall2 (renamed_dcall f) q q' ->
  both (fun r r' =>
      fst (fst r') = map (ren_answer f) (fst (fst r)) /\
      snd (fst r') = map (ren_danswer f) (snd (fst r)) /\
      Forall2 (renamed_view f) (snd r) (snd r'))
    (decomposing top bottom p n q (mkslen [] ls))
    (decomposing (map f top) (map f bottom) (map (ren_call f) p) n q' (mkslen [] ls')).
Proof.
  intros T O f top bottom p n q q' ls ls' inj H Hq. exact (ren_decomposing f inj top bottom p n q q' ls ls' H Hq).
Qed.

Lemma claim_C72_comparison : forall (T : Type) (O : LenOps T) (f : label -> label) (i i' j j' : iet T) (s s' o o' : slen T),
  (forall a b, f a = f b -> a = b) ->
  rows i' = ren_rows f (rows i) -> rows j' = ren_rows f (rows j) ->
  moved_lengths f (sl_lens s) (sl_lens s') -> moved_lengths f (sl_lens o) (sl_lens o') ->
  iet_eqb i' s' j' o' = iet_eqb i s j o /\ iet_equivalent i' s' j' o' = iet_equivalent i s j o.
Proof.
  intros T O f i i' j j' s s' o o' inj. exact (comparison_ok f inj i i' j j' s s' o o').
Qed.

