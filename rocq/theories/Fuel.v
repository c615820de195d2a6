(** The bounds on loops and recursions in the model never change an answer: with larger
    bounds the model gives the same result, unless it ran out of them. *)
From Verif Require Import Base QcTac LenT FM Subspace Lengths IET Decomp.

Definition upto {A} (r r' : res A) : Prop := r = OutOfFuel \/ r = r'.

Lemma upto_refl {A} (r : res A) : upto r r.
Proof. right. reflexivity. Qed.

Lemma upto_bind {A B} (m m' : res A) (f f' : A -> res B) : upto m m' -> (forall a, upto (f a) (f' a)) ->
  upto (bind m f) (bind m' f').
Proof.
  intros [->| ->] H; [left; reflexivity|]. destruct m'; try (right; reflexivity). apply H.
Qed.

Lemma upto_assert {A} b (m m' : res A) : upto m m' -> upto (assert_ b m) (assert_ b m').
Proof. intro H. destruct b; [exact H|right; reflexivity]. Qed.

Ltac up := repeat first
  [ apply upto_refl
  | left; reflexivity
  | apply upto_assert
  | match goal with
    | |- upto (bind _ _) (bind _ _) => apply upto_bind; [|intros]
    | |- upto (match ?x with _ => _ end) _ => destruct x
    end
  | solve [eauto] ].

Section Fuel.
Context {T : Type} {O : LenOps T}.

Lemma induce_loop_more {S} (L : lens T S) saf0 limit : forall fuel fuel' n i s, fuel <= fuel' ->
  upto (induce_loop L fuel saf0 limit n i s) (induce_loop L fuel' saf0 limit n i s).
Proof.
  induction fuel as [|fuel IH]; intros fuel' n i s H; [left; reflexivity|]. destruct fuel' as [|fuel']; [lia|].
  assert (Q : fuel <= fuel') by lia. simpl. up.
Qed.

Lemma induce_more {S} (L : lens T S) fuel fuel' limit i s : fuel <= fuel' -> upto (induce L fuel limit i s) (induce L fuel' limit i s).
Proof. intro H. unfold induce. up. apply induce_loop_more, H. Qed.

Lemma step_loop_more cost c : forall rounds rounds' fuel fuel' limit (d : decomp T), rounds <= rounds' -> fuel <= fuel' ->
  upto (step_loop rounds fuel cost limit c d) (step_loop rounds' fuel' cost limit c d).
Proof.
  induction rounds as [|rounds IH]; intros rounds' fuel fuel' limit d H H'; [left; reflexivity|]. destruct rounds' as [|rounds']; [lia|].
  assert (Q : rounds <= rounds') by lia. cbn [step_loop]. up. apply induce_more, H'.
Qed.

Lemma walk_more (d : decomp T) : forall fuel fuel' a b, fuel <= fuel' -> upto (walk_clockwise fuel d a b) (walk_clockwise fuel' d a b).
Proof.
  induction fuel as [|fuel IH]; intros fuel' a b H; [left; reflexivity|]. destruct fuel' as [|fuel']; [lia|].
  assert (Q : fuel <= fuel') by lia. cbn [walk_clockwise]. up.
Qed.

Lemma step_finish_more fuel fuel' st c (d : decomp T) : fuel <= fuel' -> upto (step_finish fuel st c d) (step_finish fuel' st c d).
Proof. intro H. unfold step_finish, step_separating. up. apply walk_more, H. Qed.

Lemma step_limited_more fuel fuel' limit c (d : decomp T) : fuel <= fuel' -> upto (step_limited fuel limit c d) (step_limited fuel' limit c d).
Proof.
  intro H. unfold step_limited. up; [apply step_loop_more; assumption|apply step_finish_more, H].
Qed.

Lemma step_unlimited_more cost c : forall rounds rounds' fuel fuel' limit (d : decomp T), rounds <= rounds' -> fuel <= fuel' ->
  upto (step_unlimited rounds fuel cost limit c d) (step_unlimited rounds' fuel' cost limit c d).
Proof.
  induction rounds as [|rounds IH]; intros rounds' fuel fuel' limit d H H'; [left; reflexivity|]. destruct rounds' as [|rounds']; [lia|].
  assert (Q : rounds <= rounds') by lia. cbn [step_unlimited]. apply upto_bind; [apply step_limited_more, H'|]. intros [st d1]. up.
Qed.

Theorem decomposition_step_more fuel fuel' limit c (d : decomp T) : fuel <= fuel' ->
  upto (decomposition_step fuel limit c d) (decomposition_step fuel' limit c d).
Proof.
  intro H. unfold decomposition_step. up; [apply step_unlimited_more; exact H|apply step_limited_more, H].
Qed.

Lemma comp_decompose_more target limit : forall rounds rounds' fuel fuel' c (d : decomp T), rounds <= rounds' -> fuel <= fuel' ->
  upto (comp_decompose rounds fuel target limit c d) (comp_decompose rounds' fuel' target limit c d).
Proof.
  induction rounds as [|rounds IH]; intros rounds' fuel fuel' c d H H'; [left; reflexivity|]. destruct rounds' as [|rounds']; [lia|].
  assert (Q : rounds <= rounds') by lia. cbn [comp_decompose]. apply upto_bind; [apply upto_refl|]. intro v. destruct (target v); [apply upto_refl|].
  apply upto_bind; [apply decomposition_step_more, H'|]. intros [st d1]. up.
Qed.

Theorem decompose_more rounds rounds' fuel fuel' target limit (d : decomp T) : rounds <= rounds' -> fuel <= fuel' ->
  upto (decompose rounds fuel target limit d) (decompose rounds' fuel' target limit d).
Proof.
  intros H H'. unfold decompose. generalize (seq 0 (length (d_comps d))) as cs. intro cs. revert d.
  induction cs as [|c cs IH]; intro d; cbn [decompose_all]; [apply upto_refl|].
  apply upto_bind; [apply comp_decompose_more; assumption|]. intros [ok d1]. destruct ok; [apply IH|apply upto_refl].
Qed.

End Fuel.
