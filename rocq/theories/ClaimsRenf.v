(** Proofs of the properties in PropRenf.v. *)
From Coq Require Import Reals Permutation Lia Lra.
From Verif Require Import Base QcTac LenT FM Subspace LenInst Sqrt2 Cubic Renf RenfApi.
From Verif Require Import RenfProof MixedUniv ClaimsMixed.
Open Scope nat_scope.
(** Three fields: the rationals, a quadratic and a cubic field. *)
Inductive field := field_q | field_2 | field_3.
Definition field_same (p q : field) : bool :=
  match p, q with field_q, field_q | field_2, field_2 | field_3, field_3 => true | _, _ => false end.
Definition field_degree (p : field) : nat := match p with field_q => 1 | field_2 => 2 | field_3 => 3 end.
Definition field_power (p : field) : list R := match p with field_q => [1%R] | field_2 => [1%R; r2] | field_3 => [1%R; r3; (r3 * r3)%R] end.

Lemma q3_free : independent [1%R; r3; (r3 * r3)%R].
Proof.
  intros [|a [|b [|c [|x v]]]] L H; try discriminate L.
  assert (Z : (a, b, c) = (0%Qc, 0%Qc, 0%Qc)).
  { apply q3_val_inj. unfold q3_val. rewrite !Qc2R_0. cbn [lin] in H. lra. }
  apply pair_equal_spec in Z. destruct Z as [Z ->]. apply pair_equal_spec in Z. destruct Z as [-> ->]. reflexivity.
Qed.

Lemma three_fields : fields field_same field_degree field_power.
Proof.
  split.
  - intros [| |] [| |]; cbn; split; intro H; try discriminate H; reflexivity.
  - intros [| |]; reflexivity.
  - intros [| |]; eexists; reflexivity.
  - intros [| |]; [exact free_one|exact q2_free|exact q3_free].
Qed.

(** The number one in the cubic field, two, and the square root of two. *)
Definition one_3 : renf field := mkrenf field_3 [1%Qc; 0%Qc; 0%Qc].
Definition two_q : renf field := mkrenf field_q [zq 2].
Definition root_2 : renf field := mkrenf field_2 [0%Qc; 1%Qc].

Lemma root_2_irrational : ~ rational (renf_value field_power root_2).
Proof.
  intros H. apply (proj2 (is_rational_ok field_same field_degree field_power three_fields root_2 eq_refl)) in H.
  revert H. vm_compute. discriminate.
Qed.

Lemma claim_C69_coordinates : forall (F : Type) (same : F -> F -> bool) (degree : F -> nat) (power : F -> list R),
  fields same degree power -> forall (xs : list (renf F)) cs,
  xs <> [] -> (forall x, In x xs -> renf_ok degree x) -> renf_coefficients same degree xs = Ok cs ->
  coordinates cs (map (renf_value power) xs).
Proof.
  intros F same degree power HF [|x0 xs] cs; [congruence|]. intros _ H E. pose proof (coefficients_ok same degree power HF x0 xs H) as C. rewrite E in C.
  destruct C as (r & _ & _ & _ & C). exists (power r). split; [rewrite (fl_degree _ _ _ HF); apply (degree_pos _ _ _ HF)|]. split; [apply (fl_free _ _ _ HF)|exact C].
Qed.

Lemma claim_C69_success : forall (F : Type) (same : F -> F -> bool) (degree : F -> nat) (power : F -> list R),
  fields same degree power -> forall (x0 : renf F) (xs : list (renf F)),
  (forall x, In x (x0 :: xs) -> renf_ok degree x) ->
  ((exists cs, renf_coefficients same degree (x0 :: xs) = Ok cs) \/ renf_coefficients same degree (x0 :: xs) = Throw) /\
  ((exists cs, renf_coefficients same degree (x0 :: xs) = Ok cs) <->
   exists p, (re_parent x0 = p \/ degree (re_parent x0) = 1) /\
     forall x, In x (x0 :: xs) -> ~ rational (renf_value power x) -> re_parent x = p).
Proof.
  intros F same degree power HF x0 xs H. pose proof (coefficients_ok same degree power HF x0 xs H) as C.
  assert (R : forall x p, In x (x0 :: xs) -> ((is_rational x = false -> re_parent x = p) <-> (~ rational (renf_value power x) -> re_parent x = p))).
  { intros x p Hx. pose proof (is_rational_ok same degree power HF x (H x Hx)) as Q. destruct (is_rational x); split; intros G N; try discriminate N; try (apply G; reflexivity).
    - exfalso. apply N, Q. reflexivity.
    - apply G. intro K. apply Q in K. discriminate K. }
  destruct (renf_coefficients same degree (x0 :: xs)) as [cs| | | |]; try contradiction.
  - split; [left; exists cs; reflexivity|]. split; [|intros _; exists cs; reflexivity]. intros _. destruct C as (r & A & B & _).
    exists r. split; [exact A|]. intros x Hx. apply R; auto.
  - split; [right; reflexivity|]. split; [intros (cs & K); discriminate K|]. intros (p & A & B). exfalso. apply C. exists p. split; [exact A|].
    intros x Hx. apply R; auto.
Qed.

Lemma claim_C69_elements : forall (gen : nat -> R) (xs : list element),
  (forall x, In x xs -> element_ok x) -> exists cs p,
  element_coefficients xs = Ok cs /\ NoDup p /\ (forall g, In g p <-> exists x, In x xs /\ In g (el_module x)) /\
  Forall2 (fun c x => length c = length p /\ lin c (map gen p) = element_value gen x) cs xs.
Proof.
  intros gen [|x0 xs] H.
  - exists [], []. split; [reflexivity|]. split; [constructor|]. split; [|constructor]. intro g. split; [intros []|intros (x & [] & _)].
  - destruct (elements_ok gen x0 xs H) as (cs & p & A & B & C & D). exists cs, p. split; [exact A|]. split; [exact B|]. split; [exact C|].
    clear - D. remember (map (element_value gen) (x0 :: xs)) as l eqn:E. revert E. generalize (x0 :: xs). clear x0 xs. induction D as [|c x cs l H D IH]; intros [|y ys] E; try discriminate E; constructor.
    + cbn [map] in E. injection E as -> _. exact H.
    + apply IH. cbn [map] in E. injection E as _ E. exact E.
Qed.

Lemma claim_C70_order_refuted :
  exists (F : Type) (same : F -> F -> bool) (degree : F -> nat) (power : F -> list R) (xs ys : list (renf F)),
  fields same degree power /\ (forall x, In x xs -> renf_ok degree x) /\ Permutation xs ys /\
  renf_coefficients same degree xs = Throw /\ exists cs, renf_coefficients same degree ys = Ok cs /\ coordinates cs (map (renf_value power) ys).
Proof.
  exists field, field_same, field_degree, field_power, [one_3; root_2], [root_2; one_3].
  assert (H : forall x, In x [root_2; one_3] -> renf_ok field_degree x) by (intros x Hx; repeat (destruct Hx as [<-|Hx]; [reflexivity|]); destruct Hx).
  split; [exact three_fields|]. split; [intros x Hx; apply H; destruct Hx as [<-|[<-|[]]]; [right; left|left]; reflexivity|]. split; [constructor|]. split; [vm_compute; reflexivity|].
  destruct (renf_coefficients field_same field_degree [root_2; one_3]) as [cs| | | |] eqn:E; try (vm_compute in E; discriminate E).
  exists cs. split; [reflexivity|]. apply (claim_C69_coordinates field field_same field_degree field_power three_fields); [discriminate|exact H|exact E].
Qed.

Lemma claim_C70_order_partial : forall (F : Type) (same : F -> F -> bool) (degree : F -> nat) (power : F -> list R),
  fields same degree power -> forall (p : F) (xs ys : list (renf F)),
  (forall x, In x xs -> renf_ok degree x) -> (forall x, In x xs -> degree (re_parent x) = 1 \/ re_parent x = p) -> Permutation xs ys ->
  exists cs ds, renf_coefficients same degree xs = Ok cs /\ renf_coefficients same degree ys = Ok ds.
Proof.
  intros F same degree power HF p.
  assert (G : forall zs, (forall x, In x zs -> renf_ok degree x) -> (forall x, In x zs -> degree (re_parent x) = 1 \/ re_parent x = p) -> exists cs, renf_coefficients same degree zs = Ok cs).
  { intros [|x0 zs] H K; [exists []; reflexivity|]. apply (claim_C69_success F same degree power HF x0 zs H). exists p. split.
    - destruct (K x0 (or_introl eq_refl)); auto.
    - intros x Hx N. destruct (K x Hx) as [D|D]; [|exact D]. exfalso. apply N. apply (is_rational_ok same degree power HF x (H x Hx)).
      destruct (is_rational x) eqn:Ex; [reflexivity|]. exfalso. exact (irrational_degree same degree power HF x (H x Hx) Ex D). }
  intros xs ys H K P. destruct (G xs H K) as (cs & Ec). destruct (G ys) as (ds & Ed).
  - intros x Hx. apply H. apply (Permutation_in x (Permutation_sym P) Hx).
  - intros x Hx. apply K. apply (Permutation_in x (Permutation_sym P) Hx).
  - exists cs, ds. split; assumption.
Qed.

Lemma claim_C70_all_orders : forall (F : Type) (same : F -> F -> bool) (degree : F -> nat) (power : F -> list R),
  fields same degree power -> forall (xs : list (renf F)), xs <> [] -> (forall x, In x xs -> renf_ok degree x) ->
  ((forall ys, Permutation xs ys -> exists cs, renf_coefficients same degree ys = Ok cs) <->
   (forall x, In x xs -> rational (renf_value power x)) \/
   exists p, forall x, In x xs -> re_parent x = p \/ degree (re_parent x) = 1) /\
  ((exists ys cs, Permutation xs ys /\ renf_coefficients same degree ys = Ok cs) <->
   exists p, forall x, In x xs -> ~ rational (renf_value power x) -> re_parent x = p).
Proof.
  intros F same degree power HF xs Ne Hok.
  assert (Q : (forall x, In x xs -> is_rational x = true) \/ exists z, In z xs /\ is_rational z = false).
  { clear Ne Hok. induction xs as [|x xs IH]; [left; intros ? []|]. destruct (is_rational x) eqn:E; [|right; exists x; split; [left; reflexivity|exact E]].
    destruct IH as [IH|(z & Hz & E')]; [left|right; exists z; split; [right; exact Hz|exact E']]. intros y [<-|Hy]; auto. }
  assert (Front : forall x, In x xs -> exists ys, Permutation xs (x :: ys)).
  { intros x Hx. apply in_split in Hx as (A & B & ->). exists (A ++ B). symmetry. apply Permutation_middle. }
  assert (Ok' : forall ys, Permutation xs ys -> forall x, In x ys -> renf_ok degree x).
  { intros ys P x Hx. apply Hok, (Permutation_in x (Permutation_sym P) Hx). }
  assert (Ra : forall x, In x xs -> (is_rational x = true <-> rational (renf_value power x))).
  { intros x Hx. exact (is_rational_ok same degree power HF x (Hok x Hx)). }
  assert (Su : forall x0 ys, Permutation xs (x0 :: ys) -> ((exists cs, renf_coefficients same degree (x0 :: ys) = Ok cs) <->
     exists p, (re_parent x0 = p \/ degree (re_parent x0) = 1) /\ forall x, In x xs -> ~ rational (renf_value power x) -> re_parent x = p)).
  { intros x0 ys P. rewrite (proj2 (claim_C69_success F same degree power HF x0 ys (Ok' _ P))).
    split; intros (p & A & B); exists p; (split; [exact A|]); intros x Hx; apply B; [apply (Permutation_in x P Hx)|apply (Permutation_in x (Permutation_sym P) Hx)]. }
  split; split.
  - intro A. destruct Q as [Q|(z & Hz & Ez)]; [left; intros x Hx; apply Ra; auto|]. right. exists (re_parent z). intros x Hx.
    destruct (Front x Hx) as (ys & P). destruct (proj1 (Su x ys P) (A _ P)) as (p & B & C).
    rewrite (C z Hz); [exact B|]. rewrite <- (Ra z Hz), Ez. discriminate.
  - intros A ys P. destruct ys as [|x0 ys]; [apply Permutation_sym, Permutation_nil in P; contradiction|]. apply (Su x0 ys P).
    pose proof (Permutation_in x0 (Permutation_sym P) (or_introl eq_refl)) as Hx0.
    destruct A as [A|(p & A)].
    + exists (re_parent x0). split; [left; reflexivity|]. intros x Hx N. contradiction (N (A x Hx)).
    + exists p. split; [apply A, Hx0|]. intros x Hx N. destruct (A x Hx) as [D|D]; [exact D|]. exfalso. apply N, (Ra x Hx).
      destruct (is_rational x) eqn:Ex; [reflexivity|]. exfalso. exact (irrational_degree same degree power HF x (Hok x Hx) Ex D).
  - intros (ys & cs & P & E). destruct ys as [|x0 ys]; [apply Permutation_sym, Permutation_nil in P; contradiction|].
    destruct (proj1 (Su x0 ys P) (ex_intro _ cs E)) as (p & _ & B). exists p. exact B.
  - intros (p & A). destruct Q as [Q|(z & Hz & Ez)].
    + destruct xs as [|x0 xs]; [contradiction|]. destruct (proj2 (Su x0 xs (Permutation_refl _))) as (cs & E).
      * exists (re_parent x0). split; [left; reflexivity|]. intros x Hx N. contradiction N. apply Ra; auto.
      * exists (x0 :: xs), cs. split; [apply Permutation_refl|exact E].
    + destruct (Front z Hz) as (ys & P). destruct (proj2 (Su z ys P)) as (cs & E); [|exists (z :: ys), cs; split; assumption].
      exists p. split; [left|exact A]. apply A; [exact Hz|]. rewrite <- (Ra z Hz), Ez. discriminate.
Qed.

