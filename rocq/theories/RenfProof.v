(** Proofs about the coefficients of elements of number fields and exact reals. *)
From Coq Require Import List Reals Lra Lia Bool.
From Verif Require Import Base QcTac LenT FM Subspace SubspaceProof LenInst SpecLin Saf Bosh DecompCons Mixed MixedUniv Renf RenfApi RatioIet Lengths IET Decomp Spec Api RatioApi MixedApi MixedRun RatioRun.
Import ListNotations.
Open Scope nat_scope.

Lemma mapM_ok {X Y} (f : X -> res Y) (g : X -> Y) l : (forall x, In x l -> f x = Ok (g x)) -> mapM f l = Ok (map g l).
Proof.
  induction l as [|x l IH]; intro H; [reflexivity|]. cbn [mapM map]. rewrite (H x (or_introl eq_refl)). cbn [bind].
  rewrite IH by (intros y Hy; apply H; right; exact Hy). reflexivity.
Qed.

Lemma vzero_forall (l : list Qc) : forallb (fun q => qc_eqb q 0) l = true -> l = vzero (length l).
Proof.
  induction l as [|q l IH]; intro H; [reflexivity|]. cbn [forallb] in H. apply andb_true_iff in H. destruct H as [H1 H2].
  apply qc_eqb_spec in H1. cbn [length vzero]. rewrite H1 at 1. f_equal. apply IH, H2.
Qed.
Lemma forall_vzero n : forallb (fun q => qc_eqb q 0) (vzero n) = true.
Proof. induction n as [|n IH]; [reflexivity|]. cbn [vzero forallb]. rewrite IH, andb_true_r. apply qc_eqb_spec. reflexivity. Qed.

Section Fields.
Context {F : Type}.
Variable same : F -> F -> bool.
Variable degree : F -> nat.
Variable power : F -> list R.
Hypothesis HF : fields same degree power.

Notation value := (renf_value power).
Notation okay := (renf_ok degree).

Lemma degree_pos p : 1 <= degree p.
Proof. rewrite <- (fl_degree _ _ _ HF). destruct (fl_one _ _ _ HF p) as (r & ->). simpl. lia. Qed.

Lemma coords_split x : okay x -> exists q v, re_coords x = q :: v /\ length v = degree (re_parent x) - 1.
Proof.
  unfold renf_ok. intro H. pose proof (degree_pos (re_parent x)). destruct (re_coords x) as [|q v]; simpl in H; [lia|]. exists q, v. split; [reflexivity|lia].
Qed.

Lemma lin_first q n p : lin (q :: vzero n) (power p) = Qc2R q.
Proof. destruct (fl_one _ _ _ HF p) as (r & ->). simpl. rewrite lin_vzero. ring. Qed.

Lemma rational_coords x : okay x -> is_rational x = true -> exists q, re_coords x = q :: vzero (degree (re_parent x) - 1).
Proof.
  intros H E. destruct (coords_split x H) as (q & v & Ec & Lv). unfold is_rational in E. rewrite Ec in *. cbn [tl] in E. exists q. f_equal.
  rewrite <- Lv. apply vzero_forall, E.
Qed.

Lemma is_rational_ok x : okay x -> (is_rational x = true <-> rational (value x)).
Proof.
  intro H. split.
  - intro E. destruct (rational_coords x H E) as (q & Ec). exists q. unfold renf_value. rewrite Ec. apply lin_first.
  - intros (q & Eq). destruct (coords_split x H) as (r & v & Ec & Lv). unfold renf_value in Eq. rewrite Ec in Eq.
    pose proof (fl_degree _ _ _ HF (re_parent x)) as Ld. pose proof (degree_pos (re_parent x)) as Dp.
    assert (Z : vsub (r :: v) (q :: vzero (length v)) = vzero (degree (re_parent x))).
    { rewrite <- Ld. apply (fl_free _ _ _ HF).
      - rewrite vsub_length; cbn [length]; rewrite ?vzero_length; [rewrite Ld; lia|reflexivity].
      - rewrite lin_vsub; [rewrite Eq, lin_first; ring| |]; cbn [length]; rewrite ?vzero_length, Ld; lia. }
    replace (degree (re_parent x)) with (S (length v)) in Z by lia. cbn [vsub vzero] in Z.
    pose proof (f_equal (fun l => tl l) Z) as Z2. cbn [tl] in Z2. rewrite vsub_0_r in Z2 by reflexivity.
    unfold is_rational. rewrite Ec. cbn [tl]. rewrite Z2. apply forall_vzero.
Qed.

Lemma irrational_degree x : okay x -> is_rational x = false -> degree (re_parent x) <> 1.
Proof.
  intros H E D. destruct (coords_split x H) as (q & v & Ec & Lv). rewrite D in Lv. destruct v; [|simpl in Lv; lia].
  unfold is_rational in E. rewrite Ec in E. discriminate.
Qed.

(** What the loop finds. *)
Lemma pick_ok xs : (forall x, In x xs -> okay x) -> forall p,
  match pick_parent same degree p xs with
  | Ok r => (p = r \/ degree p = 1) /\ forall x, In x xs -> is_rational x = false -> re_parent x = r
  | Throw => ~ exists r, (p = r \/ degree p = 1) /\ forall x, In x xs -> is_rational x = false -> re_parent x = r
  | _ => False
  end.
Proof.
  induction xs as [|x xs IH]; intros H p; cbn [pick_parent]; [split; [left; reflexivity|intros x []]|].
  assert (Hx : okay x) by (apply H; left; reflexivity).
  assert (IH' : forall p, _) by (apply IH; intros y Hy; apply H; right; exact Hy). clear IH.
  destruct (is_rational x) eqn:Er.
  - specialize (IH' p). destruct (pick_parent same degree p xs); auto.
    + destruct IH' as [A B]. split; [exact A|]. intros y [<-|Hy]; [congruence|apply B, Hy].
    + intros (r & A & B). apply IH'. exists r. split; [exact A|]. intros y Hy. apply B. right. exact Hy.
  - destruct (Nat.eqb_spec (degree p) 1) as [D|D].
    + rewrite (proj2 (fl_same _ _ _ HF _ _) eq_refl). specialize (IH' (re_parent x)). pose proof (irrational_degree x Hx Er) as Dx.
      destruct (pick_parent same degree (re_parent x) xs); auto.
      * destruct IH' as [[A|A] B]; [|contradiction]. split; [right; exact D|]. intros y [<-|Hy]; [auto|apply B, Hy].
      * intros (r & A & B). apply IH'. exists r. split; [left; apply B; [left; reflexivity|exact Er]|]. intros y Hy. apply B. right. exact Hy.
    + destruct (same p (re_parent x)) eqn:Es.
      * apply (fl_same _ _ _ HF) in Es. subst p. specialize (IH' (re_parent x)).
        destruct (pick_parent same degree (re_parent x) xs); auto.
        -- destruct IH' as [A B]. split; [exact A|]. intros y [<-|Hy]; [intros _; destruct A as [A|A]; [exact A|contradiction]|apply B, Hy].
        -- intros (r & A & B). apply IH'. exists r. split; [exact A|]. intros y Hy. apply B. right. exact Hy.
      * intros (r & [A|A] & B); [|contradiction]. subst r. rewrite <- (B x (or_introl eq_refl) Er) in Es. rewrite (proj2 (fl_same _ _ _ HF _ _) eq_refl) in Es. discriminate.
Qed.

Definition coords_in (p : F) (x : renf F) : list Qc := if same p (re_parent x) then re_coords x else hd 0%Qc (re_coords x) :: vzero (degree p - 1).

Lemma coerce_ok p x : okay x -> (is_rational x = false -> re_parent x = p) ->
  coerce same degree p x = Ok (coords_in p x) /\ length (coords_in p x) = degree p /\ lin (coords_in p x) (power p) = value x.
Proof.
  intros H E. unfold coerce, coords_in. destruct (same p (re_parent x)) eqn:Es.
  - apply (fl_same _ _ _ HF) in Es. subst p. split; [reflexivity|]. split; [exact H|reflexivity].
  - destruct (is_rational x) eqn:Er.
    + split; [reflexivity|]. destruct (rational_coords x H Er) as (q & Ec). rewrite Ec. cbn [hd]. pose proof (degree_pos p). split.
      * cbn [length]. rewrite vzero_length. lia.
      * unfold renf_value. rewrite Ec, !lin_first. reflexivity.
    + rewrite (E eq_refl) in Es. rewrite (proj2 (fl_same _ _ _ HF _ _) eq_refl) in Es. discriminate.
Qed.

Lemma coefficients_ok x0 xs : (forall x, In x (x0 :: xs) -> okay x) ->
  match renf_coefficients same degree (x0 :: xs) with
  | Ok cs => (exists r, (re_parent x0 = r \/ degree (re_parent x0) = 1) /\ (forall x, In x (x0 :: xs) -> is_rational x = false -> re_parent x = r) /\
       cs = map (coords_in r) (x0 :: xs) /\ Forall2 (fun c x => length c = length (power r) /\ lin c (power r) = x) cs (map value (x0 :: xs)))
  | Throw => ~ exists r, (re_parent x0 = r \/ degree (re_parent x0) = 1) /\ forall x, In x (x0 :: xs) -> is_rational x = false -> re_parent x = r
  | _ => False
  end.
Proof.
  intro H. cbn [renf_coefficients]. pose proof (pick_ok (x0 :: xs) H (re_parent x0)) as P.
  destruct (pick_parent same degree (re_parent x0) (x0 :: xs)) as [r| | | |]; cbn [bind]; auto. destruct P as [A B].
  rewrite (mapM_ok _ (coords_in r)) by (intros x Hx; apply coerce_ok; auto). exists r. split; [exact A|]. split; [exact B|]. split; [reflexivity|].
  revert H B. generalize (x0 :: xs). clear - HF. intro l. rewrite (fl_degree _ _ _ HF). induction l as [|x l IH]; intros H B; cbn [map]; constructor.
  - destruct (coerce_ok r x) as (_ & E1 & E2); [apply H; left; reflexivity|apply B; left; reflexivity|]. split; assumption.
  - apply IH; intros y Hy; [apply H|apply B]; right; exact Hy.
Qed.
End Fields.

(** * Exact reals *)

Section Elements.
Variable gen : nat -> R.

Lemma span_in p m g : In g (mod_span p m) <-> In g p \/ In g m.
Proof.
  unfold mod_span. rewrite in_app_iff, filter_In. split; [intros [H|[H _]]; auto|].
  intros [H|H]; [left; exact H|]. destruct (memb g p) eqn:E; [left; apply memb_In; exact E|right; auto].
Qed.

Lemma span_nodup p m : NoDup p -> NoDup m -> NoDup (mod_span p m).
Proof.
  intros Hp Hm. apply NoDup_app_intro; [exact Hp|apply NoDup_filter; exact Hm|].
  intros g Hg Hf. apply filter_In in Hf. destruct Hf as [_ Hf]. rewrite (proj2 (memb_In g p) Hg) in Hf. discriminate.
Qed.

Lemma spans_in xs : forall p g, In g (fold_left (fun p y => mod_span p (el_module y)) xs p) <-> In g p \/ exists x, In x xs /\ In g (el_module x).
Proof.
  induction xs as [|x xs IH]; intros p g; cbn [fold_left].
  - split; [auto|]. intros [H|(x & [] & _)]. exact H.
  - rewrite IH, span_in. split.
    + intros [[H|H]|(y & H & H')]; [left; exact H|right; exists x; split; [left; reflexivity|exact H]|right; exists y; split; [right; exact H|exact H']].
    + intros [H|(y & [<-|H] & H')]; [left; left; exact H|left; right; exact H'|right; exists y; auto].
Qed.

Lemma spans_nodup xs : (forall x, In x xs -> element_ok x) -> forall p, NoDup p -> NoDup (fold_left (fun p y => mod_span p (el_module y)) xs p).
Proof.
  induction xs as [|x xs IH]; intros H p Hp; [exact Hp|]. cbn [fold_left]. apply IH; [intros y Hy; apply H; right; exact Hy|].
  apply span_nodup; [exact Hp|apply H; left; reflexivity].
Qed.

Lemma coef_out x g : ~ In g (el_module x) -> el_coef x g = 0%Qc.
Proof.
  induction x as [|[h q] x IH]; intro H; [reflexivity|]. cbn in *. destruct (Nat.eqb_spec h g) as [->|]; [tauto|]. apply IH. tauto.
Qed.

Lemma promote_add p x h q : NoDup p -> In h p -> el_coef x h = 0%Qc ->
  lin (el_promote p ((h, q) :: x)) (map gen p) = (Qc2R q * gen h + lin (el_promote p x) (map gen p))%R.
Proof.
  intros N Hh Hx. unfold el_promote. induction p as [|g p IH]; [destruct Hh|]. inversion N as [|y l Ng Np]; subst. cbn [map lin].
  destruct (Nat.eq_dec h g) as [->|D].
  - cbn [el_coef]. rewrite Nat.eqb_refl, Hx, Qc2R_0.
    assert (E : map (fun g0 => if g =? g0 then q else el_coef x g0) p = map (el_coef x) p).
    { apply map_ext_in. intros k Hk. destruct (Nat.eqb_spec g k) as [->|]; [contradiction|reflexivity]. }
    cbn [el_coef] in E |- *. rewrite E. ring.
  - destruct Hh as [Hh|Hh]; [congruence|]. rewrite (IH Np Hh). cbn [el_coef]. destruct (Nat.eqb_spec h g); [contradiction|]. ring.
Qed.

Lemma promote_ok p x : NoDup p -> element_ok x -> incl (el_module x) p -> lin (el_promote p x) (map gen p) = element_value gen x.
Proof.
  intros N. induction x as [|[h q] x IH]; intros H I; cbn [element_value].
  - unfold el_promote. clear. induction p as [|g p IH]; [reflexivity|]. cbn. cbn in IH. rewrite IH, Qc2R_0. ring.
  - inversion H as [|y l Nh Nx]; subst. rewrite promote_add; [|exact N|apply I; left; reflexivity|apply coef_out; exact Nh].
    rewrite IH; [reflexivity|exact Nx|]. intros g Hg. apply I. right. exact Hg.
Qed.

Lemma elements_ok x0 xs : (forall x, In x (x0 :: xs) -> element_ok x) -> exists cs p,
  element_coefficients (x0 :: xs) = Ok cs /\ NoDup p /\ (forall g, In g p <-> exists x, In x (x0 :: xs) /\ In g (el_module x)) /\
  Forall2 (fun c x => length c = length p /\ lin c (map gen p) = x) cs (map (element_value gen) (x0 :: xs)).
Proof.
  intro H. set (p := fold_left (fun p y => mod_span p (el_module y)) (x0 :: xs) (el_module x0)).
  exists (map (el_promote p) (x0 :: xs)), p. split; [reflexivity|].
  assert (N : NoDup p) by (apply spans_nodup; [exact H|apply H; left; reflexivity]). split; [exact N|].
  assert (M : forall g, In g p <-> exists x, In x (x0 :: xs) /\ In g (el_module x)).
  { intro g. unfold p. rewrite spans_in. split; [intros [G|G]; [exists x0; split; [left; reflexivity|exact G]|exact G]|intro G; right; exact G]. }
  split; [exact M|]. assert (I : forall x, In x (x0 :: xs) -> incl (el_module x) p) by (intros x Hx g Hg; apply M; exists x; auto).
  clearbody p. clear M. revert H I. generalize (x0 :: xs). clear - N. intro l. induction l as [|x l IH]; intros H I; cbn [map]; constructor.
  - split; [unfold el_promote; apply map_length|]. apply promote_ok; [exact N|apply H; left; reflexivity|apply I; left; reflexivity].
  - apply IH; intros y Hy; [apply H|apply I]; right; exact Hy.
Qed.
End Elements.

(** * Coordinates describe all rational relations *)

Lemma combine_lin (q : list Qc) b : forall cs xs, Forall2 (fun c x => length c = length b /\ lin c b = x) cs xs -> length q = length xs ->
  lin q xs = lin (tab (length b) (fun k => dot q (map (fun c => nth k c 0%Qc) cs))) b.
Proof.
  intros cs xs H. revert q. induction H as [|c x cs xs [Lc Ex] H IH]; intros [|y q] Lq; try discriminate.
  - cbn [map dot lin]. rewrite lin_tab_zero; reflexivity.
  - cbn [lin map dot]. rewrite (IH q) by (cbn in Lq; lia). subst x. clear IH H Lq.
    rewrite (tab_of c _ Lc) at 1. rewrite <- lin_tab_scale by reflexivity. rewrite <- lin_tab_add by reflexivity. reflexivity.
Qed.

Lemma tab_vzero n f : tab n f = vzero n <-> forall k, k < n -> f k = 0%Qc.
Proof.
  revert f. induction n as [|n IH]; intro f; [split; [intros _ k Hk; lia|reflexivity]|]. rewrite tab_S. cbn [vzero]. split.
  - intros H. pose proof (f_equal (fun l => hd 0%Qc l) H) as H0. pose proof (f_equal (fun l => tl l) H) as H1. cbn [hd tl] in H0, H1.
    intros [|k] Hk; [exact H0|]. apply (proj1 (IH (fun k => f (S k))) H1). lia.
  - intro H. rewrite (H 0) by lia. f_equal. apply IH. intros k Hk. apply H. lia.
Qed.

Lemma coordinates_relations cs xs : coordinates cs xs -> exists d, length cs = length xs /\ 1 <= d /\ Forall (fun c => length c = d) cs /\
  forall q : list Qc, length q = length xs -> (lin q xs = 0%R <-> forall k, k < d -> dot q (map (fun c => nth k c 0%Qc) cs) = 0%Qc).
Proof.
  intros (b & Hb & Hf & H). exists (length b). split; [|split; [exact Hb|split]].
  - clear - H. induction H; cbn; congruence.
  - clear - H. induction H as [|c x cs xs [L _] H IH]; constructor; auto.
  - intros q Lq. rewrite (combine_lin q b cs xs H Lq). rewrite <- (tab_vzero (length b) (fun k => dot q (map (fun c => nth k c 0%Qc) cs))). split.
    + intro Z. apply Hf; [apply tab_length|exact Z].
    + intros ->. apply lin_vzero.
Qed.

(** * Rational numbers and elements of a number field *)

Section Mix.
Context {K : Type} {O : LenOps K} {W : LenLaws K} {E : OverQ K} {V : OverQLaws K}.

Definition mix_power (p : bool) : list R := if p then basis K else [1%R].

Lemma mix_fields : fields Bool.eqb (mix_degree (K := K)) mix_power.
Proof.
  split.
  - intros p q. apply eqb_true_iff.
  - intros [|]; [apply basis_length|reflexivity].
  - intros [|]; [apply basis_one|exists []; reflexivity].
  - intros [|]; [apply basis_free|exact free_one].
Qed.

Lemma from_q_val q : val (from_q q) = Qc2R q.
Proof. rewrite val_coef, from_q_coef. destruct basis_one as (r & ->). simpl. rewrite lin_vzero. ring. Qed.

Lemma to_renf_ok x : renf_ok (mix_degree (K := K)) (to_renf x).
Proof. destruct x as [q|k]; [reflexivity|apply coef_length]. Qed.

Lemma to_renf_val x : renf_value mix_power (to_renf x) = val (to_k x).
Proof.
  destruct x as [q|k]; unfold renf_value; cbn [to_renf re_coords re_parent mix_power to_k].
  - rewrite from_q_val. simpl. ring.
  - symmetry. apply val_coef.
Qed.

Lemma mix_coefs xs : xs <> [] -> exists cs, l_coefs xs = Ok cs /\ coordinates cs (map (fun x => val (to_k x)) xs).
Proof.
  destruct xs as [|x0 xs]; [congruence|intros _].
  pose proof (coefficients_ok Bool.eqb (mix_degree (K := K)) mix_power mix_fields (to_renf x0) (map to_renf xs)) as C.
  cbn [l_coefs MixOps]. change (map to_renf (x0 :: xs)) with (to_renf x0 :: map to_renf xs).
  destruct (renf_coefficients Bool.eqb (mix_degree (K := K)) (to_renf x0 :: map to_renf xs)) as [cs| | | |].
  - destruct C as (r & _ & _ & _ & H).
    { intros y Hy. change (to_renf x0 :: map to_renf xs) with (map to_renf (x0 :: xs)) in Hy. apply in_map_iff in Hy. destruct Hy as (z & <- & _). apply to_renf_ok. }
    exists cs. split; [reflexivity|]. exists (mix_power r). split; [|split].
    + rewrite (fl_degree _ _ _ mix_fields). apply (degree_pos _ _ _ mix_fields).
    + apply (fl_free _ _ _ mix_fields).
    + change (to_renf x0 :: map to_renf xs) with (map to_renf (x0 :: xs)) in H. rewrite map_map in H.
      rewrite (map_ext _ (fun x => val (to_k x))) in H by (intro; apply to_renf_val). exact H.
  - exfalso. apply C.
    + intros y Hy. change (to_renf x0 :: map to_renf xs) with (map to_renf (x0 :: xs)) in Hy. apply in_map_iff in Hy. destruct Hy as (z & <- & _). apply to_renf_ok.
    + exists true. split.
      * destruct x0; [right|left]; reflexivity.
      * intros y Hy Er. change (to_renf x0 :: map to_renf xs) with (map to_renf (x0 :: xs)) in Hy. apply in_map_iff in Hy. destruct Hy as (z & <- & _).
        destruct z as [q|k]; [discriminate Er|reflexivity].
  - exfalso. apply C. intros y Hy. change (to_renf x0 :: map to_renf xs) with (map to_renf (x0 :: xs)) in Hy. apply in_map_iff in Hy. destruct Hy as (z & <- & _). apply to_renf_ok.
  - exfalso. apply C. intros y Hy. change (to_renf x0 :: map to_renf xs) with (map to_renf (x0 :: xs)) in Hy. apply in_map_iff in Hy. destruct Hy as (z & <- & _). apply to_renf_ok.
  - exfalso. apply C. intros y Hy. change (to_renf x0 :: map to_renf xs) with (map to_renf (x0 :: xs)) in Hy. apply in_map_iff in Hy. destruct Hy as (z & <- & _). apply to_renf_ok.
Qed.

Definition mix_laws : MixedLaws (mixed K).
Proof.
  refine {| mval := fun x => val (to_k x) |}.
  - cbn [l_zero MixOps to_k]. rewrite from_q_val. apply Qc2R_0.
  - intros [a|a] [b|b]; cbn [l_add MixOps mix_op to_k]; rewrite ?val_add, ?from_q_val; [apply Qc2R_plus|reflexivity|reflexivity|reflexivity].
  - intros [a|a] [b|b]; cbn [l_sub MixOps mix_op to_k]; rewrite ?val_sub, ?from_q_val; [apply Qc2R_minus|reflexivity|reflexivity|reflexivity].
  - intros n [a|a]; cbn [l_scale MixOps to_k]; [rewrite !from_q_val, Qc2R_mult, Qc2R_zq; reflexivity|apply val_scale].
  - intros x y. cbn [l_cmp MixOps]. apply cmp_val.
  - intros x y Hx Hy. cbn [l_div MixOps]. apply div_val; assumption.
  - intros x y' y x'. cbn [l_cross MixOps]. apply cross_val.
  - intros xs Hx. destruct (mix_coefs xs Hx) as (cs & Ec & Hc). destruct (coordinates_relations _ _ Hc) as (d & L & D & A & B).
    exists cs, d. rewrite map_length in L. split; [exact Ec|]. split; [exact L|]. split; [exact D|]. split; [exact A|].
    intros q Lq. apply B. rewrite map_length. exact Lq.
Defined.
End Mix.

(** * Programs *)

Section Programs.
Context {K : Type} {O : LenOps K} {W : LenLaws K} {E : OverQ K} {V : OverQLaws K}.

Lemma fields_length ls l : @mixed_length K O mixed_of_uniform (mkslen [] (map to_k ls)) l = @mixed_length (mixed K) _ mix_laws (mkslen [] ls) l.
Proof.
  unfold mixed_length. cbn [sl_lens]. rewrite nth_error_map. destruct (nth_error ls l) as [x|]; reflexivity.
Qed.

Lemma fields_input top bottom ls : valid_input (mkslen [] (map to_k ls)) top bottom -> @mixed_input (mixed K) _ mix_laws (mkslen [] ls) top bottom.
Proof.
  intros (V1 & V2 & V3 & V4). split; [exact V1|]. split; [exact V2|]. split; [exact V3|]. intros l Hl. destruct (V4 l Hl) as (y & Ey & Py).
  cbn [sl_lens] in *. rewrite nth_error_map in Ey. destruct (nth_error ls l) as [x|]; [|discriminate Ey]. cbn in Ey. inversion Ey; subst y. exists x. split; [reflexivity|exact Py].
Qed.

Lemma fields_prop top ls : @mixed_proportional (mixed K) _ mix_laws K _ mixed_of_uniform 1 top (mkslen [] ls) (mkslen [] (map to_k ls)).
Proof. intros l _. rewrite fields_length. ring. Qed.

Lemma session_fields top bottom (ls : list (mixed K)) p : valid_input (mkslen [] (map to_k ls)) top bottom -> Forall (fun x => op_legal (snd x)) p ->
  both (fun r r' => fst (fst r') = fst (fst r) /\ map rows (snd (fst r')) = map rows (snd (fst r)) /\ forall l, In l top -> field_length (snd r) l = lamR (snd r') l)
    (session top bottom p (mkslen [] ls)) (session top bottom p (mkslen [] (map to_k ls))).
Proof.
  intros Hv Hp. pose proof (@session_mixed (mixed K) _ mix_laws K _ mixed_of_uniform 1 Rlt_0_1 top bottom ls (map to_k ls) (fields_input _ _ _ Hv) (fields_prop _ _) p Hp) as S.
  revert S. generalize (session top bottom p (mkslen [] ls)), (session top bottom p (mkslen [] (map to_k ls))). clear. intros m m' S. eapply both_mono; [exact S|].
  intros [[a i] s] [[a' i'] s'] (A & B & C). split; [exact A|]. split; [exact B|]. cbn [snd] in *. intros l Hl. specialize (C l Hl). rewrite Rmult_1_l in C. symmetry. exact C.
Qed.

Lemma decomposing_fields top bottom (ls : list (mixed K)) p n q : valid_input (mkslen [] (map to_k ls)) top bottom -> Forall (fun x => op_legal (snd x)) p -> Forall dcall_legal q ->
  both (fun r r' => fst r' = fst r /\ Forall2 (fun v v' => look_at v' = look_at v /\ map (fun x => val (to_k x)) (cv_lengths v) = map val (cv_lengths v')) (snd r) (snd r'))
    (decomposing top bottom p n q (mkslen [] ls)) (decomposing top bottom p n q (mkslen [] (map to_k ls))).
Proof.
  intros Hv Hp Hq. pose proof (@decomposing_mixed (mixed K) _ mix_laws K _ mixed_of_uniform 1 Rlt_0_1 top bottom ls (map to_k ls) (fields_input _ _ _ Hv) (fields_prop _ _) p n q Hp Hq) as S.
  revert S. generalize (decomposing top bottom p n q (mkslen [] ls)), (decomposing top bottom p n q (mkslen [] (map to_k ls))). clear. intros m m' S. eapply both_mono; [exact S|].
  intros [a v] [a' v'] (A & B). split; [exact A|]. cbn [snd] in *. clear A S. induction B as [|x y l m0 (C & D) B IH]; [constructor|]. constructor; [|exact IH].
  split; [exact C|]. clear - D. induction D as [|x0 y0 l0 m1 H D IH]; [reflexivity|]. cbn [map]. rewrite <- IH. f_equal. rewrite Rmult_1_l in H. symmetry. exact H.
Qed.
End Programs.
