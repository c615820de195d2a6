(** [RationalAffineSubspace] objects contain exactly the vectors they should. *)
From Verif Require Import Base QcTac LenT FM Subspace SpecLin SubApi SubspaceProof.
Open Scope nat_scope.

Lemma vis0_vnonzero (g : vec) : vnonzero g -> vis0 g = false.
Proof.
  intros (q & Hq & Hne). destruct (vis0 g) eqn:E; [|reflexivity]. exfalso. unfold vis0 in E.
  rewrite forallb_forall in E. apply Hne, qc_eqb_spec, E, Hq.
Qed.

Lemma nonzero_all gens : Forall vnonzero gens -> nonzero gens = gens.
Proof.
  induction 1 as [|g gens Hg H IH]; [reflexivity|]. unfold nonzero in *. cbn [filter].
  rewrite (vis0_vnonzero g Hg), IH. reflexivity.
Qed.

Lemma combination_spec d gens x :
  combination_of d gens x <-> length x = d /\ exists c, length c = length gens /\ x = combination d c gens.
Proof.
  split; intros [Hx (c & Hc & H)]; (split; [exact Hx|]); exists c; (split; [exact Hc|]).
  - apply vec_ext; [rewrite combination_length; exact Hx|]. intros i.
    destruct (Nat.lt_ge_cases i d) as [Hi|Hi]; [rewrite H, nth_combination by exact Hi; reflexivity|].
    rewrite !nth_overflow; [reflexivity | rewrite combination_length; exact Hi | lia].
  - intros i Hi. rewrite H. apply nth_combination, Hi.
Qed.

Lemma combination_scale d gens k x : combination_of d gens x -> combination_of d gens (vscale k x).
Proof.
  intros [Hx (c & Hc & H)]. split; [rewrite vscale_length; exact Hx|]. exists (vscale k c).
  split; [rewrite vscale_length; exact Hc|]. intros i Hi. rewrite nth_vscale, dot_vscale_r, H by exact Hi. reflexivity.
Qed.

Lemma swap_shape r i j r' : ras_swap r (Z.of_nat i) (Z.of_nat j) = Ok r' ->
  p_dim (r_sub r) = 0 \/ (p_dim (r_sub r) = 1 /\ i = 0 /\ j = 0) \/
  (p_dim (r_sub r) = 2 /\ (i = 0 /\ j = 1 \/ i = 1 /\ j = 0)).
Proof.
  intros E. destruct (p_dim (r_sub r)) as [|[|[|d]]] eqn:Ed.
  - left. reflexivity.
  - right. left. unfold ras_swap in E. rewrite (proj2 (Z.leb_le _ _)) in E by lia. rewrite (proj2 (Z.leb_le _ _)) in E by lia.
    cbn [andb check_] in E. unfold map_space_dimensions in E. rewrite Ed, !Nat2Z.id in E. cbn [seq map nodupb memb forallb negb andb] in E.
    unfold swap_maps in E. destruct i as [|i]; cbn [Nat.eqb] in E.
    + destruct j as [|j]; [auto|]. cbn in E. discriminate.
    + cbn in E. discriminate.
  - right. right. split; [reflexivity|]. unfold ras_swap in E. rewrite (proj2 (Z.leb_le _ _)) in E by lia. rewrite (proj2 (Z.leb_le _ _)) in E by lia.
    cbn [andb check_] in E. unfold map_space_dimensions in E. rewrite Ed, !Nat2Z.id in E. cbn [seq map] in E.
    destruct (nodupb _ && _) eqn:Eb; [|discriminate]. apply andb_true_iff in Eb. destruct Eb as [N F]. apply nodupb_NoDup in N.
    unfold swap_maps in *. destruct i as [|[|i]]; cbn [Nat.eqb] in *.
    + left. split; [reflexivity|]. destruct j as [|[|j]]; [|reflexivity|].
      * inversion N as [|? ? N1 _]; subst. destruct N1. left. reflexivity.
      * cbn in F. discriminate.
    + right. split; [reflexivity|]. destruct j as [|[|j]]; [reflexivity| |].
      * inversion N as [|? ? N1 _]; subst. destruct N1. left. reflexivity.
      * cbn in F. discriminate.
    + inversion N as [|? ? N1 _]; subst. destruct N1. left. reflexivity.
  - rewrite ras_swap_undefined in E by lia. discriminate.
Qed.

Lemma swap_ok r i j r' : ras_swap r (Z.of_nat i) (Z.of_nat j) = Ok r' ->
  p_dim (r_sub r') = p_dim (r_sub r) /\ r_homog r' = r_homog r /\
  forall x', p_mem (r_sub r') x' <-> exists x, p_mem (r_sub r) x /\ x' = exchange i j x.
Proof.
  intros E. destruct (swap_shape r i j r' E) as [Hd|[(Hd & -> & ->)|[Hd Hij]]].
  - unfold ras_swap in E. rewrite (proj2 (Z.leb_le _ _)) in E by lia. rewrite (proj2 (Z.leb_le _ _)) in E by lia.
    cbn [andb check_] in E. unfold map_space_dimensions in E. rewrite Hd in E. cbn in E. injection E as <-. cbn [r_sub p_dim r_homog].
    split; [symmetry; exact Hd|]. split; [reflexivity|]. intros x'. unfold p_mem. cbn [p_dim p_cs]. rewrite Hd, Forall_map.
    assert (Q : forall c, sat [] (mkcstr (c_strict c) [] (c_const c)) <-> sat [] c).
    { intros c. unfold sat. cbn [c_strict c_coef c_const dot]. destruct (c_coef c); reflexivity. }
    split.
    + intros [Hl H]. destruct x'; [|discriminate]. exists []. split; [|reflexivity]. split; [reflexivity|].
      rewrite Forall_forall in *. intros c Hc. apply Q, H, Hc.
    + intros ([|? ?] & [Hl H] & ->); [|discriminate]. split; [reflexivity|].
      rewrite Forall_forall in *. intros c Hc. apply Q, H, Hc.
  - unfold ras_swap in E. cbn [Z.of_nat Z.leb andb check_ Z.to_nat] in E. unfold map_space_dimensions in E. rewrite Hd in E.
    cbn in E. injection E as <-. cbn [r_sub p_dim r_homog].
    split; [symmetry; exact Hd|]. split; [reflexivity|]. intros x'. unfold p_mem. cbn [p_dim p_cs]. rewrite Hd, Forall_map.
    assert (Q : forall c a, sat [a] (mkcstr (c_strict c) (vaddp (vscale (nth 0 (c_coef c) 0%Qc) [1%Qc]) []) (c_const c)) <-> sat [a] c).
    { intros c a. unfold sat. cbn [c_strict c_coef c_const].
      replace (dot (vaddp (vscale (nth 0 (c_coef c) 0%Qc) [1%Qc]) []) [a]) with (dot (c_coef c) [a]); [reflexivity|].
      destruct (c_coef c) as [|u v]; cbn; [ring|]. destruct v; cbn; ring. }
    split.
    + intros [Hl H]. destruct x' as [|a [|? ?]]; try discriminate. exists [a]. split; [|reflexivity]. split; [reflexivity|].
      rewrite Forall_forall in *. intros c Hc. apply Q, H, Hc.
    + intros ([|a [|? ?]] & [Hl H] & ->); try discriminate. split; [reflexivity|].
      rewrite Forall_forall in *. intros c Hc. apply Q, H, Hc.
  - destruct (ras_swap_two r (Z.of_nat i) (Z.of_nat j) Hd) as (s & E' & Hd' & Hh & Hm).
    { destruct Hij as [[-> ->]|[-> ->]]; auto. }
    rewrite E in E'. injection E' as <-. rewrite Hd', Hd. split; [reflexivity|]. split; [exact Hh|].
    assert (Q : forall a b, exchange i j [a; b] = [b; a]) by (intros; destruct Hij as [[-> ->]|[-> ->]]; reflexivity).
    intros x'. split.
    + intros H. pose proof H as [Hl _]. rewrite Hd' in Hl. destruct x' as [|a [|b [|? ?]]]; try discriminate.
      exists [b; a]. rewrite Q. split; [apply Hm, H | reflexivity].
    + intros (x & H & ->). pose proof H as [Hl _]. rewrite Hd in Hl. destruct x as [|a [|b [|? ?]]]; try discriminate.
      rewrite Q. apply Hm, H.
Qed.

Lemma add_multiple_scale i j c k x : add_multiple i j c (vscale k x) = vscale k (add_multiple i j c x).
Proof.
  apply vec_ext; [rewrite add_multiple_length, !vscale_length, add_multiple_length; reflexivity|]. intros n.
  destruct (Nat.lt_ge_cases n (length x)) as [Hn|Hn].
  - rewrite nth_vscale, !nth_add_multiple by (rewrite ?vscale_length; exact Hn). rewrite !nth_vscale. destruct (Nat.eqb n i); ring.
  - rewrite !nth_overflow; [reflexivity | |]; rewrite ?vscale_length, ?add_multiple_length, ?vscale_length; exact Hn.
Qed.

Lemma exchange_length i j x : length (exchange i j x) = length x.
Proof. unfold exchange. rewrite map_length, seq_length. reflexivity. Qed.

Lemma exchange_scale i j k x : exchange i j (vscale k x) = vscale k (exchange i j x).
Proof.
  apply vec_ext; [rewrite exchange_length, !vscale_length, exchange_length; reflexivity|]. intros n.
  destruct (Nat.lt_ge_cases n (length x)) as [Hn|Hn].
  - rewrite nth_vscale. unfold exchange. rewrite vscale_length, !nth_map_seq by exact Hn. apply nth_vscale.
  - rewrite !nth_overflow; [reflexivity | |]; rewrite ?vscale_length, ?exchange_length, ?vscale_length; exact Hn.
Qed.

Theorem subspace_ok r h d P : subspace r h d P ->
  p_dim (r_sub r) = d /\ r_homog r = h /\ (forall x, p_mem (r_sub r) x <-> length x = d /\ P x) /\
  (h = true -> linear_sub r).
Proof.
  assert (M : forall eqs y r, ras_equations eqs y = Ok r -> length eqs = length y).
  { intros eqs y r0 E. destruct (Nat.eq_dec (length eqs) (length y)) as [L|L]; [exact L|]. rewrite ras_equations_mismatch in E by exact L. discriminate. }
  induction 1 as [|eqs y r E Hy|eqs y r E Hy|gens r E Hg|r h d P i j c r' H IH E|r h d P i j r' H IH E].
  - split; [reflexivity|]. split; [reflexivity|]. split; [|].
    + intros x. unfold p_mem. cbn. split; intros [A _]; auto.
    + intros _ c x [Hl _]. split; [rewrite vscale_length; exact Hl | constructor].
  - destruct (ras_equations_ok eqs y (M _ _ _ E)) as (r' & E' & Hd & Hh & Hm). rewrite E in E'. injection E' as <-.
    destruct (ras_equations_linear eqs y r E Hy) as [Hl Hh']. split; [exact Hd|]. split; [exact Hh'|]. split; [exact Hm | intros _; exact Hl].
  - destruct (ras_equations_ok eqs y (M _ _ _ E)) as (r' & E' & Hd & Hh & Hm). rewrite E in E'. injection E' as <-.
    split; [exact Hd|]. split; [|split; [exact Hm | discriminate]]. rewrite Hh.
    destruct (forallb (fun k => qc_eqb k 0) y) eqn:Ef; [|reflexivity]. destruct Hy. rewrite forallb_forall in Ef. apply Forall_forall.
    intros k Hk. apply qc_eqb_spec, Ef, Hk.
  - destruct (ras_generators_ok gens) as (r' & E' & Hd & Hh & Hm). rewrite E in E'. injection E' as <-.
    rewrite (nonzero_all gens Hg) in *. split; [exact Hd|]. split; [exact Hh|].
    assert (Q : forall x, p_mem (r_sub r) x <-> length x = max_dim gens /\ combination_of (max_dim gens) gens x).
    { intros x. rewrite Hm, Hd. rewrite (combination_spec (max_dim gens) gens x). tauto. }
    split; [exact Q|]. intros _ c x Hx. apply Q in Hx. apply Q. rewrite vscale_length. split; [apply Hx | apply combination_scale, Hx].
  - destruct IH as (Hd & Hh & Hm & Hl).
    assert (Hij : i < p_dim (r_sub r) /\ j < p_dim (r_sub r)).
    { destruct (Nat.lt_ge_cases i (p_dim (r_sub r))) as [Hi|Hi]; [destruct (Nat.lt_ge_cases j (p_dim (r_sub r))) as [Hj|Hj]; [auto|]|];
        (rewrite ras_elementary_throws in E by lia); discriminate. }
    destruct (ras_elementary_ok r i j c (proj1 Hij) (proj2 Hij)) as (s & E' & Hd' & Hh' & Hm'). rewrite E in E'. injection E' as <-.
    split; [congruence|]. split; [congruence|].
    assert (Q : forall x', p_mem (r_sub r') x' <-> length x' = d /\ exists x, length x = d /\ P x /\ x' = add_multiple i j c x).
    { intros x'. rewrite Hm'. split.
      - intros (x & Hx & ->). apply Hm in Hx. rewrite add_multiple_length. split; [apply Hx|]. exists x. tauto.
      - intros (_ & x & Hx1 & Hx2 & ->). exists x. split; [apply Hm; auto | reflexivity]. }
    split; [exact Q|]. intros Ht k x'. specialize (Hl Ht). rewrite !Hm'. intros (x & Hx & ->). exists (vscale k x).
    split; [apply Hl, Hx|]. symmetry. apply add_multiple_scale.
  - destruct IH as (Hd & Hh & Hm & Hl). destruct (swap_ok r i j r' E) as (Hd' & Hh' & Hm').
    split; [congruence|]. split; [congruence|].
    assert (Q : forall x', p_mem (r_sub r') x' <-> length x' = d /\ exists x, length x = d /\ P x /\ x' = exchange i j x).
    { intros x'. rewrite Hm'. split.
      - intros (x & Hx & ->). apply Hm in Hx. rewrite exchange_length. split; [apply Hx|]. exists x. tauto.
      - intros (_ & x & Hx1 & Hx2 & ->). exists x. split; [apply Hm; auto | reflexivity]. }
    split; [exact Q|]. intros Ht k x'. specialize (Hl Ht). rewrite !Hm'. intros (x & Hx & ->). exists (vscale k x).
    split; [apply Hl, Hx|]. symmetry. apply exchange_scale.
Qed.
