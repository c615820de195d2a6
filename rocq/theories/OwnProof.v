(** Proofs about ownership. *)
From Verif Require Import Base Own OwnApi.
From Coq Require Import Permutation.

Definition cnt (i : nat) (l : list nat) : nat := count_occ Nat.eq_dec l i.

Lemma cnt_app i a b : cnt i (a ++ b) = cnt i a + cnt i b.
Proof. apply count_occ_app. Qed.

Lemma cnt_in i l : In i l <-> cnt i l > 0.
Proof. apply count_occ_In. Qed.

Lemma cnt_cons i x l : cnt i (x :: l) = (if Nat.eq_dec x i then 1 else 0) + cnt i l.
Proof. unfold cnt. simpl. destruct (Nat.eq_dec x i); lia. Qed.

Definition inner (oc : option cell) : list nat :=
  match oc with Some c => strong (c_obj c) | None => [] end.

Definition refs (h : heap) : list nat := flat_map inner h.

Lemma nth_set {A} (l : list A) i j x :
  nth_error (set i x l) j = if Nat.eq_dec i j then (if Nat.ltb i (List.length l) then Some x else None) else nth_error l j.
Proof.
  revert i j. induction l as [|y l IH]; intros i j; simpl.
  - destruct (Nat.eq_dec i j), j; reflexivity.
  - destruct i as [|i], j as [|j]; simpl; try reflexivity.
    rewrite IH. destruct (Nat.eq_dec i j), (Nat.eq_dec (S i) (S j)); try lia; reflexivity.
Qed.

Lemma nth_set_same {A} (l : list A) i x y : nth_error l i = Some y -> nth_error (set i x l) i = Some x.
Proof.
  intros H. rewrite nth_set. destruct (Nat.eq_dec i i) as [_|n]; [|lia].
  assert (i < List.length l) by (apply nth_error_Some; congruence).
  destruct (Nat.ltb_spec i (List.length l)); [reflexivity|lia].
Qed.

Lemma nth_set_other {A} (l : list A) i j x : i <> j -> nth_error (set i x l) j = nth_error l j.
Proof. intros H. rewrite nth_set. destruct (Nat.eq_dec i j); [lia|reflexivity]. Qed.

Lemma set_length {A} (l : list A) i x : List.length (set i x l) = List.length l.
Proof. revert i. induction l as [|y l IH]; intros [|i]; simpl; try reflexivity. rewrite IH. reflexivity. Qed.

Lemma refs_set h i x y j :
  nth_error h i = Some y ->
  cnt j (refs (set i x h)) + cnt j (inner y) = cnt j (refs h) + cnt j (inner x).
Proof.
  revert i. induction h as [|z h IH]; intros [|i] H; simpl in *; try discriminate.
  - injection H as ->. rewrite !cnt_app. lia.
  - rewrite !cnt_app. specialize (IH i H). lia.
Qed.

Lemma refs_app a b : refs (a ++ b) = refs a ++ refs b.
Proof. apply flat_map_app. Qed.

Definition at_ (h : heap) i o := exists q, nth_error h i = Some (Some (mkcell o q)).

Lemma at_cell h i c : nth_error h i = Some (Some c) -> at_ h i (c_obj c).
Proof. destruct c; intros H; eexists; exact H. Qed.

Lemma at_fun h i o o' : at_ h i o -> at_ h i o' -> o = o'.
Proof. intros [q H] [q' H']. congruence. Qed.

Definition fits (h : heap) (i : nat) (o : obj) : Prop :=
  match o with
  | OLen => True
  | OWrap u _ => at_ h u OLen
  | ODec ws => forall w, In w ws -> exists u, at_ h w (OWrap u i)
  end.

Record inv (h : heap) (P : list nat) : Prop := {
  inv_count : forall i c, nth_error h i = Some (Some c) ->
    c_count c = cnt i (P ++ refs h) /\ c_count c > 0;
  inv_live : forall i, In i (P ++ refs h) -> exists o, at_ h i o;
  inv_fits : forall i o, at_ h i o -> fits h i o
}.

Definition rank (o : obj) : nat := match o with OLen => 0 | OWrap _ _ => 1 | ODec _ => 2 end.

(** Objects only disappear. *)
Definition fewer (h h' : heap) : Prop :=
  List.length h' = List.length h /\ forall i o, at_ h' i o -> at_ h i o.

Lemma fewer_refl h : fewer h h.
Proof. split; auto. Qed.

Lemma fewer_trans a b c : fewer a b -> fewer b c -> fewer a c.
Proof. intros [H1 H2] [H3 H4]. split; [congruence|auto]. Qed.

Lemma inner_refs h i c j : nth_error h i = Some (Some c) -> In j (strong (c_obj c)) -> In j (refs h).
Proof.
  intros H Hj. apply in_flat_map. exists (Some c). split; [|exact Hj].
  eapply nth_error_In. exact H.
Qed.

Lemma each_inv f l : forall h P,
  (forall i h P, inv h (i :: P) -> (forall o, at_ h i o -> rank o < f) ->
     exists h', release f i h = Ok h' /\ inv h' P /\ fewer h h') ->
  inv h (l ++ P) -> (forall i o, In i l -> at_ h i o -> rank o < f) ->
  exists h', each (release f) l h = Ok h' /\ inv h' P /\ fewer h h'.
Proof.
  induction l as [|x l IH]; intros h P HR Hi Hr; simpl.
  - exists h. split; [reflexivity|]. split; [exact Hi|apply fewer_refl].
  - destruct (HR x h (l ++ P)) as (h1 & E1 & I1 & F1).
    + exact Hi.
    + intros o Ho. apply (Hr x o); [left; reflexivity|exact Ho].
    + rewrite E1. simpl. destruct (IH h1 P HR I1) as (h2 & E2 & I2 & F2).
      * intros i o Hin Ho. apply (Hr i o); [right; exact Hin|]. apply F1. exact Ho.
      * exists h2. split; [exact E2|]. split; [exact I2|]. exact (fewer_trans _ _ _ F1 F2).
Qed.

Lemma at_set_other h i x j o : i <> j -> at_ (set i x h) j o <-> at_ h j o.
Proof. intros H. unfold at_. rewrite nth_set_other by exact H. tauto. Qed.

Lemma release_ok f : forall i h P,
  inv h (i :: P) -> (forall o, at_ h i o -> rank o < f) ->
  exists h', release f i h = Ok h' /\ inv h' P /\ fewer h h'.
Proof.
  induction f as [|f IH]; intros i h P Hi Hr.
  - destruct (inv_live _ _ Hi i) as [o Ho]; [left; reflexivity|]. specialize (Hr _ Ho). lia.
  - destruct (inv_live _ _ Hi i) as [o [q Ho]]; [left; reflexivity|].
    simpl. unfold deref. rewrite Ho. cbn [bind c_obj c_count].
    destruct (inv_count _ _ Hi i _ Ho) as [Hc Hp]. cbn [c_count] in Hc, Hp.
    change ((i :: P) ++ refs h) with (i :: (P ++ refs h)) in Hc.
    rewrite cnt_cons in Hc. destruct (Nat.eq_dec i i) as [_|n]; [|lia].
    destruct (Nat.leb_spec q 1) as [Hq|Hq].
    + assert (Hz : cnt i (P ++ refs h) = 0) by lia.
      assert (Hcnt : forall j, cnt j (refs (set i None h)) + cnt j (strong o) = cnt j (refs h)).
      { intros j. pose proof (refs_set h i None _ j Ho) as HH. cbn [inner c_obj] in HH.
        change (cnt j []) with 0 in HH. lia. }
      assert (Hsub : forall j, In j ((strong o ++ P) ++ refs (set i None h)) -> In j (P ++ refs h) /\ j <> i).
      { intros j Hj. assert (Hjj : In j (P ++ refs h)).
        { apply cnt_in in Hj. apply cnt_in. rewrite !cnt_app in *. specialize (Hcnt j). lia. }
        split; [exact Hjj|]. intros ->. apply cnt_in in Hjj. lia. }
      assert (I1 : inv (set i None h) (strong o ++ P)).
      { constructor.
        - intros j c Hj. destruct (Nat.eq_dec i j) as [->|Hne].
          + rewrite (nth_set_same _ _ _ _ Ho) in Hj. discriminate.
          + rewrite nth_set_other in Hj by exact Hne.
            destruct (inv_count _ _ Hi j _ Hj) as [Hcj Hpj]. split; [|exact Hpj].
            rewrite Hcj. change ((i :: P) ++ refs h) with (i :: (P ++ refs h)).
            rewrite cnt_cons. destruct (Nat.eq_dec i j); [lia|].
            rewrite !cnt_app. specialize (Hcnt j). lia.
        - intros j Hj. destruct (Hsub j Hj) as [Hin Hne].
          destruct (inv_live _ _ Hi j) as [oj Hoj]; [right; exact Hin|].
          exists oj. apply at_set_other; [lia|exact Hoj].
        - intros j oj Hoj. destruct (Nat.eq_dec i j) as [->|Hne].
          { destruct Hoj as [qj Hoj]. rewrite (nth_set_same _ _ _ _ Ho) in Hoj. discriminate. }
          apply at_set_other in Hoj; [|exact Hne].
          pose proof (inv_fits _ _ Hi j oj Hoj) as Hf.
          assert (Hk : forall x, In x (strong oj) -> x <> i).
          { intros x Hx. intros ->. destruct Hoj as [qj Hoj].
            assert (Hxx : In i (P ++ refs h)).
            { apply in_or_app. right. exact (inner_refs _ _ _ _ Hoj Hx). }
            apply cnt_in in Hxx. lia. }
          destruct oj as [|u d|ws]; cbn [fits strong] in *.
          + exact I.
          + apply at_set_other; [|exact Hf]. intros E. apply (Hk u); [left; reflexivity|auto].
          + intros w Hw. destruct (Hf w Hw) as [u Hu]. exists u. apply at_set_other; [|exact Hu].
            intros E. apply (Hk w); auto. }
      destruct (each_inv f (strong o) (set i None h) P IH I1) as (h2 & E2 & I2 & F2).
      { intros j oj Hj Hoj.
        assert (Hne : i <> j). { intros ->. destruct Hoj as [? Hoj]. rewrite (nth_set_same _ _ _ _ Ho) in Hoj. discriminate. }
        apply at_set_other in Hoj; [|exact Hne].
        assert (Hoo : at_ h i o) by (eexists; exact Ho).
        pose proof (inv_fits _ _ Hi i o Hoo) as Hf. pose proof (Hr _ Hoo) as Hro.
        destruct o as [|u d|ws]; cbn [fits strong rank] in *.
        - destruct Hj.
        - destruct Hj as [<-|[]]. rewrite (at_fun _ _ _ _ Hoj Hf). cbn. lia.
        - destruct (Hf j Hj) as [u Hu]. rewrite (at_fun _ _ _ _ Hoj Hu). cbn. lia. }
      exists h2. split; [exact E2|]. split; [exact I2|].
      apply (fewer_trans _ (set i None h)); [|exact F2]. split; [apply set_length|].
      intros j oj Hoj. destruct (Nat.eq_dec i j) as [->|Hne].
      * destruct Hoj as [? Hoj]. rewrite (nth_set_same _ _ _ _ Ho) in Hoj. discriminate.
      * apply at_set_other in Hoj; assumption.
    + set (h1 := set i (Some (mkcell o (pred q))) h).
      assert (Hat : forall j oj, at_ h1 j oj <-> at_ h j oj).
      { intros j oj. unfold h1. destruct (Nat.eq_dec i j) as [<-|Hne].
        - unfold at_. rewrite (nth_set_same _ _ _ _ Ho). rewrite Ho. split; intros [? E]; injection E as ? ?; subst; eauto.
        - apply at_set_other. exact Hne. }
      assert (Hcnt : forall j, cnt j (refs h1) = cnt j (refs h)).
      { intros j. pose proof (refs_set h i (Some (mkcell o (pred q))) _ j Ho) as HH.
        cbn [inner c_obj] in HH. fold h1 in HH. lia. }
      exists h1. split; [reflexivity|]. split.
      * constructor.
        -- intros j c Hj. destruct (Nat.eq_dec i j) as [<-|Hne].
           ++ unfold h1 in Hj. rewrite (nth_set_same _ _ _ _ Ho) in Hj. injection Hj as <-.
              cbn [c_count]. rewrite cnt_app, Hcnt. rewrite cnt_app in Hc. lia.
           ++ unfold h1 in Hj. rewrite nth_set_other in Hj by exact Hne.
              destruct (inv_count _ _ Hi j _ Hj) as [Hcj Hpj]. split; [|exact Hpj].
              rewrite Hcj. change ((i :: P) ++ refs h) with (i :: (P ++ refs h)).
              rewrite cnt_cons. destruct (Nat.eq_dec i j); [lia|]. rewrite !cnt_app, Hcnt. lia.
        -- intros j Hj. assert (Hjj : In j (P ++ refs h)).
           { apply cnt_in. apply cnt_in in Hj. rewrite cnt_app in *. rewrite Hcnt in Hj. exact Hj. }
           destruct (inv_live _ _ Hi j) as [oj Hoj]; [right; exact Hjj|]. exists oj. apply Hat. exact Hoj.
        -- intros j oj Hoj. apply Hat in Hoj. pose proof (inv_fits _ _ Hi j oj Hoj) as Hf.
           destruct oj as [|u d|ws]; cbn [fits] in *.
           ++ exact I.
           ++ apply Hat. exact Hf.
           ++ intros w Hw. destruct (Hf w Hw) as [u Hu]. exists u. apply Hat. exact Hu.
      * split; [apply set_length|]. intros j oj Hoj. apply Hat. exact Hoj.
Qed.

(** * States of programs *)

Definition kind (h : heap) (x : handle) : Prop :=
  match x with
  | HLen l | HIet l => at_ h l OLen
  | HDec d | HConn d | HSep d => exists ws, at_ h d (ODec ws)
  | HComp d k | HEdge d k => exists ws, at_ h d (ODec ws) /\ k < List.length ws
  end.

Record good (m : memory) : Prop := {
  good_inv : inv (heap_of m) (map holds (vars m));
  good_kind : forall x, In x (vars m) -> kind (heap_of m) x
}.

Lemma start_good : good start.
Proof.
  constructor; [constructor|]; simpl.
  - intros [|i] c H; discriminate.
  - intros i [].
  - intros [|i] o [q H]; discriminate.
  - intros x [].
Qed.

Lemma acquire_ok h P i o :
  inv h P -> at_ h i o ->
  exists h', acquire i h = Ok h' /\ inv h' (P ++ [i]) /\
    (forall j oj, at_ h' j oj <-> at_ h j oj) /\ List.length h' = List.length h.
Proof.
  intros Hi [q Ho]. unfold acquire, deref. rewrite Ho. cbn [bind c_obj c_count].
  set (h1 := set i (Some (mkcell o (S q))) h).
  assert (Hat : forall j oj, at_ h1 j oj <-> at_ h j oj).
  { intros j oj. unfold h1. destruct (Nat.eq_dec i j) as [<-|Hne].
    - unfold at_. rewrite (nth_set_same _ _ _ _ Ho). rewrite Ho. split; intros [? E]; injection E as ? ?; subst; eauto.
    - apply at_set_other. exact Hne. }
  assert (Hcnt : forall j, cnt j (refs h1) = cnt j (refs h)).
  { intros j. pose proof (refs_set h i (Some (mkcell o (S q))) _ j Ho) as HH.
    cbn [inner c_obj] in HH. fold h1 in HH. lia. }
  exists h1. split; [reflexivity|]. split; [|split; [exact Hat|apply set_length]].
  constructor.
  - intros j c Hj. destruct (Nat.eq_dec i j) as [<-|Hne].
    + unfold h1 in Hj. rewrite (nth_set_same _ _ _ _ Ho) in Hj. injection Hj as <-. cbn [c_count].
      destruct (inv_count _ _ Hi i _ Ho) as [Hc _]. cbn [c_count] in Hc.
      rewrite !cnt_app in *. rewrite Hcnt, cnt_cons. destruct (Nat.eq_dec i i); [|lia].
      change (cnt i []) with 0. lia.
    + unfold h1 in Hj. rewrite nth_set_other in Hj by exact Hne.
      destruct (inv_count _ _ Hi j _ Hj) as [Hcj Hpj]. split; [|exact Hpj]. rewrite Hcj.
      rewrite !cnt_app, Hcnt, cnt_cons. destruct (Nat.eq_dec i j); [lia|]. change (cnt j []) with 0. lia.
  - intros j Hj. apply cnt_in in Hj. rewrite !cnt_app, Hcnt, cnt_cons in Hj. change (cnt j []) with 0 in Hj.
    destruct (Nat.eq_dec i j) as [<-|Hne].
    + exists o. apply Hat. eexists. exact Ho.
    + destruct (inv_live _ _ Hi j) as [oj Hoj].
      * apply cnt_in. rewrite cnt_app. lia.
      * exists oj. apply Hat. exact Hoj.
  - intros j oj Hoj. apply Hat in Hoj. pose proof (inv_fits _ _ Hi j oj Hoj) as Hf.
    destruct oj as [|u d|ws]; cbn [fits] in *.
    + exact I.
    + apply Hat. exact Hf.
    + intros w Hw. destruct (Hf w Hw) as [u Hu]. exists u. apply Hat. exact Hu.
Qed.

Lemma kind_mono h h' x : (forall i o, at_ h i o -> at_ h' i o) -> kind h x -> kind h' x.
Proof.
  intros H. destruct x; simpl; auto; intros [ws Hw]; try (exists ws; auto; fail).
  all: destruct Hw as [Hw Hk]; exists ws; auto.
Qed.

Lemma share_ok m x : good m -> kind (heap_of m) x -> exists m', share m x = Ok m' /\ good m'.
Proof.
  intros Hg Hk.
  assert (Ha : exists o, at_ (heap_of m) (holds x) o).
  { destruct x; simpl in *; eauto; destruct Hk as [ws Hw]; try (eauto; fail); destruct Hw; eauto. }
  destruct Ha as [o Ha].
  destruct (acquire_ok _ _ _ _ (good_inv _ Hg) Ha) as (h & E & Hi & Hat & _).
  unfold share. rewrite E. cbn [bind]. eexists. split; [reflexivity|]. constructor; cbn [heap_of vars].
  - rewrite map_app. exact Hi.
  - intros y Hy. apply in_app_or in Hy. apply (kind_mono (heap_of m)); [intros; apply Hat; assumption|].
    destruct Hy as [Hy|[<-|[]]]; [exact (good_kind _ Hg y Hy)|exact Hk].
Qed.

Lemma at_app h l i o : at_ h i o -> at_ (h ++ l) i o.
Proof. intros [q H]. exists q. rewrite nth_error_app1; [exact H|]. apply nth_error_Some. congruence. Qed.

Lemma at_lt h i o : at_ h i o -> i < List.length h.
Proof. intros [q H]. apply nth_error_Some. congruence. Qed.

Lemma fits_mono h h' i o : (forall i o, at_ h i o -> at_ h' i o) -> fits h i o -> fits h' i o.
Proof.
  intros H. destruct o; simpl; auto. intros Hf w Hw. destruct (Hf w Hw) as [u Hu]. eauto.
Qed.

Lemma fresh_zero h P i : inv h P -> List.length h <= i -> cnt i (P ++ refs h) = 0.
Proof.
  intros Hi Hl. destruct (cnt i (P ++ refs h)) eqn:E; [reflexivity|].
  destruct (inv_live _ _ Hi i) as [o Ho]; [apply cnt_in; lia|]. apply at_lt in Ho. lia.
Qed.

Lemma alloc_len_ok h P : inv h P -> inv (h ++ [Some (mkcell OLen 1)]) (P ++ [List.length h]).
Proof.
  intros Hi.
  assert (Hr : refs (h ++ [Some (mkcell OLen 1)]) = refs h).
  { rewrite refs_app. simpl. apply app_nil_r. }
  constructor.
  - intros j c Hj. rewrite Hr. rewrite !cnt_app, cnt_cons. change (cnt j []) with 0.
    destruct (Nat.lt_ge_cases j (List.length h)) as [Hl|Hl].
    + rewrite nth_error_app1 in Hj by exact Hl. destruct (inv_count _ _ Hi j _ Hj) as [Hc Hp].
      rewrite cnt_app in Hc. destruct (Nat.eq_dec (List.length h) j); [lia|]. lia.
    + rewrite nth_error_app2 in Hj by exact Hl.
      destruct (j - List.length h) as [|k] eqn:E; [|destruct k; discriminate].
      simpl in Hj. injection Hj as <-. cbn [c_count].
      pose proof (fresh_zero _ _ j Hi Hl) as Hz. rewrite cnt_app in Hz.
      destruct (Nat.eq_dec (List.length h) j); lia.
  - intros j Hj. rewrite Hr in Hj. apply in_app_or in Hj.
    assert (Hc : In j (P ++ refs h) \/ j = List.length h).
    { destruct Hj as [Hj|Hj]; [apply in_app_or in Hj; destruct Hj as [Hj|[Hj|[]]]|];
        [left; apply in_or_app; auto | right; auto | left; apply in_or_app; auto]. }
    destruct Hc as [Hc| ->].
    + destruct (inv_live _ _ Hi j Hc) as [o Ho]. exists o. apply at_app. exact Ho.
    + exists OLen, 1. rewrite nth_error_app2 by lia. rewrite Nat.sub_diag. reflexivity.
  - intros j o [q Hj]. destruct (Nat.lt_ge_cases j (List.length h)) as [Hl|Hl].
    + rewrite nth_error_app1 in Hj by exact Hl.
      apply (fits_mono h); [intros; apply at_app; assumption|]. apply (inv_fits _ _ Hi). eexists. exact Hj.
    + rewrite nth_error_app2 in Hj by exact Hl.
      destruct (j - List.length h) as [|k] eqn:E; [|destruct k; discriminate].
      simpl in Hj. injection Hj as <- _. exact I.
Qed.

Lemma new_len_good m x : good m -> kind (heap_of m ++ [Some (mkcell OLen 1)]) x -> holds x = List.length (heap_of m) ->
  good (mkmem (heap_of m ++ [Some (mkcell OLen 1)]) (vars m ++ [x])).
Proof.
  intros Hg Hk Hx. constructor; cbn [heap_of vars].
  - rewrite map_app. simpl. rewrite Hx. apply alloc_len_ok. exact (good_inv _ Hg).
  - intros y Hy. apply in_app_or in Hy. destruct Hy as [Hy|[<-|[]]]; [|exact Hk].
    apply (kind_mono (heap_of m)); [intros; apply at_app; assumption|]. exact (good_kind _ Hg y Hy).
Qed.

Lemma at_new h : at_ (h ++ [Some (mkcell OLen 1)]) (List.length h) OLen.
Proof. exists 1. rewrite nth_error_app2 by lia. rewrite Nat.sub_diag. reflexivity. Qed.

Lemma decompose_ok m l : good m -> at_ (heap_of m) l OLen -> exists m', decompose m l = Ok m' /\ good m'.
Proof.
  intros Hg Hl. destruct (acquire_ok _ _ _ _ (good_inv _ Hg) Hl) as (h & E & Hi & Hat & Hlen).
  unfold decompose. rewrite E. cbn [bind]. eexists. split; [reflexivity|].
  set (d := List.length h). set (P := map holds (vars m)) in *.
  set (cells := [Some (mkcell (ODec [S d]) 1)] ++ [Some (mkcell (OWrap l d) 1)]).
  assert (Hd : nth_error (h ++ cells) d = Some (Some (mkcell (ODec [S d]) 1))).
  { rewrite nth_error_app2 by (unfold d; lia). unfold d. rewrite Nat.sub_diag. reflexivity. }
  assert (Hw : nth_error (h ++ cells) (S d) = Some (Some (mkcell (OWrap l d) 1))).
  { rewrite nth_error_app2 by (unfold d; lia). replace (S d - List.length h) with 1 by (unfold d; lia). reflexivity. }
  assert (Hr : refs (h ++ cells) = refs h ++ [S d; l]).
  { rewrite refs_app. reflexivity. }
  assert (Hold : forall j, d <= j -> cnt j (P ++ refs h) = 0 /\ l <> j).
  { intros j Hj. pose proof (fresh_zero _ _ j Hi Hj) as Hz. rewrite !cnt_app in Hz.
    rewrite cnt_app. split; [lia|]. rewrite cnt_cons in Hz. destruct (Nat.eq_dec l j); [lia|assumption]. }
  assert (Hcase : forall j c, nth_error (h ++ cells) j = Some (Some c) ->
    (j < d /\ nth_error h j = Some (Some c)) \/ (j = d /\ c = mkcell (ODec [S d]) 1) \/ (j = S d /\ c = mkcell (OWrap l d) 1)).
  { intros j c Hj. destruct (Nat.lt_ge_cases j d) as [Hlt|Hge].
    - left. rewrite nth_error_app1 in Hj by exact Hlt. auto.
    - right. assert (j < List.length (h ++ cells)) as Hb by (apply nth_error_Some; congruence).
      rewrite app_length in Hb. change (List.length cells) with 2 in Hb. fold d in Hb.
      destruct (Nat.eq_dec j d) as [->|Hne]; [left|right].
      + rewrite Hd in Hj. injection Hj as <-. auto.
      + assert (j = S d) by lia. subst j. rewrite Hw in Hj. injection Hj as <-. auto. }
  constructor; cbn [heap_of vars].
  - rewrite map_app. change (map holds [HDec d]) with [d]. fold P. constructor.
    + intros j c Hj. rewrite Hr, !cnt_app, !cnt_cons. change (cnt j []) with 0.
      destruct (Hcase j c Hj) as [[Hlt Hc]|[[-> ->]|[-> ->]]].
      * destruct (inv_count _ _ Hi j _ Hc) as [Hc1 Hc2]. rewrite !cnt_app, cnt_cons in Hc1. change (cnt j []) with 0 in Hc1.
        destruct (Nat.eq_dec d j), (Nat.eq_dec (S d) j); lia.
      * destruct (Hold d) as [Hz Hne]; [lia|]. rewrite cnt_app in Hz. cbn [c_count].
        destruct (Nat.eq_dec d d), (Nat.eq_dec (S d) d), (Nat.eq_dec l d); lia.
      * destruct (Hold (S d)) as [Hz Hne]; [lia|]. rewrite cnt_app in Hz. cbn [c_count].
        destruct (Nat.eq_dec d (S d)), (Nat.eq_dec (S d) (S d)), (Nat.eq_dec l (S d)); lia.
    + intros j Hj. rewrite Hr in Hj.
      assert (Hc : In j ((P ++ [l]) ++ refs h) \/ j = d \/ j = S d).
      { rewrite !in_app_iff in Hj. simpl in Hj. rewrite !in_app_iff. simpl. intuition auto. }
      destruct Hc as [Hc|[->| ->]].
      * destruct (inv_live _ _ Hi j Hc) as [o Ho]. exists o. apply at_app. exact Ho.
      * eexists; eexists; exact Hd.
      * eexists; eexists; exact Hw.
    + intros j o [q Hj]. destruct (Hcase j _ Hj) as [[Hlt Hc]|[[-> Ec]|[-> Ec]]].
      * apply (fits_mono h); [intros; apply at_app; assumption|]. apply (inv_fits _ _ Hi). eexists; exact Hc.
      * injection Ec as -> _. cbn [fits]. intros w [<-|[]]. exists l. eexists; exact Hw.
      * injection Ec as -> _. cbn [fits]. apply at_app. apply Hat. exact Hl.
  - intros y Hy. apply in_app_or in Hy. destruct Hy as [Hy|[<-|[]]].
    + apply (kind_mono (heap_of m)); [|exact (good_kind _ Hg y Hy)]. intros i o Ho. apply at_app. apply Hat. exact Ho.
    + simpl. exists [S d]. eexists. exact Hd.
Qed.

Lemma nth_error_at h i c : nth_error h i = Some (Some c) -> at_ h i (c_obj c).
Proof. apply at_cell. Qed.

Lemma deref_ok h i o : at_ h i o -> exists c, deref i h = Ok c /\ c_obj c = o.
Proof. intros [q H]. unfold deref. rewrite H. eauto. Qed.

Lemma visit_ok h P d k ws :
  inv h P -> at_ h d (ODec ws) -> k < List.length ws ->
  exists w u, visit d k h = Ok (w, d) /\ nth_error ws k = Some w /\ at_ h w (OWrap u d).
Proof.
  intros Hi Hd Hk. destruct (nth_error ws k) as [w|] eqn:Ew; [|apply nth_error_None in Ew; lia].
  destruct (inv_fits _ _ Hi d _ Hd w (nth_error_In _ _ Ew)) as [u Hu].
  pose proof (inv_fits _ _ Hi w _ Hu) as Hl. cbn [fits] in Hl.
  destruct (deref_ok _ _ _ Hd) as (cd & Ed & Od). destruct (deref_ok _ _ _ Hu) as (cw & Ecw & Ow).
  destruct (deref_ok _ _ _ Hl) as (cu & Eu & Ou).
  exists w, u. unfold visit. rewrite Ed. cbn [bind]. rewrite Od, Ew, Ecw. cbn [bind]. rewrite Ow, Eu. auto.
Qed.

Lemma step_ok m d k b ws :
  good m -> at_ (heap_of m) d (ODec ws) -> k < List.length ws ->
  exists m', step m d k b = Ok m' /\ good m'.
Proof.
  intros Hg Hd Hk. destruct (visit_ok _ _ _ _ _ (good_inv _ Hg) Hd Hk) as (w & u & Ev & Ew & Hu).
  unfold step. rewrite Ev. cbn [bind]. unfold lock.
  destruct (deref_ok _ _ _ Hd) as (cd & Ed & Od). rewrite Ed. cbn [bind].
  destruct b; [|eauto].
  destruct (acquire_ok _ _ _ _ (good_inv _ Hg) Hu) as (h & E & Hi & Hat & Hlen). rewrite E. cbn [bind].
  destruct (proj2 (Hat d _) Hd) as [q Hq]. unfold deref. rewrite Hq. cbn [bind c_obj c_count].
  eexists. split; [reflexivity|].
  set (h1 := set d (Some (mkcell (ODec (ws ++ [w])) q)) h).
  assert (Hd1 : nth_error h1 d = Some (Some (mkcell (ODec (ws ++ [w])) q))) by (apply (nth_set_same _ _ _ _ Hq)).
  assert (Hoth : forall j o, j <> d -> at_ h1 j o <-> at_ h j o).
  { intros j o Hne. apply at_set_other. lia. }
  assert (Hcnt : forall j, cnt j (refs h1) = cnt j (refs h) + cnt j [w]).
  { intros j. pose proof (refs_set h d (Some (mkcell (ODec (ws ++ [w])) q)) _ j Hq) as HH.
    cbn [inner c_obj strong] in HH. fold h1 in HH. rewrite cnt_app in HH. lia. }
  assert (Hsp : forall j o, at_ h j o -> (forall ws', o <> ODec ws') -> at_ h1 j o).
  { intros j o Ho Hno. apply Hoth; [|exact Ho]. intros ->.
    apply (Hno ws). apply (at_fun h d); [exact Ho|eexists; exact Hq]. }
  constructor; cbn [heap_of vars].
  - constructor.
    + intros j c Hj. rewrite cnt_app, Hcnt.
      assert (exists c', nth_error h j = Some (Some c') /\ c_count c' = c_count c) as (c' & Hc' & Ec').
      { destruct (Nat.eq_dec d j) as [<-|Hne].
        - rewrite Hd1 in Hj. injection Hj as <-. rewrite Hq. eauto.
        - unfold h1 in Hj. rewrite nth_set_other in Hj by exact Hne. eauto. }
      destruct (inv_count _ _ Hi j _ Hc') as [Hc1 Hc2]. rewrite <- Ec'. rewrite !cnt_app in Hc1. lia.
    + intros j Hj. assert (Hjj : In j ((map holds (vars m) ++ [w]) ++ refs h)).
      { apply cnt_in. apply cnt_in in Hj. rewrite cnt_app in Hj. rewrite Hcnt in Hj. rewrite !cnt_app. lia. }
      destruct (inv_live _ _ Hi j Hjj) as [o Ho]. destruct (Nat.eq_dec j d) as [->|Hne].
      * eexists; eexists; exact Hd1.
      * exists o. apply Hoth; assumption.
    + intros j o Ho. destruct (Nat.eq_dec j d) as [->|Hne].
      * assert (o = ODec (ws ++ [w])) as -> by (apply (at_fun h1 d); [exact Ho|eexists; exact Hd1]).
        cbn [fits]. intros x Hx. assert (Hxx : exists u', at_ h x (OWrap u' d)).
        { apply in_app_or in Hx. destruct Hx as [Hx|[<-|[]]].
          - exact (inv_fits _ _ Hi d _ (ex_intro _ q Hq) x Hx).
          - exists u. apply Hat. exact Hu. }
        destruct Hxx as [u' Hu']. exists u'. apply Hsp; [exact Hu'|discriminate].
      * apply Hoth in Ho; [|exact Hne]. pose proof (inv_fits _ _ Hi j o Ho) as Hf.
        destruct o as [|u0 d0|ws0]; cbn [fits] in *.
        -- exact I.
        -- apply Hsp; [exact Hf|discriminate].
        -- intros x Hx. destruct (Hf x Hx) as [u1 Hu1]. exists u1. apply Hsp; [exact Hu1|discriminate].
  - intros y Hy. pose proof (good_kind _ Hg y Hy) as Hky.
    apply (kind_mono _ h) in Hky; [|intros; apply Hat; assumption].
    assert (Hdec : forall e ws0, at_ h e (ODec ws0) -> exists ws1, at_ h1 e (ODec ws1) /\ List.length ws0 <= List.length ws1).
    { intros e ws0 He. destruct (Nat.eq_dec e d) as [->|Hne].
      - exists (ws ++ [w]). split; [eexists; exact Hd1|].
        assert (ODec ws0 = ODec ws) as E0 by (apply (at_fun h d); [exact He|eexists; exact Hq]).
        injection E0 as ->. rewrite app_length. lia.
      - exists ws0. split; [apply Hoth; assumption|lia]. }
    destruct y; simpl in *.
    1,2: apply Hsp; [exact Hky|discriminate].
    1,4,5: destruct Hky as [ws0 H0]; destruct (Hdec _ _ H0) as (ws1 & H1 & _); exists ws1; exact H1.
    all: destruct Hky as (ws0 & H0 & Hl0); destruct (Hdec _ _ H0) as (ws1 & H1 & Hl1); exists ws1; split; [exact H1|lia].
Qed.

Lemma drop_perm {A} (l : list A) v x : nth_error l v = Some x -> Permutation l (x :: drop v l).
Proof.
  revert v. induction l as [|y l IH]; intros [|v] H; simpl in *; try discriminate.
  - injection H as ->. reflexivity.
  - rewrite (IH v H) at 1. apply perm_swap.
Qed.

Lemma inv_perm h P Q : Permutation P Q -> inv h P -> inv h Q.
Proof.
  intros Hp Hi. assert (Hc : forall i, cnt i Q = cnt i P).
  { intros i. unfold cnt. apply Permutation_count_occ. symmetry. exact Hp. }
  constructor.
  - intros i c H. destruct (inv_count _ _ Hi i c H) as [H1 H2]. rewrite cnt_app in *. rewrite Hc. auto.
  - intros i H. apply (inv_live _ _ Hi). apply cnt_in. apply cnt_in in H. rewrite cnt_app in *. rewrite Hc in H. exact H.
  - exact (inv_fits _ _ Hi).
Qed.

Lemma destroy_ok m v x : good m -> nth_error (vars m) v = Some x ->
  exists m', exec (Destroy v) m = Ok m' /\ good m'.
Proof.
  intros Hg Hv. cbn [exec]. rewrite Hv. pose proof (drop_perm _ _ _ Hv) as Hp.
  assert (Hi : inv (heap_of m) (holds x :: map holds (drop v (vars m)))).
  { apply (inv_perm _ (map holds (vars m))); [|exact (good_inv _ Hg)].
    exact (Permutation_map holds Hp). }
  destruct (release_ok depth (holds x) _ _ Hi) as (h & E & Hi' & Hf).
  { intros o _. destruct o; unfold depth; simpl; lia. }
  rewrite E. cbn [bind]. eexists. split; [reflexivity|]. constructor; cbn [heap_of vars].
  - exact Hi'.
  - intros y Hy. assert (Hky : kind (heap_of m) y).
    { apply (good_kind _ Hg). apply (Permutation_in _ (Permutation_sym Hp)). right. exact Hy. }
    destruct (inv_live _ _ Hi' (holds y)) as [o Ho].
    { apply in_or_app. left. apply in_map. exact Hy. }
    pose proof (proj2 Hf _ _ Ho) as Hoo.
    destruct y; cbn [kind holds] in *.
    1,2: rewrite (at_fun _ _ _ _ Hoo Hky) in Ho; exact Ho.
    1,4,5: destruct Hky as [ws Hw]; rewrite (at_fun _ _ _ _ Hoo Hw) in Ho; eauto.
    all: destruct Hky as (ws & Hw & Hl); rewrite (at_fun _ _ _ _ Hoo Hw) in Ho; eauto.
Qed.

Lemma kind_comp m v d k : good m -> nth_error (vars m) v = Some (HComp d k) \/ nth_error (vars m) v = Some (HEdge d k) ->
  exists ws, at_ (heap_of m) d (ODec ws) /\ k < List.length ws.
Proof.
  intros Hg [H|H]; exact (good_kind _ Hg _ (nth_error_In _ _ H)).
Qed.

Lemma exec_ok o m : good m -> compiles o m -> exists m', exec o m = Ok m' /\ good m'.
Proof.
  intros Hg Hc. pose proof (fun v x (H : nth_error (vars m) v = Some x) => good_kind _ Hg _ (nth_error_In _ _ H)) as HK.
  assert (HV : forall v d k, nth_error (vars m) v = Some (HComp d k) \/ nth_error (vars m) v = Some (HEdge d k) ->
    exists r, visit d k (heap_of m) = Ok r).
  { intros v d k H. destruct (kind_comp _ _ _ _ Hg H) as (ws & Hd & Hk).
    destruct (visit_ok _ _ _ _ _ (good_inv _ Hg) Hd Hk) as (w & u & Ev & _). eauto. }
  destruct o; simpl in Hc.
  - simpl. eexists. split; [reflexivity|]. apply new_len_good; [exact Hg|apply at_new|reflexivity].
  - destruct Hc as [l Hv]. simpl. rewrite Hv. apply share_ok; [exact Hg|exact (HK _ _ Hv)].
  - destruct Hc as [l Hv]. simpl. rewrite Hv. apply share_ok; [exact Hg|exact (HK _ _ Hv)].
  - destruct Hc as [l Hv]. simpl. rewrite Hv. destruct (deref_ok _ _ _ (HK _ _ Hv)) as (c & E & _). rewrite E. cbn [bind]. eauto.
  - destruct Hc as [l Hv]. simpl. rewrite Hv. apply share_ok; [exact Hg|exact (HK _ _ Hv)].
  - destruct Hc as [l Hv]. simpl. rewrite Hv. apply decompose_ok; [exact Hg|exact (HK _ _ Hv)].
  - destruct Hc as (d & n & Hv & (ws & q & Hd & Hl) & Hk). simpl. rewrite Hv. unfold deref. rewrite Hd. cbn [bind c_obj].
    destruct (Nat.ltb_spec k (List.length ws)); [|lia].
    apply share_ok; [exact Hg|]. simpl. exists ws. split; [eexists; exact Hd|lia].
  - destruct Hc as (d & k & Hv). simpl. rewrite Hv. destruct (HV _ _ _ (or_introl Hv)) as [r Er]. rewrite Er. cbn [bind].
    apply share_ok; [exact Hg|exact (HK _ _ Hv)].
  - destruct Hc as (d & k & Hv). simpl. rewrite Hv. destruct (HV _ _ _ (or_intror Hv)) as [r Er]. rewrite Er. cbn [bind].
    apply share_ok; [exact Hg|exact (HK _ _ Hv)].
  - destruct Hc as (d & k & Hv). simpl. rewrite Hv. destruct (HV _ _ _ (or_introl Hv)) as [r Er]. rewrite Er. cbn [bind].
    destruct (HK _ _ Hv) as (ws & Hd & _). apply share_ok; [exact Hg|]. exists ws. exact Hd.
  - destruct Hc as (d & Hv). simpl. rewrite Hv. destruct (HK _ _ Hv) as (ws & Hd).
    destruct (deref_ok _ _ _ Hd) as (c & E & _). rewrite E. cbn [bind]. apply share_ok; [exact Hg|]. exists ws. exact Hd.
  - destruct Hc as (d & k & Hv). simpl. destruct (HV _ _ _ Hv) as [r Er].
    destruct Hv as [Hv|Hv]; rewrite Hv, Er; cbn [bind]; eauto.
  - destruct Hc as (d & k & Hv). simpl. rewrite Hv. destruct (HK _ _ Hv) as (ws & Hd & Hk).
    exact (step_ok _ _ _ _ _ Hg Hd Hk).
  - destruct Hc as (d & k & Hv). simpl. rewrite Hv. unfold iet_of. destruct (HV _ _ _ (or_introl Hv)) as [r Er]. rewrite Er. cbn [bind].
    eexists. split; [reflexivity|]. apply new_len_good; [exact Hg|apply at_new|reflexivity].
  - destruct Hc as (x & Hv & Hx). simpl. rewrite Hv.
    destruct x; try (apply share_ok; [exact Hg|exact (HK _ _ Hv)]). destruct (Hx l eq_refl).
  - destruct (nth_error (vars m) v) as [x|] eqn:Hv; [|apply nth_error_None in Hv; lia].
    exact (destroy_ok _ _ _ Hg Hv).
Qed.

Lemma exec_throws o m : good m -> ~ compiles o m -> exec o m = Throw.
Proof.
  intros Hg Hn. destruct o; cbn [exec compiles] in *; try (destruct Hn; exact I).
  all: destruct (nth_error (vars m) v) as [x|] eqn:Ev; [|reflexivity].
  all: try (destruct x; try reflexivity; destruct Hn; eauto; fail).
  - destruct x; try reflexivity.
    destruct (good_kind _ Hg _ (nth_error_In _ _ Ev)) as (ws & q & Hd). unfold deref. rewrite Hd. cbn [bind c_obj].
    destruct (Nat.ltb_spec k (List.length ws)) as [Hl|Hl]; [|reflexivity].
    destruct Hn. exists d, (List.length ws). split; [reflexivity|]. split; [|exact Hl]. exists ws, q. auto.
  - destruct x; try reflexivity; destruct Hn; eexists; (split; [reflexivity|discriminate]).
  - destruct Hn. apply nth_error_Some. congruence.
Qed.

(** One operation: it succeeds, or the program does not compile. *)
Lemma exec_cases o m : good m ->
  (exists m', exec o m = Ok m' /\ good m' /\ compiles o m) \/ (exec o m = Throw /\ ~ compiles o m).
Proof.
  intros Hg. assert (Hdec : compiles o m \/ ~ compiles o m).
  { destruct o; cbn [compiles].
    1: left; exact I.
    15: destruct (Nat.lt_ge_cases v (List.length (vars m))); [left; assumption|right; lia].
    all: destruct (nth_error (vars m) v) as [[]|] eqn:Ev;
      try (left; eauto; fail);
      try (right; intros H; decompose [ex and or] H; discriminate).
    - destruct (good_kind _ Hg _ (nth_error_In _ _ Ev)) as (ws & q & Hd).
      destruct (Nat.lt_ge_cases k (List.length ws)) as [Hl|Hl].
      + left. exists d, (List.length ws). split; [reflexivity|]. split; [|exact Hl]. exists ws, q. auto.
      + right. intros (d' & n & E & (ws' & q' & Hd' & Hl') & Hk). injection E as <-. rewrite Hd in Hd'.
        injection Hd' as <- <-. lia.
    - left. eexists; split; [reflexivity|discriminate].
    - right. intros (x & E & Hx). injection E as <-. exact (Hx l eq_refl).
    - left. eexists; split; [reflexivity|discriminate].
    - left. eexists; split; [reflexivity|discriminate].
    - left. eexists; split; [reflexivity|discriminate].
    - left. eexists; split; [reflexivity|discriminate].
    - left. eexists; split; [reflexivity|discriminate]. }
  destruct Hdec as [Hc|Hc].
  - left. destruct (exec_ok o m Hg Hc) as (m' & E & G). eauto.
  - right. split; [exact (exec_throws _ _ Hg Hc)|exact Hc].
Qed.

Lemma run_good os : forall m m', good m -> exec_all os m = Ok m' -> good m'.
Proof.
  induction os as [|o os IH]; intros m m' Hg H; simpl in H.
  - injection H as <-. exact Hg.
  - apply bind_ok in H. destruct H as (m1 & E1 & E2).
    destruct (exec_cases o m Hg) as [(m2 & E & G & _)|[E _]]; rewrite E in E1; [|discriminate].
    injection E1 as <-. exact (IH _ _ G E2).
Qed.

Lemma reached_good m : reached m -> good m.
Proof. intros [os H]. exact (run_good os _ _ start_good H). Qed.

Lemma run_safe os : forall m, good m -> (exists m', exec_all os m = Ok m') \/ exec_all os m = Throw.
Proof.
  induction os as [|o os IH]; intros m Hg; simpl; [eauto|].
  destruct (exec_cases o m Hg) as [(m2 & E & G & _)|[E _]]; rewrite E; cbn [bind]; [|auto].
  exact (IH m2 G).
Qed.

Lemma held_alive m i : good m -> held m i -> alive m i.
Proof.
  intros Hg H. induction H as [x Hx|i c j _ _ Hc Hj].
  - destruct (inv_live _ _ (good_inv _ Hg) (holds x)) as (o & q & Ho); [apply in_or_app; left; apply in_map; exact Hx|].
    eexists; exact Ho.
  - destruct (inv_live _ _ (good_inv _ Hg) j) as (o & q & Ho).
    + apply in_or_app. right. exact (inner_refs _ _ _ _ Hc Hj).
    + eexists; exact Ho.
Qed.

Lemma in_refs h j : In j (refs h) -> exists i c, nth_error h i = Some (Some c) /\ In j (strong (c_obj c)).
Proof.
  intros H. apply in_flat_map in H. destruct H as ([c|] & Hc & Hj); [|destruct Hj].
  apply In_nth_error in Hc. destruct Hc as [i Hi]. eauto.
Qed.

Lemma alive_held_rank m : good m -> forall n i o, at_ (heap_of m) i o -> 2 < n + rank o -> held m i.
Proof.
  intros Hg. induction n as [|n IH]; intros i o Ho Hn.
  - destruct o; simpl in Hn; lia.
  - destruct Ho as [q Ho]. destruct (inv_count _ _ (good_inv _ Hg) i _ Ho) as [Hc Hp].
    rewrite Hc in Hp. apply cnt_in in Hp. apply in_app_or in Hp. destruct Hp as [Hp|Hp].
    + apply in_map_iff in Hp. destruct Hp as (x & <- & Hx). apply held_variable. exact Hx.
    + destruct (in_refs _ _ Hp) as (p & c & Hpc & Hin).
      pose proof (inv_fits _ _ (good_inv _ Hg) p _ (at_cell _ _ _ Hpc)) as Hf.
      assert (Hoo : at_ (heap_of m) i o) by (eexists; exact Ho).
      apply (held_inside m p c i); [|exact Hpc|exact Hin].
      apply (IH p (c_obj c) (at_cell _ _ _ Hpc)).
      destruct (c_obj c) as [|u d|ws]; simpl in Hin, Hf |- *.
      * destruct Hin.
      * destruct Hin as [<-|[]]. rewrite (at_fun _ _ _ _ Hoo Hf) in Hn. simpl in Hn. lia.
      * destruct (Hf i Hin) as [u Hu]. rewrite (at_fun _ _ _ _ Hoo Hu) in Hn. simpl in Hn. lia.
Qed.

Lemma alive_held m i : good m -> alive m i -> held m i.
Proof.
  intros Hg [c H]. apply (alive_held_rank m Hg 3 i (c_obj c) (at_cell _ _ _ H)). lia.
Qed.

Lemma none_held m i : vars m = [] -> ~ held m i.
Proof.
  intros Hv H. induction H as [x Hx|i c j _ IH _ _]; [rewrite Hv in Hx; destruct Hx|exact IH].
Qed.
