(** Proofs about [Par]: threads that do not make conflicting accesses do not notice each other, and calls made by
    a single thread do what [IET] says. *)
From Coq Require Import Lia.
From Verif Require Import Base QcTac LenT FM Subspace Lengths IET Api RatioApi Par ParApi.
Open Scope nat_scope.

Lemma upd_length {A} n (x : A) l : length (upd n x l) = length l.
Proof.
  unfold upd. destruct (Nat.ltb_spec n (length l)) as [H|H]; [|reflexivity]. rewrite app_length, firstn_length. cbn [length]. rewrite skipn_length. lia.
Qed.

Lemma upd_same {A} n (x : A) l : n < length l -> nth_error (upd n x l) n = Some x.
Proof.
  intro H. unfold upd. rewrite (proj2 (Nat.ltb_lt _ _) H). rewrite nth_error_app2 by (rewrite firstn_length; lia).
  rewrite firstn_length, Nat.min_l by lia. rewrite Nat.sub_diag. reflexivity.
Qed.

Lemma upd_other {A} n p (x : A) l : n <> p -> nth_error (upd n x l) p = nth_error l p.
Proof.
  intro N. unfold upd. destruct (Nat.ltb_spec n (length l)) as [H|H]; [|reflexivity]. destruct (lt_dec p n) as [D|D].
  - rewrite nth_error_app1 by (rewrite firstn_length; lia). revert p l H N D. induction n as [|n IH]; intros p l H N D; [lia|]. destruct l as [|y l]; [cbn in H; lia|].
    destruct p as [|p]; [reflexivity|]. cbn [firstn nth_error]. apply IH; cbn in H; lia.
  - rewrite nth_error_app2 by (rewrite firstn_length; lia). rewrite firstn_length, Nat.min_l by lia.
    destruct (p - n) as [|q] eqn:E; [lia|]. cbn [nth_error]. replace p with (S n + q) by lia. clear. revert l. generalize (S n). clear n. intro n.
    induction n as [|n IH]; intros [|y l]; cbn [skipn nth_error Nat.add]; try reflexivity; [destruct q; reflexivity|apply IH].
Qed.

Lemma upd_none {A} n (x : A) l : length l <= n -> upd n x l = l.
Proof. intro H. unfold upd. rewrite (proj2 (Nat.ltb_ge _ _) H). reflexivity. Qed.

Lemma nth_ext_error {A} (l l' : list A) : (forall n, nth_error l n = nth_error l' n) -> l = l'.
Proof.
  revert l'. induction l as [|x l IH]; intros [|y l'] H; [reflexivity|specialize (H 0); discriminate|specialize (H 0); discriminate|].
  pose proof (H 0) as E. cbn in E. injection E as ->. f_equal. apply IH. intro n. exact (H (S n)).
Qed.

Lemma upd_self {A} n (x : A) l : nth_error l n = Some x -> upd n x l = l.
Proof.
  intro E. apply nth_ext_error. intro p. destruct (Nat.eq_dec n p) as [->|N]; [|apply upd_other, N]. rewrite E. apply upd_same. apply nth_error_Some. congruence.
Qed.

Lemma upd_upd {A} n (x y : A) l : upd n x (upd n y l) = upd n x l.
Proof.
  apply nth_ext_error. intro p. destruct (Nat.eq_dec n p) as [->|N]; [|rewrite !upd_other by exact N; reflexivity].
  destruct (lt_dec p (length l)) as [D|D]; [rewrite !upd_same by (rewrite ?upd_length; exact D); reflexivity|rewrite !upd_none by (rewrite ?upd_length; lia); reflexivity].
Qed.

Section ParProof.
Context {T : Type} {O : LenOps T}.
Implicit Types (m : memory T).

(** A single thread that runs until it is done. *)
Fixpoint exec {A} (t : thread T A) m : res (A * memory T) :=
  match t with
  | Returned a => Ok (a, m)
  | Stopped e => stop_of e
  | Next x k => match perform x m with Ok (b, m') => exec (k b) m' | e => stop_of e end
  end.

Fixpoint solo {A} (c : nat) (t : thread T A) m : thread T A * memory T :=
  match c with
  | 0 => (t, m)
  | S c' => let '(t', m') := turn t m in solo c' t' m'
  end.

Lemma solo_returned {A} c (a : A) m : solo c (Returned a) m = (Returned a, m).
Proof. induction c as [|c IH]; [reflexivity|exact IH]. Qed.
Lemma solo_stopped {A} c e m : solo (A := A) c (Stopped e) m = (Stopped e, m).
Proof. induction c as [|c IH]; [reflexivity|exact IH]. Qed.

Lemma stop_stop {A B C} (r : res A) : stop_of (A := B) (B := C) (stop_of r) = stop_of r.
Proof. destruct r; reflexivity. Qed.

Lemma solo_exec {A} (t : thread T A) : forall c m t' m', solo c t m = (t', m') ->
  match t' with Returned a => exec t m = Ok (a, m') | Stopped e => exec t m = stop_of e | Next _ _ => True end.
Proof.
  induction t as [a|e|B x k IH]; intros c m t' m' E.
  - rewrite solo_returned in E. injection E as <- <-. reflexivity.
  - rewrite solo_stopped in E. injection E as <- <-. reflexivity.
  - destruct c as [|c]; [cbn in E; injection E as <- <-; exact I|]. cbn [solo turn exec] in *. destruct (perform x m) as [[b m1]| | | |].
    + exact (IH b c m1 t' m' E).
    + rewrite solo_stopped in E. injection E as <- <-. reflexivity.
    + rewrite solo_stopped in E. injection E as <- <-. reflexivity.
    + rewrite solo_stopped in E. injection E as <- <-. reflexivity.
    + rewrite solo_stopped in E. injection E as <- <-. reflexivity.
Qed.

Definition done {A} (t : thread T A) : Prop := match t with Next _ _ => False | _ => True end.

Lemma solo_done {A} (t : thread T A) : forall m, exists N, forall c, N <= c -> done (fst (solo c t m)).
Proof.
  induction t as [a|e|B x k IH]; intro m.
  - exists 0. intros c _. rewrite solo_returned. exact I.
  - exists 0. intros c _. rewrite solo_stopped. exact I.
  - destruct (perform x m) as [[b m1]| | | |] eqn:E; [destruct (IH b m1) as (N & H)|..].
    1: exists (S N); intros [|c] L; [lia|]; cbn [solo turn]; rewrite E; apply H; lia.
    all: exists 1; intros [|c] L; [lia|]; cbn [solo turn]; rewrite E, solo_stopped; exact I.
Qed.

(** ** Threads that do not get into each other's way *)

Definition same (x : location) m m' : Prop :=
  match x with
  | L_rows j => option_map (fun i => set_saf i None) (nth_error (m_iets m) j) = option_map (fun i => set_saf i None) (nth_error (m_iets m') j)
  | L_cache j => option_map (@i_saf T) (nth_error (m_iets m) j) = option_map (@i_saf T) (nth_error (m_iets m') j)
  | L_lens l => nth_error (m_lens m) l = nth_error (m_lens m') l
  end.

Lemma same_refl x m : same x m m.
Proof. destruct x; reflexivity. Qed.
Lemma same_sym x m m' : same x m m' -> same x m' m.
Proof. destruct x; cbn; congruence. Qed.
Lemma same_trans x m m' m'' : same x m m' -> same x m' m'' -> same x m m''.
Proof. destruct x; cbn; congruence. Qed.

Lemma iet_saf_parts (i i' : iet T) : set_saf i None = set_saf i' None -> i_saf i = i_saf i' -> i = i'.
Proof. destruct i, i'; unfold set_saf; cbn. intros E ->. injection E as -> -> -> ->. reflexivity. Qed.

Lemma perform_frame {B} (a : action T B) m b m' x : perform a m = Ok (b, m') -> ~ In (x, true) (accesses a) -> same x m m'.
Proof.
  destruct a as [j|j i|j|j c|l B f|l B f]; cbn [perform accesses]; unfold on_iet_at, on_lens_at; intros E N.
  1-4: destruct (nth_error (m_iets m) j) as [y|] eqn:En; [|discriminate]; cbn [bind] in E; injection E as _ <-;
    (assert (Lj : j < length (m_iets m)) by (apply nth_error_Some; congruence)); destruct x as [p|p|p]; cbn; try reflexivity;
    (destruct (Nat.eq_dec j p) as [<-|D]; [rewrite upd_same, En by exact Lj; cbn; try reflexivity|rewrite upd_other by exact D; reflexivity]).
  1: exfalso; apply N; left; reflexivity.
  1: exfalso; apply N; left; reflexivity.
  - destruct (nth_error (m_lens m) l) as [s|] eqn:En; [|discriminate]. destruct (f s) as [y| | | |]; cbn [bind] in E; try discriminate. injection E as _ <-. rewrite (upd_self _ _ _ En). destruct m. apply same_refl.
  - destruct (nth_error (m_lens m) l) as [s|] eqn:En; [|discriminate]. destruct (f s) as [[y s']| | | |]; cbn [bind] in E; try discriminate. injection E as _ <-.
    destruct x as [p|p|p]; cbn; try reflexivity. destruct (Nat.eq_dec l p) as [<-|D]; [exfalso; apply N; left; reflexivity|]. rewrite upd_other by exact D. reflexivity.
Qed.

Lemma some_inj {A} (x y : A) : Some x = Some y -> x = y.
Proof. congruence. Qed.

Lemma perform_local {B} (a : action T B) m m' : (forall x w, In (x, w) (accesses a) -> same x m m') ->
  match perform a m with
  | Ok (b, m1) => exists m1', perform a m' = Ok (b, m1') /\ forall x w, In (x, w) (accesses a) -> same x m1 m1'
  | e => perform a m' = stop_of e
  end.
Proof.
  intro H. destruct a as [j|j i|j|j c|l B f|l B f]; cbn [perform accesses] in *; unfold on_iet_at, on_lens_at.
  1-4: specialize (H _ _ (or_introl eq_refl)); cbn in H; destruct (nth_error (m_iets m) j) as [y|] eqn:En; destruct (nth_error (m_iets m') j) as [y'|] eqn:En'; try discriminate H; [|reflexivity];
    cbn [option_map] in H; apply some_inj in H;
    (assert (Lj : j < length (m_iets m)) by (apply nth_error_Some; congruence)); (assert (Lj' : j < length (m_iets m')) by (apply nth_error_Some; congruence));
    cbn [bind]; eexists; (split; [|intros x w [Z|[]]; injection Z as <- <-; cbn; rewrite !upd_same by assumption; cbn]).
  - rewrite H. reflexivity.
  - cbn [m_iets]. rewrite upd_same by assumption. cbn. congruence.
  - reflexivity.
  - cbn [m_iets]. rewrite upd_same by assumption. reflexivity.
  - rewrite H. reflexivity.
  - cbn [m_iets]. rewrite upd_same by assumption. cbn. congruence.
  - reflexivity.
  - cbn [m_iets]. rewrite upd_same by assumption. reflexivity.
  - specialize (H _ _ (or_introl eq_refl)). cbn in H. rewrite <- H. destruct (nth_error (m_lens m) l) as [s|] eqn:En; [|reflexivity]. destruct (f s) as [y| | | |]; cbn [bind]; try reflexivity.
    eexists. split; [reflexivity|]. intros x w [Z|[]]. injection Z as <- <-. cbn. rewrite !upd_self by congruence. congruence.
  - specialize (H _ _ (or_introl eq_refl)). cbn in H. rewrite <- H. destruct (nth_error (m_lens m) l) as [s|] eqn:En; [|reflexivity]. destruct (f s) as [[y s']| | | |]; cbn [bind]; try reflexivity.
    eexists. split; [reflexivity|]. intros x w [Z|[]]. injection Z as <- <-. cbn. rewrite !upd_same by (apply nth_error_Some; congruence). reflexivity.
Qed.

(** The accesses that a thread makes if it runs alone. *)
Fixpoint touches {A} (P : location -> bool -> Prop) (t : thread T A) m : Prop :=
  match t with
  | Next x k => (forall y w, In (y, w) (accesses x) -> P y w) /\ match perform x m with Ok (b, m') => touches P (k b) m' | _ => True end
  | _ => True
  end.

Lemma turn_along {A} (P : location -> bool -> Prop) (t : thread T A) m ms : touches P t ms -> (forall x w, P x w -> same x m ms) ->
  let '(t', m') := turn t m in let '(ts, ms') := turn t ms in t' = ts /\ touches P ts ms' /\ (forall x w, P x w -> same x m' ms').
Proof.
  intros H S. destruct t as [a|e|B x k]; cbn [turn]; [auto|auto|]. destruct H as (Ha & H).
  pose proof (perform_local x m ms (fun y w Hy => S y w (Ha y w Hy))) as L.
  destruct (perform x m) as [[b m1]| | | |] eqn:E; [|rewrite L; cbn [stop_of]; split; [reflexivity|split; [exact I|exact S]]..].
  destruct L as (m1' & L & Q). rewrite L in *. split; [reflexivity|]. split; [exact H|]. intros y w Hy.
  destruct (in_dec (fun p q : location * bool => ltac:(repeat decide equality)) (y, true) (accesses x)) as [D|D]; [exact (Q _ _ D)|].
  apply (same_trans y _ m); [apply same_sym; exact (perform_frame _ _ _ _ _ E D)|]. apply (same_trans y _ ms); [exact (S _ _ Hy)|exact (perform_frame _ _ _ _ _ L D)].
Qed.

Lemma turn_frame {A} (P : location -> bool -> Prop) (t : thread T A) m ms : touches P t ms -> forall y, ~ P y true -> same y m (snd (turn t m)).
Proof.
  intros H y N. destruct t as [a|e|B x k]; cbn [turn]; try apply same_refl. destruct H as (Ha & _). destruct (perform x m) as [[b m1]| | | |] eqn:E; try apply same_refl.
  apply (perform_frame _ _ _ _ _ E). intro D. apply N. exact (Ha _ _ D).
Qed.

Theorem apart {A} (P : nat -> location -> bool -> Prop) : (forall n p x v w, n <> p -> P n x v -> P p x w -> v || w = false) ->
  forall turns (ts : list (thread T A)) m (ms : nat -> memory T),
  (forall n t, nth_error ts n = Some t -> touches (P n) t (ms n) /\ forall x w, P n x w -> same x m (ms n)) ->
  let '(ts', m') := schedule turns ts m in
  forall n t, nth_error ts n = Some t -> let '(t', mm) := solo (count_occ Nat.eq_dec turns n) t (ms n) in
    nth_error ts' n = Some t' /\ touches (P n) t' mm /\ forall x w, P n x w -> same x m' mm.
Proof.
  intro D. induction turns as [|n turns IH]; intros ts m ms H; cbn [schedule].
  { intros n t E. cbn [count_occ solo]. destruct (H n t E) as (X & Y). auto. }
  destruct (nth_error ts n) as [t|] eqn:En.
  2:{ specialize (IH ts m ms H). destruct (schedule turns ts m) as [ts' m']. intros p u E. cbn [count_occ]. destruct (Nat.eq_dec n p) as [<-|N]; [congruence|exact (IH p u E)]. }
  destruct (H n t En) as (Ht & Hs). pose proof (turn_along (P n) t m (ms n) Ht Hs) as L. pose proof (turn_frame (P n) t m (ms n) Ht) as F.
  destruct (turn t m) as [t1 m1]. cbn [snd] in F. destruct (turn t (ms n)) as [t1' ms1] eqn:Et. destruct L as (<- & Ht1 & Hs1).
  assert (Ln : n < length ts) by (apply nth_error_Some; congruence).
  specialize (IH (upd n t1 ts) m1 (fun p => if Nat.eq_dec n p then ms1 else ms p)).
  assert (H' : forall p u, nth_error (upd n t1 ts) p = Some u -> touches (P p) u (if Nat.eq_dec n p then ms1 else ms p) /\ forall x w, P p x w -> same x m1 (if Nat.eq_dec n p then ms1 else ms p)).
  { intros p u E. destruct (Nat.eq_dec n p) as [<-|N].
    - rewrite upd_same in E by exact Ln. injection E as <-. auto.
    - rewrite upd_other in E by exact N. destruct (H p u E) as (Hu & Hp). split; [exact Hu|]. intros x w Hx. apply (same_trans x _ m); [|exact (Hp x w Hx)].
      apply same_sym, F. intro Q. pose proof (D n p x true w N Q Hx). discriminate. }
  specialize (IH H'). destruct (schedule turns (upd n t1 ts) m1) as [ts' m']. intros p u E. specialize (IH p). cbn [count_occ]. destruct (Nat.eq_dec n p) as [<-|N].
  - assert (t = u) by congruence. subst u. specialize (IH t1 (upd_same _ _ _ Ln)). cbn [solo]. rewrite Et. exact IH.
  - apply IH. rewrite upd_other by exact N. exact E.
Qed.

(** ** Threads that only read *)

Definition reads (x : location) (w : bool) : Prop := w = false.

Lemma perform_reads {B} (a : action T B) m b m' : (forall y w, In (y, w) (accesses a) -> w = false) -> perform a m = Ok (b, m') -> m' = m.
Proof.
  intros H E. destruct m as [is ss]. destruct a as [j|j i|j|j c|l B f|l B f]; cbn [perform accesses] in *; unfold on_iet_at, on_lens_at in E; cbn [m_iets m_lens] in E.
  - destruct (nth_error is j) eqn:En; [|discriminate]. cbn [bind] in E. injection E as _ <-. rewrite (upd_self _ _ _ En). reflexivity.
  - pose proof (H _ _ (or_introl eq_refl)). discriminate.
  - destruct (nth_error is j) eqn:En; [|discriminate]. cbn [bind] in E. injection E as _ <-. rewrite (upd_self _ _ _ En). reflexivity.
  - pose proof (H _ _ (or_introl eq_refl)). discriminate.
  - destruct (nth_error ss l) as [s|] eqn:En; [|discriminate]. destruct (f s); cbn [bind] in E; try discriminate. injection E as _ <-. rewrite (upd_self _ _ _ En). reflexivity.
  - pose proof (H _ _ (or_introl eq_refl)). discriminate.
Qed.

Theorem readers {A} : forall turns (ts : list (thread T A)) m, (forall n t, nth_error ts n = Some t -> touches reads t m) ->
  exists ts', schedule turns ts m = (ts', m) /\
  forall n t, nth_error ts n = Some t -> exists t', solo (count_occ Nat.eq_dec turns n) t m = (t', m) /\ nth_error ts' n = Some t' /\ touches reads t' m.
Proof.
  induction turns as [|n turns IH]; intros ts m H; cbn [schedule].
  { exists ts. split; [reflexivity|]. intros n t E. exists t. split; [reflexivity|]. split; [exact E|exact (H n t E)]. }
  destruct (nth_error ts n) as [t|] eqn:En.
  2:{ destruct (IH ts m H) as (ts' & E & Q). exists ts'. split; [exact E|]. intros p u Ep. cbn [count_occ]. destruct (Nat.eq_dec n p) as [<-|N]; [congruence|exact (Q p u Ep)]. }
  assert (Ln : n < length ts) by (apply nth_error_Some; congruence).
  assert (Z : exists t1, turn t m = (t1, m) /\ touches reads t1 m).
  { pose proof (H n t En) as Ht. destruct t as [a|e|B x k]; cbn [turn]; [eauto|eauto|]. destruct Ht as (Ha & Ht). destruct (perform x m) as [[b m1]| | | |] eqn:E; [|eexists; split; [reflexivity|exact I]..].
    rewrite (perform_reads _ _ _ _ Ha E) in *. eauto. }
  destruct Z as (t1 & Et & Ht1). rewrite Et. destruct (IH (upd n t1 ts) m) as (ts' & E & Q).
  { intros p u Ep. destruct (Nat.eq_dec n p) as [<-|N]; [rewrite upd_same in Ep by exact Ln; injection Ep as <-; exact Ht1|rewrite upd_other in Ep by exact N; exact (H p u Ep)]. }
  exists ts'. split; [exact E|]. intros p u Ep. cbn [count_occ]. destruct (Nat.eq_dec n p) as [<-|N].
  - assert (t = u) by congruence. subst u. destruct (Q n t1 (upd_same _ _ _ Ln)) as (t' & S & R). exists t'. cbn [solo]. rewrite Et. auto.
  - apply Q. rewrite upd_other by exact N. exact Ep.
Qed.

(** ** A single thread *)

Lemma exec_bind {A B} (t : thread T A) (f : A -> thread T B) m : exec (tbind t f) m = match exec t m with Ok (a, m') => exec (f a) m' | e => stop_of e end.
Proof.
  revert m. induction t as [a|e|C x k IH]; intro m; cbn [tbind exec]; [reflexivity|destruct e as [[]| | | |]; reflexivity|].
  destruct (perform x m) as [[b m1]| | | |]; [apply IH|reflexivity..].
Qed.

Lemma exec_act {B} (x : action T B) m : exec (act x) m = perform x m.
Proof. unfold act. cbn [exec]. destruct (perform x m) as [[b m1]| | | |]; reflexivity. Qed.

Lemma exec_pure {A} (r : res A) m : exec (tpure (T := T) r) m = match r with Ok a => Ok (a, m) | e => stop_of e end.
Proof. destruct r; reflexivity. Qed.

Lemma touches_bind {A B} P (t : thread T A) (f : A -> thread T B) m : touches P t m -> (forall a m', exec t m = Ok (a, m') -> touches P (f a) m') -> touches P (tbind t f) m.
Proof.
  revert m. induction t as [a|e|C x k IH]; intros m H G; cbn [tbind touches exec] in *; [apply G; reflexivity|exact I|].
  destruct H as (Ha & H). split; [exact Ha|]. destruct (perform x m) as [[b m1]| | | |]; [apply IH; [exact H|exact G]|exact I..].
Qed.

Lemma touches_act {B} (P : location -> bool -> Prop) (x : action T B) m : (forall y w, In (y, w) (accesses x) -> P y w) -> touches P (act x) m.
Proof. intro H. cbn [act touches]. split; [exact H|]. destruct (perform x m) as [[b m1]| | | |]; exact I. Qed.

Lemma touches_pure {A} P (r : res A) m : touches P (tpure (T := T) r) m.
Proof. destruct r; exact I. Qed.

(** The thread works on IET [j] with lengths [l]; in the beginning the memory is [m0]. *)
Section One.
Variables (j l : nat) (m0 : memory T).
Hypothesis Hj : j < length (m_iets m0).
Hypothesis Hl : l < length (m_lens m0).

Definition at_mem (i : iet T) (s : slen T) : memory T := mkmem (upd j i (m_iets m0)) (upd l s (m_lens m0)).

Definition lift {A} (r : res (A * iet T * slen T)) : res (A * memory T) := '(a, i, s) <- r ;; Ok (a, at_mem i s).
Definition means {A} (t : thread T A) (i : iet T) (s : slen T) (r : res (A * iet T * slen T)) : Prop := exec t (at_mem i s) = lift r.

Lemma at_iet i s : nth_error (m_iets (at_mem i s)) j = Some i.
Proof. apply upd_same, Hj. Qed.
Lemma at_lens i s : nth_error (m_lens (at_mem i s)) l = Some s.
Proof. apply upd_same, Hl. Qed.
Lemma at_set_iet i s i' : mkmem (upd j i' (m_iets (at_mem i s))) (m_lens (at_mem i s)) = at_mem i' s.
Proof. unfold at_mem. cbn. rewrite upd_upd. reflexivity. Qed.
Lemma at_set_lens i s s' : mkmem (m_iets (at_mem i s)) (upd l s' (m_lens (at_mem i s))) = at_mem i s'.
Proof. unfold at_mem. cbn. rewrite upd_upd. reflexivity. Qed.

Lemma me_ret {A} (a : A) i s : means (Returned a) i s (Ok (a, i, s)).
Proof. reflexivity. Qed.
Lemma me_pure {A} (r : res A) i s : means (tpure r) i s (a <- r ;; Ok (a, i, s)).
Proof. unfold means. rewrite exec_pure. destruct r; reflexivity. Qed.
Lemma me_eq {A} (t : thread T A) i s r r' : means t i s r -> r = r' -> means t i s r'.
Proof. intros H <-. exact H. Qed.
Lemma me_bind {A B} (t : thread T A) (f : A -> thread T B) i s r1 (r : res (B * iet T * slen T)) : means t i s r1 ->
  match r1 with Ok (a, i1, s1) => means (f a) i1 s1 r | e => r = stop_of e end -> means (tbind t f) i s r.
Proof.
  unfold means. intros H G. rewrite exec_bind, H. destruct r1 as [[[a i1] s1]| | | |]; cbn [lift bind]; [exact G|rewrite G; reflexivity..].
Qed.
Lemma me_this i s : means (t_this j) i s (Ok (set_saf i None, i, s)).
Proof. unfold means, t_this. rewrite exec_act. cbn [perform]. unfold on_iet_at. rewrite at_iet. cbn [bind lift]. rewrite at_set_iet. reflexivity. Qed.
Lemma me_put x i s : means (t_put j x) i s (Ok (tt, set_saf x (i_saf i), s)).
Proof. unfold means, t_put. rewrite exec_act. cbn [perform]. unfold on_iet_at. rewrite at_iet. cbn [bind lift]. rewrite at_set_iet. reflexivity. Qed.
Lemma me_cache i s : means (act (a_cache j)) i s (Ok (i_saf i, i, s)).
Proof. unfold means. rewrite exec_act. cbn [perform]. unfold on_iet_at. rewrite at_iet. cbn [bind lift]. rewrite at_set_iet. reflexivity. Qed.
Lemma me_set_cache c i s : means (act (a_set_cache j c)) i s (Ok (tt, set_saf i c, s)).
Proof. unfold means. rewrite exec_act. cbn [perform]. unfold on_iet_at. rewrite at_iet. cbn [bind lift]. rewrite at_set_iet. reflexivity. Qed.
Lemma me_look {B} (f : slen T -> res B) i s : means (t_look l f) i s (b <- f s ;; Ok (b, i, s)).
Proof. unfold means, t_look. rewrite exec_act. cbn [perform]. unfold on_lens_at. rewrite at_lens. destruct (f s); cbn [bind lift]; try reflexivity. rewrite at_set_lens. reflexivity. Qed.
Lemma me_change {B} (f : slen T -> res (B * slen T)) i s : means (act (a_change l f)) i s ('(b, s) <- f s ;; Ok (b, i, s)).
Proof. unfold means. rewrite exec_act. cbn [perform]. unfold on_lens_at. rewrite at_lens. destruct (f s) as [[b s']| | | |]; cbn [bind lift]; try reflexivity. rewrite at_set_lens. reflexivity. Qed.

Ltac onward := cbn [bind stop_of]; try reflexivity.
Ltac ub := first [apply (me_pure UB)|apply (me_pure OutOfFuel)].

Lemma me_zloop a rest : forall rpre i s, means (t_zloop l a rpre rest) i s ('(r, s) <- zloop sample_lens (i_view i) a rpre rest s ;; Ok (r, i, s)).
Proof.
  induction rest as [|b rest IH]; intros rpre i s; cbn [t_zloop zloop]; [apply (me_pure UB)|]. destruct (Nat.eqb b a).
  - eapply me_bind; [apply me_change|]. cbn beta. cbn [li_subrep sample_lens]. destruct (sl_subrep a s) as [[stop s1]| | | |]; onward.
    destruct (Nat.eqb a stop); [apply (me_pure UB)|]. destruct (back_to stop rpre); [apply me_ret|apply (me_pure UB)].
  - eapply me_bind; [apply me_change|]. cbn beta. cbn [li_push sample_lens bind]. eapply me_bind; [apply me_look|]. cbn beta. cbn [li_cmp1 sample_lens].
    destruct (sl_cmp1 (sl_push b s) a) as [c| | | |]; onward.
    assert (Go : means (_ <- act (a_change l (fun s => s <- sl_pop s ;; Ok (tt, s))) ;;; _ <- act (a_change l (fun s => s <- sl_subtract a s ;; Ok (tt, s))) ;;; Returned rpre) i (sl_push b s)
      ('(r, s) <- (s0 <- sl_pop (sl_push b s) ;; s1 <- sl_subtract a s0 ;; Ok (rpre, s1)) ;; Ok (r, i, s))).
    { eapply me_bind; [apply me_change|]. cbn beta. destruct (sl_pop (sl_push b s)) as [s1| | | |]; onward.
      eapply me_bind; [apply me_change|]. cbn beta. destruct (sl_subtract a s1) as [s2| | | |]; onward. }
    destruct c; [exact Go|apply IH|exact Go].
Qed.

Lemma me_zorich i s : means (t_zorich j l) i s (zorich sample_lens i s).
Proof.
  unfold t_zorich, zorich. eapply me_bind; [apply me_this|]. cbn beta iota. cbn [set_saf i_top i_bottom].
  destruct (i_top i) as [|a X] eqn:Et; [ub|]. destruct (i_bottom i) as [|b Y] eqn:Eb; [ub|].
  destruct (Nat.eqb a b); [apply me_ret|]. eapply me_bind; [apply me_zloop|].
  destruct (zloop sample_lens (i_view i) a [] (b :: Y) s) as [[r s1]| | | |]; onward.
  eapply me_bind; [apply me_pure|]. destruct (splice a (b :: Y) (length r)) as [bot| | | |]; onward.
  destruct bot as [|b' bot]; [ub|]. eapply me_bind; [apply me_put|]. cbn beta iota.
  eapply me_bind; [apply me_look|]. cbn beta. cbn [li_cmp2 sample_lens]. destruct (sl_cmp2 s1 a b'); onward.
Qed.

Lemma me_cached i s v : i_saf i = Some v -> means (t_cached j) i s (Ok (v, i, s)).
Proof. intro E. unfold t_cached. eapply me_bind; [apply me_cache|]. cbn beta iota. rewrite E. apply me_ret. Qed.

Lemma me_saf_sum cs : forall ts i s v, i_saf i = Some v -> means (t_saf_sum j cs ts) i s (v <- saf_sum cs ts v ;; Ok (tt, set_saf i (Some v), s)).
Proof.
  induction cs as [|c cs IH]; intros ts i s v E; cbn [t_saf_sum saf_sum]; [apply me_eq with (1 := me_ret tt i s); cbn [bind]; rewrite <- E; destruct i; reflexivity|].
  destruct ts as [|t ts]; [apply me_eq with (1 := me_ret tt i s); cbn [bind]; rewrite <- E; destruct i; reflexivity|].
  eapply me_bind; [apply me_pure|]. destruct (wedge_c c t) as [w| | | |]; onward. eapply me_bind; [apply me_cached, E|]. cbn beta iota.
  eapply me_bind; [apply me_pure|]. destruct (vadd_c v w) as [v1| | | |]; onward. eapply me_bind; [apply me_set_cache|]. cbn beta iota.
  eapply me_eq; [apply (IH ts (set_saf i (Some v1)) s v1 eq_refl)|]. destruct (saf_sum cs ts v1); reflexivity.
Qed.

Lemma me_saf i s : means (t_saf j l) i s ('(v, i) <- iet_saf i s ;; Ok (v, i, s)).
Proof.
  unfold t_saf, iet_saf, saf_raw. eapply me_bind; [apply me_cache|]. cbn beta iota. destruct (i_saf i) as [v|] eqn:Es; [apply me_ret|].
  eapply me_bind; [apply me_this|]. cbn beta iota. eapply me_bind; [apply me_look|]. cbn beta. change (iet_coefficients (set_saf i None) s) with (iet_coefficients i s).
  destruct (iet_coefficients i s) as [cs| | | |]; onward. destruct cs as [|c0 cs]; [ub|]. cbn zeta.
  assert (D : means (if length c0 <=? 1 then act (a_set_cache j (Some [])) else
      ts <- t_look l (translations (set_saf i None)) ;;; _ <- act (a_set_cache j (Some (vzero (length c0 * (length c0 - 1) / 2)))) ;;; t_saf_sum j (c0 :: cs) ts) i s
    (v <- (if length c0 <=? 1 then Ok [] else ts <- translations i s ;; saf_sum (c0 :: cs) ts (vzero (length c0 * (length c0 - 1) / 2))) ;; Ok (tt, set_saf i (Some v), s))).
  { destruct (length c0 <=? 1); [apply me_set_cache|]. eapply me_bind; [apply me_look|]. cbn beta. change (translations (set_saf i None) s) with (translations i s). destruct (translations i s) as [ts| | | |]; onward.
    eapply me_bind; [apply me_set_cache|]. cbn beta iota. eapply me_eq; [apply (me_saf_sum (c0 :: cs) ts (set_saf i (Some (vzero (length c0 * (length c0 - 1) / 2)))) s _ eq_refl)|].
    destruct (saf_sum (c0 :: cs) ts (vzero (length c0 * (length c0 - 1) / 2))); reflexivity. }
  eapply me_bind; [exact D|]. match goal with |- context [bind ?m _] => destruct m as [v| | | |] end; onward. cbn [i_swap set_saf].
  destruct (i_swap i).
  - eapply me_bind; [eapply me_bind; [apply (me_cached (set_saf i (Some v)) s v eq_refl)|]; cbn beta iota; apply me_set_cache|]. cbn beta iota.
    apply (me_cached (set_saf (set_saf i (Some v)) (Some (vneg v))) s (vneg v) eq_refl).
  - eapply me_bind; [apply me_ret|]. cbn beta iota. apply (me_cached (set_saf i (Some v)) s v eq_refl).
Qed.

Lemma me_saf0 i s : means (t_saf0 j l) i s ('(z, i) <- iet_saf0 i s ;; Ok (z, i, s)).
Proof. unfold t_saf0, iet_saf0. eapply me_bind; [apply me_saf|]. destruct (iet_saf i s) as [[v i1]| | | |]; onward. Qed.

Lemma me_saf_invariant i s : means (t_saf_invariant j l) i s ('(z, i) <- saf_invariant i s ;; Ok (z, i, s)).
Proof.
  unfold t_saf_invariant, saf_invariant. eapply me_bind; [apply me_saf|]. destruct (iet_saf i s) as [[v i1]| | | |]; onward.
  eapply me_bind; [apply me_this|]. cbn beta iota. apply me_ret.
Qed.

Lemma me_bosh i s : means (t_bosh_no_periodic j l) i s ('(z, i) <- bosh_no_periodic i s ;; Ok (z, i, s)).
Proof.
  unfold t_bosh_no_periodic, bosh_no_periodic. eapply me_bind; [apply me_saf0|]. destruct (iet_saf0 i s) as [[z i1]| | | |]; onward.
  destruct z; [apply me_ret|]. eapply me_bind; [apply me_this|]. cbn beta iota. change (i_size (set_saf i1 None)) with (i_size i1). destruct (i_size i1 <=? 1); [apply me_ret|].
  eapply me_bind; [apply me_look|]. cbn beta. change (bosh_equations (set_saf i1 None) s) with (bosh_equations i1 s). destruct (bosh_equations i1 s) as [eqs| | | |]; onward.
  eapply me_bind; [apply me_pure|]. destruct (ras_equations eqs (vzero (length eqs))) as [r| | | |]; onward.
  eapply me_bind; [apply me_pure|]. destruct (nznn r) as [b| | | |]; onward.
Qed.

Lemma me_saddle2 t b i s : means (t_bosh_no_saddle2 j l t b) i s (z <- bosh_no_saddle2 i s t b ;; Ok (z, i, s)).
Proof.
  unfold t_bosh_no_saddle2, bosh_no_saddle2. eapply me_bind; [apply me_this|]. cbn beta iota.
  eapply me_bind; [apply me_look|]. cbn beta. change (bosh_values (set_saf i None) s t b) with (bosh_values i s t b). destruct (bosh_values i s t b) as [v| | | |]; onward. destruct (vis0 v); [apply me_ret|].
  eapply me_bind; [apply me_look|]. cbn beta. change (bosh_equations (set_saf i None) s) with (bosh_equations i s). destruct (bosh_equations i s) as [eqs| | | |]; onward.
  eapply me_bind; [apply me_pure|]. destruct (ras_equations eqs v) as [r| | | |]; onward.
Qed.

Lemma me_all {A} (f : A -> thread T bool) (g : A -> res bool) i s : (forall x, means (f x) i s (b <- g x ;; Ok (b, i, s))) ->
  forall xs, means (t_all f xs) i s (b <- all_false_exit g xs ;; Ok (b, i, s)).
Proof.
  intros H. induction xs as [|x xs IH]; cbn [t_all all_false_exit]; [apply me_ret|]. eapply me_bind; [apply H|]. destruct (g x) as [b| | | |]; onward. destruct b; [exact IH|apply me_ret].
Qed.

Lemma me_saddle i s : means (t_bosh_no_saddle j l) i s (z <- bosh_no_saddle i s ;; Ok (z, i, s)).
Proof.
  unfold t_bosh_no_saddle, bosh_no_saddle. eapply me_bind; [apply me_this|]. cbn beta iota. change (i_size (set_saf i None)) with (i_size i). destruct (i_size i <=? 1); [apply me_ret|].
  apply (me_all _ (fun p => bosh_no_saddle2 i s (fst p) (snd p))). intro p. apply me_saddle2.
Qed.

Lemma me_reduce i s : means (t_reduce j l) i s ('(r, i) <- reduce i s ;; Ok (r, i, s)).
Proof.
  unfold t_reduce, reduce. eapply me_bind; [apply me_this|]. cbn beta iota. cbn [set_saf i_top i_bottom]. eapply me_bind; [apply me_pure|].
  destruct (red_loop (i_top i) (i_bottom i) [] 0 0) as [[t b]| | | |]; onward. cbn [fst snd]. destruct t as [|x t].
  - eapply me_eq; [apply me_pure|]. unfold assert_. destruct b; reflexivity.
  - cbv zeta. eapply me_bind; [apply me_pure|]. unfold assert_. match goal with |- context [if ?c then _ else _] => destruct c end; onward.
    eapply me_bind; [apply me_put|]. cbn beta iota. eapply me_bind; [apply me_set_cache|]. cbn beta iota. eapply me_bind; [apply me_look|]. cbn beta. destruct (iet_make s (x :: t) b) as [y| | | |]; onward.
Qed.

Lemma me_similar k top i s : means (t_similar l k top) i s (r <- similar_lengths k s top ;; Ok (r, i, s)).
Proof.
  induction top as [|a [|b top] IH]; [apply me_ret|apply me_ret|]. cbn [t_similar similar_lengths]. eapply me_bind; [apply me_look|]. cbn beta.
  destruct (sl_similar (tk_lengths k) a b s a b) as [r| | | |]; onward. destruct r; [exact IH|apply me_ret].
Qed.

Lemma me_tracker i s : means (t_tracker j l) i s ('(r, k) <- tracker_loop (i_trk i) i s ;; Ok (r, set_trk i k, s)).
Proof.
  unfold t_tracker, tracker_loop. eapply me_bind; [apply me_this|]. cbn beta iota zeta. cbn [set_saf i_trk i_top i_bottom]. destruct (tk_ttl (i_trk i) =? 0)%N.
  - eapply me_bind; [apply me_look|]. cbn beta. cbn [bind]. eapply me_bind; [apply me_put|]. cbn beta iota. reflexivity.
  - eapply me_bind; [apply me_put|]. cbn beta iota. change (i_size (set_saf i None)) with (i_size i). match goal with |- context [negb ?c] => destruct (negb c) end; [reflexivity|].
    eapply me_bind; [apply me_pure|]. match goal with |- context [same_permutation ?x ?y ?z] => destruct (same_permutation x y z) as [p| | | |] end; onward.
    destruct p; [|reflexivity]. eapply me_eq; [apply me_similar|]. match goal with |- context [similar_lengths ?x ?y ?z] => destruct (similar_lengths x y z) as [r| | | |] end; reflexivity.
Qed.

Lemma me_swap i s : means (t_swap j) i s (Ok (tt, iet_swap i, s)).
Proof. unfold t_swap. eapply me_bind; [apply me_this|]. cbn beta iota. eapply me_eq; [apply me_put|]. reflexivity. Qed.

Lemma me_track (saf0 : bool) i s : means (if saf0 then v <- t_saf j l ;;; if length v =? 0 then Returned false else t_tracker j l else Returned false) i s
  ('(b, i) <- (if saf0 then '(v, i) <- iet_saf i s ;; if length v =? 0 then Ok (false, i) else '(r, k) <- tracker_loop (i_trk i) i s ;; Ok (r, set_trk i k) else Ok (false, i)) ;; Ok (b, i, s)).
Proof.
  destruct saf0; [|apply me_ret]. eapply me_bind; [apply me_saf|]. destruct (iet_saf i s) as [[v i1]| | | |]; onward.
  destruct (length v =? 0); [apply me_ret|]. eapply me_eq; [apply me_tracker|]. destruct (tracker_loop (i_trk i1) i1 s) as [[r k]| | | |]; reflexivity.
Qed.

Lemma me_loop saf0 limit fuel : forall n i s, means (t_loop j l fuel saf0 limit n) i s (induce_loop sample_lens fuel saf0 limit n i s).
Proof.
  induction fuel as [|fuel IH]; intros n i s; [apply (me_pure OutOfFuel)|]. cbn [t_loop induce_loop].
  destruct (negb ((limit =? -1)%Z || (n <? limit)%Z)); [apply me_ret|]. eapply me_bind; [apply (me_track saf0)|].
  cbn [li_base sample_lens]. match goal with |- context [bind ?r _] => destruct r as [[b i1]| | | |] end; onward.
  destruct b; [apply me_ret|]. eapply me_bind; [apply me_zorich|]. destruct (zorich sample_lens i1 s) as [[[f i2] s2]| | | |]; onward.
  destruct f; [apply me_ret|]. eapply me_bind; [apply me_swap|]. cbn beta iota. eapply me_bind; [apply me_zorich|].
  destruct (zorich sample_lens (iet_swap i2) s2) as [[[f i3] s3]| | | |]; onward. eapply me_bind; [apply me_swap|]. cbn beta iota.
  destruct f; [apply me_ret|]. destruct (n =? INT_MAX)%Z; [apply (me_pure UB)|]. apply IH.
Qed.

Lemma me_finish found i s : means (t_finish j l found) i s (induce_finish sample_lens found i s).
Proof.
  unfold t_finish, induce_finish. eapply me_bind; [apply me_reduce|]. cbn [li_base sample_lens].
  destruct (reduce i s) as [[[r|] i1]| | | |]; onward; (eapply me_bind; [apply me_this|]; cbn beta iota; change (i_top (set_saf i1 None)) with (i_top i1); change (i_bottom (set_saf i1 None)) with (i_bottom i1)).
  - destruct (rev (i_bottom i1)); [ub|]. destruct (rev (i_top i1)); [ub|]. apply me_ret.
  - destruct (i_top i1) as [|a X] eqn:Ea; [ub|]. destruct (i_bottom i1) as [|b Y] eqn:Eb; [ub|].
    eapply me_bind; [apply me_look|]. cbn beta. cbn [li_cmp2 sample_lens]. destruct (sl_cmp2 s a b) as [c| | | |]; onward.
    assert (Go : means (_ <- tpure (assert_ (negb found) (Ok tt)) ;;; z <- t_bosh_no_periodic j l ;;;
        Returned (A := istep T) (mkistep (if (z : bool) then WITHOUT_PERIODIC_TRAJECTORY_BOSHERNITZAN else LIMIT_REACHED) None None)) i1 s
      (assert_ (negb found) ('(z, i) <- bosh_no_periodic i1 s ;; Ok (mkistep (if (z : bool) then WITHOUT_PERIODIC_TRAJECTORY_BOSHERNITZAN else LIMIT_REACHED) None None, i, s)))).
    { eapply me_bind; [apply me_pure|]. destruct found; onward. cbn [negb assert_ bind]. eapply me_bind; [apply me_bosh|].
      destruct (bosh_no_periodic i1 s) as [[z i2]| | | |]; onward. }
    destruct c; [|exact Go..]. eapply me_bind; [apply me_pure|].
    assert (M : match merge_first (set_saf i1 None) with Ok x => merge_first i1 = Ok (set_saf x (i_saf i1)) | e => merge_first i1 = e end).
    { unfold merge_first. cbn [set_saf i_top i_bottom i_swap i_trk i_saf]. rewrite Ea, Eb. destruct (split_at a Y) as [[p q]|]; reflexivity. }
    destruct (merge_first (set_saf i1 None)) as [x| | | |]; rewrite M; onward. eapply me_bind; [apply me_put|]. cbn beta iota. reflexivity.
Qed.

Lemma me_induce fuel limit i s : means (t_induce j l fuel limit) i s (induce sample_lens fuel limit i s).
Proof.
  unfold t_induce, induce. eapply me_bind; [apply me_this|]. cbn beta iota. change (i_size (set_saf i None)) with (i_size i). destruct (i_size i =? 1); [apply me_ret|].
  eapply me_bind.
  - instantiate (1 := if (limit =? 0)%Z then Ok (Some false, i, s) else '(z, i) <- iet_saf0 i s ;; induce_loop sample_lens fuel z limit 0 i s).
    destruct (limit =? 0)%Z; [apply me_ret|]. eapply me_bind; [apply me_saf0|]. destruct (iet_saf0 i s) as [[z i1]| | | |]; onward. apply me_loop.
  - cbn [li_base sample_lens]. match goal with |- match ?r with _ => _ end => destruct r as [[[[f|] i1] s1]| | | |] end; onward; apply me_finish.
Qed.

Lemma me_call o i s : means (t_call j l o) i s ('(a, i, extra, s) <- call o i s ;; Ok ((a, extra), i, s)).
Proof.
  destruct o; cbn [t_call call].
  - eapply me_bind; [apply me_swap|]. cbn beta iota. reflexivity.
  - eapply me_bind; [apply me_zorich|]. destruct (zorich sample_lens i s) as [[[f i1] s1]| | | |]; onward.
  - eapply me_bind; [apply me_reduce|]. destruct (reduce i s) as [[[r|] i1]| | | |]; onward.
  - eapply me_bind; [apply me_induce|]. destruct (induce sample_lens fuel limit i s) as [[[st i1] s1]| | | |]; onward.
  - eapply me_bind; [apply me_saf_invariant|]. destruct (saf_invariant i s) as [[v i1]| | | |]; onward.
  - eapply me_bind; [apply me_bosh|]. destruct (bosh_no_periodic i s) as [[v i1]| | | |]; onward.
  - eapply me_bind; [apply me_saddle|]. destruct (bosh_no_saddle i s) as [v| | | |]; onward.
  - eapply me_bind; [apply me_saddle2|]. destruct (bosh_no_saddle2 i s t b) as [v| | | |]; onward.
Qed.

End One.

Lemma me_calls j l m0 (Hj : j < length (m_iets m0)) (Hl : l < length (m_lens m0)) os : forall i s, means j l m0 (t_calls j l os) i s (calls os i s).
Proof.
  induction os as [|o os IH]; intros i s; cbn [t_calls calls]; [apply me_ret|]. eapply me_bind; [apply me_call; assumption|].
  destruct (call o i s) as [[[[a i1] extra] s1]| | | |]; cbn [bind stop_of]; try reflexivity.
  eapply me_bind; [apply IH|]. destruct (calls os i1 s1) as [[[rest i2] s2]| | | |]; cbn [bind stop_of]; reflexivity.
Qed.

(** ** The accesses of calls *)

Inductive within {A} (P : location -> bool -> Prop) : thread T A -> Prop :=
| w_returned a : within P (Returned a)
| w_stopped e : within P (Stopped e)
| w_next B (x : action T B) k : (forall y w, In (y, w) (accesses x) -> P y w) -> (forall b, within P (k b)) -> within P (Next x k).

Lemma within_touches {A} P (t : thread T A) : within P t -> forall m, touches P t m.
Proof.
  induction 1 as [a|e|B x k Ha H IH]; intro m; [exact I|exact I|]. cbn [touches]. split; [exact Ha|]. destruct (perform x m) as [[b m']| | | |]; [apply IH|exact I..].
Qed.

Lemma w_bind {A B} P (t : thread T A) (f : A -> thread T B) : within P t -> (forall a, within P (f a)) -> within P (tbind t f).
Proof. induction 1 as [a|e|C x k Ha H IH]; intro G; cbn [tbind]; [apply G|constructor|]. constructor; [exact Ha|]. intro b. apply IH, G. Qed.

Lemma w_pure {A} P (r : res A) : within P (tpure (T := T) r).
Proof. destruct r; constructor. Qed.

Lemma w_act {B} (P : location -> bool -> Prop) (x : action T B) : (forall y w, In (y, w) (accesses x) -> P y w) -> within P (act x).
Proof. intro H. constructor; [exact H|]. intro b. constructor. Qed.

Definition owned (j l : nat) (x : location) (w : bool) : Prop := x = L_rows j \/ x = L_cache j \/ x = L_lens l.

Ltac own := let y := fresh in let w := fresh in let H := fresh in intros y w [H|[]]; injection H as <- <-; unfold owned; auto.
Ltac walk := repeat first
  [ assumption
  | apply w_returned | apply w_pure
  | apply w_act; own
  | apply w_bind; [|intro]
  | match goal with
    | |- within _ (if ?c then _ else _) => destruct c
    | |- within _ (match ?c with _ => _ end) => destruct c
    end ].

Lemma w_zloop j l a rest : forall rpre, within (owned j l) (t_zloop l a rpre rest).
Proof. induction rest as [|b rest IH]; intro rpre; cbn [t_zloop]; unfold t_look; walk; apply IH. Qed.
Lemma w_zorich j l : within (owned j l) (t_zorich j l).
Proof. unfold t_zorich, t_this, t_put, t_look. pose proof (w_zloop j l) as Z. walk. apply Z. Qed.
Lemma w_saf_sum j l cs : forall ts, within (owned j l) (t_saf_sum j cs ts).
Proof. induction cs as [|c cs IH]; intros [|t ts]; cbn [t_saf_sum]; unfold t_cached; walk. apply IH. Qed.
Lemma w_saf j l : within (owned j l) (t_saf j l).
Proof. unfold t_saf, t_this, t_look, t_cached. pose proof (w_saf_sum j l) as Z. cbv zeta. walk; apply Z. Qed.
Lemma w_saf0 j l : within (owned j l) (t_saf0 j l).
Proof. unfold t_saf0. pose proof (w_saf j l). walk. Qed.
Lemma w_bosh j l : within (owned j l) (t_bosh_no_periodic j l).
Proof. unfold t_bosh_no_periodic, t_this, t_look. pose proof (w_saf0 j l). walk. Qed.
Lemma w_saddle2 j l t b : within (owned j l) (t_bosh_no_saddle2 j l t b).
Proof. unfold t_bosh_no_saddle2, t_this, t_look. walk. Qed.
Lemma w_all {A} P (f : A -> thread T bool) xs : (forall x, within P (f x)) -> within P (t_all f xs).
Proof. intro H. induction xs as [|x xs IH]; cbn [t_all]; [constructor|]. apply w_bind; [apply H|]. intros []; [exact IH|constructor]. Qed.
Lemma w_saddle j l : within (owned j l) (t_bosh_no_saddle j l).
Proof. unfold t_bosh_no_saddle, t_this. walk. apply w_all. intro. apply w_saddle2. Qed.
Lemma w_reduce j l : within (owned j l) (t_reduce j l).
Proof. unfold t_reduce, t_this, t_put, t_look. cbv zeta. walk. Qed.
Lemma w_similar j l k top : within (owned j l) (t_similar l k top).
Proof. induction top as [|a [|b top] IH]; [constructor|constructor|]. cbn [t_similar]. unfold t_look. apply w_bind; [walk|]. intros []; [exact IH|constructor]. Qed.
Lemma w_tracker j l : within (owned j l) (t_tracker j l).
Proof. unfold t_tracker, t_this, t_put, t_look. cbv zeta. pose proof (w_similar j l) as Z. walk. apply Z. Qed.
Lemma w_swap j l : within (owned j l) (t_swap j).
Proof. unfold t_swap, t_this, t_put. walk. Qed.
Lemma w_loop j l saf0 limit fuel : forall n, within (owned j l) (t_loop j l fuel saf0 limit n).
Proof.
  pose proof (w_saf j l). pose proof (w_tracker j l). pose proof (w_zorich j l). pose proof (w_swap j l).
  induction fuel as [|fuel IH]; intro n; cbn [t_loop]; walk. apply IH.
Qed.
Lemma w_finish j l found : within (owned j l) (t_finish j l found).
Proof. pose proof (w_reduce j l). pose proof (w_bosh j l). unfold t_finish, t_this, t_put, t_look. walk. Qed.
Lemma w_induce j l fuel limit : within (owned j l) (t_induce j l fuel limit).
Proof. pose proof (w_saf0 j l). pose proof (w_loop j l) as Z. pose proof (w_finish j l) as Y. unfold t_induce, t_this. walk; first [apply Z|apply Y]. Qed.
Lemma w_call j l o : within (owned j l) (t_call j l o).
Proof.
  destruct o; cbn [t_call]; apply w_bind; try (intro; constructor).
  - apply w_swap.
  - apply w_zorich.
  - apply w_reduce.
  - apply w_induce.
  - unfold t_saf_invariant, t_this. pose proof (w_saf j l). walk.
  - apply w_bosh.
  - apply w_saddle.
  - apply w_saddle2.
Qed.
Lemma w_calls j l os : within (owned j l) (t_calls j l os).
Proof. induction os as [|o os IH]; cbn [t_calls]; [constructor|]. apply w_bind; [apply w_call|]. intro a. apply w_bind; [exact IH|]. intro. constructor. Qed.

(** ** The accesses of queries *)

Definition looking (U : list (nat * nat)) (x : location) (w : bool) : Prop :=
  w = false /\ exists j l, In (j, l) U /\ (x = L_rows j \/ x = L_cache j \/ x = L_lens l).

Lemma touches_mono {A} (P Q : location -> bool -> Prop) (t : thread T A) : (forall x w, P x w -> Q x w) -> forall m, touches P t m -> touches Q t m.
Proof.
  intro H. induction t as [a|e|B x k IH]; intros m; cbn [touches]; [auto|auto|]. intros (Ha & G). split; [auto|]. destruct (perform x m) as [[b m']| | | |]; [apply IH, G|exact I..].
Qed.

Lemma within_mono {A} (P Q : location -> bool -> Prop) (t : thread T A) : (forall x w, P x w -> Q x w) -> within P t -> within Q t.
Proof. intros H. induction 1 as [a|e|B x k Ha G IH]; constructor; auto. Qed.

Lemma looking_mono U V : incl U V -> forall x w, looking U x w -> looking V x w.
Proof. intros H x w (E & j & l & I & D). split; [exact E|]. exists j, l. auto. Qed.

Lemma looking_reads U x w : looking U x w -> reads x w.
Proof. intros (E & _). exact E. Qed.

Lemma exec_reads {A} (t : thread T A) : forall m a m', touches reads t m -> exec t m = Ok (a, m') -> m' = m.
Proof.
  induction t as [b|e|B x k IH]; intros m a m' H E; cbn [exec touches] in *; [congruence|destruct e as [[]| | | |]; discriminate|]. destruct H as (Ha & H).
  destruct (perform x m) as [[b m1]| | | |] eqn:Ex; try discriminate. rewrite (perform_reads _ _ _ _ Ha Ex) in *. exact (IH b m a m' H E).
Qed.

Ltac see := let y := fresh in let w := fresh in let H := fresh in intros y w [H|[]]; injection H as <- <-; split; [reflexivity|]; do 2 eexists; split; [|auto]; cbn; eauto.
Ltac stroll := repeat first
  [ assumption
  | apply w_returned | apply w_pure
  | apply w_act; see
  | apply w_bind; [|intro]
  | match goal with
    | |- within _ (if ?c then _ else _) => destruct c
    | |- within _ (match ?c with _ => _ end) => destruct c
    end ].

Lemma l_saddle2 j l t b : within (looking [(j, l)]) (t_bosh_no_saddle2 j l t b).
Proof. unfold t_bosh_no_saddle2, t_this, t_look. stroll. Qed.
Lemma l_saddle j l : within (looking [(j, l)]) (t_bosh_no_saddle j l).
Proof. unfold t_bosh_no_saddle, t_this. stroll. apply w_all. intro. apply l_saddle2. Qed.
Lemma l_same_lengths j l j' l' ls : within (looking [(j, l); (j', l')]) (t_same_lengths l l' ls).
Proof. induction ls as [|c ls IH]; cbn [t_same_lengths]; unfold t_look; stroll. Qed.
Lemma l_eqb j l j' l' : within (looking [(j, l); (j', l')]) (t_eqb j l j' l').
Proof. unfold t_eqb, t_this. pose proof (l_same_lengths j l j' l') as Z. stroll. apply Z. Qed.
Lemma l_lengths j l U ls : In (j, l) U -> within (looking U) (t_lengths l ls).
Proof. intro H. induction ls as [|c ls IH]; cbn [t_lengths]; stroll. Qed.
Lemma l_equivalent j l j' l' : within (looking [(j, l); (j', l')]) (t_equivalent j l j' l').
Proof.
  unfold t_equivalent, t_this. pose proof (fun ls => l_lengths j l [(j, l); (j', l')] ls (or_introl eq_refl)) as Z. pose proof (fun ls => l_lengths j' l' [(j, l); (j', l')] ls (or_intror (or_introl eq_refl))) as Y.
  stroll; first [apply Z|apply Y].
Qed.

Lemma l_saf j l m i v : nth_error (m_iets m) j = Some i -> i_saf i = Some v -> touches (looking [(j, l)]) (t_saf j l) m.
Proof.
  intros E S. unfold t_saf. apply touches_bind; [apply touches_act; see|]. intros a m' Q. rewrite exec_act in Q. cbn [perform] in Q. unfold on_iet_at in Q. rewrite E in Q. cbn [bind] in Q. injection Q as <- <-. rewrite S. exact I.
Qed.

Lemma l_bosh j l m i v : nth_error (m_iets m) j = Some i -> i_saf i = Some v -> touches (looking [(j, l)]) (t_bosh_no_periodic j l) m.
Proof.
  intros E S. unfold t_bosh_no_periodic, t_saf0. apply touches_bind.
  - apply touches_bind; [exact (l_saf j l m i v E S)|]. intros. exact I.
  - intros z m' _. apply within_touches. unfold t_this, t_look. stroll.
Qed.

Lemma l_query j l q m : ready m (j, l, q) -> touches (looking (reads_of (j, l, q))) (t_query j l q) m.
Proof.
  intros (_ & H). destruct q; cbn [t_query reads_of wants_saf snd fst] in *.
  1: apply within_touches; unfold t_this; stroll.
  1: destruct (H eq_refl) as (i & v & E & S); apply touches_bind; [unfold t_saf_invariant; apply touches_bind; [exact (l_saf j l m i v E S)|intros; apply within_touches; unfold t_this; stroll]|intros; exact I].
  1: destruct (H eq_refl) as (i & v & E & S); apply touches_bind; [exact (l_bosh j l m i v E S)|intros; exact I].
  all: apply within_touches.
  - apply w_bind; [apply l_saddle|intro; constructor].
  - apply w_bind; [apply l_saddle2|intro; constructor].
  - unfold t_this, t_look. stroll.
  - unfold t_this, t_look. stroll.
  - apply w_bind; [apply l_eqb|intro; constructor].
  - apply w_bind; [apply l_equivalent|intro; constructor].
Qed.

Lemma l_queries qs m : (forall x, In x qs -> ready m x) -> touches (looking (flat_map reads_of qs)) (t_queries qs) m.
Proof.
  induction qs as [|[[j l] q] qs IH]; intro H; cbn [t_queries flat_map]; [exact I|].
  pose proof (l_query j l q m (H _ (or_introl eq_refl))) as L. apply touches_bind.
  - apply (touches_mono (looking (reads_of (j, l, q)))); [apply looking_mono, incl_appl, incl_refl|exact L].
  - intros a m' E. rewrite (exec_reads _ _ _ _ (touches_mono _ _ _ (looking_reads _) _ L) E). apply touches_bind; [|intros; exact I].
    apply (touches_mono (looking (flat_map reads_of qs))); [apply looking_mono, incl_appr, incl_refl|]. apply IH. intros x Hx. apply H. right. exact Hx.
Qed.

(** ** The answers to queries *)

Lemma at_self j l m i s : nth_error (m_iets m) j = Some i -> nth_error (m_lens m) l = Some s -> at_mem j l m i s = m.
Proof. intros E S. unfold at_mem. rewrite (upd_self _ _ _ E), (upd_self _ _ _ S). destruct m; reflexivity. Qed.

Lemma exec_rows j m i : nth_error (m_iets m) j = Some i -> exec (act (a_rows j)) m = Ok (set_saf i None, m).
Proof. intro E. rewrite exec_act. cbn [perform]. unfold on_iet_at. rewrite E. cbn [bind]. rewrite (upd_self _ _ _ E). destruct m; reflexivity. Qed.
Lemma exec_look l m s {B} (f : slen T -> res B) : nth_error (m_lens m) l = Some s -> exec (act (a_look l f)) m = (b <- f s ;; Ok (b, m)).
Proof. intro E. rewrite exec_act. cbn [perform]. unfold on_lens_at. rewrite E. destruct (f s); cbn [bind]; try reflexivity. rewrite (upd_self _ _ _ E). destruct m; reflexivity. Qed.

Lemma exec_same_lengths l l' m s s' ls : nth_error (m_lens m) l = Some s -> nth_error (m_lens m) l' = Some s' ->
  exec (t_same_lengths l l' ls) m = (b <- same_lengths s s' ls ;; Ok (b, m)).
Proof.
  intros E E'. induction ls as [|c ls IH]; cbn [t_same_lengths same_lengths]; [reflexivity|]. rewrite exec_bind. unfold t_look. rewrite (exec_look _ _ _ _ E).
  destruct (sl_at s c) as [x| | | |]; cbn [bind stop_of]; try reflexivity. rewrite exec_bind, (exec_look _ _ _ _ E').
  destruct (sl_at s' c) as [y| | | |]; cbn [bind stop_of]; try reflexivity. destruct (l_cmp x y); [exact IH|reflexivity..].
Qed.

Lemma exec_lengths l m s ls : nth_error (m_lens m) l = Some s -> exec (t_lengths l ls) m = (b <- mapM (sl_at s) ls ;; Ok (b, m)).
Proof.
  intros E. induction ls as [|c ls IH]; cbn [t_lengths mapM]; [reflexivity|]. rewrite exec_bind, (exec_look _ _ _ _ E).
  destruct (sl_at s c) as [x| | | |]; cbn [bind stop_of]; try reflexivity. rewrite exec_bind, IH. destruct (mapM (sl_at s) ls); reflexivity.
Qed.

Lemma exec_query j l q m : ready m (j, l, q) -> exec (t_query j l q) m = (r <- ask m (j, l, q) ;; Ok (r, m)).
Proof.
  intros (R & H). destruct (R j l (or_introl eq_refl)) as (Lj & Ll). destruct (nth_error (m_iets m) j) as [i|] eqn:E; [|apply nth_error_None in E; lia].
  destruct (nth_error (m_lens m) l) as [s|] eqn:S; [|apply nth_error_None in S; lia]. pose proof (at_self j l m i s E S) as M. unfold ask. rewrite E, S.
  destruct q; cbn [t_query wants_saf snd fst] in *; rewrite exec_bind.
  - unfold t_this. rewrite (exec_rows _ _ _ E). reflexivity.
  - destruct (H eq_refl) as (i0 & v & E0 & V). assert (i0 = i) by congruence. subst i0. pose proof (me_saf_invariant j l m Lj Ll i s) as Q. unfold means in Q. rewrite M in Q. rewrite Q.
    unfold saf_invariant, iet_saf. rewrite V. cbn [bind lift]. rewrite M. reflexivity.
  - destruct (H eq_refl) as (i0 & v & E0 & V). assert (i0 = i) by congruence. subst i0. pose proof (me_bosh j l m Lj Ll i s) as Q. unfold means in Q. rewrite M in Q. rewrite Q.
    unfold bosh_no_periodic, iet_saf0, iet_saf. rewrite V. cbn [bind]. destruct (vis0 v); [cbn [bind lift]; rewrite M; reflexivity|]. destruct (i_size i <=? 1); [cbn [bind lift]; rewrite M; reflexivity|].
    destruct (bosh_equations i s) as [eqs| | | |]; cbn [bind lift stop_of]; try reflexivity. destruct (ras_equations eqs (vzero (length eqs))) as [r| | | |]; cbn [bind lift stop_of]; try reflexivity.
    destruct (nznn r) as [b| | | |]; cbn [bind lift stop_of]; try reflexivity. rewrite M. reflexivity.
  - pose proof (me_saddle j l m Lj Ll i s) as Q. unfold means in Q. rewrite M in Q. rewrite Q. destruct (bosh_no_saddle i s) as [b| | | |]; cbn [bind lift stop_of]; try reflexivity. rewrite M. reflexivity.
  - pose proof (me_saddle2 j l m Lj Ll t b i s) as Q. unfold means in Q. rewrite M in Q. rewrite Q. destruct (bosh_no_saddle2 i s t b) as [x| | | |]; cbn [bind lift stop_of]; try reflexivity. rewrite M. reflexivity.
  - unfold t_this. rewrite (exec_rows _ _ _ E), exec_bind. unfold t_look. rewrite (exec_look _ _ _ _ S). change (bosh_equations (set_saf i None) s) with (bosh_equations i s). destruct (bosh_equations i s); reflexivity.
  - unfold t_this. rewrite (exec_rows _ _ _ E), exec_bind. unfold t_look. rewrite (exec_look _ _ _ _ S). change (bosh_values (set_saf i None) s t b) with (bosh_values i s t b). destruct (bosh_values i s t b); reflexivity.
  - destruct (R j0 l0 (or_intror (or_introl eq_refl))) as (Lj' & Ll'). destruct (nth_error (m_iets m) j0) as [i'|] eqn:E'; [|apply nth_error_None in E'; lia].
    destruct (nth_error (m_lens m) l0) as [s'|] eqn:S'; [|apply nth_error_None in S'; lia]. unfold t_eqb, t_this. rewrite exec_bind, (exec_rows _ _ _ E), exec_bind, (exec_rows _ _ _ E').
    unfold iet_eqb. cbn [set_saf i_top i_bottom]. destruct ((if list_eq_dec Nat.eq_dec (i_top i) (i_top i') then true else false) && (if list_eq_dec Nat.eq_dec (i_bottom i) (i_bottom i') then true else false)); [|reflexivity].
    rewrite (exec_same_lengths l l0 m s s' _ S S'). destruct (same_lengths s s' (i_top i)); reflexivity.
  - destruct (R j0 l0 (or_intror (or_introl eq_refl))) as (Lj' & Ll'). destruct (nth_error (m_iets m) j0) as [i'|] eqn:E'; [|apply nth_error_None in E'; lia].
    destruct (nth_error (m_lens m) l0) as [s'|] eqn:S'; [|apply nth_error_None in S'; lia]. unfold t_equivalent, t_this. rewrite exec_bind, (exec_rows _ _ _ E), exec_bind, (exec_rows _ _ _ E').
    unfold iet_equivalent. change (i_size (set_saf i None)) with (i_size i). change (i_size (set_saf i' None)) with (i_size i'). cbn [set_saf i_top i_bottom].
    destruct (negb (i_size i =? i_size i')); [reflexivity|]. match goal with |- context [negb ?c] => destruct (negb c) end; [reflexivity|].
    rewrite exec_bind, (exec_lengths _ _ _ _ S). destruct (mapM (sl_at s) (i_top i)) as [u| | | |]; cbn [bind stop_of]; try reflexivity.
    rewrite exec_bind, (exec_lengths _ _ _ _ S'). destruct (mapM (sl_at s') (i_top i')); reflexivity.
Qed.

Lemma exec_queries qs m : (forall x, In x qs -> ready m x) -> exec (t_queries qs) m = (r <- mapM (ask m) qs ;; Ok (r, m)).
Proof.
  induction qs as [|[[j l] q] qs IH]; intro H; cbn [t_queries mapM]; [reflexivity|]. rewrite exec_bind, (exec_query j l q m (H _ (or_introl eq_refl))).
  destruct (ask m (j, l, q)) as [r| | | |]; cbn [bind stop_of]; try reflexivity. rewrite exec_bind, IH by (intros x Hx; apply H; right; exact Hx). destruct (mapM (ask m) qs); reflexivity.
Qed.

End ParProof.
