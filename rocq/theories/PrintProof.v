(** Proofs about [Print]: codes that delimit themselves. *)
From Coq Require Import String Ascii NArith DecimalString DecimalN DecimalPos DecimalZ DecimalFacts ZArith Reals Permutation.
From Verif Require Import Base QcTac LenT FM Subspace Lengths IET Decomp Misc Print Spec Api DecApi.
From Verif Require Import DecompInv DecompRef DecompStep DecompAll DecompCons DecompBudget ClaimsMisc ClaimsDecomp.
Open Scope nat_scope.

(** The end of the encoding of a value can be recognized when it is followed by a text
    with [Q]. *)
Definition delim {A} (enc : A -> text) (R : A -> A -> Prop) (Q : text -> Prop) : Prop :=
  forall a b x y, Q x -> Q y -> enc a ++ x = enc b ++ y -> R a b /\ x = y.

Definition anything (x : text) : Prop := True.

Lemma join_cons sep a l : join sep (a :: l) = a ++ match l with [] => [] | _ => sep ++ join sep l end.
Proof. destruct l; [symmetry; apply app_nil_r|reflexivity]. Qed.

Lemma join_delim {A} (enc : A -> text) R (Q1 Q : text -> Prop) sep : delim enc R Q1 ->
  (forall z, Q1 (sep ++ z)) -> (forall x, Q x -> Q1 x) ->
  (forall x b z, Q x -> x <> enc b ++ z) -> (forall x b z, Q x -> x <> sep ++ enc b ++ z) ->
  delim (fun l => join sep (map enc l)) (Forall2 R) Q.
Proof.
  intros D Hsep Hq Hb Hs. unfold delim.
  assert (J : forall a l x, Q x -> Q1 (match map enc l with [] => [] | _ => sep ++ join sep (map enc l) end ++ x) /\
    join sep (map enc (a :: l)) ++ x = enc a ++ (match map enc l with [] => [] | _ => sep ++ join sep (map enc l) end ++ x)).
  { intros a l x Hx. cbn [map]. rewrite join_cons, <- app_assoc. split; [|reflexivity]. destruct l; [apply Hq, Hx|]. cbn [map]. rewrite <- app_assoc. apply Hsep. }
  induction a as [|a l IH]; intros [|b l'] x y Hx Hy E.
  - cbn in E. auto.
  - destruct (J b l' y Hy) as [_ Eb]. rewrite Eb in E. cbn in E. exfalso. exact (Hb _ _ _ Hx E).
  - destruct (J a l x Hx) as [_ Eb]. rewrite Eb in E. cbn in E. exfalso. exact (Hb _ _ _ Hy (eq_sym E)).
  - destruct (J a l x Hx) as [Q2 Ea], (J b l' y Hy) as [Q3 Eb]. rewrite Ea, Eb in E.
    destruct (D _ _ _ _ Q2 Q3 E) as [R1 E1]. clear Ea Eb E Q2 Q3.
    destruct l as [|c l], l' as [|c' l'].
    + cbn in E1. split; [constructor; [exact R1|constructor]|exact E1].
    + cbn [map app] in E1. exfalso. destruct (J c' l' y Hy) as [_ Eb]. rewrite <- app_assoc in E1. cbn [map] in Eb. rewrite Eb in E1. exact (Hs _ _ _ Hx E1).
    + cbn [map app] in E1. exfalso. destruct (J c l x Hx) as [_ Eb]. rewrite <- app_assoc in E1. cbn [map] in Eb. rewrite Eb in E1. exact (Hs _ _ _ Hy (eq_sym E1)).
    + cbn [map] in E1. rewrite <- !app_assoc in E1. apply app_inv_head in E1.
      destruct (IH (c' :: l') x y Hx Hy E1) as [R2 E2]. split; [constructor; assumption|exact E2].
Qed.

(** A text up to the first character that does not have [P]. *)
Lemma until (P : ascii -> Prop) : forall a b c c' x y, Forall P a -> Forall P b -> ~ P c -> ~ P c' ->
  a ++ c :: x = b ++ c' :: y -> a = b /\ c = c' /\ x = y.
Proof.
  induction a as [|u a IH]; intros [|v b] c c' x y Ha Hb Hc Hc' E; cbn in E; injection E as E1 E2.
  - auto.
  - subst. inversion Hb. contradiction.
  - subst. inversion Ha. contradiction.
  - inversion Ha; inversion Hb; subst. destruct (IH b c c' x y) as (-> & -> & ->); auto.
Qed.

Definition nm (l : label) : text := match name l with Ok t => t | _ => [] end.

Lemma nm_ok l : name l = Ok (nm l) /\ Forall is_letter (nm l) /\ name_value (nm l) = N.of_nat l.
Proof. unfold nm, name. destruct (render_name (N.of_nat l)) as (x & E & _ & V & F). rewrite E. auto. Qed.

Lemma nm_until l l' c c' x y : ~ is_letter c -> ~ is_letter c' -> nm l ++ c :: x = nm l' ++ c' :: y -> l = l' /\ c = c' /\ x = y.
Proof.
  intros Hc Hc' E. destruct (nm_ok l) as (_ & F & V), (nm_ok l') as (_ & F' & V').
  destruct (until _ _ _ _ _ _ _ F F' Hc Hc' E) as (E1 & -> & ->). rewrite E1, V' in V. apply Nat2N.inj in V. auto.
Qed.

Ltac noletter := let H := fresh in intro H; unfold is_letter in H; vm_compute in H; destruct H as [[H1 H2]|[H1 H2]]; first [now apply H1|now apply H2].

(** ** Rows of an IET *)

Definition enc_top (p : label * text) : text := txt "[" ++ nm (fst p) ++ txt ": " ++ snd p ++ txt "]".
Definition enc_bottom (l : label) : text := txt "[" ++ nm l ++ txt "]".

Definition plain (x : text) : Prop := ~ In "]"%char x.

Lemma plain_forall x : plain x -> Forall (fun c => c <> "]"%char) x.
Proof. intro H. apply Forall_forall. intros c Hc ->. exact (H Hc). Qed.

Lemma bottom_delim : delim enc_bottom eq anything.
Proof.
  intros a b x y _ _ E. unfold enc_bottom in E. cbn [txt list_ascii_of_string app] in E. injection E as E.
  rewrite <- !app_assoc in E. cbn [app] in E. apply nm_until in E as (-> & _ & ->); [auto|noletter|noletter].
Qed.

Lemma Forall2_eq {A} (l l' : list A) : Forall2 eq l l' -> l = l'.
Proof. induction 1; congruence. Qed.

Lemma bottoms_delim : forall l l', join (txt " ") (map enc_bottom l) = join (txt " ") (map enc_bottom l') -> l = l'.
Proof.
  intros l l' E.
  assert (D : delim (fun l => join (txt " ") (map enc_bottom l)) (Forall2 eq) (fun x => x = [])).
  { apply (join_delim _ _ anything).
    - exact bottom_delim.
    - intro; exact I.
    - intros ? _. exact I.
    - intros x b z -> Q. discriminate.
    - intros x b z -> Q. discriminate. }
  destruct (D l l' [] []) as [F _]; [reflexivity|reflexivity|rewrite !app_nil_r; exact E|]. exact (Forall2_eq _ _ F).
Qed.

(** Pairs whose second part does not contain a bracket. *)
Definition ptop := { p : label * text | plain (snd p) }.

Lemma top_delim : delim (fun p : ptop => enc_top (proj1_sig p)) (fun p q => proj1_sig p = proj1_sig q) anything.
Proof.
  intros [[a s] Hs] [[b t] Ht] x y _ _ E. cbn [proj1_sig snd] in *. unfold enc_top in E. cbn [fst snd txt list_ascii_of_string app] in E. injection E as E.
  rewrite <- !app_assoc in E. cbn [app] in E. apply nm_until in E as (-> & _ & E); [|noletter|noletter].
  injection E as E. rewrite <- !app_assoc in E. cbn [app] in E.
  apply (until (fun c => c <> "]"%char)) in E as (-> & _ & ->); auto using plain_forall.
Qed.

Lemma lift_top (l : list (label * text)) : Forall (fun p => plain (snd p)) l -> exists l' : list ptop, map (@proj1_sig _ _) l' = l.
Proof. induction 1 as [|p l Hp _ [l' IH]]; [exists []; reflexivity|]. exists (exist _ p Hp :: l'). cbn. rewrite IH. reflexivity. Qed.

Lemma tops_delim l l' x y : Forall (fun p => plain (snd p)) l -> Forall (fun p => plain (snd p)) l' ->
  join (txt " ") (map enc_top l) ++ txt " / " ++ x = join (txt " ") (map enc_top l') ++ txt " / " ++ y -> l = l' /\ x = y.
Proof.
  intros (m & <-)%lift_top (m' & <-)%lift_top E.
  assert (D : delim (fun l => join (txt " ") (map (fun p : ptop => enc_top (proj1_sig p)) l)) (Forall2 (fun p q => proj1_sig p = proj1_sig q)) (fun x => exists z, x = txt " / " ++ z)).
  { apply (join_delim _ _ anything).
    - exact top_delim.
    - intro; exact I.
    - intros ? _. exact I.
    - intros u b z [w ->] Q. discriminate.
    - intros u b z [w ->] Q. discriminate. }
  rewrite !map_map in E.
  destruct (D m m' (txt " / " ++ x) (txt " / " ++ y)) as [F E1]; [eauto|eauto|exact E|].
  apply app_inv_head in E1. split; [|exact E1]. apply Forall2_eq. clear -F. induction F; constructor; assumption.
Qed.

Section PrintIET.
Context {T : Type} {O : LenOps T} {W : LenLaws T} (show : T -> text).

Lemma print_iet_ok (i : iet T) (s : slen T) (f : label -> T) : (forall l, In l (i_top i) -> sl_at s l = Ok (f l)) ->
  print_iet show i s = Ok (join (txt " ") (map enc_top (map (fun l => (l, show (f l))) (i_top i))) ++ txt " / " ++ join (txt " ") (map enc_bottom (i_bottom i))).
Proof.
  intro H. unfold print_iet.
  assert (E1 : mapM (fun l => n <- name l ;; x <- sl_at s l ;; Ok (txt "[" ++ n ++ txt ": " ++ show x ++ txt "]")) (i_top i) = Ok (map enc_top (map (fun l => (l, show (f l))) (i_top i)))).
  { revert H. generalize (i_top i) as l. induction l as [|a l IH]; intro H; [reflexivity|]. cbn [mapM map].
    destruct (nm_ok a) as (E & _). rewrite E. cbn [bind]. rewrite (H a (or_introl eq_refl)). cbn [bind]. rewrite IH by (intros; apply H; right; assumption). reflexivity. }
  assert (E2 : mapM (fun l => n <- name l ;; Ok (txt "[" ++ n ++ txt "]")) (i_bottom i) = Ok (map enc_bottom (i_bottom i))).
  { generalize (i_bottom i) as l. induction l as [|a l IH]; [reflexivity|]. cbn [mapM map].
    destruct (nm_ok a) as (E & _). rewrite E. cbn [bind]. rewrite IH. reflexivity. }
  rewrite E1. cbn [bind]. rewrite E2. reflexivity.
Qed.

Lemma print_iet_at (i : iet T) (s : slen T) t l : print_iet show i s = Ok t -> In l (i_top i) -> exists x, sl_at s l = Ok x.
Proof.
  unfold print_iet. intros (top & E & _)%bind_ok Hl. revert top E. induction (i_top i) as [|a r IH]; [contradiction|]. intros top E.
  cbn [mapM] in E. apply bind_ok in E as (y & E1 & E). apply bind_ok in E as (ys & E2 & E). destruct Hl as [->|Hl]; [|eauto].
  apply bind_ok in E1 as (n & _ & E1). apply bind_ok in E1 as (x & E1 & _). eauto.
Qed.

Lemma sl_value (s : slen T) (d : T) l x : sl_at s l = Ok x -> sl_at s l = Ok (match sl_at s l with Ok x => x | _ => d end).
Proof. intros ->. reflexivity. Qed.

Lemma print_iet_inj (i i' : iet T) (s s' : slen T) t : (forall x, plain (show x)) -> (forall x y, show x = show y -> x = y) ->
  print_iet show i s = Ok t -> print_iet show i' s' = Ok t ->
  i_top i = i_top i' /\ i_bottom i = i_bottom i' /\ forall l, In l (i_top i) -> sl_at s l = sl_at s' l.
Proof.
  intros Hp Hi E E'.
  set (f := fun l => match sl_at s l with Ok x => x | _ => l_zero end). set (f' := fun l => match sl_at s' l with Ok x => x | _ => l_zero end).
  assert (F : forall l, In l (i_top i) -> sl_at s l = Ok (f l)) by (intros l [x Hx]%(print_iet_at _ _ _ _ E); exact (sl_value _ _ _ _ Hx)).
  assert (F' : forall l, In l (i_top i') -> sl_at s' l = Ok (f' l)) by (intros l [x Hx]%(print_iet_at _ _ _ _ E'); exact (sl_value _ _ _ _ Hx)).
  rewrite (print_iet_ok _ _ f F) in E. rewrite (print_iet_ok _ _ f' F') in E'. injection E as E. injection E' as E'. rewrite <- E' in E.
  apply tops_delim in E as [E1 E2].
  - assert (Et : i_top i = i_top i').
    { apply (f_equal (map fst)) in E1. rewrite !map_map in E1. cbn [fst] in E1. rewrite !map_id in E1. exact E1. }
    split; [exact Et|]. split; [apply bottoms_delim; exact E2|].
    intros l Hl. rewrite (F l Hl), (F' l) by (rewrite <- Et; exact Hl). f_equal. apply Hi.
    rewrite <- Et in E1. pose proof (proj1 map_ext_in_iff E1 l Hl) as Q. cbv beta in Q. congruence.
  - apply Forall_forall. intros p (l & <- & _)%in_map_iff. apply Hp.
  - apply Forall_forall. intros p (l & <- & _)%in_map_iff. apply Hp.
Qed.

End PrintIET.

(** ** Labels *)

Lemma list_of_string_inj (a b : string) : list_ascii_of_string a = list_ascii_of_string b -> a = b.
Proof. intro H. rewrite <- (string_of_list_ascii_of_string a), <- (string_of_list_ascii_of_string b), H. reflexivity. Qed.

Lemma print_label_inj a b : print_label a = print_label b -> a = b.
Proof.
  unfold print_label, txt. intro H. apply app_inv_head in H. apply app_inv_tail in H. apply list_of_string_inj in H.
  apply (f_equal NilZero.uint_of_string) in H. rewrite !NilZero.usu in H by (intro Q; match type of Q with N.to_uint ?n = _ => destruct n; [discriminate Q|exact (DecimalPos.Unsigned.to_uint_nonnil _ Q)] end).
  injection H as H. apply DecimalN.Unsigned.to_uint_inj in H. apply Nat2N.inj, H.
Qed.

(** ** Integers *)

Lemma show_Z_inj a b : show_Z a = show_Z b -> a = b.
Proof.
  unfold show_Z, txt. intro H. apply list_of_string_inj in H. apply (f_equal NilZero.int_of_string) in H.
  assert (N : forall z, Z.to_int z <> Decimal.Pos Decimal.Nil /\ Z.to_int z <> Decimal.Neg Decimal.Nil).
  { intros [|p|p]; cbn; (split; [|]); intro Q; try discriminate; injection Q as Q; exact (DecimalPos.Unsigned.to_uint_nonnil _ Q). }
  rewrite !NilZero.isi in H by apply N. injection H as H. apply DecimalZ.to_int_inj, H.
Qed.

Lemma show_Z_plain z : plain (show_Z z).
Proof.
  assert (U : forall d, ~ In "]"%char (list_ascii_of_string (NilEmpty.string_of_uint d))).
  { induction d; cbn; intro Q; try contradiction; (destruct Q as [Q|Q]; [discriminate|exact (IHd Q)]). }
  assert (V : forall d, ~ In "]"%char (list_ascii_of_string (NilZero.string_of_uint d))).
  { intros [| | | | | | | | | |]; try exact (U _). cbn. intros [Q|[]]. discriminate. }
  unfold plain, show_Z, txt. destruct (Z.to_int z) as [d|d]; [exact (V d)|]. cbn. intros [Q|Q]; [discriminate|exact (V d Q)].
Qed.

(** ** Sides *)

Definition enc_sep (s : separatrix) : text := nm (sp_label s) ++ (if sep_parallel s then txt "+" else txt "-").
Definition enc_conn (k : connection) : text := txt "[" ++ enc_sep (cn_source k) ++ txt " ⚯ " ++ enc_sep (cn_target k) ++ txt "]".
Definition enc_side (x : side) : text :=
  match x with
  | SEdge e => (if he_top e then txt "-" else []) ++ txt "[" ++ nm (he_label e) ++ txt "]"
  | SConn k => enc_conn k
  end.

(** What is printed of a side: all but the number of the component. *)
Definition shown (x y : side) : Prop :=
  match x, y with
  | SConn k, SConn k' => k = k'
  | SEdge e, SEdge e' => he_label e = he_label e' /\ he_top e = he_top e'
  | _, _ => False
  end.

Lemma sep_char s : exists c, [] ++ (if sep_parallel s then txt "+" else txt "-") = [c] /\ ~ is_letter c /\ c <> "]"%char /\
  (c = "+"%char -> sp_orient s = PARALLEL) /\ (c = "-"%char -> sp_orient s = ANTIPARALLEL) /\ (c = "+"%char \/ c = "-"%char).
Proof.
  unfold sep_parallel. destruct (sp_orient s); cbn [orient_eqb]; eexists; (split; [reflexivity|]); (split; [noletter|]); (split; [discriminate|]);
    (split; [try discriminate; auto|]); (split; [try discriminate; auto|auto]).
Qed.

Lemma sep_delim : delim enc_sep eq anything.
Proof.
  intros a b x y _ _ E. unfold enc_sep in E. destruct (sep_char a) as (c & Ec & Lc & _ & P1 & P2 & Pc), (sep_char b) as (c' & Ec' & Lc' & _ & P1' & P2' & _).
  cbn [app] in Ec, Ec'. rewrite Ec, Ec', <- !app_assoc in E. cbn [app] in E. apply nm_until in E as (El & <- & ->); [|exact Lc|exact Lc'].
  split; [|reflexivity]. destruct a as [l o], b as [l' o']. cbn [sp_label sp_orient] in *. subst l'. f_equal. destruct Pc as [Pc|Pc]; [rewrite P1, P1'|rewrite P2, P2']; auto.
Qed.

Lemma conn_delim : delim enc_conn eq anything.
Proof.
  intros a b x y _ _ E. unfold enc_conn in E. rewrite <- !app_assoc in E. apply app_inv_head in E.
  apply sep_delim in E as [E1 E]; [|exact I|exact I]. apply app_inv_head in E. apply sep_delim in E as [E2 E]; [|exact I|exact I]. apply app_inv_head in E.
  destruct a, b. cbn in *. subst. auto.
Qed.

Lemma edge_conn (e : hedge) (k : connection) x y : enc_side (SEdge e) ++ x <> enc_side (SConn k) ++ y.
Proof.
  cbn [enc_side]. unfold enc_conn, enc_sep. destruct (sep_char (cn_source k)) as (c & Ec & Lc & Nc & _). cbn [app] in Ec. rewrite Ec.
  intro E. rewrite <- !app_assoc in E. destruct (he_top e); [discriminate|]. cbn [txt list_ascii_of_string app] in E. injection E as E.
  apply nm_until in E as (_ & E & _); [congruence|noletter|exact Lc].
Qed.

Lemma side_delim : delim enc_side shown anything.
Proof.
  intros [k|e] [k'|e'] x y _ _ E.
  - apply conn_delim in E; auto; exact I.
  - exfalso. exact (edge_conn _ _ _ _ (eq_sym E)).
  - exfalso. exact (edge_conn _ _ _ _ E).
  - cbn [enc_side shown] in *. destruct (he_top e), (he_top e'); cbn [txt list_ascii_of_string app] in E; injection E as E; try discriminate;
      rewrite <- !app_assoc in E; cbn [app] in E; apply nm_until in E as (-> & _ & ->); auto; noletter.
Qed.

(** The text of a perimeter, followed by a comma or a closing parenthesis. *)
Definition enc_comp (p : side * list side) : text := join (txt " ") (map enc_side (fst p :: snd p)).

Lemma side_first z : exists c r, enc_side z = c :: r /\ c <> ")"%char /\ c <> ","%char.
Proof. destruct z as [k|e]; cbn; [|destruct (he_top e); cbn]; eexists; eexists; (split; [reflexivity|]); split; discriminate. Qed.

Lemma comp_delim : delim enc_comp (fun p q => Forall2 shown (fst p :: snd p) (fst q :: snd q)) (fun x => exists z, x = txt ")" ++ z \/ x = txt ", " ++ z).
Proof.
  intros p q x y Hx Hy E. unfold enc_comp in E.
  apply (join_delim enc_side shown anything (fun x => exists z, x = txt ")" ++ z \/ x = txt ", " ++ z) (txt " ")) in E; auto.
  - exact side_delim.
  - intro; exact I.
  - intros; exact I.
  - intros u b z [w [-> | ->]] Q; destruct (side_first b) as (c & r & Eb & N1 & N2); rewrite Eb in Q; cbn in Q; congruence.
  - intros u b z [w [-> | ->]] Q; discriminate.
Qed.

Lemma comps_delim l l' : join (txt ", ") (map enc_comp l) ++ txt ")" = join (txt ", ") (map enc_comp l') ++ txt ")" ->
  Forall2 (fun p q => Forall2 shown (fst p :: snd p) (fst q :: snd q)) l l'.
Proof.
  intro E.
  assert (J : forall b, exists c r, enc_comp b = c :: r /\ c <> ")"%char /\ c <> ","%char).
  { intros [b r]. unfold enc_comp. cbn [fst snd map]. rewrite join_cons. destruct (side_first b) as (c & w & -> & N1 & N2). cbn [app]. eauto. }
  apply (join_delim enc_comp (fun p q => Forall2 shown (fst p :: snd p) (fst q :: snd q)) (fun x => exists z, x = txt ")" ++ z \/ x = txt ", " ++ z) (fun x => exists z, x = txt ")" ++ z) (txt ", ")) in E.
  - apply E.
  - exact comp_delim.
  - intro z. exists z. auto.
  - intros x [z ->]. eauto.
  - intros x b z [w ->] Q. destruct (J b) as (c & r & Eb & N1 & N2). rewrite Eb in Q. cbn in Q. congruence.
  - intros x b z [w ->] Q. discriminate.
  - exists []. reflexivity.
  - exists []. reflexivity.
Qed.

Section PrintDec.
Context {T : Type} {O : LenOps T} {W : LenLaws T}.

Lemma print_name_ok (d : decomp T) l : d_comps d <> [] -> print_name d l = Ok (nm l).
Proof. unfold print_name. destruct (d_comps d); [contradiction|]. intros _. apply nm_ok. Qed.

Lemma print_sep_ok (d : decomp T) s : d_comps d <> [] -> print_sep d s = Ok (enc_sep s).
Proof. intro H. unfold print_sep. rewrite print_name_ok by exact H. reflexivity. Qed.

Lemma print_conn_ok (d : decomp T) k : d_comps d <> [] -> print_conn d k = Ok (enc_conn k).
Proof. intro H. unfold print_conn. rewrite !print_sep_ok by exact H. reflexivity. Qed.

Lemma print_side_ok (d : decomp T) x : d_comps d <> [] -> print_side d x = Ok (enc_side x).
Proof. intro H. destruct x; cbn [print_side]; [apply print_conn_ok, H|]. unfold print_edge. rewrite print_name_ok by exact H. reflexivity. Qed.

Lemma mapM_all {A B} (f : A -> res B) g (l : list A) : (forall x, In x l -> f x = Ok (g x)) -> mapM f l = Ok (map g l).
Proof. induction l as [|a l IH]; intro H; [reflexivity|]. cbn [mapM map]. rewrite (H a (or_introl eq_refl)). cbn [bind]. rewrite IH by (intros; apply H; right; assumption). reflexivity. Qed.

Lemma print_comp_ok (d : decomp T) c p : d_comps d <> [] -> comp_perimeter d c = Ok p -> print_comp d c = Ok (join (txt " ") (map enc_side p)).
Proof. intros H E. unfold print_comp. rewrite E. cbn [bind]. rewrite (mapM_all _ enc_side) by (intros; apply print_side_ok, H). reflexivity. Qed.

(** In a reachable state every component has a perimeter, which is not empty. *)
Lemma perimeters (i : iet T) (s : slen T) tr d c : decomposition i s tr d -> c < length (d_comps d) ->
  exists a p, comp_perimeter d c = Ok (a :: p) /\ (forall e, In (SEdge e) (a :: p) -> he_comp e = c).
Proof.
  intros H Hc. destruct (nth_error (d_comps d) c) as [x|] eqn:E; [|apply nth_error_None in E; lia].
  destruct (claim_C35_perimeter T O W i s tr d c x H E) as (p & Ep & _ & Pe & _).
  destruct (claim_C36_cross T O W i s tr d c x H E) as (bs & ts & css & p' & q & first & _ & _ & _ & Eq & _ & _ & _ & Eh).
  rewrite Eq in Ep. injection Ep as <-. destruct (p' ++ q) as [|a r] eqn:Er; [discriminate|]. exists a, r. split; [exact Eq|].
  intros e He. apply Pe in He. apply He.
Qed.

Lemma perimeter_choice (d : decomp T) n : (forall c, c < n -> exists a p, comp_perimeter d c = Ok (a :: p)) ->
  exists f : nat -> side * list side, forall c, c < n -> comp_perimeter d c = Ok (fst (f c) :: snd (f c)).
Proof.
  intro H. exists (fun c => match comp_perimeter d c with Ok (a :: p) => (a, p) | _ => (SConn (mkconn (mksep 0 PARALLEL) (mksep 0 PARALLEL)), []) end).
  intros c Hc. destruct (H c Hc) as (a & p & ->). reflexivity.
Qed.

Lemma print_dec_ok (i : iet T) (s : slen T) tr d : decomposition i s tr d ->
  exists f : nat -> side * list side, (forall c, c < length (d_comps d) -> comp_perimeter d c = Ok (fst (f c) :: snd (f c))) /\
    print_dec d = Ok (txt "DynamicalDecomposition(" ++ join (txt ", ") (map enc_comp (map f (seq 0 (length (d_comps d))))) ++ txt ")").
Proof.
  intros H. destruct (perimeter_choice d (length (d_comps d))) as [f Hf].
  { intros c Hc. destruct (perimeters _ _ _ _ _ H Hc) as (a & p & E & _). eauto. }
  exists f. split; [exact Hf|]. unfold print_dec.
  rewrite (mapM_all _ (fun c => enc_comp (f c))).
  - rewrite map_map. reflexivity.
  - intros c Hc. apply in_seq in Hc. assert (Hc' : c < length (d_comps d)) by lia. apply print_comp_ok; [|apply Hf, Hc'].
    intro Q. rewrite Q in Hc'. cbn in Hc'. lia.
Qed.

Lemma comps_nonempty (i : iet T) (s : slen T) tr d : decomposition i s tr d -> d_comps d <> [].
Proof.
  induction 1 as [d Hi E|tr d fuel limit c st d' H IH HL Hc E].
  - unfold dec_make in E. intro Q. revert E. repeat (let X := fresh in intro X; apply bind_ok in X as (? & _ & X); revert X). intro E.
    injection E as <-. discriminate.
  - intro Q. destruct (nth_error (d_comps d) c) as [x|] eqn:Ex; [|apply nth_error_None in Ex; lia].
    destruct (claim_C33_step T O W _ _ _ _ _ _ _ _ _ _ H HL Ex E) as (_ & y & Hy & _). unfold component in Hy. rewrite Q in Hy. destruct c; discriminate.
Qed.

(** What a step made on a decomposition contains. *)
Definition dstep_fine (d : decomp T) (st : dstep) : Prop :=
  match dst_result st with
  | D_SEPARATING_CONNECTION => exists k c, dst_connection st = Some k /\ dst_additional st = Some c /\ c < length (d_comps d)
  | D_NON_SEPARATING_CONNECTION => exists k, dst_connection st = Some k /\ dst_additional st = None
  | _ => dst_connection st = None /\ dst_additional st = None
  end.

Lemma steps_fine (i : iet T) (s : slen T) tr d : decomposition i s tr d -> Forall (dstep_fine d) tr.
Proof.
  induction 1 as [d Hi E|tr d fuel limit c st d' H IH HL Hc E]; [constructor|].
  destruct (nth_error (d_comps d) c) as [x|] eqn:Ex; [|apply nth_error_None in Ex; lia].
  destruct (claim_C33_step T O W _ _ _ _ _ _ _ _ _ _ H HL Ex E) as (_ & y & Hy & M).
  assert (Le : length (d_comps d) <= length (d_comps d')) by (destruct (dst_result st); [..|]; try (destruct M as (_ & -> & _); lia); destruct M as (z & _ & _ & -> & _); lia).
  destruct (step_history_post _ _ _ _ _ _ _ _ _ H HL Hc E) as (C1 & x' & C2 & HD & HC & P). pose proof (sp_case _ _ _ _ _ _ _ P) as Sc.
  apply Forall_app. split.
  - revert IH. apply Forall_impl. intros st' F. unfold dstep_fine in *. destruct (dst_result st'); auto. destruct F as (k & r & E1 & E2 & L). exists k, r. repeat split; auto. lia.
  - constructor; [|constructor]. unfold dstep_fine. unfold dstep_post in Sc. cbv zeta in Sc. destruct (dst_result st) eqn:Er.
    + destruct Sc as (? & _ & _ & _ & _ & _ & _ & ->). auto.
    + destruct Sc as (? & _ & _ & _ & _ & _ & _ & ->). auto.
    + destruct Sc as (? & ? & ? & ? & ? & _ & _ & _ & _ & _ & ->). destruct M as (z & _ & _ & M & _). cbn. eexists. eexists. split; [reflexivity|]. split; [reflexivity|]. lia.
    + destruct Sc as (? & ? & ? & ? & ? & _ & _ & _ & _ & _ & ->). cbn. eauto.
    + destruct Sc as (? & _ & _ & _ & _ & _ & _ & ->). auto.
    + destruct Sc as (? & _ & _ & _ & _ & ->). auto.
    + contradiction.
Qed.

End PrintDec.
