(** Properties C39-C42, C44, C45, C47, C49: lengths shared with a decomposition,
    serialization, equality, names, construction, lengths, hashes, the helper for cppyy. *)
From Coq Require Import Reals Permutation String Ascii NArith.
From Verif Require Import Base QcTac LenT FM Subspace Lengths IET LenInst Sqrt2 Decomp Misc Spec Api DecApi Fixtures DecFixtures.
From Verif Require Import ClaimsMisc.
Open Scope nat_scope.

(** ** C39: Decomposing does not modify the IET passed in. *)

(** False: the IET [i] and the decomposition that is built from it share their lengths (its
    store is [d_len d]), so after a step the caller's IET has other lengths. *)
Theorem C39_refuted : exists (i : iet Z) s d st d', obtainable i s /\ dec_make i s = Ok d /\ d_len d = s /\
  decomposition_step 100 (-1) 0 d = Ok (st, d') /\
  exists l, In l (i_top i) /\ lamR (d_len d') l <> lamR (d_len d) l.
Proof. exact claim_C39_refuted. Qed.
Print Assumptions C39_refuted.

(** What is true: the lengths of labels that do not occur in the IET stay the same, so other
    IETs on the same lengths are not affected. *)
Theorem C39_others : forall (T : Type) (O : LenOps T) (W : LenLaws T) (i : iet T) (s : slen T) tr d l,
  decomposition i s tr d -> ~ In l (i_top i) -> sl_at (d_len d) l = sl_at s l.
Proof. exact claim_C39_others. Qed.
Print Assumptions C39_others.

(** Three lengths of which two are used. *)
Example C39_example : exists tr d, decomposition (fresh [0; 2] [2; 0]) (mkslen [] [5; 4; 3]%Z) tr d /\ sl_lens (d_len d) = [1; 4; 1]%Z.
Proof. apply (after_history _ _ [0]); [apply fresh_obtainable; vm_compute; reflexivity|]. vm_compute. reflexivity. Qed.

(** ** C40: Serialization round trip. *)

Theorem C40_roundtrip : forall (T : Type) (O : LenOps T) (W : LenLaws T) (i : iet T) (s : slen T), obtainable i s ->
  exists j, load_iet (save_iet i (Some s)) = Ok (j, Some s) /\ i_top j = i_top i /\ i_bottom j = i_bottom i /\
    exch_of j s = exch_of i s /\ iet_eqb i s j s = Ok true /\ iet_equivalent i s j s = Ok true /\
    exists v i' j', saf_invariant i s = Ok (v, i') /\ saf_invariant j s = Ok (v, j').
Proof. exact claim_C40_roundtrip. Qed.
Print Assumptions C40_roundtrip.

Theorem C40_lengths : forall (T : Type) (O : LenOps T) (s : slen T) (l : label),
  load_lengths (save_lengths s) = Ok s /\ load_label (T := T) (save_label l) = Ok l /\
  load_iet (save_iet (T := T) iet_default None) = Ok (iet_default, None).
Proof. exact claim_C40_lengths. Qed.
Print Assumptions C40_lengths.

(** [swapped()] does not survive. *)
Theorem C40_refuted : exists (i : iet Z) s j, obtainable i s /\ load_iet (save_iet i (Some s)) = Ok (j, Some s) /\ i_swap i <> i_swap j.
Proof. exact claim_C40_refuted. Qed.
Print Assumptions C40_refuted.

Example C40_example : obtainable w_iet w_lens.
Proof. exact w_obtainable. Qed.

(** ** C41: Equality and equivalence are equivalence relations. *)

(** They always answer, and this is what they answer. *)
Theorem C41_meaning : forall (T : Type) (O : LenOps T) (W : LenLaws T) (i j : iet T) (s t : slen T), obtainable i s -> obtainable j t ->
  exists b c, iet_eqb i s j t = Ok b /\ iet_equivalent i s j t = Ok c /\
    (b = true <-> i_top i = i_top j /\ i_bottom i = i_bottom j /\ forall l, In l (i_top i) -> lamR s l = lamR t l) /\
    (c = true <-> exists f, map f (i_top i) = i_top j /\ map f (i_bottom i) = i_bottom j /\ forall l, In l (i_top i) -> lamR t (f l) = lamR s l).
Proof. exact claim_C41_meaning. Qed.
Print Assumptions C41_meaning.

Theorem C41_equivalence : forall (T : Type) (O : LenOps T) (W : LenLaws T) (i j k : iet T) (s t u : slen T),
  obtainable i s -> obtainable j t -> obtainable k u ->
  iet_eqb i s i s = Ok true /\ iet_equivalent i s i s = Ok true /\
  iet_eqb i s j t = iet_eqb j t i s /\ iet_equivalent i s j t = iet_equivalent j t i s /\
  (iet_eqb i s j t = Ok true -> iet_eqb j t k u = Ok true -> iet_eqb i s k u = Ok true) /\
  (iet_equivalent i s j t = Ok true -> iet_equivalent j t k u = Ok true -> iet_equivalent i s k u = Ok true) /\
  (iet_eqb i s j t = Ok true -> iet_equivalent i s j t = Ok true).
Proof. exact claim_C41_equivalence. Qed.
Print Assumptions C41_equivalence.

(** Equivalent IETs are the same map. *)
Theorem C41_same_map : forall (T : Type) (O : LenOps T) (W : LenLaws T) (i j : iet T) (s t : slen T), obtainable i s -> obtainable j t ->
  iet_equivalent i s j t = Ok true -> forall y z, maps (exch_of i s) y z <-> maps (exch_of j t) y z.
Proof. exact claim_C41_same_map. Qed.
Print Assumptions C41_same_map.

Example C41_example :
  obtainable (fresh [0; 1] [1; 0]) (mkslen [] [5; 4]%Z) /\ obtainable (fresh [1; 2] [2; 1]) (mkslen [] [9; 5; 4]%Z) /\
  iet_equivalent (fresh [0; 1] [1; 0]) (mkslen [] [5; 4]%Z) (fresh [1; 2] [2; 1]) (mkslen [] [9; 5; 4]%Z) = Ok true /\
  iet_eqb (fresh [0; 1] [1; 0]) (mkslen [] [5; 4]%Z) (fresh [1; 2] [2; 1]) (mkslen [] [9; 5; 4]%Z) = Ok false.
Proof. split; [apply fresh_obtainable; vm_compute; reflexivity|]. split; [apply fresh_obtainable; vm_compute; reflexivity|]. split; vm_compute; reflexivity. Qed.

(** ** C42: Rendered label names are unique. *)

Theorem C42_names : forall a b : N,
  exists x y, render a = Ok x /\ render b = Ok y /\ (x = y -> a = b) /\ x <> [] /\
    Forall (fun c => (97 <= N_of_ascii c <= 122)%N \/ (65 <= N_of_ascii c <= 90)%N) x.
Proof. exact claim_C42_names. Qed.
Print Assumptions C42_names.

Example C42_example : render 0 = Ok ["a"%char] /\ render 27 = Ok ["B"%char] /\ render 52 = Ok ["a"%char; "b"%char].
Proof. vm_compute. repeat split. Qed.

(** ** C44: The constructor accepts exactly the valid label lists. *)

(** False: the two rows may consist of different labels ... *)
Theorem C44_refuted : exists (s : slen Z) top bottom i, iet_make s top bottom = Ok i /\ ~ Permutation top bottom /\
  zorich sample_lens i s = UB.
Proof. exact claim_C44_refuted. Qed.
Print Assumptions C44_refuted.

(** ... but this is all that may be wrong.  (Full statement: [Permutation top bottom]
    instead of two rows of the same length without repetitions.) *)
Theorem C44_partial : forall (T : Type) (O : LenOps T) (W : LenLaws T) (s : slen T) top bottom,
  (exists i, iet_make s top bottom = Ok i /\ i_top i = top /\ i_bottom i = bottom /\ i_swap i = false) <->
  (NoDup top /\ NoDup bottom /\ length top = length bottom /\ top <> [] /\
   forall l, In l top -> exists x, nth_error (sl_lens s) l = Some x /\ val x <> 0%R).
Proof. exact claim_C44_partial. Qed.
Print Assumptions C44_partial.

Example C44_example : exists i, iet_make z_lens [0; 2] [2; 0] = Ok i /\ iet_make z_lens [0; 0] [0; 0] = AssertFail /\
  iet_make (mkslen [] [0; 1]%Z) [0; 1] [1; 0] = AssertFail /\ iet_make z_lens [0; 9] [9; 0] = Throw.
Proof. exists (fresh [0; 2] [2; 0]). vm_compute. repeat split. Qed.

(** ** C45: only, forget and similar. *)

Theorem C45_only_forget : forall (T : Type) (O : LenOps T) (s : slen T) ls l,
  sl_at (sl_forget s) l = sl_at s l /\ sl_stack (sl_forget s) = [] /\ sl_stack (sl_only s ls) = [] /\
  (In l ls -> sl_at (sl_only s ls) l = sl_at s l) /\
  (~ In l ls -> l < length (sl_lens s) -> sl_at (sl_only s ls) l = Ok l_zero) /\
  sl_labels (sl_only s ls) = sl_labels s.
Proof. exact claim_C45_only_forget. Qed.
Print Assumptions C45_only_forget.

Theorem C45_similar : forall (T : Type) (O : LenOps T) (W : LenLaws T) (s t : slen T) a b a' b' x y x' y',
  sl_at s a = Ok x -> sl_at s b = Ok y -> sl_at t a' = Ok x' -> sl_at t b' = Ok y' ->
  (0 < val x)%R -> (0 < val y)%R -> (0 < val x')%R -> (0 < val y')%R ->
  exists r, sl_similar s a b t a' b' = Ok r /\ (r = true <-> (val x / val y = val x' / val y')%R).
Proof. exact claim_C45_similar. Qed.
Print Assumptions C45_similar.

(** Scaling is always recognized, also if there are vanishing lengths. *)
Theorem C45_scaled : forall (T : Type) (O : LenOps T) (W : LenLaws T) (s t : slen T) (c : R) a b,
  length (sl_lens t) = length (sl_lens s) -> (forall l, lamR t l = (c * lamR s l)%R) ->
  a < length (sl_lens s) -> b < length (sl_lens s) -> sl_similar s a b t a b = Ok true.
Proof. exact claim_C45_scaled. Qed.
Print Assumptions C45_scaled.

Example C45_example : sl_similar (mkslen [] [2; 3]%Z) 0 1 (mkslen [] [4; 6]%Z) 0 1 = Ok true /\
  sl_similar (mkslen [] [2; 3]%Z) 0 1 (mkslen [] [4; 6]%Z) 1 0 = Ok false /\ sl_only z_lens [2; 0] = mkslen [] [7; 0; 3; 0]%Z.
Proof. vm_compute. repeat split. Qed.

(** ** C47: Equal objects have equal hashes. *)

Theorem C47_hash : forall (l m : label) (e f : hedge) (s t : separatrix) (c k : connection),
  (N.of_nat l < 2 ^ 64)%N -> (N.of_nat m < 2 ^ 64)%N ->
  (label_hash l = label_hash m <-> l = m) /\
  (he_eqb e f = Ok true -> he_hash e = he_hash f) /\
  (sep_eqb s t = true -> sep_hash s = sep_hash t) /\
  (conn_eqb c k = true -> conn_hash c = conn_hash k).
Proof. exact claim_C47_hash. Qed.
Print Assumptions C47_hash.

Example C47_example : label_hash 3 = 3%N /\ sep_hash (mksep 3 ANTIPARALLEL) = 18446744073709551613%N /\ conn_hash (par 1 2) <> conn_hash (anti 2 1).
Proof. vm_compute. repeat split. discriminate. Qed.

(** ** C49: IET from a permutation. *)

Theorem C49_helper : forall (T : Type) (O : LenOps T) (W : LenLaws T) (s : slen T) (p : list Z),
  sl_lens s <> [] -> (forall x, In x (sl_lens s) -> (0 < val x)%R) ->
  Permutation p (map Z.of_nat (seq 0 (length (sl_lens s)))) ->
  exists i, cpp_iet s p = Ok (i, s) /\ valid_input s (i_top i) (i_bottom i) /\
    i_top i = seq 0 (length (sl_lens s)) /\ map Z.of_nat (i_bottom i) = p /\
    forall k a y, nth_error p k = Some (Z.of_nat a) ->
      (total (lamR s) (seq 0 a) <= y < total (lamR s) (seq 0 (a + 1)))%R ->
      maps (exch_of i s) y (y - total (lamR s) (seq 0 a) + total (lamR s) (map Z.to_nat (firstn k p)))%R.
Proof. exact claim_C49_helper. Qed.
Print Assumptions C49_helper.

(** Permutations have to be those of 0, ..., n - 1; other entries are undefined behaviour. *)
Theorem C49_out_of_range : forall (T : Type) (O : LenOps T) (s : slen T) p q z,
  (forall x, In x p -> (0 <= x < Z.of_nat (length (sl_lens s)))%Z) -> (z < 0 \/ Z.of_nat (length (sl_lens s)) <= z)%Z ->
  cpp_iet s (p ++ z :: q) = UB.
Proof. exact claim_C49_out_of_range. Qed.
Print Assumptions C49_out_of_range.

Example C49_example : cpp_iet (mkslen [] [7; 5; 3]%Z) [2; 0; 1]%Z = Ok (fresh [0; 1; 2] [2; 0; 1], mkslen [] [7; 5; 3]%Z) /\
  Permutation [2; 0; 1]%Z (map Z.of_nat (seq 0 3)).
Proof.
  split; [vm_compute; reflexivity|]. cbn. transitivity [0; 2; 1]%Z; [apply perm_swap|]. apply perm_skip, perm_swap.
Qed.
