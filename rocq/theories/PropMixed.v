(** C68: how the lengths are represented does not matter. *)
From Coq Require Import Reals Permutation.
From Verif Require Import Base QcTac LenT FM Subspace Lengths IET Decomp LenInst Sqrt2 Fixtures Spec Api RatioApi Mixed MixedApi Renf RenfApi.
From Verif Require Import ClaimsMixed.
Open Scope nat_scope.
(** The coefficients of a list of lengths are only used to find out which rational linear
    relations hold between the lengths.  Take two number types of which one only knows that
    the arithmetic is exact and that the coefficients of any list of numbers describe their
    rational relations (the size of the vectors may differ from list to list).  Construct
    the same IET with lengths over both types whose ratios are the same.  Then every program
    as in C66 gets the same answers from both. *)
Theorem C68_program : forall (T : Type) (O : LenOps T) (W : MixedLaws T) (T' : Type) (O' : LenOps T') (W' : MixedLaws T')
    (c : R) (top bottom : list label) (ls : list T) (ls' : list T') (p : list (nat * op)),
  (0 < c)%R -> mixed_input (mkslen [] ls) top bottom -> mixed_proportional c top (mkslen [] ls) (mkslen [] ls') ->
  Forall (fun x => op_legal (snd x)) p ->
  both (fun r r' =>
      fst (fst r') = fst (fst r) /\
      map rows (snd (fst r')) = map rows (snd (fst r)) /\
      mixed_proportional c top (snd r) (snd r'))
    (session top bottom p (mkslen [] ls)) (session top bottom p (mkslen [] ls')).
Proof. exact claim_C68_program. Qed.
Print Assumptions C68_program.

(** Integers against rational numbers that are stored partly as rational numbers and partly
    as elements of a quadratic field. *)
Example C68_program_example :
  exists (W : MixedLaws (mixed q2)) (W' : MixedLaws Z),
  @mixed_input _ _ W (mkslen [] even_lengths) [0; 1; 2; 3] [3; 2; 1; 0] /\
  @mixed_proportional _ _ W _ _ W' 1 [0; 1; 2; 3] (mkslen [] even_lengths) (mkslen [] [7; 5; 3; 4]%Z) /\
  Forall (fun x => op_legal (snd x)) even_program /\
  match session [0; 1; 2; 3] [3; 2; 1; 0] even_program (mkslen [] even_lengths) with
  | Ok (a, _, _) => a = [ans_found true; ans_saf_zero true; ans_flag false; ans_induce NON_SEPARATING_CONNECTION (Some (2, 0))]
  | _ => False
  end.
Proof.
  exists field_laws, integer_laws. split; [exact even_input|]. split; [exact even_scaled|].
  split; [repeat constructor; vm_compute; discriminate|]. vm_compute. reflexivity.
Qed.

(** The same for decompositions. *)
Theorem C68_decomposition : forall (T : Type) (O : LenOps T) (W : MixedLaws T) (T' : Type) (O' : LenOps T') (W' : MixedLaws T')
    (c : R) (top bottom : list label) (ls : list T) (ls' : list T') (p : list (nat * op)) (n : nat) (q : list dcall),
  (0 < c)%R -> mixed_input (mkslen [] ls) top bottom -> mixed_proportional c top (mkslen [] ls) (mkslen [] ls') ->
  Forall (fun x => op_legal (snd x)) p -> Forall dcall_legal q ->
  both (fun r r' => fst r' = fst r /\ Forall2 (mixed_view c) (snd r) (snd r'))
    (decomposing top bottom p n q (mkslen [] ls)) (decomposing top bottom p n q (mkslen [] ls')).
Proof. exact claim_C68_decomposition. Qed.
Print Assumptions C68_decomposition.

Example C68_decomposition_example :
  Forall dcall_legal mixed_calls /\
  match decomposing [0; 1; 2; 3] [3; 2; 1; 0] [(0, op_zorich)] 0 mixed_calls (mkslen [] even_lengths) with
  | Ok (_, b, v) => length b = 3 /\ map (fun x => length (cv_top x)) v = [1; 1] /\ map cv_cylinder v = [Some true; Some true]
  | _ => False
  end.
Proof.
  split; [repeat constructor; vm_compute; discriminate|]. vm_compute. auto.
Qed.

(** Elements of a number field and rational numbers in the same list, with the coefficients
    of intervalxt/sample/renf_elem_coefficients.hpp: the coefficients of a list of rational
    numbers are vectors of size one, those of a list with elements of the field are vectors
    of the size of the degree.  For every such list of lengths, all programs answer the
    same as when all rational numbers are converted to elements of the field beforehand. *)
Theorem C68_fields : forall (K : Type) (O : LenOps K) (W : LenLaws K) (E : OverQ K), OverQLaws K -> forall
    (top bottom : list label) (ls : list (mixed K)) (p : list (nat * op)),
  valid_input (mkslen [] (map to_k ls)) top bottom -> Forall (fun x => op_legal (snd x)) p ->
  both (fun r r' =>
      fst (fst r') = fst (fst r) /\
      map rows (snd (fst r')) = map rows (snd (fst r)) /\
      forall l, In l top -> field_length (snd r) l = lamR (snd r') l)
    (session top bottom p (mkslen [] ls)) (session top bottom p (mkslen [] (map to_k ls))).
Proof. exact claim_C68_fields. Qed.
Print Assumptions C68_fields.

Example C68_fields_example :
  valid_input (mkslen [] (map to_k some_lengths)) [0; 1; 2; 3] [1; 0; 3; 2] /\
  Forall (fun x => op_legal (snd x)) mixed_program /\
  match session [0; 1; 2; 3] [1; 0; 3; 2] mixed_program (mkslen [] some_lengths) with
  | Ok (a, _, _) => a = [ans_saf_zero false; ans_split true; ans_saf_zero true; ans_saf_zero false; ans_flag false; ans_flag true;
      ans_induce NON_SEPARATING_CONNECTION (Some (1, 0)); ans_found false]
  | _ => False
  end.
Proof.
  split; [apply valid_inputb_ok; vm_compute; reflexivity|]. split; [repeat constructor; vm_compute; discriminate|]. vm_compute. reflexivity.
Qed.

(** The same for decompositions of them. *)
Theorem C68_fields_decomposition : forall (K : Type) (O : LenOps K) (W : LenLaws K) (E : OverQ K), OverQLaws K -> forall
    (top bottom : list label) (ls : list (mixed K)) (p : list (nat * op)) (n : nat) (q : list dcall),
  valid_input (mkslen [] (map to_k ls)) top bottom -> Forall (fun x => op_legal (snd x)) p -> Forall dcall_legal q ->
  both (fun r r' => fst r' = fst r /\
      Forall2 (fun v v' => look_at v' = look_at v /\ map (fun x => val (to_k x)) (cv_lengths v) = map val (cv_lengths v')) (snd r) (snd r'))
    (decomposing top bottom p n q (mkslen [] ls)) (decomposing top bottom p n q (mkslen [] (map to_k ls))).
Proof. exact claim_C68_fields_decomposition. Qed.
Print Assumptions C68_fields_decomposition.

Example C68_fields_decomposition_example :
  Forall dcall_legal field_calls /\
  match decomposing [0; 1; 2; 3] [1; 0; 3; 2] [] 0 field_calls (mkslen [] some_lengths) with
  | Ok (_, b, v) => length b = 5 /\ map (fun x => length (cv_top x)) v = [1; 2] /\ map cv_cylinder v = [Some true; Some false]
  | _ => False
  end.
Proof.
  split; [repeat constructor; vm_compute; discriminate|]. vm_compute. auto.
Qed.
