(** C66: only the permutation and the ratios of the lengths matter. *)
From Coq Require Import Reals Permutation.
From Verif Require Import Base QcTac LenT FM Subspace Lengths IET Decomp LenInst Sqrt2 Fixtures Spec Api RatioApi.
From Verif Require Import ClaimsRatio.
Open Scope nat_scope.
(** Take two number types, lengths over each of them whose ratios are the same (those of the
    second are those of the first times some real number [c]), and construct the same IET
    with both.  Then every program that calls [swap], [zorichInduction], [reduce],
    [induce], [safInvariant] and the Boshernitzan criteria gets the same answers from
    both: the same results, connections and flags (of the SAF invariant only whether it
    vanishes), or the same failure.  In the end the IETs have the same rows and the lengths
    have the same ratios. *)
Theorem C66_program : forall (T : Type) (O : LenOps T) (W : LenLaws T) (T' : Type) (O' : LenOps T') (W' : LenLaws T')
    (c : R) (top bottom : list label) (ls : list T) (ls' : list T') (p : list (nat * op)),
  (0 < c)%R -> valid_input (mkslen [] ls) top bottom -> proportional c top (mkslen [] ls) (mkslen [] ls') ->
  Forall (fun x => op_legal (snd x)) p ->
  both (fun r r' =>
      fst (fst r') = fst (fst r) /\
      map rows (snd (fst r')) = map rows (snd (fst r)) /\
      proportional c top (snd r) (snd r'))
    (session top bottom p (mkslen [] ls)) (session top bottom p (mkslen [] ls')).
Proof. exact claim_C66_program. Qed.
Print Assumptions C66_program.

Example C66_program_example :
  (0 < r2)%R /\ valid_input (mkslen [] plain_lengths) [0; 1; 2; 3] [3; 2; 1; 0] /\
  proportional r2 [0; 1; 2; 3] (mkslen [] plain_lengths) (mkslen [] root_lengths) /\
  Forall (fun x => op_legal (snd x)) sample_program /\
  match session [0; 1; 2; 3] [3; 2; 1; 0] sample_program (mkslen [] root_lengths) with
  | Ok (a, _, _) => a = [ans_saf_zero true; ans_flag false; ans_found true; ans_nothing; ans_induce NON_SEPARATING_CONNECTION (Some (0, 2));
      ans_induce SEPARATING_CONNECTION (Some (1, 1)); ans_split false]
  | _ => False
  end.
Proof.
  split; [exact r2_pos|]. split; [apply valid_inputb_ok; vm_compute; reflexivity|]. split; [exact scaled_root|].
  split; [repeat constructor; vm_compute; discriminate|]. vm_compute. reflexivity.
Qed.

(** The same holds for decompositions: run such a program, make a decomposition of any of
    the IETs, and run a program that calls [decompositionStep], [decompose] (with a callback
    that does not look at the lengths) and [inject].  All answers are the same and in the
    end the components look the same (their contours with the connections, their flags)
    and their lengths have the same ratios. *)
Theorem C66_decomposition : forall (T : Type) (O : LenOps T) (W : LenLaws T) (T' : Type) (O' : LenOps T') (W' : LenLaws T')
    (c : R) (top bottom : list label) (ls : list T) (ls' : list T') (p : list (nat * op)) (n : nat) (q : list dcall),
  (0 < c)%R -> valid_input (mkslen [] ls) top bottom -> proportional c top (mkslen [] ls) (mkslen [] ls') ->
  Forall (fun x => op_legal (snd x)) p -> Forall dcall_legal q ->
  both (fun r r' => fst r' = fst r /\ Forall2 (same_view c) (snd r) (snd r'))
    (decomposing top bottom p n q (mkslen [] ls)) (decomposing top bottom p n q (mkslen [] ls')).
Proof. exact claim_C66_decomposition. Qed.
Print Assumptions C66_decomposition.

Example C66_decomposition_example :
  Forall dcall_legal sample_calls /\
  match decomposing [0; 1; 2; 3] [3; 2; 1; 0] [(0, op_zorich)] 0 sample_calls (mkslen [] root_lengths) with
  | Ok (_, b, v) => length b = 3 /\ map (fun x => length (cv_top x)) v = [1; 1] /\ map cv_cylinder v = [Some true; Some true]
  | _ => False
  end.
Proof.
  split; [repeat constructor; vm_compute; discriminate|]. vm_compute. auto.
Qed.
