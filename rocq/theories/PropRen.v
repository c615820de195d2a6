(** C72: labels are only names. *)
From Coq Require Import List Permutation.
From Verif Require Import Base QcTac LenT FM Subspace Lengths IET Decomp LenInst Spec Api RatioApi RenApi.
From Verif Require Import ClaimsRen.
Open Scope nat_scope.
(** Rename the labels: [f] is any function on labels that is injective, the vector of lengths
    is rearranged accordingly, the rows, and all labels that a program passes, are renamed.
    Then the renamed program gets from the renamed IET the renamed answers, or fails in the
    same way, and in the end the IETs have the renamed rows and the lengths belong to the
    renamed labels.  (This holds for all rows, whether or not they make an IET, and all
    number types, whether or not their arithmetic obeys any law.) *)
Theorem C72_program : forall (T : Type) (O : LenOps T) (f : label -> label) (top bottom : list label)
    (p : list (nat * op)) (ls ls' : list T),
  (forall a b, f a = f b -> a = b) -> moved_lengths f ls ls' ->
  both (fun r r' =>
      fst (fst r') = map (ren_answer f) (fst (fst r)) /\
      map rows (snd (fst r')) = map (ren_rows f) (map rows (snd (fst r))) /\
      moved_lengths f (sl_lens (snd r)) (sl_lens (snd r')))
    (session top bottom p (mkslen [] ls))
    (session (map f top) (map f bottom) (map (ren_call f) p) (mkslen [] ls')).
Proof. exact claim_C72_program. Qed.
Print Assumptions C72_program.

Example C72_program_example :
  (forall a b, turn a = turn b -> a = b) /\ moved_lengths turn [7; 5; 3; 4]%Z [4; 3; 5; 7]%Z /\
  match session [0; 1; 2; 3] [3; 2; 1; 0] ren_program (mkslen [] [7; 5; 3; 4]%Z),
        session [3; 2; 1; 0] [0; 1; 2; 3] (map (ren_call turn) ren_program) (mkslen [] [4; 3; 5; 7]%Z) with
  | Ok (a, _, _), Ok (a', _, _) =>
    a = [ans_flag false; ans_found true; ans_nothing; ans_induce NON_SEPARATING_CONNECTION (Some (0, 2));
      ans_induce SEPARATING_CONNECTION (Some (1, 1)); ans_split false] /\
    a' = [ans_flag false; ans_found true; ans_nothing; ans_induce NON_SEPARATING_CONNECTION (Some (3, 1));
      ans_induce SEPARATING_CONNECTION (Some (2, 2)); ans_split false]
  | _, _ => False
  end.
Proof.
  split; [exact turn_inj|]. split; [exact turn_lengths|]. vm_compute. split; reflexivity.
Qed.

(** The same for decompositions: after any such program, decompose one of the IETs by a
    program that calls [decompositionStep], [decompose] and [inject]; the answers (results,
    connections, walks around the boundary) and all components (their contours, the
    connections next to their half edges, their flags) are the renamed ones, and the lengths
    are the same. *)
Theorem C72_decomposition : forall (T : Type) (O : LenOps T) (f : label -> label) (top bottom : list label)
    (p : list (nat * op)) (n : nat) (q q' : list dcall) (ls ls' : list T),
  (forall a b, f a = f b -> a = b) -> moved_lengths f ls ls' -> Forall2 (renamed_dcall f) q q' ->
  both (fun r r' =>
      fst (fst r') = map (ren_answer f) (fst (fst r)) /\
      snd (fst r') = map (ren_danswer f) (snd (fst r)) /\
      Forall2 (renamed_view f) (snd r) (snd r'))
    (decomposing top bottom p n q (mkslen [] ls))
    (decomposing (map f top) (map f bottom) (map (ren_call f) p) n q' (mkslen [] ls')).
Proof. exact claim_C72_decomposition. Qed.
Print Assumptions C72_decomposition.

Example C72_decomposition_example :
  Forall2 (renamed_dcall turn) ren_calls ren_calls' /\
  match decomposing [0; 1; 2; 3] [3; 2; 1; 0] [] 0 ren_calls (mkslen [] [7; 5; 3; 4]%Z),
        decomposing [3; 2; 1; 0] [0; 1; 2; 3] [] 0 ren_calls' (mkslen [] [4; 3; 5; 7]%Z) with
  | Ok (_, b, v), Ok (_, b', v') =>
    exists st st' l l', b = [dans_inject [] [right_conn (0, 3)]; dans_step st; dans_decompose true] /\
      b' = [dans_inject [] [right_conn (3, 0)]; dans_step st'; dans_decompose true] /\
      dst_connection st = Some l /\ dst_connection st' = Some l' /\ l' = ren_conn turn l /\ l' <> l /\
      length v = 2 /\ length v' = 2
  | _, _ => False
  end.
Proof.
  split; [exact ren_calls_ok|]. vm_compute. repeat eexists. discriminate.
Qed.

(** Whether two IETs are equal, or equivalent, does not depend on the names either, if the
    labels of both are renamed in the same way. *)
Theorem C72_comparison : forall (T : Type) (O : LenOps T) (f : label -> label) (i i' j j' : iet T) (s s' o o' : slen T),
  (forall a b, f a = f b -> a = b) ->
  rows i' = ren_rows f (rows i) -> rows j' = ren_rows f (rows j) ->
  moved_lengths f (sl_lens s) (sl_lens s') -> moved_lengths f (sl_lens o) (sl_lens o') ->
  iet_eqb i' s' j' o' = iet_eqb i s j o /\ iet_equivalent i' s' j' o' = iet_equivalent i s j o.
Proof. exact claim_C72_comparison. Qed.
Print Assumptions C72_comparison.

Example C72_comparison_example :
  let i : iet Z := mkiet [0; 1; 2; 3] [3; 2; 1; 0] false None tracker_init in
  let j : iet Z := mkiet [1; 0; 2; 3] [3; 2; 0; 1] false None tracker_init in
  let i' : iet Z := mkiet [3; 2; 1; 0] [0; 1; 2; 3] false None tracker_init in
  let j' : iet Z := mkiet [2; 3; 1; 0] [0; 1; 3; 2] false None tracker_init in
  rows i' = ren_rows turn (rows i) /\ rows j' = ren_rows turn (rows j) /\
  moved_lengths turn [7; 5; 3; 4]%Z [4; 3; 5; 7]%Z /\ moved_lengths turn [5; 7; 3; 4]%Z [4; 3; 7; 5]%Z /\
  iet_eqb i' (mkslen [] [4; 3; 5; 7]%Z) j' (mkslen [] [4; 3; 7; 5]%Z) = Ok false /\
  iet_equivalent i' (mkslen [] [4; 3; 5; 7]%Z) j' (mkslen [] [4; 3; 7; 5]%Z) = Ok true.
Proof.
  cbv zeta. split; [reflexivity|]. split; [reflexivity|]. split; [exact turn_lengths|]. split; [exact turn_lengths'|]. split; vm_compute; reflexivity.
Qed.
