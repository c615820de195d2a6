(** Property C90: an IET can be used with any lengths that keep the contract of the interface.

    [contract L sound] ([LensApi]): what the members of the lengths [L] have to do.
    [session_with L top bottom p s] ([LensApi]): construct an IET with the given rows and the lengths [L] in the
    state [s] and run the program [p]; [session] ([RatioApi]) is the same for [sample::Lengths].
    [both]: both fail in the same way or both return, and the results are related. *)
From Coq Require Import Reals Permutation.
From Verif Require Import Base LenT FM Subspace Lengths IET LenInst Sqrt2 Spec SpecLengths Api RatioApi LensApi Fixtures.
From Verif Require Import ClaimsLens.
Open Scope nat_scope.

(** ** C90: Any lengths that keep the contract of the interface will do. *)

(** The program gets the same answers with these lengths as with [sample::Lengths], and in the end all IETs
    and lengths are the same; or both programs fail in the same way. *)
Theorem C90_any : forall (T : Type) (O : LenOps T) (W : LenLaws T) (S : Type) (L : lens T S) (sound : S -> Prop) (s : S)
    (top bottom : list label) (p : list (nat * op)),
  contract L sound -> sound s -> sl_stack (li_base L s) = [] -> valid_input (li_base L s) top bottom -> Forall (fun x => op_legal (snd x)) p ->
  both (fun r r' => fst (fst r') = fst (fst r) /\ snd (fst r') = snd (fst r) /\ li_base L (snd r') = snd r /\ sound (snd r'))
    (session top bottom p (li_base L s)) (session_with L top bottom p s).
Proof. exact claim_C90_any. Qed.
Print Assumptions C90_any.

(** [sample::Lengths] keeps the contract, in all its states. *)
Theorem C90_sample : forall (T : Type) (O : LenOps T) (W : LenLaws T), contract sample_lens (fun _ : slen T => True).
Proof. exact claim_C90_sample. Qed.
Print Assumptions C90_sample.

(** So do lengths that keep the sum of the stack in a variable of their own. *)
Theorem C90_cached : forall (T : Type) (O : LenOps T) (W : LenLaws T),
  contract (cached_lens (T := T)) cached_sound /\ forall ls : list T, cached_sound (mkslen [] ls, l_zero).
Proof. exact claim_C90_cached. Qed.
Print Assumptions C90_cached.

(** With a program that gets several answers. *)
Example C90_example : let s := (z_lens, 0%Z) in let p := [(0, op_zorich); (0, op_swap); (0, op_zorich); (0, op_induce 100 (-1)); (0, op_reduce)] in
  cached_sound s /\ valid_input (li_base cached_lens s) [0; 1; 2; 3] [3; 2; 1; 0] /\ Forall (fun x => op_legal (snd x)) p /\
  match session_with cached_lens [0; 1; 2; 3] [3; 2; 1; 0] p s with
  | Ok (a, pool, (t, _)) => a = [ans_found true; ans_nothing; ans_found true; ans_induce NON_SEPARATING_CONNECTION (Some (0, 2)); ans_split true] /\
    map rows pool = [([1], [1]); ([3; 0], [0; 3])] /\ sl_lens t = [3; 5; 3; 4]%Z
  | _ => False
  end.
Proof.
  cbv zeta. split; [|split; [|split]].
  - apply claim_C90_cached.
  - apply valid_inputb_ok. vm_compute. reflexivity.
  - repeat (apply Forall_cons; [cbn; unfold INT_MAX; try exact I; lia|]); apply Forall_nil.
  - vm_compute. auto.
Qed.
