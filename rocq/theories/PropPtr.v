(** Property C50: the lists of intervals with iterators to their twins. *)
From Coq Require Import Reals Permutation.
From Verif Require Import Base QcTac LenT FM Subspace Lengths IET LenInst Api Spec Ptr Fixtures.
From Verif Require Import ClaimsPtr.
Open Scope nat_scope.

(** ** C50: Twin links stay consistent. *)

(** In every history each interval of each IET exists, its twin is an interval on the other
    side with the same label, and the twin of the twin is the interval itself. *)
Theorem C50_links : forall (T : Type) (O : LenOps T) (W : LenLaws T) (l : list (piet T)) (s : slen T) p,
  p_history l s -> In p l ->
  NoDup (p_top p ++ p_bottom p) /\
  (forall q, In q (p_top p) -> exists x r, In r (p_bottom p) /\
     nth_error (p_heap p) q = Some (Some (mknode x (Some r))) /\ nth_error (p_heap p) r = Some (Some (mknode x (Some q)))) /\
  (forall q, In q (p_bottom p) -> exists x r, In r (p_top p) /\
     nth_error (p_heap p) q = Some (Some (mknode x (Some r))) /\ nth_error (p_heap p) r = Some (Some (mknode x (Some q)))).
Proof. exact claim_C50_links. Qed.
Print Assumptions C50_links.

(** Every call shows the caller what the description by lists of labels predicts, including
    failures: in particular no call follows an iterator to an erased interval unless the
    plain description fails as well. *)
Theorem C50_calls : forall (T : Type) (O : LenOps T) (W : LenLaws T) (l : list (piet T)) (s : slen T) p o,
  p_history l s -> In p l ->
  exists i, p_view p = Ok i /\ seen (p_run_op o p s) = run_op o i s.
Proof. exact claim_C50_calls. Qed.
Print Assumptions C50_calls.

(** The result of [induce], for any lengths object that is plugged in. *)
Theorem C50_induce : forall (T : Type) (O : LenOps T) (W : LenLaws T) (l : list (piet T)) (s : slen T) p (S : Type) (L : lens T S) (u : S) fuel limit,
  p_history l s -> In p l ->
  exists i, p_view p = Ok i /\ seen_step (p_induce L fuel limit p u) = induce L fuel limit i u.
Proof. exact claim_C50_induce. Qed.
Print Assumptions C50_induce.

(** Undefined behaviour and failed assertions do not occur except as in [failure]; marks and
    links survive every call. *)
Theorem C50_safe : forall (T : Type) (O : LenOps T) (W : LenLaws T) (l1 l2 : list (piet T)) (s : slen T) p o,
  p_history (l1 ++ p :: l2) s -> op_legal o ->
  (exists i, p_view p = Ok i /\ failure o i (seen (p_run_op o p s))) \/
  exists p' extra s', p_run_op o p s = Ok (p', extra, s') /\ p_history (l1 ++ p' :: extra ++ l2) s'.
Proof. exact claim_C50_safe. Qed.
Print Assumptions C50_safe.

(** Histories of linked and of plain IETs show the same. *)
Theorem C50_histories : forall (T : Type) (O : LenOps T) (W : LenLaws T) (s : slen T),
  (forall l, p_history l s -> exists l', history l' s /\ Forall2 (fun p i => p_view p = Ok i) l l') /\
  (forall l', history l' s -> exists l, p_history l s /\ Forall2 (fun p i => p_view p = Ok i) l l').
Proof. exact claim_C50_histories. Qed.
Print Assumptions C50_histories.

(** An IET with labels 0 ... 5 that splits; the marks flip the last bit of labels on the way. *)
Example C50_example :
  let s := mkslen [] [3; 5; 7; 2; 4; 6]%Z in
  exists p, p_make s [0; 1; 2; 3; 4; 5] [2; 0; 1; 5; 4; 3] = Ok p /\ p_history [p] s /\
  exists p' q s', p_run_op op_reduce p s = Ok (p', [q], s') /\ p_history [p'; q] s' /\
    p_view p' = Ok (mkiet [0; 1; 2] [2; 0; 1] false None tracker_init) /\
    p_view q = Ok (mkiet [3; 4; 5] [5; 4; 3] false None tracker_init) /\
    exists p'' s'', p_run_op (op_induce 100 (-1)) q s = Ok (p'', [], s'') /\ length (p_top p'') = 2.
Proof.
  intro s. eexists. split; [vm_compute; reflexivity|].
  assert (H : p_history [mkpiet [0; 1; 2; 3; 4; 5] [6; 7; 8; 9; 10; 11] [Some (mknode 0 (Some 7)); Some (mknode 1 (Some 8)); Some (mknode 2 (Some 6)); Some (mknode 3 (Some 11)); Some (mknode 4 (Some 10)); Some (mknode 5 (Some 9));
     Some (mknode 2 (Some 2)); Some (mknode 0 (Some 0)); Some (mknode 1 (Some 1)); Some (mknode 5 (Some 5)); Some (mknode 4 (Some 4)); Some (mknode 3 (Some 3))] false None tracker_init] s).
  { apply (ph_new [] s [0; 1; 2; 3; 4; 5] [2; 0; 1; 5; 4; 3]); [constructor|apply valid_inputb_ok; vm_compute; reflexivity|intros c q i _ []|vm_compute; reflexivity]. }
  split; [exact H|]. eexists _, _, _. split; [vm_compute; reflexivity|]. split; [apply (ph_op [] _ [] s op_reduce _ [_] _ H I); vm_compute; reflexivity|].
  split; [vm_compute; reflexivity|]. split; [vm_compute; reflexivity|]. eexists _, _. split; vm_compute; reflexivity.
Qed.
