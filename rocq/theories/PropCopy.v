(** C71: the IET of a component. *)
From Coq Require Import Reals Permutation.
From Verif Require Import Base QcTac LenT FM Subspace Lengths IET Decomp LenInst Sqrt2 Spec SpecDec Api DecApi InjApi Fixtures DecFixtures InjFixtures.
From Verif Require Import ClaimsCopy.
Open Scope nat_scope.
(** At any time, whatever has been injected and whichever steps have been made, [iet()] of a
    component succeeds.  It returns an IET as one could have constructed it directly: its
    rows are the labels of the contours of the component, its lengths are those of the
    component, and it carries no state from earlier steps. *)
Theorem C71_iet : forall (T : Type) (O : LenOps T) (W : LenLaws T) (i : iet T) (s : slen T) J tr d c x,
  injected_decomposition i s J tr d -> component d c x ->
  exists j t, comp_iet d c = Ok (j, t) /\ obtainable j t /\ iet_make t (i_top (dc_iet x)) (i_bottom (dc_iet x)) = Ok j /\
    exch_of j t = comp_exch d x /\ i_swap j = false.
Proof. exact claim_C71_iet. Qed.
Print Assumptions C71_iet.

(** In particular it can be decomposed by itself. *)
Theorem C71_again : forall (T : Type) (O : LenOps T) (W : LenLaws T) (i : iet T) (s : slen T) J tr d c x j t,
  injected_decomposition i s J tr d -> component d c x -> comp_iet d c = Ok (j, t) ->
  exists d', dec_make j t = Ok d' /\ decomposition j t [] d'.
Proof. exact claim_C71_again. Qed.
Print Assumptions C71_again.

Example C71_example : exists J tr d x, injected_decomposition m_iet m_lens J tr d /\ component d 1 x /\
  match comp_iet d 1 with Ok (j, t) => (i_top j, i_bottom j, map (nth_error (sl_lens t)) (i_top j)) = ([3; 4], [4; 3], [Some (q2_of 3 0); Some (q2_of 3 0)]) | _ => False end.
Proof.
  destruct (after_calls_history m_iet m_lens [Step 0; Step 0] (fun J tr d => match nth_error (d_comps d) 1, comp_iet d 1 with
    | Some x, Ok (j, t) => (i_top j, i_bottom j, map (nth_error (sl_lens t)) (i_top j)) = ([3; 4], [4; 3], [Some (q2_of 3 0); Some (q2_of 3 0)]) | _, _ => False end) m_obtainable) as (J & tr & d & H & C).
  - vm_compute. reflexivity.
  - cbv beta in C. destruct (nth_error (d_comps d) 1) as [x|] eqn:E; [|contradiction]. exists J, tr, d, x. split; [exact H|]. split; [exact E|]. exact C.
Qed.
