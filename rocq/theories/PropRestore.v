(** What a program observes of an IET depends on its rows and lengths only; so an IET that has
    been saved and loaded answers like the original would have. *)
From Coq Require Import Reals List ZArith Permutation.
From Verif Require Import Base QcTac LenT FM Subspace Lengths IET Decomp Misc Spec Api RatioApi RestoreApi.
From Verif Require Import Fixtures LenInst Sqrt2 Cubic ClaimsRestore.
Import ListNotations.
Open Scope nat_scope.
(** ** C82: A loaded IET answers like the one that was saved. *)

(** Two IETs with the same rows and lengths, whatever happened to them before.  Either the
    program reports AUTO_SIMILAR for one of them at some point, or it observes the same. *)
Theorem C82_rows : forall (T : Type) (O : LenOps T) (W : LenLaws T) (i j : iet T) (s : slen T) (p : list (nat * op)),
  obtainable i s -> obtainable j s -> i_top i = i_top j -> i_bottom i = i_bottom j -> Forall (fun x => op_legal (snd x)) p ->
  (exists n, reports_similar (run (firstn n p) [i] s) \/ reports_similar (run (firstn n p) [j] s)) \/
  both same_run (run p [i] s) (run p [j] s).
Proof. exact claim_C82_rows. Qed.
Print Assumptions C82_rows.

Theorem C82_loaded : forall (T : Type) (O : LenOps T) (W : LenLaws T) (i j : iet T) (s t : slen T) (p : list (nat * op)),
  obtainable i s -> load_iet (save_iet i (Some s)) = Ok (j, Some t) -> Forall (fun x => op_legal (snd x)) p ->
  (exists n, reports_similar (run (firstn n p) [i] s) \/ reports_similar (run (firstn n p) [j] t)) \/
  both same_run (run p [i] s) (run p [j] t).
Proof. exact claim_C82_loaded. Qed.
Print Assumptions C82_loaded.

(** Commensurable lengths: always the same. *)
Theorem C82_commensurable : forall (T : Type) (O : LenOps T) (W : LenLaws T) (i j : iet T) (s t : slen T) (u : R) (p : list (nat * op)),
  obtainable i s -> load_iet (save_iet i (Some s)) = Ok (j, Some t) -> (0 < u)%R -> integral u (exch_of i s) -> Forall (fun x => op_legal (snd x)) p ->
  both same_run (run p [i] s) (run p [j] t).
Proof. exact claim_C82_commensurable. Qed.
Print Assumptions C82_commensurable.

(** The exception is real: the similarity tracker is not saved, so the original may report
    AUTO_SIMILAR within a limit that is too small for the loaded one. *)
Theorem C82_exception : exists (i j : iet q3) (s : slen q3) (p : list (nat * op)),
  obtainable i s /\ load_iet (save_iet i (Some s)) = Ok (j, Some s) /\ Forall (fun x => op_legal (snd x)) p /\
  reports_similar (run p [i] s) /\ ~ reports_similar (run p [j] s) /\ ~ both same_run (run p [i] s) (run p [j] s).
Proof. exact claim_C82_exception. Qed.
Print Assumptions C82_exception.

(** An IET that has been swapped, its SAF invariant computed and induced on. *)
Example C82_example : exists (i : iet Z) (s : slen Z) j, obtainable i s /\ i_swap i = true /\ i_saf i <> None /\ load_iet (save_iet i (Some s)) = Ok (j, Some s) /\
  i_swap j = false /\ i_saf j = None /\ 2 <= i_size i /\ integral 1 (exch_of i s).
Proof. exact loaded_example. Qed.
