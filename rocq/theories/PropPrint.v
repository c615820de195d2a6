(** Property C57: textual representations. *)
From Coq Require Import String Ascii NArith Reals.
From Verif Require Import Base QcTac LenT FM Subspace Lengths IET LenInst Decomp Misc Print Spec Api DecApi Fixtures DecFixtures.
From Verif Require Import PrintProof ClaimsPrint.
Open Scope nat_scope.

(** ** C57: Printing never fails and is unambiguous. *)

(** Every IET that can be obtained can be printed.  If the number type prints different
    numbers differently and without closing brackets, then the text determines the two
    rows and the length of each interval. *)
Theorem C57_iet : forall (T : Type) (O : LenOps T) (W : LenLaws T) (show : T -> text),
  (forall (i : iet T) (s : slen T), obtainable i s -> exists t, print_iet show i s = Ok t) /\
  ((forall x, ~ In "]"%char (show x)) -> (forall x y, show x = show y -> x = y) ->
   forall (i i' : iet T) (s s' : slen T) t, print_iet show i s = Ok t -> print_iet show i' s' = Ok t ->
     i_top i = i_top i' /\ i_bottom i = i_bottom i' /\ forall l, In l (i_top i) -> sl_at s l = sl_at s' l).
Proof. exact claim_C57_iet. Qed.
Print Assumptions C57_iet.

(** Labels. *)
Theorem C57_label : forall a b : label, print_label a = print_label b -> a = b.
Proof. exact claim_C57_label. Qed.
Print Assumptions C57_label.

(** The text of a step of [induce] tells its result. *)
Theorem C57_induce : forall (T : Type) (st st' : istep T), print_istep st = print_istep st' -> is_result st = is_result st'.
Proof. exact claim_C57_induce. Qed.
Print Assumptions C57_induce.

(** The text of a decomposition can always be computed and tells the number of its components
    and the perimeter of each. *)
Theorem C57_decomposition : forall (T : Type) (O : LenOps T) (W : LenLaws T),
  (forall (i : iet T) (s : slen T) tr d, decomposition i s tr d -> exists t, print_dec d = Ok t) /\
  (forall (i i' : iet T) (s s' : slen T) tr tr' d d' t, decomposition i s tr d -> decomposition i' s' tr' d' ->
     print_dec d = Ok t -> print_dec d' = Ok t ->
     length (d_comps d) = length (d_comps d') /\
     forall c, c < length (d_comps d) -> exists p, comp_perimeter d c = Ok p /\ comp_perimeter d' c = Ok p).
Proof. exact claim_C57_decomposition. Qed.
Print Assumptions C57_decomposition.

(** Every step that was made can be printed, at any later time; the text of a step tells
    its result and the saddle connection. *)
Theorem C57_step : forall (T : Type) (O : LenOps T) (W : LenLaws T),
  (forall (i : iet T) (s : slen T) tr d st, decomposition i s tr d -> In st tr -> exists t, print_dstep d st = Ok t) /\
  (forall (i i' : iet T) (s s' : slen T) tr tr' d d' st st' t, decomposition i s tr d -> decomposition i' s' tr' d' -> In st tr -> In st' tr' ->
     print_dstep d st = Ok t -> print_dstep d' st' = Ok t ->
     dst_result st = dst_result st' /\ dst_connection st = dst_connection st').
Proof. exact claim_C57_step. Qed.
Print Assumptions C57_step.

Example C57_example : obtainable z_iet z_lens /\
  (forall x, ~ In "]"%char (show_Z x)) /\ (forall x y, show_Z x = show_Z y -> x = y) /\
  print_iet show_Z z_iet z_lens = Ok (txt "[a: 7] [b: 5] [c: 3] [d: 4] / [d] [c] [b] [a]").
Proof. split; [exact z_obtainable|]. split; [exact show_Z_plain|]. split; [exact show_Z_inj|]. vm_compute. reflexivity. Qed.

Example C57_example_step : exists tr d, decomposition m_iet m_lens tr d /\
  print_dec d = Ok (txt "DynamicalDecomposition([c] [a] [a+ ⚯ c-] -[c] -[a] [b- ⚯ d+], [e] [e+ ⚯ d-] [d+ ⚯ b-] -[e] [d- ⚯ e+] [c- ⚯ a+])") /\
  print_comp d 0 = Ok (txt "[c] [a] [a+ ⚯ c-] -[c] -[a] [b- ⚯ d+]") /\
  mapM (print_dstep d) tr = Ok [txt "NON_SEPARATING_CONNECTION([d+ ⚯ b-])";
    txt "SEPARATING_CONNECTION([a+ ⚯ c-], [e] [e+ ⚯ d-] [d+ ⚯ b-] -[e] [d- ⚯ e+] [c- ⚯ a+])";
    txt "NON_SEPARATING_CONNECTION([e+ ⚯ d-])"].
Proof. apply (after_history _ _ [0; 0; 1]); [exact m_obtainable|]. vm_compute. repeat split. Qed.
