(** Inputs over number types that pick a basis for every list of elements ([Mixed]), and what
    it means that two of them have the same ratios.  See [RatioApi] for the programs. *)
From Coq Require Import Reals Permutation.
From Verif Require Import Base QcTac LenT Mixed Lengths IET Decomp Api RatioApi.
Open Scope nat_scope.

Section One.
Context {T : Type} {O : LenOps T} {W : MixedLaws T}.

(** The length of a label. *)
Definition mixed_length (s : slen T) (l : label) : R := match nth_error (sl_lens s) l with Some x => mval x | None => 0%R end.

(** Rows with the same labels, without repetition and not empty, whose lengths are positive. *)
Definition mixed_input (s : slen T) (top bottom : list label) : Prop :=
  NoDup top /\ Permutation top bottom /\ top <> [] /\
  forall l, In l top -> exists x, nth_error (sl_lens s) l = Some x /\ (0 < mval x)%R.
End One.

Section Two.
Context {T : Type} {O : LenOps T} {W : MixedLaws T}.
Context {T' : Type} {O' : LenOps T'} {W' : MixedLaws T'}.

(** The lengths in [s'] of the given labels are [c] times their lengths in [s]. *)
Definition mixed_proportional (c : R) (ls : list label) (s : slen T) (s' : slen T') : Prop :=
  forall l, In l ls -> mixed_length s' l = (c * mixed_length s l)%R.

(** Two components look the same, up to the scale. *)
Definition mixed_view (c : R) (v : cview T) (v' : cview T') : Prop :=
  look_at v' = look_at v /\ Forall2 (fun x y => mval y = (c * mval x)%R) (cv_lengths v) (cv_lengths v').
End Two.
