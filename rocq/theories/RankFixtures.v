(** Sample data for the theorems about lengths spanned by two numbers. *)
From Coq Require Import Reals QArith Qcanon List ZArith Lia.
From Verif Require Import Base LenT FM Subspace Lengths IET LenInst Sqrt2 Decomp Spec SpecRank Api RankApi Fixtures.
Open Scope nat_scope.

(** Lengths 4 sqrt 2, 5, 3 sqrt 2 - 1, 1 on four labels. *)
Definition u_lens : slen q2 := mkslen [] [q2_of 0 4; q2_of 5 0; q2_of (-1) 3; q2_of 1 0].
Definition u_iet : iet q2 := fresh [0; 1; 2; 3] [3; 0; 2; 1].
Lemma u_obtainable : obtainable u_iet u_lens.
Proof. apply fresh_obtainable. vm_compute. reflexivity. Qed.

(** Runs for the examples. *)
Section Runs.
Context {T : Type} {O : LenOps T}.

Fixpoint stalls_run (fuel : nat) (ls : list Z) (i : iet T) (s : slen T) : bool :=
  match ls with
  | [] => true
  | l :: ls => (0 <=? l)%Z && (l <=? INT_MAX)%Z &&
    match induce sample_lens fuel l i s with
    | Ok (st, j, t) => match is_result st with LIMIT_REACHED => stalls_run fuel ls j t | _ => false end
    | _ => false
    end
  end.
Lemma stalls_run_ok fuel ls : forall i s, stalls_run fuel ls i s = true -> stalls ls i s.
Proof.
  induction ls as [|l ls IH]; intros i s H; [constructor|]. cbn [stalls_run] in H.
  apply andb_prop in H as [H H']. apply andb_prop in H as [H1 H2]. apply Z.leb_le in H1, H2.
  destruct (induce sample_lens fuel l i s) as [[[st j] t]| | | |] eqn:E; try discriminate.
  destruct (is_result st) eqn:Er; try discriminate. econstructor; [lia | exact E | exact Er | exact (IH j t H')].
Qed.

Fixpoint retry (rounds fuel : nat) (limit : Z) (n : nat) (d : decomp T) : option (bool * list (option bool * option bool)) :=
  match decompose rounds fuel default_target limit d, n with
  | Ok (ok, d'), 0 => Some (ok, map (fun x => (dc_cylinder x, dc_wpt x)) (d_comps d'))
  | Ok (false, d'), S n => retry rounds fuel limit n d'
  | _, _ => None
  end.
Lemma retry_ok rounds fuel limit n : forall d ok fs, retry rounds fuel limit n d = Some (ok, fs) ->
  exists d1 d2, retried rounds fuel limit n d d1 /\ decompose rounds fuel default_target limit d1 = Ok (ok, d2) /\
    map (fun x => (dc_cylinder x, dc_wpt x)) (d_comps d2) = fs.
Proof.
  induction n as [|n IH]; intros d ok fs H; cbn [retry] in H;
    destruct (decompose rounds fuel default_target limit d) as [[b d']| | | |] eqn:E; try discriminate.
  - exists d, d'. destruct b; injection H as <- <-; (split; [constructor|]); auto.
  - destruct b; [discriminate|]. destruct (IH d' ok fs H) as (d1 & d2 & A & B & C). exists d1, d2. split; [|auto].
    econstructor; [exact E | exact A].
Qed.
End Runs.
