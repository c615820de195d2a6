(** Property C100: the connections do not depend on the way in which they are found.

    [decomposition i s tr d] ([DecApi]): [d] is any state that a program can reach with a
    decomposition of the IET [i] with lengths [s].  [direct_connection] and
    [has_saddle_connection] are specified in [Spec], [exhausted] in [FoundApi]; [rights] and
    [lefts] are all the connections that are stored right and left of the half edges. *)
From Coq Require Import Reals Permutation List ZArith.
From Verif Require Import Base LenT FM Subspace Lengths IET LenInst Sqrt2 Decomp Spec SpecDec Api DecApi InjApi FoundApi Fixtures DecFixtures KeaneFixtures.
From Verif Require Import ClaimsDecomp ClaimsKeane ClaimsFound.
Open Scope nat_scope.

(** ** C100: All that finds all the connections finds the same connections. *)


(** Every saddle connection of the original IET either has been found or joins two half edges
    of one component: it is a saddle connection of the exchange of that component, and the
    separatrices at these half edges are its ends. *)
Theorem C100_inside : forall (T : Type) (O : LenOps T) (W : LenLaws T) (i : iet T) (s : slen T) tr d b t,
  decomposition i s tr d -> direct_connection (exch_of i s) b t ->
  In (mkconn (mksep b PARALLEL) (mksep t ANTIPARALLEL)) (rights d) \/
  exists c x l, component d c x /\ In l (i_bottom (dc_iet x)) /\ In t (i_top (dc_iet x)) /\
    he_separatrix d (mkhe c l false) = Ok (Some (mksep b PARALLEL)) /\
    he_separatrix d (mkhe c t true) = Ok (Some (mksep t ANTIPARALLEL)) /\
    direct_connection (comp_exch d x) l t.
Proof. exact claim_C100_inside. Qed.
Print Assumptions C100_inside.

(** One connection has not been found yet, it starts at the component 1. *)
Example C100_inside_example : exists tr d, decomposition z_iet z_lens tr d /\
  direct_connection (exch_of z_iet z_lens) 3 2 /\ rights d = [par 1 1; par 2 0] /\
  existsb (fun l => match he_separatrix d (mkhe 1 l false) with Ok (Some p) => sp_label p =? 3 | _ => false end) [0; 1; 2; 3] = true.
Proof.
  assert (Q : direct_connection (exch_of z_iet z_lens) 3 2).
  { destruct (after_history z_iet z_lens [0; 0; 1] (fun tr d => rights d = [par 1 1; par 3 2; par 2 0]) z_obtainable) as (tr & d & H & E); [vm_compute; reflexivity|].
    apply (proj1 (claim_C54_genuine _ _ _ _ _ _ _ H)). rewrite E. right. left. reflexivity. }
  destruct (after_history z_iet z_lens [0; 0] (fun tr d => rights d = [par 1 1; par 2 0] /\
    existsb (fun l => match he_separatrix d (mkhe 1 l false) with Ok (Some p) => sp_label p =? 3 | _ => false end) [0; 1; 2; 3] = true) z_obtainable) as (tr & d & H & E & F).
  { vm_compute. split; reflexivity. }
  exists tr, d. auto.
Qed.

(** When each component has a single interval or no saddle connections, all saddle connections
    of the original IET have been found, and nothing else. *)
Theorem C100_exact : forall (T : Type) (O : LenOps T) (W : LenLaws T) (i : iet T) (s : slen T) tr d,
  decomposition i s tr d -> exhausted d ->
  (forall b t, direct_connection (exch_of i s) b t <-> In (mkconn (mksep b PARALLEL) (mksep t ANTIPARALLEL)) (rights d)) /\
  (forall b t, direct_connection (exch_of i s) b t <-> In (mkconn (mksep t ANTIPARALLEL) (mksep b PARALLEL)) (lefts d)) /\
  (has_saddle_connection (exch_of i s) <-> rights d <> []).
Proof. exact claim_C100_exact. Qed.
Print Assumptions C100_exact.

(** So two decompositions that have found everything have found the same. *)
Theorem C100_same : forall (T : Type) (O : LenOps T) (W : LenLaws T) (i : iet T) (s : slen T) tr d tr' d',
  decomposition i s tr d -> decomposition i s tr' d' -> exhausted d -> exhausted d' ->
  Permutation (rights d) (rights d') /\ Permutation (lefts d) (lefts d') /\ Permutation (reported tr) (reported tr').
Proof. exact claim_C100_same. Qed.
Print Assumptions C100_same.

Example C100_example : exists tr d tr' d', decomposition z_iet z_lens tr d /\ decomposition z_iet z_lens tr' d' /\
  exhausted d /\ exhausted d' /\ tr <> tr' /\ length (rights d) = 3.
Proof.
  destruct (after_history z_iet z_lens [0; 0; 1] (fun tr d => length tr = 3 /\ map (fun x => length (i_top (dc_iet x))) (d_comps d) = [1; 1] /\ length (rights d) = 3) z_obtainable) as (tr & d & H & L & E & N).
  { vm_compute. repeat split. }
  destruct (after_history z_iet z_lens [0; 0; 1; 1; 0] (fun tr d => length tr = 5 /\ map (fun x => length (i_top (dc_iet x))) (d_comps d) = [1; 1]) z_obtainable) as (tr' & d' & H' & L' & E').
  { vm_compute. split; reflexivity. }
  exists tr, d, tr', d'. split; [exact H|]. split; [exact H'|]. split; [|split; [|split; [intros Q; rewrite Q, L' in L; discriminate|exact N]]].
  - intros c x Hx. left. apply nth_error_In, (in_map (fun x => length (i_top (dc_iet x)))) in Hx. rewrite E in Hx. destruct Hx as [Hx|[Hx|[]]]; symmetry; exact Hx.
  - intros c x Hx. left. apply nth_error_In, (in_map (fun x => length (i_top (dc_iet x)))) in Hx. rewrite E' in Hx. destruct Hx as [Hx|[Hx|[]]]; symmetry; exact Hx.
Qed.

(** One component is a cylinder, the other one has two intervals of incommensurable lengths. *)
Example C100_mixed_example : exists tr d, decomposition m_iet m_lens tr d /\ exhausted d /\
  map (fun x => length (i_top (dc_iet x))) (d_comps d) = [2; 1] /\ length (rights d) = 3.
Proof.
  destruct (after_history m_iet m_lens [0; 0; 1; 1; 0] (fun tr d => length (rights d) = 3 /\
    map (fun x => (length (i_top (dc_iet x)), bosh_no_saddle (dc_iet x) (d_len d))) (d_comps d) = [(2, Ok true); (1, Ok false)]) m_obtainable) as (tr & d & H & N & F).
  - vm_compute. split; reflexivity.
  - exists tr, d. split; [exact H|]. split; [|split; [|exact N]].
    + intros c x Hx. pose proof (bosh_component _ _ _ _ _ _ H Hx) as B.
      apply nth_error_In, (in_map (fun x => (length (i_top (dc_iet x)), bosh_no_saddle (dc_iet x) (d_len d)))) in Hx. rewrite F in Hx.
      destruct Hx as [Hx|[Hx|[]]]; injection Hx as E1 E2; [right; apply B; symmetry; exact E2|left; symmetry; exact E1].
    + apply (f_equal (map fst)) in F. rewrite map_map in F. exact F.
Qed.

(** A program that never stops working on a component that is not known to be a cylinder finds
    all saddle connections after finitely many steps. *)
Theorem C100_eventually : forall (T : Type) (O : LenOps T) (W : LenLaws T) (i : iet T) (s : slen T) tr
    (D : nat -> decomp T) (fuel choice : nat -> nat) (limit : nat -> Z) (st : nat -> dstep),
  decomposition i s tr (D 0) ->
  (forall n, (1 <= limit n <= INT_MAX)%Z /\ choice n < length (d_comps (D n)) /\
     decomposition_step (fuel n) (limit n) (choice n) (D n) = Ok (st n, D (S n))) ->
  (forall n c, c < length (d_comps (D n)) ->
     (exists k, n <= k /\ choice k = c /\ dst_result (st k) = D_CYLINDER) \/
     (forall m, exists k, m <= k /\ choice k = c /\
        (dst_result (st k) = D_LIMIT_REACHED \/ dst_result (st k) = D_WITHOUT_PERIODIC_TRAJECTORY_BOSHERNITZAN))) ->
  exists N, forall n, N <= n -> exhausted (D n) /\
    forall b t, direct_connection (exch_of i s) b t <-> In (mkconn (mksep b PARALLEL) (mksep t ANTIPARALLEL)) (rights (D n)).
Proof. exact claim_C100_eventually. Qed.
Print Assumptions C100_eventually.

Example C100_eventually_example : exists (D : nat -> decomp q2) st,
  decomposition rot_iet rot_lens [] (D 0) /\
  (forall n, (1 <= 1 <= INT_MAX)%Z /\ 0 < length (d_comps (D n)) /\ decomposition_step 3 1 0 (D n) = Ok (st n, D (S n))) /\
  (forall n c, c < length (d_comps (D n)) -> forall m, exists k, m <= k /\ 0 = c /\
    (dst_result (st k) = D_LIMIT_REACHED \/ dst_result (st k) = D_WITHOUT_PERIODIC_TRAJECTORY_BOSHERNITZAN)).
Proof.
  exists (fun n => Nat.iter n rot_next rot_dec), (fun n => rot_step (Nat.iter n rot_next rot_dec)). split.
  - apply dh_new; [exact rot_obtainable | vm_compute; reflexivity].
  - split.
    + intros n. split; [split; vm_compute; discriminate|]. split; [apply rot_runs | apply (rot_runs n)].
    + intros n c Hc m. exists m. split; [apply le_n|]. split; [|apply (rot_runs m)].
      destruct (rot_endless n) as (tr & _ & (_ & x & Ex & _)). rewrite Ex in Hc. cbn in Hc. lia.
Qed.
