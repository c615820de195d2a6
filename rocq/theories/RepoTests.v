(** The test suite of the project (libintervalxt/test, pyintervalxt/test), run on the model.
    These are checks that the model does what the code does, on the inputs and with the
    results that the authors of the code have written down; they are no proofs of anything. *)
From Coq Require Import String Ascii ZArith NArith QArith Qround.
From Verif Require Import Base QcTac LenT FM Subspace Lengths IET LenInst Sqrt2 Decomp Misc Print.
Close Scope Q_scope.
Open Scope nat_scope.

(** * Number fields *)

(** Elements of the field generated by a real root [x] of a polynomial, as polynomials in
    [x].  For tests only: the sign of an element that is not zero is the sign of its value at
    a rational approximation of [x]; nothing is proved about this. *)
Record field := mkfield {
  fd_red : vec;   (** [x^d] as a polynomial of smaller degree *)
  fd_root : Q;    (** the approximation of [x] *)
}.

Definition elem (K : field) := list Qc.

Section Field.
Context (K : field).

Definition degree : nat := length (fd_red K).
Definition fe_value (u : elem K) : Q := fold_right (fun c v => Qred (this c + fd_root K * v)) 0%Q u.
Definition fe_sign (u : elem K) : comparison := if vis0 u then Eq else (fe_value u ?= 0)%Q.
Definition fe_shift (u : elem K) : elem K :=
  match rev u with
  | [] => []
  | c :: r => vadd (0%Qc :: rev r) (vscale c (fd_red K))
  end.
Fixpoint fe_mul (u v : elem K) : elem K :=
  match u with
  | [] => vzero degree
  | c :: u' => vadd (vscale c v) (fe_mul u' (fe_shift v))
  end.
Definition fe_div (u v : elem K) : Z :=
  let k := Qfloor (fe_value u / fe_value v)%Q in
  match fe_sign (vsub u (vscale (zq k) v)), fe_sign (vsub u (vscale (zq (k + 1)) v)) with
  | Lt, _ => (k - 1)%Z
  | _, Lt => k
  | _, _ => (k + 1)%Z
  end.

#[local] Instance fe_ops : LenOps (elem K) := {
  l_zero := vzero degree;
  l_add := vadd;
  l_sub := vsub;
  l_scale n := vscale (zq n);
  l_cmp u v := fe_sign (vsub u v);
  l_div u v := if vis0 v then None else Some (fe_div u v);
  l_cross x y' y x' := vis0 (vsub (fe_mul x y') (fe_mul y x'));
  l_coefs xs := Ok xs;
  l_deg := degree;
  l_coef x := x;
}.
End Field.
#[local] Existing Instance fe_ops.

(** A zero of a polynomial between [lo] and [hi], by bisection, if the polynomial
    increases. *)
Fixpoint bisect (n : nat) (f : list Z) (lo hi : Q) : Q :=
  match n with
  | 0 => lo
  | S n =>
    let m := Qred ((lo + hi) * (1 # 2)) in
    let v := fold_right (fun c v => Qred (inject_Z c + m * v)) 0%Q f in
    match (v ?= 0)%Q with Gt => bisect n f lo m | _ => bisect n f m hi end
  end.

Definition q (n : Z) (m : BinNums.positive) : Qc := Q2Qc (n # m).

(** * Running *)

Definition answer_of (t : res text) : res string := t <- t ;; Ok (string_of_list_ascii t).

Section Run.
Context {T : Type} {O : LenOps T}.

(** An IET with lengths, as the function [IET] of the tests. *)
Definition IET_ (ls : list T) (top bottom : list label) : res (iet T * slen T) :=
  s <- sl_make ls ;; i <- iet_make s top bottom ;; Ok (i, s).

(** Does an IET equal the one with the given lengths and rows? *)
Definition is_ (x : iet T * slen T) (ls : list T) (top bottom : list label) : res bool :=
  y <- IET_ ls top bottom ;; iet_eqb (fst x) (snd x) (fst y) (snd y).

Definition zor (x : iet T * slen T) : res (iet T * slen T) := '(_, i, s) <- zorich sample_lens (fst x) (snd x) ;; Ok (i, s).
Definition swp (x : iet T * slen T) : iet T * slen T := (iet_swap (fst x), snd x).
Definition ind (limit : Z) (x : iet T * slen T) : res (istep T * (iet T * slen T)) :=
  '(st, i, s) <- induce sample_lens 2000 limit (fst x) (snd x) ;; Ok (st, (i, s)).

Definition dec (ls : list T) (top bottom : list label) : res (decomp T) := x <- IET_ ls top bottom ;; dec_make (fst x) (snd x).
Definition step_ (c : nat) (limit : Z) (d : decomp T) : res (dstep * decomp T) := decomposition_step 2000 limit c d.
Definition auto_ (d : decomp T) : res (bool * decomp T) := decompose 100 2000 default_target (-1) d.
Definition show_ (d : decomp T) (c : nat) : res string := answer_of (print_comp d c).
Definition show_conn (d : decomp T) (k : option connection) : res string :=
  match k with Some k => answer_of (print_conn d k) | None => UB end.
Definition flags (d : decomp T) (c : nat) : res (option bool * option bool * option bool) :=
  x <- comp_at d c ;; Ok (dc_cylinder x, dc_wpt x, dc_keane x).
End Run.

(** * interval_exchange_transformation.test.cc *)

Notation a := 0. Notation b := 1. Notation c := 2. Notation d := 3. Notation e := 4. Notation f := 5. Notation g := 6. Notation h := 7.

(** 55-74 *)
Example test_basic : (x <- IET_ [18; 3; 1; 1]%Z [a; b; c; d] [d; a; b; c] ;; Ok (i_top (fst x), i_bottom (fst x))) = Ok ([a; b; c; d], [d; a; b; c]).
Proof. vm_compute. reflexivity. Qed.

(** 76-83 *)
Example test_print : (x <- IET_ [18; 3; 1; 1]%Z [a; b; c; d] [d; a; b; c] ;; answer_of (print_iet show_Z (fst x) (snd x))) = Ok "[a: 18] [b: 3] [c: 1] [d: 1] / [d] [a] [b] [c]"%string.
Proof. vm_compute. reflexivity. Qed.

(** 85-124 *)
Definition reduces {T} {O : LenOps T} (ls : list T) top bottom : res bool :=
  x <- IET_ ls top bottom ;; '(r, _) <- reduce (fst x) (snd x) ;; Ok (match r with Some _ => true | None => false end).
Example test_reduce1 : reduces [17; 23; 33]%Z [a; b; c] [c; b; a] = Ok false.
Proof. vm_compute. reflexivity. Qed.
Example test_reduce2 : reduces [1; 1; 1]%Z [a; b; c] [b; c; a] = Ok false.
Proof. vm_compute. reflexivity. Qed.
Example test_reduce3 : reduces [1]%Z [a] [a] = Ok false.
Proof. vm_compute. reflexivity. Qed.
Example test_reduce4 : (x <- IET_ [1; 2; 3]%Z [a; b; c] [a; b; c] ;; '(r, i) <- reduce (fst x) (snd x) ;;
  y <- is_ (i, snd x) [1; 2; 3]%Z [a] [a] ;; Ok (match r with Some _ => true | None => false end, y)) = Ok (true, true).
Proof. vm_compute. reflexivity. Qed.
Example test_reduce5 : (x <- IET_ [17; 23; 33]%Z [a; b; c] [b; a; c] ;; '(r, i) <- reduce (fst x) (snd x) ;;
  match r with
  | Some j => y <- is_ (j, snd x) [17; 23; 33]%Z [c] [c] ;; z <- is_ (i, snd x) [17; 23; 33]%Z [a; b] [b; a] ;; Ok (y, z)
  | None => UB
  end) = Ok (true, true).
Proof. vm_compute. reflexivity. Qed.

(** 126-238 *)
Definition zor_gives {T} {O : LenOps T} (ls : list T) top bottom (ls' : list T) top' bottom' : res bool :=
  x <- IET_ ls top bottom ;; x <- zor x ;; is_ x ls' top' bottom'.
Example test_zorich1 : zor_gives [23; 5]%Z [a; b] [b; a] [23 - 4 * 5; 5]%Z [a; b] [b; a] = Ok true.
Proof. vm_compute. reflexivity. Qed.
Example test_zorich2 : zor_gives [5; 3]%Z [a; b] [b; a] [2; 3]%Z [a; b] [b; a] = Ok true.
Proof. vm_compute. reflexivity. Qed.
Example test_zorich3 : zor_gives [13; 1]%Z [a; b] [b; a] [1; 1]%Z [a; b] [b; a] = Ok true.
Proof. vm_compute. reflexivity. Qed.
Example test_zorich4 : zor_gives [15; 2; 3; 7]%Z [a; d; b; c] [b; c; a; d] [3; 2; 3; 7]%Z [a; d; b; c] [c; b; a; d] = Ok true.
Proof. vm_compute. reflexivity. Qed.
Example test_zorich_mpz : zor_gives [14328748557375491835455123393141239398243; 51123145748597134]%Z [a; b] [b; a] [15560595195676063; 51123145748597134]%Z [a; b] [b; a] = Ok true.
Proof. vm_compute. reflexivity. Qed.
Example test_zorich_mpq : zor_gives [q 3 5; q 1 4] [a; b] [b; a] [q 1 10; q 1 4] [a; b] [b; a] = Ok true.
Proof. vm_compute. reflexivity. Qed.

Definition golden : field := Eval vm_compute in mkfield [1%Qc; 1%Qc] (bisect 200 [-1; -1; 1]%Z 1 2).
Example test_zorich_renf : zor_gives (T := elem golden) [[q 0 1; q 1 1]; [q 1 1; q 0 1]] [a; b] [b; a] [[q (-1) 1; q 1 1]; [q 1 1; q 0 1]] [a; b] [b; a] = Ok true.
Proof. vm_compute. reflexivity. Qed.

Example test_zorich_several : (
  x <- IET_ [977; 351; 143; 321; 12]%Z [a; b; c; d; e] [d; c; a; e; b] ;;
  x <- zor x ;; t1 <- is_ x [49; 351; 143; 321; 12]%Z [a; b; c; d; e] [d; c; a; e; b] ;;
  x <- zor (swp x) ;; t2 <- is_ x [49; 351; 143; 272; 12]%Z [d; c; a; e; b] [b; c; a; d; e] ;;
  x <- zor (swp x) ;; t3 <- is_ x [49; 79; 143; 272; 12]%Z [b; c; a; d; e] [c; a; e; d; b] ;;
  x <- zor (swp x) ;; t4 <- is_ x [49; 79; 64; 272; 12]%Z [c; a; e; d; b] [b; c; a; d; e] ;;
  x <- zor (swp x) ;; t5 <- is_ x [49; 15; 64; 272; 12]%Z [b; c; a; d; e] [a; e; d; c; b] ;;
  x <- zor (swp x) ;; t6 <- is_ x [34; 15; 64; 272; 12]%Z [a; e; d; c; b] [c; b; a; d; e] ;;
  Ok [t1; t2; t3; t4; t5; t6]) = Ok [true; true; true; true; true; true].
Proof. vm_compute. reflexivity. Qed.

(** 240-322 *)
Example test_induce_none : (x <- IET_ [1; 2; 3]%Z [a; b; c] [c; b; a] ;; '(st, _) <- ind 0 x ;; Ok (is_result st)) = Ok LIMIT_REACHED.
Proof. vm_compute. reflexivity. Qed.
Example test_induce_cylinders : (
  x <- IET_ [1; 2; 3]%Z [a; b; c] [a; c; b] ;; '(st0, x) <- ind 0 x ;;
  t0 <- match is_additional st0 with Some j => is_ (j, snd x) [1; 2; 3]%Z [b; c] [c; b] | None => UB end ;;
  '(st1, x) <- ind 0 x ;; t1 <- is_ x [1; 2; 3]%Z [a] [a] ;;
  Ok (is_result st0, t0, is_result st1, t1)) = Ok (SEPARATING_CONNECTION, true, CYLINDER, true).
Proof. vm_compute. reflexivity. Qed.
Example test_induce_connection : (
  x <- IET_ [1; 1; 1]%Z [a; b; c] [c; b; a] ;; '(st, x) <- ind 0 x ;; t <- is_ x [1; 1; 1]%Z [b; c] [b; c] ;;
  Ok (is_result st, is_connection st, t)) = Ok (NON_SEPARATING_CONNECTION, Some (c, a), true).
Proof. vm_compute. reflexivity. Qed.
Example test_induce_connections : (
  x <- IET_ [1; 2; 3; 1; 5; 7]%Z [a; b; c; d; e; f] [d; c; b; f; e; a] ;; '(st0, x) <- ind 0 x ;; '(st1, x) <- ind 0 x ;;
  t0 <- is_ x [1; 2; 3; 1; 5; 7]%Z [b; c] [c; b] ;;
  t1 <- match is_additional st1 with Some j => is_ (j, snd x) [1; 2; 3; 1; 5; 7]%Z [d; e; f] [f; e; d] | None => UB end ;;
  Ok (is_result st0, is_result st1, t0, t1)) = Ok (NON_SEPARATING_CONNECTION, SEPARATING_CONNECTION, true, true).
Proof. vm_compute. reflexivity. Qed.
Example test_induce_full : (
  x <- IET_ [1; 1; 1]%Z [a; b; c] [c; a; b] ;; '(st0, x) <- ind 0 x ;; '(st1, x) <- ind 0 x ;; '(st2, x) <- ind 0 x ;;
  Ok (is_result st0, is_connection st0, is_result st1, is_connection st1, is_result st2)) =
  Ok (NON_SEPARATING_CONNECTION, Some (c, a), NON_SEPARATING_CONNECTION, Some (c, b), CYLINDER).
Proof. vm_compute. reflexivity. Qed.
Example test_induce_limit : (
  x <- IET_ [13; 5]%Z [a; b] [b; a] ;; '(st0, x) <- ind 0 x ;; '(st1, x) <- ind 1 x ;; '(st2, x) <- ind 1 x ;; '(st3, x) <- ind 1 x ;;
  Ok (map is_result [st0; st1; st2; st3])) = Ok [LIMIT_REACHED; LIMIT_REACHED; NON_SEPARATING_CONNECTION; CYLINDER].
Proof. vm_compute. reflexivity. Qed.

(** 324-431: the SAF invariant, and that it does not change in ten steps. *)
Fixpoint saf_steps {T} {O : LenOps T} (n : nat) (v : vec) (x : iet T * slen T) : res bool :=
  match n with
  | 0 => Ok true
  | S n =>
    x <- zor x ;; let x := swp x in
    '(w, i) <- saf_invariant (fst x) (snd x) ;;
    let w := if i_swap i then vneg w else w in
    if (length v =? length w) && vis0 (vsub v w) then saf_steps n v (i, snd x) else Ok false
  end.
Definition saf_test {T} {O : LenOps T} (x : iet T * slen T) : res (bool * bool) :=
  '(v, i) <- saf_invariant (fst x) (snd x) ;; t <- saf_steps 10 v (i, snd x) ;; Ok (vis0 v, t).

Example test_saf_integers : (x <- IET_ [18; 3; 1; 1]%Z [a; b; c; d] [d; a; b; c] ;; '(v, _) <- saf_invariant (fst x) (snd x) ;; Ok v) = Ok [].
Proof. vm_compute. reflexivity. Qed.

Definition K1 : field := Eval vm_compute in mkfield [q 1 1; q 3 1; q 2 1] (bisect 300 [-1; -3; -2; 1]%Z (306 # 100) (308 # 100)).
Example test_saf1 : (
  x <- IET_ (T := elem K1) [[q 0 1; q 1 2; q 0 1]; [q (-1) 13; q 0 1; q 1 1]; [q (-1) 1; q 4 7; q 0 1]; [q 2 1; q 0 1; q 0 1]] [a; b; c; d] [d; c; b; a] ;;
  let x := swp x in '(_, i) <- saf_invariant (fst x) (snd x) ;; let x := swp (i, snd x) in saf_test x) = Ok (false, true).
Proof. vm_compute. reflexivity. Qed.

Definition K2 : field := Eval vm_compute in mkfield [q 13 5; q 3 5; q 2 5] (bisect 300 [-13; -3; -2; 5]%Z (167 # 100) (169 # 100)).
Example test_saf2 : (
  x <- IET_ (T := elem K2) [[q 0 1; q 2 17; q 0 1]; [q (-1) 18; q 0 1; q 5 3]; [q (-3) 1; q 0 1; q 5 2]; [q 3 1; q 0 1; q 0 1]] [a; b; c; d] [d; c; b; a] ;;
  saf_test x) = Ok (false, true).
Proof. vm_compute. reflexivity. Qed.

Definition AY3 : field := Eval vm_compute in mkfield [q 1 1; q 1 1; q 1 1] (bisect 300 [-1; -1; -1; 1]%Z (183 # 100) (185 # 100)).
Definition ay3 : list (elem AY3) :=
  [[q 1 1; q 1 1; q 0 1]; [q (-1) 1; q (-1) 1; q 1 1]; [q 0 1; q 0 1; q 1 1]; [q 0 1; q 1 1; q 0 1]; [q 0 1; q 1 1; q 0 1]; [q 1 1; q 0 1; q 0 1]; [q 1 1; q 0 1; q 0 1]].
Example test_saf_ay3 : (x <- IET_ ay3 [a; b; c; d; e; f; g] [b; e; d; g; f; c; a] ;; saf_test x) = Ok (true, true).
Proof. vm_compute. reflexivity. Qed.

Definition AY4 : field := Eval vm_compute in mkfield [q 1 1; q 1 1; q 1 1; q 1 1] (bisect 300 [-1; -1; -1; -1; 1]%Z (191 # 100) (193 # 100)).
Definition ay4 : list (elem AY4) :=
  let x4 := [q 1 1; q 1 1; q 1 1; q 1 1] in let x3 := [q 0 1; q 0 1; q 0 1; q 1 1] in let x2 := [q 0 1; q 0 1; q 1 1; q 0 1] in
  let x1 := [q 0 1; q 1 1; q 0 1; q 0 1] in let one := [q 1 1; q 0 1; q 0 1; q 0 1] in
  [vsub x4 x3; vsub (vscale (q 2 1) x3) x4; x3; x2; x2; x1; x1; one; one].
Example test_saf_ay4 : (x <- IET_ ay4 [a; b; c; d; e; f; g; h; 8] [b; e; d; g; f; 8; h; c; a] ;; saf_test x) = Ok (true, true).
Proof. vm_compute. reflexivity. Qed.

(** 433-555 *)
Definition bosh {T} {O : LenOps T} (ls : list T) top bottom : res (bool * bool) :=
  x <- IET_ ls top bottom ;; '(p, _) <- bosh_no_periodic (fst x) (snd x) ;; s <- bosh_no_saddle (fst x) (snd x) ;; Ok (p, s).
(** The answers for the given pairs. *)
Definition bosh2 {T} {O : LenOps T} (ls : list T) top bottom pairs : res (list bool) :=
  x <- IET_ ls top bottom ;; mapM (fun p => bosh_no_saddle2 (fst x) (snd x) (fst p) (snd p)) pairs.
(** All pairs of separatrices. *)
Definition pairs (top bottom : list label) : list (label * label) := list_prod (removelast top) (removelast bottom).

Example test_bosh_rationals : bosh [451; 3221; 451]%Z [a; b; c] [c; b; a] = Ok (false, false) /\
  bosh2 [451; 3221; 451]%Z [a; b; c] [c; b; a] [(a, c); (a, b); (b, c); (b, b)] = Ok [false; false; false; false].
Proof. vm_compute. split; reflexivity. Qed.

Definition R2 : field := Eval vm_compute in mkfield [q 2 1; q 0 1] (bisect 200 [-2; 0; 1]%Z 1 2).
Definition r2_of (x y : Z) : elem R2 := [q x 1; q y 1].
Example test_bosh_cylinder : bosh [r2_of 0 1] [a] [a] = Ok (false, false).
Proof. vm_compute. reflexivity. Qed.
Example test_bosh_cylinders : bosh [r2_of 0 1; r2_of 1 0] [a; b] [a; b] = Ok (false, false).
Proof. vm_compute. reflexivity. Qed.
Example test_bosh_free1 : bosh [r2_of 0 1; r2_of 1 0; r2_of 1 0; r2_of 1 0] [b; a] [a; b] = Ok (true, true) /\
  bosh2 [r2_of 0 1; r2_of 1 0; r2_of 1 0; r2_of 1 0] [b; a] [a; b] (pairs [b; a] [a; b]) = Ok [true].
Proof. vm_compute. split; reflexivity. Qed.
Example test_bosh_free2 : bosh [r2_of 0 1; r2_of 1 0; r2_of 1 0; r2_of 1 0] [a; b; c; d] [d; b; a; c] = Ok (true, false) /\
  bosh2 [r2_of 0 1; r2_of 1 0; r2_of 1 0; r2_of 1 0] [a; b; c; d] [d; b; a; c] [(a, d); (a, b); (a, a); (b, d); (b, b); (b, a); (c, d); (c, b); (c, a)] =
    Ok [true; true; true; true; true; true; true; true; false].
Proof. vm_compute. split; reflexivity. Qed.
Example test_bosh_with_cylinder : bosh [r2_of 8 7; r2_of 2 3; r2_of 5 4] [a; b; c] [c; b; a] = Ok (false, false).
Proof. vm_compute. reflexivity. Qed.

Definition C2 : field := Eval vm_compute in mkfield [q 2 1; q 0 1; q 0 1] (bisect 200 [-2; 0; 0; 1]%Z 1 2).
Definition c2_of (x y z : Z) : elem C2 := [q x 1; q y 1; q z 1].
Example test_bosh_cubic1 : bosh [c2_of 0 0 1; c2_of 0 1 0; c2_of 1 0 0] [a; b] [b; a] = Ok (true, true).
Proof. vm_compute. reflexivity. Qed.
Example test_bosh_cubic2 : bosh [c2_of 0 0 1; c2_of 0 1 0; c2_of 1 0 0] [a; b; c] [c; b; a] = Ok (true, true).
Proof. vm_compute. reflexivity. Qed.
(** Not run: the last IET of the file, lines 541-552, with six intervals; the elimination that
    stands for PPL in the model takes too long. *)

(** * dynamical_decomposition.test.cc *)

(** 43-128 *)
Definition t43 : res (decomp (elem R2)) := dec [r2_of 1 0; r2_of 3 0; r2_of 0 1; r2_of 3 0; r2_of 3 0] [b; a; c; d; e] [d; c; a; e; b].
Example test_decomposition_manual : (
  D <- t43 ;; s0 <- show_ D 0 ;; f0 <- flags D 0 ;;
  '(st1, D) <- step_ 0 (-1) D ;; k1 <- show_conn D (dst_connection st1) ;; s1 <- show_ D 0 ;; f1 <- flags D 0 ;;
  '(st2, D) <- step_ 0 (-1) D ;; k2 <- show_conn D (dst_connection st2) ;; s2 <- show_ D 0 ;; s2' <- show_ D 1 ;; f2 <- flags D 1 ;;
  '(st3, D) <- step_ 1 (-1) D ;; f3 <- flags D 1 ;;
  '(st4, D) <- step_ 1 (-1) D ;; f4 <- flags D 1 ;; s4 <- show_ D 1 ;;
  '(st5, D) <- step_ 0 (-1) D ;; f5 <- flags D 0 ;; s5 <- show_ D 0 ;;
  Ok (map dst_result [st1; st2; st3; st4; st5], dst_additional st2, [f0; f1; f2; f3; f4; f5], [k1; k2], [s0; s1; s2; s2'; s4; s5])) =
  Ok ([D_NON_SEPARATING_CONNECTION; D_SEPARATING_CONNECTION; D_NON_SEPARATING_CONNECTION; D_CYLINDER; D_WITHOUT_PERIODIC_TRAJECTORY_BOSHERNITZAN],
    Some 1,
    [(None, None, None); (None, None, None); (None, None, None); (None, None, None); (Some true, Some false, Some false); (Some false, Some true, None)],
    ["[d+ ⚯ b-]"; "[a+ ⚯ c-]"]%string,
    ["[d] [c] [a] [e] [b] -[e] -[d] -[c] -[a] -[b]";
     "[c] [a] [e] [d] [d+ ⚯ b-] -[e] -[d] -[c] -[a] [b- ⚯ d+]";
     "[c] [a] [a+ ⚯ c-] -[c] -[a] [b- ⚯ d+]";
     "[e] [d] [d+ ⚯ b-] -[e] -[d] [c- ⚯ a+]";
     "[e] [e+ ⚯ d-] [d+ ⚯ b-] -[e] [d- ⚯ e+] [c- ⚯ a+]";
     "[c] [a] [a+ ⚯ c-] -[c] -[a] [b- ⚯ d+]"]%string).
Proof. vm_compute. reflexivity. Qed.
Example test_decomposition_auto : (
  D <- t43 ;; '(_, D) <- auto_ D ;; f0 <- flags D 0 ;; f1 <- flags D 1 ;; s0 <- show_ D 0 ;; s1 <- show_ D 1 ;;
  Ok (length (d_comps D), snd (fst f0), fst (fst f1), [s0; s1])) =
  Ok (2, Some true, Some true, ["[c] [a] [a+ ⚯ c-] -[c] -[a] [b- ⚯ d+]"; "[e] [e+ ⚯ d-] [d+ ⚯ b-] -[e] [d- ⚯ e+] [c- ⚯ a+]"]%string).
Proof. vm_compute. reflexivity. Qed.

(** 130-149 *)
Example test_self_similar : (
  D <- dec ay3 [a; b; c; d; e; f; g] [b; e; d; g; f; c; a] ;; '(st, _) <- step_ 0 (-1) D ;; Ok (dst_result st)) = Ok D_WITHOUT_PERIODIC_TRAJECTORY_AUTO_SIMILAR.
Proof. vm_compute. reflexivity. Qed.

(** 151-169, with a smaller limit than 1024. *)
Definition AYM : field := Eval vm_compute in mkfield [q 1 1; q 0 1; q 1 1; q 0 1; q 1 1; q 0 1] (bisect 100 [-1; 0; -1; 0; -1; 0; 1]%Z (13 # 10) (14 # 10)).
Definition aym : list (elem AYM) := let E x0 x1 x2 x3 x4 x5 := map zq [x0; x1; x2; x3; x4; x5]%Z in
  [E 0 1 0 0 0 0; E 1 (-1) 1 0 0 0; E (-1) 0 (-1) 0 1 0; E 0 0 0 0 1 0; E 0 0 1 0 0 0; E 0 0 1 0 0 0; E 1 0 0 0 0 0; E 1 0 0 0 0 0]%Z.
Example test_marked_point : (
  D <- dec aym [a; b; c; d; e; f; g; h] [c; f; e; h; g; d; a; b] ;; '(st, _) <- step_ 0 40 D ;; Ok (dst_result st)) = Ok D_LIMIT_REACHED.
Proof. vm_compute. reflexivity. Qed.

(** 171-197, with a smaller limit than 1024; all lengths are odd polynomials in the generator
    with denominators 1 and 2. *)
Definition HD : field := Eval vm_compute in mkfield (map zq [-1; 0; 8; 0; -14; 0; 7; 0]%Z) (bisect 100 [-1; 0; 8; 0; -14; 0; 7; 0; -1]%Z (-91 # 100) (-71 # 100)).
Definition hd_of (x1 x3 x5 x7 : Z) : elem HD := [q 0 1; q x1 2; q 0 1; q x3 2; q 0 1; q x5 2; q 0 1; q x7 2].
Definition hard : list (elem HD) :=
  [hd_of 13 (-31) 19 (-3);
   hd_of (-31) 70 (-39) 6;
   hd_of 49 (-113) 65 (-10);
   hd_of 41 (-90) 47 (-7);
   hd_of 11 (-23) 10 (-1);
   hd_of (-19) 39 (-18) 2;
   hd_of (-123) 271 (-143) 21;
   hd_of 29 (-62) 30 (-4);
   hd_of (-22) 49 (-27) 4;
   hd_of 32 (-72) 39 (-6);
   hd_of 29 (-62) 30 (-4);
   hd_of (-24) 47 (-22) 3;
   hd_of 62 (-137) 71 (-10);
   hd_of (-5) 9 (-6) 1;
   hd_of (-73) 160 (-84) 12;
   hd_of 11 (-29) 15 (-2)]%Z.
Example test_hard : (
  D <- dec hard (seq 0 16) [11; 12; 5; 15; 1; 13; 9; 4; 14; 8; 7; 2; 3; 6; 10; 0] ;;
  '(st1, D) <- step_ 0 (-1) D ;; '(st2, D) <- step_ 0 (-1) D ;; '(st3, D) <- step_ 0 (-1) D ;; '(st4, D) <- step_ 0 20 D ;;
  Ok (map dst_result [st1; st2; st3; st4])) = Ok [D_NON_SEPARATING_CONNECTION; D_NON_SEPARATING_CONNECTION; D_NON_SEPARATING_CONNECTION; D_LIMIT_REACHED].
Proof. vm_compute. reflexivity. Qed.

(** 200-218 *)
Definition R3 : field := Eval vm_compute in mkfield [q 3 1; q 0 1] (bisect 200 [-3; 0; 1]%Z 1 2).
Example test_1221 : (
  D <- dec (T := elem R3) [[q 0 1; q 17528509747 5000000000]; [q 0 1; q 150057 100000]; [q 0 1; q 50057 100000]; [q 0 1; q 150057 100000]] [a; b; c; d] [d; b; a; c] ;;
  '(_, D) <- comp_decompose 100 2000 default_target (-1) 0 D ;; show_ D 0) =
  Ok "[d] [d+ ⚯ b-] [b+ ⚯ a-] [a+ ⚯ c-] -[d] [b- ⚯ d+] [a- ⚯ b+] [c- ⚯ a+]"%string.
Proof. vm_compute. reflexivity. Qed.

(** 220-233 *)
Example test_trivial : (D <- dec [1]%Z [a] [a] ;; '(r, D) <- auto_ D ;; s <- show_ D 0 ;; Ok (r, s)) = Ok (true, "[a] -[a]"%string).
Proof. vm_compute. reflexivity. Qed.

(** 235-275 *)
Example test_obvious_manual : (
  D <- dec [1; 1]%Z [a; b] [b; a] ;; f0 <- flags D 0 ;; s0 <- show_ D 0 ;;
  '(st1, D) <- step_ 0 (-1) D ;; f1 <- flags D 0 ;; s1 <- show_ D 0 ;;
  '(st2, D) <- step_ 0 (-1) D ;; s2 <- show_ D 0 ;;
  Ok (map dst_result [st1; st2], [f0; f1], [s0; s1; s2])) =
  Ok ([D_NON_SEPARATING_CONNECTION; D_CYLINDER], [(None, None, None); (None, None, None)],
    ["[b] [a] -[b] -[a]"; "[b] [b+ ⚯ a-] -[b] [a- ⚯ b+]"; "[b] [b+ ⚯ a-] -[b] [a- ⚯ b+]"]%string).
Proof. vm_compute. reflexivity. Qed.
Example test_obvious_auto : (D <- dec [1; 1]%Z [a; b] [b; a] ;; '(r, D) <- auto_ D ;; s <- show_ D 0 ;; Ok (r, s)) = Ok (true, "[b] [b+ ⚯ a-] -[b] [a- ⚯ b+]"%string).
Proof. vm_compute. reflexivity. Qed.

(** 277-333 *)
Example test_nested_manual : (
  D <- dec [1; 1; 1]%Z [a; b; c] [c; b; a] ;; f0 <- flags D 0 ;; s0 <- show_ D 0 ;;
  '(st1, D) <- step_ 0 (-1) D ;; f1 <- flags D 0 ;; s1 <- show_ D 0 ;;
  '(st2, D) <- step_ 0 (-1) D ;;
  '(st3, D) <- step_ 1 (-1) D ;; f3 <- flags D 1 ;; s3 <- show_ D 1 ;; f3' <- flags D 0 ;;
  '(st4, D) <- step_ 0 (-1) D ;; f4 <- flags D 0 ;; s4 <- show_ D 0 ;;
  Ok (map dst_result [st1; st2; st3; st4], dst_additional st2, [f0; f1], map (fun x => fst (fst x)) [f3; f3'; f4], [s0; s1; s3; s4])) =
  Ok ([D_NON_SEPARATING_CONNECTION; D_SEPARATING_CONNECTION; D_CYLINDER; D_CYLINDER], Some 1, [(None, None, None); (None, None, None)], [Some true; None; Some true],
    ["[c] [b] [a] -[c] -[b] -[a]"; "[b] [c] [c+ ⚯ a-] -[c] -[b] [a- ⚯ c+]"; "[c] [c+ ⚯ a-] -[c] [b- ⚯ b+]"; "[b] [b+ ⚯ b-] -[b] [a- ⚯ c+]"]%string).
Proof. vm_compute. reflexivity. Qed.
Example test_nested_auto : (D <- dec [1; 1; 1]%Z [a; b; c] [c; b; a] ;; '(r, D) <- auto_ D ;; s <- show_ D 0 ;; s' <- show_ D 1 ;; Ok (r, s, s')) =
  Ok (true, "[b] [b+ ⚯ b-] -[b] [a- ⚯ c+]", "[c] [c+ ⚯ a-] -[c] [b- ⚯ b+]")%string.
Proof. vm_compute. reflexivity. Qed.

(** 335-385 *)
Example test_deeper_manual : (
  D <- dec [1; 1; 1; 1]%Z [a; b; c; d] [d; a; c; b] ;; f0 <- flags D 0 ;; s0 <- show_ D 0 ;;
  '(st1, D) <- step_ 0 (-1) D ;; f1 <- flags D 0 ;; s1 <- show_ D 0 ;;
  '(st2, D) <- step_ 0 (-1) D ;; f2 <- flags D 0 ;; s2 <- show_ D 0 ;;
  '(st3, D) <- step_ 0 (-1) D ;; f3 <- flags D 0 ;; s3 <- show_ D 0 ;;
  Ok (map dst_result [st1; st2; st3], [f0; f1; f2; f3], [s0; s1; s2; s3])) =
  Ok ([D_NON_SEPARATING_CONNECTION; D_NON_SEPARATING_CONNECTION; D_SEPARATING_CONNECTION], repeat (None, None, None) 4,
    ["[d] [a] [c] [b] -[d] -[c] -[b] -[a]"; "[d] [d+ ⚯ a-] [c] [b] -[d] -[c] -[b] [a- ⚯ d+]"; "[c] [a- ⚯ d+] [d] [d+ ⚯ a-] [a+ ⚯ b-] -[d] -[c] [b- ⚯ a+]"; "[c] [c+ ⚯ c-] -[c] [b- ⚯ a+]"]%string).
Proof. vm_compute. reflexivity. Qed.
Example test_deeper_auto : (D <- dec [1; 1; 1; 1]%Z [a; b; c; d] [d; a; c; b] ;; '(r, D) <- auto_ D ;; s <- show_ D 0 ;; s' <- show_ D 1 ;; Ok (r, s, s')) =
  Ok (true, "[c] [c+ ⚯ c-] -[c] [b- ⚯ a+]", "[d] [d+ ⚯ a-] [a+ ⚯ b-] -[d] [c- ⚯ c+] [a- ⚯ d+]")%string.
Proof. vm_compute. reflexivity. Qed.

(** 382-455 *)
Definition edge_top (l : label) : hedge := mkhe 0 l true.
Definition edge_bottom (l : label) : hedge := mkhe 0 l false.
Definition inj {T} {O : LenOps T} (D : decomp T) x l r : res (decomp T) := '(_, _, D) <- inject D x l r ;; Ok D.
Example test_inject_bottom : (
  D <- dec [8; 5; 0]%Z [a; b] [b; a] ;; D <- inj D (he_neg (edge_top a)) [(c, a)] [(a, c)] ;; s0 <- show_ D 0 ;;
  '(_, D) <- step_ 0 1 D ;; s1 <- show_ D 0 ;; bot <- bottom_contour D 0 ;; n <- he_left D (last bot (edge_top a)) ;;
  Ok (s0, s1, length n)) = Ok ("[b] [c- ⚯ a+] [a] [a+ ⚯ c-] -[b] -[a]"%string, "[b] [a] [a+ ⚯ c-] -[b] -[a] [c- ⚯ a+]"%string, 0).
Proof. vm_compute. reflexivity. Qed.
Example test_inject_top : (
  D <- dec [8; 5; 0]%Z [b; a] [a; b] ;; D <- inj D (edge_top a) [(c, a)] [(a, c)] ;; s0 <- show_ D 0 ;;
  '(_, D) <- step_ 0 1 D ;; s1 <- show_ D 0 ;; top <- top_contour D 0 ;; n <- he_left D (last top (edge_top a)) ;;
  Ok (s0, s1, length n)) = Ok ("[a] [b] [a+ ⚯ c-] -[a] [c- ⚯ a+] -[b]"%string, "[a] [b] [a+ ⚯ c-] -[a] -[b] [c- ⚯ a+]"%string, 0).
Proof. vm_compute. reflexivity. Qed.

(** 457-481 *)
Example test_inject_decompose : (
  D <- dec [1; 1; 0; 0; 0; 0]%Z [a; b] [b; a] ;;
  D <- inj D (edge_top a) [(c, a); (f, e); (a, d)] [(d, a)] ;;
  D <- inj D (edge_top b) [(e, b)] [] ;;
  D <- inj D (he_neg (edge_top b)) [] [(b, e); (e, f)] ;;
  D <- inj D (he_neg (edge_top a)) [] [(a, c)] ;; s0 <- show_ D 0 ;;
  '(_, D) <- comp_decompose 100 2000 default_target (-1) 0 D ;; s1 <- show_ D 0 ;; Ok [s0; s1]) =
  Ok ["[b] [b+ ⚯ e-] [e+ ⚯ f-] [a] [a+ ⚯ c-] -[b] [e- ⚯ b+] [d+ ⚯ a-] -[a] [c- ⚯ a+] [f- ⚯ e+] [a- ⚯ d+]";
      "[b] [b+ ⚯ e-] [e+ ⚯ f-] [f+ ⚯ d-] [d+ ⚯ a-] [a+ ⚯ c-] -[b] [e- ⚯ b+] [d- ⚯ f+] [c- ⚯ a+] [f- ⚯ e+] [a- ⚯ d+]"]%string.
Proof. vm_compute. reflexivity. Qed.

(** * component.test.cc 37-43 *)
Example test_component_iet : (
  x <- IET_ [1]%Z [a] [a] ;; D <- dec_make (fst x) (snd x) ;; y <- comp_iet D 0 ;;
  s <- answer_of (print_iet show_Z (fst x) (snd x)) ;; t <- answer_of (print_iet show_Z (fst y) (snd y)) ;; Ok (String.eqb s t)) = Ok true.
Proof. vm_compute. reflexivity. Qed.

(** * connection.test.cc 32-41, separatrix.test.cc 32-52 *)
Definition sides {T} {O : LenOps T} (ls : list T) top bottom : res (connection * connection) :=
  D <- dec ls top bottom ;; '(_, D) <- auto_ D ;; l <- comp_left D 0 ;; r <- comp_right D 0 ;;
  match l, r with [SConn x], [SConn y] => Ok (x, y) | _, _ => UB end.
Example test_connection : ('(l, r) <- sides [1; 1]%Z [a; b] [b; a] ;; Ok (conn_eqb l (conn_neg r))) = Ok true.
Proof. vm_compute. reflexivity. Qed.
Example test_separatrix : ('(l, r) <- sides [1; 1]%Z [a; b] [b; a] ;;
  Ok [sep_eqb (cn_source l) (cn_target r); sep_eqb (cn_source l) (cn_source r); sep_eqb (cn_target l) (cn_source r); sep_eqb (cn_target l) (cn_target r)]) =
  Ok [true; false; true; false].
Proof. vm_compute. reflexivity. Qed.

(** connection.test.cc 43-79, separatrix.test.cc 54-89 *)
Definition injected {T} {O : LenOps T} (ls : list T) top bottom (at_ : decomp T -> res (list hedge)) n l r : res (connection * connection) :=
  D <- dec ls top bottom ;; es <- at_ D ;;
  match nth_error es n with
  | Some x => '(cl, cr, _) <- inject D x l r ;; Ok (hd (mkconn (mksep a PARALLEL) (mksep a PARALLEL)) cl, hd (mkconn (mksep a PARALLEL) (mksep a PARALLEL)) cr)
  | None => UB
  end.
Example test_connection_injected : (
  '(_, r) <- injected [1; 1; 1; 1; 0]%Z [a; b] [b; a] (fun D => top_contour D 0) 0 [] [(e, a)] ;;
  '(l, _) <- injected [1; 1; 1; 1; 0]%Z [c; d] [d; c] (fun D => bottom_contour D 0) 1 [(a, e)] [] ;;
  Ok (conn_eqb r (conn_neg l))) = Ok true.
Proof. vm_compute. reflexivity. Qed.
Example test_separatrix_injected : (
  '(_, r) <- injected [1; 1; 1; 1]%Z [a; b] [b; a] (fun D => bottom_contour D 0) 1 [] [(a, b)] ;;
  '(l, _) <- injected [1; 1; 1; 1]%Z [c; d] [d; c] (fun D => bottom_contour D 0) 0 [(b, a)] [] ;;
  Ok (sep_eqb (cn_source r) (cn_target l), sep_eqb (cn_target r) (cn_source l))) = Ok (true, true).
Proof. vm_compute. reflexivity. Qed.

(** * rational_affine_subspace.test.cc *)

(** 31-52; [nznn_quotient] takes the equations as they are. *)
Definition all_nznn (r : res ras) (eqs : list vec) : res (bool * bool * bool) :=
  r <- r ;; x <- nznn_polyhedron r ;; y <- nznn_quotient r eqs ;; z <- nznn_mip r ;; Ok (x, y, z).
Definition no := Ok (false, false, false).
Definition yes := Ok (true, true, true).
Definition zv : list Z -> vec := map zq.
Definition of_eqs (eqs : list (list Z)) (y : list Z) : res ras := ras_equations (map zv eqs) (zv y).
Example test_nznn_equations :
  all_nznn (Ok ras_default) [] = no /\ all_nznn (of_eqs [] []) [] = no /\ all_nznn (of_eqs [[]] [0]%Z) [[]] = no /\
  all_nznn (of_eqs [[1; 0]] [0])%Z [zv [1; 0]%Z] = yes /\
  all_nznn (of_eqs [[1; 0]; [0; 1]] [0; 0])%Z [zv [1; 0]%Z; zv [0; 1]%Z] = no /\
  all_nznn (of_eqs [[1; -1]] [0])%Z [zv [1; -1]%Z] = yes /\
  all_nznn (of_eqs [[1; 1]] [0])%Z [zv [1; 1]%Z] = no.
Proof. vm_compute. repeat split; reflexivity. Qed.
(** For spaces that are given by generators; the equations are those of the orthogonal
    complement. *)
Definition of_gens (gens : list (list Z)) : res ras := ras_generators (map zv gens).
Example test_nznn_generators :
  all_nznn (of_gens []) [] = no /\ all_nznn (of_gens [[]]) [] = no /\
  all_nznn (of_gens [[0; 1]])%Z [zv [1; 0]%Z] = yes /\ all_nznn (of_gens [[0; -1]])%Z [zv [1; 0]%Z] = yes /\
  all_nznn (of_gens [[0; 0]])%Z [zv [1; 0]%Z; zv [0; 1]%Z] = no /\
  all_nznn (of_gens [[1; -1]])%Z [zv [1; 1]%Z] = no.
Proof. vm_compute. repeat split; reflexivity. Qed.
(** 54-68 *)
Definition pos (r : res ras) : res bool := r <- r ;; Ok (has_pos r).
Example test_positive :
  map pos [Ok ras_default; of_eqs [] []; of_eqs [[1; 0]] [0]; of_eqs [[1; 0]; [0; 1]] [0; 0]; of_eqs [[1; -1]] [0]; of_eqs [[1; 1]] [0]]%Z =
    map Ok [false; false; false; false; true; false] /\
  map pos [of_gens []; of_gens [[0; 1]]; of_gens [[1; 1]]; of_gens [[1; -1]]]%Z = map Ok [false; false; true; false].
Proof. vm_compute. split; reflexivity. Qed.
(** 70-91 *)
Definition eq_ras (r s : res ras) : res bool := r <- r ;; s <- s ;; Ok (ras_eqb r s).
Example test_transformations : (
  S0 <- of_eqs [[0; 1]] [0] ;; p0 <- pos (Ok S0) ;; n0 <- nznn S0 ;;
  S1 <- ras_swap S0 0 1 ;; e1 <- eq_ras (Ok S1) (of_eqs [[1; 0]] [0]) ;; p1 <- pos (Ok S1) ;; n1 <- nznn S1 ;;
  S2 <- ras_elementary S1 0 1 (zq (-1)) ;; e2 <- eq_ras (Ok S2) (of_eqs [[1; 1]] [0]) ;; p2 <- pos (Ok S2) ;; n2 <- nznn S2 ;;
  S3 <- ras_elementary S2 0 1 (zq 1) ;; e3 <- eq_ras (Ok S3) (of_eqs [[1; 0]] [0]) ;;
  Ok ([p0; p1; p2], [n0; n1; n2], [e1; e2; e3]))%Z = Ok ([false; false; false], [true; true; false], [true; true; true]).
Proof. vm_compute. reflexivity. Qed.
(** 93-106 *)
Definition nonneg (r : res ras) : res bool := r <- r ;; Ok (has_nonneg r).
Example test_affine :
  (r <- of_eqs [[1]] [1] ;; nznn r)%Z = Throw /\
  map pos [of_eqs [[1]] [1]; of_eqs [[1]] [-1]]%Z = map Ok [true; false] /\
  map nonneg [of_eqs [[1]] [1]; of_eqs [[1]] [-1]; of_eqs [[1]] [0]]%Z = map Ok [true; false; true].
Proof. vm_compute. repeat split; reflexivity. Qed.

(** * label.test.cc 55-70 *)
Example test_label : string_of_list_ascii (print_label 1) = "Label(1)"%string /\ answer_of (name a) = Ok "a"%string.
Proof. vm_compute. split; reflexivity. Qed.

(** * cereal.test.cc 88-118 *)
Definition roundtrip (i : iet Z) (s : option (slen Z)) : res bool :=
  '(j, t) <- load_iet (save_iet i s) ;;
  match s, t with Some s, Some t => iet_eqb i s j t | None, None => iet_eqb i (mkslen [] []) j (mkslen [] []) | _, _ => Ok false end.
Example test_cereal : roundtrip iet_default None = Ok true /\
  (x <- IET_ [18; 3; 1; 1]%Z [a; b; c; d] [d; a; b; c] ;; roundtrip (fst x) (Some (snd x))) = Ok true.
Proof. vm_compute. split; reflexivity. Qed.

(** * pyintervalxt/test/interval_exchange_transformation.py, label.py *)
Definition py (ls : list Z) (p : list Z) : res (iet Z * slen Z) := s <- sl_make ls ;; cpp_iet s p.
Definition repr (x : iet Z * slen Z) : res string := answer_of (print_iet show_Z (fst x) (snd x)).
Example test_py_print : (x <- py [18; 3] [1; 0] ;; r <- repr x ;; r' <- repr (swp x) ;; Ok (r, r'))%Z = Ok ("[a: 18] [b: 3] / [b] [a]", "[b: 3] [a: 18] / [a] [b]")%string.
Proof. vm_compute. reflexivity. Qed.
Example test_py_reduce1 : (x <- py [18; 3] [1; 0] ;; '(r, _) <- reduce (fst x) (snd x) ;; Ok (match r with Some _ => true | None => false end))%Z = Ok false.
Proof. vm_compute. reflexivity. Qed.
Definition reduced (x : iet Z * slen Z) : res ((iet Z * slen Z) * (iet Z * slen Z)) :=
  '(r, i) <- reduce (fst x) (snd x) ;; match r with Some j => Ok ((i, snd x), (j, snd x)) | None => UB end.
Example test_py_reduce2 : (x <- py [18; 3] [0; 1] ;; '(x, y) <- reduced x ;; r <- repr x ;; r' <- repr y ;; Ok (r, r'))%Z = Ok ("[a: 18] / [a]", "[b: 3] / [b]")%string.
Proof. vm_compute. reflexivity. Qed.
Example test_py_reduce3 : (
  x <- py [4; 56; 23; 11; 21; 9; 65] [1; 0; 4; 3; 2; 6; 5] ;; '(x, y) <- reduced x ;; r0 <- repr x ;; r1 <- repr y ;;
  '(y, z) <- reduced y ;; r2 <- repr y ;; r3 <- repr z ;; Ok [r0; r1; r2; r3])%Z =
  Ok ["[a: 4] [b: 56] / [b] [a]"; "[c: 23] [d: 11] [e: 21] [f: 9] [g: 65] / [e] [d] [c] [g] [f]"; "[c: 23] [d: 11] [e: 21] / [e] [d] [c]"; "[f: 9] [g: 65] / [g] [f]"]%string.
Proof. vm_compute. reflexivity. Qed.
(** test_decompose *)
Fixpoint all_conns (l : list side) : res (list connection) :=
  match l with [] => Ok [] | SConn k :: l => r <- all_conns l ;; Ok (k :: r) | SEdge _ :: _ => UB end.
Definition test_decompose (ls p : list Z) : res (bool * bool) :=
  x <- py ls p ;; D <- dec_make (fst x) (snd x) ;; '(_, D) <- auto_ D ;;
  ks <- mapM (fun n => l <- comp_left D n ;; r <- comp_right D n ;; all_conns (l ++ r)) (seq 0 (length (d_comps D))) ;;
  let ks := concat ks in
  Ok (length (filter (fun x => match dc_cylinder x with Some true => true | _ => false end) (d_comps D)) +
      length (filter (fun x => match dc_wpt x with Some true => true | _ => false end) (d_comps D)) =? length (d_comps D),
      forallb (fun k => existsb (conn_eqb (conn_neg k)) ks) ks).
Example test_py_decompose : test_decompose [18; 3]%Z [1; 0]%Z = Ok (true, true) /\ test_decompose [18; 3]%Z [0; 1]%Z = Ok (true, true) /\
  test_decompose [4; 56; 23; 11; 21; 9; 65]%Z [1; 0; 4; 3; 2; 6; 5]%Z = Ok (true, true).
Proof. vm_compute. repeat split; reflexivity. Qed.

(** pyintervalxt/__init__.py 98-103 *)
Definition py_eq (l1 p1 l2 p2 : list Z) : res bool := x <- py l1 p1 ;; y <- py l2 p2 ;; iet_eqb (fst x) (snd x) (fst y) (snd y).
Example test_py_eq : [py_eq [1; 1; 1] [1; 0; 2] [1; 1; 1] [2; 1; 0]; py_eq [3; 2; 1] [1; 0; 2] [1; 2; 3] [1; 0; 2]; py_eq [3; 2; 1] [2; 1; 0] [3; 2; 1] [1; 2; 0]]%Z =
  [Ok false; Ok false; Ok false].
Proof. vm_compute. reflexivity. Qed.
