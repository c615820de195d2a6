(** Model of the textual representations, [operator<<]. *)
From Coq Require Import String Ascii NArith DecimalString ZArith.
From Verif Require Import Base LenT Lengths IET Decomp Misc.
Open Scope nat_scope.

Definition text := list ascii.
Definition txt (s : string) : text := list_ascii_of_string s.

(** [fmt::join] *)
Fixpoint join (sep : text) (l : list text) : text :=
  match l with
  | [] => []
  | [x] => x
  | x :: l' => x ++ sep ++ join sep l'
  end.

(** label.cc 37-39; the stream prints the [size_t] in base 10. *)
Definition print_label (l : label) : text :=
  txt "Label(" ++ txt (NilZero.string_of_uint (N.to_uint (N.of_nat l))) ++ txt ")".

(** The name of a label, sample/detail/lengths.ipp 171-184 through iet.cc 490-492. *)
Definition name (l : label) : res text := render (N.of_nat l).

(** An integer in a stream: base 10 (the standard library, not a part of the project). *)
Definition show_Z (z : Z) : text := txt (NilZero.string_of_int (Z.to_int z)).

Section Print.
Context {T : Type} {O : LenOps T}.

(** How the number type prints itself. *)
Context (show : T -> text).

(** iet.cc 494-498 *)
Definition print_iet (i : iet T) (s : slen T) : res text :=
  top <- mapM (fun l => n <- name l ;; x <- sl_at s l ;; Ok (txt "[" ++ n ++ txt ": " ++ show x ++ txt "]")) (i_top i) ;;
  bottom <- mapM (fun l => n <- name l ;; Ok (txt "[" ++ n ++ txt "]")) (i_bottom i) ;;
  Ok (join (txt " ") top ++ txt " / " ++ join (txt " ") bottom).

(** induction_step.cc 29-48 *)
Definition print_istep (st : istep T) : text :=
  match is_result st with
  | LIMIT_REACHED => txt "LIMIT_REACHED"
  | CYLINDER => txt "CYLINDER"
  | SEPARATING_CONNECTION => txt "SEPARATING_CONNECTION()"
  | NON_SEPARATING_CONNECTION => txt "NON_SEPARATING_CONNECTION()"
  | WITHOUT_PERIODIC_TRAJECTORY_BOSHERNITZAN => txt "WITHOUT_PERIODIC_TRAJECTORY_BOSHERNITZAN"
  | WITHOUT_PERIODIC_TRAJECTORY_AUTO_SIMILAR => txt "WITHOUT_PERIODIC_TRAJECTORY_AUTO_SIMILAR"
  end.

(** implementation_of_decomposition.cc 64-66: the lengths are those of the first component;
    dereferencing [begin] of no components would be undefined. *)
Definition print_name (d : decomp T) (l : label) : res text :=
  match d_comps d with [] => UB | _ :: _ => name l end.

(** separatrix.cc 54-56 *)
Definition print_sep (d : decomp T) (s : separatrix) : res text :=
  n <- print_name d (sp_label s) ;; Ok (n ++ (if sep_parallel s then txt "+" else txt "-")).

(** connection.cc 67-69 *)
Definition print_conn (d : decomp T) (k : connection) : res text :=
  a <- print_sep d (cn_source k) ;; b <- print_sep d (cn_target k) ;;
  Ok (txt "[" ++ a ++ txt " ⚯ " ++ b ++ txt "]").

(** half_edge.cc 144-148 *)
Definition print_edge (d : decomp T) (e : hedge) : res text :=
  n <- print_name d (he_label e) ;;
  Ok ((if he_top e then txt "-" else []) ++ txt "[" ++ n ++ txt "]").

(** component.cc 475-482 *)
Definition print_side (d : decomp T) (x : side) : res text :=
  match x with SEdge e => print_edge d e | SConn k => print_conn d k end.

(** component.cc 471-473 *)
Definition print_comp (d : decomp T) (c : nat) : res text :=
  p <- comp_perimeter d c ;; l <- mapM (print_side d) p ;; Ok (join (txt " ") l).

(** dynamical_decomposition.cc 125-127 *)
Definition print_dec (d : decomp T) : res text :=
  l <- mapM (print_comp d) (seq 0 (length (d_comps d))) ;;
  Ok (txt "DynamicalDecomposition(" ++ join (txt ", ") l ++ txt ")").

(** decomposition_step.cc 29-50: the optional members are dereferenced without a check. *)
Definition print_dstep (d : decomp T) (st : dstep) : res text :=
  match dst_result st with
  | D_LIMIT_REACHED => Ok (txt "LIMIT_REACHED")
  | D_CYLINDER => Ok (txt "CYLINDER")
  | D_SEPARATING_CONNECTION =>
    match dst_connection st, dst_additional st with
    | Some k, Some c => x <- print_conn d k ;; y <- print_comp d c ;; Ok (txt "SEPARATING_CONNECTION(" ++ x ++ txt ", " ++ y ++ txt ")")
    | _, _ => UB
    end
  | D_NON_SEPARATING_CONNECTION =>
    match dst_connection st with
    | Some k => x <- print_conn d k ;; Ok (txt "NON_SEPARATING_CONNECTION(" ++ x ++ txt ")")
    | _ => UB
    end
  | D_KEANE => Ok (txt "KEANE")
  | D_WITHOUT_PERIODIC_TRAJECTORY_BOSHERNITZAN => Ok (txt "WITHOUT_PERIODIC_TRAJECTORY_BOSHERNITZAN")
  | D_WITHOUT_PERIODIC_TRAJECTORY_AUTO_SIMILAR => Ok (txt "WITHOUT_PERIODIC_TRAJECTORY_AUTO_SIMILAR")
  end.

End Print.
