(** Model of serialization, rendering of labels, hashes and the helper for cppyy. *)
From Coq Require Import String Ascii NArith.
From Verif Require Import Base QcTac LenT FM Subspace Lengths IET Decomp.
Open Scope nat_scope.

(** * Serialization *)

Section Serialization.
Context {T : Type} {O : LenOps T}.

(** What a cereal archive stores: numbers, elements of the length type (cereal's or the
    number library's own serialization of [T], taken to be faithful), vectors, objects
    with named fields, and pointers.  Simplification: an archive is a tree; the order of
    fields and their names have to match when reading. *)
Inductive avalue :=
| ANum (n : N)
| ALen (x : T)
| AVec (l : list avalue)
| AObj (l : list (string * avalue))
| ANull
| APtr (v : avalue).

(** intervalxt/cereal.hpp 54-65: a label is its id. *)
Definition save_label (l : label) : avalue := ANum (N.of_nat l).
Definition load_label (v : avalue) : res label :=
  match v with ANum n => Ok (N.to_nat n) | _ => Throw end.

(** cereal's [std::vector]. *)
Definition save_vec {A} (f : A -> avalue) (l : list A) : avalue := AVec (map f l).
Definition load_vec {A} (f : avalue -> res A) (v : avalue) : res (list A) :=
  match v with AVec l => mapM f l | _ => Throw end.

Definition load_len (v : avalue) : res T := match v with ALen x => Ok x | _ => Throw end.

(** intervalxt/sample/cereal.hpp 32-46 *)
Definition save_lengths (s : slen T) : avalue :=
  AObj [("lengths"%string, save_vec ALen (sl_lens s)); ("stack"%string, save_vec save_label (sl_stack s))].
Definition load_lengths (v : avalue) : res (slen T) :=
  match v with
  | AObj [(n1, v1); (n2, v2)] =>
    if String.eqb n1 "lengths" && String.eqb n2 "stack" then
      ls <- load_vec load_len v1 ;; st <- load_vec load_label v2 ;; Ok (mkslen st ls)
    else Throw
  | _ => Throw
  end.

(** cereal's [std::shared_ptr<Lengths>]. *)
Definition save_ptr (s : option (slen T)) : avalue := match s with Some s => APtr (save_lengths s) | None => ANull end.
Definition load_ptr (v : avalue) : res (option (slen T)) :=
  match v with APtr v => s <- load_lengths v ;; Ok (Some s) | ANull => Ok None | _ => Throw end.

(** iet.cc 273-274: the default constructed IET has no lengths and no labels. *)
Definition iet_default : iet T := mkiet [] [] false None tracker_init.

(** intervalxt/cereal.hpp 69-74; the lengths are given by the pointer. *)
Definition save_iet (i : iet T) (s : option (slen T)) : avalue :=
  AObj [("top"%string, save_vec save_label (i_top i)); ("bottom"%string, save_vec save_label (i_bottom i)); ("lengths"%string, save_ptr s)].

(** intervalxt/cereal.hpp 76-93 *)
Definition load_iet (v : avalue) : res (iet T * option (slen T)) :=
  match v with
  | AObj [(n1, v1); (n2, v2); (n3, v3)] =>
    if String.eqb n1 "top" && String.eqb n2 "bottom" && String.eqb n3 "lengths" then
      top <- load_vec load_label v1 ;; bottom <- load_vec load_label v2 ;; p <- load_ptr v3 ;;
      match p with
      | None => assert_ ((length top =? 0) && (length bottom =? 0)) (Ok (iet_default, None))
      | Some s => i <- iet_make s top bottom ;; Ok (i, Some s)
      end
    else Throw
  | _ => Throw
  end.

(** * The helper for cppyy, intervalxt/cppyy.hpp 60-68 *)

(** [top[p]]: an index outside of the vector is undefined.  The lengths are copied. *)
Definition cpp_iet (s : slen T) (permutation : list Z) : res (iet T * slen T) :=
  let top := sl_labels s in
  bottom <- mapM (fun p => if (p <? 0)%Z then UB else match nth_error top (Z.to_nat p) with Some l => Ok l | None => UB end) permutation ;;
  i <- iet_make s top bottom ;; Ok (i, s).

End Serialization.
Arguments avalue : clear implicits.

(** * Names of labels, sample/detail/lengths.ipp 171-184 *)

(** The loop: [current] is the rest of the number, [ret] the string so far. *)
Fixpoint render_loop (fuel : nat) (current : N) (ret : list ascii) : res (list ascii) :=
  match fuel with
  | 0 => OutOfFuel
  | S fuel =>
    if negb (current =? 0)%N || (length ret =? 0) then
      let offset := (current mod 52)%N in
      let c := if (offset <? 26)%N then ascii_of_N (97 + offset) else ascii_of_N (65 + (offset - 26)) in
      render_loop fuel (current / 52)%N (ret ++ [c])
    else Ok ret
  end.

(** Simplification: the id of a label is a [size_t]; here it may be any number.  The loop
    makes at most one round for each binary digit, but at least one. *)
Definition render (id : N) : res (list ascii) := render_loop (S (S (N.size_nat id))) id [].

(** * Hashes: numbers modulo 2^64 *)

Definition size_t (n : N) : N := (n mod 2 ^ 64)%N.

(** label.cc 47-49 *)
Definition label_hash (l : label) : N := size_t (N.of_nat l).

(** half_edge.cc 154-156 *)
Definition he_hash (e : hedge) : N := label_hash (he_label e).

(** separatrix.cc 82-85; unsigned negation. *)
Definition sep_hash (s : separatrix) : N :=
  let h := label_hash (sp_label s) in
  match sp_orient s with PARALLEL => h | ANTIPARALLEL => size_t (2 ^ 64 - h) end.

(** connection.cc 77-80 *)
Definition conn_hash (c : connection) : N := size_t (sep_hash (cn_source c) + size_t (N.shiftl (sep_hash (cn_target c)) 32)).
