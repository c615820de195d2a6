(** Renaming labels: what the calls of a program and its observations look like if every
    label [l] is called [f l] instead. *)
From Coq Require Import List.
From Verif Require Import Base QcTac LenT FM Subspace Lengths IET Decomp Spec Api RatioApi.
Open Scope nat_scope.

Section Renaming.
Variable f : label -> label.

Definition ren_pair (p : label * label) : label * label := (f (fst p), f (snd p)).
Definition ren_sep (s : separatrix) : separatrix := mksep (f (sp_label s)) (sp_orient s).
Definition ren_conn (c : connection) : connection := mkconn (ren_sep (cn_source c)) (ren_sep (cn_target c)).
Definition ren_edge (e : hedge) : hedge := mkhe (he_comp e) (f (he_label e)) (he_top e).
Definition ren_side (s : side) : side :=
  match s with SConn c => SConn (ren_conn c) | SEdge e => SEdge (ren_edge e) end.
Definition ren_step (st : dstep) : dstep :=
  mkdstep (dst_result st) (option_map ren_conn (dst_connection st)) (option_map (map ren_side) (dst_equivalent st)) (dst_additional st).
Definition ren_entry (e : label * list connection * list connection) : label * list connection * list connection :=
  (f (fst (fst e)), map ren_conn (snd (fst e)), map ren_conn (snd e)).
Definition ren_look (v : look) : look :=
  mklook (map ren_entry (lk_top v)) (map ren_entry (lk_bottom v)) (lk_cylinder v) (lk_wpt v) (lk_keane v).

(** Calls on an IET and their answers. *)
Definition ren_op (o : op) : op :=
  match o with op_bosh_saddle2 t b => op_bosh_saddle2 (f t) (f b) | _ => o end.
Definition ren_call (c : nat * op) : nat * op := (fst c, ren_op (snd c)).
Definition ren_answer (a : answer) : answer :=
  match a with ans_induce r c => ans_induce r (option_map ren_pair c) | _ => a end.

(** Calls on a decomposition and their answers; a callback of [decompose] is renamed if it
    decides about the renamed component as the original one decides about the component. *)
Inductive renamed_dcall : dcall -> dcall -> Prop :=
| rd_step fuel limit c : renamed_dcall (dc_step fuel limit c) (dc_step fuel limit c)
| rd_decompose rounds fuel target target' limit :
    (forall v, target' (ren_look v) = target v) ->
    renamed_dcall (dc_decompose rounds fuel target limit) (dc_decompose rounds fuel target' limit)
| rd_inject e ls rs :
    renamed_dcall (dc_inject e ls rs) (dc_inject (ren_edge e) (map ren_pair ls) (map ren_pair rs)).
Definition ren_danswer (a : danswer) : danswer :=
  match a with
  | dans_step st => dans_step (ren_step st)
  | dans_decompose ok => dans_decompose ok
  | dans_inject l r => dans_inject (map ren_conn l) (map ren_conn r)
  end.

Section Lens.
Context {T : Type}.

(** The vector [ls'] holds for the label [f l] what [ls] holds for [l]; and has no entry for
    it if [ls] has none. *)
Definition moved_lengths (ls ls' : list T) : Prop := forall l, nth_error ls' (f l) = nth_error ls l.

(** A component looks the same but for the names. *)
Definition renamed_view (v v' : cview T) : Prop := look_at v' = ren_look (look_at v) /\ cv_lengths v' = cv_lengths v.

(** The rows of an IET. *)
Definition ren_rows (r : list label * list label) : list label * list label := (map f (fst r), map f (snd r)).
End Lens.
End Renaming.
