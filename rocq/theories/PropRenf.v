(** C69, C70: the coefficients of elements of number fields and of exact reals. *)
From Coq Require Import Reals Permutation.
From Verif Require Import Base QcTac LenT FM Subspace LenInst Sqrt2 Cubic Renf RenfApi.
From Verif Require Import ClaimsRenf.
Open Scope nat_scope.
(** If the coefficients of a list of elements of number fields are returned at all, then they
    are the coordinates of these numbers with respect to one list of real numbers that are
    linearly independent over the rationals. *)
Theorem C69_coordinates : forall (F : Type) (same : F -> F -> bool) (degree : F -> nat) (power : F -> list R),
  fields same degree power -> forall (xs : list (renf F)) cs,
  xs <> [] -> (forall x, In x xs -> renf_ok degree x) -> renf_coefficients same degree xs = Ok cs ->
  coordinates cs (map (renf_value power) xs).
Proof. exact claim_C69_coordinates. Qed.
Print Assumptions C69_coordinates.

Example C69_coordinates_example :
  fields field_same field_degree field_power /\
  (forall x, In x [two_q; root_2; one_3] -> renf_ok field_degree x) /\
  renf_coefficients field_same field_degree [two_q; root_2; one_3] = Ok [[zq 2; 0%Qc]; [0%Qc; 1%Qc]; [1%Qc; 0%Qc]].
Proof.
  split; [exact three_fields|]. split; [|vm_compute; reflexivity]. intros x Hx. repeat (destruct Hx as [<-|Hx]; [reflexivity|]). destruct Hx.
Qed.

(** They are returned exactly if all irrational elements live in the same field, and the
    first element of the list lives in that field or in a field of degree one; otherwise an
    exception is thrown.  (If all elements are rational, they are always returned.) *)
Theorem C69_success : forall (F : Type) (same : F -> F -> bool) (degree : F -> nat) (power : F -> list R),
  fields same degree power -> forall (x0 : renf F) (xs : list (renf F)),
  (forall x, In x (x0 :: xs) -> renf_ok degree x) ->
  ((exists cs, renf_coefficients same degree (x0 :: xs) = Ok cs) \/ renf_coefficients same degree (x0 :: xs) = Throw) /\
  ((exists cs, renf_coefficients same degree (x0 :: xs) = Ok cs) <->
   exists p, (re_parent x0 = p \/ degree (re_parent x0) = 1) /\
     forall x, In x (x0 :: xs) -> ~ rational (renf_value power x) -> re_parent x = p).
Proof. exact claim_C69_success. Qed.
Print Assumptions C69_success.

Example C69_success_example :
  (forall x, In x [one_3; root_2] -> renf_ok field_degree x) /\
  renf_coefficients field_same field_degree [one_3; root_2] = Throw /\ re_parent one_3 = field_3 /\ re_parent root_2 = field_2 /\
  ~ rational (renf_value field_power root_2).
Proof.
  split; [|split; [vm_compute; reflexivity|split; [reflexivity|split; [reflexivity|exact root_2_irrational]]]]. intros x Hx. repeat (destruct Hx as [<-|Hx]; [reflexivity|]). destruct Hx.
Qed.

(** The coefficients of a list of exact reals, i.e., of linear combinations with rational
    coefficients of finitely many generators, are always returned; they are the coordinates
    with respect to the generators that appear in any of the elements. *)
Theorem C69_elements : forall (gen : nat -> R) (xs : list element),
  (forall x, In x xs -> element_ok x) -> exists cs p,
  element_coefficients xs = Ok cs /\ NoDup p /\ (forall g, In g p <-> exists x, In x xs /\ In g (el_module x)) /\
  Forall2 (fun c x => length c = length p /\ lin c (map gen p) = element_value gen x) cs xs.
Proof. exact claim_C69_elements. Qed.
Print Assumptions C69_elements.

Example C69_elements_example :
  (forall x, In x [[(3, zq 2)]; [(1, zq 5); (3, zq 7)]; []] -> element_ok x) /\
  element_coefficients [[(3, zq 2)]; [(1, zq 5); (3, zq 7)]; []] = Ok [[zq 2; 0%Qc]; [zq 7; zq 5]; [0%Qc; 0%Qc]].
Proof.
  split; [|vm_compute; reflexivity]. intros x Hx. repeat (destruct Hx as [<-|Hx]; [unfold element_ok; cbn; repeat constructor; cbn; intuition discriminate|]). destruct Hx.
Qed.

(** One would expect that it does not depend on the order of the list whether there are
    coefficients.  This is wrong: if a rational number that lives in another number field
    comes first, an exception is thrown. *)
Theorem C70_order_refuted :
  exists (F : Type) (same : F -> F -> bool) (degree : F -> nat) (power : F -> list R) (xs ys : list (renf F)),
  fields same degree power /\ (forall x, In x xs -> renf_ok degree x) /\ Permutation xs ys /\
  renf_coefficients same degree xs = Throw /\ exists cs, renf_coefficients same degree ys = Ok cs /\ coordinates cs (map (renf_value power) ys).
Proof. exact claim_C70_order_refuted. Qed.
Print Assumptions C70_order_refuted.

(** The order does not matter if the elements that live in fields of other degree than one
    all live in the same field (so in particular for every list of elements of one field,
    with rational numbers mixed in). *)
Theorem C70_order_partial : forall (F : Type) (same : F -> F -> bool) (degree : F -> nat) (power : F -> list R),
  fields same degree power -> forall (p : F) (xs ys : list (renf F)),
  (forall x, In x xs -> renf_ok degree x) -> (forall x, In x xs -> degree (re_parent x) = 1 \/ re_parent x = p) -> Permutation xs ys ->
  exists cs ds, renf_coefficients same degree xs = Ok cs /\ renf_coefficients same degree ys = Ok ds.
Proof. exact claim_C70_order_partial. Qed.
Print Assumptions C70_order_partial.

(** For which lists all orders work, and for which at least one does. *)
Theorem C70_all_orders : forall (F : Type) (same : F -> F -> bool) (degree : F -> nat) (power : F -> list R),
  fields same degree power -> forall (xs : list (renf F)), xs <> [] -> (forall x, In x xs -> renf_ok degree x) ->
  ((forall ys, Permutation xs ys -> exists cs, renf_coefficients same degree ys = Ok cs) <->
   (forall x, In x xs -> rational (renf_value power x)) \/
   exists p, forall x, In x xs -> re_parent x = p \/ degree (re_parent x) = 1) /\
  ((exists ys cs, Permutation xs ys /\ renf_coefficients same degree ys = Ok cs) <->
   exists p, forall x, In x xs -> ~ rational (renf_value power x) -> re_parent x = p).
Proof. exact claim_C70_all_orders. Qed.
Print Assumptions C70_all_orders.

(** One order works, but not all. *)
Example C70_all_orders_example :
  (forall x, In x [one_3; root_2] -> renf_ok field_degree x) /\
  renf_coefficients field_same field_degree [one_3; root_2] = Throw /\ exists cs, renf_coefficients field_same field_degree [root_2; one_3] = Ok cs.
Proof.
  split; [|split; [vm_compute; reflexivity|eexists; vm_compute; reflexivity]]. intros x Hx. destruct Hx as [<-|[<-|[]]]; reflexivity.
Qed.

Example C70_order_partial_example :
  (forall x, In x [two_q; root_2; two_q] -> field_degree (re_parent x) = 1 \/ re_parent x = field_2) /\
  renf_coefficients field_same field_degree [two_q; root_2; two_q] = Ok [[zq 2; 0%Qc]; [0%Qc; 1%Qc]; [zq 2; 0%Qc]].
Proof.
  split; [|vm_compute; reflexivity]. intros x Hx. destruct Hx as [<-|[<-|[<-|[]]]]; auto.
Qed.
