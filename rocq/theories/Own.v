(** Who owns whom: the [shared_ptr]s and [weak_ptr]s behind lengths, interval exchange
    transformations (IETs), decompositions and the handles that a decomposition gives out.

    This file models nothing but ownership: what the objects compute is the subject of the
    other files. *)
From Verif Require Import Base.

(** An object on the heap is named by the number of objects created before it. *)
Notation id := nat (only parsing).

(** The objects on the heap that are shared:
    - [OLen]: lengths provided by the user, or made by [forget()]
      ([std::shared_ptr<Lengths>], intervalxt/interval_exchange_transformation.hpp 43);
    - [OWrap under dec]: the lengths of a decomposition: a [shared_ptr] to the lengths they wrap
      and a [weak_ptr] to the decomposition (src/impl/lengths_with_connections.hpp 58-59);
    - [ODec ws]: the state of a decomposition, a [std::deque] of components each of which holds
      an IET and with it a [shared_ptr] to lengths (src/impl/decomposition_state.hpp 34-36, 64).
      Components are only ever appended and a [std::deque] does not move its elements then, so a
      pointer to a component is modelled as its position.  Lengths of the connections lists and
      the flags of a component do not matter here. *)
Inductive obj :=
| OLen
| OWrap (under : id) (dec : id)
| ODec (ws : list id).

(** The [shared_ptr]s inside an object; the [weak_ptr] [dec] is not one of them
    (src/impl/lengths_with_connections.hpp 58-59). *)
Definition strong (o : obj) : list id :=
  match o with
  | OLen => []
  | OWrap u _ => [u]
  | ODec ws => ws
  end.

(** An object and its number of [shared_ptr]s, the [use_count] (contract of [std::shared_ptr]). *)
Record cell := mkcell { c_obj : obj; c_count : nat }.

(** The heap: the [n]-th object that was created, [None] once its destructor ran. *)
Definition heap := list (option cell).

(** What the user holds.  An IET owns its lengths
    (src/impl/interval_exchange_transformation.impl.hpp 67).  A decomposition
    is a [shared_ptr] to its state (intervalxt/dynamical_decomposition.hpp 58, intervalxt/shared.hpp 33); components, half
    edges, connections and separatrices each contain a copy of the decomposition
    (src/impl/implementation_of_decomposition.hpp 47); components and half edges also contain a
    plain pointer to a component (src/impl/component.impl.hpp 55, src/impl/half_edge.impl.hpp 44).
    Labels and orientations in these handles do not matter here. *)
Inductive handle :=
| HLen (l : id)
| HIet (l : id)
| HDec (d : id)
| HComp (d : id) (k : nat)
| HEdge (d : id) (k : nat)
| HConn (d : id)
| HSep (d : id).

(** The [shared_ptr] in a handle. *)
Definition holds (h : handle) : id :=
  match h with
  | HLen l => l | HIet l => l
  | HDec d => d | HComp d _ => d | HEdge d _ => d | HConn d => d | HSep d => d
  end.

(** A program's memory: the heap and the variables that hold a handle. *)
Record memory := mkmem { heap_of : heap; vars : list handle }.

(** Replace the [i]-th entry. *)
Fixpoint set {A} (i : nat) (x : A) (l : list A) {struct l} : list A :=
  match l, i with
  | [], _ => []
  | _ :: l', 0 => x :: l'
  | y :: l', S i' => y :: set i' x l'
  end.

(** Remove the [i]-th entry. *)
Fixpoint drop {A} (i : nat) (l : list A) {struct l} : list A :=
  match l, i with
  | [], _ => []
  | _ :: l', 0 => l'
  | y :: l', S i' => y :: drop i' l'
  end.

(** Access to an object; undefined behaviour once it has been destroyed (language). *)
Definition deref (i : id) (h : heap) : res cell :=
  match nth_error h i with
  | Some (Some c) => Ok c
  | _ => UB
  end.

(** Copy a [shared_ptr] (contract of [std::shared_ptr]). *)
Definition acquire (i : id) (h : heap) : res heap :=
  c <- deref i h ;; Ok (set i (Some (mkcell (c_obj c) (S (c_count c)))) h).

(** Apply [f] to each entry, left to right. *)
Fixpoint each (f : id -> heap -> res heap) (l : list id) (h : heap) : res heap :=
  match l with
  | [] => Ok h
  | x :: l' => h' <- f x h ;; each f l' h'
  end.

(** Destroy a [shared_ptr]: the last one destroys the object and with it the [shared_ptr]s in it
    (contract of [std::shared_ptr]).  The bound on the nesting is ours. *)
Fixpoint release (fuel : nat) (i : id) (h : heap) : res heap :=
  match fuel with
  | 0 => OutOfFuel
  | S fuel' =>
      c <- deref i h ;;
      if Nat.leb (c_count c) 1
      then each (release fuel') (strong (c_obj c)) (set i None h)
      else Ok (set i (Some (mkcell (c_obj c) (pred (c_count c)))) h)
  end.

(** [std::make_shared]: a new object with one [shared_ptr] (contract of [std::make_shared]). *)
Definition alloc (o : obj) (h : heap) : id * heap := (List.length h, h ++ [Some (mkcell o 1)]).

(** [weak_ptr::lock] followed by a dereference: undefined behaviour if the object is gone
    (src/lengths_with_connections.cc 61-65: [decomposition.lock()->decomposition]). *)
Definition lock (i : id) (h : heap) : res cell := deref i h.

(** A call on a component of a decomposition: it reads the component's IET and the lengths behind
    it, which ask the lengths they wrap (src/lengths_with_connections.cc 93-122, e.g. [render]). *)
Definition visit (d : id) (k : nat) (h : heap) : res (id * id) :=
  c <- deref d h ;;
  match c_obj c with
  | ODec ws =>
      match nth_error ws k with
      | Some w =>
          cw <- deref w h ;;
          match c_obj cw with
          | OWrap u dec => _ <- deref u h ;; Ok (w, dec)
          | _ => UB
          end
      | None => UB
      end
  | _ => UB
  end.

(** The operations of a program. *)
Inductive op :=
| MakeLengths
| MakeIet (v : nat)
| SplitIet (v : nat)
| UseIet (v : nat)
| LengthsOf (v : nat)
| Decompose (v : nat)
| Components (v : nat) (k : nat)
| Edge (v : nat)
| ComponentOf (v : nat)
| Connect (v : nat)
| Sep (v : nat)
| Visit (v : nat)
| Step (v : nat) (separating : bool)
| IetOf (v : nat)
| Copy (v : nat)
| Destroy (v : nat).

(** Put a handle into a new variable; its [shared_ptr] has already been accounted for. *)
Definition put (m : memory) (h : heap) (x : handle) : res memory := Ok (mkmem h (vars m ++ [x])).

(** Create a handle that copies the [shared_ptr] [i]. *)
Definition share (m : memory) (x : handle) : res memory :=
  h <- acquire (holds x) (heap_of m) ;; put m h x.

(** The decomposition of the IET on lengths [l] (src/dynamical_decomposition.cc 45-57): its state,
    the lengths that wrap [l], and one component that owns these. *)
Definition decompose (m : memory) (l : id) : res memory :=
  h <- acquire l (heap_of m) ;;
  let d := List.length h in
  let w := S d in
  put m (h ++ [Some (mkcell (ODec [w]) 1)] ++ [Some (mkcell (OWrap l d) 1)]) (HDec d).

(** [Component::decompositionStep] (src/component.cc 165-262): induction subtracts lengths, which
    locks the [weak_ptr] (src/lengths_with_connections.cc 48-65).  A separating connection appends
    a component whose IET shares the lengths (src/component.cc 220,
    src/dynamical_decomposition.cc 76-86, src/interval_exchange_transformation.cc 306-366: [reduce]). *)
Definition step (m : memory) (d : id) (k : nat) (separating : bool) : res memory :=
  '(w, dec) <- visit d k (heap_of m) ;;
  _ <- lock dec (heap_of m) ;;
  if separating
  then h <- acquire w (heap_of m) ;;
       c <- deref d h ;;
       match c_obj c with
       | ODec ws => Ok (mkmem (set d (Some (mkcell (ODec (ws ++ [w])) (c_count c))) h) (vars m))
       | _ => UB
       end
  else Ok m.

(** [Component::iet] (src/component.cc 466-469): an IET on new lengths, those that [forget] the
    decomposition. *)
Definition iet_of (m : memory) (d : id) (k : nat) : res memory :=
  _ <- visit d k (heap_of m) ;;
  let '(l, h) := alloc OLen (heap_of m) in
  put m h (HIet l).

(** How deep [shared_ptr]s nest: a decomposition, its lengths, the lengths these wrap. *)
Definition depth : nat := 3.

(** Run an operation on the variables named.  [Throw]: there is no such variable or it does not
    hold a handle of that kind; such a program does not compile.
    - [MakeLengths]: [std::make_shared<Lengths>(...)];
    - [MakeIet]: the constructor of IET copies the [shared_ptr];
    - [SplitIet]: [reduce] and [induce] return an IET on the same lengths;
    - [UseIet]: any other call on an IET; [LengthsOf]: [lengths()];
    - [Decompose]: the constructor of a decomposition;
    - [Components]: one of [components()]; [Edge]: one of the half edges of a component;
      [ComponentOf]: the component of a half edge; [Connect]: a connection on a contour; [Sep]:
      its source or target ([Component::decomposition] is declared but nowhere defined,
      intervalxt/component.hpp 71);
    - [Visit]: any call on a component or half edge that only reads;
    - [Step], [IetOf]: see above; [decompose()] is a sequence of steps on a component
      with calls of user code in between (src/component.cc 444-464);
    - [Copy], [Destroy]: copy constructor and destructor of a handle; a move is both.  An IET
      cannot be copied (intervalxt/interval_exchange_transformation.hpp 121: [Movable]). *)
Definition exec (o : op) (m : memory) : res memory :=
  let var v := nth_error (vars m) v in
  match o with
  | MakeLengths => let '(l, h) := alloc OLen (heap_of m) in put m h (HLen l)
  | MakeIet v =>
      match var v with Some (HLen l) => share m (HIet l) | _ => Throw end
  | SplitIet v =>
      match var v with Some (HIet l) => share m (HIet l) | _ => Throw end
  | UseIet v =>
      match var v with Some (HIet l) => _ <- deref l (heap_of m) ;; Ok m | _ => Throw end
  | LengthsOf v =>
      match var v with Some (HIet l) => share m (HLen l) | _ => Throw end
  | Decompose v =>
      match var v with Some (HIet l) => decompose m l | _ => Throw end
  | Components v k =>
      match var v with
      | Some (HDec d) =>
          c <- deref d (heap_of m) ;;
          match c_obj c with
          | ODec ws => if Nat.ltb k (List.length ws) then share m (HComp d k) else Throw
          | _ => UB
          end
      | _ => Throw
      end
  | Edge v =>
      match var v with
      | Some (HComp d k) => _ <- visit d k (heap_of m) ;; share m (HEdge d k)
      | _ => Throw
      end
  | ComponentOf v =>
      match var v with
      | Some (HEdge d k) => _ <- visit d k (heap_of m) ;; share m (HComp d k)
      | _ => Throw
      end
  | Connect v =>
      match var v with
      | Some (HComp d k) => _ <- visit d k (heap_of m) ;; share m (HConn d)
      | _ => Throw
      end
  | Sep v =>
      match var v with
      | Some (HConn d) => _ <- deref d (heap_of m) ;; share m (HSep d)
      | _ => Throw
      end
  | Visit v =>
      match var v with
      | Some (HComp d k) | Some (HEdge d k) => _ <- visit d k (heap_of m) ;; Ok m
      | _ => Throw
      end
  | Step v separating =>
      match var v with Some (HComp d k) => step m d k separating | _ => Throw end
  | IetOf v =>
      match var v with Some (HComp d k) => iet_of m d k | _ => Throw end
  | Copy v =>
      match var v with Some (HIet _) | None => Throw | Some x => share m x end
  | Destroy v =>
      match var v with
      | Some x =>
          h <- release depth (holds x) (heap_of m) ;; Ok (mkmem h (drop v (vars m)))
      | None => Throw
      end
  end.

(** Run a program. *)
Fixpoint exec_all (os : list op) (m : memory) : res memory :=
  match os with
  | [] => Ok m
  | o :: os' => m' <- exec o m ;; exec_all os' m'
  end.

(** Before the program starts. *)
Definition start : memory := mkmem [] [].
