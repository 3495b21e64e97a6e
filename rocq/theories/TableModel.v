(** * TableModel: the C++ run-time's TABLE and Phylum.

    Models /repo/base/cpp/table.handcode.h and the classes [Type], [Phylum] and
    [Constructor] (/repo/base/cpp/aps-impl.cpp:177-225). *)
From Verif Require Import Base.

Section Table.
Variables K V : Type.
Variable less : K -> K -> bool.          (** t_KeyType->v_less *)
Variable kequal : K -> K -> bool.        (** t_KeyType->v_equal *)
Variable initial : V.                    (** t_ValueType->v_initial *)
Variable combine : V -> V -> V.          (** t_ValueType->v_combine *)

(** table.handcode.h:26-45,85-115: the nodes.  [std::map] is its entries in key
    order. *)
Definition entries := list (K * V).
Inductive tnode := Full (e : entries) | Empty | Entry (k : K) (v : V).

(** A table value is a pointer: the index of a node in the heap. *)
Definition heap := list tnode.
Definition ref := nat.

(** std::map's notion of equal keys *)
Definition same_key (k k' : K) : bool := negb (less k k') && negb (less k' k).
(** [entries.find(key)] *)
Fixpoint find_ (k : K) (e : entries) : option V :=
  match e with
  | [] => None
  | (k', v) :: e => if same_key k k' then Some v else find_ k e
  end.
(** [entries[key] = v]: overwrite (the stored key stays), or insert in order. *)
Fixpoint put (k : K) (v : V) (e : entries) : entries :=
  match e with
  | [] => [(k, v)]
  | (k', v') :: e' => if less k k' then (k, v) :: e else if same_key k k' then (k', v) :: e' else (k', v') :: put k v e'
  end.

Definition entries_of (h : heap) (t : ref) : entries := match nth_error h t with Some (Full e) => e | _ => [] end.

(** table.handcode.h:57-68 [V_full_table::get]: inserts the initial value if the key is absent. *)
Definition get (h : heap) (t : ref) (k : K) : heap * V :=
  match find_ k (entries_of h t) with
  | Some v => (h, v)
  | None => (upd h t (Full (put k initial (entries_of h t))), initial)
  end.
(** table.handcode.h:69-74 [V_full_table::add] *)
Definition add (h : heap) (t : ref) (k : K) (v : V) : heap :=
  let '(h1, old) := get h t k in
  upd h1 t (Full (put k (combine old v) (entries_of h1 t))).
(** table.handcode.h:47-56 [V_full_table::add_to]: the iterator walks the
    entries of [src], which may be [dst] itself. *)
Fixpoint add_entries (h : heap) (src dst : ref) (is : list nat) : heap :=
  match is with
  | [] => h
  | i :: is => match nth_error (entries_of h src) i with
               | Some (k, v) => add_entries (add h dst k v) src dst is
               | None => h
               end
  end.
(** the virtual [add_to]: lines 47, 90, 113 *)
Definition add_to (h : heap) (src dst : ref) : heap :=
  match nth_error h src with
  | Some (Full e) => add_entries h src dst (seq 0 (length e))
  | Some (Entry k v) => add h dst k v
  | _ => h
  end.

(** table.handcode.h:78-80, 95-97, 119-124: the constructors *)
Definition alloc (h : heap) (n : tnode) : heap * ref := (h ++ [n], length h).
Definition full_table (h : heap) : heap * ref := alloc h (Full []).
Definition empty_table (h : heap) : heap * ref := alloc h Empty.
Definition table_entry (h : heap) (k : K) (v : V) : heap * ref := alloc h (Entry k v).

(** table.handcode.h:127-135 [v_combine] *)
Definition table_combine (h : heap) (t1 t2 : ref) : heap * ref :=
  match nth_error h t1 with
  | Some (Full _) => (add_to h t2 t1, t1)
  | _ => let '(h1, t) := full_table h in
         (add_to (add_to h1 t1 t) t2 t, t)
  end.
(** table.handcode.h:136-145 [v_select] *)
Definition select (h : heap) (t : ref) (k : K) : heap * ref :=
  match nth_error h t with
  | Some (Full _) => let '(h1, v) := get h t k in table_entry h1 k v
  | Some (Entry k' v) => if kequal k k' then (h, t) else table_entry h k initial
  | _ => table_entry h k initial
  end.

(** A program building one table: each node of the tree calls an operation. *)
Inductive texpr := TEmpty | TEntry (k : K) (v : V) | TCombine (a b : texpr).
Fixpoint build (e : texpr) (h : heap) : heap * ref :=
  match e with
  | TEmpty => empty_table h
  | TEntry k v => table_entry h k v
  | TCombine a b => let '(h1, t1) := build a h in let '(h2, t2) := build b h1 in table_combine h2 t1 t2
  end.
End Table.

(** ** Phylum and Constructor *)
Inductive pexn := CannotAddNode | NegativeIndex | IndexTooLarge | TagMismatch.
Inductive pout (A : Type) := POk (a : A) | PThrow (e : pexn).
Arguments POk {A} _. Arguments PThrow {A} _.

(** aps-impl.h:92-110: nodes are numbers standing for pointers; [num_constructors]
    is constructors.size(). *)
Record phylum := mkPhylum { pnodes : list nat; pcomplete : bool; num_constructors : nat }.
Definition new_phylum : phylum := mkPhylum [] false 0.
(** aps-impl.cpp:187-192 [Phylum::install] (called by the node constructor, which stores the index) *)
Definition phylum_install (p : phylum) (n : nat) : phylum * pout nat :=
  if pcomplete p then (p, PThrow CannotAddNode)
  else (mkPhylum (pnodes p ++ [n]) (pcomplete p) (num_constructors p), POk (length (pnodes p ++ [n]) - 1)).
(** aps-impl.cpp:194-203 [finish], [size] *)
Definition phylum_finish (p : phylum) : phylum := mkPhylum (pnodes p) true (num_constructors p).
Definition phylum_size (p : phylum) : phylum * nat := let p' := phylum_finish p in (p', length (pnodes p')).
(** aps-impl.cpp:205-214 [node] *)
Definition phylum_node (p : phylum) (i : Z) : pout nat :=
  if (i <? 0)%Z then PThrow NegativeIndex
  else if (i >=? Z.of_nat (length (pnodes p)))%Z then PThrow IndexTooLarge
  else match nth_error (pnodes p) (Z.to_nat i) with Some n => POk n | None => PThrow IndexTooLarge end.
(** aps-impl.cpp:179-184 [Type::install] and 216-221 [Constructor::Constructor] *)
Definition new_constructor (p : phylum) (tag : nat) : phylum * pout unit :=
  let p' := mkPhylum (pnodes p) (pcomplete p) (S (num_constructors p)) in
  (p', if Nat.eqb tag (S (num_constructors p) - 1) then POk tt else PThrow TagMismatch).

Inductive pop := NewNode (n : nat) | Size | FinishP | NodeAt (i : Z) | NewConstructor (tag : nat).
Inductive pans := Index (r : pout nat) | SizeIs (n : nat) | DoneP | NodeIs (r : pout nat) | Constructed (r : pout unit).
Definition pstep (p : phylum) (o : pop) : phylum * pans :=
  match o with
  | NewNode n => let '(p', r) := phylum_install p n in (p', Index r)
  | Size => let '(p', n) := phylum_size p in (p', SizeIs n)
  | FinishP => (phylum_finish p, DoneP)
  | NodeAt i => (p, NodeIs (phylum_node p i))
  | NewConstructor tag => let '(p', r) := new_constructor p tag in (p', Constructed r)
  end.
Fixpoint phistory (p : phylum) (ops : list pop) : phylum * list pans :=
  match ops with
  | [] => (p, [])
  | o :: ops => let '(p1, a) := pstep p o in let '(p2, l) := phistory p1 ops in (p2, a :: l)
  end.
