(** * AttrSpec: the meaning of attribute equations, independent of evaluation order. *)
From Verif Require Import Base AttrModel.
From Coq Require Export Relations.

Section Spec.
Context {V : Type}.
Variable P : inst -> comp V.             (** the equations, as demand programs *)
Variable sigma : inst -> option V.       (** assigned values *)

(** [den x v]: the equations determine value [v] for instance [x] (the least
    relation closed under "run the equation of x with the values of what it
    demands"). *)
Inductive den : inst -> V -> Prop :=
| den_assigned x v : sigma x = Some v -> den x v
| den_computed x v : sigma x = None -> runs (P x) v -> den x v
with runs : comp V -> V -> Prop :=
| runs_ret v : runs (Ret V v) v
| runs_demand y k w v : den y w -> runs (k w) v -> runs (Demand V y k) v.

(** [needs x y]: computing [x] demands [y]. *)
Inductive reach : comp V -> inst -> Prop :=
| reach_here y k : reach (Demand V y k) y
| reach_later z k w y : den z w -> reach (k w) y -> reach (Demand V z k) y.
Definition needs (x y : inst) : Prop := sigma x = None /\ reach (P x) y.

(** Evaluating [x] runs into a cycle of demands. *)
Definition reaches_cycle (x : inst) : Prop :=
  exists y, clos_refl_trans _ needs x y /\ clos_trans _ needs y y.
End Spec.

Section Spec2.
Context {V : Type}.
(** Every demand of the program satisfies [Q]; the program never throws. *)
Fixpoint demands_ok (Q : inst -> Prop) (c : comp V) : Prop :=
  match c with
  | Ret _ _ => True
  | Demand _ x k => Q x /\ forall v, demands_ok Q (k v)
  | Raise _ _ => True
  end.
Fixpoint no_raise (c : comp V) : Prop :=
  match c with Ret _ _ => True | Demand _ _ k => forall v, no_raise (k v) | Raise _ _ => False end.

Definition node_eqb (m n : node) : bool := Nat.eqb (phylum_of m) (phylum_of n) && Nat.eqb (index_of m) (index_of n).
Definition inst_eqb (x y : inst) : bool := Nat.eqb (fst x) (fst y) && node_eqb (snd x) (snd y).

(** The assignments accepted in a history: the last accepted one to each instance. *)
Fixpoint assigned (ops : list (op V)) (ans : list (answer V)) (sigma : inst -> option V) : inst -> option V :=
  match ops, ans with
  | Assign _ x v :: ops, Unit _ (Val _) :: ans => assigned ops ans (fun y => if inst_eqb x y then Some v else sigma y)
  | _ :: ops, _ :: ans => assigned ops ans sigma
  | _, _ => sigma
  end.
Definition none : inst -> option V := fun _ => None.

(** An instance of the grammar: attribute below [natt], node of its phylum. *)
Definition valid (decl : nat -> attr_decl V) (psize : nat -> nat) (natt : nat) (x : inst) : Prop :=
  fst x < natt /\ phylum_of (snd x) = dphylum V (decl (fst x)) /\ index_of (snd x) < psize (phylum_of (snd x)).
(** How many there are. *)
Definition instances (decl : nat -> attr_decl V) (psize : nat -> nat) (natt : nat) : list inst :=
  flat_map (fun a => let p := dphylum V (decl a) in map (fun i => (a, mkNode p i)) (seq 0 (psize p))) (seq 0 natt).

(** The client only uses instances of the grammar; [demand_op] excludes the
    unchecked Set_ and Get. *)
Definition demand_op (decl : nat -> attr_decl V) (psize : nat -> nat) (natt : nat) (o : op V) : Prop :=
  match o with
  | Assign _ x _ | Evaluate _ x => valid decl psize natt x
  | Finish _ a => a < natt
  | _ => False
  end.
End Spec2.

Section Spec3.
Context {V : Type}.
(** Neither circular nor collection attributes. *)
Definition plain (decl : nat -> attr_decl V) : Prop := forall a, circ V (decl a) = None /\ coll V (decl a) = None.

(** The contributions made to [x] by set and assign calls, in order. *)
Fixpoint contributions (ops : list (op V)) (x : inst) : list V :=
  match ops with
  | [] => []
  | Set_ _ y v :: ops | Assign _ y v :: ops => if inst_eqb y x then v :: contributions ops x else contributions ops x
  | _ :: ops => contributions ops x
  end.

(** The node belongs to the attribute's phylum. *)
Definition right_phylum (decl : nat -> attr_decl V) (x : inst) : Prop := phylum_of (snd x) = dphylum V (decl (fst x)).

(** Running an equation when every instance [y] has the value [F y]. *)
Fixpoint with_values (F : inst -> V) (c : comp V) : option V :=
  match c with
  | Ret _ v => Some v
  | Demand _ y k => with_values F (k (F y))
  | Raise _ _ => None
  end.
(** [F] solves the equations. *)
Definition solution (decl : nat -> attr_decl V) (P : inst -> comp V) (F : inst -> V) : Prop :=
  forall x, right_phylum decl x -> with_values F (P x) = Some (F x).
(** Larger demanded values give larger results (and the same demands). *)
Inductive comp_le (le : V -> V -> Prop) : comp V -> comp V -> Prop :=
| cl_ret v w : le v w -> comp_le le (Ret V v) (Ret V w)
| cl_demand y k k' : (forall v w, le v w -> comp_le le (k v) (k' w)) -> comp_le le (Demand V y k) (Demand V y k').
Definition monotone (le : V -> V -> Prop) (c : comp V) : Prop := comp_le le c c.
(** Lattices whose [bottom] and [join] fit the order. *)
Definition lattice_for (le : V -> V -> Prop) (l : lattice V) : Prop :=
  (forall v, le (bottom V l) v) /\ (forall u v w, le u w -> le v w -> le (join V l u v) w) /\
  (forall u v, le u (join V l u v)) /\ (forall u v, le v (join V l u v)).
End Spec3.

Section Spec4.
Context {V : Type} (vdef : V) (decl : nat -> attr_decl V) (P : inst -> comp V).
Notation state := (AttrModel.state V).
(** The instance has a value (computed, assigned, or a circular one in progress). *)
Definition settled (s : state) (y : inst) : Prop := stat V s y = EVALUATED \/ stat V s y = ASSIGNED.
Definition evaluated_to (s : state) (x : inst) (v : V) : Prop := right_phylum decl x /\ settled s x /\ value V vdef s x = v.
(** [answers s c v]: run with the values the state [s] holds, [c] returns [v]. *)
Inductive answers (s : state) : comp V -> V -> Prop :=
| an_ret v : answers s (Ret V v) v
| an_demand y k w v : evaluated_to s y w -> answers s (k w) v -> answers s (Demand V y k) v.
(** The equation of circular [p], run on the values in [s], adds nothing to [p]. *)
Definition stable (s : state) (p : inst) : Prop :=
  exists lat e, circ V (decl (fst p)) = Some lat /\ answers s (P p) e /\ equal V lat (value V vdef s p) (join V lat (value V vdef s p) e) = true.
(** Reachable by joins. *)
Definition upward (lat : lattice V) : V -> V -> Prop := clos_refl_trans _ (fun v w => exists e, w = join V lat v e).
End Spec4.
