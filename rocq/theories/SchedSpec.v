(** * SchedSpec: what a total order of a rule has to be. *)
From Coq Require Import Relations.
From Verif Require Import Base CondModel OagModel PropsCond ChunkModel.
Open Scope nat_scope.

(** What happens, one after the other, when the tests come out as in o: attribute
    instances are computed, children are visited, visits of the node itself end. *)
Inductive event := Compute (i : nat) | VisitChild (c p : nat) | EndVisit (p : nat).
Definition event_of (inst : option nat) (g : group) : event :=
  match inst with
  | Some i => Compute i
  | None => if Z.eqb (snd g) (-1) then EndVisit (Z.to_nat (fst g)) else VisitChild (Z.to_nat (snd g)) (Z.to_nat (fst g))
  end.
Definition test_of (r : rule) (i : nat) : option nat := match nth_error (r_insts r) i with Some s => si_if s | None => None end.
Fixpoint run (r : rule) (o : outcome) (t : cto) : list event :=
  match t with
  | Null => []
  | Node _ _ inst g _ _ _ if_true next =>
    event_of inst g ::
    match inst with
    | Some i => match test_of r i with Some b => if o (N.of_nat b) then run r o if_true else run r o next | None => run r o next end
    | None => run r o next
    end
  end.

(** ** The parts of a rule *)
Definition instance (r : rule) (i : nat) (s : sinst) : Prop := nth_error (r_insts r) i = Some s.
(** i is computed when the tests come out as in o *)
Definition wanted (r : rule) (o : outcome) (i : nat) : Prop := exists s, instance r i s /\ meets o (si_cond s).
(** i depends on j *)
Definition depends (r : rule) (j i : nat) : Prop := exists k, j < length (r_insts r) /\ i < length (r_insts r) /\ nth_error (r_kinds r) (j * length (r_insts r) + i) = Some k /\ k <> no_dependency.
(** ... and there are outcomes for which both are computed *)
Definition needs (r : rule) (j i : nat) : Prop := depends r j i /\ exists o, wanted r o j /\ wanted r o i.
(** The unit of scheduling: the inherited and the synthesized attributes of a visit of the
    node, the visit of a child with its attributes, one local. *)
Inductive block := Inherited (p : nat) | Synthesized (p : nat) | ChildVisit (c p : nat) | Single (i : nat).
Definition phases_of (r : rule) (c : nat) : nat := match nth_error (r_children r) c with Some (Some ph) => max_phase ph | _ => 0 end.
Definition last_phase (r : rule) : nat := max_phase (r_parent r).
Definition is_block (r : rule) (b : block) : Prop :=
  match b with
  | Inherited p | Synthesized p => 1 <= p <= last_phase r
  | ChildVisit c p => 1 <= p <= phases_of r c
  | Single i => exists s, instance r i s /\ si_group s = (0, 0)%Z
  end.
Definition in_block (r : rule) (i : nat) (b : block) : Prop := exists s, instance r i s /\
  match b with
  | Inherited p => 1 <= p /\ si_group s = (- Z.of_nat p, -1)%Z
  | Synthesized p => 1 <= p /\ si_group s = (Z.of_nat p, -1)%Z
  | ChildVisit c p => 1 <= p /\ (si_group s = (- Z.of_nat p, Z.of_nat c)%Z \/ si_group s = (Z.of_nat p, Z.of_nat c)%Z)
  | Single j => i = j /\ si_group s = (0, 0)%Z
  end.
(** b1 has to come before b2 *)
Inductive precedes (r : rule) : block -> block -> Prop :=
  | by_need b1 b2 j i : is_block r b1 -> is_block r b2 -> in_block r j b1 -> in_block r i b2 -> needs r j i -> precedes r b1 b2
  | by_visits c p q : 1 <= p -> p < q -> q <= phases_of r c -> precedes r (ChildVisit c p) (ChildVisit c q)
  | by_halves p : 1 <= p <= last_phase r -> precedes r (Inherited p) (Synthesized p)
  | by_phases p : 1 <= p -> S p <= last_phase r -> precedes r (Synthesized p) (Inherited (S p)).

(** ** The order *)
Definition before {X} (L : list X) (x y : X) : Prop := exists l1 l2 l3, L = l1 ++ x :: l2 ++ y :: l3.
Definition child_phase (c : nat) (e : event) : list nat := match e with VisitChild c' p => if c =? c' then [p] else [] | _ => [] end.
Definition own_phase (e : event) : list nat := match e with EndVisit p => [p] | _ => [] end.
Record right_order (r : rule) (o : outcome) (L : list event) : Prop := {
  (** every instance whose condition holds is computed, once, and no other *)
  ro_once : NoDup L;
  ro_all : forall i, In (Compute i) L <-> wanted r o i;
  (** after all it depends on *)
  ro_needs : forall j i, depends r j i -> wanted r o j -> wanted r o i -> before L (Compute j) (Compute i);
  (** the visits of the node end in order, the last one last *)
  ro_own : flat_map own_phase L = seq 1 (last_phase r);
  ro_last : exists L', L = L' ++ [EndVisit (last_phase r)];
  (** the visits of each child are made, in order *)
  ro_child : forall c, flat_map (child_phase c) L = seq 1 (phases_of r c);
  (** attributes of the node are computed in the visit that is their phase *)
  ro_own_attr : forall i s p q, instance r i s -> In (Compute i) L -> 1 <= q <= last_phase r -> (si_group s = (Z.of_nat p, -1)%Z \/ si_group s = (- Z.of_nat p, -1)%Z) -> 1 <= p ->
    (p <= q <-> before L (Compute i) (EndVisit q));
  (** a child's inherited attributes of phase p before its p-th visit (not before an earlier one), its
      synthesized ones after it *)
  ro_child_inh : forall i s c p q, instance r i s -> In (Compute i) L -> si_group s = (- Z.of_nat p, Z.of_nat c)%Z -> 1 <= p -> 1 <= q <= phases_of r c ->
    (p <= q <-> before L (Compute i) (VisitChild c q));
  ro_child_syn : forall i s c p q, instance r i s -> In (Compute i) L -> si_group s = (Z.of_nat p, Z.of_nat c)%Z -> 1 <= p -> 1 <= q <= phases_of r c ->
    (q <= p <-> before L (VisitChild c q) (Compute i))
}.

(** ** The rules that can be scheduled *)
(** The data fit together: groups are those of phases; tables are long enough; the code's
    tables have room. *)
Definition legal_group (r : rule) (g : group) : Prop :=
  g = (0, 0)%Z \/ (exists p, 1 <= p <= last_phase r /\ (g = (Z.of_nat p, -1)%Z \/ g = (- Z.of_nat p, -1)%Z)) \/
  exists c p, 1 <= p <= phases_of r c /\ (g = (Z.of_nat p, Z.of_nat c)%Z \/ g = (- Z.of_nat p, Z.of_nat c)%Z).
Definition locals (r : rule) : list nat := members r group_is_local.
Definition chunk_count (r : rule) : nat := 2 * last_phase r + list_sum (map (phases_of r) (seq 0 (length (r_children r)))) + length (locals r).
Record legal_rule (r : rule) : Prop := {
  lr_kinds : length (r_kinds r) = length (r_insts r) * length (r_insts r) /\ forall k, In k (r_kinds r) -> (k <= max_dependency)%N;
  lr_groups : forall i s, instance r i s -> legal_group r (si_group s);
  lr_flags : last_phase r < length (cyclic_flags (r_parent r));
  lr_child_flags : forall ph, In (Some ph) (r_children r) -> max_phase ph < length (cyclic_flags ph)
}.
Definition room (r : rule) : Prop := chunk_count r <= length (r_insts r) * 10.
(** Tests are locals, one instance per test, and every instance depends on the tests its
    condition mentions. *)
Record tests_ok (r : rule) : Prop := {
  tk_local : forall i s b, instance r i s -> si_if s = Some b -> si_group s = (0, 0)%Z;
  tk_distinct : forall i s i' s' b, instance r i s -> instance r i' s' -> si_if s = Some b -> si_if s' = Some b -> i = i';
  tk_needed : forall i s o b, instance r i s -> meets o (si_cond s) -> N.testbit (positive (si_cond s)) b = true \/ N.testbit (negative (si_cond s)) b = true ->
    exists t st k, instance r t st /\ si_if st = Some k /\ b = N.of_nat k /\ meets o (si_cond st) /\ depends r t i
}.
(** No circular phases and no cycles. *)
Record orderly (r : rule) : Prop := {
  od_flags : forall b, In b (cyclic_flags (r_parent r)) -> b = false;
  od_acyclic : forall b b', clos_trans block (precedes r) b b' -> clos_trans block (precedes r) b' b -> b = b';
  (** within one phase an attribute only depends on those before it, and the inherited
      ones of a visit not on its synthesized ones *)
  od_same : forall j i s s', needs r j i -> instance r j s -> instance r i s' -> si_group s = si_group s' -> j < i \/ (si_group s = (0, 0)%Z /\ j <> i);
  od_visit : forall j i s s' p c, needs r j i -> instance r j s -> instance r i s' -> 1 <= p -> si_group s = (Z.of_nat p, c)%Z -> si_group s' <> (- Z.of_nat p, c)%Z;
  (** what the node's inherited attributes of a phase depend on comes before the end of
      the phase before *)
  od_inh : forall b p, precedes r b (Inherited p) -> b = Inherited p \/ exists q, p = S q /\ 1 <= q /\ clos_refl_trans block (precedes r) b (Synthesized q)
}.
(** Nothing depends on the node's synthesized attributes of the last phase. *)
Definition nothing_after (r : rule) : Prop := forall b, precedes r (Synthesized (last_phase r)) b -> b = Synthesized (last_phase r).
