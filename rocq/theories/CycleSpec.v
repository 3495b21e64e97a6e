(** * CycleSpec: what a circular dependency is, independently of aps-cycle.c. *)
From Verif Require Import Base CondModel EdgeModel DncModel PropsCond EdgeProofs EdgeAddProofs EdgeGraph EdgeSem EdgeWorld PropsEdge SummaryProofs CloseProofs PropsClose DncProofs PropsDnc PropsTree CycleModel.
From Coq Require Import Relations.
Open Scope nat_scope.

(** Every edge set can be read; its edges are dependencies that can hold. *)
Definition edges_ok (s : state) : Prop := forall x i j, in_graph (graphs_of s) x i j ->
  exists l, pairs_at s x i j = Ok l /\ forall c k, In (c, k) l -> satisfiable c /\ k <> no_dependency /\ (k <= max_dependency)%N.
(** What dnc_close leaves behind. *)
Definition analysed (rules : list rule) (s : state) : Prop := well_formed rules s /\ graphs_closed s /\ synchronised rules s /\ edges_ok s.
Definition valid (s : state) (v : inst) : Prop :=
  match v with
  | InSummary y i => exists p, nth_error (st_phys s) y = Some p /\ i < p_n p
  | InGraph x i => exists g, nth_error (st_augs s) x = Some g /\ i < n_inst g
  end.
(** [depends s o u v k]: v depends on u with kind k, in one graph under outcome o. *)
Definition depends (s : state) (o : outcome) (u v : inst) (k : N) : Prop :=
  k <> no_dependency /\
  match u, v with
  | InSummary y i, InSummary y' j => y' = y /\ exists p, nth_error (st_phys s) y = Some p /\ i < p_n p /\ j < p_n p /\ k = get (mingraph p) (p_n p) i j
  | InGraph x i, InGraph x' j => x' = x /\ in_graph (graphs_of s) x i j /\ k = kind_of_pair (graphs_of s) x o i j
  | _, _ => False
  end.
Definition circular (s : state) (v : inst) : Prop := exists o k, depends s o v v k.
(** Mutual dependency under one outcome, or the same instance of a phylum and of a
    node of that phylum in a production. *)
Inductive linked (rules : list rule) (s : state) : inst -> inst -> Prop :=
| linked_mutual o u v k k' : depends s o u v k -> depends s o v u k' -> linked rules s u v
| linked_node x r start y p i : nth_error rules x = Some r -> In (start, Some y) (r_blocks r) -> nth_error (st_phys s) y = Some p -> i < p_n p ->
    circular s (InSummary y i) -> linked rules s (InGraph x (start + i)) (InSummary y i).

