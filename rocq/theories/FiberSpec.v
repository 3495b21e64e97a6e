(** * FiberSpec: what the automata of the fiber analysis mean. *)
From Verif Require Import Base FiberModel.

(** ** Specification of the automaton *)
Definition fsa_edge (g : list (list fedge)) (q : nat) (l : option nat) (r : nat) : Prop := exists es, nth_error g r = Some es /\ In (mkFedge l q) es.
(** the automaton can go from q to q' reading w *)
Inductive reads (g : list (list fedge)) : nat -> list nat -> nat -> Prop :=
| reads_done : forall q, reads g q [] q
| reads_eps : forall q r w q', fsa_edge g q None r -> reads g r w q' -> reads g q w q'
| reads_field : forall q r l w q', fsa_edge g q (Some l) r -> reads g r w q' -> reads g q (l :: w) q'.
(** q has the fiber w: reading it, the automaton can get to a node of omega *)
Definition has_fiber (g : list (list fedge)) (om : list nat) (w : list nat) (q : nat) : Prop := exists q', In q' om /\ reads g q w q'.

(** ** Fibers *)
(** The fiber of state i is the word w: the field of the state, then the shorter fiber. *)
Inductive spells (d : dfa) : nat -> list nat -> Prop :=
| spells_base : forall i t, state_at d i = Ok t -> shorter t = None -> spells d i []
| spells_longer : forall i t l p w, state_at d i = Ok t -> field t = Some l -> shorter t = Some p -> spells d p w -> spells d i (l :: w).
(** The letters are the fields and their reverses; each reverse turns the direction. *)
Inductive directed (fields : list nat) (dual : nat -> nat) : list nat -> bool -> Prop :=
| directed_base : directed fields dual [] true
| directed_field : forall f w b, In f fields -> directed fields dual w b -> directed fields dual (f :: w) b
| directed_reverse : forall f w b, In f fields -> directed fields dual w b -> directed fields dual (dual f :: w) (negb b).
(** Both nodes of some declaration or expression have the fiber w. *)
Definition paired (g : list (list fedge)) (om : list nat) (w : list nat) : Prop :=
  exists q, has_fiber g om w (2 * q) /\ has_fiber g om w (2 * q + 1).
(** State j is the state of a (strictly) shorter fiber on the way to state i. *)
Inductive above (d : dfa) : nat -> nat -> Prop :=
| above_one : forall i t p, state_at d i = Ok t -> shorter t = Some p -> above d p i
| above_more : forall i t p j, state_at d i = Ok t -> shorter t = Some p -> above d j p -> above d j i.
(** Automata built by the program: declarations and expressions get numbers, edges
    are added.  Numbers of expressions are not in omega. *)
Inductive fop := NewDecl | NewExpr | Default | Edge (from to : nat) (l : option nat).
Definition fstep (a : fsa) (o : fop) : res fsa :=
  match o with
  | NewDecl => Ok (fst (id_decl_node a))
  | NewExpr => Ok (fst (id_expr_node a))
  | Default => if node_in_set (omega a) FSA_default_node then Ok a else Ok (default_node a)
  | Edge from to l => if (from <? next_index a) && (to <? next_index a) then add_FSA_edge from to l a else UB
  end.
Definition built_fsa (ops : list fop) (a : fsa) : Prop := foldM fstep ops fsa0 = Ok a.
