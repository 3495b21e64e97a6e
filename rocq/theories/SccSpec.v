(** * Specification of strongly connected components. *)
From Coq Require Import List ZArith Permutation Relations.
Import ListNotations.
From Verif Require Import SccModel.
Open Scope Z_scope.

(** Vertices and edges a program adds. *)
Definition vertices (ops : list gop) : list Z :=
  flat_map (fun o => match o with AddVertex v => [v] | AddEdge _ _ => [] end) ops.
Definition edge (ops : list gop) (u v : Z) : Prop := In (AddEdge u v) ops.

(** [v] can be reached from [u] (in zero or more steps). *)
Definition reaches (ops : list gop) : Z -> Z -> Prop := clos_refl_trans Z (edge ops).

(** Operation [o] after the history [before] respects the declared number of
    vertices, adds no vertex twice, and has known end points. *)
Definition legal (n : Z) (before : list gop) (o : gop) : Prop :=
  match o with
  | AddVertex v => Z.of_nat (length (vertices before)) < n /\ ~ In v (vertices before)
  | AddEdge u v => In u (vertices before) /\ In v (vertices before)
  end.
Fixpoint legal_from (n : Z) (before ops : list gop) : Prop :=
  match ops with
  | [] => True
  | o :: ops => legal n before o /\ legal_from n (before ++ [o]) ops
  end.
Definition legal_program (n : Z) (ops : list gop) : Prop := legal_from n [] ops.

(** No operation mentions NULL. *)
Definition no_null (ops : list gop) : Prop :=
  Forall (fun o => match o with AddVertex v => v <> 0 | AddEdge u v => u <> 0 /\ v <> 0 end) ops.

(** The components of a result. *)
Definition same_component (comps : list (list Z)) (u v : Z) : Prop :=
  exists c, In c comps /\ In u c /\ In v c.
Definition precedes (comps : list (list Z)) (u v : Z) : Prop :=
  exists i j a b, nth_error comps i = Some a /\ nth_error comps j = Some b /\ In u a /\ In v b /\ (i < j)%nat.
