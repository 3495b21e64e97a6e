(** * Model of set_next_fields and of the first_X functions, analyze/aps-bind.c:763-1080.

    The eight list phyla (Units, Declarations, Actuals, Expressions, PatternActuals,
    Patterns, TypeActuals, Matches) have eight copies of the same three functions; they are
    one function here, with the phylum as an argument.  Nodes are their addresses. *)
From Verif Require Import Base.
From Coq Require Import List PeanoNat.
Import ListNotations.

Inductive kind := KUnits | KDecls | KActuals | KExprs | KPatternActuals | KPatterns | KTypeActuals | KMatches.
Definition kind_eqb (a b : kind) : bool :=
  match a, b with
  | KUnits, KUnits | KDecls, KDecls | KActuals, KActuals | KExprs, KExprs | KPatternActuals, KPatternActuals
  | KPatterns, KPatterns | KTypeActuals, KTypeActuals | KMatches, KMatches => true
  | _, _ => false
  end.

(** nil_X, list_X and append_X *)
Inductive ltree := LNil | LElem (x : nat) | LApp (l1 l2 : ltree).

(** The next fields of all the nodes, one for each phylum (next_unit, next_decl,
    next_actual, next_expr, next_pattern_actual, next_pattern, next_type_actual,
    next_match); None is NULL *)
Definition fields := kind -> nat -> option nat.
Definition set_field (h : fields) (k : kind) (x : nat) (v : option nat) : fields :=
  fun k' y => if kind_eqb k' k && Nat.eqb y x then v else h k' y.

(** aps-bind.c:764-779 [units_set_next_unit], 781-822 [decls_set_next_decl], 824-840, 842-856,
    858-872, 874-888, 890-904, 906-920 *)
Fixpoint set_next (k : kind) (l : ltree) (next : option nat) (h : fields) : fields * option nat :=
  match l with
  | LNil => (h, next)
  | LElem x => (set_field h k x next, Some x)
  | LApp some more => let '(h, middle) := set_next k more next h in set_next k some middle h
  end.

(** aps-bind.c:986-1080 [first_Unit], [first_Declaration], [first_Actual],
    [first_Expression], [first_PatternActual], [first_Pattern], [first_TypeActual],
    [first_Match] *)
Fixpoint first_of (l : ltree) : option nat :=
  match l with
  | LNil => None
  | LElem x => Some x
  | LApp a b => match first_of a with Some x => Some x | None => first_of b end
  end.

(** The children of a node: nodes, and lists of the eight phyla.  [kids x] are the children
    of the node x in the order aps-traverse.c visits them. *)
Inductive child := CNode (x : nat) | CList (k : kind) (l : ltree).

Section Snf.
  Variable kids : nat -> list child.
  (** aps-bind.c:922-984 [set_next_fields] under the traversals: a node's children are
      visited in turn; at a list the next fields of its elements are set and then the elements
      are visited by following the fields ([loop]).  Not modelled: Match_info(m)->header. *)
  Fixpoint set_next_fields (fuel : nat) (cs : list child) (h : fields) {struct fuel} : res fields :=
    match fuel with
    | O => Fuel
    | S f =>
      match cs with
      | [] => Ok h
      | CNode x :: cs => h <- set_next_fields f (kids x) h ;; set_next_fields f cs h
      | CList k l :: cs =>
        let '(h, p) := set_next k l None h in
        h <- loop f k p h ;; set_next_fields f cs h
      end
    end
  with loop (fuel : nat) (k : kind) (p : option nat) (h : fields) {struct fuel} : res fields :=
    match fuel with
    | O => Fuel
    | S f =>
      match p with
      | None => Ok h
      | Some x => h <- set_next_fields f (kids x) h ;; loop f k (h k x) h
      end
    end.
End Snf.
