(** * TableSpec: what tables mean. *)
From Verif Require Import Base TableModel.

Section Spec.
Context {K V : Type}.
Variables (less : K -> K -> bool) (kequal : K -> K -> bool) (initial : V) (combine : V -> V -> V).
(** Keys are ordered: "neither is less" is an equality. *)
Record key_order : Prop := {
  ko_irrefl : forall k, less k k = false;
  ko_trans : forall a b c, less a b = true -> less b c = true -> less a c = true;
  ko_weak : forall a b c, same_key K less a b = true -> same_key K less b c = true -> same_key K less a c = true;
  ko_equal : forall a b, kequal a b = same_key K less a b }.
(** [initial] is neutral for [combine]. *)
Definition neutral : Prop := forall v, combine initial v = v /\ combine v initial = v.

(** The value a table holds for key [k]. *)
Fixpoint lookup (k : K) (e : entries K V) : V :=
  match e with [] => initial | (k', v) :: e => if same_key K less k k' then v else lookup k e end.
Definition meaning (h : heap K V) (t : ref) (k : K) : V :=
  match nth_error h t with
  | Some (Full _ _ e) => lookup k e
  | Some (Entry _ _ k' v) => if same_key K less k k' then v else initial
  | _ => initial
  end.
Definition is_full (h : heap K V) (t : ref) : Prop := exists e, nth_error h t = Some (Full K V e).

(** The contributions to [k] in a tree of combine calls, left to right. *)
Fixpoint tree_contributions (e : texpr K V) (k : K) : list V :=
  match e with
  | TEmpty _ _ => []
  | TEntry _ _ k' v => if same_key K less k k' then [v] else []
  | TCombine _ _ a b => tree_contributions a k ++ tree_contributions b k
  end.
(** Heaps reached by table operations on tables that exist. *)
Inductive reached : heap K V -> Prop :=
| re_nil : reached []
| re_empty h : reached h -> reached (fst (empty_table K V h))
| re_full h : reached h -> reached (fst (full_table K V h))
| re_entry h k v : reached h -> reached (fst (table_entry K V h k v))
| re_combine h t1 t2 : reached h -> t1 < length h -> t2 < length h -> reached (fst (table_combine K V less initial combine h t1 t2))
| re_select h t k : reached h -> t < length h -> reached (fst (select K V less kequal initial h t k)).
End Spec.
