(** * AllocSpec: what an allocator owes its users. *)
From Verif Require Import Base AllocModel.
Open Scope Z_scope.

(** What malloc guarantees for [struct block] (16 bytes of links before the contents). *)
Definition malloc_ok (malloc : nat -> option Z) : Prop :=
  (forall i b, malloc i = Some b -> b mod 8 = 0 /\ 16 < b) /\
  (forall i j b c, i <> j -> malloc i = Some b -> malloc j = Some c ->
     b + BLOCKSIZE <= c - 16 \/ c + BLOCKSIZE <= b - 16).

Definition disjoint (x y : Z * Z) : Prop :=
  forall z, ~ (fst x <= z < fst x + snd x /\ fst y <= z < fst y + snd y).
(** Inside the contents of one malloc'ed block, or an empty object at NULL. *)
Definition placed (malloc : nat -> option Z) (x : Z * Z) : Prop :=
  x = (0, 0) \/ exists i b, malloc i = Some b /\ b <= fst x /\ fst x + snd x <= b + BLOCKSIZE.
Definition aligned (x : Z * Z) : Prop := fst x mod 8 = 0.

Definition all_disjoint (l : list (Z * Z)) : Prop :=
  forall i j x y, i <> j -> nth_error l i = Some x -> nth_error l j = Some y -> disjoint x y.
(** A request the C types allow. *)
Definition sane (o : aop) : Prop := match o with HAlloc n | SAlloc n => 0 <= n <= INT_MAX - 7 | Release _ => True end.
Definition too_large (o : aop) : Prop := match o with HAlloc n | SAlloc n => BLOCKSIZE <= n | Release _ => False end.
