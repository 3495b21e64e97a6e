(** * CollSpec: what the collection, range and numeral functions should mean. *)
From Verif Require Import Base CollModel.
From Coq Require Import Ascii.
Local Open Scope Z_scope.
Local Open Scope list_scope.

(** The sequence a collection stands for. *)
Fixpoint flat {A} (l : coll A) : list A :=
  match l with
  | Append l1 l2 => flat l1 ++ flat l2
  | Single x => [x]
  | None_ => []
  end.

(** Element [i] of a sequence, or the out_of_range exception. *)
Definition at_ {A} (s : list A) (i : Z) : res A :=
  if i <? 0 then Exit
  else match nth_error s (Z.to_nat i) with Some x => Ok x | None => Exit end.

(** [p] is the position of the first element equal to [x], -1 if there is none. *)
Definition first_position {A} (eqb : A -> A -> bool) (x : A) (s : list A) (p : Z) : Prop :=
  (p = -1 /\ forall y, In y s -> eqb x y = false) \/
  (exists before y after, s = before ++ y :: after /\ p = Z.of_nat (List.length before) /\
     eqb x y = true /\ forall z, In z before -> eqb x z = false).

(** Positions start..finish-1 of a sequence, and the others. *)
Definition slice {A} (s : list A) (start finish : Z) : list A :=
  firstn (Z.to_nat (finish - start)) (skipn (Z.to_nat start) s).
Definition but_slice {A} (s : list A) (start finish : Z) : list A :=
  firstn (Z.to_nat start) s ++ skipn (Z.to_nat finish) s.

(** The element equality is an equivalence. *)
Record equivalence {A} (eqb : A -> A -> bool) : Prop := {
  eq_refl_ : forall x, eqb x x = true;
  eq_sym_ : forall x y, eqb x y = true -> eqb y x = true;
  eq_trans_ : forall x y z, eqb x y = true -> eqb y z = true -> eqb x z = true }.

(** [x] belongs to the set a collection stands for. *)
Definition inset {A} (eqb : A -> A -> bool) (x : A) (s : list A) : Prop :=
  exists y, In y s /\ eqb x y = true.

(** No two positions hold equal elements. *)
Definition no_duplicates {A} (eqb : A -> A -> bool) (s : list A) : Prop :=
  forall i j x y, nth_error s i = Some x -> nth_error s j = Some y -> eqb x y = true -> i = j.

(** x, x+1, ..., x+n-1 *)
Fixpoint interval (x : Z) (n : nat) : list Z :=
  match n with O => [] | S n => x :: interval (x + 1) n end.

(** Decimal numerals. *)
Definition digits : list ascii := ["0";"1";"2";"3";"4";"5";"6";"7";"8";"9"]%char.
Definition value (ds : list nat) : Z := fold_left (fun v d => 10 * v + Z.of_nat d) ds 0.
Definition unsigned_numeral (s : list ascii) (n : Z) : Prop :=
  exists ds, Forall2 (fun d c => nth_error digits d = Some c) ds s /\ value ds = n /\
    (ds = [O] \/ match ds with d :: _ => d <> O | [] => False end).
Definition numeral (s : list ascii) (n : Z) : Prop :=
  if n <? 0 then exists t, s = "-"%char :: t /\ unsigned_numeral t (- n)
  else unsigned_numeral s n.
