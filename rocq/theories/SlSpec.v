(** * SlSpec: what the operations of the library of types are meant to do.

    No code of /repo is modelled here: these are the notions, used in the
    statements of C86-C97, of a power, an interval, an order, a lattice. *)
From Verif Require Import Base.
From Coq Require Import ZArith.

(** The values of [Int]. *)
Definition is_int (z : Z) : Prop := (-2147483648 <= z <= 2147483647)%Z.

(** [x] multiplied by itself [n] times, in any monoid. *)
Fixpoint npow {T} (one : T) (times : T -> T -> T) (x : T) (n : nat) : T :=
  match n with O => one | S n' => times x (npow one times x n') end.

Definition monoid {T} (one : T) (times : T -> T -> T) : Prop :=
  (forall x, times one x = x) /\ (forall x, times x one = x) /\
  (forall x y z, times x (times y z) = times (times x y) z).

(** [l] lists the integers from [x] to [y] in order. *)
Definition interval (x y : Z) (l : list Z) : Prop :=
  Z.of_nat (length l) = Z.max 0 (y - x + 1) /\
  forall i, i < length l -> nth_error l i = Some (x + Z.of_nat i)%Z.

(** An equality is an equivalence. *)
Definition equivalence {T} (eq : T -> T -> bool) : Prop :=
  (forall x, eq x x = true) /\
  (forall x y, eq x y = true -> eq y x = true) /\
  (forall x y z, eq x y = true -> eq y z = true -> eq x z = true).

(** A total order, up to the equality [eq]. *)
Definition total_order {T} (eq lt le : T -> T -> bool) : Prop :=
  equivalence eq /\
  (forall x y, le x y = true <-> lt x y = true \/ eq x y = true) /\
  (forall x y, lt x y = true -> eq x y = false) /\
  (forall x y, lt x y = true \/ eq x y = true \/ lt y x = true) /\
  (forall x y, lt x y = true -> lt y x = false) /\
  (forall x y z, le x y = true -> le y z = true -> le x z = true).

(** A partial order with a strict part and a least element, whose equality is
    [eq], on the values that satisfy [P]. *)
Record partial_order {T} (P : T -> Prop) (eq : T -> T -> bool) (bottom : T)
    (lt le : T -> T -> bool) : Prop := {
  po_eq : forall x y, P x -> P y -> eq x y = true <-> le x y = true /\ le y x = true;
  po_refl : forall x, P x -> le x x = true;
  po_trans : forall x y z, P x -> P y -> P z -> le x y = true -> le y z = true -> le x z = true;
  po_strict : forall x y, P x -> P y -> lt x y = true <-> le x y = true /\ eq x y = false;
  po_bottom : P bottom;
  po_least : forall x, P x -> le bottom x = true
}.

(** A lattice: a partial order with least upper and greatest lower bounds. *)
Record lattice {T} (P : T -> Prop) (eq : T -> T -> bool) (bottom : T)
    (lt le : T -> T -> bool) (join meet : T -> T -> T) : Prop := {
  la_order : partial_order P eq bottom lt le;
  la_join_in : forall x y, P x -> P y -> P (join x y);
  la_join_l : forall x y, P x -> P y -> le x (join x y) = true;
  la_join_r : forall x y, P x -> P y -> le y (join x y) = true;
  la_join_least : forall x y z, P x -> P y -> P z ->
    le x z = true -> le y z = true -> le (join x y) z = true;
  la_meet_in : forall x y, P x -> P y -> P (meet x y);
  la_meet_l : forall x y, P x -> P y -> le (meet x y) x = true;
  la_meet_r : forall x y, P x -> P y -> le (meet x y) y = true;
  la_meet_greatest : forall x y z, P x -> P y -> P z ->
    le z x = true -> le z y = true -> le z (meet x y) = true
}.

(** All values. *)
Definition any {T} (_ : T) : Prop := True.
