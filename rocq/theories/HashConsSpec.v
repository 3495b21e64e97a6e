(** * Specification for hash consing: the client's obligations on hash and
    equality, and the meaning of set programs. *)
From Coq Require Import List ZArith.
Import ListNotations.
From Verif Require Import HashConsModel.

Record hc_good {A} (hashf : A -> Z) (equalf : A -> A -> bool) : Prop := {
  hc_refl : forall a, equalf a a = true;
  hc_sym : forall a b, equalf a b = true -> equalf b a = true;
  hc_trans : forall a b c, equalf a b = true -> equalf b c = true -> equalf a c = true;
  hc_hash : forall a b, equalf a b = true -> hashf a = hashf b }.

(** Members of the mathematical set an operation yields, given those of the
    earlier results. *)
Definition set_denote (ds : list (list Z)) (o : set_op) : list Z :=
  match o with
  | SEmpty => []
  | SNew l => l
  | SAdd x i => x :: nth i ds []
  | SUnion i j => nth i ds [] ++ nth j ds []
  end.
Definition set_denotes (ops : list set_op) : list (list Z) :=
  fold_left (fun ds o => ds ++ [set_denote ds o]) ops [].

(** Well-formed programs: arguments are results that exist already, elements
    are addresses below 2^63, and SNew is given no element twice. *)
Fixpoint set_wf (n : nat) (ops : list set_op) : Prop :=
  match ops with
  | [] => True
  | o :: ops =>
    match o with
    | SEmpty => True
    | SNew l => NoDup l /\ Forall (fun x => 0 <= x < 2 ^ 63)%Z l
    | SAdd x i => (0 <= x < 2 ^ 63)%Z /\ (i < n)%nat
    | SUnion i j => (i < n)%nat /\ (j < n)%nat
    end /\ set_wf (S n) ops
  end.

Definition same_members (a b : list Z) : Prop := forall x, In x a <-> In x b.
