(** * Specification for utilities/prime.h: "the next prime number n greater than
    or equal to the argument such that n-2 is also prime". *)
From Coq Require Import ZArith Znumtheory.
Open Scope Z_scope.

Definition is_twin (r : Z) : Prop := prime r /\ prime (r - 2).

Definition least_twin (x r : Z) : Prop :=
  x <= r /\ is_twin r /\ forall r', x <= r' -> is_twin r' -> r <= r'.
