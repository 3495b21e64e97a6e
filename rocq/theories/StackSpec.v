(** * Specification: a family of mathematical stacks. *)
From Coq Require Import List ZArith.
Import ListNotations.
From Verif Require Import StackModel.

Definition sstep (m : nat -> list Z) (o : op) : (nat -> list Z) * out :=
  match o with
  | Push i v => (setvar m i (v :: m i), ONone)
  | Pop i => match m i with
             | [] => (m, OPop None)
             | v :: s => (setvar m i s, OPop (Some v))
             end
  | IsEmpty i => (m, OEmpty (match m i with [] => true | _ => false end))
  | Destroy i => (setvar m i [], ONone)
  end.

Fixpoint srun (m : nat -> list Z) (ops : list op) : (nat -> list Z) * list out :=
  match ops with
  | [] => (m, [])
  | o :: ops => let '(m1, x) := sstep m o in
                let '(m2, xs) := srun m1 ops in (m2, x :: xs)
  end.
