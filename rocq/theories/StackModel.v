(** * Model of utilities/stack.c (LinkedStack).

    Memory: cells live in a [heap] indexed by address; addresses 1,2,... are
    handed out by [malloc] in any order the allocator likes (here: one more
    than the number of cells ever allocated, i.e. a freshly allocated cell
    never coincides with a cell allocated before; reuse of freed addresses by
    the real allocator is therefore not modelled, freed cells stay dead).
    0 is NULL.  [malloc] never fails. *)
From Verif Require Import Base.

(** stack.h: [struct { LinkedStack *next; void *value; }]. *)
Record cell := { value : Z; next : nat }.

(** [None] = freed. *)
Definition heap := list (option cell).

(** Address a (>=1) is index a-1. *)
Definition load (h : heap) (a : nat) : res cell :=
  match a with
  | O => UB
  | S i => match nth_error h i with Some (Some c) => Ok c | _ => UB end
  end.

Definition malloc (h : heap) (c : cell) : heap * nat :=
  (h ++ [Some c], S (length h)).

(** free(p): freeing an address that is not live is UB. *)
Definition free (h : heap) (a : nat) : res heap :=
  match a with
  | O => Ok h
  | S i => match nth_error h i with Some (Some _) => Ok (upd h i None) | _ => UB end
  end.

(** stack.c:10-12 [stack_create]: returns the new value of [*stack]. *)
Definition stack_create : nat := 0.

(** stack.c:19-24 [stack_push]: [s] is [*stack]; returns the new [*stack]. *)
Definition stack_push (h : heap) (s : nat) (v : Z) : heap * nat :=
  malloc h {| value := v; next := s |}.

(** stack.c:33-42 [stack_pop]: result [Some v] stands for "return true, *v = v",
    [None] for "return false". *)
Definition stack_pop (h : heap) (s : nat) : res (heap * nat * option Z) :=
  match s with
  | O => Ok (h, s, None)
  | _ =>
    c <- load h s ;;
    h' <- free h s ;;
    Ok (h', next c, Some (value c))
  end.

(** stack.c:49-51 [stack_is_empty]. *)
Definition stack_is_empty (s : nat) : bool := Nat.eqb s 0.

(** stack.c:58-62 [stack_destroy]: pop until false.  Each pop frees one cell,
    so the number of cells ever allocated bounds the number of iterations. *)
Fixpoint destroy_loop (fuel : nat) (h : heap) (s : nat) : res (heap * nat) :=
  match fuel with
  | O => Fuel
  | S fuel =>
    '(h', s', r) <- stack_pop h s ;;
    match r with
    | Some _ => destroy_loop fuel h' s'
    | None => Ok (h', s')
    end
  end.
Definition stack_destroy (h : heap) (s : nat) : res (heap * nat) :=
  destroy_loop (S (length h)) h s.

(** Client programs: any number of stacks (identified by number, all created
    empty) over one heap. *)
Inductive op := Push (i : nat) (v : Z) | Pop (i : nat) | IsEmpty (i : nat) | Destroy (i : nat).

Inductive out := ONone | OPop (r : option Z) | OEmpty (b : bool).

Definition vars := nat -> nat.
Definition setvar {A} (m : nat -> A) (i : nat) (s : A) : nat -> A :=
  fun j => if Nat.eqb j i then s else m j.

Definition step (h : heap) (m : vars) (o : op) : res (heap * vars * out) :=
  match o with
  | Push i v => let '(h', s) := stack_push h (m i) v in Ok (h', setvar m i s, ONone)
  | Pop i => '(h', s, r) <- stack_pop h (m i) ;; Ok (h', setvar m i s, OPop r)
  | IsEmpty i => Ok (h, m, OEmpty (stack_is_empty (m i)))
  | Destroy i => '(h', s) <- stack_destroy h (m i) ;; Ok (h', setvar m i s, ONone)
  end.

Fixpoint run (h : heap) (m : vars) (ops : list op) : res (heap * vars * list out) :=
  match ops with
  | [] => Ok (h, m, [])
  | o :: ops =>
    '(h1, m1, x) <- step h m o ;;
    '(h2, m2, xs) <- run h1 m1 ops ;;
    Ok (h2, m2, x :: xs)
  end.
