From Verif Require Import NextModel.
From Coq Require Import List.
Import ListNotations.

(** the elements of a list, in order *)
Fixpoint elems (l : ltree) : list nat :=
  match l with LNil => [] | LElem x => [x] | LApp a b => elems a ++ elems b end.

(** The loop "for (x = p; x != NULL; x = next(x))" meets exactly the given nodes. *)
Inductive meets (next : nat -> option nat) : option nat -> list nat -> Prop :=
| m_end : meets next None []
| m_step x l : meets next (next x) l -> meets next (Some x) (x :: l).

(** [lists_of kids cs ls]: below the children cs there is a finite tree; ls are the lists in it. *)
Inductive lists_of (kids : nat -> list child) : list child -> list (kind * ltree) -> Prop :=
| lo_nil : lists_of kids [] []
| lo_node x cs a b : lists_of kids (kids x) a -> lists_of kids cs b -> lists_of kids (CNode x :: cs) (a ++ b)
| lo_list k l cs a b : lists_of kids (map CNode (elems l)) a -> lists_of kids cs b ->
    lists_of kids (CList k l :: cs) ((k, l) :: a ++ b).

(** the places in lists: no node has two places in lists of the same phylum when this has no repetition *)
Definition places (ls : list (kind * ltree)) : list (kind * nat) := flat_map (fun kl => map (pair (fst kl)) (elems (snd kl))) ls.
