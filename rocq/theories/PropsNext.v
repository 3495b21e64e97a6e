(** * C69: the first/next walk of a list meets its elements in order. *)
From Verif Require Import Base NextModel NextSpec NextProofs.
From Coq Require Import List PeanoNat.
Import ListNotations.

(** After set_next_fields on a program in which no node has two places in lists of one
    phylum, the loop from first_X through the next fields meets exactly the elements of every
    list of the program, in order; fields of other nodes are as before.  The traversal
    terminates. *)
Theorem C69_walk kids root ls h : lists_of kids [CNode root] ls -> NoDup (places ls) ->
  exists h' f0, (forall f, f0 <= f -> set_next_fields kids f [CNode root] h = Ok h') /\
    (forall k l, In (k, l) ls -> meets (h' k) (first_of l) (elems l)) /\
    (forall k x, ~ In (k, x) (places ls) -> h' k x = h k x).
Proof.
  intros L ND. destruct (all_visited kids _ _ L ND) as [A _]. destruct (A h) as (h' & [f0 R] & G1 & G2). exists h', f0.
  split; [intros f Hf; exact (proj1 (mono kids f0) f _ _ _ Hf R)|]. split; [|exact G2]. intros k l I. apply seg_meets, G1, I.
Qed.
(** first_X is the first element. *)
Theorem C69_first l : first_of l = hd_error (elems l).
Proof. apply first_elems. Qed.

(** A program: a node with a list of declarations, one of which has a list of expressions
    (of which one is an element of a list of actuals too) *)
Definition ex_kids (x : nat) : list child :=
  match x with
  | 0 => [CList KDecls (LApp (LApp LNil (LElem 1)) (LApp (LElem 2) LNil))]
  | 1 => [CList KExprs (LApp (LElem 3) (LElem 4)); CNode 5]
  | 5 => [CList KActuals (LElem 6)]
  | _ => []
  end.
Example C69_example :
  exists ls, lists_of ex_kids [CNode 0] ls /\ NoDup (places ls) /\ length ls = 3.
Proof.
  exists [(KDecls, LApp (LApp LNil (LElem 1)) (LApp (LElem 2) LNil)); (KExprs, LApp (LElem 3) (LElem 4)); (KActuals, LElem 6)].
  split; [|split; [|reflexivity]].
  - apply (lo_node ex_kids 0 [] [(KDecls, LApp (LApp LNil (LElem 1)) (LApp (LElem 2) LNil)); (KExprs, LApp (LElem 3) (LElem 4)); (KActuals, LElem 6)] []); [|constructor].
    apply (lo_list ex_kids KDecls _ [] [(KExprs, LApp (LElem 3) (LElem 4)); (KActuals, LElem 6)] []); [|constructor].
    apply (lo_node ex_kids 1 [CNode 2] [(KExprs, LApp (LElem 3) (LElem 4)); (KActuals, LElem 6)] []).
    + apply (lo_list ex_kids KExprs _ [CNode 5] [] [(KActuals, LElem 6)]).
      * apply (lo_node ex_kids 3 [CNode 4] [] []); [constructor|]. apply (lo_node ex_kids 4 [] [] []); constructor.
      * apply (lo_node ex_kids 5 [] [(KActuals, LElem 6)] []); [|constructor].
        apply (lo_list ex_kids KActuals (LElem 6) [] [] []); [|constructor]. apply (lo_node ex_kids 6 [] [] []); constructor.
    + apply (lo_node ex_kids 2 [] [] []); constructor.
  - repeat constructor; simpl; intuition discriminate.
Qed.
Print Assumptions C69_walk.
Print Assumptions C69_first.
