(** * SnSpec: histories of calls, and the notions used to state what the Scala
    runtime does with nodes.  No code of /repo is modelled here. *)
From Verif Require Import Base SnModel.

(** the nodes among the arguments of a constructor *)
Definition node_args (args : list arg) : list (option ref) :=
  flat_map (fun a => match a with ANode r => [r] | AVal _ => [] end) args.
(** the arguments exist *)
Definition args_exist (h : heap) (args : list arg) : Prop :=
  forall c, In (ANode (Some c)) args -> c < length (h_objs h).

(** A history: calls of constructors with their results ([None]: an exception), and
    of [finish] of phyla *)
Inductive event := Constructed (t : phylum) (con : nat) (args : list arg) (r : option ref) | Finished (t : phylum).
Inductive history : list event -> heap -> Prop :=
| hist_none : history [] empty
| hist_construct : forall l h t con args h' r, history l h -> args_exist h args ->
    construct t con args h = (h', r) -> history (l ++ [Constructed t con args r]) h'
| hist_finish : forall l h t, history l h -> history (l ++ [Finished t]) (finish_phylum t h).

(** the phylum was finished; how often a constructor of it was called before *)
Definition finished (t : phylum) (l : list event) : Prop := In (Finished t) l.
Fixpoint made (t : phylum) (l : list event) : nat :=
  match l with
  | [] => 0
  | Finished u :: l => if u =? t then 0 else made t l
  | Constructed u _ _ _ :: l => (if u =? t then 1 else 0) + made t l
  end.
(** no call ended with an exception *)
Definition no_exception (l : list event) : Prop := forall t con args, ~ In (Constructed t con args None) l.

(** what a user sees of a node *)
Definition type_of (h : heap) (r : ref) : option phylum := option_map o_ty (get h r).
Definition number_of (h : heap) (r : ref) : option nat := option_map o_num (get h r).
Definition parent_of (h : heap) (r : ref) : option ref := match get h r with Some o => o_parent o | None => None end.
Definition args_of (h : heap) (r : ref) : option (nat * list arg) :=
  option_map (fun o => (o_con o, o_args o)) (get h r).
(** [c] was passed to the constructor of [p] *)
Definition child_of (h : heap) (c p : ref) : Prop :=
  exists con args, args_of h p = Some (con, args) /\ In (ANode (Some c)) args.

(** ancestors *)
Inductive ancestor (h : heap) (r : ref) : ref -> Prop :=
| anc_self : ancestor h r r
| anc_parent : forall p a, parent_of h r = Some p -> ancestor h p a -> ancestor h r a.

(** nodes whose attribute is needed, directly or not *)
Inductive needed (needs : ref -> list ref) (n : ref) : ref -> Prop :=
| need_self : needed needs n n
| need_step : forall m k, In m (needs n) -> needed needs m k -> needed needs n k.

(** the attribute of the node with a number: its status, whether it has a value *)
Definition status_of (a : attribute) (i : nat) : status :=
  match nth_error (at_evals a) i with Some e => e_status e | None => Unevaluated end.
Definition has_value (a : attribute) (i : nat) : Prop := status_of a i = Evaluated \/ status_of a i = Assigned.

(** using attributes while nodes are constructed *)
Inductive uses (t : phylum) : list event -> heap -> attribute -> Prop :=
| use_none : uses t [] empty (new_attribute t)
| use_construct : forall l h a ty con args h' r, uses t l h a -> args_exist h args ->
    construct ty con args h = (h', r) -> uses t (l ++ [Constructed ty con args r]) h' a
| use_finish : forall l h a ty, uses t l h a -> uses t (l ++ [Finished ty]) (finish_phylum ty h) a
| use_demand : forall l h a fuel needs n a', uses t l h a -> demand fuel needs h n a = Ok a' -> uses t l h a'
| use_assign : forall l h a n a', uses t l h a -> assign h n a = Ok a' -> uses t l h a'.
