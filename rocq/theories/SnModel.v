(** * SnModel: nodes, phyla, sequences and attributes of the Scala runtime.

    Models /repo/base/scala/aps-impl.scala ([Node], [Nodes], [I_PHYLUM],
    [Attribute]), the constructors that /repo/aps2scala/dump-scala.cc generates and
    [M_SEQUENCE] of /repo/base/scala/basic.handcode.scala.

    Simplifications, for the whole file:
    - an object is known by the number of objects created before it;
    - phyla, constructors and values that are no nodes are numbers;
    - a failing [assert] and a NullPointerException are the same exception
      ([None] or [Exit]); printing is left out. *)
From Verif Require Import Base.

Definition ref := nat.
Definition phylum := nat.

(** An argument of a constructor: a node (or null, the value [nil] of a phylum) if
    the type of the formal is a phylum, some other value otherwise
    (dump-scala.cc:1786-1790) *)
Inductive arg := ANode (r : option ref) | AVal (v : nat).

(** A node: the case class (dump-scala.cc:1773-1809) with the fields of [Node]
    (aps-impl.scala:107-115) *)
Record obj := { o_ty : phylum; o_con : nat; o_args : list arg; o_num : nat; o_parent : option ref }.

(** [h_nodes], [h_frozen]: the [Nodes] of each phylum (aps-impl.scala:127-138) *)
Record heap := { h_objs : list obj; h_nodes : phylum -> list ref; h_frozen : phylum -> bool }.

Definition empty : heap := {| h_objs := []; h_nodes := fun _ => []; h_frozen := fun _ => false |}.

Definition get (h : heap) (r : ref) : option obj := nth_error (h_objs h) r.

Fixpoint update {A} (i : nat) (f : A -> A) (l : list A) : list A :=
  match l, i with
  | [], _ => []
  | x :: l, 0 => f x :: l
  | x :: l, S i => x :: update i f l
  end.
Definition modify (r : ref) (f : obj -> obj) (h : heap) : heap :=
  {| h_objs := update r f (h_objs h); h_nodes := h_nodes h; h_frozen := h_frozen h |}.
Definition set_num (n : nat) (o : obj) : obj :=
  {| o_ty := o_ty o; o_con := o_con o; o_args := o_args o; o_num := n; o_parent := o_parent o |}.
Definition set_parent (p : ref) (o : obj) : obj :=
  {| o_ty := o_ty o; o_con := o_con o; o_args := o_args o; o_num := o_num o; o_parent := Some p |}.

(** dump-scala.cc:1783-1793 *)
Definition children (o : obj) : list (option ref) :=
  flat_map (fun a => match a with ANode r => [r] | AVal _ => [] end) (o_args o).

(** aps-impl.scala:130-137 *)
Definition add (t : phylum) (r : ref) (h : heap) : option (nat * heap) :=
  if h_frozen h t then None
  else Some (length (h_nodes h t),
             {| h_objs := h_objs h;
                h_nodes := fun u => if u =? t then h_nodes h t ++ [r] else h_nodes h u;
                h_frozen := h_frozen h |}).

(** aps-impl.scala:118-121; the heap after the loop and whether it came to its end *)
Fixpoint adopt (r : ref) (chs : list (option ref)) (h : heap) : heap * bool :=
  match chs with
  | [] => (h, true)
  | None :: _ => (h, false)
  | Some ch :: chs =>
      match get h ch with
      | Some o => match o_parent o with
                  | None => adopt r chs (modify ch (set_parent r) h)
                  | Some _ => (h, false)
                  end
      | None => (h, false)
      end
  end.

(** aps-impl.scala:116-123 *)
Definition register (r : ref) (h : heap) : heap * bool :=
  match get h r with
  | Some o =>
      match add (o_ty o) r h with
      | Some (n, h) => adopt r (children o) (modify r (set_num n) h)
      | None => (h, false)
      end
  | None => (h, false)
  end.

(** The constructor function (dump-scala.cc:1385-1394, 1838-1841): the case class and [register] *)
Definition construct (t : phylum) (con : nat) (args : list arg) (h : heap) : heap * option ref :=
  let r := length (h_objs h) in
  let h := {| h_objs := h_objs h ++ [{| o_ty := t; o_con := con; o_args := args; o_num := 0; o_parent := None |}];
              h_nodes := h_nodes h; h_frozen := h_frozen h |} in
  match register r h with
  | (h, true) => (h, Some r)
  | (h, false) => (h, None)
  end.

(** aps-impl.scala:129, 169-172 *)
Definition finish_phylum (t : phylum) (h : heap) : heap :=
  {| h_objs := h_objs h; h_nodes := h_nodes h; h_frozen := fun u => if u =? t then true else h_frozen h u |}.

(** aps-impl.scala:124 and dump-scala.cc:1316-1322; [starts]: the start phylum *)
Fixpoint is_rooted (starts : phylum -> bool) (fuel : nat) (h : heap) (r : ref) : res bool :=
  match fuel with
  | 0 => Fuel
  | S fuel =>
      match get h r with
      | Some o =>
          if starts (o_ty o) then Ok true
          else match o_parent o with
               | Some p => is_rooted starts fuel h p
               | None => Ok false
               end
      | None => Exit
      end
  end.

(** The equality [==] of case classes: the same constructor and equal arguments
    ([equals] as generated by Scala). *)
Fixpoint eq_struct (fuel : nat) (h : heap) (r1 r2 : ref) : res bool :=
  match fuel with
  | 0 => Fuel
  | S fuel =>
      let eq_args := fix eq_args (l1 l2 : list arg) : res bool :=
        match l1, l2 with
        | [], [] => Ok true
        | ANode (Some x) :: l1, ANode (Some y) :: l2 =>
            b <- eq_struct fuel h x y ;; if b then eq_args l1 l2 else Ok false
        | ANode None :: l1, ANode None :: l2 => eq_args l1 l2
        | AVal x :: l1, AVal y :: l2 => if x =? y then eq_args l1 l2 else Ok false
        | _, _ => Ok false
        end in
      match get h r1, get h r2 with
      | Some o1, Some o2 =>
          if o_con o1 =? o_con o2 then eq_args (o_args o1) (o_args o2) else Ok false
      | _, _ => Exit
      end
  end.

(** ** Attributes (aps-impl.scala:295-356).  The [Evaluation] of a node: its anchor
    and its status ([Unevaluated] for [UNINITIALIZED] and [UNEVALUATED]); the value
    is left out. *)
Inductive status := Unevaluated | InCycle | Evaluated | Assigned.
Record evaluation := { e_anchor : ref; e_status : status }.
Record attribute := { at_ty : phylum; at_evals : list evaluation; at_started : bool; at_complete : bool }.

(** aps-impl.scala:304-305 *)
Definition new_attribute (t : phylum) : attribute :=
  {| at_ty := t; at_evals := []; at_started := false; at_complete := false |}.
Definition with_evals (a : attribute) (l : list evaluation) : attribute :=
  {| at_ty := at_ty a; at_evals := l; at_started := at_started a; at_complete := at_complete a |}.

(** aps-impl.scala:336-339; [k]: the number of evaluations still to be created *)
Fixpoint extend (k : nat) (nodes : list ref) (evals : list evaluation) : res (list evaluation) :=
  match k with
  | 0 => Ok evals
  | S k =>
      match nth_error nodes (length evals) with
      | Some nn => extend k nodes (evals ++ [{| e_anchor := nn; e_status := Unevaluated |}])
      | None => Exit
      end
  end.

(** aps-impl.scala:325-341; the index of the evaluation of [n] *)
Definition check_node (h : heap) (n : ref) (a : attribute) : res (nat * attribute) :=
  match get h n with
  | Some o =>
      if negb (o_ty o =? at_ty a) then Exit else         (* t_P.v_assert(n) *)
      let num := o_num o in
      match nth_error (h_nodes h (o_ty o)) num with
      | Some nn =>
          b <- eq_struct (S n) h n nn ;;                 (* assert (n == nn) *)
          if negb b then Exit else
          l <- extend (num + 1 - length (at_evals a)) (h_nodes h (o_ty o)) (at_evals a) ;;
          Ok (num, with_evals a l)
      | None => Exit
      end
  | None => Exit
  end.

Definition set_status (i : nat) (s : status) (a : attribute) : attribute :=
  with_evals a (update i (fun e => {| e_anchor := e_anchor e; e_status := s |}) (at_evals a)).

(** aps-impl.scala:347-349, 228-246: [compute] of the evaluation of a node demands
    the attribute of the nodes [needs] one after the other (simplification: of this
    attribute only) *)
Fixpoint demand (fuel : nat) (needs : ref -> list ref) (h : heap) (n : ref) (a : attribute) : res attribute :=
  match fuel with
  | 0 => Fuel
  | S fuel =>
      x <- check_node h n a ;;
      let (i, a) := x in
      match nth_error (at_evals a) i with
      | Some e =>
          match e_status e with
          | InCycle => Exit                               (* CyclicAttributeException *)
          | Evaluated | Assigned => Ok a
          | Unevaluated =>
              let demand_all := fix demand_all (l : list ref) (a : attribute) : res attribute :=
                match l with
                | [] => Ok a
                | m :: l => a <- demand fuel needs h m a ;; demand_all l a
                end in
              a <- demand_all (needs (e_anchor e)) (set_status i InCycle a) ;;
              Ok (set_status i Evaluated a)
          end
      | None => Exit
      end
  end.

(** aps-impl.scala:306-311, 343-345, 271-278 ([Evaluation.set]) *)
Definition assign (h : heap) (n : ref) (a : attribute) : res attribute :=
  if at_started a then Exit                               (* TooLateError *)
  else
    x <- check_node h n a ;;
    let (i, a) := x in
    match nth_error (at_evals a) i with
    | Some e => match e_status e with
                | Evaluated => Exit                       (* TooLateError *)
                | _ => Ok (set_status i Assigned a)
                end
    | None => Exit
    end.

(** aps-impl.scala:313-323 *)
Definition finish_attribute (starts : phylum -> bool) (fuel : nat) (needs : ref -> list ref) (h : heap) (a : attribute)
    : res attribute :=
  a <- (if at_complete a then Ok a
        else
          (fix each (l : list ref) (a : attribute) : res attribute :=
             match l with
             | [] => Ok a
             | n :: l =>
                 b <- is_rooted starts fuel h n ;;
                 a <- (if b : bool then demand fuel needs h n a else Ok a) ;;
                 each l a
             end) (h_nodes h (at_ty a)) a) ;;
  Ok {| at_ty := at_ty a; at_evals := at_evals a; at_started := at_started a; at_complete := true |}.

(** ** Sequences (basic.handcode.scala:626-720) *)
Section SEQ.
Context {E : Type}.
Inductive tree := Append (l1 l2 : tree) | Single (x : E) | None_.

(** 634, 674-677, 691 *)
Fixpoint size (t : tree) : Z :=
  match t with
  | Append l1 l2 => size l1 + size l2
  | Single _ => 1
  | None_ => 0
  end%Z.
(** 635-637, 678-679, 692-693 *)
Fixpoint nth (i : Z) (t : tree) : res E :=
  match t with
  | Append l1 l2 => if (i <? size l1)%Z then nth i l1 else nth (i - size l1)%Z l2
  | Single x => if (i =? 0)%Z then Ok x else Exit
  | None_ => Exit
  end.
(** 648-652 *)
Fixpoint to_list (t : tree) : list E :=
  match t with
  | Append l1 l2 => to_list l1 ++ to_list l2
  | Single x => [x]
  | None_ => []
  end.
(** 660-662 *)
Definition nth_from_end (i : Z) (t : tree) : res E :=
  if (i <? 0)%Z then Exit
  else match nth_error (rev (to_list t)) (Z.to_nat i) with Some x => Ok x | None => Exit end.
(** [indexOf] and [contains] of the Scala library: with [==] ([eq]) *)
Fixpoint index_of (eq : E -> E -> bool) (x : E) (l : list E) (i : Z) : Z :=
  match l with
  | [] => -1
  | y :: l => if eq y x then i else index_of eq x l (i + 1)
  end%Z.
(** 663-671 *)
Definition position (eq : E -> E -> bool) (x : E) (t : tree) : Z := index_of eq x (to_list t) 0.
Definition position_from_end (eq : E -> E -> bool) (x : E) (t : tree) : Z := index_of eq x (rev (to_list t)) 0.
Definition member (eq : E -> E -> bool) (x : E) (t : tree) : bool := existsb (fun y => eq y x) (to_list t).
End SEQ.
Arguments tree : clear implicits.
