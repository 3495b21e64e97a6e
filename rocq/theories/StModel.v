(** * StModel: visit procedures from conditional total orders.

    Models the generation of static evaluators in /repo/codegen/static-impl.cc.

    Simplifications, for the whole file:
    - what is generated is the program, not its text: the statements are written in
      the order in which they are executed, and a test is always the last statement
      of its block, so that programs are trees;
    - expressions (right-hand sides) are numbers; comments are not generated;
    - printing to stdout is left out.  *)
From Verif Require Import Base OagModel.
Open Scope Z_scope.

Definition expr := nat.
(** The assignments in a block that have an instance ([value_for], its index) *)
Definition block := list (nat * expr).

(** What is generated for an instance that is no test (static-impl.cc:265-416):
    - [KInward]: inward (271-275);
    - [KParam], [KProxy]: parameters of procedure calls, place holders (279-288);
    - [KFiber]: a fiber (290-335);
    - [KLocal]: a local attribute, or a variable of a function (341-345, 357-359);
    - [KVariable]: a variable of the module (346-356);
    - [KShared], [KUpDown]: shared info of a child, broken cycles (371-376);
    - [KAttr]: an attribute of the node or a child, a parameter or result (377-395);
    - [KField]: a field of an object (402-413);
    - [KProblem]: anything else (414-415) *)
Inductive kind := KInward | KParam | KProxy | KFiber | KLocal | KVariable | KShared | KUpDown | KAttr | KField | KProblem.

(** An if statement, or a match of a case statement ([header]): whether it is the
    first one, its body, and the default if there is no next one
    (static-impl.cc:182-225) *)
Inductive test := TIf (if_true if_false : block) | TMatch (header : nat) (first : bool) (body : block) (default : option block).

(** An instance: whether its node is that of the left-hand side, which child it is,
    its attribute, the phase of the attribute ([attribute_schedule], 0 if it is no
    attribute of these nodes; static-impl.cc:109-118), what kind it is, and if it is
    a test the index of its condition and the test. *)
Record ginst := mkGinst { g_lhs : bool; g_ch : option nat; g_attr : nat; g_ph : Z; g_kind : kind; g_test : option (nat * test) }.

(** The program *)
Inductive code :=
| Done
| Visit (c : nat) (ph : Z) (k : code)
| Assign (i : nat) (e : expr) (k : code)
| LetNode (header : nat) (k : code)      (* val node = e *)
| If (i : nat) (t f : code)
| Match (i : nat) (t f : code).          (* node match { case p => t case _ => f } *)

Definition phylum := nat.
Record rule := mkRule { r_lhs : phylum; r_children : list phylum; r_insts : list ginst; r_cto : cto;
                        r_defaults : list (option expr); r_block : block }.

Section GEN.
(** [scala]: APS2SCALA is defined; [fuel]: a bound on repeated visits of one child *)
Context (scala : bool) (fuel : nat) (insts : list ginst).

(** static-impl.cc:69-81 [make_instance_assignment]; [r_defaults] below is what lines
    43-67 start with *)
Fixpoint assign_block (b : block) (asg : list (option expr)) : res (list (option expr)) :=
  match b with
  | [] => Ok asg
  | (i, e) :: b => if (length insts <=? i)%nat then Exit else assign_block b (upd asg i (Some e))
  end.

(** static-impl.cc:277-415: the right-hand side that is assigned, if any *)
Definition emitted (k : kind) (rhs : option expr) : option expr :=
  match k with
  | KFiber | KLocal | KAttr | KField => rhs
  | KVariable => if scala then None else rhs
  | KInward | KParam | KProxy | KShared | KUpDown | KProblem => None
  end.

(** static-impl.cc:124-180: the phases of the node and of the children; then [k].
    The call with the next phase of the child comes back to the same instance. *)
Fixpoint enter (fuel : nat) (g : ginst) (phase current : Z) (cp : list Z) (k : Z -> list Z -> res (code * bool)) : res (code * bool) :=
  match fuel with
  | O => Fuel
  | S fuel =>
    let ph := g_ph g in
    let change := g_lhs g && negb (ph =? current) && negb (ph =? - current) in
    if change && (current =? phase) then Ok (Done, true) else
    let current := if change then current + 1 else current in
    match g_ch g with
    | Some c =>
      v <- rd cp c ;;
      if negb (ph =? v) && negb (ph =? - v - 1) then
        if current =? phase then
          if ph <? 0 then Exit
          else '(code, cont) <- enter fuel g phase current (upd cp c (v + 1)) k ;;
               Ok (Visit c ph code, cont)
        else enter fuel g phase current (upd cp c (v + 1)) k
      else k current cp
    | None => k current cp
    end
  end.

(** static-impl.cc:94-418 [implement_visit_function]; the result says whether there are
    more instances after this phase.  A null pointer is [CDone]; a test without branches
    and branches without a test would be null or uninitialised: [UB]. *)
Fixpoint gen (t : cto) (phase current : Z) (asg : list (option expr)) (cp : list Z) : res (code * bool) :=
  match t with
  | CDone => Ok (Done, false)
  | CNext i next =>
    g <- rd insts i ;;
    enter fuel g phase current cp (fun current cp =>
      match g_test g with
      | Some _ => UB
      | None =>
        if negb (phase =? current) then gen next phase current asg cp
        else
          rhs <- rd asg i ;;
          match emitted (g_kind g) rhs with
          | Some e => '(code, cont) <- gen next phase current asg cp ;; Ok (Assign i e code, cont)
          | None => gen next phase current asg cp
          end
      end)
  | CIf i f t =>
    g <- rd insts i ;;
    enter fuel g phase current cp (fun current cp =>
      match g_test g with
      | None => UB
      | Some (_, TIf b_true b_false) =>
        asg_t <- assign_block b_true asg ;;
        '(ct, _) <- gen t phase current asg_t cp ;;
        asg_f <- assign_block b_false asg ;;
        '(cf, cont) <- gen f phase current asg_f cp ;;
        Ok (If i ct cf, cont)
      | Some (_, TMatch header first body default) =>
        asg_t <- assign_block body asg ;;
        '(ct, _) <- gen t phase current asg_t cp ;;
        asg_f <- (match default with Some b => assign_block b asg | None => Ok asg end) ;;
        '(cf, cont) <- gen f phase current asg_f cp ;;
        Ok ((if first : bool then LetNode header (Match i ct cf) else Match i ct cf), cont)
      end)
  end.
End GEN.

(** static-impl.cc:421-505 [dump_visit_functions]: the procedures visit_n_1_j, visit_n_2_j, ... of a rule;
    [phases] bounds their number, [phase] is the one before *)
Fixpoint visit_procs (scala : bool) (fuel phases : nat) (r : rule) (asg : list (option expr)) (phase : Z) : res (list code) :=
  match phases with
  | O => Fuel
  | S phases =>
    '(c, cont) <- gen scala fuel (r_insts r) (r_cto r) (phase + 1) 0 asg (map (fun _ => 0) (r_children r)) ;;
    if cont : bool then rest <- visit_procs scala fuel phases r asg (phase + 1) ;; Ok (c :: rest) else Ok [c]
  end.
Definition visit_functions (scala : bool) (fuel phases : nat) (r : rule) : res (list code) :=
  match r_cto r with
  | CDone => Ok []
  | _ => asg <- assign_block (r_insts r) (r_block r) (r_defaults r) ;; visit_procs scala fuel phases r asg 0
  end.

(** ** Which procedure is called *)
(** static-impl.cc:588-606: the constructors of the phylum, in the order of the module,
    that have a rule are numbered. *)
Fixpoint instance_index (has_rule : nat -> bool) (cons : list nat) (d : nat) : option nat :=
  match cons with
  | [] => None
  | c :: cs =>
    if (c =? d)%nat then (if has_rule c then Some 0%nat else None)
    else option_map (fun k => if has_rule c then S k else k) (instance_index has_rule cs d)
  end.
(** The number of a constructor at run time: apscpp/dump-cpp.cc:1570-1572, and
    Type::install in base/cpp/aps-impl.cpp:181-186 *)
Fixpoint get_index (cons : list nat) (d : nat) : option nat :=
  match cons with
  | [] => None
  | c :: cs => if (c =? d)%nat then Some 0%nat else option_map S (get_index cs d)
  end.
(** static-impl.cc:441, 465-503: visit_n_ph_j is written for the constructor with number j *)
Fixpoint proc_of (has_rule : nat -> bool) (cons : list nat) (j : nat) : option nat :=
  match cons with
  | [] => None
  | c :: cs => if has_rule c then match j with O => Some c | S j => proc_of has_rule cs j end else proc_of has_rule cs j
  end.
(** static-impl.cc:612-663: the constructor whose procedure visit_n_ph calls; [None] is an
    exception (a MatchError, "bad constructor index") *)
Definition dispatch (scala : bool) (has_rule : nat -> bool) (cons : list nat) (d : nat) : option nat :=
  if scala then
    match instance_index has_rule cons d with
    | Some j => proc_of has_rule cons j            (* case p_d(_,...) => visit_n_ph_j(node) *)
    | None => None
    end
  else
    match get_index cons d with
    | Some j => proc_of has_rule cons j            (* case j: visit_n_ph_j(node) *)
    | None => None
    end.
