(** * OrdModel: what the scheduler reads of the instances of a grammar.

    Models /repo/analyze/aps-dnc.c:22-40 [fibered_attr_direction] (49-53: it is the
    direction of the instances of a summary graph, whose node is NULL), 541-555
    [if_rule_index], [if_rule_p] and 567-633 [init_decl_cond], and aps-oag.c:118-137
    [instance_condition], for the instances of InitModel: modules with top-level matches only. *)
From Verif Require Import Base CondModel EdgeModel DncModel CycleModel OagModel AnModel GbModel InitModel.
Open Scope nat_scope.

(** The flags ATTR_DECL_SYN_FLAG and ATTR_DECL_INH_FLAG of a declaration
    (aps-info.h:88-91), set by aps-bind.c:1115-1130 and aps-fiber.c:787. *)
Record flags := mkFlags { fl_syn : decl -> bool; fl_inh : decl -> bool }.
(** aps-dnc.c:22-40; aps-fiber.c:69-74: no fiber is not reversed *)
Definition fibered_attr_direction (E : genv) (L : flags) (i : ainst) : direction :=
  let reverse := match i_fiber i with None => false | Some f => e_reverse E f end in
  match i_attr i with
  | AT _ => instance_local
  | AD a => if fl_syn L a then (if reverse then instance_inward else instance_outward)
            else if fl_inh L a then (if reverse then instance_outward else instance_inward)
            else instance_local
  end.
Definition init_dirs (L : flags) (G : grammar) : list (list direction) :=
  map (fun phy => map (fibered_attr_direction (gr_env G) L) (summary_insts (gr_env G) phy)) (gr_phyla G).

(** The declarations among the statements of a body (aps-dnc.c:570-572 sets their
    decl_cond; what declares nothing is no attribute of an instance). *)
Definition declared (s : stmt) : list decl := match s with SLocal d _ | SForIn d _ _ => [d] | _ => [] end.
(** aps-dnc.c:567-633: decl_cond.  A variable of a pattern inside the body is never visited
    (traverse_Block goes to the bodies of the matches only) and keeps the zeros its
    Declaration_info was made with. *)
Definition decl_cond (b : block) (d : decl) : condition :=
  match List.find (fun sc => existsb (Nat.eqb d) (declared (fst sc))) (conds_block no_cond b) with Some sc => snd sc | None => no_cond end.
(** aps-oag.c:118-137; the nodes of the pattern of the rule are visited with no condition;
    541-555 of aps-dnc.c.  The attribute is there (no instance has been removed yet). *)
Definition instance_condition (b : block) (i : ainst) : condition :=
  match i_node i with
  | Some _ => no_cond
  | None => match i_attr i with
            | AT k => match test_of b k with Some t => t_cond t | None => no_cond end
            | AD d => decl_cond b d
            end
  end.
Definition order_inst (b : block) (i : ainst) : oinst :=
  mkOinst (instance_condition b i) (match i_attr i with AT k => Some k | AD _ => None end).
Fixpoint rule_insts (G : grammar) (x : nat) (l : list grule) : list (list oinst) :=
  match l with
  | [] => []
  | R :: l => match GbModel.build (env_of G x) R with Ok bt => map (order_inst (b_body bt)) (b_insts bt) | _ => [] end :: rule_insts G (S x) l
  end.
(** the module's own graph comes last; a module's declaration has no condition
    (aps-dnc.c:574) *)
Definition init_insts (G : grammar) : list (list oinst) :=
  rule_insts G 0 (gr_rules G) ++ [map (fun _ => mkOinst no_cond None) (insts_of (node_items (gr_env G) (gr_module G) (gr_start G)))].
(** What [analyze_thing] works with (AnModel): the rest is only read when there are cycles. *)
Definition facts_of (G : grammar) (L : flags) (rules : list DncModel.rule) (pups aups : list (list bool)) (pinfo ainfo : list (list inst_info)) : facts :=
  mkFacts rules pups aups pinfo ainfo (init_dirs L G) (init_insts G).
(** aps-analyze.c:31-96 on a grammar, from its text *)
Definition analyze (fuel : nat) (lf : bool) (G : grammar) (L : flags) (pups aups : list (list bool)) (pinfo ainfo : list (list inst_info)) : res (option analysis * list message) :=
  '(rules, s) <- init_analysis G ;; analyze_thing fuel lf (facts_of G L rules pups aups pinfo ainfo) s.
