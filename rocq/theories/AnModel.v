(** * AnModel: the analysis of a module as a whole.

    Models /repo/analyze/aps-analyze.c:21-101 [analyze_thing] without SCC scheduling
    (static_scc_schedule off, the default), from the dependency graphs of the
    productions on, and /repo/analyze/aps-cycle.c:753-904 [assert_circular_declaration]
    with its filter.  Debugging output is left out. *)
From Verif Require Import Base CondModel EdgeModel DncModel CycleModel UpDownModel OagModel OaModel.
Open Scope nat_scope.

(** What aps-cycle.c:727-803 and aps-dnc.c:1051-1062, 3193-3196 read of an instance:
    its attribute is an if rule; it is the result of the innermost function around it;
    the instance has a fiber; the attribute is a formal in a pattern; it is declared
    circular. *)
Record inst_info := mkInfo { in_if : bool; in_result : bool; in_fiber : bool; in_formal : bool; in_declared : bool }.
(** aps-cycle.c:759-803 *)
Definition applicable_for_circularity_check (i : inst_info) : bool :=
  if in_if i then false else if in_result i then false else if in_fiber i then false else if in_formal i then false else true.

(** What the analysis reports, and about which instance: errors (aps-cycle.c:840 and
    888, aps-analyze.c:51 and 90), warnings (aps-cycle.c:850 and 897), and the line
    printed at aps-analyze.c:40. *)
Inductive message := NotDeclaredCircular (v : inst) | DeclaredButAcyclic (v : inst) | RemovingCycle (d : N) | NotDnc (d : N) | NotOag (d : N).

(** aps-cycle.c:819-855 and 866-902: one instance.  [slot]: its place in parent_index.
    The buffer for its name is not modelled. *)
Definition check_instance (par : list (option nat)) (n slot : nat) (v : inst) (i : inst_info) (out : list message) : res (list message) :=
  if applicable_for_circularity_check i then
    '(any, out) <- foldM (fun '(any, out) k =>
      q <- rd par k ;;
      if is_set q k then
        r <- rd par slot ;;
        if is_set r k then (if in_declared i then Ok (true, out) else Ok (any, out ++ [NotDeclaredCircular v])) else Ok (any, out)
      else Ok (any, out)) (seq 0 n) (false, out) ;;
    Ok (if in_declared i && negb any then out ++ [DeclaredButAcyclic v] else out)
  else Ok out.
(** aps-cycle.c:809-904.  [pinfo], [ainfo]: the instances of the summary graphs and
    of the production graphs. *)
Definition assert_circular_declaration (par : list (option nat)) (pinfo ainfo : list (list inst_info)) (s : state) : res (list message) :=
  out <- foldM (fun out y =>
    p <- rd (st_phys s) y ;;
    is <- rd pinfo y ;;
    foldM (fun out j => i <- rd is j ;; check_instance par (num_instances s) (phylum_start s y + j) (InSummary y j) i out) (seq 0 (p_n p)) out) (seq 0 (length (st_phys s))) [] ;;
  foldM (fun out x =>
    g <- rd (st_augs s) x ;;
    is <- rd ainfo x ;;
    foldM (fun out j => i <- rd is j ;; check_instance par (num_instances s) (constructor_start s x + j) (InGraph x j) i out) (seq 0 (n_inst g)) out) (seq 0 (length (st_augs s))) out.

(** The facts about a module the analysis works with. *)
Record facts := mkFacts {
  f_rules : list rule;              (** the productions and their nodes *)
  f_pups : list (list bool);        (** which instances go up: summary graphs *)
  f_aups : list (list bool);        (** and production graphs *)
  f_pinfo : list (list inst_info);
  f_ainfo : list (list inst_info);
  f_dirs : list (list direction);
  f_insts : list (list oinst) }.
(** aps-cycle.c:906-963 [break_fiber_cycles] with the check of the declarations
    (UpDownModel.break_fiber_cycles is the same without it) *)
Definition break_and_check (fuel : nat) (lf : bool) (F : facts) (dep : N) (s : state) : res (state * list message) :=
  '(par, cycles) <- find_cycles lf (f_rules F) s ;;
  out <- assert_circular_declaration par (f_pinfo F) (f_ainfo F) s ;;
  s <- add_up_down_attributes (N.eqb (N.land dep DEPENDENCY_NOT_JUST_FIBER) 0) par cycles (f_pups F) (f_aups F) s ;;
  s <- dnc_close fuel (f_rules F) s ;;
  Ok (s, out).
(** aps-debug.c:9-27 and 44-53: aps_error counts, and the compilers stop after the
    analysis if it has counted anything (aps_check_error: aps2scala.cc:94,
    apscpp.cc:92, apsc.c:37). *)
Definition is_error (m : message) : bool := match m with NotDeclaredCircular _ | NotDnc _ | NotOag _ => true | DeclaredButAcyclic _ | RemovingCycle _ => false end.
Definition goes_on (out : list message) : bool := negb (existsb is_error out).
(** What is kept in Declaration_info(decl)->analysis_state: original_state_dependency,
    loop_required, the state, the schedules of the phyla, the orders of the productions. *)
Record analysis := mkAnalysis { a_original : N; a_loop : bool; a_state : state; a_schedules : list (list Z); a_orders : list cto }.
(** aps-analyze.c:76-95 with d cleared: the schedule, and the test again.
    [d]: what the first test found; [out]: the messages so far. *)
Definition schedule_and_test (fuel : nat) (F : facts) (d : N) (s : state) (loop : bool) (out : list message) : res (option analysis * list message) :=
  '(s, scheds, ts) <- compute_oag fuel (f_rules F) (f_dirs F) (f_insts F) s ;;
  d' <- analysis_state_cycle s ;;
  if N.eqb d' no_dependency then Ok (Some (mkAnalysis d loop s scheds (match ts with Some ts => ts | None => [] end)), out)
  else Ok (None, out ++ [NotOag d']).
(** aps-analyze.c:31-96: the analysis, None when the function returns early (lines 52
    and 91), and the messages.  (compute_dnc stores the state in the declaration at
    once, aps-dnc.c:2835, so an early return leaves it there; an error has been
    counted then.)  [s0]: the state before dnc_close (aps-dnc.c:2837). *)
Definition analyze_thing (fuel : nat) (lf : bool) (F : facts) (s0 : state) : res (option analysis * list message) :=
  s <- dnc_close fuel (f_rules F) s0 ;;
  d <- analysis_state_cycle s ;;
  if N.eqb d no_dependency then schedule_and_test fuel F d s false []
  else if N.eqb (N.land d DEPENDENCY_MAYBE_SIMPLE) 0 || N.eqb (N.land d DEPENDENCY_NOT_JUST_FIBER) 0 then
    '(s, out) <- break_and_check fuel lf F d s ;;
    schedule_and_test fuel F d s (N.eqb (N.land d DEPENDENCY_MAYBE_SIMPLE) 0) ([RemovingCycle d] ++ out)
  else Ok (None, [NotDnc d]).
