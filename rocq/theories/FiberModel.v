(** * FiberModel: the automata behind fiber analysis.

    Models /repo/analyze/aps-fiber.c: the nondeterministic automaton (FSA) as a data
    structure, and the construction of the deterministic one (DFA), whose states are
    the fibers.  Declarations are numbers; [dual] is reverse_field (DUAL_DECL).
    Which edges a program gives rise to (build_FSA, aps-fiber.c:2244-2427) is not
    modelled: the theorems are about every history of the operations below.  The
    static variables are those of a fresh process.  malloc always succeeds; lists
    are immutable, as in the code, where nodes are only ever added in front.
    Debugging output is left out. *)
From Verif Require Import Base.

(** aps-fiber.c:13-17 [struct edges]: an edge into a node; no label is an epsilon edge *)
Record fedge := mkFedge { label : option nat; efrom : nat }.
(** aps-fiber.c:43-44, 1895-1899: FSA_graph, FSA_next_node_index, omega *)
Record fsa := mkFsa { fgraph : list (list fedge); next_index : nat; omega : list nat }.
Definition MAX_FSA_NUMBER : nat := 1800.
Definition MAX_DFA_NUMBER : nat := 1000.
Definition FSA_default_node : nat := 2.
Definition fsa0 : fsa := mkFsa (repeat [] MAX_FSA_NUMBER) 4 [].
(** aps-fiber.c:2524-2532 [node_in_set] *)
Definition node_in_set (ns : list nat) (i : nat) : bool := existsb (Nat.eqb i) ns.
(** aps-fiber.c:2552-2562 [add_to_nodeset] *)
Definition add_to_nodeset (ns : list nat) (node : nat) : list nat :=
  match ns with x :: _ => if x =? node then ns else node :: ns | [] => node :: ns end.
(** aps-fiber.c:1904-1931 [id_decl_node] for a declaration without a number *)
Definition id_decl_node (a : fsa) : fsa * nat :=
  let index := next_index a in
  (mkFsa (fgraph a) (index + 2) (add_to_nodeset (add_to_nodeset (omega a) index) (index + 1)), index).
(** aps-fiber.c:1934-1953 [id_expr_node] for an expression without a number *)
Definition id_expr_node (a : fsa) : fsa * nat := (mkFsa (fgraph a) (next_index a + 2) (omega a), next_index a).
(** aps-fiber.c:2247-2251, the first call of build_FSA *)
Definition default_node (a : fsa) : fsa :=
  mkFsa (fgraph a) (next_index a) (add_to_nodeset (add_to_nodeset (omega a) FSA_default_node) (FSA_default_node + 1)).
Definition same_label (l l' : option nat) : bool := match l, l' with Some x, Some y => x =? y | None, None => true | _, _ => false end.
(** aps-fiber.c:2447-2478 [add_FSA_edge] *)
Definition add_FSA_edge (from to : nat) (l : option nat) (a : fsa) : res fsa :=
  edgeset <- rd (fgraph a) to ;;
  if (from <=? 1) || (to <=? 1) then Exit
  else if existsb (fun e => (efrom e =? from) && same_label (label e) l) edgeset then Ok a
  else g <- wr (fgraph a) to (mkFedge l from :: edgeset) ;; Ok (mkFsa g (next_index a) (omega a)).
(** aps-fiber.c:2481-2496 [nodeset_union] *)
Definition nodeset_union (ns1 ns2 : list nat) : list nat :=
  fold_left (fun ns1 x => if node_in_set ns1 x then ns1 else x :: ns1) ns2 ns1.

(** aps-fiber.c:2779-2801 [beclose].  The nodes from head up to tail are [seg]; each
    round adds nodes in front of head, and the next goes over those added. *)
Definition beclose_node (g : list (list fedge)) (st : list nat * list nat) (node : nat) : res (list nat * list nat) :=
  es <- rd g node ;;
  Ok (fold_left (fun st e => match label e with
                             | None => if node_in_set (snd st) (efrom e) then st else (efrom e :: fst st, add_to_nodeset (snd st) (efrom e))
                             | Some _ => st
                             end) es st).
Fixpoint beclose_loop (fuel : nat) (g : list (list fedge)) (seg head : list nat) : res (list nat) :=
  match fuel with
  | O => Fuel
  | S f =>
    '(added, head) <- foldM (beclose_node g) seg ([], head) ;;
    match added with [] => Ok head | _ => beclose_loop f g added head end
  end.
Definition beclose (fuel : nat) (g : list (list fedge)) (N : list nat) : res (list nat) := beclose_loop fuel g N N.

(** aps-fiber.c:24-30 [struct node_in_tree], aps-fiber.h:4-13 [struct fiber].  States
    are numbered from 1; [shorter] is the number of a state. *)
Record dnode := mkDnode { ns : list nat; forward : bool; hash : nat; field : option nat; shorter : option nat }.
(** DFA[1..DFA_node_number]; DFA_tree as the list of its assignments, the last first:
    (to, from, declaration) *)
Record dfa := mkDfa { states : list dnode; tree : list (nat * nat * nat) }.
Definition state_at (d : dfa) (i : nat) : res dnode := match i with O => UB | S k => rd (states d) k end.
(** reading DFA_tree[to][from] *)
Definition tree_at (d : dfa) (to from : nat) : option nat :=
  option_map snd (find (fun e => (fst (fst e) =? to) && (snd (fst e) =? from)) (tree d)).
(** aps-fiber.c:2803-2811 [nodeset_hash]; the sum of at most MAX_FSA_NUMBER numbers
    below MAX_FSA_NUMBER does not overflow *)
Definition nodeset_hash (p : list nat) : nat := fold_left Nat.add p 0.
(** aps-fiber.c:2813-2842 [makeNode]; None is NULL.  T is a state's number. *)
Definition step_set (g : list (list fedge)) (ns : list nat) (f : nat) : res (list nat) :=
  foldM (fun result p => es <- rd g p ;;
    Ok (fold_left (fun result e => match label e with
                                   | Some l => if (l =? f) && negb (node_in_set result (efrom e)) then add_to_nodeset result (efrom e) else result
                                   | None => result
                                   end) es result)) ns [].
Definition makeNode (g : list (list fedge)) (d : dfa) (T : nat) (f : nat) (reverse : bool) : res (option dnode) :=
  t <- state_at d T ;;
  result <- step_set g (ns t) f ;;
  match result with
  | [] => Ok None
  | _ => Ok (Some (mkDnode result (Bool.eqb (forward t) (negb reverse)) (nodeset_hash result) (Some f) (Some T)))
  end.
(** aps-fiber.c:2845-2871 [same_DFA_node] *)
Definition same_DFA_node (t1 t2 : dnode) : bool :=
  Bool.eqb (forward t1) (forward t2) && (hash t1 =? hash t2) &&
  match ns t1, ns t2 with [], _ | _, [] => false | _, _ =>
    forallb (node_in_set (ns t2)) (ns t1) && forallb (node_in_set (ns t1)) (ns t2) end.
(** aps-fiber.c:2874-2886 [get_same]: the number of a state from [shorter] upwards *)
Fixpoint get_same (fuel : nat) (d : dfa) (t : dnode) (up : option nat) : res (option nat) :=
  match up with
  | None => Ok None
  | Some i =>
    match fuel with
    | O => Fuel
    | S f => t1 <- state_at d i ;; if same_DFA_node t t1 then Ok (Some i) else get_same f d t (shorter t1)
    end
  end.
(** aps-fiber.c:2926-2936 [is_reachable]; n&~1 *)
Definition even_of (n : nat) : nat := 2 * (n / 2).
Fixpoint is_reachable (ns : list nat) : bool :=
  match ns with [] => false | x :: r => existsb (fun y => even_of y =? even_of x) r || is_reachable r end.
(** aps-fiber.c:2938-2966 [check_transition]: the new state's number, if any *)
Definition check_transition (fuel : nat) (g : list (list fedge)) (to : option dnode) (trans from : nat) (d : dfa) : res (dfa * option nat) :=
  match to with
  | None => Ok (d, None)
  | Some to =>
    n <- beclose fuel g (ns to) ;;
    let to := mkDnode n (forward to) (hash to) (field to) (shorter to) in
    old <- get_same fuel d to (shorter to) ;;
    match old with
    | Some o => Ok (mkDfa (states d) ((o, from, trans) :: tree d), None)
    | None =>
      if is_reachable (ns to) then
        let index := S (length (states d)) in
        if MAX_DFA_NUMBER <=? index then Exit
        else Ok (mkDfa (states d ++ [mkDnode n (forward to) (hash to) (Some trans) (Some from)]) ((index, from, trans) :: tree d), Some index)
      else Ok (d, None)
    end
  end.
(** aps-fiber.c:2907-2921 [add_to_DFA_worklist] *)
Definition add_to_DFA_worklist (wl : list nat) (t : option nat) : list nat := match t with None => wl | Some i => i :: wl end.
(** aps-fiber.c:2984-2994: one field *)
Definition do_field (fuel : nat) (g : list (list fedge)) (dual : nat -> nat) (T : nat) (st : dfa * list nat) (f : nat) : res (dfa * list nat) :=
  Nf <- makeNode g (fst st) T f false ;;
  Nfd <- makeNode g (fst st) T (dual f) true ;;
  '(d, t) <- check_transition fuel g Nf f T (fst st) ;;
  let wl := add_to_DFA_worklist (snd st) t in
  '(d, t) <- check_transition fuel g Nfd (dual f) T d ;;
  Ok (d, add_to_DFA_worklist wl t).
(** aps-fiber.c:2980-2996: the worklist loop *)
Fixpoint makeDFA_loop (fuel : nat) (g : list (list fedge)) (dual : nat -> nat) (fields : list nat) (d : dfa) (wl : list nat) : res dfa :=
  match wl with
  | [] => Ok d
  | T :: wl =>
    match fuel with
    | O => Fuel
    | S k => '(d, wl) <- foldM (do_field fuel g dual T) fields (d, wl) ;; makeDFA_loop k g dual fields d wl
    end
  end.
(** aps-fiber.c:2968-2997 [makeDFA] *)
Definition makeDFA (fuel : nat) (a : fsa) (dual : nat -> nat) (fields : list nat) : res dfa :=
  n <- beclose fuel (fgraph a) (omega a) ;;
  makeDFA_loop fuel (fgraph a) dual fields (mkDfa [mkDnode n true (nodeset_hash n) None None] []) [1].
(** aps-fiber.c:3050-3116 [DFA_fiber_set]: the normal and reverse final fiber sets of
    a declaration with this number, as numbers of states *)
Definition DFA_fiber_set (d : dfa) (index : nat) : res (list nat * list nat) :=
  foldM (fun st i => t <- state_at d i ;;
    if node_in_set (ns t) index && node_in_set (ns t) (index + 1)
    then Ok (if forward t then (i :: fst st, snd st) else (fst st, i :: snd st))
    else Ok st) (seq 2 (length (states d) - 1)) ([], []).
(** aps-fiber.c:3183-3195 [longer]: the association list of state i *)
Definition longer (d : dfa) (i : nat) : list (nat * nat) :=
  fold_left (fun p j => match tree_at d j i with Some f => (f, j) :: p | None => p end) (seq 1 (length (states d))) [].
(** aps-dnc.c:1012: assoc(field, f->longer) *)
Definition lengthen (d : dfa) (f i : nat) : option nat := option_map snd (find (fun e => fst e =? f) (longer d i)).
(** aps-dnc.c:1007-1014 [dep_modifier_fiber]: the modifiers' fields, outermost first *)
Fixpoint dep_modifier_fiber (d : dfa) (dm : list nat) (f : nat) : option nat :=
  match dm with
  | [] => Some f
  | x :: next => match dep_modifier_fiber d next f with Some i => lengthen d x i | None => None end
  end.
