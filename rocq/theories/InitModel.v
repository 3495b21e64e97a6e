(** * InitModel: the state the analysis of a grammar starts with.

    Models /repo/analyze/aps-dnc.c:2153-2197 [init_summary_dependency_graph], 1739-1823
    [summary_graph_for], [init_node_phy_graph] and what aps-dnc.c:1835-2014
    [init_augmented_dependency_graph] and 2410-2423 [init_analysis_state] do with the
    instances and edges of GbModel: for modules with top-level matches only (no functions,
    procedures or variables of the module), after fibering. *)
From Verif Require Import Base CondModel EdgeModel PropsEdge DncModel GbModel PropsBuild.
From Coq Require Import Cantor.
Open Scope nat_scope.

(** The phyla (s->phyla), the root phylum, the module's declaration, the top-level matches
    (s->match_rules), what the earlier phases found out, and the instance_index a
    declaration has when the graph of match x is built. *)
Record grammar := mkGrammar { gr_phyla : list decl; gr_start : decl; gr_module : decl; gr_rules : list grule; gr_env : genv; gr_old : nat -> decl -> nat }.
Definition env_of (G : grammar) (x : nat) : genv :=
  let E := gr_env G in
  mkEnv (e_fibers E) (e_base E) (e_longer E) (e_reverse E) (e_normal E) (e_backward E) (e_attrs E) (e_circ E) (e_shinfo E) (e_rfield E) (e_result E) (e_formals E) (gr_old G x).

(** What fibered_attr_equal (aps-dnc.c:18-20) compares: the attribute and the fiber. *)
Definition label (i : ainst) : nat :=
  to_nat (match i_attr i with AD d => 2 * d | AT k => S (2 * k) end, match i_fiber i with None => 0 | Some f => S f end).

(** aps-dnc.c:1739-1750 *)
Fixpoint index_of (d : decl) (l : list decl) : option nat := match l with [] => None | d' :: l => if d' =? d then Some 0 else option_map S (index_of d l) end.
Definition summary_graph_for (phyla : list decl) (d : decl) : res nat := match index_of d phyla with Some y => Ok y | None => Exit end.
(** aps-dnc.c:2153-2197: the instances (node NULL) and an empty matrix *)
Definition summary_insts (E : genv) (phy : decl) : list ainst := insts_of (flat_map (fun a => with_fibers E a None) (e_attrs E phy)).
Definition init_summary (E : genv) (phy : decl) : DncModel.phy :=
  let l := summary_insts E phy in mkPhy (map label l) (repeat no_dependency (length l * length l)) false.

(** aps-dnc.c:1783-1823 for the children; [st]: Declaration_info(decl)->instance_index.  A
    child whose type is no phylum has no summary graph. *)
Fixpoint kid_blocks (phyla : list decl) (st : decl -> nat) (ks : list (decl * option decl)) : res (list (nat * option nat)) :=
  match ks with
  | [] => Ok []
  | (d, None) :: ks => bs <- kid_blocks phyla st ks ;; Ok ((st d, None) :: bs)
  | (d, Some phy) :: ks => y <- summary_graph_for phyla phy ;; bs <- kid_blocks phyla st ks ;; Ok ((st d, Some y) :: bs)
  end.
(** aps-dnc.c:1835-2014 for a top-level match: [build], a graph without edges
    (1968-1974), and then the edges *)
Definition init_match (G : grammar) (x : nat) (R : grule) (w : world) : res (world * DncModel.rule) :=
  let E := env_of G x in
  y <- summary_graph_for (gr_phyla G) (r_phy R) ;;
  bt <- build E R ;;
  let st d := start E R (b_body bt) (snd (number_block 0 (r_body R))) (AD d) (Some d) in
  bs <- kid_blocks (gr_phyla G) st (r_kids R) ;;
  let x := length (w_graphs w) in
  w <- step (NewGraph (length (b_insts bt))) w ;;
  w <- add_all x (b_edges bt) w ;;
  Ok (w, DncModel.mkRule (map label (b_insts bt)) ((st (r_lhs R), Some y) :: bs)).
(** the loop aps-dnc.c:2414-2417 *)
Fixpoint init_matches (G : grammar) (x : nat) (l : list grule) (w : world) : res (world * list DncModel.rule) :=
  match l with
  | [] => Ok (w, [])
  | R :: l => '(w, r) <- init_match G x R w ;; '(w, rs) <- init_matches G (S x) l w ;; Ok (w, r :: rs)
  end.
(** aps-dnc.c:1844-1857, 2418: the global dependencies, here only the attributes of the root *)
Definition init_global (G : grammar) (w : world) : res (world * DncModel.rule) :=
  y <- summary_graph_for (gr_phyla G) (gr_start G) ;;
  let l := insts_of (node_items (gr_env G) (gr_module G) (gr_start G)) in
  w <- step (NewGraph (length l)) w ;;
  Ok (w, DncModel.mkRule (map label l) [(0, Some y)]).
(** aps-dnc.c:2410-2423 *)
Definition init_analysis (G : grammar) : res (list DncModel.rule * state) :=
  '(w, rs) <- init_matches G 0 (gr_rules G) (mkWorld (mkMem [] 0) []) ;;
  '(w, r) <- init_global G w ;;
  Ok (rs ++ [r], mkState (w_mem w) (w_graphs w) (map (init_summary (gr_env G)) (gr_phyla G))).
