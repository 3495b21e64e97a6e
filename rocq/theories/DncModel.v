(** * DncModel: the DNC closure of the analyser.

    Models /repo/analyze/aps-dnc.c:383-396 and 2427-2831: transitive closure of
    production and summary graphs, their synchronisation and the DNC iteration. *)
From Verif Require Import Base CondModel EdgeModel.
Open Scope nat_scope.

(** aps-dnc.c:383-396 [add_transitive_edge_to_graph] *)
Definition add_transitive_edge (source sink : nat) (c1 c2 : condition) (k1 k2 : N) (m : mem) (g : aug) : res (mem * aug) :=
  let k := dependency_trans k1 k2 in
  let c := mkCond (N.lor (positive c1) (positive c2)) (N.lor (negative c1) (negative c2)) in
  if negb (N.eqb (N.land (positive c) (negative c)) 0) then Ok (m, g)
  else add_edge_to_graph source sink c k m g.

(** aps-dnc.c:2609-2654 [add_transitive_edges_to_graph] with [a] NULL: every edge
    of [set] (from [source]) followed by edge [b].  The conditions and kinds are
    copied before anything is added (the special case of a one-element set reads
    them when they are used, which is the same moment).  The temporary arrays are
    not modelled.  The source of the set's edges is the graph's row: all edges of
    a set have the same source and sink (checked by add_edge). *)
Definition add_transitive_before (set : addr) (source : nat) (b : edge) (m : mem) (g : aug) : res (mem * aug) :=
  l <- set_at m set ;;
  foldM (fun '(m, g) '(c, k) => add_transitive_edge source (e_sink b) c (e_cond b) k (e_kind b) m g) l (m, g).
(** the same with [b] NULL: edge [a] followed by every edge of [set] (to [sink]) *)
Definition add_transitive_after (a : edge) (set : addr) (sink : nat) (m : mem) (g : aug) : res (mem * aug) :=
  l <- set_at m set ;;
  foldM (fun '(m, g) '(c, k) => add_transitive_edge (e_source a) sink (e_cond a) c (e_kind a) k m g) l (m, g).
(** aps-dnc.c:2656-2676 [close_using_edge]; [copy] is the copy of the edge *)
Definition close_using_edge (copy : edge) (m : mem) (g : aug) : res (mem * aug) :=
  let n := n_inst g in
  foldM (fun '(m, g) i =>
    s1 <- rd (graph g) (i * n + e_source copy) ;;
    '(m, g) <- add_transitive_before s1 i copy m g ;;
    s2 <- rd (graph g) (e_sink copy * n + i) ;;
    add_transitive_after copy s2 i m g) (seq 0 n) (m, g).
(** aps-dnc.c:2710-2720: the inner loop of [close_augmented_dependency_graph] *)
Fixpoint close_worklist (fuel : nat) (m : mem) (g : aug) : res (mem * aug) :=
  match wl_head g with
  | 0 => Ok (m, g)
  | _ => match fuel with
         | O => Fuel
         | S f => '(m, g, e) <- take_head m g ;; '(m, g) <- close_using_edge e m g ;; close_worklist f m g
         end
  end.

(** ** Summary graphs *)
(** aps-dnc.h:86-98: instance labels (the fibered attributes), the two-dimensional
    array, and whether the phylum is a function declaration. *)
Record phy := mkPhy { p_labels : list nat; mingraph : list N; is_func : bool }.
Definition p_n (p : phy) : nat := length (p_labels p).

(** aps-dnc.c:2750-2765: the loop over k for one (i,j); state: graph, ij, changed.
    [break] leaves the loop when ij is max_dependency. *)
Fixpoint summary_k (n i j : nat) (ks : list nat) (mg : list N) (ij : N) (changed : bool) : res (list N * bool) :=
  match ks with
  | [] => Ok (mg, changed)
  | k :: ks =>
    ik <- rd mg (i * n + k) ;;
    kj <- rd mg (k * n + j) ;;
    let tmpij := dependency_trans ik kj in
    if negb (at_most tmpij ij) then
      let ij := dependency_join tmpij ij in
      mg <- wr mg (i * n + j) ij ;;
      if N.eqb ij max_dependency then Ok (mg, true) else summary_k n i j ks mg ij true
    else summary_k n i j ks mg ij changed
  end.
(** aps-dnc.c:2749-2768: one pass of the do-loop *)
Definition summary_pass (n : nat) (mg : list N) : res (list N * bool) :=
  foldM (fun '(mg, ch) i =>
    foldM (fun '(mg, ch) j =>
      ij <- rd mg (i * n + j) ;;
      if negb (N.eqb ij max_dependency) then summary_k n i j (seq 0 n) mg ij ch else Ok (mg, ch)) (seq 0 n) (mg, ch)) (seq 0 n) (mg, false).
(** aps-dnc.c:2742-2772 [close_summary_dependency_graph] *)
Fixpoint close_summary (fuel : nat) (n : nat) (mg : list N) (any : bool) : res (list N * bool) :=
  match fuel with
  | O => Fuel
  | S f => '(mg, ch) <- summary_pass n mg ;; if ch : bool then close_summary f n mg true else Ok (mg, any)
  end.

(** ** Synchronisation *)
(** aps-dnc.c:2464-2505: one (i,j) of [synchronize_dependency_graphs] *)
Definition sync_cell (start phy_n : nat) (isf : bool) (i j : nat) (st : mem * aug * list N) : res (mem * aug * list N) :=
  let '(m, g, mg) := st in
  set <- rd (graph g) (i * n_inst g + j) ;;
  l <- set_at m set ;;
  let sum_index := (i - start) * phy_n + (j - start) in
  min <- rd mg sum_index ;;
  let kind := edgeset_kind l in
  if negb (at_most (dependency_indirect kind) min) && negb isf then
    let kind := dependency_join (dependency_indirect kind) min in
    if N.eqb kind min then Exit                          (** "kind computation broken" *)
    else mg <- wr mg sum_index kind ;; Ok (m, g, mg)
  else if negb (at_most min (edgeset_lowerbound l)) then
    '(m, g) <- add_edge_to_graph i j (mkCond 0 0) (dependency_join kind min) m g ;; Ok (m, g, mg)
  else Ok (m, g, mg).
(** aps-dnc.c:2429-2510 [synchronize_dependency_graphs] *)
Definition synchronize (labels : list nat) (start : nat) (p : phy) (m : mem) (g : aug) : res (mem * aug * phy) :=
  let phy_n := p_n p in
  '(m, g, mg) <-
    foldM (fun st i =>
      la <- rd labels i ;;
      lp <- rd (p_labels p) (i - start) ;;
      if negb (la =? lp) then Exit
      else foldM (fun st j => sync_cell start phy_n (is_func p) i j st) (seq start phy_n) st)
      (seq start phy_n) (m, g, mingraph p) ;;
  Ok (m, g, mkPhy (p_labels p) mg (is_func p)).

(** The fixed part of a production graph: the labels of its instances, and the
    nodes [augment_dependency_graph] visits, in order (left-hand side, right-hand
    sides, then calls): where their instances start and the index of their
    summary graph; None is a node without one (phy_graph == NULL). *)
Record rule := mkRule { r_labels : list nat; r_blocks : list (nat * option nat) }.
(** aps-dnc.c:2512-2590 [augment_dependency_graph] and the routines it calls;
    finding the nodes by walking the declaration is not modelled. *)
Definition augment (r : rule) (m : mem) (g : aug) (ps : list phy) : res (mem * aug * list phy) :=
  foldM (fun '(m, g, ps) '(start, x) =>
    match x with
    | None => Ok (m, g, ps)
    | Some x =>
      p <- rd ps x ;;
      '(m, g, p) <- synchronize (r_labels r) start p m g ;;
      ps <- wr ps x p ;;
      Ok (m, g, ps)
    end) (r_blocks r) (m, g, ps).

(** aps-dnc.c:2709-2724: the outer loop; its condition holds on entry *)
Fixpoint close_rounds (fuel : nat) (r : rule) (m : mem) (g : aug) (ps : list phy) : res (mem * aug * list phy) :=
  match fuel with
  | O => Fuel
  | S f =>
    '(m, g) <- close_worklist fuel m g ;;
    '(m, g, ps) <- augment r m g ps ;;
    if wl_head g =? 0 then Ok (m, g, ps) else close_rounds f r m g ps
  end.
(** aps-dnc.c:2699-2728 [close_augmented_dependency_graph] *)
Definition close_augmented (fuel : nat) (r : rule) (m : mem) (g : aug) (ps : list phy) : res (mem * aug * list phy * bool) :=
  '(m, g, ps) <- augment r m g ps ;;
  if wl_head g =? 0 then Ok (m, g, ps, false)
  else '(m, g, ps) <- close_rounds fuel r m g ps ;; Ok (m, g, ps, true).

(** The analysis state: production graphs (match rules, then the global
    dependencies) and summary graphs. *)
Record state := mkState { st_mem : mem; st_augs : list aug; st_phys : list phy }.

(** aps-dnc.c:2805-2831 [dnc_close], one iteration *)
Definition dnc_pass (fuel : nat) (rules : list rule) (s : state) : res (state * bool) :=
  '(s, ch) <-
    foldM (fun '(s, ch) j =>
      r <- rd rules j ;;
      g <- rd (st_augs s) j ;;
      '(m, g, ps, c) <- close_augmented fuel r (st_mem s) g (st_phys s) ;;
      gs <- wr (st_augs s) j g ;;
      Ok (mkState m gs ps, ch || c)) (seq 0 (length rules)) (s, false) ;;
  foldM (fun '(s, ch) j =>
    p <- rd (st_phys s) j ;;
    '(mg, c) <- close_summary fuel (p_n p) (mingraph p) false ;;
    ps <- wr (st_phys s) j (mkPhy (p_labels p) mg (is_func p)) ;;
    Ok (mkState (st_mem s) (st_augs s) ps, ch || c)) (seq 0 (length (st_phys s))) (s, ch).
Fixpoint dnc_close (fuel : nat) (rules : list rule) (s : state) : res state :=
  match fuel with
  | O => Fuel
  | S f => '(s, ch) <- dnc_pass fuel rules s ;; if ch : bool then dnc_close f rules s else Ok s
  end.
(** aps-dnc.c:2774-2803 [analysis_state_cycle] *)
Definition analysis_state_cycle (s : state) : res N :=
  k <- foldM (fun k p => foldM (fun k j => k1 <- rd (mingraph p) (j * p_n p + j) ;; Ok (dependency_join k k1)) (seq 0 (p_n p)) k) (st_phys s) no_dependency ;;
  foldM (fun k g => foldM (fun k j => set <- rd (graph g) (j * n_inst g + j) ;; l <- set_at (st_mem s) set ;; Ok (dependency_join k (edgeset_kind l))) (seq 0 (n_inst g)) k) (st_augs s) k.
