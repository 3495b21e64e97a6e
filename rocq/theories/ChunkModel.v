(** * ChunkModel: the chunks of a rule and the static scheduler.

    Models the scheduling of one augmented dependency graph in
    /repo/analyze/aps-schedule.c (debugging output and warnings left out).
    - An INSTANCE* is its index; the edge set between two instances is represented by its
      edgeset_kind, which is all that this part of the code reads.
    - A Chunk* is its index in chunk_graph->instances (for the components: the address
      [base + size * index]).
    - short and int phases are unbounded; if_rule_index is below the word size.
    - The parameter "remaining", which is only printed, is left out. *)
From Verif Require Import Base CondModel EdgeModel DncModel CycleModel OagModel ComponentModel.
From Verif Require PrimeModel SccModel.
Open Scope nat_scope.

(** ** What is scheduled *)
(** aps-oag.h:13-22 [CHILD_PHASE]: <ph,ch> *)
Definition group := (Z * Z)%type.
Definition group_eqb (a b : group) : bool := Z.eqb (fst a) (fst b) && Z.eqb (snd a) (snd b).
(** An instance with instance_groups[i], instance_condition and, for an if_rule, if_rule_index. *)
Record sinst := mkSinst { si_group : group; si_cond : condition; si_if : option nat }.
(** The part of PHY_GRAPH that is used: max_phase and cyclic_flags. *)
Record phy := mkPhy { max_phase : nat; cyclic_flags : list bool }.
(** The augmented dependency graph: instances, edgeset_kind of graph[i*n+j], the phylum
    graph of lhs_decl and those (NULL is None) of the children. *)
Record rule := mkRule { r_insts : list sinst; r_kinds : list N; r_parent : phy; r_children : list (option phy) }.

(** aps-schedule.c:200-202 [group_is_local] *)
Definition group_is_local (g : group) : bool := group_eqb g (0, 0)%Z.
(** aps-schedule.c:169-173 [instance_in_aug_cycle] *)
Definition instance_in_aug_cycle (r : rule) (i : nat) : res bool :=
  let n := length (r_insts r) in k <- rd (r_kinds r) (i * n + i) ;; Ok (negb (N.eqb k no_dependency)).
(** the loops over all instances that collect those of one group *)
Definition members (r : rule) (want : group -> bool) : list nat :=
  filter (fun i => match nth_error (r_insts r) i with Some s => want (si_group s) | None => false end) (seq 0 (length (r_insts r))).

(** ** Chunks *)
(** aps-schedule.c:19-24 *)
Inductive chunk_type := HalfLeft | HalfRight | Local | Visit.
Definition type_eqb (a b : chunk_type) : bool :=
  match a, b with HalfLeft, HalfLeft | HalfRight, HalfRight | Local, Local | Visit, Visit => true | _, _ => false end.
(** aps-schedule.c:26-33; the index is the position in the array *)
Record chunk := mkChunk { c_type : chunk_type; c_ph : nat; c_ch : Z; c_circular : bool; c_insts : list nat }.

(** chunks_array[chunks_count++] = chunk: the array has room for 10 per instance
    (aps-schedule.c:2355-2356) *)
Definition push_chunk (n : nat) (chunks : list chunk) (c : chunk) : res (list chunk) :=
  if length chunks <? n * 10 then Ok (chunks ++ [c]) else UB.
(** aps-schedule.c:2366-2421: the half chunks of one phase of the parent *)
Definition half_chunks (r : rule) (chunks : list chunk) (p : nat) : res (list chunk) :=
  let n := length (r_insts r) in
  circ <- rd (cyclic_flags (r_parent r)) p ;;
  chunks <- push_chunk n chunks (mkChunk HalfLeft p (-1) circ (members r (fun g => group_eqb g (- Z.of_nat p, -1)%Z))) ;;
  push_chunk n chunks (mkChunk HalfRight p (-1) circ (members r (fun g => group_eqb g (Z.of_nat p, -1)%Z))).
(** aps-schedule.c:2423-2461: the visits of one child *)
Definition visit_chunks (r : rule) (chunks : list chunk) (ch : nat) : res (list chunk) :=
  let n := length (r_insts r) in
  child <- rd (r_children r) ch ;;
  match child with
  | None => Ok chunks
  | Some ph => foldM (fun chunks p =>
      circ <- rd (cyclic_flags ph) p ;;
      push_chunk n chunks (mkChunk Visit p (Z.of_nat ch) circ (members r (fun g => Z.eqb (Z.abs (fst g)) (Z.of_nat p) && Z.eqb (snd g) (Z.of_nat ch)))))
      (seq 1 (max_phase ph)) chunks
  end.
(** aps-schedule.c:2463-2481: a chunk for each local *)
Definition local_chunk (r : rule) (chunks : list chunk) (i : nat) : res (list chunk) :=
  s <- rd (r_insts r) i ;;
  if group_is_local (si_group s) then
    circ <- instance_in_aug_cycle r i ;;
    push_chunk (length (r_insts r)) chunks (mkChunk Local 0 0 circ [i])
  else Ok chunks.
(** aps-schedule.c:2351-2491: all chunks *)
Definition collect_chunks (r : rule) : res (list chunk) :=
  chunks <- foldM (half_chunks r) (seq 1 (max_phase (r_parent r))) [] ;;
  chunks <- foldM (visit_chunks r) (seq 0 (length (r_children r))) chunks ;;
  foldM (local_chunk r) (seq 0 (length (r_insts r))) chunks.

(** graph[i*m+j] = dependency_join(k, graph[i*m+j]) *)
Definition join_kind (m : nat) (g : list N) (i j : nat) (k : N) : res (list N) :=
  old <- rd g (i * m + j) ;; wr g (i * m + j) (dependency_join k old).
(** aps-schedule.c:2523-2568: the dependencies of the instances *)
Definition instance_edges (r : rule) (m : nat) (ci cj : chunk) (g : list N) (i j : nat) : res (list N) :=
  let n := length (r_insts r) in
  foldM (fun g k => foldM (fun g l =>
    sk <- rd (r_insts r) k ;; sl <- rd (r_insts r) l ;;
    if impossible (merge_cond (si_cond sk) (si_cond sl)) then Ok g else
    new <- rd (r_kinds r) (k * n + l) ;;
    if N.eqb new no_dependency then Ok g else join_kind m g i j new) (c_insts cj) g) (c_insts ci) g.
(** aps-schedule.c:2570-2633: the guiding dependencies *)
Definition guiding (ci cj : chunk) : bool :=
  (type_eqb (c_type ci) Visit && type_eqb (c_type cj) Visit && Z.eqb (c_ch ci) (c_ch cj) && (c_ph ci <? c_ph cj)) ||
  (type_eqb (c_type ci) HalfLeft && type_eqb (c_type cj) HalfRight && (c_ph ci =? c_ph cj)) ||
  (type_eqb (c_type ci) HalfRight && type_eqb (c_type cj) HalfLeft && (c_ph ci + 1 =? c_ph cj)).
(** aps-schedule.c:2514-2634: the edges between chunks *)
Definition chunk_edges (r : rule) (chunks : list chunk) : res (list N) :=
  let m := length chunks in
  foldM (fun g i => foldM (fun g j =>
    ci <- rd chunks i ;; cj <- rd chunks j ;;
    g <- instance_edges r m ci cj g i j ;;
    if guiding ci cj then join_kind m g i j indirect_control_dependency else Ok g) (seq 0 m) g) (seq 0 m) (repeat no_dependency (m * m)).
(** aps-schedule.c:2641-2659: one step of the transitive closure *)
Definition trans_step (m : nat) (st : list N * bool) (t : nat * nat * nat) : res (list N * bool) :=
  let '(i, j, k) := t in let g := fst st in
  ij <- rd g (i * m + j) ;; jk <- rd g (j * m + k) ;; ik <- rd g (i * m + k) ;;
  let new := dependency_trans ij jk in
  if negb (N.eqb ij no_dependency) && negb (N.eqb jk no_dependency) && negb (N.eqb (N.lor ik new) ik) then
    g <- wr g (i * m + k) (dependency_join new ik) ;; Ok (g, true)
  else Ok st.
(** aps-schedule.c:2636-2661: the do-while loop *)
Fixpoint trans_close (fuel m : nat) (g : list N) : res (list N) :=
  match fuel with
  | O => Fuel
  | S f => '(g, changed) <- foldM (trans_step m) (SccModel.triples m) (g, false) ;; if changed : bool then trans_close f m g else Ok g
  end.
(** aps-schedule.c:35-40; schedule is part of the scheduler's state *)
Record chunk_graph := mkCG { cg_chunks : list chunk; cg_graph : list N; cg_comps : list (list nat) }.
(** aps-schedule.c:2351-2712 [collect_aug_graph_chunks]; the closure gets enough rounds *)
Definition collect_aug_graph_chunks (st : PrimeModel.primes) (base size : Z) (r : rule) : res chunk_graph :=
  chunks <- collect_chunks r ;;
  let m := length chunks in
  g <- chunk_edges r chunks ;;
  g <- trans_close (S (m * m * 5)) m g ;;
  '(_, comps) <- components_of st base size m (fun i j => k <- rd g (i * m + j) ;; Ok (negb (N.eqb k no_dependency))) ;;
  comps <- foldM (fun cs comp => c <- foldM (fun l p => i <- inst_index base size m p ;; Ok (l ++ [i])) comp [] ;; Ok (cs ++ [c])) comps [] ;;
  Ok (mkCG chunks g comps).

(** ** Total orders *)
(** aps-oag.h:33-44 [CTO_NODE]: address, cto_prev, cto_instance (None is a visit marker),
    child_phase, visit, chunk_index, chunk_circular, cto_if_true, cto_next (also
    cto_if_false).  child_decl is left out.  cto_if_true of a node that is not for an
    if_rule is never set; HALLOC's memory is taken to be zero, so it is NULL. *)
Inductive cto := Null | Node (addr prev : nat) (inst : option nat) (g : group) (visit chunk_index : nat) (circular : bool) (if_true next : cto).

(** aug_graph->schedule, chunk_graph->schedule and the number of nodes made (NULL is 0) *)
Record sst := mkSst { s_inst : list bool; s_chunk : list bool; s_nodes : nat }.
Definition set_inst (st : sst) (i : nat) (b : bool) : res sst := l <- wr (s_inst st) i b ;; Ok (mkSst l (s_chunk st) (s_nodes st)).
Definition set_chunk (st : sst) (c : nat) (b : bool) : res sst := l <- wr (s_chunk st) c b ;; Ok (mkSst (s_inst st) l (s_nodes st)).
Definition new_node (st : sst) : nat * sst := (S (s_nodes st), mkSst (s_inst st) (s_chunk st) (S (s_nodes st))).

Section Scheduler.
Variables (ps : PrimeModel.primes) (base size : Z) (r : rule) (cg : chunk_graph).

(** aps-schedule.c:1748-1763 [find_chunk]; 1818-1839 [chunk_lookup] *)
Definition find_chunk (ty : chunk_type) (ph : nat) (ch : Z) : option nat :=
  List.find (fun c => match nth_error (cg_chunks cg) c with Some k => type_eqb (c_type k) ty && (c_ph k =? ph) && Z.eqb (c_ch k) ch | None => false end) (seq 0 (length (cg_chunks cg))).
Definition chunk_lookup (ty : chunk_type) (ph : nat) (ch : Z) : res nat := match find_chunk ty ph ch with Some c => Ok c | None => Exit end.
(** aps-schedule.c:1768-1790 [chunk_indexof] *)
Definition chunk_indexof (i : nat) : res nat :=
  match List.find (fun c => match nth_error (cg_chunks cg) c with Some k => existsb (Nat.eqb i) (c_insts k) | None => false end) (seq 0 (length (cg_chunks cg))) with Some c => Ok c | None => Exit end.
(** aps-schedule.c:1795-1816 [chunk_component_indexof] *)
Definition chunk_component_indexof (c : nat) : res nat :=
  match List.find (fun a => match nth_error (cg_comps cg) a with Some k => existsb (Nat.eqb c) k | None => false end) (seq 0 (length (cg_comps cg))) with Some a => Ok a | None => Exit end.
(** aps-schedule.c:1148-1160 [get_chunk_rank] *)
Definition get_chunk_rank (c : chunk) : N := match c_type c with HalfLeft => 8 | HalfRight => 2 | Visit | Local => 4 end%N.
Definition kind_at (a b : nat) : res N := rd (cg_graph cg) (a * length (cg_chunks cg) + b).
Definition direct (k : N) : bool := negb (N.eqb (N.land k DEPENDENCY_MAYBE_DIRECT) 0).

(** aps-schedule.c:1945-1994 [chunks_are_in_direct_cycle].  The cache of primes does not
    keep what this call adds to it. *)
Definition chunks_are_in_direct_cycle (comp : list nat) (c1 c2 : nat) : res bool :=
  let addr := inst_addr base size in
  s <- SccModel.scc_graph_initialize ps (Z.of_nat (length comp)) ;;
  s <- foldM (fun s c => SccModel.scc_graph_add_vertex (fst s) (snd s) (addr c)) comp s ;;
  s <- foldM (fun s a => foldM (fun s b =>
         k <- kind_at a b ;;
         if direct k then g <- SccModel.scc_graph_add_edge (snd s) (addr a) (addr b) ;; Ok (fst s, g) else Ok s) comp s) comp s ;;
  '(_, _, comps) <- SccModel.scc_graph_components (fst s) (snd s) ;;
  Ok (existsb (fun c => (1 <? length c) && existsb (Z.eqb (addr c1)) c && existsb (Z.eqb (addr c2)) c) comps).
(** aps-schedule.c:2004-2127 [chunk_ready_to_go] *)
Definition chunk_ready_to_go (comp : list nat) (sink : nat) (st : sst) : res bool :=
  ck <- rd (cg_chunks cg) sink ;;
  some <- existsM (fun i => b <- rd (s_inst st) i ;; Ok (negb b)) (c_insts ck) ;;
  if negb (length (c_insts ck) =? 0) && negb some then Ok false else
  blocked <- existsM (fun src =>
    if src =? sink then Ok false else
    done <- rd (s_chunk st) src ;;
    if done : bool then Ok false else
    fwd <- kind_at src sink ;;
    bwd <- kind_at sink src ;;
    if negb (direct fwd) then Ok false else
    if direct bwd then Ok false else
    cyc <- chunks_are_in_direct_cycle comp src sink ;;
    Ok (negb cyc)) comp ;;
  Ok (negb blocked).
(** aps-schedule.c:2133-2175 [chunk_component_ready_to_go] *)
Definition chunk_component_ready_to_go (comp : list nat) (index : nat) (st : sst) : res bool :=
  some <- existsM (fun c => b <- rd (s_chunk st) c ;; Ok (negb b)) comp ;;
  if negb some then Ok false else
  blocked <- existsM (fun i =>
    if i =? index then Ok false else
    source <- rd (cg_comps cg) i ;;
    existsM (fun src =>
      done <- rd (s_chunk st) src ;;
      if done : bool then Ok false else
      existsM (fun sink => k <- kind_at src sink ;; Ok (negb (N.eqb k no_dependency))) comp) source) (seq 0 (length (cg_comps cg))) ;;
  Ok (negb blocked).
(** aps-schedule.c:1705-1722, 2218-2226: the first place of the largest rank, if that is not 0 *)
Definition max_rank (ranks : list N) : option nat :=
  let '(m, _) := fold_left (fun '(m, i) k => ((if N.ltb (match m with Some (_, b) => b | None => 0 end) k then Some (i, k) else m), S i)) ranks (@None (nat * N), 0) in
  match m with Some (i, _) => Some i | None => None end.

(** The functions of the scheduler call each other: [self] makes the calls. *)
Inductive call :=
  | Group (comp ck : nat) (g : group)          (** group_schedule *)
  | LocalChunk (comp ck : nat) (g : group)     (** local_chunk_schedule *)
  | EndOfGroup (comp ck : nat) (g : group)     (** schedule_transition_end_of_group *)
  | ChunkSchedule (comp : nat)                 (** chunk_schedule *)
  | ComponentSchedule (comp : nat)             (** chunk_component_schedule *)
  | VisitStart                                 (** schedule_visit_start *)
  | VisitEnd (ck : nat).                       (** schedule_visit_end *)
Definition scheduler := call -> nat -> condition -> nat -> sst -> res (sst * cto).

(** the first instance of the list of that group that is not scheduled *)
Definition next_instance (l : list nat) (g : group) (st : sst) : res (option nat) :=
  foldM (fun found i =>
    match found with
    | Some _ => Ok found
    | None => s <- rd (r_insts r) i ;; b <- rd (s_inst st) i ;; Ok (if negb b && group_eqb (si_group s) g then Some i else None)
    end) l None.
(** aps-schedule.c:1343-1423 [group_schedule] *)
Definition group_schedule (self : scheduler) (comp ck : nat) (g : group) (prev : nat) (cond : condition) (ph : nat) (st : sst) : res (sst * cto) :=
  if impossible cond then self (VisitEnd ck) prev cond ph st else
  k <- rd (cg_chunks cg) ck ;;
  found <- next_instance (seq 0 (length (r_insts r))) g st ;;
  match found with
  | Some i =>
    let '(a, st) := new_node st in
    st <- set_inst st i true ;;
    ci <- chunk_indexof i ;;
    st <- set_chunk st ci true ;;
    s <- rd (r_insts r) i ;;
    if group_is_local (si_group s) then Exit else
    '(st, t) <- (if impossible (merge_cond cond (si_cond s)) then self (Group comp ck g) prev cond ph st
                 else '(st, t) <- self (Group comp ck g) a cond ph st ;; Ok (st, Node a prev (Some i) g ph ck (c_circular k) Null t)) ;;
    st <- set_chunk st ci false ;;
    st <- set_inst st i false ;;
    Ok (st, t)
  | None =>
    st <- set_chunk st ck true ;;
    '(st, t) <- self (EndOfGroup comp ck g) prev cond ph st ;;
    st <- set_chunk st ck false ;;
    Ok (st, t)
  end.
(** aps-schedule.c:1430-1530 [local_chunk_schedule] *)
Definition local_chunk_schedule (self : scheduler) (comp ck : nat) (g : group) (prev : nat) (cond : condition) (ph : nat) (st : sst) : res (sst * cto) :=
  if impossible cond then self (VisitEnd ck) prev cond ph st else
  k <- rd (cg_chunks cg) ck ;;
  found <- next_instance (c_insts k) g st ;;
  match found with
  | Some i =>
    let '(a, st) := new_node st in
    st <- set_inst st i true ;;
    ci <- chunk_indexof i ;;
    st <- set_chunk st ci true ;;
    s <- rd (r_insts r) i ;;
    if negb (group_is_local (si_group s)) then Exit else
    let node := Node a prev (Some i) g ph ck (c_circular k) in
    '(st, t) <- (if impossible (merge_cond cond (si_cond s)) then self (LocalChunk comp ck g) prev cond ph st
                 else match si_if s with
                      | Some index =>
                        let cmask := N.shiftl 1 (N.of_nat index) in
                        '(st, t) <- self (LocalChunk comp ck g) a (mkCond (N.lor (positive cond) cmask) (negative cond)) ph st ;;
                        '(st, f) <- self (LocalChunk comp ck g) a (mkCond (N.ldiff (N.lor (positive cond) cmask) cmask) (N.lor (negative cond) cmask)) ph st ;;
                        Ok (st, node t f)
                      | None => '(st, t) <- self (LocalChunk comp ck g) a cond ph st ;; Ok (st, node Null t)
                      end) ;;
    st <- set_chunk st ci false ;;
    st <- set_inst st i false ;;
    Ok (st, t)
  | None => self (EndOfGroup comp ck g) prev cond ph st
  end.
(** aps-schedule.c:1278-1340 [schedule_transition_end_of_group] *)
Definition schedule_transition_end_of_group (self : scheduler) (comp ck : nat) (g : group) (prev : nat) (cond : condition) (ph : nat) (st : sst) : res (sst * cto) :=
  if Z.ltb (fst g) 0 && negb (Z.eqb (snd g) (-1)) then
    k <- rd (cg_chunks cg) ck ;;
    let '(a, st) := new_node st in
    if Z.ltb (snd g) 0 then UB else
    _ <- rd (r_children r) (Z.to_nat (snd g)) ;;
    let g := (- fst g, snd g)%Z in
    '(st, t) <- self (Group comp ck g) a cond ph st ;;
    Ok (st, Node a prev None g ph ck (c_circular k) Null t)
  else if Z.ltb 0 (fst g) && Z.eqb (snd g) (-1) then
    k <- rd (cg_chunks cg) ck ;;
    let '(a, st) := new_node st in
    '(st, t) <- self VisitStart a cond (S ph) st ;;
    Ok (st, Node a prev None g ph ck (c_circular k) Null t)
  else self (ChunkSchedule comp) prev cond ph st.
(** aps-schedule.c:1532-1591 [group_schedule_chunk] *)
Definition group_schedule_chunk (self : scheduler) (comp ck : nat) (prev : nat) (cond : condition) (ph : nat) (st : sst) : res (sst * cto) :=
  k <- rd (cg_chunks cg) ck ;;
  match c_type k with
  | HalfLeft => self (Group comp ck (- Z.of_nat (c_ph k), -1)%Z) prev cond ph st
  | HalfRight => self (Group comp ck (Z.of_nat (c_ph k), -1)%Z) prev cond ph st
  | Visit => self (Group comp ck (- Z.of_nat (c_ph k), c_ch k)%Z) prev cond ph st
  | Local => self (LocalChunk comp ck (Z.of_nat (c_ph k), c_ch k)%Z) prev cond ph st
  end.
(** aps-schedule.c:1596-1746 [chunk_schedule] *)
Definition chunk_rank (comp : list nat) (ph : nat) (st : sst) (c : nat) : res N :=
  k <- rd (cg_chunks cg) c ;;
  prevented <- (if type_eqb (c_type k) Visit && negb (c_circular k) then rd (cyclic_flags (r_parent r)) ph else Ok false) ;;
  if prevented : bool then Ok 0%N else
  done <- rd (s_chunk st) c ;;
  if done : bool then Ok 0%N else
  ready <- chunk_ready_to_go comp c st ;;
  Ok (if ready : bool then get_chunk_rank k else 0%N).
Definition chunk_schedule (self : scheduler) (comp : nat) (prev : nat) (cond : condition) (ph : nat) (st : sst) : res (sst * cto) :=
  cs <- rd (cg_comps cg) comp ;;
  ranks <- foldM (fun l c => k <- chunk_rank cs ph st c ;; Ok (l ++ [k])) cs [] ;;
  match max_rank ranks with
  | None => self (ComponentSchedule comp) prev cond ph st
  | Some a => ck <- rd cs a ;; group_schedule_chunk self comp ck prev cond ph st
  end.
(** aps-schedule.c:2180-2249 [chunk_component_schedule] *)
Definition component_rank (prev_comp : nat) (st : sst) (i : nat) : res N :=
  if prev_comp =? i then Ok 0%N else
  cs <- rd (cg_comps cg) i ;;
  ready <- chunk_component_ready_to_go cs i st ;;
  if ready : bool then foldM (fun k c => ck <- rd (cg_chunks cg) c ;; Ok (N.lor k (get_chunk_rank ck))) cs 0%N else Ok 0%N.
Definition chunk_component_schedule (self : scheduler) (prev_comp : nat) (prev : nat) (cond : condition) (ph : nat) (st : sst) : res (sst * cto) :=
  ranks <- foldM (fun l i => k <- component_rank prev_comp st i ;; Ok (l ++ [k])) (seq 0 (length (cg_comps cg))) [] ;;
  match max_rank ranks with
  | None => Exit
  | Some a => self (ChunkSchedule a) prev cond ph st
  end.
(** aps-schedule.c:2255-2285 [schedule_visit_end] *)
Definition schedule_visit_end (self : scheduler) (ck : nat) (prev : nat) (cond : condition) (ph : nat) (st : sst) : res (sst * cto) :=
  k <- rd (cg_chunks cg) ck ;;
  let '(a, st) := new_node st in
  '(st, t) <- self VisitStart a cond (S ph) st ;;
  Ok (st, Node a prev None (Z.of_nat ph, -1)%Z ph ck (c_circular k) Null t).
(** aps-schedule.c:2291-2340 [schedule_visit_start] *)
Definition schedule_visit_start (self : scheduler) (prev : nat) (cond : condition) (ph : nat) (st : sst) : res (sst * cto) :=
  if max_phase (r_parent r) <? ph then Ok (st, Null) else
  match find_chunk HalfLeft ph (-1) with
  | None => Exit
  | Some ck => comp <- chunk_component_indexof ck ;; self (Group comp ck (- Z.of_nat ph, -1)%Z) prev cond ph st
  end.
Fixpoint sched (fuel : nat) : scheduler := fun c prev cond ph st =>
  match fuel with
  | O => Fuel
  | S f =>
    match c with
    | Group comp ck g => group_schedule (sched f) comp ck g prev cond ph st
    | LocalChunk comp ck g => local_chunk_schedule (sched f) comp ck g prev cond ph st
    | EndOfGroup comp ck g => schedule_transition_end_of_group (sched f) comp ck g prev cond ph st
    | ChunkSchedule comp => chunk_schedule (sched f) comp prev cond ph st
    | ComponentSchedule comp => chunk_component_schedule (sched f) comp prev cond ph st
    | VisitStart => schedule_visit_start (sched f) prev cond ph st
    | VisitEnd ck => schedule_visit_end (sched f) ck prev cond ph st
    end
  end.
End Scheduler.
