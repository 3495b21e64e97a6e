(** * CycleModel: finding and breaking cycles.

    Models /repo/analyze/aps-cycle.c:15-135 (union-find) and 139-345 (which sets are
    merged).  The int array
    [parent_index] is a list of options, None for -1. *)
From Verif Require Import Base CondModel EdgeModel DncModel.
Open Scope nat_scope.

(** aps-cycle.c:53-62 [get_set].  The recursion is at most as deep as the chain
    of parents; the index itself is never -1 (its slot has been read). *)
Fixpoint get_set (fuel : nat) (par : list (option nat)) (index : nat) : res (list (option nat) * nat) :=
  pindex <- rd par index ;;
  match pindex with
  | None => Exit                                          (** "mixup" *)
  | Some p =>
    if p =? index then Ok (par, index)
    else match fuel with
         | O => Fuel
         | S f => '(par, s) <- get_set f par p ;; par <- wr par index (Some s) ;; Ok (par, s)
         end
  end.
Definition find (par : list (option nat)) (index : nat) := get_set (length par) par index.
(** aps-cycle.c:64-66 [merge_sets].  C does not say which operand of the
    assignment is evaluated first: [left_first] is either. *)
Definition merge_sets (left_first : bool) (par : list (option nat)) (index1 index2 : nat) : res (list (option nat)) :=
  '(par, s1, s2) <- (if left_first then '(par, s1) <- find par index1 ;; '(par, s2) <- find par index2 ;; Ok (par, s1, s2)
                     else '(par, s2) <- find par index2 ;; '(par, s1) <- find par index1 ;; Ok (par, s1, s2)) ;;
  wr par s1 (Some s2).

(** aps-cycle.c:32-51 [init_indices]; the global dependencies are the last of
    [st_augs] *)
Definition phylum_start (s : state) (y : nat) : nat := list_sum (map p_n (firstn y (st_phys s))).
Definition constructor_start (s : state) (x : nat) : nat := list_sum (map p_n (st_phys s)) + list_sum (map n_inst (firstn x (st_augs s))).
Definition num_instances (s : state) : nat := list_sum (map p_n (st_phys s)) + list_sum (map n_inst (st_augs s)).
Definition init_parents (s : state) : list (option nat) := map Some (seq 0 (num_instances s)).

(** the pairs of the edge set from i to j *)
Definition pairs_at (s : state) (x i j : nat) : res (list (condition * N)) :=
  g <- rd (st_augs s) x ;; p <- rd (graph g) (i * n_inst g + j) ;; set_at (st_mem s) p.
(** aps-cycle.c:273-289 [can_trans] *)
Definition can_trans (es1 es2 : list (condition * N)) : bool :=
  existsb (fun e1 => existsb (fun e2 => N.eqb (N.land (N.lor (positive (fst e1)) (positive (fst e2))) (N.lor (negative (fst e1)) (negative (fst e2)))) 0) es2) es1.

(** aps-cycle.c:293-315: the summary graphs *)
Definition phylum_cycles (lf : bool) (s : state) (par : list (option nat)) (i : nat) : res (list (option nat)) :=
  p <- rd (st_phys s) i ;;
  let n := p_n p in
  foldM (fun par j =>
    jj <- rd (mingraph p) (j * n + j) ;;
    if N.eqb jj no_dependency then wr par (phylum_start s i + j) None
    else foldM (fun par k =>
      if k =? j then Ok par else
      jk <- rd (mingraph p) (j * n + k) ;;
      if N.eqb jk no_dependency then Ok par else
      kj <- rd (mingraph p) (k * n + j) ;;
      if N.eqb kj no_dependency then Ok par else
      merge_sets lf par (phylum_start s i + j) (phylum_start s i + k)) (seq 0 n) par) (seq 0 n) par.
(** aps-cycle.c:139-182 [make_augmented_cycles_for_node].  The instances of the
    node are those from its start on, as many as the phylum has; finding where
    they end by comparing nodes is not modelled. *)
Definition node_cycles (lf : bool) (s : state) (x : nat) (par : list (option nat)) (b : nat * option nat) : res (list (option nat)) :=
  match b with
  | (_, None) => Ok par
  | (start, Some y) =>
    p <- rd (st_phys s) y ;;
    foldM (fun par i =>
      ii <- rd (mingraph p) (i * p_n p + i) ;;
      if N.eqb ii no_dependency then Ok par
      else merge_sets lf par (constructor_start s x + (start + i)) (phylum_start s y + i)) (seq 0 (p_n p)) par
  end.
(** aps-cycle.c:316-344 with 185-271 [make_augmented_cycles]: one production
    graph; its nodes as in DncModel.  The C conditions are evaluated left to right
    with [&&]. *)
Definition constructor_cycles (lf : bool) (rules : list rule) (s : state) (par : list (option nat)) (x : nat) : res (list (option nat)) :=
  g <- rd (st_augs s) x ;;
  r <- rd rules x ;;
  let n := n_inst g in
  par <- foldM (fun par j =>
    jj <- pairs_at s x j j ;;
    if N.eqb (edgeset_kind jj) no_dependency then wr par (constructor_start s x + j) None
    else foldM (fun par k =>
      if k =? j then Ok par else
      jk <- pairs_at s x j k ;;
      if N.eqb (edgeset_kind jk) no_dependency then Ok par else
      kj <- pairs_at s x k j ;;
      if N.eqb (edgeset_kind kj) no_dependency then Ok par else
      if can_trans jk kj then merge_sets lf par (constructor_start s x + j) (constructor_start s x + k) else Ok par) (seq 0 n) par) (seq 0 n) par ;;
  foldM (node_cycles lf s x) (r_blocks r) par.
(** aps-cycle.c:291-345 [make_cycles] *)
Definition make_cycles (lf : bool) (rules : list rule) (s : state) (par : list (option nat)) : res (list (option nat)) :=
  par <- foldM (phylum_cycles lf s) (seq 0 (length (st_phys s))) par ;;
  foldM (constructor_cycles lf rules s) (seq 0 (length (st_augs s))) par.

(** Where an instance is: in a summary graph or in a production graph. *)
Inductive inst := InSummary (y i : nat) | InGraph (x i : nat).
(** aps-dnc.h CYCLE: internal_info, kind, instances *)
Record cycle := mkCycle { internal_info : nat; cy_kind : N; cy_insts : list inst }.

(** aps-cycle.c:73-77: how many sets *)
Definition count_sets (par : list (option nat)) (n : nat) : res (list (option nat) * nat) :=
  foldM (fun '(par, num) i =>
    p <- rd par i ;;
    match p with
    | None => Ok (par, num)
    | Some _ => '(par, s) <- find par i ;; Ok (par, if s =? i then S num else num)
    end) (seq 0 n) (par, 0).
(** aps-cycle.c:88-90: how many instances in set i *)
Definition count_set (par : list (option nat)) (n i : nat) : res (list (option nat) * nat) :=
  foldM (fun '(par, count) j =>
    p <- rd par j ;;
    match p with
    | None => Ok (par, count)
    | Some _ => '(par, s) <- find par j ;; Ok (par, if s =? i then S count else count)
    end) (seq 0 n) (par, 0).
(** aps-cycle.c:91-119: the instances of set i and their kind.  [room] is the
    length allocated; a write beyond it is undefined. *)
Definition add_inst (room : nat) (acc : list inst * N) (v : inst) (k : N) : res (list inst * N) :=
  let '(l, kind) := acc in
  if length l <? room then Ok (l ++ [v], dependency_join kind k) else UB.
Definition is_set (p : option nat) (i : nat) : bool := match p with Some q => q =? i | None => false end.
Definition collect_set (s : state) (par : list (option nat)) (room i : nat) : res (list inst * N) :=
  acc <- foldM (fun acc j =>
    p <- rd (st_phys s) j ;;
    foldM (fun acc k =>
      q <- rd par (phylum_start s j + k) ;;
      if is_set q i then kk <- rd (mingraph p) (k * p_n p + k) ;; add_inst room acc (InSummary j k) kk else Ok acc) (seq 0 (p_n p)) acc) (seq 0 (length (st_phys s))) ([], no_dependency) ;;
  foldM (fun acc j =>
    g <- rd (st_augs s) j ;;
    foldM (fun acc k =>
      q <- rd par (constructor_start s j + k) ;;
      if is_set q i then kk <- pairs_at s j k k ;; add_inst room acc (InGraph j k) (edgeset_kind kk) else Ok acc) (seq 0 (n_inst g)) acc) (seq 0 (length (st_augs s))) acc.
(** aps-cycle.c:70-135 [get_fiber_cycles] *)
Definition get_fiber_cycles (s : state) (par : list (option nat)) : res (list (option nat) * list cycle) :=
  '(par, num_sets) <- count_sets par (num_instances s) ;;
  foldM (fun '(par, cs) i =>
    p <- rd par i ;;
    if is_set p i then
      if length cs <? num_sets then
        '(par, count) <- count_set par (num_instances s) i ;;
        '(l, kind) <- collect_set s par count i ;;
        if length l =? count then Ok (par, cs ++ [mkCycle i kind l]) else Exit
      else UB
    else Ok (par, cs)) (seq 0 (num_instances s)) (par, []).
(** aps-cycle.c:900-904: the first half of [break_fiber_cycles] *)
Definition find_cycles (lf : bool) (rules : list rule) (s : state) : res (list (option nat) * list cycle) :=
  par <- make_cycles lf rules s (init_parents s) ;;
  get_fiber_cycles s par.
