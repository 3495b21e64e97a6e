(** * ComponentModel: the components of dependency graphs.

    Models /repo/analyze/aps-scc.c (debugging output left out) on top of the model of
    utilities/scc.c.  The instances of a graph are an array at address [base] of
    structures of [size] bytes. *)
From Verif Require Import Base CondModel EdgeModel DncModel CycleModel OagModel.
From Verif Require PrimeModel SccModel.
Open Scope nat_scope.

(** &instances.array[i] *)
Definition inst_addr (base size : Z) (i : nat) : Z := (base + size * Z.of_nat i)%Z.
(** in->index for a pointer; a pointer to anything but one of the n instances is UB *)
Definition inst_index (base size : Z) (n : nat) (p : Z) : res nat :=
  match List.find (fun i => Z.eqb (inst_addr base size i) p) (seq 0 n) with Some i => Ok i | None => UB end.

(** aps-scc.c:9-33 and 66-91: the graph and its components; [has i j] says whether an
    edge from i to j is added. *)
Definition components_of (st : PrimeModel.primes) (base size : Z) (n : nat) (has : nat -> nat -> res bool) : res (PrimeModel.primes * list (list Z)) :=
  s <- SccModel.scc_graph_initialize st (Z.of_nat n) ;;
  s <- foldM (fun s i => SccModel.scc_graph_add_vertex (fst s) (snd s) (inst_addr base size i)) (seq 0 n) s ;;
  s <- foldM (fun s i => foldM (fun s j =>
         b <- has i j ;;
         if b : bool then g <- SccModel.scc_graph_add_edge (snd s) (inst_addr base size i) (inst_addr base size j) ;; Ok (fst s, g) else Ok s) (seq 0 n) s) (seq 0 n) s ;;
  '(st, _, comps) <- SccModel.scc_graph_components (fst s) (snd s) ;;
  Ok (st, comps).
(** aps-scc.c:8-48 [set_phylum_graph_components]: components and component_cycle *)
Definition set_phylum_graph_components (st : PrimeModel.primes) (base size : Z) (n : nat) (mg : list N) : res (PrimeModel.primes * list (list Z) * list bool) :=
  '(st, comps) <- components_of st base size n (fun i j => k <- rd mg (i * n + j) ;; Ok (negb (N.eqb k no_dependency))) ;;
  flags <- foldM (fun fl comp =>
    b <- foldM (fun b p => i <- inst_index base size n p ;; k <- rd mg (i * n + i) ;; Ok (if negb (N.eqb k no_dependency) then true else b)) comp false ;;
    Ok (fl ++ [b])) comps [] ;;
  Ok (st, comps, flags).
(** aps-scc.c:65-112 [set_aug_graph_components]; [edges i j] is the edge set from i to j,
    [conds] the instances' conditions *)
Definition set_aug_graph_components (st : PrimeModel.primes) (base size : Z) (n : nat) (edges : nat -> nat -> res (list (condition * N))) (conds : list condition) : res (PrimeModel.primes * list (list Z) * list bool) :=
  '(st, comps) <- components_of st base size n (fun i j =>
    es <- edges i j ;;
    if N.eqb (edgeset_kind es) no_dependency then Ok false else
    ci <- rd conds i ;; cj <- rd conds j ;; Ok (negb (impossible (merge_cond ci cj)))) ;;
  flags <- foldM (fun fl comp =>
    b <- foldM (fun b p => foldM (fun b q =>
           i <- inst_index base size n p ;; j <- inst_index base size n q ;;
           es <- edges i j ;; Ok (if negb (N.eqb (edgeset_kind es) no_dependency) then true else b)) comp b) comp false ;;
    Ok (fl ++ [b])) comps [] ;;
  Ok (st, comps, flags).
