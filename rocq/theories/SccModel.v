(** * Model of utilities/scc.c.

    Pointers are machine words (Z, 0 = NULL).  Internal vertex indices are
    [nat]; [num_vertices] is the C int.  Memory allocation never fails and
    allocated arrays are lists; [None] in the index->pointer array is a word
    never written (malloc).  The LinkedStack of the traversal is a Coq list
    (C03 proves that stack.c behaves as one).  Deallocation
    (graph_destroy_vertex :147-155, scc_graph_destroy :161-171) and the message
    printed at :319-324 are not modelled.  The static sieve of prime.c is
    threaded as [primes]. *)
From Verif Require Import Base PrimeModel HashTableModel.
Open Scope Z_scope.

(** scc.h:26-35 (without [neighbors], which is computed when needed). *)
Record graph := {
  num_vertices : Z;
  matrix : list bool;
  ptr_to_index : table;
  index_to_ptr : list (option Z);
  next_index : nat }.

(** scc.c:99-116 [scc_graph_initialize]; [num_vertices * num_vertices] is an
    int multiplication; the hash table takes the int as unsigned. *)
Definition scc_graph_initialize (st : primes) (n : Z) : res (primes * graph) :=
  if (INT_MAX <? n * n) then UB else
  '(st', t) <- hash_table_initialize st (if n <? 0 then n + 4294967296 else n) ;;
  Ok (st', {| num_vertices := n; matrix := repeat false (Z.to_nat (n * n)); ptr_to_index := t;
              index_to_ptr := repeat None (Z.to_nat n); next_index := 0 |}).

(** scc.c:23-41 [get_vertex_index_from_ptr]. *)
Definition get_vertex_index_from_ptr (g : graph) (v : Z) : res nat :=
  b <- hash_table_contains ptr_hashf ptr_equalf (ptr_to_index g) v ;;
  if (b : bool) then
    index <- hash_table_get ptr_hashf ptr_equalf (ptr_to_index g) v ;;
    if (index <? 0) || (num_vertices g <=? index) then Exit else Ok (Z.to_nat index)
  else Exit.

(** scc.c:50-52 [contains_edge]. *)
Definition contains_edge (n : nat) (m : list bool) (i j : nat) : res bool := rd m (i * n + j)%nat.

(** scc.c:124-126 [scc_graph_add_edge_internal]. *)
Definition add_edge_internal (n : nat) (m : list bool) (i j : nat) : res (list bool) :=
  wr m (i * n + j)%nat true.

(** scc.c:134-139 [scc_graph_add_edge]. *)
Definition scc_graph_add_edge (g : graph) (source sink : Z) : res graph :=
  i <- get_vertex_index_from_ptr g source ;;
  j <- get_vertex_index_from_ptr g sink ;;
  m <- add_edge_internal (Z.to_nat (num_vertices g)) (matrix g) i j ;;
  Ok {| num_vertices := num_vertices g; matrix := m; ptr_to_index := ptr_to_index g;
        index_to_ptr := index_to_ptr g; next_index := next_index g |}.

(** scc.c:220-242 [scc_graph_add_vertex]. *)
Definition scc_graph_add_vertex (st : primes) (g : graph) (v : Z) : res (primes * graph) :=
  if num_vertices g <=? Z.of_nat (next_index g) then Exit else
  b <- hash_table_contains ptr_hashf ptr_equalf (ptr_to_index g) v ;;
  if (b : bool) then Exit else
  '(st', t) <- hash_table_add_or_update ptr_hashf ptr_equalf st (ptr_to_index g) v (Z.of_nat (next_index g)) ;;
  a <- wr (index_to_ptr g) (next_index g) (Some v) ;;
  Ok (st', {| num_vertices := num_vertices g; matrix := matrix g; ptr_to_index := t;
              index_to_ptr := a; next_index := S (next_index g) |}).

(** scc.c:59-75 [collect_neighbors]: new cells go to the front. *)
Definition collect_row (n : nat) (m : list bool) (i : nat) : res (list nat) :=
  foldM (fun l j => b <- contains_edge n m i j ;; Ok (if (b : bool) then j :: l else l)) (seq 0 n) [].
Definition collect_neighbors (n : nat) (m : list bool) : res (list (list nat)) :=
  foldM (fun rows i => r <- collect_row n m i ;; Ok (rows ++ [r])) (seq 0 n) [].

(** scc.c:180-190 [dfs]; the stack is a list, top first.  Each nested call
    marks one more vertex, so n+1 nestings suffice. *)
Fixpoint dfs (fuel : nat) (adj : list (list nat)) (visited : list bool) (stack : list nat) (v : nat)
  : res (list bool * list nat) :=
  match fuel with
  | O => Fuel
  | S fuel =>
    visited <- wr visited v true ;;
    ns <- rd adj v ;;
    '(visited, stack) <-
      foldM (fun s u => b <- rd (fst s) u ;;
                        if (b : bool) then Ok s else dfs fuel adj (fst s) (snd s) u) ns (visited, stack) ;;
    Ok (visited, v :: stack)
  end.

(** scc.c:255-271 [dfs_collect_scc]; state (visited, deleted, result): the
    result array of this component has room for n entries. *)
Fixpoint dfs_collect (fuel n : nat) (adj : list (list nat)) (s : list bool * list bool * list nat) (v : nat)
  : res (list bool * list bool * list nat) :=
  match fuel with
  | O => Fuel
  | S fuel =>
    let '(visited, deleted, result) := s in
    if (n <=? length result)%nat then UB else
    visited <- wr visited v true ;;
    deleted <- wr deleted v true ;;
    ns <- rd adj v ;;
    foldM (fun s u =>
             let '(visited, deleted, result) := s in
             a <- rd visited u ;;
             b <- (if (a : bool) then Ok true else rd deleted u) ;;
             if (b : bool) then Ok s else dfs_collect fuel n adj s u)
          ns (visited, deleted, result ++ [v])
  end.

(** scc.c:197-213 [transpose_graph] on adjacency lists. *)
Definition transpose (n : nat) (adj : list (list nat)) : res (list bool) :=
  foldM (fun m i => ns <- rd adj i ;; foldM (fun m u => add_edge_internal n m u i) ns m)
        (seq 0 n) (repeat false (n * n)).

(** scc.c:301-312: the index triples of the three nested loops, in order. *)
Definition triples (n : nat) : list (nat * nat * nat) :=
  flat_map (fun i => flat_map (fun j => map (fun k => (i, j, k)) (seq 0 n)) (seq 0 n)) (seq 0 n).

(** One round of the do-while loop; returns the matrix and [changed]. *)
Definition closure_round (n : nat) (m : list bool) : res (list bool * bool) :=
  foldM (fun s '(i, j, k) =>
           a <- contains_edge n (fst s) i j ;;
           if (a : bool) then
             b <- contains_edge n (fst s) j k ;;
             if (b : bool) then
               c <- contains_edge n (fst s) i k ;;
               if (c : bool) then Ok s
               else m' <- add_edge_internal n (fst s) i k ;; Ok (m', true)
             else Ok s
           else Ok s) (triples n) (m, false).

(** scc.c:299-317: each round but the last adds an edge. *)
Fixpoint closure_loop (fuel n : nat) (m : list bool) : res (list bool) :=
  match fuel with
  | O => Fuel
  | S fuel =>
    '(m', changed) <- closure_round n m ;;
    if (changed : bool) then closure_loop fuel n m' else Ok m'
  end.

(** scc.c:355-369: the popping loop.  [comps] are the components found. *)
Fixpoint collect_components (n : nat) (radj : list (list nat)) (stack : list nat) (deleted : list bool)
  (comps : list (list nat)) : res (list (list nat)) :=
  match stack with
  | [] => Ok comps
  | v :: stack =>
    d <- rd deleted v ;;
    if (d : bool) then collect_components n radj stack deleted comps
    else
      if (n <=? length comps)%nat then UB else
      '(_, deleted, c) <- dfs_collect (S n) n radj (repeat false n, deleted, []) v ;;
      collect_components n radj stack deleted (comps ++ [c])
  end.

(** scc.c:83-95 [get_vertex_ptr_from_int]. *)
Definition get_vertex_ptr_from_int (g : graph) (i : nat) : res Z :=
  if num_vertices g <=? Z.of_nat i then Exit else
  p <- rd (index_to_ptr g) i ;;
  match p with Some v => Ok v | None => UB end.

(** scc.c:277-404 [scc_graph_components]; the graph keeps its closed matrix. *)
Definition scc_graph_components (st : primes) (g : graph) : res (primes * graph * list (list Z)) :=
  if num_vertices g <=? 0 then Exit else
  let n := Z.to_nat (num_vertices g) in
  m <- closure_loop (S (n * n)) n (matrix g) ;;
  adj <- collect_neighbors n m ;;
  '(_, stack) <- foldM (fun s i => b <- rd (fst s) i ;;
                          if (b : bool) then Ok s else dfs (S n) adj (fst s) (snd s) i)
                       (seq 0 n) (repeat false n, []) ;;
  '(st, _) <- scc_graph_initialize st (num_vertices g) ;;
  rm <- transpose n adj ;;
  radj <- collect_neighbors n rm ;;
  comps <- collect_components n radj stack (repeat false n) [] ;;
  res <- foldM (fun out c =>
            ps <- foldM (fun ps i => p <- get_vertex_ptr_from_int g i ;; Ok (ps ++ [p])) c [] ;;
            Ok (out ++ [ps])) comps [] ;;
  Ok (st, {| num_vertices := num_vertices g; matrix := m; ptr_to_index := ptr_to_index g;
             index_to_ptr := index_to_ptr g; next_index := next_index g |}, res).

(** Client programs. *)
Inductive gop := AddVertex (v : Z) | AddEdge (u v : Z).
Definition gstep (s : primes * graph) (o : gop) : res (primes * graph) :=
  match o with
  | AddVertex v => scc_graph_add_vertex (fst s) (snd s) v
  | AddEdge u v => g <- scc_graph_add_edge (snd s) u v ;; Ok (fst s, g)
  end.
Definition build (st : primes) (n : Z) (ops : list gop) : res (primes * graph) :=
  s <- scc_graph_initialize st n ;; foldM gstep ops s.
