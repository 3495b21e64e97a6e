(** * EdgeModel: edge sets, the edge worklist and the edge free list.

    Models /repo/analyze/aps-dnc.c:92-366 at the level of pointers: every
    [struct edgeset] is a cell of a heap, linked by [rest] and
    [next_in_edge_worklist].  NULL is address 0, address p >= 1 is index p-1.
    An INSTANCE* is the instance's index (instances of one graph are distinct
    array elements, [index] their position).  Debug output ([analysis_debug] = 0)
    is not modelled; with it off check_two_edge_cycle and check_all_edgesets are
    never called.  [fatal_error] is [Exit]. *)
From Verif Require Import Base CondModel.
Open Scope nat_scope.

Definition addr := nat.
(** aps-dnc.h:58-65 *)
Record edge := mkEdge { e_rest : addr; e_source : nat; e_sink : nat; e_cond : condition; e_kind : N; e_next : addr }.
(** The heap of edge structures and the static [edgeset_freelist] (aps-dnc.c:169), shared by all graphs. *)
Record mem := mkMem { edges : list edge; freelist : addr }.
(** The part of [struct augmented_dependency_graph] (aps-dnc.h:69-83) the edges use. *)
Record aug := mkAug { n_inst : nat; graph : list addr; wl_head : addr; wl_tail : addr }.

Definition load (m : mem) (p : addr) : res edge := match p with 0 => UB | S i => rd (edges m) i end.
Definition store (m : mem) (p : addr) (e : edge) : res mem :=
  match p with 0 => UB | S i => es <- wr (edges m) i e ;; Ok (mkMem es (freelist m)) end.
Definition set_next (m : mem) (p : addr) (q : addr) : res mem :=
  e <- load m p ;; store m p (mkEdge (e_rest e) (e_source e) (e_sink e) (e_cond e) (e_kind e) q).
Definition set_rest (m : mem) (p : addr) (q : addr) : res mem :=
  e <- load m p ;; store m p (mkEdge q (e_source e) (e_sink e) (e_cond e) (e_kind e) (e_next e)).
Definition set_kind (m : mem) (p : addr) (k : N) : res mem :=
  e <- load m p ;; store m p (mkEdge (e_rest e) (e_source e) (e_sink e) (e_cond e) k (e_next e)).
Definition set_head (g : aug) (p : addr) : aug := mkAug (n_inst g) (graph g) p (wl_tail g).
Definition set_tail (g : aug) (p : addr) : aug := mkAug (n_inst g) (graph g) (wl_head g) p.

(** aps-dnc.c:106-132 [add_to_worklist] *)
Definition add_to_worklist (node : addr) (m : mem) (g : aug) : res (mem * aug) :=
  e <- load m node ;;
  if (e_next e =? 0) && negb (wl_tail g =? node) then
    if wl_tail g =? 0 then
      if negb (wl_head g =? 0) then Exit
      else Ok (m, set_tail (set_head g node) node)
    else
      if wl_head g =? 0 then Exit
      else m <- set_next m (wl_tail g) node ;; Ok (m, set_tail g node)
  else Ok (m, g).

(** aps-dnc.c:145-150: the search for the pointer to [node]; [prev] = 0 stands for
    [&aug_graph->worklist_head], otherwise [ep] is prev's link. *)
Fixpoint find_link (fuel : nat) (m : mem) (node prev cur : addr) : res addr :=
  match fuel with
  | O => Fuel
  | S fuel =>
    if cur =? node then Ok prev
    else if cur =? 0 then Exit                         (** "Not in worklist!" *)
    else e <- load m cur ;; find_link fuel m node cur (e_next e)
  end.
(** aps-dnc.c:156-161: the search for the predecessor of the tail *)
Fixpoint find_pred (fuel : nat) (m : mem) (node cur : addr) : res addr :=
  match fuel with
  | O => Fuel
  | S fuel =>
    e <- load m cur ;;
    if e_next e =? node then Ok cur
    else if e_next e =? 0 then Exit                    (** "Worklist in two pieces" *)
    else find_pred fuel m node (e_next e)
  end.
(** aps-dnc.c:142-167 [remove_from_worklist]; loops get one round per structure, plus one *)
Definition remove_from_worklist (node : addr) (m : mem) (g : aug) : res (mem * aug) :=
  let fuel := S (S (length (edges m))) in
  e <- load m node ;;
  '(m, g) <-
    (if negb (e_next e =? 0) then
       p <- find_link fuel m node 0 (wl_head g) ;;
       if p =? 0 then Ok (m, set_head g (e_next e))
       else m <- set_next m p (e_next e) ;; Ok (m, g)
     else if node =? wl_tail g then
       if node =? wl_head g then Ok (m, set_tail (set_head g 0) 0)
       else
         p <- find_pred fuel m node (wl_head g) ;;
         m <- set_next m p 0 ;; Ok (m, set_tail g p)
     else Ok (m, g)) ;;
  m <- set_kind m node no_dependency ;; Ok (m, g).

(** aps-dnc.c:221-248 [new_edgeset]; HALLOC gives a new structure *)
Definition new_edgeset (source sink : nat) (c : condition) (k : N) (m : mem) : res (mem * addr) :=
  let e := mkEdge 0 source sink c k 0 in
  match freelist m with
  | 0 => Ok (mkMem (edges m ++ [e]) 0, S (length (edges m)))
  | p =>
    old <- load m p ;;
    if negb (N.eqb (e_kind old) no_dependency) then Exit
    else m <- store (mkMem (edges m) (e_rest old)) p e ;; Ok (m, p)
  end.
(** aps-dnc.c:250-260 [free_edge] *)
Definition free_edge (old : addr) (m : mem) (g : aug) : res (mem * aug) :=
  m <- set_rest m old (freelist m) ;;
  e <- load m old ;;
  if N.eqb (e_kind e) no_dependency then Exit
  else
    m <- set_kind m old no_dependency ;;
    '(m, g) <- remove_from_worklist old m g ;;
    Ok (mkMem (edges m) old, g).
(** aps-dnc.c:262-269 [free_edgeset] *)
Fixpoint free_edgeset (fuel : nat) (es : addr) (m : mem) (g : aug) : res (mem * aug) :=
  match es with
  | 0 => Ok (m, g)
  | _ => match fuel with
         | O => Fuel
         | S fuel => e <- load m es ;; '(m, g) <- free_edge es m g ;; free_edgeset fuel (e_rest e) m g
         end
  end.

(** The (condition, kind) pairs of a set, in order: what every walk of a set
    through [rest] sees. *)
Fixpoint read_set (fuel : nat) (m : mem) (es : addr) : res (list (condition * N)) :=
  match es with
  | 0 => Ok []
  | _ => match fuel with
         | O => Fuel
         | S fuel => e <- load m es ;; l <- read_set fuel m (e_rest e) ;; Ok ((e_cond e, e_kind e) :: l)
         end
  end.
Definition set_at (m : mem) (es : addr) : res (list (condition * N)) := read_set (length (edges m)) m es.
(** aps-dnc.c:271-277 [edgeset_kind], on the pairs read *)
Definition edgeset_kind (l : list (condition * N)) : N :=
  fold_left (fun max e => dependency_join max (snd e)) l no_dependency.
(** aps-dnc.c:279-286 [edgeset_lowerbound] *)
Definition edgeset_lowerbound (l : list (condition * N)) : N :=
  fold_left (fun max e => if negb (N.eqb (N.lor (positive (fst e)) (negative (fst e))) 0) then max
                          else dependency_join max (snd e)) l no_dependency.
(** aps-dnc.c:289-309 [edge_present] *)
Definition edge_present (c : condition) (k : N) (l : list (condition * N)) : bool :=
  existsb (fun e => match cond_compare c (fst e) with
                    | CONDlt | CONDeq => at_most k (snd e)
                    | _ => false
                    end) l.

Definition is_lt_eq (x : condcompare) : bool := match x with CONDlt | CONDeq => true | _ => false end.
Definition is_gt_eq (x : condcompare) : bool := match x with CONDgt | CONDeq => true | _ => false end.
Definition is_comp (x : condcompare) : bool := match x with CONDcomp => true | _ => false end.
(** aps-dnc.c:349-356: the masks common to both are dropped *)
Definition merge_cond (c1 c2 : condition) : condition :=
  let p := N.lor (positive c1) (positive c2) in
  let n := N.lor (negative c1) (negative c2) in
  let common := N.land p n in
  mkCond (N.ldiff p common) (N.ldiff n common).
(** aps-dnc.c:311-368 [add_edge] *)
Fixpoint add_edge (fuel : nat) (source sink : nat) (c : condition) (k : N) (current : addr) (m : mem) (g : aug) : res (mem * aug * addr) :=
  if N.eqb k 0 then Exit
  else match current with
  | 0 => '(m, p) <- new_edgeset source sink c k m ;; '(m, g) <- add_to_worklist p m g ;; Ok (m, g, p)
  | _ =>
    match fuel with
    | O => Fuel
    | S fuel =>
      e <- load m current ;;
      let comp := cond_compare c (e_cond e) in
      if negb (e_source e =? source) || negb (e_sink e =? sink) then Exit
      else if at_most k (e_kind e) && is_lt_eq comp then Ok (m, g, current)
      else if at_most (e_kind e) k && is_gt_eq comp then
        '(m, g) <- free_edge current m g ;;
        add_edge fuel source sink c k (e_rest e) m g
      else if N.eqb (e_kind e) k && is_comp comp then
        let common := N.land (N.lor (positive c) (positive (e_cond e))) (N.lor (negative c) (negative (e_cond e))) in
        if negb (N.eqb common 0) && negb (one_bit common) then Exit
        else
          '(m, g, p) <- add_edge fuel source sink (merge_cond c (e_cond e)) k (e_rest e) m g ;;
          '(m, g) <- free_edge current m g ;;
          Ok (m, g, p)
      else
        '(m, g, p) <- add_edge fuel source sink c k (e_rest e) m g ;;
        m <- set_rest m current p ;;
        Ok (m, g, current)
    end
  end.
(** aps-dnc.c:370-381 [add_edge_to_graph] *)
Definition add_edge_to_graph (source sink : nat) (c : condition) (k : N) (m : mem) (g : aug) : res (mem * aug) :=
  let index := source * n_inst g + sink in
  current <- rd (graph g) index ;;
  gr <- wr (graph g) index 0 ;;
  '(m, g, p) <- add_edge (S (length (edges m))) source sink c k current m (mkAug (n_inst g) gr (wl_head g) (wl_tail g)) ;;
  gr <- wr (graph g) index p ;;
  Ok (m, mkAug (n_inst g) gr (wl_head g) (wl_tail g)).
(** aps-dnc.c:2711-2718: taking the head of the worklist *)
Definition take_head (m : mem) (g : aug) : res (mem * aug * edge) :=
  let p := wl_head g in
  e <- load m p ;;
  let g := set_head g (e_next e) in
  g <- (if wl_tail g =? p then (if negb (e_next e =? 0) then Exit else Ok (set_tail g 0)) else Ok g) ;;
  m <- set_next m p 0 ;;
  Ok (m, g, e).
(** aps-cycle.c:362-376 [remove_edgeset] (with debugging off) *)
Definition remove_edgeset (source sink : nat) (m : mem) (g : aug) : res (mem * aug) :=
  let index := source * n_inst g + sink in
  p <- rd (graph g) index ;;
  '(m, g) <- free_edgeset (S (length (edges m))) p m g ;;
  gr <- wr (graph g) index 0 ;;
  Ok (m, mkAug (n_inst g) gr (wl_head g) (wl_tail g)).
