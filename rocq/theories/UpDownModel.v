(** * UpDownModel: breaking cycles by the up/down construction.

    Models /repo/analyze/aps-cycle.c:350-352 and 395-720 (debugging output left out).
    Whether an instance is "up" (its direction is outward) is given: one list of flags
    for each summary graph and each production graph. *)
From Verif Require Import Base CondModel EdgeModel DncModel CycleModel.
Open Scope nat_scope.

(** aps-cycle.c:419 UP_DOWN_DIRECTION *)
Definition up_down_direction (v direction : bool) : bool := if direction then v else negb v.
(** parent_index[idx] == cyc->internal_info *)
Definition in_cycle (par : list (option nat)) (idx root : nat) : res bool := q <- rd par idx ;; Ok (is_set q root).

(** ** Summary graphs *)
(** the loops over l that join the entries at [cell l] for the l in the cycle *)
Definition join_cycle (par : list (option nat)) (root start n : nat) (cell : nat -> nat) (mg : list N) : res N :=
  foldM (fun acc l => b <- in_cycle par (l + start) root ;; if b : bool then v <- rd mg (cell l) ;; Ok (N.lor acc v) else Ok acc) (seq 0 n) no_dependency.
(** the loops over l that assign [v l] to the entries at [cell l] *)
Definition set_cycle (par : list (option nat)) (root start n : nat) (cell : nat -> nat) (v : nat -> res N) (mg : list N) : res (list N) :=
  foldM (fun mg l => b <- in_cycle par (l + start) root ;; if b : bool then x <- v l ;; wr mg (cell l) x else Ok mg) (seq 0 n) mg.
(** aps-cycle.c:465-560: row k of one summary graph for one cycle *)
Definition up_down_phy_row (direction : bool) (par : list (option nat)) (root start n : nat) (ups : list bool) (mg : list N) (k : nat) : res (list N) :=
  inside <- in_cycle par (k + start) root ;;
  if negb inside then
    acc <- join_cycle par root start n (fun l => k * n + l) mg ;;
    mg <- (if negb (N.eqb acc no_dependency) then set_cycle par root start n (fun l => k * n + l) (fun _ => Ok acc) mg else Ok mg) ;;
    acc <- join_cycle par root start n (fun l => l * n + k) mg ;;
    (if negb (N.eqb acc no_dependency) then set_cycle par root start n (fun l => l * n + k) (fun _ => Ok acc) mg else Ok mg)
  else
    up <- rd ups k ;;
    if direction && up_down_direction up direction then
      acc <- join_cycle par root start n (fun l => k * n + l) mg ;;
      set_cycle par root start n (fun l => k * n + l) (fun l =>
        upl <- rd ups l ;;
        Ok (if negb (N.eqb acc no_dependency) && up_down_direction (negb upl) direction then acc else no_dependency)) mg
    else set_cycle par root start n (fun l => k * n + l) (fun _ => Ok no_dependency) mg.
(** aps-cycle.c:457-563: one summary graph for one cycle *)
Definition up_down_phy (direction : bool) (par : list (option nat)) (root start : nat) (ups : list bool) (p : phy) : res phy :=
  mg <- foldM (up_down_phy_row direction par root start (p_n p) ups) (seq 0 (p_n p)) (mingraph p) ;;
  Ok (mkPhy (p_labels p) mg (is_func p)).

(** ** Production graphs *)
(** aps-cycle.c:409-417 [edgeset_combine_dependencies] on the pairs read *)
Definition combine (acc : N * condition) (es : list (condition * N)) : N * condition :=
  fold_left (fun acc e => (N.lor (fst acc) (snd e), mkCond (N.lor (positive (snd acc)) (positive (fst e))) (N.lor (negative (snd acc)) (negative (fst e))))) es acc.
(** the loops over l that combine the edge sets at [cell l] for the l in the cycle *)
Definition combine_cycle (par : list (option nat)) (root start n : nat) (cell : nat -> nat) (m : mem) (g : aug) : res (N * condition) :=
  foldM (fun acc l => b <- in_cycle par (l + start) root ;; if b : bool then p <- rd (graph g) (cell l) ;; es <- set_at m p ;; Ok (combine acc es) else Ok acc) (seq 0 n) (no_dependency, mkCond 0 0).
(** the loops over l that do something for each l in the cycle *)
Definition for_cycle (par : list (option nat)) (root start n : nat) (f : nat -> mem * aug -> res (mem * aug)) (mg : mem * aug) : res (mem * aug) :=
  foldM (fun mg l => b <- in_cycle par (l + start) root ;; if b : bool then f l mg else Ok mg) (seq 0 n) mg.
(** aps-cycle.c:573-715: row k of one production graph for one cycle *)
Definition up_down_aug_row (direction : bool) (par : list (option nat)) (root start : nat) (ups : list bool) (mg : mem * aug) (k : nat) : res (mem * aug) :=
  let n := n_inst (snd mg) in
  inside <- in_cycle par (k + start) root ;;
  if negb inside then
    '(acc, c) <- combine_cycle par root start n (fun l => k * n + l) (fst mg) (snd mg) ;;
    mg <- (if negb (N.eqb acc no_dependency) then for_cycle par root start n (fun l mg => add_edge_to_graph k l c acc (fst mg) (snd mg)) mg else Ok mg) ;;
    '(acc, c) <- combine_cycle par root start n (fun l => l * n + k) (fst mg) (snd mg) ;;
    (if negb (N.eqb acc no_dependency) then for_cycle par root start n (fun l mg => add_edge_to_graph l k c acc (fst mg) (snd mg)) mg else Ok mg)
  else
    up <- rd ups k ;;
    if up_down_direction up direction then
      '(acc, c) <- combine_cycle par root start n (fun l => k * n + l) (fst mg) (snd mg) ;;
      for_cycle par root start n (fun l mg =>
        upl <- rd ups l ;;
        if negb (N.eqb acc no_dependency) && up_down_direction (negb upl) direction then add_edge_to_graph k l c acc (fst mg) (snd mg)
        else remove_edgeset k l (fst mg) (snd mg)) mg
    else for_cycle par root start n (fun l mg => remove_edgeset k l (fst mg) (snd mg)) mg.
Definition up_down_aug (direction : bool) (par : list (option nat)) (root start : nat) (ups : list bool) (mg : mem * aug) : res (mem * aug) :=
  foldM (up_down_aug_row direction par root start ups) (seq 0 (n_inst (snd mg))) mg.

(** aps-cycle.c:445-720 [add_up_down_attributes]: one cycle *)
Definition up_down_cycle (direction : bool) (par : list (option nat)) (pups aups : list (list bool)) (s : state) (root : nat) : res state :=
  s <- foldM (fun s j =>
    p <- rd (st_phys s) j ;;
    ups <- rd pups j ;;
    p <- up_down_phy direction par root (phylum_start s j) ups p ;;
    ps <- wr (st_phys s) j p ;;
    Ok (mkState (st_mem s) (st_augs s) ps)) (seq 0 (length (st_phys s))) s ;;
  foldM (fun s j =>
    g <- rd (st_augs s) j ;;
    ups <- rd aups j ;;
    '(m, g) <- up_down_aug direction par root (constructor_start s j) ups (st_mem s, g) ;;
    gs <- wr (st_augs s) j g ;;
    Ok (mkState m gs (st_phys s))) (seq 0 (length (st_augs s))) s.
Definition add_up_down_attributes (direction : bool) (par : list (option nat)) (cycles : list cycle) (pups aups : list (list bool)) (s : state) : res state :=
  foldM (up_down_cycle direction par pups aups) (map internal_info cycles) s.
(** aps-cycle.c:900-960 [break_fiber_cycles], static_scc_schedule off; the check of the
    declarations, which only reports, is left out *)
Definition break_fiber_cycles (fuel : nat) (lf : bool) (rules : list rule) (pups aups : list (list bool)) (dep : N) (s : state) : res state :=
  '(par, cycles) <- find_cycles lf rules s ;;
  s <- add_up_down_attributes (N.eqb (N.land dep DEPENDENCY_NOT_JUST_FIBER) 0) par cycles pups aups s ;;
  dnc_close fuel rules s.
