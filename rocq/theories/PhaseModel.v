(** * PhaseModel: phases of summary graphs with circular attributes.

    Models the phase computation of /repo/analyze/aps-schedule.c (debugging output left
    out) on top of the model of the components (aps-scc.c).  int phases are unbounded
    here. *)
From Verif Require Import Base CondModel EdgeModel DncModel CycleModel OagModel ComponentModel.
From Verif Require PrimeModel.
Open Scope nat_scope.

(** aps-schedule.c:155-159 [instance_in_phylum_cycle] *)
Definition instance_in_phylum_cycle (n : nat) (mg : list N) (i : nat) : res bool :=
  k <- rd mg (i * n + i) ;; Ok (negb (N.eqb k no_dependency)).

(** aps-schedule.c:820-846 and 850-876: one round of the loops over the instances; the
    state is summary_schedule, mingraph and done *)
Definition phase_one (dirs : list direction) (want : direction) (mark : Z) (st : list Z * list N * nat) (i : nat) : res (list Z * list N * nat) :=
  let n := length dirs in
  let '(sched, mg, done) := st in
  d <- rd dirs i ;;
  if negb (same_direction d want) then Ok st else
  cyc <- instance_in_phylum_cycle n mg i ;;
  if cyc : bool then Ok st else
  s <- rd sched i ;;
  if negb (Z.eqb s 0) then Ok st else
  waits <- existsM (fun j => sj <- rd sched j ;; if Z.eqb sj 0 then k <- rd mg (j * n + i) ;; Ok (negb (N.eqb k no_dependency)) else Ok false) (seq 0 n) ;;
  if waits : bool then Ok st else
  sched <- wr sched i mark ;;
  mg <- foldM (fun mg j => sch <- rd sched j ;; if negb (Z.eqb sch 0) && negb (Z.eqb sch mark) then wr mg (j * n + i) indirect_control_dependency else Ok mg) (seq 0 n) mg ;;
  Ok (sched, mg, S done).
(** aps-schedule.c:812-879 [schedule_phase_non_circular] *)
Definition schedule_phase_non_circular (dirs : list direction) (phase : nat) (sched : list Z) (mg : list N) : res (list Z * list N * nat) :=
  let n := length dirs in
  st <- foldM (phase_one dirs instance_inward (- Z.of_nat phase)%Z) (seq 0 n) (sched, mg, 0) ;;
  foldM (phase_one dirs instance_outward (Z.of_nat phase)) (seq 0 n) st.

(** aps-schedule.c:757-771: is the component ready?  The members are given by their
    indices. *)
Definition cycle_ready (n : nat) (sched : list Z) (mg : list N) (comp : list nat) : res bool :=
  temp <- foldM (fun t i => wr t i 1%Z) comp sched ;;
  foldM (fun b i => foldM (fun b k =>
    t <- rd temp k ;;
    if negb (Z.eqb t 0) then Ok b else
    e <- rd mg (k * n + i) ;; Ok (if negb (N.eqb e no_dependency) then false else b)) (seq 0 n) b) comp true.
(** aps-schedule.c:735-802 [schedule_phase_circular] on the components with their
    numbers [is]; array[0] of an empty component is UB. *)
Fixpoint phase_circular (dirs : list direction) (base size : Z) (comps : list (list Z)) (flags : list bool) (phase : nat) (sched : list Z) (mg : list N) (is : list nat) : res (list Z * nat) :=
  match is with
  | [] => Ok (sched, 0)
  | a :: is =>
    let n := length dirs in
    let next := phase_circular dirs base size comps flags phase sched mg is in
    comp <- rd comps a ;;
    fl <- rd flags a ;;
    if negb fl then next else
    p0 <- rd comp 0 ;; i0 <- inst_index base size n p0 ;;
    s0 <- rd sched i0 ;;
    if negb (Z.eqb s0 0) then next else
    members <- foldM (fun l p => i <- inst_index base size n p ;; Ok (l ++ [i])) comp [] ;;
    ready <- cycle_ready n sched mg members ;;
    if ready : bool then
      sched <- foldM (fun s i => d <- rd dirs i ;; wr s i (if same_direction d instance_inward then - Z.of_nat phase else Z.of_nat phase)%Z) members sched ;;
      Ok (sched, length comp)
    else next
  end.
Definition schedule_phase_circular (dirs : list direction) (base size : Z) (comps : list (list Z)) (flags : list bool) (phase : nat) (sched : list Z) (mg : list N) : res (list Z * nat) :=
  phase_circular dirs base size comps flags phase sched mg (seq 0 (length comps)).

(** What is computed: summary_schedule, mingraph, cyclic_flags, empty_phase, max_phase *)
Record phases := mkPhases { ph_sched : list Z; ph_mg : list N; ph_circular : list bool; ph_empty : list bool; ph_max : nat }.

(** aps-schedule.c:926-972 and 974-991: the do loop; the state also has the next phase,
    done and cycle_happened.  max_phase, not initialised in the code, starts as 0. *)
Fixpoint phase_loop (fuel : nat) (dirs : list direction) (base size : Z) (comps : list (list Z)) (flags : list bool) (r : phases) (phase done : nat) (cycle_happened : bool) : res (phases * nat * nat * bool) :=
  match fuel with
  | O => Fuel
  | S f =>
    '(sched, mg, count_nc) <- schedule_phase_non_circular dirs phase (ph_sched r) (ph_mg r) ;;
    if negb (count_nc =? 0) then
      circ <- wr (ph_circular r) phase false ;;
      phase_loop f dirs base size comps flags (mkPhases sched mg circ (ph_empty r) phase) (S phase) (done + count_nc) false
    else
      '(circ, empt, mx, phase, ch) <-
        (if cycle_happened || (phase =? 1) then
           circ <- wr (ph_circular r) phase false ;;
           empt <- wr (ph_empty r) phase true ;;
           Ok (circ, empt, phase, S phase, false)
         else Ok (ph_circular r, ph_empty r, ph_max r, phase, cycle_happened)) ;;
      '(sched, count_c) <- schedule_phase_circular dirs base size comps flags phase sched mg ;;
      if negb (count_c =? 0) then
        circ <- wr circ phase true ;;
        phase_loop f dirs base size comps flags (mkPhases sched mg circ empt phase) (S phase) (done + count_c) true
      else Ok (mkPhases sched mg circ empt mx, phase, done, false)
  end.
(** aps-schedule.c:888-1031 [schedule_summary_dependency_graph]; [tables] is the number
    of entries of the two tables. *)
Definition schedule_phases_with (tables fuel : nat) (st : PrimeModel.primes) (dirs : list direction) (base size : Z) (mg : list N) : res (PrimeModel.primes * phases) :=
  let n := length dirs in
  '(st, comps, flags) <- set_phylum_graph_components st base size n mg ;;
  '(r, phase, done, cycle_happened) <- phase_loop fuel dirs base size comps flags (mkPhases (repeat 0%Z n) mg (repeat false tables) (repeat false tables) 0) 1 0 false ;;
  r <- (if (done =? n) && cycle_happened then
          circ <- wr (ph_circular r) phase false ;;
          empt <- wr (ph_empty r) phase true ;;
          Ok (mkPhases (ph_sched r) (ph_mg r) circ empt phase)
        else Ok r) ;;
  if done <? n then Exit else Ok (st, r).
(** aps-schedule.c:905-913: phase_count is n + 1 *)
Definition schedule_summary_dependency_graph (fuel : nat) (st : PrimeModel.primes) (dirs : list direction) (base size : Z) (mg : list N) : res (PrimeModel.primes * phases) :=
  schedule_phases_with (length dirs + 1) fuel st dirs base size mg.
