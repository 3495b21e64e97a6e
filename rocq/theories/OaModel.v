(** * OaModel: the OAG analysis.

    Models /repo/analyze/aps-oag.c:362-411 [compute_oag] and 321-360
    [schedule_augmented_dependency_graph] with its closure (debugging output left
    out). *)
From Verif Require Import Base CondModel EdgeModel DncModel CycleModel OagModel.
Open Scope nat_scope.

(** aps-oag.c:371 and 395: schedule the summary graph of phylum [j] (its schedule
    is kept in summary_schedule, its mingraph is changed), then close again.
    [dirs]: the directions of the phylum's instances (aps-dnc.c:24-40). *)
Definition oag_phylum (fuel : nat) (rules : list rule) (dirs : list (list direction)) (s : state) (j : nat) : res (state * list Z) :=
  p <- rd (st_phys s) j ;;
  d <- rd dirs j ;;
  '(sched, mg) <- schedule_summary fuel d (mingraph p) ;;
  ps <- wr (st_phys s) j (mkPhy (p_labels p) mg (is_func p)) ;;
  s <- dnc_close fuel rules (mkState (st_mem s) (st_augs s) ps) ;;
  Ok (s, sched).
(** aps-oag.c:370-388: the loop over the phyla, left when there is a cycle;
    [scheds]: the schedules of the phyla scheduled so far *)
Fixpoint oag_phyla (fuel : nat) (rules : list rule) (dirs : list (list direction)) (js : list nat) (s : state) (scheds : list (list Z)) : res (state * list (list Z)) :=
  match js with
  | [] => Ok (s, scheds)
  | j :: js =>
    '(s, sched) <- oag_phylum fuel rules dirs s j ;;
    k <- analysis_state_cycle s ;;
    if N.eqb k no_dependency then oag_phyla fuel rules dirs js s (scheds ++ [sched]) else Ok (s, scheds ++ [sched])
  end.
(** aps-oag.c:321-360 *)
Definition oag_graph (fuel : nat) (rules : list rule) (insts : list (list oinst)) (s : state) (x : nat) : res (state * cto) :=
  r <- rd rules x ;;
  g <- rd (st_augs s) x ;;
  '(m, g, ps, _) <- close_augmented fuel r (st_mem s) g (st_phys s) ;;
  gs <- wr (st_augs s) x g ;;
  ins <- rd insts x ;;
  t <- schedule_augmented (mkState m gs ps) x ins ;;
  Ok (mkState m gs ps, t).
(** aps-oag.c:390-395; the global dependencies are the last graph *)
Definition oag_graphs (fuel : nat) (rules : list rule) (insts : list (list oinst)) (s : state) : res (state * list cto) :=
  foldM (fun '(s, ts) x => '(s, t) <- oag_graph fuel rules insts s x ;; Ok (s, ts ++ [t])) (seq 0 (length rules)) (s, []).
(** aps-oag.c:362-411 [compute_oag]: the state, the schedules of the phyla, and the
    orders of the production graphs if it comes to that.  [insts]: the instances of
    each graph. *)
Definition compute_oag (fuel : nat) (rules : list rule) (dirs : list (list direction)) (insts : list (list oinst)) (s : state) : res (state * list (list Z) * option (list cto)) :=
  '(s, scheds) <- oag_phyla fuel rules dirs (seq 0 (length (st_phys s))) s [] ;;
  k <- analysis_state_cycle s ;;
  if N.eqb k no_dependency then '(s, ts) <- oag_graphs fuel rules insts s ;; Ok (s, scheds, Some ts)
  else Ok (s, scheds, None).
