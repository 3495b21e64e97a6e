(** * OagModel: scheduling summary graphs and production graphs.

    Models /repo/analyze/aps-oag.c (debugging output left out). *)
From Verif Require Import Base CondModel EdgeModel DncModel CycleModel.
Open Scope nat_scope.

(** A loop that stops at the first index for which the test succeeds. *)
Fixpoint existsM (f : nat -> res bool) (l : list nat) : res bool :=
  match l with
  | [] => Ok false
  | j :: l => b <- f j ;; if b : bool then Ok true else existsM f l
  end.

(** ** Summary graphs *)
(** aps-dnc.h:26 *)
Inductive direction := instance_local | instance_inward | instance_outward.
Definition same_direction (a b : direction) : bool :=
  match a, b with
  | instance_local, instance_local | instance_inward, instance_inward | instance_outward, instance_outward => true
  | _, _ => false
  end.
(** aps-dnc.h:48 *)
Definition indirect_control_dependency : N := 3.

(** aps-oag.c:23-45 and 49-71: try to schedule instance i for phase [mark]; the
    state is summary_schedule, mingraph, done and local_done.  The int phases are
    unbounded here. *)
Definition schedule_one (dirs : list direction) (want : direction) (mark : Z) (st : list Z * list N * nat * nat) (i : nat) : res (list Z * list N * nat * nat) :=
  let n := length dirs in
  let '(sched, mg, done, local_done) := st in
  d <- rd dirs i ;;
  if negb (same_direction d want) then Ok st else
  s <- rd sched i ;;
  if negb (Z.eqb s 0) then Ok st else
  waits <- existsM (fun j => sj <- rd sched j ;; if Z.eqb sj 0 then k <- rd mg (j * n + i) ;; Ok (negb (N.eqb k no_dependency)) else Ok false) (seq 0 n) ;;
  if waits : bool then Ok st else
  sched <- wr sched i mark ;;
  mg <- foldM (fun mg j => sch <- rd sched j ;; if negb (Z.eqb sch 0) && negb (Z.eqb sch mark) then wr mg (j * n + i) indirect_control_dependency else Ok mg) (seq 0 n) mg ;;
  Ok (sched, mg, S done, S local_done).
(** aps-oag.c:19-115: the loop over the phases; [phase] is the one before *)
Fixpoint schedule_phases (fuel : nat) (dirs : list direction) (phase : Z) (sched : list Z) (mg : list N) (done : nat) : res (list Z * list N) :=
  let n := length dirs in
  if done <? n then
    match fuel with
    | O => Fuel
    | S f =>
      let phase := (phase + 1)%Z in
      st <- foldM (schedule_one dirs instance_inward (- phase)) (seq 0 n) (sched, mg, done, 0) ;;
      '(sched, mg, done, local_done) <- foldM (schedule_one dirs instance_outward phase) (seq 0 n) st ;;
      if local_done =? 0 then Exit else schedule_phases f dirs phase sched mg done
    end
  else Ok (sched, mg).
(** aps-oag.c:8-116 [schedule_summary_dependency_graph] *)
Definition schedule_summary (fuel : nat) (dirs : list direction) (mg : list N) : res (list Z * list N) :=
  schedule_phases fuel dirs 0 (repeat 0%Z (length dirs)) mg 0.

(** ** Production graphs *)
(** What scheduling looks at in an instance: [instance_condition] (aps-oag.c:118-137;
    an attribute removed by the cycle breaker has both masks full) and, for an if-rule,
    its index. *)
Record oinst := mkOinst { oi_cond : condition; oi_if : option nat }.
(** aps-oag.h: a null pointer is [CDone]; cto_prev, always the parent, is left out. *)
Inductive cto := CDone | CNext (i : nat) (next : cto) | CIf (i : nat) (if_false if_true : cto).
Definition merge_cond (c1 c2 : condition) : condition := mkCond (N.lor (positive c1) (positive c2)) (N.lor (negative c1) (negative c2)).
(** aps-oag.h CONDITION_IS_IMPOSSIBLE *)
Definition impossible (c : condition) : bool := negb (N.eqb (N.land (positive c) (negative c)) 0).

(** aps-oag.c:157-197: does i wait for an instance not yet scheduled?  [edges j i] is
    the edge set from j to i. *)
Definition waits_for (edges : nat -> nat -> res (list (condition * N))) (n : nat) (sched : list bool) (cond : condition) (i : nat) : res bool :=
  existsM (fun j =>
    sj <- rd sched j ;;
    if sj : bool then Ok false else
    es <- edges j i ;;
    Ok (existsb (fun e => negb (impossible (merge_cond cond (fst e)))) es)) (seq 0 n).
(** aps-oag.c:157-200: the first instance that can be scheduled *)
Fixpoint first_ready (edges : nat -> nat -> res (list (condition * N))) (n : nat) (sched : list bool) (cond : condition) (l : list nat) : res (option nat) :=
  match l with
  | [] => Ok None
  | i :: l =>
    si <- rd sched i ;;
    if si : bool then first_ready edges n sched cond l else
    w <- waits_for edges n sched cond i ;;
    if w : bool then first_ready edges n sched cond l else Ok (Some i)
  end.
(** aps-oag.c:139-304 [schedule_rest].  The schedule array is restored on the way
    out in C; here each branch has its own.  [cond.positive &= ~cmask] after a
    branch undoes the change to a local variable: no effect on what follows except
    between the two branches, where [cond.negative &= ~cmask] would also clear a bit
    that was set before; modelled as in C. *)
Fixpoint schedule_rest (edges : nat -> nat -> res (list (condition * N))) (insts : list oinst) (remaining : nat) (sched : list bool) (cond : condition) : res cto :=
  match remaining with
  | O => Ok CDone
  | S rest =>
    let n := length insts in
    r <- first_ready edges n sched cond (seq 0 n) ;;
    match r with
    | None => Exit
    | Some i =>
      inst <- rd insts i ;;
      sched <- wr sched i true ;;
      if impossible (merge_cond cond (oi_cond inst)) then schedule_rest edges insts rest sched cond
      else match oi_if inst with
           | Some index =>
             let cmask := N.shiftl 1 (N.of_nat index) in
             f <- schedule_rest edges insts rest sched (mkCond (positive cond) (N.lor (negative cond) cmask)) ;;
             t <- schedule_rest edges insts rest sched (mkCond (N.lor (positive cond) cmask) (N.ldiff (N.lor (negative cond) cmask) cmask)) ;;
             Ok (CIf i f t)
           | None => t <- schedule_rest edges insts rest sched cond ;; Ok (CNext i t)
           end
    end
  end.
(** aps-oag.c:321-360 [schedule_augmented_dependency_graph] after the closure *)
Definition schedule_augmented (s : state) (x : nat) (insts : list oinst) : res cto :=
  schedule_rest (pairs_at s x) insts (length insts) (repeat false (length insts)) (mkCond 0 0).
