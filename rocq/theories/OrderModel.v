(** * OrderModel: the checks on total orders, and the scheduling of one rule.

    Models assert_total_order and schedule_augmented_dependency_graph of
    /repo/analyze/aps-schedule.c; checks that only warn are left out. *)
From Verif Require Import Base CondModel EdgeModel DncModel CycleModel OagModel ComponentModel ChunkModel.
From Verif Require PrimeModel.
Open Scope nat_scope.

Section Checks.
Variables (r : rule) (cg : chunk_graph).

(** group_is_local(&node->child_phase) && if_rule_p(node->cto_instance->...); a visit
    marker has no cto_instance *)
Definition local_if (inst : option nat) (g : group) : res bool :=
  if group_is_local g then
    match inst with
    | None => UB
    | Some i => s <- rd (r_insts r) i ;; Ok (match si_if s with Some _ => true | None => false end)
    end
  else Ok false.
(** aps-schedule.c:207-238 [followed_by]: the value of *any if it was false *)
Fixpoint followed_by (t : cto) (want : group) (immediate visit_marker_only : bool) : res bool :=
  match t with
  | Null => Ok false
  | Node _ _ inst g _ _ _ if_true next =>
    let here := group_eqb g want in
    if negb here && immediate then Ok false else
    let any := here && (negb visit_marker_only || match inst with None => true | Some _ => false end) in
    b <- local_if inst g ;;
    a1 <- (if b : bool then followed_by if_true want immediate visit_marker_only else Ok false) ;;
    a2 <- followed_by next want immediate visit_marker_only ;;
    Ok (any || a1 || a2)
  end.
(** aps-schedule.c:248-265 [aug_graph_contains_phase] *)
Definition aug_graph_contains_phase (cond : condition) (g : group) : bool :=
  existsb (fun s => group_eqb (si_group s) g && negb (impossible (merge_cond (si_cond s) cond))) (r_insts r).
(** aps-schedule.c:278-402 [total_order_sanity_check] *)
Fixpoint total_order_sanity_check (t : cto) (cond : condition) (prev_group prev_parent : group) : res unit :=
  match t with
  | Null => Ok tt
  | Node _ _ inst g _ _ _ if_true next =>
    let ph := fst g in let ch := snd g in
    stop <- match inst with
      | Some _ => Ok false
      | None =>
        if Z.eqb ch (-1) then
          let preceded := Z.ltb 0 (fst prev_parent) && Z.eqb (snd prev_parent) (-1) in
          if aug_graph_contains_phase cond (ph, -1)%Z && negb preceded then Exit else
          match next with
          | Null => Ok true
          | _ => _ <- followed_by next (- (ph + 1), -1)%Z false false ;; Ok false
          end
        else
          followed <- followed_by next g true false ;;
          let preceded := Z.eqb (fst prev_group) (- ph) && Z.eqb (snd prev_group) ch in
          if aug_graph_contains_phase cond g && negb followed then Exit
          else if aug_graph_contains_phase cond (- ph, ch)%Z && negb preceded then Exit
          else Ok false
      end ;;
    if stop : bool then Ok tt else
    let prev_parent := if Z.eqb ch (-1) then g else prev_parent in
    if group_is_local g then
      match inst with
      | None => UB
      | Some i =>
        s <- rd (r_insts r) i ;;
        match si_if s with
        | Some index =>
          let cmask := N.shiftl 1 (N.of_nat index) in
          _ <- total_order_sanity_check if_true (mkCond (N.lor (positive cond) cmask) (negative cond)) g prev_parent ;;
          total_order_sanity_check next (mkCond (N.ldiff (N.lor (positive cond) cmask) cmask) (N.lor (negative cond) cmask)) g prev_parent
        | None => total_order_sanity_check next cond prev_group prev_parent
        end
      end
    else total_order_sanity_check next cond g prev_parent
  end.
(** aps-schedule.c:409-455 [child_visit_consecutive_check]; ph is at least 1 *)
Fixpoint child_visit_consecutive_check (t : cto) (ph : nat) (ch : Z) : res unit :=
  match t with
  | Null => Ok tt
  | Node _ _ inst g _ _ _ if_true next =>
    if match inst with None => Z.eqb (snd g) ch | Some _ => false end then
      _ <- (if Z.eqb (fst g) (Z.of_nat ph) then Ok tt else
            if Z.ltb (fst g) 0 then Exit else
            c1 <- chunk_lookup cg Visit (Z.to_nat (fst g)) ch ;;
            a1 <- chunk_component_indexof cg c1 ;;
            c2 <- chunk_lookup cg Visit ph ch ;;
            a2 <- chunk_component_indexof cg c2 ;;
            if a1 =? a2 then Ok tt else Exit) ;;
      child_visit_consecutive_check next (S ph) ch
    else
      _ <- child_visit_consecutive_check if_true ph ch ;;
      child_visit_consecutive_check next ph ch
  end.
(** aps-schedule.c:464-472 [child_visit_consecutive] *)
Definition child_visit_consecutive (t : cto) : res unit :=
  foldM (fun _ c => child_visit_consecutive_check t 1 (Z.of_nat c)) (seq 0 (length (r_children r))) tt.
(** aps-schedule.c:480-506 [child_visit_completeness] *)
Definition child_visit_completeness (t : cto) : res unit :=
  foldM (fun _ c =>
    child <- rd (r_children r) c ;;
    match child with
    | None => Ok tt
    | Some phy => foldM (fun _ p => any <- followed_by t (Z.of_nat p, Z.of_nat c)%Z false true ;; if any : bool then Ok tt else Exit) (seq 1 (max_phase phy)) tt
    end) (seq 0 (length (r_children r))) tt.
(** aps-schedule.c:516-570 [check_circular_visit] *)
Fixpoint check_circular_visit (t : cto) (parent_ph : nat) : res unit :=
  match t with
  | Null => Ok tt
  | Node _ _ inst g _ _ _ if_true next =>
    parent_ph <- match inst with
      | None =>
        if Z.eqb (snd g) (-1) then Ok (S parent_ph)
        else if group_is_local g then Ok parent_ph
        else if Z.ltb (snd g) 0 then UB else
        child <- rd (r_children r) (Z.to_nat (snd g)) ;;
        match child with
        | None => Ok parent_ph
        | Some phy =>
          pc <- rd (cyclic_flags (r_parent r)) parent_ph ;;
          if pc : bool then
            if Z.ltb (fst g) 0 then UB else
            cc <- rd (cyclic_flags phy) (Z.to_nat (fst g)) ;; if cc : bool then Ok parent_ph else Exit
          else Ok parent_ph
        end
      | Some i =>
        if negb (group_is_local g) && Z.ltb (-1) (snd g) then
          _ <- rd (r_children r) (Z.to_nat (snd g)) ;;
          pc <- rd (cyclic_flags (r_parent r)) parent_ph ;;
          if pc : bool then cyc <- instance_in_aug_cycle r i ;; if cyc : bool then Ok parent_ph else Exit else Ok parent_ph
        else Ok parent_ph
      end ;;
    _ <- check_circular_visit if_true parent_ph ;;
    check_circular_visit next parent_ph
  end.
(** aps-schedule.c:619-640 [validate_linked_list] *)
Definition prev_of (t : cto) : nat := match t with Null => 0 | Node _ p _ _ _ _ _ _ _ => p end.
Fixpoint validate_linked_list (t : cto) (prev : nat) : res unit :=
  match t with
  | Null => Ok tt
  | Node a p _ _ _ _ _ if_true next =>
    if negb (p =? prev) then Exit else
    if match next with Null => false | _ => negb (prev_of next =? a) end then Exit else
    _ <- validate_linked_list if_true a ;;
    validate_linked_list next a
  end.
(** aps-schedule.c:642-684 [check_duplicates]; the true branch may write the array, the
    other continues with a copy made before *)
Fixpoint check_duplicates (t : cto) (seen : list bool) : res unit :=
  match t with
  | Null => Ok tt
  | Node _ _ inst _ _ _ _ if_true next =>
    seen <- match inst with
      | None => Ok seen
      | Some i => b <- rd seen i ;; if b : bool then Exit else wr seen i true
      end ;;
    _ <- check_duplicates if_true seen ;;
    check_duplicates next seen
  end.
(** aps-schedule.c:692-733 [assert_total_order]; condition #5 only warns *)
Definition assert_total_order (t : cto) : res unit :=
  _ <- validate_linked_list t 0 ;;
  _ <- child_visit_completeness t ;;
  _ <- total_order_sanity_check t (mkCond 0 0) (1, -1)%Z (1, -1)%Z ;;
  _ <- child_visit_consecutive t ;;
  _ <- check_circular_visit t 1 ;;
  check_duplicates t (repeat false (length (r_insts r))).
End Checks.

(** aps-schedule.c:2780-2843 [schedule_augmented_dependency_graph] after the assignment of
    groups *)
Definition schedule_rule (fuel : nat) (ps : PrimeModel.primes) (base size : Z) (r : rule) : res cto :=
  cg <- collect_aug_graph_chunks ps base size r ;;
  let start := mkSst (repeat false (length (r_insts r))) (repeat false (length (cg_chunks cg))) 0 in
  '(_, t) <- sched ps base size r cg fuel VisitStart 0 (mkCond 0 0) 1 start ;;
  match t with
  | Null => Exit
  | _ => _ <- assert_total_order r cg t ;; Ok t
  end.
