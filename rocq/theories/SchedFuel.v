(** * SchedFuel: more fuel does not change what is scheduled. *)
From Verif Require Import Base CondModel OagModel ChunkModel OrderModel.
Open Scope nat_scope.
Section Fuel.
Variables (ps : PrimeModel.primes) (base size : Z) (r : rule) (cg : chunk_graph).
Ltac chop E := lazymatch type of E with bind ?x _ = _ => let E2 := fresh E in destruct x as [?a| | |] eqn:E2; cbn [bind] in E |- *; try discriminate E end.
Definition below (f g : scheduler) : Prop := forall c prev cond ph st x, f c prev cond ph st = Ok x -> g c prev cond ph st = Ok x.
Definition step (self : scheduler) : scheduler := fun c prev cond ph st => match c with
    | Group comp ck g => group_schedule r cg self comp ck g prev cond ph st
    | LocalChunk comp ck g => local_chunk_schedule r cg self comp ck g prev cond ph st
    | EndOfGroup comp ck g => schedule_transition_end_of_group r cg self comp ck g prev cond ph st
    | ChunkSchedule comp => chunk_schedule ps base size r cg self comp prev cond ph st
    | ComponentSchedule comp => chunk_component_schedule cg self comp prev cond ph st
    | VisitStart => schedule_visit_start r cg self prev cond ph st
    | VisitEnd ck => schedule_visit_end cg self ck prev cond ph st end.
Lemma step_below self self2 : below self self2 -> below (step self) (step self2).
Proof.
  intros IH c prev cond ph st x H. unfold below in IH. unfold step in *.
  destruct c as [comp ck g|comp ck g|comp ck g|comp|comp| |ck].
  - unfold group_schedule in *. destruct (impossible cond); [auto|]. chop H. chop H. destruct a0 as [i|].
    + cbn [new_node] in *. chop H. chop H. chop H. chop H. destruct (group_is_local (si_group a3)); [discriminate|]. destruct (impossible (merge_cond cond (si_cond a3))).
      * chop H. rewrite (IH _ _ _ _ _ _ H6). exact H.
      * chop H. chop H6. rewrite (IH _ _ _ _ _ _ H7). cbn [bind]. rewrite H6. exact H.
    + chop H. chop H. rewrite (IH _ _ _ _ _ _ H3). exact H.
  - unfold local_chunk_schedule in *. destruct (impossible cond); [auto|]. chop H. chop H. destruct a0 as [i|]; [|auto].
    cbn [new_node] in *. chop H. chop H. chop H. chop H. destruct (negb (group_is_local (si_group a3))); [discriminate|]. destruct (impossible (merge_cond cond (si_cond a3))).
    + chop H. rewrite (IH _ _ _ _ _ _ H6). exact H.
    + destruct (si_if a3).
      * chop H. chop H6. destruct a5 as [s1 t1]. chop H6. rewrite (IH _ _ _ _ _ _ H7). cbn [bind]. rewrite (IH _ _ _ _ _ _ H8). cbn [bind]. rewrite H6. exact H.
      * chop H. chop H6. rewrite (IH _ _ _ _ _ _ H7). cbn [bind]. rewrite H6. exact H.
  - unfold schedule_transition_end_of_group in *. destruct (Z.ltb (fst g) 0 && negb (Z.eqb (snd g) (-1))).
    + chop H. cbn [new_node] in *. destruct (Z.ltb (snd g) 0); [discriminate|]. chop H. chop H. rewrite (IH _ _ _ _ _ _ H2). exact H.
    + destruct (Z.ltb 0 (fst g) && Z.eqb (snd g) (-1)); [|auto]. chop H. cbn [new_node] in *. chop H. rewrite (IH _ _ _ _ _ _ H1). exact H.
  - unfold chunk_schedule in *. chop H. chop H. destruct (max_rank a0); [|auto]. chop H. unfold group_schedule_chunk in *. chop H. destruct (c_type a2); auto.
  - unfold chunk_component_schedule in *. chop H. destruct (max_rank a); [|discriminate]. auto.
  - unfold schedule_visit_start in *. destruct (max_phase (r_parent r) <? ph); [auto|]. destruct (find_chunk cg HalfLeft ph (-1)); [|discriminate]. chop H. auto.
  - unfold schedule_visit_end in *. chop H. cbn [new_node] in *. chop H. rewrite (IH _ _ _ _ _ _ H1). exact H.
Qed.
Lemma sched_S : forall f, below (sched ps base size r cg f) (sched ps base size r cg (S f)).
Proof.
  induction f as [|f IH]; intros c prev cond ph st x H; [discriminate|]. unfold below in IH. apply (step_below (sched ps base size r cg f) (sched ps base size r cg (S f)) IH c prev cond ph st x). exact H.
Qed.
End Fuel.
Theorem schedule_rule_more ps base size r fuel more t : fuel <= more -> schedule_rule fuel ps base size r = Ok t -> schedule_rule more ps base size r = Ok t.
Proof.
  intros Hle. induction Hle as [|more Hle IH]; [auto|]. intros H. apply IH in H. unfold schedule_rule in *. destruct (collect_aug_graph_chunks ps base size r) as [cg| | |]; try discriminate. cbn [bind] in *.
  destruct (sched ps base size r cg more VisitStart 0 (mkCond 0 0) 1 (mkSst (repeat false (length (r_insts r))) (repeat false (length (cg_chunks cg))) 0)) as [y| | |] eqn:E; try discriminate. rewrite (sched_S ps base size r cg more _ _ _ _ _ _ E). exact H.
Qed.
