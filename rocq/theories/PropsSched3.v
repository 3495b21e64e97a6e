(** * PropsSched3: C62 (the scheduler need not terminate). *)
From Verif Require Import Base CondModel EdgeModel DncModel CycleModel OagModel PropsCond PropsComponent ChunkModel OrderModel SchedSpec SchedOrder PropsSched2.
From Verif Require PrimeModel PropsUtil.
Open Scope nat_scope.

(** The node's second phase is circular.  Two children that are visited once each, both
    need the inherited attribute of the second phase, and the synthesized attribute of the
    third needs both. *)
Definition loop_rule : rule := mkRule
  [mkSinst (-2, -1)%Z nc None; mkSinst (-1, 0)%Z nc None; mkSinst (1, 0)%Z nc None; mkSinst (-1, 1)%Z nc None; mkSinst (1, 1)%Z nc None; mkSinst (3, -1)%Z nc None]
  [0; 31; 31; 31; 31; 31;  0; 0; 31; 0; 0; 31;  0; 0; 0; 0; 0; 31;  0; 0; 0; 0; 31; 31;  0; 0; 0; 0; 0; 31;  0; 0; 0; 0; 0; 0]%N
  (mkPhy 3 [false; false; true; false]) [Some (mkPhy 1 [false; false]); Some (mkPhy 1 [false; false])].
Lemma loop_legal : legal_rule loop_rule.
Proof.
  constructor.
  - split; [reflexivity|]. intros k Hk. cbn in Hk. repeat (destruct Hk as [<-|Hk]; [vm_compute; discriminate|]). destruct Hk.
  - intros i s Es. unfold instance in Es. apply nth_error_In in Es. cbn in Es. unfold legal_group. destruct Es as [<-|[<-|[<-|[<-|[<-|[<-|[]]]]]]]; cbn [si_group].
    + right. left. exists 2. cbn. split; [lia|auto].
    + right. right. exists 0, 1. cbn. split; [lia|auto].
    + right. right. exists 0, 1. cbn. split; [lia|auto].
    + right. right. exists 1, 1. cbn. split; [lia|auto].
    + right. right. exists 1, 1. cbn. split; [lia|auto].
    + right. left. exists 3. cbn. split; [lia|auto].
  - cbn. lia.
  - intros ph [H|[H|[]]]; injection H as <-; cbn; lia.
Qed.
Lemma loop_tests : tests_ok loop_rule.
Proof.
  assert (G : forall i s, instance loop_rule i s -> si_if s = None /\ si_cond s = nc) by (intros i s Es; unfold instance in Es; apply nth_error_In in Es; cbn in Es; destruct Es as [<-|[<-|[<-|[<-|[<-|[<-|[]]]]]]]; auto).
  constructor.
  - intros i s b Es E. apply G in Es. destruct Es. congruence.
  - intros i s i' s' b Es _ E. apply G in Es. destruct Es. congruence.
  - intros i s o b Es _ Hb. apply G in Es. destruct Es as [_ E]. rewrite E in Hb. cbn [positive negative] in Hb. rewrite N.bits_0 in Hb. destruct Hb; discriminate.
Qed.
Lemma loop_deps j i : depends loop_rule j i -> In (j, i) [(0, 1); (0, 2); (0, 3); (0, 4); (0, 5); (1, 2); (1, 5); (2, 5); (3, 4); (3, 5); (4, 5)].
Proof. intros (k & Lj & Li & Ek & Nk). cbn in Lj, Li. do 6 (destruct j as [|j]; [do 6 (destruct i as [|i]; [cbn in Ek; injection Ek as <-; first [exfalso; apply Nk; reflexivity|cbn; tauto]|]); lia|]). lia. Qed.
Lemma before_at {X} (L : list X) a b x y : nth_error L a = Some x -> nth_error L b = Some y -> a < b -> before L x y.
Proof.
  intros Ea Eb L1. destruct (nth_error_split L a Ea) as (l1 & l2 & -> & <-). exists l1. rewrite nth_error_app2 in Eb by lia. destruct (b - length l1) as [|d] eqn:Ed; [lia|]. cbn [nth_error] in Eb. destruct (nth_error_split l2 d Eb) as (k1 & k2 & -> & _). now exists k1, k2.
Qed.
Definition good_tree : cto :=
  let nd a i g ph t := Node a (a - 1) i g ph 0 false Null t in
  nd 1 None (1, -1)%Z 1 (nd 2 (Some 0) (-2, -1)%Z 2 (nd 3 None (2, -1)%Z 2 (nd 4 (Some 1) (-1, 0)%Z 3 (nd 5 None (1, 0)%Z 3 (nd 6 (Some 2) (1, 0)%Z 3
    (nd 7 (Some 3) (-1, 1)%Z 3 (nd 8 None (1, 1)%Z 3 (nd 9 (Some 4) (1, 1)%Z 3 (nd 10 (Some 5) (3, -1)%Z 3 (nd 11 None (3, -1)%Z 3 Null)))))))))).
Definition good_run := [EndVisit 1; Compute 0; EndVisit 2; Compute 1; VisitChild 0 1; Compute 2; Compute 3; VisitChild 1 1; Compute 4; Compute 5; EndVisit 3].
Definition place (e : event) : nat := match e with Compute 0 => 1 | Compute 1 => 3 | Compute 2 => 5 | Compute 3 => 6 | Compute 4 => 8 | Compute _ => 9 | VisitChild 0 _ => 4 | VisitChild _ _ => 7 | EndVisit 1 => 0 | EndVisit 2 => 2 | EndVisit _ => 10 end.
Lemma good_place e : In e good_run -> nth_error good_run (place e) = Some e.
Proof. intros H. cbn in H. repeat (destruct H as [<-|H]; [reflexivity|]). destruct H. Qed.
Lemma good_before e e' : In e good_run -> In e' good_run -> (before good_run e e' <-> place e < place e').
Proof.
  intros H H'. split.
  - intros B. assert (Nd : NoDup good_run) by (repeat constructor; cbn; intuition discriminate). destruct (Nat.lt_trichotomy (place e) (place e')) as [L|[L|L]]; auto; exfalso.
    + apply good_place in H, H'. rewrite L in H. assert (e = e') by congruence. subst e'. exact (SchedOrder.before_antisym _ e e Nd B B).
    + apply (SchedOrder.before_antisym _ e e' Nd B). eapply before_at; eauto using good_place.
  - intros L. eapply before_at; eauto using good_place.
Qed.
Lemma loop_schedulable : schedulable loop_rule.
Proof.
  exists good_tree. intros o. assert (Er : run loop_rule o good_tree = good_run) by reflexivity. rewrite Er.
  assert (Hin : forall i, i < 6 -> In (Compute i) good_run) by (intros i L; do 6 (destruct i as [|i]; [cbn; tauto|]); lia).
  assert (Hinst : forall i s, instance loop_rule i s -> In (i, si_group s) [(0, (-2, -1)%Z); (1, (-1, 0)%Z); (2, (1, 0)%Z); (3, (-1, 1)%Z); (4, (1, 1)%Z); (5, (3, -1)%Z)]) by (intros i s Es; unfold instance in Es; do 6 (destruct i as [|i]; [injection Es as <-; cbn; tauto|]); destruct i; discriminate).
  constructor.
  - repeat constructor; cbn; intuition discriminate.
  - intros i. split.
    + intros H. cbn in H. repeat (destruct H as [H|H]; [first [discriminate H|injection H as <-; eexists; split; [reflexivity|apply nc_meets]]|]). destruct H.
    + intros (s & Es & _). apply Hin. apply (nth_error_Some (r_insts loop_rule) i). unfold instance in Es. congruence.
  - intros j i D _ _. apply loop_deps in D. assert (L : j < 6 /\ i < 6 /\ place (Compute j) < place (Compute i)) by (cbn in D; repeat (destruct D as [D|D]; [injection D as <- <-; cbn; lia|]); destruct D). apply good_before; try tauto; apply Hin; tauto.
  - reflexivity.
  - now exists (removelast good_run).
  - intros [|[|c]]; try reflexivity. unfold phases_of. cbn. destruct c; reflexivity.
  - intros i s p q Es Hi Hq G P1. apply Hinst in Es. assert (Hq' : In (EndVisit q) good_run) by (cbn in Hq; assert (q = 1 \/ q = 2 \/ q = 3) as [-> |[-> | -> ]] by lia; cbn; tauto). rewrite good_before by auto. cbn in Hq. assert (Q : q = 1 \/ q = 2 \/ q = 3) by lia. cbn [In] in Es.
    repeat (destruct Es as [Es|Es]; [injection Es as <- Es; rewrite <- Es in G; destruct G as [G|G]; injection G as G1; try lia; assert (p = 2 \/ p = 3) as [-> | ->] by lia; try lia; destruct Q as [-> |[-> | -> ]]; cbn; lia|]). destruct Es.
  - intros i s c p q Es Hi G P1 Hq. apply Hinst in Es. assert (Q : q = 1 /\ (c = 0 \/ c = 1)). { destruct c as [|[|c]]; unfold phases_of in Hq; cbn in Hq; try lia. destruct c; cbn in Hq; lia. } destruct Q as [-> Hc]. rewrite good_before by (auto; destruct Hc as [-> | ->]; cbn; tauto). cbn [In] in Es.
    repeat (destruct Es as [Es|Es]; [injection Es as <- Es; rewrite <- Es in G; injection G as G1 G2; try lia; destruct Hc as [-> | ->]; try lia; cbn; lia|]). destruct Es.
  - intros i s c p q Es Hi G P1 Hq. apply Hinst in Es. assert (Q : q = 1 /\ (c = 0 \/ c = 1)). { destruct c as [|[|c]]; unfold phases_of in Hq; cbn in Hq; try lia. destruct c; cbn in Hq; lia. } destruct Q as [-> Hc]. rewrite good_before by (auto; destruct Hc as [-> | ->]; cbn; tauto). cbn [In] in Es.
    repeat (destruct Es as [Es|Es]; [injection Es as <- Es; rewrite <- Es in G; injection G as G1 G2; try lia; destruct Hc as [-> | ->]; try lia; cbn; lia|]). destruct Es.
Qed.
Definition loop_graph : chunk_graph := Eval vm_compute in match collect_aug_graph_chunks PrimeModel.primes_init 4096 64 loop_rule with Ok cg => cg | _ => mkCG [] [] [] end.
Notation lsched := (sched PrimeModel.primes_init 4096 64 loop_rule loop_graph).
Definition step (self : scheduler) : scheduler := fun c prev cond ph st =>
  match c with
  | Group comp ck g => group_schedule loop_rule loop_graph self comp ck g prev cond ph st
  | LocalChunk comp ck g => local_chunk_schedule loop_rule loop_graph self comp ck g prev cond ph st
  | EndOfGroup comp ck g => schedule_transition_end_of_group loop_rule loop_graph self comp ck g prev cond ph st
  | ChunkSchedule comp => chunk_schedule PrimeModel.primes_init 4096 64 loop_rule loop_graph self comp prev cond ph st
  | ComponentSchedule comp => chunk_component_schedule loop_graph self comp prev cond ph st
  | VisitStart => schedule_visit_start loop_rule loop_graph self prev cond ph st
  | VisitEnd ck => schedule_visit_end loop_graph self ck prev cond ph st
  end.
(** The call c makes the call c', which has to return. *)
Definition stuck (N : nat) (c : call) (prev : nat) (cond : condition) (ph : nat) (st : sst) : Prop := forall f, f < N -> lsched f c prev cond ph st = Fuel.
Lemma stuck_step c' prev' cond' ph' st' c prev cond ph st N : (forall self : scheduler, self c' prev' cond' ph' st' = Fuel -> step self c prev cond ph st = Fuel) -> stuck N c' prev' cond' ph' st' -> stuck (S N) c prev cond ph st.
Proof. intros H S [|f] L; [reflexivity|]. change (step (lsched f) c prev cond ph st = Fuel). apply H. apply S. lia. Qed.
Lemma stuck_less N M c prev cond ph st : stuck N c prev cond ph st -> M <= N -> stuck M c prev cond ph st.
Proof. intros H L f Hf. apply H. lia. Qed.
Ltac follow := eapply stuck_step; [let H := fresh in intros self H; vm_compute; rewrite H; reflexivity|].
Lemma loop_stuck N : stuck N VisitStart 0 nc 1 (mkSst (repeat false 6) (repeat false 8) 0).
Proof.
  assert (L : forall N, stuck N (ComponentSchedule 2) 2 nc 2 (mkSst [true; false; false; false; false; false] [true; true; true; false; false; false; false; false] 2)).
  { clear. intros N. eapply stuck_less with (N := S N); [|lia]. follow.
    revert N. match goal with |- forall N, stuck N ?c ?a ?b ?d ?e => intros N; induction N as [|N IH]; [intros f Hf; lia|] end. eapply stuck_less with (N := S (S (S (S N)))); [|lia]. follow. follow. follow. follow. exact IH. }
  eapply stuck_less with (N := 13 + N); [|lia]. cbn [Nat.add]. do 13 follow. apply L.
Qed.
(** No amount of recursion is enough. *)
Theorem C62_refuted : exists ps base size r, PropsUtil.reachable_sieve ps /\ fits (chunk_count r) base size /\ legal_rule r /\ room r /\ tests_ok r /\ schedulable r /\ forall fuel, schedule_rule fuel ps base size r = Fuel.
Proof.
  exists PrimeModel.primes_init, 4096%Z, 64%Z, loop_rule. split; [apply PropsUtil.C02_example|]. split; [unfold fits; change (chunk_count loop_rule) with 8; lia|]. split; [apply loop_legal|]. split; [unfold room; change (chunk_count loop_rule) with 8; cbn; lia|]. split; [apply loop_tests|]. split; [apply loop_schedulable|].
  intros fuel. unfold schedule_rule. assert (E : collect_aug_graph_chunks PrimeModel.primes_init 4096 64 loop_rule = Ok loop_graph) by (vm_compute; reflexivity). rewrite E. cbn [bind]. change (length (r_insts loop_rule)) with 6. change (length (cg_chunks loop_graph)) with 8. rewrite (loop_stuck (S fuel)) by lia. reflexivity.
Qed.
Print Assumptions C62_refuted.
