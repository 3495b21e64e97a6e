(** * PropsSched2: C61 and C62, what the scheduler gets wrong. *)
From Coq Require Import Relations.
From Verif Require Import Base CondModel EdgeModel DncModel CycleModel OagModel PropsCond PropsComponent ChunkModel OrderModel SchedSpec ChunkProofs PropsChunk SchedProofs SchedOrder SchedTree SchedSane PropsSched.
From Verif Require PrimeModel PropsUtil.
Open Scope nat_scope.

Notation nc := (mkCond 0 0).
(** The rule can be scheduled: some tree is right whatever the outcomes. *)
Definition schedulable (r : rule) : Prop := exists t, forall o, right_order r o (run r o t).
Lemma nc_meets o : meets o nc.
Proof. intros b. cbn [positive negative]. rewrite N.bits_0. split; discriminate. Qed.

(** Two synthesized attributes of the same phase, the first of which depends on the second. *)
Definition order_rule : rule := mkRule [mkSinst (1, -1)%Z nc None; mkSinst (1, -1)%Z nc None] [0; 0; 31; 0]%N (mkPhy 1 [false; false]) [].
(** A local that depends on the synthesized attribute of the last phase. *)
Definition drop_rule : rule := mkRule [mkSinst (1, -1)%Z nc None; mkSinst (0, 0)%Z nc None] [0; 31; 0; 0]%N (mkPhy 1 [false; false]) [].
Definition two_first (a b : nat) (ga gb : group) : cto :=
  Node 1 0 (Some a) ga 1 1 false Null (Node 2 1 (Some b) gb 1 1 false Null (Node 3 2 None (1, -1)%Z 1 1 false Null Null)).

Lemma legal_two g k : (g = (1, -1)%Z \/ g = (0, 0)%Z) -> length k = 4 -> (forall x, In x k -> (x <= max_dependency)%N) -> legal_rule (mkRule [mkSinst (1, -1)%Z nc None; mkSinst g nc None] k (mkPhy 1 [false; false]) []).
Proof.
  intros Hg Lk Hk. constructor.
  - auto.
  - intros i s Es. unfold instance in Es. apply nth_error_In in Es. cbn in Es. destruct Es as [<-|[<-|[]]]; cbn [si_group].
    + right. left. exists 1. cbn. split; [lia|auto].
    + destruct Hg as [-> | ->]; [right; left; exists 1; cbn; split; [lia|auto]|now left].
  - cbn. lia.
  - intros ph [].
Qed.
Lemma tests_two g k : tests_ok (mkRule [mkSinst (1, -1)%Z nc None; mkSinst g nc None] k (mkPhy 1 [false; false]) []).
Proof.
  constructor.
  - intros i s b Es E. unfold instance in Es. apply nth_error_In in Es. cbn in Es. destruct Es as [<-|[<-|[]]]; discriminate.
  - intros i s i' s' b Es _ E. unfold instance in Es. apply nth_error_In in Es. cbn in Es. destruct Es as [<-|[<-|[]]]; discriminate.
  - intros i s o b Es _ Hb. unfold instance in Es. apply nth_error_In in Es. cbn in Es. exfalso. destruct Es as [<-|[<-|[]]]; cbn [si_cond positive negative] in Hb; rewrite N.bits_0 in Hb; destruct Hb; discriminate.
Qed.
Lemma two_right g k a b ga gb : (a = 0 /\ b = 1 \/ a = 1 /\ b = 0) -> (g = (1, -1)%Z \/ g = (0, 0)%Z) ->
  let r := mkRule [mkSinst (1, -1)%Z nc None; mkSinst g nc None] k (mkPhy 1 [false; false]) [] in
  (forall j i, depends r j i -> j = a /\ i = b) -> forall o, right_order r o (run r o (two_first a b ga gb)).
Proof.
  intros Hab Hg r Hd o. assert (Hw : forall i, wanted r o i <-> i < 2). { intros i. unfold wanted, instance. split; [intros (s & Es & _); apply (nth_error_Some (r_insts r) i); congruence|]. intros L. destruct i as [|[|i]]; [| |lia]; (eexists; split; [reflexivity|apply nc_meets]). }
  assert (Et : forall i, test_of r i = None) by (intros [|[|[|i]]]; reflexivity).
  assert (Er : run r o (two_first a b ga gb) = [Compute a; Compute b; EndVisit 1]) by (unfold two_first; cbn [run event_of]; rewrite !Et; reflexivity). rewrite Er.
  assert (Ne : a <> b) by lia. constructor.
  - repeat constructor; cbn; intuition congruence.
  - intros i. rewrite Hw. cbn. split; [intros [E|[E|[E|[]]]]; try discriminate; injection E; lia|]. intros L. assert (i = a \/ i = b) as [-> | ->] by lia; tauto.
  - intros j i D _ _. apply Hd in D. destruct D as [-> ->]. now exists [], [], [EndVisit 1].
  - reflexivity.
  - now exists [Compute a; Compute b].
  - intros c. unfold phases_of. cbn [r_children r]. destruct c; reflexivity.
  - intros i s p q Es Hi Hq G P1. assert (q = 1) by (cbn in Hq; lia). subst q. unfold instance in Es. apply nth_error_In in Es. cbn in Es. assert (Gs : si_group s = (1, -1)%Z \/ si_group s = (0, 0)%Z) by (destruct Es as [<-|[<-|[]]]; cbn [si_group]; auto). assert (p = 1). { destruct G as [G|G], Gs as [Gs|Gs]; rewrite Gs in G; injection G; lia. } subst p. split; [intros _|lia]. destruct Hi as [E|[E|[E|[]]]]; [| |discriminate]; injection E as <-; [now exists [], [Compute b], []|now exists [Compute a], [], []].
  - intros i s c p q _ _ _ _ H. unfold phases_of in H. cbn [r_children r] in H. destruct c; cbn in H; lia.
  - intros i s c p q _ _ _ _ H. unfold phases_of in H. cbn [r_children r] in H. destruct c; cbn in H; lia.
Qed.
Lemma order_deps j i : depends order_rule j i -> j = 1 /\ i = 0.
Proof. intros (k & Lj & Li & Ek & Nk). cbn in Lj, Li. destruct j as [|[|j]], i as [|[|i]]; try lia; injection Ek as <-; auto; exfalso; now apply Nk. Qed.
Lemma drop_deps j i : depends drop_rule j i -> j = 0 /\ i = 1.
Proof. intros (k & Lj & Li & Ek & Nk). cbn in Lj, Li. destruct j as [|[|j]], i as [|[|i]]; try lia; injection Ek as <-; auto; exfalso; now apply Nk. Qed.

(** The attributes of one phase are computed in the order of their numbers: here the first
    before the one it depends on.  All checks pass. *)
Theorem C61_refuted : exists ps base size r fuel t o, PropsUtil.reachable_sieve ps /\ fits (chunk_count r) base size /\ legal_rule r /\ room r /\ tests_ok r /\ schedulable r /\
  schedule_rule fuel ps base size r = Ok t /\ exists j i, depends r j i /\ wanted r o j /\ wanted r o i /\ before (run r o t) (Compute i) (Compute j) /\ ~ right_order r o (run r o t).
Proof.
  exists PrimeModel.primes_init, 4096%Z, 64%Z, order_rule, 100, (two_first 0 1 (1, -1)%Z (1, -1)%Z), (fun _ => true).
  assert (D : depends order_rule 1 0) by (exists 31%N; cbn; ands; auto; try lia; discriminate).
  assert (W : forall i, i < 2 -> wanted order_rule (fun _ => true) i) by (intros [|[|i]] L; try lia; (eexists; split; [reflexivity|apply nc_meets])).
  assert (Bf : before (run order_rule (fun _ => true) (two_first 0 1 (1, -1)%Z (1, -1)%Z)) (Compute 0) (Compute 1)) by (exists [], [], [EndVisit 1]; reflexivity).
  split; [apply PropsUtil.C02_example|]. split; [unfold fits; change (chunk_count order_rule) with 2; lia|]. split; [apply legal_two; auto; intros x Hx; cbn in Hx; intuition (subst; vm_compute; discriminate)|]. split; [unfold room; change (chunk_count order_rule) with 2; cbn; lia|]. split; [apply tests_two|]. split; [exists (two_first 1 0 (1, -1)%Z (1, -1)%Z); apply (two_right (1, -1)%Z _ 1 0); auto; apply order_deps|]. split; [vm_compute; reflexivity|].
  exists 1, 0. split; auto. split; [apply W; lia|]. split; [apply W; lia|]. split; auto. intros R. apply (before_antisym _ _ _ (ro_once _ _ _ R) Bf). apply (ro_needs _ _ _ R 1 0 D); apply W; lia.
Qed.
(** What depends on the node's last synthesized attributes is left out.  All checks pass. *)
Theorem C61_refuted_dropped : exists ps base size r fuel t o, PropsUtil.reachable_sieve ps /\ fits (chunk_count r) base size /\ legal_rule r /\ room r /\ tests_ok r /\ orderly r /\ schedulable r /\
  schedule_rule fuel ps base size r = Ok t /\ exists i, wanted r o i /\ ~ In (Compute i) (run r o t).
Proof.
  exists PrimeModel.primes_init, 4096%Z, 64%Z, drop_rule, 100, (Node 1 0 (Some 0) (1, -1)%Z 1 1 false Null (Node 2 1 None (1, -1)%Z 1 1 false Null Null)), (fun _ => true).
  split; [apply PropsUtil.C02_example|]. split; [unfold fits; change (chunk_count drop_rule) with 3; lia|]. split; [apply legal_two; auto; intros x Hx; cbn in Hx; intuition (subst; vm_compute; discriminate)|]. split; [unfold room; change (chunk_count drop_rule) with 3; cbn; lia|]. split; [apply tests_two|]. split.
  - assert (I0 : forall b, in_block drop_rule 0 b -> b = Synthesized 1) by (intros b H; apply (block_unique drop_rule 0 b (Synthesized 1) H); eexists; split; [reflexivity|split; [lia|reflexivity]]). assert (I1 : forall b, in_block drop_rule 1 b -> b = Single 1) by (intros b H; apply (block_unique drop_rule 1 b (Single 1) H); eexists; split; [reflexivity|split; reflexivity]).
    assert (P : forall b b', precedes drop_rule b b' -> (b = Synthesized 1 /\ b' = Single 1) \/ (b = Inherited 1 /\ b' = Synthesized 1)).
    { intros b b' [b1 b2 j i _ _ H1 H2 [D _]|c p q H1 H2 H3|p H|p H1 H2].
      - apply drop_deps in D. destruct D as [-> ->]. left. auto.
      - unfold phases_of in H3. cbn in H3. destruct c; cbn in H3; lia.
      - cbn in H. assert (p = 1) by lia. subst. auto.
      - cbn in H2. lia. }
    set (rk := fun b => match b with Inherited _ => 0 | Synthesized _ => 1 | _ => 2 end). assert (T : forall b b', clos_trans block (precedes drop_rule) b b' -> rk b < rk b') by (induction 1 as [b b' H|b c b' _ IH1 _ IH2]; [apply P in H; destruct H as [[-> ->]|[-> ->]]; cbn; lia|lia]).
    constructor.
    + intros b Hb. cbn in Hb. intuition.
    + intros b b' H1 H2. apply T in H1, H2. lia.
    + intros j i s s' [D _] Es Es' G. apply drop_deps in D. destruct D as [-> ->]. left. lia.
    + intros j i s s' p c [D _] Es Es' Hp G G'. apply drop_deps in D. destruct D as [-> ->]. injection Es as <-. injection Es' as <-. cbn [si_group] in *. injection G as G1 G2. injection G' as G3 G4. lia.
    + intros b p H. apply P in H. destruct H as [[_ H]|[_ H]]; discriminate.
  - split; [exists (two_first 0 1 (1, -1)%Z (0, 0)%Z); apply (two_right (0, 0)%Z _ 0 1); auto; apply drop_deps|]. split; [vm_compute; reflexivity|]. exists 1. split; [eexists; split; [reflexivity|apply nc_meets]|]. cbn. intuition discriminate.
Qed.
Print Assumptions C61_refuted.
Print Assumptions C61_refuted_dropped.
