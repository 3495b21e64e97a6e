(** * PropsSched: C61, C62 (the static scheduler). *)
From Coq Require Import Relations.
From Verif Require Import Base CondModel EdgeModel DncModel CycleModel OagModel PropsCond PropsComponent ChunkModel OrderModel SchedSpec ChunkProofs PropsChunk SchedProofs SchedOrder SchedTree SchedSane.
From Verif Require PrimeModel PropsUtil.
Open Scope nat_scope.

(** ** C61: a rule without cycles is scheduled, and whatever the outcomes of the tests the
    order is right; with the checks switched on they pass. *)
Theorem C61_order_partial : forall ps base size r, PropsUtil.reachable_sieve ps -> fits (chunk_count r) base size ->
  legal_rule r -> room r -> 1 <= last_phase r -> tests_ok r -> orderly r -> nothing_after r ->
  exists fuel t, (forall more, fuel <= more -> schedule_rule more ps base size r = Ok t) /\ forall o, right_order r o (run r o t).
Proof.
  intros ps base size r Hps Hf Hl Hr Hp Ht Ho Ha. destruct (chunk_graph_ok r Hl ps base size Hps Hr Hf) as (g & comps & E & T & Hg & _ & R).
  destruct (sched_plan r ps base size g comps Hl Ht T Hg R Ho Ha Hp) as (L & (F & Y) & N1 & N2 & N3 & N4). fold (items_of r L) in Y.
  exists F, (snd (build r (items_of r L) (mkCond 0 0) 0 0)). split; [|intros o; now apply built_right]. intros more Hm. unfold schedule_rule. rewrite E. cbn [bind cg_chunks].
  rewrite (Y more 0 (mkCond 0 0) 0 Hm) by (apply start_fresh; auto). pose proof (built_not_null r Ht Hl L Ho N1 N2 N3 N4 0 0) as Nn. pose proof (built_passes r Ht Hl L Ho N1 N2 N3 N4 (mkCG (chunk_list r) g comps) 0) as Hpass. destruct (build r (items_of r L) (mkCond 0 0) 0 0) as [c t]. cbn [snd bind] in *. rewrite Hpass. cbn [bind]. destruct t; [congruence|reflexivity].
Qed.
Print Assumptions C61_order_partial.

(** ** Example: small_rule of PropsChunk *)
Definition srank (b : block) : nat := match b with Inherited _ => 0 | Single _ => 1 | ChildVisit _ _ => 2 | Synthesized _ => 3 end.
Lemma small_inst i s : instance small_rule i s -> In (i, s) [(0, mkSinst (-1, -1)%Z (mkCond 0 0) None); (1, mkSinst (1, -1)%Z (mkCond 0 0) None); (2, mkSinst (0, 0)%Z (mkCond 0 0) (Some 0)); (3, mkSinst (-1, 0)%Z (mkCond 1 0) None); (4, mkSinst (1, 0)%Z (mkCond 0 0) None)].
Proof. unfold instance. intros H. do 5 (destruct i as [|i]; [injection H as <-; cbn; tauto|]). destruct i; discriminate. Qed.
Lemma small_deps j i : depends small_rule j i -> In (j, i) [(0, 2); (2, 3); (3, 4); (4, 1)].
Proof. intros (k & Lj & Li & Ek & Nk). cbn in Lj, Li. do 5 (destruct j as [|j]; [do 5 (destruct i as [|i]; [cbn in Ek; injection Ek as <-; try (exfalso; apply Nk; reflexivity); cbn; tauto|]); lia|]). lia. Qed.
Lemma small_block i b : in_block small_rule i b -> is_block small_rule b -> In (i, b) [(0, Inherited 1); (1, Synthesized 1); (2, Single 2); (3, ChildVisit 0 1); (4, ChildVisit 0 1)].
Proof.
  intros H Hb. pose proof H as (s & Es & _). pose proof (small_inst i s Es) as Hs.
  assert (G : forall b', in_block small_rule i b' -> b = b') by (intros; eapply block_unique; eauto).
  cbn [In] in Hs. repeat (destruct Hs as [Hs|Hs]; [injection Hs as <- <-; first
    [rewrite (G (Inherited 1)) by (eexists; split; [exact Es|split; [lia|reflexivity]]); cbn; tauto
    |rewrite (G (Synthesized 1)) by (eexists; split; [exact Es|split; [lia|reflexivity]]); cbn; tauto
    |rewrite (G (Single 2)) by (eexists; split; [exact Es|split; reflexivity]); cbn; tauto
    |rewrite (G (ChildVisit 0 1)) by (eexists; split; [exact Es|split; [lia|first [left; reflexivity|right; reflexivity]]]); cbn; tauto]|]). destruct Hs.
Qed.
Lemma small_phases c : phases_of small_rule c <= 1.
Proof. unfold phases_of. destruct c as [|[|c]]; cbn; lia. Qed.
Lemma small_precedes b b' : precedes small_rule b b' -> b = b' \/ In (b, b') [(Inherited 1, Single 2); (Single 2, ChildVisit 0 1); (ChildVisit 0 1, Synthesized 1); (Inherited 1, Synthesized 1)].
Proof.
  intros [b1 b2 j i B1 B2 I1 I2 [D _]|c p q H1 H2 H3|p H|p H1 H2].
  - apply small_deps in D. pose proof (small_block j b1 I1 B1) as X1. pose proof (small_block i b2 I2 B2) as X2. cbn [In] in *. repeat (destruct D as [D|D]; [injection D as <- <-; repeat (destruct X1 as [X1|X1]; [try discriminate; injection X1 as <-; repeat (destruct X2 as [X2|X2]; [try discriminate; injection X2 as <-; tauto|]); tauto|]); tauto|]). tauto.
  - pose proof (small_phases c). lia.
  - cbn in H. assert (p = 1) by lia. subst. right. cbn. tauto.
  - cbn in H2. lia.
Qed.
Lemma small_tests : tests_ok small_rule.
Proof.
  constructor.
  - intros i s b Es E. apply small_inst in Es. cbn [In] in Es. repeat (destruct Es as [Es|Es]; [injection Es as <- <-; try discriminate; reflexivity|]). destruct Es.
  - intros i s i' s' b Es Es' E E'. apply small_inst in Es, Es'. cbn [In] in *. repeat (destruct Es as [Es|Es]; [injection Es as <- <-; try discriminate; repeat (destruct Es' as [Es'|Es']; [injection Es' as <- <-; try discriminate; reflexivity|]); destruct Es'|]). destruct Es.
  - intros i s o b Es M Hb. pose proof (small_inst i s Es) as Hs. cbn [In] in Hs. repeat (destruct Hs as [Hs|Hs]; [injection Hs as <- <-; cbn [si_cond positive negative] in Hb; rewrite ?N.bits_0 in Hb; try (destruct Hb; discriminate)|]); [|destruct Hs].
    destruct Hb as [Hb|Hb]; [|rewrite ?N.bits_0 in Hb; discriminate]. assert (b = 0%N) by (destruct b; [auto|discriminate]). subst b. exists 2, (mkSinst (0, 0)%Z (mkCond 0 0) (Some 0)), 0. ands; try reflexivity.
    + intros x. cbn [si_cond positive negative]. rewrite !N.bits_0. split; discriminate.
    + exists 31%N. cbn. ands; auto; try lia. discriminate.
Qed.
Lemma small_orderly : orderly small_rule.
Proof.
  assert (P : forall b b', precedes small_rule b b' -> b = b' \/ srank b < srank b'). { intros b b' H. apply small_precedes in H. destruct H as [H|H]; auto. right. cbn [In] in H. repeat (destruct H as [H|H]; [injection H as <- <-; cbn; lia|]). destruct H. }
  assert (T : forall b b', clos_trans block (precedes small_rule) b b' -> b = b' \/ srank b < srank b'). { induction 1 as [b b' H|b c b' _ IH1 _ IH2]; [auto|]. destruct IH1 as [->|L1], IH2 as [->|L2]; auto. right. lia. }
  constructor.
  - intros b Hb. cbn in Hb. intuition.
  - intros b b' H1 H2. apply T in H1, H2. destruct H1 as [|H1], H2 as [|H2]; auto. lia.
  - intros j i s s' [D _] Es Es' G. apply small_deps in D. apply small_inst in Es, Es'. cbn [In] in *. left. repeat (destruct D as [D|D]; [injection D as <- <-; first [lia|exfalso; repeat (destruct Es as [Es|Es]; [try discriminate; injection Es as <-; repeat (destruct Es' as [Es'|Es']; [try discriminate; injection Es' as <-; discriminate|]); tauto|]); tauto]|]). tauto.
  - intros j i s s' p c [D _] Es Es' Hp G G'. apply small_deps in D. apply small_inst in Es, Es'. cbn [In] in *. repeat (destruct D as [D|D]; [injection D as <- <-; repeat (destruct Es as [Es|Es]; [try discriminate; injection Es as <-; cbn [si_group] in G; repeat (destruct Es' as [Es'|Es']; [try discriminate; injection Es' as <-; cbn [si_group] in G'; injection G as G1 G2; injection G' as G3 G4; lia|]); tauto|]); tauto|]). tauto.
  - intros b p H. left. apply small_precedes in H. destruct H as [|H]; auto. cbn [In] in H. repeat (destruct H as [H|H]; [discriminate|]). destruct H.
Qed.
Lemma small_after : nothing_after small_rule.
Proof. intros b H. apply small_precedes in H. destruct H as [|H]; auto. cbn [In] in H. repeat (destruct H as [H|H]; [discriminate|]). destruct H. Qed.
Example C61_example : PropsUtil.reachable_sieve PrimeModel.primes_init /\ fits (chunk_count small_rule) 4096 64 /\ legal_rule small_rule /\ room small_rule /\ 1 <= last_phase small_rule /\ tests_ok small_rule /\ orderly small_rule /\ nothing_after small_rule.
Proof.
  destruct C59_example as (H1 & H2 & H3 & H4). ands; auto; [apply small_tests|apply small_orderly|apply small_after].
Qed.
