(** * GenSched: the trees the scheduler makes. *)
From Verif Require Import Base CondModel OagModel PropsCond ChunkModel SchedSpec ChunkProofs GenModel GenSpec GenProofs GenTrace.
Open Scope nat_scope.

Section Good.
Variables (ps : PrimeModel.primes) (base size : Z) (r : rule) (cg : chunk_graph).
Hypothesis (HO : own_tests r) (HL : local_tests r).

Lemma set_inst_Ok st i b st' : set_inst st i b = Ok st' -> i < length (s_inst st) /\ s_inst st' = upd (s_inst st) i b.
Proof. unfold set_inst, wr. destruct (i <? length (s_inst st)) eqn:E; [|discriminate]. intros [= <-]. apply Nat.ltb_lt in E. auto. Qed.
Lemma set_chunk_Ok st i b st' : set_chunk st i b = Ok st' -> s_inst st' = s_inst st.
Proof. unfold set_chunk, wr. destruct (i <? length (s_chunk st)) eqn:E; [|discriminate]. now intros [= <-]. Qed.
Lemma next_instance_Ok l g st : forall i, next_instance r l g st = Ok (Some i) -> exists s, instance r i s /\ si_group s = g /\ nth_error (s_inst st) i = Some false.
Proof.
  unfold next_instance. set (P := fun found => forall i, found = Some i -> exists s, instance r i s /\ si_group s = g /\ nth_error (s_inst st) i = Some false).
  assert (K : forall l f f', P f -> foldM (fun found i => match found with Some _ => Ok found | None => s <- rd (r_insts r) i ;; b <- rd (s_inst st) i ;; Ok (if negb b && group_eqb (si_group s) g then Some i else None) end) l f = Ok f' -> P f').
  { induction l0 as [|x l0 IH]; cbn [foldM]; intros f f' Hf H; [injection H as <-; auto|]. destruct f as [y|]; cbn [bind] in H; [now apply (IH (Some y))|]. unfold rd in H. destruct (nth_error (r_insts r) x) as [s|] eqn:E1; [|discriminate]. cbn [bind] in H. destruct (nth_error (s_inst st) x) as [b|] eqn:E2; [|discriminate]. cbn [bind] in H. eapply IH; [|exact H].
    intros i Hi. destruct b; cbn in Hi; [discriminate|]. destruct (group_eqb (si_group s) g) eqn:E; [|discriminate]. injection Hi as <-. apply group_eqb_spec in E. eauto. }
  intros i H. apply (K l None (Some i)); auto. intros ? [=].
Qed.
Definition known (cond : condition) (l : list bool) : Prop := forall k, bit_in cond k = true -> exists i s, instance r i s /\ si_if s = Some k /\ nth_error l i = Some true.
Lemma bit_yes c k k' : bit_in (yes_cond c k) k' = bit_in c k' || (k' =? k).
Proof. unfold bit_in, yes_cond. cbn [positive negative]. rewrite N.lor_spec, testbit_mask. replace (N.of_nat k' =? N.of_nat k)%N with (k' =? k) by (destruct (Nat.eqb_spec k' k), (N.eqb_spec (N.of_nat k') (N.of_nat k)); auto; lia). destruct (N.testbit (positive c) (N.of_nat k')), (N.testbit (negative c) (N.of_nat k')), (k' =? k); reflexivity. Qed.
Lemma bit_no c k k' : bit_in (no_cond c k) k' = bit_in c k' || (k' =? k).
Proof. unfold bit_in, no_cond. cbn [positive negative]. rewrite N.lor_spec, testbit_mask. replace (N.of_nat k' =? N.of_nat k)%N with (k' =? k) by (destruct (Nat.eqb_spec k' k), (N.eqb_spec (N.of_nat k') (N.of_nat k)); auto; lia). destruct (N.testbit (positive c) (N.of_nat k')), (N.testbit (negative c) (N.of_nat k')), (k' =? k); reflexivity. Qed.
Lemma known_upd c l i : known c l -> known c (upd l i true).
Proof. intros H k Hk. destruct (H k Hk) as (j & s & A & B & C). exists j, s. split; [auto|]. split; [auto|]. destruct (Nat.eq_dec i j) as [->|Hn]; [apply nth_error_upd_eq; apply nth_error_Some; congruence|rewrite nth_error_upd_neq; auto]. Qed.
Lemma known_more c c' l i s k : (forall k', bit_in c' k' = bit_in c k' || (k' =? k)) -> i < length l -> instance r i s -> si_if s = Some k -> known c l -> known c' (upd l i true).
Proof. intros Hb Hl Hi Hs H k' Hk. rewrite Hb in Hk. apply orb_true_iff in Hk. destruct Hk as [Hk|Hk]; [now apply (known_upd c l i H)|]. apply Nat.eqb_eq in Hk. subst k'. exists i, s. split; [auto|]. split; [auto|]. now apply nth_error_upd_eq. Qed.
Lemma restored l i : nth_error l i = Some false -> upd (upd l i true) i false = l.
Proof. intros H. rewrite upd_upd. now apply upd_same. Qed.

Ltac chop E := lazymatch type of E with bind ?x _ = _ => let E2 := fresh E in destruct x as [?a| | |] eqn:E2; cbn [bind] in E; try discriminate E end.
Lemma sched_good : forall fuel c prev cond ph st st' t, sched ps base size r cg fuel c prev cond ph st = Ok (st', t) ->
  (c <> VisitStart -> ph <= last_phase r) -> known cond (s_inst st) -> s_inst st' = s_inst st /\ good r cond ph t.
Proof.
  induction fuel as [|f IH]; intros c prev cond ph st st' t H Hp Hk; [discriminate|]. cbn [sched] in H. destruct c as [comp ck g|comp ck g|comp ck g|comp|comp| |ck].
  - assert (Hp' : ph <= last_phase r) by (apply Hp; discriminate). unfold group_schedule in H. destruct (impossible cond); [now apply (IH _ _ _ _ _ _ _ H)|]. chop H. chop H. destruct a0 as [i|].
    + cbn [new_node] in H. chop H. chop H. chop H. chop H. destruct (group_is_local (si_group a3)) eqn:El; [discriminate|]. chop H. destruct a4 as [st1 t1]. chop H. chop H. injection H as <- <-.
      destruct (next_instance_Ok _ _ _ _ H1) as (s & Hs & Hg & Hf). apply set_inst_Ok in H2. destruct H2 as [L1 S1]. cbn [s_inst] in *. apply set_chunk_Ok in H4. apply set_chunk_Ok in H7. apply set_inst_Ok in H8. destruct H8 as [L2 S2].
      unfold rd in H5. unfold instance in Hs. rewrite Hs in H5. injection H5 as <-. assert (K2 : known cond (s_inst a2)) by (rewrite H4, S1; now apply known_upd).
      assert (Q : s_inst st1 = s_inst a2 /\ good r cond ph t1).
      { destruct (impossible (merge_cond cond (si_cond s))) eqn:Ei; [now apply (IH _ _ _ _ _ _ _ H6)|]. chop H6. destruct a3 as [st2 t2]. injection H6 as <- <-. destruct (IH _ _ _ _ _ _ _ H2 (fun _ => Hp') K2) as [Q1 Q2]. split; auto. rewrite <- Hg. apply gd_plain; auto. destruct (si_if s) as [k|] eqn:Ek; auto. rewrite (HL _ _ _ Hs Ek) in El. discriminate. }
      destruct Q as [Q1 Q2]. split; [|auto]. rewrite S2, H7, Q1, H4, S1. now apply restored.
    + chop H. chop H. destruct a1 as [st1 t1]. chop H. injection H as <- <-. apply set_chunk_Ok in H2. apply set_chunk_Ok in H4. destruct (IH _ _ _ _ _ _ _ H3 (fun _ => Hp')) as [Q1 Q2]; [now rewrite H2|]. split; [congruence|auto].
  - assert (Hp' : ph <= last_phase r) by (apply Hp; discriminate). unfold local_chunk_schedule in H. destruct (impossible cond); [now apply (IH _ _ _ _ _ _ _ H)|]. chop H. chop H. destruct a0 as [i|]; [|now apply (IH _ _ _ _ _ _ _ H)].
    cbn [new_node] in H. chop H. chop H. chop H. chop H. destruct (negb (group_is_local (si_group a3))) eqn:El; [discriminate|]. chop H. destruct a4 as [st1 t1]. chop H. chop H. injection H as <- <-.
    destruct (next_instance_Ok _ _ _ _ H1) as (s & Hs & Hg & Hf). apply set_inst_Ok in H2. destruct H2 as [L1 S1]. cbn [s_inst] in *. apply set_chunk_Ok in H4. apply set_chunk_Ok in H7. apply set_inst_Ok in H8. destruct H8 as [L2 S2].
    unfold rd in H5. unfold instance in Hs. rewrite Hs in H5. injection H5 as <-. assert (K2 : known cond (s_inst a2)) by (rewrite H4, S1; now apply known_upd).
    assert (Q : s_inst st1 = s_inst a2 /\ good r cond ph t1).
    { destruct (impossible (merge_cond cond (si_cond s))) eqn:Ei; [now apply (IH _ _ _ _ _ _ _ H6)|]. destruct (si_if s) as [k|] eqn:Ek.
      - assert (Hb : bit_in cond k = false). { destruct (bit_in cond k) eqn:Hb; [|reflexivity]. destruct (Hk k Hb) as (j & s' & A & B & C). assert (i = j) by exact (HO _ _ _ _ _ Hs A Ek B). subst j. congruence. }
        fold (mask k) in H6. chop H6. destruct a3 as [st2 t2]. chop H6. destruct a3 as [st3 t3]. injection H6 as <- <-. unfold bit_in in Hb. apply orb_false_iff in Hb. destruct Hb as [Hb1 Hb2]. rewrite unmask in H5 by auto.
        destruct (IH _ _ _ _ _ _ _ H2 (fun _ => Hp')) as [Q1 Q2]; [rewrite H4, S1; apply (known_more cond _ _ i s k (bit_yes cond k)); auto|].
        destruct (IH _ _ _ _ _ _ _ H5 (fun _ => Hp')) as [Q3 Q4]; [rewrite Q1, H4, S1; apply (known_more cond _ _ i s k (bit_no cond k)); auto|]. split; [congruence|]. rewrite <- Hg. apply (gd_test r cond ph _ _ i s k); auto. unfold bit_in. now rewrite Hb1, Hb2.
      - chop H6. destruct a3 as [st2 t2]. injection H6 as <- <-. destruct (IH _ _ _ _ _ _ _ H2 (fun _ => Hp') K2) as [Q1 Q2]. split; auto. rewrite <- Hg. apply gd_plain; auto. }
    destruct Q as [Q1 Q2]. split; [|auto]. rewrite S2, H7, Q1, H4, S1. now apply restored.
  - assert (Hp' : ph <= last_phase r) by (apply Hp; discriminate). unfold schedule_transition_end_of_group in H. destruct (Z.ltb (fst g) 0 && negb (Z.eqb (snd g) (-1))) eqn:E1.
    + chop H. cbn [new_node] in H. destruct (Z.ltb (snd g) 0) eqn:E2; [discriminate|]. chop H. chop H. destruct a1 as [st1 t1]. injection H as <- <-. destruct (IH _ _ _ _ _ _ _ H2 (fun _ => Hp') Hk) as [Q1 Q2]. split; [auto|]. apply gd_child; auto. now apply Z.ltb_ge.
    + destruct (Z.ltb 0 (fst g) && Z.eqb (snd g) (-1)) eqn:E2; [|now apply (IH _ _ _ _ _ _ _ H)]. chop H. cbn [new_node] in H. chop H. destruct a0 as [st1 t1]. injection H as <- <-. destruct (IH _ _ _ _ _ _ _ H1) as [Q1 Q2]; [intros X; now contradiction X|exact Hk|]. split; [auto|]. apply andb_true_iff in E2. destruct E2 as [_ E2]. apply Z.eqb_eq in E2. destruct g as [gq gc]. cbn in E2. subst gc. now apply gd_own.
  - assert (Hp' : ph <= last_phase r) by (apply Hp; discriminate). unfold chunk_schedule in H. chop H. chop H. destruct (max_rank a0); [|now apply (IH _ _ _ _ _ _ _ H)]. chop H. unfold group_schedule_chunk in H. chop H. destruct (c_type a2); now apply (IH _ _ _ _ _ _ _ H).
  - assert (Hp' : ph <= last_phase r) by (apply Hp; discriminate). unfold chunk_component_schedule in H. chop H. destruct (max_rank a); [|discriminate]. now apply (IH _ _ _ _ _ _ _ H).
  - unfold schedule_visit_start in H. destruct (max_phase (r_parent r) <? ph) eqn:E; [injection H as <- <-; split; auto; apply gd_null; now apply Nat.ltb_lt|]. apply Nat.ltb_ge in E. destruct (find_chunk cg HalfLeft ph (-1)); [|discriminate]. chop H. now apply (IH _ _ _ _ _ _ _ H).
  - assert (Hp' : ph <= last_phase r) by (apply Hp; discriminate). unfold schedule_visit_end in H. chop H. cbn [new_node] in H. chop H. destruct a0 as [st1 t1]. injection H as <- <-. destruct (IH _ _ _ _ _ _ _ H1) as [Q1 Q2]; [intros X; now contradiction X|exact Hk|]. split; [auto|]. now apply gd_own.
Qed.
End Good.
