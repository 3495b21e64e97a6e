(** * GenCirc: the circular nodes of a total order. *)
From Verif Require Import Base CondModel OagModel PropsCond ChunkModel SchedSpec ChunkProofs GenModel GenSpec GenProofs GenTrace GenSched.
Open Scope nat_scope.
Ltac chop E := lazymatch type of E with bind ?x _ = _ => let E2 := fresh E in destruct x as [?a| | |] eqn:E2; cbn [bind] in E; try discriminate E end.

Section Chunks.
Variable r : rule.
Definition chunk_ok (k : chunk) : Prop :=
  match c_type k with
  | HalfLeft | HalfRight => nth_error (cyclic_flags (r_parent r)) (c_ph k) = Some (c_circular k)
  | Visit => 1 <= c_ph k /\ exists c ph, c_ch k = Z.of_nat c /\ nth_error (r_children r) c = Some (Some ph) /\ nth_error (cyclic_flags ph) (c_ph k) = Some (c_circular k)
  | Local => c_ph k = 0 /\ c_ch k = 0%Z /\ exists i, c_insts k = [i] /\ instance_in_aug_cycle r i = Ok (c_circular k)
  end.
Lemma push_ok n l k l' : push_chunk n l k = Ok l' -> Forall chunk_ok l -> chunk_ok k -> Forall chunk_ok l'.
Proof. unfold push_chunk. destruct (length l <? n * 10); [|discriminate]. intros [= <-] H1 H2. apply Forall_app. auto. Qed.
Lemma fold_ok {X} (f : list chunk -> X -> res (list chunk)) : (forall l x l', f l x = Ok l' -> Forall chunk_ok l -> Forall chunk_ok l') -> forall xs l l', foldM f xs l = Ok l' -> Forall chunk_ok l -> Forall chunk_ok l'.
Proof. intros Hf. induction xs as [|x xs IH]; cbn [foldM]; intros l l' H Hl; [injection H as <-; auto|]. chop H. eapply IH; eauto. Qed.
Lemma collect_ok l : collect_chunks r = Ok l -> Forall chunk_ok l.
Proof.
  unfold collect_chunks. intros H. chop H. chop H.
  refine (fold_ok (local_chunk r) _ _ _ _ H (fold_ok (visit_chunks r) _ _ _ _ H1 _)).
  - intros l0 i l' E Hl. unfold local_chunk in E. chop E. destruct (group_is_local (si_group a1)); [|injection E as <-; auto]. chop E. eapply push_ok; [exact E|auto|]. cbn. split; auto. split; auto. exists i. auto.
  - intros l0 c l' E Hl. unfold visit_chunks in E. chop E. destruct a1 as [ph|]; [|injection E as <-; auto]. unfold rd in E0. destruct (nth_error (r_children r) c) as [x|] eqn:Ec; [|discriminate]. injection E0 as ->.
    assert (K : forall ps l0 l', (forall p, In p ps -> 1 <= p) -> foldM (fun chunks p => circ <- rd (cyclic_flags ph) p ;; push_chunk (length (r_insts r)) chunks (mkChunk Visit p (Z.of_nat c) circ (members r (fun g => Z.eqb (Z.abs (fst g)) (Z.of_nat p) && Z.eqb (snd g) (Z.of_nat c))))) ps l0 = Ok l' -> Forall chunk_ok l0 -> Forall chunk_ok l').
    { intros ps. induction ps as [|p ps IH]; cbn [foldM]; intros l1 l2 Hp H2 Hl2; [injection H2 as <-; auto|]. chop H2. apply (IH a1 l2); [intros; apply Hp; now right|exact H2|]. chop H3. eapply push_ok; [exact H3|auto|]. cbn. split; [apply Hp; now left|]. exists c, ph. split; auto. split; auto. unfold rd in H4. destruct (nth_error (cyclic_flags ph) p) as [y|]; [|discriminate]. now injection H4 as ->. }
    refine (K _ _ _ _ E Hl). intros p Hp. apply in_seq in Hp. lia.
  - refine (fold_ok (half_chunks r) _ _ _ _ H0 (Forall_nil _)). intros l0 p l' E Hl. unfold half_chunks in E. chop E. chop E. unfold rd in E0. destruct (nth_error (cyclic_flags (r_parent r)) p) as [y|] eqn:Ey; [|discriminate]. injection E0 as ->. eapply push_ok; [exact E|eapply push_ok; [exact E1|auto|exact Ey]|exact Ey].
Qed.
End Chunks.

Section Nodes.
Variables (ps : PrimeModel.primes) (base size : Z) (r : rule) (cg : chunk_graph).
Hypothesis (HO : own_tests r) (HL : local_tests r) (HC : Forall (chunk_ok r) (cg_chunks cg)).
Definition fits_chunk (k : chunk) (g : group) : Prop :=
  match c_type k with HalfLeft | HalfRight => snd g = (-1)%Z | Visit => snd g = c_ch k /\ Z.abs (fst g) = Z.of_nat (c_ph k) | Local => g = (0, 0)%Z end.
Definition node_ok (n : option nat * group * nat * nat * bool) : Prop :=
  let '(inst, g, _, ck, circ) := n in exists k, nth_error (cg_chunks cg) ck = Some k /\ circ = c_circular k /\ fits_chunk k g /\
  match inst with
  | Some i => exists s, instance r i s /\ si_group s = g /\ (c_type k = Local -> In i (c_insts k))
  | None => c_type k <> Local /\ (c_type k = Visit -> (0 <= fst g)%Z)
  end.
Definition call_ok (c : call) : Prop :=
  match c with
  | Group _ ck g => exists k, nth_error (cg_chunks cg) ck = Some k /\ fits_chunk k g /\ c_type k <> Local
  | EndOfGroup _ ck g => exists k, nth_error (cg_chunks cg) ck = Some k /\ fits_chunk k g
  | LocalChunk _ ck g => exists k, nth_error (cg_chunks cg) ck = Some k /\ fits_chunk k g /\ c_type k = Local
  | VisitEnd _ => False
  | _ => True
  end.
Lemma next_instance_In l g st i : next_instance r l g st = Ok (Some i) -> In i l.
Proof.
  unfold next_instance. assert (K : forall l f f', foldM (fun found i => match found with Some _ => Ok found | None => s <- rd (r_insts r) i ;; b <- rd (s_inst st) i ;; Ok (if negb b && group_eqb (si_group s) g then Some i else None) end) l f = Ok f' -> f' = f \/ exists j, f' = Some j /\ In j l).
  { induction l0 as [|x l0 IH]; cbn [foldM]; intros f f' H; [injection H as <-; auto|]. chop H. destruct (IH _ _ H) as [-> | (j & E & Hj)]; [|right; exists j; split; auto; now right]. destruct f as [y|]; [injection H0 as <-; auto|]. chop H0. chop H0. injection H0 as <-. destruct (negb a1 && group_eqb (si_group a0) g); [right; exists x; split; auto; now left|auto]. }
  intros H. destruct (K _ _ _ H) as [E|(j & E & Hj)]; [discriminate|]. now injection E as ->.
Qed.
Lemma possible_yes c k : impossible c = false -> bit_in c k = false -> impossible (yes_cond c k) = false.
Proof.
  unfold impossible, bit_in, yes_cond. cbn [positive negative]. intros H Hb. apply orb_false_iff in Hb. destruct Hb as [_ Hb]. apply negb_false_iff, N.eqb_eq in H. apply negb_false_iff, N.eqb_eq. apply N.bits_inj_0. intros b. rewrite N.land_spec, N.lor_spec, testbit_mask. pose proof (f_equal (fun x => N.testbit x b) H) as Hx. cbn beta in Hx. rewrite N.land_spec, N.bits_0 in Hx. destruct (N.eqb_spec b (N.of_nat k)) as [->|]; [rewrite Hb; now rewrite andb_false_r|now rewrite orb_false_r].
Qed.
Lemma possible_no c k : impossible c = false -> bit_in c k = false -> impossible (no_cond c k) = false.
Proof.
  unfold impossible, bit_in, no_cond. cbn [positive negative]. intros H Hb. apply orb_false_iff in Hb. destruct Hb as [Hb _]. apply negb_false_iff, N.eqb_eq in H. apply negb_false_iff, N.eqb_eq. apply N.bits_inj_0. intros b. rewrite N.land_spec, N.lor_spec, testbit_mask. pose proof (f_equal (fun x => N.testbit x b) H) as Hx. cbn beta in Hx. rewrite N.land_spec, N.bits_0 in Hx. destruct (N.eqb_spec b (N.of_nat k)) as [->|]; [now rewrite Hb|now rewrite orb_false_r].
Qed.
Lemma sched_nodes : forall fuel c prev cond ph st st' t, sched ps base size r cg fuel c prev cond ph st = Ok (st', t) ->
  (c <> VisitStart -> ph <= last_phase r) -> known r cond (s_inst st) -> impossible cond = false -> call_ok c -> Forall node_ok (nodes t).
Proof.
  induction fuel as [|f IH]; intros c prev cond ph st st' t H Hp Hk Hi Hc; [discriminate|]. cbn [sched] in H. destruct c as [comp ck g|comp ck g|comp ck g|comp|comp| |ck].
  - assert (Hp' : ph <= last_phase r) by (apply Hp; discriminate). unfold group_schedule in H. rewrite Hi in H. chop H. chop H. destruct Hc as (k & Hc1 & Hc2 & Hc3). unfold rd in H0. rewrite Hc1 in H0. injection H0 as <-. destruct a0 as [i|].
    + cbn [new_node] in H. chop H. chop H. chop H. chop H. destruct (group_is_local (si_group a2)) eqn:El; [discriminate|]. chop H. destruct a3 as [st1 t1]. chop H. chop H. injection H as <- <-.
      destruct (next_instance_Ok _ _ _ _ _ H1) as (s & Hs & Hg & Hf). apply set_inst_Ok in H0. destruct H0 as [L1 S1]. cbn [s_inst] in *. apply set_chunk_Ok in H3.
      unfold rd in H4. unfold instance in Hs. rewrite Hs in H4. injection H4 as <-. assert (K2 : known r cond (s_inst a1)) by (rewrite H3, S1; now apply known_upd).
      assert (C : call_ok (Group comp ck g)) by (exists k; auto).
      destruct (impossible (merge_cond cond (si_cond s))); [now apply (IH _ _ _ _ _ _ _ H5)|]. chop H5. destruct a2 as [st2 t2]. injection H5 as <- <-. cbn [nodes app]. constructor; [|now apply (IH _ _ _ _ _ _ _ H0)]. exists k. split; auto. split; auto. split; auto. exists s. split; [exact Hs|]. split; auto. intros X. contradiction.
    + chop H. chop H. destruct a0 as [st1 t1]. chop H. injection H as <- <-. apply set_chunk_Ok in H0. apply (IH _ _ _ _ _ _ _ H2); auto; [now rewrite H0|exists k; auto].
  - assert (Hp' : ph <= last_phase r) by (apply Hp; discriminate). unfold local_chunk_schedule in H. rewrite Hi in H. chop H. chop H. destruct Hc as (k & Hc1 & Hc2 & Hc3). unfold rd in H0. rewrite Hc1 in H0. injection H0 as <-. destruct a0 as [i|]; [|apply (IH _ _ _ _ _ _ _ H); auto; exists k; auto].
    cbn [new_node] in H. chop H. chop H. chop H. chop H. destruct (negb (group_is_local (si_group a2))) eqn:El; [discriminate|]. chop H. destruct a3 as [st1 t1]. chop H. chop H. injection H as <- <-.
    destruct (next_instance_Ok _ _ _ _ _ H1) as (s & Hs & Hg & Hf). pose proof (next_instance_In _ _ _ _ H1) as Hin. apply set_inst_Ok in H0. destruct H0 as [L1 S1]. cbn [s_inst] in *. apply set_chunk_Ok in H3.
    unfold rd in H4. unfold instance in Hs. rewrite Hs in H4. injection H4 as <-. assert (K2 : known r cond (s_inst a1)) by (rewrite H3, S1; now apply known_upd).
    assert (C : call_ok (LocalChunk comp ck g)) by (exists k; auto).
    assert (N : forall circ visit, circ = c_circular k -> node_ok (Some i, g, visit, ck, circ)) by (intros circ visit ->; exists k; split; auto; split; auto; split; auto; exists s; auto).
    destruct (impossible (merge_cond cond (si_cond s))); [now apply (IH _ _ _ _ _ _ _ H5)|]. destruct (si_if s) as [b|] eqn:Ek.
    + assert (Hb : bit_in cond b = false). { destruct (bit_in cond b) eqn:Hb; [|reflexivity]. destruct (Hk b Hb) as (j & s' & A & B & D). assert (i = j) by exact (HO _ _ _ _ _ Hs A Ek B). subst j. congruence. }
      fold (mask b) in H5. chop H5. destruct a2 as [st2 t2]. chop H5. destruct a2 as [st3 t3]. injection H5 as <- <-. pose proof Hb as Hb0. unfold bit_in in Hb0. apply orb_false_iff in Hb0. destruct Hb0 as [Hb1 Hb2]. rewrite unmask in H4 by auto.
      assert (K3 : known r (yes_cond cond b) (s_inst a1)) by (rewrite H3, S1; apply (known_more r cond _ _ i s b (bit_yes cond b)); auto).
      destruct (sched_good ps base size r cg HO HL _ _ _ _ _ _ _ _ H0 (fun _ => Hp') K3) as [Q1 _].
      cbn [nodes]. constructor; [now apply N|]. apply Forall_app. split; [apply (IH _ _ _ _ _ _ _ H0); auto; now apply possible_yes|]. apply (IH _ _ _ _ _ _ _ H4); auto; [|now apply possible_no]. rewrite Q1, H3, S1. apply (known_more r cond _ _ i s b (bit_no cond b)); auto.
    + chop H5. destruct a2 as [st2 t2]. injection H5 as <- <-. cbn [nodes app]. constructor; [now apply N|]. now apply (IH _ _ _ _ _ _ _ H0).
  - assert (Hp' : ph <= last_phase r) by (apply Hp; discriminate). destruct Hc as (k & Hc1 & Hc2). unfold schedule_transition_end_of_group in H. unfold fits_chunk in Hc2. destruct g as [gp gc]. cbn [fst snd] in *. destruct (Z.ltb gp 0 && negb (Z.eqb gc (-1))) eqn:E1.
    + apply andb_true_iff in E1. destruct E1 as [E1 E2]. apply negb_true_iff, Z.eqb_neq in E2. apply Z.ltb_lt in E1. chop H. unfold rd in H0. rewrite Hc1 in H0. injection H0 as <-. cbn [new_node] in H. destruct (Z.ltb gc 0) eqn:E3; [discriminate|]. chop H. chop H. destruct a0 as [st1 t1]. injection H as <- <-.
      assert (T : c_type k = Visit) by (destruct (c_type k); auto; try contradiction; injection Hc2; lia). rewrite T in Hc2. destruct Hc2 as [F1 F2].
      assert (F : fits_chunk k (- gp, gc)%Z) by (unfold fits_chunk; rewrite T; cbn [fst snd]; split; lia).
      cbn [nodes app]. constructor; [exists k; split; auto; split; auto; split; auto; split; [congruence|intros _; cbn; lia]|]. apply (IH _ _ _ _ _ _ _ H1); auto. exists k. split; auto. split; auto. congruence.
    + destruct (Z.ltb 0 gp && Z.eqb gc (-1)) eqn:E2; [|apply (IH _ _ _ _ _ _ _ H); auto; exact I]. apply andb_true_iff in E2. destruct E2 as [E2 E3]. apply Z.ltb_lt in E2. apply Z.eqb_eq in E3. chop H. unfold rd in H0. rewrite Hc1 in H0. injection H0 as <-. cbn [new_node] in H. chop H. destruct a as [st1 t1]. injection H as <- <-. cbn [nodes app].
      constructor; [|apply (IH _ _ _ _ _ _ _ H0); auto; [intros X; now contradiction X|exact I]]. exists k. split; auto. split; auto. split; [exact Hc2|]. cbn. split; [intros T; rewrite T in Hc2; injection Hc2; lia|lia].
  - assert (Hp' : ph <= last_phase r) by (apply Hp; discriminate). unfold chunk_schedule in H. chop H. chop H. destruct (max_rank a0); [|now apply (IH _ _ _ _ _ _ _ H)]. chop H. unfold group_schedule_chunk in H. chop H. unfold rd in H3. destruct (nth_error (cg_chunks cg) a1) as [k|] eqn:Ek; [|discriminate]. injection H3 as ->.
    pose proof (proj1 (Forall_forall _ _) HC a2 (nth_error_In _ _ Ek)) as Ck. unfold chunk_ok in Ck.
    destruct (c_type a2) eqn:T; apply (IH _ _ _ _ _ _ _ H); auto; exists a2; (split; [auto|]); unfold fits_chunk; rewrite T; cbn [fst snd]; try (split; [|congruence]); auto.
    + destruct Ck as (-> & -> & _). auto.
    + split; [auto|lia].
  - assert (Hp' : ph <= last_phase r) by (apply Hp; discriminate). unfold chunk_component_schedule in H. chop H. destruct (max_rank a); [|discriminate]. now apply (IH _ _ _ _ _ _ _ H).
  - unfold schedule_visit_start in H. destruct (max_phase (r_parent r) <? ph) eqn:E; [injection H as <- <-; constructor|]. apply Nat.ltb_ge in E. destruct (find_chunk cg HalfLeft ph (-1)) as [ck|] eqn:Ef; [|discriminate]. chop H. apply (IH _ _ _ _ _ _ _ H); auto. unfold find_chunk in Ef. apply find_some in Ef. destruct Ef as [_ Ef]. destruct (nth_error (cg_chunks cg) ck) as [k|] eqn:Ek; [|discriminate]. exists k. split; auto. apply andb_true_iff in Ef. destruct Ef as [Ef _]. apply andb_true_iff in Ef. destruct Ef as [Ef _]. unfold fits_chunk. destruct (c_type k); try discriminate. split; [reflexivity|discriminate].
  - destruct Hc.
Qed.
End Nodes.
