(** * GbGraph: the calls of add_edge_to_graph for a rule are proper ones (C123). *)
From Verif Require Import Base CondModel PropsCond GbModel GbSpec GbInst GbCond GbFlow.
Open Scope nat_scope.

(** a kind with its direct and its first bit *)
Definition sound (k : N) : bool := N.testbit k 3 && N.testbit k 0 && (k <=? max_dependency)%N.
Lemma sound_ok k : sound k = true -> kind_ok k.
Proof. unfold sound. intros H. apply andb_true_iff in H. destruct H as [_ H]. now apply N.leb_le in H. Qed.
Lemma sound_all (f : N -> N) : all32 (fun k => implb (sound k) (sound (f k))) = true -> forall k, sound k = true -> sound (f k) = true.
Proof. intros A k H. pose proof (all32_spec _ A k (sound_ok _ H)) as Q. cbv beta in Q. rewrite H in Q. exact Q. Qed.
Lemma sound_fiber k : sound k = true -> sound (N.ldiff k DEPENDENCY_NOT_JUST_FIBER) = true.
Proof. apply (sound_all (fun k => N.ldiff k DEPENDENCY_NOT_JUST_FIBER)). vm_compute. reflexivity. Qed.
Lemma sound_simple k : sound k = true -> sound (N.lor k DEPENDENCY_MAYBE_SIMPLE) = true.
Proof. apply (sound_all (fun k => N.lor k DEPENDENCY_MAYBE_SIMPLE)). vm_compute. reflexivity. Qed.
Lemma sound_carry k : sound k = true -> sound (N.ldiff k DEPENDENCY_MAYBE_CARRYING) = true.
Proof. apply (sound_all (fun k => N.ldiff k DEPENDENCY_MAYBE_CARRYING)). vm_compute. reflexivity. Qed.

Section GRAPH.
Context (E : genv) (R : grule) (B : block) (n : nat).
Local Notation insts := (instances E R B n).
Definition proper (e : gedge) : Prop := d_src e < length insts /\ d_snk e < length insts /\ sound (d_kind e) = true /\ satisfiable (d_cond e).
Lemma vertex_in v f j : vertex_instance E R B n v f = Some j -> j < length insts.
Proof.
  unfold vertex_instance. destruct (mod_fiber E (v_mod v) f) as [g|]; [|discriminate]. intros H. apply lookup_right in H. apply nth_error_Some. congruence.
Qed.
Lemma edge_if_proper v v' f c k : satisfiable c -> sound k = true -> Forall proper (edge_if (vertex_instance E R B n v f) (vertex_instance E R B n v' f) c k).
Proof.
  intros Hc Hk. unfold edge_if. destruct (vertex_instance E R B n v f) as [i|] eqn:Q1; [|constructor]. destruct (vertex_instance E R B n v' f) as [j|] eqn:Q2; [|constructor]. constructor; [|constructor]. repeat split; cbn; auto; eapply vertex_in; eassumption.
Qed.
Lemma add_proper v v' c k : satisfiable c -> sound k = true -> Forall proper (add_edges E R B n v v' c k).
Proof.
  intros Hc Hk. unfold add_edges. apply Forall_app. split; [now apply edge_if_proper|]. destruct (carrying k); [|constructor]. apply Forall_flat_map. apply Forall_forall. intros f _. destruct (f =? e_base E); [constructor|].
  assert (Hk' : sound (N.ldiff k DEPENDENCY_NOT_JUST_FIBER) = true) by (now apply sound_fiber).
  destruct (e_reverse E f); now apply edge_if_proper.
Qed.
Lemma simply_3 d k : sound k = true -> sound (simply E d k) = true.
Proof. intros H. unfold simply. destruct (e_circ E d); [exact H|]. now apply sound_simple. Qed.
Lemma carry_3 k : sound k = true -> sound (not_carrying k) = true.
Proof. intros H. unfold not_carrying. now apply sound_carry. Qed.
Lemma rec_proper sink c : satisfiable c -> (forall x k m, sound k = true -> Forall proper (rec_expr E R B n sink c k m x)) /\ (forall xs k m, sound k = true -> Forall proper (rec_exprs E R B n sink c k m xs)).
Proof.
  intros Hc. apply exprs_mutind; intros; cbn [rec_expr rec_exprs]; rewrite ?Forall_app; auto using add_proper, simply_3, carry_3.
  - split; [|auto using add_proper]. destruct m; [|constructor]. apply H. apply carry_3. now apply sound_simple.
Qed.
Context (Tests : forall t, In t (tests B) -> satisfiable (t_cond t)).
Lemma cond_proper sink c : Forall proper (rec_cond E R B n sink c).
Proof.
  unfold rec_cond. apply Forall_flat_map, Forall_forall. intros k _. destruct (N.testbit (N.lor (positive c) (negative c)) (N.of_nat k)); [|constructor]. destruct (test_of B k) as [t|] eqn:Q; [|constructor]. apply add_proper; [|reflexivity]. apply Tests. unfold test_of in Q. now apply find_some in Q.
Qed.
Lemma lhs_proper c : satisfiable c -> (forall l top k m r, sound k = true -> Forall proper (rec_lhs E R B n top l c k m r)) /\ (forall ls k m r, sound k = true -> Forall proper (rec_lhss E R B n ls c k m r)).
Proof.
  intros Hc. assert (Leaf : forall v k r, sound k = true -> Forall proper (assigned E R B n v c k r)). { intros v k r Hk. unfold assigned. apply Forall_app. split; [now apply (rec_proper v c Hc)|apply cond_proper]. }
  apply exprs_mutind; intros; cbn [rec_lhs rec_lhss]; rewrite ?Forall_app; auto.
Qed.
Lemma actuals_proper c p : satisfiable c -> forall fs args, Forall proper (rec_actuals E R B n p c fs args).
Proof. intros Hc. induction fs as [|f fs IH]; intros [|a args]; cbn [rec_actuals]; try constructor. rewrite !Forall_app. split; [now apply (rec_proper _ c Hc)|]. split; [apply cond_proper|apply IH]. Qed.
Lemma calls_proper c : satisfiable c -> (forall x, Forall proper (call_edges E R B n c x)) /\ (forall xs, Forall proper (calls_edges E R B n c xs)).
Proof.
  intros Hc. apply exprs_mutind; intros; cbn [call_edges calls_edges]; rewrite ?Forall_app; auto.
  split; [apply cond_proper|]. split; [now apply actuals_proper|]. split; [now apply add_proper|]. split; [apply cond_proper|exact H].
Qed.
Lemma sat_no : satisfiable no_cond.
Proof. exists (fun _ => true). apply meets_no. Qed.
Lemma pats_proper c e : satisfiable c -> (forall p, Forall proper (pat_edges E R B n c e p)) /\ (forall ps, Forall proper (pats_edges E R B n c e ps)).
Proof.
  intros Hc. apply pats_mutind; intros; cbn [pat_edges pats_edges]; rewrite ?Forall_app; auto.
  - split; [apply cond_proper|apply (rec_proper _ no_cond sat_no); reflexivity].
  - now apply (calls_proper c Hc).
Qed.
Lemma match_proper c : satisfiable c -> forall ms chain, Forall proper (match_edges E R B n c chain ms).
Proof.
  intros Hc. induction ms as [|k p b ms IH]; intros chain; cbn [match_edges]; [constructor|]. rewrite !Forall_app. split; [apply cond_proper|]. split; [|apply IH]. apply Forall_flat_map, Forall_forall. intros x _. now apply (rec_proper _ c Hc).
Qed.
Lemma sat_pos c k : satisfiable c -> below c k -> satisfiable (pos_cond c k) /\ satisfiable (neg_cond c k).
Proof.
  intros (o & H) Hb.
  assert (K : forall v, meets (fun b => if (b =? N.of_nat k)%N then v else o b) c).
  { intros v b. destruct (H b) as [H1 H2]. specialize (Hb b). rewrite N.lor_spec in Hb. destruct (N.eqb_spec b (N.of_nat k)) as [Q|Q]; [|auto]. split; intros T; rewrite T, ?orb_true_r in Hb; specialize (Hb eq_refl); lia. }
  split; [exists (fun b => if (b =? N.of_nat k)%N then true else o b); apply meets_pos|exists (fun b => if (b =? N.of_nat k)%N then false else o b); apply meets_neg]; (split; [apply K|]); unfold yes; now rewrite N.eqb_refl.
Qed.
Lemma past_sat : forall ms i a m c, numbered_ms i a ms m -> below c i -> satisfiable c -> satisfiable (past_all c ms).
Proof.
  induction ms as [|k p b ms IH]; intros i a m c N Bc Sc; inversion N; subst; cbn [past_all]; [exact Sc|]. rewrite (past_neg c k Bc). apply IH with (S k) n1 m; [assumption|apply below_neg with k; auto; lia|]. now apply sat_pos.
Qed.
Lemma edges_proper :
  (forall a st m, numbered_stmt a st m -> forall c, below c a -> satisfiable c -> Forall proper (edges_stmt E R B n c st)) /\
  (forall a b m, numbered a b m -> forall c, below c a -> satisfiable c -> Forall proper (edges_block E R B n c b)) /\
  (forall i a ms m, numbered_ms i a ms m -> forall c c0 x, below c i -> i + count_matches ms <= a -> satisfiable c -> satisfiable c0 -> Forall proper (edges_matches E R B n false c0 x c ms)).
Proof.
  apply numbered_mut; intros; cbn [edges_stmt edges_block edges_matches count_matches] in *; rewrite ?Forall_app.
  - split; [now apply lhs_proper|]. split; now apply calls_proper.
  - unfold local_edges. rewrite Forall_app. split; [apply cond_proper|]. destruct def; [constructor| |]; rewrite ?Forall_app.
    + split; [now apply rec_proper|]. split; [now apply rec_proper|]. split; [|now apply calls_proper]. apply Forall_flat_map, Forall_forall. intros f _. apply add_proper; [assumption|]. destruct (e_circ E f); reflexivity.
    + split; [now apply rec_proper|now apply calls_proper].
  - pose proof (proj1 (proj2 numbered_le) _ _ _ n3) as L. destruct (sat_pos c n0 H2 H1) as [S1 S2]. split; [apply cond_proper|]. split; [now apply rec_proper|]. split; [now apply calls_proper|]. split; [apply H|apply H0]; auto; [apply below_pos with n0; auto; lia|apply below_neg with n0; auto; lia].
  - pose proof (proj2 (proj2 numbered_le) _ _ _ _ n3) as L. destruct (past_all_numbered ms n0 _ _ c n3 H1) as (B1 & _). split; [now apply match_proper|]. split; [now apply calls_proper|]. split; [now apply H|]. apply H0; [apply below_mono with (n0 + count_matches ms); [exact B1|lia]|]. exact (past_sat ms _ _ _ c n3 H1 H2).
  - split; [apply cond_proper|]. split; [now apply rec_proper|]. split; [now apply calls_proper|]. now apply H.
  - constructor.
  - pose proof (proj1 numbered_le _ _ _ n3) as L. split; [now apply H|]. apply H0; [now apply below_mono with n0|assumption].
  - constructor.
  - pose proof (proj1 (proj2 numbered_le) _ _ _ n3) as L. rewrite (past_neg c i H1). destruct (sat_pos c i H3 H1) as [S1 S2]. split; [now apply pats_proper|]. split; [apply H|apply H0]; auto; [apply below_pos with i; auto; lia|apply below_neg with i; auto; lia|lia].
Qed.
Lemma shared_proper : Forall proper (shared_edges E R B n).
Proof. unfold shared_edges. apply Forall_flat_map, Forall_forall. intros [m [phy|]] _; cbn [snd]; [|constructor]. apply add_proper; [apply sat_no|reflexivity]. Qed.
End GRAPH.
Lemma tests_sat :
  (forall a st m, numbered_stmt a st m -> forall c, below c a -> satisfiable c -> forall t, In t (tests_stmt c st) -> satisfiable (t_cond t)) /\
  (forall a b m, numbered a b m -> forall c, below c a -> satisfiable c -> forall t, In t (tests_block c b) -> satisfiable (t_cond t)) /\
  (forall i a ms m, numbered_ms i a ms m -> forall c, below c i -> i + count_matches ms <= a -> satisfiable c -> forall t, In t (tests_matches false c ms) -> satisfiable (t_cond t)).
Proof.
  apply numbered_mut; intros; cbn [tests_stmt tests_block tests_matches count_matches app In] in *; rewrite ?in_app_iff in *; try contradiction.
  - pose proof (proj1 (proj2 numbered_le) _ _ _ n0) as L. destruct (sat_pos c n H2 H1) as [S1 S2]. destruct H3 as [<-|[H3|H3]]; [exact H2|eapply H|eapply H0]; try exact H3; auto; [apply below_pos with n; auto; lia|apply below_neg with n; auto; lia].
  - pose proof (proj2 (proj2 numbered_le) _ _ _ _ n0) as L. destruct (past_all_numbered ms n _ _ c n0 H1) as (B1 & _). destruct H3 as [H3|H3]; [eapply H; eauto|]. eapply H0; [|exact (past_sat ms _ _ _ c n0 H1 H2)|exact H3]. apply below_mono with (n + count_matches ms); [exact B1|lia].
  - eapply H; eauto.
  - pose proof (proj1 numbered_le _ _ _ n0) as L. destruct H3 as [H3|H3]; [eapply H; eauto|]. eapply H0; [|exact H2|exact H3]. now apply below_mono with n.
  - pose proof (proj1 (proj2 numbered_le) _ _ _ n0) as L. rewrite (past_neg c i H1) in H4. destruct (sat_pos c i H3 H1) as [S1 S2]. destruct H4 as [<-|[H4|H4]]; [exact H3|eapply H|eapply H0]; try exact H4; auto; [apply below_pos with i; auto; lia|apply below_neg with i; auto; lia|lia].
Qed.
