(** * PropsBuild: C119-C123 (the dependency graph of a rule). *)
From Verif Require Import Base CondModel PropsCond EdgeModel EdgeProofs EdgeAddProofs EdgeGraph EdgeSem EdgeWorld PropsEdge GbModel GbSpec GbInst GbCond GbFlow GbExact GbGraph.
From Coq Require Import Permutation.
Open Scope nat_scope.

(** ** Numbering *)
Lemma number_strip : (forall s n, strip_stmt (fst (number_stmt n s)) = strip_stmt s) /\ (forall b n, strip (fst (number_block n b)) = strip b) /\ (forall ms own n, strip_matches (fst (number_matches own n ms)) = strip_matches ms).
Proof.
  apply stmts_mut; intros; cbn [number_stmt number_block number_matches]; try reflexivity.
  - destruct (number_block (S n) t) as [t' n1] eqn:Q1. destruct (number_block n1 f) as [f' n2] eqn:Q2. specialize (H (S n)). specialize (H0 n1). rewrite Q1 in H. rewrite Q2 in H0. cbn [fst strip_stmt] in *. now rewrite H, H0.
  - destruct (number_matches (Some n) (n + count_matches ms) ms) as [t' n1] eqn:Q1. destruct (number_block n1 d) as [f' n2] eqn:Q2. specialize (H (Some n) (n + count_matches ms)). specialize (H0 n1). rewrite Q1 in H. rewrite Q2 in H0. cbn [fst strip_stmt] in *. now rewrite H, H0.
  - destruct (number_matches None n ms) as [t' n1] eqn:Q1. specialize (H None n). rewrite Q1 in H. cbn [fst strip_stmt] in *. now rewrite H.
  - destruct (number_block n b) as [t' n1] eqn:Q1. specialize (H n). rewrite Q1 in H. cbn [fst strip_stmt] in *. now rewrite H.
  - destruct (number_stmt n s) as [t' n1] eqn:Q1. destruct (number_block n1 b) as [f' n2] eqn:Q2. specialize (H n). specialize (H0 n1). rewrite Q1 in H. rewrite Q2 in H0. cbn [fst strip] in *. now rewrite H, H0.
  - destruct (number_block n b) as [t' n1] eqn:Q1. destruct (number_matches (option_map S own) n1 ms) as [f' n2] eqn:Q2. specialize (H n). specialize (H0 (option_map S own) n1). rewrite Q1 in H. rewrite Q2 in H0. cbn [fst strip_matches] in *. now rewrite H, H0.
Qed.
Lemma strip_plain : (forall s, plain_stmt (strip_stmt s) = plain_stmt s) /\ (forall b, plain (strip b) = plain b) /\ (forall ms, plain_matches (strip_matches ms) = plain_matches ms).
Proof. apply stmts_mut; intros; cbn; rewrite ?H, ?H0; reflexivity. Qed.
Lemma strip_no_for : (forall s, no_for_stmt (strip_stmt s) = no_for_stmt s) /\ (forall b, no_for (strip b) = no_for b) /\ (forall ms, no_for_matches (strip_matches ms) = no_for_matches ms).
Proof. apply stmts_mut; intros; cbn; rewrite ?H, ?H0; reflexivity. Qed.
Lemma strip_pattern_vars : (forall s, pattern_vars_stmt (strip_stmt s) = pattern_vars_stmt s) /\ (forall b, pattern_vars (strip b) = pattern_vars b) /\ (forall ms, pattern_vars_matches (strip_matches ms) = pattern_vars_matches ms).
Proof. apply stmts_mut; intros; cbn; rewrite ?H, ?H0; reflexivity. Qed.
Lemma strip_sometimes : (forall s bl, sometimes_stmt bl (strip_stmt s) = sometimes_stmt bl s) /\ (forall b bl, sometimes bl (strip b) = sometimes bl b) /\ (forall ms, sometimes_matches (strip_matches ms) = sometimes_matches ms).
Proof. apply stmts_mut; intros; cbn; rewrite ?H, ?H0; reflexivity. Qed.

Lemma build_ok E R bt : build E R = Ok bt -> exists n, number_block 0 (r_body R) = (b_body bt, n) /\ n = tests_inb (r_body R) /\ n <= 32 /\
  b_tests bt = tests (b_body bt) /\ b_insts bt = instances E R (b_body bt) n /\ b_edges bt = edges E R (b_body bt) n.
Proof.
  unfold build. pose proof (proj1 (proj2 number_count) (r_body R) 0) as Hn. destruct (number_block 0 (r_body R)) as [b n]. cbn [snd Nat.add] in Hn. destruct (Nat.ltb_spec 32 n) as [L|L]; [discriminate|]. destruct (undefined_block b); [discriminate|]. intros H. injection H as <-. cbn [b_body b_tests b_insts b_edges]. exists n. repeat split; auto.
Qed.
Lemma built_numbered E R bt : build E R = Ok bt -> no_for (r_body R) -> numbered 0 (b_body bt) (tests_inb (r_body R)).
Proof.
  intros H N. destruct (build_ok _ _ _ H) as (n & Q & Qn & _). pose proof (proj1 (proj2 number_numbered) (r_body R) 0 N) as K. rewrite Q in K. cbn [fst snd] in K. now rewrite <- Qn.
Qed.
Lemma built_strip E R bt : build E R = Ok bt -> strip (b_body bt) = strip (r_body R).
Proof. intros H. destruct (build_ok _ _ _ H) as (n & Q & _). pose proof (proj1 (proj2 number_strip) (r_body R) 0) as K. rewrite Q in K. exact K. Qed.
Lemma built_unique E R bt : build E R = Ok bt -> no_for (r_body R) -> forall t, In t (tests (b_body bt)) -> test_of (b_body bt) (t_num t) = Some t /\ t_num t < tests_inb (r_body R).
Proof.
  intros H N t Ht. pose proof (proj1 (proj2 tests_numbers) _ _ _ (built_numbered _ _ _ H N) no_cond) as P. fold (tests (b_body bt)) in P. rewrite Nat.sub_0_r in P. split.
  - assert (D : NoDup (map t_num (tests (b_body bt)))) by (apply (Permutation_NoDup (Permutation_sym P)), seq_NoDup). unfold test_of. revert D Ht. generalize (tests (b_body bt)). induction l as [|x l IH]; intros D Ht; [destruct Ht|]. cbn [map find] in *. inversion D; subst. destruct Ht as [->|Ht]; [now rewrite Nat.eqb_refl|]. destruct (Nat.eqb_spec (t_num x) (t_num t)) as [Q|Q]; [|now apply IH]. exfalso. apply H2. rewrite Q. now apply in_map.
  - assert (K : In (t_num t) (seq 0 (tests_inb (r_body R)))) by (apply (Permutation_in _ P), in_map, Ht). apply in_seq in K. lia.
Qed.

(** ** C119: the instances of a rule are the tests, the attributes of its nodes and calls and
    its variables, each with its fibers, each once; looking one up finds it, whatever the
    analysis of other rules left behind. *)
Theorem C119_instances : forall E R bt, NoDup (names R) -> fibers_ok E R -> build E R = Ok bt ->
  NoDup (b_insts bt) /\ forall i, In i (b_insts bt) <-> wanted E R i.
Proof.
  intros E R bt N F H. destruct (build_ok _ _ _ H) as (n & Q & _ & _ & _ & Qi & _). rewrite Qi. split.
  - pose proof (instances_nodup E R F N) as K. rewrite Q in K. exact K.
  - intros i. pose proof (instances_wanted E R i) as K. rewrite Q in K. exact K.
Qed.
Theorem C119_lookup : forall E R bt a (f : fiber) node j, NoDup (names R) -> fibers_ok E R -> build E R = Ok bt ->
  get_instance E R (b_body bt) (tests_inb (r_body R)) a f node = Some j <-> nth_error (b_insts bt) j = Some (mkInst a (if f =? e_base E then None else Some f) node).
Proof.
  intros E R bt a f node j N F H. destruct (C119_instances _ _ _ N F H) as [D _]. destruct (build_ok _ _ _ H) as (n & Q & Qn & _ & _ & Qi & _). rewrite <- Qn, Qi in *. split.
  - apply lookup_right.
  - intros K. destruct (lookup_found E R (b_body bt) n a f node) as (j' & K1 & K2); [now apply nth_error_In with j|]. rewrite K1. f_equal. apply (NoDup_nth_error (instances E R (b_body bt) n)); [exact D| |congruence]. apply nth_error_Some. congruence.
Qed.

(** ** C120: the conditions. *)
Theorem C120_numbers : forall E R bt, build E R = Ok bt -> strip (b_body bt) = strip (r_body R) /\ tests_inb (r_body R) <= 32 /\
  (no_for (r_body R) -> Permutation (map t_num (b_tests bt)) (seq 0 (tests_inb (r_body R)))).
Proof.
  intros E R bt H. destruct (build_ok _ _ _ H) as (n & Q & Qn & L & Qt & _). split; [exact (built_strip _ _ _ H)|]. split; [lia|]. intros N. rewrite Qt. pose proof (proj1 (proj2 tests_numbers) _ _ _ (built_numbered _ _ _ H N) no_cond) as P. now rewrite Nat.sub_0_r in P.
Qed.
Theorem C120_too_many : forall E R, 32 < tests_inb (r_body R) -> build E R = Exit.
Proof.
  intros E R H. unfold build. pose proof (proj1 (proj2 number_count) (r_body R) 0) as Hn. destruct (number_block 0 (r_body R)) as [b n]. cbn [snd Nat.add] in Hn. destruct (Nat.ltb_spec 32 n) as [L|L]; [reflexivity|lia].
Qed.
Theorem C120_statements : forall E R bt o st, build E R = Ok bt -> no_for (r_body R) ->
  (exists c, In (st, c) (conds_block no_cond (b_body bt)) /\ meets o c) <-> executed o st (b_body bt).
Proof.
  intros E R bt o st H N. pose proof (proj1 (proj2 (conds_executed o st)) _ _ _ (built_numbered _ _ _ H N) no_cond (below_no 0)) as K. unfold conditional in K. rewrite K. pose proof (meets_no o). tauto.
Qed.
Theorem C120_tests : forall E R bt o t, build E R = Ok bt -> no_for (r_body R) -> In t (b_tests bt) ->
  meets o (t_cond t) <-> made o (t_num t) (b_body bt).
Proof.
  intros E R bt o t H N Ht. destruct (build_ok _ _ _ H) as (n & _ & _ & _ & Qt & _). rewrite Qt in Ht. pose proof (proj1 (proj2 (tests_made o (t_num t))) _ _ _ (built_numbered _ _ _ H N) no_cond (below_no 0)) as K. fold (tests (b_body bt)) in K. unfold tested in K. split.
  - intros M. apply K. exists t. auto.
  - intros M. destruct (proj2 K (conj (meets_no o) M)) as (t' & Ht' & Qn & M'). destruct (built_unique _ _ _ H N t Ht) as [U _]. destruct (built_unique _ _ _ H N t' Ht') as [U' _]. rewrite Qn in U'. assert (Z : t = t') by congruence. now rewrite Z.
Qed.

(** ** C121: what is read, and what decides whether a value is given, has an edge. *)
Theorem C121_data : forall E R I bt o s sg sg', build E R = Ok bt -> plain (r_body R) -> In s (b_insts bt) -> alike bt o s sg sg' ->
  given I s (run E R I o sg (b_body bt)) = given I s (run E R I o sg' (b_body bt)).
Proof.
  intros E R I bt o s sg sg' H P Hs A. destruct (build_ok _ _ _ H) as (n & Q & Qn & _ & _ & Qi & Qe).
  assert (P' : plain (b_body bt)). { rewrite <- (proj1 (proj2 strip_plain)), (built_strip _ _ _ H), (proj1 (proj2 strip_plain)). exact P. }
  unfold alike, depends in A. rewrite Qi in *. rewrite Qe in *.
  assert (Out : forall p, ~ In p (instances E R (b_body bt) n) -> sg p = sg' p) by (intros p Hp; apply A; intros Hp'; now destruct Hp).
  assert (Ag : agrees E R I (b_body bt) n s o sg sg' (edges E R (b_body bt) n)). { intros e p He H1 H2 H3. apply A. intros _. exists e. auto. }
  unfold edges in Ag. rewrite agrees_app in Ag. destruct Ag as [A1 A2]. unfold run. rewrite !given_app. f_equal.
  - apply (proj1 (proj2 (run_data E R I (b_body bt) n s Hs o sg sg' Out)) (b_body bt) no_cond P' (meets_no o) A1).
  - now apply (shared_data E R I (b_body bt) n s Hs o sg sg' Out).
Qed.
Theorem C121_control : forall E R I bt o o' s sg, build E R = Ok bt -> no_for (r_body R) -> In s (b_insts bt) ->
  (forall d, In d (sometimes false (r_body R)) -> s <> mkInst (AD d) None None) ->
  (forall k, depends bt o (mkInst (AT k) None None) s -> yes o k = yes o' k) ->
  given I s (run E R I o sg (b_body bt)) = given I s (run E R I o' sg (b_body bt)).
Proof.
  intros E R I bt o o' s sg H N Hs NS A. destruct (build_ok _ _ _ H) as (n & Q & Qn & _ & _ & Qi & Qe).
  unfold depends in A. rewrite Qi in *. rewrite Qe in *.
  unfold run. rewrite !given_app. f_equal.
  apply (proj1 (proj2 (run_control E R I (b_body bt) n s Hs sg o o' (edges E R (b_body bt) n) ltac:(intros k e H1 H2 H3 H4; apply A; exists e; auto) ltac:(subst n; exact (built_unique _ _ _ H N)))) (b_body bt) false no_cond).
  - intros _ k Hk. unfold mentions in Hk. cbn in Hk. discriminate Hk.
  - intros d Hd. apply NS. rewrite <- (proj1 (proj2 strip_sometimes)), <- (built_strip _ _ _ H), (proj1 (proj2 strip_sometimes)). exact Hd.
  - apply meets_no.
  - intros x Hx. unfold edges. apply in_or_app. now left.
  - auto.
Qed.
(** the two together, the tests coming out as their values say *)
Theorem C121_flow : forall E R I bt s sg sg', build E R = Ok bt -> plain (r_body R) -> In s (b_insts bt) ->
  (forall d, In d (sometimes false (r_body R)) -> s <> mkInst (AD d) None None) ->
  alike bt (outcome_of I sg) s sg sg' ->
  given I s (run E R I (outcome_of I sg) sg (b_body bt)) = given I s (run E R I (outcome_of I sg') sg' (b_body bt)).
Proof.
  intros E R I bt s sg sg' H P Hs NS A. rewrite (C121_data E R I bt _ s sg sg' H P Hs A). apply C121_control; auto; [now apply no_for_plain|].
  intros k D. unfold yes, outcome_of. rewrite Nat2N.id. f_equal. apply A. intros _. exact D.
Qed.

(** ** C122: an edge of the base graph stands for something that is read. *)
Theorem C122_exact : forall E R I bt o e p s d sg sg', build E R = Ok bt -> no_for (r_body R) -> apart E R -> injective I ->
  In e (b_edges bt) -> N.land (d_kind e) DEPENDENCY_NOT_JUST_FIBER <> 0%N ->
  nth_error (b_insts bt) (d_src e) = Some p -> nth_error (b_insts bt) (d_snk e) = Some s -> i_attr p = AD d -> meets o (d_cond e) ->
  (forall x, In x (pattern_vars (r_body R)) -> s <> mkInst (AD x) None None) ->
  sg p <> sg' p -> given I s (run E R I o sg (b_body bt)) <> given I s (run E R I o sg' (b_body bt)).
Proof.
  intros E R I bt o e p s d sg sg' H N Ap Inj He St Hp Hs Hd Me NP D Q. apply D. clear D.
  assert (Wt : In s (b_insts bt)) by (now apply nth_error_In with (d_snk e)).
  assert (W : wanted E R s). { destruct (build_ok _ _ _ H) as (n & Qb & _ & _ & _ & Qi & _). rewrite Qi in Wt. pose proof (instances_wanted E R s) as K. rewrite Qb in K. now apply K. }
  destruct (build_ok _ _ _ H) as (n & Qb & Qn & _ & _ & Qi & Qe). rewrite Qi in *. rewrite Qe in *.
  assert (St' : strong e = true). { unfold strong. destruct (N.land (d_kind e) DEPENDENCY_NOT_JUST_FIBER =? 0)%N eqn:Z; [|reflexivity]. apply N.eqb_eq in Z. contradiction. }
  unfold run in Q. apply split_given in Q; [|apply (proj1 (proj2 (shape_run E R I o sg sg')))]. destruct Q as [Q1 Q2]. unfold edges in He. apply in_app_iff in He. destruct He as [He|He].
  - refine (proj2 (proj1 (proj2 (run_exact E R I Inj (b_body bt) n s o sg sg' e p St' Hp Hs (ex_intro _ d Hd) Me)) 0 (b_body bt) n _ no_cond (below_no 0) _ _ He) Q1).
    + rewrite Qn. exact (built_numbered _ _ _ H N).
    + intros x Hx. apply NP. rewrite <- (proj1 (proj2 strip_pattern_vars)), <- (built_strip _ _ _ H), (proj1 (proj2 strip_pattern_vars)). exact Hx.
    + intros x Hx Qs. rewrite Qs in W. assert (Hx' : In x (locals (r_body R))). { pose proof (proj1 (proj2 number_texts) (r_body R) 0) as [_ Hl]. rewrite Qb in Hl. cbn [fst] in Hl. now rewrite <- Hl. } inversion W; subst. match goal with H : In x (e_attrs E _) |- _ => exact (Ap _ _ Hx' H) end.
  - exact (shared_exact E R I (b_body bt) n s sg sg' e p St' Hp Hs He Q2).
Qed.

(** ** C123: the graph: adding these edges to an empty graph always succeeds, and afterwards the
    dependency between two instances under an outcome is the join of those edges whose
    condition the outcome meets. *)
Fixpoint add_all (x : nat) (l : list gedge) (w : world) : res world :=
  match l with [] => Ok w | e :: l => w <- step (AddEdge x (d_src e) (d_snk e) (d_cond e) (d_kind e)) w ;; add_all x l w end.
(** k is the join of the kinds of the edges from i to j that o allows *)
Definition joined (o : outcome) (i j : nat) (l : list gedge) (k : N) : Prop :=
  forall b, N.testbit k b = true <-> exists e, In e l /\ d_src e = i /\ d_snk e = j /\ meets o (d_cond e) /\ N.testbit (d_kind e) b = true.
Lemma rule_edges_proper E R bt : build E R = Ok bt -> no_for (r_body R) -> forall e, In e (b_edges bt) -> d_src e < length (b_insts bt) /\ d_snk e < length (b_insts bt) /\ d_kind e <> no_dependency /\ satisfiable (d_cond e).
Proof.
  intros H N e He. destruct (build_ok _ _ _ H) as (n & Qb & Qn & _ & _ & Qi & Qe). rewrite Qi, Qe in *. pose proof (built_numbered _ _ _ H N) as Nb.
  assert (T : forall t, In t (tests (b_body bt)) -> satisfiable (t_cond t)) by exact (proj1 (proj2 tests_sat) _ _ _ Nb no_cond (below_no 0) sat_no).
  assert (P : Forall (proper E R (b_body bt) n) (edges E R (b_body bt) n)). { unfold edges. apply Forall_app. split; [|apply shared_proper]. exact (proj1 (proj2 (edges_proper E R (b_body bt) n T)) _ _ _ Nb no_cond (below_no 0) sat_no). }
  rewrite Forall_forall in P. destruct (P e He) as (P1 & P2 & P3 & P4). repeat split; auto. intros Z. rewrite Z in P3. discriminate.
Qed.

Lemma in_graph_iff w As fl y i j : winv (w_mem w) (w_graphs w) As fl -> in_graph w y i j <-> exists A, nth_error As y = Some A /\ i < an A /\ j < an A.
Proof.
  intros W. split; [now apply in_graph_A with fl|]. intros (A & HA & Hi & Hj). destruct (an_graph _ _ _ _ _ W HA) as (g & Hg & Qn & _). exists g. rewrite Qn. auto.
Qed.
Lemma add_keeps w x i j c k w' : reached w -> allowed (AddEdge x i j c k) w -> step (AddEdge x i j c k) w = Ok w' -> forall y i' j', in_graph w y i' j' <-> in_graph w' y i' j'.
Proof.
  intros Rw Al St y i' j'. destruct (reached_good _ Rw) as (As & fl & W). destruct (step_ok _ _ _ _ W Al) as (w2 & As' & fl' & E & W' & A & A' & HA & _ & _ & (l' & wl' & _ & ->) & ->). assert (w2 = w') by congruence. subst w2.
  rewrite (in_graph_iff _ _ _ _ _ _ W), (in_graph_iff _ _ _ _ _ _ W'). assert (L : x < length As) by (apply nth_error_Some; congruence). destruct (Nat.eq_dec x y) as [<-|D].
  - rewrite nth_error_upd_eq by exact L. split; [intros (B & HB & Hi & Hj)|intros (B & HB & Hi & Hj)].
    + assert (B = A) by congruence. subst B. exists (with_cell A i j l' wl'). auto.
    + injection HB as <-. exists A. auto.
  - rewrite nth_error_upd_neq by exact D. tauto.
Qed.
Lemma some_kind w x i j o : reached w -> in_graph w x i j -> exists k, kind_under w x i j o = Ok k.
Proof. intros Rw (g & Hg & Hi & Hj). destruct (reached_good _ Rw) as (As & fl & W). destruct (in_graph_A _ _ _ x i j W) as (A & HA & Hi' & Hj'); [exists g; auto|]. rewrite (kind_under_cell _ _ _ _ _ i j o W HA Hi' Hj'). eauto. Qed.
Lemma add_all_ok x l : forall w, reached w -> (forall e, In e l -> in_graph w x (d_src e) (d_snk e) /\ d_kind e <> no_dependency /\ satisfiable (d_cond e)) ->
  exists w', add_all x l w = Ok w' /\ reached w' /\ (forall y i j, in_graph w y i j <-> in_graph w' y i j) /\
  (forall y i j o, y <> x -> in_graph w y i j -> kind_under w' y i j o = kind_under w y i j o) /\
  forall i j o, in_graph w x i j -> exists before after, kind_under w x i j o = Ok before /\ kind_under w' x i j o = Ok after /\
    forall b, N.testbit after b = true <-> N.testbit before b = true \/ exists e, In e l /\ d_src e = i /\ d_snk e = j /\ meets o (d_cond e) /\ N.testbit (d_kind e) b = true.
Proof.
  induction l as [|e l IH]; intros w Rw H.
  - exists w. cbn [add_all]. split; [reflexivity|]. split; [exact Rw|]. split; [tauto|]. split; [auto|]. intros i j o Hi. destruct (some_kind w x i j o Rw Hi) as (k & Hk). exists k, k. split; [exact Hk|]. split; [exact Hk|]. intros b. split; [auto|]. intros [K|(e & [] & _)]. exact K.
  - destruct (H e (or_introl eq_refl)) as (Hg & Hk & Hc). assert (Al : allowed (AddEdge x (d_src e) (d_snk e) (d_cond e) (d_kind e)) w) by (split; auto).
    destruct (C39_add_edge w x _ _ _ _ Rw Al) as (w1 & S1 & K1). pose proof (reached_step _ _ _ Rw Al S1) as R1. pose proof (add_keeps _ _ _ _ _ _ _ Rw Al S1) as G1.
    destruct (IH w1 R1) as (w' & S2 & R2 & G2 & O2 & K2). { intros e' He'. destruct (H e' (or_intror He')) as (A1 & A2 & A3). split; [now apply G1|auto]. }
    exists w'. cbn [add_all]. rewrite S1. cbn [bind]. split; [exact S2|]. split; [exact R2|]. split; [intros y i j; rewrite G1; apply G2|]. split.
    + intros y i j o D Hi. rewrite O2; [|exact D|now apply G1]. destruct (K1 o y i j Hi) as (k0 & k1 & Q0 & Q1 & Sm & _). rewrite Q0, Q1, Sm; [reflexivity|]. intros Z. injection Z as Z _ _. contradiction.
    + intros i j o Hi. destruct (K1 o x i j Hi) as (k0 & k1 & Q0 & Q1 & Sm & Ch). destruct (K2 i j o (proj1 (G1 _ _ _) Hi)) as (k1' & k2 & Q1' & Q2 & B). assert (k1' = k1) by congruence. subst k1'. exists k0, k2. split; [exact Q0|]. split; [exact Q2|]. intros b. rewrite B.
      assert (Step : N.testbit k1 b = true <-> N.testbit k0 b = true \/ (d_src e = i /\ d_snk e = j /\ meets o (d_cond e) /\ N.testbit (d_kind e) b = true)).
      { destruct (Nat.eq_dec (d_src e) i) as [E1|E1]; [destruct (Nat.eq_dec (d_snk e) j) as [E2|E2]|].
        - assert (Q : (x, i, j) = (x, d_src e, d_snk e)) by congruence. destruct (Ch Q) as [C1 C2]. destruct (meetsb o (d_cond e)) eqn:M.
          + apply meetsb_spec in M. rewrite (C1 M). unfold dependency_join. rewrite N.lor_spec, orb_true_iff. tauto.
          + assert (M' : ~ meets o (d_cond e)) by (intros Z; apply meetsb_spec in Z; congruence). rewrite (C2 M'). tauto.
        - rewrite Sm by congruence. tauto.
        - rewrite Sm by congruence. tauto. }
      rewrite Step. split.
      * intros [[K|K]|(e' & He' & K)]; [auto|right; exists e; split; [now left|exact K]|right; exists e'; split; [now right|exact K]].
      * intros [K|(e' & [<-|He'] & K)]; [auto|auto|right; exists e'; auto].
Qed.
Theorem C123_graph : forall E R bt w, build E R = Ok bt -> no_for (r_body R) -> reached w ->
  let x := length (w_graphs w) in let n := length (b_insts bt) in
  exists w0 w', step (NewGraph n) w = Ok w0 /\ add_all x (b_edges bt) w0 = Ok w' /\ reached w' /\
  (forall i j o, i < n -> j < n -> exists k, kind_under w' x i j o = Ok k /\ joined o i j (b_edges bt) k) /\
  (forall y i j o, in_graph w y i j -> kind_under w' y i j o = kind_under w y i j o).
Proof.
  intros E R bt w H N Rw x n. set (w0 := mkWorld (w_mem w) (w_graphs w ++ [mkAug n (repeat 0 (n * n)) 0 0])). assert (S0 : step (NewGraph n) w = Ok w0) by reflexivity. assert (R0 : reached w0) by (apply (reached_step _ (NewGraph n) _ Rw I S0)).
  assert (Gx : nth_error (w_graphs w0) x = Some (mkAug n (repeat 0 (n * n)) 0 0)) by (unfold w0, x; cbn [w_graphs]; rewrite nth_error_app2 by lia; rewrite Nat.sub_diag; reflexivity).
  assert (In0 : forall i j, i < n -> j < n -> in_graph w0 x i j) by (intros i j Hi Hj; exists (mkAug n (repeat 0 (n * n)) 0 0); auto).
  assert (K0 : forall i j o, i < n -> j < n -> kind_under w0 x i j o = Ok no_dependency).
  { intros i j o Hi Hj. unfold kind_under, rd. rewrite Gx. cbn [bind n_inst graph]. assert (Z : @nth_error addr (repeat 0 (n * n)) (i * n + j) = Some 0) by (rewrite nth_error_repeat; destruct (Nat.ltb_spec (i * n + j) (n * n)); [reflexivity|nia]). rewrite Z. cbn [bind]. unfold set_at. destruct (length (EdgeModel.edges (w_mem w0))); reflexivity. }
  assert (Keep : forall y i j, in_graph w y i j -> in_graph w0 y i j /\ y <> x). { intros y i j (g & Hg & Hi & Hj). assert (L : y < length (w_graphs w)) by (apply nth_error_Some; congruence). split; [|unfold x; lia]. exists g. split; [|auto]. unfold w0. cbn [w_graphs]. now rewrite nth_error_app1. }
  destruct (add_all_ok x (b_edges bt) w0 R0) as (w' & S1 & R1 & _ & O1 & K1). { intros e He. destruct (rule_edges_proper _ _ _ H N e He) as (P1 & P2 & P3 & P4). split; [now apply In0|auto]. }
  exists w0, w'. split; [exact S0|]. split; [exact S1|]. split; [exact R1|]. split.
  - intros i j o Hi Hj. destruct (K1 i j o (In0 i j Hi Hj)) as (k0 & k & Q0 & Q & B). exists k. split; [exact Q|]. intros b. rewrite B. rewrite (K0 i j o Hi Hj) in Q0. injection Q0 as <-. unfold no_dependency. rewrite N.bits_0. split; [intros [Z|Z]; [discriminate|exact Z]|auto].
  - intros y i j o Hy. destruct (Keep y i j Hy) as [Hy' D]. rewrite O1 by assumption. destruct Hy as (g & Hg & Hi & Hj). unfold kind_under, rd, w0. cbn [w_graphs w_mem]. rewrite nth_error_app1 by (apply nth_error_Some; congruence). reflexivity.
Qed.

Print Assumptions C119_instances.
Print Assumptions C119_lookup.
Print Assumptions C120_numbers.
Print Assumptions C120_too_many.
Print Assumptions C120_statements.
Print Assumptions C120_tests.
Print Assumptions C121_data.
Print Assumptions C121_control.
Print Assumptions C121_flow.
Print Assumptions C122_exact.
Print Assumptions C123_graph.
