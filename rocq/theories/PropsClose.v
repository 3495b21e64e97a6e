(** * PropsClose: C42 (closing the worklist of one production graph). *)
From Verif Require Import Base CondModel EdgeModel DncModel PropsCond EdgeProofs EdgeAddProofs EdgeGraph EdgeSem EdgeWorld PropsEdge SummaryProofs CloseProofs.
Open Scope nat_scope.

(** ** Specification *)
(** The kind of dependency between two instances of graph [x] under an outcome. *)
Definition kind_of_pair (w : world) (x : nat) (o : outcome) (i j : nat) : N := match kind_under w x i j o with Ok k => k | _ => no_dependency end.
Definition small_kinds (w : world) (x : nat) : Prop := forall i j l a c k, in_graph w x i j -> members w x i j l -> In (a, c, k) l -> (k <= max_dependency)%N.
(** Two consecutive edges neither of which waits in the queue have their
    composition in the graph. *)
Definition settled (w : world) (x : nat) : Prop := forall q i j k l1 l2 a1 c1 k1 a2 c2 k2 o, queue w x q -> in_graph w x i j -> in_graph w x j k ->
  members w x i j l1 -> members w x j k l2 -> In (a1, c1, k1) l1 -> In (a2, c2, k2) l2 -> ~ In a1 q -> ~ In a2 q -> meets o c1 -> meets o c2 ->
  at_most (dependency_trans k1 k2) (kind_of_pair w x o i k) = true.

(** ** Proofs *)
Lemma trans_join_l a b c : kind_ok a -> kind_ok b -> kind_ok c -> dependency_trans (dependency_join a b) c = dependency_join (dependency_trans a c) (dependency_trans b c).
Proof.
  intros Ha Hb Hc. rewrite (trans_comm (dependency_join a b) c), (trans_comm a c), (trans_comm b c) by auto using join_ok. apply C38_trans; auto.
Qed.
Lemma zero_le k : at_most no_dependency k = true.
Proof. apply at_most_incl. intros i. unfold tb, no_dependency. rewrite N.bits_0. discriminate. Qed.
Lemma seen_trans B l o b K : ebound B l -> kind_ok b -> (forall a c k, In (a, c, k) l -> meets o c -> at_most (dependency_trans k b) K = true) -> at_most (dependency_trans (seen o (pairs l)) b) K = true.
Proof.
  intros Hl Hb. induction l as [|[[a c] k] l IH]; intros H.
  - cbn [pairs map seen fold_right]. destruct (C38_trans b b b Hb Hb Hb) as (_ & _ & _ & -> & _). apply zero_le.
  - cbn [pairs map seen fold_right cond_of kind_of fst snd]. fold (pairs l). fold (seen o (pairs l)). pose proof (ebound_tl _ _ _ Hl) as Hl'. pose proof (seen_ok B l o Hl') as So.
    assert (I : at_most (dependency_trans (seen o (pairs l)) b) K = true) by (apply IH; auto; intros a0 c0 k0 Hi Mo; apply (H a0 c0 k0); [now right|auto]).
    destruct (meetsb o c) eqn:M; auto. apply meetsb_spec in M. destruct (Hl a c k (or_introl eq_refl)) as [_ Kk]. rewrite trans_join_l by auto. apply join_lub; auto. apply (H a c k); [now left|auto].
Qed.
Lemma composed_closed B A o : abound B A -> length (acells A) = an A * an A -> composed A -> awl A = [] -> trans_closed (an A) (kindA A o).
Proof.
  intros Hb L C W i j k Hi Hj Hk. pose proof (cell_bound _ _ _ _ Hb L Hi Hk) as B1. pose proof (cell_bound _ _ _ _ Hb L Hk Hj) as B2.
  unfold kindA at 1 2. eapply seen_trans; eauto using seen_ok. intros a1 c1 k1 H1 M1. destruct (B1 _ _ _ H1) as [_ K1].
  rewrite trans_comm by eauto using seen_ok. eapply seen_trans; eauto. intros a2 c2 k2 H2 M2. destruct (B2 _ _ _ H2) as [_ K2]. rewrite trans_comm by auto.
  eapply (C i k j); eauto; rewrite W; auto.
Qed.
Lemma bound_conds (l : list condition) : exists B, forall c, In c l -> cbound B c.
Proof.
  induction l as [|c l (B & IH)]; [exists 0%N; intros c []|]. exists (N.lor (N.lor (positive c) (negative c)) B). intros c0 [<-|H].
  - split; intros i; unfold tb; rewrite !N.lor_spec; intros ->; now rewrite ?orb_true_r.
  - destruct (IH _ H) as [H1 H2]. split; intros i Hi; [apply H1 in Hi|apply H2 in Hi]; unfold tb in *; rewrite N.lor_spec, Hi; now rewrite orb_true_r.
Qed.
Definition conds (A : agraph) : list condition := map cond_of (concat (acells A)).
Lemma in_conds A l a c k : In l (acells A) -> In (a, c, k) l -> In c (conds A).
Proof. intros H1 H2. apply in_map_iff. exists (a, c, k). split; auto. apply in_concat. eauto. Qed.
Definition kindsA (A : agraph) : Prop := forall l a c k, In l (acells A) -> In (a, c, k) l -> kind_ok k.
Lemma bound_graphs As : (forall A, In A As -> kindsA A) -> exists B, forall A, In A As -> abound B A.
Proof.
  intros H. destruct (bound_conds (flat_map conds As)) as (B & HB). exists B. intros A HA l Hl a c k Hi. split.
  - apply HB. apply in_flat_map. exists A. split; auto. eapply in_conds; eauto.
  - eapply H; eauto.
Qed.

Lemma kind_of_pair_A w As fl x A o i j : winv (w_mem w) (w_graphs w) As fl -> nth_error As x = Some A -> i < an A -> j < an A -> kind_of_pair w x o i j = kindA A o i j.
Proof. intros W HA Hi Hj. unfold kind_of_pair. now rewrite (kind_under_cell _ _ _ _ _ _ _ o W HA Hi Hj). Qed.
Lemma in_graph_iff w As fl x A i j : winv (w_mem w) (w_graphs w) As fl -> nth_error As x = Some A -> i < an A -> j < an A -> in_graph w x i j.
Proof. intros W HA Hi Hj. destruct (an_graph _ _ _ _ _ W HA) as (g & Hg & En & _). exists g. rewrite En. auto. Qed.
Lemma small_kindsA w As fl x A : winv (w_mem w) (w_graphs w) As fl -> nth_error As x = Some A -> small_kinds w x <-> kindsA A.
Proof.
  intros W HA. destruct (an_graph _ _ _ _ _ W HA) as (g & Hg & En & G). pose proof (gp_clen _ _ _ (gi_part _ _ _ _ _ G)) as L. split; intros H.
  - intros l a c k Hl Hi. destruct (in_cell A l L Hl) as (i & j & Hi' & Hj' & ->). eapply (H i j); eauto using in_graph_iff. eapply members_cell; eauto.
  - intros i j l a c k I M Hi. destruct (in_graph_A _ _ _ _ _ _ W I) as (A' & HA' & Hi' & Hj'). assert (A' = A) by congruence. subst A'.
    apply (members_cell _ _ _ _ _ _ _ _ W HA Hi' Hj') in M. subst l. eapply H; eauto. now apply cell_in.
Qed.
Lemma settledA w As fl x A : winv (w_mem w) (w_graphs w) As fl -> nth_error As x = Some A -> settled w x <-> composed A.
Proof.
  intros W HA. split; intros H.
  - intros i j k a1 c1 k1 a2 c2 k2 Hi Hj Hk H1 H2 N1 N2 o M1 M2. rewrite <- (kind_of_pair_A _ _ _ _ _ o i k W HA) by auto.
    eapply (H (awl A) i j k); eauto using in_graph_iff.
    + eapply queue_awl; eauto.
    + eapply members_cell; eauto.
    + eapply members_cell; eauto.
  - intros q i j k l1 l2 a1 c1 k1 a2 c2 k2 o Q I1 I2 Me1 Me2 H1 H2 N1 N2 M1 M2.
    destruct (in_graph_A _ _ _ _ _ _ W I1) as (A1 & HA1 & Hi & Hj). assert (A1 = A) by congruence. subst A1.
    destruct (in_graph_A _ _ _ _ _ _ W I2) as (A2 & HA2 & _ & Hk). assert (A2 = A) by congruence. subst A2.
    apply (queue_awl _ _ _ _ _ _ W HA) in Q. apply (members_cell _ _ _ _ _ _ _ _ W HA Hi Hj) in Me1. apply (members_cell _ _ _ _ _ _ _ _ W HA Hj Hk) in Me2. subst.
    rewrite (kind_of_pair_A _ _ _ _ _ o i k W HA) by auto. eapply (H i j k); eauto.
Qed.

(** ** C42: closing the worklist terminates; under every outcome of the conditions
    the graph afterwards is the least transitively closed one containing the graph
    before.  No other graph changes. *)
Theorem C42_worklist_closure : forall w x g, reached w -> nth_error (w_graphs w) x = Some g -> small_kinds w x -> settled w x ->
  exists bound, forall fuel, bound <= fuel -> exists m' g', close_worklist fuel (w_mem w) g = Ok (m', g') /\
  let w' := mkWorld m' (upd (w_graphs w) x g') in let n := n_inst g in
  queue w' x [] /\ n_inst g' = n /\ small_kinds w' x /\
  (forall y o i j, y <> x -> in_graph w y i j -> kind_under w' y i j o = kind_under w y i j o) /\
  forall o, contains n (kind_of_pair w x o) (kind_of_pair w' x o) /\ trans_closed n (kind_of_pair w' x o) /\
    forall M, kinds n M -> trans_closed n M -> contains n (kind_of_pair w x o) M -> contains n (kind_of_pair w' x o) M.
Proof.
  intros w x g R Hg Sk St. destruct (reached_good _ R) as (As & fl & W). destruct (world_focus _ _ _ _ _ _ W Hg) as (A & HA & G).
  apply (small_kindsA _ _ _ _ _ W HA) in Sk. apply (settledA _ _ _ _ _ W HA) in St. pose proof (gp_n _ _ _ (gi_part _ _ _ _ _ G)) as En.
  destruct (bound_graphs [A]) as (B & HB). { intros A0 [<-|[]]; auto. } specialize (HB A (or_introl eq_refl)).
  destruct (close_worklist_ok B (rest_ids As x) (room B A) (length (awl A)) (w_mem w) g A fl G HB St) as (bd & H); auto.
  exists bd. intros fuel Hf. destruct (H fuel Hf) as (m' & g' & A' & E & C & Wl & _). exists m', g'. split; auto. cbv zeta.
  destruct (cf_inv _ _ _ _ _ _ _ C) as (fl' & G'). pose proof (world_put _ _ _ _ _ _ _ _ _ _ _ W Hg HA G' (cf_frame _ _ _ _ _ _ _ C)) as W'.
  assert (L : x < length As) by (apply nth_error_Some; congruence).
  assert (HA' : nth_error (upd As x A') x = Some A') by (now apply nth_error_upd_eq).
  pose proof (cf_n _ _ _ _ _ _ _ C) as Ea.
  set (w' := mkWorld m' (upd (w_graphs w) x g')) in *. change m' with (w_mem w') in W'. change (upd (w_graphs w) x g') with (w_graphs w') in W'.
  assert (Kp : forall o i j, i < an A -> j < an A -> kind_of_pair w' x o i j = kindA A' o i j). { intros. eapply kind_of_pair_A; eauto; congruence. }
  assert (Kp0 : forall o i j, i < an A -> j < an A -> kind_of_pair w x o i j = kindA A o i j). { intros. eapply kind_of_pair_A; eauto. }
  split; [|split; [|split; [|split]]].
  - apply (queue_awl _ _ _ _ _ _ W' HA'). auto.
  - rewrite (gp_n _ _ _ (gi_part _ _ _ _ _ G')). congruence.
  - apply (small_kindsA _ _ _ _ _ W' HA'). intros l a c k Hl Hi. eapply (cf_bound _ _ _ _ _ _ _ C); eauto.
  - intros y o i j Hy Hin. destruct (in_graph_A _ _ _ _ _ _ W Hin) as (Ay & HAy & Hi & Hj). rewrite (kind_under_cell _ _ _ _ _ _ _ o W HAy Hi Hj).
    apply (kind_under_cell w' _ _ y Ay i j o W'); auto. rewrite nth_error_upd_neq; auto.
  - intros o. rewrite En. ands.
    + intros i j Hi Hj. rewrite Kp, Kp0 by auto. apply ent_mono_kind. intros c k. apply (cf_ent _ _ _ _ _ _ _ C); auto.
    + intros i j k Hi Hj Hk. rewrite !Kp by auto. apply (composed_closed B A' o); try congruence; try apply C. apply G'.
    + intros M KM TM CM i j Hi Hj. rewrite Kp by auto. apply (cf_below _ _ _ _ _ _ _ C o M); try congruence. { split; auto. }
      intros i' j' Hi' Hj'. rewrite <- Kp0 by auto. apply CM; auto.
Qed.
(** At the start every edge waits in the queue, so the graph is settled: this holds
    of every graph made by adding edges only. *)
Inductive built : world -> Prop :=
| built_start : built (mkWorld (mkMem [] 0) [])
| built_new w n w' : built w -> step (NewGraph n) w = Ok w' -> built w'
| built_add w x i j c k w' : built w -> allowed (AddEdge x i j c k) w -> (k <= max_dependency)%N -> step (AddEdge x i j c k) w = Ok w' -> built w'.
Lemma built_reached w : built w -> reached w.
Proof. induction 1; [apply reached_start|eapply (reached_step _ (NewGraph n)); eauto; exact I|eapply (reached_step _ (AddEdge x i j c k)); eauto]. Qed.
Definition startA (A : agraph) : Prop := kindsA A /\ forall i j a c k, i < an A -> j < an A -> In (a, c, k) (cell A i j) -> In a (awl A).
Lemma built_inv w : built w -> exists As fl, winv (w_mem w) (w_graphs w) As fl /\ forall A, In A As -> startA A.
Proof.
  induction 1 as [|w n w' Bw (As & fl & W & H) E|w x i j c k w' Bw (As & fl & W & H) Al Hk E].
  - exists [], []. split; [apply world_nil|]. intros A [].
  - destruct (step_ok w As fl (NewGraph n) W I) as (w2 & As' & fl' & E2 & W' & ->). assert (w2 = w') by congruence. subst w2. exists (As ++ [new_a n]), fl'. split; auto.
    intros A HA. apply in_app_iff in HA. destruct HA as [HA|[<-|[]]]; auto. split.
    + intros l a c k Hl. apply repeat_spec in Hl. subst. intros [].
    + intros i j a c k Hi Hj. unfold cell, new_a. cbn [acells]. rewrite nth_repeat. intros [].
  - destruct (step_ok w As fl (AddEdge x i j c k) W Al) as (w2 & As' & fl' & E2 & W' & A & A' & HA & Hi & Hj & Ag & ->). assert (w2 = w') by congruence. subst w2. eexists _, fl'. split; [exact W'|].
    destruct (H A (nth_error_In _ _ HA)) as [K Q].
    destruct (bound_conds (c :: conds A)) as (B & HB). assert (AB : abound B A). { intros l Hl a0 c0 k0 Hi0. split; [apply HB; right; eapply in_conds; eauto|eapply K; eauto]. }
    destruct (an_graph _ _ _ _ _ W HA) as (g & Hg & En & G). pose proof (gp_clen _ _ _ (gi_part _ _ _ _ _ G)) as L. destruct Al as (_ & _ & Sc). apply sat_consistent in Sc.
    destruct (addG_ext B _ _ _ _ _ _ _ _ _ _ G Ag Hi Hj Sc (HB c (or_introl eq_refl)) Hk AB) as (X & AB' & _ & _).
    assert (S' : startA A').
    { split; [intros l a0 c0 k0 Hl Hi0; eapply AB'; eauto|]. pose proof (ge_n _ _ _ X) as En'. rewrite En'. intros i' j' a0 c0 k0 Hi' Hj' Hin.
      destruct (in_dec Nat.eq_dec a0 (awl A')) as [|Hn]; auto. destruct (ge_old _ _ _ X i' j' a0 c0 k0 Hi' Hj' Hin Hn) as [Y1 Y2]. exfalso. apply Y2. apply (Q i' j' a0 c0 k0); auto. }
    intros A0 HA0. apply In_nth_error in HA0. destruct HA0 as (y & Hy). rewrite nth_error_upd in Hy. destruct (x =? y).
    + destruct (y <? length As); [|discriminate]. injection Hy as <-. auto.
    + apply H. eapply nth_error_In; eauto.
Qed.
Lemma built_settled w x : built w -> x < length (w_graphs w) -> small_kinds w x /\ settled w x.
Proof.
  intros Bw L. destruct (built_inv w Bw) as (As & fl & W & H). rewrite <- (wi_len _ _ _ _ W) in L. destruct (nth_error As x) as [A|] eqn:HA; [|apply nth_error_None in HA; lia].
  destruct (H A (nth_error_In _ _ HA)) as [K Q]. split; [eapply small_kindsA; eauto|]. eapply settledA; eauto. intros i j k a1 c1 k1 a2 c2 k2 Hi Hj Hk H1 H2 N1. exfalso. apply N1. apply (Q i j a1 c1 k1); auto.
Qed.
Theorem C42_worklist_closure_start : forall w x g, built w -> nth_error (w_graphs w) x = Some g ->
  exists bound, forall fuel, bound <= fuel -> exists m' g', close_worklist fuel (w_mem w) g = Ok (m', g') /\
  let w' := mkWorld m' (upd (w_graphs w) x g') in let n := n_inst g in
  queue w' x [] /\
  forall o, contains n (kind_of_pair w x o) (kind_of_pair w' x o) /\ trans_closed n (kind_of_pair w' x o) /\
    forall M, kinds n M -> trans_closed n M -> contains n (kind_of_pair w x o) M -> contains n (kind_of_pair w' x o) M.
Proof.
  intros w x g Bw Hg. assert (L : x < length (w_graphs w)) by (apply nth_error_Some; congruence). destruct (built_settled w x Bw L) as [Sk St].
  destruct (C42_worklist_closure w x g (built_reached w Bw) Hg Sk St) as (bd & H). exists bd. intros fuel Hf. destruct (H fuel Hf) as (m' & g' & E & Q & _ & _ & _ & C). exists m', g'. auto.
Qed.
(** A chain 0 -> 1 -> 2 -> 3 with conditions: 0 -> 1 if test 0 succeeds, 1 -> 2 if it
    fails or test 1 succeeds. *)
Definition chain : list op :=
  [NewGraph 4; AddEdge 0 0 1 (mkCond 1 0) 19; AddEdge 0 1 2 (mkCond 0 1) 3; AddEdge 0 1 2 (mkCond 2 0) 1; AddEdge 0 2 3 (mkCond 0 0) 23]%N.
Fixpoint build (l : list op) (w : world) : option world :=
  match l with
  | [] => Some w
  | NewGraph n :: l => match step (NewGraph n) w with Ok w => build l w | _ => None end
  | AddEdge x i j c k :: l => if allowedb (AddEdge x i j c k) w && (k <=? 31)%N then match step (AddEdge x i j c k) w with Ok w => build l w | _ => None end else None
  | _ => None
  end.
Lemma build_ok l : forall w w', built w -> build l w = Some w' -> built w'.
Proof.
  induction l as [|o l IH]; intros w w' R H; [injection H as <-; auto|]. destruct o as [n|x i j c k|x|x i j]; try discriminate; cbn [build] in H.
  - destruct (step (NewGraph n) w) as [w1| | |] eqn:E; try discriminate. eapply IH; [|exact H]. eapply built_new; eauto.
  - destruct (allowedb (AddEdge x i j c k) w) eqn:A; [|discriminate]. cbn [andb] in H. destruct (N.leb_spec k 31) as [Lk|]; [|discriminate]. destruct (step (AddEdge x i j c k) w) as [w1| | |] eqn:E; try discriminate.
    eapply IH; [|exact H]. eapply built_add; eauto. cbn [allowedb allowed] in *. rewrite !andb_true_iff, negb_true_iff, N.eqb_neq, N.eqb_eq in A. destruct A as ((A1 & A2) & A3). ands; auto using in_graphb_ok, sat_mask.
Qed.
Example C42_example : exists w g m' g', built w /\ nth_error (w_graphs w) 0 = Some g /\ close_worklist 20 (w_mem w) g = Ok (m', g') /\
  let w' := mkWorld m' (upd (w_graphs w) 0 g') in
  kind_of_pair w' 0 (fun _ => true) 0 3 = 3%N /\ kind_of_pair w' 0 (fun i => N.eqb i 0) 0 3 = 0%N /\ kind_of_pair w' 0 (fun _ => false) 1 3 = 3%N.
Proof.
  destruct (build chain (mkWorld (mkMem [] 0) [])) as [w|] eqn:E; [|vm_compute in E; discriminate].
  pose proof (build_ok _ _ _ built_start E) as Bw. exists w. clear -Bw E. revert Bw. vm_compute in E. injection E as <-. intros Bw. eexists _, _, _. split; [exact Bw|]. split; [reflexivity|].
  split; [vm_compute; reflexivity|]. vm_compute. auto.
Qed.
Print Assumptions C42_worklist_closure.
Print Assumptions C42_worklist_closure_start.
