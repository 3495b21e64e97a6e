(** * PropsUpDown: C48 (breaking cycles by the up/down construction) and C53. *)
From Verif Require Import Base CondModel EdgeModel DncModel PropsCond EdgeProofs EdgeAddProofs EdgeGraph EdgeSem EdgeWorld PropsEdge SummaryProofs CloseProofs PropsClose DncProofs PropsDnc PropsTree CycleModel UnionFind CycleSpec CycleProofs PropsCycle UpDownModel UpDownProofs UpDownAugProofs UpDownStateProofs UpDownStateProofs2.
Open Scope nat_scope.

(** ** Specification *)
(** Two instances in one cycle; the same instance or two in one cycle. *)
Definition mates (cycles : list cycle) (u v : inst) : Prop := exists c, In c cycles /\ In u (cy_insts c) /\ In v (cy_insts c).
Definition like (cycles : list cycle) (u v : inst) : Prop := u = v \/ mates cycles u v.
(** A direction is known for every instance of every graph. *)
Definition flagged (s : state) (pups aups : list (list bool)) : Prop :=
  (forall y p, nth_error (st_phys s) y = Some p -> exists ups, nth_error pups y = Some ups /\ length ups = p_n p) /\
  (forall x g, nth_error (st_augs s) x = Some g -> exists ups, nth_error aups x = Some ups /\ length ups = n_inst g).
Definition is_up (flags : list (list bool)) (x i : nat) : bool := nth i (nth x flags []) false.
(** Outcome o meets every condition on an edge between the groups of i and of j. *)
Definition meets_between (s : state) (cycles : list cycle) (o : outcome) (x i j : nat) : Prop := forall i' j' l c k,
  in_graph (graphs_of s) x i' j' -> like cycles (InGraph x i) (InGraph x i') -> like cycles (InGraph x j) (InGraph x j') -> pairs_at s x i' j' = Ok l -> In (c, k) l -> meets o c.
Definition compatible (s : state) (cycles : list cycle) : Prop := forall x i j, in_graph (graphs_of s) x i j -> exists o, meets_between s cycles o x i j.
Notation bit k b := (N.testbit k b = true).
Definition summary (s : state) (y i j : nat) : N := match nth_error (st_phys s) y with Some p => get (mingraph p) (p_n p) i j | None => no_dependency end.
Definition same_shape (s s' : state) : Prop :=
  map p_labels (st_phys s') = map p_labels (st_phys s) /\ map is_func (st_phys s') = map is_func (st_phys s) /\ map n_inst (st_augs s') = map n_inst (st_augs s).
(** What is left of the summary graphs: inside a cycle only dependencies that go up
    and then down (none if the construction goes the other way); between a cycle and
    the rest, whatever held for one instance of the cycle holds for all. *)
Definition summaries_broken (direction : bool) (cycles : list cycle) (pups : list (list bool)) (s s' : state) : Prop := forall y i j b, valid s (InSummary y i) -> valid s (InSummary y j) ->
  (mates cycles (InSummary y i) (InSummary y j) -> bit (summary s' y i j) b <->
     direction = true /\ is_up pups y i = true /\ is_up pups y j = false /\ exists j', mates cycles (InSummary y i) (InSummary y j') /\ bit (summary s y i j') b) /\
  (~ mates cycles (InSummary y i) (InSummary y j) -> bit (summary s' y i j) b <->
     exists i' j', valid s (InSummary y i') /\ valid s (InSummary y j') /\ like cycles (InSummary y i) (InSummary y i') /\ like cycles (InSummary y j) (InSummary y j') /\ bit (summary s y i' j') b).
(** The production graphs: [goes i j] if a dependency may go from i to j in a cycle. *)
Definition goes (direction : bool) (aups : list (list bool)) (x i j : nat) : Prop :=
  if direction then is_up aups x i = true /\ is_up aups x j = false else is_up aups x i = false /\ is_up aups x j = true.
Definition graphs_broken (direction : bool) (cycles : list cycle) (aups : list (list bool)) (s s' : state) : Prop := forall x i j, in_graph (graphs_of s) x i j ->
  let before o i j := kind_of_pair (graphs_of s) x o i j in let after o := kind_of_pair (graphs_of s') x o i j in
  let mate i j := mates cycles (InGraph x i) (InGraph x j) in let alike i j := like cycles (InGraph x i) (InGraph x j) in
  (** inside a cycle, the wrong way: nothing *)
  (mate i j -> ~ goes direction aups x i j -> forall o, after o = no_dependency) /\
  (** otherwise nothing is lost *)
  (~ mate i j \/ goes direction aups x i j -> forall o b, bit (before o i j) b -> bit (after o) b) /\
  (** what holds for one instance of a cycle holds for all, if all conditions hold *)
  (~ mate i j -> forall o b i' j', meets_between s cycles o x i j -> in_graph (graphs_of s) x i' j' -> alike i i' -> alike j j' -> bit (before o i' j') b -> bit (after o) b) /\
  (mate i j -> goes direction aups x i j -> forall o b j', meets_between s cycles o x i j -> mate i j' -> bit (before o i j') b -> bit (after o) b) /\
  (** and nothing else is added *)
  (~ mate i j -> forall o b, bit (after o) b -> exists i' j' o', in_graph (graphs_of s) x i' j' /\ alike i i' /\ alike j j' /\ bit (before o' i' j') b) /\
  (mate i j -> forall o b, bit (after o) b -> exists j' o', mate i j' /\ bit (before o' i j') b).

(** ** Proofs *)
Definition roots_of (s : state) (par : list (option nat)) : list nat := filter (isroot par) (seq 0 (num_instances s)).
Lemma find_cycles_marks lf rules s par cycles : analysed rules s -> find_cycles lf rules s = Ok (par, cycles) -> length par = num_instances s /\ cycles = map (cyc s par) (roots_of s par).
Proof.
  intros An E. destruct (make_cycles_ok lf rules s An) as (par0 & E0 & L0 & D0 & W0 & S0). destruct (get_fiber_ok rules s par0 An L0 W0) as (par' & E' & C & F). pose proof (co_len _ _ C) as Lp.
  unfold find_cycles in E. rewrite E0 in E. cbn [bind] in E. rewrite E' in E. injection E as <- <-. split; auto. congruence.
Qed.
Lemma marks_roots s par : map internal_info (map (cyc s par) (roots_of s par)) = roots_of s par.
Proof. rewrite map_map. cbn. apply map_id. Qed.
Lemma insd_nth par r start i : start + i < length par -> insd par r start i = true <-> nth_error par (start + i) = Some (Some r).
Proof. intros H. unfold insd. rewrite (Nat.add_comm i start), is_set_spec. rewrite (nth_error_nth' par None H). split; congruence. Qed.
Lemma mates_class s par u v : mates (map (cyc s par) (roots_of s par)) u v <-> exists r, In r (roots_of s par) /\ valid s u /\ valid s v /\ nth_error par (gidx s u) = Some (Some r) /\ nth_error par (gidx s v) = Some (Some r).
Proof.
  split.
  - intros (c & Hc & Hu & Hv). apply in_map_iff in Hc. destruct Hc as (r & <- & Hr). cbn [cyc cy_insts] in Hu, Hv. apply in_class in Hu, Hv. exists r. tauto.
  - intros (r & Hr & V1 & V2 & E1 & E2). exists (cyc s par r). split; [now apply in_map|]. cbn [cyc cy_insts]. rewrite !in_class. auto.
Qed.
Section Link.
Variables (s : state) (par : list (option nat)).
Hypothesis Lp : length par = num_instances s.
Notation cycles := (map (cyc s par) (roots_of s par)).
Lemma tog_summary y i j : valid s (InSummary y i) -> valid s (InSummary y j) -> tog par (phylum_start s y) (roots_of s par) i j <-> mates cycles (InSummary y i) (InSummary y j).
Proof.
  intros V1 V2. rewrite mates_class. pose proof (gidx_lt _ _ V1) as L1. pose proof (gidx_lt _ _ V2) as L2. rewrite <- Lp in L1, L2. cbn [gidx] in L1, L2 |- *. split.
  - intros (r & Hr & H1 & H2). exists r. rewrite insd_nth in H1, H2 by auto. tauto.
  - intros (r & Hr & _ & _ & H1 & H2). exists r. rewrite !insd_nth by auto. tauto.
Qed.
Lemma tog_graph x i j : valid s (InGraph x i) -> valid s (InGraph x j) -> tog par (constructor_start s x) (roots_of s par) i j <-> mates cycles (InGraph x i) (InGraph x j).
Proof.
  intros V1 V2. rewrite mates_class. pose proof (gidx_lt _ _ V1) as L1. pose proof (gidx_lt _ _ V2) as L2. rewrite <- Lp in L1, L2. cbn [gidx] in L1, L2 |- *. split.
  - intros (r & Hr & H1 & H2). exists r. rewrite insd_nth in H1, H2 by auto. tauto.
  - intros (r & Hr & _ & _ & H1 & H2). exists r. rewrite !insd_nth by auto. tauto.
Qed.
Lemma lk_summary y i j : valid s (InSummary y i) -> valid s (InSummary y j) -> lk par (phylum_start s y) (roots_of s par) i j <-> like cycles (InSummary y i) (InSummary y j).
Proof. intros V1 V2. unfold lk, like. rewrite tog_summary by auto. split; (intros [H|H]; [left; congruence|auto]). Qed.
Lemma lk_graph x i j : valid s (InGraph x i) -> valid s (InGraph x j) -> lk par (constructor_start s x) (roots_of s par) i j <-> like cycles (InGraph x i) (InGraph x j).
Proof. intros V1 V2. unfold lk, like. rewrite tog_graph by auto. split; (intros [H|H]; [left; congruence|auto]). Qed.
End Link.
Lemma mates_valid s par u v : mates (map (cyc s par) (roots_of s par)) u v -> valid s u /\ valid s v.
Proof. intros H. apply mates_class in H. destruct H as (r & H). tauto. Qed.

Definition broken (direction : bool) (cycles : list cycle) (pups aups : list (list bool)) (s s' : state) : Prop :=
  same_shape s s' /\ summaries_broken direction cycles pups s s' /\ graphs_broken direction cycles aups s s'.
Lemma break_ok lf rules s par cycles direction pups aups : analysed rules s -> good_world (graphs_of s) -> find_cycles lf rules s = Ok (par, cycles) -> flagged s pups aups -> compatible s cycles ->
  exists s', add_up_down_attributes direction par cycles pups aups s = Ok s' /\ broken direction cycles pups aups s s' /\ good_world (graphs_of s').
Proof.
  intros An (As & fl & W) E (F1 & F2) Co. destruct (find_cycles_marks _ _ _ _ _ An E) as [Lp ->]. cbn [graphs_of w_mem w_graphs] in W.
  assert (Vs : forall y p i, nth_error (st_phys s) y = Some p -> i < p_n p -> valid s (InSummary y i)) by (intros y p i Ep Hi; exists p; auto).
  assert (Vg : forall x A i, nth_error As x = Some A -> i < an A -> valid s (InGraph x i)).
  { intros x A i EA Hi. assert (x < length (st_augs s)) by (rewrite <- (wi_len _ _ _ _ W); apply nth_error_Some; congruence). destruct (nth_error (st_augs s) x) as [g|] eqn:Eg; [|apply nth_error_None in Eg; lia]. exists g. split; auto. rewrite (gp_n _ _ _ (wi_part _ _ _ _ W x g A Eg EA)). auto. }
  assert (Ag : forall x i, valid s (InGraph x i) -> exists A, nth_error As x = Some A /\ i < an A).
  { intros x i (g & Eg & Hi). destruct (world_focus _ _ _ _ _ _ W Eg) as (A & EA & G). exists A. split; auto. rewrite <- (gp_n _ _ _ (gi_part _ _ _ _ _ G)). auto. }
  assert (Ig : forall x A i j, nth_error As x = Some A -> i < an A -> j < an A -> in_graph (graphs_of s) x i j).
  { intros x A i j EA Hi Hj. destruct (Vg x A i EA Hi) as (g & Eg & Hi'). destruct (Vg x A j EA Hj) as (g' & Eg' & Hj'). exists g. cbn [graphs_of w_graphs]. assert (g' = g) by congruence. subst. auto. }
  assert (Pa : forall x A i j, nth_error As x = Some A -> i < an A -> j < an A -> pairs_at s x i j = Ok (pairs (cell A i j))).
  { intros x A i j EA Hi Hj. destruct (Vg x A i EA Hi) as (g & Eg & _). destruct (world_focus _ _ _ _ _ _ W Eg) as (A' & EA' & G). assert (A' = A) by congruence. subst A'. destruct (read_cell _ _ _ _ _ i j G Hi Hj) as (p & E1 & E2). unfold pairs_at. rewrite (proj2 (rd_Ok _ _ _) Eg). cbn [bind]. rewrite E1. cbn [bind]. exact E2. }
  assert (Bk : forall x A i j o, nth_error As x = Some A -> i < an A -> j < an A -> blk par (constructor_start s x) (an A) (roots_of s par) A o i j <-> meets_between s (map (cyc s par) (roots_of s par)) o x i j).
  { intros x A i j o EA Hi Hj. unfold blk, meets_between. split.
    - intros H i' j' l c k (g & Eg & Hi' & Hj') L1 L2 El Hin. cbn [graphs_of w_graphs] in Eg. destruct (Ag x i') as (A1 & EA1 & Hi1); [exists g; auto|]. destruct (Ag x j') as (A2 & EA2 & Hj1); [exists g; auto|]. assert (A1 = A) by congruence. assert (A2 = A) by congruence. subst A1 A2.
      rewrite (Pa x A i' j') in El by auto. injection El as <-. unfold pairs in Hin. apply in_map_iff in Hin. destruct Hin as ([[a c'] k'] & Ec & Hin). cbn in Ec. injection Ec as -> ->. eapply (H i' j' Hi1 Hj1); eauto; apply (lk_graph s par Lp); eauto.
    - intros H i' j' Hi' Hj' L1 L2 a c k Hin. apply (H i' j' (pairs (cell A i' j')) c k); eauto; try (apply (lk_graph s par Lp); eauto). unfold pairs. apply in_map_iff. exists (a, c, k). auto. }
  assert (Hp : forall y p, nth_error (st_phys s) y = Some p -> length (mingraph p) = p_n p * p_n p /\ (forall l, l < p_n p -> l + phylum_start s y < length par) /\ exists ups, nth_error pups y = Some ups /\ length ups = p_n p).
  { intros y p Ep. destruct An as ((_ & Hm & _) & _). ands; auto.
    - apply (Hm p). eapply nth_error_In; eauto.
    - intros l Hl. rewrite Lp, Nat.add_comm. apply (gidx_lt s (InSummary y l)). eauto. }
  assert (Ha : forall x A, nth_error As x = Some A -> (forall l, l < an A -> l + constructor_start s x < length par) /\ (exists ups, nth_error aups x = Some ups /\ length ups = an A) /\ forall i j, i < an A -> j < an A -> exists o, blk par (constructor_start s x) (an A) (roots_of s par) A o i j).
  { intros x A EA. assert (x < length (st_augs s)) by (rewrite <- (wi_len _ _ _ _ W); apply nth_error_Some; congruence). destruct (nth_error (st_augs s) x) as [g|] eqn:Eg; [|apply nth_error_None in Eg; lia]. pose proof (gp_n _ _ _ (wi_part _ _ _ _ W x g A Eg EA)) as En. ands.
    - intros l Hl. rewrite Lp, Nat.add_comm. apply (gidx_lt s (InGraph x l)). eauto.
    - destruct (F2 x g Eg) as (ups & E1 & E2). exists ups. split; auto. congruence.
    - intros i j Hi Hj. destruct (Co x i j) as (o & Ho); eauto. exists o. apply Bk; auto. }
  destruct (SI_all direction par pups aups s As (roots_of s par) Hp Ha (ex_intro _ fl W)) as (s' & E' & I). { apply NoDup_filter, seq_NoDup. }
  exists s'. split. { unfold add_up_down_attributes. rewrite marks_roots. exact E'. }
  destruct I as (L1 & I1 & As' & fl' & W' & L2 & I2). split; [|exists As', fl'; exact W'].
  assert (T : forall x i j, valid s (InGraph x i) -> valid s (InGraph x j) -> tog par (constructor_start s x) (roots_of s par) i j <-> mates (map (cyc s par) (roots_of s par)) (InGraph x i) (InGraph x j)) by (intros; now apply tog_graph).
  split; [|split].
  - split; [|split].
    + apply nth_map_eq; auto. intros i p p' Ep Ep'. apply (I1 i p' p Ep' Ep).
    + apply nth_map_eq; auto. intros i p p' Ep Ep'. apply (I1 i p' p Ep' Ep).
    + rewrite (winv_map _ _ _ _ W), (winv_map _ _ _ _ W'). apply nth_map_eq; auto. intros i q q' Q Q'. apply (I2 i q' q Q' Q).
  - intros y i j b Vi Vj. pose proof Vi as (p & Ep & Hi). pose proof Vj as (p2 & Ep2 & Hj). assert (p2 = p) by congruence. subst p2. assert (y < length (st_phys s')) by (rewrite L1; apply nth_error_Some; congruence). destruct (nth_error (st_phys s') y) as [p'|] eqn:Ep'; [|apply nth_error_None in Ep'; lia].
    destruct (I1 y p p' Ep Ep') as (J1 & J2 & J3 & J4). destruct (Hp y p Ep) as (_ & _ & ups & Eu & Lu). specialize (J4 ups Eu i j b Hi Hj). destruct J4 as [J4 J5].
    unfold summary, is_up. rewrite Ep, Ep'. rewrite (pn_eq _ _ J1). rewrite (nth_error_nth _ _ _ Eu). rewrite (tog_summary s par Lp) in J4, J5 by auto. unfold up, tb in *. split.
    + intros M. rewrite (J4 M). split; intros (B1 & B2 & B3 & j' & B); ands; auto; exists j'.
      * destruct B as (B4 & B5 & B6). split; auto. apply (tog_summary s par Lp); eauto.
      * destruct B as (B5 & B6). pose proof (mates_valid _ _ _ _ B5) as [_ (p3 & Ep3 & B4)]. assert (p3 = p) by congruence. subst p3. ands; auto. apply (tog_summary s par Lp); eauto.
    + intros M. rewrite (J5 M). split; intros (i' & j' & B1 & B2 & B3 & B4 & B5); exists i', j'.
      * ands; eauto; apply (lk_summary s par Lp); eauto.
      * pose proof B1 as (q1 & Q1 & Q2). pose proof B2 as (q3 & Q3 & Q4). assert (q1 = p) by congruence. assert (q3 = p) by congruence. subst q1 q3. ands; auto; apply (lk_summary s par Lp); eauto.
  - intros x i j Hin. cbv beta zeta. destruct (in_graph_A (graphs_of s) As fl x i j W Hin) as (A & EA & Hi & Hj). assert (x < length As') by (rewrite L2; apply nth_error_Some; congruence). destruct (nth_error As' x) as [A'|] eqn:EA'; [|apply nth_error_None in EA'; lia].
    destruct (I2 x A A' EA EA') as (Jn & J). destruct (Ha x A EA) as (_ & (ups & Eu & Lu) & _). specialize (J ups Eu).
    assert (Kb : forall i j o b, i < an A -> j < an A -> N.testbit (kind_of_pair (graphs_of s) x o i j) b = true <-> sees o (cell A i j) b).
    { intros i0 j0 o b Hi0 Hj0. rewrite (kind_of_pair_A (graphs_of s) As fl x A o) by auto. apply seen_bit. }
    assert (Ka : forall o b, N.testbit (kind_of_pair (graphs_of s') x o i j) b = true <-> sees o (cell A' i j) b).
    { intros o b. rewrite (kind_of_pair_A (graphs_of s') As' fl' x A' o) by (auto; congruence). apply seen_bit. }
    assert (Go : goes direction aups x i j <-> okp direction ups i j = true).
    { unfold goes, okp, is_up, sup, up. rewrite (nth_error_nth _ _ _ Eu). destruct direction, (nth i ups false), (nth j ups false); cbn; intuition congruence. }
    assert (Vi : valid s (InGraph x i)) by eauto. assert (Vj : valid s (InGraph x j)) by eauto. specialize (T x).
    assert (No : ~ goes direction aups x i j -> okp direction ups i j = false) by (rewrite Go; destruct (okp direction ups i j); auto; intros Z; now exfalso).
    ands.
    + intros M G o. apply N.bits_inj_0. intros b. destruct (N.testbit (kind_of_pair (graphs_of s') x o i j) b) eqn:X; auto. exfalso. apply Ka in X. rewrite (as_cut _ _ _ _ _ _ _ _ _ J i j) in X; auto. { destruct X as (? & ? & ? & [] & _). } apply T; auto.
    + intros Q o b X. apply Ka. apply Kb in X; auto. apply (as_keep _ _ _ _ _ _ _ _ _ J); auto. intros [Y Z]. apply T in Y; auto. destruct Q as [Q|Q]; auto. apply Go in Q. congruence.
    + intros M o b i' j' Mb I' A1 A2 X. destruct (in_graph_A (graphs_of s) As fl x i' j' W I') as (A3 & EA3 & Hi' & Hj'). assert (A3 = A) by congruence. subst A3. apply Ka. apply Kb in X; auto. apply (as_gain _ _ _ _ _ _ _ _ _ J i j i' j' o b); auto.
      * rewrite T; auto.
      * apply Bk; auto.
      * apply (lk_graph s par Lp); eauto.
      * apply (lk_graph s par Lp); eauto.
    + intros M G o b j' Mb M' X. pose proof (mates_valid _ _ _ _ M') as [_ Vj']. destruct (Ag x j' Vj') as (A3 & EA3 & Hj'). assert (A3 = A) by congruence. subst A3. apply Ka. apply Kb in X; auto. apply (as_gain_in _ _ _ _ _ _ _ _ _ J i j j' o b); auto.
      * apply T; auto.
      * now apply Go.
      * apply Bk; auto.
      * apply T; auto.
    + intros M o b X. apply Ka in X. destruct (as_from _ _ _ _ _ _ _ _ _ J i j o b Hi Hj) as (i' & j' & o' & Hi' & Hj' & L3 & L4 & Y); auto. { rewrite T; auto. } exists i', j', o'. ands; eauto.
      * apply (lk_graph s par Lp); eauto.
      * apply (lk_graph s par Lp); eauto.
      * apply Kb; auto.
    + intros M o b X. apply Ka in X. destruct (as_from_in _ _ _ _ _ _ _ _ _ J i j o b Hi Hj) as (j' & o' & Hj' & T' & Y); auto. { apply T; auto. } exists j', o'. split; [apply T; eauto|]. apply Kb; auto.
Qed.

(** ** C48 *)
(** After the closure, whatever directions the instances have: if the conditions on
    the edges between any two groups can hold together, breaking the cycles found
    succeeds and does exactly this. *)
Theorem C48_break_cycles : forall rules s0, well_formed rules s0 -> startable rules s0 ->
  exists bound s, (forall fuel, bound <= fuel -> dnc_close fuel rules s0 = Ok s) /\
  forall left_first par cycles direction pups aups, find_cycles left_first rules s = Ok (par, cycles) -> flagged s pups aups -> compatible s cycles ->
    exists s', add_up_down_attributes direction par cycles pups aups s = Ok s' /\ same_shape s s' /\ summaries_broken direction cycles pups s s' /\ graphs_broken direction cycles aups s s'.
Proof.
  intros rules s0 Wf St. destruct (start_dinv rules s0 Wf St) as (B & As & D). destruct (dnc_close_any B rules s0 As D) as (bd & s & As' & E & D' & L & G & F).
  destruct (done_spec B rules s As' D' F) as (F1 & F2 & F3). exists bd, s. split; auto. intros lf par cycles dir pups aups Ef Fl Co.
  assert (An : analysed rules s) by (unfold analysed; ands; auto; eapply done_edges; eauto).
  destruct (di_world _ _ _ _ D') as (fl & W). destruct (break_ok lf rules s par cycles dir pups aups An) as (s' & E' & (B1 & B2 & B3) & _); auto. { exists As', fl. exact W. } exists s'. ands; auto.
Qed.
Print Assumptions C48_break_cycles.

(** When no edge has a condition, the conditions always fit together. *)
Lemma unconditional_compatible s cycles : (forall x i j l c k, pairs_at s x i j = Ok l -> In (c, k) l -> c = mkCond 0 0) -> compatible s cycles.
Proof. intros H x i j _. exists (fun _ => false). intros i' j' l c k _ _ _ El Hin. rewrite (H _ _ _ _ _ _ El Hin). apply meets_none. Qed.
Definition all_unconditional (s : state) : bool :=
  forallb (fun g => forallb (fun p => match set_at (st_mem s) p with Ok l => forallb (fun e => N.eqb (positive (fst e)) 0 && N.eqb (negative (fst e)) 0) l | _ => true end) (graph g)) (st_augs s).
Lemma all_unconditional_ok s cycles : all_unconditional s = true -> compatible s cycles.
Proof.
  intros H. apply unconditional_compatible. intros x i j l c k E Hin. unfold pairs_at in E. destruct (rd (st_augs s) x) as [g| | |] eqn:Eg; try discriminate. cbn [bind] in E. destruct (rd (graph g) (i * n_inst g + j)) as [p| | |] eqn:Ep; try discriminate. cbn [bind] in E.
  apply rd_Ok, nth_error_In in Eg. apply rd_Ok, nth_error_In in Ep. unfold all_unconditional in H. rewrite forallb_forall in H. specialize (H g Eg). rewrite forallb_forall in H. specialize (H p Ep). rewrite E in H. rewrite forallb_forall in H. specialize (H (c, k) Hin). cbn [fst] in H. apply andb_true_iff in H. destruct H as [H1 H2]. apply N.eqb_eq in H1, H2. destruct c. cbn in *. congruence.
Qed.

(** A grammar with one production X ::= X, three attributes u, v (up) and w (down):
    v depends on u and w on v at the root of the production, and u at the root and
    w below it depend on each other.  So u and w are in a cycle, v is not. *)
Definition exu_rules : list rule := [mkRule [7; 8; 9; 7; 8; 9] [(0, Some 0); (3, Some 0)]].
Definition exu_ops : list op := [NewGraph 6; AddEdge 0 0 1 (mkCond 0 0) 1; AddEdge 0 1 2 (mkCond 0 0) 1; AddEdge 0 0 5 (mkCond 0 0) 1; AddEdge 0 5 0 (mkCond 0 0) 1]%N.
Definition exu_world : world := match build exu_ops (mkWorld (mkMem [] 0) []) with Some w => w | None => mkWorld (mkMem [] 0) [] end.
Definition exu_state : state := mkState (w_mem exu_world) (w_graphs exu_world) [mkPhy [7; 8; 9] (repeat 0%N 9) false].
Definition exu_pups : list (list bool) := [[true; true; false]].
Definition exu_aups : list (list bool) := [[true; true; false; true; true; false]].
Lemma exu_wf : well_formed exu_rules exu_state.
Proof.
  split; [reflexivity|]. split.
  - intros p [<-|[]]. split; [reflexivity|]. intros x Hx. cbn in Hx. repeat (destruct Hx as [<-|Hx]; [apply zero_ok|]). destruct Hx.
  - intros x r g start y Hr Hg Hb. revert Hg. vm_compute (st_augs exu_state). intros Hg. destruct x as [|x]; cbn in Hr, Hg; try (destruct x; discriminate); injection Hr as <-; injection Hg as <-; cbn in Hb;
      repeat (destruct Hb as [Hb|Hb]; [injection Hb as <- <-; eexists; split; [reflexivity|]; split; [cbn; lia|]; intros i Hi; cbn in Hi; destruct i as [|[|[|i]]]; [reflexivity|reflexivity|reflexivity|lia]|]); destruct Hb.
Qed.
Lemma exu_built : built (graphs_of exu_state).
Proof. apply (build_ok exu_ops (mkWorld (mkMem [] 0) []) _ built_start). vm_compute. reflexivity. Qed.
Lemma flagged_ok s pups aups : map (@length bool) pups = map p_n (st_phys s) -> map (@length bool) aups = map n_inst (st_augs s) -> flagged s pups aups.
Proof.
  assert (G : forall X (f : X -> nat) (fl : list (list bool)) l y x, map (@length bool) fl = map f l -> nth_error l y = Some x -> exists ups, nth_error fl y = Some ups /\ length ups = f x).
  { intros X f fl l y x E Ex. assert (E2 : nth_error (map (@length bool) fl) y = Some (f x)) by (rewrite E; now apply map_nth_error). rewrite nth_error_map in E2. destruct (nth_error fl y) as [ups|]; [|discriminate]. injection E2 as E2. eauto. }
  intros H1 H2. split; intros; eapply G; eauto.
Qed.
Lemma closed_state rules s0 f s1 : dnc_close f rules s0 = Ok s1 -> forall bd s, (forall fuel, bd <= fuel -> dnc_close fuel rules s0 = Ok s) -> s = s1.
Proof. intros E1 bd s E. specialize (E (Nat.max bd f) ltac:(lia)). rewrite (dnc_close_mono f (Nat.max bd f) rules s0 s1 ltac:(lia) E1) in E. congruence. Qed.
(** The hypotheses of C48 are met, and the result: *)
Example C48_example : exists s par cycles s', dnc_close 60 exu_rules exu_state = Ok s /\ startable exu_rules exu_state /\ find_cycles true exu_rules s = Ok (par, cycles) /\
  flagged s exu_pups exu_aups /\ compatible s cycles /\ add_up_down_attributes true par cycles exu_pups exu_aups s = Ok s' /\
  map cy_insts cycles = [[InSummary 0 0; InSummary 0 2; InGraph 0 0; InGraph 0 2; InGraph 0 3; InGraph 0 5]] /\
  map mingraph (st_phys s) = [[1; 1; 1; 0; 0; 1; 0; 0; 1]%N] /\ map mingraph (st_phys s') = [[0; 1; 1; 1; 0; 1; 0; 1; 0]%N].
Proof.
  assert (E0 : exists s0, dnc_close 60 exu_rules exu_state = Ok s0) by (eexists; vm_compute; reflexivity). destruct E0 as (s0 & E0). exists s0.
  pose proof (built_startable _ _ exu_wf exu_built) as St.
  assert (Z : exists par cycles s', find_cycles true exu_rules s0 = Ok (par, cycles) /\ map (@length bool) exu_pups = map p_n (st_phys s0) /\ map (@length bool) exu_aups = map n_inst (st_augs s0) /\ all_unconditional s0 = true /\ add_up_down_attributes true par cycles exu_pups exu_aups s0 = Ok s' /\
    map cy_insts cycles = [[InSummary 0 0; InSummary 0 2; InGraph 0 0; InGraph 0 2; InGraph 0 3; InGraph 0 5]] /\ map mingraph (st_phys s0) = [[1; 1; 1; 0; 0; 1; 0; 0; 1]%N] /\ map mingraph (st_phys s') = [[0; 1; 1; 1; 0; 1; 0; 1; 0]%N]).
  { clear St. vm_compute in E0. injection E0 as <-. eexists _, _, _. split; [vm_compute; reflexivity|]. split; [vm_compute; reflexivity|]. split; [vm_compute; reflexivity|]. split; [vm_compute; reflexivity|]. split; [vm_compute; reflexivity|]. split; [reflexivity|]. split; [reflexivity|]. vm_compute. reflexivity. }
  destruct Z as (par & cycles & s' & Z1 & Z2 & Z3 & Z4 & Z5 & Z6 & Z7 & Z8). exists par, cycles, s'. split; [exact E0|]. split; [exact St|]. split; [exact Z1|]. split; [now apply flagged_ok|]. split; [now apply all_unconditional_ok|]. split; [exact Z5|]. split; [exact Z6|]. split; [exact Z7|exact Z8].
Qed.

(** Without the hypothesis that conditions fit together the construction does lose
    dependencies: it joins the masks of the conditions, so edges from k to two
    instances of a cycle under opposite conditions give edges that never hold.
    Here, with tests 0 and 1 failing, 2 depends on 0 but its mate 1 does not. *)
Definition exv_rules : list rule := [mkRule [7; 8; 9] []].
Definition exv_ops : list op := [NewGraph 3; AddEdge 0 0 1 (mkCond 1 0) 1; AddEdge 0 0 2 (mkCond 0 1) 1; AddEdge 0 1 2 (mkCond 2 0) 1; AddEdge 0 2 1 (mkCond 2 0) 1]%N.
Definition exv_world : world := match build exv_ops (mkWorld (mkMem [] 0) []) with Some w => w | None => mkWorld (mkMem [] 0) [] end.
Definition exv_state : state := mkState (w_mem exv_world) (w_graphs exv_world) [].
Lemma exv_wf : well_formed exv_rules exv_state.
Proof.
  split; [reflexivity|]. split; [intros p []|]. intros x r g start y Hr _ Hb. destruct x as [|[|x]]; [|discriminate Hr|discriminate Hr]. injection Hr as <-. destruct Hb.
Qed.
Theorem C48_conditions_refuted : exists s par cycles s' o, well_formed exv_rules exv_state /\ startable exv_rules exv_state /\ dnc_close 60 exv_rules exv_state = Ok s /\ find_cycles true exv_rules s = Ok (par, cycles) /\
  flagged s [] [[true; true; false]] /\ add_up_down_attributes true par cycles [] [[true; true; false]] s = Ok s' /\
  map cy_insts cycles = [[InGraph 0 1; InGraph 0 2]] /\ kind_of_pair (graphs_of s) 0 o 0 2 = 1%N /\ kind_of_pair (graphs_of s') 0 o 0 1 = no_dependency.
Proof.
  assert (E0 : exists s0, dnc_close 60 exv_rules exv_state = Ok s0) by (eexists; vm_compute; reflexivity). destruct E0 as (s0 & E0). exists s0.
  pose proof exv_wf as Wf.
  assert (Bw : built (graphs_of exv_state)). { apply (build_ok exv_ops (mkWorld (mkMem [] 0) []) _ built_start). vm_compute. reflexivity. }
  pose proof (built_startable _ _ Wf Bw) as St. clear Bw.
  assert (Z : exists par cycles s', find_cycles true exv_rules s0 = Ok (par, cycles) /\ [] = map p_n (st_phys s0) /\ map (@length bool) [[true; true; false]] = map n_inst (st_augs s0) /\ add_up_down_attributes true par cycles [] [[true; true; false]] s0 = Ok s' /\
    map cy_insts cycles = [[InGraph 0 1; InGraph 0 2]] /\ kind_of_pair (graphs_of s0) 0 (fun _ => false) 0 2 = 1%N /\ kind_of_pair (graphs_of s') 0 (fun _ => false) 0 1 = no_dependency).
  { clear St Wf. vm_compute in E0. injection E0 as <-. eexists _, _, _. split; [vm_compute; reflexivity|]. split; [vm_compute; reflexivity|]. split; [vm_compute; reflexivity|]. split; [vm_compute; reflexivity|]. split; [reflexivity|]. split; [vm_compute; reflexivity|]. vm_compute. reflexivity. }
  destruct Z as (par & cycles & s' & Z1 & Z2 & Z3 & Z5 & Z6 & Z7 & Z8). exists par, cycles, s', (fun _ => false). split; [exact Wf|]. split; [exact St|]. split; [exact E0|]. split; [exact Z1|]. split; [now apply flagged_ok|]. split; [exact Z5|]. split; [exact Z6|]. split; [exact Z7|exact Z8].
Qed.

(** ** C53 *)
(** Breaking the fiber cycles need not leave the graphs acyclic: in the first example
    v, which was in no cycle, ends up depending on itself. *)
Theorem C53_acyclic_refuted : exists s s', well_formed exu_rules exu_state /\ startable exu_rules exu_state /\ dnc_close 60 exu_rules exu_state = Ok s /\ flagged s exu_pups exu_aups /\
  analysis_state_cycle s = Ok 1%N /\ ~ circular s (InSummary 0 1) /\
  break_fiber_cycles 60 true exu_rules exu_pups exu_aups 1 s = Ok s' /\ analysis_state_cycle s' = Ok 1%N /\ circular s' (InSummary 0 1).
Proof.
  assert (E0 : exists s0, dnc_close 60 exu_rules exu_state = Ok s0) by (eexists; vm_compute; reflexivity). destruct E0 as (s0 & E0). exists s0. pose proof (built_startable _ _ exu_wf exu_built) as St.
  assert (Z : exists s', map (@length bool) exu_pups = map p_n (st_phys s0) /\ map (@length bool) exu_aups = map n_inst (st_augs s0) /\ analysis_state_cycle s0 = Ok 1%N /\ (exists p, nth_error (st_phys s0) 0 = Some p /\ get (mingraph p) (p_n p) 1 1 = no_dependency) /\
    break_fiber_cycles 60 true exu_rules exu_pups exu_aups 1 s0 = Ok s' /\ analysis_state_cycle s' = Ok 1%N /\ exists p, nth_error (st_phys s') 0 = Some p /\ p_n p = 3 /\ get (mingraph p) (p_n p) 1 1 = 1%N).
  { clear St. vm_compute in E0. injection E0 as <-. eexists. split; [vm_compute; reflexivity|]. split; [vm_compute; reflexivity|]. split; [vm_compute; reflexivity|]. split; [eexists; split; [reflexivity|vm_compute; reflexivity]|]. split; [vm_compute; reflexivity|]. split; [vm_compute; reflexivity|]. eexists. split; [reflexivity|]. split; vm_compute; reflexivity. }
  destruct Z as (s' & Z1 & Z2 & Z3 & (p & Z4 & Z5) & Z6 & Z7 & (p' & Z8 & Z9 & Z10)). exists s'. split; [exact exu_wf|]. split; [exact St|]. split; [exact E0|]. split; [now apply flagged_ok|]. split; [exact Z3|]. split.
  { rewrite (circ_summary s0 0 1 p Z4). intros [_ X]. now apply X. }
  split; [exact Z6|]. split; [exact Z7|]. apply (circ_summary s' 0 1 p' Z8). rewrite Z10. split; [rewrite Z9; lia|]. discriminate.
Qed.
Print Assumptions C48_conditions_refuted.
Print Assumptions C53_acyclic_refuted.
