(** * PropsEvalRun: C155, from the analysis of a grammar to the evaluation of its
    trees. *)
From Verif Require Import Base CondModel EdgeModel DncModel PropsCond EdgeProofs EdgeAddProofs EdgeGraph EdgeSem EdgeWorld PropsEdge SummaryProofs CloseProofs PropsClose DncProofs PropsDnc PropsTree CycleModel CycleSpec PropsCycle OagModel PropsOag PropsCto OaModel OaProofs PropsOagRun StModel StSpec StProofs StLink PropsStatic.
Open Scope nat_scope.

(** ** Specification *)
(** The rule [r] for the code generator and the production graph with the node
    [blocks] and instances [oins] are the same: [at_node] says where the instances
    of the left-hand side and of each child begin and which phylum they are of, and
    the phases of the instances are those of the schedules of the phyla. *)
Definition present (r : StModel.rule) (w : whose) : Prop := match w with Lhs => True | Child c => c < length (r_children r) end.
Record laid_out (M : phylum -> Z) (blocks : list (nat * option nat)) (ps : list phy) (scheds : list (list Z)) (at_node : whose -> nat * nat) (r : StModel.rule) (oins : list oinst) : Prop := {
  lo_same : same_instances oins r;
  lo_wf : wf M r;
  lo_lhs : snd (at_node Lhs) = r_lhs r;
  lo_child : forall c X, nth_error (r_children r) c = Some X -> snd (at_node (Child c)) = X;
  lo_block : forall w, present r w -> In (fst (at_node w), Some (snd (at_node w))) blocks /\ exists p, nth_error ps (snd (at_node w)) = Some p;
  lo_node : forall k g w p, nth_error (r_insts r) k = Some g -> nth_error ps (snd (at_node w)) = Some p -> present r w ->
    (belongs g w <-> exists i, i < p_n p /\ k = fst (at_node w) + i);
  lo_room : forall w p i, present r w -> nth_error ps (snd (at_node w)) = Some p -> i < p_n p -> fst (at_node w) + i < length (r_insts r);
  lo_phase : forall w i g, present r w -> nth_error (r_insts r) (fst (at_node w) + i) = Some g -> belongs g w -> g_ph g = phase_of (nth (snd (at_node w)) scheds []) i;
  lo_always : forall k g w inst, nth_error (r_insts r) k = Some g -> belongs g w -> nth_error oins k = Some inst -> always inst
}.
(** The schedule of each phylum has a synthesized attribute in each of its [M]
    phases. *)
Definition phases_used (M : phylum -> Z) (ps : list phy) (scheds : list (list Z)) : Prop := forall X p q, nth_error ps X = Some p -> (1 <= q <= M X)%Z -> exists i, i < p_n p /\ phase_of (nth X scheds []) i = q.
(** The matches of one case statement come after its first one, and not between
    those of others. *)
Definition cases_apart (s : state) (x : nat) (oins : list oinst) (r : StModel.rule) : Prop := forall i h, header_of (r_insts r) i = Some h ->
  exists j g k body d, nth_error (r_insts r) j = Some g /\ g_test g = Some (k, TMatch h true body d) /\
    (forall o inst inst', nth_error oins i = Some inst -> nth_error oins j = Some inst' -> meets o (oi_cond inst) -> meets o (oi_cond inst')) /\
    (j = i \/ forall o, needs_under s x o j i) /\
    forall j' g' k' h' body' d', nth_error (r_insts r) j' = Some g' -> g_test g' = Some (k', TMatch h' true body' d') -> h' <> h ->
      (forall o, needs_under s x o j' j) \/ (forall o, needs_under s x o i j').
(** The first instance that is no test is an inherited attribute of the node, in the
    first phase, that depends on nothing in the final graph. *)
Definition begins (s : state) (x : nat) (oins : list oinst) (r : StModel.rule) : Prop := exists k g inst, nth_error (r_insts r) k = Some g /\ nth_error oins k = Some inst /\ always inst /\ g_test g = None /\ g_lhs g = true /\ g_ph g = (-1)%Z /\
  (forall j, j < length oins -> pairs_at s x j k = Ok []) /\ (forall i, i < k -> is_test (r_insts r) i).

(** ** Proofs *)
Lemma kept_needs s s' x o j i : kept s s' -> needs_under s x o j i -> needs_under s' x o j i.
Proof.
  intros (_ & _ & K & _) [(g & Eg & H1 & H2) Hk]. cbn [graphs_of w_graphs] in Eg. destruct (K x g Eg) as (g' & Eg' & En & C). split; [exists g'; cbn [graphs_of w_graphs]; rewrite En; auto|]. eapply at_most_nz; [exact Hk|]. apply C; auto.
Qed.
Lemma rank_visit a b : a <> 0%Z -> b <> 0%Z -> (rank a < rank b)%Z -> PropsOag.visit a < PropsOag.visit b.
Proof. unfold rank, PropsOag.visit. intros. destruct (Z.ltb_spec a 0), (Z.ltb_spec b 0); lia. Qed.

Section ONE.
Context (M : phylum -> Z) (blocks : list (nat * option nat)) (s0 s' : state) (scheds : list (list Z)) (at_node : whose -> nat * nat) (r : StModel.rule) (oins : list oinst) (x : nat)
  (K : kept s0 s') (Ok' : edges_ok s') (Lo : laid_out M blocks (st_phys s0) scheds at_node r oins) (Hi : has_instances s' x oins) (Tn : tests_needed s0 x oins) (Ca : cases_apart s0 x oins r) (Be : begins s' x oins r) (Pu : phases_used M (st_phys s0) scheds)
  (Pn : forall start y p, In (start, Some y) blocks -> nth_error (st_phys s0) y = Some p -> forall o j i, j < p_n p -> i < p_n p -> PropsOag.visit_of (nth y scheds []) j < PropsOag.visit_of (nth y scheds []) i -> needs_under s' x o (start + j) (start + i)).
Lemma belongs_present k g w : nth_error (r_insts r) k = Some g -> belongs g w -> present r w.
Proof.
  intros E B. destruct w as [|c]; [exact I|]. cbn [belongs] in B. destruct (wf_child _ _ (lo_wf _ _ _ _ _ _ _ Lo) g c (nth_error_In _ _ E) B) as (X & EX & _). cbn [present]. apply nth_error_Some. congruence.
Qed.
Lemma belongs_nz k g w : nth_error (r_insts r) k = Some g -> belongs g w -> g_ph g <> 0%Z.
Proof.
  intros E B. destruct w as [|c]; cbn [belongs] in B.
  - destruct (wf_lhs _ _ (lo_wf _ _ _ _ _ _ _ Lo) g (nth_error_In _ _ E) B) as [H _]. lia.
  - destruct (wf_child _ _ (lo_wf _ _ _ _ _ _ _ Lo) g c (nth_error_In _ _ E) B) as (X & EX & H). lia.
Qed.
Lemma node_inst w q : present r w -> (1 <= q <= M (snd (at_node w)))%Z -> exists i g inst, nth_error (r_insts r) i = Some g /\ nth_error oins i = Some inst /\ always inst /\ belongs g w /\ g_ph g = q.
Proof.
  intros P Hq. destruct (lo_block _ _ _ _ _ _ _ Lo w P) as (Ib & p & Ep). destruct (Pu _ p q Ep Hq) as (i & Hi' & Ei). pose proof (lo_room _ _ _ _ _ _ _ Lo w p i P Ep Hi') as Lr.
  destruct (nth_error (r_insts r) (fst (at_node w) + i)) as [g|] eqn:Eg; [|apply nth_error_None in Eg; lia]. destruct (lo_same _ _ _ _ _ _ _ Lo) as [Ln _].
  destruct (nth_error oins (fst (at_node w) + i)) as [inst|] eqn:Eo; [|apply nth_error_None in Eo; lia].
  assert (B : belongs g w) by (apply (lo_node _ _ _ _ _ _ _ Lo _ g w p Eg Ep P); exists i; auto).
  exists (fst (at_node w) + i), g, inst. ands; auto; [apply (lo_always _ _ _ _ _ _ _ Lo _ g w inst Eg B Eo)|]. rewrite (lo_phase _ _ _ _ _ _ _ Lo w i g P Eg B). exact Ei.
Qed.
Lemma rule_analysed : StLink.analysed M s' x oins r.
Proof.
  constructor.
  - exact Ok'.
  - exact Hi.
  - intros i inst o b E Mo Hb. destruct (Tn i inst o b E Mo Hb) as (rr & rinst & k & H1 & H2 & H3 & H4 & H5). exists rr, rinst, k. ands; auto. eapply kept_needs; eauto.
  - apply (lo_same _ _ _ _ _ _ _ Lo).
  - apply (lo_wf _ _ _ _ _ _ _ Lo).
  - intros i j g g' w o Ei Ej B B' R. pose proof (belongs_present _ _ _ Ei B) as P. destruct (lo_block _ _ _ _ _ _ _ Lo w P) as (Ib & p & Ep).
    apply (proj1 (lo_node _ _ _ _ _ _ _ Lo i g w p Ei Ep P)) in B as H1. destruct H1 as (a & Ha & ->). apply (proj1 (lo_node _ _ _ _ _ _ _ Lo j g' w p Ej Ep P)) in B' as H2. destruct H2 as (b & Hb & ->).
    apply (Pn _ _ p Ib Ep); auto. unfold PropsOag.visit_of. rewrite <- (lo_phase _ _ _ _ _ _ _ Lo w a g P Ei B), <- (lo_phase _ _ _ _ _ _ _ Lo w b g' P Ej B'). apply rank_visit; auto; eapply belongs_nz; eauto.
  - intros ph P. destruct (node_inst Lhs ph I) as (i & g & inst & H1 & H2 & H3 & H4 & H5); [rewrite (lo_lhs _ _ _ _ _ _ _ Lo); exact P|]. exists i, g, inst. auto.
  - intros c X ph EX P. assert (Pc : present r (Child c)) by (cbn [present]; apply nth_error_Some; congruence). destruct (node_inst (Child c) ph Pc) as (i & g & inst & H1 & H2 & H3 & H4 & H5); [rewrite (lo_child _ _ _ _ _ _ _ Lo c X EX); exact P|]. exists i, g, inst. auto.
  - exact Be.
  - intros i h E. destruct (Ca i h E) as (j & g & k & body & d & H1 & H2 & H3 & H4 & H5). exists j, g, k, body, d. ands; auto.
    + destruct H4 as [->|H4]; [now left|right]. intros o. eapply kept_needs; eauto.
    + intros j' g' k' h' body' d' E1 E2 N. destruct (H5 j' g' k' h' body' d' E1 E2 N) as [H|H]; [left|right]; intros o; eapply kept_needs; eauto.
Qed.
End ONE.

(** ** C155 *)
(** A grammar whose analysis accepts it and gives schedules and orders: the order of
    every production is legal; and whenever the evaluator generated for these
    orders runs on a tree, every assignment is executed after those for the
    instances that it depends on, in the final graphs and so in the graphs the
    analysis began with. *)
Theorem C155_evaluation : forall rules dirs insts s0, well_formed rules s0 -> startable rules s0 -> directed dirs (st_phys s0) -> instances_given s0 insts ->
  exists bound s, (forall fuel, bound <= fuel -> dnc_close fuel rules s0 = Ok s) /\
  (acyclic s -> forall s' scheds ts, (exists fuel, bound <= fuel /\ compute_oag fuel rules dirs insts s = Ok (s', scheds, Some ts)) ->
   kept s0 s' /\
   forall (M : phylum -> Z) (G : nat -> StModel.rule) (x : nat -> nat) (node : nat -> whose -> nat * nat),
    phases_used M (st_phys s0) scheds ->
    (forall con, nth_error ts (x con) = Some (r_cto (G con)) /\
      exists r oins, nth_error rules (x con) = Some r /\ nth_error insts (x con) = Some oins /\
        laid_out M (r_blocks r) (st_phys s0) scheds (node con) (G con) oins /\ tests_needed s0 (x con) oins /\ cases_apart s0 (x con) oins (G con) /\ begins s' (x con) oins (G con)) ->
    (forall con, legal M (G con)) /\
    forall scala fuel n F O wrong ph X t a i b i' con cs j e e' oins ii ij,
      (forall con, scheduled_by ph (G con)) -> 2 <= fuel -> (forall con, visit_functions scala fuel n (G con) = Ok (F con)) ->
      typed G X t -> subtree t a = Some (Tree con cs) -> gives G t ph a i b i' ->
      nth_error insts (x con) = Some oins -> nth_error oins i = Some ii -> nth_error oins j = Some ij -> meets (as_bits (O a)) (oi_cond ii) -> meets (as_bits (O a)) (oi_cond ij) ->
      needs_under s' (x con) (as_bits (O a)) i j \/ needs_under s0 (x con) (as_bits (O a)) i j ->
      earlier (Set_ b i' e) (Set_ a j e') (evaluate (fun con => r_insts (G con)) F O wrong t (M X))).
Proof.
  intros rules dirs insts s0 Wf St Di Gv. destruct (compute_oag_facts rules dirs insts s0 Wf St Di Gv) as (bound & s & E & H). exists bound, s. split; auto. intros Ac s' scheds ts (fuel0 & Hf & Ec).
  destruct (H Ac) as (s1 & scheds1 & E1 & [(N1 & C1)|(A1 & s2 & K0 & Eo & _ & K1 & [(z & No & C1)|(ts2 & C1 & Lt & Or)])]); rewrite C1 in Ec by auto; try discriminate. injection Ec as -> -> ->.
  split; auto. intros M G x node Pu Hc.
  assert (An : forall con, exists oins, nth_error insts (x con) = Some oins /\ StLink.analysed M s' (x con) oins (G con) /\ schedule_augmented s' (x con) oins = Ok (r_cto (G con))).
  { intros con. destruct (Hc con) as (Et & r & oins & Er & Eoi & Lo & Tn & Ca & Be). destruct (Or (x con) _ Et) as (ins & Ei & Sc & Br & Ro & Ph). assert (ins = oins) by congruence. subst ins. exists oins. ands; auto.
    apply (rule_analysed M (r_blocks r) s0 s' scheds (node con) (G con) oins (x con)); auto.
    - pose proof K0 as (La & _ & Kg & _). assert (Lx : x con < length (st_augs s0)). { destruct Wf as (W1 & _). rewrite <- W1. apply nth_error_Some. congruence. }
      destruct (nth_error (st_augs s0) (x con)) as [g|] eqn:Eg; [|apply nth_error_None in Eg; lia]. destruct (Kg _ g Eg) as (g' & Eg' & En & _). destruct (Gv _ g Eg) as (ins & Ei' & Ln). assert (ins = oins) by congruence. subst ins. exists g'. split; auto. congruence.
    - intros start y p Hb Ep o j i Hj Hi V. pose proof K0 as (_ & _ & _ & Kp). destruct (Kp y p Ep) as (p' & Ep' & Lab & _). destruct (Ph r start y p' Er Hb Ep') as (sched & Es & Ls & Pn & _). rewrite (labels_n _ _ Lab) in Pn. apply Pn; auto. rewrite (nth_error_nth scheds y [] Es) in V. exact V. }
  split. { intros con. destruct (An con) as (oins & _ & A & Sc). exact (scheduled_orders_legal _ _ _ _ _ A Sc). }
  intros scala fuel n F O wrong ph X t a i b i' con cs j e e' oins ii ij Sb Hfu HF T Sa Gi Eoi Eii Eij Mi Mj Nd.
  set (oi := fun con => nth (x con) insts []). assert (An' : forall con, StLink.analysed M s' (x con) (oi con) (G con) /\ schedule_augmented s' (x con) (oi con) = Ok (r_cto (G con))).
  { intros c. destruct (An c) as (o1 & E2 & A & Sc). unfold oi. rewrite (nth_error_nth insts (x c) [] E2). auto. }
  assert (Eo1 : oi con = oins) by (unfold oi; exact (nth_error_nth insts (x con) [] Eoi)).
  assert (Ip : forall k ik, nth_error oins k = Some ik -> meets (as_bits (O a)) (oi_cond ik) -> In k (path (r_insts (G con)) (O a) (r_cto (G con)))).
  { intros k ik Ek Mk. destruct (An' con) as [A Sc]. rewrite Eo1 in A, Sc. apply (p_meets M s' (x con) oins (G con) A Sc). eauto. }
  eapply (dependencies_ready M G s' x oi scala fuel n F O wrong ph X t a i b i' con cs j e e'); eauto.
  - intros c. apply (An' c).
  - intros c. apply (An' c).
  - destruct Nd as [Nd|Nd]; [exact Nd|eapply kept_needs; eauto].
Qed.
(** A grammar that meets the hypotheses: X ::= X, where the inherited attribute 0 and
    the synthesized attribute 1 are passed on, and a leaf where a test decides
    what the synthesized attribute is. *)
Definition exw_rules : list DncModel.rule := [DncModel.mkRule [7; 8; 7; 8] [(0, Some 0); (2, Some 0)]; DncModel.mkRule [7; 8; 9] [(0, Some 0)]].
Definition exw_ops : list op := [NewGraph 4; AddEdge 0 0 2 (mkCond 0 0) 31; AddEdge 0 3 1 (mkCond 0 0) 31; NewGraph 3; AddEdge 1 2 1 (mkCond 0 0) 27]%N.
Definition exw_world : world := match build exw_ops (mkWorld (mkMem [] 0) []) with Some w => w | None => mkWorld (mkMem [] 0) [] end.
Definition exw_state : state := mkState (w_mem exw_world) (w_graphs exw_world) [mkPhy [7; 8] (repeat 0%N 4) false].
Definition exw_dirs : list (list direction) := [[instance_inward; instance_outward]].
Definition exw_insts : list (list oinst) := [repeat (mkOinst (mkCond 0%N 0%N) None) 4; [mkOinst (mkCond 0%N 0%N) None; mkOinst (mkCond 0%N 0%N) None; mkOinst (mkCond 0%N 0%N) (Some 0)]].
Definition exw_orders : list cto := [CNext 0 (CNext 2 (CNext 3 (CNext 1 CDone))); CNext 0 (CIf 2 (CNext 1 CDone) (CNext 1 CDone))].
Definition exw_node : StModel.rule := StModel.mkRule 0 [0] [mkGinst true None 0 (-1)%Z KInward None; mkGinst true None 1 1%Z KAttr None; mkGinst false (Some 0) 0 (-1)%Z KAttr None; mkGinst false (Some 0) 1 1%Z KInward None]
  (CNext 0 (CNext 2 (CNext 3 (CNext 1 CDone)))) [None; None; None; None] [(1, 10); (2, 11)].
Definition exw_leaf : StModel.rule := StModel.mkRule 0 [] [mkGinst true None 0 (-1)%Z KInward None; mkGinst true None 1 1%Z KAttr None; mkGinst false None 0 0%Z KProblem (Some (0, TIf [(1, 12)] [(1, 13)]))]
  (CNext 0 (CIf 2 (CNext 1 CDone) (CNext 1 CDone))) [None; None; None] [].
Definition exw_G (con : nat) : StModel.rule := match con with 0 => exw_node | _ => exw_leaf end.
Definition exw_x (con : nat) : nat := match con with 0 => 0 | _ => 1 end.
Definition exw_at (con : nat) (w : whose) : nat * nat := match con, w with 0, Child _ => (2, 0) | _, _ => (0, 0) end.
Lemma exw_wf : well_formed exw_rules exw_state.
Proof.
  split; [reflexivity|]. split.
  - intros p [<-|[]]. split; [reflexivity|]. intros x Hx. cbn in Hx. repeat (destruct Hx as [<-|Hx]; [apply zero_ok|]). destruct Hx.
  - intros x r g start y Hr Hg Hb. revert Hg. vm_compute (st_augs exw_state). intros Hg. destruct x as [|[|x]]; cbn in Hr, Hg; try (destruct x; discriminate); injection Hr as <-; injection Hg as <-; cbn in Hb;
      repeat (destruct Hb as [Hb|Hb]; [injection Hb as <- <-; eexists; split; [reflexivity|]; split; [cbn; lia|]; intros i Hi; cbn in Hi; destruct i as [|[|i]]; [reflexivity|reflexivity|lia]|]); destruct Hb.
Qed.
Lemma exw_built : built (graphs_of exw_state).
Proof. apply (build_ok exw_ops (mkWorld (mkMem [] 0) []) _ built_start). vm_compute. reflexivity. Qed.
Lemma exw_phys y p : nth_error (st_phys exw_state) y = Some p -> y = 0 /\ p_n p = 2.
Proof. intros H. destruct y as [|y]; [|destruct y; discriminate H]. injection H as <-. auto. Qed.
Ltac index k := repeat (destruct k as [|k]; cbn [nth_error] in *; try discriminate).
Lemma exw_laid con : laid_out (fun _ => 1%Z) (r_blocks (nth (exw_x con) exw_rules (DncModel.mkRule [] []))) (st_phys exw_state) [[-1; 1]%Z] (exw_at con) (exw_G con) (nth (exw_x con) exw_insts []).
Proof.
  assert (Hw : wf (fun _ => 1%Z) exw_node).
  { constructor.
    - intros g Hg. cbn in Hg. repeat (destruct Hg as [<-|Hg]; [cbn; intros; split; [lia|congruence]|]). destruct Hg.
    - intros g c Hg Hc. cbn in Hg. repeat (destruct Hg as [<-|Hg]; [first [discriminate Hc|injection Hc as <-; exists 0; split; [reflexivity|cbn; lia]]|]). destruct Hg.
    - intros g y Hg Hc. cbn in Hg. repeat (destruct Hg as [<-|Hg]; [discriminate Hc|]). destruct Hg.
    - intros i j g g' k y y' Hi _ Hc _. cbn [exw_node r_insts] in Hi. index i; injection Hi as <-; discriminate Hc.
    - intros b i e [->|(o & j & ->)] Hin; [cbn in Hin; repeat (destruct Hin as [Hin|Hin]; [injection Hin as <- <-; cbn; lia|]); destruct Hin|].
      cbn [exw_node r_insts] in Hin. unfold taken in Hin. do 4 (destruct j as [|j]; [destruct Hin|]). destruct j; destruct Hin.
    - reflexivity.
    - cbn. lia. }
  assert (Hl : wf (fun _ => 1%Z) exw_leaf).
  { constructor.
    - intros g Hg. cbn in Hg. repeat (destruct Hg as [<-|Hg]; [cbn; intros; first [congruence|split; [lia|congruence]]|]). destruct Hg.
    - intros g c Hg Hc. cbn in Hg. repeat (destruct Hg as [<-|Hg]; [discriminate Hc|]). destruct Hg.
    - intros g y Hg Hc. cbn in Hg. repeat (destruct Hg as [<-|Hg]; [first [discriminate Hc|split; reflexivity]|]). destruct Hg.
    - intros i j g g' k y y' Hi Hj Hc Hc'. cbn [exw_leaf r_insts] in Hi, Hj. index i; injection Hi as <-; try discriminate Hc; index j; injection Hj as <-; try discriminate Hc'; reflexivity.
    - intros b i e [->|(o & j & ->)] Hin; [destruct Hin|].
      cbn [exw_leaf r_insts] in Hin. unfold taken in Hin. do 2 (destruct j as [|j]; [destruct Hin|]). destruct j as [|j]; [|destruct j; destruct Hin]. cbn in Hin. destruct (o 0); destruct Hin as [Hin|[]]; injection Hin as <- <-; cbn; lia.
    - reflexivity.
    - cbn. lia. }
  destruct con as [|con]; cbn [exw_x nth exw_rules exw_insts r_blocks exw_G].
  - constructor; auto.
    + split; [reflexivity|]. intros i inst g Hi Hg. cbn [exw_node r_insts repeat] in *. index i; injection Hi as <-; injection Hg as <-; reflexivity.
    + intros c X Hc. cbn [exw_node r_children] in Hc. index c. injection Hc as <-. reflexivity.
    + intros w P. split; [destruct w as [|c]; cbn; auto|]. eexists. destruct w; reflexivity.
    + intros k g w p Hk Hp P. assert (Hn : p_n p = 2) by (destruct (exw_phys _ _ Hp); auto). rewrite Hn. destruct w as [|c]; cbn [exw_at fst belongs]; cbn [exw_node r_insts] in Hk.
      * index k; injection Hk as <-; cbn; split; intros H; try discriminate; try (exists 0; lia); try (exists 1; lia); auto; destruct H as (i & H1 & H2); lia.
      * cbn [present exw_node r_children length] in P. assert (c = 0) by lia. subst c. index k; injection Hk as <-; cbn; split; intros H; try discriminate; try (exists 0; lia); try (exists 1; lia); auto; destruct H as (i & H1 & H2); lia.
    + intros w p i P Hp Hi. assert (Hn : p_n p = 2) by (destruct (exw_phys _ _ Hp); auto). rewrite Hn in Hi. destruct w; cbn; lia.
    + intros w i g P Hk B. destruct w as [|c]; cbn [exw_at fst snd belongs nth] in *; cbn [exw_node r_insts] in Hk.
      * cbn [Nat.add] in Hk. index i; injection Hk as <-; try reflexivity; discriminate B.
      * cbn [Nat.add] in Hk. index i; injection Hk as <-; reflexivity.
    + intros k g w inst _ _ Hi. cbn [repeat] in Hi. index k; injection Hi as <-; intros o; apply meets_start.
  - constructor; auto.
    + split; [reflexivity|]. intros i inst g Hi Hg. cbn [exw_leaf r_insts] in *. index i; injection Hi as <-; injection Hg as <-; reflexivity.
    + intros c X Hc. cbn [exw_leaf r_children] in Hc. destruct c; discriminate Hc.
    + intros w P. split; [destruct w as [|c]; [cbn; auto|cbn in P; lia]|]. eexists. destruct w; reflexivity.
    + intros k g w p Hk Hp P. assert (Hn : p_n p = 2) by (destruct (exw_phys _ _ Hp); auto). rewrite Hn. destruct w as [|c]; [|cbn in P; lia]. cbn [exw_at fst belongs]; cbn [exw_leaf r_insts] in Hk.
      index k; injection Hk as <-; cbn; split; intros H; try discriminate; try (exists 0; lia); try (exists 1; lia); auto; destruct H as (i & H1 & H2); lia.
    + intros w p i P Hp Hi. assert (Hn : p_n p = 2) by (destruct (exw_phys _ _ Hp); auto). rewrite Hn in Hi. destruct w; cbn; lia.
    + intros w i g P Hk B. destruct w as [|c]; [|cbn in P; lia]. cbn [exw_at fst snd belongs nth] in *; cbn [exw_leaf r_insts] in Hk. cbn [Nat.add] in Hk. index i; injection Hk as <-; try reflexivity; discriminate B.
    + intros k g w inst Hk B Hi. index k; injection Hi as <-; intros o; apply meets_start.
Qed.
Example C155_example : well_formed exw_rules exw_state /\ startable exw_rules exw_state /\ directed exw_dirs (st_phys exw_state) /\ instances_given exw_state exw_insts /\
  exists s s', dnc_close 60 exw_rules exw_state = Ok s /\ acyclic s /\ compute_oag 60 exw_rules exw_dirs exw_insts s = Ok (s', [[-1; 1]%Z], Some exw_orders) /\
    phases_used (fun _ => 1%Z) (st_phys exw_state) [[-1; 1]%Z] /\
    (forall con, nth_error exw_orders (exw_x con) = Some (r_cto (exw_G con)) /\ exists r oins, nth_error exw_rules (exw_x con) = Some r /\ nth_error exw_insts (exw_x con) = Some oins /\
      laid_out (fun _ => 1%Z) (r_blocks r) (st_phys exw_state) [[-1; 1]%Z] (exw_at con) (exw_G con) oins /\ tests_needed exw_state (exw_x con) oins /\ cases_apart exw_state (exw_x con) oins (exw_G con) /\ begins s' (exw_x con) oins (exw_G con)) /\
    needs_under exw_state 1 (fun _ => true) 2 1 /\
    exists F, (forall con, visit_functions true 2 2 (exw_G con) = Ok (F con)) /\
      evaluate (fun con => r_insts (exw_G con)) F (fun _ _ => true) (fun _ _ _ => false) (Tree 0 [Tree 1 []]) 1%Z = [Set_ [] 2 11; Set_ [0] 1 12; Set_ [] 1 10].
Proof.
  split; [exact exw_wf|]. split; [exact (built_startable _ _ exw_wf exw_built)|]. split.
  { split; [reflexivity|]. intros [|y] d p Hd Hp; [|destruct y; discriminate]. injection Hd as <-. injection Hp as <-. split; [reflexivity|]. intros [|[|[]]]; discriminate. }
  split. { intros x g Hg. revert Hg. vm_compute (st_augs exw_state). intros Hg. destruct x as [|[|x]]; [| |destruct x; discriminate]; injection Hg as <-; eexists; split; reflexivity. }
  assert (E0 : exists s, dnc_close 60 exw_rules exw_state = Ok s) by (eexists; vm_compute; reflexivity). destruct E0 as (s & E0).
  assert (E1 : exists s', acyclic s /\ compute_oag 60 exw_rules exw_dirs exw_insts s = Ok (s', [[-1; 1]%Z], Some exw_orders) /\ (forall j, j < 4 -> pairs_at s' 0 j 0 = Ok []) /\ (forall j, j < 3 -> pairs_at s' 1 j 0 = Ok [])).
  { vm_compute in E0. injection E0 as <-. eexists. split; [vm_compute; reflexivity|]. split; [vm_compute; reflexivity|]. split; intros j Hj; repeat (destruct j as [|j]; [vm_compute; reflexivity|]); lia. }
  destruct E1 as (s' & Ac & Ec & B0 & B1). exists s, s'. split; [exact E0|]. split; [exact Ac|]. split; [exact Ec|]. clear E0 Ac Ec. split.
  { intros X p q Hp Hq. destruct (exw_phys _ _ Hp) as [-> ->]. assert (q = 1%Z) by lia. subst q. exists 1. split; [lia|reflexivity]. }
  split.
  { intros con. split; [destruct con; reflexivity|]. exists (nth (exw_x con) exw_rules (DncModel.mkRule [] [])), (nth (exw_x con) exw_insts []). split; [destruct con; reflexivity|]. split; [destruct con; reflexivity|]. split; [apply exw_laid|]. split; [|split].
    - intros i inst o b E _ Hb. exfalso. destruct con as [|con]; cbn [exw_x nth exw_insts repeat] in E; index i; injection E as <-; cbn in Hb; destruct Hb; discriminate.
    - intros i h Hh. exfalso. unfold header_of in Hh. destruct con as [|con]; cbn [exw_G exw_node exw_leaf r_insts] in Hh; index i.
    - exists 0, (mkGinst true None 0 (-1)%Z KInward None), (mkOinst (mkCond 0 0)%N None). destruct con as [|con]; (split; [reflexivity|]; split; [reflexivity|]; split; [intros o; apply meets_start|]; split; [reflexivity|]; split; [reflexivity|]; split; [reflexivity|]; split; [|intros i Hi; lia]); assumption. }
  split. { split; [eexists; split; [vm_compute; reflexivity|vm_compute; lia]|vm_compute; discriminate]. }
  exists (fun con => match visit_functions true 2 2 (exw_G con) with Ok l => l | _ => [] end). split; [intros [|con]; vm_compute; reflexivity|]. vm_compute. reflexivity.
Qed.
Print Assumptions C155_evaluation.
