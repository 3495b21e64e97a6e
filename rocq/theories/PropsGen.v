(** * PropsGen: C70, C71 (the code of visit procedures). *)
From Verif Require Import Base CondModel OagModel PropsCond PropsComponent ChunkModel OrderModel SchedSpec PropsChunk PropsSched GenModel GenSpec GenProofs GenTrace GenSched GenRun GenText SchedFuel.
From Verif Require PrimeModel PropsUtil.
Open Scope nat_scope.

(** ** C70: whatever the total order, the text of a procedure is that of one program: every
    test, match, for and loop that is opened is closed, in the right place. *)
Lemma generate_body G block t phase skip allowed toks : generate G block t phase skip allowed = Ok toks ->
  exists asg c b, make_instance_assignment G block (repeat [] (length (g_insts G))) = Ok asg /\ plan G phase skip t asg None allowed None (mkCond 0 0) = Ok (c, b) /\ fst b = [] /\ toks = flat_map text (snd b).
Proof.
  unfold generate. intros H. destruct (make_instance_assignment G block (repeat [] (length (g_insts G)))) as [asg| | |] eqn:Ea; try discriminate. cbn [bind] in H. rewrite implement_plan in H by (auto; left; reflexivity).
  destruct (plan G phase skip t asg None allowed None (mkCond 0 0)) as [[c b]| | |] eqn:Ep; try discriminate. cbn [bind] in H. exists asg, c, b. split; [auto|]. split; [auto|]. split; [exact (plan_shut G phase skip t None asg allowed None (mkCond 0 0) c b Ep eq_refl)|].
  injection H as <-. now rewrite app_nil_r.
Qed.
Theorem C70_program : forall G block t phase skip allowed toks, generate G block t phase skip allowed = Ok toks -> exists! body, toks = flat_map text body.
Proof.
  intros G block t phase skip allowed toks H. destruct (generate_body G block t phase skip allowed toks H) as (asg & c & b & _ & _ & _ & E). exists (snd b). split; [exact E|]. intros b' E'. apply text_unique. congruence.
Qed.
Print Assumptions C70_program.

(** ** C71: the procedures of all visits, called one after the other, do what the total
    order says. *)
(** a rule that is scheduled gives a good tree *)
Lemma scheduled_good fuel ps base size r t : schedule_rule fuel ps base size r = Ok t -> own_tests r -> local_tests r -> good r (mkCond 0 0) 1 t.
Proof.
  unfold schedule_rule. intros H Ho Hl. destruct (collect_aug_graph_chunks ps base size r) as [cg| | |]; try discriminate. cbn [bind] in H.
  destruct (sched ps base size r cg fuel VisitStart 0 (mkCond 0 0) 1 (mkSst (repeat false (length (r_insts r))) (repeat false (length (cg_chunks cg))) 0)) as [[st t0]| | |] eqn:E; try discriminate. cbn [bind] in H.
  assert (t0 = t) by (destruct t0 as [|a b0 c0 d0 e0 f0 g0 h0 i0]; [discriminate|]; destruct (assert_total_order r cg (Node a b0 c0 d0 e0 f0 g0 h0 i0)); try discriminate; now injection H). subst t0.
  apply (sched_good ps base size r cg Ho Hl _ _ _ _ _ _ _ _ E); [now intros []|]. intros k Hk. unfold bit_in in Hk. cbn in Hk. discriminate.
Qed.
Lemma start_holds G : holds G (repeat [] (length (g_insts G))) (fun _ => []).
Proof. split; [apply repeat_length|]. intros i Hi. rewrite nth_error_repeat, (proj2 (Nat.ltb_lt _ _) Hi). reflexivity. Qed.
Lemma generate_trail G r block t phase skip allowed toks o times : good r (mkCond 0 0) 1 t -> describes G r -> no_for_in G -> generate G block t phase skip allowed = Ok toks ->
  exists body, toks = flat_map text body /\ once (verdict G o) times body = trail G phase skip o t (inside G block (fun _ => [])).
Proof.
  intros Hg Hd Hf H. destruct (generate_body G block t phase skip allowed toks H) as (asg & c & b & E1 & E2 & E3 & E4). exists (snd b). split; [exact E4|].
  destruct (plan_trail G r phase skip o times Hd Hf (mkCond 0 0) 1 t Hg asg _ None allowed None c b (fun _ => eq_refl) (make_inside G block _ asg _ E1 (start_holds G)) E2) as [_ T]. unfold tr in T. now rewrite E3 in T.
Qed.
(** [procedures G block t lr body]: body p is the program of the procedure of visit p *)
Definition procedures (G : gen) (r : rule) (block : gblock) (t : cto) (lr : bool) (body : nat -> list stmt) : Prop :=
  forall p, 1 <= p <= last_phase r -> visit_procedure G block t lr p = Ok (flat_map text (body p)).
Theorem C71_visits : forall fuel ps base size r t G block lr body o times,
  schedule_rule fuel ps base size r = Ok t -> own_tests r -> local_tests r -> describes G r -> no_for_in G ->
  procedures G r block t lr body ->
  let todo := performed G r o (inside G block (fun _ => [])) (run r o t) in
  (** without repetitions of loops exactly that is done, in that order *)
  flat_map (fun p => once (verdict G o) times (body p)) (seq 1 (last_phase r)) = todo /\
  (** however often loops are repeated nothing else is done, and for the first time in
      that order *)
  forall L, (forall p, exec (verdict G o) times (body p) (L p)) -> firsts (flat_map L (seq 1 (last_phase r))) = firsts todo.
Proof.
  intros fuel ps base size r t G block lr body o times Hs Ho Hl Hd Hf Hp todo. pose proof (scheduled_good _ _ _ _ _ _ Hs Ho Hl) as Hg.
  assert (A : flat_map (fun p => once (verdict G o) times (body p)) (seq 1 (last_phase r)) = todo).
  { unfold todo. rewrite <- (all_visits G r o Hd (mkCond 0 0) 1 t Hg). replace (S (last_phase r) - 1) with (last_phase r) by lia. apply flat_map_eq. intros p Hi. apply in_seq in Hi.
    destruct (generate_trail G r block t p true lr _ o times Hg Hd Hf (Hp p ltac:(lia))) as (b & E1 & E2). apply text_unique in E1. now rewrite E1. }
  split; [exact A|]. intros L HL. rewrite <- A. clear A. induction (seq 1 (last_phase r)) as [|p l IH]; [reflexivity|]. cbn [flat_map]. apply eqv_app; [now apply exec_once|exact IH].
Qed.
(** The same for visit() of a module and the body of a function, which are one procedure,
    when the last visit ends last. *)
Theorem C71_one : forall fuel ps base size r t G block toks o times,
  schedule_rule fuel ps base size r = Ok t -> own_tests r -> local_tests r -> describes G r -> no_for_in G ->
  (module_visit G block t = Ok toks \/ function_body G block t = Ok toks) ->
  (forall l1 l2, run r o t = l1 ++ EndVisit (last_phase r) :: l2 -> l2 = []) ->
  let todo := performed G r o (inside G block (fun _ => [])) (run r o t) in
  exists body, toks = flat_map text body /\ once (verdict G o) times body = todo /\ forall L, exec (verdict G o) times body L -> firsts L = firsts todo.
Proof.
  intros fuel ps base size r t G block toks o times Hs Ho Hl Hd Hf Hm He todo. pose proof (scheduled_good _ _ _ _ _ _ Hs Ho Hl) as Hg.
  assert (K : exists body, toks = flat_map text body /\ once (verdict G o) times body = todo).
  { unfold todo. rewrite <- (one_procedure G r o Hd (mkCond 0 0) 1 t Hg He). unfold last_phase. rewrite <- (ds_parent G r Hd). destruct Hm as [Hm|Hm]; exact (generate_trail G r block t _ false _ toks o times Hg Hd Hf Hm). }
  destruct K as (body & K1 & K2). exists body. split; [auto|]. split; [auto|]. intros L HL. rewrite <- K2. now apply exec_once.
Qed.
(** What has to be done is in the right order when the total order is: what an instance
    depends on is assigned before it, and the visits of each child are made, in order. *)
Lemma performed_app G r o : forall L1 L2 tab, exists tab', performed G r o tab (L1 ++ L2) = performed G r o tab L1 ++ performed G r o tab' L2.
Proof.
  induction L1 as [|e L1 IH]; intros L2 tab; [now exists tab|]. destruct e as [i|c q|q]; cbn [app performed].
  - destruct (nth_error (g_insts G) i) as [x|]; [|apply IH]. destruct (gi_kind x); try apply IH. destruct (IH L2 tab) as [tab' E]. exists tab'. now rewrite E, app_assoc.
  - destruct (IH L2 tab) as [tab' E]. exists tab'. now rewrite E.
  - destruct (IH L2 tab) as [tab' E]. exists tab'. now rewrite E, app_assoc.
Qed.
Lemma performed_set G r o i e : forall L tab, In (ASet i e) (performed G r o tab L) -> In (Compute i) L.
Proof.
  induction L as [|ev L IH]; intros tab H; [destruct H|]. destruct ev as [j|c q|q]; cbn [performed] in H.
  - destruct (nth_error (g_insts G) j) as [x|]; [|right; eauto]. destruct (gi_kind x); try (right; eapply IH; eassumption). apply in_app_iff in H. destruct H as [H|H]; [|right; eauto]. destruct (gi_inward x); [destruct H|]. unfold sets in H. destruct (has_code G p (channel r j)); [|destruct H]. apply in_map_iff in H. destruct H as (e' & [= -> _] & _). now left.
  - destruct H as [H|H]; [discriminate|right; eauto].
  - apply in_app_iff in H. destruct H as [H|H]; [|right; eauto]. destruct (g_mod G); [destruct H as [H|[]]; discriminate|destruct H].
Qed.
Theorem C71_order : forall G r o tab L i j, right_order r o L -> depends r j i -> (exists e e', In (ASet j e) (performed G r o tab L) /\ In (ASet i e') (performed G r o tab L)) ->
  exists A B, performed G r o tab L = A ++ B /\ (forall e, ~ In (ASet i e) A) /\ (forall e, ~ In (ASet j e) B).
Proof.
  intros G r o tab L i j R D (e & e' & H1 & H2). apply performed_set in H1. apply performed_set in H2. destruct (ro_needs r o L R j i D (proj1 (ro_all r o L R j) H1) (proj1 (ro_all r o L R i) H2)) as (l1 & l2 & l3 & E).
  assert (N : NoDup ((l1 ++ Compute j :: l2) ++ Compute i :: l3)) by (rewrite <- app_assoc; cbn [app]; rewrite <- E; exact (ro_once r o L R)). rewrite E. change (l1 ++ Compute j :: l2 ++ Compute i :: l3) with (l1 ++ (Compute j :: l2) ++ Compute i :: l3). rewrite app_assoc. destruct (performed_app G r o (l1 ++ Compute j :: l2) (Compute i :: l3) tab) as [tab' Ep]. rewrite Ep.
  eexists. eexists. split; [reflexivity|]. split; intros x Hx; apply performed_set in Hx.
  - apply NoDup_remove in N. destruct N as [_ N]. apply N. apply in_or_app. now left.
  - replace ((l1 ++ Compute j :: l2) ++ Compute i :: l3) with (l1 ++ Compute j :: l2 ++ Compute i :: l3) in N by (rewrite <- app_assoc; reflexivity). apply NoDup_remove in N. destruct N as [_ N]. apply N. apply in_or_app. right. apply in_or_app. now right.
Qed.
Definition calls_of (c : nat) (a : action) : list nat := match a with ACall c' q => if c =? c' then [q] else [] | _ => [] end.
Theorem C71_children : forall G r o tab L c, right_order r o L -> flat_map (calls_of c) (performed G r o tab L) = seq 1 (phases_of r c).
Proof.
  intros G r o tab L c R. rewrite <- (ro_child r o L R c). clear R. revert tab. induction L as [|ev L IH]; intros tab; [reflexivity|]. destruct ev as [j|c' q|q]; cbn [performed flat_map child_phase app].
  - destruct (nth_error (g_insts G) j) as [x|]; [|apply IH]. destruct (gi_kind x); try apply IH. rewrite flat_map_app, IH. replace (flat_map (calls_of c) (if gi_inward x then [] else sets G j p (channel r j) (tab j))) with (@nil nat); [reflexivity|]. destruct (gi_inward x); [reflexivity|]. unfold sets. destruct (has_code G p (channel r j)); [|reflexivity]. induction (filter (fun e => negb (Z.eqb e 0)) (tab j)) as [|y l IHl]; [reflexivity|exact IHl].
  - cbn [calls_of]. now rewrite IH.
  - rewrite flat_map_app, IH. destruct (g_mod G); reflexivity.
Qed.
Print Assumptions C71_visits.
Print Assumptions C71_one.
Print Assumptions C71_order.
Print Assumptions C71_children.

(** ** Example: small_rule of PropsChunk; the child's inherited attribute is assigned in the
    if statement, the synthesized one after it. *)
Definition plain (nk : node_kind) (lhs : bool) : gkind := GPlain (mkPlace nk lhs false false 0 false false).
Definition small_gen : gen := mkGen
  [mkGI (mkCond 0 0) true None (plain NNode true); mkGI (mkCond 0 0) false None (plain NNode true); mkGI (mkCond 0 0) false None (GIf 0 [mkGA true (Some 3) 30] []);
   mkGI (mkCond 1 0) false None (plain NNode false); mkGI (mkCond 0 0) true None (plain NNode false)]
  (mkPhy 1 [false; false]) [Some (mkPhy 1 [false; false])] 1 false true (fun _ => LValueUse).
Definition small_block : gblock := [mkGA true (Some 1) 10].
Definition small_tree : cto := Eval vm_compute in match schedule_rule 100 PrimeModel.primes_init 4096 64 small_rule with Ok t => t | _ => Null end.
Definition small_body : list stmt := Eval vm_compute in
  match plan small_gen 1 true small_tree [[]; [10%Z]; []; []; []] None true None (mkCond 0 0) with Ok (_, b) => snd b | _ => [] end.
Example C71_example : schedule_rule 100 PrimeModel.primes_init 4096 64 small_rule = Ok small_tree /\ own_tests small_rule /\ local_tests small_rule /\ describes small_gen small_rule /\ no_for_in small_gen /\
  procedures small_gen small_rule small_block small_tree true (fun _ => small_body) /\ (forall o, right_order small_rule o (run small_rule o small_tree)) /\
  (forall o, performed small_gen small_rule o (inside small_gen small_block (fun _ => [])) (run small_rule o small_tree) = if o 0%N then [ASet 3 30; ACall 0 1; ASet 1 10] else [ACall 0 1; ASet 1 10]).
Proof.
  destruct C61_example as (Hps & Hf & Hl & Hr & Hp & Ht & Ho & Ha). assert (Es : schedule_rule 100 PrimeModel.primes_init 4096 64 small_rule = Ok small_tree) by (vm_compute; reflexivity). split; [exact Es|]. split; [exact (tk_distinct _ Ht)|]. split; [exact (tk_local _ Ht)|].
  split; [constructor; [repeat constructor|reflexivity|reflexivity]|]. split; [intros i x s b Hx; do 5 (destruct i as [|i]; [injection Hx as <-; discriminate|]); destruct i; discriminate|].
  split; [intros p Hp'; assert (p = 1) by (cbn in Hp'; lia); subst p; vm_compute; reflexivity|]. split.
  - destruct (C61_order_partial _ _ _ _ Hps Hf Hl Hr Hp Ht Ho Ha) as (fuel & t & E & R). intros o. replace small_tree with t; [apply R|]. specialize (E (fuel + 100) ltac:(lia)). assert (E2 : schedule_rule (fuel + 100) PrimeModel.primes_init 4096 64 small_rule = Ok small_tree) by (apply (schedule_rule_more _ _ _ _ 100); [lia|exact Es]). congruence.
  - intros o. vm_compute. destruct (o 0%N); reflexivity.
Qed.
