(** * PropsStatic: C113-C118, static evaluators (codegen/static-impl.cc). *)
From Verif Require Import Base CondModel EdgeModel DncModel PropsCond EdgeWorld PropsDnc PropsEdge PropsClose CycleModel CycleSpec OagModel PropsCto StModel StSpec StProofs StProofs2 StProofs3 StDispatch StCheck StLink.
Open Scope Z_scope.

(** ** C113: as many procedures as phases *)
Theorem procedures_generated M r scala fuel n : legal M r -> (2 <= fuel)%nat -> M (r_lhs r) <= Z.of_nat n ->
  exists procs, visit_functions scala fuel n r = Ok procs /\ Z.of_nat (length procs) = M (r_lhs r).
Proof.
  intros L Hf Hn. destruct fuel as [|[|f]]; try lia. pose proof (lg_wf _ _ L) as W.
  destruct (assign_block_ok (r_insts r) (r_block r) (r_defaults r)) as (asg & A). { intros i e Hin. apply (wf_blocks _ _ W (r_block r) i e); auto. }
  assert (La : length asg = length (r_insts r)) by (rewrite (assign_block_len _ _ _ _ A); apply (wf_defaults _ _ W)).
  assert (Hm : 0 <= 0 < M (r_lhs r)) by (pose proof (wf_some _ _ W); lia).
  destruct (procs_total M r W scala f (lg_branches _ _ L) (lg_order _ _ L) asg La n 0 Hm) as (l & Hl & Ll & _); [lia|].
  exists l. split; [|lia]. unfold visit_functions. destruct (r_cto r) eqn:Et; [|rewrite A; exact Hl|rewrite A; exact Hl].
  exfalso. destruct (gd_lhs _ _ _ (lg_order _ _ L (fun _ => false)) 1) as (i & g & I & _); [lia|]. rewrite Et in I. destruct I.
Qed.

Section TREE.
Context (M : phylum -> Z) (G : nat -> rule) (L : forall con, legal M (G con)) (scala : bool) (fuel n : nat) (Hf : (2 <= fuel)%nat) (F : nat -> list code)
        (HF : forall con, visit_functions scala fuel n (G con) = Ok (F con)) (O : addr -> outcome) (wrong : addr -> nat -> nat -> bool).
Notation evaluate := (evaluate (fun con => r_insts (G con)) F O wrong).

(** ** C114: every node does what its rule says, once, in the order of the schedule *)
Theorem evaluated_once X t b : typed G X t ->
  events_at b (evaluate t (M X)) = match subtree t b with Some (Tree con _) => node_actions scala (G con) (O b) b | None => [] end.
Proof. intros T. destruct fuel as [|[|f]]; try lia. apply (events_node M G L scala f n F HF O wrong X t b T). Qed.
Theorem all_procedures_exist X t b ph : typed G X t -> ~ In (Missing b ph) (evaluate t (M X)).
Proof.
  intros T H. assert (He : In (Missing b ph) (events_at b (evaluate t (M X)))). { apply filter_In. split; [exact H|]. cbn [node_of]. destruct (addr_eqb_spec b b); congruence. }
  rewrite (evaluated_once X t b T) in He. destruct (subtree t b) as [[con cs]|]; [|destruct He]. unfold node_actions in He.
  revert He. generalize (@nil nat). induction (path (r_insts (G con)) (O b) (r_cto (G con))) as [|i p IH]; intros pre; cbn [actions]; [intros []|]. intros He. apply in_app_iff in He. destruct He as [He|He]; [|now apply (IH _ He)].
  unfold action in He. destruct (nth_error (r_insts (G con)) i) as [g|]; [|destruct He]. destruct (g_test g); [destruct He|]. destruct (assigned_here scala (g_kind g)); [|destruct He]. destruct (in_effect (G con) (O b) pre i); [|destruct He]. destruct He as [He|[]]. discriminate.
Qed.

(** ** C115: what comes earlier in the order of a rule has its value, wherever it comes from *)
Theorem values_ready ph X t a i b i' con cs j e e' : (forall con, scheduled_by ph (G con)) -> typed G X t -> gives G t ph a i b i' ->
  subtree t a = Some (Tree con cs) -> precedes i j (path (r_insts (G con)) (O a) (r_cto (G con))) ->
  earlier (Set_ b i' e) (Set_ a j e') (evaluate t (M X)).
Proof. intros Sc T Gv Sa Pr. destruct fuel as [|[|f]]; try lia. apply (order_tree M G L scala f n F HF O wrong ph X t a i b i' con cs j e e' Sc T Gv Sa Pr). Qed.

(** ** C118, first part: only the last right-hand side of a block is used *)
Theorem contribution_lost_refuted X t a con cs i e1 e2 b1 b2 b3 : typed G X t -> subtree t a = Some (Tree con cs) ->
  r_block (G con) = b1 ++ (i, e1) :: b2 ++ (i, e2) :: b3 ->
  ~ In (i, e1) b3 -> e1 <> e2 -> (forall o j, ~ In (i, e1) (taken (r_insts (G con)) o j)) ->
  ~ In (Set_ a i e1) (evaluate t (M X)).
Proof.
  intros T Sa Eb N3 Ne Nt H. assert (He : In (Set_ a i e1) (events_at a (evaluate t (M X)))). { apply filter_In. split; [exact H|]. cbn [node_of]. destruct (addr_eqb_spec a a); congruence. }
  rewrite (evaluated_once X t a T), Sa in He. unfold node_actions in He.
  assert (Ld : forall b r0, pick i r0 b = Some e1 -> r0 = Some e1 \/ In (i, e1) b).
  { induction b as [|[j e] b IH]; intros r0; unfold pick; cbn [fold_left fst snd]; [auto|]. intros E. destruct (IH _ E) as [E'|E']; [|right; now right].
    destruct (Nat.eqb_spec j i) as [Q|Q]; [injection E' as ->; subst j; right; now left|auto]. }
  assert (Ie : forall pre, in_effect (G con) (O a) pre i <> Some e1).
  { intros pre E. unfold in_effect in E.
    assert (Ex : exists e, last_def i (r_block (G con) ++ flat_map (taken (r_insts (G con)) (O a)) pre) = Some e /\ e <> e1).
    { rewrite Eb, last_def_app. destruct (last_def i (flat_map (taken (r_insts (G con)) (O a)) pre)) as [e|] eqn:El.
      - exists e. split; [reflexivity|]. intros ->. destruct (Ld _ None El) as [Q|Q]; [discriminate|]. apply in_flat_map in Q. destruct Q as (j & _ & Q). apply (Nt _ _ Q).
      - change (b1 ++ (i, e1) :: b2 ++ (i, e2) :: b3) with (b1 ++ ((i, e1) :: b2) ++ (i, e2) :: b3). rewrite app_assoc, last_def_app. change ((i, e2) :: b3) with ([(i, e2)] ++ b3). rewrite (last_def_app i [(i, e2)] b3).
        destruct (last_def i b3) as [e|] eqn:E3.
        + exists e. split; [reflexivity|]. intros ->. destruct (Ld _ None E3) as [Q|Q]; [discriminate|contradiction].
        + unfold last_def. cbn [fold_left fst snd]. rewrite Nat.eqb_refl. exists e2. split; [reflexivity|congruence]. }
    destruct Ex as (e & E1 & E2). rewrite E1 in E. congruence. }
  revert He. generalize (@nil nat). induction (path (r_insts (G con)) (O a) (r_cto (G con))) as [|k p IH]; intros pre; cbn [actions]; [intros []|]. intros He. apply in_app_iff in He. destruct He as [He|He]; [|now apply (IH _ He)].
  unfold action in He. destruct (nth_error (r_insts (G con)) k) as [g|]; [|destruct He]. destruct (g_test g); [destruct He|]. destruct (assigned_here scala (g_kind g)); [|destruct He]. destruct (in_effect (G con) (O a) pre k) as [e|] eqn:E; [|destruct He]. destruct He as [He|[]]. injection He as -> ->. now apply (Ie pre).
Qed.
End TREE.

(** ** C116: the orders found by the analysis are legal *)
Theorem scheduled_orders_legal M s x oins r : analysed M s x oins r -> schedule_augmented s x oins = Ok (r_cto r) -> legal M r.
Proof. apply scheduled_legal. Qed.
(** ** C117: nothing is computed before what it depends on *)
Theorem dependencies_ready M G s x oins scala fuel n F O wrong ph X t a i b i' con cs j e e' :
  (forall con, analysed M s (x con) (oins con) (G con)) -> (forall con, schedule_augmented s (x con) (oins con) = Ok (r_cto (G con))) ->
  (forall con, scheduled_by ph (G con)) -> (2 <= fuel)%nat -> (forall con, visit_functions scala fuel n (G con) = Ok (F con)) ->
  typed G X t -> subtree t a = Some (Tree con cs) -> gives G t ph a i b i' ->
  needs_under s (x con) (as_bits (O a)) i j -> In i (path (r_insts (G con)) (O a) (r_cto (G con))) -> In j (path (r_insts (G con)) (O a) (r_cto (G con))) ->
  earlier (Set_ b i' e) (Set_ a j e') (evaluate (fun con => r_insts (G con)) F O wrong t (M X)).
Proof.
  intros A Es Sc Hf HF T Sa Gv Nd Hi Hj.
  apply (values_ready M G (fun con => scheduled_legal M s (x con) (oins con) (G con) (A con) (Es con)) scala fuel n Hf F HF O wrong ph X t a i b i' con cs j e e' Sc T Gv Sa).
  apply (needs_precedes M s (x con) (oins con) (G con) (A con) (Es con) (O a) i j Nd Hi Hj).
Qed.

(** ** C118: what is not evaluated *)
(** No visit of the child *)
Fixpoint calls (c : nat) (k : code) : Prop :=
  match k with
  | Done => False
  | Visit c' _ k => c' = c \/ calls c k
  | Assign _ _ k | LetNode _ k => calls c k
  | If _ t f | Match _ t f => calls c t \/ calls c f
  end.
Section CALLS.
Context (scala : bool) (insts : list ginst) (c : nat) (Hn : forall g, In g insts -> g_ch g = Some c -> g_ph g < 0).
Lemma enter_calls g phase : In g insts -> forall fuel cur cp k code cont, (forall cur cp code cont, k cur cp = Ok (code, cont) -> ~ calls c code) -> enter fuel g phase cur cp k = Ok (code, cont) -> ~ calls c code.
Proof.
  intros Hg. induction fuel as [|f IH]; intros cur cp k code cont Hk; cbn [enter]; [discriminate|].
  destruct (g_lhs g && _ && _ && _); [intros H; injection H as <- <-; intros []|].
  destruct (g_ch g) as [c'|] eqn:Ec; [|apply Hk]. intros H. apply bind_Ok in H. destruct H as (v & _ & H).
  destruct (negb (g_ph g =? v) && negb (g_ph g =? - v - 1)); [|apply (Hk _ _ _ _ H)].
  destruct (_ =? phase); [|apply (IH _ _ _ _ _ Hk H)]. destruct (Z.ltb_spec (g_ph g) 0) as [Hl|Hl]; [discriminate|].
  apply bind_Ok in H. destruct H as ([code1 cont1] & H1 & H2). injection H2 as <- <-. cbn [calls]. intros [Q|Q]; [|now apply (IH _ _ _ _ _ Hk H1)]. subst c'. specialize (Hn g Hg Ec). lia.
Qed.
Lemma gen_calls fuel : forall t phase cur asg cp code cont, gen scala fuel insts t phase cur asg cp = Ok (code, cont) -> ~ calls c code.
Proof.
  induction t as [|i t IH|i f IHf t IHt]; intros phase cur asg cp code cont; cbn [gen]; intros H.
  - injection H as <- <-. intros [].
  - apply bind_Ok in H. destruct H as (g & Eg & H). apply rd_Ok in Eg. apply (enter_calls g phase (nth_error_In _ _ Eg)) in H; [exact H|]. clear H cur cp code cont. intros cur cp code cont.
    destruct (g_test g); [discriminate|]. destruct (negb (phase =? cur)); [apply IH|]. intros H. apply bind_Ok in H. destruct H as (rhs & _ & H). destruct (emitted scala (g_kind g) rhs); [|apply (IH _ _ _ _ _ _ H)].
    apply bind_Ok in H. destruct H as ([code1 cont1] & H1 & H2). injection H2 as <- <-. cbn [calls]. apply (IH _ _ _ _ _ _ H1).
  - apply bind_Ok in H. destruct H as (g & Eg & H). apply rd_Ok in Eg. apply (enter_calls g phase (nth_error_In _ _ Eg)) in H; [exact H|]. clear H cur cp code cont. intros cur cp code cont H.
    destruct (g_test g) as [[k [bt bf|h first body d]]|]; [| |discriminate]; apply bind_Ok in H; destruct H as (at' & _ & H); apply bind_Ok in H; destruct H as ([ct cnt] & Ht & H); apply bind_Ok in H; destruct H as (af & _ & H); apply bind_Ok in H; destruct H as ([cf cnf] & Hf' & H); injection H as <- <-.
    + cbn [calls]. intros [Q|Q]; [apply (IHt _ _ _ _ _ _ Ht Q)|apply (IHf _ _ _ _ _ _ Hf' Q)].
    + destruct first; cbn [calls]; intros [Q|Q]; first [apply (IHt _ _ _ _ _ _ Ht Q)|apply (IHf _ _ _ _ _ _ Hf' Q)].
Qed.
End CALLS.
(** A child all of whose attributes are inherited is never visited: nothing is computed at
    it or below it. *)
Theorem inherited_only_unvisited_refuted G scala fuel n F O wrong con cs a c ph e :
  (forall con, visit_functions scala fuel n (G con) = Ok (F con)) ->
  (forall g, In g (r_insts (G con)) -> g_ch g = Some c -> g_ph g < 0) ->
  In e (visit (fun con => r_insts (G con)) F O wrong (Tree con cs) a ph) -> within (c :: a) (node_of e) = false.
Proof.
  intros HF Hn. rewrite visit_step. 
  destruct (nth_error (F con) (Z.to_nat (ph - 1))) as [code|] eqn:Ec; [|intros [<-|[]]; apply within_self].
  assert (Hc : ~ calls c code).
  { pose proof (HF con) as H. unfold visit_functions in H.
    assert (Hp : forall m asg phase l, visit_procs scala fuel m (G con) asg phase = Ok l -> forall code, In code l -> ~ calls c code).
    { induction m as [|m IH]; intros asg phase l; cbn [visit_procs]; [discriminate|]. intros Hb. apply bind_Ok in Hb. destruct Hb as ([c1 cont1] & H1 & Hb). pose proof (gen_calls scala (r_insts (G con)) c Hn fuel _ _ _ _ _ _ _ H1) as N1.
      destruct cont1; [apply bind_Ok in Hb; destruct Hb as (rest & H2 & Hb); injection Hb as <-; intros code' [<-|Hin]; [exact N1|apply (IH _ _ _ H2 _ Hin)]|injection Hb as <-; intros code' [<-|[]]; exact N1]. }
    destruct (r_cto (G con)); [injection H as H; rewrite <- H in Ec; destruct (Z.to_nat (ph - 1)); discriminate| |]; apply bind_Ok in H; destruct H as (asg & _ & H); apply (Hp _ _ _ _ H code (nth_error_In _ _ Ec)). }
  generalize (@None nat). clear Ec. induction code as [|c' q k IHk|i e' k IHk|h k IHk|i k IHk k' IHk'|i k IHk k' IHk']; intros node; cbn [exec]; cbn [calls] in Hc.
  - intros [].
  - intros H. apply in_app_iff in H. destruct H as [H|H]; [|apply (IHk (fun Q => Hc (or_intror Q)) node H)].
    assert (Hw : within (c' :: a) (node_of e) = true).
    { rewrite kids_nth in H. destruct (nth_error cs c') as [t|]; cbn [option_map] in H; [apply (visit_within _ _ _ _ _ _ _ _ H)|destruct H as [<-|[]]; apply within_refl]. }
    destruct (within (c :: a) (node_of e)) eqn:Ew; [|reflexivity]. destruct Hc. left. apply (within_other _ _ _ _ Hw Ew).
  - intros [<-|H]; [apply within_self|apply (IHk Hc node H)].
  - apply (IHk Hc).
  - destruct (truth _ _ i); [apply (IHk (fun Q => Hc (or_introl Q)))|apply (IHk' (fun Q => Hc (or_intror Q)))].
  - destruct (match node with Some h => _ | None => _ end); [apply (IHk (fun Q => Hc (or_introl Q)))|apply (IHk' (fun Q => Hc (or_intror Q)))].
Qed.

(** What the order has before the first attribute of the node itself is generated in no
    procedure. *)
Fixpoint assigns (i : nat) (k : code) : Prop :=
  match k with
  | Done => False
  | Assign i' _ k => i' = i \/ assigns i k
  | Visit _ _ k | LetNode _ k => assigns i k
  | If _ t f | Match _ t f => assigns i t \/ assigns i f
  end.
Fixpoint occurs (i : nat) (t : cto) : Prop :=
  match t with CDone => False | CNext j t => j = i \/ occurs i t | CIf j f t => j = i \/ occurs i f \/ occurs i t end.
Lemma enter_assigns i g phase : forall fuel cur cp k code cont, (forall cur cp code cont, k cur cp = Ok (code, cont) -> ~ assigns i code) -> enter fuel g phase cur cp k = Ok (code, cont) -> ~ assigns i code.
Proof.
  induction fuel as [|f IH]; intros cur cp k code cont Hk; cbn [enter]; [discriminate|].
  destruct (g_lhs g && _ && _ && _); [intros H; injection H as <- <-; intros []|].
  destruct (g_ch g) as [c'|]; [|apply Hk]. intros H. apply bind_Ok in H. destruct H as (v & _ & H).
  destruct (negb (g_ph g =? v) && negb (g_ph g =? - v - 1)); [|apply (Hk _ _ _ _ H)].
  destruct (_ =? phase); [|apply (IH _ _ _ _ _ Hk H)]. destruct (g_ph g <? 0); [discriminate|].
  apply bind_Ok in H. destruct H as ([code1 cont1] & H1 & H2). injection H2 as <- <-. cbn [assigns]. apply (IH _ _ _ _ _ Hk H1).
Qed.
Lemma gen_assigns scala fuel insts i : forall t phase cur asg cp code cont, ~ occurs i t -> gen scala fuel insts t phase cur asg cp = Ok (code, cont) -> ~ assigns i code.
Proof.
  induction t as [|j t IH|j f IHf t IHt]; intros phase cur asg cp code cont N; cbn [gen]; cbn [occurs] in N; intros H.
  - injection H as <- <-. intros [].
  - apply bind_Ok in H. destruct H as (g & Eg & H). apply (enter_assigns i g phase) in H; [exact H|]. clear H cur cp code cont. intros cur cp code cont.
    destruct (g_test g); [discriminate|]. destruct (negb (phase =? cur)); [apply IH; intros Q; apply N; now right|]. intros H. apply bind_Ok in H. destruct H as (rhs & _ & H).
    destruct (emitted scala (g_kind g) rhs); [|revert H; apply IH; intros Q; apply N; now right].
    apply bind_Ok in H. destruct H as ([code1 cont1] & H1 & H2). injection H2 as <- <-. cbn [assigns]. intros [Q|Q]; [apply N; now left|]. revert Q. apply (IH _ _ _ _ _ _ (fun Q => N (or_intror Q)) H1).
  - apply bind_Ok in H. destruct H as (g & Eg & H). apply (enter_assigns i g phase) in H; [exact H|]. clear H cur cp code cont. intros cur cp code cont H.
    assert (Nf : ~ occurs i f) by (intros Q; apply N; right; now left). assert (Nt : ~ occurs i t) by (intros Q; apply N; right; now right).
    destruct (g_test g) as [[k [bt bf|h first body d]]|]; [| |discriminate]; apply bind_Ok in H; destruct H as (at' & _ & H); apply bind_Ok in H; destruct H as ([ct cnt] & Ht & H); apply bind_Ok in H; destruct H as (af & _ & H); apply bind_Ok in H; destruct H as ([cf cnf] & Hf' & H); injection H as <- <-.
    + cbn [assigns]. intros [Q|Q]; [apply (IHt _ _ _ _ _ _ Nt Ht Q)|apply (IHf _ _ _ _ _ _ Nf Hf' Q)].
    + destruct first; cbn [assigns]; intros [Q|Q]; first [apply (IHt _ _ _ _ _ _ Nt Ht Q)|apply (IHf _ _ _ _ _ _ Nf Hf' Q)].
Qed.
Theorem too_early_refuted G scala fuel n F O wrong con cs a ph i g t e :
  (forall con, visit_functions scala fuel n (G con) = Ok (F con)) ->
  r_cto (G con) = CNext i t -> ~ occurs i t -> nth_error (r_insts (G con)) i = Some g -> g_lhs g = false -> g_ch g = None ->
  ~ In (Set_ a i e) (visit (fun con => r_insts (G con)) F O wrong (Tree con cs) a ph).
Proof.
  intros HF Et Ni Eg Lg Cg. rewrite visit_step.
  destruct (nth_error (F con) (Z.to_nat (ph - 1))) as [code|] eqn:Ec; [|intros [Q|[]]; discriminate].
  assert (Hc : ~ assigns i code).
  { pose proof (HF con) as H. unfold visit_functions in H. rewrite Et in H. apply bind_Ok in H. destruct H as (asg & _ & H).
    assert (Hp : forall m asg phase l, 0 <= phase -> visit_procs scala fuel m (G con) asg phase = Ok l -> forall code, In code l -> ~ assigns i code).
    { clear H Ec code asg ph. induction m as [|m IH]; intros asg phase l Hph; cbn [visit_procs]; [discriminate|]. intros Hb. apply bind_Ok in Hb. destruct Hb as ([c1 cont1] & H1 & Hb).
      assert (N1 : ~ assigns i c1).
      { rewrite Et in H1. cbn [gen] in H1. apply bind_Ok in H1. destruct H1 as (g' & Eg' & H1). apply rd_Ok in Eg'. assert (g' = g) by congruence. subst g'.
        destruct fuel as [|f]; cbn [enter] in H1; [discriminate|]. rewrite Lg, Cg in H1. cbn [andb] in H1. destruct (g_test g); [discriminate|].
        destruct (Z.eqb_spec (phase + 1) 0) as [Q|Q]; [lia|]. cbn [negb] in H1. apply (gen_assigns _ _ _ _ _ _ _ _ _ _ _ Ni H1). }
      destruct cont1; [apply bind_Ok in Hb; destruct Hb as (rest & H2 & Hb); injection Hb as <-; intros code' [<-|Hin]; [exact N1|refine (IH _ _ _ _ H2 _ Hin); lia]|injection Hb as <-; intros code' [<-|[]]; exact N1]. }
    apply (Hp _ _ _ _ (Z.le_refl 0) H code (nth_error_In _ _ Ec)). }
  generalize (@None nat). clear Ec. induction code as [|c' q k IHk|i' e' k IHk|h k IHk|i' k IHk k' IHk'|i' k IHk k' IHk']; intros node; cbn [exec]; cbn [assigns] in Hc.
  - intros [].
  - intros H. apply in_app_iff in H. destruct H as [H|H]; [|apply (IHk Hc node H)].
    assert (Hw : within (c' :: a) (node_of (Set_ a i e)) = true).
    { rewrite kids_nth in H. destruct (nth_error cs c') as [t'|]; cbn [option_map] in H; [apply (visit_within _ _ _ _ _ _ _ _ H)|destruct H as [Q|[]]; discriminate]. }
    cbn [node_of] in Hw. rewrite within_self in Hw. discriminate.
  - intros [Q|H]; [injection Q as -> _; apply Hc; now left|apply (IHk (fun Q => Hc (or_intror Q)) node H)].
  - apply (IHk Hc).
  - destruct (truth _ _ i'); [apply (IHk (fun Q => Hc (or_introl Q)))|apply (IHk' (fun Q => Hc (or_intror Q)))].
  - destruct (match node with Some h => _ | None => _ end); [apply (IHk (fun Q => Hc (or_introl Q)))|apply (IHk' (fun Q => Hc (or_intror Q)))].
Qed.

(** static-impl.cc:140-172, 696-735: visit() visits, in each phase, the nodes of the start
    phylum ([roots]: all of them, in the order they were made) one after the other.
    Simplification: the rest of the code of the module is left out. *)
Definition module_visit (insts : nat -> list ginst) (F : nat -> list code) (O : addr -> outcome) (wrong : addr -> nat -> nat -> bool) (t : tree) (roots : list addr) (m : Z) : list event :=
  flat_map (fun ph => flat_map (fun a => match subtree t a with Some t' => visit insts F O wrong t' a ph | None => [] end) roots) (phases m).
Theorem module_visit_root insts F O wrong t m : module_visit insts F O wrong t [[]] m = evaluate insts F O wrong t m.
Proof. unfold module_visit, evaluate. apply flat_map_ext. intros ph. cbn [subtree flat_map]. apply app_nil_r. Qed.

(** ** Examples *)
Open Scope nat_scope.
Arguments mkGinst _ _ _ _%Z _ _.
(** Phylum 0 has the attributes env (-1), size (+1), width (-2), out (+2).
    Constructor 0 is a leaf with a test; constructor 1 has two children. *)
Definition KA := KAttr.
Definition lhs (at_ : nat) (ph : Z) (k : kind) : ginst := mkGinst true None at_ ph k None.
Definition ch (c at_ : nat) (ph : Z) (k : kind) : ginst := mkGinst false (Some c) at_ ph k None.
Arguments lhs _ _%Z _.
Arguments ch _ _ _%Z _.
Definition ex_leaf : rule := mkRule 0 []
  [mkGinst false None 0 0 KProblem (Some (0%nat, TIf [(2, 10)%nat] [(2, 11)%nat])); lhs 0 (-1) KInward; lhs 1 1 KA; lhs 2 (-2) KInward; lhs 3 2 KA]
  (CIf 0 (CNext 1 (CNext 2 (CNext 3 (CNext 4 CDone)))) (CNext 1 (CNext 2 (CNext 3 (CNext 4 CDone)))))
  [None; None; None; None; None] [(4, 12)%nat].
Definition ex_node : rule := mkRule 0 [0; 0]%nat
  [lhs 0 (-1) KInward; lhs 1 1 KA; lhs 2 (-2) KInward; lhs 3 2 KA;
   ch 0 0 (-1) KA; ch 0 1 1 KInward; ch 0 2 (-2) KA; ch 0 3 2 KInward;
   ch 1 0 (-1) KA; ch 1 1 1 KInward; ch 1 2 (-2) KA; ch 1 3 2 KInward]
  (fold_right CNext CDone [0; 4; 5; 8; 9; 1; 2; 6; 10; 7; 11; 3]%nat)
  (repeat None 12) [(1, 21); (3, 23); (4, 24); (6, 26); (8, 28); (10, 30)]%nat.
Definition ex_G (con : nat) : rule := match con with O => ex_leaf | S _ => ex_node end.
Definition ex_M (X : phylum) : Z := 2%Z.
Lemma ex_legal con : legal ex_M (ex_G con).
Proof.
  destruct con as [|con]; constructor.
  - apply rule_ok_wf. vm_compute. reflexivity.
  - cbn. repeat match goal with |- _ /\ _ => split | |- True => exact I | |- is_test _ _ => eexists _, _; split; reflexivity | |- exists g, _ => eexists; split; reflexivity end.
  - intros o. apply good_ok_good. cbn [ex_G ex_leaf r_cto path truth r_insts nth_error g_test]. destruct (o 0%nat); vm_compute; reflexivity.
  - apply rule_ok_wf. vm_compute. reflexivity.
  - cbn. repeat match goal with |- _ /\ _ => split | |- True => exact I | |- is_test _ _ => eexists _, _; split; reflexivity | |- exists g, _ => eexists; split; reflexivity end.
  - intros o. apply good_ok_good. vm_compute. reflexivity.
Qed.
Definition ex_F (con : nat) : list code := match visit_functions true 2 2 (ex_G con) with Ok l => l | _ => [] end.
Lemma ex_HF con : visit_functions true 2 2 (ex_G con) = Ok (ex_F con).
Proof. destruct con; vm_compute; reflexivity. Qed.
Definition ex_ph (X : phylum) (at_ : nat) : Z := nth at_ [-1; 1; -2; 2]%Z 0%Z.
Lemma ex_scheduled con : scheduled_by ex_ph (ex_G con).
Proof.
  split.
  - intros g Hg Lg. destruct con; cbn in Hg; repeat (destruct Hg as [<-|Hg]; [first [reflexivity|discriminate Lg]|]); destruct Hg.
  - intros g c X Hg Cg EX. destruct con; cbn in Hg; repeat (destruct Hg as [<-|Hg]; [first [reflexivity|discriminate Cg]|]); destruct Hg.
Qed.
Definition ex_tree : tree := Tree 1 [Tree 0 []; Tree 0 []].
Lemma ex_typed : typed ex_G 0 ex_tree.
Proof. change 0%nat with (r_lhs (ex_G 1)). constructor. repeat constructor; change 0%nat with (r_lhs (ex_G 0)) at 1; constructor; constructor. Qed.
Definition ex_O (a : addr) : outcome := fun _ => match a with [1%nat] => true | _ => false end.
Definition ex_wrong (a : addr) (i h : nat) : bool := false.
Example ex_evaluate : evaluate (fun con => r_insts (ex_G con)) ex_F ex_O ex_wrong ex_tree 2 =
  [Set_ [] 4 24; Set_ [0] 2 11; Set_ [] 8 28; Set_ [1] 2 10; Set_ [] 1 21; Set_ [] 6 26; Set_ [] 10 30; Set_ [0] 4 12; Set_ [1] 4 12; Set_ [] 3 23]%nat.
Proof. vm_compute. reflexivity. Qed.
(** the size of the first child (5) is needed for the environment of the second (8) *)
Example ex_ready : earlier (Set_ [0%nat] 2%nat 11%nat) (Set_ [] 8%nat 28%nat) (evaluate (fun con => r_insts (ex_G con)) ex_F ex_O ex_wrong ex_tree 2).
Proof.
  apply (values_ready ex_M ex_G ex_legal true 2 2 (le_n 2) ex_F ex_HF ex_O ex_wrong ex_ph 0 ex_tree [] 5 [0%nat] 2 1 [Tree 0 []; Tree 0 []]); [exact ex_scheduled|exact ex_typed| |reflexivity|].
  - eapply Gives_child; try reflexivity.
  - exists [0; 4]%nat, [], [9; 1; 2; 6; 10; 7; 11; 3]%nat. reflexivity.
Qed.

(** The leaf, scheduled by the analysis *)
Definition exs_ops : list op := [NewGraph 5; AddEdge 0 0 2 (mkCond 0 0) 31; AddEdge 0 1 2 (mkCond 0 0) 31; AddEdge 0 1 3 (mkCond 0 0) 31; AddEdge 0 1 4 (mkCond 0 0) 31; AddEdge 0 2 3 (mkCond 0 0) 31; AddEdge 0 2 4 (mkCond 0 0) 31; AddEdge 0 3 4 (mkCond 0 0) 31]%N.
Definition exs_world : world := match build exs_ops (mkWorld (mkMem [] 0) []) with Some w => w | None => mkWorld (mkMem [] 0) [] end.
Definition exs_state : state := mkState (w_mem exs_world) (w_graphs exs_world) [].
Definition exs_insts : list oinst := mkOinst (mkCond 0 0) (Some 0%nat) :: repeat (mkOinst (mkCond 0 0) None) 4.
Definition exs_edge (j i : nat) : bool :=
  match j, i with 0, 2 | 1, 2 | 1, 3 | 1, 4 | 2, 3 | 2, 4 | 3, 4 => true | _, _ => false end%nat.
Definition exs_cell (j i : nat) : list (condition * N) := if exs_edge j i then [(mkCond 0 0, 31%N)] else [].
Lemma exs_pairs j i : (j < 5)%nat -> (i < 5)%nat -> pairs_at exs_state 0 j i = Ok (exs_cell j i).
Proof. intros Hj Hi. do 5 (destruct j as [|j]; [do 5 (destruct i as [|i]; [vm_compute; reflexivity|]); lia|]). lia. Qed.
Lemma exs_has : has_instances exs_state 0 exs_insts.
Proof. eexists. split; vm_compute; reflexivity. Qed.
Lemma exs_lt j i x : in_graph (graphs_of exs_state) x j i -> x = 0%nat /\ (j < 5)%nat /\ (i < 5)%nat.
Proof. intros (g & Eg & Hj & Hi). revert Eg. vm_compute (w_graphs (graphs_of exs_state)). intros Eg. destruct x as [|x]; [|destruct x; discriminate]. injection Eg as <-. cbn in Hj, Hi. auto. Qed.
Lemma exs_ok : edges_ok exs_state.
Proof.
  intros x i j H. apply exs_lt in H. destruct H as (-> & Hi & Hj). exists (exs_cell i j). split; [now apply exs_pairs|]. intros c k Hin.
  unfold exs_cell in Hin. destruct (exs_edge i j); [|destruct Hin]. destruct Hin as [Hin|[]]. injection Hin as <- <-.
  split; [apply impossible_sat; reflexivity|]. split; [discriminate|vm_compute; discriminate].
Qed.
Lemma exs_needs o j i : needs_under exs_state 0 o j i <-> (j < 5)%nat /\ (i < 5)%nat /\ exs_edge j i = true.
Proof.
  rewrite <- (dep_needs exs_state 0 exs_insts exs_ok exs_has). unfold dep, CycleProofs.cellp. cbn [length exs_insts repeat]. split.
  - intros (Hj & Hi & c & k & H & M). rewrite exs_pairs in H by assumption. split; [exact Hj|split; [exact Hi|]]. unfold exs_cell in H. destruct (exs_edge j i); [reflexivity|destruct H].
  - intros (Hj & Hi & E). split; [exact Hj|split; [exact Hi|]]. exists (mkCond 0 0), 31%N. split; [|apply meets_start]. rewrite exs_pairs by assumption. unfold exs_cell. rewrite E. now left.
Qed.
Lemma exs_always i inst : nth_error exs_insts i = Some inst -> always inst.
Proof. intros E o. do 5 (destruct i as [|i]; [injection E as <-; apply meets_start|]). destruct i; discriminate. Qed.
Example exs_schedule : schedule_augmented exs_state 0 exs_insts = Ok (r_cto ex_leaf).
Proof. vm_compute. reflexivity. Qed.
Example exs_analysed : analysed ex_M exs_state 0 exs_insts ex_leaf.
Proof.
  constructor.
  - exact exs_ok.
  - exact exs_has.
  - intros i inst o b Ei _ B. exfalso. do 5 (destruct i as [|i]; [injection Ei as <-; cbn [oi_cond positive negative] in B; rewrite N.bits_0 in B; destruct B; discriminate|]). destruct i; discriminate.
  - split; [reflexivity|]. intros i inst g Ei Eg. do 5 (destruct i as [|i]; [injection Ei as <-; injection Eg as <-; reflexivity|]). destruct i; discriminate.
  - apply rule_ok_wf. vm_compute. reflexivity.
  - intros i j g g' w o Ei Ej B B' R. apply exs_needs.
    assert (W : w = Lhs). { destruct w as [|c]; [reflexivity|]. cbn [belongs] in B. do 5 (destruct i as [|i]; [injection Ei as <-; discriminate B|]). destruct i; discriminate. }
    subst w. cbn [belongs] in B, B'.
    do 5 (destruct i as [|i]; [injection Ei as <-; try discriminate B; do 5 (destruct j as [|j]; [injection Ej as <-; try discriminate B'; first [split; [lia|split; [lia|reflexivity]]|cbn in R; lia]|]); destruct j; discriminate|]). destruct i; discriminate.
  - intros ph P. unfold ex_M in P. assert (Q : ph = 1%Z \/ ph = 2%Z) by lia. destruct Q as [-> | ->].
    + exists 2%nat. eexists _, _. split; [reflexivity|]. split; [reflexivity|]. split; [apply (exs_always 2); reflexivity|split; reflexivity].
    + exists 4%nat. eexists _, _. split; [reflexivity|]. split; [reflexivity|]. split; [apply (exs_always 4); reflexivity|split; reflexivity].
  - intros c X ph EX _. destruct c; discriminate.
  - exists 1%nat. eexists _, _. split; [reflexivity|]. split; [reflexivity|]. split; [apply (exs_always 1); reflexivity|]. split; [reflexivity|]. split; [reflexivity|]. split; [reflexivity|]. split.
    + intros j Hj. cbn in Hj. rewrite exs_pairs by lia. do 5 (destruct j as [|j]; [reflexivity|]). lia.
    + intros i Hi. destruct i as [|i]; [|lia]. eexists _, _. split; reflexivity.
  - intros i h Hh. exfalso. do 5 (destruct i as [|i]; [discriminate Hh|]). destruct i; discriminate.
Qed.

(** Two contributions to the same instance (out, 4): only the second is made *)
Definition ex_two : rule := mkRule 0 [] (r_insts ex_leaf) (r_cto ex_leaf) (r_defaults ex_leaf) [(4, 12); (4, 13)]%nat.
Example ex_two_lost : legal ex_M ex_two /\ r_block ex_two = [] ++ (4, 12)%nat :: [] ++ (4, 13)%nat :: [] /\
  forall F, visit_functions true 2 2 ex_two = Ok F -> events_at [] (evaluate (fun _ => r_insts ex_two) (fun _ => F) ex_O ex_wrong (Tree 0 []) 2) = [Set_ [] 2 11; Set_ [] 4 13]%nat.
Proof.
  split; [|split; [reflexivity|]].
  - constructor; [apply rule_ok_wf; vm_compute; reflexivity|apply (lg_branches _ _ (ex_legal 0))|]. intros o. apply good_ok_good. cbn [ex_two ex_leaf r_cto path truth r_insts nth_error g_test]. destruct (o 0%nat); vm_compute; reflexivity.
  - intros F H. vm_compute in H. injection H as <-. vm_compute. reflexivity.
Qed.
(** A child with only an inherited attribute: its local attribute is never computed. *)
Definition ex_only : rule := mkRule 1 [] [lhs 0 (-1) KInward; mkGinst false None 9 0 KLocal None] (CNext 0 (CNext 1 CDone)) [None; None] [(1, 40)%nat].
Definition ex_above : rule := mkRule 0 [1]%nat [lhs 0 (-1) KInward; ch 0 0 (-1) KA; lhs 1 1 KA] (CNext 0 (CNext 1 (CNext 2 CDone))) [None; None; None] [(1, 41); (2, 42)]%nat.
Example inherited_only_example :
  let G := fun con => match con with O => ex_above | S _ => ex_only end in
  let F := fun con => match visit_functions true 2 2 (G con) with Ok l => l | _ => [] end in
  (forall con, visit_functions true 2 2 (G con) = Ok (F con)) /\
  evaluate (fun con => r_insts (G con)) F ex_O ex_wrong (Tree 0 [Tree 1 []]) 1 = [Set_ [] 1 41; Set_ [] 2 42]%nat /\
  node_actions true (G 1%nat) (ex_O [0%nat]) [0%nat] = [Set_ [0] 1 40]%nat.
Proof. cbn zeta. split; [intros [|con]; vm_compute; reflexivity|]. split; vm_compute; reflexivity. Qed.
(** A local attribute (0) that needs nothing, before the attributes of the node. *)
Example too_early_example :
  let r := mkRule 0 [] [mkGinst false None 9 0%Z KLocal None; lhs 0 (-1) KInward; lhs 1 1 KA] (CNext 0 (CNext 1 (CNext 2 CDone))) [None; None; None] [(0, 40); (2, 42)] in
  let F := match visit_functions true 2 2 r with Ok l => l | _ => [] end in
  visit_functions true 2 2 r = Ok F /\ evaluate (fun _ => r_insts r) (fun _ => F) ex_O ex_wrong (Tree 0 []) 1 = [Set_ [] 2 42] /\ node_actions true r (ex_O []) [] = [Set_ [] 0 40; Set_ [] 2 42].
Proof. cbn zeta. split; [|split]; vm_compute; reflexivity. Qed.
(** Two case statements whose matches alternate: the second match of the first one tests
    the value of the other one. *)
Definition ex_mixed : rule := mkRule 0 []
  [mkGinst false None 0 0 KProblem (Some (0%nat, TMatch 7 true [(4, 50)%nat] None)); mkGinst false None 0 0 KProblem (Some (1%nat, TMatch 8 true [(5, 51)%nat] (Some [])));
   mkGinst false None 0 0 KProblem (Some (2%nat, TMatch 7 false [(4, 52)%nat] (Some []))); lhs 0 (-1) KInward; lhs 1 1 KA; lhs 2 1 KA]
  (CIf 0 (CIf 1 (CIf 2 (CNext 3 (CNext 4 (CNext 5 CDone))) (CNext 3 (CNext 4 (CNext 5 CDone)))) CDone) CDone) (repeat None 6) [].
Theorem interleaved_cases_refuted : exists r o F wrong, visit_functions true 2 2 r = Ok F /\ wf ex_M r /\
  node_actions true r o [] = [Set_ [] 4 52]%nat /\ evaluate (fun _ => r_insts r) (fun _ => F) (fun _ => o) wrong (Tree 0 []) 1 = [].
Proof.
  exists ex_mixed, (fun k => (k =? 2)%nat). eexists. exists (fun _ _ _ => false). split; [vm_compute; reflexivity|].
  split; [apply rule_ok_wf; vm_compute; reflexivity|]. split; vm_compute; reflexivity.
Qed.
(** All nodes of the start phylum are visited, not only the root: below the root
    everything is done again. *)
Theorem inner_roots_refuted : exists t roots, typed ex_G 0 t /\ (forall a, In a roots <-> exists t', subtree t a = Some t' /\ typed ex_G 0 t') /\ NoDup roots /\
  events_at [0%nat] (module_visit (fun con => r_insts (ex_G con)) ex_F ex_O ex_wrong t roots 2) = [Set_ [0] 2 11; Set_ [0] 2 11; Set_ [0] 4 12; Set_ [0] 4 12]%nat.
Proof.
  exists ex_tree, [[0]; [1]; []]%nat. split; [exact ex_typed|]. assert (Lf : typed ex_G 0 (Tree 0 [])) by (change 0%nat with (r_lhs (ex_G 0)) at 1; constructor; constructor). split; [|split].
  - intros a. split.
    + intros [<-|[<-|[<-|[]]]]; eexists; (split; [reflexivity|]); auto using ex_typed.
    + intros (t' & Es & _). destruct a as [|c a]; [right; right; now left|]. cbn [subtree] in Es. destruct (subtree ex_tree a) as [[con cs]|] eqn:Ea; [|discriminate].
      destruct a as [|c' a].
      * injection Ea as <- <-. destruct c as [|[|c]]; [now left|right; now left|destruct c; discriminate].
      * exfalso. cbn [subtree] in Ea. destruct (subtree ex_tree a) as [[con' cs']|] eqn:Ea'; [|discriminate].
        assert (Deep : forall b con cs, subtree ex_tree b = Some (Tree con cs) -> b <> [] -> cs = []).
        { clear. induction b as [|x b IH]; intros con cs E N; [congruence|]. cbn [subtree] in E. destruct (subtree ex_tree b) as [[con' cs']|] eqn:Eb; [|discriminate]. destruct b as [|y b].
          - injection Eb as <- <-. destruct x as [|[|x]]; [injection E as <- <-; reflexivity|injection E as <- <-; reflexivity|destruct x; discriminate].
          - rewrite (IH con' cs' eq_refl) in E by discriminate. destruct x; discriminate. }
        rewrite (Deep (c' :: a) con cs) in Es; [destruct c; discriminate| |discriminate]. cbn [subtree]. rewrite Ea'. exact Ea.
  - repeat constructor; cbn; intuition discriminate.
  - vm_compute. reflexivity.
Qed.
(** In C++ a constructor after one without a rule is not evaluated by its rule. *)
Theorem constructor_without_rule_refuted has_rule l d r : NoDup (l ++ d :: r) -> (exists c, In c l /\ has_rule c = false) -> dispatch false has_rule (l ++ d :: r) d <> Some d.
Proof. apply dispatch_cpp_wrong. Qed.
Example ex_dispatch : dispatch false (fun c => negb (c =? 1)%nat) [0; 1; 2; 3]%nat 2%nat = Some 3%nat /\ dispatch true (fun c => negb (c =? 1)%nat) [0; 1; 2; 3]%nat 2%nat = Some 2%nat.
Proof. split; vm_compute; reflexivity. Qed.

Print Assumptions procedures_generated.
Print Assumptions evaluated_once.
Print Assumptions all_procedures_exist.
Print Assumptions values_ready.
Print Assumptions scheduled_orders_legal.
Print Assumptions dependencies_ready.
Print Assumptions contribution_lost_refuted.
Print Assumptions inherited_only_unvisited_refuted.
Print Assumptions too_early_refuted.
Print Assumptions interleaved_cases_refuted.
Print Assumptions inner_roots_refuted.
Print Assumptions constructor_without_rule_refuted.
Print Assumptions dispatch_scala.
Print Assumptions dispatch_cpp.
