(** * PropsBuildEx: what the dependency graph of a rule misses (C124), and cases for C119-C124. *)
From Verif Require Import Base CondModel PropsCond EdgeModel EdgeProofs EdgeSem GbModel GbSpec GbInst GbCond GbFlow GbExact PropsBuild.
Open Scope nat_scope.

(** A meaning in which nothing is lost. *)
Inductive tree := Leaf (n : nat) | Node (t : nat) (ds : list decl) (ps : list pat) (ts : list tree).
Definition trees : interp := mkI tree (Leaf 0) (Leaf 1)
  (fun g m vs => Node 0 (g :: m) [] vs) (fun f a b => Node 1 [f] [] [a; b]) (fun d a b => Node 2 [d] [] [a; b]) (fun f vs r => Node 3 [f] [] (r :: vs))
  (fun ps v => Node 4 [] [] (v :: ps)) (fun ps v vs => Node 5 [] ps (v :: vs)) (fun d v => Node 6 [d] [] [v]) (fun v => Node 7 [] [] [v])
  (fun v => match v with Leaf 0 => false | _ => true end).
Lemma trees_injective : injective trees.
Proof. constructor; cbn; intros; match goal with H : Node _ _ _ _ = Node _ _ _ _ |- _ => injection H as; subst; auto end. Qed.

(** Phylum 100 has attributes 10, 11 and the shared information 99; function 200 takes 20,
    gives 21; variable 5 has field 7. *)
Definition env0 : genv := mkEnv [0; 1] 0 (fun fld f => if (fld =? 7) && (f =? 0) then Some 1 else None) (fun _ => false)
  (fun a => if a =? 5 then [1] else []) (fun _ => []) (fun phy => if phy =? 100 then [10; 11; 99] else if phy =? 200 then [20; 21; 98] else [])
  (fun _ => false) (fun phy => if phy =? 100 then 99 else 98) S (fun _ => 21) (fun _ => [20]) (fun _ => 1000).
Definition rule0 : grule := mkRule 1 100 [(2, Some 100)]
  (BCons (SLocal 5 (DSimple (EAttr 1 11) []))
  (BCons (SIf 0 (EUse 5) (BCons (SAssign (EAttr 2 11) (ECall 50 200 (ECons (EUse 5) ENil))) BNil) (BCons (SAssign (EAttr 2 11) EConst) BNil))
  (BCons (SCase (EAttr 2 10) (MCons 0 (PAnd (PVar 6) (PCond (EUse 5))) (BCons (SAssign (EAttr 1 10) (EUse 6)) BNil) MNil) (BCons (SAssign (EAttr 1 10) (EField 7 (EUse 5))) BNil)) BNil))).
Definition att (n a : decl) : ainst := mkInst (AD a) None (Some n).
Definition var (d : decl) : ainst := mkInst (AD d) None None.
Definition tst (k : nat) : ainst := mkInst (AT k) None None.
Definition all (v : bool) : outcome := fun _ => v.
Ltac settle := repeat (constructor; [cbn; intuition discriminate|]); try constructor.
Lemma env0_ok R : fibers_ok env0 R.
Proof.
  constructor.
  - intros a. cbn. destruct (a =? 5); settle.
  - intros phy. cbn. destruct (phy =? 100); [|destruct (phy =? 200)]; settle.
Qed.
Definition at_b (bt : built) (j : nat) (i : ainst) : bool := match nth_error (b_insts bt) j with Some i' => inst_eqb i' i | None => false end.
Definition depends_b (bt : built) (o : outcome) (p s : ainst) : bool := existsb (fun e => at_b bt (d_src e) p && at_b bt (d_snk e) s && meetsb o (d_cond e)) (b_edges bt).
Lemma at_b_spec bt j i : at_b bt j i = true <-> nth_error (b_insts bt) j = Some i.
Proof. unfold at_b. destruct (nth_error (b_insts bt) j); [rewrite inst_eqb_eq|]; split; congruence. Qed.
Lemma depends_b_spec bt o p s : depends_b bt o p s = true <-> depends bt o p s.
Proof.
  unfold depends_b, depends. rewrite existsb_exists. split; intros (e & He & H); exists e; (split; [exact He|]); rewrite !andb_true_iff, !at_b_spec, meetsb_spec in *; tauto.
Qed.
Lemma depends_not bt o p s : depends_b bt o p s = false -> ~ depends bt o p s.
Proof. intros H K. apply depends_b_spec in K. congruence. Qed.
Lemma depends_only bt o p s : depends bt o p s -> In p (b_insts bt).
Proof. intros (e & _ & H & _). now apply nth_error_In with (d_src e). Qed.
(** no test, or nothing at all, has an edge to s *)
Definition no_test (bt : built) (s : ainst) : bool := forallb (fun e => negb (at_b bt (d_snk e) s && match nth_error (b_insts bt) (d_src e) with Some (mkInst (AT _) _ _) => true | _ => false end)) (b_edges bt).
Lemma no_test_spec bt o k s : no_test bt s = true -> ~ depends bt o (tst k) s.
Proof.
  unfold no_test. rewrite forallb_forall. intros H (e & He & H1 & H2 & _). specialize (H e He). apply at_b_spec in H2. rewrite H2, H1 in H. discriminate H.
Qed.
(** C119-C122 apply to this rule: *)
Example rule0_built : exists bt, build env0 rule0 = Ok bt /\ NoDup (names rule0) /\ fibers_ok env0 rule0 /\ plain (r_body rule0) /\ no_for (r_body rule0) /\ apart env0 rule0 /\ injective trees /\
  length (b_insts bt) = 14 /\ map t_num (b_tests bt) = [0; 1] /\
  depends bt (all true) (tst 0) (att 2 11) /\ depends bt (all true) (mkInst (AD 21) None (Some 50)) (att 2 11) /\ ~ depends bt (all false) (mkInst (AD 21) None (Some 50)) (att 2 11) /\
  depends bt (all false) (mkInst (AD 5) (Some 1) None) (att 1 10) /\ ~ depends bt (all true) (mkInst (AD 5) (Some 1) None) (att 1 10) /\
  ~ In 5 (sometimes false (r_body rule0)) /\ In 6 (sometimes false (r_body rule0)).
Proof.
  eexists. split; [vm_compute; reflexivity|]. split; [cbn; settle|]. split; [apply env0_ok|]. split; [cbn; tauto|]. split; [cbn; tauto|]. split.
  { intros d phy Hd. cbn in Hd. cbn. destruct (phy =? 100); [|destruct (phy =? 200)]; cbn; intuition (subst; discriminate). }
  split; [apply trees_injective|]. split; [reflexivity|]. split; [reflexivity|].
  split; [apply depends_b_spec; vm_compute; reflexivity|]. split; [apply depends_b_spec; vm_compute; reflexivity|]. split; [apply depends_not; vm_compute; reflexivity|]. split; [apply depends_b_spec; vm_compute; reflexivity|]. split; [apply depends_not; vm_compute; reflexivity|].
  split; cbn; intuition discriminate.
Qed.

(** ** C124 *)
(** Whether a variable declared with an initial value below a test has a value depends on
    the test, but there is no such edge. *)
Definition rule1 : grule := mkRule 1 100 [(2, Some 100)] (BCons (SIf 0 (EAttr 1 11) (BCons (SLocal 5 (DSimple (EAttr 2 10) [])) BNil) BNil) BNil).
Theorem C124_conditional_variable_refuted : exists E R I bt o o' s sg, build E R = Ok bt /\ NoDup (names R) /\ fibers_ok E R /\ plain (r_body R) /\ In s (b_insts bt) /\
  (forall k, ~ depends bt o (mkInst (AT k) None None) s /\ ~ depends bt o' (mkInst (AT k) None None) s) /\ given I s (run E R I o sg (b_body bt)) <> given I s (run E R I o' sg (b_body bt)).
Proof.
  exists env0, rule1, trees. eexists. exists (all true), (all false), (var 5), (fun _ => Leaf 2). split; [vm_compute; reflexivity|]. split; [cbn; settle|]. split; [apply env0_ok|]. split; [cbn; tauto|]. split; [cbn; auto 12|].
  split; [intros k; split; apply no_test_spec; vm_compute; reflexivity|]. vm_compute. discriminate.
Qed.
(** Nor for the variables of a pattern. *)
Definition rule2 : grule := mkRule 1 100 [(2, Some 100)] (BCons (SCase (EAttr 2 10) (MCons 0 (PAnd (PVar 6) (PCond (EAttr 1 11))) BNil MNil) BNil) BNil).
Theorem C124_pattern_variable_refuted : exists E R I bt o o' s sg, build E R = Ok bt /\ NoDup (names R) /\ fibers_ok E R /\ plain (r_body R) /\ In s (b_insts bt) /\
  (forall k, ~ depends bt o (mkInst (AT k) None None) s /\ ~ depends bt o' (mkInst (AT k) None None) s) /\ given I s (run E R I o sg (b_body bt)) <> given I s (run E R I o' sg (b_body bt)).
Proof.
  exists env0, rule2, trees. eexists. exists (all true), (all false), (var 6), (fun _ => Leaf 2). split; [vm_compute; reflexivity|]. split; [cbn; settle|]. split; [apply env0_ok|]. split; [cbn; tauto|]. split; [cbn; auto 12|].
  split; [intros k; split; apply no_test_spec; vm_compute; reflexivity|]. vm_compute. discriminate.
Qed.
(** What the initial value of a collection reads has no edge to it; what a condition inside a
    choice of patterns reads has none to the test; an attribute of a node held in a variable
    has none anywhere. *)
Definition rule3 : grule := mkRule 1 100 [(2, Some 100)] (BCons (SLocal 5 (DComposite (EAttr 2 10))) BNil).
Definition rule4 : grule := mkRule 1 100 [(2, Some 100)] (BCons (SCase (EAttr 2 10) (MCons 0 (PChoice (PCons (PCond (EAttr 1 11)) (PCons PNone PNil))) BNil MNil) BNil) BNil).
Definition rule5 : grule := mkRule 1 100 [(2, Some 100)] (BCons (SCase (EUse 2) (MCons 0 (PVar 6) (BCons (SAssign (EAttr 1 10) (EAttr 6 10)) BNil) MNil) BNil) BNil).
Definition missed (E : genv) (R : grule) (p s : ainst) : Prop := exists I bt o sg sg', build E R = Ok bt /\ NoDup (names R) /\ fibers_ok E R /\ no_for (r_body R) /\ In s (b_insts bt) /\
  ~ depends bt o p s /\ (forall q, q <> p -> sg q = sg' q) /\ given I s (run E R I o sg (b_body bt)) <> given I s (run E R I o sg' (b_body bt)).
Lemma missed_by E R p s bt : build E R = Ok bt -> NoDup (names R) -> fibers_ok E R -> no_for (r_body R) -> In s (b_insts bt) -> depends_b bt (all true) p s = false ->
  given trees s (run E R trees (all true) (fun q => if inst_eqb q p then Leaf 2 else Leaf 3) (b_body bt)) <> given trees s (run E R trees (all true) (fun _ => Leaf 3) (b_body bt)) -> missed E R p s.
Proof.
  intros H1 H2 H3 H4 H5 H6 H7. exists trees, bt, (all true), (fun q => if inst_eqb q p then Leaf 2 else Leaf 3), (fun _ => Leaf 3). do 6 (split; [eauto using depends_not|]). split; [|exact H7].
  intros q D. destruct (inst_eqb q p) eqn:Q; [apply inst_eqb_eq in Q; contradiction|reflexivity].
Qed.
Theorem C124_collection_refuted : exists E R p s, missed E R p s /\ r_body R = BCons (SLocal 5 (DComposite (EAttr 2 10))) BNil /\ p = mkInst (AD 10) None (Some 2) /\ s = mkInst (AD 5) None None.
Proof.
  exists env0, rule3, (att 2 10), (var 5). split; [|split; [reflexivity|auto]]. eapply missed_by; [vm_compute; reflexivity|cbn; settle|apply env0_ok|cbn; tauto|cbn; auto 12|vm_compute; reflexivity|]. vm_compute. discriminate.
Qed.
Theorem C124_choice_refuted : exists E R p s e q, missed E R p s /\ r_body R = BCons (SCase e (MCons 0 (PChoice (PCons (PCond (EAttr 1 11)) q)) BNil MNil) BNil) BNil /\ p = mkInst (AD 11) None (Some 1) /\ s = mkInst (AT 0) None None.
Proof.
  exists env0, rule4, (att 1 11), (tst 0), (EAttr 2 10), (PCons PNone PNil). split; [|split; [reflexivity|auto]]. eapply missed_by; [vm_compute; reflexivity|cbn; settle|apply env0_ok|cbn; tauto|cbn; auto 12|vm_compute; reflexivity|]. vm_compute. discriminate.
Qed.
Theorem C124_node_variable_refuted : exists E R p s, missed E R p s /\ plain (r_body R) /\ p = mkInst (AD 10) None (Some 6) /\ s = mkInst (AD 10) None (Some 1).
Proof.
  exists env0, rule5, (att 6 10), (att 1 10). split; [|split; [cbn; tauto|auto]]. eapply missed_by; [vm_compute; reflexivity|cbn; settle|apply env0_ok|cbn; tauto|cbn; auto 12|vm_compute; reflexivity|]. vm_compute. discriminate.
Qed.
(** A match of a [for] has the number of another test, so that statements that are both
    executed are taken to exclude each other. *)
Definition rule6 : grule := mkRule 1 100 [(2, Some 100)]
  (BCons (SIf 0 (EAttr 1 11) BNil (BCons (SAssign (EAttr 1 10) EConst) BNil))
  (BCons (SFor (EAttr 2 10) (MCons 0 (PVar 6) (BCons (SAssign (EAttr 2 11) (EUse 6)) BNil) MNil)) BNil)).
Theorem C124_for_refuted : exists E R bt st c st' c', build E R = Ok bt /\ NoDup (names R) /\ fibers_ok E R /\
  r_body R = BCons (SIf 0 (EAttr 1 11) BNil (BCons st BNil)) (BCons (SFor (EAttr 2 10) (MCons 0 (PVar 6) (BCons st' BNil) MNil)) BNil) /\
  In (st, c) (conds_block no_cond (b_body bt)) /\ In (st', c') (conds_block no_cond (b_body bt)) /\ forall o, ~ (meets o c /\ meets o c').
Proof.
  exists env0, rule6. eexists. exists (SAssign (EAttr 1 10) EConst), (mkCond 0 1), (SAssign (EAttr 2 11) (EUse 6)), (mkCond 1 0). split; [vm_compute; reflexivity|]. split; [cbn; settle|]. split; [apply env0_ok|]. split; [reflexivity|]. split; [cbn; auto|]. split; [cbn; auto|].
  intros o [H H']. specialize (H 0%N). specialize (H' 0%N). cbn in H, H'. destruct H as [_ H], H' as [H' _]. rewrite H in H' by reflexivity. discriminate (H' eq_refl).
Qed.
(** Assigning to (a field of) the result of a call reads an uninitialised variable. *)
Theorem C124_call_refuted : exists E R f x g args, r_body R = BCons (SAssign (EField f (ECall x g args)) EConst) BNil /\ build E R = UB.
Proof. exists env0, (mkRule 1 100 [] (BCons (SAssign (EField 7 (ECall 50 200 ENil)) EConst) BNil)), 7, 50, 200, ENil. split; [reflexivity|]. vm_compute. reflexivity. Qed.
(** An edge to a variable of a pattern is there also where the pattern does not match. *)
Theorem C124_unconditional_refuted : exists E R bt e s o, build E R = Ok bt /\ plain (r_body R) /\ In e (b_edges bt) /\ nth_error (b_insts bt) (d_snk e) = Some s /\ In s (map (fun d => mkInst (AD d) None None) (pattern_vars (r_body R))) /\ meets o (d_cond e) /\
  forall I sg, given I s (run E R I o sg (b_body bt)) = [].
Proof.
  exists env0, rule2. eexists. exists (mkEdge 4 7 no_cond 31), (var 6), (all false). split; [vm_compute; reflexivity|]. split; [cbn; tauto|]. split; [cbn; auto 12|]. split; [vm_compute; reflexivity|]. split; [cbn; auto|]. split; [apply meets_no|]. intros I0 sg. reflexivity.
Qed.

Print Assumptions rule0_built.
Print Assumptions C124_conditional_variable_refuted.
Print Assumptions C124_pattern_variable_refuted.
Print Assumptions C124_collection_refuted.
Print Assumptions C124_choice_refuted.
Print Assumptions C124_node_variable_refuted.
Print Assumptions C124_for_refuted.
Print Assumptions C124_call_refuted.
Print Assumptions C124_unconditional_refuted.
