(** * GbFlow: what a rule reads and what decides whether it gives a value has an edge (C121). *)
From Verif Require Import Base CondModel PropsCond GbModel GbSpec GbInst GbCond.
From Coq Require Import Permutation.
Open Scope nat_scope.

Lemma no_for_plain : (forall s, plain_stmt s -> no_for_stmt s) /\ (forall b, plain b -> no_for b) /\ (forall ms, plain_matches ms -> no_for_matches ms).
Proof. apply stmts_mut; cbn; intros; tauto. Qed.

Section FLOW.
Context (E : genv) (R : grule) (I : interp) (B : block) (n : nat).
Local Notation insts := (instances E R B n).
Local Notation given := (given I).
Context (s : ainst) (Hs : In s insts).

Lemma mod_fold m : mod_fiber E m (e_base E) = fold_right (fun fld acc => match acc with Some f => e_longer E fld f | None => None end) (Some (e_base E)) m.
Proof. induction m as [|x m IH]; [reflexivity|]. cbn [mod_fiber fold_right]. now rewrite IH. Qed.
Lemma vertex_found a nd m p : place E a nd m = Some p -> In p insts -> exists j, vertex_instance E R B n (mkV a nd m) (e_base E) = Some j /\ nth_error insts j = Some p.
Proof.
  unfold place, vertex_instance. cbn [v_attr v_node v_mod]. rewrite <- mod_fold. destruct (mod_fiber E m (e_base E)) as [f|]; [|discriminate]. intros Q. injection Q as <-. intros H.
  destruct (lookup_found E R B n a f nd H) as (j & Hj). exists j. exact Hj.
Qed.
Lemma vertex_sound a nd m j : vertex_instance E R B n (mkV a nd m) (e_base E) = Some j -> exists p, place E a nd m = Some p /\ nth_error insts j = Some p.
Proof.
  unfold place, vertex_instance. cbn [v_attr v_node v_mod]. rewrite <- mod_fold. destruct (mod_fiber E m (e_base E)) as [f|]; [|discriminate]. intros Q. eexists. split; [reflexivity|]. exact (lookup_right E R B n a f nd j Q).
Qed.
Lemma given_app x l l' : given x (l ++ l') = given x l ++ given x l'.
Proof. unfold GbSpec.given. apply flat_map_app. Qed.
Lemma given_give a nd m v : given s (give E I a nd m v) = [v] /\ place E a nd m = Some s \/ given s (give E I a nd m v) = [] /\ forall v', given s (give E I a nd m v') = [].
Proof.
  unfold give. destruct (place E a nd m) as [p|]; [|right; split; [|intros v']; reflexivity]. unfold GbSpec.given. cbn [flat_map fst snd]. destruct (inst_eqb p s) eqn:Q; cbn [app].
  - apply inst_eqb_eq in Q. subst p. auto.
  - right. split; [|intros v']; cbn [flat_map fst snd]; rewrite ?Q; reflexivity.
Qed.

(** ** Reading *)
Section DATA.
Context (o : outcome) (sg sg' : ainst -> V I).
Definition agrees (l : list gedge) : Prop := forall e p, In e l -> nth_error insts (d_snk e) = Some s -> meets o (d_cond e) -> nth_error insts (d_src e) = Some p -> sg p = sg' p.
Context (Out : forall p, ~ In p insts -> sg p = sg' p).
Lemma agrees_app l l' : agrees (l ++ l') <-> agrees l /\ agrees l'.
Proof.
  unfold agrees. split.
  - intros H. split; intros e p He; apply H; apply in_or_app; auto.
  - intros [H H'] e p He. apply in_app_iff in He. destruct He as [He|He]; [now apply H|now apply H'].
Qed.
Lemma agrees_flat {A} (f : A -> list gedge) l : agrees (flat_map f l) -> forall x, In x l -> agrees (f x).
Proof. intros H x Hx e p He. apply H. apply in_flat_map. eauto. Qed.
Lemma inst_dec (p : ainst) (l : list ainst) : In p l \/ ~ In p l.
Proof. destruct (existsb (inst_eqb p) l) eqn:Q; [left|right]. - apply existsb_exists in Q. destruct Q as (x & Hx & Q). apply inst_eqb_eq in Q. now subst x. - intros H. assert (T : existsb (inst_eqb p) l = true) by (apply existsb_exists; exists p; split; [exact H|apply inst_eqb_refl]). congruence. Qed.
Context (a0 : attr) (nd0 : option decl) (m0 : list decl) (Hv : place E a0 nd0 m0 = Some s).
Local Notation sink := (mkV a0 nd0 m0).
Lemma read_edge a nd m c k : meets o c -> agrees (add_edges E R B n (mkV a nd m) sink c k) -> read E I sg a nd m = read E I sg' a nd m.
Proof.
  intros Mc H. unfold read. destruct (place E a nd m) as [p|] eqn:P; [|reflexivity]. destruct (inst_dec p insts) as [Hp|Hp]; [|now apply Out].
  destruct (vertex_found _ _ _ _ P Hp) as (i & Vi & Ni). destruct (vertex_found _ _ _ _ Hv Hs) as (j & Vj & Nj).
  apply (H (mkEdge i j c k)); auto. unfold add_edges. rewrite Vi, Vj. apply in_or_app. left. left. reflexivity.
Qed.
Lemma value_edge : (forall e c k m, meets o c -> agrees (rec_expr E R B n sink c k m e) -> value E R I sg m e = value E R I sg' m e) /\
  (forall es c k m, meets o c -> agrees (rec_exprs E R B n sink c k m es) -> values E R I sg m es = values E R I sg' m es).
Proof.
  apply exprs_mutind; intros; cbn [rec_expr rec_exprs value values] in *; rewrite ?agrees_app in *; try reflexivity.
  - now apply read_edge with c (simply E d k).
  - destruct H0 as [H0 H1]. unfold shared_info in *. cbn [v_attr v_node] in *. f_equal; eapply read_edge; eassumption.
  - eapply read_edge; eassumption.
  - destruct H1 as [H1 H2]. f_equal; eapply H; eassumption.
  - destruct H1 as [H1 H2]. f_equal; [|eapply read_edge; eassumption]. destruct m; [|reflexivity]. eapply H; eassumption.
  - f_equal. eapply H; eassumption.
  - destruct H2 as [H2 H3]. f_equal; [eapply H|eapply H0]; eassumption.
Qed.
End DATA.

Section GIVING.
Context (o : outcome) (sg sg' : ainst -> V I).
Context (Out : forall p, ~ In p insts -> sg p = sg' p).
Local Notation agrees := (agrees o sg sg').
Local Notation value := (value E R I).
Lemma give_edge a nd m v v' : (place E a nd m = Some s -> v = v') -> given s (give E I a nd m v) = given s (give E I a nd m v').
Proof.
  intros H. destruct (given_give a nd m v) as [[_ P]|[Q Q']]; [now rewrite (H P)|]. now rewrite Q, Q'.
Qed.
Lemma expr_edge a nd m c k m' e : meets o c -> agrees (rec_expr E R B n (mkV a nd m) c k m' e) -> place E a nd m = Some s -> value sg m' e = value sg' m' e.
Proof. intros Mc H P. eapply (proj1 (value_edge o sg sg' Out a nd m P)); eassumption. Qed.
Lemma actuals_edge c p : meets o c -> forall fs args, agrees (rec_actuals E R B n p c fs args) -> given s (give_actuals E R I sg p fs args) = given s (give_actuals E R I sg' p fs args).
Proof.
  intros Mc. induction fs as [|f fs IH]; intros args H; [reflexivity|]. destruct args as [|a args]; [reflexivity|]. cbn [rec_actuals give_actuals] in *. rewrite !agrees_app in H. destruct H as (H1 & _ & H2). rewrite !given_app. f_equal; [|now apply IH].
  apply give_edge. intros P. eapply expr_edge; eassumption.
Qed.
Lemma calls_edge c : meets o c -> (forall e, agrees (call_edges E R B n c e) -> given s (calls E R I sg e) = given s (calls E R I sg' e)) /\
  (forall es, agrees (calls_edges E R B n c es) -> given s (callss E R I sg es) = given s (callss E R I sg' es)).
Proof.
  intros Mc. apply exprs_mutind; intros; cbn [call_edges calls_edges calls callss] in *; rewrite ?agrees_app in *; try reflexivity.
  - now apply H.
  - destruct H0 as (_ & H1 & H2 & _ & H3). rewrite !given_app. f_equal; [eapply actuals_edge; eassumption|]. f_equal; [|now apply H]. apply give_edge. intros P. eapply read_edge; [exact Out|exact P|exact Mc|exact H2].
  - now apply H.
  - destruct H1. rewrite !given_app. f_equal; auto.
Qed.
Lemma assign_edge c : meets o c ->
  (forall l top m ps ps' v v' rs r0, In r0 rs -> (forall r, In r rs -> exists k, agrees (rec_lhs E R B n top l c k m r)) -> ((forall r, In r rs -> value sg [] r = value sg' [] r) -> ps = ps' /\ v = v') ->
     given s (assign E R I sg top l m ps v) = given s (assign E R I sg' top l m ps' v')) /\
  (forall ls m ps ps' v v' rs r0, In r0 rs -> (forall r, In r rs -> exists k, agrees (rec_lhss E R B n ls c k m r)) -> ((forall r, In r rs -> value sg [] r = value sg' [] r) -> ps = ps' /\ v = v') ->
     given s (assigns E R I sg ls m ps v) = given s (assigns E R I sg' ls m ps' v')).
Proof.
  intros Mc.
  assert (Leaf : forall a nd m ps ps' v v' rs, (forall r, In r rs -> exists k, agrees (assigned E R B n (mkV a nd m) c k r)) -> ((forall r, In r rs -> value sg [] r = value sg' [] r) -> ps = ps' /\ v = v') ->
     given s (give E I a nd m (i_store I ps v)) = given s (give E I a nd m (i_store I ps' v'))).
  { intros a nd m ps ps' v v' rs HA HV. apply give_edge. intros P. destruct HV as [-> ->]; [|reflexivity]. intros r Hr. destruct (HA r Hr) as (k & A). unfold assigned in A. rewrite agrees_app in A. eapply expr_edge; [exact Mc|exact (proj1 A)|exact P]. }
  apply exprs_mutind.
  - reflexivity.
  - intros d top m ps ps' v v' rs r0 _ HA HV. cbn [rec_lhs assign] in *. now apply Leaf with rs.
  - intros d top m ps ps' v v' rs r0 _ HA HV. cbn [rec_lhs assign] in *. now apply Leaf with rs.
  - intros nd a top m ps ps' v v' rs r0 _ HA HV. cbn [rec_lhs assign] in *. now apply Leaf with rs.
  - intros fld ob IH top m ps ps' v v' rs r0 H0 HA HV. cbn [rec_lhs assign] in *. apply IH with (ob :: rs) r0; [now right| |].
    + intros r [<-|Hr].
      * destruct (HA r0 H0) as (k & A). exists control_dependency. now apply agrees_app in A.
      * destruct (HA r Hr) as (k & A). exists k. now apply agrees_app in A.
    + intros HV'. destruct HV as [-> ->]; [intros r Hr; apply HV'; now right|]. split; [f_equal; apply HV'; now left|reflexivity].
  - reflexivity.
  - intros g args IH top m ps ps' v v' rs r0 H0 HA HV. cbn [rec_lhs assign] in *. now apply IH with rs r0.
  - reflexivity.
  - intros l IHl ls IH m ps ps' v v' rs r0 H0 HA HV. cbn [rec_lhss assigns] in *. rewrite !given_app. f_equal.
    + apply IHl with rs r0; auto. intros r Hr. destruct (HA r Hr) as (k & A). exists k. now apply agrees_app in A.
    + apply IH with rs r0; auto. intros r Hr. destruct (HA r Hr) as (k & A). exists k. now apply agrees_app in A.
Qed.
(** the tests of a case *)
Lemma pat_conds_in : (forall p acc e, plain_pat p -> In e (all_conds p) \/ In e acc -> In e (pat_conds p acc)) /\ (forall ps acc e, plain_pats ps -> In e (all_condss ps) \/ In e acc -> In e (pats_conds ps acc)).
Proof.
  apply pats_mutind; intros; cbn [all_conds all_condss pat_conds pats_conds plain_pat plain_pats] in *; auto.
  - destruct H0; [contradiction|auto].
  - cbn [In] in *. tauto.
  - destruct H1 as [P1 P2]. rewrite in_app_iff in H2. apply H0; [exact P2|]. destruct H2 as [[H2|H2]|H2]; [right; apply H; auto|now left|right; apply H; auto].
  - rewrite H0 in H1. destruct H1 as [[]|H1]. exact H1.
  - destruct H0 as [[]|H0]. exact H0.
  - destruct H0 as [[]|H0]. exact H0.
  - destruct H1 as [P1 P2]. rewrite in_app_iff in H2. apply H0; [exact P2|]. destruct H2 as [[H2|H2]|H2]; [right; apply H; auto|now left|right; apply H; auto].
Qed.
Lemma pat_calls c e : meets o c -> (forall p, agrees (pat_edges E R B n c e p) -> forall x, In x (all_conds p) -> agrees (call_edges E R B n c x)) /\ (forall ps, agrees (pats_edges E R B n c e ps) -> forall x, In x (all_condss ps) -> agrees (call_edges E R B n c x)).
Proof.
  intros Mc. apply pats_mutind; intros; cbn [all_conds all_condss pat_edges pats_edges] in *; rewrite ?agrees_app in *; try contradiction; auto.
  - destruct H0 as [<-|[]]. exact H.
  - destruct H1. apply in_app_iff in H2. destruct H2; auto.
  - destruct H1. apply in_app_iff in H2. destruct H2; auto.
Qed.
Lemma pat_vars c e : (forall p, agrees (pat_edges E R B n c e p) -> forall d, In d (vars p) -> agrees (rec_expr E R B n (mkV (AD d) None []) no_cond dependency [] e)) /\ (forall ps, agrees (pats_edges E R B n c e ps) -> forall d, In d (varss ps) -> agrees (rec_expr E R B n (mkV (AD d) None []) no_cond dependency [] e)).
Proof.
  apply pats_mutind; intros; cbn [vars varss pat_edges pats_edges] in *; rewrite ?agrees_app in *; try contradiction; auto.
  - destruct H0 as [<-|[]]. tauto.
  - destruct H1. apply in_app_iff in H2. destruct H2; auto.
  - destruct H1. apply in_app_iff in H2. destruct H2; auto.
Qed.
Lemma flat_given {A} (f g : A -> list (ainst * V I)) l : (forall x, In x l -> given s (f x) = given s (g x)) -> given s (flat_map f l) = given s (flat_map g l).
Proof. induction l as [|x l IH]; intros H; [reflexivity|]. cbn [flat_map]. rewrite !given_app. f_equal; [apply H; now left|apply IH; intros y Hy; apply H; now right]. Qed.
Lemma tests_edge c e : meets o c -> forall ms chain before isf c1, plain_matches ms -> In e chain -> (forall x, In x (flat_map all_conds before) -> In x chain) -> agrees (match_edges E R B n c chain ms) -> agrees (edges_matches E R B n isf c e c1 ms) ->
  given s (give_tests E R I sg e before ms) = given s (give_tests E R I sg' e before ms).
Proof.
  intros Mc. induction ms as [|k p b ms IH]; intros chain before isf c1 P He Hb H H'; [reflexivity|]. cbn [match_edges edges_matches give_tests plain_matches] in *. rewrite !agrees_app in H. rewrite !agrees_app in H'. destruct P as (P1 & P2 & P3), H as (_ & H2 & H3), H' as (H4 & _ & H5).
  assert (Hc : forall x, In x (pat_conds p chain) -> place E (AT k) None [] = Some s -> value sg [] x = value sg' [] x).
  { intros x Hx Pl. eapply expr_edge; [exact Mc| |exact Pl]. exact (agrees_flat o sg sg' (fun x => rec_expr E R B n (mkV (AT k) None []) c control_dependency [] x) _ H2 x Hx). }
  assert (Hb' : forall x, In x (flat_map all_conds (before ++ [p])) -> In x (pat_conds p chain)).
  { intros x Hx. rewrite flat_map_app in Hx. cbn [flat_map] in Hx. rewrite app_nil_r in Hx. apply in_app_iff in Hx. apply (proj1 pat_conds_in); [exact P1|]. destruct Hx as [Hx|Hx]; auto. }
  rewrite !given_app. f_equal; [|f_equal].
  - apply give_edge. intros Pl. f_equal.
    + apply Hc; [|exact Pl]. apply (proj1 pat_conds_in); auto.
    + apply map_ext_in. intros x Hx. apply Hc; [|exact Pl]. now apply Hb'.
  - apply flat_given. intros x Hx. apply (proj1 (calls_edge c Mc)). exact (proj1 (pat_calls c e Mc) p H4 x Hx).
  - apply IH with (pat_conds p chain) isf (past_match isf c1 k); auto. apply (proj1 pat_conds_in); auto.
Qed.
Lemma meets_past c k : meets o c -> yes o k = false -> meets o (past_match false c k).
Proof.
  intros H Hk. assert (Hn : meets o (neg_cond c k)) by now apply meets_neg. intros b. destruct (Hn b) as [_ Hb]. destruct (H b) as [Ha _]. unfold past_match. cbn [positive negative]. split; [|exact Hb].
  rewrite N.ldiff_spec, N.lor_spec, bit_test. intros Q. apply andb_true_iff in Q. destruct Q as [Q1 Q2]. apply negb_true_iff in Q2. rewrite Q2, orb_false_r in Q1. auto.
Qed.
Lemma run_data :
  (forall st c, plain_stmt st -> meets o c -> agrees (edges_stmt E R B n c st) -> given s (run_stmt E R I o sg st) = given s (run_stmt E R I o sg' st)) /\
  (forall b c, plain b -> meets o c -> agrees (edges_block E R B n c b) -> given s (run_block E R I o sg b) = given s (run_block E R I o sg' b)) /\
  (forall ms c c0 e l l', plain_matches ms -> meets o c0 -> meets o c -> agrees (edges_matches E R B n false c0 e c ms) -> (meets o (past_all c ms) -> given s l = given s l') ->
     given s (run_matches E R I o sg e ms l) = given s (run_matches E R I o sg' e ms l')).
Proof.
  apply stmts_mut.
  - intros l r c _ Mc H. cbn [edges_stmt run_stmt] in *. rewrite !agrees_app in H. destruct H as (H1 & H2 & H3). rewrite !given_app. f_equal; [|f_equal; now apply (calls_edge c Mc)].
    apply (proj1 (assign_edge c Mc)) with [r] r; [now left| |].
    + intros x [<-|[]]. eauto.
    + intros Hv. split; [reflexivity|]. apply Hv. now left.
  - intros d def c P Mc H. cbn [edges_stmt run_stmt plain_stmt] in *. unfold local_edges in H. destruct def as [|e fields|e]; [reflexivity| |destruct P]. rewrite !agrees_app in H. destruct H as (_ & _ & H2 & _ & H3). rewrite !given_app. f_equal; [|now apply (calls_edge c Mc)]. apply give_edge. intros Pl. eapply expr_edge; eassumption.
  - intros k e t IHt f IHf c [P1 P2] Mc H. cbn [edges_stmt run_stmt] in *. rewrite !agrees_app in H. destruct H as (_ & H1 & H2 & H3 & H4). rewrite !given_app. f_equal; [|f_equal].
    + apply give_edge. intros Pl. eapply expr_edge; eassumption.
    + now apply (calls_edge c Mc).
    + destruct (yes o k) eqn:Y; [apply IHt with (pos_cond c k)|apply IHf with (neg_cond c k)]; auto; [now apply meets_pos|now apply meets_neg].
  - intros e ms IHm d IHd c [P1 P2] Mc H. cbn [edges_stmt run_stmt] in *. rewrite !agrees_app in H. destruct H as (H1 & H2 & H3 & H4). rewrite !given_app. f_equal; [|f_equal].
    + apply tests_edge with c [e] false c; auto; [now left|intros x []].
    + now apply (calls_edge c Mc).
    + apply IHm with c c; auto. intros M. now apply IHd with (past_all c ms).
  - intros e ms IH c [].
  - intros d e b IH c P Mc H. cbn [edges_stmt run_stmt plain_stmt] in *. rewrite !agrees_app in H. destruct H as (_ & H1 & H2 & H3). rewrite !given_app. f_equal; [|f_equal].
    + apply give_edge. intros Pl. f_equal. eapply expr_edge; eassumption.
    + now apply (calls_edge c Mc).
    + now apply IH with c.
  - reflexivity.
  - intros st IHs b IHb c [P1 P2] Mc H. cbn [edges_block run_block] in *. rewrite !agrees_app in H. destruct H as (H1 & H2). rewrite !given_app. f_equal; [now apply IHs with c|now apply IHb with c].
  - intros c c0 e l l' _ _ Mc _ H. cbn [run_matches past_all] in *. auto.
  - intros k p b IHb ms IHm c c0 e l l' (P1 & P2 & P3) M0 Mc H Hl. cbn [edges_matches run_matches past_all] in *. rewrite !agrees_app in H. destruct H as (H1 & H2 & H3). destruct (yes o k) eqn:Y.
    + rewrite !given_app. f_equal.
      * apply flat_given. intros d Hd. apply give_edge. intros Pl. f_equal. eapply expr_edge; [apply (meets_no o)| |exact Pl]. exact (proj1 (pat_vars c0 e) p H1 d Hd).
      * apply IHb with (pos_cond c k); auto. now apply meets_pos.
    + apply IHm with (past_match false c k) c0; auto. now apply meets_past.
Qed.
Lemma shared_data : agrees (shared_edges E R B n) -> given s (run_shared E R I sg) = given s (run_shared E R I sg').
Proof.
  intros H. unfold run_shared. apply flat_given. intros [m [phy|]] Hk; cbn [fst snd]; [|reflexivity]. apply give_edge. intros Pl. eapply read_edge; [exact Out|exact Pl|apply (meets_no o)|].
  pose proof (agrees_flat o sg sg' _ _ H (m, Some phy) Hk) as A. exact A.
Qed.
End GIVING.

(** ** Deciding *)
Section CONTROL.
Context (sg : ainst -> V I).
(** every test of condition c has an edge to s in l *)
Definition told (c : condition) (l : list gedge) : Prop := forall k t, mentions c k -> test_of B k = Some t -> k < n ->
  exists e, In e l /\ nth_error insts (d_src e) = Some (mkInst (AT k) None None) /\ nth_error insts (d_snk e) = Some s /\ d_cond e = t_cond t.
Lemma told_sub c c' l l' : told c l -> (forall k, mentions c' k -> mentions c k) -> (forall x, In x l -> In x l') -> told c' l'.
Proof. intros H Hc Hl k t Hk Ht L. destruct (H k t (Hc k Hk) Ht L) as (e & He & Q). exists e. auto. Qed.
Lemma rec_cond_told a nd m c : place E a nd m = Some s -> told c (rec_cond E R B n (mkV a nd m) c).
Proof.
  intros P k t Hm Ht L. destruct (vertex_found a nd m s P Hs) as (j & Vj & Nj). destruct (vertex_found (AT k) None [] (mkInst (AT k) None None)) as (i & Vi & Ni).
  - unfold place. cbn [fold_right]. now rewrite Nat.eqb_refl.
  - apply nth_error_In with k. now apply tests_first.
  - exists (mkEdge i j (t_cond t) control_dependency). repeat split; auto. unfold rec_cond. apply in_flat_map. exists k. split; [apply in_seq; lia|]. unfold mentions in Hm. rewrite Hm, Ht. unfold add_edges. rewrite Vi, Vj. apply in_or_app. left. now left.
Qed.
Local Notation gives := (fun l => given s l <> []).
Lemma gives_app l l' : given s (l ++ l') <> [] -> given s l <> [] \/ given s l' <> [].
Proof. rewrite given_app. destruct (given s l); [right; assumption|left; discriminate]. Qed.
Lemma gives_give a nd m v : given s (give E I a nd m v) <> [] -> place E a nd m = Some s.
Proof. destruct (given_give a nd m v) as [[_ P]|[Q _]]; [auto|]. intros H. now destruct H. Qed.
Lemma gives_flat {A} (f : A -> list (ainst * V I)) l : given s (flat_map f l) <> [] -> exists x, In x l /\ given s (f x) <> [].
Proof.
  induction l as [|x l IH]; [intros H; now destruct H|]. cbn [flat_map]. intros H. apply gives_app in H. destruct H as [H|H]; [exists x; split; [now left|exact H]|]. destruct (IH H) as (y & Hy & G). exists y. split; [now right|exact G].
Qed.
Lemma actuals_told c p : forall fs args, given s (give_actuals E R I sg p fs args) <> [] -> told c (rec_actuals E R B n p c fs args).
Proof.
  induction fs as [|f fs IH]; intros args H; [now destruct H|]. destruct args as [|a args]; [now destruct H|]. cbn [rec_actuals give_actuals] in *. apply gives_app in H. destruct H as [H|H].
  - apply gives_give in H. apply told_sub with c (rec_cond E R B n (mkV (AD f) (Some p) []) c); [now apply rec_cond_told|auto|]. intros x Hx. apply in_or_app. right. apply in_or_app. now left.
  - eapply told_sub; [exact (IH args H)|auto|]. intros x Hx. apply in_or_app. right. apply in_or_app. now right.
Qed.
Lemma calls_told c : (forall e, given s (calls E R I sg e) <> [] -> told c (call_edges E R B n c e)) /\ (forall es, given s (callss E R I sg es) <> [] -> told c (calls_edges E R B n c es)).
Proof.
  apply exprs_mutind; intros; cbn [call_edges calls_edges calls callss] in *; try (match goal with H : given _ [] <> [] |- _ => now destruct H end); auto.
  - apply gives_app in H0. destruct H0 as [H0|H0]; [|apply gives_app in H0; destruct H0 as [H0|H0]].
    + eapply told_sub; [exact (actuals_told c p _ _ H0)|auto|]. intros x Hx. rewrite !in_app_iff. auto.
    + apply gives_give in H0. eapply told_sub; [exact (rec_cond_told _ _ _ c H0)|auto|]. intros x Hx. rewrite !in_app_iff. auto.
    + eapply told_sub; [exact (H H0)|auto|]. intros x Hx. rewrite !in_app_iff. auto 6.
  - apply gives_app in H1. destruct H1 as [H1|H1]; [eapply told_sub; [exact (H H1)|auto|]|eapply told_sub; [exact (H0 H1)|auto|]]; intros x Hx; rewrite in_app_iff; auto.
Qed.
Lemma assign_told c : (forall l top k m ps v r, given s (assign E R I sg top l m ps v) <> [] -> told c (rec_lhs E R B n top l c k m r)) /\
  (forall ls k m ps v r, given s (assigns E R I sg ls m ps v) <> [] -> told c (rec_lhss E R B n ls c k m r)).
Proof.
  assert (Leaf : forall a nd m k v r, given s (give E I a nd m v) <> [] -> told c (assigned E R B n (mkV a nd m) c k r)).
  { intros a nd m k v r H. apply gives_give in H. eapply told_sub; [exact (rec_cond_told _ _ _ c H)|auto|]. intros x Hx. apply in_or_app. now right. }
  apply exprs_mutind; intros; cbn [rec_lhs rec_lhss assign assigns] in *; try (match goal with H : given _ [] <> [] |- _ => now destruct H end).
  - eapply Leaf. eassumption.
  - eapply Leaf. eassumption.
  - eapply Leaf. eassumption.
  - eapply told_sub; [eapply H; exact H0|auto|]. intros x Hx. apply in_or_app. left. exact Hx.
  - eapply H. eassumption.
  - apply gives_app in H1. destruct H1 as [H1|H1]; [eapply told_sub; [exact (H false k m ps v r H1)|auto|]|eapply told_sub; [exact (H0 k m ps v r H1)|auto|]]; intros x Hx; apply in_or_app; [left|right]; exact Hx.
Qed.
Lemma mentions_past c k j : mentions c j \/ j = k -> mentions (past_match false c k) j.
Proof.
  unfold mentions, past_match. cbn [positive negative]. rewrite !N.lor_spec, N.ldiff_spec, N.lor_spec, bit_test. destruct (N.eqb_spec (N.of_nat j) (N.of_nat k)) as [Q|Q].
  - intros _. rewrite !orb_true_r. reflexivity.
  - intros [H| ->]; [|lia]. cbn. rewrite !orb_false_r, andb_true_r. exact H.
Qed.
Lemma mentions_past_all : forall ms c j, mentions c j -> mentions (past_all c ms) j.
Proof. induction ms as [|k p b ms IH]; intros c j H; [exact H|]. cbn [past_all]. apply IH, mentions_past. now left. Qed.
Definition not_sometimes (l : list decl) : Prop := forall d, In d l -> s <> mkInst (AD d) None None.
Lemma not_sometimes_app l l' : not_sometimes (l ++ l') -> not_sometimes l /\ not_sometimes l'.
Proof. intros H. split; intros d Hd; apply H; apply in_or_app; auto. Qed.
Lemma place_local d x : place E (AD d) None [] = Some x -> x = mkInst (AD d) None None.
Proof. unfold place. cbn [fold_right]. rewrite Nat.eqb_refl. intros H. now injection H. Qed.
Lemma pat_told c e : (forall p x, In x (all_conds p) -> given s (calls E R I sg x) <> [] -> told c (pat_edges E R B n c e p)) /\ (forall ps x, In x (all_condss ps) -> given s (calls E R I sg x) <> [] -> told c (pats_edges E R B n c e ps)).
Proof.
  apply pats_mutind; intros; cbn [all_conds all_condss pat_edges pats_edges] in *; try contradiction; eauto.
  - destruct H as [<-|[]]. now apply (proj1 (calls_told c)).
  - apply in_app_iff in H1. destruct H1 as [H1|H1]; [eapply told_sub; [exact (H x H1 H2)|auto|]|eapply told_sub; [exact (H0 x H1 H2)|auto|]]; intros y Hy; apply in_or_app; auto.
  - apply in_app_iff in H1. destruct H1 as [H1|H1]; [eapply told_sub; [exact (H x H1 H2)|auto|]|eapply told_sub; [exact (H0 x H1 H2)|auto|]]; intros y Hy; apply in_or_app; auto.
Qed.
Lemma tests_told c e : forall ms chain before isf c1, given s (give_tests E R I sg e before ms) <> [] -> told c (match_edges E R B n c chain ms ++ edges_matches E R B n isf c e c1 ms).
Proof.
  induction ms as [|k p b ms IH]; intros chain before isf c1 H; [now destruct H|]. cbn [give_tests match_edges edges_matches] in *. apply gives_app in H. destruct H as [H|H]; [|apply gives_app in H; destruct H as [H|H]].
  - apply gives_give in H. eapply told_sub; [exact (rec_cond_told _ _ _ c H)|auto|]. intros x Hx. rewrite !in_app_iff. auto.
  - apply gives_flat in H. destruct H as (x & Hx & G). eapply told_sub; [exact (proj1 (pat_told c e) p x Hx G)|auto|]. intros y Hy. rewrite !in_app_iff. auto.
  - eapply told_sub; [exact (IH (pat_conds p chain) (before ++ [p]) isf (past_match isf c1 k) H)|auto|]. intros y Hy. rewrite !in_app_iff in *. tauto.
Qed.
Section RUN.
Context (o : outcome).
Lemma run_told :
  (forall st bl c, (bl = false -> forall k, ~ mentions c k) -> not_sometimes (sometimes_stmt bl st) -> given s (run_stmt E R I o sg st) <> [] -> told c (edges_stmt E R B n c st)) /\
  (forall b bl c, (bl = false -> forall k, ~ mentions c k) -> not_sometimes (sometimes bl b) -> given s (run_block E R I o sg b) <> [] -> told c (edges_block E R B n c b)) /\
  (forall ms c c0 e l, not_sometimes (sometimes_matches ms) -> given s (run_matches E R I o sg e ms l) <> [] -> told c (edges_matches E R B n false c0 e c ms) \/ given s l <> []).
Proof.
  apply stmts_mut.
  - intros l r bl c _ _ H. cbn [edges_stmt run_stmt] in *. apply gives_app in H. destruct H as [H|H]; [|apply gives_app in H; destruct H as [H|H]].
    + eapply told_sub; [exact (proj1 (assign_told c) _ _ dependency _ _ _ r H)|auto|]. intros x Hx. apply in_or_app. now left.
    + eapply told_sub; [exact (proj1 (calls_told c) _ H)|auto|]. intros x Hx. rewrite !in_app_iff. auto.
    + eapply told_sub; [exact (proj1 (calls_told c) _ H)|auto|]. intros x Hx. rewrite !in_app_iff. auto.
  - intros d def bl c Hbl NS H. cbn [edges_stmt run_stmt sometimes_stmt] in *.
    assert (Key : forall e v, given s (give E I (AD d) None [] v ++ calls E R I sg e) <> [] -> not_sometimes (if bl then [d] else []) -> told c (call_edges E R B n c e)).
    { intros e v G N. apply gives_app in G. destruct G as [G|G]; [|now apply (proj1 (calls_told c))]. apply gives_give, place_local in G. destruct bl; [exfalso; apply (N d); [now left|exact G]|]. intros k t Hk. now apply Hbl in Hk. }
    unfold local_edges. destruct def as [|e fields|e]; [now destruct H| |].
    + eapply told_sub; [exact (Key e _ H NS)|auto|]. intros x Hx. rewrite !in_app_iff. auto.
    + eapply told_sub; [exact (Key e _ H NS)|auto|]. intros x Hx. rewrite !in_app_iff. auto.
  - intros k e t IHt f IHf bl c Hbl NS H. cbn [edges_stmt run_stmt sometimes_stmt] in *. apply not_sometimes_app in NS. destruct NS as [N1 N2]. apply gives_app in H. destruct H as [H|H]; [|apply gives_app in H; destruct H as [H|H]].
    + apply gives_give in H. eapply told_sub; [exact (rec_cond_told _ _ _ c H)|auto|]. intros x Hx. rewrite !in_app_iff. auto.
    + eapply told_sub; [exact (proj1 (calls_told c) _ H)|auto|]. intros x Hx. rewrite !in_app_iff. auto.
    + destruct (yes o k).
      * apply (IHt true (pos_cond c k)) in H; [|discriminate|exact N1]. eapply told_sub; [exact H|intros j Hj; apply mentions_pos; now left|]. intros x Hx. rewrite !in_app_iff. auto.
      * apply (IHf true (neg_cond c k)) in H; [|discriminate|exact N2]. eapply told_sub; [exact H|intros j Hj; apply mentions_neg; now left|]. intros x Hx. rewrite !in_app_iff. auto 6.
  - intros e ms IHm d IHd bl c Hbl NS H. cbn [edges_stmt run_stmt sometimes_stmt] in *. apply not_sometimes_app in NS. destruct NS as [N1 N2]. apply gives_app in H. destruct H as [H|H]; [|apply gives_app in H; destruct H as [H|H]].
    + eapply told_sub; [exact (tests_told c e ms [e] [] false c H)|auto|]. intros x Hx. rewrite !in_app_iff in *. tauto.
    + eapply told_sub; [exact (proj1 (calls_told c) _ H)|auto|]. intros x Hx. rewrite !in_app_iff. auto.
    + apply (IHm c c e) in H; [|exact N1]. destruct H as [H|H].
      * eapply told_sub; [exact H|auto|]. intros x Hx. rewrite !in_app_iff. auto.
      * apply (IHd true (past_all c ms)) in H; [|discriminate|exact N2]. eapply told_sub; [exact H|intros j Hj; now apply mentions_past_all|]. intros x Hx. rewrite !in_app_iff. auto.
  - intros e ms _ bl c _ _ H. now destruct H.
  - intros d e b IH bl c Hbl NS H. cbn [edges_stmt run_stmt sometimes_stmt] in *. apply gives_app in H. destruct H as [H|H]; [|apply gives_app in H; destruct H as [H|H]].
    + apply gives_give in H. eapply told_sub; [exact (rec_cond_told _ _ _ c H)|auto|]. intros x Hx. rewrite !in_app_iff. auto.
    + eapply told_sub; [exact (proj1 (calls_told c) _ H)|auto|]. intros x Hx. rewrite !in_app_iff. auto.
    + eapply told_sub; [exact (IH bl c Hbl NS H)|auto|]. intros x Hx. rewrite !in_app_iff. auto.
  - intros bl c _ _ H. now destruct H.
  - intros st IHs b IHb bl c Hbl NS H. cbn [edges_block run_block sometimes] in *. apply not_sometimes_app in NS. destruct NS as [N1 N2]. apply gives_app in H. destruct H as [H|H].
    + eapply told_sub; [exact (IHs bl c Hbl N1 H)|auto|]. intros x Hx. apply in_or_app. now left.
    + eapply told_sub; [exact (IHb bl c Hbl N2 H)|auto|]. intros x Hx. apply in_or_app. now right.
  - intros c c0 e l _ H. cbn [run_matches] in H. now right.
  - intros k p b IHb ms IHm c c0 e l NS H. cbn [edges_matches run_matches sometimes_matches] in *. apply not_sometimes_app in NS. destruct NS as [N1 NS]. apply not_sometimes_app in NS. destruct NS as [N2 N3]. destruct (yes o k).
    + left. apply gives_app in H. destruct H as [H|H].
      * apply gives_flat in H. destruct H as (d & Hd & G). apply gives_give, place_local in G. exfalso. exact (N1 d Hd G).
      * apply (IHb true (pos_cond c k)) in H; [|discriminate|exact N2]. eapply told_sub; [exact H|intros j Hj; apply mentions_pos; now left|]. intros x Hx. rewrite !in_app_iff. auto.
    + apply (IHm (past_match false c k) c0 e) in H; [|exact N3]. destruct H as [H|H]; [left|now right]. eapply told_sub; [exact H|intros j Hj; apply mentions_past; now left|]. intros x Hx. rewrite !in_app_iff. auto.
Qed.
End RUN.
Section TWO.
Context (o o' : outcome) (L : list gedge).
Context (Same : forall k e, In e L -> nth_error insts (d_src e) = Some (mkInst (AT k) None None) -> nth_error insts (d_snk e) = Some s -> meets o (d_cond e) -> yes o k = yes o' k).
Context (Uniq : forall t, In t (tests B) -> test_of B (t_num t) = Some t /\ t_num t < n).
Lemma told_same c k q c' l : In (mkTest k q c) (tests B) -> meets o c -> told c' l -> mentions c' k -> (forall x, In x l -> In x L) -> yes o k = yes o' k.
Proof.
  intros Ht Mc T Mk Sub. destruct (Uniq _ Ht) as [U1 U2]. cbn [t_num] in *. destruct (T k _ Mk U1 U2) as (e & He & E1 & E2 & E3). apply (Same k e); auto. rewrite E3. exact Mc.
Qed.
Lemma nil_dec {A} (l : list A) : l = [] \/ l <> [].
Proof. destruct l; [now left|right; discriminate]. Qed.
Ltac sub H := intros x Hx; apply H; rewrite !in_app_iff; auto 6.
Lemma run_control :
  (forall st bl c, (bl = false -> forall k, ~ mentions c k) -> not_sometimes (sometimes_stmt bl st) -> meets o c -> (forall x, In x (edges_stmt E R B n c st) -> In x L) -> (forall t, In t (tests_stmt c st) -> In t (tests B)) ->
     given s (run_stmt E R I o sg st) = given s (run_stmt E R I o' sg st)) /\
  (forall b bl c, (bl = false -> forall k, ~ mentions c k) -> not_sometimes (sometimes bl b) -> meets o c -> (forall x, In x (edges_block E R B n c b) -> In x L) -> (forall t, In t (tests_block c b) -> In t (tests B)) ->
     given s (run_block E R I o sg b) = given s (run_block E R I o' sg b)) /\
  (forall ms c c0 e l l' ld, not_sometimes (sometimes_matches ms) -> meets o c -> (forall x, In x (edges_matches E R B n false c0 e c ms) -> In x L) -> (forall t, In t (tests_matches false c ms) -> In t (tests B)) ->
     (meets o (past_all c ms) -> given s l = given s l') -> (given s l <> [] -> told (past_all c ms) ld) -> (given s l' <> [] -> told (past_all c ms) ld) -> (forall x, In x ld -> In x L) ->
     given s (run_matches E R I o sg e ms l) = given s (run_matches E R I o' sg e ms l')).
Proof.
  apply stmts_mut.
  - intros l r bl c _ _ _ _ _. reflexivity.
  - intros d def bl c _ _ _ _ _. reflexivity.
  - intros k e t IHt f IHf bl c Hbl NS Mc HL HT. cbn [edges_stmt run_stmt sometimes_stmt tests_stmt] in *. apply not_sometimes_app in NS. destruct NS as [N1 N2]. rewrite !given_app. f_equal. f_equal.
    assert (Y : (forall oo, given s (run_block E R I oo sg t) <> [] -> yes o k = yes o' k) /\ (forall oo, given s (run_block E R I oo sg f) <> [] -> yes o k = yes o' k)).
    { split; intros oo G.
      - apply told_same with c true (pos_cond c k) (edges_block E R B n (pos_cond c k) t); [apply HT; now left|exact Mc| |apply mentions_pos; now right|sub HL]. apply (proj1 (proj2 (run_told oo)) t true); [discriminate|exact N1|exact G].
      - apply told_same with c true (neg_cond c k) (edges_block E R B n (neg_cond c k) f); [apply HT; now left|exact Mc| |apply mentions_neg; now right|sub HL]. apply (proj1 (proj2 (run_told oo)) f true); [discriminate|exact N2|exact G]. }
    destruct Y as [Yt Yf]. destruct (yes o k) eqn:Q, (yes o' k) eqn:Q'.
    + apply IHt with true (pos_cond c k); [discriminate|exact N1|now apply meets_pos|sub HL|]. intros x Hx. apply HT. right. apply in_or_app. now left.
    + destruct (nil_dec (given s (run_block E R I o sg t))) as [G|G]; [|now apply Yt in G]. destruct (nil_dec (given s (run_block E R I o' sg f))) as [G'|G']; [|now apply Yf in G']. etransitivity; [exact G|symmetry; exact G'].
    + destruct (nil_dec (given s (run_block E R I o sg f))) as [G|G]; [|now apply Yf in G]. destruct (nil_dec (given s (run_block E R I o' sg t))) as [G'|G']; [|now apply Yt in G']. etransitivity; [exact G|symmetry; exact G'].
    + apply IHf with true (neg_cond c k); [discriminate|exact N2|now apply meets_neg|sub HL|]. intros x Hx. apply HT. right. apply in_or_app. now right.
  - intros e ms IHm d IHd bl c Hbl NS Mc HL HT. cbn [edges_stmt run_stmt sometimes_stmt tests_stmt] in *. apply not_sometimes_app in NS. destruct NS as [N1 N2]. rewrite !given_app. f_equal. f_equal.
    apply IHm with c c (edges_block E R B n (past_all c ms) d); auto.
    + sub HL.
    + intros x Hx. apply HT, in_or_app. now left.
    + intros M. apply IHd with true (past_all c ms); [discriminate|exact N2|exact M|sub HL|]. intros x Hx. apply HT, in_or_app. now right.
    + intros G. apply (proj1 (proj2 (run_told o)) d true); [discriminate|exact N2|exact G].
    + intros G. apply (proj1 (proj2 (run_told o')) d true); [discriminate|exact N2|exact G].
    + sub HL.
  - intros e ms _ bl c _ _ _ _ _. reflexivity.
  - intros d e b IH bl c Hbl NS Mc HL HT. cbn [edges_stmt run_stmt sometimes_stmt tests_stmt] in *. rewrite !given_app. f_equal. f_equal. apply IH with bl c; auto. sub HL.
  - reflexivity.
  - intros st IHs b IHb bl c Hbl NS Mc HL HT. cbn [edges_block run_block sometimes tests_block] in *. apply not_sometimes_app in NS. destruct NS as [N1 N2]. rewrite !given_app. f_equal; [apply IHs with bl c|apply IHb with bl c]; auto; (sub HL || (intros x Hx; apply HT, in_or_app; auto)).
  - intros c c0 e l l' ld _ Mc _ _ H _ _ _. cbn [run_matches past_all] in *. auto.
  - intros k p b IHb ms IHm c c0 e l l' ld NS Mc HL HT Hd Hl Hl' Hld. cbn [edges_matches run_matches sometimes_matches tests_matches past_all app] in *. apply not_sometimes_app in NS. destruct NS as [N1 NS]. apply not_sometimes_app in NS. destruct NS as [N2 N3].
    assert (Here : In (mkTest k false c) (tests B)) by (apply HT; now left).
    assert (Vars : forall v, given s (flat_map (fun d => give E I (AD d) None [] (i_bind I d v)) (vars p)) = []).
    { intros v. destruct (nil_dec (given s (flat_map (fun d => give E I (AD d) None [] (i_bind I d v)) (vars p)))) as [G|G]; [exact G|]. apply gives_flat in G. destruct G as (d & Hd' & G). apply gives_give, place_local in G. exfalso. exact (N1 d Hd' G). }
    assert (Yb : forall oo, given s (run_block E R I oo sg b) <> [] -> yes o k = yes o' k).
    { intros oo G. apply told_same with c false (pos_cond c k) (edges_block E R B n (pos_cond c k) b); [exact Here|exact Mc| |apply mentions_pos; now right|sub HL]. apply (proj1 (proj2 (run_told oo)) b true); [discriminate|exact N2|exact G]. }
    assert (Ym : forall oo ll, (given s ll <> [] -> told (past_all (past_match false c k) ms) ld) -> given s (run_matches E R I oo sg e ms ll) <> [] -> yes o k = yes o' k).
    { intros oo ll Tl G. apply (proj2 (proj2 (run_told oo)) ms (past_match false c k) c0 e ll N3) in G. destruct G as [G|G].
      - apply told_same with c false (past_match false c k) (edges_matches E R B n false c0 e (past_match false c k) ms); [exact Here|exact Mc|exact G|apply mentions_past; now right|sub HL].
      - apply told_same with c false (past_all (past_match false c k) ms) ld; [exact Here|exact Mc|now apply Tl|apply mentions_past_all, mentions_past; now right|exact Hld]. }
    destruct (yes o k) eqn:Q, (yes o' k) eqn:Q'.
    + rewrite !given_app. f_equal. apply IHb with true (pos_cond c k); [discriminate|exact N2|now apply meets_pos|sub HL|]. intros x Hx. apply HT. right. apply in_or_app. now left.
    + rewrite given_app, Vars. cbn [app]. destruct (nil_dec (given s (run_block E R I o sg b))) as [G|G]; [|now apply Yb in G]. destruct (nil_dec (given s (run_matches E R I o' sg e ms l'))) as [G'|G']; [|apply (Ym o' l' Hl') in G'; discriminate]. etransitivity; [exact G|symmetry; exact G'].
    + rewrite given_app, Vars. cbn [app]. destruct (nil_dec (given s (run_block E R I o' sg b))) as [G|G]; [|now apply Yb in G]. destruct (nil_dec (given s (run_matches E R I o sg e ms l))) as [G'|G']; [|apply (Ym o l Hl) in G'; discriminate]. etransitivity; [exact G'|symmetry; exact G].
    + apply IHm with (past_match false c k) c0 ld; auto; [now apply meets_past|sub HL|]. intros x Hx. apply HT. right. apply in_or_app. now right.
Qed.
End TWO.
End CONTROL.
End FLOW.

