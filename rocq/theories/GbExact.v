(** * GbExact: an edge of the base graph stands for something that is read (C122). *)
From Verif Require Import Base CondModel PropsCond GbModel GbSpec GbInst GbCond GbFlow.
From Coq Require Import Permutation.
Open Scope nat_scope.

Definition strong (e : gedge) : bool := negb (N.land (d_kind e) DEPENDENCY_NOT_JUST_FIBER =? 0)%N.
Section EXACT.
Context (E : genv) (R : grule) (I : interp) (Inj : injective I) (B : block) (n : nat).
Local Notation insts := (instances E R B n).
Local Notation given := (given I).
Lemma weak_kind k : (N.land (N.ldiff k DEPENDENCY_NOT_JUST_FIBER) DEPENDENCY_NOT_JUST_FIBER =? 0)%N = true.
Proof. apply N.eqb_eq. apply N.bits_inj. intros b. rewrite N.land_spec, N.ldiff_spec, N.bits_0. destruct (N.testbit k b), (N.testbit DEPENDENCY_NOT_JUST_FIBER b); reflexivity. Qed.
(** strong edges are between base places *)
Lemma add_edges_strong v1 v2 c k e : In e (add_edges E R B n v1 v2 c k) -> strong e = true -> vertex_instance E R B n v1 (e_base E) = Some (d_src e) /\ vertex_instance E R B n v2 (e_base E) = Some (d_snk e) /\ d_kind e = k.
Proof.
  intros H S. unfold add_edges in H. apply in_app_iff in H. destruct H as [H|H].
  - unfold edge_if in H. destruct (vertex_instance E R B n v1 (e_base E)) as [i|]; [|destruct H]. destruct (vertex_instance E R B n v2 (e_base E)) as [j|]; [|destruct H]. destruct H as [<-|[]]. auto.
  - exfalso. destruct (carrying k); [|destruct H]. apply in_flat_map in H. destruct H as (f & _ & H). destruct (f =? e_base E); [destruct H|].
    assert (W : d_kind e = N.ldiff k DEPENDENCY_NOT_JUST_FIBER). { unfold edge_if in H. destruct (e_reverse E f), (vertex_instance E R B n v1 f), (vertex_instance E R B n v2 f); (destruct H as [<-|[]] || destruct H); reflexivity. }
    unfold strong in S. rewrite W, weak_kind in S. discriminate.
Qed.
Lemma add_edges_cond v1 v2 c k e : In e (add_edges E R B n v1 v2 c k) -> d_cond e = c.
Proof.
  intros H. unfold add_edges in H. apply in_app_iff in H. destruct H as [H|H].
  - unfold edge_if in H. destruct (vertex_instance E R B n v1 (e_base E)) as [i|]; [|destruct H]. destruct (vertex_instance E R B n v2 (e_base E)) as [j|]; [|destruct H]. destruct H as [<-|[]]. auto.
  - destruct (carrying k); [|destruct H]. apply in_flat_map in H. destruct H as (f & _ & H). destruct (f =? e_base E); [destruct H|].
    unfold edge_if in H. destruct (e_reverse E f), (vertex_instance E R B n v1 f), (vertex_instance E R B n v2 f); (destruct H as [<-|[]] || destruct H); reflexivity.
Qed.
Lemma rec_cond_of sink c : (forall x e k m, In e (rec_expr E R B n sink c k m x) -> d_cond e = c) /\ (forall xs e k m, In e (rec_exprs E R B n sink c k m xs) -> d_cond e = c).
Proof.
  apply exprs_mutind; intros; cbn [rec_expr rec_exprs] in *; rewrite ?in_app_iff in *; try contradiction; try (eapply add_edges_cond; eassumption).
  - destruct H as [H|H]; eapply add_edges_cond; eassumption.
  - destruct H0 as [H0|H0]; eapply H; eassumption.
  - destruct H0 as [H0|H0]; [|eapply add_edges_cond; eassumption]. destruct m; [eapply H; eassumption|destruct H0].
  - eapply H; eassumption.
  - destruct H1; [eapply H|eapply H0]; eassumption.
Qed.

(** ** the places that are given a value do not depend on the values *)
Section SHAPE.
Context (o : outcome) (sg sg' : ainst -> V I).
Lemma shape_give a nd m v v' : map fst (give E I a nd m v) = map fst (give E I a nd m v').
Proof. unfold give. destruct (place E a nd m); reflexivity. Qed.
Lemma shape_app {A B'} (l1 l2 l1' l2' : list (A * B')) : map fst l1 = map fst l1' -> map fst l2 = map fst l2' -> map fst (l1 ++ l2) = map fst (l1' ++ l2').
Proof. intros H1 H2. now rewrite !map_app, H1, H2. Qed.
Lemma shape_flat {A} (f g : A -> list (ainst * V I)) l : (forall x, map fst (f x) = map fst (g x)) -> map fst (flat_map f l) = map fst (flat_map g l).
Proof. intros H. induction l as [|x l IH]; [reflexivity|]. cbn [flat_map]. now apply shape_app. Qed.
Lemma shape_actuals p : forall fs args, map fst (give_actuals E R I sg p fs args) = map fst (give_actuals E R I sg' p fs args).
Proof. induction fs as [|f fs IH]; intros args; [reflexivity|]. destruct args; [reflexivity|]. cbn [give_actuals]. apply shape_app; [apply shape_give|apply IH]. Qed.
Lemma shape_calls : (forall e, map fst (calls E R I sg e) = map fst (calls E R I sg' e)) /\ (forall es, map fst (callss E R I sg es) = map fst (callss E R I sg' es)).
Proof.
  apply exprs_mutind; intros; cbn [calls callss]; auto.
  - apply shape_app; [apply shape_actuals|]. apply shape_app; [apply shape_give|exact H].
  - now apply shape_app.
Qed.
Lemma shape_assign : (forall l top m ps ps' v v', map fst (assign E R I sg top l m ps v) = map fst (assign E R I sg' top l m ps' v')) /\ (forall ls m ps ps' v v', map fst (assigns E R I sg ls m ps v) = map fst (assigns E R I sg' ls m ps' v')).
Proof. apply exprs_mutind; intros; cbn [assign assigns]; auto using shape_give. apply shape_app; [apply H|apply H0]. Qed.
Lemma shape_tests e : forall ms before, map fst (give_tests E R I sg e before ms) = map fst (give_tests E R I sg' e before ms).
Proof. induction ms as [|k p b ms IH]; intros before; [reflexivity|]. cbn [give_tests]. apply shape_app; [apply shape_give|]. apply shape_app; [apply shape_flat; intros x; apply (proj1 shape_calls)|apply IH]. Qed.
Lemma shape_run : (forall st, map fst (run_stmt E R I o sg st) = map fst (run_stmt E R I o sg' st)) /\ (forall b, map fst (run_block E R I o sg b) = map fst (run_block E R I o sg' b)) /\
  (forall ms e l l', map fst l = map fst l' -> map fst (run_matches E R I o sg e ms l) = map fst (run_matches E R I o sg' e ms l')).
Proof.
  apply stmts_mut; intros; cbn [run_stmt run_block run_matches]; auto.
  - apply shape_app; [apply (proj1 shape_assign)|]. apply shape_app; apply (proj1 shape_calls).
  - destruct def; [reflexivity| |]; (apply shape_app; [apply shape_give|apply (proj1 shape_calls)]).
  - apply shape_app; [apply shape_give|]. apply shape_app; [apply (proj1 shape_calls)|]. destruct (yes o k); assumption.
  - apply shape_app; [apply shape_tests|]. apply shape_app; [apply (proj1 shape_calls)|]. now apply H.
  - apply shape_app; [apply shape_give|]. apply shape_app; [apply (proj1 shape_calls)|]. exact H.
  - now apply shape_app.
  - destruct (yes o k); [|now apply H0]. apply shape_app; [|assumption]. apply shape_flat. intros x. apply shape_give.
Qed.
End SHAPE.

Context (s : ainst).
Lemma given_length (l : list (ainst * V I)) : length (given s l) = length (filter (fun x => inst_eqb x s) (map fst l)).
Proof. unfold GbSpec.given. induction l as [|[x v] l IH]; [reflexivity|]. cbn [flat_map map filter fst snd]. destruct (inst_eqb x s); cbn [app length]; now rewrite IH. Qed.
Lemma split_given l1 l2 l1' l2' : map fst l1 = map fst l1' -> given s (l1 ++ l2) = given s (l1' ++ l2') -> given s l1 = given s l1' /\ given s l2 = given s l2'.
Proof.
  intros Sh H. rewrite !(given_app I s) in H || rewrite !given_app in H. assert (L : length (given s l1) = length (given s l1')) by (rewrite !given_length; now rewrite Sh).
  revert L H. generalize (given s l1) (given s l1'). induction l as [|x l IH]; intros [|y l'] L H; cbn in *; try discriminate; auto. injection H as -> H. destruct (IH l' ltac:(lia) H) as [-> ->]. auto.
Qed.
Lemma split_flat {A} (f g : A -> list (ainst * V I)) l : (forall x, map fst (f x) = map fst (g x)) -> given s (flat_map f l) = given s (flat_map g l) -> forall x, In x l -> given s (f x) = given s (g x).
Proof.
  intros Sh. induction l as [|y l IH]; intros H x Hx; [destruct Hx|]. cbn [flat_map] in H. apply split_given in H; [|apply Sh]. destruct H as [H1 H2]. destruct Hx as [<-|Hx]; [exact H1|now apply IH].
Qed.
Context (o : outcome) (sg sg' : ainst -> V I) (e : gedge) (p : ainst).
Context (St : strong e = true) (Hsrc : nth_error insts (d_src e) = Some p) (Hsnk : nth_error insts (d_snk e) = Some s) (Hdata : exists d, i_attr p = AD d) (Me : meets o (d_cond e)).

Lemma rec_cond_not sink c : ~ In e (rec_cond E R B n sink c).
Proof.
  intros H. unfold rec_cond in H. apply in_flat_map in H. destruct H as (k & _ & H). destruct (N.testbit (N.lor (positive c) (negative c)) (N.of_nat k)); [|destruct H]. destruct (test_of B k) as [t|]; [|destruct H].
  apply add_edges_strong in H; [|exact St]. destruct H as (H & _). apply vertex_sound in H. destruct H as (q & Hq & Nq). rewrite Hsrc in Nq. injection Nq as <-. unfold place in Hq. cbn [fold_right] in Hq. injection Hq as Hq. destruct Hdata as (d & Hd). rewrite <- Hq in Hd. discriminate.
Qed.
Lemma read_exact a nd m v2 c k : In e (add_edges E R B n (mkV a nd m) v2 c k) -> read E I sg a nd m = read E I sg' a nd m -> sg p = sg' p.
Proof.
  intros H Q. apply add_edges_strong in H; [|exact St]. destruct H as (H & _). apply vertex_sound in H. destruct H as (q & Hq & Nq). rewrite Hsrc in Nq. injection Nq as <-. unfold read in Q. rewrite Hq in Q. exact Q.
Qed.
Lemma value_exact sink c : (forall x k m, In e (rec_expr E R B n sink c k m x) -> value E R I sg m x = value E R I sg' m x -> sg p = sg' p) /\
  (forall xs k m, In e (rec_exprs E R B n sink c k m xs) -> values E R I sg m xs = values E R I sg' m xs -> sg p = sg' p).
Proof.
  apply exprs_mutind; intros; cbn [rec_expr rec_exprs value values] in *; rewrite ?in_app_iff in *; try contradiction; try (eapply read_exact; eassumption).
  - apply (inj_shared I Inj) in H0. destruct H0 as [Q1 Q2]. unfold shared_info in H. cbn [v_attr v_node] in H. destruct H as [H|H]; eapply read_exact; eassumption.
  - apply (inj_field I Inj) in H1. destruct H1 as [Q1 Q2]. destruct H0 as [H0|H0]; eapply H; eassumption.
  - apply (inj_call I Inj) in H1. destruct H1 as [Q1 Q2]. destruct H0 as [H0|H0]; [|eapply read_exact; eassumption]. destruct m; [eapply H; eassumption|destruct H0].
  - apply (inj_op I Inj) in H1. eapply H; eassumption.
  - injection H2 as Q1 Q2. destruct H1 as [H1|H1]; [eapply H|eapply H0]; eassumption.
Qed.
(** the sink of an edge is the place of the vertex *)
Lemma rec_sink a nd m c : (forall x k m', In e (rec_expr E R B n (mkV a nd m) c k m' x) -> place E a nd m = Some s) /\ (forall xs k m', In e (rec_exprs E R B n (mkV a nd m) c k m' xs) -> place E a nd m = Some s).
Proof.
  assert (A : forall v1 k, In e (add_edges E R B n v1 (mkV a nd m) c k) -> place E a nd m = Some s).
  { intros v1 k H. apply add_edges_strong in H; [|exact St]. destruct H as (_ & H & _). apply vertex_sound in H. destruct H as (q & Hq & Nq). rewrite Hsnk in Nq. now injection Nq as <-. }
  apply exprs_mutind; intros; cbn [rec_expr rec_exprs] in *; rewrite ?in_app_iff in *; try contradiction; try (eapply A; eassumption).
  - destruct H as [H|H]; eapply A; eassumption.
  - destruct H0 as [H0|H0]; eapply H; eassumption.
  - destruct H0 as [H0|H0]; [|eapply A; eassumption]. destruct m'; [eapply H; eassumption|destruct H0].
  - eapply H; eassumption.
  - destruct H1; [eapply H|eapply H0]; eassumption.
Qed.
Lemma give_given a nd m v : place E a nd m = Some s -> given s (give E I a nd m v) = [v].
Proof. intros P. unfold give. rewrite P. unfold GbSpec.given. cbn [flat_map fst snd]. now rewrite inst_eqb_refl. Qed.
Lemma give_exact a nd m v v' : place E a nd m = Some s -> given s (give E I a nd m v) = given s (give E I a nd m v') -> v = v'.
Proof. intros P. rewrite !give_given by exact P. intros H. now injection H. Qed.
Lemma actuals_exact c q : forall fs args, In e (rec_actuals E R B n q c fs args) -> d_cond e = c /\ (given s (give_actuals E R I sg q fs args) = given s (give_actuals E R I sg' q fs args) -> sg p = sg' p).
Proof.
  induction fs as [|f fs IH]; intros args H; [destruct H|]. destruct args as [|a args]; [destruct H|]. cbn [rec_actuals give_actuals] in *. rewrite !in_app_iff in H. destruct H as [H|[H|H]].
  - split; [eapply (proj1 (rec_cond_of _ c)); exact H|]. intros Q. apply split_given in Q; [|apply shape_give]. destruct Q as [Q _]. apply give_exact in Q; [|eapply (proj1 (rec_sink _ _ _ c)); exact H]. eapply (proj1 (value_exact _ c)); eassumption.
  - now apply rec_cond_not in H.
  - destruct (IH args H) as [H1 H2]. split; [exact H1|]. intros Q. apply split_given in Q; [|apply shape_give]. destruct Q as [_ Q]. auto.
Qed.
Lemma add_sink v1 a nd m c k : In e (add_edges E R B n v1 (mkV a nd m) c k) -> place E a nd m = Some s.
Proof. intros H. apply add_edges_strong in H; [|exact St]. destruct H as (_ & H & _). apply vertex_sound in H. destruct H as (q & Hq & Nq). rewrite Hsnk in Nq. now injection Nq as <-. Qed.
Lemma calls_exact c : (forall x, In e (call_edges E R B n c x) -> d_cond e = c /\ (given s (calls E R I sg x) = given s (calls E R I sg' x) -> sg p = sg' p)) /\
  (forall xs, In e (calls_edges E R B n c xs) -> d_cond e = c /\ (given s (callss E R I sg xs) = given s (callss E R I sg' xs) -> sg p = sg' p)).
Proof.
  apply exprs_mutind; intros; cbn [call_edges calls_edges calls callss] in *; rewrite ?in_app_iff in *; try contradiction; auto.
  - destruct H0 as [H0|[H0|[H0|[H0|H0]]]]; try (now apply rec_cond_not in H0).
    + destruct (actuals_exact c p0 _ _ H0) as [H1 H2]. split; [exact H1|]. intros Q. apply split_given in Q; [|apply shape_actuals]. now apply H2.
    + split; [eapply add_edges_cond; exact H0|]. intros Q. apply split_given in Q; [|apply shape_actuals]. destruct Q as [_ Q]. apply split_given in Q; [|apply shape_give]. destruct Q as [Q _]. apply give_exact in Q; [|eapply add_sink; exact H0]. unfold shared_info in H0. eapply read_exact; eassumption.
    + destruct (H H0) as [H1 H2]. split; [exact H1|]. intros Q. apply split_given in Q; [|apply shape_actuals]. destruct Q as [_ Q]. apply split_given in Q; [|apply shape_give]. now apply H2.
  - destruct H1 as [H1|H1]; [destruct (H H1) as [H2 H3]|destruct (H0 H1) as [H2 H3]]; (split; [exact H2|]); intros Q; (apply split_given in Q; [|apply (proj1 (shape_calls sg sg'))]); now apply H3.
Qed.
Lemma assign_exact c :
  (forall l top k m r ps ps' v v', In e (rec_lhs E R B n top l c k m r) -> d_cond e = c /\ (given s (assign E R I sg top l m ps v) = given s (assign E R I sg' top l m ps' v') -> ps = ps' /\ v = v' /\ (value E R I sg [] r = value E R I sg' [] r -> sg p = sg' p))) /\
  (forall ls k m r ps ps' v v', In e (rec_lhss E R B n ls c k m r) -> d_cond e = c /\ (given s (assigns E R I sg ls m ps v) = given s (assigns E R I sg' ls m ps' v') -> ps = ps' /\ v = v' /\ (value E R I sg [] r = value E R I sg' [] r -> sg p = sg' p))).
Proof.
  assert (Leaf : forall a nd k m r ps ps' v v', In e (assigned E R B n (mkV a nd m) c k r) -> d_cond e = c /\ (given s (give E I a nd m (i_store I ps v)) = given s (give E I a nd m (i_store I ps' v')) -> ps = ps' /\ v = v' /\ (value E R I sg [] r = value E R I sg' [] r -> sg p = sg' p))).
  { intros a nd k m r ps ps' v v' H. unfold assigned in H. apply in_app_iff in H. destruct H as [H|H]; [|now apply rec_cond_not in H]. split; [eapply (proj1 (rec_cond_of _ c)); exact H|]. intros Q. apply give_exact in Q; [|eapply (proj1 (rec_sink _ _ _ c)); exact H]. apply (inj_store I Inj) in Q. destruct Q as [Q1 Q2]. split; [exact Q1|]. split; [exact Q2|]. eapply (proj1 (value_exact _ c)); eassumption. }
  apply exprs_mutind.
  - intros top k m r ps ps' v v' [].
  - intros d top k m r ps ps' v v' H. cbn [rec_lhs assign] in *. now apply Leaf with k.
  - intros d top k m r ps ps' v v' H. cbn [rec_lhs assign] in *. now apply Leaf with k.
  - intros d a top k m r ps ps' v v' H. cbn [rec_lhs assign] in *. now apply Leaf with k.
  - intros fld ob IH top k m r ps ps' v v' H. cbn [rec_lhs assign] in *. apply in_app_iff in H. destruct H as [H|H].
    + destruct (IH _ _ _ _ (value E R I sg [] ob :: ps) (value E R I sg' [] ob :: ps') v v' H) as [H1 H2]. split; [exact H1|]. intros Q. destruct (H2 Q) as (Q1 & Q2 & Q3). injection Q1 as _ Q1. auto.
    + destruct (IH _ _ _ _ (value E R I sg [] ob :: ps) (value E R I sg' [] ob :: ps') v v' H) as [H1 H2]. split; [exact H1|]. intros Q. destruct (H2 Q) as (Q1 & Q2 & Q3). injection Q1 as Q0 Q1. auto.
  - intros q f args _ top k m r ps ps' v v' [].
  - intros g args IH top k m r ps ps' v v' H. cbn [rec_lhs assign] in *. now apply IH with k.
  - intros k m r ps ps' v v' [].
  - intros l IHl ls IH k m r ps ps' v v' H. cbn [rec_lhss assigns] in *. apply in_app_iff in H. destruct H as [H|H].
    + destruct (IHl _ _ _ _ ps ps' v v' H) as [H1 H2]. split; [exact H1|]. intros Q. apply split_given in Q; [|apply (proj1 (shape_assign sg sg'))]. now apply H2.
    + destruct (IH _ _ _ ps ps' v v' H) as [H1 H2]. split; [exact H1|]. intros Q. apply split_given in Q; [|apply (proj1 (shape_assign sg sg'))]. now apply H2.
Qed.
Lemma pat_conds_of : (forall q acc y, In y (pat_conds q acc) -> In y (all_conds q) \/ In y acc) /\ (forall qs acc y, In y (pats_conds qs acc) -> In y (all_condss qs) \/ In y acc).
Proof.
  apply pats_mutind; intros; cbn [all_conds all_condss pat_conds pats_conds] in *; rewrite ?in_app_iff; auto.
  - cbn [In] in *. tauto.
  - destruct (H0 _ _ H1) as [H2|H2]; [auto|]. destruct (H _ _ H2); auto.
  - destruct (H0 _ _ H1) as [H2|H2]; [auto|]. destruct (H _ _ H2); auto.
Qed.
Lemma map_eq_in {A C} (f g : A -> C) l : map f l = map g l -> forall x, In x l -> f x = g x.
Proof. induction l as [|y l IH]; intros H x Hx; [destruct Hx|]. cbn [map] in H. injection H as H1 H2. destruct Hx as [<-|Hx]; auto. Qed.
Lemma tests_exact c x : forall ms chain before, (forall y, In y chain -> y = x \/ In y (flat_map all_conds before)) -> In e (match_edges E R B n c chain ms) ->
  d_cond e = c /\ (given s (give_tests E R I sg x before ms) = given s (give_tests E R I sg' x before ms) -> sg p = sg' p).
Proof.
  induction ms as [|k q b ms IH]; intros chain before Hc H; [destruct H|]. cbn [match_edges give_tests] in *.
  assert (Hc' : forall y, In y (pat_conds q chain) -> y = x \/ In y (flat_map all_conds (before ++ [q]))).
  { intros y Hy. rewrite flat_map_app, in_app_iff. cbn [flat_map]. rewrite app_nil_r. destruct (proj1 pat_conds_of q chain y Hy) as [Hq|Hq]; [auto|]. destruct (Hc y Hq); auto. }
  rewrite !in_app_iff in H. destruct H as [H|[H|H]]; [now apply rec_cond_not in H| |].
  - apply in_flat_map in H. destruct H as (y & Hy & H). split; [eapply (proj1 (rec_cond_of _ c)); exact H|]. intros Q. apply split_given in Q; [|apply shape_give]. destruct Q as [Q _]. apply give_exact in Q; [|eapply (proj1 (rec_sink _ _ _ c)); exact H]. apply (inj_match I Inj) in Q. destruct Q as [Q1 Q2]. eapply (proj1 (value_exact _ c)); [exact H|]. destruct (Hc' y Hy) as [->|Hz]; [exact Q1|]. exact (map_eq_in _ _ _ Q2 y Hz).
  - destruct (IH _ (before ++ [q]) Hc' H) as [H1 H2]. split; [exact H1|]. intros Q. apply split_given in Q; [|apply shape_give]. destruct Q as [_ Q]. apply split_given in Q; [|apply shape_flat; intros y; apply (proj1 (shape_calls sg sg'))]. now apply H2.
Qed.
Lemma pats_exact c x : (forall q, (forall d, In d (vars q) -> s <> mkInst (AD d) None None) -> In e (pat_edges E R B n c x q) -> exists y, In y (all_conds q) /\ In e (call_edges E R B n c y)) /\
  (forall qs, (forall d, In d (varss qs) -> s <> mkInst (AD d) None None) -> In e (pats_edges E R B n c x qs) -> exists y, In y (all_condss qs) /\ In e (call_edges E R B n c y)).
Proof.
  apply pats_mutind; intros; cbn [all_conds all_condss pat_edges pats_edges vars varss] in *; rewrite ?in_app_iff in *; try contradiction; auto.
  - destruct H0 as [H0|H0]; [now apply rec_cond_not in H0|]. apply (proj1 (rec_sink _ _ _ no_cond)) in H0. apply place_local in H0. exfalso. apply (H d); [now left|]. exact H0.
  - exists e0. split; [now left|exact H0].
  - destruct H2 as [H2|H2]; [destruct H as (y & Hy & Q)|destruct H0 as (y & Hy & Q)]; auto; try (intros d Hd; apply H1; apply in_or_app; auto); exists y; rewrite in_app_iff; auto.
  - destruct H2 as [H2|H2]; [destruct H as (y & Hy & Q)|destruct H0 as (y & Hy & Q)]; auto; try (intros d Hd; apply H1; apply in_or_app; auto); exists y; rewrite in_app_iff; auto.
Qed.
Lemma past_all_run x l sgx : forall ms i a m c, numbered_ms i a ms m -> below c i -> meets o (past_all c ms) -> meets o c /\ run_matches E R I o sgx x ms l = l.
Proof.
  induction ms as [|k q b ms IH]; intros i a m c N Bc M; inversion N; subst; cbn [past_all run_matches] in *; [auto|]. rewrite (past_neg c k Bc) in M. destruct (IH (S k) n1 m (neg_cond c k)) as [H1 H2]; [assumption|apply below_neg with k; auto; lia|exact M|]. apply meets_neg in H1. destruct H1 as [H1 H1']. split; [exact H1|]. now rewrite H1'.
Qed.
Definition no_pats (l : list decl) : Prop := forall d, In d l -> s <> mkInst (AD d) None None.
Definition no_locals (l : list decl) : Prop := forall d, In d l -> s <> mkInst (AD d) None (Some (r_lhs R)).
Lemma no_pats_app l l' : no_pats (l ++ l') -> no_pats l /\ no_pats l'.
Proof. intros H. split; intros d Hd; apply H; apply in_or_app; auto. Qed.
Lemma no_locals_app l l' : no_locals (l ++ l') -> no_locals l /\ no_locals l'.
Proof. intros H. split; intros d Hd; apply H; apply in_or_app; auto. Qed.
Lemma run_exact :
  (forall a st m, numbered_stmt a st m -> forall c, below c a -> no_pats (pattern_vars_stmt st) -> no_locals (locals_stmt st) -> In e (edges_stmt E R B n c st) ->
     meets o c /\ (given s (run_stmt E R I o sg st) = given s (run_stmt E R I o sg' st) -> sg p = sg' p)) /\
  (forall a b m, numbered a b m -> forall c, below c a -> no_pats (pattern_vars b) -> no_locals (locals b) -> In e (edges_block E R B n c b) ->
     meets o c /\ (given s (run_block E R I o sg b) = given s (run_block E R I o sg' b) -> sg p = sg' p)) /\
  (forall i a ms m, numbered_ms i a ms m -> forall c c0 x, below c i -> i + count_matches ms <= a -> no_pats (pattern_vars_matches ms) -> no_locals (locals_matches ms) -> In e (edges_matches E R B n false c0 x c ms) ->
     (d_cond e = c0 /\ forall before, given s (give_tests E R I sg x before ms) = given s (give_tests E R I sg' x before ms) -> sg p = sg' p) \/
     (meets o c /\ forall l l', given s (run_matches E R I o sg x ms l) = given s (run_matches E R I o sg' x ms l') -> sg p = sg' p)).
Proof.
  assert (Cnd : forall c, d_cond e = c -> meets o c) by (intros c <-; exact Me).
  apply numbered_mut.
  - intros a l r c Bc _ _ H. cbn [edges_stmt run_stmt] in *. rewrite !in_app_iff in H. destruct H as [H|[H|H]].
    + destruct (proj1 (assign_exact c) _ _ _ _ _ [] [] (value E R I sg [] r) (value E R I sg' [] r) H) as [H1 H2]. split; [now apply Cnd|]. intros Q. apply split_given in Q; [|apply (proj1 (shape_assign sg sg'))]. destruct (H2 (proj1 Q)) as (_ & Q2 & Q3). auto.
    + destruct (proj1 (calls_exact c) _ H) as [H1 H2]. split; [now apply Cnd|]. intros Q. apply split_given in Q; [|apply (proj1 (shape_assign sg sg'))]. destruct Q as [_ Q]. apply split_given in Q; [|apply (proj1 (shape_calls sg sg'))]. now apply H2.
    + destruct (proj1 (calls_exact c) _ H) as [H1 H2]. split; [now apply Cnd|]. intros Q. apply split_given in Q; [|apply (proj1 (shape_assign sg sg'))]. destruct Q as [_ Q]. apply split_given in Q; [|apply (proj1 (shape_calls sg sg'))]. now apply H2.
  - intros a d def c Bc _ NL H. cbn [edges_stmt run_stmt locals_stmt] in *. unfold local_edges in H.
    assert (NoL : forall x k, ~ In e (rec_expr E R B n (mkV (AD d) (Some (r_lhs R)) []) c k [] x)).
    { intros x k Hx. apply (proj1 (rec_sink _ _ _ c)) in Hx. unfold place in Hx. cbn [fold_right] in Hx. rewrite Nat.eqb_refl in Hx. injection Hx as Hx. apply (NL d); [now left|]. now symmetry. }
    apply in_app_iff in H. destruct H as [H|H]; [now apply rec_cond_not in H|]. destruct def as [|x fields|x]; [destruct H| |].
    + rewrite !in_app_iff in H. destruct H as [H|[H|[H|H]]]; [now apply NoL in H| | |].
      * split; [apply Cnd; eapply (proj1 (rec_cond_of _ c)); exact H|]. intros Q. apply split_given in Q; [|apply shape_give]. destruct Q as [Q _]. apply give_exact in Q; [|eapply (proj1 (rec_sink _ _ _ c)); exact H]. eapply (proj1 (value_exact _ c)); eassumption.
      * exfalso. apply in_flat_map in H. destruct H as (f & _ & H). apply add_edges_strong in H; [|exact St]. destruct H as (_ & _ & H). unfold strong in St. rewrite H in St. destruct (e_circ E f); discriminate St.
      * destruct (proj1 (calls_exact c) _ H) as [H1 H2]. split; [now apply Cnd|]. intros Q. apply split_given in Q; [|apply shape_give]. now apply H2.
    + rewrite !in_app_iff in H. destruct H as [H|H]; [now apply NoL in H|]. destruct (proj1 (calls_exact c) _ H) as [H1 H2]. split; [now apply Cnd|]. intros Q. apply split_given in Q; [|apply shape_give]. now apply H2.
  - intros a x t f n1 n2 N1 IHt N2 IHf c Bc NP NL H. cbn [edges_stmt run_stmt pattern_vars_stmt locals_stmt] in *. apply no_pats_app in NP. apply no_locals_app in NL. destruct NP as [NP1 NP2], NL as [NL1 NL2]. pose proof (proj1 (proj2 numbered_le) _ _ _ N1) as L.
    rewrite !in_app_iff in H. destruct H as [H|[H|[H|[H|H]]]]; [now apply rec_cond_not in H| | | |].
    + split; [apply Cnd; eapply (proj1 (rec_cond_of _ c)); exact H|]. intros Q. apply split_given in Q; [|apply shape_give]. destruct Q as [Q _]. apply give_exact in Q; [|eapply (proj1 (rec_sink _ _ _ c)); exact H]. eapply (proj1 (value_exact _ c)); eassumption.
    + destruct (proj1 (calls_exact c) _ H) as [H1 H2]. split; [now apply Cnd|]. intros Q. apply split_given in Q; [|apply shape_give]. destruct Q as [_ Q]. apply split_given in Q; [|apply (proj1 (shape_calls sg sg'))]. now apply H2.
    + destruct (IHt (pos_cond c a)) as [H1 H2]; auto; [apply below_pos with a; auto; lia|]. apply meets_pos in H1. destruct H1 as [H1 Y]. split; [exact H1|]. rewrite Y. intros Q. apply split_given in Q; [|apply shape_give]. destruct Q as [_ Q]. apply split_given in Q; [|apply (proj1 (shape_calls sg sg'))]. now apply H2.
    + destruct (IHf (neg_cond c a)) as [H1 H2]; auto; [apply below_neg with a; auto; lia|]. apply meets_neg in H1. destruct H1 as [H1 Y]. split; [exact H1|]. rewrite Y. intros Q. apply split_given in Q; [|apply shape_give]. destruct Q as [_ Q]. apply split_given in Q; [|apply (proj1 (shape_calls sg sg'))]. now apply H2.
  - intros a x ms d n1 n2 N1 IHm N2 IHd c Bc NP NL H. cbn [edges_stmt run_stmt pattern_vars_stmt locals_stmt] in *. apply no_pats_app in NP. apply no_locals_app in NL. destruct NP as [NP1 NP2], NL as [NL1 NL2]. pose proof (proj2 (proj2 numbered_le) _ _ _ _ N1) as L.
    rewrite !in_app_iff in H. destruct H as [H|[H|[H|H]]].
    + destruct (tests_exact c x ms [x] []) as [H1 H2]; [intros y [<-|[]]; now left|exact H|]. split; [now apply Cnd|]. intros Q. apply split_given in Q; [|apply shape_tests]. now apply H2.
    + destruct (proj1 (calls_exact c) _ H) as [H1 H2]. split; [now apply Cnd|]. intros Q. apply split_given in Q; [|apply shape_tests]. destruct Q as [_ Q]. apply split_given in Q; [|apply (proj1 (shape_calls sg sg'))]. now apply H2.
    + destruct (IHm c c x Bc (le_n _) NP1 NL1 H) as [[H1 H2]|[H1 H2]].
      * split; [now apply Cnd|]. intros Q. apply split_given in Q; [|apply shape_tests]. apply (H2 []). exact (proj1 Q).
      * split; [exact H1|]. intros Q. apply split_given in Q; [|apply shape_tests]. destruct Q as [_ Q]. apply split_given in Q; [|apply (proj1 (shape_calls sg sg'))]. eapply H2. exact (proj2 Q).
    + destruct (past_all_numbered ms a (a + count_matches ms) n1 c N1 Bc) as (B1 & _ & _). destruct (IHd (past_all c ms)) as [H1 H2]; auto; [apply below_mono with (a + count_matches ms); [exact B1|lia]|].
      split; [exact (proj1 (past_all_run x [] sg ms _ _ _ c N1 Bc H1))|]. intros Q. apply split_given in Q; [|apply shape_tests]. destruct Q as [_ Q]. apply split_given in Q; [|apply (proj1 (shape_calls sg sg'))]. destruct Q as [_ Q].
      apply H2. etransitivity; [|etransitivity; [exact Q|]]; [f_equal; symmetry; exact (proj2 (past_all_run x _ sg ms _ _ _ c N1 Bc H1))|f_equal; exact (proj2 (past_all_run x _ sg' ms _ _ _ c N1 Bc H1))].
  - intros a d x b n1 N1 IH c Bc NP NL H. cbn [edges_stmt run_stmt pattern_vars_stmt locals_stmt] in *.
    rewrite !in_app_iff in H. destruct H as [H|[H|[H|H]]]; [now apply rec_cond_not in H| | |].
    + split; [apply Cnd; eapply (proj1 (rec_cond_of _ c)); exact H|]. intros Q. apply split_given in Q; [|apply shape_give]. destruct Q as [Q _]. apply give_exact in Q; [|eapply (proj1 (rec_sink _ _ _ c)); exact H]. apply (inj_elem I Inj) in Q. eapply (proj1 (value_exact _ c)); eassumption.
    + destruct (proj1 (calls_exact c) _ H) as [H1 H2]. split; [now apply Cnd|]. intros Q. apply split_given in Q; [|apply shape_give]. destruct Q as [_ Q]. apply split_given in Q; [|apply (proj1 (shape_calls sg sg'))]. now apply H2.
    + destruct (IH c) as [H1 H2]; auto; [intros y Hy; apply NL; now right|]. split; [exact H1|]. intros Q. apply split_given in Q; [|apply shape_give]. destruct Q as [_ Q]. apply split_given in Q; [|apply (proj1 (shape_calls sg sg'))]. now apply H2.
  - intros a c _ _ _ [].
  - intros a st b n1 n2 N1 IHs N2 IHb c Bc NP NL H. cbn [edges_block run_block pattern_vars locals] in *. apply no_pats_app in NP. apply no_locals_app in NL. destruct NP as [NP1 NP2], NL as [NL1 NL2]. pose proof (proj1 numbered_le _ _ _ N1) as L. apply in_app_iff in H. destruct H as [H|H].
    + destruct (IHs c) as [H1 H2]; auto. split; [exact H1|]. intros Q. apply split_given in Q; [|apply (proj1 (shape_run o sg sg'))]. now apply H2.
    + destruct (IHb c) as [H1 H2]; auto; [apply below_mono with a; auto|]. split; [exact H1|]. intros Q. apply split_given in Q; [|apply (proj1 (shape_run o sg sg'))]. now apply H2.
  - intros i a c c0 x _ _ _ _ [].
  - intros i a q b ms n1 n2 N1 IHb N2 IHm c c0 x Bc Le NP NL H. cbn [edges_matches run_matches pattern_vars_matches locals_matches give_tests count_matches] in *. apply no_pats_app in NP. destruct NP as [NP1 NP]. apply no_pats_app in NP. destruct NP as [NP2 NP3]. apply no_locals_app in NL. destruct NL as [NL1 NL]. apply no_locals_app in NL. destruct NL as [NL2 NL3]. pose proof (proj1 (proj2 numbered_le) _ _ _ N1) as L.
    rewrite !in_app_iff in H. destruct H as [H|[H|H]].
    + left. destruct (proj1 (pats_exact c0 x) q NP1 H) as (y & Hy & Hc). destruct (proj1 (calls_exact c0) y Hc) as [H1 H2]. split; [exact H1|]. intros before Q. apply split_given in Q; [|apply shape_give]. destruct Q as [_ Q]. apply split_given in Q; [|apply shape_flat; intros z; apply (proj1 (shape_calls sg sg'))]. destruct Q as [Q _]. apply H2. refine (split_flat (calls E R I sg) (calls E R I sg') _ _ Q y Hy). intros z. apply (proj1 (shape_calls sg sg')).
    + right. destruct (IHb (pos_cond c i)) as [H1 H2]; auto; [apply below_pos with i; auto; lia|]. apply meets_pos in H1. destruct H1 as [H1 Y]. split; [exact H1|]. intros l l'. rewrite Y. intros Q. apply split_given in Q; [|apply shape_flat; intros z; apply shape_give]. now apply H2.
    + rewrite (past_neg c i Bc) in H. destruct (IHm (neg_cond c i) c0 x) as [[H1 H2]|[H1 H2]]; auto; [apply below_neg with i; auto; lia|lia| |].
      * left. split; [exact H1|]. intros before Q. apply split_given in Q; [|apply shape_give]. destruct Q as [_ Q]. apply split_given in Q; [|apply shape_flat; intros z; apply (proj1 (shape_calls sg sg'))]. eapply H2. exact (proj2 Q).
      * right. apply meets_neg in H1. destruct H1 as [H1 Y]. split; [exact H1|]. intros l l'. rewrite Y. apply H2.
Qed.
Lemma shared_exact : In e (shared_edges E R B n) -> given s (run_shared E R I sg) = given s (run_shared E R I sg') -> sg p = sg' p.
Proof.
  intros H Q. unfold shared_edges in H. apply in_flat_map in H. destruct H as ([m phy] & Hk & H). cbn [fst snd] in H. destruct phy as [phy|]; [|destruct H]. unfold run_shared in Q.
  assert (Q' := split_flat _ _ _ (fun k => match k as k0 return map fst (match snd k0 with Some phy0 => give E I (AD (e_shinfo E phy0)) (Some (fst k0)) [] (read E I sg (info E R) (Some (r_lhs R)) []) | None => [] end) = map fst (match snd k0 with Some phy0 => give E I (AD (e_shinfo E phy0)) (Some (fst k0)) [] (read E I sg' (info E R) (Some (r_lhs R)) []) | None => [] end) with (a, Some b') => shape_give _ _ _ _ _ | (a, None) => eq_refl end) Q (m, Some phy) Hk). cbn [fst snd] in Q'.
  apply give_exact in Q'; [|eapply add_sink; exact H]. unfold shared_info in H. eapply read_exact; [exact H|exact Q'].
Qed.
End EXACT.
