(** * GbFib: the edges of a rule, exactly (C125). *)
From Verif Require Import Base CondModel PropsCond GbModel GbSpec GbInst GbCond GbFlow GbFibSpec.
Open Scope nat_scope.

(** ** Kinds *)
Definition adjust (k : N) (ca si : bool) : N := N.lor (if ca then k else N.ldiff k DEPENDENCY_MAYBE_CARRYING) (if si then DEPENDENCY_MAYBE_SIMPLE else 0).
Lemma bits416 b : N.testbit DEPENDENCY_MAYBE_CARRYING b = true -> N.testbit DEPENDENCY_MAYBE_SIMPLE b = false.
Proof. intros H. assert (Z : N.testbit (N.land DEPENDENCY_MAYBE_CARRYING DEPENDENCY_MAYBE_SIMPLE) b = false) by (change (N.land DEPENDENCY_MAYBE_CARRYING DEPENDENCY_MAYBE_SIMPLE) with 0%N; apply N.bits_0). rewrite N.land_spec, H in Z. exact Z. Qed.
Ltac bitwise := apply N.bits_inj; intros b; repeat rewrite ?N.lor_spec, ?N.ldiff_spec, ?N.bits_0; pose proof (bits416 b) as Z; destruct (N.testbit DEPENDENCY_MAYBE_CARRYING b); [rewrite ?(Z eq_refl)|clear Z; destruct (N.testbit DEPENDENCY_MAYBE_SIMPLE b)]; repeat match goal with |- context [N.testbit ?k b] => destruct (N.testbit k b) end; reflexivity.
Lemma adjust_id k : adjust k true false = k.
Proof. unfold adjust. apply N.lor_0_r. Qed.
Lemma adjust_simply E d k : simply E d k = adjust k true (negb (e_circ E d)).
Proof. unfold simply, adjust. destruct (e_circ E d); cbn [negb]; [now rewrite N.lor_0_r|reflexivity]. Qed.
Lemma adjust_not k : not_carrying k = adjust k false false.
Proof. unfold not_carrying, adjust. now rewrite N.lor_0_r. Qed.
Lemma adjust_adjust k ca si ca' si' : adjust (adjust k ca si) ca' si' = adjust k (ca && ca') (si || si').
Proof. unfold adjust. destruct ca, si, ca', si'; cbn [andb orb]; bitwise. Qed.
Lemma adjust_kind (val ca si : bool) : adjust (if val then dependency else control_dependency) ca si = kind_of (val && ca) si.
Proof. destruct val, ca, si; reflexivity. Qed.

Section FIB.
Context (E : genv) (R : grule) (B : block) (n : nat).
Local Notation add := (add_edges E R B n).
(** ** Expressions *)
Lemma rec_exprs_in sink c k m e es : In e (rec_exprs E R B n sink c k m es) <-> exists x, In x (elems es) /\ In e (rec_expr E R B n sink c k m x).
Proof.
  induction es as [|x es IH]; cbn [rec_exprs elems]; [split; [intros []|intros (x & [] & _)]|]. rewrite in_app_iff, IH. split.
  - intros [H|(y & Hy & H)]; [exists x; split; [now left|exact H]|exists y; split; [now right|exact H]].
  - intros (y & [<-|Hy] & H); [now left|right; eauto].
Qed.
Lemma rec_expr_in sink c e :
  (forall x k m, In e (rec_expr E R B n sink c k m x) <-> exists v ca si, reads E R x m v ca si /\ In e (add v sink c (adjust k ca si))) /\
  (forall es x, In x (elems es) -> forall k m, In e (rec_expr E R B n sink c k m x) <-> exists v ca si, reads E R x m v ca si /\ In e (add v sink c (adjust k ca si))).
Proof.
  apply exprs_mutind.
  - intros k m. cbn [rec_expr]. split; [intros []|intros (v & ca & si & H & _); inversion H].
  - intros d k m. cbn [rec_expr]. rewrite adjust_simply. split; [intros H; do 3 eexists; split; [apply rd_use|exact H]|intros (v & ca & si & H & He); inversion H; subst; exact He].
  - intros d k m. cbn [rec_expr]. rewrite in_app_iff, adjust_simply, adjust_not, adjust_adjust. cbn [andb]. rewrite orb_false_r. split.
    + intros [H|H]; do 3 eexists; (split; [|exact H]); [apply rd_info|apply rd_shared].
    + intros (v & ca & si & H & He). inversion H; subst; [left|right]; exact He.
  - intros nd a k m. cbn [rec_expr]. rewrite adjust_simply. split; [intros H; do 3 eexists; split; [apply rd_attr|exact H]|intros (v & ca & si & H & He); inversion H; subst; exact He].
  - intros fld o IH k m. cbn [rec_expr]. rewrite in_app_iff, !IH, adjust_simply, adjust_not, adjust_adjust. cbn [andb]. rewrite orb_false_r. split.
    + intros [(v & ca & si & H & He)|(v & ca & si & H & He)]; rewrite adjust_adjust in He; cbn [andb] in He; do 3 eexists; (split; [|exact He]); [eapply rd_object; exact H|apply rd_field; exact H].
    + intros (v & ca & si & H & He). inversion H; subst; [left|right]; do 3 eexists; (split; [eassumption|]); rewrite adjust_adjust; exact He.
  - intros p f args IH k m. cbn [rec_expr]. rewrite in_app_iff. split.
    + intros [H|H].
      * destruct m; [|destruct H]. apply rec_exprs_in in H. destruct H as (x & Hx & H). rewrite (IH x Hx) in H. destruct H as (v & ca & si & H & He). exists v, false, true. split; [eapply rd_argument; eassumption|]. change (N.lor k DEPENDENCY_MAYBE_SIMPLE) with (adjust k true true) in He. rewrite adjust_not, !adjust_adjust in He. exact He.
      * exists (mkV (AD (e_result E f)) (Some p) m), true, false. split; [apply rd_result|]. now rewrite adjust_id.
    + intros (v & ca & si & H & He). inversion H; subst; [left|right; now rewrite adjust_id in He]. match goal with Hx : In ?x (elems args) |- _ => apply rec_exprs_in; exists x; split; [exact Hx|]; rewrite (IH x Hx) end. do 3 eexists. split; [eassumption|]. change (N.lor k DEPENDENCY_MAYBE_SIMPLE) with (adjust k true true). rewrite adjust_not, !adjust_adjust. exact He.
  - intros g args IH k m. cbn [rec_expr]. rewrite rec_exprs_in. split.
    + intros (x & Hx & H). rewrite (IH x Hx) in H. destruct H as (v & ca & si & H & He). exists v, ca, si. split; [eapply rd_operand; eassumption|exact He].
    + intros (v & ca & si & H & He). inversion H; subst. match goal with Hx : In ?x (elems args) |- _ => exists x; split; [exact Hx|]; rewrite (IH x Hx) end. eauto.
  - intros x [].
  - intros x IHx es IHes y [<-|Hy]; [exact IHx|now apply IHes].
Qed.
(** ** Left-hand sides *)
Lemma rec_lhss_in c k m r e ls : In e (rec_lhss E R B n ls c k m r) <-> exists l, In l (elems ls) /\ In e (rec_lhs E R B n false l c k m r).
Proof.
  induction ls as [|x es IH]; cbn [rec_lhss elems]; [split; [intros []|intros (x & [] & _)]|]. rewrite in_app_iff, IH. split.
  - intros [H|(y & Hy & H)]; [exists x; split; [now left|exact H]|exists y; split; [now right|exact H]].
  - intros (y & [<-|Hy] & H); [now left|right; eauto].
Qed.
Definition at_target (c : condition) (k : N) (r : expr) (v : vertex) (os : list expr) (e : gedge) : Prop :=
  In e (rec_expr E R B n v c k [] r) \/ In e (rec_cond E R B n v c) \/ exists x, In x os /\ In e (rec_expr E R B n v c control_dependency [] x).
Lemma rec_lhs_in c e :
  (forall l top k m r, In e (rec_lhs E R B n top l c k m r) <-> exists v os, target E R top l m v os /\ at_target c k r v os e) /\
  (forall ls l, In l (elems ls) -> forall top k m r, In e (rec_lhs E R B n top l c k m r) <-> exists v os, target E R top l m v os /\ at_target c k r v os e).
Proof.
  assert (One : forall v k r, In e (assigned E R B n v c k r) <-> at_target c k r v [] e). { intros v k r. unfold assigned, at_target. rewrite in_app_iff. split; [tauto|]. intros [H|[H|(x & [] & _)]]; auto. }
  apply exprs_mutind.
  - intros top k m r. cbn [rec_lhs]. split; [intros []|intros (v & os & H & _); inversion H].
  - intros d top k m r. cbn [rec_lhs]. rewrite One. split; [intros H; do 2 eexists; split; [apply tg_use|exact H]|intros (v & os & H & He); inversion H; subst; exact He].
  - intros d top k m r. cbn [rec_lhs]. rewrite One. split; [intros H; do 2 eexists; split; [apply tg_shared|exact H]|intros (v & os & H & He); inversion H; subst; exact He].
  - intros nd a top k m r. cbn [rec_lhs]. rewrite One. split; [intros H; do 2 eexists; split; [apply tg_attr|exact H]|intros (v & os & H & He); inversion H; subst; exact He].
  - intros fld o IH top k m r. cbn [rec_lhs]. rewrite in_app_iff, !IH. split.
    + intros [(v & os & H & He)|(v & os & H & He)]; exists v, (o :: os); (split; [now apply tg_field|]); unfold at_target in *.
      * destruct He as [He|[He|(x & Hx & He)]]; [auto|auto|]. right. right. exists x. split; [now right|exact He].
      * destruct He as [He|[He|(x & Hx & He)]]; [right; right; exists o; split; [now left|exact He]|auto|]. right. right. exists x. split; [now right|exact He].
    + intros (v & os & H & He). inversion H; subst. unfold at_target in *. destruct He as [He|[He|(x & [<-|Hx] & He)]].
      * left. do 2 eexists. split; [eassumption|auto].
      * left. do 2 eexists. split; [eassumption|auto].
      * right. do 2 eexists. split; [eassumption|auto].
      * left. do 2 eexists. split; [eassumption|]. right. right. eauto.
  - intros p f args _ top k m r. cbn [rec_lhs]. split; [intros []|intros (v & os & H & _); inversion H].
  - intros g args IH top k m r. cbn [rec_lhs]. rewrite rec_lhss_in. split.
    + intros (l & Hl & H). rewrite (IH l Hl) in H. destruct H as (v & os & H & He). exists v, os. split; [eapply tg_operand; eassumption|exact He].
    + intros (v & os & H & He). inversion H; subst. match goal with Hx : In ?x (elems args) |- _ => exists x; split; [exact Hx|]; rewrite (IH x Hx) end. eauto.
  - intros x [].
  - intros x IHx es IHes y [<-|Hy]; [exact IHx|now apply IHes].
Qed.
(** ** Calls *)
Lemma rec_actuals_in p c e : forall fs args, In e (rec_actuals E R B n p c fs args) <-> exists a x, In (a, x) (combine fs (elems args)) /\ (In e (rec_expr E R B n (of_node p a) c dependency [] x) \/ In e (rec_cond E R B n (of_node p a) c)).
Proof.
  induction fs as [|a fs IH]; intros args; [cbn; split; [intros []|intros (a & x & [] & _)]|]. destruct args as [|x args]; cbn [rec_actuals elems combine]; [split; [intros []|intros (a' & x & [] & _)]|].
  rewrite !in_app_iff, IH. split.
  - intros [H|[H|(a' & x' & H & He)]]; [exists a, x; split; [now left|auto]|exists a, x; split; [now left|auto]|exists a', x'; split; [now right|exact He]].
  - intros (a' & x' & [Q|H] & He); [injection Q as <- <-; destruct He; auto|right; right; eauto].
Qed.
Definition at_call (c : condition) (e : gedge) (l : list (decl * decl * list expr)) : Prop := exists p f args, In (p, f, args) l /\
  (In e (rec_cond E R B n (of_node p (e_result E f)) c) \/
   (exists a x, In (a, x) (combine (e_formals E f) args) /\ (In e (rec_expr E R B n (of_node p a) c dependency [] x) \/ In e (rec_cond E R B n (of_node p a) c))) \/
   In e (add (own_info E R) (of_node p (e_shinfo E f)) c dependency) \/ In e (rec_cond E R B n (of_node p (e_shinfo E f)) c)).
Lemma at_call_app c e l l' : at_call c e (l ++ l') <-> at_call c e l \/ at_call c e l'.
Proof.
  unfold at_call. split.
  - intros (p & f & args & H & K). apply in_app_iff in H. destruct H; [left|right]; eauto 6.
  - intros [(p & f & args & H & K)|(p & f & args & H & K)]; exists p, f, args; rewrite in_app_iff; auto.
Qed.
Lemma at_call_nil c e : at_call c e [] <-> False.
Proof. unfold at_call. split; [intros (p & f & args & [] & _)|intros []]. Qed.
Lemma call_edges_in c e : (forall x, In e (call_edges E R B n c x) <-> at_call c e (calls_of x)) /\ (forall es, In e (calls_edges E R B n c es) <-> at_call c e (callss_of es)).
Proof.
  apply exprs_mutind; intros; cbn [call_edges calls_edges calls_of callss_of]; rewrite ?at_call_nil, ?at_call_app; try (cbn [In]; tauto).
  - rewrite !in_app_iff, H, rec_actuals_in. change ((p, f, elems args) :: callss_of args) with ([(p, f, elems args)] ++ callss_of args). rewrite at_call_app. split.
    + intros [K|[K|[K|[K|K]]]]; [left|left|left|left|right; exact K]; exists p, f, (elems args); (split; [now left|]); auto.
    + intros [(p' & f' & args' & [Q|[]] & K)|K]; [|auto]. injection Q as <- <- <-. destruct K as [K|[K|[K|K]]]; auto.
  - rewrite in_app_iff, H, H0. tauto.
Qed.
(** ** Patterns *)
Lemma pat_conds_outer : (forall p acc x, In x (pat_conds p acc) <-> In x (outer_conds p) \/ In x acc) /\ (forall ps acc x, In x (pats_conds ps acc) <-> In x (outer_condss ps) \/ In x acc).
Proof.
  apply pats_mutind; intros; cbn [pat_conds pats_conds outer_conds outer_condss]; rewrite ?in_app_iff; try (cbn [In]; tauto).
  - rewrite H0, H. tauto.
  - now rewrite H.
  - rewrite H0, H. tauto.
Qed.
Lemma flat_split {A} (f : A -> list expr) l x : In x (flat_map f l) <-> exists y, In y l /\ In x (f y).
Proof. apply in_flat_map. Qed.
Lemma rec_cond_no v : rec_cond E R B n v no_cond = [].
Proof. unfold rec_cond. induction (seq 0 n) as [|i l IH]; cbn [flat_map]; [reflexivity|]. rewrite IH. reflexivity. Qed.
Definition bound (x : expr) (e : gedge) (d : decl) : Prop := In e (rec_expr E R B n (variable d) no_cond dependency [] x).
Lemma pat_edges_in c x e : (forall p, In e (pat_edges E R B n c x p) <-> (exists d, In d (vars p) /\ bound x e d) \/ exists y, In y (all_conds p) /\ at_call c e (calls_of y)) /\
  (forall ps, In e (pats_edges E R B n c x ps) <-> (exists d, In d (varss ps) /\ bound x e d) \/ exists y, In y (all_condss ps) /\ at_call c e (calls_of y)).
Proof.
  assert (J : forall (l l' : list decl) (y y' : list expr), ((exists d, In d l /\ bound x e d) \/ (exists z, In z y /\ at_call c e (calls_of z))) \/ ((exists d, In d l' /\ bound x e d) \/ (exists z, In z y' /\ at_call c e (calls_of z))) <-> (exists d, In d (l ++ l') /\ bound x e d) \/ (exists z, In z (y ++ y') /\ at_call c e (calls_of z))).
  { intros l l' y y'. split.
    - intros [[(d & H & K)|(d & H & K)]|[(d & H & K)|(d & H & K)]]; [left|right|left|right]; exists d; rewrite in_app_iff; auto.
    - intros [(d & H & K)|(d & H & K)]; apply in_app_iff in H; destruct H; eauto 8. }
  apply pats_mutind; intros; cbn [pat_edges pats_edges vars varss all_conds all_condss]; rewrite ?in_app_iff; auto.
  - rewrite rec_cond_no. split.
    + intros [[]|H]. left. exists d. split; [now left|exact H].
    + intros [(d' & [<-|[]] & H)|(y & [] & _)]. right. exact H.
  - rewrite (proj1 (call_edges_in c e)). split; [intros H; right; exists e0; split; [now left|exact H]|]. intros [(d' & [] & _)|(y & [<-|[]] & H)]. exact H.
  - rewrite H, H0. apply J.
  - split; [intros []|intros [(d & [] & _)|(d & [] & _)]].
  - split; [intros []|intros [(d & [] & _)|(d & [] & _)]].
  - rewrite H, H0. apply J.
Qed.
Fixpoint pattern_edges (c : condition) (x : expr) (ms : matches) : list gedge := match ms with MNil => [] | MCons _ p _ ms => pat_edges E R B n c x p ++ pattern_edges c x ms end.
Lemma pattern_edges_in c x e ms : In e (pattern_edges c x ms) <-> (exists k p d, In (k, p) (patterns ms) /\ In d (vars p) /\ bound x e d) \/ (exists y, In y (flat_map (fun q => all_conds (snd q)) (patterns ms)) /\ at_call c e (calls_of y)).
Proof.
  induction ms as [|k p b ms IH]; cbn [pattern_edges patterns flat_map snd].
  - split; [intros []|intros [(k & p & d & [] & _)|(y & [] & _)]].
  - rewrite in_app_iff, IH, (proj1 (pat_edges_in c x e)). split.
    + intros [[(d & H & K)|(y & H & K)]|[(k' & p' & d & H & K)|(y & H & K)]]; [left; exists k, p, d; split; [now left|auto]|right; exists y; rewrite in_app_iff; auto|left; exists k', p', d; split; [now right|auto]|right; exists y; rewrite in_app_iff; auto].
    + intros [(k' & p' & d & [Q|H] & K)|(y & H & K)]; [injection Q as <- <-; left; left; eauto|right; left; eauto 6|]. apply in_app_iff in H. destruct H; eauto 6.
Qed.
Lemma match_edges_in c e : forall ms chain, In e (match_edges E R B n c chain ms) <-> exists l k p l', patterns ms = l ++ (k, p) :: l' /\
  (In e (rec_cond E R B n (test k) c) \/ exists y, (In y chain \/ In y (flat_map (fun q => outer_conds (snd q)) l ++ outer_conds p)) /\ In e (rec_expr E R B n (test k) c control_dependency [] y)).
Proof.
  induction ms as [|k p b ms IH]; intros chain; cbn [match_edges patterns].
  - split; [intros []|intros (l & k & p & l' & Q & _); destruct l; discriminate].
  - rewrite !in_app_iff, IH, in_flat_map. split.
    + intros [H|[(y & Hy & H)|(l & k' & p' & l' & Q & H)]].
      * exists [], k, p, (patterns ms). split; [reflexivity|auto].
      * exists [], k, p, (patterns ms). split; [reflexivity|]. right. exists y. split; [|exact H]. apply (proj1 pat_conds_outer) in Hy. cbn [flat_map app]. tauto.
      * exists ((k, p) :: l), k', p', l'. split; [rewrite Q; reflexivity|]. destruct H as [H|(y & Hy & H)]; [auto|]. right. exists y. split; [|exact H]. cbn [flat_map snd]. rewrite <- app_assoc, in_app_iff. destruct Hy as [Hy|Hy]; [|auto]. apply (proj1 pat_conds_outer) in Hy. tauto.
    + intros (l & k' & p' & l' & Q & H). destruct l as [|q l]; cbn [app] in Q.
      * injection Q as <- <- _. destruct H as [H|(y & Hy & H)]; [auto|]. right. left. exists y. split; [|exact H]. apply (proj1 pat_conds_outer). cbn [flat_map app] in Hy. tauto.
      * injection Q as Q1 Q2. subst q. right. right. exists l, k', p', l'. split; [exact Q2|]. destruct H as [H|(y & Hy & H)]; [auto|]. right. exists y. split; [|exact H]. cbn [flat_map snd] in Hy. rewrite <- app_assoc, in_app_iff in Hy. rewrite (proj1 pat_conds_outer). tauto.
Qed.
(** ** Statements *)
Definition own_edges (c : condition) (s : stmt) : list gedge :=
  match s with
  | SAssign l r => rec_lhs E R B n true l c dependency [] r ++ call_edges E R B n c l ++ call_edges E R B n c r
  | SLocal d def => local_edges E R B n c d def
  | SIf k e t f => rec_cond E R B n (test k) c ++ rec_expr E R B n (test k) c control_dependency [] e ++ call_edges E R B n c e
  | SCase e ms d => match_edges E R B n c [e] ms ++ call_edges E R B n c e ++ pattern_edges c e ms
  | SFor e ms => call_edges E R B n c e ++ pattern_edges c e ms
  | SForIn d e b => rec_cond E R B n (variable d) c ++ rec_expr E R B n (variable d) c dependency [] e ++ call_edges E R B n c e
  end.
Lemma edges_own e :
  (forall s c, In e (edges_stmt E R B n c s) <-> exists s' c', In (s', c') (conds_stmt c s) /\ In e (own_edges c' s')) /\
  (forall b c, In e (edges_block E R B n c b) <-> exists s' c', In (s', c') (conds_block c b) /\ In e (own_edges c' s')) /\
  (forall ms isf c0 x c, In e (edges_matches E R B n isf c0 x c ms) <-> In e (pattern_edges c0 x ms) \/ exists s' c', In (s', c') (conds_matches isf c ms) /\ In e (own_edges c' s')).
Proof.
  assert (App : forall l l', (exists s' c', In (s', c') (l ++ l') /\ In e (own_edges c' s')) <-> (exists s' c', In (s', c') l /\ In e (own_edges c' s')) \/ (exists s' c', In (s', c') l' /\ In e (own_edges c' s'))).
  { intros l l'. split; [intros (s' & c' & H & K); apply in_app_iff in H; destruct H; [left|right]; eauto|]. intros [(s' & c' & H & K)|(s' & c' & H & K)]; exists s', c'; rewrite in_app_iff; auto. }
  assert (Cons : forall s c l, (exists s' c', In (s', c') ((s, c) :: l) /\ In e (own_edges c' s')) <-> In e (own_edges c s) \/ (exists s' c', In (s', c') l /\ In e (own_edges c' s'))).
  { intros s c l. split; [intros (s' & c' & [Q|H] & K); [injection Q as <- <-; auto|right; eauto]|]. intros [H|(s' & c' & H & K)]; [exists s, c|exists s', c']; cbn [In]; auto. }
  assert (Nil : (exists s' c', In (s', c') [] /\ In e (own_edges c' s')) <-> False) by (split; [intros (s' & c' & [] & _)|intros []]).
  apply stmts_mut; intros; cbn [edges_stmt edges_block edges_matches conds_stmt conds_block conds_matches]; rewrite ?Cons, ?App, ?Nil; cbn [own_edges pattern_edges]; rewrite ?in_app_iff; unfold test, variable in *.
  - tauto.
  - tauto.
  - rewrite H, H0. tauto.
  - rewrite H, H0. tauto.
  - rewrite H. tauto.
  - rewrite H. tauto.
  - cbn [In]. tauto.
  - rewrite H, H0. tauto.
  - cbn [In]. tauto.
  - rewrite H, H0. tauto.
Qed.
(** what a statement itself adds, as the specification says *)
Definition told_by (s : stmt) (c : condition) (e : gedge) : Prop :=
  (exists x w val c', passes E R s c x w val c' /\ In e (rec_expr E R B n w c' (if val : bool then dependency else control_dependency) [] x)) \/
  (exists w, decided E R s w /\ In e (rec_cond E R B n w c)) \/
  (exists x p f args, In x (own_texts s) /\ In (p, f, args) (calls_of x) /\ In e (add (own_info E R) (of_node p (e_shinfo E f)) c dependency)) \/
  (exists d x fs f, s = SLocal d (DSimple x fs) /\ In f fs /\ In e (add (mkV (AD d) None [e_rfield E f]) (mkV (AD d) None [f]) c (N.ldiff (kind_of true (negb (e_circ E f))) DEPENDENCY_NOT_JUST_FIBER))).
Lemma calls_told_by s c e : (exists x, In x (own_texts s) /\ at_call c e (calls_of x)) -> told_by s c e.
Proof.
  intros (x & Hx & p & f & args & Hc & [H|[(a & y & Ha & [H|H])|[H|H]]]).
  - right. left. exists (of_node p (e_result E f)). split; [eapply dc_result; eassumption|exact H].
  - left. exists y, (of_node p a), true, c. split; [eapply ps_argument; eassumption|exact H].
  - right. left. exists (of_node p a). split; [eapply dc_argument; eassumption|exact H].
  - right. right. left. eauto 8.
  - right. left. exists (of_node p (e_shinfo E f)). split; [eapply dc_info; eassumption|exact H].
Qed.
Definition own_text (s : stmt) (c : condition) (e : gedge) : Prop := exists x, In x (own_texts s) /\ at_call c e (calls_of x).
Lemma kind_field f : (if e_circ E f then N.ldiff fiber_dependency DEPENDENCY_MAYBE_SIMPLE else N.lor fiber_dependency DEPENDENCY_MAYBE_SIMPLE) = N.ldiff (kind_of true (negb (e_circ E f))) DEPENDENCY_NOT_JUST_FIBER.
Proof. destruct (e_circ E f); reflexivity. Qed.
Lemma own_edges_in s c e : (forall d v c' k, In d (locals_stmt s) -> ~ In e (add v (mkV (AD d) (Some (r_lhs R)) []) c' k)) ->
  In e (own_edges c s) <-> told_by s c e.
Proof.
  intros Dead.
  assert (DeadX : forall d c' k x, In d (locals_stmt s) -> ~ In e (rec_expr E R B n (mkV (AD d) (Some (r_lhs R)) []) c' k [] x)). { intros d c' k x Hd H. apply (proj1 (rec_expr_in _ _ _)) in H. destruct H as (v & ca & si & _ & H). exact (Dead _ _ _ _ Hd H). }
  assert (DeadC : forall d c', In d (locals_stmt s) -> ~ In e (rec_cond E R B n (mkV (AD d) (Some (r_lhs R)) []) c')). { intros d c' Hd H. unfold rec_cond in H. apply in_flat_map in H. destruct H as (i & _ & H). destruct (N.testbit _ _); [|destruct H]. destruct (test_of B i); [|destruct H]. exact (Dead _ _ _ _ Hd H). }
  split.
  - intros H. destruct s as [l r|d def|k x t f|x ms d|x ms|d x b]; cbn [own_edges] in H.
    + rewrite !in_app_iff, !(proj1 (call_edges_in c e)), (proj1 (rec_lhs_in c e)) in H. destruct H as [(v & os & T & [H|[H|(y & Hy & H)]])|[H|H]].
      * left. exists r, v, true, c. split; [eapply ps_assign; exact T|exact H].
      * right. left. exists v. split; [eapply dc_assign; exact T|exact H].
      * left. exists y, v, false, c. split; [eapply ps_object; eassumption|exact H].
      * apply calls_told_by. exists l. cbn. auto.
      * apply calls_told_by. exists r. cbn. auto.
    + cbn [locals_stmt] in *. unfold local_edges in H. apply in_app_iff in H. destruct H as [H|H]; [exfalso; exact (DeadC d _ (or_introl eq_refl) H)|]. destruct def as [|x fs|x]; [destruct H| |].
      * rewrite !in_app_iff in H. destruct H as [H|[H|[H|H]]]; [exfalso; exact (DeadX d _ _ _ (or_introl eq_refl) H)| | |].
        -- left. exists x, (variable d), true, c. split; [apply ps_initial|exact H].
        -- apply in_flat_map in H. destruct H as (f & Hf & H). rewrite kind_field in H. right. right. right. eauto 8.
        -- apply (proj1 (call_edges_in c e)) in H. apply calls_told_by. exists x. cbn. auto.
      * rewrite !in_app_iff in H. destruct H as [H|H]; [exfalso; exact (DeadX d _ _ _ (or_introl eq_refl) H)|]. apply (proj1 (call_edges_in c e)) in H. apply calls_told_by. exists x. cbn. auto.
    + rewrite !in_app_iff, !(proj1 (call_edges_in c e)) in H. destruct H as [H|[H|H]].
      * right. left. exists (test k). split; [apply dc_if|exact H].
      * left. exists x, (test k), false, c. split; [apply ps_if|exact H].
      * apply calls_told_by. exists x. cbn. auto.
    + rewrite !in_app_iff, !(proj1 (call_edges_in c e)), pattern_edges_in, match_edges_in in H. destruct H as [(l & k & p & l' & Q & [H|(y & Hy & H)])|[H|[(k & p & v & Hp & Hv & H)|(y & Hy & H)]]].
      * right. left. exists (test k). split; [|exact H]. apply dc_case with p. rewrite Q. apply in_or_app. right. now left.
      * left. exists y, (test k), false, c. split; [|exact H]. destruct Hy as [[<-|[]]|Hy]; [eapply ps_case; exact Q|eapply ps_condition; eassumption].
      * apply calls_told_by. exists x. cbn. auto.
      * left. exists x, (variable v), true, no_cond. split; [eapply ps_bind; eassumption|exact H].
      * apply calls_told_by. exists y. split; [right; exact Hy|exact H].
    + rewrite !in_app_iff, !(proj1 (call_edges_in c e)), pattern_edges_in in H. destruct H as [H|[(k & p & v & Hp & Hv & H)|(y & Hy & H)]].
      * apply calls_told_by. exists x. cbn. auto.
      * left. exists x, (variable v), true, no_cond. split; [eapply ps_for; eassumption|exact H].
      * apply calls_told_by. exists y. split; [right; exact Hy|exact H].
    + rewrite !in_app_iff, !(proj1 (call_edges_in c e)) in H. destruct H as [H|[H|H]].
      * right. left. exists (variable d). split; [apply dc_element|exact H].
      * left. exists x, (variable d), true, c. split; [apply ps_element|exact H].
      * apply calls_told_by. exists x. cbn. auto.
  - assert (Calls : own_text s c e -> In e (own_edges c s)).
    { intros (x & Hx & Ha). destruct s as [l r|d def|k y t f|y ms d|y ms|d y b]; cbn [own_edges own_texts] in *; rewrite ?in_app_iff, ?(proj1 (call_edges_in c e)).
      - destruct Hx as [<-|[<-|[]]]; auto.
      - unfold local_edges. destruct def as [|y fs|y]; cbn [def_expr] in Hx; [destruct Hx| |]; (destruct Hx as [<-|[]]); rewrite !in_app_iff, (proj1 (call_edges_in c e)); auto.
      - destruct Hx as [<-|[]]; auto.
      - rewrite pattern_edges_in. destruct Hx as [<-|Hx]; [auto|]. right. right. right. eauto.
      - rewrite pattern_edges_in. destruct Hx as [<-|Hx]; [auto|]. right. right. eauto.
      - destruct Hx as [<-|[]]; auto. }
    intros [(x & w & val & c' & P & H)|[(w & D & H)|[(x & p & f & args & Hx & Hc & H)|(d & x & fs & f & -> & Hf & H)]]].
    + destruct P; cbn [own_edges]; rewrite ?in_app_iff, ?match_edges_in, ?pattern_edges_in.
      * left. apply (proj1 (rec_lhs_in _ e)). exists v, os. split; [assumption|]. left. exact H.
      * left. apply (proj1 (rec_lhs_in _ e)). exists v, os. split; [assumption|]. right. right. eauto.
      * unfold local_edges. rewrite !in_app_iff. right. right. left. exact H.
      * right. left. exact H.
      * left. exists l, k, p, l'. split; [assumption|]. right. exists x. split; [left; now left|exact H].
      * left. exists l, k, p, l'. split; [assumption|]. right. exists y. split; [right; assumption|exact H].
      * right. right. left. exists k, p, d. auto.
      * right. left. exists k, p, d. auto.
      * right. left. exact H.
      * apply Calls. exists x. split; [assumption|]. exists p, f, args. split; [assumption|]. right. left. eauto.
    + destruct D; cbn [own_edges]; rewrite ?in_app_iff, ?match_edges_in, ?pattern_edges_in.
      * left. apply (proj1 (rec_lhs_in _ e)). exists v, os. split; [assumption|]. right. left. exact H.
      * left. exact H.
      * left. match goal with Hp : In _ (patterns ms) |- _ => apply in_split in Hp; destruct Hp as (l & l' & Q) end. exists l, k, p, l'. auto.
      * left. exact H.
      * apply Calls. exists x. split; [assumption|]. exists p, f, args. split; [assumption|]. left. exact H.
      * apply Calls. exists x. split; [assumption|]. exists p, f, args. split; [assumption|]. right. left. eauto.
      * apply Calls. exists x. split; [assumption|]. exists p, f, args. split; [assumption|]. auto.
    + apply Calls. exists x. split; [assumption|]. exists p, f, args. split; [assumption|]. auto.
    + cbn [own_edges]. unfold local_edges. rewrite !in_app_iff. right. right. right. left. apply in_flat_map. exists f. split; [exact Hf|]. now rewrite kind_field.
Qed.
(** ** Edges between instances *)
Context (bt : built) (Hn : NoDup (b_insts bt)) (Hi : b_insts bt = instances E R B n).
Lemma mod_fold_f m f : mod_fiber E m f = fold_right (fun fld acc => match acc with Some g => e_longer E fld g | None => None end) (Some f) m.
Proof. induction m as [|x m IH]; cbn; [reflexivity|]. now rewrite IH. Qed.
Lemma vertex_at v f j : vertex_instance E R B n v f = Some j <-> is_at E bt j v f.
Proof.
  unfold vertex_instance, is_at, at_fiber. rewrite mod_fold_f. destruct (fold_right _ (Some f) (v_mod v)) as [g|]; [|split; [discriminate|intros (i & Q & _); discriminate]]. rewrite Hi. split.
  - intros H. eexists. split; [reflexivity|]. now apply lookup_right.
  - intros (i & Q & H). injection Q as <-. destruct (lookup_found E R B n (v_attr v) g (v_node v)) as (j' & K1 & K2); [now apply nth_error_In with j|]. rewrite K1. f_equal. rewrite Hi in Hn. apply (proj1 (NoDup_nth_error _) Hn); [apply nth_error_Some; congruence|congruence].
Qed.
Lemma edge_if_in v v' f f' c k e : In e (edge_if (vertex_instance E R B n v f) (vertex_instance E R B n v' f') c k) <-> is_at E bt (d_src e) v f /\ is_at E bt (d_snk e) v' f' /\ d_cond e = c /\ d_kind e = k.
Proof.
  rewrite <- !vertex_at. unfold edge_if. destruct (vertex_instance E R B n v f) as [i|]; [|split; [intros []|intros (Q & _); discriminate]]. destruct (vertex_instance E R B n v' f') as [j|]; [|split; [intros []|intros (_ & Q & _); discriminate]]. split.
  - intros [<-|[]]. auto.
  - intros (Q1 & Q2 & <- & <-). injection Q1 as ->. injection Q2 as ->. left. now destruct e.
Qed.
Lemma add_edges_in v w c k e : In e (add v w c k) <-> links E bt v w k c e.
Proof.
  unfold add_edges, links. rewrite in_app_iff, edge_if_in. split.
  - intros [(H1 & H2 & H3 & H4)|H]; [tauto|]. unfold carrying in H. destruct (N.eqb_spec (N.land k DEPENDENCY_MAYBE_CARRYING) 0) as [Z|Z]; cbn [negb] in H; [destruct H|]. apply in_flat_map in H. destruct H as (f & Hf & H). destruct (Nat.eqb_spec f (e_base E)) as [Q|Q]; [destruct H|]. cbv zeta in H. destruct (e_reverse E f) eqn:V; apply edge_if_in in H; destruct H as (H1 & H2 & H3 & H4); (split; [exact H3|]); right; (split; [exact Z|]); (split; [exact H4|]); exists f; rewrite V; auto.
  - intros (Hc & [(H1 & H2 & H3)|(Z & Hk & f & Hf & Q & H)]); [left; auto|]. right. unfold carrying. apply N.eqb_neq in Z. rewrite Z. cbn [negb]. apply in_flat_map. exists f. split; [exact Hf|]. apply Nat.eqb_neq in Q. rewrite Q. cbv zeta. destruct (e_reverse E f); apply edge_if_in; destruct H; auto.
Qed.
Lemma rec_cond_in w c e : In e (rec_cond E R B n w c) <-> exists k t, k < n /\ mentions c k /\ test_of B k = Some t /\ links E bt (test k) w control_dependency (t_cond t) e.
Proof.
  unfold rec_cond. rewrite in_flat_map. split.
  - intros (k & Hk & H). apply in_seq in Hk. destruct (N.testbit _ _) eqn:M; [|destruct H]. destruct (test_of B k) as [t|] eqn:T; [|destruct H]. apply add_edges_in in H. exists k, t. repeat split; auto; [lia|apply H..].
  - intros (k & t & Hk & M & T & H). exists k. split; [apply in_seq; lia|]. unfold mentions in M. rewrite M, T. now apply add_edges_in.
Qed.
End FIB.
