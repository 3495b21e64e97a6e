(** * AttrCollProofs: collection attributes before evaluation; circular evaluation as a whole. *)
From Verif Require Import Base AttrModel AttrSpec AttrProofs AttrEvalProofs AttrHistProofs AttrCircProofs AttrBoundProofs.

Section K.
Context {V : Type} (vdef : V) (decl : nat -> attr_decl V) (P : inst -> comp V) (psize : nat -> nat).
Notation stat := (AttrModel.stat V). Notation value := (AttrModel.value V vdef).
Notation state := (AttrModel.state V).

Definition coll_op (o : op V) : Prop :=
  match o with Set_ _ x _ | Assign _ x _ | Get _ x => right_phylum decl x | _ => False end.

Section X.
Variables (x : inst) (i : V) (cb : V -> V -> V).
Hypothesis Hx : coll V (decl (fst x)) = Some (i, cb).
Hypothesis Px : right_phylum decl x.

Definition cinv (l : list V) (s : state) : Prop :=
  wf s /\ (forall a, st_started s a = false) /\ log V s = [] /\
  match l with
  | [] => stat s x = UNINITIALIZED \/ (stat s x = UNEVALUATED /\ value s x = i)
  | _ => stat s x = ASSIGNED /\ value s x = fold_left cb l i
  end.

Lemma cinv_same l s s' : cinv l s -> same vdef s s' -> cinv l s'.
Proof.
  intros (W & St & L & H) S. unfold cinv. rewrite (sm_stat _ _ _ S), (sm_value _ _ _ S), (sm_log _ _ _ S). ands; auto.
  - now apply S.
  - intros a. rewrite (sm_started _ _ _ S). auto.
Qed.
Lemma cinv_touch l s s' y : cinv l s -> y <> x -> right_phylum decl y -> wf s' -> log V s' = log V s ->
  (forall a, st_started s' a = st_started s a) ->
  (forall z, slot y z = false -> stat s' z = stat s z /\ value s' z = value s z) -> cinv l s'.
Proof.
  intros (W & St & L & H) N Py W' L' St' Hz. destruct (Hz x) as [E1 E2].
  - destruct (slot y x) eqn:Sl; auto. apply (slot_pok decl) in Sl; auto. congruence.
  - unfold cinv. rewrite E1, E2, L'. ands; auto. intros a. rewrite St'. auto.
Qed.

(** What get does before anything started. *)
Lemma get_before s y : wf s -> right_phylum decl y -> exists s' r, get V vdef decl y s = (s', r) /\ wf s' /\ log V s' = log V s /\
  (forall a, st_started s' a = st_started s a) /\ inb s' y /\
  (forall z, slot y z = false -> stat s' z = stat s z /\ value s' z = value s z) /\
  match stat s y with
  | UNINITIALIZED => match coll V (decl (fst y)) with Some (j, _) => r = Val j /\ stat s' y = UNEVALUATED /\ value s' y = j | None => r = Thrown Undefined end
  | _ => r = Val (value s y) /\ same vdef s s'
  end.
Proof.
  intros W Py. assert (D : stat s y = UNINITIALIZED \/ stat s y <> UNINITIALIZED) by (destruct (stat s y); auto; right; discriminate).
  destruct D as [Sy|Sy].
  2:{ destruct (get_ok vdef decl s y W Py Sy) as (s1 & E1 & S1 & I1). exists s1, (Val (value s y)). ands; auto; try apply S1; auto.
      - intros z _. split; apply S1.
      - destruct (stat s y); auto; congruence. }
  rewrite Sy. unfold get. destruct (check_phylum_ok vdef decl s y W Py) as (s1 & E1 & S1 & I1). rewrite (mbind_Val _ _ _ _ _ E1).
  rewrite (mbind_Val (get_status V y) _ s1 s1 (stat s1 y) eq_refl). rewrite (sm_stat _ _ _ S1), Sy.
  unfold get_default. destruct (coll V (decl (fst y))) as [[j cb']|].
  - destruct (put_value_ok vdef s1 y j (sm_wf _ _ _ S1 W) I1) as (s2 & E2 & W2 & S2 & V2 & St2 & L2 & C2 & In2 & F2).
    destruct (put_status_ok vdef s2 y UNEVALUATED W2 (In2 _ I1)) as (s3 & E3 & W3 & S3 & V3 & St3 & L3 & C3 & In3 & F3).
    exists s3, (Val (value s3 y)). split; [unfold mbind, ret, get_value; rewrite E2, E3; auto|]. ands; auto.
    + rewrite L3, L2. apply S1.
    + intros a. rewrite St3, St2. apply S1.
    + intros z Hz. rewrite S3, V3, S2, V2, Hz. split; apply S1.
    + rewrite V3, V2. unfold slot. now rewrite !Nat.eqb_refl.
    + rewrite S3. unfold slot. now rewrite !Nat.eqb_refl.
    + rewrite V3, V2. unfold slot. now rewrite !Nat.eqb_refl.
  - exists s1, (Thrown Undefined). split; [reflexivity|]. ands; auto; try apply S1; auto. intros z _. split; apply S1.
Qed.

Lemma cinv_get l s : cinv l s -> exists s', get V vdef decl x s = (s', Val (fold_left cb l i)) /\ cinv l s' /\ inb s' x.
Proof.
  intros C. pose proof C as (W & St & L & H). destruct (get_before s x W Px) as (s' & r & E & W' & L' & St' & I' & Hz & R). rewrite Hx in R.
  destruct l as [|v l].
  - destruct H as [H|[H Hv]]; rewrite H in R.
    + destruct R as (-> & R1 & R2). exists s'. ands; auto. unfold cinv. rewrite L'. ands; auto. intros a. rewrite St'; auto.
    + destruct R as [-> S]. exists s'. rewrite E, Hv. ands; auto. eapply cinv_same; eauto.
  - destruct H as [H Hv]. rewrite H in R. destruct R as [-> S]. exists s'. rewrite E, Hv. ands; auto. eapply cinv_same; eauto.
Qed.

Lemma cinv_set l s v : cinv l s -> exists s', set V vdef decl x v s = (s', Val tt) /\ cinv (l ++ [v]) s'.
Proof.
  intros C. unfold set. rewrite Hx. destruct (cinv_get l s C) as (s1 & E1 & C1 & I1). rewrite (mbind_Val _ _ _ _ _ E1). destruct C1 as (W1 & St1 & L1 & _).
  destruct (attribute_set_any vdef decl s1 x (cb (fold_left cb l i) v) W1 Px) as (s2 & E2 & W2 & S2 & V2 & In2 & I2 & F2 & L2 & C2 & St2).
  exists s2. split; auto. unfold cinv. ands; auto.
  - intros a. rewrite St2. auto.
  - rewrite L2. auto.
  - assert (Q : stat s2 x = ASSIGNED /\ value s2 x = fold_left cb (l ++ [v]) i).
    { rewrite S2, V2. unfold slot. rewrite !Nat.eqb_refl, fold_left_app. auto. }
    destruct l; auto.
Qed.

Lemma set_other l s y v : cinv l s -> y <> x -> right_phylum decl y -> exists s' r, set V vdef decl y v s = (s', r) /\ cinv l s'.
Proof.
  intros C N Py. unfold set. pose proof C as (W & _).
  destruct (coll V (decl (fst y))) as [[j cb']|].
  - destruct (get_before s y W Py) as (s1 & r & E & W1 & L1 & St1 & I1 & Hz & _).
    assert (C1 : cinv l s1) by (eapply cinv_touch; eauto). destruct r as [u|e| |].
    + rewrite (mbind_Val _ _ _ _ _ E). destruct (attribute_set_any vdef decl s1 y (cb' u v) W1 Py) as (s2 & E2 & W2 & S2 & V2 & In2 & I2 & F2 & L2 & C2 & St2).
      exists s2, (Val tt). split; auto. eapply cinv_touch; eauto. intros z Z. rewrite S2, V2, Z. auto.
    + rewrite (mbind_Thrown _ _ _ _ _ E). eauto.
    + unfold mbind. rewrite E. eauto.
    + unfold mbind. rewrite E. eauto.
  - destruct (attribute_set_any vdef decl s y v W Py) as (s2 & E2 & W2 & S2 & V2 & In2 & I2 & F2 & L2 & C2 & St2).
    exists s2, (Val tt). split; auto. eapply cinv_touch; eauto. intros z Z. rewrite S2, V2, Z. auto.
Qed.

Definition contribution (o : op V) : list V := contributions [o] x.
Lemma contributions_cons o ops : contributions (o :: ops) x = contribution o ++ contributions ops x.
Proof. unfold contribution. destruct o; cbn; auto; destruct (inst_eqb x0 x); auto. Qed.

Lemma cinv_step fuel l s o : cinv l s -> coll_op o -> exists s' r, step V vdef decl P psize fuel s o = (s', r) /\ cinv (l ++ contribution o) s' /\
  match o with
  | Get _ y => y = x -> r = Value V (Val (fold_left cb l i))
  | Set_ _ y _ | Assign _ y _ => y = x -> r = Unit V (Val tt)
  | _ => True
  end.
Proof.
  intros C Ho.
  assert (SET : forall y v, right_phylum decl y -> exists s' r, set V vdef decl y v s = (s', r) /\ cinv (l ++ if inst_eqb y x then [v] else []) s' /\ (y = x -> r = Val tt)).
  { intros y v Py. destruct (inst_eqb y x) eqn:E.
    - apply inst_eqb_spec in E. subst y. destruct (cinv_set l s v C) as (s' & E & C'). exists s', (Val tt). auto.
    - destruct (set_other l s y v C) as (s' & r & E' & C'); auto; [intros ->; rewrite (proj2 (inst_eqb_spec x x) eq_refl) in E; discriminate|].
      exists s', r. rewrite app_nil_r. ands; auto. intros ->. rewrite (proj2 (inst_eqb_spec x x) eq_refl) in E. discriminate. }
  destruct o as [y v|y|a|y v|y]; cbn in Ho; try tauto; cbn [step].
  - unfold assign. pose proof C as (_ & St & _). specialize (St (fst y)). unfold st_started in St. rewrite St.
    destruct (SET y v Ho) as (s' & r & E & C' & R). rewrite E. exists s', (Unit V r). unfold contribution; cbn. ands; auto. intros H. now rewrite R.
  - destruct (SET y v Ho) as (s' & r & E & C' & R). rewrite E. exists s', (Unit V r). unfold contribution; cbn. ands; auto. intros H. now rewrite R.
  - unfold contribution. cbn. rewrite app_nil_r. destruct (classic_eq y x) as [->|N].
    + destruct (cinv_get l s C) as (s' & E & C' & _). rewrite E. eexists _, _. ands; eauto.
    + pose proof C as (W & _). destruct (get_before s y W Ho) as (s1 & r & E & W1 & L1 & St1 & I1 & Hz & _). rewrite E. eexists _, _. ands; eauto.
      * eapply cinv_touch; eauto.
      * intros; contradiction.
Qed.
Lemma cinv_history fuel : forall ops l s, cinv l s -> Forall coll_op ops -> exists s' ans, history V vdef decl P psize fuel ops s = (s', ans) /\
  length ans = length ops /\ cinv (l ++ contributions ops x) s' /\
  (forall n, nth_error ops n = Some (Get V x) -> nth_error ans n = Some (Value V (Val (fold_left cb (l ++ contributions (firstn n ops) x) i)))).
Proof.
  induction ops as [|o ops IH]; intros l s C Ho; cbn [history].
  - exists s, []. rewrite app_nil_r. ands; auto. intros [|n]; discriminate.
  - inversion Ho as [|? ? H1 H2]; subst. destruct (cinv_step fuel l s o C H1) as (s1 & r & E1 & C1 & R1). rewrite E1.
    destruct (IH _ s1 C1 H2) as (s2 & ans & E2 & L2 & C2 & R2). rewrite E2. exists s2, (r :: ans). rewrite contributions_cons, app_assoc. ands; auto; [cbn; auto|].
    intros [|n] Hn; cbn [nth_error firstn] in *.
    + injection Hn as ->. rewrite R1 by auto. now rewrite app_nil_r.
    + rewrite (R2 n Hn), contributions_cons, app_assoc. auto.
Qed.
End X.

Lemma cinv_initial x i cb : cinv x i cb [] (initial_state V).
Proof.
  unfold cinv. ands; auto.
  - intros a. auto.
  - left. unfold AttrModel.stat. cbn. destruct (index_of (snd x)); auto.
Qed.

(** ** A whole circular evaluation *)
Definition noJ (s : state) : Prop := J vdef decl (fun _ _ => True) (fun _ => vdef) s.
Lemma noev fuel : ev_J vdef decl (fun _ _ => True) (fun _ => vdef) (evaluate V vdef decl P fuel).
Proof.
  apply evaluate_J; auto. intros x _. generalize (P x). induction c; cbn; auto.
Qed.

Lemma circular_ok fuel x lat s s' v : noJ s -> num_checks V s = 0 -> circ V (decl (fst x)) = Some lat ->
  evaluate V vdef decl P fuel x s = (s', Val v) ->
  exists L, (forall p, In p (pending V s) -> In p L) /\ Forall (stable vdef decl P s') L /\ pending V s' = [] /\
    (forall y l, right_phylum decl y -> settled s y -> circ V (decl (fst y)) = Some l -> coll V (decl (fst y)) = None ->
       upward l (value s y) (value s' y)) /\ evaluated_to vdef decl s' x v.
Proof.
  intros I N Ec E. destruct fuel as [|fuel]; [discriminate|]. cbn [AttrModel.evaluate] in E. rewrite Ec in E.
  assert (J0 : noJ (checks_add V s)) by (constructor; apply I). assert (N0 : num_checks V (checks_add V s) = 1) by (cbn; lia).
  unfold mbind at 1 in E. destruct (attribute_evaluate V vdef decl P (evaluate V vdef decl P fuel) x (checks_add V s)) as [s1 o1] eqn:E1.
  destruct (attribute_evaluate_keeps vdef decl P _ x (evaluate_keeps vdef decl P fuel) _ _ _ (j_wf _ _ _ _ _ J0) ltac:(lia) E1) as [K1 R1].
  destruct o1 as [u|e| |]; try (inversion E; fail). specialize (R1 u eq_refl). destruct R1 as (Px & Sx & Ux).
  rewrite (k_checks _ _ _ _ K1), N0 in E. cbn [Nat.eqb] in E. unfold mbind in E.
  destruct (clear_pending V vdef decl P fuel (evaluate V vdef decl P fuel) s1) as [s2 o2] eqn:E2.
  destruct o2 as [[]|e| |]; try (inversion E; fail).
  pose proof (keeps_pendok _ _ _ _ K1 (j_pend _ _ _ _ _ J0)) as PO.
  destruct (clear_ok vdef decl P _ (evaluate_keeps vdef decl P fuel) fuel s1 s2 (k_wf _ _ _ _ K1) ltac:(rewrite (k_checks _ _ _ _ K1); lia) PO E2) as (s0 & R0 & PO0 & St0 & ->).
  set (t := mkS V (attrs V s0) [] (cap V s0) (epoch V s0) (num_checks V s0) (log V s0) (calls V s0)) in *.
  assert (Sx0 : settled s0 x) by (apply (r_settled _ _ _ _ R0 x Px Sx)).
  assert (Wt : wf t) by (apply (r_wf _ _ _ _ R0)).
  destruct (get_settled vdef decl t x Wt Px Sx0) as (s3 & E3 & S3). rewrite E3 in E. inversion E; subst s' v.
  assert (SS : forall y, stat (checks_sub V s3) y = stat s0 y) by (intros y; apply (sm_stat _ _ _ S3)).
  assert (VV : forall y, value (checks_sub V s3) y = value s0 y) by (intros y; apply (sm_value _ _ _ S3)).
  exists (pending V s0). ands.
  - intros p Hp. destruct (r_pending _ _ _ _ R0) as (l2 & ->). destruct (k_pending _ _ _ _ K1) as (l1 & -> & _). apply in_or_app. left. apply in_or_app. auto.
  - apply Forall_forall. intros p Hp. destruct (St0 p Hp) as (l & e & El & A & Q). exists l, e. ands; auto.
    + assert (Tr : forall y w, evaluated_to vdef decl s0 y w -> evaluated_to vdef decl (checks_sub V s3) y w).
      { intros y w (A1 & A2 & A3). unfold evaluated_to, settled. rewrite SS, VV. auto. }
      clear -A Tr. induction A; [constructor|]. econstructor; eauto.
    + rewrite VV. auto.
  - cbn. apply (f_pending _ _ (sm_frame _ _ _ S3)).
  - intros y l Py Sy Cy Dy. rewrite VV. destruct (k_settled _ _ _ _ K1 y Py Sy) as [Sy1 Vy1].
    pose proof (r_up _ _ _ _ R0 y l Py Sy1 Cy Dy) as U. rewrite Vy1 in U. exact U.
  - unfold evaluated_to, settled. rewrite SS, VV. ands; auto.
Qed.
End K.
