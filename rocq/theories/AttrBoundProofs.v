(** * AttrBoundProofs: an invariant of every call, and the bound on computed values. *)
From Verif Require Import Base AttrModel AttrSpec AttrProofs AttrCircProofs.

Section B.
Context {V : Type} (vdef : V) (decl : nat -> attr_decl V) (P : inst -> comp V) .
Context (le : V -> V -> Prop) (F : inst -> V).
Notation stat := (AttrModel.stat V). Notation value := (AttrModel.value V vdef).
Notation state := (AttrModel.state V).
Notation evaluate := (evaluate V vdef decl P).
Notation pok := (right_phylum decl). Notation pendok := (pendok decl).

Fixpoint bounded (c : comp V) (u : V) : Prop :=
  match c with
  | Ret _ v => le v u
  | Demand _ y k => forall w, le w (F y) -> bounded (k w) u
  | Raise _ _ => True
  end.
Hypothesis Hbot : forall x lat, circ V (decl (fst x)) = Some lat -> le (bottom V lat) (F x).
Hypothesis Hjoin : forall x lat u v, circ V (decl (fst x)) = Some lat -> le u (F x) -> le v (F x) -> le (join V lat u v) (F x).
Hypothesis Hcoll : forall x i cb, coll V (decl (fst x)) = Some (i, cb) -> le i (F x) /\ forall u v, le u (F x) -> le v (F x) -> le (cb u v) (F x).
Hypothesis Hprog : forall x, pok x -> bounded (P x) (F x).

Definition holds (st : status) : bool := match st with UNINITIALIZED | CYCLE => false | _ => true end.
Record J (s : state) : Prop := {
  j_wf : wf s;
  j_pend : pendok s;
  j_bound : forall y, pok y -> holds (stat s y) = true -> le (value s y) (F y) }.
Record grows (s s' : state) : Prop := {
  gr_inb : forall y, inb s y -> inb s' y;
  gr_settled : forall y, pok y -> settled s y -> settled s' y;
  gr_checks : num_checks V s' = num_checks V s }.
Lemma grows_refl s : grows s s. Proof. constructor; auto. Qed.
Lemma grows_trans s1 s2 s3 : grows s1 s2 -> grows s2 s3 -> grows s1 s3.
Proof. intros A B. constructor; [intros y H; apply B, A, H|intros y Py H; apply B, A; auto|rewrite (gr_checks _ _ B); apply A]. Qed.

Lemma J_same s s' : J s -> same vdef s s' -> J s' /\ grows s s'.
Proof.
  intros I S. split; constructor.
  - apply S, I.
  - unfold AttrCircProofs.pendok. rewrite (f_pending _ _ (sm_frame _ _ _ S)). eapply Forall_impl; [|apply I]. cbn. intros p (A & B & C). ands; auto. unfold settled. now rewrite (sm_stat _ _ _ S).
  - intros y Py. rewrite (sm_stat _ _ _ S), (sm_value _ _ _ S). apply I. auto.
  - apply S.
  - intros y _. unfold settled. now rewrite (sm_stat _ _ _ S).
  - apply (sm_frame _ _ _ S).
Qed.

(** Writing a value within bounds, with the status that follows. *)
Lemma J_write s x v s' : J s -> pok x -> le v (F x) -> wf s' ->
  (exists st, (st = EVALUATED \/ st = ASSIGNED) /\ forall y, stat s' y = if slot x y then st else stat s y) ->
  (forall y, value s' y = if slot x y then v else value s y) ->
  (forall y, inb s y -> inb s' y) -> frame s s' -> J s' /\ grows s s'.
Proof.
  intros I Px L W (st & Hst & S) Vv In Fr.
  assert (SS : forall y, settled s y -> settled s' y) by (intros y H; unfold settled; rewrite S; destruct (slot x y); auto).
  split; constructor; auto.
  - unfold AttrCircProofs.pendok. rewrite (f_pending _ _ Fr). eapply Forall_impl; [|apply I]. cbn. intros p (A & B & C). ands; auto.
  - intros y Py. rewrite S, Vv. destruct (slot x y) eqn:Sl; [|apply I; auto]. apply (slot_pok decl) in Sl; auto. subst; auto.
  - apply Fr.
Qed.

Definition ev_J (ev : inst -> M V V) : Prop := forall x s s' o, J s -> ev x s = (s', o) ->
  J s' /\ grows s s' /\ forall v, o = Val v -> pok x /\ le v (F x) /\ settled s' x.

Lemma run_J ev : ev_J ev -> forall c u s s' o, bounded c u -> J s -> run V ev c s = (s', o) ->
  J s' /\ grows s s' /\ forall v, o = Val v -> le v u.
Proof.
  intros He. induction c as [v|y k IH|e]; intros u s s' o Bc I E; cbn [run bounded] in *.
  - inversion E; subst. ands; auto using grows_refl. intros v' H. injection H as <-. auto.
  - destruct (ev y s) as [s1 o1] eqn:E1. destruct (He y s s1 o1 I E1) as (I1 & G1 & R1).
    destruct o1 as [w|e| |]; try (inversion E; subst; ands; auto; intros; discriminate).
    destruct (R1 w eq_refl) as (_ & Lw & _). destruct (IH w u s1 s' o (Bc w Lw) I1 E) as (I2 & G2 & R2). ands; auto. eapply grows_trans; eauto.
  - inversion E; subst. ands; auto using grows_refl. discriminate.
Qed.
Lemma compute_J ev x : ev_J ev -> pok x -> forall s s' o, J s -> compute V P ev x s = (s', o) ->
  J s' /\ grows s s' /\ forall v, o = Val v -> le v (F x).
Proof.
  intros He Px s s' o I E. unfold compute in E. cbn in E.
  set (s1 := mkS V (attrs V s) (pending V s) (cap V s) (epoch V s) (num_checks V s) (log V s ++ [x]) (calls V s)) in *.
  destruct (run_J ev He (P x) (F x) s1 s' o (Hprog x Px)) as (I2 & G2 & R2); auto.
  - constructor; apply I.
  - ands; auto. constructor; apply G2.
Qed.

Lemma get_J s x s' o : J s -> get V vdef decl x s = (s', o) -> J s' /\ grows s s' /\
  (forall v, o = Val v -> stat s x <> CYCLE -> le v (F x)) /\ (settled s x -> pok x -> o = Val (value s' x) /\ settled s' x).
Proof.
  intros I E. destruct (pok_dec decl x) as [Px|Px].
  2:{ unfold get in E. rewrite (mbind_Thrown _ _ _ _ _ (check_phylum_bad vdef decl s x Px)) in E. inversion E; subst. ands; auto using grows_refl; try discriminate. tauto. }
  assert (D : stat s x = UNINITIALIZED \/ stat s x <> UNINITIALIZED) by (destruct (stat s x); auto; right; discriminate).
  destruct D as [Sx|Sx].
  2:{ destruct (get_ok vdef decl s x (j_wf _ I) Px Sx) as (s1 & E1 & S1 & _). assert (Q : (s1, Val (value s x)) = (s', o)) by congruence. inversion Q; subst.
      destruct (J_same _ _ I S1) as [I1 G1]. ands; auto.
      - intros v Hv NC. injection Hv as <-. apply I; auto. destruct (stat s x); auto; congruence.
      - intros Se _. rewrite (sm_value _ _ _ S1). split; auto. unfold settled. now rewrite (sm_stat _ _ _ S1). }
  unfold get in E. destruct (check_phylum_ok vdef decl s x (j_wf _ I) Px) as (s1 & E1 & S1 & I1). rewrite (mbind_Val _ _ _ _ _ E1) in E.
  rewrite (mbind_Val (get_status V x) _ s1 s1 (stat s1 x) eq_refl) in E. rewrite (sm_stat _ _ _ S1), Sx in E.
  destruct (J_same _ _ I S1) as [J1 G1]. assert (NS : ~ settled s x) by (intros [H|H]; congruence).
  unfold get_default in E. destruct (coll V (decl (fst x))) as [[i cb]|] eqn:Ec.
  2:{ cbn in E. inversion E; subst. ands; auto; try discriminate. contradiction. }
  destruct (put_value_ok vdef s1 x i (j_wf _ J1) I1) as (s2 & E2 & W2 & S2 & V2 & St2 & L2 & C2 & In2 & F2).
  destruct (put_status_ok vdef s2 x UNEVALUATED W2 (In2 _ I1)) as (s3 & E3 & W3 & S3 & V3 & St3 & L3 & C3 & In3 & F3).
  assert (E' : (s3, Val (value s3 x)) = (s', o)).
  { rewrite <- E. unfold mbind, ret, get_value. unfold mbind in E2. rewrite E2, E3. auto. }
  inversion E'; subst s' o. clear E'.
  assert (SS : forall y, stat s3 y = if slot x y then UNEVALUATED else stat s y) by (intros y; rewrite S3, S2, (sm_stat _ _ _ S1); auto).
  assert (VV : forall y, value s3 y = if slot x y then i else value s y) by (intros y; rewrite V3, V2, (sm_value _ _ _ S1); auto).
  assert (SE : forall y, pok y -> settled s y -> settled s3 y).
  { intros y Py H. unfold settled. rewrite SS. destruct (slot x y) eqn:Sl; auto. apply (slot_pok decl) in Sl; auto. subst. contradiction. }
  ands; try contradiction.
  - constructor; auto.
    + unfold AttrCircProofs.pendok. rewrite (f_pending _ _ F3), (f_pending _ _ F2), (f_pending _ _ (sm_frame _ _ _ S1)). eapply Forall_impl; [|apply I]. cbn. intros p (A & B & C). ands; auto.
    + intros y Py. rewrite SS, VV. destruct (slot x y) eqn:Sl; [|apply I; auto]. apply (slot_pok decl) in Sl; auto. subst. intros _. apply (Hcoll y i cb Ec).
  - constructor; auto.
    + intros y H. apply In3, In2, (sm_inb _ _ _ S1), H.
    + rewrite (f_checks _ _ F3), (f_checks _ _ F2). apply (sm_frame _ _ _ S1).
  - intros v Hv _. injection Hv as <-. rewrite VV. unfold slot. rewrite !Nat.eqb_refl. apply (Hcoll x i cb Ec).
Qed.

Lemma attribute_set_J s x v s' o : J s -> le v (F x) -> attribute_set V vdef decl x v s = (s', o) -> J s' /\ grows s s' /\ (o = Val tt -> settled s' x).
Proof.
  intros I L E. destruct (pok_dec decl x) as [Px|Px].
  - destruct (attribute_set_any vdef decl s x v (j_wf _ I) Px) as (s1 & E1 & W1 & S1 & V1 & In1 & I1 & F1 & _). rewrite E1 in E. inversion E; subst.
    destruct (J_write s x v s' I Px L W1) as [A B]; eauto. ands; auto. intros _. unfold settled. rewrite S1. unfold slot. rewrite !Nat.eqb_refl. auto.
  - unfold attribute_set in E. rewrite (mbind_Thrown _ _ _ _ _ (check_phylum_bad vdef decl s x Px)) in E. inversion E; subst. ands; auto using grows_refl. discriminate.
Qed.

(** [set]; combining with the value of an instance that is being computed
    (stuck after an exception) is excluded. *)
Lemma set_J s x v s' o : J s -> le v (F x) -> stat s x <> CYCLE \/ coll V (decl (fst x)) = None -> set V vdef decl x v s = (s', o) -> J s' /\ grows s s'.
Proof.
  intros I L NC E. unfold set in E. destruct (coll V (decl (fst x))) as [[i cb]|] eqn:Ec.
  - unfold mbind in E. destruct (get V vdef decl x s) as [s1 o1] eqn:E1. destruct (get_J s x s1 o1 I E1) as (I1 & G1 & R1 & _).
    destruct o1 as [u|e| |]; try (inversion E; subst; auto; fail).
    destruct NC as [NC|NC]; [|discriminate].
    destruct (attribute_set_J s1 x (cb u v) s' o I1) as (I2 & G2 & _); auto; [apply (Hcoll x i cb Ec); auto|]. split; auto. eapply grows_trans; eauto.
  - destruct (attribute_set_J s x v s' o I L E) as (? & ? & _). auto.
Qed.

Lemma attribute_evaluate_J ev x : ev_J ev -> forall s s' o, J s -> attribute_evaluate V vdef decl P ev x s = (s', o) ->
  J s' /\ grows s s' /\ forall v, o = Val v -> pok x /\ le v (F x) /\ settled s' x.
Proof.
  intros He s s' o I E. destruct (pok_dec decl x) as [Px|Px].
  2:{ unfold attribute_evaluate in E. rewrite (mbind_Thrown _ _ _ _ _ (check_phylum_bad vdef decl s x Px)) in E. inversion E; subst. ands; auto using grows_refl. discriminate. }
  destruct (prologue vdef decl P s x (j_wf _ I) Px) as (s1 & W1 & I1 & S1 & V1 & St1 & L1 & C1 & In1 & F1 & E1). rewrite E1 in E. clear E1.
  assert (J1 : J s1).
  { constructor; auto.
    - unfold AttrCircProofs.pendok. rewrite (f_pending _ _ F1). eapply Forall_impl; [|apply I]. cbn. intros p (A & B & C). ands; auto. unfold settled. now rewrite S1.
    - intros y Py. rewrite S1, V1. apply I; auto. }
  assert (G1 : grows s s1).
  { constructor; auto; [|apply F1]. intros y _. unfold settled. now rewrite S1. }
  destruct (fresh_cases s x) as [Fx|[Cx|Sx]].
  - assert (E' : mbind V (put_status V x CYCLE) (fun _ => mbind V (compute V P ev x) (fun v =>
        mbind V (put_value V x v) (fun _ => mbind V (put_status V x EVALUATED) (fun _ => get V vdef decl x)))) s1 = (s', o))
      by (destruct (stat s x); try discriminate; auto). clear E.
    destruct (put_status_ok vdef s1 x CYCLE W1 I1) as (s2 & E2 & W2 & S2 & V2 & St2 & L2 & C2 & In2 & F2).
    rewrite (mbind_Val _ _ _ _ _ E2) in E'.
    assert (SE : forall y, pok y -> settled s1 y -> settled s2 y).
    { intros y Py H. unfold settled. rewrite S2. destruct (slot x y) eqn:Sl; auto. apply (slot_pok decl) in Sl; auto. subst. unfold settled in H. rewrite S1 in H. now apply not_settled_fresh in Fx. }
    assert (J2 : J s2).
    { constructor; auto.
      - unfold AttrCircProofs.pendok. rewrite (f_pending _ _ F2). eapply Forall_impl; [|apply J1]. cbn. intros p (A & B & C). ands; auto.
      - intros y Py. rewrite S2, V2. destruct (slot x y) eqn:Sl; [discriminate|apply J1; auto]. }
    assert (G2 : grows s s2). { eapply grows_trans; [exact G1|]. constructor; auto. apply F2. }
    unfold mbind at 1 in E'. destruct (compute V P ev x s2) as [s3 o3] eqn:E3.
    destruct (compute_J ev x He Px s2 s3 o3 J2 E3) as (J3 & G3 & R3). pose proof (grows_trans _ _ _ G2 G3) as G.
    destruct o3 as [v|e| |]; try (inversion E'; subst; ands; auto; intros; discriminate).
    pose proof (gr_inb _ _ G3 x (In2 _ I1)) as I3. pose proof (j_wf _ J3) as W3.
    destruct (put_value_ok vdef s3 x v W3 I3) as (s4 & E4 & W4 & S4 & V4 & St4 & L4 & C4 & In4 & F4). rewrite (mbind_Val _ _ _ _ _ E4) in E'.
    destruct (put_status_ok vdef s4 x EVALUATED W4 (In4 _ I3)) as (s5 & E5 & W5 & S5 & V5 & St5 & L5 & C5 & In5 & F5). rewrite (mbind_Val _ _ _ _ _ E5) in E'.
    assert (Sx5 : stat s5 x = EVALUATED) by (rewrite S5; unfold slot; now rewrite !Nat.eqb_refl).
    assert (Vx5 : value s5 x = v) by (rewrite V5, V4; unfold slot; now rewrite !Nat.eqb_refl).
    rewrite get_eval_ok in E'; auto; [|rewrite Sx5; discriminate]. inversion E'; subst s' o.
    destruct (J_write s3 x v s5 J3 Px (R3 v eq_refl) W5) as [J5 G5].
    + exists EVALUATED. split; auto. intros y. rewrite S5, S4. auto.
    + intros y. rewrite V5, V4. auto.
    + auto.
    + eapply frame_trans; eauto.
    + ands; auto; [eapply grows_trans; eauto|]. intros w Hw. injection Hw as <-. rewrite Vx5. ands; auto. left; auto.
  - rewrite Cx in E. unfold cycle_evaluate in E. destruct (circ V (decl (fst x))) as [lat|] eqn:Ec.
    + rewrite (mbind_Val _ _ s1 _ tt eq_refl) in E. set (s2 := fst (add_pending V x s1)) in E. cbn in s2.
      assert (W2 : wf s2) by (intros b; apply W1).
      destruct (attribute_set_any vdef decl s2 x (bottom V lat) W2 Px) as (s3 & E3 & W3 & S3 & V3 & In3 & I3 & F3 & _).
      rewrite (mbind_Val _ _ _ _ _ E3) in E. inversion E; subst s' o. clear E.
      assert (Sx3 : stat s3 x = ASSIGNED) by (rewrite S3; unfold slot; now rewrite !Nat.eqb_refl).
      assert (SE : forall y, settled s1 y -> settled s3 y). { intros y H. unfold settled. rewrite S3. destruct (slot x y); auto. }
      ands.
      * constructor; auto.
        -- unfold AttrCircProofs.pendok. rewrite (f_pending _ _ F3). cbn. apply Forall_app. split.
           ++ eapply Forall_impl; [|apply J1]. cbn. intros p (A & B & C). ands; auto.
           ++ constructor; [|constructor]. ands; auto; [congruence|right; auto].
        -- intros y Py. rewrite S3, V3. destruct (slot x y) eqn:Sl; [|apply (j_bound _ J1 y Py)]. apply (slot_pok decl) in Sl; auto. subst. intros _. now apply Hbot.
      * eapply grows_trans; [exact G1|]. constructor; [intros y Hy; apply In3; auto|auto|]. rewrite (f_checks _ _ F3). auto.
      * intros v Hv. injection Hv as <-. ands; auto. right; auto.
    + inversion E; subst. ands; auto. discriminate.
  - assert (E' : (s1, Val (value s x)) = (s', o)) by (destruct Sx as [H|H]; rewrite H in E; auto). inversion E'; subst. ands; auto.
    intros v Hv. injection Hv as <-. ands; auto.
    + apply I; auto. destruct Sx as [H|H]; rewrite H; auto.
    + unfold settled. now rewrite S1.
Qed.

Lemma eval_changed_J ev x : ev_J ev -> forall s s' o, J s -> pok x -> settled s x -> eval_changed V vdef decl P ev x s = (s', o) -> J s' /\ grows s s'.
Proof.
  intros He s s' o I Px Sx E. unfold eval_changed in E. destruct (circ V (decl (fst x))) as [lat|] eqn:Ec; [|inversion E; subst; auto using grows_refl].
  destruct (get_settled vdef decl s x (j_wf _ I) Px Sx) as (s1 & E1 & S1). rewrite (mbind_Val _ _ _ _ _ E1) in E. destruct (J_same _ _ I S1) as [J1 G1].
  unfold mbind at 1 in E. destruct (compute V P ev x s1) as [s2 o2] eqn:E2. destruct (compute_J ev x He Px s1 s2 o2 J1 E2) as (J2 & G2 & R2).
  pose proof (grows_trans _ _ _ G1 G2) as G. destruct o2 as [e|e| |]; try (inversion E; subst; auto; fail).
  assert (Lo : le (value s x) (F x)) by (apply I; auto; destruct Sx as [H|H]; rewrite H; auto).
  destruct (equal V lat (value s x) (join V lat (value s x) e)); [inversion E; subst; auto|].
  unfold mbind in E. destruct (set V vdef decl x (join V lat (value s x) e) s2) as [s3 o3] eqn:E3.
  assert (NC : stat s2 x <> CYCLE) by (destruct (gr_settled _ _ G x Px Sx); congruence).
  destruct (set_J s2 x (join V lat (value s x) e) s3 o3 J2 ltac:(eapply Hjoin; eauto) (or_introl NC) E3) as [J3 G3].
  - destruct o3; inversion E; subst; split; auto; eapply grows_trans; eauto.
Qed.

Lemma pass_J ev : ev_J ev -> forall fuel i ep n s s' o, J s -> pass V vdef decl P fuel ev i ep n s = (s', o) -> J s' /\ grows s s'.
Proof.
  intros He. induction fuel as [|fuel IH]; intros i ep n s s' o I E; cbn [pass] in E; [inversion E; subst; auto using grows_refl|].
  destruct (negb _); [inversion E; subst; auto using grows_refl|].
  destruct (nth_error (pending V s) i) as [x|] eqn:Ei; [|inversion E; subst; auto using grows_refl].
  pose proof (j_pend _ I) as PO. unfold AttrCircProofs.pendok in PO. rewrite Forall_forall in PO. destruct (PO x (nth_error_In _ _ Ei)) as (Px & Cx & Sx).
  unfold mbind in E. destruct (eval_changed V vdef decl P ev x s) as [s1 o1] eqn:E1. destruct (eval_changed_J ev x He s s1 o1 I Px Sx E1) as [J1 G1].
  destruct o1 as [c|e| |]; try (inversion E; subst; auto; fail). destruct (IH _ _ _ _ _ _ J1 E) as [J2 G2]. split; auto. eapply grows_trans; eauto.
Qed.
Lemma clear_J ev : ev_J ev -> forall fuel s s' o, J s -> clear_loop V vdef decl P fuel ev s = (s', o) -> J s' /\ grows s s'.
Proof.
  intros He. induction fuel as [|fuel IH]; intros s s' o I E; [inversion E; subst; auto using grows_refl|].
  cbn [clear_loop] in E. unfold mbind in E. destruct (pass V vdef decl P (S fuel) ev 0 (epoch V s) 0 s) as [s1 o1] eqn:E1.
  destruct (pass_J ev He _ _ _ _ _ _ _ I E1) as [J1 G1]. destruct o1 as [m|e| |]; try (inversion E; subst; auto; fail).
  destruct (m <? length (pending V s1)).
  - destruct (IH _ _ _ J1 E) as [J2 G2]. split; auto. eapply grows_trans; eauto.
  - inversion E; subst. split; [|constructor; apply G1]. constructor; try apply J1. constructor.
Qed.

Lemma evaluate_J : forall fuel, ev_J (evaluate fuel).
Proof.
  induction fuel as [|fuel IH]; intros x s s' o I E; cbn [AttrModel.evaluate] in E.
  - inversion E; subst. ands; auto using grows_refl. discriminate.
  - destruct (circ V (decl (fst x))) as [lat|] eqn:Ec; [|apply attribute_evaluate_J in E; auto].
    assert (J0 : J (checks_add V s)) by (constructor; apply I).
    unfold mbind at 1 in E. destruct (attribute_evaluate V vdef decl P (evaluate fuel) x (checks_add V s)) as [s1 o1] eqn:E1.
    destruct (attribute_evaluate_J _ x IH _ _ _ J0 E1) as (J1 & G1 & R1).
    assert (SUB : forall t, J t -> grows s1 t -> J (checks_sub V t) /\ grows s (checks_sub V t)).
    { intros t Jt Gt. pose proof (grows_trans _ _ _ G1 Gt) as G. split; constructor; try apply Jt; try apply G. cbn. rewrite (gr_checks _ _ G). cbn. lia. }
    destruct o1 as [v|e| |]; try (inversion E; subst; destruct (SUB s1 J1 (grows_refl _)); ands; auto; intros; discriminate).
    destruct (R1 v eq_refl) as (Px & Lv & Sx).
    destruct (Nat.eqb (num_checks V s1) 1).
    + unfold mbind in E. destruct (clear_pending V vdef decl P fuel (evaluate fuel) s1) as [s2 o2] eqn:E2.
      destruct (clear_J _ IH _ _ _ _ J1 E2) as [J2 G2].
      destruct o2 as [u|e| |]; try (inversion E; subst; destruct (SUB s2 J2 G2); ands; auto; intros; discriminate).
      pose proof (gr_settled _ _ G2 x Px Sx) as Sx2. destruct (get_settled vdef decl s2 x (j_wf _ J2) Px Sx2) as (s3 & E3 & S3). rewrite E3 in E.
      destruct (J_same _ _ J2 S3) as [J3 G3]. inversion E; subst. destruct (SUB s3 J3 (grows_trans _ _ _ G2 G3)) as [A B]. ands; auto.
      intros w Hw. injection Hw as <-. ands; auto.
      * apply J2; auto. destruct Sx2 as [H|H]; rewrite H; auto.
      * change (settled s3 x). unfold settled. rewrite (sm_stat _ _ _ S3). auto.
    + inversion E; subst. destruct (SUB s1 J1 (grows_refl _)) as [A B]. ands; auto.
Qed.

Lemma J_initial : J (initial_state V).
Proof.
  assert (St : forall y, stat (initial_state V) y = UNINITIALIZED) by (intros y; unfold AttrModel.stat; cbn; destruct (index_of (snd y)); auto).
  constructor.
  - intros a. auto.
  - constructor.
  - intros y Py. rewrite St. discriminate.
Qed.
End B.
