(** * AttrCircProofs: facts about evaluation with circular attributes. *)
From Verif Require Import Base AttrModel AttrSpec AttrProofs.

Section C.
Context {V : Type} (vdef : V) (decl : nat -> attr_decl V) (P : inst -> comp V).
Notation stat := (AttrModel.stat V). Notation value := (AttrModel.value V vdef).
Notation state := (AttrModel.state V).
Notation evaluate := (evaluate V vdef decl P).

Notation pok := (right_phylum decl).
Notation evaluated_to := (evaluated_to vdef decl). Notation answers := (answers vdef decl). Notation stable := (stable vdef decl P).

Lemma slot_pok x y : pok x -> pok y -> slot x y = true -> x = y.
Proof.
  destruct x as [a [p i]], y as [b [q j]]. unfold right_phylum, slot. cbn. intros Hx Hy H. apply andb_true_iff in H. rewrite !Nat.eqb_eq in H. destruct H as [-> ->]. congruence.
Qed.
Lemma slot_same x y : slot x y = true -> forall s : state, stat s x = stat s y.
Proof.
  destruct x as [a [p i]], y as [b [q j]]. unfold slot. cbn. intros H s. apply andb_true_iff in H. rewrite !Nat.eqb_eq in H. destruct H as [-> ->]. auto.
Qed.
Lemma not_settled_fresh s x : fresh (stat s x) = true -> ~ settled s x.
Proof. intros H [E|E]; rewrite E in H; discriminate. Qed.

(** What one call of evaluate (or of compute) does when some CheckPending is
    active, so that nothing is iterated: instances that have a value keep it. *)
Record keeps (s s' : state) : Prop := {
  k_wf : wf s';
  k_inb : forall y, inb s y -> inb s' y;
  k_settled : forall y, pok y -> settled s y -> settled s' y /\ value s' y = value s y;
  k_pending : exists l, pending V s' = pending V s ++ l /\ Forall (fun p => pok p /\ circ V (decl (fst p)) <> None /\ settled s' p) l;
  k_checks : num_checks V s' = num_checks V s }.

Lemma keeps_refl s : wf s -> keeps s s.
Proof. intros W. constructor; auto. exists []. rewrite app_nil_r. auto. Qed.
Lemma keeps_trans s1 s2 s3 : keeps s1 s2 -> keeps s2 s3 -> keeps s1 s3.
Proof.
  intros A B. constructor.
  - apply B.
  - intros y H. apply (k_inb _ _ B), (k_inb _ _ A), H.
  - intros y Py H. destruct (k_settled _ _ A y Py H) as [S1 V1]. destruct (k_settled _ _ B y Py S1) as [S2 V2]. split; auto. congruence.
  - destruct (k_pending _ _ A) as (l & El & Hl), (k_pending _ _ B) as (m & Em & Hm). exists (l ++ m). split; [rewrite Em, El; now rewrite app_assoc|].
    apply Forall_app. split; auto. eapply Forall_impl; [|exact Hl]. cbn. intros p (Pp & Cp & Sp). ands; auto. apply (k_settled _ _ B p Pp Sp).
  - rewrite (k_checks _ _ B). apply A.
Qed.
Lemma keeps_same s s' : wf s -> same vdef s s' -> keeps s s'.
Proof.
  intros W S. constructor.
  - now apply S.
  - apply S.
  - intros y Py H. unfold settled. rewrite (sm_stat _ _ _ S), (sm_value _ _ _ S). auto.
  - exists []. rewrite app_nil_r. split; auto. apply (sm_frame _ _ _ S).
  - apply (sm_frame _ _ _ S).
Qed.

Definition ev_keeps (ev : inst -> M V V) : Prop := forall x s s' o, wf s -> 1 <= num_checks V s -> ev x s = (s', o) ->
  keeps s s' /\ forall v, o = Val v -> evaluated_to s' x v.

Lemma keeps_evaluated s s' x v : keeps s s' -> evaluated_to s x v -> evaluated_to s' x v.
Proof. intros K (Px & Sx & Ex). destruct (k_settled _ _ K x Px Sx) as [S' E']. unfold AttrSpec.evaluated_to. ands; auto. congruence. Qed.
Lemma keeps_answers s s' c v : keeps s s' -> answers s c v -> answers s' c v.
Proof. intros K. induction 1; [constructor|]. econstructor; eauto. eapply keeps_evaluated; eauto. Qed.

Lemma run_keeps ev : ev_keeps ev -> forall c s s' o, wf s -> 1 <= num_checks V s -> run V ev c s = (s', o) ->
  keeps s s' /\ forall v, o = Val v -> answers s' c v.
Proof.
  intros He. induction c as [v|y k IH|e]; intros s s' o W N E; cbn [run] in E.
  - inversion E; subst. split; [now apply keeps_refl|]. intros v' H. injection H as <-. constructor.
  - destruct (ev y s) as [s1 o1] eqn:E1. destruct (He y s s1 o1 W N E1) as [K1 R1].
    destruct o1 as [w|e| |]; try (inversion E; subst; split; auto; intros; discriminate).
    destruct (IH w s1 s' o (k_wf _ _ K1) ltac:(rewrite (k_checks _ _ K1); auto) E) as [K2 R2]. split; [eapply keeps_trans; eauto|].
    intros v Ho. econstructor; [|apply R2; auto]. eapply keeps_evaluated; eauto.
  - inversion E; subst. split; [now apply keeps_refl|]. discriminate.
Qed.

Lemma compute_keeps ev x : ev_keeps ev -> forall s s' o, wf s -> 1 <= num_checks V s -> compute V P ev x s = (s', o) ->
  keeps s s' /\ forall v, o = Val v -> answers s' (P x) v.
Proof.
  intros He s s' o W N E. unfold compute in E. cbn in E.
  set (s1 := mkS V (attrs V s) (pending V s) (cap V s) (epoch V s) (num_checks V s) (log V s ++ [x]) (calls V s)) in *.
  assert (K : keeps s s1). { constructor; auto. exists []. now rewrite app_nil_r. }
  destruct (run_keeps ev He (P x) s1 s' o ltac:(apply K) N E) as [K2 R]. split; auto. eapply keeps_trans; eauto.
Qed.

Lemma check_phylum_bad s x : ~ pok x -> check_phylum V vdef decl x s = (s, Thrown InvalidArgument).
Proof. intros H. unfold check_phylum. destruct (Nat.eqb_spec (phylum_of (snd x)) (dphylum V (decl (fst x)))); [contradiction|auto]. Qed.
Lemma pok_dec x : pok x \/ ~ pok x.
Proof. unfold right_phylum. destruct (Nat.eq_dec (phylum_of (snd x)) (dphylum V (decl (fst x)))); auto. Qed.

Lemma fresh_cases s x : fresh (stat s x) = true \/ stat s x = CYCLE \/ settled s x.
Proof. unfold settled. destruct (stat s x); auto. Qed.

Lemma put_value_keeps s s' x v : wf s -> inb s x -> pok x -> ~ settled s x -> put_value V x v s = (s', Val tt) -> keeps s s'.
Proof.
  intros W I Px N E. destruct (put_value_ok vdef s x v W I) as (s1 & E1 & W1 & S1 & V1 & St1 & L1 & C1 & In1 & F1).
  assert (s1 = s') by congruence. subst s1. constructor; auto.
  - intros y Py H. unfold settled. rewrite S1, V1. destruct (slot x y) eqn:Sl; auto. apply slot_pok in Sl; auto. subst. contradiction.
  - exists []. rewrite app_nil_r. split; auto. apply F1.
  - apply F1.
Qed.

Lemma attribute_set_any s x v : wf s -> pok x -> exists s', attribute_set V vdef decl x v s = (s', Val tt) /\ wf s' /\
  (forall y, stat s' y = if slot x y then ASSIGNED else stat s y) /\ (forall y, value s' y = if slot x y then v else value s y) /\
  (forall y, inb s y -> inb s' y) /\ inb s' x /\ frame s s' /\ log V s' = log V s /\ calls V s' = calls V s /\ (forall a, st_started s' a = st_started s a).
Proof.
  intros W Px. unfold attribute_set. destruct (check_phylum_ok vdef decl s x W Px) as (s1 & E1 & S1 & I1).
  rewrite (mbind_Val _ _ _ _ _ E1). pose proof (sm_wf _ _ _ S1 W) as W1.
  destruct (put_value_ok vdef s1 x v W1 I1) as (s2 & E2 & W2 & S2 & V2 & St2 & L2 & C2 & In2 & F2). rewrite (mbind_Val _ _ _ _ _ E2).
  destruct (put_status_ok vdef s2 x ASSIGNED W2 (In2 _ I1)) as (s3 & E3 & W3 & S3 & V3 & St3 & L3 & C3 & In3 & F3).
  exists s3. split; auto. ands; auto.
  - intros y. rewrite S3, S2, (sm_stat _ _ _ S1). auto.
  - intros y. rewrite V3, V2, (sm_value _ _ _ S1). auto.
  - intros y H. apply In3, In2, (sm_inb _ _ _ S1), H.
  - eapply frame_trans; [apply (sm_frame _ _ _ S1)|]. eapply frame_trans; eauto.
  - rewrite L3, L2. apply S1.
  - rewrite C3, C2. apply S1.
  - intros a. rewrite St3, St2. apply S1.
Qed.

Lemma attribute_evaluate_keeps ev x : ev_keeps ev -> forall s s' o, wf s -> 1 <= num_checks V s ->
  attribute_evaluate V vdef decl P ev x s = (s', o) -> keeps s s' /\ forall v, o = Val v -> evaluated_to s' x v.
Proof.
  intros He s s' o W N E. destruct (pok_dec x) as [Px|Px].
  2:{ unfold attribute_evaluate in E. rewrite (mbind_Thrown _ _ _ _ _ (check_phylum_bad s x Px)) in E. inversion E; subst.
      split; [now apply keeps_refl|discriminate]. }
  destruct (prologue vdef decl P s x W Px) as (s1 & W1 & I1 & S1 & V1 & St1 & L1 & C1 & In1 & F1 & E1). rewrite E1 in E. clear E1.
  assert (K1 : keeps s s1).
  { constructor; auto; [intros y _ H; unfold settled; rewrite S1, V1; auto|exists []; rewrite app_nil_r; split; auto; apply F1|apply F1]. }
  destruct (fresh_cases s x) as [Fx|[Cx|Sx]].
  - (* compute *)
    assert (E' : mbind V (put_status V x CYCLE) (fun _ => mbind V (compute V P ev x) (fun v =>
        mbind V (put_value V x v) (fun _ => mbind V (put_status V x EVALUATED) (fun _ => get V vdef decl x)))) s1 = (s', o))
      by (destruct (stat s x); try discriminate; auto). clear E.
    destruct (put_status_ok vdef s1 x CYCLE W1 I1) as (s2 & E2 & W2 & S2 & V2 & St2 & L2 & C2 & In2 & F2).
    rewrite (mbind_Val _ _ _ _ _ E2) in E'.
    assert (K2 : keeps s s2).
    { constructor; auto.
      - intros y Py H. unfold settled. rewrite S2, S1, V2, V1. destruct (slot x y) eqn:Sl; auto. apply slot_pok in Sl; auto. subst. now apply not_settled_fresh in Fx.
      - exists []. rewrite app_nil_r. split; auto. rewrite (f_pending _ _ F2). apply F1.
      - rewrite (f_checks _ _ F2). apply F1. }
    unfold mbind at 1 in E'. destruct (compute V P ev x s2) as [s3 o3] eqn:E3.
    destruct (compute_keeps ev x He s2 s3 o3 W2 ltac:(rewrite (k_checks _ _ K2); auto) E3) as [K3 _].
    pose proof (keeps_trans _ _ _ K2 K3) as K.
    destruct o3 as [v|e| |]; try (inversion E'; subst; split; auto; intros; discriminate).
    pose proof (k_inb _ _ K3 x (In2 _ I1)) as I3. pose proof (k_wf _ _ K3) as W3.
    destruct (put_value_ok vdef s3 x v W3 I3) as (s4 & E4 & W4 & S4 & V4 & St4 & L4 & C4 & In4 & F4). rewrite (mbind_Val _ _ _ _ _ E4) in E'.
    destruct (put_status_ok vdef s4 x EVALUATED W4 (In4 _ I3)) as (s5 & E5 & W5 & S5 & V5 & St5 & L5 & C5 & In5 & F5). rewrite (mbind_Val _ _ _ _ _ E5) in E'.
    assert (Sx5 : stat s5 x = EVALUATED) by (rewrite S5; unfold slot; now rewrite !Nat.eqb_refl).
    assert (Vx5 : value s5 x = v) by (rewrite V5, V4; unfold slot; now rewrite !Nat.eqb_refl).
    rewrite get_eval_ok in E'; auto; [|rewrite Sx5; discriminate]. inversion E'; subst s' o.
    split.
    + constructor; auto.
      * intros y Hy. apply In5, In4, (k_inb _ _ K), Hy.
      * intros y Py Hy. destruct (k_settled _ _ K y Py Hy) as [Sy Vy].
        assert (slot x y = false). { destruct (slot x y) eqn:Sl; auto. apply slot_pok in Sl; auto. subst. now apply not_settled_fresh in Fx. }
        unfold settled. rewrite S5, S4, V5, V4, H. auto.
      * destruct (k_pending _ _ K) as (l & El & Hl). exists l. rewrite (f_pending _ _ F5), (f_pending _ _ F4). split; auto.
        eapply Forall_impl; [|exact Hl]. cbn. intros p (Pp & Cp & Sp). ands; auto. unfold settled. rewrite S5, S4. destruct (slot x p); auto.
      * rewrite (f_checks _ _ F5), (f_checks _ _ F4). apply K.
    + intros w Hw. injection Hw as <-. unfold AttrSpec.evaluated_to. ands; auto. left; auto.
  - rewrite Cx in E. unfold cycle_evaluate in E. destruct (circ V (decl (fst x))) as [lat|] eqn:Ec.
    + rewrite (mbind_Val _ _ s1 _ tt eq_refl) in E. set (s2 := fst (add_pending V x s1)) in E. cbn in s2.
      assert (W2 : wf s2) by (intros b; apply W1).
      destruct (attribute_set_any s2 x (bottom V lat) W2 Px) as (s3 & E3 & W3 & S3 & V3 & In3 & I3 & F3 & _).
      rewrite (mbind_Val _ _ _ _ _ E3) in E. inversion E; subst s' o. clear E.
      assert (Sx3 : stat s3 x = ASSIGNED) by (rewrite S3; unfold slot; now rewrite !Nat.eqb_refl).
      assert (S21 : forall y, stat s2 y = stat s y) by (intros; apply S1). assert (V21 : forall y, value s2 y = value s y) by (intros; apply V1).
      split.
      * constructor; auto.
        -- intros y Hy. apply In3. apply In1. auto.
        -- intros y Py Hy. unfold settled. rewrite S3, V3, S21, V21. destruct (slot x y) eqn:Sl; auto. apply slot_pok in Sl; auto. subst. destruct Hy; congruence.
        -- exists [x]. split; [rewrite (f_pending _ _ F3); cbn; f_equal; apply F1|]. constructor; [|constructor]. ands; auto; [congruence|right; auto].
        -- rewrite (f_checks _ _ F3). cbn. apply F1.
      * intros v Hv. injection Hv as <-. unfold AttrSpec.evaluated_to. ands; auto; [right; auto|]. rewrite V3. unfold slot. now rewrite !Nat.eqb_refl.
    + inversion E; subst. split; [auto|discriminate].
  - assert (E' : (s1, Val (value s x)) = (s', o)) by (destruct Sx as [H|H]; rewrite H in E; auto). inversion E'; subst. split; auto.
    intros v Hv. injection Hv as <-. unfold AttrSpec.evaluated_to, settled. rewrite S1, V1. auto.
Qed.

Lemma evaluate_keeps : forall fuel, ev_keeps (evaluate fuel).
Proof.
  induction fuel as [|fuel IH]; intros x s s' o W N E; cbn [AttrModel.evaluate] in E.
  - inversion E; subst. split; [now apply keeps_refl|discriminate].
  - destruct (circ V (decl (fst x))) as [lat|] eqn:Ec.
    + set (s0 := checks_add V s) in E. assert (W0 : wf s0) by (intros b; apply W).
      unfold mbind at 1 in E. destruct (attribute_evaluate V vdef decl P (evaluate fuel) x s0) as [s1 o1] eqn:E1.
      destruct (attribute_evaluate_keeps _ x IH s0 s1 o1 W0 ltac:(cbn; lia) E1) as [K1 R1].
      assert (N1 : num_checks V s1 = S (num_checks V s)) by (rewrite (k_checks _ _ K1); auto).
      assert (K : keeps s (checks_sub V s1)).
      { constructor; try (destruct K1; auto; fail). cbn. lia. }
      assert (Q : (checks_sub V s1, o1) = (s', o)).
      { destruct o1 as [v|e| |]; auto. rewrite (proj2 (Nat.eqb_neq (num_checks V s1) 1) ltac:(lia)) in E. auto. }
      inversion Q; subst. split; auto.
    + apply attribute_evaluate_keeps in E; auto.
Qed.

(** ** clear_pending *)
(** All that is pending. *)
Definition pendok (s : state) : Prop := Forall (fun p => pok p /\ circ V (decl (fst p)) <> None /\ settled s p) (pending V s).

Lemma keeps_stable s s' p : keeps s s' -> pok p -> settled s p -> stable s p -> stable s' p.
Proof.
  intros K Pp Sp (lat & e & El & A & Q). exists lat, e. ands; auto; [eapply keeps_answers; eauto|].
  destruct (k_settled _ _ K p Pp Sp) as [_ ->]. auto.
Qed.
Lemma keeps_pendok s s' : keeps s s' -> pendok s -> pendok s'.
Proof.
  intros K H. unfold pendok in *. destruct (k_pending _ _ K) as (l & -> & Hl). apply Forall_app. split; auto.
  eapply Forall_impl; [|exact H]. cbn. intros p (Pp & Cp & Sp). ands; auto. apply (k_settled _ _ K p Pp Sp).
Qed.

(** Values only move up: the effect of eval_changed on the values that exist. *)
Record rises (s s' : state) : Prop := {
  r_wf : wf s';
  r_settled : forall y, pok y -> settled s y -> settled s' y;
  r_plain : forall y, pok y -> settled s y -> circ V (decl (fst y)) = None -> value s' y = value s y;
  r_up : forall y lat, pok y -> settled s y -> circ V (decl (fst y)) = Some lat -> coll V (decl (fst y)) = None -> upward lat (value s y) (value s' y);
  r_pending : exists l, pending V s' = pending V s ++ l;
  r_checks : num_checks V s' = num_checks V s }.
Lemma keeps_rises s s' : keeps s s' -> rises s s'.
Proof.
  intros K. constructor.
  - apply K.
  - intros y Py Sy. apply (k_settled _ _ K y Py Sy).
  - intros y Py Sy _. apply (k_settled _ _ K y Py Sy).
  - intros y lat Py Sy _ _. destruct (k_settled _ _ K y Py Sy) as [_ ->]. apply rt_refl.
  - destruct (k_pending _ _ K) as (l & El & _). eauto.
  - apply K.
Qed.
Lemma rises_trans s1 s2 s3 : rises s1 s2 -> rises s2 s3 -> rises s1 s3.
Proof.
  intros A B. constructor.
  - apply B.
  - intros y Py Sy. apply (r_settled _ _ B), (r_settled _ _ A); auto.
  - intros y Py Sy C. rewrite (r_plain _ _ B); auto; [now apply (r_plain _ _ A)|apply (r_settled _ _ A); auto].
  - intros y lat Py Sy C D. eapply rt_trans; [apply (r_up _ _ A); eauto|apply (r_up _ _ B); auto]. apply (r_settled _ _ A); auto.
  - destruct (r_pending _ _ A) as (l & El), (r_pending _ _ B) as (m & Em). exists (l ++ m). now rewrite Em, El, app_assoc.
  - rewrite (r_checks _ _ B). apply A.
Qed.

Lemma get_settled s x : wf s -> pok x -> settled s x -> exists s', get V vdef decl x s = (s', Val (value s x)) /\ same vdef s s'.
Proof.
  intros W Px Sx. destruct (get_ok vdef decl s x W Px) as (s' & E & S & _); eauto. destruct Sx as [H|H]; rewrite H; discriminate.
Qed.

Lemma eval_changed_ok ev x : ev_keeps ev -> forall s s' o, wf s -> 1 <= num_checks V s -> pendok s ->
  pok x -> circ V (decl (fst x)) <> None -> settled s x ->
  eval_changed V vdef decl P ev x s = (s', o) ->
  rises s s' /\ pendok s' /\ (o = Val false -> keeps s s' /\ stable s' x).
Proof.
  intros He s s' o W N PO Px Cx Sx E. unfold eval_changed in E. destruct (circ V (decl (fst x))) as [lat|] eqn:Ec; [|congruence].
  destruct (get_settled s x W Px Sx) as (s1 & E1 & S1). rewrite (mbind_Val _ _ _ _ _ E1) in E.
  pose proof (keeps_same _ _ W S1) as K1. unfold mbind at 1 in E. destruct (compute V P ev x s1) as [s2 o2] eqn:E2.
  destruct (compute_keeps ev x He s1 s2 o2 (k_wf _ _ K1) ltac:(rewrite (k_checks _ _ K1); auto) E2) as [K2 A2].
  pose proof (keeps_trans _ _ _ K1 K2) as K. pose proof (keeps_pendok _ _ K PO) as PO2. destruct (k_settled _ _ K x Px Sx) as [Sx2 Vx2].
  destruct o2 as [e|e| |]; try (inversion E; subst; ands; [now apply keeps_rises|auto|discriminate]).
  specialize (A2 e eq_refl). destruct (equal V lat (value s x) (join V lat (value s x) e)) eqn:Q.
  - inversion E; subst s' o. ands; [now apply keeps_rises|auto|]. intros _. split; auto. exists lat, e. rewrite Vx2. auto.
  - assert (S3 : exists s3 u, set V vdef decl x (join V lat (value s x) e) s2 = (s3, Val tt) /\ attribute_set V vdef decl x u s2 = (s3, Val tt) /\
        (coll V (decl (fst x)) = None -> u = join V lat (value s x) e)).
    { unfold set. destruct (coll V (decl (fst x))) as [[i cb]|] eqn:Ecl.
      - rewrite (mbind_Val _ _ _ _ _ (get_eval_ok vdef decl s2 x (k_wf _ _ K) ltac:(apply (k_inb _ _ K2); destruct (get_ok vdef decl s x W Px ltac:(destruct Sx as [H|H]; rewrite H; discriminate)) as (? & ? & ? & ?); congruence) Px ltac:(destruct Sx2 as [H|H]; rewrite H; discriminate))).
        destruct (attribute_set_any s2 x (cb (value s2 x) (join V lat (value s x) e)) (k_wf _ _ K) Px) as (s3 & E3 & _). eexists _, _. ands; eauto. discriminate.
      - destruct (attribute_set_any s2 x (join V lat (value s x) e) (k_wf _ _ K) Px) as (s3 & E3 & _). eauto 6. }
    destruct S3 as (s3 & u & E3 & E3' & Hu). rewrite (mbind_Val _ _ _ _ _ E3) in E. inversion E; subst s' o.
    destruct (attribute_set_any s2 x u (k_wf _ _ K) Px) as (s3' & E3'' & W3 & S3 & V3 & In3 & I3 & F3 & _). assert (s3' = s3) by congruence. subst s3'.
    ands; [|  |discriminate].
    + constructor; auto.
      * intros y Py Sy. unfold settled. rewrite S3. destruct (slot x y); auto. apply (k_settled _ _ K y Py Sy).
      * intros y Py Sy Cy. rewrite V3. destruct (slot x y) eqn:Sl; [apply slot_pok in Sl; auto; subst; congruence|]. apply (k_settled _ _ K y Py Sy).
      * intros y lat' Py Sy Cy Dy. rewrite V3. destruct (slot x y) eqn:Sl.
        -- apply slot_pok in Sl; auto. subst y. rewrite (Hu Dy). assert (lat' = lat) by congruence. subst. apply rt_step. eauto.
        -- destruct (k_settled _ _ K y Py Sy) as [_ ->]. apply rt_refl.
      * destruct (k_pending _ _ K) as (l & El & _). exists l. rewrite (f_pending _ _ F3). auto.
      * rewrite (f_checks _ _ F3). apply K.
    + unfold pendok in *. rewrite (f_pending _ _ F3). eapply Forall_impl; [|exact PO2]. cbn. intros p (Pp & Cp & Sp). ands; auto.
      unfold settled. rewrite S3. destruct (slot x p); auto.
Qed.

Lemma pass_ok ev : ev_keeps ev -> forall fuel i ep n s s' o, wf s -> 1 <= num_checks V s -> pendok s -> i <= length (pending V s) ->
  pass V vdef decl P fuel ev i ep n s = (s', o) ->
  rises s s' /\ pendok s' /\
  (forall m, o = Val m -> n <= i -> m <= length (pending V s') /\
     (m = length (pending V s') -> n = i /\ keeps s s' /\ forall j p, i <= j -> nth_error (pending V s') j = Some p -> stable s' p)).
Proof.
  intros He. induction fuel as [|fuel IH]; intros i ep n s s' o W N PO Li E; cbn [pass] in E.
  - inversion E; subst. ands; auto; [apply keeps_rises, keeps_refl; auto|discriminate].
  - destruct (negb _). { inversion E; subst. ands; auto; [apply keeps_rises, keeps_refl; auto|discriminate]. }
    destruct (nth_error (pending V s) i) as [x|] eqn:Ei.
    + pose proof (nth_error_In _ _ Ei) as Hx. unfold pendok in PO. rewrite Forall_forall in PO. destruct (PO x Hx) as (Px & Cx & Sx).
      assert (PO' : pendok s) by (unfold pendok; now rewrite Forall_forall).
      unfold mbind in E. destruct (eval_changed V vdef decl P ev x s) as [s1 o1] eqn:E1.
      destruct (eval_changed_ok ev x He s s1 o1 W N PO' Px Cx Sx E1) as (R1 & PO1 & T1).
      destruct o1 as [c|e| |]; try (inversion E; subst; ands; auto; discriminate).
      assert (L1 : S i <= length (pending V s1)).
      { destruct (r_pending _ _ R1) as (l & ->). rewrite app_length. assert (i < length (pending V s)) by (apply nth_error_Some; congruence). lia. }
      destruct (IH (S i) ep (if c : bool then n else S n) s1 s' o (r_wf _ _ R1) ltac:(rewrite (r_checks _ _ R1); auto) PO1 L1 E) as (R2 & PO2 & T2).
      ands; auto; [eapply rises_trans; eauto|]. intros m Hm Hn. destruct (T2 m Hm) as [A B]; [destruct c; lia|]. split; auto.
      intros Q. destruct (B Q) as (Hi & K2 & St). destruct c; [lia|]. assert (n = i) by lia. subst n. split; auto. destruct (T1 eq_refl) as [K1 St1].
      split; [eapply keeps_trans; eauto|]. intros j p Lj Hj. destruct (Nat.eq_dec j i) as [->|Nj]; [|apply (St j p); auto; lia].
      assert (p = x).
      { destruct (r_pending _ _ (rises_trans _ _ _ R1 R2)) as (l & El). rewrite El, nth_error_app1 in Hj by (apply nth_error_Some; congruence). congruence. }
      subst p. eapply keeps_stable; eauto. apply (k_settled _ _ K1 x Px Sx).
    + inversion E; subst. apply nth_error_None in Ei. ands; auto; [apply keeps_rises, keeps_refl; auto|]. intros m Hm Hn. injection Hm as <-.
      split; [lia|]. intros Q. ands; [lia|apply keeps_refl; auto|]. intros j p Lj Hj. exfalso. assert (j < length (pending V s')) by (apply nth_error_Some; congruence). lia.
Qed.

(** The state just before the pending list is emptied. *)
Lemma clear_ok ev : ev_keeps ev -> forall fuel s s', wf s -> 1 <= num_checks V s -> pendok s ->
  clear_loop V vdef decl P fuel ev s = (s', Val tt) ->
  exists s0, rises s s0 /\ pendok s0 /\ (forall p, In p (pending V s0) -> stable s0 p) /\
    s' = mkS V (attrs V s0) [] (cap V s0) (epoch V s0) (num_checks V s0) (log V s0) (calls V s0).
Proof.
  intros He. induction fuel as [|fuel IH]; intros s s' W N PO E.
  - discriminate.
  - cbn [clear_loop] in E. unfold mbind in E.
    destruct (pass V vdef decl P (S fuel) ev 0 (epoch V s) 0 s) as [s1 o1] eqn:E1.
    destruct (pass_ok ev He (S fuel) 0 (epoch V s) 0 s s1 o1 W N PO ltac:(lia) E1) as (R1 & PO1 & T1).
    destruct o1 as [m|e| |]; try discriminate. destruct (T1 m eq_refl ltac:(lia)) as [Lm Tm].
    destruct (Nat.ltb_spec m (length (pending V s1))) as [L|L].
    + destruct (IH s1 s' (r_wf _ _ R1) ltac:(rewrite (r_checks _ _ R1); auto) PO1 E) as (s0 & R0 & PO0 & St & Es).
      exists s0. ands; auto. eapply rises_trans; eauto.
    + inversion E; subst s'. exists s1. ands; auto. intros p Hp. destruct (In_nth_error _ _ Hp) as (j & Hj).
      destruct (Tm ltac:(lia)) as (_ & _ & St). apply (St j p); auto. lia.
Qed.

Lemma same_mk s0 (y : inst) : let s' := mkS V (attrs V s0) [] (cap V s0) (epoch V s0) (num_checks V s0) (log V s0) (calls V s0) in
  stat s' y = stat s0 y /\ value s' y = value s0 y.
Proof. split; reflexivity. Qed.
End C.
