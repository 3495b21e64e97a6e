(** * AttrEvalProofs: demand evaluation computes the meaning of the equations. *)
From Verif Require Import Base AttrModel AttrSpec AttrProofs.

Section E.
Context {V : Type} (vdef : V) (decl : nat -> attr_decl V) (P : inst -> comp V) (psize : nat -> nat) (natt : nat).
Hypothesis Hplain : forall a, circ V (decl a) = None.
Notation stat := (AttrModel.stat V). Notation value := (AttrModel.value V vdef).
Notation state := (AttrModel.state V).
Notation valid := (valid decl psize natt).
Notation univ := (instances decl psize natt).
Hypothesis Hdem : forall x, valid x -> demands_ok valid (P x).

Lemma slot_eq x y : valid x -> valid y -> slot x y = true -> x = y.
Proof.
  intros (_ & Hx & _) (_ & Hy & _) H. unfold slot in H. apply andb_true_iff in H. destruct H as [H1 H2].
  apply Nat.eqb_eq in H1, H2. destruct x as [a [p i]], y as [b [q j]]. cbn in *. subst. auto.
Qed.
Lemma classic_eq (y x : inst) : y = x \/ y <> x.
Proof. repeat decide equality || (destruct y as [a [p i]], x as [b [q j]]; destruct (Nat.eq_dec a b), (Nat.eq_dec p q), (Nat.eq_dec i j); subst; auto; right; congruence). Qed.
Lemma slot_refl x : slot x x = true.
Proof. unfold slot. now rewrite !Nat.eqb_refl. Qed.
Lemma slot_sym x y : slot x y = slot y x.
Proof. unfold slot. now rewrite (Nat.eqb_sym (fst x)), (Nat.eqb_sym (index_of (snd x))). Qed.
Lemma slot_neq x y : valid x -> valid y -> x <> y -> slot x y = false.
Proof. intros Hx Hy N. destruct (slot x y) eqn:E; auto. apply slot_eq in E; auto. congruence. Qed.
Lemma slot_fst x y : slot x y = true -> fst x = fst y.
Proof. unfold slot. rewrite andb_true_iff. intros [H _]. now apply Nat.eqb_eq. Qed.

Lemma valid_univ x : valid x <-> In x univ.
Proof.
  unfold instances. rewrite in_flat_map. split.
  - intros (Ha & Hp & Hi). exists (fst x). split; [apply in_seq; lia|]. apply in_map_iff. exists (index_of (snd x)).
    destruct x as [a [p i]]. cbn in *. subst. split; auto. apply in_seq. lia.
  - intros (a & Ha & Hx). apply in_map_iff in Hx. destruct Hx as (i & <- & Hi). apply in_seq in Ha, Hi. unfold AttrSpec.valid. cbn. lia.
Qed.

(** The number of instances not yet evaluated. *)
Definition fresh_at (s : state) (x : inst) : bool := fresh (stat s x).
Definition todo (s : state) : nat := length (filter (fresh_at s) univ).

Lemma filter_le {A} (f g : A -> bool) l : (forall x, In x l -> f x = true -> g x = true) -> length (filter f l) <= length (filter g l).
Proof.
  induction l as [|a l IH]; cbn; intros H; auto. assert (IH' := IH (fun x Hx => H x (or_intror Hx))).
  specialize (H a (or_introl eq_refl)). destruct (f a); cbn; [rewrite (H eq_refl); cbn; lia|]. destruct (g a); cbn; lia.
Qed.
Lemma filter_lt {A} (f g : A -> bool) l x : (forall y, In y l -> f y = true -> g y = true) -> In x l -> f x = false -> g x = true ->
  length (filter f l) < length (filter g l).
Proof.
  induction l as [|a l IH]; cbn; intros H Hx Fx Gx; [tauto|].
  assert (LE := filter_le f g l (fun x Hx => H x (or_intror Hx))). pose proof (H a (or_introl eq_refl)) as Ha.
  destruct Hx as [->|Hx].
  - rewrite Fx, Gx. cbn. lia.
  - specialize (IH (fun x Hx => H x (or_intror Hx)) Hx Fx Gx). destruct (f a); cbn; [rewrite (Ha eq_refl); cbn; lia|]. destruct (g a); cbn; lia.
Qed.
Lemma todo_le s : todo s <= length univ.
Proof. unfold todo. induction univ as [|a l IH]; cbn; auto. destruct (fresh_at s a); cbn; lia. Qed.

(** What any evaluation preserves. *)
Record ext (s s' : state) : Prop := {
  e_wf : wf s';
  e_started : forall a, st_started s a = true -> st_started s' a = true;
  e_assigned : forall y, valid y -> (stat s y = ASSIGNED <-> stat s' y = ASSIGNED);
  e_avalue : forall y, valid y -> stat s y = ASSIGNED -> value s' y = value s y;
  e_eval : forall y, valid y -> stat s y = EVALUATED -> stat s' y = EVALUATED /\ value s' y = value s y;
  e_cycle : forall y, valid y -> stat s y = CYCLE -> stat s' y = CYCLE;
  e_fresh : forall y, valid y -> fresh (stat s' y) = true -> stat s' y = stat s y;
  e_quiet : forall y, valid y -> st_started s' (fst y) = false -> stat s' y = stat s y;
  e_inb : forall y, inb s y -> inb s' y;
  e_frame : frame s s';
  e_log : exists l, log V s' = log V s ++ l /\ NoDup l /\
     (forall y, In y l -> valid y /\ fresh (stat s y) = true /\ fresh (stat s' y) = false /\ stat s' y <> ASSIGNED);
  e_calls : exists l, calls V s' = calls V s ++ l /\ (forall a, st_started s' a = true <-> st_started s a = true \/ exists y, In y l /\ fst y = a) }.

Lemma ext_same s s' : wf s -> same vdef s s' -> ext s s'.
Proof.
  intros W S. constructor.
  - apply (sm_wf _ _ _ S W).
  - intros a H. rewrite (sm_started _ _ _ S). auto.
  - intros y _. rewrite (sm_stat _ _ _ S). tauto.
  - intros y _ _. apply (sm_value _ _ _ S).
  - intros y _ H. rewrite (sm_stat _ _ _ S), (sm_value _ _ _ S). auto.
  - intros y _ H. rewrite (sm_stat _ _ _ S). auto.
  - intros y _ _. apply (sm_stat _ _ _ S).
  - intros y _ _. apply (sm_stat _ _ _ S).
  - apply (sm_inb _ _ _ S).
  - apply (sm_frame _ _ _ S).
  - exists []. rewrite app_nil_r. ands; [apply S|constructor|intros y []].
  - exists []. rewrite app_nil_r. split; [apply S|]. intros a. rewrite (sm_started _ _ _ S). split; auto. intros [H|(y & [] & _)]; auto.
Qed.

Lemma ext_trans s1 s2 s3 : ext s1 s2 -> ext s2 s3 -> ext s1 s3.
Proof.
  intros A B. constructor.
  - apply B.
  - intros a H. apply (e_started _ _ B), (e_started _ _ A); auto.
  - intros y Hy. rewrite (e_assigned _ _ A y Hy). apply (e_assigned _ _ B y Hy).
  - intros y Hy H. rewrite (e_avalue _ _ B y Hy); [apply (e_avalue _ _ A y Hy H)|]. now apply (e_assigned _ _ A y Hy).
  - intros y Hy H. destruct (e_eval _ _ A y Hy H) as [H1 H2]. destruct (e_eval _ _ B y Hy H1). split; congruence.
  - intros y Hy H. apply (e_cycle _ _ B y Hy), (e_cycle _ _ A y Hy); auto.
  - intros y Hy H. pose proof (e_fresh _ _ B y Hy H) as E. rewrite E in H. rewrite E. apply (e_fresh _ _ A y Hy H).
  - intros y Hy H. rewrite (e_quiet _ _ B y Hy H). apply (e_quiet _ _ A y Hy).
    destruct (st_started s2 (fst y)) eqn:E; auto. rewrite (e_started _ _ B _ E) in H. discriminate.
  - intros y H. apply (e_inb _ _ B), (e_inb _ _ A); auto.
  - eapply frame_trans; [apply A|apply B].
  - destruct (e_log _ _ A) as (l1 & E1 & N1 & H1). destruct (e_log _ _ B) as (l2 & E2 & N2 & H2).
    exists (l1 ++ l2). rewrite app_assoc, <- E1. ands; auto.
    + assert (DJ : forall y, In y l1 -> In y l2 -> False).
      { intros y I1 I2. destruct (H1 y I1) as (_ & _ & F & _). destruct (H2 y I2) as (_ & F2 & _). congruence. }
      clear -N1 N2 DJ. induction N1 as [|a l1 Ha N1 IH]; cbn; auto. constructor.
      * intros H. apply in_app_or in H. destruct H; auto. eapply DJ; eauto. left; auto.
      * apply IH. intros y Hy. apply DJ. right; auto.
    + intros y Hy. apply in_app_or in Hy. destruct Hy as [Hy|Hy].
      * destruct (H1 y Hy) as (Vy & F1 & F2 & F3). ands; auto.
        -- destruct (stat s2 y) eqn:Es; try discriminate; try congruence.
           ++ now rewrite (e_cycle _ _ B y Vy Es).
           ++ destruct (e_eval _ _ B y Vy Es) as [-> _]. auto.
        -- intros H. apply F3. now apply (e_assigned _ _ B y Vy).
      * destruct (H2 y Hy) as (Vy & F1 & F2 & F3). ands; auto. rewrite <- (e_fresh _ _ A y Vy F1). auto.
  - destruct (e_calls _ _ A) as (l1 & E1 & H1). destruct (e_calls _ _ B) as (l2 & E2 & H2). exists (l1 ++ l2).
    rewrite app_assoc, <- E1. split; auto. intros a. rewrite H2, H1. split.
    + intros [[H|(y & H & E)]|(y & H & E)]; auto; right; exists y; split; auto; apply in_or_app; auto.
    + intros [H|(y & H & E)]; auto. apply in_app_or in H. destruct H; eauto.
Qed.

Lemma ext_todo s s' : ext s s' -> todo s' <= todo s.
Proof. intros A. apply filter_le. unfold fresh_at. intros y Hy H. apply valid_univ in Hy. rewrite <- (e_fresh _ _ A y Hy H). auto. Qed.

(** An assignment map [sg] fits a state: it agrees on every started attribute. *)
Definition agree (sg : inst -> option V) (s : state) : Prop := forall y, valid y -> st_started s (fst y) = true ->
  sg y = match stat s y with ASSIGNED => Some (value s y) | _ => None end.
Definition good sg (s : state) : Prop := forall y, valid y -> stat s y = EVALUATED -> den P sg y (value s y).
Definition noden sg y := forall v, ~ den P sg y v.

Lemma agree_back sg s s' : ext s s' -> agree sg s' -> agree sg s.
Proof.
  intros A H y Hy Hs. rewrite (H y Hy (e_started _ _ A _ Hs)).
  destruct (stat s y) eqn:E.
  all: try (destruct (stat s' y) eqn:E'; auto; apply (e_assigned _ _ A y Hy) in E'; congruence).
  assert (E' : stat s' y = ASSIGNED) by now apply (e_assigned _ _ A y Hy). rewrite E'. f_equal. now apply (e_avalue _ _ A y Hy).
Qed.

Definition allnr := forall x, no_raise (P x).
(** Every instance being computed (CYCLE) depends on [x], so lies strictly above it. *)
Definition above sg s x := forall y, valid y -> stat s y = CYCLE -> forall n, denE P sg n y -> exists m, m < n /\ denE P sg m x.
Definition above' sg s x := forall y, valid y -> stat s y = CYCLE -> forall n, denE P sg n y -> exists m, m <= n /\ denE P sg m x.
Definition pos sg s x := forall y, valid y -> stat s y = CYCLE -> reaches_cycle P sg y \/ clos_trans _ (needs P sg) y x.
Definition pos' sg s x := forall y, valid y -> stat s y = CYCLE -> reaches_cycle P sg y \/ y = x \/ clos_trans _ (needs P sg) y x.

Definition ok_result (s : state) (x : inst) (s' : state) (o : out V) : Prop :=
  ext s s' /\ st_started s' (fst x) = true /\
  ((exists v, o = Val v) \/ (exists e, o = Thrown e /\ (allnr -> e = Cyclic))) /\
  (forall v, o = Val v -> forall y, valid y -> stat s' y = CYCLE -> stat s y = CYCLE) /\
  (forall v, o = Val v -> (stat s' x = EVALUATED \/ stat s' x = ASSIGNED) /\ value s' x = v) /\
  forall sg, agree sg s' -> good sg s -> above sg s x ->
    good sg s' /\ (forall v, o = Val v -> den P sg x v) /\
    (forall e, o = Thrown e -> noden sg x /\ forall y, valid y -> stat s' y = CYCLE -> stat s y = CYCLE \/ noden sg y) /\
    (pos sg s x -> allnr -> forall e, o = Thrown e ->
       reaches_cycle P sg x /\ forall y, valid y -> stat s' y = CYCLE -> stat s y = CYCLE \/ reaches_cycle P sg y).

Definition ok_run (s : state) (x : inst) (c : comp V) (s' : state) (o : out V) : Prop :=
  ext s s' /\
  ((exists v, o = Val v) \/ (exists e, o = Thrown e /\ (allnr -> no_raise c -> e = Cyclic))) /\
  (forall v, o = Val v -> forall y, valid y -> stat s' y = CYCLE -> stat s y = CYCLE) /\
  forall sg, agree sg s' -> good sg s -> above' sg s x ->
    (forall n v, denh P sg n x v -> exists m, m < n /\ runsh P sg m c v) ->
    good sg s' /\ (forall v, o = Val v -> runs P sg c v) /\
    (forall e, o = Thrown e -> (forall v, ~ runs P sg c v) /\ forall y, valid y -> stat s' y = CYCLE -> stat s y = CYCLE \/ noden sg y) /\
    (pos' sg s x -> allnr -> (forall y, reach P sg c y -> needs P sg x y) -> no_raise c -> forall e, o = Thrown e ->
       reaches_cycle P sg x /\ forall y, valid y -> stat s' y = CYCLE -> stat s y = CYCLE \/ reaches_cycle P sg y).

Lemma run_ok fuel (IH : forall s x, wf s -> valid x -> todo s < fuel -> exists s' o, evaluate V vdef decl P fuel x s = (s', o) /\ ok_result s x s' o) :
  forall c s x, wf s -> valid x -> stat s x = CYCLE -> demands_ok valid c -> todo s < fuel ->
  exists s' o, run V (evaluate V vdef decl P fuel) c s = (s', o) /\ ok_run s x c s' o.
Proof.
  induction c as [v|y k IHk|e]; intros s x W Vx Cx D T; cbn [run].
  - exists s, (Val v). split; [reflexivity|]. split; [apply ext_same; auto using same_refl|]. ands; eauto.
    intros sg _ G _ _. ands; auto; try discriminate. intros v' E. injection E as <-. constructor.
  - cbn in D. destruct D as [Vy Dk]. destruct (IH s y W Vy T) as (s1 & o & E & X & St & K & C & _ & SG). rewrite E.
    destruct K as [(w & ->)|(e & -> & Hc)].
    + destruct (IHk w s1 x) as (s2 & o2 & E2 & X2 & K2 & C2 & SG2).
      * apply X.
      * auto.
      * apply (e_cycle _ _ X); auto.
      * apply Dk.
      * pose proof (ext_todo _ _ X). lia.
      * exists s2, o2. split; auto. unfold ok_run. ands.
        -- eapply ext_trans; eauto.
        -- destruct K2 as [?|(e & -> & He)]; auto. right. exists e. split; auto.
        -- intros v Ho z Vz Hz. eapply C; eauto.
        -- intros sg Ag G Ab Hh.
           destruct (SG sg (agree_back _ _ _ X2 Ag) G) as (G1 & Hv & _ & Hp).
           { intros z Vz Cz n Dn. destruct (Ab z Vz Cz n Dn) as (m & L & v & Dm). destruct (Hh m v Dm) as (m' & L' & R).
             inversion R; subst. exists m'. split; [lia|]. eexists; eauto. }
           specialize (Hv w eq_refl).
           destruct (SG2 sg Ag G1) as (G2 & Hv2 & He2 & Hp2).
           { intros z Vz Cz. apply Ab; auto. eapply C; eauto. }
           { intros n v Dn. destruct (Hh n v Dn) as (m & L & R). exists m. split; auto. inversion R; subst.
             assert (w = w0) by (eapply (proj1 (den_det P sg)); [exact Hv|eapply (proj1 (denh_den P sg)); eauto]). subst. auto. }
           ands; auto.
           ++ intros v Ho. eapply runs_demand; eauto.
           ++ intros e Ho. destruct (He2 e Ho) as [N1 N2]. split.
              ** intros v R. inversion R; subst. assert (w = w0) by (eapply (proj1 (den_det P sg)); eauto). subst. eapply N1; eauto.
              ** intros z Vz Cz. destruct (N2 z Vz Cz); auto. left. eapply C; eauto.
           ++ intros Ps NR Hr Nr e Ho. destruct (Hp2 ltac:(intros z Vz Cz; apply Ps; auto; eapply C; eauto) NR) with (e := e) as [R1 R2]; auto.
              ** intros z Rz. apply Hr. eapply reach_later; eauto.
              ** split; auto. intros z Vz Cz. destruct (R2 z Vz Cz); auto. left. eapply C; eauto.
    + exists s1, (Thrown e). split; auto. unfold ok_run. ands; auto.
      * right. exists e. split; auto.
      * intros sg Ag G Ab Hh. destruct (SG sg Ag G) as (G1 & _ & He & Hp).
        { intros z Vz Cz n Dn. destruct (Ab z Vz Cz n Dn) as (m & L & v & Dm). destruct (Hh m v Dm) as (m' & L' & R).
          inversion R; subst. exists m'. split; [lia|]. eexists; eauto. }
        destruct (He e eq_refl) as [N1 N2]. ands; auto; try discriminate.
        -- intros e' _. split; auto. intros v R. inversion R; subst. eapply N1; eauto.
        -- intros Ps NR Hr Nr e' _. destruct (Hp) with (e := e) as [R1 R2]; auto.
           { intros z Vz Cz. destruct (Ps z Vz Cz) as [?|[->|?]]; auto.
             - right. constructor. apply Hr. constructor.
             - right. eapply t_trans; eauto. constructor. apply Hr. constructor. }
           split; auto. destruct R1 as (q & Rq & Cq). exists q. split; auto. eapply rt_trans; eauto. constructor. apply Hr. constructor.
  - exists s, (Thrown e). split; [reflexivity|]. split; [apply ext_same; auto using same_refl|]. ands; auto; try discriminate.
    + right. exists e. split; auto. cbn. intros _ [].
    + intros sg _ G _ _. ands; auto; try discriminate.
      * intros e' _. split; auto. intros v R. inversion R.
      * cbn. intros _ _ _ [].
Qed.

Lemma evaluate_ok : forall fuel s x, wf s -> valid x -> todo s < fuel ->
  exists s' o, evaluate V vdef decl P fuel x s = (s', o) /\ ok_result s x s' o.
Proof.
  induction fuel as [|fuel IH]; intros s x W Vx T; [lia|].
  cbn [evaluate]. rewrite Hplain. pose proof Vx as (_ & Hp & _).
  destruct (prologue vdef decl P s x W Hp) as (s1 & W1 & I1 & S1 & V1 & St1 & L1 & C1 & In1 & F1 & E1).
  rewrite E1. clear E1.
  assert (X1 : ext s s1).
  { constructor; auto.
    - intros a H. rewrite St1, H. apply orb_true_r.
    - intros y _. rewrite S1. tauto.
    - intros y _ H. rewrite S1, V1. auto.
    - intros y _ H. rewrite S1. auto.
    - exists []. rewrite app_nil_r. ands; auto; [constructor|intros y []].
    - exists [x]. split; auto. intros a. rewrite St1, orb_true_iff, Nat.eqb_eq. split.
      + intros [<-|H]; auto. right. exists x. split; auto. left; auto.
      + intros [H|(y & [<-|[]] & <-)]; auto. }
  assert (Sx : st_started s1 (fst x) = true) by (rewrite St1, Nat.eqb_refl; auto).
  assert (Gd : forall sg, good sg s -> good sg s1) by (intros sg G y Vy; rewrite S1, V1; auto).
  assert (CASE : stat s x = CYCLE \/ fresh (stat s x) = true \/ (stat s x = EVALUATED \/ stat s x = ASSIGNED)) by (destruct (stat s x); auto).
  destruct CASE as [Cx|[Fx|Dx]].
  - (* a cycle *)
    rewrite Cx. unfold cycle_evaluate. rewrite Hplain. exists s1, (Thrown Cyclic). split; [reflexivity|]. unfold ok_result. ands; auto; try discriminate.
    + right. exists Cyclic. auto.
    + intros sg Ag G Ab. ands; auto; try discriminate.
      * intros e _. split.
        -- unfold noden. apply descent. intros n Dn. eapply Ab; eauto.
        -- intros y Vy. rewrite S1. auto.
      * intros Ps NR e _. split.
        -- destruct (Ps x Vx Cx) as [?|H]; auto. exists x. split; auto. apply rt_refl.
        -- intros y Vy. rewrite S1. auto.
  - (* compute *)
    destruct (put_status_ok vdef s1 x CYCLE W1 I1) as (s2 & E2 & W2 & S2 & V2 & St2 & L2 & C2 & In2 & F2).
    assert (R : match stat s x with
      | CYCLE => cycle_evaluate V vdef decl x s1
      | UNINITIALIZED | UNEVALUATED =>
        mbind V (put_status V x CYCLE) (fun _ => mbind V (compute V P (evaluate V vdef decl P fuel) x) (fun v =>
        mbind V (put_value V x v) (fun _ => mbind V (put_status V x EVALUATED) (fun _ => get V vdef decl x)))) s1
      | _ => (s1, Val (value s x)) end =
      mbind V (compute V P (evaluate V vdef decl P fuel) x) (fun v =>
        mbind V (put_value V x v) (fun _ => mbind V (put_status V x EVALUATED) (fun _ => get V vdef decl x))) s2).
    { destruct (stat s x); try discriminate; now rewrite (mbind_Val _ _ _ _ _ E2). }
    rewrite R. clear R.
    set (s3 := mkS V (attrs V s2) (pending V s2) (cap V s2) (epoch V s2) (num_checks V s2) (log V s2 ++ [x]) (calls V s2)).
    assert (E3 : compute V P (evaluate V vdef decl P fuel) x s2 = run V (evaluate V vdef decl P fuel) (P x) s3) by reflexivity.
    assert (W3 : wf s3) by (intros b; apply W2).
    assert (S3 : forall y, stat s3 y = if slot x y then CYCLE else stat s y) by (intros y; change (stat s3 y) with (stat s2 y); rewrite S2, S1; auto).
    assert (V3 : forall y, value s3 y = value s y) by (intros y; change (value s3 y) with (value s2 y); rewrite V2, V1; auto).
    assert (Cx3 : stat s3 x = CYCLE) by (rewrite S3, slot_refl; auto).
    assert (S3n : forall y, valid y -> y <> x -> stat s3 y = stat s y) by (intros y Vy N; rewrite S3, slot_neq; auto).
    assert (X3 : ext s s3).
    { assert (Q : forall y, valid y -> fresh (stat s y) = false -> stat s3 y = stat s y).
      { intros y Vy H. apply S3n; auto. intros ->. congruence. }
      constructor; auto.
      - intros a H. change (st_started s3 a) with (st_started s2 a). rewrite St2, St1, H. apply orb_true_r.
      - intros y Vy. rewrite S3. destruct (slot x y) eqn:Sl; [|tauto]. apply slot_eq in Sl; auto. subst y. split; [intros H; rewrite H in Fx|]; discriminate.
      - intros y Vy H. rewrite V3. rewrite Q; auto. rewrite H; auto.
      - intros y Vy H. rewrite Q; auto. rewrite H; auto.
      - intros y Vy H. rewrite S3 in *. destruct (slot x y); [discriminate|auto].
      - intros y Vy H. apply S3n; auto. intros ->. change (st_started s3 (fst x)) with (st_started s2 (fst x)) in H. rewrite St2, Sx in H. discriminate.
      - intros y H. apply In2, In1; auto.
      - eapply frame_trans; [exact F1|]. eapply frame_trans; [exact F2|]. constructor; auto.
      - exists [x]. ands.
        + cbn. now rewrite L2, L1.
        + constructor; [intros []|constructor].
        + intros y [<-|[]]. ands; auto; rewrite Cx3; auto; discriminate.
      - destruct (e_calls _ _ X1) as (l & El & Hl). exists l. split; [cbn; now rewrite C2|]. intros a. change (st_started s3 a) with (st_started s2 a). rewrite St2. auto. }
    assert (T3 : todo s3 < fuel).
    { assert (todo s3 < todo s); [|lia]. apply filter_lt with (x := x).
      - intros y Hy H. apply valid_univ in Hy. unfold fresh_at in *. rewrite <- (e_fresh _ _ X3 y Hy H). auto.
      - now apply valid_univ.
      - unfold fresh_at. now rewrite Cx3.
      - auto. }
    destruct (run_ok fuel IH (P x) s3 x W3 Vx Cx3 (Hdem x Vx) T3) as (s4 & o & E4 & X4 & K4 & C4 & SG4).
    rewrite <- E3 in E4.
    assert (Cx4 : stat s4 x = CYCLE) by (apply (e_cycle _ _ X4 x Vx Cx3)).
    assert (I4 : inb s4 x). { apply (e_inb _ _ X4). apply In2. auto. }
    assert (St4 : st_started s4 (fst x) = true). { apply (e_started _ _ X4). change (st_started s3 (fst x)) with (st_started s2 (fst x)). rewrite St2; auto. }
    assert (GC : forall sg, agree sg s4 -> good sg s -> above sg s x ->
      sg x = None /\ good sg s3 /\ above' sg s3 x /\ (forall n v, denh P sg n x v -> exists m, m < n /\ runsh P sg m (P x) v)).
    { intros sg Ag G Ab. assert (Nx : sg x = None) by (rewrite (Ag x Vx St4), Cx4; auto). ands; auto.
      - intros y Vy. rewrite S3, V3. destruct (slot x y); [discriminate|auto].
      - intros y Vy Cy n Dn. destruct (classic_eq y x) as [->|N].
        + exists n. auto.
        + rewrite S3n in Cy by auto. destruct (Ab y Vy Cy n Dn) as (m & L & H). exists m. split; auto. lia.
      - intros n v D. inversion D; subst; [congruence|]. exists n0. split; auto. }
    assert (PC : forall sg, agree sg s4 -> pos sg s x -> pos' sg s3 x /\ (forall y, reach P sg (P x) y -> needs P sg x y)).
    { intros sg Ag Ps. split.
      - intros y Vy Cy. destruct (classic_eq y x) as [->|N]; auto. rewrite S3n in Cy by auto. destruct (Ps y Vy Cy); auto.
      - intros y H. split; auto. rewrite (Ag x Vx St4), Cx4; auto. }
    destruct K4 as [(v & ->)|(e & -> & He)].
    + rewrite (mbind_Val _ _ _ _ _ E4).
      destruct (put_value_ok vdef s4 x v (e_wf _ _ X4) I4) as (s5 & E5 & W5 & S5 & V5 & St5 & L5 & C5 & In5 & F5).
      rewrite (mbind_Val _ _ _ _ _ E5).
      destruct (put_status_ok vdef s5 x EVALUATED W5 (In5 _ I4)) as (s6 & E6 & W6 & S6 & V6 & St6 & L6 & C6 & In6 & F6).
      rewrite (mbind_Val _ _ _ _ _ E6).
      assert (Sx6 : stat s6 x = EVALUATED) by (rewrite S6, slot_refl; auto).
      rewrite get_eval_ok; auto; [|rewrite Sx6; discriminate].
      assert (Vx6 : value s6 x = v) by (rewrite V6, V5, slot_refl; auto). rewrite Vx6.
      exists s6, (Val v). split; auto.
      assert (S6n : forall y, valid y -> y <> x -> stat s6 y = stat s4 y) by (intros y Vy N; rewrite S6, slot_neq, S5; auto).
      assert (V6n : forall y, valid y -> y <> x -> value s6 y = value s4 y) by (intros y Vy N; rewrite V6, V5, slot_neq; auto).
      assert (X6 : ext s s6).
      { pose proof (ext_trans _ _ _ X3 X4) as X.
        assert (Q : forall y, valid y -> fresh (stat s y) = false -> stat s6 y = stat s4 y /\ value s6 y = value s4 y).
        { intros y Vy H. assert (y <> x) by (intros ->; congruence). split; auto. }
        constructor; auto.
        - intros a H. rewrite St6, St5. apply (e_started _ _ X); auto.
        - intros y Vy. destruct (classic_eq y x) as [->|N].
          + rewrite Sx6. split; [intros H; rewrite H in Fx|]; discriminate.
          + rewrite S6n by auto. apply (e_assigned _ _ X y Vy).
        - intros y Vy H. destruct (Q y Vy) as [_ ->]; [rewrite H; auto|]. now apply (e_avalue _ _ X).
        - intros y Vy H. destruct (Q y Vy) as [-> ->]; [rewrite H; auto|]. now apply (e_eval _ _ X).
        - intros y Vy H. destruct (Q y Vy) as [-> _]; [rewrite H; auto|]. now apply (e_cycle _ _ X).
        - intros y Vy H. destruct (classic_eq y x) as [->|N]; [rewrite Sx6 in H; discriminate|]. rewrite S6n in * by auto. now apply (e_fresh _ _ X).
        - intros y Vy H. destruct (classic_eq y x) as [->|N]; [rewrite St6, St5, St4 in H; discriminate|]. rewrite S6n by auto.
          apply (e_quiet _ _ X); auto. rewrite St6, St5 in H. auto.
        - intros y H. apply In6, In5, (e_inb _ _ X); auto.
        - eapply frame_trans; [apply (e_frame _ _ X)|]. eapply frame_trans; eauto.
        - destruct (e_log _ _ X) as (l & El & Nl & Hl). exists l. rewrite L6, L5. ands; auto. intros y Hy. destruct (Hl y Hy) as (Vy & H1 & H2 & H3).
          destruct (classic_eq y x) as [->|N]; [rewrite Sx6; ands; auto; discriminate|]. rewrite S6n by auto. auto.
        - destruct (e_calls _ _ X) as (l & El & Hl). exists l. rewrite C6, C5. split; auto. intros a. rewrite St6, St5. auto. }
      unfold ok_result. ands; eauto.
      * intros w _ y Vy Cy. destruct (classic_eq y x) as [->|N]; [congruence|]. rewrite S6n in Cy by auto.
        rewrite <- S3n by auto. eapply C4; eauto.
      * intros w Hw. injection Hw as <-. auto.
      * intros sg Ag G Ab.
        assert (Ag4 : agree sg s4).
        { intros y Vy Hs. specialize (Ag y Vy ltac:(rewrite St6, St5; auto)). destruct (classic_eq y x) as [->|N].
          - rewrite Sx6 in Ag. rewrite Cx4. auto.
          - rewrite S6n, V6n in Ag by auto. auto. }
        destruct (GC sg Ag4 G Ab) as (Nx & G3 & Ab3 & Hh).
        destruct (SG4 sg Ag4 G3 Ab3 Hh) as (G4 & Hv & _ & _). 
        assert (Dx : den P sg x v) by (apply den_computed; auto).
        ands; try discriminate.
        -- intros y Vy. destruct (classic_eq y x) as [->|N]; [rewrite Vx6; auto|]. rewrite S6n, V6n by auto. apply G4; auto.
        -- intros w Hw. injection Hw as <-. auto.
    + rewrite (mbind_Thrown _ _ _ _ _ E4). exists s4, (Thrown e). split; auto. unfold ok_result. ands; auto; try discriminate.
      * eapply ext_trans; eauto.
      * right. exists e. split; auto.
      * intros sg Ag G Ab. destruct (GC sg Ag G Ab) as (Nx & G3 & Ab3 & Hh).
        destruct (SG4 sg Ag G3 Ab3 Hh) as (G4 & _ & He4 & Hp4). destruct (He4 e eq_refl) as [N1 N2].
        assert (Nd : noden sg x). { intros v D. inversion D; subst; [congruence|]. eapply N1; eauto. }
        ands; auto; try discriminate.
        -- intros e' _. split; auto. intros y Vy Cy. destruct (N2 y Vy Cy) as [H|H]; auto.
           destruct (classic_eq y x) as [->|N]; auto. left. rewrite <- S3n; auto.
        -- intros Ps NR e' _. destruct (PC sg Ag Ps) as [Ps' Hr]. destruct (Hp4 Ps' NR Hr (NR x) e eq_refl) as [R1 R2]. split; auto.
           intros y Vy Cy. destruct (R2 y Vy Cy) as [H|H]; auto. destruct (classic_eq y x) as [->|N]; auto. left. rewrite <- S3n; auto.
  - (* already there *)
    assert (R : match stat s x with
      | CYCLE => cycle_evaluate V vdef decl x s1
      | UNINITIALIZED | UNEVALUATED =>
        mbind V (put_status V x CYCLE) (fun _ => mbind V (compute V P (evaluate V vdef decl P fuel) x) (fun v =>
        mbind V (put_value V x v) (fun _ => mbind V (put_status V x EVALUATED) (fun _ => get V vdef decl x)))) s1
      | _ => (s1, Val (value s x)) end = (s1, Val (value s x))) by (destruct Dx as [-> | ->]; auto).
    rewrite R. exists s1, (Val (value s x)). split; auto. unfold ok_result. ands; eauto; try discriminate.
    + intros v _ y Vy. rewrite S1; auto.
    + intros v H. injection H as <-. rewrite S1, V1. auto.
    + intros sg Ag G Ab. ands; auto; try discriminate. intros v H. injection H as <-.
      destruct Dx as [Dx|Dx]; auto. apply den_assigned. rewrite (Ag x Vx Sx), S1, Dx, V1. auto.
Qed.
End E.
