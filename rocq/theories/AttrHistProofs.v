(** * AttrHistProofs: whole histories of client calls. *)
From Verif Require Import Base AttrModel AttrSpec AttrProofs AttrEvalProofs.

Section H.
Context {V : Type} (vdef : V) (decl : nat -> attr_decl V) (P : inst -> comp V) (psize : nat -> nat) (natt : nat).
Hypothesis Hplain : forall a, circ V (decl a) = None.
Hypothesis Hcoll : forall a, coll V (decl a) = None.
Notation stat := (AttrModel.stat V). Notation value := (AttrModel.value V vdef).
Notation state := (AttrModel.state V).
Notation valid := (valid decl psize natt).
Notation univ := (instances decl psize natt).
Notation ext := (ext vdef decl psize natt).
Notation agree := (agree vdef decl psize natt).
Notation good := (good vdef decl P psize natt).
Notation noden := (noden P).
Hypothesis Hdem : forall x, valid x -> demands_ok valid (P x).

(** The arrays never grow beyond the phylum. *)
Definition len (s : state) (a : nat) : nat := length (values V (attrs V s a)).
Definition lenle (s s' : state) : Prop := forall a, len s' a <= Nat.max (len s a) (psize (dphylum V (decl a))).
Definition lp {A} (m : M V A) : Prop := forall s, lenle s (fst (m s)).
Lemma lenle_refl s : lenle s s. Proof. intros a. lia. Qed.
Lemma lenle_trans s1 s2 s3 : lenle s1 s2 -> lenle s2 s3 -> lenle s1 s3.
Proof. intros A B a. specialize (A a); specialize (B a). lia. Qed.
Lemma lp_bind {A B} (m : M V A) (f : A -> M V B) : lp m -> (forall a, lp (f a)) -> lp (mbind V m f).
Proof.
  intros Hm Hf s. unfold mbind. specialize (Hm s). destruct (m s) as [s1 [a|e| |]]; cbn in *; auto.
  eapply lenle_trans; [exact Hm|apply Hf].
Qed.
Lemma lp_id {A} (m : M V A) : (forall s a, attrs V (fst (m s)) a = attrs V s a) -> lp m.
Proof. intros H s a. unfold len. rewrite H. lia. Qed.
Lemma lp_upd {A} (m : M V A) b : (forall s, length (values V (attrs V (fst (m s)) b)) = length (values V (attrs V s b))) ->
  (forall s a, a <> b -> attrs V (fst (m s)) a = attrs V s a) -> lp m.
Proof. intros H1 H2 s a. unfold len. destruct (Nat.eq_dec a b) as [->|N]; [rewrite H1|rewrite H2 by auto]; lia. Qed.
Lemma lp_put_value x v : lp (put_value V x v).
Proof.
  apply lp_upd with (b := fst x); intros s; unfold put_value; cbn; unfold fupd; [rewrite Nat.eqb_refl; cbn; apply upd_length|].
  intros a N. destruct (Nat.eqb_spec (fst x) a); congruence.
Qed.
Lemma lp_put_status x v : lp (put_status V x v).
Proof.
  apply lp_upd with (b := fst x); intros s; unfold put_status; cbn; unfold fupd; [rewrite Nat.eqb_refl; auto|].
  intros a N. destruct (Nat.eqb_spec (fst x) a); congruence.
Qed.
Lemma lp_set_started a : lp (set_started V a).
Proof.
  apply lp_upd with (b := a); intros s; unfold set_started; cbn; unfold fupd; [rewrite Nat.eqb_refl; auto|].
  intros b N. destruct (Nat.eqb_spec a b); congruence.
Qed.
Lemma lp_check x : valid x -> lp (check_phylum V vdef decl x).
Proof.
  intros (_ & Hp & Hi) s a. unfold check_phylum. rewrite Hp, Nat.eqb_refl. cbn [negb]. destruct (_ <=? _) eqn:E; cbn; [|lia].
  unfold len. cbn. unfold fupd. destruct (Nat.eqb_spec (fst x) a) as [<-|N]; [|lia]. cbn. rewrite resize_length. rewrite Hp in Hi. lia.
Qed.
Lemma lp_ret {A} (a : A) : lp (ret V a). Proof. apply lp_id; auto. Qed.
Lemma lp_throw {A} e : lp (@throw V A e). Proof. apply lp_id; auto. Qed.
Lemma lp_get x : valid x -> lp (get V vdef decl x).
Proof.
  intros Vx. unfold get. apply lp_bind; [now apply lp_check|intros _]. apply lp_bind; [apply lp_id; auto|intros st].
  apply lp_bind; [|intros _; apply lp_id; auto]. destruct st; try apply lp_ret. apply lp_bind.
  - unfold get_default. rewrite Hcoll. apply lp_throw.
  - intros d. apply lp_bind; [apply lp_put_value|intros _; apply lp_put_status].
Qed.
Lemma lp_evaluate : forall fuel x, valid x -> lp (evaluate V vdef decl P fuel x).
Proof.
  induction fuel as [|fuel IH]; intros x Vx; [apply lp_id; auto|].
  assert (R : forall c, demands_ok valid c -> lp (run V (evaluate V vdef decl P fuel) c)).
  { induction c as [v|y k IHc|e]; cbn [demands_ok run]; [intros _; apply lp_ret| |intros _; apply lp_throw].
    intros [Vy Hk]. refine (lp_bind (evaluate V vdef decl P fuel y) (fun v => run V (evaluate V vdef decl P fuel) (k v)) (IH y Vy) _). auto. }
  assert (A : lp (attribute_evaluate V vdef decl P (evaluate V vdef decl P fuel) x)).
  { unfold attribute_evaluate. apply lp_bind; [now apply lp_check|intros _]. apply lp_bind; [apply lp_id; auto|intros _].
    apply lp_bind; [apply lp_set_started|intros _]. apply lp_bind; [apply lp_id; auto|intros st].
    assert (C : lp (mbind V (put_status V x CYCLE) (fun _ => mbind V (compute V P (evaluate V vdef decl P fuel) x) (fun v =>
        mbind V (put_value V x v) (fun _ => mbind V (put_status V x EVALUATED) (fun _ => get V vdef decl x)))))).
    { apply lp_bind; [apply lp_put_status|intros _]. apply lp_bind; [|intros v; apply lp_bind; [apply lp_put_value|intros _; apply lp_bind; [apply lp_put_status|intros _; now apply lp_get]]].
      unfold compute. apply lp_bind; [apply lp_id; auto|intros _]. apply R. auto. }
    destruct st; auto using lp_get. unfold cycle_evaluate. rewrite Hplain. apply lp_throw. }
  intros s. cbn [evaluate]. rewrite Hplain. apply A.
Qed.
Definition fits (s : state) : Prop := forall a, len s a <= psize (dphylum V (decl a)).
Lemma lenle_fits s s' : lenle s s' -> fits s -> fits s'.
Proof. intros L F a. specialize (L a); specialize (F a). lia. Qed.
Lemma lp_fits {A} (m : M V A) s s' r : lp m -> m s = (s', r) -> fits s -> fits s'.
Proof. intros L E. apply lenle_fits. specialize (L s). now rewrite E in L. Qed.

Definition done (st : status) : Prop := st = EVALUATED \/ st = ASSIGNED.

Definition ready (s : state) (y : inst) : Prop := done (stat s y) /\ st_started s (fst y) = true.

Record idle (s : state) : Prop := {
  i_wf : wf s;
  i_fits : fits s;
  i_good : forall sg, agree sg s -> good sg s;
  i_stuck : forall sg, agree sg s -> forall y, valid y -> stat s y = CYCLE -> noden sg y /\ (allnr P -> reaches_cycle P sg y);
  i_quiet : forall y, valid y -> st_started s (fst y) = false -> fresh (stat s y) = true \/ stat s y = ASSIGNED;
  i_nodup : NoDup (log V s);
  i_log : forall y, In y (log V s) -> valid y /\ fresh (stat s y) = false /\ stat s y <> ASSIGNED;
  i_calls : forall a, st_started s a = true <-> exists y, In y (calls V s) /\ fst y = a;
  i_complete : forall a y, complete V (attrs V s a) = true -> valid y -> fst y = a -> ready s y }.

Definition agreeF (sg : inst -> option V) (s : state) : Prop := forall y, valid y ->
  sg y = match stat s y with ASSIGNED => Some (value s y) | _ => None end.
Lemma agreeF_agree sg s : agreeF sg s -> agree sg s.
Proof. intros H y Vy _. auto. Qed.

Lemma ext_agreeF sg s s' : ext s s' -> agreeF sg s -> agreeF sg s'.
Proof.
  intros X H y Vy. rewrite (H y Vy). destruct (stat s y) eqn:E.
  all: try (destruct (stat s' y) eqn:E'; auto; apply (e_assigned _ _ _ _ _ _ X y Vy) in E'; congruence).
  assert (E' : stat s' y = ASSIGNED) by now apply (e_assigned _ _ _ _ _ _ X y Vy). rewrite E'. f_equal. symmetry. now apply (e_avalue _ _ _ _ _ _ X y Vy).
Qed.

Lemma ext_done s s' y : ext s s' -> valid y -> ready s y -> ready s' y.
Proof.
  intros X Vy [[H|H] St]; (split; [|now apply X]).
  - left. now apply (e_eval _ _ _ _ _ _ X).
  - right. now apply (e_assigned _ _ _ _ _ _ X).
Qed.

Definition answer_ok sg x (r : out V) : Prop :=
  (exists v, r = Val v /\ den P sg x v) \/
  (exists e, r = Thrown e /\ noden sg x /\ (allnr P -> e = Cyclic /\ reaches_cycle P sg x)).

Lemma top_evaluate fuel s x : idle s -> valid x -> length univ < fuel ->
  exists s' r, evaluate V vdef decl P fuel x s = (s', r) /\ idle s' /\ ext s s' /\ st_started s' (fst x) = true /\
    (forall sg, agree sg s' -> answer_ok sg x r) /\ (forall v, r = Val v -> ready s' x).
Proof.
  intros I Vx F. pose proof (todo_le decl psize natt s) as T.
  destruct (evaluate_ok vdef decl P psize natt Hplain Hdem fuel s x (i_wf _ I) Vx ltac:(lia)) as (s' & r & E & X & St & K & C & D & SG).
  exists s', r. split; auto.
  assert (Ab : forall sg, agree sg s' -> above decl P psize natt sg s x).
  { intros sg Ag y Vy Cy n (v & Dn). exfalso. destruct (i_stuck _ I sg (agree_back _ _ _ _ _ _ _ X Ag) y Vy Cy) as [N _].
    apply (N v). eapply (proj1 (denh_den P sg)). eauto. }
  assert (Ps : allnr P -> forall sg, agree sg s' -> pos decl P psize natt sg s x).
  { intros NR sg Ag y Vy Cy. left. destruct (i_stuck _ I sg (agree_back _ _ _ _ _ _ _ X Ag) y Vy Cy); auto. }
  assert (SG' : forall sg, agree sg s' -> good sg s' /\ answer_ok sg x r /\ forall y, valid y -> stat s' y = CYCLE -> noden sg y /\ (allnr P -> reaches_cycle P sg y)).
  { intros sg Ag. pose proof (agree_back _ _ _ _ _ _ _ X Ag) as Ag0.
    destruct (SG sg Ag (i_good _ I sg Ag0) (Ab sg Ag)) as (G & Hv & He & Hp). ands; auto.
    - destruct K as [(v & ->)|(e & -> & Hc)].
      + left. exists v. auto.
      + right. exists e. destruct (He e eq_refl) as [N _]. ands; auto. intros NR. split; auto. eapply Hp; eauto.
    - intros y Vy Cy. destruct K as [(v & ->)|(e & -> & Hc)].
      + pose proof (C v eq_refl y Vy Cy) as Cy0. apply (i_stuck _ I sg Ag0 y Vy Cy0).
      + destruct (He e eq_refl) as [_ N]. split.
        * destruct (N y Vy Cy) as [H|H]; auto. apply (i_stuck _ I sg Ag0 y Vy H).
        * intros NR. destruct (Hp (Ps NR sg Ag) NR e eq_refl) as [_ R]. destruct (R y Vy Cy) as [H|H]; auto. apply (i_stuck _ I sg Ag0 y Vy H); auto. }
  ands; auto.
  - constructor.
    + apply X.
    + eapply lp_fits; [apply lp_evaluate; exact Vx|exact E|apply I].
    + intros sg Ag. apply SG'; auto.
    + intros sg Ag. apply SG'; auto.
    + intros y Vy Hs. rewrite (e_quiet _ _ _ _ _ _ X y Vy Hs). apply (i_quiet _ I y Vy).
      destruct (st_started s (fst y)) eqn:E1; auto. rewrite (e_started _ _ _ _ _ _ X _ E1) in Hs. discriminate.
    + destruct (e_log _ _ _ _ _ _ X) as (l & El & Nl & Hl). rewrite El.
      assert (DJ : forall y, In y (log V s) -> In y l -> False).
      { intros y H1 H2. destruct (i_log _ I y H1) as (_ & H3 & _). destruct (Hl y H2) as (_ & H4 & _). congruence. }
      pose proof (i_nodup _ I) as N0. clear -N0 Nl DJ. induction N0 as [|a l0 Ha N0 IH]; cbn; auto. constructor.
      * intros H. apply in_app_or in H. destruct H; auto. eapply DJ; eauto. left; auto.
      * apply IH. intros y Hy. apply DJ. right; auto.
    + destruct (e_log _ _ _ _ _ _ X) as (l & El & Nl & Hl). rewrite El. intros y Hy. apply in_app_or in Hy. destruct Hy as [Hy|Hy].
      * destruct (i_log _ I y Hy) as (Vy & H1 & H2). ands; auto.
        -- destruct (stat s y) eqn:Es; try discriminate; try congruence.
           ++ now rewrite (e_cycle _ _ _ _ _ _ X y Vy Es).
           ++ destruct (e_eval _ _ _ _ _ _ X y Vy Es) as [-> _]. auto.
        -- intros H. apply H2. now apply (e_assigned _ _ _ _ _ _ X y Vy).
      * destruct (Hl y Hy) as (? & ? & ? & ?). auto.
    + destruct (e_calls _ _ _ _ _ _ X) as (l & El & Hl). rewrite El. intros a. rewrite Hl, (i_calls _ I). split.
      * intros [(y & H & E1)|(y & H & E1)]; exists y; split; auto; apply in_or_app; auto.
      * intros (y & H & E1). apply in_app_or in H. destruct H; eauto.
    + intros a y Hc Vy E1. rewrite (f_complete _ _ (e_frame _ _ _ _ _ _ X)) in Hc. eapply ext_done; eauto. eapply (i_complete _ I); eauto.
  - intros sg Ag. apply SG'; auto.
  - intros v Hv. split; auto. apply (D v Hv).
Qed.

Lemma idle_same s s' : idle s -> same vdef s s' -> fits s' -> idle s'.
Proof.
  intros I S Fi.
  assert (AG : forall sg, agree sg s' -> agree sg s).
  { intros sg Ag y Vy Hs. specialize (Ag y Vy). rewrite (sm_started _ _ _ S), (sm_stat _ _ _ S), (sm_value _ _ _ S) in Ag. auto. }
  constructor.
  - apply (sm_wf _ _ _ S), I.
  - exact Fi.
  - intros sg Ag y Vy. rewrite (sm_stat _ _ _ S), (sm_value _ _ _ S). apply (i_good _ I sg); auto.
  - intros sg Ag y Vy. rewrite (sm_stat _ _ _ S). apply (i_stuck _ I sg); auto.
  - intros y Vy. rewrite (sm_stat _ _ _ S), (sm_started _ _ _ S). apply (i_quiet _ I y Vy).
  - rewrite (sm_log _ _ _ S). apply I.
  - intros y. rewrite (sm_log _ _ _ S), (sm_stat _ _ _ S). apply I.
  - intros a. rewrite (sm_calls _ _ _ S), (sm_started _ _ _ S). apply I.
  - intros a y. unfold ready. rewrite (f_complete _ _ (sm_frame _ _ _ S)), (sm_stat _ _ _ S), (sm_started _ _ _ S). apply (i_complete _ I).
Qed.

Lemma evaluate_all_ok fuel a : a < natt -> length univ < fuel -> forall is s, idle s ->
  (forall i, In i is -> i < psize (dphylum V (decl a))) ->
  exists s' r, evaluate_all V vdef decl P fuel a (dphylum V (decl a)) is s = (s', r) /\ idle s' /\ ext s s' /\
    ((r = Val tt /\ forall i, In i is -> ready s' (a, mkNode (dphylum V (decl a)) i)) \/
     (exists e i, r = Thrown e /\ In i is /\ forall sg, agree sg s' -> noden sg (a, mkNode (dphylum V (decl a)) i))).
Proof.
  intros Ha F. induction is as [|i is IH]; intros s I Hi; cbn [evaluate_all].
  - exists s, (Val tt). ands; auto; [apply ext_same; [apply I|apply same_refl]|]. left. split; auto. intros i [].
  - assert (Vx : valid (a, mkNode (dphylum V (decl a)) i)) by (unfold AttrSpec.valid; cbn; ands; auto; apply Hi; left; auto).
    destruct (top_evaluate fuel s _ I Vx F) as (s1 & r & E & I1 & X1 & _ & A1 & D1).
    destruct r as [v|e| |].
    + rewrite (mbind_Val _ _ _ _ _ E). destruct (IH s1 I1) as (s2 & r2 & E2 & I2 & X2 & R2); [intros j Hj; apply Hi; right; auto|].
      exists s2, r2. ands; auto.
      * eapply ext_trans; eauto.
      * destruct R2 as [[-> H]|(e & j & -> & Hj & H)].
        -- left. split; auto. intros j [<-|Hj]; auto. eapply ext_done; eauto.
        -- right. exists e, j. ands; auto. right; auto.
    + rewrite (mbind_Thrown _ _ _ _ _ E). exists s1, (Thrown e). ands; auto. right. exists e, i. ands; auto; [left; auto|].
      intros sg Ag. destruct (A1 sg Ag) as [(v & H & _)|(e' & H & N & _)]; [discriminate|auto].
    + exfalso. destruct (A1 (fun y => match stat s1 y with ASSIGNED => Some (value s1 y) | _ => None end)) as [(v & H & _)|(e & H & _)]; try discriminate.
      intros y Vy _. auto.
    + exfalso. destruct (A1 (fun y => match stat s1 y with ASSIGNED => Some (value s1 y) | _ => None end)) as [(v & H & _)|(e & H & _)]; try discriminate.
      intros y Vy _. auto.
Qed.

Definition finish_ok sg a (r : out unit) : Prop :=
  (r = Val tt /\ forall y, valid y -> fst y = a -> exists v, den P sg y v) \/
  (exists e y, r = Thrown e /\ valid y /\ fst y = a /\ noden sg y).

Lemma done_den s sg y : idle s -> agree sg s -> valid y -> ready s y -> exists v, den P sg y v.
Proof.
  intros I Ag Vy [[H|H] Hs].
  - exists (value s y). apply (i_good _ I sg Ag y Vy H).
  - exists (value s y). apply den_assigned. rewrite (Ag y Vy Hs), H. auto.
Qed.

(** Assigned but never evaluated instances of an attribute that is complete: *)
Lemma set_complete_ok s a : idle s -> (forall y, valid y -> fst y = a -> ready s y) ->
  exists s', set_complete V a s = (s', Val tt) /\ idle s' /\ (forall y, stat s' y = stat s y) /\ (forall y, value s' y = value s y) /\
    (forall b, st_started s' b = st_started s b) /\ log V s' = log V s /\ calls V s' = calls V s.
Proof.
  intros I Hd. unfold set_complete. eexists. split; [reflexivity|]. set (s' := set_attr _ _ _ _).
  assert (S' : forall y, stat s' y = stat s y).
  { intros y. unfold AttrModel.stat, s'. cbn. unfold fupd. destruct (Nat.eqb_spec a (fst y)) as [E|N]; cbn; auto. now rewrite E. }
  assert (V' : forall y, value s' y = value s y).
  { intros y. unfold AttrModel.value, s'. cbn. unfold fupd. destruct (Nat.eqb_spec a (fst y)) as [E|N]; cbn; auto. now rewrite E. }
  assert (St' : forall b, st_started s' b = st_started s b).
  { intros b. unfold st_started, s'. cbn. unfold fupd. destruct (Nat.eqb_spec a b) as [E|N]; cbn; auto. now rewrite E. }
  assert (AG : forall sg, agree sg s' -> agree sg s).
  { intros sg Ag y Vy Hs. specialize (Ag y Vy). rewrite St', S', V' in Ag. auto. }
  ands; auto. constructor.
  - intros b. unfold s'. cbn. unfold fupd. destruct (Nat.eqb_spec a b); cbn; apply I.
  - intros b. unfold len, s'. cbn. unfold fupd. destruct (Nat.eqb_spec a b) as [<-|]; cbn; apply (i_fits _ I).
  - intros sg Ag y Vy. rewrite S', V'. apply (i_good _ I sg); auto.
  - intros sg Ag y Vy. rewrite S'. apply (i_stuck _ I sg); auto.
  - intros y Vy. rewrite S', St'. apply (i_quiet _ I y Vy).
  - apply I.
  - intros y. rewrite S'. apply I.
  - intros b. rewrite St'. apply I.
  - intros b y. unfold ready. rewrite S', St'. unfold s'. cbn. unfold fupd. destruct (Nat.eqb_spec a b) as [E|N]; cbn.
    + subst b. intros _ Vy Ey. apply (Hd y Vy Ey).
    + apply (i_complete _ I).
Qed.

(** One client call. *)
Definition step_ok (s : state) (o : op V) (s' : state) (r : answer V) : Prop :=
  idle s' /\ (forall sg, agree sg s' -> agree sg s) /\ (forall sg0, agreeF sg0 s -> agreeF (assigned [o] [r] sg0) s') /\
  (forall a, st_started s a = true -> st_started s' a = true) /\
  match o with
  | Evaluate _ x => exists ro, r = Value V ro /\ (forall sg, agree sg s' -> answer_ok sg x ro) /\ st_started s' (fst x) = true
  | Finish _ a => exists ro, r = Unit V ro /\ forall sg, agree sg s' -> finish_ok sg a ro
  | Assign _ x v => if st_started s (fst x) then s' = s /\ r = Unit V (Thrown TooLate)
                    else r = Unit V (Val tt) /\ stat s' x = ASSIGNED /\ value s' x = v /\ log V s' = log V s /\ calls V s' = calls V s
  | _ => True
  end.

Lemma inst_eqb_spec x y : inst_eqb x y = true <-> x = y.
Proof.
  destruct x as [a [p i]], y as [b [q j]]. unfold inst_eqb, node_eqb. cbn. rewrite !andb_true_iff, !Nat.eqb_eq. split.
  - intros (-> & -> & ->). auto.
  - intros H. inversion H. auto.
Qed.

Lemma step_step_ok fuel s o : length univ < fuel -> idle s -> demand_op decl psize natt o ->
  exists s' r, step V vdef decl P psize fuel s o = (s', r) /\ step_ok s o s' r.
Proof.
  intros F I Do. destruct o as [x v|x|a|x v|x]; cbn in Do; try tauto; cbn [step].
  - (* Assign *)
    unfold assign. change (started V (attrs V s (fst x))) with (st_started s (fst x)).
    destruct (st_started s (fst x)) eqn:Hs.
    + exists s, (Unit V (Thrown TooLate)). split; auto. unfold step_ok. ands; auto. rewrite Hs. auto.
    + unfold set. rewrite Hcoll. unfold attribute_set. pose proof Do as (_ & Hp & _).
      destruct (check_phylum_ok vdef decl s x (i_wf _ I) Hp) as (s1 & E1 & S1 & I1). rewrite (mbind_Val _ _ _ _ _ E1).
      pose proof (idle_same _ _ I S1 (lp_fits _ _ _ _ (lp_check x Do) E1 (i_fits _ I))) as Id1.
      destruct (put_value_ok vdef s1 x v (i_wf _ Id1) I1) as (s2 & E2 & W2 & S2 & V2 & St2 & L2 & C2 & In2 & F2).
      rewrite (mbind_Val _ _ _ _ _ E2).
      destruct (put_status_ok vdef s2 x ASSIGNED W2 (In2 _ I1)) as (s3 & E3 & W3 & S3 & V3 & St3 & L3 & C3 & In3 & F3).
      rewrite E3. exists s3, (Unit V (Val tt)). split; auto.
      assert (ST : forall a, st_started s3 a = st_started s a) by (intros a; rewrite St3, St2; apply (sm_started _ _ _ S1)).
      assert (SS : forall y, stat s3 y = if slot x y then ASSIGNED else stat s y) by (intros y; rewrite S3, S2, (sm_stat _ _ _ S1); auto).
      assert (VV : forall y, value s3 y = if slot x y then v else value s y) by (intros y; rewrite V3, V2, (sm_value _ _ _ S1); auto).
      assert (SF : forall y, slot x y = true -> st_started s (fst y) = false) by (intros y Sl; rewrite <- (slot_fst _ _ Sl); auto).
      assert (AG : forall sg, agree sg s3 -> agree sg s).
      { intros sg Ag y Vy Hy. specialize (Ag y Vy). rewrite ST, SS, VV in Ag. destruct (slot x y) eqn:Sl; auto.
        rewrite (SF y Sl) in Hy. discriminate. }
      unfold step_ok. ands; auto.
      * constructor; auto.
        -- apply (lp_fits _ _ _ _ (lp_put_status x ASSIGNED) E3). apply (lp_fits _ _ _ _ (lp_put_value x v) E2). apply Id1.
        -- intros sg Ag y Vy. rewrite SS, VV. destruct (slot x y) eqn:Sl; [discriminate|]. apply (i_good _ I sg); auto.
        -- intros sg Ag y Vy. rewrite SS. destruct (slot x y) eqn:Sl; [discriminate|]. apply (i_stuck _ I sg); auto.
        -- intros y Vy. rewrite SS, ST. destruct (slot x y) eqn:Sl; auto. apply (i_quiet _ I y Vy).
        -- rewrite L3, L2, (sm_log _ _ _ S1). apply I.
        -- intros y. rewrite L3, L2, (sm_log _ _ _ S1), SS. intros Hy. destruct (i_log _ I y Hy) as (Vy & H1 & H2). ands; auto.
           ++ destruct (slot x y); auto.
           ++ destruct (slot x y) eqn:Sl; auto. exfalso. destruct (i_quiet _ I y Vy (SF y Sl)); congruence.
        -- intros a. rewrite C3, C2, (sm_calls _ _ _ S1), ST. apply I.
        -- intros a y Hc Vy Ey. rewrite (f_complete _ _ F3), (f_complete _ _ F2), (f_complete _ _ (sm_frame _ _ _ S1)) in Hc. 
           destruct (i_complete _ I a y Hc Vy Ey) as [H1 H2]. split; [|now rewrite ST]. rewrite SS. destruct (slot x y); [right; auto|auto].
      * intros sg0 Ag y Vy. cbn. rewrite SS, VV. destruct (inst_eqb x y) eqn:Ey.
        -- apply inst_eqb_spec in Ey. subst y. rewrite slot_refl. auto.
        -- destruct (slot x y) eqn:Sl; [|apply Ag; auto]. exfalso. apply (slot_eq decl psize natt) in Sl; auto. subst y.
           rewrite (proj2 (inst_eqb_spec x x) eq_refl) in Ey. discriminate.
      * intros a. rewrite ST. auto.
      * rewrite Hs. ands; auto.
        -- rewrite SS, slot_refl. auto.
        -- rewrite VV, slot_refl. auto.
        -- rewrite L3, L2. apply S1.
        -- rewrite C3, C2. apply S1.
  - (* Evaluate *)
    destruct (top_evaluate fuel s x I Do F) as (s' & r & E & I' & X & St & A & D). rewrite E. exists s', (Value V r). split; auto. unfold step_ok. ands; eauto.
    + intros sg. apply agree_back; auto.
    + intros sg0 Ag. cbn. eapply ext_agreeF; eauto.
    + apply X.
  - (* Finish *)
    unfold finish. destruct (complete V (attrs V s a)) eqn:Hc.
    + destruct (set_complete_ok s a I) as (s' & E & I' & S' & V' & St' & L' & C'); [intros y Vy Ey; eapply (i_complete _ I); eauto|].
      rewrite E. exists s', (Unit V (Val tt)). split; auto. unfold step_ok. ands; auto.
      * intros sg Ag y Vy Hs. specialize (Ag y Vy). rewrite St', S', V' in Ag. auto.
      * intros sg0 Ag y Vy. cbn. rewrite S', V'. auto.
      * intros b. rewrite St'. auto.
      * eexists. split; [reflexivity|]. intros sg Ag. left. split; auto. intros y Vy Ey. apply (done_den s'); auto.
        unfold ready. rewrite S', St'. eapply (i_complete _ I); eauto.
    + cbv zeta. set (p := dphylum V (decl a)).
      pose proof (i_fits _ I a : length (values V (attrs V s a)) <= psize p) as LE.
      pose proof (resize_same vdef s a (psize p) LE (i_wf _ I)) as S1. cbv zeta in S1.
      change (mbind V (resize_arrays V vdef a (psize p)) (fun _ => mbind V (evaluate_all V vdef decl P fuel a p (seq 0 (psize p))) (fun _ => set_complete V a)) s)
        with (mbind V (evaluate_all V vdef decl P fuel a p (seq 0 (psize p))) (fun _ => set_complete V a)
          (set_attr V s a (mkA V (started V (attrs V s a)) (complete V (attrs V s a)) (resize (values V (attrs V s a)) (psize p) vdef) (resize (stats V (attrs V s a)) (psize p) UNINITIALIZED)))).
      set (s1 := set_attr V s a _) in *.
      assert (Fi : fits s1).
      { intros b. unfold len, s1. cbn. unfold fupd. destruct (Nat.eqb_spec a b) as [<-|N]; cbn; [rewrite resize_length; unfold p; lia|apply (i_fits _ I)]. }
      pose proof (idle_same _ _ I S1 Fi) as I1.
      destruct (evaluate_all_ok fuel a Do F (seq 0 (psize p)) s1 I1) as (s2 & r & E2 & I2 & X2 & R2); [intros i Hi; apply in_seq in Hi; unfold p in *; lia|].
      pose proof (ext_trans _ _ _ _ _ _ _ (ext_same vdef decl psize natt _ _ (i_wf _ I) S1) X2) as X. fold p in E2, R2.
      destruct R2 as [[-> H]|(e & i & -> & Hi & H)].
      -- rewrite (mbind_Val _ _ _ _ _ E2).
         assert (Hd : forall y, valid y -> fst y = a -> ready s2 y).
         { intros y Vy Ey. destruct y as [b [q j]]. destruct Vy as (V1 & V2 & V3). cbn in *. subst. apply H. apply in_seq. unfold p. lia. }
         destruct (set_complete_ok s2 a I2 Hd) as (s' & E & I' & S' & V' & St' & L' & C').
         rewrite E. exists s', (Unit V (Val tt)). split; auto. unfold step_ok. ands; auto.
         ++ intros sg Ag. apply (agree_back vdef decl psize natt sg _ _ X). intros y Vy Hs. specialize (Ag y Vy). rewrite St', S', V' in Ag. auto.
         ++ intros sg0 Ag y Vy. cbn. rewrite S', V'. apply (ext_agreeF _ _ _ X Ag); auto.
         ++ intros b Hb. rewrite St'. apply X; auto.
         ++ eexists. split; [reflexivity|]. intros sg Ag. left. split; auto. intros y Vy Ey. apply (done_den s'); auto.
            unfold ready. rewrite S', St'. apply Hd; auto.
      -- rewrite (mbind_Thrown _ _ _ _ _ E2). exists s2, (Unit V (Thrown e)). split; auto. unfold step_ok. ands; auto.
         ++ intros sg. apply agree_back; auto.
         ++ intros sg0 Ag. cbn. eapply ext_agreeF; eauto.
         ++ apply X.
         ++ eexists. split; [reflexivity|]. intros sg Ag. right. exists e, (a, mkNode p i). apply in_seq in Hi.
            ands; auto. unfold AttrSpec.valid. cbn. ands; auto. lia.
Qed.

Lemma idle_initial : idle (initial_state V).
Proof.
  assert (St : forall y, stat (initial_state V) y = UNINITIALIZED) by (intros y; unfold AttrModel.stat; cbn; destruct (index_of (snd y)); auto).
  constructor; try (intros; cbn in *; try rewrite St in *; try discriminate; auto; fail).
  - intros a. cbn. auto.
  - intros a. unfold len. cbn. lia.
  - intros sg Ag y Vy H. rewrite St in H. discriminate.
  - constructor.
  - intros y [].
  - intros a. split; [discriminate|]. intros (y & [] & _).
Qed.

Definition answer_at (sg : inst -> option V) (o : op V) (r : answer V) : Prop :=
  match o with
  | Evaluate _ x => exists ro, r = Value V ro /\ answer_ok sg x ro
  | Finish _ a => exists ro, r = Unit V ro /\ finish_ok sg a ro
  | Assign _ x v => r = Unit V (Val tt) \/ r = Unit V (Thrown TooLate)
  | _ => False
  end.

Lemma assigned_cons o r ops ans sg : assigned (o :: ops) (r :: ans) sg = assigned (V := V) ops ans (assigned [o] [r] sg).
Proof. destruct o, r as [[]|]; reflexivity. Qed.

Lemma history_ok fuel : length univ < fuel -> forall ops s, idle s -> Forall (demand_op decl psize natt) ops ->
  exists s' ans, history V vdef decl P psize fuel ops s = (s', ans) /\ idle s' /\ length ans = length ops /\
    (forall sg, agree sg s' -> agree sg s) /\ (forall sg0, agreeF sg0 s -> agreeF (assigned ops ans sg0) s') /\
    (forall a, st_started s a = true -> st_started s' a = true) /\
    (forall sg, agree sg s' -> Forall2 (answer_at sg) ops ans).
Proof.
  intros F. induction ops as [|o ops IH]; intros s I Hf; cbn [history].
  - exists s, []. ands; auto.
  - inversion Hf as [|? ? Do Hf']; subst. destruct (step_step_ok fuel s o F I Do) as (s1 & r & E1 & I1 & B1 & F1 & St1 & A1).
    destruct (IH s1 I1 Hf') as (s2 & ans & E2 & I2 & L2 & B2 & F2 & St2 & A2).
    rewrite E1, E2. exists s2, (r :: ans). ands; auto.
    + cbn. auto.
    + intros sg0 Ag. rewrite assigned_cons. auto.
    + intros sg Ag. constructor; auto. destruct o; cbn in *; try tauto.
      * destruct (st_started s (fst x)); [destruct A1 as [_ ->]; auto|destruct A1 as [-> _]; auto].
      * destruct A1 as (ro & -> & A1 & _). eauto.
      * destruct A1 as (ro & -> & A1). eauto.
Qed.
End H.
