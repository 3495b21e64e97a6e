(** * UpDownStateProofs2: breaking all cycles, in all graphs of a state. *)
From Verif Require Import Base CondModel EdgeModel DncModel PropsCond EdgeProofs EdgeAddProofs EdgeGraph EdgeSem EdgeWorld SummaryProofs CycleModel UpDownModel UpDownProofs UpDownAugProofs UpDownStateProofs.
Open Scope nat_scope.

Lemma starts_eq s s0 : map p_n (st_phys s) = map p_n (st_phys s0) -> map n_inst (st_augs s) = map n_inst (st_augs s0) ->
  (forall y, phylum_start s y = phylum_start s0 y) /\ forall x, constructor_start s x = constructor_start s0 x.
Proof. intros H1 H2. unfold phylum_start, constructor_start. split; intros y; rewrite <- !firstn_map, ?H1, ?H2; reflexivity. Qed.
Lemma nth_map_eq {X Y} (f : X -> Y) l l' : length l = length l' -> (forall i x x', nth_error l i = Some x -> nth_error l' i = Some x' -> f x = f x') -> map f l = map f l'.
Proof.
  intros L H. apply nth_error_ext. intros i. rewrite !nth_error_map. destruct (nth_error l i) as [x|] eqn:E; destruct (nth_error l' i) as [x'|] eqn:E'; cbn; auto.
  - f_equal. eapply H; eauto.
  - apply nth_error_None in E'. assert (i < length l) by (apply nth_error_Some; congruence). lia.
  - apply nth_error_None in E. assert (i < length l') by (apply nth_error_Some; congruence). lia.
Qed.

Section St.
Variables (direction : bool) (par : list (option nat)) (pups aups : list (list bool)) (s0 : state) (As0 : list agraph) (roots : list nat).
Hypothesis Hp : forall y p, nth_error (st_phys s0) y = Some p -> length (mingraph p) = p_n p * p_n p /\ (forall l, l < p_n p -> l + phylum_start s0 y < length par) /\ exists ups, nth_error pups y = Some ups /\ length ups = p_n p.
Hypothesis Ha : forall x A, nth_error As0 x = Some A -> (forall l, l < an A -> l + constructor_start s0 x < length par) /\ (exists ups, nth_error aups x = Some ups /\ length ups = an A) /\
  forall i j, i < an A -> j < an A -> exists o, blk par (constructor_start s0 x) (an A) roots A o i j.
Definition phyI (R : list nat) (y : nat) (p0 p : phy) : Prop := p_labels p = p_labels p0 /\ is_func p = is_func p0 /\ length (mingraph p) = p_n p0 * p_n p0 /\
  forall ups, nth_error pups y = Some ups -> phyS par (phylum_start s0 y) (p_n p0) direction ups R (get (mingraph p0) (p_n p0)) (get (mingraph p) (p_n p0)).
Definition augI (R : list nat) (x : nat) (A0 A : agraph) : Prop := an A = an A0 /\ forall ups, nth_error aups x = Some ups -> augS par (constructor_start s0 x) (an A0) direction ups roots R A0 A.
Definition SI (R : list nat) (s : state) : Prop :=
  length (st_phys s) = length (st_phys s0) /\ (forall y p0 p, nth_error (st_phys s0) y = Some p0 -> nth_error (st_phys s) y = Some p -> phyI R y p0 p) /\
  exists As fl, winv (st_mem s) (st_augs s) As fl /\ length As = length As0 /\ forall x A0 A, nth_error As0 x = Some A0 -> nth_error As x = Some A -> augI R x A0 A.
Hypothesis W0 : exists fl, winv (st_mem s0) (st_augs s0) As0 fl.

Lemma SI_start : SI [] s0.
Proof.
  split; auto. split.
  - intros y p0 p E E'. assert (p = p0) by congruence. subst. destruct (Hp y p0 E) as (L & _). unfold phyI. ands; auto. intros ups _. apply phyS_nil.
  - destruct W0 as (fl & W). exists As0, fl. ands; auto. intros x A0 A E E'. assert (A = A0) by congruence. subst. split; auto. intros ups _. apply augS_nil.
Qed.
Lemma pn_eq p p0 : p_labels p = p_labels p0 -> p_n p = p_n p0.
Proof. unfold p_n. congruence. Qed.
Lemma winv_map m gs As fl : winv m gs As fl -> map n_inst gs = map an As.
Proof.
  intros W. apply nth_error_ext. intros i. rewrite !nth_error_map. pose proof (wi_len _ _ _ _ W) as L. destruct (nth_error gs i) as [g|] eqn:E; destruct (nth_error As i) as [A|] eqn:E'; cbn; auto.
  - f_equal. apply (gp_n _ _ _ (wi_part _ _ _ _ W i g A E E')).
  - apply nth_error_None in E'. assert (i < length gs) by (apply nth_error_Some; congruence). lia.
  - apply nth_error_None in E. assert (i < length As) by (apply nth_error_Some; congruence). lia.
Qed.
Lemma phys_fold R r s : ~ In r R -> length (st_phys s) = length (st_phys s0) -> (forall y, phylum_start s y = phylum_start s0 y) -> (forall y p0 p, nth_error (st_phys s0) y = Some p0 -> nth_error (st_phys s) y = Some p -> phyI R y p0 p) ->
  exists s1, foldM (fun s j => p <- rd (st_phys s) j ;; ups <- rd pups j ;; p <- up_down_phy direction par r (phylum_start s j) ups p ;; ps <- wr (st_phys s) j p ;; Ok (mkState (st_mem s) (st_augs s) ps)) (seq 0 (length (st_phys s))) s = Ok s1 /\
    st_mem s1 = st_mem s /\ st_augs s1 = st_augs s /\ length (st_phys s1) = length (st_phys s0) /\ (forall y p0 p, nth_error (st_phys s0) y = Some p0 -> nth_error (st_phys s1) y = Some p -> phyI (R ++ [r]) y p0 p).
Proof.
  intros Hr Ls Hst Hs.
  destruct (foldM_inv (fun s j => p <- rd (st_phys s) j ;; ups <- rd pups j ;; p <- up_down_phy direction par r (phylum_start s j) ups p ;; ps <- wr (st_phys s) j p ;; Ok (mkState (st_mem s) (st_augs s) ps)) (seq 0 (length (st_phys s)))
    (fun done s1 => st_mem s1 = st_mem s /\ st_augs s1 = st_augs s /\ length (st_phys s1) = length (st_phys s0) /\ forall y p0 p, nth_error (st_phys s0) y = Some p0 -> nth_error (st_phys s1) y = Some p -> if existsb (Nat.eqb y) done then phyI (R ++ [r]) y p0 p else phyI R y p0 p) s) as (s1 & E & E1 & E2 & E3 & E4).
  - ands; auto.
  - intros done y rest s1 El (E1 & E2 & E3 & E4). destruct (seq_mid _ _ _ _ El) as (Hy & Hd & _). rewrite Ls in Hy.
    assert (Ny : existsb (Nat.eqb y) done = false). { destruct (existsb (Nat.eqb y) done) eqn:X; auto. apply existsb_exists in X. destruct X as (x & Hx & X). apply Nat.eqb_eq in X. now subst. }
    destruct (nth_error (st_phys s0) y) as [p0|] eqn:P0; [|apply nth_error_None in P0; lia]. destruct (nth_error (st_phys s1) y) as [p|] eqn:P1; [|apply nth_error_None in P1; lia].
    destruct (Hp y p0 P0) as (L0 & B0 & ups & Eu & Lu). pose proof (E4 y p0 p P0 P1) as I. rewrite Ny in I. destruct I as (I1 & I2 & I3 & I4). pose proof (pn_eq _ _ I1) as En.
    rewrite (proj2 (rd_Ok _ _ _) P1). cbn [bind]. rewrite (proj2 (rd_Ok _ _ _) Eu). cbn [bind].
    assert (St1 : phylum_start s1 y = phylum_start s0 y).
    { assert (M : map p_n (st_phys s1) = map p_n (st_phys s0)); [|unfold phylum_start; rewrite <- !firstn_map, M; reflexivity]. apply nth_map_eq; auto. intros i q q' Q Q'. apply pn_eq. specialize (E4 i q' q Q' Q). destruct (existsb (Nat.eqb i) done); apply E4. }
    rewrite St1. destruct (phy_ok par r (phylum_start s0 y) (p_n p0) direction ups B0 Lu p En I3) as (mg' & E & L' & T). rewrite E. cbn [bind]. rewrite wr_Ok by (apply nth_error_Some; congruence). cbn [bind].
    eexists. split; [reflexivity|]. cbn [st_mem st_augs st_phys]. rewrite upd_length. ands; auto. intros y' q0 q Q0 Q. rewrite existsb_app. cbn [existsb]. rewrite orb_false_r. rewrite nth_error_upd in Q. destruct (Nat.eqb_spec y y') as [Heq|Hne].
    + subst y'. rewrite Nat.eqb_refl, orb_true_r. assert (q0 = p0) by congruence. subst q0. destruct (y <? length (st_phys s1)); [|discriminate]. injection Q as <-. unfold phyI. cbn [p_labels is_func mingraph]. ands; auto. intros ups' Eu'. assert (ups' = ups) by congruence. subst ups'. eapply phyS_step; eauto.
    + rewrite (proj2 (Nat.eqb_neq y' y)) by auto. rewrite orb_false_r. apply E4; auto.
  - exists s1. ands; auto. intros y p0 p Q0 Q. specialize (E4 y p0 p Q0 Q). rewrite (proj2 (existsb_exists _ _)) in E4; auto. exists y. split; [|apply Nat.eqb_refl]. apply in_seq. assert (y < length (st_phys s0)) by (apply nth_error_Some; congruence). lia.
Qed.
Lemma augs_fold R r s As fl : ~ In r R -> In r roots -> (forall x, constructor_start s x = constructor_start s0 x) -> winv (st_mem s) (st_augs s) As fl -> length As = length As0 -> (forall x A0 A, nth_error As0 x = Some A0 -> nth_error As x = Some A -> augI R x A0 A) ->
  exists s1, foldM (fun s j => g <- rd (st_augs s) j ;; ups <- rd aups j ;; '(m, g) <- up_down_aug direction par r (constructor_start s j) ups (st_mem s, g) ;; gs <- wr (st_augs s) j g ;; Ok (mkState m gs (st_phys s))) (seq 0 (length (st_augs s))) s = Ok s1 /\
    st_phys s1 = st_phys s /\ exists As1 fl1, winv (st_mem s1) (st_augs s1) As1 fl1 /\ length As1 = length As0 /\ (forall x A0 A, nth_error As0 x = Some A0 -> nth_error As1 x = Some A -> augI (R ++ [r]) x A0 A).
Proof.
  intros Hr Hin Hst W L Hs. pose proof (wi_len _ _ _ _ W) as Lw.
  destruct (foldM_inv (fun s j => g <- rd (st_augs s) j ;; ups <- rd aups j ;; '(m, g) <- up_down_aug direction par r (constructor_start s j) ups (st_mem s, g) ;; gs <- wr (st_augs s) j g ;; Ok (mkState m gs (st_phys s))) (seq 0 (length (st_augs s)))
    (fun done s1 => st_phys s1 = st_phys s /\ exists As1 fl1, winv (st_mem s1) (st_augs s1) As1 fl1 /\ length As1 = length As0 /\ forall x A0 A, nth_error As0 x = Some A0 -> nth_error As1 x = Some A -> if existsb (Nat.eqb x) done then augI (R ++ [r]) x A0 A else augI R x A0 A) s) as (s1 & E & E1 & As1 & fl1 & E2 & E3 & E4).
  - split; auto. exists As, fl. ands; auto.
  - intros done x rest s1 El (E1 & As1 & fl1 & W1 & E3 & E4). destruct (seq_mid _ _ _ _ El) as (Hy & Hd & _). rewrite <- Lw in Hy. pose proof (wi_len _ _ _ _ W1) as Lw1.
    assert (Ny : existsb (Nat.eqb x) done = false). { destruct (existsb (Nat.eqb x) done) eqn:X; auto. apply existsb_exists in X. destruct X as (z & Hx & X). apply Nat.eqb_eq in X. now subst. }
    destruct (nth_error As0 x) as [A0|] eqn:P0; [|apply nth_error_None in P0; lia]. destruct (nth_error (st_augs s1) x) as [g|] eqn:Pg; [|apply nth_error_None in Pg; lia].
    destruct (world_focus _ _ _ _ _ _ W1 Pg) as (A & PA & G). destruct (Ha x A0 P0) as (B0 & (ups & Eu & Lu) & J0). pose proof (E4 x A0 A P0 PA) as I. rewrite Ny in I. destruct I as (I1 & I2).
    rewrite (proj2 (rd_Ok _ _ _) Pg). cbn [bind]. rewrite (proj2 (rd_Ok _ _ _) Eu). cbn [bind].
    assert (Me : map n_inst (st_augs s1) = map n_inst (st_augs s)).
    { rewrite (winv_map _ _ _ _ W1), (winv_map _ _ _ _ W). apply nth_map_eq; [lia|]. intros i q q' Q Q'. assert (i < length As0) by (rewrite <- E3; apply nth_error_Some; congruence). destruct (nth_error As0 i) as [z|] eqn:Z; [|apply nth_error_None in Z; lia].
      specialize (E4 i z q Z Q). specialize (Hs i z q' Z Q'). destruct (existsb (Nat.eqb i) done); destruct E4 as [Q1 _]; destruct Hs as [Q2 _]; congruence. }
    assert (St1 : constructor_start s1 x = constructor_start s0 x) by (rewrite <- Hst; unfold constructor_start; rewrite E1, <- !firstn_map, Me; reflexivity).
    rewrite St1. assert (Au := I2 ups Eu).
    assert (Jo : jointly par r (constructor_start s0 x) (an A0) A).
    { intros i j Hi Hj Hor. destruct (J0 i j Hi Hj) as (o & B). exists o. eapply line_blk; eauto. }
    assert (Gi : isg (an A0) (rest_ids As1 x) (st_mem s1) (st_mem s1, g) A) by (split; [congruence|]; split; [exists fl1; exact G|auto]).
    destruct (aug_ok par r (constructor_start s0 x) (an A0) direction ups B0 Lu (rest_ids As1 x) (st_mem s1) (st_mem s1, g) A Gi Jo) as ([m' g'] & A' & E & (H1 & (fl2 & H2) & H3) & O). cbn [fst snd] in H2, H3.
    rewrite E. cbn [bind]. rewrite wr_Ok by (apply nth_error_Some; congruence). cbn [bind]. eexists. split; [reflexivity|]. cbn [st_mem st_augs st_phys]. split; auto. exists (upd As1 x A'), fl2. ands.
    + apply (world_put (st_mem s1) (st_augs s1) As1 fl1 x g A m' g' A' fl2); auto.
    + rewrite upd_length. auto.
    + intros x' q0 q Q0 Q. rewrite existsb_app. cbn [existsb]. rewrite orb_false_r. rewrite nth_error_upd in Q. destruct (Nat.eqb_spec x x') as [Heq|Hne].
      * subst x'. rewrite Nat.eqb_refl, orb_true_r. assert (q0 = A0) by congruence. subst q0. destruct (x <? length As1); [|discriminate]. injection Q as <-. split; auto. intros ups' Eu'. assert (ups' = ups) by congruence. subst ups'. eapply augS_step; eauto.
        intros i j Hi Hj. apply (gp_good _ _ _ (gi_part _ _ _ _ _ G)). apply cell_in; [apply (gp_clen _ _ _ (gi_part _ _ _ _ _ G))| |]; congruence.
      * rewrite (proj2 (Nat.eqb_neq x' x)) by auto. rewrite orb_false_r. apply E4; auto.
  - exists s1. ands; auto. exists As1, fl1. ands; auto. intros x A0 A Q0 Q. specialize (E4 x A0 A Q0 Q). rewrite (proj2 (existsb_exists _ _)) in E4; auto. exists x. split; [|apply Nat.eqb_refl]. apply in_seq. assert (x < length As0) by (apply nth_error_Some; congruence). lia.
Qed.
Lemma SI_starts R s : SI R s -> (forall y, phylum_start s y = phylum_start s0 y) /\ forall x, constructor_start s x = constructor_start s0 x.
Proof.
  intros (L & H1 & As & fl & W & L2 & H2). destruct W0 as (fl0 & W0'). apply starts_eq.
  - apply nth_map_eq; auto. intros i q q' Q Q'. apply pn_eq. specialize (H1 i q' q Q' Q). apply H1.
  - rewrite (winv_map _ _ _ _ W), (winv_map _ _ _ _ W0'). apply nth_map_eq; auto. intros i q q' Q Q'. specialize (H2 i q' q Q' Q). apply H2.
Qed.
Lemma SI_step R r s : ~ In r R -> In r roots -> SI R s -> exists s', up_down_cycle direction par pups aups s r = Ok s' /\ SI (R ++ [r]) s'.
Proof.
  intros Hr Hin Hs. destruct (SI_starts R s Hs) as [S1 S2]. destruct Hs as (L & H1 & As & fl & W & L2 & H2). unfold up_down_cycle.
  destruct (phys_fold R r s Hr L S1 H1) as (s1 & E & E1 & E2 & E3 & E4). rewrite E. cbn [bind].
  assert (S3 : forall x, constructor_start s1 x = constructor_start s0 x).
  { intros x. rewrite <- S2. unfold constructor_start. rewrite E2. f_equal. f_equal. apply nth_map_eq; [congruence|]. intros i q q' Q Q'. assert (i < length (st_phys s0)) by (rewrite <- E3; apply nth_error_Some; congruence). destruct (nth_error (st_phys s0) i) as [z|] eqn:Z; [|apply nth_error_None in Z; lia].
    specialize (E4 i z q Z Q). specialize (H1 i z q' Z Q'). apply pn_eq. transitivity (p_labels z); [apply E4|symmetry; apply H1]. }
  rewrite <- E1, <- E2 in W. destruct (augs_fold R r s1 As fl Hr Hin S3 W L2 H2) as (s2 & E5 & E6 & As2 & fl2 & E7 & E8 & E9). exists s2. split; [exact E5|]. split; [congruence|]. split.
  - intros y p0 p Q0 Q. rewrite E6 in Q. apply E4; auto.
  - exists As2, fl2. ands; auto.
Qed.
Lemma SI_all : NoDup roots -> exists s', foldM (up_down_cycle direction par pups aups) roots s0 = Ok s' /\ SI roots s'.
Proof.
  intros Nd. destruct (foldM_inv (up_down_cycle direction par pups aups) roots SI s0) as (s' & E & I).
  - apply SI_start.
  - intros done r rest s El I. apply SI_step; auto.
    + rewrite El in Nd. apply NoDup_remove in Nd. intros X. apply (proj2 Nd). apply in_or_app. now left.
    + rewrite El. apply in_or_app. right. now left.
  - exists s'. auto.
Qed.
End St.
