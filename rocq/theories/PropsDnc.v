(** * PropsDnc: C43 (the DNC iteration stops at a synchronised fixed point). *)
From Verif Require Import Base CondModel EdgeModel DncModel PropsCond EdgeProofs EdgeAddProofs EdgeGraph EdgeSem EdgeWorld PropsEdge SummaryProofs CloseProofs PropsClose DncProofs.
Open Scope nat_scope.

(** ** Specification *)
Definition graphs_of (s : state) : world := mkWorld (st_mem s) (st_augs s).
(** The shape of an analysis state: a production graph for every rule, square
    summary matrices, and every node's instances inside the production graph and
    labelled as in the summary graph of its phylum. *)
Definition well_formed (rules : list rule) (s : state) : Prop :=
  length rules = length (st_augs s) /\
  (forall p, In p (st_phys s) -> matrix (p_n p) (mingraph p)) /\
  forall x r g start y, nth_error rules x = Some r -> nth_error (st_augs s) x = Some g -> In (start, Some y) (r_blocks r) ->
    exists p, nth_error (st_phys s) y = Some p /\ start + p_n p <= n_inst g /\ forall i, i < p_n p -> nth_error (r_labels r) (start + i) = nth_error (p_labels p) i.
(** Every dependency between instances of one node (not a function) that does not
    wait in the queue is in the summary graph already. *)
Definition offered (rules : list rule) (s : state) : Prop := forall x r q start y p i j l a c k,
  nth_error rules x = Some r -> queue (graphs_of s) x q -> In (start, Some y) (r_blocks r) -> nth_error (st_phys s) y = Some p -> is_func p = false -> i < p_n p -> j < p_n p ->
  members (graphs_of s) x (start + i) (start + j) l -> In (a, c, k) l -> ~ In a q -> at_most (dependency_indirect k) (get (mingraph p) (p_n p) i j) = true.
Definition startable (rules : list rule) (s : state) : Prop :=
  reached (graphs_of s) /\ offered rules s /\ forall x, x < length (st_augs s) -> small_kinds (graphs_of s) x /\ settled (graphs_of s) x.
(** The result: *)
Definition graphs_closed (s : state) : Prop :=
  (forall x g, nth_error (st_augs s) x = Some g -> queue (graphs_of s) x [] /\ small_kinds (graphs_of s) x /\ forall o, trans_closed (n_inst g) (kind_of_pair (graphs_of s) x o)) /\
  (forall p, In p (st_phys s) -> trans_closed (p_n p) (get (mingraph p) (p_n p))).
Definition synchronised (rules : list rule) (s : state) : Prop :=
  forall x r start y p i j o, nth_error rules x = Some r -> In (start, Some y) (r_blocks r) -> nth_error (st_phys s) y = Some p -> i < p_n p -> j < p_n p ->
    let local := kind_of_pair (graphs_of s) x o (start + i) (start + j) in let summary := get (mingraph p) (p_n p) i j in
    (is_func p = false -> at_most (dependency_indirect local) summary = true) /\ at_most summary local = true.
Definition only_grew (s s' : state) : Prop :=
  length (st_augs s') = length (st_augs s) /\ length (st_phys s') = length (st_phys s) /\
  (forall x g, nth_error (st_augs s) x = Some g -> exists g', nth_error (st_augs s') x = Some g' /\ n_inst g' = n_inst g /\
     forall o, contains (n_inst g) (kind_of_pair (graphs_of s) x o) (kind_of_pair (graphs_of s') x o)) /\
  (forall y p, nth_error (st_phys s) y = Some p -> exists p', nth_error (st_phys s') y = Some p' /\ p_labels p' = p_labels p /\ is_func p' = is_func p /\
     contains (p_n p) (get (mingraph p) (p_n p)) (get (mingraph p') (p_n p))).

(** ** Proofs *)
Definition gsum (B : N) (As : list agraph) : nat := list_sum (map (gpot B) As).
Definition psum (ps : list phy) : nat := list_sum (map (fun p => total (mingraph p)) ps).
Definition gcap (B : N) (As : list agraph) : nat := list_sum (map (fun A => length (universe B) * (an A * an A)) As).
Definition pcap (ps : list phy) : nat := list_sum (map (fun p => 31 * (p_n p * p_n p)) ps).
Lemma list_sum_cons a l : list_sum (a :: l) = a + list_sum l.
Proof. reflexivity. Qed.
Lemma sum_upd {X} (f : X -> nat) (l : list X) i x y : nth_error l i = Some x -> list_sum (map f (upd l i y)) + f x = list_sum (map f l) + f y.
Proof.
  revert i; induction l as [|h t IH]; intros [|i] H; cbn [nth_error] in H; try discriminate; cbn [upd map]; rewrite !list_sum_cons.
  - injection H as ->. lia.
  - specialize (IH i H). lia.
Qed.
Lemma sum_le {X} (f h : X -> nat) l : (forall x, In x l -> f x <= h x) -> list_sum (map f l) <= list_sum (map h l).
Proof. induction l as [|x l IH]; intros H; cbn [map]; auto. rewrite !list_sum_cons. pose proof (H x (or_introl eq_refl)). assert (list_sum (map f l) <= list_sum (map h l)) by (apply IH; intros; apply H; now right). lia. Qed.
Record dinv (B : N) (rules : list rule) (s : state) (As : list agraph) : Prop := {
  di_world : exists fl, winv (st_mem s) (st_augs s) As fl;
  di_len : length rules = length As;
  di_mats : pmats (st_phys s);
  di_blk : forall x r A, nth_error rules x = Some r -> nth_error As x = Some A -> forall b, In b (r_blocks r) -> blk_ok (r_labels r) (an A) (st_phys s) b;
  di_bound : forall A, In A As -> abound B A;
  di_comp : forall A, In A As -> composed A;
  di_push : forall x r A, nth_error rules x = Some r -> nth_error As x = Some A -> pushedA (r_blocks r) (st_phys s) A }.
Record grow (B : N) (As As' : list agraph) : Prop := {
  gr_len : length As' = length As;
  gr_sum : gsum B As <= gsum B As';
  gr_cap : gcap B As' = gcap B As;
  gr_ent : forall x A A', nth_error As x = Some A -> nth_error As' x = Some A' -> an A' = an A /\ forall i j c k, i < an A -> j < an A -> ent (cell A i j) c k -> ent (cell A' i j) c k }.
Lemma grow_refl B As : grow B As As.
Proof. constructor; auto. intros x A A' H1 H2. assert (A' = A) by congruence. subst. auto. Qed.
Lemma grow_trans B a b c : grow B a b -> grow B b c -> grow B a c.
Proof.
  intros [L1 S1 C1 E1] [L2 S2 C2 E2]. constructor; try congruence; try lia. intros x A A'' H1 H3. destruct (nth_error b x) as [A'|] eqn:H2.
  - destruct (E1 x A A' H1 H2) as [N1 X1]. destruct (E2 x A' A'' H2 H3) as [N2 X2]. split; [congruence|]. intros. apply X2; try congruence. auto.
  - apply nth_error_None in H2. assert (x < length a) by (apply nth_error_Some; congruence). lia.
Qed.
Lemma grow_upd B As x A A' : nth_error As x = Some A -> an A' = an A -> gpot B A <= gpot B A' -> (forall i j c k, i < an A -> j < an A -> ent (cell A i j) c k -> ent (cell A' i j) c k) -> grow B As (upd As x A').
Proof.
  intros E En Le H. constructor.
  - apply upd_length.
  - pose proof (sum_upd (gpot B) As x A A' E). unfold gsum. lia.
  - pose proof (sum_upd (fun A => length (universe B) * (an A * an A)) As x A A' E) as Q. cbn beta in Q. rewrite En in Q. unfold gcap. lia.
  - intros y C C' H1 H2. rewrite nth_error_upd in H2. destruct (Nat.eqb_spec x y) as [->|].
    + destruct (y <? length As); [|discriminate]. injection H2 as <-. assert (C = A) by congruence. subst. auto.
    + assert (C' = C) by congruence. subst. auto.
Qed.

Lemma augs_pass B rules s As : dinv B rules s As ->
  exists bd s' ch As', (forall fuel, bd <= fuel -> foldM (fun '(s, ch) j =>
      r <- rd rules j ;;
      g <- rd (st_augs s) j ;;
      '(m, g, ps, c) <- close_augmented fuel r (st_mem s) g (st_phys s) ;;
      gs <- wr (st_augs s) j g ;;
      Ok (mkState m gs ps, ch || c)) (seq 0 (length rules)) (s, false) = Ok (s', ch)) /\
    dinv B rules s' As' /\ psle (st_phys s) (st_phys s') /\ grow B As As' /\ (forall A, In A As' -> awl A = []) /\
    (ch = true -> (exists A, In A As /\ awl A <> []) \/ gsum B As < gsum B As') /\
    (ch = false -> As' = As /\ st_phys s' = st_phys s /\ forall x r A, nth_error rules x = Some r -> nth_error As x = Some A -> pulledA (r_blocks r) (st_phys s) A).
Proof.
  intros D.
  pose (J := fun (done : list nat) (st : state * bool) => exists As1, dinv B rules (fst st) As1 /\ psle (st_phys s) (st_phys (fst st)) /\ grow B As As1 /\
    (forall x A, In x done -> nth_error As1 x = Some A -> awl A = []) /\ (forall x, ~ In x done -> nth_error As1 x = nth_error As x) /\
    (snd st = true -> (exists A, In A As /\ awl A <> []) \/ gsum B As < gsum B As1) /\
    (snd st = false -> As1 = As /\ st_phys (fst st) = st_phys s /\ forall x r A, In x done -> nth_error rules x = Some r -> nth_error As x = Some A -> pulledA (r_blocks r) (st_phys s) A)).
  match goal with |- exists bd s' ch As', (forall fuel, _ -> foldM _ ?l ?b = _) /\ _ =>
    destruct (foldM_bounded (fun fuel '(s, ch) j => r <- rd rules j ;; g <- rd (st_augs s) j ;; '(m, g, ps, c) <- close_augmented fuel r (st_mem s) g (st_phys s) ;; gs <- wr (st_augs s) j g ;; Ok (mkState m gs ps, ch || c)) l J b) as (bd & [s' ch] & E & As1 & D1 & L1 & G1 & W1 & O1 & T1 & F1) end.
  - exists As. cbn [fst snd]. ands; auto using psle_refl, grow_refl; try discriminate.
    + intros x A [].
    + intros _. ands; auto. intros x r A [].
  - intros done x rest [s1 ch1] El (As1 & D1 & L1 & G1 & W1 & O1 & T1 & F1). cbn [fst snd] in *.
    assert (Hx : In x (seq 0 (length rules))) by (rewrite El; apply in_or_app; right; now left). apply in_seq in Hx.
    assert (Nx : ~ In x done). { pose proof (seq_NoDup (length rules) 0) as Nd. rewrite El in Nd. apply NoDup_remove_2 in Nd. intros Hd. apply Nd. apply in_or_app. auto. }
    destruct (di_world _ _ _ _ D1) as (fl & W). pose proof (di_len _ _ _ _ D1) as Ln.
    destruct (nth_error rules x) as [r|] eqn:Er; [|apply nth_error_None in Er; lia].
    destruct (nth_error As1 x) as [A|] eqn:EA; [|apply nth_error_None in EA; lia].
    destruct (nth_error (st_augs s1) x) as [g|] eqn:Eg; [|apply nth_error_None in Eg; rewrite <- (wi_len _ _ _ _ W) in Eg; lia].
    destruct (world_focus _ _ _ _ _ _ W Eg) as (A0 & EA0 & G). assert (A0 = A) by congruence. subst A0. pose proof (nth_error_In _ _ EA) as InA.
    destruct (close_augmented_ok B (rest_ids As1 x) r (st_mem s1) g A fl (st_phys s1) G) as (bd & m' & g' & A' & ps' & c & Ec & C & Ct & Cf).
    { eapply di_bound; eauto. } { eapply di_comp; eauto. } { apply D1. } { eapply di_blk; eauto. } { eapply di_push; eauto. }
    exists bd. eexists. split.
    { intros fuel Hf. rewrite (proj2 (rd_Ok _ _ _) Er). cbn [bind]. rewrite (proj2 (rd_Ok _ _ _) Eg). cbn [bind]. rewrite Ec by auto. cbn [bind]. rewrite wr_Ok by (apply nth_error_Some; congruence). cbn [bind]. reflexivity. }
    destruct C as [(fl' & Q1) Q2 Q3 Q4 Q5 Q6 Q7 Q8 Q9 Q10 Q11]. exists (upd As1 x A'). cbn [fst snd st_mem st_augs st_phys].
    assert (Lx : x < length As1) by (apply nth_error_Some; congruence).
    assert (Gu : grow B As1 (upd As1 x A')) by (eapply grow_upd; eauto).
    assert (Ge : forall y C, nth_error (upd As1 x A') y = Some C -> (y = x /\ C = A') \/ (y <> x /\ nth_error As1 y = Some C)).
    { intros y C Hy. rewrite nth_error_upd in Hy. destruct (Nat.eqb_spec x y) as [->|]; auto. destruct (y <? length As1); [|discriminate]. injection Hy as <-. auto. }
    ands.
    + constructor; cbn [fst snd st_mem st_augs st_phys]; auto.
      * exists fl'. eapply world_put; eauto.
      * now rewrite upd_length.
      * intros y r0 C Hr HC b Hb. eapply blk_ok_mono; eauto. destruct (Ge y C HC) as [[-> ->]|[Hy HC']]; [rewrite Q4; assert (r0 = r) by congruence; subst; eapply di_blk; eauto|eapply di_blk; eauto].
      * intros C HC. apply in_upd in HC. destruct HC as [->|HC]; auto. eapply di_bound; eauto.
      * intros C HC. apply in_upd in HC. destruct HC as [->|HC]; auto. eapply di_comp; eauto.
      * intros y r0 C Hr HC. destruct (Ge y C HC) as [[-> ->]|[Hy HC']]; [assert (r0 = r) by congruence; subst; auto|].
        eapply (pushedA_mono B (r_labels r0)); [apply gext_refl|exact Q9| |eapply di_push; eauto]. eapply di_blk; eauto.
    + eapply psle_trans; eauto.
    + eapply grow_trans; eauto.
    + intros y C Hy HC. destruct (Ge y C HC) as [[-> ->]|[Hne HC']]; auto. apply in_app_iff in Hy. destruct Hy as [Hy|[->|[]]]; [eauto|congruence].
    + intros y Hy. rewrite nth_error_upd. destruct (Nat.eqb_spec x y) as [->|]; [exfalso; apply Hy, in_or_app; right; now left|]. apply O1. intros Hd. apply Hy, in_or_app. auto.
    + intros Ht. pose proof (gr_sum _ _ _ Gu). apply orb_true_iff in Ht. destruct Ht as [Ht|Ht].
      * destruct (T1 Ht); auto. right. lia.
      * destruct (Ct Ht) as [Hw|Hl].
        { left. exists A. split; auto. apply nth_error_In with x. rewrite <- O1; auto. }
        { right. pose proof (sum_upd (gpot B) As1 x A A' EA). pose proof (gr_sum _ _ _ G1). unfold gsum in *. lia. }
    + intros Ht. apply orb_false_iff in Ht. destruct Ht as [Ht1 Ht2]. destruct (F1 Ht1) as (-> & E2 & Z). destruct (Cf Ht2) as (-> & -> & Y). rewrite upd_same by auto. ands; auto.
      intros y r0 C Hd Hr HC. apply in_app_iff in Hd. destruct Hd as [Hd|[<-|[]]]; [eauto|]. rewrite <- E2. assert (r0 = r) by congruence. assert (C = A) by congruence. subst. auto.
  - exists bd, s', ch, As1. cbn [fst snd] in *. pose proof (di_len _ _ _ _ D1) as Ln. ands; auto.
    + intros A HA. apply In_nth_error in HA. destruct HA as (x & Hx). apply (W1 x A); auto. apply in_seq. assert (x < length As1) by (apply nth_error_Some; congruence). lia.
    + intros Hf. destruct (F1 Hf) as (-> & E2 & Z). ands; auto. intros x r A Hr HA. apply (Z x r A); auto. apply in_seq. assert (x < length rules) by (apply nth_error_Some; congruence). lia.
Qed.
Lemma phys_pass B rules s As ch0 : dinv B rules s As ->
  exists bd s' ch, (forall fuel, bd <= fuel -> foldM (fun '(s, ch) j =>
    p <- rd (st_phys s) j ;;
    '(mg, c) <- close_summary fuel (p_n p) (mingraph p) false ;;
    ps <- wr (st_phys s) j (mkPhy (p_labels p) mg (is_func p)) ;;
    Ok (mkState (st_mem s) (st_augs s) ps, ch || c)) (seq 0 (length (st_phys s))) (s, ch0) = Ok (s', ch)) /\
    dinv B rules s' As /\ psle (st_phys s) (st_phys s') /\ psum (st_phys s) <= psum (st_phys s') /\ pcap (st_phys s') = pcap (st_phys s) /\
    (forall p, In p (st_phys s') -> trans_closed (p_n p) (get (mingraph p) (p_n p))) /\
    (ch = true -> ch0 = true \/ psum (st_phys s) < psum (st_phys s')) /\ (ch = false -> ch0 = false /\ st_phys s' = st_phys s).
Proof.
  intros D.
  pose (J := fun (done : list nat) (st : state * bool) => let s' := fst st in let ch := snd st in dinv B rules s' As /\ psle (st_phys s) (st_phys s') /\ psum (st_phys s) <= psum (st_phys s') /\ pcap (st_phys s') = pcap (st_phys s) /\
    (forall y p, In y done -> nth_error (st_phys s') y = Some p -> trans_closed (p_n p) (get (mingraph p) (p_n p))) /\
    (ch = true -> ch0 = true \/ psum (st_phys s) < psum (st_phys s')) /\ (ch = false -> ch0 = false /\ st_phys s' = st_phys s)).
  match goal with |- exists bd s' ch, (forall fuel, _ -> foldM _ ?l ?b = _) /\ _ =>
    destruct (foldM_bounded (fun fuel '(s, ch) j => p <- rd (st_phys s) j ;; '(mg, c) <- close_summary fuel (p_n p) (mingraph p) false ;; ps <- wr (st_phys s) j (mkPhy (p_labels p) mg (is_func p)) ;; Ok (mkState (st_mem s) (st_augs s) ps, ch || c)) l J b) as (bd & [s' ch] & E & D1 & L1 & S1 & P1 & C1 & T1 & F1) end.
  - unfold J. cbv zeta. cbn [fst snd]. ands; auto using psle_refl. intros y p [].
  - intros done y rest [s1 ch1] El (D1 & L1 & S1 & P1 & C1 & T1 & F1). cbn [fst snd] in *.
    assert (Hy : In y (seq 0 (length (st_phys s)))) by (rewrite El; apply in_or_app; right; now left). apply in_seq in Hy.
    destruct (nth_error (st_phys s1) y) as [p|] eqn:Ep; [|apply nth_error_None in Ep; rewrite (proj1 L1) in Ep; lia].
    assert (Mx : pmat p) by (apply (di_mats _ _ _ _ D1); eapply nth_error_In; eauto).
    destruct (close_summary_ok (p_n p) (31 * (p_n p * p_n p)) (mingraph p) false Mx) with (fuel := S (31 * (p_n p * p_n p))) as (mg' & c & Ec & G & Cl); try lia.
    exists (S (31 * (p_n p * p_n p))). eexists. split.
    { intros fuel Hf. rewrite (proj2 (rd_Ok _ _ _) Ep). cbn [bind]. rewrite (close_summary_mono _ _ fuel _ _ _ Hf Ec). cbn [bind orb]. rewrite wr_Ok by (apply nth_error_Some; congruence). cbn [bind]. reflexivity. }
    set (p' := mkPhy (p_labels p) mg' (is_func p)). destruct G as (Mx' & Le & Gf & Gt & _). unfold J. cbv zeta. cbn [fst snd st_mem st_augs st_phys].
    assert (Pl : ple p p') by (constructor; auto). assert (Psl : psle (st_phys s1) (upd (st_phys s1) y p')) by (eapply psle_upd; eauto).
    pose proof (sum_upd (fun p => total (mingraph p)) (st_phys s1) y p p' Ep) as Sm. cbn beta in Sm. fold (psum (st_phys s1)) in Sm. fold (psum (upd (st_phys s1) y p')) in Sm. cbn [mingraph p'] in Sm. destruct (total_le _ _ Le) as [Tl Te].
    ands.
    + constructor; cbn [st_mem st_augs st_phys]; try apply D1.
      * intros q Hq. apply in_upd in Hq. destruct Hq as [->|Hq]; [exact Mx'|]. apply D1. auto.
      * intros x r A Hr HA b Hb. eapply blk_ok_mono; eauto. eapply di_blk; eauto.
      * intros x r A Hr HA. eapply (pushedA_mono B (r_labels r)); [apply gext_refl|exact Psl| |eapply di_push; eauto]. eapply di_blk; eauto.
    + eapply psle_trans; eauto.
    + fold p'. lia.
    + pose proof (sum_upd (fun p => 31 * (p_n p * p_n p)) (st_phys s1) y p p' Ep) as Q. cbn beta in Q. rewrite (ple_n _ _ Pl) in Q. unfold pcap in *. fold p'. lia.
    + intros z q Hz Hq. rewrite nth_error_upd in Hq. destruct (Nat.eqb_spec y z) as [->|Hne].
      * destruct (z <? length (st_phys s1)); [|discriminate]. injection Hq as <-. exact Cl.
      * apply in_app_iff in Hz. destruct Hz as [Hz|[Hz|[]]]; [eauto|congruence].
    + intros Ht. fold p'. apply orb_true_iff in Ht. destruct Ht as [Ht|Ht]; [destruct (T1 Ht); auto; right; lia|]. right. destruct (Nat.eq_dec (total (mingraph p)) (total mg')) as [Et|]; [|lia]. exfalso. apply (Gt Ht). symmetry. auto.
    + intros Ht. apply orb_false_iff in Ht. destruct Ht as [Ht1 Ht2]. destruct (F1 Ht1) as [H1 H2]. split; auto. rewrite <- H2. apply upd_same. fold p'. rewrite Ep. f_equal. unfold p'. rewrite (Gf Ht2). destruct p; reflexivity.
  - exists bd, s', ch. cbn [fst snd] in *. ands; auto. intros p Hp. apply In_nth_error in Hp. destruct Hp as (y & Hy). apply (C1 y p); auto. apply in_seq. assert (y < length (st_phys s')) by (apply nth_error_Some; congruence). rewrite (proj1 L1) in H. lia.
Qed.

(** *** one iteration and the loop *)
Definition pots (B : N) (As : list agraph) (s : state) : nat := gsum B As + psum (st_phys s).
Definition caps (B : N) (As : list agraph) (s : state) : nat := gcap B As + pcap (st_phys s).
Lemma pots_caps B rules s As : dinv B rules s As -> pots B As s <= caps B As s.
Proof.
  intros D. unfold pots, caps, gsum, psum, gcap, pcap. destruct (di_world _ _ _ _ D) as (fl & W).
  assert (H1 : list_sum (map (gpot B) As) <= list_sum (map (fun A => length (universe B) * (an A * an A)) As)).
  { apply sum_le. intros A HA. apply gpot_max. apply In_nth_error in HA. destruct HA as (x & HA). destruct (an_graph (graphs_of s) As fl x A W HA) as (g & _ & _ & G). apply G. }
  assert (H2 : list_sum (map (fun p => total (mingraph p)) (st_phys s)) <= list_sum (map (fun p => 31 * (p_n p * p_n p)) (st_phys s))).
  { apply sum_le. intros p Hp. destruct (di_mats _ _ _ _ D p Hp) as [L K]. rewrite <- L. now apply total_max. }
  lia.
Qed.
Lemma psum_le ps ps' : psle ps ps' -> psum ps <= psum ps' /\ pcap ps' = pcap ps.
Proof.
  revert ps'; induction ps as [|p ps IH]; intros [|p' ps'] [L H]; cbn in L; try lia; auto.
  destruct (IH ps') as [I1 I2]. { split; [lia|]. intros x. apply (H (S x)). }
  pose proof (H 0 p p' eq_refl eq_refl) as Pl. destruct (total_le _ _ (pl_le _ _ Pl)) as [T _]. unfold psum, pcap in *. cbn [map]. rewrite !list_sum_cons. rewrite (ple_n _ _ Pl). split; lia.
Qed.
Definition done_state (rules : list rule) (s : state) (As : list agraph) : Prop :=
  (forall A, In A As -> awl A = []) /\ (forall p, In p (st_phys s) -> trans_closed (p_n p) (get (mingraph p) (p_n p))) /\
  forall x r A, nth_error rules x = Some r -> nth_error As x = Some A -> pulledA (r_blocks r) (st_phys s) A.
Lemma dnc_pass_ok B rules s As : dinv B rules s As ->
  exists bd s' ch As', (forall fuel, bd <= fuel -> dnc_pass fuel rules s = Ok (s', ch)) /\ dinv B rules s' As' /\ psle (st_phys s) (st_phys s') /\ grow B As As' /\ pots B As s <= pots B As' s' /\ caps B As' s' = caps B As s /\ (forall A, In A As' -> awl A = []) /\ (ch = true -> (exists A, In A As /\ awl A <> []) \/ pots B As s < pots B As' s') /\ (ch = false -> done_state rules s' As').
Proof.
  intros D. destruct (augs_pass B rules s As D) as (bd1 & s1 & ch1 & As1 & E1 & D1 & L1 & G1 & W1 & T1 & F1).
  destruct (phys_pass B rules s1 As1 ch1 D1) as (bd2 & s2 & ch2 & E2 & D2 & L2 & S2 & P2 & C2 & T2 & F2).
  destruct (psum_le _ _ L1) as [S1 P1]. pose proof (gr_sum _ _ _ G1) as Gs. pose proof (gr_cap _ _ _ G1) as Gc.
  exists (Nat.max bd1 bd2), s2, ch2, As1. ands; auto.
  - intros fuel Hf. unfold dnc_pass. rewrite E1 by lia. cbn [bind]. apply E2. lia.
  - eapply psle_trans; eauto.
  - unfold pots. lia.
  - unfold caps. lia.
  - intros Ht. unfold pots. destruct (T2 Ht) as [Ht1|]; [|right; lia]. destruct (T1 Ht1); auto. right. lia.
  - intros Hf. destruct (F2 Hf) as [Hf1 E]. destruct (F1 Hf1) as (-> & E' & Z). unfold done_state. ands; auto. rewrite E, E'. auto.
Qed.
Lemma dnc_close_ok B rules : forall r s As, dinv B rules s As -> (forall A, In A As -> awl A = []) -> caps B As s <= r + pots B As s ->
  exists bd s' As', (forall fuel, bd <= fuel -> dnc_close fuel rules s = Ok s') /\ dinv B rules s' As' /\ psle (st_phys s) (st_phys s') /\ grow B As As' /\ done_state rules s' As'.
Proof.
  induction r as [r IH] using (well_founded_induction lt_wf). intros s As D Wl Hr.
  destruct (dnc_pass_ok B rules s As D) as (bd & s1 & ch & As1 & E & D1 & L1 & G1 & P1 & C1 & W1 & T1 & F1). destruct ch.
  - assert (Lt : pots B As s < pots B As1 s1). { destruct (T1 eq_refl) as [(A & HA & Hn)|]; auto. exfalso. apply Hn. auto. }
    pose proof (pots_caps B rules s1 As1 D1).
    destruct (IH (caps B As s - pots B As1 s1)) with (s := s1) (As := As1) as (bd2 & s2 & As2 & E2 & D2 & L2 & G2 & F2); auto; try lia.
    exists (S (Nat.max bd bd2)), s2, As2. ands; auto.
    + intros fuel Hf. destruct fuel as [|f]; [lia|]. cbn [dnc_close]. rewrite E by lia. cbn [bind]. apply E2. lia.
    + eapply psle_trans; eauto.
    + eapply grow_trans; eauto.
  - exists (S bd), s1, As1. ands; auto. intros fuel Hf. destruct fuel as [|f]; [lia|]. cbn [dnc_close]. rewrite E by lia. reflexivity.
Qed.
Lemma dnc_close_any B rules s As : dinv B rules s As ->
  exists bd s' As', (forall fuel, bd <= fuel -> dnc_close fuel rules s = Ok s') /\ dinv B rules s' As' /\ psle (st_phys s) (st_phys s') /\ grow B As As' /\ done_state rules s' As'.
Proof.
  intros D. destruct (dnc_pass_ok B rules s As D) as (bd & s1 & ch & As1 & E & D1 & L1 & G1 & P1 & C1 & W1 & T1 & F1). destruct ch.
  - destruct (dnc_close_ok B rules (caps B As1 s1) s1 As1) as (bd2 & s2 & As2 & E2 & D2 & L2 & G2 & F2); auto; try lia.
    exists (S (Nat.max bd bd2)), s2, As2. ands; auto.
    + intros fuel Hf. destruct fuel as [|f]; [lia|]. cbn [dnc_close]. rewrite E by lia. cbn [bind]. apply E2. lia.
    + eapply psle_trans; eauto.
    + eapply grow_trans; eauto.
  - exists (S bd), s1, As1. ands; auto. intros fuel Hf. destruct fuel as [|f]; [lia|]. cbn [dnc_close]. rewrite E by lia. reflexivity.
Qed.

(** *** from and to the specification *)
Lemma start_dinv rules s : well_formed rules s -> startable rules s -> exists B As, dinv B rules s As.
Proof.
  intros (H1 & H2 & H3) (R & Of & Ss). destruct (reached_good _ R) as (As & fl & W). cbn [graphs_of w_mem w_graphs] in W. pose proof (wi_len _ _ _ _ W) as Ln.
  assert (HA : forall A, In A As -> kindsA A /\ composed A).
  { intros A HA. apply In_nth_error in HA. destruct HA as (x & HA). assert (Lx : x < length (st_augs s)) by (rewrite <- Ln; apply nth_error_Some; congruence). destruct (Ss x Lx) as [S1 S2].
    split; [eapply (small_kindsA (graphs_of s)); eauto|eapply (settledA (graphs_of s)); eauto]. }
  destruct (bound_graphs As) as (B & HB). { intros A HA'. apply HA. auto. }
  assert (Hg : forall x A, nth_error As x = Some A -> exists g, nth_error (st_augs s) x = Some g /\ n_inst g = an A). { intros x A HA'. destruct (an_graph (graphs_of s) As fl x A W HA') as (g & E1 & E2 & _). eauto. }
  exists B, As. constructor; eauto.
  - congruence.
  - intros x r A Hr HA' [start ox] Hb y Hy. cbn [fst snd] in *. subst ox. destruct (Hg x A HA') as (g & Eg & En). rewrite <- En. eapply H3; eauto.
  - intros A HA'. apply HA. auto.
  - intros x r A Hr HA' start y p Hb Hp F i j a c k Hi Hj Hin Hw. destruct (Hg x A HA') as (g & Eg & En). destruct (H3 x r g start y Hr Eg Hb) as (p0 & Ep & Hn & _). assert (p0 = p) by congruence. subst p0. rewrite En in Hn.
    eapply (Of x r (awl A) start y p i j (cell A (start + i) (start + j)) a c k); eauto.
    + eapply (queue_awl (graphs_of s)); eauto.
    + eapply (members_cell (graphs_of s)); eauto; lia.
Qed.
Lemma ent_lower_seen A o i j : at_most (edgeset_lowerbound (pairs (cell A i j))) (kindA A o i j) = true.
Proof. apply elow_seen. Qed.
Lemma done_spec B rules s As : dinv B rules s As -> done_state rules s As -> graphs_closed s /\ synchronised rules s /\ well_formed rules s.
Proof.
  intros D (Wl & Sc & Pd). destruct (di_world _ _ _ _ D) as (fl & W).
  assert (Hg : forall x A, nth_error As x = Some A -> exists g, nth_error (st_augs s) x = Some g /\ n_inst g = an A /\ length (acells A) = an A * an A).
  { intros x A HA'. destruct (an_graph (graphs_of s) As fl x A W HA') as (g & E1 & E2 & G). exists g. ands; auto. apply G. }
  assert (Hx : forall x g, nth_error (st_augs s) x = Some g -> exists A, nth_error As x = Some A). { intros x g Eg. destruct (world_focus _ _ _ _ _ _ W Eg) as (A & EA & _). eauto. }
  ands.
  - split; auto. intros x g Eg. destruct (Hx x g Eg) as (A & EA). destruct (Hg x A EA) as (g' & Eg' & En & Lc). assert (g' = g) by congruence. subst g'. pose proof (nth_error_In _ _ EA) as InA. ands.
    + eapply (queue_awl (graphs_of s)); eauto. symmetry. auto.
    + eapply (small_kindsA (graphs_of s)); eauto. intros l a c k Hl Hi. eapply (di_bound _ _ _ _ D); eauto.
    + intros o i j k Hi Hj Hk. rewrite En in *. rewrite !(kind_of_pair_A (graphs_of s) As fl x A o) by auto. eapply composed_closed; eauto; [eapply di_bound; eauto|eapply di_comp; eauto].
  - intros x r start y p i j o Hr Hb Hp Hi Hj. cbv zeta.
    assert (Lr : x < length As) by (rewrite <- (di_len _ _ _ _ D); apply nth_error_Some; congruence). destruct (nth_error As x) as [A|] eqn:EA; [|apply nth_error_None in EA; lia].
    destruct (di_blk _ _ _ _ D x r A Hr EA (start, Some y) Hb y eq_refl) as (p0 & Ep & Hn & _). assert (p0 = p) by congruence. subst p0. cbn [fst] in Hn.
    rewrite (kind_of_pair_A (graphs_of s) As fl x A o) by (auto; lia). split.
    + intros F. unfold kindA. apply at_most_incl. intros b Hb'. unfold tb, dependency_indirect in Hb'. rewrite N.ldiff_spec, andb_true_iff in Hb'. destruct Hb' as [Hb1 Hb2]. apply (seen_bit o) in Hb1. destruct Hb1 as (a & c & k & Hin & Mo & Hk).
      pose proof (di_push _ _ _ _ D x r A Hr EA start y p Hb Hp F i j a c k Hi Hj Hin) as Q. rewrite (Wl A (nth_error_In _ _ EA)) in Q. specialize (Q (fun z => z)). apply at_most_incl in Q. apply Q. unfold tb, dependency_indirect in *. now rewrite N.ldiff_spec, Hk, Hb2.
    + eapply at_most_trans; [eapply (Pd x r A Hr EA start y p Hb Hp i j Hi Hj)|]. apply ent_lower_seen.
  - split; [|split].
    + rewrite (di_len _ _ _ _ D). apply W.
    + intros p Hp. apply (di_mats _ _ _ _ D p Hp).
    + intros x r g start y Hr Eg Hb. destruct (Hx x g Eg) as (A & EA). destruct (Hg x A EA) as (g' & Eg' & En & _). assert (g' = g) by congruence. subst g'. rewrite En. apply (di_blk _ _ _ _ D x r A Hr EA (start, Some y) Hb y eq_refl).
Qed.
Lemma grow_spec B rules s As s' As' : dinv B rules s As -> dinv B rules s' As' -> psle (st_phys s) (st_phys s') -> grow B As As' -> only_grew s s'.
Proof.
  intros D D' L G. destruct (di_world _ _ _ _ D) as (fl & W). destruct (di_world _ _ _ _ D') as (fl' & W'). pose proof (wi_len _ _ _ _ W) as Ln. pose proof (wi_len _ _ _ _ W') as Ln'. pose proof (gr_len _ _ _ G) as Lg. unfold only_grew. ands.
  - congruence.
  - apply L.
  - intros x g Eg. destruct (world_focus _ _ _ _ _ _ W Eg) as (A & EA & Gi). assert (Lx : x < length As') by (rewrite Lg; apply nth_error_Some; congruence). destruct (nth_error As' x) as [A'|] eqn:EA'; [|apply nth_error_None in EA'; lia].
    destruct (an_graph (graphs_of s') As' fl' x A' W' EA') as (g' & Eg' & En' & _). destruct (gr_ent _ _ _ G x A A' EA EA') as [Ea Ent]. pose proof (gp_n _ _ _ (gi_part _ _ _ _ _ Gi)) as En.
    exists g'. ands; auto; try congruence. intros o i j Hi Hj. rewrite En in *. rewrite (kind_of_pair_A (graphs_of s) As fl x A o) by auto. rewrite (kind_of_pair_A (graphs_of s') As' fl' x A' o) by (auto; lia). apply ent_mono_kind. intros c k. apply Ent; auto.
  - intros y p Ep. destruct (psle_get _ _ _ _ L Ep) as (p' & Ep' & Pl). exists p'. ands; auto; try apply Pl. intros i j _ _. apply mle_get, Pl.
Qed.

(** ** C43: the iteration terminates; then every production graph (under every
    outcome) and every summary graph is transitively closed, each node's part of
    each production graph agrees with its phylum's summary (up to the direct bit,
    and for functions only downwards), and nothing was lost. *)
Theorem C43_dnc_close : forall rules s, well_formed rules s -> startable rules s ->
  exists bound s', (forall fuel, bound <= fuel -> dnc_close fuel rules s = Ok s') /\
    well_formed rules s' /\ graphs_closed s' /\ synchronised rules s' /\ only_grew s s'.
Proof.
  intros rules s Wf St. destruct (start_dinv rules s Wf St) as (B & As & D). destruct (dnc_close_any B rules s As D) as (bd & s' & As' & E & D' & L & G & F).
  destruct (done_spec B rules s' As' D' F) as (F1 & F2 & F3). exists bd, s'. ands; auto. eapply grow_spec; eauto.
Qed.
(** The state after init_analysis_state: edges were only added, all wait in the queue. *)
Lemma built_startable rules s : well_formed rules s -> built (graphs_of s) -> startable rules s.
Proof.
  intros Wf Bw. split; [now apply built_reached|]. split; [|intros x Lx; now apply built_settled].
  intros x r q start y p i j l a c k Hr Q Hb Hp F Hi Hj M Hin Hn. exfalso. apply Hn. destruct (built_inv _ Bw) as (As & fl & W & H).
  assert (exists A, nth_error As x = Some A) as (A & HA). { destruct Q as (g & Hg & _). destruct (world_focus _ _ _ _ _ _ W Hg) as (A & HA & _). eauto. }
  apply (queue_awl _ _ _ _ _ _ W HA) in Q. subst q. destruct (an_graph _ _ _ _ _ W HA) as (g & Hg & En & G). pose proof (gp_clen _ _ _ (gi_part _ _ _ _ _ G)) as Lc.
  destruct (H A (nth_error_In _ _ HA)) as [_ Q].
  destruct Wf as (_ & _ & Wf). destruct (Wf x r g start y Hr Hg Hb) as (p0 & Ep & Hs & _). assert (p0 = p) by congruence. subst p0. rewrite En in Hs.
  apply (members_cell _ _ _ _ _ _ _ _ W HA) in M; try lia. subst l. eapply (Q (start + i) (start + j)); try lia. eauto.
Qed.
Theorem C43_dnc_close_start : forall rules s, well_formed rules s -> built (graphs_of s) ->
  exists bound s', (forall fuel, bound <= fuel -> dnc_close fuel rules s = Ok s') /\
    well_formed rules s' /\ graphs_closed s' /\ synchronised rules s' /\ only_grew s s'.
Proof. intros rules s Wf Bw. apply C43_dnc_close; auto. now apply built_startable. Qed.

(** A grammar: X ::= X with an inherited attribute passed down and a synthesized
    one passed up, X ::= (nothing) where the synthesized one is computed from the
    inherited one if test 0 succeeds. *)
Definition ex_rules : list rule := [mkRule [7; 8; 7; 8] [(0, Some 0); (2, Some 0)]; mkRule [7; 8] [(0, Some 0)]].
Definition ex_ops : list op := [NewGraph 4; AddEdge 0 0 2 (mkCond 0 0) 31; AddEdge 0 3 1 (mkCond 0 0) 31; NewGraph 2; AddEdge 1 0 1 (mkCond 1 0) 27]%N.
Definition ex_phys : list phy := [mkPhy [7; 8] [0; 0; 0; 0]%N false].
Example C43_example : exists s s', well_formed ex_rules s /\ built (graphs_of s) /\ dnc_close 40 ex_rules s = Ok s' /\
  map mingraph (st_phys s') = [[0; 19; 0; 0]%N] /\ kind_of_pair (graphs_of s') 0 (fun _ => false) 0 1 = 19%N.
Proof.
  destruct (build ex_ops (mkWorld (mkMem [] 0) [])) as [w|] eqn:E; [|vm_compute in E; discriminate]. pose proof (build_ok _ _ _ built_start E) as Bw.
  exists (mkState (w_mem w) (w_graphs w) ex_phys). revert Bw. vm_compute in E. injection E as <-. intros Bw. eexists. ands.
  - split; [reflexivity|]. split.
    + intros p [<-|[]]. split; [reflexivity|]. intros x Hx. cbn in Hx. repeat (destruct Hx as [<-|Hx]; [apply zero_ok|]). destruct Hx.
    + intros x r g start y Hr Hg Hb. destruct x as [|[|x]]; cbn in Hr, Hg; try (destruct x; discriminate); injection Hr as <-; injection Hg as <-; cbn in Hb.
      * repeat (destruct Hb as [Hb|Hb]; [injection Hb as <- <-; eexists; split; [reflexivity|]; split; [cbn; lia|]; intros i Hi; cbn in Hi; destruct i as [|[|i]]; [reflexivity|reflexivity|lia]|]). destruct Hb.
      * repeat (destruct Hb as [Hb|Hb]; [injection Hb as <- <-; eexists; split; [reflexivity|]; split; [cbn; lia|]; intros i Hi; cbn in Hi; destruct i as [|[|i]]; [reflexivity|reflexivity|lia]|]). destruct Hb.
  - exact Bw.
  - vm_compute. reflexivity.
  - reflexivity.
  - vm_compute. reflexivity.
Qed.
Print Assumptions C43_dnc_close.
Print Assumptions C43_dnc_close_start.
