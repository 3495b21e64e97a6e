(** * OaProofs: closing again after a summary graph has been scheduled. *)
From Verif Require Import Base CondModel EdgeModel DncModel PropsCond EdgeProofs EdgeAddProofs EdgeGraph EdgeSem EdgeWorld PropsEdge SummaryProofs CloseProofs PropsClose DncProofs PropsDnc.
Open Scope nat_scope.

(** ** which dependencies there are, whatever their kinds *)
Definition zeq (n : nat) (mg mg' : list N) : Prop := forall i j, i < n -> j < n -> get mg n i j = 0%N <-> get mg' n i j = 0%N.
Lemma zeq_refl n mg : zeq n mg mg.
Proof. intros i j _ _. reflexivity. Qed.
Lemma zeq_trans n a b c : zeq n a b -> zeq n b c -> zeq n a c.
Proof. intros H1 H2 i j Hi Hj. rewrite (H1 i j Hi Hj). auto. Qed.
(** a dependency under every outcome *)
Definition everA (A : agraph) (i j : nat) : Prop := forall o, kindA A o i j <> 0%N.
Definition kallA (A : agraph) (i j : nat) : N := edgeset_kind (pairs (cell A i j)).
(** an indirect dependency in the graph is in the summary graph and back *)
Definition bweak (p : phy) (start : nat) (A : agraph) : Prop := is_func p = false -> forall i j, i < p_n p -> j < p_n p ->
  dependency_indirect (kallA A (start + i) (start + j)) <> 0%N -> get (mingraph p) (p_n p) i j <> 0%N /\ everA A (start + i) (start + j).
Definition bpulled0 (p : phy) (start : nat) (A : agraph) : Prop := forall i j, i < p_n p -> j < p_n p -> get (mingraph p) (p_n p) i j <> 0%N -> everA A (start + i) (start + j).
Record peq (p p' : phy) : Prop := { pe_labels : p_labels p' = p_labels p; pe_func : is_func p' = is_func p; pe_z : zeq (p_n p) (mingraph p) (mingraph p') }.
Lemma peq_refl p : peq p p.
Proof. constructor; auto using zeq_refl. Qed.
Lemma peq_n p p' : peq p p' -> p_n p' = p_n p.
Proof. intros H. unfold p_n. now rewrite (pe_labels _ _ H). Qed.
Lemma peq_trans a b c : peq a b -> peq b c -> peq a c.
Proof. intros X Y. destruct X as [X1 X2 X3], Y as [Y1 Y2 Y3]. constructor; try congruence. eapply zeq_trans; eauto. assert (E : p_n b = p_n a) by (unfold p_n; now rewrite X1). rewrite <- E. exact Y3. Qed.
Lemma bweak_eq p p' start A : peq p p' -> bweak p start A -> bweak p' start A.
Proof. intros E H F i j Hi Hj Hk. rewrite (peq_n _ _ E) in *. rewrite (pe_func _ _ E) in F. destruct (H F i j Hi Hj Hk) as [H1 H2]. split; auto. intros Z. apply H1. now apply (pe_z _ _ E). Qed.
Lemma bpulled0_eq p p' start A : peq p p' -> bpulled0 p start A -> bpulled0 p' start A.
Proof. intros E H i j Hi Hj Hk. rewrite (peq_n _ _ E) in *. apply H; auto. intros Z. apply Hk. now apply (pe_z _ _ E). Qed.

Lemma at_most_zero k : at_most k 0 = true -> k = 0%N.
Proof. intros H. unfold at_most in H. rewrite N.ldiff_0_r in H. now apply N.eqb_eq in H. Qed.
Lemma low_ever A i j mn : mn <> 0%N -> at_most mn (edgeset_lowerbound (pairs (cell A i j))) = true -> everA A i j.
Proof. intros H L o Z. apply H, at_most_zero. rewrite <- Z. eapply at_most_trans; [exact L|]. apply elow_seen. Qed.
Lemma ekind_pushed l mn : (forall a c k, In (a, c, k) l -> at_most (dependency_indirect k) mn = true) <-> at_most (dependency_indirect (edgeset_kind (pairs l))) mn = true.
Proof.
  split.
  - intros H. apply at_most_incl. intros b Hb. unfold tb, dependency_indirect in Hb. rewrite N.ldiff_spec, andb_true_iff in Hb. destruct Hb as [Hb Hd].
    induction l as [|[[a c] k] t IH]; [change (edgeset_kind (pairs [])) with 0%N in Hb; rewrite N.bits_0 in Hb; discriminate|]. cbn [pairs map] in Hb. fold (pairs t) in Hb. rewrite ekind_cons in Hb. unfold dependency_join in Hb. rewrite N.lor_spec, orb_true_iff in Hb. cbn [snd kind_of] in Hb.
    destruct Hb as [Hb|Hb]; [|apply IH; auto; intros; apply (H a0 c0 k0); now right]. specialize (H a c k (or_introl eq_refl)). apply at_most_incl in H. apply H. unfold tb, dependency_indirect. rewrite N.ldiff_spec, Hb, Hd. reflexivity.
  - intros H a c k Hin. eapply at_most_trans; [|exact H]. apply indirect_mono. apply (ekind_in _ c). apply in_map_iff. exists (a, c, k). auto.
Qed.
Lemma sync_cell_weak B foreign m g A fl start n isf mg i j : ginv m g A foreign fl -> abound B A -> matrix n mg -> start + n <= an A -> i < n -> j < n ->
  exists m' g' mg' A', sync_cell start n isf (start + i) (start + j) (m, g, mg) = Ok (m', g', mg') /\ astep B foreign m A m' g' A' /\ matrix n mg' /\
    (A' = A -> (isf = false -> dependency_indirect (kallA A (start + i) (start + j)) <> 0%N -> get mg n i j <> 0%N /\ everA A (start + i) (start + j)) ->
      zeq n mg mg' /\ (get mg n i j <> 0%N -> everA A (start + i) (start + j))).
Proof.
  intros G HB Mx Hn Hi Hj.
  destruct (sync_cell_ok B foreign m g A fl start n isf mg i j G HB Mx Hn Hi Hj) as (m' & g' & mg' & A' & E & St & Mx' & Le & Pu & Sa).
  exists m', g', mg', A'. ands; auto. intros EA K. specialize (Sa EA).
  destruct (negb (at_most (dependency_indirect (kallA A (start + i) (start + j))) (get mg n i j)) && negb isf) eqn:Ep.
  - pose proof Ep as Ep0. apply andb_true_iff in Ep. rewrite !negb_true_iff in Ep. destruct Ep as [Ep Ei]. 
    assert (Kz : dependency_indirect (kallA A (start + i) (start + j)) <> 0%N). { intros Z. rewrite Z in Ep. discriminate. }
    destruct (K Ei Kz) as [K1 K2]. split; [|auto].
    pose proof (gi_part _ _ _ _ _ G) as P. pose proof (gp_n _ _ _ P) as En.
    assert (Hsi : start + i < an A) by lia. assert (Hsj : start + j < an A) by lia.
    destruct (read_cell _ _ _ _ _ _ _ G Hsi Hsj) as (p & E1 & E2). unfold sync_cell in E. rewrite E1 in E. cbn [bind] in E. rewrite E2 in E. cbn [bind] in E.
    replace (start + i - start) with i in E by lia. replace (start + j - start) with j in E by lia. rewrite (rd_get n mg i j) in E by auto. cbn [bind] in E.
    fold (kallA A (start + i) (start + j)) in E. rewrite Ep0 in E.
    destruct (N.eqb_spec (dependency_join (dependency_indirect (kallA A (start + i) (start + j))) (get mg n i j)) (get mg n i j)) as [Ek|Ek]; [discriminate|].
    assert (Li : i * n + j < length mg) by (destruct Mx as [-> _]; now apply idx_lt). rewrite wr_Ok in E by auto. cbn [bind] in E. injection E as _ _ <-.
    intros i' j' Hi' Hj'. rewrite (get_upd n mg i j _ i' j') by auto. destruct (Nat.eqb_spec i i') as [->|]; cbn [andb]; [|tauto]. destruct (Nat.eqb_spec j j') as [->|]; [|tauto].
    split; intros Z; [contradiction|]. unfold dependency_join in Z. apply N.lor_eq_0_iff in Z. tauto.
  - destruct Sa as [-> Pl].
    + intros F. subst isf. rewrite andb_true_r in Ep. apply negb_false_iff in Ep. apply ekind_pushed. exact Ep.
    + split; [apply zeq_refl|]. intros Z. eapply low_ever; eauto.
Qed.
Record wstate (B : N) (foreign : list addr) (start n : nat) (isf : bool) (m0 : mem) (A0 : agraph) (mg0 : list N) (D : nat -> nat -> Prop) (st : mem * aug * list N) (A : agraph) : Prop := {
  ws_step : astep B foreign m0 A0 (fst (fst st)) (snd (fst st)) A;
  ws_mat : matrix n (snd st);
  ws_same : A = A0 -> (isf = false -> forall i j, i < n -> j < n -> dependency_indirect (kallA A0 (start + i) (start + j)) <> 0%N -> get mg0 n i j <> 0%N /\ everA A0 (start + i) (start + j)) ->
    zeq n mg0 (snd st) /\ forall i j, D i j -> i < n -> j < n -> get mg0 n i j <> 0%N -> everA A0 (start + i) (start + j) }.
Lemma sync_step_weak B foreign start n isf m0 A0 mg0 D st A i j : wstate B foreign start n isf m0 A0 mg0 D st A -> start + n <= an A0 -> i < n -> j < n ->
  exists st' A', sync_cell start n isf (start + i) (start + j) st = Ok st' /\ wstate B foreign start n isf m0 A0 mg0 (fun i' j' => D i' j' \/ (i' = i /\ j' = j)) st' A'.
Proof.
  destruct st as [[m g] mg]. intros [S1 S2 S5] Hn Hi Hj. cbn [fst snd] in *. destruct (as_inv _ _ _ _ _ _ _ S1) as (fl & G). pose proof (ge_n _ _ _ (as_ext _ _ _ _ _ _ _ S1)) as En.
  destruct (sync_cell_weak B foreign m g A fl start n isf mg i j G (as_bound _ _ _ _ _ _ _ S1) S2) as (m' & g' & mg' & A' & E & St & Mx & Sa); auto; try lia.
  exists (m', g', mg'), A'. split; auto. constructor; cbn [fst snd]; auto.
  - eapply astep_trans; eauto.
  - intros -> Q. pose proof (astep_same _ _ _ _ _ _ _ _ _ S1 St) as EA. subst A. destruct (S5 eq_refl Q) as [Z1 Z]. destruct (Sa eq_refl) as [Z2 W].
    { intros F Hk. destruct (Q F i j Hi Hj Hk) as [Q1 Q2]. split; auto. intros Z0. apply Q1. now apply Z1. }
    split; [eapply zeq_trans; eauto|]. intros i' j' [Hd|[-> ->]] Hi' Hj' H0; [apply Z; auto|]. apply W. intros Z0. apply H0. now apply Z1.
Qed.
Lemma synchronize_weak B foreign labels m g A fl start p : ginv m g A foreign fl -> abound B A -> pmat p -> start + p_n p <= an A -> (forall i, i < p_n p -> nth_error labels (start + i) = nth_error (p_labels p) i) ->
  exists m' g' p' A', synchronize labels start p m g = Ok (m', g', p') /\ astep B foreign m A m' g' A' /\ pmat p' /\ (A' = A -> bweak p start A -> peq p p' /\ bpulled0 p start A).
Proof.
  intros G HB Mx Hn Lb. unfold synchronize. set (n := p_n p) in *.
  pose (J := fun (done : list nat) (st : mem * aug * list N) => exists A1, wstate B foreign start n (is_func p) m A (mingraph p) (fun i j => In (start + i) done /\ j < n) st A1).
  match goal with |- exists m' g' p' A', (x <- foldM ?f ?l ?b ;; _) = _ /\ _ => destruct (foldM_inv f l J b) as ([[m' g'] mg'] & E & A1 & S) end.
  - exists A. constructor; cbn [fst snd]; auto.
    + eapply astep_refl; eauto.
    + intros _ _. split; [apply zeq_refl|]. cbn. tauto.
  - intros done si rest st El (A1 & S). assert (Hs : In si (seq start n)) by (rewrite El; apply in_or_app; right; now left). apply in_seq in Hs.
    assert (Hi : exists i, si = start + i /\ i < n) by (exists (si - start); lia). destruct Hi as (i & -> & Hi).
    assert (Li : i < length (p_labels p)) by exact Hi. destruct (nth_error (p_labels p) i) as [lb|] eqn:El1; [|apply nth_error_None in El1; lia].
    rewrite (proj2 (rd_Ok _ _ _) (eq_trans (Lb i Hi) El1)). cbn [bind]. replace (start + i - start) with i by lia. rewrite (proj2 (rd_Ok _ _ _) El1). cbn [bind]. rewrite Nat.eqb_refl. cbn [negb].
    pose (J2 := fun (done2 : list nat) (st : mem * aug * list N) => exists A1, wstate B foreign start n (is_func p) m A (mingraph p) (fun i' j => (In (start + i') done /\ j < n) \/ (i' = i /\ In (start + j) done2)) st A1).
    match goal with |- exists b, foldM ?f ?l ?b = _ /\ _ => destruct (foldM_inv f l J2 b) as (st2 & E2 & A2 & S2) end.
    + exists A1. destruct S as [Q1 Q2 Q5]. constructor; auto.
      intros Ea Q. destruct (Q5 Ea Q) as [X Y]. split; auto. intros i' j [Hd|[_ []]]. auto.
    + clear S. intros done2 sj rest2 st2 El2 (A2 & S2). assert (Hs2 : In sj (seq start n)) by (rewrite El2; apply in_or_app; right; now left). apply in_seq in Hs2.
      assert (Hj : exists j, sj = start + j /\ j < n) by (exists (sj - start); lia). destruct Hj as (j & -> & Hj).
      destruct (sync_step_weak _ _ _ _ _ _ _ _ _ _ _ i j S2 Hn Hi Hj) as (st3 & A3 & E3 & S3). exists st3. split; auto. exists A3. destruct S3 as [Q1 Q2 Q5]. constructor; auto.
      intros Ea Q. destruct (Q5 Ea Q) as [X Y]. split; auto. intros i' j' Hd. apply Y. destruct Hd as [|[-> Hd]]; auto. apply in_app_iff in Hd. destruct Hd as [|[Eq|[]]]; auto. right. split; auto. lia.
    + exists st2. split; auto. exists A2. destruct S2 as [Q1 Q2 Q5].
      assert (Cv : forall i' j', In (start + i') (done ++ [start + i]) /\ j' < n -> (In (start + i') done /\ j' < n) \/ (i' = i /\ In (start + j') (seq start n))).
      { intros i' j' [Hd Hj]. apply in_app_iff in Hd. destruct Hd as [|[Eq|[]]]; auto. right. split; [lia|]. apply in_seq. lia. }
      constructor; auto. intros Ea Q. destruct (Q5 Ea Q) as [X Y]. split; auto.
  - rewrite E. cbn [bind]. destruct S as [Q1 Q2 Q5]. cbn [fst snd] in *. eexists m', g', _, A1. split; [reflexivity|]. ands; auto.
    intros Ea Q. destruct (Q5 Ea Q) as [X Y]. split; [constructor; auto|]. intros i j Hi Hj H0. apply Y; auto. split; auto. apply in_seq. fold n in Hi. lia.
Qed.

(** ** all blocks *)
Definition pseq (ps ps' : list phy) : Prop := length ps' = length ps /\ forall x p p', nth_error ps x = Some p -> nth_error ps' x = Some p' -> peq p p'.
Lemma pseq_refl ps : pseq ps ps.
Proof. split; auto. intros x p p' H1 H2. assert (p' = p) by congruence. subst. apply peq_refl. Qed.
Lemma pseq_get ps ps' x p : pseq ps ps' -> nth_error ps x = Some p -> exists p', nth_error ps' x = Some p' /\ peq p p'.
Proof. intros [L H] E. destruct (nth_error ps' x) as [p'|] eqn:E'; eauto. apply nth_error_None in E'. assert (x < length ps) by (apply nth_error_Some; congruence). lia. Qed.
Lemma pseq_trans a b c : pseq a b -> pseq b c -> pseq a c.
Proof. intros [L1 H1] [L2 H2]. split; [congruence|]. intros x p p'' E1 E3. destruct (pseq_get a b x p (Logic.conj L1 H1) E1) as (p' & E2 & X). eapply peq_trans; eauto. Qed.
Lemma pseq_upd ps x p p' : nth_error ps x = Some p -> peq p p' -> pseq ps (upd ps x p').
Proof.
  intros E H. split; [apply upd_length|]. intros y q q' E1 E2. rewrite nth_error_upd in E2. destruct (Nat.eqb_spec x y) as [->|].
  - destruct (y <? length ps); [|discriminate]. injection E2 as <-. assert (q = p) by congruence. subst. auto.
  - assert (q' = q) by congruence. subst. apply peq_refl.
Qed.
Definition weakA (blocks : list (nat * option nat)) (ps : list phy) (A : agraph) : Prop := forall start x p, In (start, Some x) blocks -> nth_error ps x = Some p -> bweak p start A.
Definition pulled0A (blocks : list (nat * option nat)) (ps : list phy) (A : agraph) : Prop := forall start x p, In (start, Some x) blocks -> nth_error ps x = Some p -> bpulled0 p start A.
Lemma weakA_eq blocks ps ps' A : pseq ps ps' -> weakA blocks ps A -> weakA blocks ps' A.
Proof. intros E H start x p' Hb Hp. destruct (nth_error ps x) as [p|] eqn:Ep; [|apply nth_error_None in Ep; assert (x < length ps') by (apply nth_error_Some; congruence); rewrite (proj1 E) in *; lia]. eapply bweak_eq; [eapply (proj2 E); eauto|]. eapply H; eauto. Qed.
Lemma pulled0A_eq blocks ps ps' A : pseq ps ps' -> pulled0A blocks ps A -> pulled0A blocks ps' A.
Proof. intros E H start x p' Hb Hp. destruct (nth_error ps x) as [p|] eqn:Ep; [|apply nth_error_None in Ep; assert (x < length ps') by (apply nth_error_Some; congruence); rewrite (proj1 E) in *; lia]. eapply bpulled0_eq; [eapply (proj2 E); eauto|]. eapply H; eauto. Qed.
Lemma augment_weak B foreign r m g A fl ps : ginv m g A foreign fl -> abound B A -> pmats ps -> (forall b, In b (r_blocks r) -> blk_ok (r_labels r) (an A) ps b) ->
  exists m' g' ps' A', augment r m g ps = Ok (m', g', ps') /\ astep B foreign m A m' g' A' /\ (A' = A -> weakA (r_blocks r) ps A -> pseq ps ps' /\ pulled0A (r_blocks r) ps A).
Proof.
  intros G HB Mx Hb. unfold augment.
  pose (J := fun (done : list (nat * option nat)) (st : mem * aug * list phy) => exists A1, astep B foreign m A (fst (fst st)) (snd (fst st)) A1 /\ pmats (snd st) /\ psle ps (snd st) /\
    (A1 = A -> weakA (r_blocks r) ps A -> pseq ps (snd st) /\ pulled0A done ps A)).
  match goal with |- exists m' g' p' A', foldM ?f ?l ?b = _ /\ _ => destruct (foldM_inv f l J b) as ([[m' g'] ps'] & E & A1 & S1 & S2 & S3 & S5) end.
  - exists A. cbn [fst snd]. ands; auto using psle_refl.
    + eapply astep_refl; eauto.
    + intros _ _. split; [apply pseq_refl|]. intros start x p [].
  - intros done [start ox] rest [[m1 g1] ps1] El (A1 & S1 & S2 & S3 & S5). cbn [fst snd] in *.
    assert (Hin : In (start, ox) (r_blocks r)) by (rewrite El; apply in_or_app; right; now left).
    destruct ox as [x|].
    2:{ exists (m1, g1, ps1). split; auto. exists A1. cbn [fst snd]. ands; auto.
        intros Ea Q. destruct (S5 Ea Q) as [X Y]. split; auto. intros s x p Hi. apply in_app_iff in Hi. destruct Hi as [|[|[]]]; [apply Y; auto|discriminate]. }
    destruct (blk_ok_mono _ _ _ _ _ S3 (Hb _ Hin) x eq_refl) as (p & Ep & Hn & Lb). cbn [fst] in Hn, Lb. rewrite (proj2 (rd_Ok _ _ _) Ep). cbn [bind].
    destruct (as_inv _ _ _ _ _ _ _ S1) as (fl1 & G1). pose proof (ge_n _ _ _ (as_ext _ _ _ _ _ _ _ S1)) as En.
    assert (Pm : pmat p) by (apply S2; eapply nth_error_In; eauto).
    destruct (synchronize_ok B foreign (r_labels r) m1 g1 A1 fl1 start p G1 (as_bound _ _ _ _ _ _ _ S1)) as (m2 & g2 & p' & A2 & E2 & T1 & T2 & T3 & _ & _); auto; try lia.
    destruct (synchronize_weak B foreign (r_labels r) m1 g1 A1 fl1 start p G1 (as_bound _ _ _ _ _ _ _ S1)) as (m3 & g3 & p3 & A3 & E3 & U1 & _ & U5); auto; try lia.
    rewrite E2 in E3. injection E3 as <- <- <-.
    rewrite E2. cbn [bind]. assert (Lx : x < length ps1) by (apply nth_error_Some; congruence). rewrite wr_Ok by auto. cbn [bind].
    eexists. split; [reflexivity|]. exists A3. cbn [fst snd]. ands; auto.
    + eapply astep_trans; eauto.
    + intros q Hq. apply in_upd in Hq. destruct Hq as [->|Hq]; auto.
    + eapply psle_trans; eauto. eapply psle_upd; eauto.
    + intros -> Q. pose proof (astep_same _ _ _ _ _ _ _ _ _ S1 U1) as EA. subst A1. destruct (S5 eq_refl Q) as [Z1 Z]. pose proof (weakA_eq _ _ _ _ Z1 Q) as Q1.
      destruct (U5 eq_refl) as [Y W]. { eapply Q1; eauto. }
      split; [eapply pseq_trans; eauto; eapply pseq_upd; eauto|]. intros s y q Hi Eq. apply in_app_iff in Hi. destruct Hi as [Hi|[Hi|[]]]; [eapply Z; eauto|]. injection Hi as <- <-.
      destruct (pseq_get _ _ _ _ Z1 Eq) as (q1 & Eq1 & Pe). assert (q1 = p) by congruence. subst q1. intros i j Hi Hj H0. pose proof (peq_n _ _ Pe) as Np. apply W; try lia. rewrite Np. intros Z0. apply H0. now apply (pe_z _ _ Pe).
  - exists m', g', ps', A1. ands; auto.
Qed.

(** ** one production graph, in whatever state the summary graphs are *)
Lemma close_augmented_any B foreign r m g A fl ps : ginv m g A foreign fl -> abound B A -> composed A -> pmats ps -> (forall b, In b (r_blocks r) -> blk_ok (r_labels r) (an A) ps b) ->
  exists bd m' g' A' ps' c, (forall fuel, bd <= fuel -> close_augmented fuel r m g ps = Ok (m', g', ps', c)) /\ cstep B foreign r m A ps m' g' A' ps' /\
    (c = false -> A' = A /\ (weakA (r_blocks r) ps A -> pseq ps ps' /\ pulled0A (r_blocks r) ps A)).
Proof.
  intros G HB Cm Mx Hb.
  destruct (augment_ok B foreign r m g A fl ps G HB Mx Hb) as (m2 & g2 & ps2 & A2 & E2 & S2 & Mx2 & Pl2 & Pu2 & _).
  destruct (augment_weak B foreign r m g A fl ps G HB Mx Hb) as (m3 & g3 & ps3 & A3 & E3 & S3 & W3).
  rewrite E2 in E3. injection E3 as <- <- <-.
  destruct (as_inv _ _ _ _ _ _ _ S2) as (fl2 & G2). pose proof (as_ext _ _ _ _ _ _ _ S2) as X2. pose proof (ge_n _ _ _ X2) as N2. pose proof (ge_pot _ _ _ X2) as P2.
  assert (Hh := wl_head_nil _ _ _ _ _ G2). unfold close_augmented.
  destruct (Nat.eq_dec (wl_head g2) 0) as [Z|Z].
  - exists 0, m2, g2, A2, ps2, false. split.
    { intros fuel _. rewrite E2. cbn [bind]. rewrite Z. reflexivity. }
    assert (Z3 : awl A3 = []). { destruct (as_inv _ _ _ _ _ _ _ S3) as (fl3 & G3). now apply (wl_head_nil _ _ _ _ _ G3). }
    apply Hh in Z. assert (EA : A2 = A). { destruct (as_new _ _ _ _ _ _ _ S2) as [|[_ Y]]; auto. contradiction. } subst A2.
    assert (EA : A3 = A). { destruct (as_new _ _ _ _ _ _ _ S3) as [|[_ Y]]; auto. contradiction. } subst A3.
    split; [|intros _; split; auto]. constructor; auto; try apply S2.
  - destruct (close_rounds_ok B foreign r (room B A2) m2 g2 A2 fl2 ps2 G2 (as_bound _ _ _ _ _ _ _ S2) (composed_gext _ _ _ X2 Cm) Mx2) as (bd & m4 & g4 & A4 & ps4 & E4 & C3); auto.
    { intros b Hin. rewrite N2. eapply blk_ok_mono; eauto. }
    exists bd, m4, g4, A4, ps4, true. split.
    { intros fuel Hf. rewrite E2. cbn [bind]. rewrite (proj2 (Nat.eqb_neq _ _) Z). rewrite E4 by auto. reflexivity. }
    split; [|discriminate].
    destruct C3 as [Q1 Q2 Q3 Q4 Q5 Q6 Q7 Q8 Q9 Q10 Q11]. constructor; auto; try lia.
    + intros. apply Q6; try lia. apply (ge_ent _ _ _ X2); auto.
    + intros b Hf. rewrite Q7 by auto. apply (as_frame _ _ _ _ _ _ _ S2); auto.
    + eapply psle_trans; eauto.
Qed.

(** ** one pass *)
Record dinv0 (B : N) (rules : list rule) (s : state) (As : list agraph) : Prop := {
  d0_world : exists fl, winv (st_mem s) (st_augs s) As fl;
  d0_len : length rules = length As;
  d0_mats : pmats (st_phys s);
  d0_blk : forall x r A, nth_error rules x = Some r -> nth_error As x = Some A -> forall b, In b (r_blocks r) -> blk_ok (r_labels r) (an A) (st_phys s) b;
  d0_bound : forall A, In A As -> abound B A;
  d0_comp : forall A, In A As -> composed A }.
Lemma dinv_0 B rules s As : dinv B rules s As -> dinv0 B rules s As.
Proof. intros D. constructor; apply D. Qed.
(** closing the graph [x] again *)
Lemma graph_step B rules s As x : dinv0 B rules s As -> x < length rules ->
  exists bd r g A m g' A' ps c, nth_error rules x = Some r /\ nth_error (st_augs s) x = Some g /\ nth_error As x = Some A /\
    (forall fuel, bd <= fuel -> close_augmented fuel r (st_mem s) g (st_phys s) = Ok (m, g', ps, c)) /\
    let s' := mkState m (upd (st_augs s) x g') ps in let As' := upd As x A' in
    x < length (st_augs s) /\ dinv0 B rules s' As' /\ psle (st_phys s) ps /\ grow B As As' /\ awl A' = [] /\ pushedA (r_blocks r) ps A' /\
    (c = false -> A' = A /\ (weakA (r_blocks r) (st_phys s) A -> pseq (st_phys s) ps /\ pulled0A (r_blocks r) (st_phys s) A)).
Proof.
  intros D1 Hx.
  destruct (d0_world _ _ _ _ D1) as (fl & W). pose proof (d0_len _ _ _ _ D1) as Ln.
  destruct (nth_error rules x) as [r|] eqn:Er; [|apply nth_error_None in Er; lia].
  destruct (nth_error As x) as [A|] eqn:EA; [|apply nth_error_None in EA; lia].
  destruct (nth_error (st_augs s) x) as [g|] eqn:Eg; [|apply nth_error_None in Eg; rewrite <- (wi_len _ _ _ _ W) in Eg; lia].
  destruct (world_focus _ _ _ _ _ _ W Eg) as (A0 & EA0 & G). assert (A0 = A) by congruence. subst A0. pose proof (nth_error_In _ _ EA) as InA.
  destruct (close_augmented_any B (rest_ids As x) r (st_mem s) g A fl (st_phys s) G) as (bd & m' & g' & A' & ps' & c & Ec & C & Cf).
  { eapply d0_bound; eauto. } { eapply d0_comp; eauto. } { apply D1. } { eapply d0_blk; eauto. }
  exists bd, r, g, A, m', g', A', ps', c. cbv zeta.
  destruct C as [(fl' & Q1) Q2 Q3 Q4 Q5 Q6 Q7 Q8 Q9 Q10 Q11].
  assert (Ge : forall y C, nth_error (upd As x A') y = Some C -> (y = x /\ C = A') \/ (y <> x /\ nth_error As y = Some C)).
  { intros y C Hy. rewrite nth_error_upd in Hy. destruct (Nat.eqb_spec x y) as [->|]; auto. destruct (y <? length As); [|discriminate]. injection Hy as <-. auto. }
  ands; auto.
  - apply nth_error_Some. congruence.
  - constructor; cbn [st_mem st_augs st_phys]; auto.
    + exists fl'. eapply world_put; eauto.
    + now rewrite upd_length.
    + intros y r0 C Hr HC b Hb. eapply blk_ok_mono; eauto. destruct (Ge y C HC) as [[-> ->]|[Hy HC']]; [rewrite Q4; assert (r0 = r) by congruence; subst; eapply d0_blk; eauto|eapply d0_blk; eauto].
    + intros C HC. apply in_upd in HC. destruct HC as [->|HC]; auto. eapply d0_bound; eauto.
    + intros C HC. apply in_upd in HC. destruct HC as [->|HC]; auto. eapply d0_comp; eauto.
  - eapply grow_upd; eauto.
Qed.
Definition weak_state (rules : list rule) (s : state) (As : list agraph) : Prop := forall x r A, nth_error rules x = Some r -> nth_error As x = Some A -> weakA (r_blocks r) (st_phys s) A.
Definition pulled0_state (rules : list rule) (s : state) (As : list agraph) : Prop := forall x r A, nth_error rules x = Some r -> nth_error As x = Some A -> pulled0A (r_blocks r) (st_phys s) A.
Lemma augs_pass0 B rules s As : dinv0 B rules s As ->
  exists bd s' ch As', (forall fuel, bd <= fuel -> foldM (fun '(s, ch) j =>
      r <- rd rules j ;;
      g <- rd (st_augs s) j ;;
      '(m, g, ps, c) <- close_augmented fuel r (st_mem s) g (st_phys s) ;;
      gs <- wr (st_augs s) j g ;;
      Ok (mkState m gs ps, ch || c)) (seq 0 (length rules)) (s, false) = Ok (s', ch)) /\
    dinv B rules s' As' /\ psle (st_phys s) (st_phys s') /\ grow B As As' /\ (forall A, In A As' -> awl A = []) /\
    (ch = false -> As' = As /\ (weak_state rules s As -> pseq (st_phys s) (st_phys s') /\ pulled0_state rules s As)).
Proof.
  intros D.
  pose (J := fun (done : list nat) (st : state * bool) => exists As1, dinv0 B rules (fst st) As1 /\ psle (st_phys s) (st_phys (fst st)) /\ grow B As As1 /\
    (forall x r A, In x done -> nth_error rules x = Some r -> nth_error As1 x = Some A -> awl A = [] /\ pushedA (r_blocks r) (st_phys (fst st)) A) /\
    (snd st = false -> As1 = As /\ (weak_state rules s As -> pseq (st_phys s) (st_phys (fst st)) /\ forall x r A, In x done -> nth_error rules x = Some r -> nth_error As x = Some A -> pulled0A (r_blocks r) (st_phys s) A))).
  match goal with |- exists bd s' ch As', (forall fuel, _ -> foldM _ ?l ?b = _) /\ _ =>
    destruct (foldM_bounded (fun fuel '(s, ch) j => r <- rd rules j ;; g <- rd (st_augs s) j ;; '(m, g, ps, c) <- close_augmented fuel r (st_mem s) g (st_phys s) ;; gs <- wr (st_augs s) j g ;; Ok (mkState m gs ps, ch || c)) l J b) as (bd & [s' ch] & E & As1 & D1 & L1 & G1 & W1 & F1) end.
  - exists As. cbn [fst snd]. ands; auto using psle_refl, grow_refl.
    + intros x r A [].
    + intros _. split; auto. intros _. split; [apply pseq_refl|]. intros x r A [].
  - intros done x rest [s1 ch1] El (As1 & D1 & L1 & G1 & W1 & F1). cbn [fst snd] in *.
    assert (Hx : In x (seq 0 (length rules))) by (rewrite El; apply in_or_app; right; now left). apply in_seq in Hx.
    destruct (graph_step B rules s1 As1 x D1) as (bd & r & g & A & m & g' & A' & ps & c & Er & Eg & EA & Ec & Lx & D2 & L2 & G2 & Wl & Pu & Cf); [lia|].
    exists bd. eexists. split.
    { intros fuel Hf. rewrite (proj2 (rd_Ok _ _ _) Er). cbn [bind]. rewrite (proj2 (rd_Ok _ _ _) Eg). cbn [bind]. rewrite Ec by auto. cbn [bind]. rewrite wr_Ok by auto. cbn [bind]. reflexivity. }
    exists (upd As1 x A'). cbn [fst snd st_mem st_augs st_phys]. ands; auto.
    + eapply psle_trans; eauto.
    + eapply grow_trans; eauto.
    + intros y r0 C Hy Hr HC. rewrite nth_error_upd in HC. destruct (Nat.eqb_spec x y) as [->|Hne].
      * destruct (y <? length As1); [|discriminate]. injection HC as <-. assert (r0 = r) by congruence. subst r0. auto.
      * apply in_app_iff in Hy. destruct Hy as [Hy|[->|[]]]; [|congruence]. destruct (W1 y r0 C Hy Hr HC) as [V1 V2]. split; auto.
        eapply (pushedA_mono B (r_labels r0)); [apply gext_refl|exact L2| |exact V2]. eapply d0_blk; eauto.
    + intros Ht. apply orb_false_iff in Ht. destruct Ht as [Ht1 Ht2]. destruct (F1 Ht1) as (-> & Z). destruct (Cf Ht2) as (-> & Y). rewrite upd_same by auto. split; auto.
      intros Wk. destruct (Z Wk) as [Z1 Z2]. destruct Y as [Y1 Y2]. { eapply weakA_eq; eauto. } split; [eapply pseq_trans; eauto|].
      intros y r0 C Hd Hr HC. apply in_app_iff in Hd. destruct Hd as [Hd|[<-|[]]]; [eauto|]. assert (r0 = r) by congruence. assert (C = A) by congruence. subst.
      assert (Sy : pseq (st_phys s1) (st_phys s)). { clear -Z1. destruct Z1 as [L H]. split; [auto|]. intros z p p' H1 H2. pose proof (H z p' p H2 H1) as Q. constructor; [symmetry; apply Q|symmetry; apply Q|]. intros i j Hi Hj. rewrite (peq_n _ _ Q) in *. symmetry. apply (pe_z _ _ Q); auto. }
      eapply pulled0A_eq; eauto.
  - exists bd, s', ch, As1. cbn [fst snd] in *. pose proof (d0_len _ _ _ _ D1) as Ln.
    assert (All : forall x r A, nth_error rules x = Some r -> nth_error As1 x = Some A -> awl A = [] /\ pushedA (r_blocks r) (st_phys s') A).
    { intros x r A Hr HA. apply (W1 x r A); auto. apply in_seq. assert (x < length rules) by (apply nth_error_Some; congruence). lia. }
    ands; auto.
    + constructor; try apply D1. intros x r A Hr HA. apply (All x r A Hr HA).
    + intros A HA. apply In_nth_error in HA. destruct HA as (x & Hx). destruct (nth_error rules x) as [r|] eqn:Er; [eapply All; eauto|]. apply nth_error_None in Er. assert (x < length As1) by (apply nth_error_Some; congruence). lia.
    + intros Hf. destruct (F1 Hf) as (-> & Z). split; auto. intros Wk. destruct (Z Wk) as [Z1 Z2]. split; auto. intros x r A Hr HA. apply (Z2 x r A); auto. apply in_seq. assert (x < length rules) by (apply nth_error_Some; congruence). lia.
Qed.
(** What holds between two closings: the summary graphs are closed, and what they
    say is in the production graphs, if perhaps with another kind. *)
Definition settled0 (rules : list rule) (s : state) (As : list agraph) : Prop :=
  (forall A, In A As -> awl A = []) /\ (forall p, In p (st_phys s) -> trans_closed (p_n p) (get (mingraph p) (p_n p))) /\ pulled0_state rules s As.
Lemma done_settled0 rules s As : done_state rules s As -> settled0 rules s As.
Proof.
  intros (H1 & H2 & H3). split; auto. split; auto. intros x r A Hr HA start y p Hb Hp i j Hi Hj Hk. eapply low_ever; [exact Hk|]. apply (H3 x r A Hr HA start y p Hb Hp i j Hi Hj).
Qed.
Lemma close_again B rules s As : dinv0 B rules s As -> weak_state rules s As ->
  exists bd s' As', (forall fuel, bd <= fuel -> dnc_close fuel rules s = Ok s') /\ dinv B rules s' As' /\ settled0 rules s' As' /\ psle (st_phys s) (st_phys s') /\ grow B As As'.
Proof.
  intros D Wk. destruct (augs_pass0 B rules s As D) as (bd1 & s1 & ch1 & As1 & E1 & D1 & L1 & G1 & W1 & F1).
  destruct (phys_pass B rules s1 As1 ch1 D1) as (bd2 & s2 & ch2 & E2 & D2 & L2 & S2 & P2 & C2 & T2 & F2).
  assert (Ep : forall fuel, Nat.max bd1 bd2 <= fuel -> dnc_pass fuel rules s = Ok (s2, ch2)). { intros fuel Hf. unfold dnc_pass. rewrite E1 by lia. cbn [bind]. apply E2. lia. }
  destruct ch2.
  - destruct (dnc_close_ok B rules (caps B As1 s2) s2 As1) as (bd3 & s3 & As3 & E3 & D3 & L3 & G3 & F3); auto; try lia.
    exists (S (Nat.max (Nat.max bd1 bd2) bd3)), s3, As3. ands; auto using done_settled0.
    + intros fuel Hf. destruct fuel as [|f]; [lia|]. cbn [dnc_close]. rewrite Ep by lia. cbn [bind]. apply E3. lia.
    + eapply psle_trans; eauto. eapply psle_trans; eauto.
    + eapply grow_trans; eauto.
  - exists (S (Nat.max bd1 bd2)), s2, As1. ands; auto.
    + intros fuel Hf. destruct fuel as [|f]; [lia|]. cbn [dnc_close]. rewrite Ep by lia. reflexivity.
    + destruct (F2 eq_refl) as [-> Es]. destruct (F1 eq_refl) as [-> Z]. destruct (Z Wk) as [Z1 Z2]. split; auto. split; auto. intros x r A Hr HA. rewrite Es. eapply pulled0A_eq; eauto.
    + eapply psle_trans; eauto.
Qed.
(** Forcing the order of phases leaves a state that can be closed again. *)
Lemma force_weak B rules s As y p mg : dinv B rules s As -> settled0 rules s As -> nth_error (st_phys s) y = Some p -> matrix (p_n p) mg ->
  (forall i j, i < p_n p -> j < p_n p -> get (mingraph p) (p_n p) i j <> 0%N -> get mg (p_n p) i j <> 0%N) ->
  let s' := mkState (st_mem s) (st_augs s) (upd (st_phys s) y (mkPhy (p_labels p) mg (is_func p))) in dinv0 B rules s' As /\ weak_state rules s' As.
Proof.
  intros D (Wl & _ & Pl) Ey Mx Up s'. assert (Ly : y < length (st_phys s)) by (apply nth_error_Some; congruence). split.
  - constructor; try apply D.
    + intros q Hq. cbn [st_phys s'] in Hq. apply in_upd in Hq. destruct Hq as [->|Hq]; [exact Mx|]. now apply (di_mats _ _ _ _ D).
    + intros x r A Hr HA b Hb z Hz. destruct (di_blk _ _ _ _ D x r A Hr HA b Hb z Hz) as (q & Eq & H1 & H2). cbn [st_phys s']. rewrite nth_error_upd. destruct (Nat.eqb_spec y z) as [<-|].
      * rewrite (proj2 (Nat.ltb_lt _ _) Ly). assert (q = p) by congruence. subst q. eexists. split; [reflexivity|]. auto.
      * eauto.
  - intros x r A Hr HA start z q Hb Eq F i j Hi Hj Hk. cbn [st_phys s'] in Eq.
    assert (Old : exists q0, nth_error (st_phys s) z = Some q0 /\ p_n q0 = p_n q /\ is_func q0 = is_func q /\ (get (mingraph q0) (p_n q0) i j <> 0%N -> get (mingraph q) (p_n q) i j <> 0%N)).
    { rewrite nth_error_upd in Eq. destruct (Nat.eqb_spec y z) as [->|Hne]; [|exists q; auto]. destruct (z <? length (st_phys s)); [|discriminate]. injection Eq as <-. exists p. split; [auto|]. split; [reflexivity|]. split; [reflexivity|]. intros; apply Up; auto. }
    destruct Old as (q0 & Eq0 & En & Ef & Hup). rewrite <- En in Hi, Hj.
    assert (Hnz : get (mingraph q0) (p_n q0) i j <> 0%N).
    { intros Z. apply Hk. apply at_most_zero. rewrite <- Z. apply ekind_pushed. intros a c k Hin. assert (F0 : is_func q0 = false) by congruence. apply (di_push _ _ _ _ D x r A Hr HA start z q0 Hb Eq0 F0 i j a c k Hi Hj Hin). rewrite (Wl A (nth_error_In _ _ HA)). auto. }
    split; auto. apply (Pl x r A Hr HA start z q0 Hb Eq0 i j Hi Hj Hnz).
Qed.
