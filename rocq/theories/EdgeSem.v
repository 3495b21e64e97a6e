(** * EdgeSem: what a set of conditional edges means; the effect of add_edge. *)
From Verif Require Import Base CondModel EdgeModel PropsCond EdgeProofs EdgeAddProofs EdgeGraph.
Open Scope nat_scope.

(** ** Specification: the kind of dependency an edge set gives under an outcome of
    the conditions is the join of the kinds of its edges that hold. *)
Definition meetsb (o : outcome) (c : condition) : bool :=
  forallb (fun i => implb (N.testbit (positive c) i) (o i) && implb (N.testbit (negative c) i) (negb (o i)))
          (map N.of_nat (seq 0 (S (N.to_nat (N.log2 (N.lor (positive c) (negative c))))))).
Definition seen (o : outcome) (l : list (condition * N)) : N :=
  fold_right (fun e acc => if meetsb o (fst e) then dependency_join (snd e) acc else acc) no_dependency l.

Lemma meetsb_spec o c : meetsb o c = true <-> meets o c.
Proof.
  unfold meetsb, meets. rewrite forallb_forall. split.
  - intros H i. destruct (N.le_gt_cases i (N.log2 (N.lor (positive c) (negative c)))) as [L|L].
    + assert (Hi : In i (map N.of_nat (seq 0 (S (N.to_nat (N.log2 (N.lor (positive c) (negative c)))))))).
      { apply in_map_iff. exists (N.to_nat i). split; [apply N2Nat.id|]. apply in_seq. lia. }
      apply H in Hi. apply andb_true_iff in Hi. destruct Hi as [H1 H2]. split; intros E; rewrite E in *; cbn in *; auto. destruct (o i); auto.
    + pose proof (N.bits_above_log2 _ _ L) as Z. rewrite N.lor_spec in Z. apply orb_false_iff in Z. destruct Z as [-> ->]. split; discriminate.
  - intros H i _. destruct (H i) as [H1 H2]. apply andb_true_iff. split.
    + destruct (N.testbit (positive c) i); cbn; auto.
    + destruct (N.testbit (negative c) i); cbn; auto. rewrite H2; auto.
Qed.
Lemma meetsb_false o c : meetsb o c = false <-> ~ meets o c.
Proof. rewrite <- meetsb_spec. destruct (meetsb o c); intuition congruence. Qed.

Definition sees (o : outcome) (l : list aedge) (b : N) : Prop := exists a c k, In (a, c, k) l /\ meets o c /\ tb k b = true.
Lemma seen_bit o l b : tb (seen o (pairs l)) b = true <-> sees o l b.
Proof.
  unfold sees. induction l as [|[[a c] k] l IH]; cbn [pairs map seen fold_right].
  - unfold no_dependency, tb. rewrite N.bits_0. split; [discriminate|]. intros (a & c & k & [] & _).
  - cbn [cond_of kind_of fst snd]. fold (pairs l). fold (seen o (pairs l)). destruct (meetsb o c) eqn:E.
    + unfold tb, dependency_join. rewrite N.lor_spec, orb_true_iff. unfold tb in IH. rewrite IH. apply meetsb_spec in E. split.
      * intros [H|(a' & c' & k' & H1 & H2 & H3)]; [exists a, c, k; cbn; auto|exists a', c', k'; cbn; auto].
      * intros (a' & c' & k' & [H1|H1] & H2 & H3); [injection H1 as <- <- <-; auto|right; eauto 10].
    + rewrite IH. apply meetsb_false in E. split.
      * intros (a' & c' & k' & H1 & H2 & H3). exists a', c', k'. cbn; auto.
      * intros (a' & c' & k' & [H1|H1] & H2 & H3); [injection H1 as <- <- <-; contradiction|eauto 10].
Qed.
Lemma sees_cons o a c k l b : sees o ((a, c, k) :: l) b <-> (meets o c /\ tb k b = true) \/ sees o l b.
Proof.
  unfold sees. split.
  - intros (a' & c' & k' & [E|H] & H1 & H2); [injection E as <- <- <-; auto|right; eauto 10].
  - intros [[H1 H2]|(a' & c' & k' & H & H1 & H2)]; [exists a, c, k; cbn; auto|exists a', c', k'; cbn; auto].
Qed.

(** ** orders *)
Lemma at_most_incl k k' : at_most k k' = true <-> incl_mask k k'.
Proof.
  unfold at_most, incl_mask, tb. rewrite N.eqb_eq. split.
  - intros H i Hi. assert (E := f_equal (fun x => N.testbit x i) H). cbn beta in E. rewrite N.ldiff_spec, N.bits_0, Hi in E. destruct (N.testbit k' i); auto.
  - intros H. apply N.bits_inj_0. intros i. rewrite N.ldiff_spec. specialize (H i). destruct (N.testbit k i); auto. rewrite H; auto.
Qed.
Lemma incl_refl_mask k : incl_mask k k.
Proof. intros i; auto. Qed.
Lemma incl_trans_mask a b c : incl_mask a b -> incl_mask b c -> incl_mask a c.
Proof. intros H1 H2 i Hi. auto. Qed.
Lemma mincl_refl c : mincl c c.
Proof. split; apply incl_refl_mask. Qed.
Lemma mincl_trans a b c : mincl a b -> mincl b c -> mincl a c.
Proof. intros [H1 H2] [H3 H4]. split; eapply incl_trans_mask; eauto. Qed.
Lemma mincl_meets o c c' : mincl c c' -> meets o c -> meets o c'.
Proof. intros [H1 H2] H i. destruct (H i) as [A B]. split; intros Hi; auto. Qed.
Lemma lt_eq_mincl c c' : consistent c -> consistent c' -> is_lt_eq (cond_compare c c') = true <-> mincl c c'.
Proof.
  intros H H'. pose proof (compare_cases c c' H H') as C. pose proof (mincl_refl c). destruct (cond_compare c c'); cbn; try (split; [discriminate|tauto]); [subst|]; tauto.
Qed.
Lemma gt_eq_mincl c c' : consistent c -> consistent c' -> is_gt_eq (cond_compare c c') = true <-> mincl c' c.
Proof.
  intros H H'. pose proof (compare_cases c c' H H') as C. pose proof (mincl_refl c). destruct (cond_compare c c'); cbn; try (split; [discriminate|tauto]); [subst|]; tauto.
Qed.
Lemma merge_facts c c' : consistent c -> consistent c' -> cond_compare c c' = CONDcomp ->
  consistent (merge_cond c c') /\ mincl c (merge_cond c c') /\ mincl c' (merge_cond c c') /\ ~ mincl (merge_cond c c') c' /\
  (forall o, meets o (merge_cond c c') <-> meets o c \/ meets o c').
Proof.
  intros H H' E. destruct (merge_spec c c' H H' E) as (c0 & i & b & Q1 & Q2 & E1 & E2 & E3 & _). rewrite E3. subst c c'. clear E3 E H H'.
  ands; auto.
  - destruct b; split; cbn [with_test positive negative]; try apply lor_pow_incl; apply incl_refl_mask.
  - destruct b; split; cbn [with_test positive negative negb]; try apply lor_pow_incl; apply incl_refl_mask.
  - destruct Q2 as [U1 U2]. intros [G1 G2]. destruct b; cbn [with_test positive negative negb] in *.
    + eapply (lor_pow_nincl (negative c0)); eauto.
    + eapply (lor_pow_nincl (positive c0)); eauto.
  - intros o. rewrite !with_test_meets by auto. destruct (o i), b; cbn [negb]; intuition congruence.
Qed.

(** ** C39's core *)
Lemma good_tl e l : good (e :: l) -> good l.
Proof. intros H b cb kb Hb. apply (H b). now right. Qed.
Lemma good_hd a c k l : good ((a, c, k) :: l) -> consistent c /\ k <> 0%N.
Proof. intros H. apply (H a). now left. Qed.
Lemma addR_sees c k l wl l' wl' : addR c k l wl l' wl' -> consistent c -> good l -> forall o b,
  sees o l' b <-> sees o l b \/ (meets o c /\ tb k b = true).
Proof.
  induction 1; intros Hc Hg o b; try (pose proof (good_tl _ _ Hg) as Hg'; pose proof (good_hd _ _ _ _ Hg) as [Hc' Hk']).
  - rewrite sees_cons. unfold sees. cbn [In]. firstorder.
  - apply at_most_incl in H. apply lt_eq_mincl in H0; auto. split; auto. intros [|[M B]]; auto. rewrite sees_cons. left. split; [eapply mincl_meets; eauto|auto].
  - rewrite (IHaddR Hc Hg'), sees_cons. apply at_most_incl in H0. apply gt_eq_mincl in H1; auto. split; [tauto|]. intros [[[M B]|]|]; auto. right. split; [eapply mincl_meets; eauto|auto].
  - destruct (merge_facts c c' Hc Hc' H) as (M1 & _ & _ & _ & M2). rewrite (IHaddR M1 Hg'), sees_cons, M2. tauto.
  - rewrite !sees_cons, (IHaddR Hc Hg'). tauto.
Qed.
Lemma seen_ext o l l' : (forall b, sees o l' b <-> sees o l b) -> seen o (pairs l') = seen o (pairs l).
Proof. intros H. apply N.bits_inj. intros b. specialize (H b). rewrite <- !seen_bit in H. unfold tb in H. destruct (N.testbit _ b), (N.testbit _ b); intuition congruence. Qed.
Lemma addR_seen c k l wl l' wl' : addR c k l wl l' wl' -> consistent c -> good l -> forall o,
  seen o (pairs l') = dependency_join (seen o (pairs l)) (if meetsb o c then k else no_dependency).
Proof.
  intros R Hc Hg o. apply N.bits_inj. intros b. unfold dependency_join. rewrite N.lor_spec. pose proof (addR_sees _ _ _ _ _ _ R Hc Hg o b) as H.
  rewrite <- !seen_bit in H. unfold tb in H. destruct (meetsb o c) eqn:E.
  - apply meetsb_spec in E. destruct (N.testbit (seen o (pairs l')) b), (N.testbit (seen o (pairs l)) b), (N.testbit k b); cbn; intuition congruence.
  - apply meetsb_false in E. unfold no_dependency. rewrite N.bits_0, orb_false_r. destruct (N.testbit (seen o (pairs l')) b), (N.testbit (seen o (pairs l)) b); intuition congruence.
Qed.

(** ** what stays off the worklist was there before *)
Lemma addR_wl c k l wl l' wl' : addR c k l wl l' wl' -> NoDup (ids l) ->
  (forall b, In b wl -> ~ In b (ids l) -> In b wl') /\
  (forall b, In b wl' -> In b wl \/ In b (ids l')) /\
  (forall a c0 k0, In (a, c0, k0) l' -> In a wl' \/ (In (a, c0, k0) l /\ ~ In a wl)).
Proof.
  induction 1; intros Nd; try (inversion Nd as [|? ? Na Nd']; subst; destruct (IHaddR Nd') as (I1 & I2 & I3)); ands.
  - intros b Hb _. apply in_or_app; auto.
  - intros b Hb. apply in_app_iff in Hb. destruct Hb as [|[<-|[]]]; auto. right. now left.
  - intros a0 c0 k0 [E|[]]. injection E as <- <- <-. left. apply in_or_app. right. now left.
  - auto.
  - auto.
  - intros a0 c0 k0 Hi. destruct (in_dec Nat.eq_dec a0 wl); auto.
  - intros b Hb Hn. apply I1; [apply in_rm; split; auto; intros ->; apply Hn; now left|]. intros G. apply Hn. now right.
  - intros b Hb. apply I2 in Hb. rewrite in_rm in Hb. tauto.
  - intros a0 c0 k0 Hi. destruct (I3 _ _ _ Hi) as [X|[X Y]]; auto.
    right. split; [now right|]. intros G. apply Y. apply in_rm. split; auto. intros ->. apply Na. apply (in_map id_of) in X. exact X.
  - intros b Hb Hn. apply in_rm. split; [|intros ->; apply Hn; now left]. apply I1; auto. intros G. apply Hn. now right.
  - intros b Hb. apply in_rm in Hb. destruct Hb as [Hb _]. auto.
  - intros a0 c0 k0 Hi. assert (a0 <> a) by (intros ->; apply H1; apply (in_map id_of) in Hi; exact Hi). destruct (I3 _ _ _ Hi) as [X|[X Y]].
    + left. apply in_rm; auto.
    + right. split; auto. now right.
  - intros b Hb Hn. apply I1; auto. intros G. apply Hn. now right.
  - intros b Hb. destruct (I2 b Hb); auto. right. now right.
  - intros a0 c0 k0 [E|Hi].
    + injection E as <- <- <-. destruct (in_dec Nat.eq_dec a wl) as [Hw|Hw]; [left; auto|right; split; auto; now left].
    + destruct (I3 _ _ _ Hi) as [X|[X Y]]; auto. right. split; auto. now right.
Qed.

(** ** entailment *)
Definition ent (l : list aedge) (c : condition) (k : N) : Prop := exists a c' k', In (a, c', k') l /\ mincl c c' /\ incl_mask k k'.
Lemma ent_cons a c' k' l c k : ent ((a, c', k') :: l) c k <-> (mincl c c' /\ incl_mask k k') \/ ent l c k.
Proof.
  unfold ent. split.
  - intros (a1 & c1 & k1 & [E|H] & H1 & H2); [injection E as <- <- <-; auto|right; eauto 10].
  - intros [[H1 H2]|(a1 & c1 & k1 & H & H1 & H2)]; [exists a, c', k'; cbn; auto|exists a1, c1, k1; cbn; auto].
Qed.
Lemma ent_weak l c k c0 k0 : ent l c0 k0 -> mincl c c0 -> incl_mask k k0 -> ent l c k.
Proof. intros (a & c' & k' & H & H1 & H2) M K. exists a, c', k'. ands; auto; [eapply mincl_trans; eauto|eapply incl_trans_mask; eauto]. Qed.
Lemma addR_ent c k l wl l' wl' : addR c k l wl l' wl' -> consistent c -> good l -> 
  ent l' c k /\ (forall c0 k0, ent l c0 k0 -> ent l' c0 k0).
Proof.
  induction 1; intros Hc Hg; try (pose proof (good_tl _ _ Hg) as Hg'; pose proof (good_hd _ _ _ _ Hg) as [Hc' Hk']).
  - split; [exists a, c, k; cbn; auto using mincl_refl, incl_refl_mask|]. intros c0 k0 (? & ? & ? & [] & _).
  - split; auto. apply at_most_incl in H. apply lt_eq_mincl in H0; auto. apply ent_cons. auto.
  - destruct (IHaddR Hc Hg') as [I1 I2]. split; auto. apply at_most_incl in H0. apply gt_eq_mincl in H1; auto.
    intros c0 k0 E. apply ent_cons in E. destruct E as [[E1 E2]|E]; auto. eapply ent_weak; eauto; [eapply mincl_trans; eauto|eapply incl_trans_mask; eauto].
  - destruct (merge_facts c c' Hc Hc' H) as (M1 & M2 & M3 & _ & _). destruct (IHaddR M1 Hg') as [I1 I2]. split.
    + eapply ent_weak; eauto. apply incl_refl_mask.
    + intros c0 k0 E. apply ent_cons in E. destruct E as [[E1 E2]|E]; auto. eapply ent_weak; eauto. eapply mincl_trans; eauto.
  - destruct (IHaddR Hc Hg') as [I1 I2]. split; [apply ent_cons; auto|]. intros c0 k0 E. apply ent_cons in E. apply ent_cons. destruct E; auto.
Qed.
(** either nothing is queued, or something not entailed before is added *)
Lemma addR_grow c k l wl l' wl' : addR c k l wl l' wl' -> consistent c -> good l ->
  (incl wl' wl /\ length wl' <= length wl) \/
  (exists m, mincl c m /\ consistent m /\ ent l' m k /\ ~ ent l m k /\ exists a, In a wl' /\ In (a, m, k) l').
Proof.
  assert (RL : forall a w, length (rm a w) <= length w) by (intros a w; unfold rm; induction w as [|b w IH]; cbn [filter length]; [lia|]; destruct (negb (b =? a)); cbn [length]; lia).
  induction 1; intros Hc Hg; try (pose proof (good_tl _ _ Hg) as Hg'; pose proof (good_hd _ _ _ _ Hg) as [Hc' Hk']).
  - right. exists c. ands; auto using mincl_refl.
    + exists a, c, k. cbn; auto using mincl_refl, incl_refl_mask.
    + intros (? & ? & ? & [] & _).
    + exists a. split; [apply in_or_app; right; now left|now left].
  - left. split; [apply incl_refl|auto].
  - destruct (IHaddR Hc Hg') as [[I1 I2]|(m & M1 & M2 & M3 & M4 & M5)].
    + left. split; [|specialize (RL a wl); lia]. intros b Hb. apply I1 in Hb. apply in_rm in Hb. tauto.
    + right. exists m. ands; auto. rewrite ent_cons. intros [[X1 X2]|]; auto.
      assert (at_most k k' && is_lt_eq (cond_compare c c') = true); [|congruence]. apply andb_true_iff. split; [now apply at_most_incl|]. apply lt_eq_mincl; auto. eapply mincl_trans; eauto.
  - destruct (merge_facts c c' Hc Hc' H) as (X1 & X2 & X3 & X4 & X5). destruct (IHaddR X1 Hg') as [[I1 I2]|(m & M1 & M2 & M3 & M4 & a1 & M5 & M6)].
    + left. split; [|specialize (RL a wl'); lia]. intros b Hb. apply in_rm in Hb. apply I1. tauto.
    + right. exists m. ands; auto; [eapply mincl_trans; eauto|..].
      * rewrite ent_cons. intros [[Y1 Y2]|]; auto. apply X4. eapply mincl_trans; eauto.
      * exists a1. split; auto. apply in_rm. split; auto. intros ->. apply H1. apply (in_map id_of) in M6. exact M6.
  - destruct (IHaddR Hc Hg') as [[I1 I2]|(m & M1 & M2 & M3 & M4 & a1 & M5 & M6)]; auto.
    right. exists m. ands; auto.
    + apply ent_cons. auto.
    + rewrite ent_cons. intros [[X1 X2]|]; auto.
      assert (at_most k k' && is_lt_eq (cond_compare c c') = true); [|congruence]. apply andb_true_iff. split; [now apply at_most_incl|]. apply lt_eq_mincl; auto. eapply mincl_trans; eauto.
    + exists a1. split; auto. now right.
Qed.
