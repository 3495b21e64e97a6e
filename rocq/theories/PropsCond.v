(** * PropsCond: C37 (conditions) and C38 (dependency kinds). *)
From Verif Require Import Base CondModel.
Open Scope N_scope.

(** ** Specification *)
(** An outcome of the if-rules: rule number -> taken or not. *)
Definition outcome := N -> bool.
(** The outcome meets the condition: every positive test succeeded, every negative one failed. *)
Definition meets (o : outcome) (c : condition) : Prop :=
  forall i, (N.testbit (positive c) i = true -> o i = true) /\ (N.testbit (negative c) i = true -> o i = false).
Definition satisfiable (c : condition) : Prop := exists o, meets o c.
Definition stronger (c1 c2 : condition) : Prop := forall o, meets o c1 -> meets o c2.
(** [c] is [c1] or [c2]. *)
Definition is_union (c c1 c2 : condition) : Prop := forall o, meets o c <-> meets o c1 \/ meets o c2.
(** [c] with one more test [i], required to succeed / fail. *)
Definition with_test (c : condition) (i : N) (b : bool) : condition :=
  if b then mkCond (N.lor (positive c) (2 ^ i)) (negative c) else mkCond (positive c) (N.lor (negative c) (2 ^ i)).
Definition untested (c : condition) (i : N) : Prop := N.testbit (positive c) i = false /\ N.testbit (negative c) i = false.

(** ** Proofs *)
Definition tb := N.testbit.
Definition incl_mask (a b : N) : Prop := forall i, tb a i = true -> tb b i = true.
Lemma lor_incl a b : N.lor a b = a <-> incl_mask b a.
Proof.
  unfold incl_mask, tb. split.
  - intros H i Hi. rewrite <- H, N.lor_spec, Hi. apply orb_true_r.
  - intros H. apply N.bits_inj. intros i. rewrite N.lor_spec. specialize (H i). destruct (N.testbit a i), (N.testbit b i); auto. symmetry; auto.
Qed.
Lemma lor_inclb a b : (N.lor a b =? a) = true <-> incl_mask b a.
Proof. rewrite N.eqb_eq. apply lor_incl. Qed.
Lemma incl_antisym a b : incl_mask a b -> incl_mask b a -> a = b.
Proof. intros H1 H2. apply N.bits_inj. intros i. specialize (H1 i). specialize (H2 i). unfold tb in *. destruct (N.testbit a i), (N.testbit b i); intuition congruence. Qed.
Lemma sub_incl a b i : incl_mask b a -> tb (a - b) i = tb a i && negb (tb b i).
Proof.
  intros H. unfold tb. rewrite N.sub_nocarry_ldiff. { rewrite N.ldiff_spec. auto. }
  apply N.bits_inj_0. intros j. rewrite N.ldiff_spec. specialize (H j). unfold tb in H. destruct (N.testbit b j); auto. rewrite H; auto.
Qed.

Definition consistent (c : condition) : Prop := forall i, tb (positive c) i = true -> tb (negative c) i = true -> False.
Lemma sat_consistent c : satisfiable c <-> consistent c.
Proof.
  split.
  - intros (o & H) i H1 H2. destruct (H i). unfold tb in *. intuition congruence.
  - intros H. exists (fun i => tb (positive c) i). intros i. split; auto. intros Hn. destruct (tb (positive c) i) eqn:E; auto. exfalso. eapply H; eauto.
Qed.
(** mask inclusion *)
Definition mincl (c1 c2 : condition) : Prop := incl_mask (positive c2) (positive c1) /\ incl_mask (negative c2) (negative c1).
(** an outcome meeting c1 and flipping the rest adversely *)
Lemma stronger_mincl c1 c2 : satisfiable c1 -> stronger c1 c2 <-> mincl c1 c2.
Proof.
  intros Hs. apply sat_consistent in Hs. split.
  - intros H. split; intros i Hi; unfold tb in *.
    + destruct (N.testbit (positive c1) i) eqn:E; auto. exfalso.
      assert (M : meets (fun j => tb (positive c1) j) c1).
      { intros j. split; auto. intros Hn. destruct (tb (positive c1) j) eqn:E2; auto. exfalso. eapply Hs; eauto. }
      apply H in M. destruct (M i) as [M1 _]. apply M1 in Hi. unfold tb in *. congruence.
    + destruct (N.testbit (negative c1) i) eqn:E; auto. exfalso.
      assert (M : meets (fun j => negb (tb (negative c1) j)) c1).
      { intros j. split. { intros Hp. destruct (tb (negative c1) j) eqn:E2; auto. exfalso. eapply Hs; eauto. } intros Hn. unfold tb. rewrite Hn. auto. }
      apply H in M. destruct (M i) as [_ M1]. apply M1 in Hi. unfold tb in *. rewrite E in Hi. discriminate.
  - intros [H1 H2] o M i. destruct (M i). unfold incl_mask, tb in *. split; auto.
Qed.
Lemma mincl_eq c1 c2 : mincl c1 c2 -> mincl c2 c1 -> c1 = c2.
Proof. intros [A B] [C D]. destruct c1, c2. cbn in *. f_equal; apply incl_antisym; auto. Qed.

Lemma one_bit_true v : v <> 0 -> one_bit v = true -> exists i, v = 2 ^ i.
Proof.
  intros Hv. unfold one_bit, pred32. destruct (N.eqb_spec v 0); [congruence|]. rewrite N.eqb_eq. intros H.
  exists (N.log2 v). destruct (N.log2_spec v) as [H1 H2]; [lia|].
  destruct (N.eq_dec v (2 ^ N.log2 v)) as [E|Ne]; auto. exfalso.
  set (l := N.log2 v) in *.
  assert (L1 : N.log2 (v - 1) = l). { apply N.log2_unique; [lia|]. split; lia. }
  assert (B : N.testbit (N.land v (v - 1)) l = true).
  { rewrite N.land_spec. unfold l at 1. rewrite N.bit_log2 by lia. cbn. rewrite <- L1. apply N.bit_log2.
    assert (2 ^ l >= 1). { pose proof (N.pow_nonzero 2 l). lia. } lia. }
  rewrite H in B. rewrite N.bits_0 in B. discriminate.
Qed.
Lemma one_bit_pow i : one_bit (2 ^ i) = true.
Proof.
  unfold one_bit, pred32. pose proof (N.pow_nonzero 2 i). destruct (N.eqb_spec (2 ^ i) 0); [lia|]. rewrite N.eqb_eq.
  rewrite N.sub_1_r, <- N.ones_equiv. apply N.bits_inj_0. intros j. rewrite N.land_spec, N.pow2_bits_eqb.
  destruct (N.eqb_spec i j); auto. subst. rewrite N.ones_spec_high; auto. lia.
Qed.

Lemma not_testbit_eqb i j : N.testbit (2 ^ i) j = (i =? j).
Proof. apply N.pow2_bits_eqb. Qed.

(** complement by masks *)
Definition mcomp (c1 c2 : condition) : Prop := exists c i b, consistent c /\ untested c i /\ c1 = with_test c i b /\ c2 = with_test c i (negb b).
Lemma diff_pow_mask a b i : incl_mask b a -> a - b = 2 ^ i -> a = N.lor b (2 ^ i) /\ tb b i = false.
Proof.
  intros H E. assert (G : forall j, tb a j && negb (tb b j) = (i =? j)). { intros j. rewrite <- sub_incl by auto. rewrite E. apply not_testbit_eqb. }
  split.
  - apply N.bits_inj. intros j. rewrite N.lor_spec, not_testbit_eqb. rewrite <- (G j). specialize (H j). unfold tb in *. destruct (N.testbit a j), (N.testbit b j); auto.
  - specialize (G i). rewrite N.eqb_refl in G. destruct (tb b i); auto. rewrite andb_false_r in G. discriminate.
Qed.
Lemma comp_case c1 c2 : consistent c1 -> consistent c2 -> incl_mask (positive c2) (positive c1) -> incl_mask (negative c1) (negative c2) ->
  (positive c1 - positive c2 =? negative c2 - negative c1) && one_bit (positive c1 - positive c2) = true -> c1 <> c2 ->
  exists c i, consistent c /\ untested c i /\ c1 = with_test c i true /\ c2 = with_test c i false.
Proof.
  intros S1 S2 P Q H Ne. apply andb_true_iff in H. destruct H as [H1 H2]. apply N.eqb_eq in H1.
  destruct (N.eq_dec (positive c1 - positive c2) 0) as [Z|NZ].
  - exfalso. apply Ne. apply mincl_eq.
    + split; auto. intros i Hi. destruct (tb (negative c1) i) eqn:E; auto. exfalso.
      assert (D : tb (negative c2 - negative c1) i = true). { rewrite sub_incl, E by auto. unfold tb in *. now rewrite Hi. }
      rewrite <- H1, Z in D. unfold tb in D. rewrite N.bits_0 in D. discriminate.
    + split; auto. intros i Hi. destruct (tb (positive c2) i) eqn:E; auto. exfalso.
      assert (D : tb (positive c1 - positive c2) i = true). { rewrite sub_incl, E by auto. unfold tb in *. now rewrite Hi. }
      rewrite Z in D. unfold tb in D. rewrite N.bits_0 in D. discriminate.
  - destruct (one_bit_true _ NZ H2) as (i & E). destruct (diff_pow_mask _ _ i P E) as [E1 U1].
    destruct (diff_pow_mask _ _ i Q (eq_trans (eq_sym H1) E)) as [E2 U2].
    exists (mkCond (positive c2) (negative c1)), i. unfold consistent, untested. cbn [positive negative]. ands; auto.
    + intros j Hj1 Hj2. apply P in Hj1. eapply S1; eauto.
    + unfold with_test. cbn [positive negative]. rewrite <- E1. now destruct c1.
    + unfold with_test. cbn [positive negative]. rewrite <- E2. now destruct c2.
Qed.
Lemma lor_pow_incl a i : incl_mask a (N.lor a (2 ^ i)).
Proof. intros j Hj. unfold tb in *. rewrite N.lor_spec, Hj. auto. Qed.
Lemma lor_pow_nincl a i : tb a i = false -> ~ incl_mask (N.lor a (2 ^ i)) a.
Proof. intros H G. specialize (G i). unfold tb in *. rewrite N.lor_spec, not_testbit_eqb, N.eqb_refl, orb_true_r in G. rewrite G in H; auto. discriminate. Qed.
Lemma lor_pow_sub a i : tb a i = false -> N.lor a (2 ^ i) - a = 2 ^ i.
Proof.
  intros H. apply N.bits_inj. intros j. fold (tb (N.lor a (2 ^ i) - a) j). rewrite sub_incl by apply lor_pow_incl. unfold tb in *.
  rewrite N.lor_spec, not_testbit_eqb. destruct (N.eqb_spec i j); [subst; rewrite H; auto|]. destruct (N.testbit a j); auto.
Qed.

Lemma compare_cases c1 c2 : consistent c1 -> consistent c2 ->
  match cond_compare c1 c2 with
  | CONDeq => c1 = c2
  | CONDlt => mincl c1 c2 /\ ~ mincl c2 c1
  | CONDgt => mincl c2 c1 /\ ~ mincl c1 c2
  | CONDcomp => mcomp c1 c2 /\ ~ mincl c1 c2 /\ ~ mincl c2 c1
  | CONDnone => ~ mcomp c1 c2 /\ ~ mincl c1 c2 /\ ~ mincl c2 c1
  end.
Proof.
  intros S1 S2. unfold cond_compare.
  destruct ((positive c1 =? positive c2) && (negative c1 =? negative c2)) eqn:T1.
  { apply andb_true_iff in T1. rewrite !N.eqb_eq in T1. destruct c1, c2; cbn in T1. destruct T1; congruence. }
  assert (Ne : c1 <> c2). { intros ->. rewrite !N.eqb_refl in T1. discriminate. }
  destruct ((N.lor (positive c1) (positive c2) =? positive c1) && (N.lor (negative c1) (negative c2) =? negative c1)) eqn:T2.
  { apply andb_true_iff in T2. rewrite !lor_inclb in T2. split; [exact T2|]. intros G. apply Ne. apply mincl_eq; auto. }
  assert (N2 : ~ mincl c1 c2). { intros [G1 G2]. rewrite <- lor_inclb in G1, G2. rewrite G1, G2 in T2. discriminate. }
  destruct ((N.lor (positive c2) (positive c1) =? positive c2) && (N.lor (negative c2) (negative c1) =? negative c2)) eqn:T3.
  { apply andb_true_iff in T3. rewrite !lor_inclb in T3. split; [exact T3|]. intros G. apply Ne. apply mincl_eq; auto. }
  assert (N3 : ~ mincl c2 c1). { intros [G1 G2]. rewrite <- lor_inclb in G1, G2. rewrite G1, G2 in T3. discriminate. }
  assert (NC : forall c i b, untested c i -> c1 = with_test c i b -> c2 = with_test c i (negb b) ->
    (b = true /\ incl_mask (positive c2) (positive c1) /\ incl_mask (negative c1) (negative c2) /\ positive c1 - positive c2 = 2 ^ i /\ negative c2 - negative c1 = 2 ^ i) \/
    (b = false /\ ~ incl_mask (positive c2) (positive c1) /\ incl_mask (positive c1) (positive c2) /\ incl_mask (negative c2) (negative c1) /\ positive c2 - positive c1 = 2 ^ i /\ negative c1 - negative c2 = 2 ^ i)).
  { intros c i b (U1 & U2) -> ->. destruct b; cbn [with_test negb positive negative]; [left|right]; ands; auto; try apply lor_pow_incl; try (apply lor_pow_sub; auto). apply lor_pow_nincl; auto. }
  destruct ((N.lor (positive c1) (positive c2) =? positive c1) && (N.lor (negative c2) (negative c1) =? negative c2)) eqn:T4.
  { apply andb_true_iff in T4. rewrite !lor_inclb in T4. destruct T4 as [P Q].
    destruct ((positive c1 - positive c2 =? negative c2 - negative c1) && one_bit (positive c1 - positive c2)) eqn:T.
    - ands; auto. destruct (comp_case _ _ S1 S2 P Q T Ne) as (c & i & A & B & C & D). exists c, i, true. auto.
    - ands; auto. intros (c & i & b & A & B & C & D). destruct (NC c i b B C D) as [(-> & X1 & X2 & X3 & X4)|(-> & X1 & _)]; [|tauto].
      rewrite X3, X4, N.eqb_refl, one_bit_pow in T. discriminate. }
  destruct ((N.lor (positive c2) (positive c1) =? positive c2) && (N.lor (negative c1) (negative c2) =? negative c1)) eqn:T5.
  { apply andb_true_iff in T5. rewrite !lor_inclb in T5. destruct T5 as [P Q].
    destruct ((positive c2 - positive c1 =? negative c1 - negative c2) && one_bit (positive c2 - positive c1)) eqn:T.
    - ands; auto. destruct (comp_case _ _ S2 S1 P Q T (not_eq_sym Ne)) as (c & i & A & B & C & D). exists c, i, false. auto.
    - ands; auto. intros (c & i & b & A & B & C & D). destruct (NC c i b B C D) as [(-> & X1 & X2 & _)|(-> & X0 & X1 & X2 & X3 & X4)].
      + rewrite <- lor_inclb in X1, X2. rewrite X1, X2 in T4. discriminate.
      + rewrite X3, X4, N.eqb_refl, one_bit_pow in T. discriminate. }
  ands; auto. intros (c & i & b & A & B & C & D). destruct (NC c i b B C D) as [(-> & X1 & X2 & _)|(-> & X0 & X1 & X2 & X3 & X4)].
  - rewrite <- lor_inclb in X1, X2. rewrite X1, X2 in T4. discriminate.
  - rewrite <- lor_inclb in X1, X2. rewrite X1, X2 in T5. discriminate.
Qed.

Lemma with_test_meets c i b o : untested c i -> meets o (with_test c i b) <-> meets o c /\ o i = b.
Proof.
  intros (U1 & U2). unfold meets. destruct b; cbn [with_test positive negative]; split.
  - intros H. split. { intros j. destruct (H j) as [H1 H2]. split; auto. intros Hj. apply H1. rewrite N.lor_spec, Hj. auto. }
    destruct (H i) as [H1 _]. apply H1. rewrite N.lor_spec, not_testbit_eqb, N.eqb_refl. apply orb_true_r.
  - intros [H Hi] j. destruct (H j) as [H1 H2]. split; auto. rewrite N.lor_spec, not_testbit_eqb. destruct (N.eqb_spec i j); [subst; auto|]. rewrite orb_false_r. auto.
  - intros H. split. { intros j. destruct (H j) as [H1 H2]. split; auto. intros Hj. apply H2. rewrite N.lor_spec, Hj. auto. }
    destruct (H i) as [_ H1]. apply H1. rewrite N.lor_spec, not_testbit_eqb, N.eqb_refl. apply orb_true_r.
  - intros [H Hi] j. destruct (H j) as [H1 H2]. split; auto. rewrite N.lor_spec, not_testbit_eqb. destruct (N.eqb_spec i j); [subst; auto|]. rewrite orb_false_r. auto.
Qed.
Lemma mcomp_union c1 c2 : mcomp c1 c2 -> exists c, satisfiable c /\ is_union c c1 c2.
Proof.
  intros (c & i & b & A & B & -> & ->). exists c. split; [now apply sat_consistent|]. intros o. rewrite !with_test_meets by auto.
  destruct (o i), b; cbn [negb]; intuition congruence.
Qed.

(** the literals of c1 not in c *)
Definition lit (c : condition) (l : N * bool) : Prop := if snd l then tb (positive c) (fst l) = true else tb (negative c) (fst l) = true.
Lemma meets_lit o c : meets o c <-> forall l, lit c l -> o (fst l) = snd l.
Proof.
  unfold meets, lit. split.
  - intros H [i b]. cbn. destruct (H i), b; auto.
  - intros H i. split; intros Hi; [apply (H (i, true))|apply (H (i, false))]; auto.
Qed.
Lemma mincl_lit c1 c2 : mincl c1 c2 <-> forall l, lit c2 l -> lit c1 l.
Proof.
  unfold mincl, incl_mask, lit. split.
  - intros [A B] [i b]. cbn. destruct b; auto.
  - intros H. split; intros i; [apply (H (i, true))|apply (H (i, false))].
Qed.
Lemma lit_dec c l : lit c l \/ ~ lit c l.
Proof. unfold lit. destruct (snd l); destruct (tb _ _); auto. Qed.
Lemma lit_ext c1 c2 : (forall l, lit c1 l <-> lit c2 l) -> c1 = c2.
Proof. intros H. apply mincl_eq; apply mincl_lit; intros l; apply H. Qed.
Lemma not_mincl_lit c1 c2 : ~ mincl c1 c2 -> exists l, lit c2 l /\ ~ lit c1 l.
Proof.
  intros H.
  assert (G : forall a b, ~ incl_mask a b -> exists i, tb a i = true /\ tb b i = false).
  { intros a b Hn. exists (N.log2 (N.ldiff a b)). assert (NZ : N.ldiff a b <> 0).
    { intros E. apply Hn. intros i Hi. destruct (tb b i) eqn:F; auto. assert (X : N.testbit (N.ldiff a b) i = true) by (rewrite N.ldiff_spec; unfold tb in *; rewrite Hi, F; auto).
      rewrite E, N.bits_0 in X. discriminate. }
    pose proof (N.bit_log2 _ NZ) as B. rewrite N.ldiff_spec in B. apply andb_true_iff in B. destruct B as [B1 B2]. split; auto. unfold tb. now destruct (N.testbit b _). }
  destruct (N.eq_dec (N.lor (positive c1) (positive c2)) (positive c1)) as [E|E]; rewrite lor_incl in E.
  - destruct (N.eq_dec (N.lor (negative c1) (negative c2)) (negative c1)) as [F|F]; rewrite lor_incl in F.
    + exfalso. apply H. split; auto.
    + destruct (G _ _ F) as (i & A & B). exists (i, false). unfold lit. cbn. split; auto. congruence.
  - destruct (G _ _ E) as (i & A & B). exists (i, true). unfold lit. cbn. split; auto. congruence.
Qed.
Definition flip (o : outcome) (i : N) (b : bool) : outcome := fun j => if j =? i then b else o j.
Lemma union_mcomp c1 c2 c : consistent c1 -> consistent c2 -> consistent c -> ~ mincl c1 c2 -> ~ mincl c2 c1 -> is_union c c1 c2 -> mcomp c1 c2.
Proof.
  intros S1 S2 S N1 N2 U. pose proof (proj2 (sat_consistent _) S1) as T1. pose proof (proj2 (sat_consistent _) S2) as T2.
  assert (A1 : mincl c1 c). { apply stronger_mincl; auto. intros o H. apply U. auto. }
  assert (A2 : mincl c2 c). { apply stronger_mincl; auto. intros o H. apply U. auto. }
  (* literals of c1 outside c *)
  destruct (not_mincl_lit _ _ N2) as (l1 & L1 & L1').   (* in c1, not in c2 *)
  destruct (not_mincl_lit _ _ N1) as (l2 & L2 & L2').   (* in c2, not in c1 *)
  assert (X1 : ~ lit c l1). { intros G. apply L1'. revert l1 L1 L1' G. intros l1 _ _ G. revert l1 G. now apply mincl_lit. }
  assert (X2 : ~ lit c l2). { intros G. apply L2'. revert l2 L2 L2' G. intros l2 _ _ G. revert l2 G. now apply mincl_lit. }
  (* any two such literals are complementary *)
  assert (K : forall m1 m2, lit c1 m1 -> ~ lit c m1 -> lit c2 m2 -> ~ lit c m2 -> fst m1 = fst m2 /\ snd m1 = negb (snd m2)).
  { intros m1 m2 M1 M1' M2 M2'.
    destruct (N.eq_dec (fst m1) (fst m2)) as [E|E].
    - split; auto. destruct (Bool.bool_dec (snd m1) (negb (snd m2))) as [|Nb]; auto. exfalso.
      assert (m1 = m2). { destruct m1 as [? b1], m2 as [? b2]; cbn in *. subst. destruct b1, b2; cbn in Nb; congruence. } subst m2.
      destruct (proj2 (sat_consistent _) S) as (o & Ho). set (o' := flip o (fst m1) (negb (snd m1))).
      assert (Ho' : meets o' c). { apply meets_lit. intros l Hl. unfold o', flip. destruct (N.eqb_spec (fst l) (fst m1)); [|rewrite meets_lit in Ho; auto].
        destruct (Bool.bool_dec (snd l) (negb (snd m1))) as [|Nb']; auto. exfalso. apply M1'. replace m1 with l; auto. destruct l as [? b1], m1 as [? b2]; cbn in *. subst. destruct b1, b2; cbn in *; congruence. }
      apply U in Ho'. rewrite !meets_lit in Ho'. assert (F : o' (fst m1) = negb (snd m1)) by (unfold o', flip; now rewrite N.eqb_refl).
      destruct Ho' as [G|G]; [rewrite (G m1 M1) in F|rewrite (G m1 M2) in F]; destruct (snd m1); discriminate.
    - exfalso. destruct (proj2 (sat_consistent _) S) as (o & Ho). set (o' := flip (flip o (fst m1) (negb (snd m1))) (fst m2) (negb (snd m2))).
      assert (P : forall o m, meets o c -> ~ lit c m -> meets (flip o (fst m) (negb (snd m))) c).
      { intros q m Hq Hm. apply meets_lit. intros l Hl. unfold flip. destruct (N.eqb_spec (fst l) (fst m)); [|rewrite meets_lit in Hq; auto].
        destruct (Bool.bool_dec (snd l) (negb (snd m))) as [|Nb']; auto. exfalso. apply Hm. replace m with l; auto. destruct l as [? b1], m as [? b2]; cbn in *. subst. destruct b1, b2; cbn in *; congruence. }
      assert (Ho' : meets o' c) by (apply P; auto).
      assert (F1 : o' (fst m1) = negb (snd m1)). { unfold o', flip. destruct (N.eqb_spec (fst m1) (fst m2)); [congruence|]. now rewrite N.eqb_refl. }
      assert (F2 : o' (fst m2) = negb (snd m2)) by (unfold o', flip; now rewrite N.eqb_refl).
      apply U in Ho'. rewrite !meets_lit in Ho'. destruct Ho' as [G|G]; [rewrite (G m1 M1) in F1|rewrite (G m2 M2) in F2]; [destruct (snd m1)|destruct (snd m2)]; discriminate. }
  destruct (K _ _ L1 X1 L2 X2) as [E1 E2].
  destruct l1 as [i b]. destruct l2 as [i2 b2]. cbn in E1, E2. subst i2. assert (b2 = negb b) by (subst b; now rewrite negb_involutive). subst b2. clear E2.
  assert (V1 : forall l, lit c1 l <-> lit c l \/ l = (i, b)).
  { intros l. split.
    - intros Hl. destruct (lit_dec c l) as [|Hn]; auto. right. destruct (K l _ Hl Hn L2 X2) as [F1 F2]. destruct l; cbn in *. subst. now rewrite negb_involutive.
    - intros [Hl| ->]; auto. revert l Hl. now apply mincl_lit. }
  assert (V2 : forall l, lit c2 l <-> lit c l \/ l = (i, negb b)).
  { intros l. split.
    - intros Hl. destruct (lit_dec c l) as [|Hn]; auto. right. destruct (K _ l L1 X1 Hl Hn) as [F1 F2]. destruct l; cbn in *. subst. now rewrite negb_involutive.
    - intros [Hl| ->]; auto. revert l Hl. now apply mincl_lit. }
  assert (Un : untested c i).
  { unfold lit in X1, X2. cbn in X1, X2. unfold untested, tb in *. destruct b; cbn in X1, X2; destruct (N.testbit (positive c) i), (N.testbit (negative c) i); intuition congruence. }
  assert (W : forall b l, lit (with_test c i b) l <-> lit c l \/ l = (i, b)).
  { intros b' [j d]. unfold lit, with_test. cbn [fst snd]. unfold tb. destruct b', d; cbn [positive negative]; rewrite ?N.lor_spec, ?not_testbit_eqb, ?orb_true_iff, ?N.eqb_eq;
      intuition (try congruence); match goal with H : (_, _) = (_, _) |- _ => inversion H; auto end. }
  exists c, i, b. ands; auto; apply lit_ext; intros l; rewrite W; auto.
Qed.

(** ** C37 *)
(** For conditions that can hold, each answer of [cond_compare] is given exactly
    when its meaning holds: the same outcomes; strictly fewer; strictly more;
    or neither contains the other but "one or the other" is itself a condition,
    in which case the two differ in exactly one test, which the union drops. *)
Theorem C37_cond_compare : forall c1 c2, satisfiable c1 -> satisfiable c2 ->
  (cond_compare c1 c2 = CONDeq <-> (stronger c1 c2 /\ stronger c2 c1)) /\
  (cond_compare c1 c2 = CONDlt <-> (stronger c1 c2 /\ ~ stronger c2 c1)) /\
  (cond_compare c1 c2 = CONDgt <-> (stronger c2 c1 /\ ~ stronger c1 c2)) /\
  (cond_compare c1 c2 = CONDcomp <-> (~ stronger c1 c2 /\ ~ stronger c2 c1 /\ exists c, satisfiable c /\ is_union c c1 c2)).
Proof.
  intros c1 c2 S1 S2. rewrite !stronger_mincl by auto. apply sat_consistent in S1, S2. pose proof (compare_cases c1 c2 S1 S2) as H.
  assert (R : forall c, mincl c c) by (intros c; split; intros i; auto).
  destruct (cond_compare c1 c2); [subst c2|..]; ands; try (split; intros; discriminate);
    try (split; [discriminate|]); try tauto; try (split; [intros _|auto]); try tauto; auto.
  - intros (A & _). exfalso. apply A. auto.
  - destruct H as (H & H1 & H2). ands; auto. now apply mcomp_union.
  - intros (A & B & c & C & D). exfalso. apply (proj1 H). apply sat_consistent in C. eapply union_mcomp; eauto.
Qed.
(** The complementary case in terms of tests. *)
Theorem C37_complements : forall c1 c2, satisfiable c1 -> satisfiable c2 -> cond_compare c1 c2 = CONDcomp ->
  exists c i b, satisfiable c /\ untested c i /\ c1 = with_test c i b /\ c2 = with_test c i (negb b) /\ is_union c c1 c2.
Proof.
  intros c1 c2 S1 S2 E. apply sat_consistent in S1, S2. pose proof (compare_cases c1 c2 S1 S2) as H. rewrite E in H. destruct H as ((c & i & b & A & B & -> & ->) & _).
  exists c, i, b. ands; auto. { now apply sat_consistent. }
  intros o. rewrite !with_test_meets by auto. destruct (o i), b; cbn [negb]; intuition congruence.
Qed.
(** Without satisfiability the answer can be wrong: +0-0 holds of no outcome, hence of
    no more than +1, but is not comparable by masks. *)
Theorem C37_unsatisfiable_not_exact : exists c1 c2, ~ satisfiable c1 /\ stronger c1 c2 /\ cond_compare c1 c2 = CONDnone.
Proof.
  exists (mkCond 1 1), (mkCond 2 0). ands.
  - rewrite sat_consistent. intros H. apply (H 0); reflexivity.
  - intros o H. exfalso. assert (satisfiable (mkCond 1 1)) by (eexists; eauto). rewrite sat_consistent in H0. apply (H0 0); reflexivity.
  - reflexivity.
Qed.
Example C37_example :
  satisfiable (mkCond 5 2) /\ cond_compare (mkCond 5 2) (mkCond 4 2) = CONDlt /\ cond_compare (mkCond 4 2) (mkCond 5 2) = CONDgt /\
  cond_compare (mkCond 5 2) (mkCond 4 3) = CONDcomp /\ cond_compare (mkCond 4 3) (mkCond 5 2) = CONDcomp /\ cond_compare (mkCond 5 2) (mkCond 0 4) = CONDnone.
Proof. split; [|repeat split; reflexivity]. exists (fun i => negb (i =? 1)). intros i. cbn [positive negative].
  destruct i as [|[[p|p|]|[p|p|]|]]; cbn; split; congruence || auto. Qed.

(** ** C38 *)
(** Kinds carry five bits. *)
Definition kind_ok (k : N) : Prop := k <= 31.
Definition le (k1 k2 : N) : Prop := N.lor k1 k2 = k2.
Lemma kind_cases (P : N -> Prop) : (forall n, (n < 32)%nat -> P (N.of_nat n)) -> forall k, kind_ok k -> P k.
Proof. intros H k Hk. unfold kind_ok in Hk. rewrite <- (N2Nat.id k). apply H. lia. Qed.
Definition all32 (f : N -> bool) : bool := forallb f (map N.of_nat (seq 0 32)).
Lemma all32_spec f : all32 f = true -> forall k, kind_ok k -> f k = true.
Proof. unfold all32. rewrite forallb_forall. intros H k Hk. apply H. apply in_map_iff. exists (N.to_nat k). rewrite N2Nat.id. split; auto. apply in_seq. unfold kind_ok in Hk. lia. Qed.
Lemma all32_2 f : all32 (fun a => all32 (f a)) = true -> forall a b, kind_ok a -> kind_ok b -> f a b = true.
Proof. intros H a b Ha Hb. apply all32_spec; auto. apply (all32_spec (fun a => all32 (f a))); auto. Qed.
Lemma all32_3 f : all32 (fun a => all32 (fun b => all32 (f a b))) = true -> forall a b c, kind_ok a -> kind_ok b -> kind_ok c -> f a b c = true.
Proof. intros H a b c Ha Hb Hc. apply all32_spec; auto. apply (all32_2 (fun a b => all32 (f a b))); auto. Qed.

(** Join is a semilattice with unit [no_dependency] and [AT_MOST] its order. *)
Theorem C38_join : forall a b c,
  dependency_join a b = dependency_join b a /\
  dependency_join a (dependency_join b c) = dependency_join (dependency_join a b) c /\
  dependency_join a a = a /\ dependency_join no_dependency a = a /\
  (at_most a b = true <-> dependency_join a b = b).
Proof.
  intros a b c. unfold dependency_join, at_most. ands.
  - apply N.lor_comm.
  - apply N.lor_assoc.
  - apply N.lor_diag.
  - reflexivity.
  - rewrite N.eqb_eq. split; intros H.
    + apply N.bits_inj. intros i. assert (G := f_equal (fun x => N.testbit x i) H). cbn beta in G. rewrite N.ldiff_spec, N.bits_0 in G. rewrite N.lor_spec. destruct (N.testbit a i), (N.testbit b i); cbn in *; congruence.
    + apply N.bits_inj_0. intros i. rewrite N.ldiff_spec, <- H, N.lor_spec. destruct (N.testbit a i), (N.testbit b i); auto.
Qed.
(** Sequencing is a commutative, associative, monotone operation annihilated by
    [no_dependency], distributes over join, stays within the kinds, never is
    direct, is non-empty for non-empty kinds; and only depends on the indirect
    parts of proper kinds. *)
Theorem C38_trans : forall a b c, kind_ok a -> kind_ok b -> kind_ok c ->
  dependency_trans a b = dependency_trans b a /\
  dependency_trans a (dependency_trans b c) = dependency_trans (dependency_trans a b) c /\
  dependency_trans a (dependency_join b c) = dependency_join (dependency_trans a b) (dependency_trans a c) /\
  dependency_trans no_dependency a = no_dependency /\
  (at_most b c = true -> at_most (dependency_trans a b) (dependency_trans a c) = true) /\
  kind_ok (dependency_trans a b) /\
  N.land (dependency_trans a b) DEPENDENCY_MAYBE_DIRECT = 0 /\
  (dependency_trans a b = no_dependency <-> a = no_dependency \/ b = no_dependency).
Proof.
  intros a b c Ha Hb Hc. unfold kind_ok. ands.
  - apply N.eqb_eq. revert a b Ha Hb. apply all32_2. vm_compute. reflexivity.
  - apply N.eqb_eq. revert a b c Ha Hb Hc. apply all32_3. vm_compute. reflexivity.
  - apply N.eqb_eq. revert a b c Ha Hb Hc. apply all32_3. vm_compute. reflexivity.
  - reflexivity.
  - assert (G : implb (at_most b c) (at_most (dependency_trans a b) (dependency_trans a c)) = true).
    { revert a b c Ha Hb Hc. apply all32_3. vm_compute. reflexivity. }
    destruct (at_most b c); auto. discriminate.
  - apply N.leb_le. revert a b Ha Hb. apply all32_2. vm_compute. reflexivity.
  - apply N.eqb_eq. revert a b Ha Hb. apply all32_2. vm_compute. reflexivity.
  - assert (G : Bool.eqb (dependency_trans a b =? no_dependency) ((a =? no_dependency) || (b =? no_dependency)) = true).
    { revert a b Ha Hb. apply all32_2. vm_compute. reflexivity. }
    apply Bool.eqb_prop in G. rewrite <- !N.eqb_eq, <- orb_true_iff. now rewrite G.
Qed.
(** The meaning of each bit of a sequence of two dependencies. *)
Theorem C38_trans_bits : forall a b, kind_ok a -> kind_ok b -> a <> no_dependency -> b <> no_dependency ->
  N.testbit (dependency_trans a b) 0 = true /\
  N.testbit (dependency_trans a b) 1 = N.testbit a 1 || N.testbit b 1 /\
  N.testbit (dependency_trans a b) 2 = N.testbit a 2 && N.testbit b 2 /\
  N.testbit (dependency_trans a b) 3 = false /\
  N.testbit (dependency_trans a b) 4 = N.testbit a 4 && N.testbit b 4.
Proof.
  intros a b Ha Hb Na Nb.
  assert (G : (a =? 0) || (b =? 0) || (N.testbit (dependency_trans a b) 0 && Bool.eqb (N.testbit (dependency_trans a b) 1) (N.testbit a 1 || N.testbit b 1)
    && Bool.eqb (N.testbit (dependency_trans a b) 2) (N.testbit a 2 && N.testbit b 2) && negb (N.testbit (dependency_trans a b) 3)
    && Bool.eqb (N.testbit (dependency_trans a b) 4) (N.testbit a 4 && N.testbit b 4)) = true).
  { revert a b Ha Hb Na Nb. intros a b Ha Hb _ _. revert a b Ha Hb. apply all32_2. vm_compute. reflexivity. }
  unfold no_dependency in *. destruct (N.eqb_spec a 0), (N.eqb_spec b 0); try congruence. cbn [orb] in G. rewrite !andb_true_iff in G. destruct G as ((((G0 & G1) & G2) & G3) & G4).
  apply Bool.eqb_prop in G1, G2, G4. apply negb_true_iff in G3. auto.
Qed.
Theorem C38_indirect : forall k i, N.testbit (dependency_indirect k) i = N.testbit k i && negb (i =? 3).
Proof.
  intros k i. unfold dependency_indirect, DEPENDENCY_MAYBE_DIRECT. rewrite N.ldiff_spec. change 8 with (2 ^ 3). rewrite N.pow2_bits_eqb. now rewrite (N.eqb_sym 3 i).
Qed.
Example C38_example : dependency_trans 7 18 = 3 /\ dependency_trans 31 31 = 23 /\ dependency_indirect 15 = 7.
Proof. repeat split; reflexivity. Qed.
Print Assumptions C37_cond_compare.
Print Assumptions C38_trans.
