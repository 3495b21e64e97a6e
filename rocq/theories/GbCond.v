(** * GbCond: conditions of statements and tests (C120). *)
From Verif Require Import Base CondModel PropsCond GbModel GbSpec GbInst.
From Coq Require Import Permutation.
Open Scope nat_scope.

Lemma bit_test k b : N.testbit (bit k) b = (b =? N.of_nat k)%N.
Proof.
  unfold bit. rewrite N.shiftl_spec_alt || idtac. destruct (N.eqb_spec b (N.of_nat k)) as [Q|Q].
  - subst b. rewrite N.shiftl_spec_high' by lia. now rewrite N.sub_diag.
  - destruct (N.lt_ge_cases b (N.of_nat k)) as [L|L].
    + apply N.shiftl_spec_low. exact L.
    + rewrite N.shiftl_spec_high' by lia. destruct (b - N.of_nat k)%N eqn:D; [lia|]. apply N.bits_above_log2. cbn. lia.
Qed.
Lemma meets_pos o c k : meets o (pos_cond c k) <-> meets o c /\ yes o k = true.
Proof.
  unfold meets, pos_cond, yes. cbn [positive negative]. split.
  - intros H. split.
    + intros b. destruct (H b) as [H1 H2]. rewrite N.lor_spec in H1. split; [intros Q; apply H1; now rewrite Q|exact H2].
    + apply (H (N.of_nat k)). rewrite N.lor_spec, bit_test, N.eqb_refl. apply orb_true_r.
  - intros [H Hk] b. destruct (H b) as [H1 H2]. split; [|exact H2]. rewrite N.lor_spec, bit_test. intros Q. apply orb_true_iff in Q. destruct Q as [Q|Q]; [auto|]. apply N.eqb_eq in Q. now subst b.
Qed.
Lemma meets_neg o c k : meets o (neg_cond c k) <-> meets o c /\ yes o k = false.
Proof.
  unfold meets, neg_cond, yes. cbn [positive negative]. split.
  - intros H. split.
    + intros b. destruct (H b) as [H1 H2]. rewrite N.lor_spec in H2. split; [exact H1|intros Q; apply H2; now rewrite Q].
    + apply (H (N.of_nat k)). rewrite N.lor_spec, bit_test, N.eqb_refl. apply orb_true_r.
  - intros [H Hk] b. destruct (H b) as [H1 H2]. split; [exact H1|]. rewrite N.lor_spec, bit_test. intros Q. apply orb_true_iff in Q. destruct Q as [Q|Q]; [auto|]. apply N.eqb_eq in Q. now subst b.
Qed.
(** the tests a condition mentions *)
Definition mentions (c : condition) (k : nat) : Prop := N.testbit (N.lor (positive c) (negative c)) (N.of_nat k) = true.
Definition below (c : condition) (n : nat) : Prop := forall b, N.testbit (N.lor (positive c) (negative c)) b = true -> (b < N.of_nat n)%N.
Lemma below_no n : below no_cond n.
Proof. intros b. cbn. discriminate. Qed.
Lemma past_neg c k : below c k -> past_match false c k = neg_cond c k.
Proof.
  intros H. unfold past_match, neg_cond. f_equal. apply N.bits_inj. intros b. rewrite N.ldiff_spec, N.lor_spec, bit_test. destruct (N.eqb_spec b (N.of_nat k)) as [Q|Q].
  - subst b. rewrite andb_false_r. destruct (N.testbit (positive c) (N.of_nat k)) eqn:T; [|reflexivity]. specialize (H (N.of_nat k)). rewrite N.lor_spec, T in H. specialize (H eq_refl). lia.
  - now rewrite orb_false_r, andb_true_r.
Qed.
Lemma below_pos c k n m : below c n -> n <= m -> k < m -> below (pos_cond c k) m.
Proof.
  intros H L K b. cbn [pos_cond positive negative]. rewrite !N.lor_spec, bit_test. intros Q. specialize (H b). rewrite N.lor_spec in H.
  destruct (N.eqb_spec b (N.of_nat k)) as [Qb|Qb]; [lia|]. rewrite orb_false_r in Q. specialize (H Q). lia.
Qed.
Lemma below_neg c k n m : below c n -> n <= m -> k < m -> below (neg_cond c k) m.
Proof.
  intros H L K b. cbn [neg_cond positive negative]. rewrite !N.lor_spec, bit_test. intros Q. specialize (H b). rewrite N.lor_spec in H.
  destruct (N.eqb_spec b (N.of_nat k)) as [Qb|Qb]; [lia|]. rewrite orb_false_r in Q. specialize (H Q). lia.
Qed.
Lemma below_mono c n m : below c n -> n <= m -> below c m.
Proof. intros H L b Q. specialize (H b Q). lia. Qed.
Lemma mentions_pos c k j : mentions (pos_cond c k) j <-> mentions c j \/ j = k.
Proof.
  unfold mentions. cbn [pos_cond positive negative]. rewrite !N.lor_spec, bit_test, !orb_true_iff, N.eqb_eq. split; [intros [[H|H]|H]; auto; right; lia|intros [[H|H]| ->]; auto].
Qed.
Lemma mentions_neg c k j : mentions (neg_cond c k) j <-> mentions c j \/ j = k.
Proof.
  unfold mentions. cbn [neg_cond positive negative]. rewrite !N.lor_spec, bit_test, !orb_true_iff, N.eqb_eq. split; [intros [H|[H|H]]; auto; right; lia|intros [[H|H]| ->]; auto].
Qed.
Lemma meets_no o : meets o no_cond.
Proof. intros b. cbn. split; discriminate. Qed.

(** ** A numbered body, in a form good for induction: the tests of b are at least n and less
    than m, every condition so far mentions only tests below n *)
Inductive numbered_stmt : nat -> stmt -> nat -> Prop :=
| nb_assign n l r : numbered_stmt n (SAssign l r) n
| nb_local n d def : numbered_stmt n (SLocal d def) n
| nb_if n e t f n1 n2 : numbered (S n) t n1 -> numbered n1 f n2 -> numbered_stmt n (SIf n e t f) n2
| nb_case n e ms d n1 n2 : numbered_ms n (n + count_matches ms) ms n1 -> numbered n1 d n2 -> numbered_stmt n (SCase e ms d) n2
| nb_in n d e b n1 : numbered n b n1 -> numbered_stmt n (SForIn d e b) n1
with numbered : nat -> block -> nat -> Prop :=
| nb_nil n : numbered n BNil n
| nb_cons n s b n1 n2 : numbered_stmt n s n1 -> numbered n1 b n2 -> numbered n (BCons s b) n2
with numbered_ms : nat -> nat -> matches -> nat -> Prop :=
| nb_mnil i n : numbered_ms i n MNil n
| nb_mcons i n p b ms n1 n2 : numbered n b n1 -> numbered_ms (S i) n1 ms n2 -> numbered_ms i n (MCons i p b ms) n2.
Scheme numbered_stmt_ind' := Induction for numbered_stmt Sort Prop with numbered_ind' := Induction for numbered Sort Prop with numbered_ms_ind' := Induction for numbered_ms Sort Prop.
Combined Scheme numbered_mut from numbered_stmt_ind', numbered_ind', numbered_ms_ind'.
Lemma count_number ms : forall own n, count_matches (fst (number_matches own n ms)) = count_matches ms.
Proof.
  induction ms as [|k p b ms IH]; intros own n; [reflexivity|]. cbn [number_matches]. destruct (number_block n b) as [b' n1]. specialize (IH (option_map S own) n1). destruct (number_matches (option_map S own) n1 ms) as [ms' n2]. cbn [fst count_matches] in *. now rewrite IH.
Qed.
Lemma number_numbered : (forall s n, no_for_stmt s -> numbered_stmt n (fst (number_stmt n s)) (snd (number_stmt n s))) /\
  (forall b n, no_for b -> numbered n (fst (number_block n b)) (snd (number_block n b))) /\
  (forall ms i n, no_for_matches ms -> numbered_ms i n (fst (number_matches (Some i) n ms)) (snd (number_matches (Some i) n ms))).
Proof.
  apply stmts_mut; intros; cbn [number_stmt number_block number_matches no_for_stmt no_for no_for_matches fst snd] in *.
  - constructor.
  - constructor.
  - destruct H1 as [H1 H2]. specialize (H (S n) H1). destruct (number_block (S n) t) as [t' n1]. specialize (H0 n1 H2). destruct (number_block n1 f) as [f' n2]. cbn [fst snd] in *. now apply nb_if with n1.
  - destruct H1 as [H1 H2]. specialize (H n (n + count_matches ms) H1). pose proof (count_number ms (Some n) (n + count_matches ms)) as C. destruct (number_matches (Some n) (n + count_matches ms) ms) as [t' n1]. specialize (H0 n1 H2). destruct (number_block n1 d) as [f' n2]. cbn [fst snd] in *. apply nb_case with n1; [now rewrite C|exact H0].
  - destruct H0.
  - specialize (H n H0). destruct (number_block n b) as [t' n1]. cbn [fst snd] in *. now constructor.
  - constructor.
  - destruct H1 as [H1 H2]. specialize (H n H1). destruct (number_stmt n s) as [t' n1]. specialize (H0 n1 H2). destruct (number_block n1 b) as [f' n2]. cbn [fst snd] in *. now apply nb_cons with n1.
  - constructor.
  - destruct H1 as [H1 H2]. specialize (H n H1). destruct (number_block n b) as [t' n1]. specialize (H0 (S i) n1 H2). cbn [option_map]. destruct (number_matches (Some (S i)) n1 ms) as [f' n2]. cbn [fst snd] in *. now apply nb_mcons with n1.
Qed.
Lemma numbered_le : (forall n s m, numbered_stmt n s m -> n <= m) /\ (forall n b m, numbered n b m -> n <= m) /\ (forall i n ms m, numbered_ms i n ms m -> n <= m).
Proof. apply numbered_mut; intros; lia. Qed.
(** the matches of a case: what a condition becomes *)
Lemma past_all_numbered : forall ms i n m c, numbered_ms i n ms m -> below c i -> below (past_all c ms) (i + count_matches ms) /\
  (forall o, meets o (past_all c ms) -> meets o c) /\ (forall j, mentions c j -> mentions (past_all c ms) j).
Proof.
  induction ms as [|k p b ms IH]; intros i n m c N Bc; inversion N; subst; cbn [past_all count_matches].
  - rewrite Nat.add_0_r. auto.
  - rewrite (past_neg c k Bc). destruct (IH (S k) n1 m (neg_cond c k)) as (I1 & I2 & I3); [assumption|apply below_neg with k; auto; lia|]. split; [now replace (k + S (count_matches ms)) with (S k + count_matches ms) by lia|]. split.
    + intros o H. apply I2 in H. now apply meets_neg in H.
    + intros j H. apply I3, mentions_neg. auto.
Qed.

(** ** which statements are executed *)
Lemma executed_cons o x s b : executed o x (BCons s b) <-> executed o x (BCons s BNil) \/ executed o x b.
Proof.
  split.
  - intros H. inversion H; subst; auto; left; econstructor; eassumption.
  - intros [H|H]; [|now constructor]. inversion H; subst; try (econstructor; eassumption). inversion H2.
Qed.
Lemma executed_nil o x : executed o x BNil <-> False.
Proof. split; [intros H; inversion H|intros []]. Qed.
Definition conditional (o : outcome) (x : stmt) (l : list (stmt * condition)) : Prop := exists c, In (x, c) l /\ meets o c.
Lemma conditional_app o x l l' : conditional o x (l ++ l') <-> conditional o x l \/ conditional o x l'.
Proof.
  unfold conditional. split.
  - intros (c & H & M). apply in_app_iff in H. destruct H as [H|H]; [left|right]; exists c; auto.
  - intros [(c & H & M)|(c & H & M)]; exists c; (split; [apply in_or_app; auto|exact M]).
Qed.
Lemma conditional_cons o x s c l : conditional o x ((s, c) :: l) <-> (x = s /\ meets o c) \/ conditional o x l.
Proof.
  unfold conditional. cbn [In]. split.
  - intros (c' & [H|H] & M); [injection H as -> ->; auto|right; exists c'; auto].
  - intros [[-> M]|(c' & H & M)]; [exists c; auto|exists c'; auto].
Qed.
Lemma conditional_nil o x : conditional o x [] <-> False.
Proof. split; [|intros []]. intros (c & [] & _). Qed.
Lemma conds_executed o x :
  (forall n s m, numbered_stmt n s m -> forall c, below c n -> conditional o x (conds_stmt c s) <-> meets o c /\ executed o x (BCons s BNil)) /\
  (forall n b m, numbered n b m -> forall c, below c n -> conditional o x (conds_block c b) <-> meets o c /\ executed o x b) /\
  (forall i n ms m, numbered_ms i n ms m -> forall c, below c i -> i + count_matches ms <= n -> forall d m', numbered m d m' -> (forall c, below c m -> conditional o x (conds_block c d) <-> meets o c /\ executed o x d) ->
     conditional o x (conds_matches false c ms ++ conds_block (past_all c ms) d) <-> meets o c /\ executed_match o x ms d).
Proof.
  assert (Only : forall s, executed o x (BCons s BNil) -> x = s \/ match s with SIf k _ t f => if yes o k then executed o x t else executed o x f | SCase _ ms d => executed_match o x ms d | SForIn _ _ b => executed o x b | _ => False end).
  { intros s H. inversion H; subst; auto; try (right; rewrite ?H2; assumption). match goal with H : executed _ _ BNil |- _ => inversion H end. right. match goal with H : yes _ _ = _ |- _ => rewrite H end. assumption. right. match goal with H : yes _ _ = _ |- _ => rewrite H end. assumption. }
  apply numbered_mut; intros; cbn [conds_stmt conds_block conds_matches past_all count_matches] in *; rewrite ?conditional_cons, ?conditional_app, ?conditional_nil.
  - split; [intros [[-> M]|[]]; split; [exact M|constructor]|]. intros [M X]. left. destruct (Only _ X) as [->|[]]. auto.
  - split; [intros [[-> M]|[]]; split; [exact M|constructor]|]. intros [M X]. left. destruct (Only _ X) as [->|[]]. auto.
  - pose proof (proj1 (proj2 numbered_le) _ _ _ n0) as L. rewrite (H (pos_cond c n)) by (apply below_pos with n; auto; lia). rewrite (H0 (neg_cond c n)) by (apply below_neg with n; auto; lia). rewrite meets_pos, meets_neg. split.
    + intros [[-> M]|[[[M Y] X]|[[M Y] X]]]; (split; [exact M|]); [constructor|now apply ex_then|now apply ex_else].
    + intros [M X]. destruct (Only _ X) as [->|Y]; [auto|]. right. destruct (yes o n) eqn:Q; auto.
  - pose proof (proj2 (proj2 numbered_le) _ _ _ _ n0) as L. specialize (H c H1 (le_n _) _ _ n3 H0). rewrite conditional_app in H. rewrite H. split.
    + intros [[-> M]|[M X]]; (split; [exact M|]); constructor; exact X.
    + intros [M X]. destruct (Only _ X) as [->|Y]; auto.
  - rewrite (H c) by assumption. split.
    + intros [[-> M]|[M X]]; (split; [exact M|]); constructor; exact X.
    + intros [M X]. destruct (Only _ X) as [->|Y]; auto.
  - rewrite executed_nil. tauto.
  - pose proof (proj1 numbered_le _ _ _ n0) as L. rewrite (H c) by assumption. rewrite (H0 c) by (apply below_mono with n; auto). rewrite (executed_cons o x s b). tauto.
  - rewrite (H2 c) by (apply below_mono with i; [assumption|]; lia). split; [intros [[]|[M X]]; split; [exact M|now constructor]|]. intros [M X]. inversion X; subst. auto.
  - pose proof (proj1 (proj2 numbered_le) _ _ _ n0) as L. rewrite (past_neg c i) by assumption. rewrite (H (pos_cond c i)) by (apply below_pos with i; auto; lia).
    assert (J : conditional o x (conds_matches false (neg_cond c i) ms ++ conds_block (past_all (neg_cond c i) ms) d) <-> meets o (neg_cond c i) /\ executed_match o x ms d). { apply H0 with m'; auto; [apply below_neg with i; auto; lia|lia]. }
    rewrite conditional_app in J.
    transitivity (meets o (pos_cond c i) /\ executed o x b \/ meets o (neg_cond c i) /\ executed_match o x ms d); [tauto|]. rewrite meets_pos, meets_neg. split.
    + intros [[[M Y] X]|[[M Y] X]]; (split; [exact M|]); [now apply ex_match|now apply ex_next].
    + intros [M X]. inversion X; subst; auto.
Qed.

(** ** which tests are made *)
Definition tested (o : outcome) (k : nat) (l : list gtest) : Prop := exists t, In t l /\ t_num t = k /\ meets o (t_cond t).
Lemma tested_app o k l l' : tested o k (l ++ l') <-> tested o k l \/ tested o k l'.
Proof.
  unfold tested. split.
  - intros (c & H & M). apply in_app_iff in H. destruct H as [H|H]; [left|right]; exists c; auto.
  - intros [(c & H & M)|(c & H & M)]; exists c; (split; [apply in_or_app; auto|exact M]).
Qed.
Lemma tested_cons o k t l : tested o k (t :: l) <-> (t_num t = k /\ meets o (t_cond t)) \/ tested o k l.
Proof.
  unfold tested. cbn [In]. split.
  - intros (c' & [H|H] & M); [subst; auto|right; exists c'; auto].
  - intros [[H M]|(c' & H & M)]; [exists t; auto|exists c'; auto].
Qed.
Lemma tested_nil o x : tested o x [] <-> False.
Proof. split; [|intros []]. intros (c & [] & _). Qed.
Definition made_match (o : outcome) (k : nat) (ms : matches) (d : block) : Prop :=
  comes_to o k ms \/ (exists e t f, executed_match o (SIf k e t f) ms d) \/ exists e ms' d', executed_match o (SCase e ms' d') ms d /\ comes_to o k ms'.
Lemma made_nil o k : made o k BNil <-> False.
Proof. split; [|intros []]. intros [e t f H|e ms d H _]; inversion H. Qed.
Lemma made_cons o k s b : made o k (BCons s b) <-> made o k (BCons s BNil) \/ made o k b.
Proof.
  split.
  - intros [e t f H|e ms d H C]; apply executed_cons in H; destruct H as [H|H]; [left|right|left|right]; (eapply made_if; eassumption) || (eapply GbSpec.made_match; eassumption).
  - intros [[e t f H|e ms d H C]|[e t f H|e ms d H C]]; solve [eapply made_if; apply executed_cons; eauto | eapply GbSpec.made_match; [apply executed_cons; eauto|eassumption]].
Qed.
Lemma made_one o k s : made o k (BCons s BNil) <->
  match s with
  | SIf k' _ t f => k' = k \/ if yes o k' then made o k t else made o k f
  | SCase _ ms d => made_match o k ms d
  | SForIn _ _ b => made o k b
  | _ => False
  end.
Proof.
  split.
  - intros [e t f H|e ms d H C]; inversion H; subst; try match goal with H : executed _ _ BNil |- _ => inversion H end; auto.
    + right. match goal with H : yes _ _ = _ |- _ => rewrite H end. eapply made_if. eassumption.
    + right. match goal with H : yes _ _ = _ |- _ => rewrite H end. eapply made_if. eassumption.
    + right. left. eauto.
    + eapply made_if. eassumption.
    + now left.
    + right. match goal with H : yes _ _ = _ |- _ => rewrite H end. eapply GbSpec.made_match; eassumption.
    + right. match goal with H : yes _ _ = _ |- _ => rewrite H end. eapply GbSpec.made_match; eassumption.
    + right. right. eauto 8.
    + eapply GbSpec.made_match; eassumption.
  - destruct s as [l r|d def|k' e t f|e ms d|e ms|d e b]; try (intros []; fail).
    + intros [->|H]; [eapply made_if; constructor|]. destruct (yes o k') eqn:Q; destruct H as [? ? ? H|? ? ? H C]; (eapply made_if; (apply ex_then + apply ex_else); eassumption) || (eapply GbSpec.made_match; [(apply ex_then + apply ex_else); eassumption|eassumption]).
    + intros [H|[(e' & t & f & H)|(e' & ms' & d' & H & C)]]; [eapply GbSpec.made_match; [constructor|exact H]|eapply made_if; apply ex_case; exact H|eapply GbSpec.made_match; [apply ex_case; exact H|exact C]].
    + intros [? ? ? H|? ? ? H C]; [eapply made_if; apply ex_in; exact H|eapply GbSpec.made_match; [apply ex_in; exact H|exact C]].
Qed.
Lemma made_match_nil o k d : made_match o k MNil d <-> made o k d.
Proof.
  unfold made_match. split.
  - intros [H|[(e & t & f & H)|(e & ms & d' & H & C)]]; [inversion H|inversion H; subst; eapply made_if; eassumption|inversion H; subst; eapply GbSpec.made_match; eassumption].
  - intros [e t f H|e ms d' H C]; right; [left; exists e, t, f; now constructor|right; exists e, ms, d'; split; [now constructor|exact C]].
Qed.
Lemma made_match_cons o k k' p b ms d : made_match o k (MCons k' p b ms) d <-> k' = k \/ if yes o k' then made o k b else made_match o k ms d.
Proof.
  unfold made_match. split.
  - intros [H|[(e & t & f & H)|(e & ms' & d' & H & C)]].
    + inversion H; subst; auto. right. match goal with H : yes _ _ = _ |- _ => rewrite H end. auto.
    + right. inversion H; subst; match goal with H : yes _ _ = _ |- _ => rewrite H end; [eapply made_if; eassumption|right; left; eauto].
    + right. inversion H; subst; match goal with H : yes _ _ = _ |- _ => rewrite H end; [eapply GbSpec.made_match; eassumption|right; right; eauto 8].
  - intros [->|H]; [left; constructor|]. destruct (yes o k') eqn:Q.
    + destruct H as [e t f H|e ms' d' H C]; right; [left; exists e, t, f; now apply ex_match|right; exists e, ms', d'; split; [now apply ex_match|exact C]].
    + destruct H as [H|[(e & t & f & H)|(e & ms' & d' & H & C)]]; [left; now apply ct_next|right; left; exists e, t, f; now apply ex_next|right; right; exists e, ms', d'; split; [now apply ex_next|exact C]].
Qed.
Lemma tests_made o k :
  (forall n s m, numbered_stmt n s m -> forall c, below c n -> tested o k (tests_stmt c s) <-> meets o c /\ made o k (BCons s BNil)) /\
  (forall n b m, numbered n b m -> forall c, below c n -> tested o k (tests_block c b) <-> meets o c /\ made o k b) /\
  (forall i n ms m, numbered_ms i n ms m -> forall c, below c i -> i + count_matches ms <= n -> forall d m', numbered m d m' -> (forall c, below c m -> tested o k (tests_block c d) <-> meets o c /\ made o k d) ->
     tested o k (tests_matches false c ms ++ tests_block (past_all c ms) d) <-> meets o c /\ made_match o k ms d).
Proof.
  apply numbered_mut; intros; cbn [tests_stmt tests_block tests_matches past_all count_matches app] in *; rewrite ?tested_cons, ?tested_app, ?tested_nil, ?made_one.
  - tauto.
  - tauto.
  - pose proof (proj1 (proj2 numbered_le) _ _ _ n0) as L. rewrite (H (pos_cond c n)) by (apply below_pos with n; auto; lia). rewrite (H0 (neg_cond c n)) by (apply below_neg with n; auto; lia). rewrite meets_pos, meets_neg. cbn [t_num t_cond]. destruct (yes o n); intuition congruence.
  - specialize (H c H1 (le_n _) _ _ n3 H0). rewrite tested_app in H. exact H.
  - apply H. exact H0.
  - rewrite made_nil. tauto.
  - pose proof (proj1 numbered_le _ _ _ n0) as L. rewrite (H c) by assumption. rewrite (H0 c) by (apply below_mono with n; auto). rewrite (made_cons o k s b). tauto.
  - rewrite made_match_nil, (H2 c) by (apply below_mono with i; [assumption|]; lia). tauto.
  - pose proof (proj1 (proj2 numbered_le) _ _ _ n0) as L. rewrite (past_neg c i) by assumption. rewrite (H (pos_cond c i)) by (apply below_pos with i; auto; lia). cbn [t_num t_cond].
    assert (J : tested o k (tests_matches false (neg_cond c i) ms ++ tests_block (past_all (neg_cond c i) ms) d) <-> meets o (neg_cond c i) /\ made_match o k ms d). { apply H0 with m'; auto; [apply below_neg with i; auto; lia|lia]. }
    rewrite tested_app in J. rewrite made_match_cons.
    transitivity ((i = k /\ meets o c) \/ meets o (pos_cond c i) /\ made o k b \/ meets o (neg_cond c i) /\ made_match o k ms d); [tauto|]. rewrite meets_pos, meets_neg. destruct (yes o i); intuition congruence.
Qed.
(** each number is the number of one test *)
Lemma tests_numbers :
  (forall n s m, numbered_stmt n s m -> forall c, Permutation (map t_num (tests_stmt c s)) (seq n (m - n))) /\
  (forall n b m, numbered n b m -> forall c, Permutation (map t_num (tests_block c b)) (seq n (m - n))) /\
  (forall i n ms m, numbered_ms i n ms m -> forall c, Permutation (map t_num (tests_matches false c ms)) (seq i (count_matches ms) ++ seq n (m - n))).
Proof.
  assert (Seq : forall a b c, a <= b -> b <= c -> seq a (c - a) = seq a (b - a) ++ seq b (c - b)).
  { intros a b c H1 H2. replace (c - a) with ((b - a) + (c - b)) by lia. rewrite seq_app. now replace (a + (b - a)) with b by lia. }
  apply numbered_mut; intros; cbn [tests_stmt tests_block tests_matches count_matches map app]; rewrite ?map_app, ?Nat.sub_diag; cbn [seq t_num]; auto.
  - pose proof (proj1 (proj2 numbered_le) _ _ _ n0). pose proof (proj1 (proj2 numbered_le) _ _ _ n3). replace (n2 - n) with (S (n2 - S n)) by lia. cbn [seq]. apply perm_skip. rewrite (Seq (S n) n1 n2) by lia. now apply Permutation_app.
  - pose proof (proj2 (proj2 numbered_le) _ _ _ _ n0). pose proof (proj1 (proj2 numbered_le) _ _ _ n3). rewrite (Seq n n1 n2) by lia. apply Permutation_app; [|auto]. rewrite (Seq n (n + count_matches ms) n1) by lia. now replace (n + count_matches ms - n) with (count_matches ms) by lia.
  - pose proof (proj1 numbered_le _ _ _ n0). pose proof (proj1 (proj2 numbered_le) _ _ _ n3). rewrite (Seq n n1 n2) by lia. now apply Permutation_app.
  - pose proof (proj1 (proj2 numbered_le) _ _ _ n0). pose proof (proj2 (proj2 numbered_le) _ _ _ _ n3). apply perm_skip. rewrite (Seq n n1 n2) by lia. rewrite (H (pos_cond c i)), (H0 (past_match false c i)). rewrite app_assoc. rewrite (Permutation_app_comm (seq n (n1 - n))). now rewrite <- app_assoc.
Qed.
