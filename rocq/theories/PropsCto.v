(** * PropsCto: C47 (conditional total orders are complete and ordered). *)
From Verif Require Import Base CondModel EdgeModel DncModel PropsCond EdgeProofs EdgeAddProofs EdgeGraph EdgeSem EdgeWorld PropsEdge SummaryProofs CloseProofs PropsClose DncProofs PropsDnc PropsTree CycleModel UnionFind CycleSpec CycleProofs PropsCycle OagModel PropsOag.
From Coq Require Import Relations.
Open Scope nat_scope.

(** ** Specification *)
(** The instances met on the way through the tree when the tests come out as in o. *)
Fixpoint run (insts : list oinst) (o : outcome) (t : cto) : list nat :=
  match t with
  | CDone => []
  | CNext i t => i :: run insts o t
  | CIf i f t => i :: match nth_error insts i with
                      | Some (mkOinst _ (Some b)) => if o (N.of_nat b) then run insts o t else run insts o f
                      | _ => []
                      end
  end.
(** The tree branches exactly at the if-rules. *)
Fixpoint branches_right (insts : list oinst) (t : cto) : Prop :=
  match t with
  | CDone => True
  | CNext i t => (exists inst, nth_error insts i = Some inst /\ oi_if inst = None) /\ branches_right insts t
  | CIf i f t => (exists inst b, nth_error insts i = Some inst /\ oi_if inst = Some b) /\ branches_right insts f /\ branches_right insts t
  end.
(** Test b is made by an instance of the list; outcomes that agree about these. *)
Definition made (insts : list oinst) (l : list nat) (b : N) : Prop := exists r inst k, In r l /\ nth_error insts r = Some inst /\ oi_if inst = Some k /\ b = N.of_nat k.
Definition agree (insts : list oinst) (l : list nat) (o o' : outcome) : Prop := forall b, made insts l b -> o' b = o b.
(** i depends on j when the tests come out as in o *)
Definition needs_under (s : state) (x : nat) (o : outcome) (j i : nat) : Prop := in_graph (graphs_of s) x j i /\ kind_of_pair (graphs_of s) x o j i <> no_dependency.
(** The order [R] is right for o: nothing twice; everything whose condition holds;
    each i only if, as far as the tests made before can tell, its condition may hold,
    and after all it may depend on as far as they can tell. *)
Definition right_order (s : state) (x : nat) (insts : list oinst) (o : outcome) (R : list nat) : Prop :=
  NoDup R /\ (forall i, In i R -> i < length insts) /\
  (forall i inst, nth_error insts i = Some inst -> meets o (oi_cond inst) -> In i R) /\
  forall before i after, R = before ++ i :: after ->
    (exists o' inst, agree insts before o o' /\ nth_error insts i = Some inst /\ meets o' (oi_cond inst)) /\
    forall j o', agree insts before o o' -> needs_under s x o' j i -> ~ In j (i :: after).
Definition flip (o : outcome) (b : N) : outcome := fun b' => if N.eqb b' b then negb (o b') else o b'.
(** If a dependency disappears when test b comes out differently, then its sink
    depends on the instance making the test (when that instance exists at all). *)
Definition guarded (s : state) (x : nat) (insts : list oinst) : Prop := forall o b j i, needs_under s x o j i ->
  needs_under s x (flip o b) j i \/ exists r inst k, nth_error insts r = Some inst /\ oi_if inst = Some k /\ b = N.of_nat k /\ meets o (oi_cond inst) /\ needs_under s x (flip o b) r i.
Definition distinct_tests (insts : list oinst) : Prop := forall r r' inst inst' b, nth_error insts r = Some inst -> nth_error insts r' = Some inst' -> oi_if inst = Some b -> oi_if inst' = Some b -> r = r'.
Definition has_instances (s : state) (x : nat) (insts : list oinst) : Prop := exists g, nth_error (st_augs s) x = Some g /\ n_inst g = length insts.
(** Every instance depends on the tests its condition mentions. *)
Definition tests_needed (s : state) (x : nat) (insts : list oinst) : Prop := forall i inst o b, nth_error insts i = Some inst -> meets o (oi_cond inst) ->
  N.testbit (positive (oi_cond inst)) b = true \/ N.testbit (negative (oi_cond inst)) b = true ->
  exists r rinst k, nth_error insts r = Some rinst /\ oi_if rinst = Some k /\ b = N.of_nat k /\ meets o (oi_cond rinst) /\ needs_under s x o r i.

(** ** Proofs *)
Lemma meets_merge o c1 c2 : meets o (merge_cond c1 c2) <-> meets o c1 /\ meets o c2.
Proof.
  unfold meets, merge_cond. cbn [positive negative]. split.
  - intros H. split; intros b; destruct (H b) as [P Q]; rewrite !N.lor_spec, !orb_true_iff in *; tauto.
  - intros [H1 H2] b. destruct (H1 b), (H2 b). rewrite !N.lor_spec, !orb_true_iff. tauto.
Qed.
Lemma impossible_sat c : impossible c = false <-> satisfiable c.
Proof.
  rewrite sat_consistent. unfold impossible, consistent. rewrite negb_false_iff, N.eqb_eq. split.
  - intros E b B1 B2. assert (B : N.testbit (N.land (positive c) (negative c)) b = true) by (rewrite N.land_spec; unfold tb in *; now rewrite B1, B2). rewrite E, N.bits_0 in B. discriminate.
  - intros H. apply N.bits_inj_0. intros b. rewrite N.land_spec. specialize (H b). unfold tb in H. destruct (N.testbit (positive c) b), (N.testbit (negative c) b); auto. exfalso. auto.
Qed.
Lemma possible_spec cond c : impossible (merge_cond cond c) = false <-> exists o, meets o cond /\ meets o c.
Proof. rewrite impossible_sat. unfold satisfiable. setoid_rewrite meets_merge. tauto. Qed.
Definition mbit (c : condition) (b : N) : Prop := N.testbit (positive c) b = true \/ N.testbit (negative c) b = true.
Lemma meets_agree o o' c : meets o c -> (forall b, mbit c b -> o' b = o b) -> meets o' c.
Proof. intros M H b. destruct (M b) as [P Q]. split; intros B; rewrite H; unfold mbit; auto. Qed.
Lemma cmask_spec k b : N.testbit (N.shiftl 1 (N.of_nat k)) b = true <-> b = N.of_nat k.
Proof.
  rewrite N.shiftl_1_l, N.pow2_bits_eqb, N.eqb_eq. split; congruence.
Qed.
Definition falsec (cond : condition) (k : nat) : condition := mkCond (positive cond) (N.lor (negative cond) (N.shiftl 1 (N.of_nat k))).
Definition truec (cond : condition) (k : nat) : condition := mkCond (N.lor (positive cond) (N.shiftl 1 (N.of_nat k))) (N.ldiff (N.lor (negative cond) (N.shiftl 1 (N.of_nat k))) (N.shiftl 1 (N.of_nat k))).
Lemma falsec_bits cond k b : mbit (falsec cond k) b <-> mbit cond b \/ b = N.of_nat k.
Proof. unfold mbit, falsec. cbn [positive negative]. rewrite N.lor_spec, orb_true_iff, cmask_spec. tauto. Qed.
Lemma truec_neg cond k b : N.testbit (negative (truec cond k)) b = true <-> N.testbit (negative cond) b = true /\ b <> N.of_nat k.
Proof.
  unfold truec. cbn [negative]. rewrite N.ldiff_spec, N.lor_spec, andb_true_iff, orb_true_iff, negb_true_iff, cmask_spec. destruct (N.testbit (N.shiftl 1 (N.of_nat k)) b) eqn:E.
  - apply cmask_spec in E. intuition congruence.
  - assert (b <> N.of_nat k) by (intros Z; apply cmask_spec in Z; congruence). tauto.
Qed.
Lemma truec_bits cond k b : mbit (truec cond k) b <-> mbit cond b \/ b = N.of_nat k.
Proof. unfold mbit. rewrite truec_neg. unfold truec. cbn [positive]. rewrite N.lor_spec, orb_true_iff, cmask_spec. destruct (N.eq_dec b (N.of_nat k)); tauto. Qed.
Lemma falsec_meets o cond k : meets o (falsec cond k) <-> meets o cond /\ o (N.of_nat k) = false.
Proof.
  unfold meets, falsec. cbn [positive negative]. split.
  - intros H. split; [|apply (H (N.of_nat k)); rewrite N.lor_spec, orb_true_iff, cmask_spec; auto]. intros b. destruct (H b) as [P Q]. rewrite N.lor_spec, orb_true_iff in Q. tauto.
  - intros [H E] b. destruct (H b) as [P Q]. rewrite N.lor_spec, orb_true_iff, cmask_spec. split; auto. intros [?| ->]; auto.
Qed.
Lemma truec_meets o cond k : meets o cond -> o (N.of_nat k) = true -> meets o (truec cond k).
Proof.
  intros H E b. rewrite truec_neg. unfold truec. cbn [positive]. rewrite N.lor_spec, orb_true_iff, cmask_spec. destruct (H b) as [P Q]. split; [|tauto]. intros [?| ->]; auto.
Qed.
Definition sch (sched : list bool) (i : nat) : bool := nth i sched true.
Definition left_over (sched : list bool) : nat := length (filter negb sched).
Lemma sch_upd sched i k : i < length sched -> sch (upd sched i true) k = if k =? i then true else sch sched k.
Proof.
  intros Hi. unfold sch. destruct (Nat.eqb_spec k i) as [->|Ne].
  - apply nth_error_nth. now apply nth_error_upd_eq.
  - destruct (nth_error sched k) as [v|] eqn:E.
    + rewrite (nth_error_nth _ _ _ E). apply nth_error_nth. now rewrite nth_error_upd_neq by congruence.
    + apply nth_error_None in E. rewrite !nth_overflow; auto. now rewrite upd_length.
Qed.
Lemma left_upd sched : forall i, i < length sched -> sch sched i = false -> S (left_over (upd sched i true)) = left_over sched.
Proof.
  unfold left_over, sch. induction sched as [|a l IH]; intros [|i] Hi Ei; cbn [length] in Hi; try lia; cbn [upd nth filter] in *.
  - subst a. reflexivity.
  - destruct a; cbn [negb length]; rewrite <- (IH i) by (auto; lia); reflexivity.
Qed.
Lemma left_zero sched : left_over sched = 0 -> forall i, sch sched i = true.
Proof.
  unfold left_over, sch. induction sched as [|a l IH]; intros E i; [now destruct i|]. cbn [filter] in E. destruct a; cbn [negb length] in E; [|discriminate]. destruct i; auto. now apply IH.
Qed.
Section S.
Variables (insts : list oinst) (E : nat -> nat -> list (condition * N)) (edges : nat -> nat -> res (list (condition * N))).
Let n := length insts.
Hypothesis Hedges : forall j i, j < n -> i < n -> edges j i = Ok (E j i).
Definition dep (o : outcome) (j i : nat) : Prop := j < n /\ i < n /\ exists c k, In (c, k) (E j i) /\ meets o c.
Definition waitb (sched : list bool) (cond : condition) (i : nat) : bool := existsb (fun j => negb (sch sched j) && existsb (fun e => negb (impossible (merge_cond cond (fst e)))) (E j i)) (seq 0 n).
Lemma waitb_spec sched cond i : i < n -> waitb sched cond i = true <-> exists j o, sch sched j = false /\ meets o cond /\ dep o j i.
Proof.
  intros Hi. unfold waitb. rewrite existsb_exists. split.
  - intros (j & Hj & T). apply in_seq in Hj. apply andb_true_iff in T. destruct T as [T1 T2]. rewrite negb_true_iff in T1. apply existsb_exists in T2. destruct T2 as ([c k] & Hin & T2). rewrite negb_true_iff in T2. apply possible_spec in T2. destruct T2 as (o & M1 & M2). exists j, o. ands; auto. unfold dep. ands; auto; try lia. exists c, k. auto.
  - intros (j & o & Sj & M & Lj & _ & c & k & Hin & Mc). exists j. split; [apply in_seq; lia|]. rewrite Sj. cbn [negb andb]. apply existsb_exists. exists (c, k). split; auto. rewrite negb_true_iff. apply possible_spec. eauto.
Qed.
Lemma waits_ok sched cond i : length sched = n -> i < n -> waits_for edges n sched cond i = Ok (waitb sched cond i).
Proof.
  intros L Hi. unfold waits_for, waitb. apply existsM_ok. intros j Hj. apply in_seq in Hj. rewrite (proj2 (rd_Ok sched j (sch sched j))) by (apply nth_error_nth'; lia). cbn [bind]. destruct (sch sched j); auto. rewrite Hedges by lia. reflexivity.
Qed.
Lemma ready_ok sched cond l : length sched = n -> (forall i, In i l -> i < n) ->
  exists r, first_ready edges n sched cond l = Ok r /\ match r with Some i => In i l /\ sch sched i = false /\ waitb sched cond i = false | None => forall i, In i l -> sch sched i = true \/ waitb sched cond i = true end.
Proof.
  intros L. induction l as [|i l IH]; intros Hl; cbn [first_ready]; [exists None; split; auto; intros i []|]. assert (Hi : i < n) by (apply Hl; now left). rewrite (proj2 (rd_Ok sched i (sch sched i))) by (apply nth_error_nth'; lia). cbn [bind]. destruct IH as (r & Er & Hr); [intros; apply Hl; now right|].
  assert (Sk : sch sched i = true \/ waitb sched cond i = true -> exists r, first_ready edges n sched cond l = Ok r /\ match r with Some k => In k (i :: l) /\ sch sched k = false /\ waitb sched cond k = false | None => forall k, In k (i :: l) -> sch sched k = true \/ waitb sched cond k = true end).
  { intros T. exists r. split; auto. destruct r; [destruct Hr as (H1 & H2 & H3); ands; auto; now right|]. intros k [<-|Hk]; auto. }
  destruct (sch sched i) eqn:Si; [apply Sk; auto|]. rewrite waits_ok by auto. cbn [bind]. destruct (waitb sched cond i) eqn:Wi; [apply Sk; auto|]. exists (Some i). ands; auto. now left.
Qed.
Definition rrun (sched : list bool) (L : list nat) (o : outcome) (R : list nat) : Prop :=
  NoDup R /\ (forall i, In i R -> i < n /\ sch sched i = false) /\
  (forall i inst, nth_error insts i = Some inst -> sch sched i = false -> meets o (oi_cond inst) -> In i R) /\
  forall before i after, R = before ++ i :: after ->
    (exists o' inst, agree insts (L ++ before) o o' /\ nth_error insts i = Some inst /\ meets o' (oi_cond inst)) /\
    forall j o', agree insts (L ++ before) o o' -> dep o' j i -> ~ In j (i :: after).
Lemma made_snoc L i inst b : nth_error insts i = Some inst -> made insts (L ++ [i]) b <-> made insts L b \/ exists k, oi_if inst = Some k /\ b = N.of_nat k.
Proof.
  intros Ei. unfold made. split.
  - intros (r & inst' & k & Hin & E1 & E2 & ->). apply in_app_iff in Hin. destruct Hin as [Hin|[<-|[]]]; [left; exists r, inst', k; auto|]. right. exists k. split; auto. congruence.
  - intros [(r & inst' & k & Hin & E1 & E2 & ->)|(k & E1 & ->)]; [exists r, inst', k|exists i, inst, k]; ands; auto; apply in_or_app; auto. right. now left.
Qed.
Lemma rest_step sched cond L o i inst R : length sched = n -> i < n -> nth_error insts i = Some inst -> sch sched i = false -> waitb sched cond i = false -> impossible (merge_cond cond (oi_cond inst)) = false ->
  meets o cond -> (forall b, mbit cond b <-> made insts L b) -> rrun (upd sched i true) (L ++ [i]) o R -> rrun sched L o (i :: R).
Proof.
  intros Ls Hi Ei Si Wi Pi M Hb (Nd & Lt & Cm & Od). assert (Su : forall k, sch (upd sched i true) k = if k =? i then true else sch sched k) by (intros; apply sch_upd; lia).
  assert (Sr : forall k, In k R -> k <> i /\ k < n /\ sch sched k = false). { intros k Hk. destruct (Lt k Hk) as [H1 H2]. rewrite Su in H2. destruct (Nat.eqb_spec k i); [discriminate|auto]. }
  unfold rrun. ands.
  - constructor; auto. intros Hin. destruct (Sr i Hin). congruence.
  - intros k [<-|Hk]; [auto|]. destruct (Sr k Hk) as (_ & ? & ?). auto.
  - intros k ki Ek Sk Mk. destruct (Nat.eq_dec k i) as [->|Nk]; [now left|]. right. apply (Cm k ki); auto. rewrite Su. now rewrite (proj2 (Nat.eqb_neq _ _) Nk).
  - intros before k after Eq. destruct before as [|b0 before]; cbn [app] in Eq; injection Eq as <- Eq.
    + subst after. rewrite app_nil_r. apply possible_spec in Pi. destruct Pi as (o1 & M1 & M2). split.
      * exists o1, inst. ands; auto. intros b Hm. apply Hb in Hm. destruct (M1 b) as [P1 Q1], (M b) as [P Q]. destruct Hm as [B|B]; [rewrite P1, P|rewrite Q1, Q]; auto.
      * intros j o' Ag D Hj. assert (T : waitb sched cond i = true); [|congruence]. apply waitb_spec; auto. exists j, o'. ands; auto; [destruct Hj as [<-|Hj]; auto; apply (Sr j Hj)|]. apply (meets_agree o); auto. intros b B. apply Ag. now apply Hb.
    + destruct (Od before k after Eq) as [O1 O2]. rewrite <- app_assoc in O1, O2. cbn [app] in O1, O2. auto.
Qed.
Lemma rest_sound : forall rem sched cond t L, length sched = n -> rem = left_over sched -> schedule_rest edges insts rem sched cond = Ok t -> (forall b, mbit cond b <-> made insts L b) ->
  branches_right insts t /\ forall o, meets o cond -> rrun sched L o (run insts o t).
Proof.
  induction rem as [|rem IH]; intros sched cond t L Ls Hr Et Hb; cbn [schedule_rest] in Et.
  - injection Et as <-. cbn [branches_right run]. split; auto. intros o M. unfold rrun. ands; [constructor|intros i []| |].
    + intros i inst _ Si. rewrite (left_zero sched (eq_sym Hr)) in Si. discriminate.
    + intros before i after Eq. destruct before; discriminate.
  - fold n in Et. destruct (ready_ok sched cond (seq 0 n) Ls) as (r & Er & Hready). { intros i Hi. apply in_seq in Hi. lia. } rewrite Er in Et. cbn [bind] in Et. destruct r as [i|]; [|discriminate]. destruct Hready as (Hi & Si & Wi). apply in_seq in Hi. destruct Hi as [_ Hi]. cbn [plus] in Hi.
    destruct (nth_error insts i) as [inst|] eqn:Ei; [|apply nth_error_None in Ei; unfold n in Hi; lia]. rewrite (proj2 (rd_Ok _ _ _) Ei) in Et. cbn [bind] in Et. rewrite wr_Ok in Et by lia. cbn [bind] in Et.
    assert (Ls' : length (upd sched i true) = n) by (now rewrite upd_length). assert (Hr' : rem = left_over (upd sched i true)) by (pose proof (left_upd sched i ltac:(lia) Si); lia).
    assert (Su : forall k, sch (upd sched i true) k = if k =? i then true else sch sched k) by (intros; apply sch_upd; lia).
    destruct (impossible (merge_cond cond (oi_cond inst))) eqn:Im.
    + destruct (IH _ _ _ L Ls' Hr' Et Hb) as [B IHt]. split; auto. intros o M. destruct (IHt o M) as (Nd & Lt & Cm & Od). unfold rrun. ands; auto.
      * intros k Hk. destruct (Lt k Hk) as [H1 H2]. split; auto. rewrite Su in H2. destruct (k =? i); [discriminate|auto].
      * intros k ki Ek Sk Mk. apply (Cm k ki); auto. rewrite Su. destruct (Nat.eqb_spec k i) as [->|]; auto. exfalso. rewrite Ei in Ek. injection Ek as <-. assert (Z : impossible (merge_cond cond (oi_cond inst)) = false) by (apply possible_spec; exists o; split; auto). congruence.
    + destruct (oi_if inst) as [k|] eqn:Ek.
      * fold (falsec cond k) (truec cond k) in Et. destruct (schedule_rest edges insts rem (upd sched i true) (falsec cond k)) as [f| | |] eqn:Ef; cbn [bind] in Et; try discriminate. destruct (schedule_rest edges insts rem (upd sched i true) (truec cond k)) as [tt| | |] eqn:Ett; cbn [bind] in Et; try discriminate. injection Et as <-.
        assert (Hm : forall b, (mbit cond b \/ b = N.of_nat k) <-> made insts (L ++ [i]) b). { intros b. rewrite (made_snoc L i inst b Ei), Hb. split; (intros [|H]; [auto|right]); [exists k; auto|destruct H as (k' & E1 & ->); congruence]. }
        destruct (IH _ _ _ (L ++ [i]) Ls' Hr' Ef) as [Bf If]. { intros b. now rewrite falsec_bits. }
        destruct (IH _ _ _ (L ++ [i]) Ls' Hr' Ett) as [Bt It]. { intros b. now rewrite truec_bits. }
        cbn [branches_right run]. split; [ands; auto; eauto|]. intros o M. rewrite Ei. destruct inst as [ic if0]. cbn [oi_if] in Ek. subst if0. apply (rest_step sched cond L o i (mkOinst ic (Some k))); auto. destruct (o (N.of_nat k)) eqn:Eo; [apply It; now apply truec_meets|apply If; now apply falsec_meets].
      * destruct (schedule_rest edges insts rem (upd sched i true) cond) as [t'| | |] eqn:Et'; cbn [bind] in Et; try discriminate. injection Et as <-.
        destruct (IH _ _ _ (L ++ [i]) Ls' Hr' Et') as [B It]. { intros b. rewrite (made_snoc L i inst b Ei), Hb. split; auto. intros [|(k & E1 & _)]; auto. congruence. }
        cbn [branches_right run]. split; [split; eauto|]. intros o M. apply (rest_step sched cond L o i inst); auto.
Qed.
Lemma rest_total : forall rem sched cond, length sched = n -> (exists t, schedule_rest edges insts rem sched cond = Ok t) \/ schedule_rest edges insts rem sched cond = Exit.
Proof.
  induction rem as [|rem IH]; intros sched cond Ls; cbn [schedule_rest]; [eauto|]. fold n. destruct (ready_ok sched cond (seq 0 n) Ls) as (r & Er & Hready). { intros i Hi. apply in_seq in Hi. lia. } rewrite Er. cbn [bind]. destruct r as [i|]; auto.
  destruct Hready as (Hi & _). apply in_seq in Hi. destruct (nth_error insts i) as [inst|] eqn:Ei; [|apply nth_error_None in Ei; unfold n in Hi; lia]. rewrite (proj2 (rd_Ok _ _ _) Ei). cbn [bind]. rewrite wr_Ok by lia. cbn [bind].
  assert (Ls' : length (upd sched i true) = n) by (now rewrite upd_length). destruct (impossible _); auto. destruct (oi_if inst) as [k|].
  - match goal with |- context [schedule_rest edges insts rem (upd sched i true) ?c] => destruct (IH (upd sched i true) c Ls') as [(f & Ef)|Ef]; rewrite Ef; cbn [bind]; auto end.
    match goal with |- context [schedule_rest edges insts rem (upd sched i true) ?c] => destruct (IH (upd sched i true) c Ls') as [(t & Et)|Et]; rewrite Et; cbn [bind]; eauto end.
  - destruct (IH (upd sched i true) cond Ls') as [(t & Et)|Et]; rewrite Et; cbn [bind]; eauto.
Qed.
(** *** when the order exists *)
Hypothesis Hguard : forall o b j i, dep o j i -> dep (flip o b) j i \/ exists r inst k, nth_error insts r = Some inst /\ oi_if inst = Some k /\ b = N.of_nat k /\ meets o (oi_cond inst) /\ dep (flip o b) r i.
Hypothesis Hdistinct : distinct_tests insts.
Hypothesis Hacyclic : forall o i, ~ clos_trans nat (dep o) i i.
Definition cinv (sched : list bool) (cond : condition) : Prop :=
  (forall b, mbit cond b -> exists r inst k, nth_error insts r = Some inst /\ oi_if inst = Some k /\ b = N.of_nat k /\ sch sched r = true) /\
  (forall r inst, nth_error insts r = Some inst -> sch sched r = true -> (forall k, oi_if inst = Some k -> mbit cond (N.of_nat k)) \/ impossible (merge_cond cond (oi_cond inst)) = true).
Lemma dep_ext o o' j i : (forall b, o' b = o b) -> dep o j i -> dep o' j i.
Proof. intros H (Lj & Li & c & k & Hin & M). unfold dep. ands; auto. exists c, k. split; auto. intros b. rewrite H. apply M. Qed.
Lemma move_outcome sched cond os i : cinv sched cond -> meets os cond -> forall l o j, (forall b, o b <> os b -> In b l) -> meets o cond -> sch sched j = false -> dep o j i -> exists j', sch sched j' = false /\ dep os j' i.
Proof.
  intros [_ C2] Ms l. induction l as [|b l IH]; intros o j Hl M Sj D.
  - exists j. split; auto. apply (dep_ext o); auto. intros b. destruct (Bool.bool_dec (o b) (os b)) as [->|Ne]; auto. destruct (Hl b Ne).
  - destruct (Bool.bool_dec (o b) (os b)) as [Eb|Nb].
    + apply (IH o j); auto. intros b' Nb'. destruct (Hl b' Nb') as [<-|]; auto. contradiction.
    + assert (Fb : forall b', flip o b b' = if N.eqb b' b then os b' else o b'). { intros b'. unfold flip. destruct (N.eqb_spec b' b) as [->|]; auto. destruct (o b), (os b); cbn; congruence. }
      assert (Nc : ~ mbit cond b). { intros [B|B]; [destruct (M b) as [P _], (Ms b) as [P' _]; rewrite P, P' in Nb by auto|destruct (M b) as [_ P], (Ms b) as [_ P']; rewrite P, P' in Nb by auto]; congruence. }
      assert (Mf : meets (flip o b) cond). { apply (meets_agree o); auto. intros b' B'. rewrite Fb. destruct (N.eqb_spec b' b) as [->|]; [contradiction|auto]. }
      assert (Lf : forall b', flip o b b' <> os b' -> In b' l). { intros b' Nb'. rewrite Fb in Nb'. destruct (N.eqb_spec b' b) as [Heq|Hne]; [congruence|]. destruct (Hl b' Nb') as [<-|]; auto. congruence. }
      destruct (Hguard o b j i D) as [D'|(r & inst & k & Er & Ek & -> & Mr & D')]; [apply (IH (flip o b) j); auto|]. apply (IH (flip o (N.of_nat k)) r); auto.
      destruct (sch sched r) eqn:Sr; auto. exfalso. destruct (C2 r inst Er Sr) as [Hk|Im]; [apply Nc; auto|]. assert (Z : impossible (merge_cond cond (oi_cond inst)) = false) by (apply possible_spec; eauto). congruence.
Qed.
Lemma never_stuck sched cond : cinv sched cond -> satisfiable cond -> (exists i, i < n /\ sch sched i = false) -> (forall i, i < n -> sch sched i = true \/ waitb sched cond i = true) -> False.
Proof.
  intros C (os & Ms) (i0 & L0 & S0) W.
  assert (Pre : forall i, i < n -> sch sched i = false -> exists j, j < n /\ sch sched j = false /\ dep os j i).
  { intros i Li Si. destruct (W i Li) as [|Wi]; [congruence|]. apply waitb_spec in Wi; auto. destruct Wi as (j & o & Sj & M & D). pose proof D as (Lj & _ & c & k & Hin & Mc).
    set (o1 := fun b => if N.testbit (N.lor (N.lor (positive c) (negative c)) (N.lor (positive cond) (negative cond))) b then o b else os b).
    assert (O1 : forall c0, (forall b, mbit c0 b -> mbit c b \/ mbit cond b) -> meets o c0 -> meets o1 c0). { intros c0 Hc M0. apply (meets_agree o); auto. intros b B. unfold o1. replace (N.testbit _ b) with true; auto. symmetry. rewrite !N.lor_spec, !orb_true_iff. apply Hc in B. unfold mbit in B. tauto. }
    assert (D1 : dep o1 j i). { unfold dep. ands; auto. exists c, k. split; auto. }
    destruct (move_outcome sched cond os i C Ms (map N.of_nat (seq 0 (N.to_nat (N.size (N.lor (N.lor (positive c) (negative c)) (N.lor (positive cond) (negative cond))))))) o1 j) as (j' & Sj' & D'); auto.
    - intros b Nb. unfold o1 in Nb. destruct (N.testbit (N.lor (N.lor (positive c) (negative c)) (N.lor (positive cond) (negative cond))) b) eqn:T; [|congruence]. apply in_map_iff. exists (N.to_nat b). split; [apply N2Nat.id|]. apply in_seq. split; [lia|]. cbn [plus].
      assert (Lb : (b < N.size (N.lor (N.lor (positive c) (negative c)) (N.lor (positive cond) (negative cond))))%N); [|lia]. destruct (N.lt_ge_cases b (N.size (N.lor (N.lor (positive c) (negative c)) (N.lor (positive cond) (negative cond))))) as [|Ge]; auto. exfalso.
      assert (Z : N.testbit (N.lor (N.lor (positive c) (negative c)) (N.lor (positive cond) (negative cond))) b = false); [|congruence]. destruct (N.eq_dec (N.lor (N.lor (positive c) (negative c)) (N.lor (positive cond) (negative cond))) 0) as [->|Nz]; [apply N.bits_0|]. apply N.bits_above_log2. rewrite N.size_log2 in Ge by auto. lia.
    - exists j'. ands; auto. apply D'. }
  set (f := fun i => match List.find (fun j => negb (sch sched j) && existsb (fun e => meetsb os (fst e)) (E j i)) (seq 0 n) with Some j => j | None => 0 end).
  destruct (finite_cycle [] (dep os) f (fun i => i < n /\ sch sched i = false) n i0) as (i & C1); auto; [|exact (Hacyclic os i C1)].
  intros i [Li Si]. destruct (Pre i Li Si) as (j & Lj & Sj & (_ & _ & c & k & Hin & Mc)). unfold f. destruct (List.find _ (seq 0 n)) as [j'|] eqn:Ef.
  - apply find_some in Ef. destruct Ef as [Hj' T]. apply in_seq in Hj'. apply andb_true_iff in T. destruct T as [T1 T2]. rewrite negb_true_iff in T1. apply existsb_exists in T2. destruct T2 as ([c' k'] & Hin' & T2). apply meetsb_spec in T2. ands; auto; try lia. unfold dep. ands; auto; try lia. exists c', k'. auto.
  - exfalso. eapply find_none in Ef; [|apply in_seq; split; [|exact Lj]; lia]. cbn beta in Ef. rewrite Sj in Ef. cbn [negb andb] in Ef. assert (Z : existsb (fun e => meetsb os (fst e)) (E j i) = true); [|congruence]. apply existsb_exists. exists (c, k). split; auto. now apply meetsb_spec.
Qed.
Lemma cinv_step sched cond cond' i inst : length sched = n -> i < n -> nth_error insts i = Some inst -> sch sched i = false -> cinv sched cond -> (forall b, mbit cond b -> mbit cond' b) ->
  (forall o, meets o cond' -> meets o cond) ->
  (forall b, mbit cond' b -> mbit cond b \/ exists k, oi_if inst = Some k /\ b = N.of_nat k) ->
  ((forall k, oi_if inst = Some k -> mbit cond' (N.of_nat k)) \/ impossible (merge_cond cond' (oi_cond inst)) = true) -> cinv (upd sched i true) cond'.
Proof.
  intros Ls Hi Ei Si [C1 C2] Hmono Hm Hb Hk. assert (Su : forall k, sch (upd sched i true) k = if k =? i then true else sch sched k) by (intros; apply sch_upd; lia). split.
  - intros b B. destruct (Hb b B) as [B'|(k & Ek & ->)].
    + destruct (C1 b B') as (r & ri & k & H1 & H2 & H3 & H4). exists r, ri, k. ands; auto. rewrite Su, H4. now destruct (r =? i).
    + exists i, inst, k. ands; auto. rewrite Su. now rewrite Nat.eqb_refl.
  - intros r ri Er Sr. rewrite Su in Sr. destruct (Nat.eqb_spec r i) as [->|Nr]; [rewrite Ei in Er; injection Er as <-; auto|]. destruct (C2 r ri Er Sr) as [H|H]; [left; intros; apply Hmono; auto|right].
    destruct (impossible (merge_cond cond' (oi_cond ri))) eqn:Z; auto. apply possible_spec in Z. destruct Z as (o & M1 & M2). assert (Z : impossible (merge_cond cond (oi_cond ri)) = false) by (apply possible_spec; exists o; auto). congruence.
Qed.
Lemma rest_complete : forall rem sched cond, length sched = n -> rem = left_over sched -> satisfiable cond -> cinv sched cond -> exists t, schedule_rest edges insts rem sched cond = Ok t.
Proof.
  induction rem as [|rem IH]; intros sched cond Ls Hr Sc C; cbn [schedule_rest]; [eauto|]. fold n. destruct (ready_ok sched cond (seq 0 n) Ls) as (r & Er & Hready). { intros i Hi. apply in_seq in Hi. lia. } rewrite Er. cbn [bind]. destruct r as [i|].
  2:{ exfalso. apply (never_stuck sched cond C Sc).
      - destruct (in_dec Bool.bool_dec false sched) as [Hin|Hn]; [|exfalso].
        + apply In_nth_error in Hin. destruct Hin as (i & Ei). exists i. split; [unfold n in *; rewrite <- Ls; apply nth_error_Some; congruence|]. now apply nth_error_nth.
        + assert (Z : left_over sched = 0); [|lia]. unfold left_over. clear - Hn. induction sched as [|a l IH]; auto. cbn [filter]. destruct a; cbn [negb]; [apply IH; intros H; apply Hn; now right|exfalso; apply Hn; now left].
      - intros i Hi. apply Hready. apply in_seq. lia. }
  destruct Hready as (Hi & Si & Wi). apply in_seq in Hi. destruct Hi as [_ Hi]. cbn [plus] in Hi. destruct (nth_error insts i) as [inst|] eqn:Ei; [|apply nth_error_None in Ei; unfold n in Hi; lia]. rewrite (proj2 (rd_Ok _ _ _) Ei). cbn [bind]. rewrite wr_Ok by lia. cbn [bind].
  assert (Ls' : length (upd sched i true) = n) by (now rewrite upd_length). assert (Hr' : rem = left_over (upd sched i true)) by (pose proof (left_upd sched i ltac:(lia) Si); lia).
  destruct (impossible (merge_cond cond (oi_cond inst))) eqn:Im; [apply IH; auto; eapply cinv_step; eauto|]. destruct (oi_if inst) as [k|] eqn:Ek.
  - fold (falsec cond k) (truec cond k). assert (Nb : ~ mbit cond (N.of_nat k)). { intros B. destruct C as [C1 _]. destruct (C1 _ B) as (r & ri & k' & E1 & E2 & E3 & E4). apply Nat2N.inj in E3. subst k'. assert (r = i) by (eapply Hdistinct; eauto). subst r. congruence. }
    destruct Sc as (o & M). set (of := fun b => if N.eqb b (N.of_nat k) then false else o b). set (ot := fun b => if N.eqb b (N.of_nat k) then true else o b).
    assert (Mo : forall v, meets (fun b => if N.eqb b (N.of_nat k) then v else o b) cond). { intros v. apply (meets_agree o); auto. intros b B. destruct (N.eqb_spec b (N.of_nat k)) as [->|]; [contradiction|auto]. }
    destruct (IH (upd sched i true) (falsec cond k) Ls' Hr') as (f & ->).
    { exists of. apply falsec_meets. split; [apply Mo|]. unfold of. now rewrite N.eqb_refl. }
    { eapply cinv_step; eauto; [intros b B; apply falsec_bits; auto|intros o' M'; now apply falsec_meets in M'|intros b B; apply falsec_bits in B; destruct B; eauto|left; intros k' E'; apply falsec_bits; right; congruence]. }
    cbn [bind]. destruct (IH (upd sched i true) (truec cond k) Ls' Hr') as (t & ->); [| |cbn [bind]; eauto].
    { exists ot. apply truec_meets; [apply Mo|]. unfold ot. now rewrite N.eqb_refl. }
    { eapply cinv_step; eauto; [intros b B; apply truec_bits; auto| |intros b B; apply truec_bits in B; destruct B; eauto|left; intros k' E'; apply truec_bits; right; congruence].
      intros o' M' b. destruct (M' b) as [P Q]. split; intros B; [apply P; unfold truec; cbn [positive]; now rewrite N.lor_spec, B|]. apply Q. apply truec_neg. split; auto. intros ->. apply Nb. now right. }
  - destruct (IH (upd sched i true) cond Ls' Hr' Sc) as (t & ->); [eapply cinv_step; eauto; left; intros k' E'; congruence|cbn [bind]; eauto].
Qed.
End S.

(** ** From the graphs *)
Section G.
Variables (s : state) (x : nat) (insts : list oinst).
Hypothesis Hok : edges_ok s.
Hypothesis Hinst : has_instances s x insts.
Lemma graph_here j i : j < length insts -> i < length insts -> in_graph (graphs_of s) x j i.
Proof. intros Hj Hi. destruct Hinst as (g & Eg & En). exists g. rewrite En. auto. Qed.
Lemma graph_edges j i : j < length insts -> i < length insts -> pairs_at s x j i = Ok (cellp s x j i).
Proof. intros Hj Hi. apply cellp_ok; auto. now apply graph_here. Qed.
Lemma dep_needs o j i : dep insts (cellp s x) o j i <-> needs_under s x o j i.
Proof.
  unfold dep, needs_under. split.
  - intros (Hj & Hi & c & k & Hin & M). pose proof (graph_here j i Hj Hi) as Hg. split; auto. rewrite kind_cellp by auto. eapply seen_nz; eauto. eapply (cellp_ok s x j i Hok Hg). eauto.
  - intros [Hg Hk]. rewrite kind_cellp in Hk by auto. apply seen_witness in Hk. destruct Hk as (c & k & Hin & M). destruct Hg as (g & Eg & Hj & Hi). destruct Hinst as (g' & Eg' & En). assert (g' = g) by (cbn in Eg; congruence). subst g'. rewrite <- En. ands; auto. exists c, k. auto.
Qed.
Lemma empty_bits b : mbit (mkCond 0 0) b <-> made insts [] b.
Proof. unfold mbit. cbn [positive negative]. rewrite N.bits_0. split; [intros [|]; discriminate|intros (r & _ & _ & [] & _)]. Qed.
Lemma left_start m : left_over (repeat false m) = m.
Proof. unfold left_over. induction m; cbn; auto. Qed.
Lemma sch_start m i : i < m -> sch (repeat false m) i = false.
Proof. intros H. unfold sch. apply nth_error_nth. rewrite nth_error_repeat. now rewrite (proj2 (Nat.ltb_lt _ _) H). Qed.
Lemma meets_start o : meets o (mkCond 0 0).
Proof. intros b. cbn [positive negative]. rewrite N.bits_0. split; discriminate. Qed.
Theorem C47_order t : schedule_augmented s x insts = Ok t -> branches_right insts t /\ forall o, right_order s x insts o (run insts o t).
Proof.
  intros Et. unfold schedule_augmented in Et. destruct (rest_sound insts (cellp s x) (pairs_at s x) graph_edges _ _ _ _ [] (repeat_length _ _) (eq_sym (left_start _)) Et empty_bits) as [B R]. split; auto. intros o. destruct (R o (meets_start o)) as (Nd & Lt & Cm & Od). unfold right_order. ands; auto.
  - intros i Hi. apply (Lt i Hi).
  - intros i inst Ei M. apply (Cm i inst); auto. apply sch_start. apply nth_error_Some. congruence.
  - intros before i after Eq. destruct (Od before i after Eq) as [O1 O2]. cbn [app] in O1, O2. split; auto. intros j o' A D. apply O2 with o'; auto. now apply dep_needs.
Qed.
Theorem C47_total : (exists t, schedule_augmented s x insts = Ok t) \/ schedule_augmented s x insts = Exit.
Proof. unfold schedule_augmented. apply rest_total with (E := cellp s x); [exact graph_edges|apply repeat_length]. Qed.
Theorem C47_complete : guarded s x insts -> distinct_tests insts -> (forall o i, ~ clos_trans nat (needs_under s x o) i i) -> exists t, schedule_augmented s x insts = Ok t.
Proof.
  intros Hg Hd Ha. unfold schedule_augmented. apply rest_complete with (E := cellp s x); auto.
  - exact graph_edges.
  - intros o b j i D. apply dep_needs in D. destruct (Hg o b j i D) as [D'|(r & inst & k & E1 & E2 & E3 & E4 & D')]; [left; now apply dep_needs|right]. exists r, inst, k. ands; auto. now apply dep_needs.
  - intros o i C. apply (Ha o i). assert (G : forall a b, clos_trans nat (dep insts (cellp s x) o) a b -> clos_trans nat (needs_under s x o) a b); [|auto]. clear - Hinst Hok. intros a b. induction 1 as [a b D|a b c _ H1 _ H2]; [apply t_step; now apply dep_needs|eapply t_trans; eauto].
  - apply repeat_length.
  - symmetry. apply left_start.
  - exists (fun _ => false). apply meets_start.
  - split; [intros b B; apply empty_bits in B; destruct B as (r & _ & _ & [] & _)|]. intros r inst Er Sr. rewrite sch_start in Sr; [discriminate|]. apply nth_error_Some. congruence.
Qed.
End G.
(** After the analysis the dependencies are transitive, so it is enough that no
    instance depends on itself. *)
Theorem C47_complete_analysed s x insts : edges_ok s -> graphs_closed s -> has_instances s x insts -> guarded s x insts -> distinct_tests insts -> (forall i, ~ circular s (InGraph x i)) ->
  exists t, schedule_augmented s x insts = Ok t.
Proof.
  intros Hok [Hc _] Hi Hg Hd Ha. apply C47_complete; auto. destruct Hi as (g & Eg & En). destruct (Hc x g Eg) as (_ & _ & Ht).
  assert (T : forall o j i, clos_trans nat (needs_under s x o) j i -> needs_under s x o j i).
  { intros o j i C. induction C as [j i D|j k i _ [Hg1 H1] _ [Hg2 H2]]; auto. destruct Hg1 as (g1 & E1 & L1 & L1'), Hg2 as (g2 & E2 & L2 & L2'). cbn in E1, E2. assert (g1 = g) by congruence. assert (g2 = g) by congruence. subst g1 g2. split; [exists g; auto|].
    assert (Ok : forall j i, in_graph (graphs_of s) x j i -> kind_ok (kind_of_pair (graphs_of s) x o j i)) by (intros a b Hab; rewrite kind_cellp by auto; apply seen_kind_ok; intros c k' Hin; apply (proj2 (cellp_ok s x a b Hok Hab) c k' Hin)).
    eapply trans_nz; [| |exact H1|exact H2|]; [apply Ok; exists g; auto|apply Ok; exists g; auto|]. apply Ht; auto. }
  intros o i C. apply T in C. destruct C as [Hgi Hk]. apply (Ha i). exists o. eexists. split; [exact Hk|]. auto.
Qed.
Lemma run_agree insts o o' : forall t l1 i l2, agree insts l1 o o' -> run insts o t = l1 ++ i :: l2 -> exists l2', run insts o' t = l1 ++ i :: l2'.
Proof.
  induction t as [|a t IH|a f IHf t IHt]; intros l1 i l2 A Eq; cbn [run] in *.
  - destruct l1; discriminate.
  - destruct l1 as [|b l1]; cbn [app] in *; injection Eq as <- Eq; [eauto|]. destruct (IH l1 i l2) as (l2' & ->); eauto. intros b (r & inst & k & Hin & H). apply A. exists r, inst, k. split; auto. now right.
  - destruct l1 as [|b l1]; cbn [app] in *; injection Eq as <- Eq; [eauto|]. assert (A' : agree insts l1 o o'). { intros b (r & inst & k & Hin & H). apply A. exists r, inst, k. split; auto. now right. }
    destruct (nth_error insts a) as [[ic [k|]]|] eqn:Ea; try (destruct l1; discriminate). assert (Ek : o' (N.of_nat k) = o (N.of_nat k)). { apply A. exists a, (mkOinst ic (Some k)), k. ands; auto. now left. }
    rewrite Ek. destruct (o (N.of_nat k)); [destruct (IHt l1 i l2) as (l2' & ->)|destruct (IHf l1 i l2) as (l2' & ->)]; eauto.
Qed.
(** When every instance depends on its tests, the way through the tree meets exactly the
    instances whose condition holds. *)
Theorem C47_exact s x insts t : edges_ok s -> has_instances s x insts -> tests_needed s x insts -> schedule_augmented s x insts = Ok t ->
  forall o i, In i (run insts o t) <-> exists inst, nth_error insts i = Some inst /\ meets o (oi_cond inst).
Proof.
  intros Hok Hi Hn Et o i. destruct (C47_order s x insts Hok Hi t Et) as [_ R]. split.
  - intros Hin. apply in_split in Hin. destruct Hin as (l1 & l2 & Eq). destruct (R o) as (_ & _ & _ & Od). destruct (Od l1 i l2 Eq) as [(o' & inst & A & Ei & M) O2]. exists inst. split; auto. apply (meets_agree o'); auto. intros b B. symmetry. apply A.
    destruct (Hn i inst o' b Ei M B) as (r & ri & k & Er & Ek & -> & Mr & D). destruct (run_agree insts o o' t l1 i l2 A Eq) as (l2' & Eq'). destruct (R o') as (_ & _ & Cm & Od'). pose proof (Cm r ri Er Mr) as Hr. rewrite Eq' in Hr. apply in_app_iff in Hr. destruct Hr as [Hr|Hr]; [exists r, ri, k; auto|].
    exfalso. apply (proj2 (Od' l1 i l2' Eq') r o'); auto. intros b _. auto.
  - intros (inst & Ei & M). apply (R o) with inst; auto.
Qed.
(** ** Example: an if rule (instance 0), an instance for each branch (1 and 2) and one
    that needs whichever branch was taken (3). *)
Definition exo_ops : list op := [NewGraph 4; AddEdge 0 0 1 (mkCond 0 0) 31; AddEdge 0 0 2 (mkCond 0 0) 31; AddEdge 0 0 3 (mkCond 0 0) 31; AddEdge 0 1 3 (mkCond 1 0) 27; AddEdge 0 2 3 (mkCond 0 1) 27]%N.
Definition exo_world : world := match build exo_ops (mkWorld (mkMem [] 0) []) with Some w => w | None => mkWorld (mkMem [] 0) [] end.
Definition exo_state : state := mkState (w_mem exo_world) (w_graphs exo_world) [].
Definition exo_insts : list oinst := [mkOinst (mkCond 0 0) (Some 0%nat); mkOinst (mkCond 1 0) None; mkOinst (mkCond 0 1) None; mkOinst (mkCond 0 0) None]%N.
Definition exo_cell (j i : nat) : list (condition * N) :=
  match j, i with
  | 0, 1 | 0, 2 | 0, 3 => [(mkCond 0 0, 31%N)]
  | 1, 3 => [(mkCond 1 0, 27%N)] | 2, 3 => [(mkCond 0 1, 27%N)]
  | _, _ => [] end.
Lemma exo_pairs j i : j < 4 -> i < 4 -> pairs_at exo_state 0 j i = Ok (exo_cell j i).
Proof. intros Hj Hi. do 4 (destruct j as [|j]; [do 4 (destruct i as [|i]; [vm_compute; reflexivity|]); lia|]). lia. Qed.
Lemma exo_has : has_instances exo_state 0 exo_insts.
Proof. eexists. split; vm_compute; reflexivity. Qed.
Lemma exo_lt j i x : in_graph (graphs_of exo_state) x j i -> x = 0 /\ j < 4 /\ i < 4.
Proof. intros (g & Eg & Hj & Hi). revert Eg. vm_compute (w_graphs (graphs_of exo_state)). intros Eg. destruct x as [|x]; [|destruct x; discriminate]. injection Eg as <-. cbn in Hj, Hi. auto. Qed.
Lemma exo_ok : edges_ok exo_state.
Proof.
  intros x i j H. apply exo_lt in H. destruct H as (-> & Hi & Hj). exists (exo_cell i j). split; [now apply exo_pairs|]. intros c k Hin.
  assert (S : forall c, In c [mkCond 0 0; mkCond 1 0; mkCond 0 1]%N -> satisfiable c). { intros c' Hc. apply impossible_sat. destruct Hc as [<-|[<-|[<-|[]]]]; reflexivity. }
  assert (K : In c [mkCond 0 0; mkCond 1 0; mkCond 0 1]%N /\ In k [31; 27]%N).
  { do 4 (destruct i as [|i]; [do 4 (destruct j as [|j]; [cbn in Hin; try contradiction; destruct Hin as [Hin|[]]; injection Hin as <- <-; cbn; auto|]); lia|]). lia. }
  destruct K as [K1 K2]. split; [now apply S|]. destruct K2 as [<-|[<-|[]]]; (split; [discriminate|vm_compute; discriminate]).
Qed.
Lemma exo_needs o j i : needs_under exo_state 0 o j i <-> j < 4 /\ i < 4 /\ exists c k, In (c, k) (exo_cell j i) /\ meets o c.
Proof.
  rewrite <- (dep_needs exo_state 0 exo_insts exo_ok exo_has). unfold dep, cellp. cbn [length exo_insts]. split; intros (Hj & Hi & c & k & H & M); (split; [exact Hj|split; [exact Hi|]]); exists c, k; (split; [|exact M]); [rewrite exo_pairs in H by assumption; exact H|rewrite exo_pairs by assumption; exact H].
Qed.
Lemma exo_edges o j i : needs_under exo_state 0 o j i <-> (j = 0 /\ (i = 1 \/ i = 2 \/ i = 3)) \/ (i = 3 /\ ((j = 1 /\ o 0%N = true) \/ (j = 2 /\ o 0%N = false))).
Proof.
  assert (M1 : forall o, meets o (mkCond 1 0) <-> o 0%N = true). { intros o'. split; [intros M; now apply (M 0%N)|]. intros E b. cbn [positive negative]. rewrite N.bits_0. split; [|discriminate]. destruct b as [|p]; auto. now destruct p. }
  assert (M2 : forall o, meets o (mkCond 0 1) <-> o 0%N = false). { intros o'. split; [intros M; now apply (M 0%N)|]. intros E b. cbn [positive negative]. rewrite N.bits_0. split; [discriminate|]. destruct b as [|p]; auto. now destruct p. }
  rewrite exo_needs. split.
  - intros (Hj & Hi & c & k & Hin & M). do 4 (destruct j as [|j]; [do 4 (destruct i as [|i]; [cbn in Hin; try contradiction; destruct Hin as [[= <- <-]|[]]; try apply M1 in M; try apply M2 in M; auto 10|]); lia|]). lia.
  - intros [( -> & [ -> | [ -> | -> ]])|( -> & [( -> & E)|( -> & E)])]; (split; [lia|split; [lia|]]); eexists _, _; (split; [left; reflexivity|]); try apply meets_start; [now apply M1|now apply M2].
Qed.
Example C47_example :
  edges_ok exo_state /\ has_instances exo_state 0 exo_insts /\ guarded exo_state 0 exo_insts /\ distinct_tests exo_insts /\ tests_needed exo_state 0 exo_insts /\
  (forall o i, ~ clos_trans nat (needs_under exo_state 0 o) i i) /\
  schedule_augmented exo_state 0 exo_insts = Ok (CIf 0 (CNext 2 (CNext 3 CDone)) (CNext 1 (CNext 3 CDone))).
Proof.
  split; [exact exo_ok|]. split; [exact exo_has|]. ands.
  - intros o b j i D. apply exo_edges in D. destruct (N.eq_dec b 0) as [->|Nb].
    + right. exists 0, (mkOinst (mkCond 0 0) (Some 0)), 0. ands; auto; [apply meets_start|]. apply exo_edges. left. destruct D as [[_ D]|[-> _]]; auto.
    + left. apply exo_edges. unfold flip. rewrite (proj2 (N.eqb_neq 0 b)) by congruence. exact D.
  - assert (Z : forall r i1 b, nth_error exo_insts r = Some i1 -> oi_if i1 = Some b -> r = 0). { intros r i1 b E1 I1. destruct r as [|[|[|[|r]]]]; auto; cbn in E1; try (injection E1 as <-; discriminate). destruct r; discriminate. }
    intros r r' i1 i2 b E1 E2 I1 I2. rewrite (Z _ _ _ E1 I1), (Z _ _ _ E2 I2). reflexivity.
  - intros i inst o b Ei M B. assert (Z : (forall c, In c [mkCond 0 0; mkCond 1 0; mkCond 0 1]%N -> N.testbit (positive c) b = true \/ N.testbit (negative c) b = true -> b = 0%N)). { intros c Hc H. destruct Hc as [<-|[<-|[<-|[]]]]; cbn [positive negative] in H; rewrite ?N.bits_0 in H; destruct H; try discriminate; destruct b as [|p]; auto; now destruct p. }
    assert (b = 0%N). { apply (Z (oi_cond inst)); auto. do 4 (destruct i as [|i]; [cbn in Ei; injection Ei as <-; cbn; auto|]). destruct i; discriminate. }
    subst b. exists 0, (mkOinst (mkCond 0 0) (Some 0)), 0. ands; auto; [apply meets_start|]. apply exo_edges. left. split; auto. do 4 (destruct i as [|i]; [cbn in Ei; injection Ei as <-; cbn in B; auto; destruct B; discriminate|]). destruct i; discriminate.
  - intros o i C. assert (G : forall a b, clos_trans nat (needs_under exo_state 0 o) a b -> a < b); [|apply G in C; lia]. intros a b. induction 1 as [a b D|]; [|lia]. apply exo_edges in D. lia.
  - vm_compute. reflexivity.
Qed.
Print Assumptions C47_order.
Print Assumptions C47_total.
Print Assumptions C47_complete.
Print Assumptions C47_complete_analysed.
Print Assumptions C47_exact.
Print Assumptions C47_example.
(** Without the hypotheses of [C47_exact] and [C47_complete] their conclusions fail: an
    instance that does not depend on its test may be met although its condition does
    not hold; and an order may be impossible although no outcome gives a cycle. *)
Definition exu_state (ops : list op) : state := match build ops (mkWorld (mkMem [] 0) []) with Some w => mkState (w_mem w) (w_graphs w) [] | None => mkState (mkMem [] 0) [] [] end.
Example C47_untested : exists t, schedule_augmented (exu_state [NewGraph 2]) 0 [mkOinst (mkCond 1 0) None; mkOinst (mkCond 0 0) (Some 0)] = Ok t /\
  In 0 (run [mkOinst (mkCond 1 0) None; mkOinst (mkCond 0 0) (Some 0)] (fun _ => false) t) /\ ~ meets (fun _ => false) (mkCond 1 0).
Proof. eexists. split; [vm_compute; reflexivity|]. split; [cbn; auto|]. intros M. specialize (M 0%N). destruct M as [M _]. discriminate M. reflexivity. Qed.
Example C47_unguarded :
  schedule_augmented (exu_state [NewGraph 3; AddEdge 0 0 1 (mkCond 1 0) 31; AddEdge 0 1 0 (mkCond 0 1) 31; AddEdge 0 0 2 (mkCond 0 0) 31]%N) 0 [mkOinst (mkCond 0 0) None; mkOinst (mkCond 0 0) None; mkOinst (mkCond 0 0) (Some 0)] = Exit.
Proof. vm_compute. reflexivity. Qed.
