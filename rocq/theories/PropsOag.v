(** * PropsOag: C46 (summary schedules respect the dependencies). *)
From Verif Require Import Base CondModel EdgeModel DncModel SummaryProofs CycleModel OagModel.
From Coq Require Import Relations.
Open Scope nat_scope.

(** ** Specification *)
(** The visits are made in the order -1, +1, -2, +2, ...: *)
Definition visit (z : Z) : nat := if (z <? 0)%Z then 2 * Z.to_nat (- z) - 1 else 2 * Z.to_nat z.
Definition phase_of (sched : list Z) (i : nat) : Z := nth i sched 0%Z.
Definition visit_of (sched : list Z) (i : nat) : nat := visit (phase_of sched i).
(** instance i depends on instance j *)
Definition needs (n : nat) (mg : list N) (j i : nat) : Prop := j < n /\ i < n /\ get mg n j i <> no_dependency.
(** Only inherited and synthesized instances, none needing itself even indirectly. *)
Definition schedulable (dirs : list direction) (mg : list N) : Prop :=
  ~ In instance_local dirs /\ forall i, ~ clos_trans nat (needs (length dirs) mg) i i.
Definition right_schedule (dirs : list direction) (mg : list N) (sched : list Z) : Prop :=
  length sched = length dirs /\
  (forall i d, nth_error dirs i = Some d -> (d = instance_inward /\ (phase_of sched i < 0)%Z) \/ (d = instance_outward /\ (0 < phase_of sched i)%Z)) /\
  (forall j i, needs (length dirs) mg j i -> visit_of sched j < visit_of sched i \/ (visit_of sched j = visit_of sched i /\ j < i)) /\
  (forall i p, i < length dirs -> (1 <= p <= Z.abs (phase_of sched i))%Z -> exists j, j < length dirs /\ Z.abs (phase_of sched j) = p).

(** ** Proofs *)
Lemma existsM_ok (f : nat -> res bool) (g : nat -> bool) l : (forall j, In j l -> f j = Ok (g j)) -> existsM f l = Ok (existsb g l).
Proof. induction l as [|j l IH]; intros H; cbn [existsM existsb]; auto. rewrite H by (now left). cbn [bind]. destruct (g j); auto. apply IH. intros. apply H. now right. Qed.
Lemma filter_le {X} (f : X -> bool) l : length (filter f l) <= length l.
Proof. induction l as [|x l IH]; cbn [filter]; auto. destruct (f x); cbn [length]; lia. Qed.
Lemma visit_inj a b : a <> 0%Z -> b <> 0%Z -> visit a = visit b -> a = b.
Proof. unfold visit. intros Ha Hb. destruct (Z.ltb_spec a 0), (Z.ltb_spec b 0); lia. Qed.
Lemma sg_upd sched i z k : i < length sched -> phase_of (upd sched i z) k = if k =? i then z else phase_of sched k.
Proof.
  intros Hi. unfold phase_of. destruct (Nat.eqb_spec k i) as [->|Ne].
  - apply nth_error_nth. now apply nth_error_upd_eq.
  - destruct (nth_error sched k) as [v|] eqn:E.
    + rewrite (nth_error_nth _ _ _ E). apply nth_error_nth. now rewrite nth_error_upd_neq by congruence.
    + apply nth_error_None in E. rewrite !nth_overflow; auto. now rewrite upd_length.
Qed.
Lemma rd_sched sched k : k < length sched -> rd sched k = Ok (phase_of sched k).
Proof. intros H. apply rd_Ok. now apply nth_error_nth'. Qed.
Lemma get_upd n mg j i v j' i' : length mg = n * n -> j < n -> i < n -> j' < n -> i' < n -> get (upd mg (j * n + i) v) n j' i' = if (j' =? j) && (i' =? i) then v else get mg n j' i'.
Proof.
  intros L Hj Hi Hj' Hi'. unfold get. assert (E : (j' * n + i' =? j * n + i) = (j' =? j) && (i' =? i)).
  { apply eq_true_iff_eq. rewrite andb_true_iff, !Nat.eqb_eq. split; [|intros [-> ->]; auto]. intros E. destruct (Nat.lt_trichotomy j j') as [H|[->|H]]; [nia|split; auto; nia|nia]. }
  destruct (Nat.eqb_spec (j' * n + i') (j * n + i)) as [Eq|Ne]; rewrite <- E.
  - rewrite Eq. apply nth_error_nth. apply nth_error_upd_eq. nia.
  - destruct (nth_error mg (j' * n + i')) as [w|] eqn:Ew; [|apply nth_error_None in Ew; nia]. rewrite (nth_error_nth _ _ _ Ew). apply nth_error_nth. now rewrite nth_error_upd_neq by congruence.
Qed.
Lemma rd_mg n mg j i : length mg = n * n -> j < n -> i < n -> rd mg (j * n + i) = Ok (get mg n j i).
Proof. intros L Hj Hi. apply rd_Ok. apply nth_error_nth'. nia. Qed.

Section S.
Variable dirs : list direction.
Variable mg0 : list N.
Let n := length dirs.
Definition waitsb (sched : list Z) (mg : list N) (i : nat) : bool := existsb (fun j => Z.eqb (phase_of sched j) 0 && negb (N.eqb (get mg n j i) no_dependency)) (seq 0 n).
Definition cnt (sched : list Z) : nat := length (filter (fun i => negb (Z.eqb (phase_of sched i) 0)) (seq 0 n)).
Record sinv (q lim : nat) (sched : list Z) (mg : list N) : Prop := {
  s_len : length sched = n;
  m_len : length mg = n * n;
  s_dir : forall i d, nth_error dirs i = Some d -> phase_of sched i <> 0%Z -> (d = instance_inward /\ (phase_of sched i < 0)%Z) \/ (d = instance_outward /\ (0 < phase_of sched i)%Z);
  s_pos : forall i, i < n -> phase_of sched i <> 0%Z -> visit_of sched i < q \/ (visit_of sched i = q /\ i < lim);
  s_dep : forall j i, needs n mg0 j i -> phase_of sched i <> 0%Z -> phase_of sched j <> 0%Z /\ (visit_of sched j < visit_of sched i \/ (visit_of sched j = visit_of sched i /\ j < i));
  s_mg : forall j i, j < n -> i < n -> get mg n j i = if negb (Z.eqb (phase_of sched i) 0) && negb (Z.eqb (phase_of sched j) 0) && (visit_of sched j <? visit_of sched i) then indirect_control_dependency else get mg0 n j i }.
Lemma force_ok sched mark mg i : length sched = n -> length mg = n * n -> i < n ->
  exists mg', foldM (fun mg j => sch <- rd sched j ;; if negb (Z.eqb sch 0) && negb (Z.eqb sch mark) then wr mg (j * n + i) indirect_control_dependency else Ok mg) (seq 0 n) mg = Ok mg' /\ length mg' = n * n /\
  forall j' i', j' < n -> i' < n -> get mg' n j' i' = if (i' =? i) && negb (Z.eqb (phase_of sched j') 0) && negb (Z.eqb (phase_of sched j') mark) then indirect_control_dependency else get mg n j' i'.
Proof.
  intros Ls Lm Hi.
  destruct (foldM_inv (fun mg j => sch <- rd sched j ;; if negb (Z.eqb sch 0) && negb (Z.eqb sch mark) then wr mg (j * n + i) indirect_control_dependency else Ok mg) (seq 0 n)
    (fun done mg' => length mg' = n * n /\ forall j' i', j' < n -> i' < n -> get mg' n j' i' = if (i' =? i) && negb (Z.eqb (phase_of sched j') 0) && negb (Z.eqb (phase_of sched j') mark) && existsb (Nat.eqb j') done then indirect_control_dependency else get mg n j' i') mg) as (mg' & E & L' & G).
  - split; auto. intros. cbn [existsb]. now rewrite andb_false_r.
  - intros done j rest mg1 El [L1 G1]. assert (Hj : j < n). { assert (Hj : In j (seq 0 n)) by (rewrite El; apply in_or_app; right; now left). apply in_seq in Hj. lia. }
    rewrite rd_sched by lia. cbn [bind]. destruct (negb (Z.eqb (phase_of sched j) 0) && negb (Z.eqb (phase_of sched j) mark)) eqn:T.
    + rewrite wr_Ok by nia. eexists. split; [reflexivity|]. split; [now rewrite upd_length|]. intros j' i' Hj' Hi'. rewrite get_upd by auto. rewrite G1 by auto. rewrite existsb_app. cbn [existsb]. rewrite orb_false_r.
      destruct (Nat.eqb_spec j' j) as [->|Ne]; cbn [andb].
      * apply andb_true_iff in T. destruct T as [T1 T2]. rewrite T1, T2, orb_true_r. cbn [andb]. destruct (i' =? i) eqn:Ei; cbn [andb]; auto.
      * now rewrite orb_false_r.
    + eexists. split; [reflexivity|]. split; auto. intros j' i' Hj' Hi'. rewrite G1 by auto. rewrite existsb_app. cbn [existsb]. rewrite orb_false_r. destruct (Nat.eqb_spec j' j) as [->|Ne]; [|now rewrite orb_false_r].
      apply andb_false_iff in T. destruct T as [T|T]; rewrite T; rewrite ?andb_false_r; reflexivity.
  - exists mg'. ands; auto. intros j' i' Hj' Hi'. rewrite G by auto. replace (existsb (Nat.eqb j') (seq 0 n)) with true; [now rewrite andb_true_r|]. symmetry. apply existsb_exists. exists j'. split; [apply in_seq; lia|apply Nat.eqb_refl].
Qed.
Lemma cnt_le sched : cnt sched <= n.
Proof. unfold cnt. etransitivity; [apply filter_le|]. now rewrite seq_length. Qed.
Lemma cnt_full sched : cnt sched = n -> forall i, i < n -> phase_of sched i <> 0%Z.
Proof.
  unfold cnt. intros E i Hi Z0. assert (G : forall l, length (filter (fun i => negb (Z.eqb (phase_of sched i) 0)) l) = length l -> forall i, In i l -> phase_of sched i <> 0%Z).
  { induction l as [|a l IH]; intros El j Hj; [destruct Hj|]. cbn [filter length] in El. pose proof (filter_le (fun i => negb (Z.eqb (phase_of sched i) 0)) l). destruct (Z.eqb_spec (phase_of sched a) 0) as [Za|Za]; cbn [negb length] in El; [lia|]. destruct Hj as [<-|Hj]; auto. }
  apply (G (seq 0 n)) with (i := i); auto; [now rewrite seq_length|apply in_seq; lia].
Qed.
Lemma cnt_short sched : cnt sched < n -> exists i, i < n /\ phase_of sched i = 0%Z.
Proof.
  unfold cnt. intros E. assert (G : forall l, length (filter (fun i => negb (Z.eqb (phase_of sched i) 0)) l) < length l -> exists i, In i l /\ phase_of sched i = 0%Z).
  { induction l as [|a l IH]; intros El; cbn [filter length] in El; [lia|]. destruct (Z.eqb_spec (phase_of sched a) 0) as [Za|Za]; [exists a; split; auto; now left|]. cbn [negb length] in El. destruct IH as (i & Hi & Zi); [lia|]. exists i. split; auto. now right. }
  destruct (G (seq 0 n)) as (i & Hi & Zi); [now rewrite seq_length|]. apply in_seq in Hi. exists i. split; auto. lia.
Qed.
Lemma cnt_upd sched i z : length sched = n -> i < n -> phase_of sched i = 0%Z -> z <> 0%Z -> cnt (upd sched i z) = S (cnt sched).
Proof.
  intros L Hi Zi Nz. unfold cnt. assert (G : forall l, NoDup l -> (In i l -> length (filter (fun k => negb (Z.eqb (phase_of (upd sched i z) k) 0)) l) = S (length (filter (fun k => negb (Z.eqb (phase_of sched k) 0)) l))) /\
    (~ In i l -> length (filter (fun k => negb (Z.eqb (phase_of (upd sched i z) k) 0)) l) = length (filter (fun k => negb (Z.eqb (phase_of sched k) 0)) l))).
  { induction l as [|a l IH]; intros Nd; [split; [intros []|auto]|]. inversion Nd as [|? ? Na Nl]; subst. destruct (IH Nl) as [I1 I2]. cbn [filter]. rewrite sg_upd by lia. split.
    - intros [->|Hin].
      + rewrite Nat.eqb_refl, Zi, (proj2 (Z.eqb_neq _ _) Nz). cbn [negb Z.eqb length]. now rewrite I2.
      + destruct (Nat.eqb_spec a i) as [->|Ne]; [contradiction|]. destruct (Z.eqb (phase_of sched a) 0); cbn [negb length]; auto.
    - intros Hn. destruct (Nat.eqb_spec a i) as [->|Ne]; [exfalso; apply Hn; now left|]. assert (~ In i l) by (intros H; apply Hn; now right). destruct (Z.eqb (phase_of sched a) 0); cbn [negb length]; auto. }
  apply G; [apply seq_NoDup|apply in_seq; lia].
Qed.
Record pass_of (want : direction) (mark : Z) (q lim : nat) (st st' : list Z * list N * nat * nat) : Prop := {
  p_inv : let '(sched, mg, d, l) := st' in sinv q lim sched mg /\ d = cnt sched;
  p_cnt : let '(_, _, d, l) := st in let '(_, _, d', l') := st' in d <= d' /\ l <= l' /\ d' + l = d + l';
  p_old : let '(sched, _, _, _) := st in let '(sched', _, _, _) := st' in forall i, phase_of sched i <> 0%Z -> phase_of sched' i = phase_of sched i;
  p_new : let '(sched, _, _, l) := st in let '(sched', _, _, l') := st' in l < l' -> exists i, i < n /\ phase_of sched' i = mark;
  p_range : let '(sched, _, _, _) := st in let '(sched', _, _, _) := st' in forall i, phase_of sched' i = phase_of sched i \/ phase_of sched' i = mark;
  p_same : let '(sched, mg, _, l) := st in let '(sched', mg', _, l') := st' in l' = l -> sched' = sched /\ mg' = mg /\ forall i, i < lim -> nth_error dirs i = Some want -> phase_of sched i <> 0%Z \/ waitsb sched mg i = true }.
Lemma same_dir_spec a b : same_direction a b = true <-> a = b.
Proof. destruct a, b; cbn; split; congruence. Qed.
Lemma one_ok want mark q i st0 st : (want = instance_inward /\ (mark < 0)%Z) \/ (want = instance_outward /\ (0 < mark)%Z) -> visit mark = q -> i < n -> pass_of want mark q i st0 st ->
  exists st', schedule_one dirs want mark st i = Ok st' /\ pass_of want mark q (S i) st0 st'.
Proof.
  intros Hm Hq Hi P. destruct st0 as [[[sc0 m0] d0] l0], st as [[[sc m] d] l]. destruct P as [[I Hd] (C1 & C2 & C3) Po Pn Pr Ps].
  assert (Nm : mark <> 0%Z) by (destruct Hm as [[_ ?]|[_ ?]]; lia).
  assert (Keep : forall lim, i <= lim -> (forall k, k < lim -> i <= k -> nth_error dirs k = Some want -> phase_of sc k <> 0%Z \/ waitsb sc m k = true) -> pass_of want mark q lim (sc0, m0, d0, l0) (sc, m, d, l)).
  { intros lim Hl Hk. constructor; auto.
    - split; auto. destruct I; constructor; auto. intros k Lk Zk. destruct (s_pos0 k Lk Zk) as [|[]]; auto. right. split; auto. lia.
    - intros El. destruct (Ps El) as (-> & -> & W). ands; auto. intros k Lk Dk. destruct (Nat.lt_ge_cases k i); auto. }
  unfold schedule_one. fold n. destruct (nth_error dirs i) as [di|] eqn:Edi; [|apply nth_error_None in Edi; unfold n in Hi; lia]. rewrite (proj2 (rd_Ok _ _ _) Edi). cbn [bind]. destruct (same_direction di want) eqn:Sd; cbn [negb].
  2:{ eexists. split; [reflexivity|]. apply Keep; auto. intros k L1 L2 Dk. assert (k = i) by lia. subst k. rewrite Edi in Dk. injection Dk as ->. rewrite (proj2 (same_dir_spec _ _) eq_refl) in Sd. discriminate. }
  apply same_dir_spec in Sd. subst di. rewrite rd_sched by (rewrite (s_len _ _ _ _ I); auto). cbn [bind]. destruct (Z.eqb_spec (phase_of sc i) 0) as [Zi|Zi]; cbn [negb].
  2:{ eexists. split; [reflexivity|]. apply Keep; auto. intros k L1 L2 Dk. assert (k = i) by lia. subst k. auto. }
  rewrite (existsM_ok _ (fun j => Z.eqb (phase_of sc j) 0 && negb (N.eqb (get m n j i) no_dependency))).
  2:{ intros j Hj. apply in_seq in Hj. rewrite rd_sched by (rewrite (s_len _ _ _ _ I); lia). cbn [bind]. destruct (Z.eqb (phase_of sc j) 0); auto. rewrite rd_mg by (auto; try lia; apply I). reflexivity. }
  cbn [bind]. fold (waitsb sc m i). destruct (waitsb sc m i) eqn:W.
  { eexists. split; [reflexivity|]. apply Keep; auto. intros k L1 L2 Dk. assert (k = i) by lia. subst k. auto. }
  pose proof (s_len _ _ _ _ I) as Ls. pose proof (m_len _ _ _ _ I) as Lm. rewrite wr_Ok by lia. cbn [bind]. set (sc' := upd sc i mark).
  assert (Ls' : length sc' = n) by (unfold sc'; now rewrite upd_length).
  destruct (force_ok sc' mark m i Ls' Lm Hi) as (m' & -> & Lm' & G). cbn [bind]. eexists. split; [reflexivity|].
  assert (Pi : phase_of sc' i = mark) by (unfold sc'; rewrite sg_upd by lia; now rewrite Nat.eqb_refl).
  assert (Pk : forall k, k <> i -> phase_of sc' k = phase_of sc k) by (intros k Hk; unfold sc'; rewrite sg_upd by lia; now rewrite (proj2 (Nat.eqb_neq _ _) Hk)).
  assert (Vi : visit_of sc' i = q) by (unfold visit_of; now rewrite Pi).
  assert (Vk : forall k, k <> i -> visit_of sc' k = visit_of sc k) by (intros k Hk; unfold visit_of; now rewrite Pk).
  assert (Wj : forall j, j < n -> get m n j i <> no_dependency -> phase_of sc j <> 0%Z).
  { intros j Hj Dj Zj. assert (T : waitsb sc m i = true); [|congruence]. apply existsb_exists. exists j. split; [apply in_seq; lia|]. rewrite Zj, (proj2 (N.eqb_neq _ _) Dj). reflexivity. }
  assert (Cu : cnt sc' = S (cnt sc)) by (apply cnt_upd; auto).
  constructor.
  - split; [|rewrite Cu; auto]. constructor; auto.
    + intros k dk Ek Zk. destruct (Nat.eq_dec k i) as [->|Nk]; [|rewrite Pk in * by auto; apply (s_dir _ _ _ _ I k dk Ek Zk)]. rewrite Edi in Ek. injection Ek as <-. rewrite Pi. tauto.
    + intros k Lk Zk. destruct (Nat.eq_dec k i) as [->|Nk]; [right; split; auto|]. rewrite Pk in Zk by auto. rewrite Vk by auto. destruct (s_pos _ _ _ _ I k Lk Zk) as [|[]]; auto. 
    + intros j k D Zk. destruct (Nat.eq_dec k i) as [->|Nk].
      * destruct D as (Lj & _ & Dj). assert (Em : get m n j i = get mg0 n j i). { rewrite (s_mg _ _ _ _ I) by auto. now rewrite Zi. } rewrite <- Em in Dj. pose proof (Wj j Lj Dj) as Zj. assert (j <> i) by congruence. rewrite Pk, Vk, Vi by auto. split; auto. apply (s_pos _ _ _ _ I j Lj Zj).
      * rewrite Pk in Zk by auto. destruct (s_dep _ _ _ _ I j k D Zk) as [Zj Vj]. assert (j <> i) by congruence. rewrite Pk, !Vk by auto. auto.
    + intros j k Lj Lk. rewrite G by auto. destruct (Nat.eqb_spec k i) as [->|Nk]; cbn [andb].
      * rewrite Pi, Vi, (proj2 (Z.eqb_neq _ _) Nm). cbn [negb andb]. destruct (Z.eqb_spec (phase_of sc' j) 0) as [Zj|Zj]; cbn [negb andb].
        { rewrite (s_mg _ _ _ _ I) by auto. now rewrite Zi. }
        destruct (Z.eqb_spec (phase_of sc' j) mark) as [Ej|Ej]; cbn [negb].
        { replace (visit_of sc' j) with q by (unfold visit_of; now rewrite Ej). rewrite Nat.ltb_irrefl. rewrite (s_mg _ _ _ _ I) by auto. now rewrite Zi. }
        assert (Hne : j <> i) by (intros ->; congruence). rewrite Pk in Zj by auto. destruct (s_pos _ _ _ _ I j Lj Zj) as [Hlt|[Heq _]]; [rewrite Vk by auto; now rewrite (proj2 (Nat.ltb_lt _ _) Hlt)|].
        exfalso. apply Ej. apply visit_inj; auto; [now rewrite Pk|]. unfold visit_of in Heq. rewrite Pk by auto. congruence.
      * rewrite (Pk k Nk), (Vk k Nk). rewrite (s_mg _ _ _ _ I) by auto. destruct (Nat.eq_dec j i) as [->|Nj]; [|now rewrite (Pk j Nj), (Vk j Nj)]. rewrite Zi, Pi, Vi. rewrite (proj2 (Z.eqb_neq _ _) Nm). cbn [Z.eqb negb andb]. rewrite andb_false_r. cbn [andb]. destruct (Z.eqb_spec (phase_of sc k) 0) as [Zk|Zk]; cbn [negb andb]; auto.
        destruct (Nat.ltb_spec q (visit_of sc k)); auto. destruct (s_pos _ _ _ _ I k Lk Zk) as [|[]]; lia.
  - lia.
  - intros k Zk. destruct (Nat.eq_dec k i) as [->|Nk]; [|rewrite Pk by auto; auto]. exfalso. apply Zk. rewrite <- (Po i Zk). auto.
  - intros _. exists i. auto.
  - intros k. destruct (Nat.eq_dec k i) as [->|Nk]; auto. rewrite Pk by auto. auto.
  - intros El. lia.
Qed.
Lemma pass_ok want mark q sched mg d l : (want = instance_inward /\ (mark < 0)%Z) \/ (want = instance_outward /\ (0 < mark)%Z) -> visit mark = q -> sinv q 0 sched mg -> d = cnt sched ->
  exists st', foldM (schedule_one dirs want mark) (seq 0 n) (sched, mg, d, l) = Ok st' /\ pass_of want mark q n (sched, mg, d, l) st'.
Proof.
  intros Hm Hq I Hd. destruct (foldM_inv (schedule_one dirs want mark) (seq 0 n) (fun done st => pass_of want mark q (length done) (sched, mg, d, l) st) (sched, mg, d, l)) as (st' & E & P).
  - constructor; auto; try lia.
    intros _. ands; auto. intros i Hi. cbn in Hi. lia.
  - intros done i rest st El P. assert (Ei : i = length done /\ i < n).
    { assert (Ln : length (seq 0 n) = n) by apply seq_length. assert (Nt : nth (length done) (seq 0 n) 0 = i) by (rewrite El, app_nth2, Nat.sub_diag by lia; reflexivity). rewrite El, app_length in Ln. cbn [length] in Ln. rewrite seq_nth in Nt by lia. lia. }
    destruct Ei as [-> Hi]. destruct (one_ok want mark q (length done) _ st Hm Hq Hi P) as (st1 & E1 & P1). exists st1. split; auto. rewrite app_length. cbn [length]. now rewrite Nat.add_1_r.
  - exists st'. split; auto. now rewrite seq_length in P.
Qed.
Lemma sinv_next q q' sched mg : sinv q n sched mg -> q < q' -> sinv q' 0 sched mg.
Proof. intros I H. destruct I. constructor; auto. intros i Hi Zi. left. destruct (s_pos0 i Hi Zi) as [|[]]; lia. Qed.
(** a finite set in which everything needs something in the set has a cycle *)
Lemma pick_iter (R : nat -> nat -> Prop) (f : nat -> nat) (U : nat -> Prop) : (forall i, U i -> U (f i) /\ R (f i) i) -> forall k i, U i -> U (Nat.iter k f i) /\ (k > 0 -> clos_trans nat R (Nat.iter k f i) i).
Proof.
  intros H k. induction k as [|k IH]; intros i Ui; cbn [Nat.iter].
  - split; auto. lia.
  - destruct (IH i Ui) as [U1 C]. destruct (H _ U1) as [U2 R2]. split; auto. intros _. destruct k; [cbn in *; now apply t_step|]. eapply t_trans; [apply t_step; exact R2|]. apply C. lia.
Qed.
Lemma finite_cycle (R : nat -> nat -> Prop) (f : nat -> nat) (U : nat -> Prop) N i0 : (forall i, U i -> i < N /\ U (f i) /\ R (f i) i) -> U i0 -> exists i, clos_trans nat R i i.
Proof.
  intros H U0. assert (H' : forall i, U i -> U (f i) /\ R (f i) i) by (intros i Ui; apply (H i Ui)).
  set (g := fun k => Nat.iter k f i0). assert (Nn : ~ NoDup (map g (seq 0 (S N)))).
  { intros Nd. assert (L : length (map g (seq 0 (S N))) <= length (seq 0 N)). { apply NoDup_incl_length; auto. intros x Hx. apply in_map_iff in Hx. destruct Hx as (k & <- & _). destruct (pick_iter R f U H' k i0 U0) as [Uk _]. apply in_seq. destruct (H _ Uk). cbn. unfold g. lia. } rewrite map_length, !seq_length in L. lia. }
  assert (G : forall l, NoDup l -> ~ NoDup (map g l) -> exists a b, a <> b /\ g a = g b).
  { induction l as [|a l IH]; intros Nd Nm; [exfalso; apply Nm; constructor|]. inversion Nd as [|? ? Na Nl]; subst. destruct (in_dec Nat.eq_dec (g a) (map g l)) as [Hin|Hn].
    - apply in_map_iff in Hin. destruct Hin as (b & Eb & Hb). exists a, b. split; auto. intros ->. contradiction.
    - apply IH; auto. intros Nd2. apply Nm. cbn [map]. constructor; auto. }
  destruct (G (seq 0 (S N)) (seq_NoDup _ _) Nn) as (a & b & Ne & E).
  assert (Lt : forall a b, a < b -> g a = g b -> exists i, clos_trans nat R i i).
  { intros a1 b1 L E1. exists (g a1). destruct (pick_iter R f U H' a1 i0 U0) as [Ua _]. fold (g a1) in Ua. destruct (pick_iter R f U H' (b1 - a1) (g a1) Ua) as [_ C]. specialize (C ltac:(lia)).
    assert (Ei : Nat.iter (b1 - a1) f (g a1) = g b1). { unfold g. replace (Nat.iter b1 f i0) with (Nat.iter ((b1 - a1) + a1) f i0) by (f_equal; lia). clear. generalize (b1 - a1). intros m. induction m as [|m IH]; [reflexivity|]. change (f (Nat.iter m f (Nat.iter a1 f i0)) = f (Nat.iter (m + a1) f i0)). now rewrite IH. } rewrite Ei, <- E1 in C. auto. }
  destruct (Nat.lt_gt_cases a b) as [K _]. destruct (K Ne) as [L|L]; eauto.
Qed.
Lemma stuck_cycle sched mg q : sinv q n sched mg -> cnt sched < n -> (forall i, i < n -> phase_of sched i = 0%Z -> waitsb sched mg i = true) -> exists i, clos_trans nat (needs n mg0) i i.
Proof.
  intros I Hc W. destruct (cnt_short sched Hc) as (i0 & L0 & Z0). set (f := fun i => match List.find (fun j => Z.eqb (phase_of sched j) 0 && negb (N.eqb (get mg n j i) no_dependency)) (seq 0 n) with Some j => j | None => 0 end).
  apply (finite_cycle (needs n mg0) f (fun i => i < n /\ phase_of sched i = 0%Z) n i0); auto. intros i [Li Zi]. pose proof (W i Li Zi) as Wi. unfold waitsb in Wi. apply existsb_exists in Wi. destruct Wi as (j & Hj & Tj). unfold f.
  destruct (List.find _ (seq 0 n)) as [j'|] eqn:Ef; [|exfalso; eapply find_none in Ef; eauto; cbn beta in Ef; congruence]. apply find_some in Ef. destruct Ef as [Hj' T']. apply in_seq in Hj'. apply andb_true_iff in T'. destruct T' as [T1 T2]. apply Z.eqb_eq in T1. rewrite negb_true_iff, N.eqb_neq in T2.
  ands; auto; try lia. split; [lia|]. split; auto. rewrite (s_mg _ _ _ _ I) in T2 by lia. now rewrite Zi in T2.
Qed.
Lemma order_acyclic sched : (forall j i, needs n mg0 j i -> visit_of sched j < visit_of sched i \/ (visit_of sched j = visit_of sched i /\ j < i)) -> forall i, ~ clos_trans nat (needs n mg0) i i.
Proof.
  intros H. assert (G : forall j i, clos_trans nat (needs n mg0) j i -> visit_of sched j < visit_of sched i \/ (visit_of sched j = visit_of sched i /\ j < i)). { induction 1 as [j i D|j k i H1 IH1 H2 IH2]; auto. lia. }
  intros i C. apply G in C. lia.
Qed.
Lemma phases_ok : forall fuel phase sched mg d, (0 <= phase)%Z -> n < d + fuel -> d = cnt sched -> sinv (2 * Z.to_nat phase) n sched mg ->
  (forall p, (1 <= p <= phase)%Z -> exists j, j < n /\ Z.abs (phase_of sched j) = p) ->
  (exists sched' mg', schedule_phases fuel dirs phase sched mg d = Ok (sched', mg') /\ right_schedule dirs mg0 sched' /\ length mg' = n * n /\ (forall j i, j < n -> i < n -> get mg' n j i = if visit_of sched' j <? visit_of sched' i then indirect_control_dependency else get mg0 n j i))
  \/ (schedule_phases fuel dirs phase sched mg d = Exit /\ ~ schedulable dirs mg0).
Proof.
  induction fuel as [|f IH]; intros phase sched mg d Hp Hf Hd I Ph; pose proof (cnt_le sched) as Cl; [lia|]. cbn [schedule_phases]. fold n. destruct (Nat.ltb_spec d n) as [Ld|Ld].
  2:{ left. assert (Ec : cnt sched = n) by lia. pose proof (cnt_full sched Ec) as Full. exists sched, mg. split; auto. unfold right_schedule. fold n. ands; try apply I.
      - intros i di Ei. apply (s_dir _ _ _ _ I); auto. apply Full. unfold n. apply nth_error_Some. congruence.
      - intros j i D. apply (s_dep _ _ _ _ I); auto. apply Full. apply D.
      - intros i p Li Hpp. apply Ph. split; [lia|]. pose proof (s_pos _ _ _ _ I i Li (Full i Li)) as V. unfold visit_of, visit in V. destruct (Z.ltb_spec (phase_of sched i) 0); lia.
      - intros j i Lj Li. rewrite (s_mg _ _ _ _ I) by auto. rewrite (proj2 (Z.eqb_neq _ _) (Full i Li)), (proj2 (Z.eqb_neq _ _) (Full j Lj)). reflexivity. }
  set (ph := (phase + 1)%Z). destruct (pass_ok instance_inward (- ph) (2 * Z.to_nat ph - 1) sched mg d 0) as ([[[sc1 m1] d1] l1] & E1 & P1); auto.
  { left. split; auto. lia. } { unfold visit. destruct (Z.ltb_spec (- ph) 0); [|lia]. f_equal. f_equal. f_equal. lia. } { eapply sinv_next; eauto. unfold ph. lia. }
  rewrite E1. cbn [bind]. destruct P1 as [[I1 D1] (A1 & A2 & A3) O1 N1 R1 S1].
  destruct (pass_ok instance_outward ph (2 * Z.to_nat ph) sc1 m1 d1 l1) as ([[[sc2 m2] d2] l2] & E2 & P2); auto.
  { right. split; auto. unfold ph. lia. } { unfold visit. destruct (Z.ltb_spec ph 0); lia. } { eapply sinv_next; eauto. unfold ph. lia. }
  rewrite E2. cbn [bind]. destruct P2 as [[I2 D2] (B1 & B2 & B3) O2 N2 R2 S2]. destruct (Nat.eqb_spec l2 0) as [El|El].
  - right. split; auto. intros [Nl Ac]. destruct (S1 ltac:(lia)) as (-> & -> & W1). destruct (S2 ltac:(lia)) as (-> & -> & W2). destruct (stuck_cycle sched mg _ I2) as (i & C); [lia| |exact (Ac i C)].
    intros i Li Zi. destruct (nth_error dirs i) as [di|] eqn:Ei; [|apply nth_error_None in Ei; unfold n in Li; lia]. destruct di.
    + exfalso. apply Nl. eapply nth_error_In; eauto.
    + destruct (W1 i Li Ei); [contradiction|auto].
    + destruct (W2 i Li Ei); [contradiction|auto].
  - apply IH; auto; try (unfold ph in *; lia). intros p Hpp. destruct (Z.eq_dec p ph) as [->|Np].
    + assert (Z2 : forall i, phase_of sc1 i <> 0%Z -> phase_of sc2 i = phase_of sc1 i) by exact O2. destruct (Nat.eq_dec l1 0) as [Z1|Z1].
      * destruct (N2 ltac:(lia)) as (j & Lj & Ej). exists j. split; auto. rewrite Ej. unfold ph. lia.
      * destruct (N1 ltac:(lia)) as (j & Lj & Ej). exists j. split; auto. rewrite Z2; rewrite Ej; unfold ph; lia.
    + destruct (Ph p ltac:(unfold ph in *; lia)) as (j & Lj & Ej). exists j. split; auto. assert (Zj : phase_of sched j <> 0%Z) by lia. rewrite O2; rewrite O1; auto.
Qed.
End S.

(** ** C46 *)
(** Scheduling a summary graph succeeds exactly if all instances are inherited or
    synthesized and none needs itself even indirectly; then inherited instances get
    negative and synthesized ones positive phases without gaps, nothing is visited
    before what it needs (within a visit, array order will do), and every instance is
    made to depend on all those of earlier visits.  Otherwise it stops with an error;
    it never loops and never indexes outside its arrays. *)
Theorem C46_summary_schedule : forall dirs mg fuel, length mg = length dirs * length dirs -> length dirs < fuel ->
  (schedulable dirs mg /\ exists sched mg', schedule_summary fuel dirs mg = Ok (sched, mg') /\ right_schedule dirs mg sched /\ length mg' = length mg /\
     forall j i, j < length dirs -> i < length dirs -> get mg' (length dirs) j i = if visit_of sched j <? visit_of sched i then indirect_control_dependency else get mg (length dirs) j i)
  \/ (~ schedulable dirs mg /\ schedule_summary fuel dirs mg = Exit).
Proof.
  intros dirs mg fuel Lm Hf. assert (Z0 : forall i, phase_of (repeat 0%Z (length dirs)) i = 0%Z). { intros i. unfold phase_of. destruct (Nat.lt_ge_cases i (length dirs)); [apply nth_repeat|apply nth_overflow; now rewrite repeat_length]. }
  assert (C0 : cnt dirs (repeat 0%Z (length dirs)) = 0). { unfold cnt. induction (seq 0 (length dirs)) as [|a l IH]; cbn [filter]; auto. now rewrite Z0. }
  destruct (phases_ok dirs mg fuel 0%Z (repeat 0%Z (length dirs)) mg 0) as [(sched & mg' & E & R & L & G)|[E N]]; auto; try lia.
  - constructor; auto using repeat_length; try (intros; rewrite Z0 in *; congruence). intros j i Lj Li. now rewrite !Z0.
  - left. split; [|exists sched, mg'; ands; auto; congruence]. destruct R as (_ & Rd & Rn & _). split; [|now apply (order_acyclic dirs mg sched)].
    intros Hl. apply In_nth_error in Hl. destruct Hl as (i & Ei). destruct (Rd i _ Ei) as [[]|[]]; discriminate.
Qed.
(** The hypotheses are met; the third instance needs the second, which needs the
    first: two phases. *)
Example C46_example : schedule_summary 4 [instance_inward; instance_outward; instance_inward] [0; 31; 0; 0; 0; 31; 0; 0; 0]%N = Ok ([-1; 1; -2]%Z, [0; 3; 3; 0; 0; 3; 0; 0; 0]%N).
Proof. reflexivity. Qed.
Example C46_example_cycle : schedule_summary 4 [instance_inward; instance_outward] [0; 31; 31; 0]%N = Exit.
Proof. reflexivity. Qed.
(** Phases are not always as few as possible: array order may cost one. *)
Example C46_not_earliest : schedule_summary 4 [instance_inward; instance_inward] [0; 0; 31; 0]%N = Ok ([-2; -1]%Z, [0; 0; 3; 0]%N) /\ schedule_summary 4 [instance_inward; instance_inward] [0; 31; 0; 0]%N = Ok ([-1; -1]%Z, [0; 31; 0; 0]%N).
Proof. split; reflexivity. Qed.
Print Assumptions C46_summary_schedule.
