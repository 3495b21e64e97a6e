(** * PhaseProofs: one phase. *)
From Coq Require Import Permutation Relations.
From Verif Require Import Base CondModel EdgeModel DncModel SummaryProofs CycleModel OagModel PropsOag ComponentModel PropsComponent PhaseModel PhaseSpec.
From Verif Require PropsCycle PrimeModel.
Open Scope nat_scope.

Lemma ct_last {X} (R : X -> X -> Prop) a b : clos_trans X R a b -> exists k, clos_refl_trans X R a k /\ R k b.
Proof. induction 1 as [a b D|a b c H1 _ _ (k & H2 & H3)]; [exists a; split; auto; apply rt_refl|]. exists k. split; auto. eapply rt_trans; [|exact H2]. clear - H1. induction H1; [now apply rt_step|eapply rt_trans; eauto]. Qed.
Lemma rt_ct {X} (R : X -> X -> Prop) a b : clos_refl_trans X R a b -> a = b \/ clos_trans X R a b.
Proof. induction 1 as [a b D|a|a b d _ [->|H1] _ [->|H2]]; auto; right; [now apply t_step|eapply t_trans; eauto]. Qed.
Lemma ct_rt {X} (R : X -> X -> Prop) a b : clos_trans X R a b -> clos_refl_trans X R a b.
Proof. induction 1; [now apply rt_step|eapply rt_trans; eauto]. Qed.
Lemma mutual_refl n mg i : mutual n mg i i.
Proof. split; apply rt_refl. Qed.
Lemma mutual_sym n mg i j : mutual n mg i j -> mutual n mg j i.
Proof. intros [H1 H2]. now split. Qed.
Lemma mutual_trans n mg i j k : mutual n mg i j -> mutual n mg j k -> mutual n mg i k.
Proof. intros [H1 H2] [H3 H4]. split; eapply rt_trans; eauto. Qed.
Lemma circular_mutual n mg i j : mutual n mg i j -> circular n mg i -> circular n mg j.
Proof. intros M (k & H & S). exists k. split; auto. eapply mutual_trans; [|exact H]. now apply mutual_sym. Qed.
Lemma rt_lt n mg i j : clos_refl_trans nat (needs n mg) i j -> i < n -> j < n.
Proof. induction 1 as [a b (_ & H & _)|a|a b c _ H1 _ H2]; auto. Qed.
Lemma rt_lt' n mg i j : clos_refl_trans nat (needs n mg) i j -> j < n -> i < n.
Proof. induction 1 as [a b (H & _)|a|a b c _ H1 _ H2]; auto. Qed.
(** an instance mutual with another one has a mutual instance it needs *)
Lemma mutual_step n mg i j : mutual n mg i j -> i <> j -> exists k, mutual n mg k i /\ needs n mg k i.
Proof.
  intros [H1 H2] Ne. destruct (rt_ct _ _ _ H2) as [E|T]; [congruence|]. apply ct_last in T. destruct T as (k & H3 & D). exists k. split; auto. split; [now apply rt_step|]. eapply rt_trans; eauto.
Qed.
Lemma cycle_step n mg i : clos_trans nat (needs n mg) i i -> exists k, mutual n mg k i /\ needs n mg k i /\ clos_trans nat (needs n mg) k k.
Proof.
  intros T. apply ct_last in T. destruct T as (k & H & D). exists k. ands; auto; [split; [now apply rt_step|auto]|]. destruct (rt_ct _ _ _ H) as [->|T]; [now apply t_step|]. eapply t_trans; [apply t_step; exact D|exact T].
Qed.

Section S.
Variable dirs : list direction.
Variable mg0 : list N.
Let n := length dirs.
Variable circb : nat -> bool.
Hypothesis circb_spec : forall i, i < n -> circb i = true <-> circular n mg0 i.
Hypothesis Lmg0 : length mg0 = n * n.

Record pinv (P q lim : nat) (sched : list Z) (mg : list N) : Prop := {
  f_len : length sched = n;
  f_mlen : length mg = n * n;
  f_dir : forall i d, nth_error dirs i = Some d -> phase_of sched i <> 0%Z -> (d = instance_inward -> (phase_of sched i < 0)%Z) /\ (d <> instance_inward -> (0 < phase_of sched i)%Z);
  f_pos : forall i, i < n -> phase_of sched i <> 0%Z -> visit_of sched i < q \/ (visit_of sched i = q /\ i < lim);
  f_dep : forall j i, needs n mg0 j i -> phase_of sched i <> 0%Z -> phase_of sched j <> 0%Z /\ (visit_of sched j < visit_of sched i \/ (visit_of sched j = visit_of sched i /\ j < i) \/ (circular n mg0 i /\ mutual n mg0 j i));
  f_mg : forall j i, j < n -> i < n -> get mg n j i = if negb (Z.eqb (phase_of sched i) 0) && negb (Z.eqb (phase_of sched j) 0) && negb (circb i) && (visit_of sched j <? visit_of sched i) then indirect_control_dependency else get mg0 n j i;
  f_comp : forall i j, i < n -> j < n -> circular n mg0 i -> mutual n mg0 i j -> aphase sched i = aphase sched j;
  f_one : forall i j, i < n -> j < n -> circular n mg0 i -> phase_of sched i <> 0%Z -> aphase sched i = aphase sched j -> mutual n mg0 i j;
  f_nc : forall i, i < n -> phase_of sched i <> 0%Z -> ~ circular n mg0 i -> ~ clos_trans nat (needs n mg0) i i /\ nth_error dirs i <> Some instance_local;
  f_old : forall i, i < n -> circular n mg0 i -> aphase sched i < P }.
Definition selfb (i : nat) : bool := negb (N.eqb (get mg0 n i i) no_dependency).
Record step_of (P : nat) (want : direction) (mark : Z) (q lim : nat) (st st' : list Z * list N * nat) : Prop := {
  o_inv : let '(sched, mg, _) := st' in pinv P q lim sched mg;
  o_cnt : let '(sched, _, c) := st in let '(sched', _, c') := st' in c <= c' /\ cnt dirs sched' + c = cnt dirs sched + c';
  o_old : let '(sched, _, _) := st in let '(sched', _, _) := st' in forall i, phase_of sched i <> 0%Z -> phase_of sched' i = phase_of sched i;
  o_new : let '(sched, _, c) := st in let '(sched', _, c') := st' in c < c' -> exists i, i < n /\ phase_of sched' i = mark;
  o_range : let '(sched, _, _) := st in let '(sched', _, _) := st' in forall i, phase_of sched' i = phase_of sched i \/ (phase_of sched' i = mark /\ (i < n -> ~ circular n mg0 i));
  o_same : let '(sched, mg, c) := st in let '(sched', mg', c') := st' in c' = c -> sched' = sched /\ mg' = mg /\ forall i, i < lim -> nth_error dirs i = Some want -> phase_of sched i <> 0%Z \/ waitsb dirs sched mg i = true \/ needs n mg0 i i }.
Lemma abs_visit z : z <> 0%Z -> Z.abs_nat z = S (visit z) / 2.
Proof.
  intros Hz. unfold visit. destruct (Z.ltb_spec z 0) as [H|H].
  - replace (S (2 * Z.to_nat (- z) - 1)) with (Z.to_nat (- z) * 2) by lia. rewrite Nat.div_mul by lia. lia.
  - replace (S (2 * Z.to_nat z)) with (1 + Z.to_nat z * 2) by lia. rewrite Nat.div_add by lia. cbn. lia.
Qed.
Lemma step_ok P want mark q i st0 st : (want = instance_inward /\ (mark < 0)%Z) \/ (want = instance_outward /\ (0 < mark)%Z) -> visit mark = q -> Z.abs_nat mark = P -> i < n -> step_of P want mark q i st0 st ->
  exists st', phase_one dirs want mark st i = Ok st' /\ step_of P want mark q (S i) st0 st'.
Proof.
  intros Hm Hq HP Hi O. destruct st0 as [[sc0 m0] c0], st as [[sc m] c]. destruct O as [I (C1 & C2) Po Pn Pr Ps].
  assert (Nm : mark <> 0%Z) by (destruct Hm as [[_ ?]|[_ ?]]; lia).
  assert (Keep : (nth_error dirs i = Some want -> phase_of sc i <> 0%Z \/ waitsb dirs sc m i = true \/ needs n mg0 i i) -> step_of P want mark q (S i) (sc0, m0, c0) (sc, m, c)).
  { intros Hk. constructor; auto.
    - destruct I; constructor; auto. intros k Lk Zk. destruct (f_pos0 k Lk Zk) as [|[]]; auto.
    - intros El. destruct (Ps El) as (-> & -> & W). ands; auto. intros k Lk Dk. destruct (Nat.lt_ge_cases k i); auto. assert (k = i) by lia. subst k. auto. }
  unfold phase_one. fold n. destruct (nth_error dirs i) as [di|] eqn:Edi; [|apply nth_error_None in Edi; unfold n in Hi; lia]. rewrite (proj2 (rd_Ok _ _ _) Edi). cbn [bind]. destruct (same_direction di want) eqn:Sd; cbn [negb].
  2:{ eexists. split; [reflexivity|]. apply Keep. intros Dk. injection Dk as ->. rewrite (proj2 (same_dir_spec _ _) eq_refl) in Sd. discriminate. }
  apply same_dir_spec in Sd. subst di. pose proof (f_len _ _ _ _ _ I) as Ls. pose proof (f_mlen _ _ _ _ _ I) as Lm.
  unfold instance_in_phylum_cycle. rewrite (rd_mg n m i i) by auto. cbn [bind].
  assert (Dg : get m n i i = get mg0 n i i). { rewrite (f_mg _ _ _ _ _ I) by auto. rewrite Nat.ltb_irrefl, !andb_false_r. reflexivity. }
  rewrite Dg. destruct (N.eqb_spec (get mg0 n i i) no_dependency) as [Zd|Nd]; cbn [negb].
  2:{ eexists. split; [reflexivity|]. apply Keep. intros _. right. right. unfold needs. auto. }
  rewrite rd_sched by lia. cbn [bind]. destruct (Z.eqb_spec (phase_of sc i) 0) as [Zi|Zi]; cbn [negb].
  2:{ eexists. split; [reflexivity|]. apply Keep. auto. }
  rewrite (existsM_ok _ (fun j => Z.eqb (phase_of sc j) 0 && negb (N.eqb (get m n j i) no_dependency))).
  2:{ intros j Hj. apply in_seq in Hj. rewrite rd_sched by lia. cbn [bind]. destruct (Z.eqb (phase_of sc j) 0); auto. rewrite rd_mg by (auto; lia). reflexivity. }
  cbn [bind]. change (existsb _ (seq 0 n)) with (waitsb dirs sc m i). destruct (waitsb dirs sc m i) eqn:W.
  { eexists. split; [reflexivity|]. apply Keep. auto. }
  rewrite wr_Ok by lia. cbn [bind]. set (sc' := upd sc i mark).
  assert (Ls' : length sc' = n) by (unfold sc'; now rewrite upd_length).
  destruct (force_ok dirs sc' mark m i Ls' Lm Hi) as (m' & E' & Lm' & G). fold n in E', Lm', G. rewrite E'. cbn [bind]. eexists. split; [reflexivity|].
  assert (Pi : phase_of sc' i = mark) by (unfold sc'; rewrite sg_upd by lia; now rewrite Nat.eqb_refl).
  assert (Pk : forall k, k <> i -> phase_of sc' k = phase_of sc k) by (intros k Hk; unfold sc'; rewrite sg_upd by lia; now rewrite (proj2 (Nat.eqb_neq _ _) Hk)).
  assert (Vi : visit_of sc' i = q) by (unfold visit_of; now rewrite Pi).
  assert (Vk : forall k, k <> i -> visit_of sc' k = visit_of sc k) by (intros k Hk; unfold visit_of; now rewrite Pk).
  assert (Ak : forall k, k <> i -> aphase sc' k = aphase sc k) by (intros k Hk; unfold aphase; now rewrite Pk).
  assert (Ai : aphase sc' i = P) by (unfold aphase; now rewrite Pi).
  assert (Wj : forall j, j < n -> needs n mg0 j i -> phase_of sc j <> 0%Z).
  { intros j Hj (_ & _ & Dj) Zj. assert (T : waitsb dirs sc m i = true); [|congruence]. apply existsb_exists. exists j. split; [apply in_seq; fold n; lia|]. fold n. rewrite (f_mg _ _ _ _ _ I) by auto. rewrite Zi, Zj. cbn [Z.eqb negb andb]. now rewrite (proj2 (N.eqb_neq _ _) Dj). }
  assert (Nc : ~ circular n mg0 i).
  { intros Hc. assert (Ex : exists k, mutual n mg0 k i /\ needs n mg0 k i). { destruct Hc as (j & M & S). destruct (Nat.eq_dec i j) as [<-|Ne]; [exists i; split; auto using mutual_refl|]. eapply mutual_step; eauto. }
    destruct Ex as (k & M & D). assert (Lk : k < n) by apply D. apply (Wj k Lk D). pose proof (f_comp _ _ _ _ _ I i k Hi Lk Hc (mutual_sym _ _ _ _ M)) as E. unfold aphase in E. rewrite Zi in E. cbn in E. lia. }
  assert (Na : ~ clos_trans nat (needs n mg0) i i).
  { intros T. destruct (cycle_step _ _ _ T) as (k & M & D & Tk). assert (Lk : k < n) by apply D. destruct (f_nc _ _ _ _ _ I k Lk (Wj k Lk D)) as [H _]; [|contradiction]. intros Hc. apply Nc. eapply circular_mutual; eauto. }
  assert (Cb : circb i = false) by (apply not_true_iff_false; rewrite circb_spec; auto).
  assert (Cu : cnt dirs sc' = S (cnt dirs sc)) by (apply cnt_upd; auto).
  constructor.
  - constructor; auto.
    + intros k dk Ek Zk. destruct (Nat.eq_dec k i) as [->|Nk]; [|rewrite Pk in * by auto; apply (f_dir _ _ _ _ _ I k dk Ek Zk)]. rewrite Edi in Ek. injection Ek as <-. rewrite Pi. destruct Hm as [[-> ?]|[-> ?]]; split; congruence || auto. 
    + intros k Lk Zk. destruct (Nat.eq_dec k i) as [->|Nk]; [right; split; auto|]. rewrite Pk in Zk by auto. rewrite Vk by auto. destruct (f_pos _ _ _ _ _ I k Lk Zk) as [|[]]; auto. 
    + intros j k D Zk. destruct (Nat.eq_dec k i) as [->|Nk].
      * assert (Lj : j < n) by apply D. pose proof (Wj j Lj D) as Zj. assert (j <> i) by congruence. rewrite Pk, Vk, Vi by auto. split; auto. destruct (f_pos _ _ _ _ _ I j Lj Zj) as [|[]]; auto.
      * rewrite Pk in Zk by auto. destruct (f_dep _ _ _ _ _ I j k D Zk) as [Zj Vj]. assert (j <> i) by congruence. rewrite Pk, !Vk by auto. auto.
    + intros j k Lj Lk. rewrite G by auto. destruct (Nat.eqb_spec k i) as [->|Nk]; cbn [andb].
      * rewrite Pi, Vi, (proj2 (Z.eqb_neq _ _) Nm), Cb. cbn [negb andb]. destruct (Z.eqb_spec (phase_of sc' j) 0) as [Zj|Zj]; cbn [negb andb].
        { rewrite (f_mg _ _ _ _ _ I) by auto. now rewrite Zi. }
        destruct (Z.eqb_spec (phase_of sc' j) mark) as [Ej|Ej]; cbn [negb].
        { replace (visit_of sc' j) with q by (unfold visit_of; now rewrite Ej). rewrite Nat.ltb_irrefl. rewrite (f_mg _ _ _ _ _ I) by auto. now rewrite Zi. }
        assert (Hne : j <> i) by (intros ->; congruence). rewrite Pk in Zj by auto. destruct (f_pos _ _ _ _ _ I j Lj Zj) as [Hlt|[Heq _]]; [rewrite Vk by auto; now rewrite (proj2 (Nat.ltb_lt _ _) Hlt)|].
        exfalso. apply Ej. apply visit_inj; auto; [now rewrite Pk|]. unfold visit_of in Heq. rewrite Pk by auto. congruence.
      * rewrite (Pk k Nk), (Vk k Nk). rewrite (f_mg _ _ _ _ _ I) by auto. destruct (Nat.eq_dec j i) as [->|Nj]; [|now rewrite (Pk j Nj), (Vk j Nj)]. rewrite Zi, Pi, Vi. rewrite (proj2 (Z.eqb_neq _ _) Nm). cbn [Z.eqb negb andb]. rewrite andb_false_r. cbn [andb]. destruct (Z.eqb_spec (phase_of sc k) 0) as [Zk|Zk]; cbn [negb andb]; auto.
        destruct (circb k); cbn [negb andb]; auto. destruct (Nat.ltb_spec q (visit_of sc k)); auto. destruct (f_pos _ _ _ _ _ I k Lk Zk) as [|[]]; lia.
    + intros a b La Lb Ha M. destruct (Nat.eq_dec a i) as [->|Na']; [contradiction|]. destruct (Nat.eq_dec b i) as [->|Nb']; [exfalso; apply Nc; eapply circular_mutual; eauto|]. rewrite !Ak by auto. apply (f_comp _ _ _ _ _ I a b); auto.
    + intros a b La Lb Ha Za E. destruct (Nat.eq_dec a i) as [->|Na']; [contradiction|]. rewrite Pk in Za by auto. rewrite (Ak a Na') in E. destruct (Nat.eq_dec b i) as [->|Nb'].
      * rewrite Ai in E. pose proof (f_old _ _ _ _ _ I a La Ha). lia.
      * rewrite (Ak b Nb') in E. apply (f_one _ _ _ _ _ I a b); auto.
    + intros a La Za Ha. destruct (Nat.eq_dec a i) as [->|Na']; [split; auto; rewrite Edi; destruct Hm as [[-> _]|[-> _]]; congruence|]. rewrite Pk in Za by auto. apply (f_nc _ _ _ _ _ I a); auto.
    + intros a La Ha. destruct (Nat.eq_dec a i) as [->|Na']; [contradiction|]. rewrite Ak by auto. apply (f_old _ _ _ _ _ I a); auto.
  - lia.
  - intros k Zk. destruct (Nat.eq_dec k i) as [->|Nk]; [|rewrite Pk by auto; auto]. exfalso. apply Zk. rewrite <- (Po i Zk). auto.
  - intros _. exists i. auto.
  - intros k. destruct (Nat.eq_dec k i) as [->|Nk]; [right; auto|]. rewrite Pk by auto. auto.
  - intros El. lia.
Qed.
Lemma pass_ok' P want mark q sched mg c : (want = instance_inward /\ (mark < 0)%Z) \/ (want = instance_outward /\ (0 < mark)%Z) -> visit mark = q -> Z.abs_nat mark = P -> pinv P q 0 sched mg ->
  exists st', foldM (phase_one dirs want mark) (seq 0 n) (sched, mg, c) = Ok st' /\ step_of P want mark q n (sched, mg, c) st'.
Proof.
  intros Hm Hq HP I. destruct (foldM_inv (phase_one dirs want mark) (seq 0 n) (fun done st => step_of P want mark q (length done) (sched, mg, c) st) (sched, mg, c)) as (st' & E & O).
  - constructor; auto; try lia. intros _. ands; auto. intros i Hi. cbn in Hi. lia.
  - intros done i rest st El O. assert (Ei : i = length done /\ i < n).
    { assert (Ln : length (seq 0 n) = n) by apply seq_length. assert (Nt : nth (length done) (seq 0 n) 0 = i) by (rewrite El, app_nth2, Nat.sub_diag by lia; reflexivity). rewrite El, app_length in Ln. cbn [length] in Ln. rewrite seq_nth in Nt by lia. lia. }
    destruct Ei as [-> Hi]. destruct (step_ok P want mark q (length done) _ st Hm Hq HP Hi O) as (st1 & E1 & P1). exists st1. split; auto. rewrite app_length. cbn [length]. now rewrite Nat.add_1_r.
  - exists st'. split; auto. now rewrite seq_length in O.
Qed.
Lemma pinv_next P q q' lim sched mg : pinv P q lim sched mg -> q < q' -> pinv P q' 0 sched mg.
Proof. intros I H. destruct I. constructor; auto. intros i Hi Zi. left. destruct (f_pos0 i Hi Zi) as [|[]]; lia. Qed.
Lemma pinv_mono P P' q lim sched mg : pinv P q lim sched mg -> P <= P' -> pinv P' q lim sched mg.
Proof. intros I H. destruct I. constructor; auto. intros i Hi Ci. specialize (f_old0 i Hi Ci). lia. Qed.
(** the instances that have just not been scheduled wait for something or are on a cycle *)
Definition stuck (sched : list Z) : Prop := forall i, i < n -> phase_of sched i = 0%Z -> ~ circular n mg0 i -> nth_error dirs i = Some instance_local \/ exists j, j < n /\ phase_of sched j = 0%Z /\ needs n mg0 j i.
Lemma nc_ok P sched mg : 1 <= P -> pinv P (2 * P - 2) n sched mg ->
  exists sched' mg' c, schedule_phase_non_circular dirs P sched mg = Ok (sched', mg', c) /\ pinv P (2 * P) n sched' mg' /\ cnt dirs sched' = cnt dirs sched + c /\
    (forall i, phase_of sched i <> 0%Z -> phase_of sched' i = phase_of sched i) /\
    (forall i, i < n -> phase_of sched' i = phase_of sched i \/ (phase_of sched i = 0%Z /\ aphase sched' i = P /\ ~ circular n mg0 i)) /\
    (c <> 0 -> exists i, i < n /\ aphase sched' i = P) /\
    (c = 0 -> sched' = sched /\ mg' = mg /\ stuck sched).
Proof.
  intros HP I. unfold schedule_phase_non_circular. fold n.
  destruct (pass_ok' P instance_inward (- Z.of_nat P)%Z (2 * P - 1) sched mg 0) as ([[sc1 m1] c1] & E1 & O1); [left; split; auto; lia|unfold visit; destruct (Z.ltb_spec (- Z.of_nat P) 0); lia|lia|apply (pinv_next P (2 * P - 2) _ n); auto; lia|].
  rewrite E1. cbn [bind]. destruct O1 as [I1 (A1 & A2) Po1 Pn1 Pr1 Ps1].
  destruct (pass_ok' P instance_outward (Z.of_nat P) (2 * P) sc1 m1 c1) as ([[sc2 m2] c2] & E2 & O2); [right; split; auto; lia|unfold visit; destruct (Z.ltb_spec (Z.of_nat P) 0); lia|lia|apply (pinv_next P (2 * P - 1) _ n); auto; lia|].
  rewrite E2. destruct O2 as [I2 (B1 & B2) Po2 Pn2 Pr2 Ps2]. exists sc2, m2, c2. ands; auto.
  - lia.
  - intros i Zi. rewrite Po2; auto. rewrite Po1; auto.
  - intros i Li. destruct (Z.eq_dec (phase_of sched i) 0) as [Zi|Zi]; [|left; rewrite Po2; rewrite Po1; auto]. destruct (Pr2 i) as [E|[E N]].
    + destruct (Pr1 i) as [E'|[E' N]]; [left; congruence|]. right. split; auto. split; auto. unfold aphase. rewrite E, E'. lia.
    + right. split; auto. split; auto. unfold aphase. rewrite E. lia.
  - intros Hc. destruct (Nat.eq_dec c1 0) as [->|H1].
    + destruct Pn2 as (i & Li & E); [lia|]. exists i. split; auto. unfold aphase. rewrite E. lia.
    + destruct Pn1 as (i & Li & E); [lia|]. exists i. split; auto. unfold aphase. rewrite Po2; rewrite E; lia.
  - intros ->. destruct (Ps2 ltac:(lia)) as (-> & -> & W2). destruct (Ps1 ltac:(lia)) as (-> & -> & W1). ands; auto. intros i Li Zi Nc. destruct (nth_error dirs i) as [d|] eqn:Ed; [|apply nth_error_None in Ed; unfold n in Li; lia].
    assert (Wt : d = instance_local \/ waitsb dirs sched mg i = true \/ needs n mg0 i i). { destruct d; auto. - destruct (W1 i Li Ed) as [|[]]; auto; contradiction. - destruct (W2 i Li Ed) as [|[]]; auto; contradiction. }
    destruct Wt as [->|[W|D]]; auto; right.
    + unfold waitsb in W. apply existsb_exists in W. destruct W as (j & Hj & T). apply in_seq in Hj. apply andb_true_iff in T. destruct T as [T1 T2]. apply Z.eqb_eq in T1. rewrite negb_true_iff, N.eqb_neq in T2. fold n in T2, Hj. exists j. ands; auto; try lia. split; [lia|]. split; auto. rewrite (f_mg _ _ _ _ _ I) in T2 by (auto; lia). now rewrite Zi in T2.
    + exists i. auto.
Qed.
End S.
