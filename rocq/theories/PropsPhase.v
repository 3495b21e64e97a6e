(** * PropsPhase: C58 (phases of summary graphs with circular attributes). *)
From Coq Require Import Permutation Relations.
From Verif Require Import Base CondModel EdgeModel DncModel SummaryProofs CycleModel OagModel PropsOag ComponentModel PropsComponent PhaseModel PhaseSpec PhaseProofs PhaseCircProofs.
From Verif Require PropsCycle PropsUtil PrimeModel.
Open Scope nat_scope.

Lemma flag_upd l p v k : p < length l -> flag (upd l p v) k = if k =? p then v else flag l k.
Proof.
  intros Hp. unfold flag. destruct (Nat.eqb_spec k p) as [->|Ne]; [apply nth_error_nth; now apply nth_error_upd_eq|]. destruct (nth_error l k) as [b|] eqn:E.
  - rewrite (nth_error_nth _ _ _ E). apply nth_error_nth. now rewrite nth_error_upd_neq by congruence.
  - apply nth_error_None in E. rewrite !nth_overflow; auto. now rewrite upd_length.
Qed.
Lemma wr_cases {A} (l : list A) p v : (wr l p v = Ok (upd l p v) /\ p < length l) \/ (wr l p v = UB /\ length l <= p).
Proof. unfold wr. destruct (Nat.ltb_spec p (length l)); auto. Qed.
Lemma pinv_weaken dirs mg0 cb P P' q q' sched mg : pinv dirs mg0 cb P q (length dirs) sched mg -> P <= P' -> q < q' -> pinv dirs mg0 cb P' q' (length dirs) sched mg.
Proof. intros I H1 H2. destruct I. constructor; auto. - intros i Hi Zi. left. destruct (f_pos i Hi Zi) as [|[]]; lia. - intros i Hi Ci. specialize (f_old i Hi Ci). lia. Qed.
Lemma pinv_up dirs mg0 cb P P' q lim sched mg : pinv dirs mg0 cb P q lim sched mg -> P <= P' -> pinv dirs mg0 cb P' q lim sched mg.
Proof. intros I H. destruct I. constructor; auto. intros i Hi Ci. specialize (f_old i Hi Ci). lia. Qed.
Lemma aphase_lt dirs mg0 cb P q sched mg i : pinv dirs mg0 cb P q (length dirs) sched mg -> i < length dirs -> q <= 2 * P -> phase_of sched i <> 0%Z -> 1 <= aphase sched i <= P.
Proof. intros I Hi Hq Z0. assert (V : visit_of sched i <= q) by (destruct (f_pos _ _ _ _ _ _ _ _ I i Hi Z0) as [|[]]; lia). unfold visit_of, visit, aphase in *. destruct (Z.ltb_spec (phase_of sched i) 0); lia. Qed.
Lemma aphase_zero sched i : aphase sched i = 0 <-> phase_of sched i = 0%Z.
Proof. unfold aphase. lia. Qed.

Section S.
Variable dirs : list direction.
Variable mg0 : list N.
Let n := length dirs.
Variables (base size : Z) (comps : list (list nat)) (flags : list bool) (T : nat).
Hypothesis Hfits : fits n base size.
Hypothesis Hcomps : right_components n (needs n mg0) comps.
Hypothesis Lflags : length flags = length comps.
Hypothesis Hflags : forall a c, nth_error comps a = Some c -> nth_error flags a = Some true <-> exists i, In i c /\ needs n mg0 i i.
Hypothesis Lmg0 : length mg0 = n * n.
Notation cb := (circb comps flags).
Notation pinv := (pinv dirs mg0 cb).
Notation zcomps := (map (map (inst_addr base size)) comps).
Lemma Kof : forall i, i < n -> exists a c, nth_error comps a = Some c /\ In i c.
Proof. intros i Hi. eapply comp_of; eauto. Qed.
Lemma Kmut : forall c i j, In c comps -> In i c -> j < n -> (In j c <-> mutual n mg0 i j).
Proof. intros c i j H1 H2 H3. eapply comp_mutual; eauto. Qed.
Lemma Kfc : forall a c i, nth_error comps a = Some c -> In i c -> nth_error flags a = Some true <-> circular n mg0 i.
Proof. intros a c i H1 H2. eapply flag_circular; eauto. Qed.
Lemma Kcs : forall i, i < n -> cb i = true <-> circular n mg0 i.
Proof. intros i H. eapply circb_spec; eauto. Qed.
Definition Kco := circ_ok dirs mg0 base size comps flags Hfits Hcomps Lflags Hflags Lmg0.
(** Before phase [phase]; [tr] says that the phase before is an empty one just added. *)
Record linv (tr : bool) (r : phases) (phase done : nat) (ch : bool) : Prop := {
  l_inv : pinv phase (2 * phase - 2) n (ph_sched r) (ph_mg r);
  l_done : done = cnt dirs (ph_sched r);
  l_ph : 1 <= phase;
  l_len : length (ph_circular r) = T /\ length (ph_empty r) = T;
  l_mx : ph_max r = phase - 1;
  l_circ : forall i, i < n -> phase_of (ph_sched r) i <> 0%Z -> flag (ph_circular r) (aphase (ph_sched r) i) = true <-> circular n mg0 i;
  l_in : forall p, flag (ph_circular r) p = true -> 1 < p < phase;
  l_apart : forall p, flag (ph_circular r) p = true -> flag (ph_circular r) (S p) = false;
  l_ch : ch = true <-> flag (ph_circular r) (phase - 1) = true;
  l_empty : forall p, 1 <= p < phase -> flag (ph_empty r) p = true <-> forall i, i < n -> aphase (ph_sched r) i <> p;
  l_rest : forall p, phase <= p -> flag (ph_empty r) p = false;
  l_why : forall p, 1 <= p < phase -> flag (ph_empty r) p = true -> (p = 1 \/ flag (ph_circular r) (p - 1) = true) /\ ((S p = phase /\ tr = true) \/ flag (ph_circular r) (S p) = true);
  l_b1 : phase <= 2 * done + (if tr then 2 else 1);
  l_b2 : (forall i, i < n -> ~ circular n mg0 i) -> phase <= done + (if tr then 2 else 1) }.
Lemma stuck_bad sched : stuck dirs mg0 sched -> (forall a c, nth_error comps a = Some c -> nth_error flags a = Some true -> (forall i, In i c -> phase_of sched i <> 0%Z) \/ blocked dirs mg0 sched c) -> phaseable dirs mg0 -> forall i, i < n -> phase_of sched i <> 0%Z.
Proof.
  intros St Bl Ph. assert (G : forall a c i, nth_error comps a = Some c -> In i c -> i < n -> phase_of sched i <> 0%Z).
  { induction a as [a IH] using lt_wf_ind. intros c i Ea Hi Li Zi. assert (Hc : In c comps) by (eapply nth_error_In; eauto).
    assert (Ix : forall k j, In j c -> needs n mg0 k j -> phase_of sched k = 0%Z -> In k c).
    { intros k j Hj D Zk. assert (Lk : k < n) by apply D. destruct (Kof k Lk) as (b & cb' & Eb & Hk). assert (Le : b <= a) by (destruct Hcomps as (_ & _ & _ & Od); apply (Od b a cb' c k j); auto). destruct (Nat.eq_dec b a) as [->|Ne]; [rewrite Ea in Eb; injection Eb as <-; auto|]. exfalso. apply (IH b ltac:(lia) cb' k); auto. }
    destruct (nth_error flags a) as [[]|] eqn:Ef.
    - destruct (Bl a c Ea Ef) as [H|(i' & k & Hi' & Lk & Nk & Zk & D)]; [exact (H i Hi Zi)|]. apply Nk. eapply Ix; eauto.
    - assert (Nc : ~ circular n mg0 i) by (rewrite <- (Kfc a c i Ea Hi), Ef; discriminate). destruct (St i Li Zi Nc) as [Hl|(j & Lj & Zj & D)]; [apply Nc; apply Ph; auto|]. apply Nc. apply Ph; auto. right. assert (Hj : In j c) by (eapply Ix; eauto). destruct (proj1 (Kmut c i j Hc Hi Lj) Hj) as [H1 _]. destruct (rt_ct _ _ _ H1) as [->|Tr]; [now apply t_step|]. eapply t_trans; [exact Tr|now apply t_step].
    - apply nth_error_None in Ef. assert (a < length comps) by (apply nth_error_Some; congruence). lia. }
  intros i Li. destruct (Kof i Li) as (a & c & Ea & Hi). eauto.
Qed.
Definition final (r : phases) (done : nat) : Prop :=
  done <= n /\ (done = n -> phaseable dirs mg0 /\ right_phases dirs mg0 (ph_sched r) (ph_circular r) (ph_empty r) (ph_max r) /\ length (ph_mg r) = n * n /\
    forall j i, j < n -> i < n -> (circular n mg0 i -> get (ph_mg r) n j i = get mg0 n j i) /\ (~ circular n mg0 i -> get (ph_mg r) n j i = if visit_of (ph_sched r) j <? visit_of (ph_sched r) i then indirect_control_dependency else get mg0 n j i)) /\
  (done < n -> ~ phaseable dirs mg0).
Lemma final_ok tr r phase done : linv tr r phase done false -> 1 < phase -> stuck dirs mg0 (ph_sched r) ->
  (forall a c, nth_error comps a = Some c -> nth_error flags a = Some true -> (forall i, In i c -> phase_of (ph_sched r) i <> 0%Z) \/ blocked dirs mg0 (ph_sched r) c) -> final r done.
Proof.
  intros L Hp St Bl. pose proof (l_inv _ _ _ _ _ L) as I. pose proof (l_done _ _ _ _ _ L) as Hd. unfold final. pose proof (cnt_le dirs (ph_sched r)) as Cl. fold n in Cl. ands; [lia| |].
  - intros E. rewrite Hd in E. pose proof (cnt_full dirs _ E) as Full. fold n in Full. assert (Ar : forall i, i < n -> 1 <= aphase (ph_sched r) i < phase). { intros i Li. pose proof (aphase_lt _ _ _ _ _ _ _ i (pinv_weaken _ _ _ phase phase (2 * phase - 2) (2 * phase - 1) _ _ I ltac:(lia) ltac:(lia)) Li ltac:(lia) (Full i Li)) as H1.
      assert (V : visit_of (ph_sched r) i <= 2 * phase - 2) by (destruct (f_pos _ _ _ _ _ _ _ _ I i Li (Full i Li)) as [|[]]; lia). unfold visit_of, visit, aphase in *. destruct (Z.ltb_spec (phase_of (ph_sched r) i) 0); lia. }
    rewrite (l_mx _ _ _ _ _ L). ands.
    + intros i Li H. destruct (cb i) eqn:Cb; [now apply (Kcs i Li)|]. assert (Nc : ~ circular n mg0 i) by (rewrite <- (Kcs i Li); congruence). destruct (f_nc _ _ _ _ _ _ _ _ I i Li (Full i Li) Nc) as [H1 H2]. destruct H; contradiction.
    + constructor; fold n; auto.
      * apply (f_len _ _ _ _ _ _ _ _ I).
      * intros i Li. specialize (Ar i Li). lia.
      * intros i d Ed. apply (f_dir _ _ _ _ _ _ _ _ I i d Ed). apply Full. unfold n. apply nth_error_Some. congruence.
      * intros j i D. apply (f_dep _ _ _ _ _ _ _ _ I j i D). apply Full. apply D.
      * intros i Li. apply (l_circ _ _ _ _ _ L i Li (Full i Li)).
      * intros i j Li Lj Ci. split; [apply (f_one _ _ _ _ _ _ _ _ I i j Li Lj Ci (Full i Li))|apply (f_comp _ _ _ _ _ _ _ _ I i j Li Lj Ci)].
      * destruct (flag (ph_circular r) 1) eqn:F; auto. apply (l_in _ _ _ _ _ L) in F. lia.
      * destruct (flag (ph_circular r) (phase - 1)) eqn:F; auto. apply (l_ch _ _ _ _ _ L) in F. discriminate.
      * intros p _ F. apply (l_apart _ _ _ _ _ L p F).
      * intros p Hpp. apply (l_empty _ _ _ _ _ L p). lia.
      * intros p Hpp F. destruct (l_why _ _ _ _ _ L p ltac:(lia) F) as [H1 H2]. split; auto. destruct H2 as [[H2 _]|H2]; auto. left. lia.
    + apply (f_mlen _ _ _ _ _ _ _ _ I).
    + intros j i Lj Li. pose proof (f_mg _ _ _ _ _ _ _ _ I j i Lj Li) as Gm; fold n in Gm; rewrite Gm. rewrite (proj2 (Z.eqb_neq _ _) (Full i Li)), (proj2 (Z.eqb_neq _ _) (Full j Lj)). cbn [negb andb]. pose proof (Kcs i Li) as Cs. split.
      * intros Ci. apply Cs in Ci. rewrite Ci. reflexivity.
      * intros Nc. destruct (cb i); [exfalso; apply Nc; now apply Cs|reflexivity].
  - intros Lt Ph. rewrite Hd in Lt. destruct (cnt_short dirs _ Lt) as (i & Li & Zi). exact (stuck_bad _ St Bl Ph i Li Zi).
Qed.
Definition overrun : Prop := T <= 2 * n + 1 /\ (T <= n \/ exists i, i < n /\ circular n mg0 i).
Lemma circ_phase tr r phase done : linv tr r phase done false -> 1 < phase -> stuck dirs mg0 (ph_sched r) ->
  (schedule_phase_circular dirs base size zcomps flags phase (ph_sched r) (ph_mg r) = Ok (ph_sched r, 0) /\ final r done) \/
  (exists sched c, schedule_phase_circular dirs base size zcomps flags phase (ph_sched r) (ph_mg r) = Ok (sched, c) /\ 0 < c /\
    ((phase < T /\ linv false (mkPhases sched (ph_mg r) (upd (ph_circular r) phase true) (ph_empty r) phase) (S phase) (done + c) true) \/ (T <= phase /\ overrun))).
Proof.
  intros L Hp St. pose proof (l_inv _ _ _ _ _ L) as I. destruct (Kco phase (2 * phase - 2) (ph_sched r) (ph_mg r) ltac:(lia) ltac:(lia) I (seq 0 (length comps))) as [[E B]|(c & sched & E & Ne & I' & Cn & Hin & Hout)].
  { intros a Ha. apply in_seq in Ha. lia. }
  - left. unfold schedule_phase_circular. rewrite map_length. split; auto. eapply final_ok; eauto. intros a c Ea Ef. apply (B a c); auto. apply in_seq. assert (a < length comps) by (apply nth_error_Some; congruence). lia.
  - right. exists sched, (length c). unfold schedule_phase_circular. rewrite map_length. split; auto. assert (Lc : 0 < length c) by (destruct c; cbn [length]; [congruence|lia]). split; auto. fold n in Hin. destruct c as [|i0 c0] eqn:Ec; [congruence|]. rewrite <- Ec in *. assert (Hi0 : In i0 c) by (rewrite Ec; now left). destruct (Hin i0 Hi0) as (Li0 & Z0 & A0 & C0).
    pose proof (l_done _ _ _ _ _ L) as Hd. pose proof (cnt_le dirs sched) as Cl. fold n in Cl. pose proof (l_b1 _ _ _ _ _ L) as B1. destruct (Nat.lt_ge_cases phase T) as [Lt|Ge]; [left|right; split; auto; split; [destruct tr; lia|right; eauto]]. split; auto. destruct (l_len _ _ _ _ _ L) as [Lc1 Lc2].
    assert (Old : forall i, i < n -> phase_of (ph_sched r) i <> 0%Z -> aphase (ph_sched r) i < phase). { intros i Li Zi. assert (V : visit_of (ph_sched r) i <= 2 * phase - 2) by (destruct (f_pos _ _ _ _ _ _ _ _ I i Li Zi) as [|[]]; lia). unfold visit_of, visit, aphase in *. destruct (Z.ltb_spec (phase_of (ph_sched r) i) 0); lia. }
    assert (Cf : flag (ph_circular r) (phase - 1) = false) by (destruct (flag (ph_circular r) (phase - 1)) eqn:F; auto; apply (l_ch _ _ _ _ _ L) in F; discriminate).
    assert (Fo : forall p, phase <= p -> flag (ph_circular r) p = false) by (intros p Hpp; destruct (flag (ph_circular r) p) eqn:F; auto; apply (l_in _ _ _ _ _ L) in F; lia).
    assert (Ao : forall i, ~ In i c -> aphase sched i = aphase (ph_sched r) i) by (intros i Hi; unfold aphase; now rewrite Hout).
    constructor; cbn [ph_sched ph_mg ph_circular ph_empty ph_max].
    + replace (2 * S phase - 2) with (2 * phase) by lia. exact I'.
    + lia.
    + lia.
    + now rewrite upd_length.
    + lia.
    + intros i Li Zi. rewrite flag_upd by lia. destruct (in_dec Nat.eq_dec i c) as [Hi|Hi].
      * destruct (Hin i Hi) as (_ & _ & A & C). rewrite A, Nat.eqb_refl. tauto.
      * rewrite Ao by auto. rewrite Hout in Zi by auto. specialize (Old i Li Zi). rewrite (proj2 (Nat.eqb_neq _ _)) by lia. apply (l_circ _ _ _ _ _ L i Li Zi).
    + intros p. rewrite flag_upd by lia. destruct (Nat.eqb_spec p phase) as [->|Np]; [lia|]. intros F. apply (l_in _ _ _ _ _ L) in F. lia.
    + intros p. rewrite !flag_upd by lia. destruct (Nat.eqb_spec p phase) as [->|Np].
      * intros _. rewrite (proj2 (Nat.eqb_neq _ _)) by lia. apply Fo. lia.
      * intros F. destruct (Nat.eqb_spec (S p) phase) as [E'|Np']; [replace p with (phase - 1) in F by lia; congruence|]. apply (l_apart _ _ _ _ _ L p F).
    + rewrite flag_upd by lia. replace (S phase - 1) with phase by lia. rewrite Nat.eqb_refl. tauto.
    + intros p Hpp. destruct (Nat.eq_dec p phase) as [->|Np].
      * rewrite (l_rest _ _ _ _ _ L) by lia. split; [discriminate|]. intros H. exfalso. exact (H i0 Li0 A0).
      * rewrite (l_empty _ _ _ _ _ L p) by lia. split; intros H i Li; destruct (in_dec Nat.eq_dec i c) as [Hi|Hi].
        { destruct (Hin i Hi) as (_ & _ & A & _). lia. } { rewrite Ao by auto. auto. }
        { destruct (Hin i Hi) as (_ & Z & _). apply aphase_zero in Z. lia. } { rewrite <- Ao by auto. auto. }
    + intros p Hpp. apply (l_rest _ _ _ _ _ L). lia.
    + intros p Hpp F. rewrite !flag_upd by lia. destruct (Nat.eq_dec p phase) as [->|Np]; [rewrite (l_rest _ _ _ _ _ L) in F by lia; discriminate|]. destruct (l_why _ _ _ _ _ L p ltac:(lia) F) as [H1 H2]. rewrite (proj2 (Nat.eqb_neq (p - 1) phase)) by lia. split; auto. right. destruct (Nat.eqb_spec (S p) phase) as [E'|Np']; auto. destruct H2 as [[H2 _]|H2]; auto; lia.
    + destruct tr; lia.
    + intros Nc. exfalso. exact (Nc i0 Li0 C0).
Qed.
Lemma loop_ok : forall fuel r phase done ch, linv false r phase done ch -> n < done + fuel ->
  (exists r' phase' done', phase_loop fuel dirs base size zcomps flags r phase done ch = Ok (r', phase', done', false) /\ final r' done') \/
  (phase_loop fuel dirs base size zcomps flags r phase done ch = UB /\ overrun).
Proof.
  induction fuel as [|f IH]; intros r phase done ch L Hf; pose proof (l_done _ _ _ _ _ L) as Hd; pose proof (cnt_le dirs (ph_sched r)) as Cl; fold n in Cl; [lia|]. cbn [phase_loop].
  pose proof (l_inv _ _ _ _ _ L) as I. pose proof (l_ph _ _ _ _ _ L) as Hp. destruct (l_len _ _ _ _ _ L) as [Lc1 Lc2]. pose proof (l_b1 _ _ _ _ _ L) as B1. pose proof (l_b2 _ _ _ _ _ L) as B2. cbn [andb] in B1, B2.
  destruct (nc_ok dirs mg0 cb (Kcs) Lmg0 phase (ph_sched r) (ph_mg r) Hp I) as (sched & mg & c & E & I' & Cn & Keep & New & Some & None). rewrite E. cbn [bind].
  assert (Fo : forall p, phase <= p -> flag (ph_circular r) p = false) by (intros p Hpp; destruct (flag (ph_circular r) p) eqn:F; auto; apply (l_in _ _ _ _ _ L) in F; lia).
  assert (Old : forall i, i < n -> phase_of (ph_sched r) i <> 0%Z -> aphase (ph_sched r) i < phase). { intros i Li Zi. assert (V : visit_of (ph_sched r) i <= 2 * phase - 2) by (destruct (f_pos _ _ _ _ _ _ _ _ I i Li Zi) as [|[]]; lia). unfold visit_of, visit, aphase in *. destruct (Z.ltb_spec (phase_of (ph_sched r) i) 0); lia. }
  pose proof (cnt_le dirs sched) as Cl'. fold n in Cl'. destruct Hfits as (Hn0 & _). destruct (Nat.eqb_spec c 0) as [Ec|Nc]; cbn [negb].
  2:{ destruct (wr_cases (ph_circular r) phase false) as [[E1 Lt]|[E1 Ge]]; rewrite E1; cbn [bind].
      2:{ right. split; auto. rewrite Lc1 in Ge. split; [lia|]. destruct (existsb cb (seq 0 n)) eqn:Ex; [right|left].
          - apply existsb_exists in Ex. destruct Ex as (i & Hi & Cb). apply in_seq in Hi. exists i. split; [lia|]. apply (Kcs i); auto. lia.
          - enough (phase <= done + 1) by lia. apply B2. intros i Li Ci. apply (Kcs i) in Ci; auto. rewrite <- not_true_iff_false in Ex. apply Ex. apply existsb_exists. exists i. split; auto. apply in_seq. lia. }
      apply IH; [|lia]. destruct (Some Nc) as (i0 & Li0 & A0). constructor; cbn [ph_sched ph_mg ph_circular ph_empty ph_max].
      - replace (2 * S phase - 2) with (2 * phase) by lia. eapply pinv_up; [exact I'|lia].
      - lia.
      - lia.
      - now rewrite upd_length.
      - lia.
      - intros i Li Zi. rewrite flag_upd by lia. destruct (New i Li) as [En|(Zo & A & N)].
        + assert (Ea : aphase sched i = aphase (ph_sched r) i) by (unfold aphase; now rewrite En). rewrite Ea. rewrite En in Zi. specialize (Old i Li Zi). rewrite (proj2 (Nat.eqb_neq _ _)) by lia. apply (l_circ _ _ _ _ _ L i Li Zi).
        + rewrite A, Nat.eqb_refl. split; [discriminate|contradiction].
      - intros p. rewrite flag_upd by lia. destruct (Nat.eqb_spec p phase) as [->|Np]; [discriminate|]. intros F. apply (l_in _ _ _ _ _ L) in F. lia.
      - intros p. rewrite !flag_upd by lia. destruct (Nat.eqb_spec p phase) as [->|Np]; [discriminate|]. intros F. destruct (Nat.eqb_spec (S p) phase); auto. apply (l_apart _ _ _ _ _ L p F).
      - rewrite flag_upd by lia. replace (S phase - 1) with phase by lia. rewrite Nat.eqb_refl. tauto.
      - intros p Hpp. destruct (Nat.eq_dec p phase) as [->|Np].
        + rewrite (l_rest _ _ _ _ _ L) by lia. split; [discriminate|]. intros H. exfalso. exact (H i0 Li0 A0).
        + rewrite (l_empty _ _ _ _ _ L p) by lia. split; intros H i Li; destruct (New i Li) as [En|(Zo & A & N)].
          * unfold aphase. rewrite En. apply H; auto.
          * lia.
          * specialize (H i Li). unfold aphase in H. now rewrite En in H.
          * apply aphase_zero in Zo. lia.
      - intros p Hpp. apply (l_rest _ _ _ _ _ L). lia.
      - intros p Hpp F. rewrite !flag_upd by lia. destruct (Nat.eq_dec p phase) as [->|Np]; [rewrite (l_rest _ _ _ _ _ L) in F by lia; discriminate|]. destruct (l_why _ _ _ _ _ L p ltac:(lia) F) as [H1 H2]. rewrite (proj2 (Nat.eqb_neq (p - 1) phase)) by lia. split; auto. right. destruct H2 as [[_ H2]|H2]; [discriminate|]. destruct (Nat.eqb_spec (S p) phase) as [E'|Np']; auto. rewrite E', Fo in H2 by lia. discriminate.
      - lia.
      - intros H. specialize (B2 H). lia. }
  subst c. destruct (None eq_refl) as (-> & -> & St). destruct (ch || (phase =? 1)) eqn:Em.
  - destruct (wr_cases (ph_circular r) phase false) as [[E1 Lt]|[E1 Ge]]; rewrite E1; cbn [bind].
    2:{ right. split; auto. rewrite Lc1 in Ge. split; [lia|]. destruct (existsb cb (seq 0 n)) eqn:Ex; [right|left].
        - apply existsb_exists in Ex. destruct Ex as (i & Hi & Cb). apply in_seq in Hi. exists i. split; [lia|]. apply (Kcs i); auto. lia.
        - assert (Nc : forall i, i < n -> ~ circular n mg0 i) by (intros i Li Ci; apply (Kcs i) in Ci; auto; rewrite <- not_true_iff_false in Ex; apply Ex; apply existsb_exists; exists i; split; auto; apply in_seq; lia).
          apply orb_true_iff in Em. destruct Em as [->|Em]; [|apply Nat.eqb_eq in Em; lia]. exfalso. assert (F : flag (ph_circular r) (phase - 1) = true) by (apply (l_ch _ _ _ _ _ L); auto).
          pose proof (l_in _ _ _ _ _ L _ F) as Hr. destruct (flag (ph_empty r) (phase - 1)) eqn:Fe.
          + destruct (l_why _ _ _ _ _ L (phase - 1) ltac:(lia) Fe) as [_ [[_ H]|H]]; [discriminate|]. replace (S (phase - 1)) with phase in H by lia. rewrite Fo in H by lia. discriminate.
          + rewrite <- not_true_iff_false in Fe. apply Fe. apply (l_empty _ _ _ _ _ L); [lia|]. intros i Li A. apply (Nc i Li). apply (l_circ _ _ _ _ _ L i Li); [|now rewrite A]. intros Z0. apply aphase_zero in Z0. lia. }
    rewrite (wr_Ok (ph_empty r) phase true) by lia. cbn [bind].
    set (r1 := mkPhases (ph_sched r) (ph_mg r) (upd (ph_circular r) phase false) (upd (ph_empty r) phase true) phase).
    assert (L1 : linv true r1 (S phase) done false).
    { unfold r1. constructor; cbn [ph_sched ph_mg ph_circular ph_empty ph_max]; auto.
      - apply (pinv_weaken _ _ _ phase _ (2 * phase - 2)); auto; lia.
      - now rewrite !upd_length.
      - lia.
      - intros i Li Zi. rewrite flag_upd by lia. specialize (Old i Li Zi). rewrite (proj2 (Nat.eqb_neq _ _)) by lia. apply (l_circ _ _ _ _ _ L i Li Zi).
      - intros p. rewrite flag_upd by lia. destruct (Nat.eqb_spec p phase) as [->|Np]; [discriminate|]. intros F. apply (l_in _ _ _ _ _ L) in F. lia.
      - intros p. rewrite !flag_upd by lia. destruct (Nat.eqb_spec p phase) as [->|Np]; [discriminate|]. intros F. destruct (Nat.eqb_spec (S p) phase); auto. apply (l_apart _ _ _ _ _ L p F).
      - rewrite flag_upd by lia. replace (S phase - 1) with phase by lia. rewrite Nat.eqb_refl. tauto.
      - intros p Hpp. rewrite flag_upd by lia. destruct (Nat.eqb_spec p phase) as [->|Np].
        + split; auto. intros _ i Li A. destruct (Z.eq_dec (phase_of (ph_sched r) i) 0) as [Z0|Z0]; [apply aphase_zero in Z0; lia|]. specialize (Old i Li Z0). lia.
        + apply (l_empty _ _ _ _ _ L p). lia.
      - intros p Hpp. rewrite flag_upd by lia. rewrite (proj2 (Nat.eqb_neq _ _)) by lia. apply (l_rest _ _ _ _ _ L). lia.
      - intros p Hpp. rewrite !flag_upd by lia. destruct (Nat.eqb_spec p phase) as [->|Np].
        + intros _. split; auto. rewrite (proj2 (Nat.eqb_neq (phase - 1) phase)) by lia. apply orb_true_iff in Em. destruct Em as [->|Em]; [right; apply (l_ch _ _ _ _ _ L); auto|left; now apply Nat.eqb_eq in Em].
        + intros F. destruct (l_why _ _ _ _ _ L p ltac:(lia) F) as [H1 H2]. rewrite (proj2 (Nat.eqb_neq (p - 1) phase)) by lia. split; auto. destruct H2 as [[_ H2]|H2]; [discriminate|]. right. destruct (Nat.eqb_spec (S p) phase) as [E'|Np']; auto. rewrite E', Fo in H2 by lia. discriminate.
      - lia.
      - intros H. specialize (B2 H). lia. }
    destruct (circ_phase true r1 (S phase) done L1 ltac:(lia) St) as [[E2 Fi]|(sched2 & c & E2 & Hc & Out)]; unfold r1 in E2; cbn [ph_sched ph_mg] in E2; rewrite E2; cbn [bind].
    + left. exists r1, (S phase), done. split; auto.
    + rewrite (proj2 (Nat.eqb_neq _ _)) by lia. cbn [negb]. destruct Out as [[Lt2 L2]|[Ge2 Ov]].
      * rewrite wr_Ok by (rewrite upd_length; lia). cbn [bind]. apply IH; [exact L2|lia].
      * unfold wr. rewrite upd_length, Lc1, (proj2 (Nat.ltb_ge _ _)) by lia. cbn [bind]. auto.
  - apply orb_false_iff in Em. destruct Em as [-> Np1]. apply Nat.eqb_neq in Np1. cbn [bind].
    destruct (circ_phase false r phase done L ltac:(lia) St) as [[E2 Fi]|(sched2 & c & E2 & Hc & Out)]; rewrite E2; cbn [bind].
    + left. exists r, phase, done. split; auto. destruct r; reflexivity.
    + rewrite (proj2 (Nat.eqb_neq _ _)) by lia. cbn [negb]. destruct Out as [[Lt2 L2]|[Ge2 Ov]].
      * rewrite wr_Ok by lia. cbn [bind]. apply IH; [exact L2|lia].
      * unfold wr. rewrite Lc1, (proj2 (Nat.ltb_ge _ _)) by lia. cbn [bind]. auto.
Qed.
End S.
(** ** Smaller tables *)
Definition trunc (T : nat) (r : phases) : phases := mkPhases (ph_sched r) (ph_mg r) (firstn T (ph_circular r)) (firstn T (ph_empty r)) (ph_max r).
Lemma firstn_upd {A} : forall (l : list A) p v T, p < T -> firstn T (upd l p v) = upd (firstn T l) p v.
Proof. induction l as [|x l IH]; intros [|p] v [|T] H; cbn [upd firstn]; auto; try lia. f_equal. apply IH. lia. Qed.
Lemma wr_trunc (l : list bool) p v T : T <= length l -> p < length l -> wr (firstn T l) p v = if p <? T then Ok (firstn T (upd l p v)) else UB.
Proof. intros HT Hp. unfold wr. rewrite firstn_length, (Nat.min_l T) by lia. destruct (Nat.ltb_spec p T); auto. f_equal. now rewrite firstn_upd. Qed.
Lemma bind_inv {A B} (r : res A) (f : A -> res B) b : bind r f = Ok b -> exists a, r = Ok a /\ f a = Ok b.
Proof. apply bind_Ok. Qed.
Lemma wr_inv {A} (l l' : list A) p v : wr l p v = Ok l' -> p < length l /\ l' = upd l p v.
Proof. unfold wr. destruct (Nat.ltb_spec p (length l)); [|discriminate]. intros E. injection E as <-. auto. Qed.
Lemma loop_max : forall fuel dirs base size comps flags r phase done ch R p d c, phase_loop fuel dirs base size comps flags r phase done ch = Ok (R, p, d, c) -> ph_max r = phase - 1 -> 1 <= phase -> phase - 1 <= ph_max R.
Proof.
  induction fuel as [|f IH]; intros dirs base size comps flags r phase done ch R p d c E Hm Hp; [discriminate|]. cbn [phase_loop] in E. apply bind_Ok in E. destruct E as ([[sched mg] cn] & _ & E). destruct (negb (cn =? 0)).
  - apply bind_Ok in E. destruct E as (ci & _ & E). apply IH in E; cbn [ph_max]; lia.
  - apply bind_Ok in E. destruct E as ([[[[ci em] mx] ph] ch'] & E1 & E). apply bind_Ok in E. destruct E as ([s2 cc] & _ & E).
    assert (H : mx = ph - 1 /\ phase <= ph). { destruct (ch || (phase =? 1)); [|injection E1 as <- <- <- <- <-; split; auto]. apply bind_Ok in E1. destruct E1 as (ci' & _ & E1). apply bind_Ok in E1. destruct E1 as (em' & _ & E1). injection E1 as <- <- <- <- <-. lia. }
    destruct (negb (cc =? 0)); [|injection E as <- <- <- <-; cbn [ph_max]; lia]. apply bind_Ok in E. destruct E as (ci2 & _ & E). apply IH in E; cbn [ph_max]; lia.
Qed.
Lemma loop_trunc T : forall fuel dirs base size comps flags r phase done ch R p d c, T <= length (ph_circular r) -> T <= length (ph_empty r) -> 1 <= phase -> ph_max r = phase - 1 -> phase - 1 < T ->
  phase_loop fuel dirs base size comps flags r phase done ch = Ok (R, p, d, c) ->
  phase_loop fuel dirs base size comps flags (trunc T r) phase done ch = if ph_max R <? T then Ok (trunc T R, p, d, c) else UB.
Proof.
  induction fuel as [|f IH]; intros dirs base size comps flags r phase done ch R p d c L1 L2 Hp Hm HT E; [discriminate|]. cbn [phase_loop] in *. cbn [trunc ph_sched ph_mg ph_circular ph_empty ph_max] in *. apply bind_Ok in E. destruct E as ([[sched mg] cn] & E0 & E). rewrite E0. cbn [bind]. destruct (negb (cn =? 0)).
  - apply bind_Ok in E. destruct E as (ci & Ew & E). apply wr_inv in Ew. destruct Ew as [Lp ->]. rewrite wr_trunc by auto. pose proof (loop_max _ _ _ _ _ _ _ _ _ _ _ _ _ _ E ltac:(cbn [ph_max]; lia) ltac:(lia)) as Mx. destruct (Nat.ltb_spec phase T); cbn [bind].
    + apply IH in E; cbn [ph_circular ph_empty ph_max]; try rewrite upd_length; auto; try lia.
    + rewrite (proj2 (Nat.ltb_ge _ _)) by lia. reflexivity.
  - apply bind_Ok in E. destruct E as ([[[[ci em] mx] ph] ch'] & E1 & E). apply bind_Ok in E. destruct E as ([s2 cc] & E2 & E).
    assert (Step : forall ci em, T <= length ci -> T <= length em -> mx = ph - 1 -> 1 <= ph -> ph - 1 < T ->
      (if negb (cc =? 0) then circ <- wr ci ph true ;; phase_loop f dirs base size comps flags (mkPhases s2 mg circ em ph) (S ph) (done + cc) true else Ok (mkPhases s2 mg ci em mx, ph, done, false)) = Ok (R, p, d, c) ->
      (if negb (cc =? 0) then circ <- wr (firstn T ci) ph true ;; phase_loop f dirs base size comps flags (mkPhases s2 mg circ (firstn T em) ph) (S ph) (done + cc) true else Ok (mkPhases s2 mg (firstn T ci) (firstn T em) mx, ph, done, false)) = if ph_max R <? T then Ok (trunc T R, p, d, c) else UB).
    { clear E E1 ci em. intros ci em K1 K2 K3 K4 K5 E. destruct (negb (cc =? 0)).
      - apply bind_Ok in E. destruct E as (ci' & Ew & E). apply wr_inv in Ew. destruct Ew as [Lp ->]. rewrite wr_trunc by auto. pose proof (loop_max _ _ _ _ _ _ _ _ _ _ _ _ _ _ E ltac:(cbn [ph_max]; lia) ltac:(lia)) as Mx. destruct (Nat.ltb_spec ph T); cbn [bind].
        + apply IH in E; cbn [ph_circular ph_empty ph_max]; try rewrite upd_length; auto; try lia.
        + rewrite (proj2 (Nat.ltb_ge _ _)) by lia. reflexivity.
      - injection E as <- <- <- <-. cbn [ph_max]. rewrite (proj2 (Nat.ltb_lt _ _)) by lia. reflexivity. }
    destruct (ch || (phase =? 1)).
    + apply bind_Ok in E1. destruct E1 as (ci' & Ew & E1). apply wr_inv in Ew. destruct Ew as [Lp ->]. apply bind_Ok in E1. destruct E1 as (em' & Ew & E1). apply wr_inv in Ew. destruct Ew as [Lp' ->]. injection E1 as <- <- <- <- <-. rewrite wr_trunc by auto. destruct (Nat.ltb_spec phase T).
      * cbn [bind]. rewrite wr_trunc by auto. rewrite (proj2 (Nat.ltb_lt _ _)) by lia. cbn [bind]. rewrite E2. cbn [bind]. apply Step; try rewrite upd_length; auto; lia.
      * cbn [bind]. enough (Hx : phase <= ph_max R) by (rewrite (proj2 (Nat.ltb_ge _ _)) by lia; reflexivity). destruct (negb (cc =? 0)); [|injection E as <- <- <- <-; cbn [ph_max]; lia]. apply bind_Ok in E. destruct E as (ci2 & _ & E). apply loop_max in E; cbn [ph_max]; lia.
    + injection E1 as <- <- <- <- <-. cbn [bind]. rewrite E2. cbn [bind]. apply Step; auto; lia.
Qed.

Lemma loop_ch : forall fuel dirs base size comps flags r phase done ch R p d c, phase_loop fuel dirs base size comps flags r phase done ch = Ok (R, p, d, c) -> c = false.
Proof.
  induction fuel as [|f IH]; intros dirs base size comps flags r phase done ch R p d c E; [discriminate|]. cbn [phase_loop] in E. apply bind_Ok in E. destruct E as ([[sched mg] cn] & _ & E). destruct (negb (cn =? 0)).
  - apply bind_Ok in E. destruct E as (ci & _ & E). eapply IH; exact E.
  - apply bind_Ok in E. destruct E as ([[[[ci em] mx] ph] ch'] & _ & E). apply bind_Ok in E. destruct E as ([s2 cc] & _ & E). destruct (negb (cc =? 0)); [|congruence]. apply bind_Ok in E. destruct E as (ci2 & _ & E). eapply IH; exact E.
Qed.
(** ** C58 *)
Definition run_ok (st : PrimeModel.primes) (dirs : list direction) (base size : Z) (mg : list N) : Prop :=
  PropsUtil.reachable_sieve st /\ fits (length dirs) base size /\ length mg = length dirs * length dirs.
Definition right_result (dirs : list direction) (mg : list N) (r : phases) : Prop :=
  let n := length dirs in
  right_phases dirs mg (ph_sched r) (ph_circular r) (ph_empty r) (ph_max r) /\ length (ph_mg r) = n * n /\
  forall j i, j < n -> i < n -> (circular n mg i -> get (ph_mg r) n j i = get mg n j i) /\
    (~ circular n mg i -> get (ph_mg r) n j i = if visit_of (ph_sched r) j <? visit_of (ph_sched r) i then indirect_control_dependency else get mg n j i).
Lemma run_cases T fuel st dirs base size mg : run_ok st dirs base size mg -> length dirs < fuel ->
  (phaseable dirs mg /\ exists st' r, schedule_phases_with T fuel st dirs base size mg = Ok (st', r) /\ right_result dirs mg r) \/
  (~ phaseable dirs mg /\ schedule_phases_with T fuel st dirs base size mg = Exit) \/
  (schedule_phases_with T fuel st dirs base size mg = UB /\ T <= 2 * length dirs + 1 /\ (T <= length dirs \/ exists i, i < length dirs /\ circular (length dirs) mg i)).
Proof.
  intros (Hst & Hf & Lm) Hfu. set (n := length dirs) in *. destruct (C49_phylum_components st base size n mg Hst Hf Lm) as (st' & comps & flags & E & R & Lf & F & _). unfold schedule_phases_with. fold n. rewrite E. cbn [bind].
  assert (Z0 : forall i, phase_of (repeat 0%Z n) i = 0%Z). { intros i. unfold phase_of. destruct (Nat.lt_ge_cases i n); [apply nth_repeat|apply nth_overflow; now rewrite repeat_length]. }
  assert (F0 : forall p, flag (repeat false T) p = false). { intros p. unfold flag. destruct (Nat.lt_ge_cases p T); [apply nth_repeat|apply nth_overflow; now rewrite repeat_length]. }
  assert (C0 : cnt dirs (repeat 0%Z n) = 0). { unfold cnt. fold n. induction (seq 0 n) as [|a l IH]; cbn [filter]; auto. now rewrite Z0. }
  destruct (loop_ok dirs mg base size comps flags T Hf R Lf F Lm fuel (mkPhases (repeat 0%Z n) mg (repeat false T) (repeat false T) 0) 1 0 false) as [(r & ph & d & El & Fi)|[El Ov]]; fold n; [| | |].
  - constructor; cbn [ph_sched ph_mg ph_circular ph_empty ph_max]; fold n; auto; try (intros; rewrite ?Z0, ?F0 in *; congruence); try lia.
    + constructor; fold n; auto using repeat_length; try (intros; rewrite Z0 in *; congruence).
      * intros j i Lj Li. now rewrite !Z0.
      * intros i j _ _ _ _. unfold aphase. now rewrite !Z0.
      * intros i _ _. unfold aphase. rewrite Z0. cbn. lia.
    + now rewrite repeat_length.
    + rewrite F0. split; congruence.
  - lia.
  - rewrite El. cbn [bind]. rewrite andb_false_r. cbn [bind]. destruct Fi as (Ld & F1 & F2). fold n in Ld, F1, F2. destruct (Nat.ltb_spec d n) as [Lt|Ge].
    + right. left. auto.
    + left. destruct (F1 ltac:(lia)) as (Ph & Rp & Lp & G). split; auto. exists st', r. split; auto. split; auto.
  - rewrite El. cbn [bind]. right. right. auto.
Qed.
(** The phase computation for a phylum either succeeds, exactly if every local instance
    and every one on a cycle is circular, with phases that respect the dependencies and
    the alternation of circular and other phases; or it stops with an error; or it writes
    outside its tables, which happens only if there are circular instances.  It never
    loops.  (The tables are too small: see below.) *)
Theorem C58_phases_partial : forall fuel st dirs base size mg, run_ok st dirs base size mg -> length dirs < fuel ->
  (phaseable dirs mg /\ exists st' r, schedule_summary_dependency_graph fuel st dirs base size mg = Ok (st', r) /\ right_result dirs mg r) \/
  (~ phaseable dirs mg /\ schedule_summary_dependency_graph fuel st dirs base size mg = Exit) \/
  (schedule_summary_dependency_graph fuel st dirs base size mg = UB /\ exists i, i < length dirs /\ circular (length dirs) mg i).
Proof.
  intros fuel st dirs base size mg Hr Hf. destruct (run_cases (length dirs + 1) fuel st dirs base size mg Hr Hf) as [H|[H|(H1 & H2 & [H3|H3])]]; auto. lia.
Qed.
(** With 2n+2 instead of n+1 entries for the n instances of the phylum, the tables are
    always large enough. *)
Theorem C58_phases_with_enough_tables : forall T fuel st dirs base size mg, run_ok st dirs base size mg -> length dirs < fuel -> 2 * length dirs + 2 <= T ->
  (phaseable dirs mg /\ exists st' r, schedule_phases_with T fuel st dirs base size mg = Ok (st', r) /\ right_result dirs mg r) \/
  (~ phaseable dirs mg /\ schedule_phases_with T fuel st dirs base size mg = Exit).
Proof.
  intros T fuel st dirs base size mg Hr Hf HT. destruct (run_cases T fuel st dirs base size mg Hr Hf) as [H|[H|(H1 & H2 & _)]]; auto. lia.
Qed.
(** The tables overflow exactly if more than n phases are needed. *)
Theorem C58_overflow : forall fuel st dirs base size mg st' r, run_ok st dirs base size mg -> schedule_phases_with (2 * length dirs + 2) fuel st dirs base size mg = Ok (st', r) ->
  schedule_summary_dependency_graph fuel st dirs base size mg = if ph_max r <=? length dirs then Ok (st', trunc (length dirs + 1) r) else UB.
Proof.
  intros fuel st dirs base size mg st' r Hr E. unfold schedule_summary_dependency_graph, schedule_phases_with in *. set (n := length dirs) in *. apply bind_Ok in E. destruct E as ([[st1 comps] flags] & E1 & E). rewrite E1. cbn [bind]. apply bind_Ok in E. destruct E as ([[[R p] d] c] & E2 & E).
  assert (Ef : forall a b, a <= b -> firstn a (repeat false b) = repeat false a) by (induction a as [|a IH]; intros [|b] H; cbn [repeat firstn]; auto; try lia; f_equal; apply IH; lia).
  assert (Hc : c = false) by (eapply loop_ch; exact E2).
  subst c. rewrite andb_false_r in E. cbn [bind] in E. apply (loop_trunc (n + 1)) in E2; cbn [ph_circular ph_empty ph_max]; rewrite ?repeat_length; try lia. unfold trunc in E2 at 1. cbn [ph_sched ph_mg ph_circular ph_empty ph_max] in E2. rewrite Ef in E2 by lia. rewrite E2. destruct (d <? n) eqn:Ed; [discriminate|]. injection E as <- <-.
  replace (ph_max R <=? n) with (ph_max R <? n + 1) by (apply eq_true_iff_eq; rewrite Nat.ltb_lt, Nat.leb_le; lia). destruct (ph_max R <? n + 1); cbn [bind]; auto. rewrite andb_false_r. cbn [bind]. now rewrite Ed.
Qed.
(** Two attributes, one inherited and one synthesized, that depend on each other and
    nothing else: three phases are needed (empty, circular, empty) but the tables, indexed
    from 0, have three entries only. *)
Theorem C58_refuted : exists dirs mg, run_ok PrimeModel.primes_init dirs 4096 64 mg /\ phaseable dirs mg /\ forall fuel, length dirs < fuel -> schedule_summary_dependency_graph fuel PrimeModel.primes_init dirs 4096 64 mg = UB.
Proof.
  exists [instance_inward; instance_outward], [31; 31; 31; 31]%N. set (dirs := [instance_inward; instance_outward]). set (mg := [31; 31; 31; 31]%N).
  assert (Hr : run_ok PrimeModel.primes_init dirs 4096 64 mg) by (split; [apply PropsUtil.C02_example|split; [unfold fits; cbn; lia|reflexivity]]).
  split; [exact Hr|]. assert (Ph : phaseable dirs mg). { intros i Li _. exists i. split; [apply mutual_refl|]. unfold needs. ands; auto. cbn in Li. destruct i as [|[|]]; [discriminate|discriminate|lia]. }
  assert (C0 : circular (length dirs) mg 0) by (apply Ph; [cbn; lia|right; apply t_step; unfold needs; ands; [cbn; lia|cbn; lia|discriminate]]).
  split; [exact Ph|]. intros fuel Hf. destruct (C58_phases_with_enough_tables (2 * length dirs + 2) fuel _ _ _ _ _ Hr Hf ltac:(lia)) as [(_ & st' & r & E & Rr)|[N _]]; [|contradiction].
  rewrite (C58_overflow _ _ _ _ _ _ _ _ Hr E). rewrite (proj2 (Nat.leb_gt _ _)); [reflexivity|]. change (length dirs) with 2. clear E. destruct Rr as (Rp & _). pose proof (rp_range _ _ _ _ _ _ Rp 0 ltac:(cbn; lia)) as Rg. pose proof (rp_circ _ _ _ _ _ _ Rp 0 ltac:(cbn; lia)) as [_ Ci]. specialize (Ci C0).
  pose proof (rp_first _ _ _ _ _ _ Rp) as Fi. pose proof (rp_last _ _ _ _ _ _ Rp) as La. destruct (aphase (ph_sched r) 0) as [|[|k]]; [lia|congruence|]. destruct (Nat.eq_dec (ph_max r) (S (S k))) as [Em|Nm]; [rewrite Em in La; congruence|lia].
Qed.
(** The hypotheses are met: four attributes of which the first two are circular; the
    fourth needs those, the third the fourth. *)
Definition exp_dirs := [instance_inward; instance_outward; instance_inward; instance_outward].
Definition exp_mg := [31; 31; 31; 31; 31; 31; 31; 31; 0; 0; 0; 0; 0; 0; 31; 0]%N.
Example C58_example : exists st, schedule_summary_dependency_graph 5 PrimeModel.primes_init exp_dirs 4096 64 exp_mg =
  Ok (st, mkPhases [-2; 2; -4; 3]%Z [31; 31; 3; 3; 31; 31; 3; 3; 0; 0; 0; 0; 0; 0; 3; 0]%N [false; false; true; false; false] [false; true; false; false; false] 4).
Proof. eexists. vm_compute. reflexivity. Qed.
Example C58_example_ok : run_ok PrimeModel.primes_init exp_dirs 4096 64 exp_mg.
Proof. split; [apply PropsUtil.C02_example|split; [unfold fits; cbn; lia|reflexivity]]. Qed.
(** An unclosed cycle is an error. *)
Example C58_example_cycle : schedule_summary_dependency_graph 5 PrimeModel.primes_init [instance_inward; instance_outward] 4096 64 [0; 31; 31; 0]%N = Exit.
Proof. vm_compute. reflexivity. Qed.
Print Assumptions C58_phases_partial.
Print Assumptions C58_phases_with_enough_tables.
Print Assumptions C58_overflow.
Print Assumptions C58_refuted.
