(** * PropsOagRun: C152 (scheduling the phyla and closing again) and C153 (the
    orders of the production graphs follow the phases). *)
From Verif Require Import Base CondModel EdgeModel DncModel PropsCond EdgeProofs EdgeAddProofs EdgeGraph EdgeSem EdgeWorld PropsEdge SummaryProofs CloseProofs PropsClose DncProofs PropsDnc PropsTree CycleModel UnionFind CycleSpec CycleProofs PropsCycle OagModel PropsOag PropsCto OaModel OaProofs.
From Coq Require Import Relations.
Open Scope nat_scope.

(** ** Specification *)
(** [dirs]: for every phylum the directions of its instances, none of them local *)
Definition directed (dirs : list (list direction)) (ps : list phy) : Prop := length dirs = length ps /\
  forall y d p, nth_error dirs y = Some d -> nth_error ps y = Some p -> length d = p_n p /\ ~ In instance_local d.
(** a schedule with inherited and synthesized instances where they belong, and no
    phase left out *)
Definition fits (d : list direction) (sched : list Z) : Prop := length sched = length d /\
  (forall i di, nth_error d i = Some di -> (di = instance_inward /\ (phase_of sched i < 0)%Z) \/ (di = instance_outward /\ (0 < phase_of sched i)%Z)) /\
  (forall i q, i < length d -> (1 <= q <= Z.abs (phase_of sched i))%Z -> exists j, j < length d /\ Z.abs (phase_of sched j) = q).
(** what is visited later needs what is visited earlier *)
Definition forced (p : phy) (sched : list Z) : Prop := forall j i, j < p_n p -> i < p_n p -> visit_of sched j < visit_of sched i -> needs (p_n p) (mingraph p) j i.
(** nothing needs what is visited later *)
Definition respected (p : phy) (sched : list Z) : Prop := forall j i, needs (p_n p) (mingraph p) j i -> visit_of sched j <= visit_of sched i.
(** no dependency is lost, if perhaps its kind changes in a summary graph *)
Definition kept (s s' : state) : Prop :=
  length (st_augs s') = length (st_augs s) /\ length (st_phys s') = length (st_phys s) /\
  (forall x g, nth_error (st_augs s) x = Some g -> exists g', nth_error (st_augs s') x = Some g' /\ n_inst g' = n_inst g /\
     forall o, contains (n_inst g) (kind_of_pair (graphs_of s) x o) (kind_of_pair (graphs_of s') x o)) /\
  (forall y p, nth_error (st_phys s) y = Some p -> exists p', nth_error (st_phys s') y = Some p' /\ p_labels p' = p_labels p /\ is_func p' = is_func p /\
     forall j i, needs (p_n p) (mingraph p) j i -> needs (p_n p) (mingraph p') j i).
(** A node's part of a production graph and the summary graph of its phylum have
    the same dependencies: upwards with their kinds, except at functions; downwards
    under every outcome. *)
Definition same_needs (rules : list rule) (s : state) : Prop :=
  forall x r start y p i j o, nth_error rules x = Some r -> In (start, Some y) (r_blocks r) -> nth_error (st_phys s) y = Some p -> i < p_n p -> j < p_n p ->
    (is_func p = false -> at_most (dependency_indirect (kind_of_pair (graphs_of s) x o (start + i) (start + j))) (get (mingraph p) (p_n p) i j) = true) /\
    (needs (p_n p) (mingraph p) i j -> needs_under s x o (start + i) (start + j)).
Definition acyclic (s : state) : Prop := analysis_state_cycle s = Ok no_dependency.
(** the instances of every production graph *)
Definition instances_given (s : state) (insts : list (list oinst)) : Prop := forall x g, nth_error (st_augs s) x = Some g -> exists ins, nth_error insts x = Some ins /\ length ins = n_inst g.

(** ** Proofs *)
Record pnz (ps ps' : list phy) : Prop := {
  nz_len : length ps' = length ps;
  nz_get : forall y p, nth_error ps y = Some p -> exists p', nth_error ps' y = Some p' /\ p_labels p' = p_labels p /\ is_func p' = is_func p /\
     forall j i, needs (p_n p) (mingraph p) j i -> needs (p_n p) (mingraph p') j i }.
Lemma labels_n p p' : p_labels p' = p_labels p -> p_n p' = p_n p.
Proof. intros E. unfold p_n. now rewrite E. Qed.
Lemma pnz_trans a b c : pnz a b -> pnz b c -> pnz a c.
Proof.
  intros [L1 H1] [L2 H2]. split; [congruence|]. intros y p Ep. destruct (H1 y p Ep) as (p1 & E1 & A1 & B1 & C1). destruct (H2 y p1 E1) as (p2 & E2 & A2 & B2 & C2). rewrite (labels_n _ _ A1) in C2.
  exists p2. ands; auto; congruence.
Qed.
Lemma pnz_refl ps : pnz ps ps.
Proof. split; auto. intros y p Ep. exists p. auto. Qed.
Lemma at_most_nz a b : a <> no_dependency -> at_most a b = true -> b <> no_dependency.
Proof. intros Ha L ->. apply Ha. now apply at_most_zero. Qed.
Lemma psle_nz ps ps' : psle ps ps' -> pnz ps ps'.
Proof.
  intros L. split; [apply L|]. intros y p Ep. destruct (psle_get _ _ _ _ L Ep) as (p' & Ep' & Pl). exists p'. ands; auto; try apply Pl. intros j i (Hj & Hi & Hk). unfold needs. ands; auto. eapply at_most_nz; [exact Hk|]. apply mle_get, Pl.
Qed.
Lemma pnz_upd ps y p mg : nth_error ps y = Some p -> (forall j i, needs (p_n p) (mingraph p) j i -> needs (p_n p) mg j i) -> pnz ps (upd ps y (mkPhy (p_labels p) mg (is_func p))).
Proof.
  intros Ep H. split; [apply upd_length|]. intros z q Eq. destruct (Nat.eq_dec y z) as [->|Ne].
  - assert (q = p) by congruence. subst q. eexists. split; [apply nth_error_upd_eq; apply nth_error_Some; congruence|]. cbn [p_labels is_func mingraph]. auto.
  - exists q. rewrite nth_error_upd_neq by auto. auto.
Qed.
Lemma forced_nz p p' sched : p_labels p' = p_labels p -> (forall j i, needs (p_n p) (mingraph p) j i -> needs (p_n p) (mingraph p') j i) -> forced p sched -> forced p' sched.
Proof. intros E H F j i Hj Hi V. rewrite (labels_n _ _ E) in *. apply H. apply F; auto. Qed.
Lemma edges0 B rules s As : dinv0 B rules s As -> edges_ok s.
Proof.
  intros D x i j (g & Hg & Hi & Hj). destruct (d0_world _ _ _ _ D) as (fl & W). cbn [graphs_of w_graphs] in Hg. destruct (world_focus _ _ _ _ _ _ W Hg) as (A & EA & Gi).
  pose proof (gp_n _ _ _ (gi_part _ _ _ _ _ Gi)) as En. pose proof (gp_clen _ _ _ (gi_part _ _ _ _ _ Gi)) as Lc. rewrite En in Hi, Hj.
  destruct (read_cell _ _ _ _ _ i j Gi Hi Hj) as (p & E1 & E2). exists (pairs (cell A i j)). split.
  - unfold pairs_at. rewrite (proj2 (rd_Ok _ _ _) Hg). cbn [bind]. rewrite E1. cbn [bind]. exact E2.
  - intros c k Hin. unfold pairs in Hin. apply in_map_iff in Hin. destruct Hin as ([[a c0] k0] & E & Hin). cbn [cond_of kind_of fst snd] in E. injection E as -> ->.
    destruct (gp_good _ _ _ (gi_part _ _ _ _ _ Gi) _ (cell_in A i j Lc Hi Hj) a c k Hin) as [X1 X2]. destruct (cell_bound B A i j (d0_bound _ _ _ _ D A (nth_error_In _ _ EA)) Lc Hi Hj a c k Hin) as [Y1 Y2]. ands; auto.
    now apply sat_consistent.
Qed.
Definition good (B : N) (rules : list rule) (s : state) (As : list agraph) : Prop := dinv B rules s As /\ settled0 rules s As.
Lemma get_ok p i j : pmat p -> i < p_n p -> j < p_n p -> kind_ok (get (mingraph p) (p_n p) i j).
Proof. intros [L K] Hi Hj. apply K. unfold get. apply nth_In. rewrite L. nia. Qed.
Lemma self_zero B rules s As p i : dinv B rules s As -> acyclic s -> In p (st_phys s) -> i < p_n p -> get (mingraph p) (p_n p) i i = no_dependency.
Proof.
  intros D Ac Hp Hi. destruct (cycle_ok _ _ _ _ D) as (k & E & Hb). assert (k = no_dependency) by (unfold acyclic in Ac; congruence). subst k.
  apply N.bits_inj_0. intros b. destruct (N.testbit (get (mingraph p) (p_n p) i i) b) eqn:T; auto. assert (X : self_bit s b) by (left; eauto). apply Hb in X. unfold no_dependency in X. rewrite N.bits_0 in X. discriminate.
Qed.
Lemma needs_trans p j k i : pmat p -> trans_closed (p_n p) (get (mingraph p) (p_n p)) -> needs (p_n p) (mingraph p) j k -> needs (p_n p) (mingraph p) k i -> needs (p_n p) (mingraph p) j i.
Proof.
  intros M T (Hj & Hk & N1) (_ & Hi & N2). unfold needs. ands; auto. eapply trans_nz; [| |exact N1|exact N2|apply T; auto]; apply get_ok; auto.
Qed.
Lemma needs_clos p j i : pmat p -> trans_closed (p_n p) (get (mingraph p) (p_n p)) -> clos_trans nat (needs (p_n p) (mingraph p)) j i -> needs (p_n p) (mingraph p) j i.
Proof. intros M T C. induction C as [j i H|j k i _ H1 _ H2]; auto. eapply needs_trans; eauto. Qed.
Lemma acyclic_schedulable B rules s As p d : good B rules s As -> acyclic s -> In p (st_phys s) -> length d = p_n p -> ~ In instance_local d -> schedulable d (mingraph p).
Proof.
  intros [D (_ & Sc & _)] Ac Hp Ld Nl. split; auto. intros i C. rewrite Ld in C. apply needs_clos in C; [|now apply (di_mats _ _ _ _ D)|now apply Sc]. destruct C as (Hi & _ & Hk). apply Hk. eapply self_zero; eauto.
Qed.
Lemma mat_in n mg x : length mg = n * n -> In x mg -> exists j i, j < n /\ i < n /\ x = get mg n j i.
Proof.
  intros L Hx. apply In_nth with (d := no_dependency) in Hx. destruct Hx as (k & Hk & <-). destruct n as [|n]; [lia|]. exists (k / S n), (k mod S n).
  pose proof (Nat.mod_upper_bound k (S n) ltac:(lia)). assert (k / S n < S n) by (apply Nat.div_lt_upper_bound; lia). ands; auto. unfold get. f_equal. rewrite Nat.mul_comm. apply Nat.div_mod. lia.
Qed.
Lemma phases_mono d : forall f f' ph sc mg dn v, f <= f' -> schedule_phases f d ph sc mg dn = Ok v -> schedule_phases f' d ph sc mg dn = Ok v.
Proof.
  induction f as [|f IH]; intros f' ph sc mg dn v Hf E; destruct f' as [|f']; try lia; cbn [schedule_phases] in *; destruct (dn <? length d); try discriminate; auto.
  match type of E with bind ?a _ = _ => destruct a as [st| | |]; cbn [bind] in *; try discriminate end.
  match type of E with bind ?a _ = _ => destruct a as [[[[sc2 mg2] dn2] ld2]| | |]; cbn [bind] in *; try discriminate end.
  destruct (ld2 =? 0); [discriminate|]. apply IH; auto. lia.
Qed.
(** one phylum *)
Lemma oag_phylum_ok B rules dirs s As y p d : good B rules s As -> nth_error (st_phys s) y = Some p -> nth_error dirs y = Some d -> length d = p_n p -> schedulable d (mingraph p) ->
  exists bd s' As' sched p', (forall fuel, bd <= fuel -> oag_phylum fuel rules dirs s y = Ok (s', sched)) /\ good B rules s' As' /\ pnz (st_phys s) (st_phys s') /\ grow B As As' /\
    fits d sched /\ nth_error (st_phys s') y = Some p' /\ forced p' sched.
Proof.
  intros [D Se] Ep Ed Ld Sd. pose proof (di_mats _ _ _ _ D p (nth_error_In _ _ Ep)) as Mp. pose proof Mp as [Lm Km].
  assert (Ex : exists sched mg', (forall fuel, S (length d) <= fuel -> schedule_summary fuel d (mingraph p) = Ok (sched, mg')) /\ right_schedule d (mingraph p) sched /\ length mg' = length (mingraph p) /\
     forall j i, j < length d -> i < length d -> get mg' (length d) j i = if visit_of sched j <? visit_of sched i then indirect_control_dependency else get (mingraph p) (length d) j i).
  { assert (Lm' : length (mingraph p) = length d * length d) by congruence.
    destruct (C46_summary_schedule d (mingraph p) (S (length d)) Lm' ltac:(lia)) as [(_ & sched & mg' & E & R & L & G)|[N _]]; [|contradiction]. exists sched, mg'. ands; auto.
    intros fuel Hf. destruct (C46_summary_schedule d (mingraph p) fuel Lm' ltac:(lia)) as [(_ & sched2 & mg2 & E2 & R2 & L2 & G2)|[N _]]; [|contradiction].
    unfold schedule_summary in *. exact (phases_mono _ _ _ _ _ _ _ _ Hf E). }
  destruct Ex as (sched & mg' & Es & (R1 & R2 & R3 & R4) & Lg & G). rewrite Ld in G.
  assert (Up : forall j i, needs (p_n p) (mingraph p) j i -> needs (p_n p) mg' j i).
  { intros j i (Hj & Hi & Hk). unfold needs. ands; auto. rewrite G by auto. destruct (visit_of sched j <? visit_of sched i); [discriminate|auto]. }
  assert (Mx : matrix (p_n p) mg').
  { split; [congruence|]. intros x Hx. destruct (mat_in (p_n p) mg' x) as (j & i & Hj & Hi & ->); [congruence|auto|]. rewrite G by auto. destruct (visit_of sched j <? visit_of sched i); [unfold kind_ok, indirect_control_dependency; lia|now apply get_ok]. }
  assert (Ly : y < length (st_phys s)) by (apply nth_error_Some; congruence).
  set (p1 := mkPhy (p_labels p) mg' (is_func p)). set (s1 := mkState (st_mem s) (st_augs s) (upd (st_phys s) y p1)).
  destruct (force_weak B rules s As y p mg' D Se Ep Mx) as [D1 W1]. { intros i j Hi Hj Hk. destruct (Up i j) as (_ & _ & X); [unfold needs; auto|exact X]. }
  destruct (close_again B rules s1 As D1 W1) as (bd & s' & As' & E' & D' & Se' & L' & G').
  destruct (psle_get _ _ y p1 L') as (p' & Ep' & Pl). { cbn [st_phys s1]. now apply nth_error_upd_eq. }
  exists (Nat.max (S (length d)) bd), s', As', sched, p'. ands; auto.
  - intros fuel Hf. unfold oag_phylum. rewrite (proj2 (rd_Ok _ _ _) Ep). cbn [bind]. rewrite (proj2 (rd_Ok _ _ _) Ed). cbn [bind]. rewrite Es by lia. cbn [bind]. rewrite wr_Ok by auto. cbn [bind]. fold p1. fold s1. rewrite E' by lia. reflexivity.
  - split; auto.
  - eapply pnz_trans; [apply (pnz_upd (st_phys s) y p mg' Ep Up)|]. exact (psle_nz _ _ L').
  - unfold fits. ands; auto.
  - apply (forced_nz p1 p'); [apply Pl| |].
    + intros j i (Hj & Hi & Hk). unfold needs. ands; auto. eapply at_most_nz; [exact Hk|]. apply mle_get, Pl.
    + intros j i Hj Hi V. change (p_n p1) with (p_n p) in *. unfold needs. ands; auto. change (mingraph p1) with mg'. rewrite G by auto. rewrite (proj2 (Nat.ltb_lt _ _) V). discriminate.
Qed.
Definition scheduled (dirs : list (list direction)) (ps : list phy) (scheds : list (list Z)) : Prop :=
  forall y sched, nth_error scheds y = Some sched -> exists d p, nth_error dirs y = Some d /\ nth_error ps y = Some p /\ fits d sched /\ forced p sched.
Lemma scheduled_nz dirs ps ps' scheds : pnz ps ps' -> scheduled dirs ps scheds -> scheduled dirs ps' scheds.
Proof.
  intros L H y sched E. destruct (H y sched E) as (d & p & H1 & H2 & H3 & H4). destruct (nz_get _ _ L y p H2) as (p' & E' & A & _ & C). exists d, p'. ands; auto. eapply forced_nz; eauto.
Qed.
Lemma directed_nz dirs ps ps' : pnz ps ps' -> directed dirs ps -> directed dirs ps'.
Proof.
  intros L [H1 H2]. split; [rewrite (nz_len _ _ L); auto|]. intros y d p' Ed Ep'. assert (Ly : y < length ps) by (rewrite <- (nz_len _ _ L); apply nth_error_Some; congruence). destruct (nth_error ps y) as [p|] eqn:Ep; [|apply nth_error_None in Ep; lia].
  destruct (nz_get _ _ L y p Ep) as (p2 & E2 & A & _). assert (p2 = p') by congruence. subst. rewrite (labels_n _ _ A). eauto.
Qed.
Lemma oag_phyla_ok B rules dirs : forall m s As scheds, good B rules s As -> acyclic s -> directed dirs (st_phys s) -> length scheds + m = length (st_phys s) -> scheduled dirs (st_phys s) scheds ->
  exists bd s' As' scheds', (forall fuel, bd <= fuel -> oag_phyla fuel rules dirs (seq (length scheds) m) s scheds = Ok (s', scheds')) /\ good B rules s' As' /\ pnz (st_phys s) (st_phys s') /\ grow B As As' /\
    length scheds' <= length (st_phys s) /\ scheduled dirs (st_phys s') scheds' /\ (acyclic s' -> length scheds' = length (st_phys s)).
Proof.
  induction m as [|m IH]; intros s As scheds Gd Ac Di Ln Sc.
  - exists 0, s, As, scheds. ands; auto using pnz_refl, grow_refl; try lia.
  - set (y := length scheds) in *. assert (Ly : y < length (st_phys s)) by lia.
    destruct (nth_error (st_phys s) y) as [p|] eqn:Ep; [|apply nth_error_None in Ep; lia]. destruct (nth_error dirs y) as [d|] eqn:Ed; [|apply nth_error_None in Ed; destruct Di; lia].
    destruct (proj2 Di y d p Ed Ep) as [Ld Nl].
    destruct (oag_phylum_ok B rules dirs s As y p d Gd Ep Ed Ld) as (bd & s1 & As1 & sched & p1 & E1 & G1 & L1 & W1 & F1 & Ep1 & Fo1). { eapply acyclic_schedulable; eauto. eapply nth_error_In; eauto. }
    assert (Sc1 : scheduled dirs (st_phys s1) (scheds ++ [sched])).
    { intros z sc Ez. destruct (Nat.lt_trichotomy z y) as [Lt|[->|Gt]].
      - rewrite nth_error_app1 in Ez by auto. eapply scheduled_nz; eauto.
      - rewrite nth_error_app2 in Ez by (unfold y; lia). unfold y in Ez at 1. rewrite Nat.sub_diag in Ez. injection Ez as <-. exists d, p1. auto.
      - assert (z < length (scheds ++ [sched])) by (apply nth_error_Some; congruence). rewrite app_length in *. cbn [length] in *. unfold y in Gt. lia. }
    assert (L1' : length (scheds ++ [sched]) = S y) by (rewrite app_length; cbn; unfold y; lia). pose proof (nz_len _ _ L1) as Ln1.
    destruct (cycle_ok _ _ _ _ (proj1 G1)) as (k & Ek & _). destruct (N.eqb_spec k no_dependency) as [->|Nk].
    + destruct (IH s1 As1 (scheds ++ [sched]) G1) as (bd2 & s2 & As2 & scheds2 & E2 & G2 & L2 & W2 & Le & Sc2 & Al); auto; try lia. { eapply directed_nz; eauto. }
      exists (Nat.max bd bd2), s2, As2, scheds2. ands; auto; try lia.
      * intros fuel Hf. cbn [seq oag_phyla]. fold y. rewrite E1 by lia. cbn [bind]. rewrite Ek. cbn [bind]. rewrite N.eqb_refl. rewrite L1' in E2. apply E2. lia.
      * eapply pnz_trans; eauto.
      * eapply grow_trans; eauto.
      * intros A2. rewrite (Al A2). auto.
    + exists bd, s1, As1, (scheds ++ [sched]). ands; auto; try lia.
      * intros fuel Hf. cbn [seq oag_phyla]. fold y. rewrite E1 by lia. cbn [bind]. rewrite Ek. cbn [bind]. rewrite (proj2 (N.eqb_neq _ _) Nk). reflexivity.
      * intros A1. unfold acyclic in A1. congruence.
Qed.

(** *** in terms of the specification *)
Lemma kept_ok B rules s As s' As' : dinv0 B rules s As -> dinv0 B rules s' As' -> pnz (st_phys s) (st_phys s') -> grow B As As' -> kept s s'.
Proof.
  intros D D' L G. destruct (d0_world _ _ _ _ D) as (fl & W). destruct (d0_world _ _ _ _ D') as (fl' & W'). pose proof (wi_len _ _ _ _ W) as Ln. pose proof (wi_len _ _ _ _ W') as Ln'. pose proof (gr_len _ _ _ G) as Lg. unfold kept. ands.
  - congruence.
  - apply L.
  - intros x g Eg. destruct (world_focus _ _ _ _ _ _ W Eg) as (A & EA & Gi). assert (Lx : x < length As') by (rewrite Lg; apply nth_error_Some; congruence). destruct (nth_error As' x) as [A'|] eqn:EA'; [|apply nth_error_None in EA'; lia].
    destruct (an_graph (graphs_of s') As' fl' x A' W' EA') as (g' & Eg' & En' & _). destruct (gr_ent _ _ _ G x A A' EA EA') as [Ea Ent]. pose proof (gp_n _ _ _ (gi_part _ _ _ _ _ Gi)) as En.
    exists g'. ands; auto; try congruence. intros o i j Hi Hj. rewrite En in *. rewrite (kind_of_pair_A (graphs_of s) As fl x A o) by auto. rewrite (kind_of_pair_A (graphs_of s') As' fl' x A' o) by (auto; lia). apply ent_mono_kind. intros c k. apply Ent; auto.
  - intros y p Ep. apply L; auto.
Qed.
Lemma same_needs_ok B rules s As : good B rules s As -> same_needs rules s.
Proof.
  intros [D (Wl & _ & Pl)] x r start y p i j o Hr Hb Hp Hi Hj. destruct (di_world _ _ _ _ D) as (fl & W).
  assert (Lr : x < length As) by (rewrite <- (di_len _ _ _ _ D); apply nth_error_Some; congruence). destruct (nth_error As x) as [A|] eqn:EA; [|apply nth_error_None in EA; lia].
  destruct (di_blk _ _ _ _ D x r A Hr EA (start, Some y) Hb y eq_refl) as (p0 & Ep & Hn & _). assert (p0 = p) by congruence. subst p0. cbn [fst] in Hn.
  unfold needs_under. rewrite (kind_of_pair_A (graphs_of s) As fl x A o) by (auto; lia). split.
  - intros F. unfold kindA. apply at_most_incl. intros b Hb'. unfold tb, dependency_indirect in Hb'. rewrite N.ldiff_spec, andb_true_iff in Hb'. destruct Hb' as [Hb1 Hb2]. apply (seen_bit o) in Hb1. destruct Hb1 as (a & c & k & Hin & Mo & Hk).
    pose proof (di_push _ _ _ _ D x r A Hr EA start y p Hb Hp F i j a c k Hi Hj Hin) as Q. rewrite (Wl A (nth_error_In _ _ EA)) in Q. specialize (Q (fun z => z)). apply at_most_incl in Q. apply Q. unfold tb, dependency_indirect in *. now rewrite N.ldiff_spec, Hk, Hb2.
  - intros (_ & _ & Hk). split; [apply (in_graph_iff (graphs_of s) As fl x A); auto; lia|]. apply (Pl x r A Hr EA start y p Hb Hp i j Hi Hj Hk o).
Qed.
Lemma closed_ok B rules s As : good B rules s As -> well_formed rules s /\ graphs_closed s.
Proof.
  intros [D (Wl & Sc & _)]. destruct (di_world _ _ _ _ D) as (fl & W).
  assert (Hg : forall x A, nth_error As x = Some A -> exists g, nth_error (st_augs s) x = Some g /\ n_inst g = an A /\ length (acells A) = an A * an A).
  { intros x A HA'. destruct (an_graph (graphs_of s) As fl x A W HA') as (g & E1 & E2 & G). exists g. ands; auto. apply G. }
  assert (Hx : forall x g, nth_error (st_augs s) x = Some g -> exists A, nth_error As x = Some A). { intros x g Eg. destruct (world_focus _ _ _ _ _ _ W Eg) as (A & EA & _). eauto. }
  split.
  - split; [|split].
    + rewrite (di_len _ _ _ _ D). apply W.
    + intros p Hp. apply (di_mats _ _ _ _ D p Hp).
    + intros x r g start y Hr Eg Hb. destruct (Hx x g Eg) as (A & EA). destruct (Hg x A EA) as (g' & Eg' & En & _). assert (g' = g) by congruence. subst g'. rewrite En. apply (di_blk _ _ _ _ D x r A Hr EA (start, Some y) Hb y eq_refl).
  - split; auto. intros x g Eg. destruct (Hx x g Eg) as (A & EA). destruct (Hg x A EA) as (g' & Eg' & En & Lc). assert (g' = g) by congruence. subst g'. pose proof (nth_error_In _ _ EA) as InA. ands.
    + eapply (queue_awl (graphs_of s)); eauto. symmetry. auto.
    + eapply (small_kindsA (graphs_of s)); eauto. intros l a c k Hl Hi. eapply (di_bound _ _ _ _ D); eauto.
    + intros o i j k Hi Hj Hk. rewrite En in *. rewrite !(kind_of_pair_A (graphs_of s) As fl x A o) by auto. eapply composed_closed; eauto; [eapply di_bound; eauto|eapply di_comp; eauto].
Qed.
Lemma forced_respected B rules s As p sched : good B rules s As -> acyclic s -> In p (st_phys s) -> forced p sched -> respected p sched.
Proof.
  intros Gd Ac Hp Fo j i Nd. destruct (Nat.le_gt_cases (visit_of sched j) (visit_of sched i)) as [|V]; auto. exfalso. pose proof Nd as (Hj & Hi & _).
  assert (N2 : needs (p_n p) (mingraph p) i j) by (apply Fo; auto). destruct Gd as [D (Wl & Sc & Pl)].
  destruct (needs_trans p j i j) as (_ & _ & Hk); auto; [now apply (di_mats _ _ _ _ D)|]. apply Hk. eapply self_zero; eauto.
Qed.
Lemma start_good B rules s As : dinv B rules s As -> done_state rules s As -> good B rules s As.
Proof. intros D Ds. split; auto. now apply done_settled0. Qed.

(** ** C152 *)
(** After the DNC iteration, if the test finds no cycle: scheduling the phyla and
    closing again after each never fails and ends; nothing is lost, and what
    the graphs of all productions and phyla say is consistent again.  Every phylum
    reached has its inherited and synthesized instances in their phases, and in its
    summary graph what is visited later needs what is visited earlier.  If there is
    still no cycle then all phyla are scheduled and no dependency, not even one
    found later, goes against a schedule. *)
Theorem C152_phyla : forall rules dirs s0, well_formed rules s0 -> startable rules s0 -> directed dirs (st_phys s0) ->
  exists bound s, (forall fuel, bound <= fuel -> dnc_close fuel rules s0 = Ok s) /\
  (acyclic s -> exists s' scheds, (forall fuel, bound <= fuel -> oag_phyla fuel rules dirs (seq 0 (length (st_phys s))) s [] = Ok (s', scheds)) /\
    kept s s' /\ well_formed rules s' /\ graphs_closed s' /\ same_needs rules s' /\
    length scheds <= length (st_phys s') /\
    (forall y sched, nth_error scheds y = Some sched -> exists d p, nth_error dirs y = Some d /\ nth_error (st_phys s') y = Some p /\ fits d sched /\ forced p sched) /\
    (acyclic s' -> length scheds = length (st_phys s') /\ forall y sched p, nth_error scheds y = Some sched -> nth_error (st_phys s') y = Some p -> respected p sched)).
Proof.
  intros rules dirs s0 Wf St Di. destruct (start_dinv rules s0 Wf St) as (B & As0 & D0). destruct (dnc_close_any B rules s0 As0 D0) as (bd & s & As & E & D & L & G & F).
  pose proof (start_good _ _ _ _ D F) as Gd.
  destruct (cycle_ok _ _ _ _ D) as (k & Ek & _). destruct (N.eq_dec k no_dependency) as [->|Nk].
  - destruct (oag_phyla_ok B rules dirs (length (st_phys s)) s As [] Gd Ek) as (bd2 & s' & As' & scheds & E2 & G2 & L2 & W2 & Le & Sc & Al); auto.
    { eapply directed_nz; [apply psle_nz; eauto|auto]. } { intros [|y] sched Ey; discriminate. }
    exists (Nat.max bd bd2), s. split; [intros; apply E; lia|]. intros _. exists s', scheds. pose proof (nz_len _ _ L2) as Ll. ands; auto; try lia.
    + intros fuel Hf. apply E2. lia.
    + eapply kept_ok; [apply dinv_0, D|apply dinv_0, G2|auto|auto].
    + apply (closed_ok _ _ _ _ G2).
    + apply (closed_ok _ _ _ _ G2).
    + eapply same_needs_ok; eauto.
    + intros A'. split; [rewrite Ll; auto|]. intros y sched p Ey Ep. destruct (Sc y sched Ey) as (d & p2 & H1 & H2 & H3 & H4). assert (p2 = p) by congruence. subst. eapply forced_respected; eauto. eapply nth_error_In; eauto.
  - exists bd, s. split; auto. intros Ac. unfold acyclic in Ac. congruence.
Qed.

(** *** the orders of the productions *)
Definition ordered (insts : list (list oinst)) (s : state) (ts : list cto) : Prop :=
  forall x t, nth_error ts x = Some t -> exists ins, nth_error insts x = Some ins /\ has_instances s x ins /\ schedule_augmented s x ins = Ok t /\ branches_right ins t /\ forall o, right_order s x ins o (run ins o t).
(** only the edges between the instances matter *)
Section EXT.
Context (e1 e2 : nat -> nat -> res (list (condition * N))) (n : nat) (He : forall j i, j < n -> i < n -> e1 j i = e2 j i).
Lemma waits_ext sched cond i : i < n -> waits_for e1 n sched cond i = waits_for e2 n sched cond i.
Proof.
  intros Hi. unfold waits_for. assert (H : forall l, (forall j, In j l -> j < n) ->
    existsM (fun j => sj <- rd sched j ;; if sj : bool then Ok false else es <- e1 j i ;; Ok (existsb (fun e => negb (impossible (merge_cond cond (fst e)))) es)) l =
    existsM (fun j => sj <- rd sched j ;; if sj : bool then Ok false else es <- e2 j i ;; Ok (existsb (fun e => negb (impossible (merge_cond cond (fst e)))) es)) l).
  { induction l as [|j l IH]; intros Hl; cbn [existsM]; [reflexivity|]. rewrite (He j i) by (auto; apply Hl; now left). rewrite IH by (intros k Hk; apply Hl; now right). reflexivity. }
  apply H. intros j Hj. apply in_seq in Hj. lia.
Qed.
Lemma ready_ext sched cond : forall l, (forall j, In j l -> j < n) -> first_ready e1 n sched cond l = first_ready e2 n sched cond l.
Proof.
  induction l as [|i l IH]; intros Hl; cbn [first_ready]; [reflexivity|]. rewrite waits_ext by (apply Hl; now left). rewrite IH by (intros k Hk; apply Hl; now right). reflexivity.
Qed.
Lemma rest_ext insts : length insts = n -> forall rem sched cond, schedule_rest e1 insts rem sched cond = schedule_rest e2 insts rem sched cond.
Proof.
  intros Ln. induction rem as [|rem IH]; intros sched cond; cbn [schedule_rest]; [reflexivity|]. rewrite Ln. rewrite (ready_ext sched cond) by (intros j Hj; apply in_seq in Hj; lia).
  destruct (first_ready e2 n sched cond (seq 0 n)) as [[i|]| | |]; cbn [bind]; try reflexivity. destruct (rd insts i) as [inst| | |]; cbn [bind]; try reflexivity. destruct (wr sched i true) as [sc| | |]; cbn [bind]; try reflexivity.
  destruct (impossible (merge_cond cond (oi_cond inst))); [apply IH|]. destruct (oi_if inst); rewrite !IH; reflexivity.
Qed.
End EXT.
Lemma pairs_cell B rules s As x A i j : dinv0 B rules s As -> nth_error As x = Some A -> i < an A -> j < an A -> pairs_at s x i j = Ok (pairs (cell A i j)).
Proof.
  intros D EA Hi Hj. destruct (d0_world _ _ _ _ D) as (fl & W). destruct (an_graph (graphs_of s) As fl x A W EA) as (g & Eg & En & Gi). cbn [graphs_of w_graphs w_mem] in *.
  destruct (read_cell _ _ _ _ _ i j Gi Hi Hj) as (p & E1 & E2). unfold pairs_at. rewrite (proj2 (rd_Ok _ _ _) Eg). cbn [bind]. rewrite E1. exact E2.
Qed.
Lemma schedule_same B rules s As s' As' x A ins : dinv0 B rules s As -> dinv0 B rules s' As' -> nth_error As x = Some A -> nth_error As' x = Some A -> length ins = an A -> schedule_augmented s' x ins = schedule_augmented s x ins.
Proof.
  intros D D' E E' L. unfold schedule_augmented. apply (rest_ext (pairs_at s' x) (pairs_at s x) (an A)); auto. intros j i Hj Hi. rewrite (pairs_cell _ _ _ _ _ _ _ _ D E Hj Hi). apply (pairs_cell _ _ _ _ _ _ _ _ D' E' Hj Hi).
Qed.
Lemma right_order_same s s' x ins o R : (forall o' j i, needs_under s' x o' j i -> needs_under s x o' j i) -> right_order s x ins o R -> right_order s' x ins o R.
Proof. intros H (R1 & R2 & R3 & R4). unfold right_order. ands; auto. intros b i a Eq. destruct (R4 b i a Eq) as [X Y]. split; auto. intros j o' Ag Nd. eapply Y; eauto. Qed.
Lemma given_kept s s' insts : kept s s' -> instances_given s insts -> instances_given s' insts.
Proof.
  intros (L & _ & Kg & _) H x g' Eg'. assert (Lx : x < length (st_augs s)) by (rewrite <- L; apply nth_error_Some; congruence). destruct (nth_error (st_augs s) x) as [g|] eqn:Eg; [|apply nth_error_None in Eg; lia].
  destruct (Kg x g Eg) as (g2 & E2 & En & _). assert (g2 = g') by congruence. subst. destruct (H x g Eg) as (ins & E & Ln). exists ins. split; auto. congruence.
Qed.
Lemma composed_needs B rules s As x A : dinv0 B rules s As -> nth_error As x = Some A -> awl A = [] -> forall o j i, clos_trans nat (needs_under s x o) j i -> needs_under s x o j i.
Proof.
  intros D EA Wl o j i C. destruct (d0_world _ _ _ _ D) as (fl & W). destruct (an_graph (graphs_of s) As fl x A W EA) as (g & Eg & En & Gi). pose proof (gp_clen _ _ _ (gi_part _ _ _ _ _ Gi)) as Lc.
  pose proof (edges0 _ _ _ _ D) as Hok. pose proof (nth_error_In _ _ EA) as InA.
  induction C as [j i H|j k i _ [Hg1 H1] _ [Hg2 H2]]; auto. pose proof Hg1 as (g1 & E1 & L1 & L1'). pose proof Hg2 as (g2 & E2 & L2 & L2'). assert (g1 = g) by congruence. assert (g2 = g) by congruence. subst g1 g2. split; [exists g; auto|].
  assert (Ok : forall a b, in_graph (graphs_of s) x a b -> kind_ok (kind_of_pair (graphs_of s) x o a b)) by (intros a b Hab; rewrite kind_cellp by auto; apply seen_kind_ok; intros c k' Hin; apply (proj2 (cellp_ok s x a b Hok Hab) c k' Hin)).
  eapply trans_nz; [| |exact H1|exact H2|]; [apply Ok; auto|apply Ok; auto|]. rewrite En in *. rewrite !(kind_of_pair_A (graphs_of s) As fl x A o) by auto.
  eapply composed_closed; eauto; [eapply d0_bound; eauto|eapply d0_comp; eauto].
Qed.
(** Why no order is found for production [x]: *)
Definition no_order (s : state) (x : nat) (insts : list (list oinst)) : Prop := exists ins, nth_error insts x = Some ins /\ schedule_augmented s x ins = Exit /\
  ~ (guarded s x ins /\ distinct_tests ins /\ forall o i, ~ needs_under s x o i i).
Lemma oag_graphs_ok B rules insts : forall m s As ts, dinv0 B rules s As -> instances_given s insts -> length ts + m = length rules -> ordered insts s ts ->
  let step fuel := fun '(s, ts) x => '(s, t) <- oag_graph fuel rules insts s x ;; Ok (s, ts ++ [t]) in
  exists bd s' As', dinv0 B rules s' As' /\ pnz (st_phys s) (st_phys s') /\ grow B As As' /\
    ((exists x, x < length rules /\ no_order s' x insts /\ forall fuel, bd <= fuel -> foldM (step fuel) (seq (length ts) m) (s, ts) = Exit) \/
     (exists ts', length ts' = length rules /\ ordered insts s' ts' /\ forall fuel, bd <= fuel -> foldM (step fuel) (seq (length ts) m) (s, ts) = Ok (s', ts'))).
Proof.
  induction m as [|m IH]; intros s As ts D Gi Ln Or step.
  - exists 0, s, As. ands; auto using pnz_refl, grow_refl. right. exists ts. ands; auto; try lia.
  - set (x := length ts) in *. destruct (graph_step B rules s As x D ltac:(lia)) as (bd & r & g & A & mm & g' & A' & ps & c & Er & Eg & EA & Ec & Lx & D2 & L2 & G2 & Wl & Pu & _).
    set (s1 := mkState mm (upd (st_augs s) x g') ps) in *. set (As1 := upd As x A') in *.
    pose proof (psle_nz _ _ L2) as N2. assert (K : kept s s1) by (eapply kept_ok; eauto).
    pose proof (given_kept _ _ _ K Gi) as Gi1. assert (EA1 : nth_error As1 x = Some A') by (apply nth_error_upd_eq; apply nth_error_Some; congruence).
    destruct (d0_world _ _ _ _ D2) as (fl & W). destruct (an_graph (graphs_of s1) As1 fl x A' W EA1) as (g1 & Eg1 & En1 & _). destruct (Gi1 x g1 Eg1) as (ins & Ei & Lins).
    assert (Hi : has_instances s1 x ins) by (exists g1; auto). pose proof (edges0 _ _ _ _ D2) as Hok.
    assert (Eq : forall fuel, bd <= fuel -> oag_graph fuel rules insts s x = (t <- schedule_augmented s1 x ins ;; Ok (s1, t))).
    { intros fuel Hf. unfold oag_graph. rewrite (proj2 (rd_Ok _ _ _) Er). cbn [bind]. rewrite (proj2 (rd_Ok _ _ _) Eg). cbn [bind]. rewrite Ec by auto. cbn [bind]. rewrite wr_Ok by auto. cbn [bind]. rewrite (proj2 (rd_Ok _ _ _) Ei). reflexivity. }
    assert (Or1 : ordered insts s1 ts).
    { intros z t Ez. assert (Lz : z < x) by (apply nth_error_Some; congruence). destruct (Or z t Ez) as (ins' & H1 & (gz & Egz & Lgz) & Hsc & H3 & H4). exists ins'.
      assert (Ez1 : nth_error (st_augs s1) z = Some gz) by (cbn [st_augs s1]; rewrite nth_error_upd_neq by lia; auto).
      ands; auto; [exists gz; auto| |].
      { destruct (d0_world _ _ _ _ D) as (fl0 & W0). destruct (world_focus _ _ _ _ _ _ W0 Egz) as (Az & EAz & Gz). rewrite <- Hsc. apply (schedule_same B rules s As s1 As1 z Az ins' D D2 EAz); [unfold As1; now rewrite nth_error_upd_neq by lia|]. rewrite <- Lgz. apply (gp_n _ _ _ (gi_part _ _ _ _ _ Gz)). }
      intros o. eapply right_order_same; [|apply H4]. intros o' j i [Hg Hk]. destruct Hg as (g0 & E0 & Hj & Hi'). cbn [graphs_of w_graphs] in E0. assert (g0 = gz) by congruence. subst g0.
      split; [exists gz; auto|]. intros Z. apply Hk. rewrite <- Z. destruct (d0_world _ _ _ _ D) as (fl0 & W0).
      destruct (world_focus _ _ _ _ _ _ W0 Egz) as (Az & EAz & Gz). pose proof (gp_n _ _ _ (gi_part _ _ _ _ _ Gz)) as Enz. rewrite Enz in *.
      rewrite (kind_of_pair_A (graphs_of s) As fl0 z Az) by auto. apply (kind_of_pair_A (graphs_of s1) As1 fl z Az); auto. unfold As1. rewrite nth_error_upd_neq by lia. auto. }
    destruct (C47_total s1 x ins Hok Hi) as [(t & Et)|Et].
    + destruct (IH s1 As1 (ts ++ [t]) D2 Gi1) as (bd2 & s' & As' & D3 & N3 & G3 & H).
      * rewrite app_length. cbn [length]. unfold x in *. lia.
      * intros z t' Ez. destruct (Nat.lt_trichotomy z x) as [Lt|[->|Gt]].
        -- rewrite nth_error_app1 in Ez by auto. auto.
        -- rewrite nth_error_app2 in Ez by (unfold x; lia). unfold x in Ez at 1. rewrite Nat.sub_diag in Ez. injection Ez as <-. exists ins. destruct (C47_order s1 x ins Hok Hi t Et) as [H1 H2]. auto.
        -- assert (z < length (ts ++ [t])) by (apply nth_error_Some; congruence). rewrite app_length in *. cbn [length] in *. unfold x in Gt. lia.
      * exists (Nat.max bd bd2), s', As'. ands; auto. { eapply pnz_trans; eauto. } { eapply grow_trans; eauto. }
        assert (Sq : forall fuel, Nat.max bd bd2 <= fuel -> foldM (step fuel) (seq x (S m)) (s, ts) = foldM (step fuel) (seq (length (ts ++ [t])) m) (s1, ts ++ [t])).
        { intros fuel Hf. cbn [seq foldM]. unfold step at 1. rewrite Eq by lia. rewrite Et. cbn [bind]. rewrite app_length. cbn [length]. fold x. rewrite Nat.add_1_r. reflexivity. }
        destruct H as [(z & Hz & No & F)|(ts' & Lt & Ot & F)]; [left; exists z; ands; auto; intros fuel Hf; rewrite Sq by lia; apply F; lia|right; exists ts'; ands; auto; intros fuel Hf; rewrite Sq by lia; apply F; lia].
    + exists bd, s1, As1. ands; auto. left. exists x. split; [lia|]. split.
      * exists ins. ands; auto. intros (Hg & Hd & Ha). destruct (C47_complete s1 x ins Hok Hi Hg Hd) as (t & Et'); [|congruence]. intros o i C. eapply Ha. eapply composed_needs; eauto.
      * intros fuel Hf. cbn [seq foldM]. unfold step at 1. rewrite Eq by lia. rewrite Et. reflexivity.
Qed.

(** ** C153 *)
(** in the order [R] nothing visited in an earlier phase of the node at [start]
    comes after something visited later *)
Definition follows_phases (p : phy) (sched : list Z) (start : nat) (R : list nat) : Prop := forall j i before after, j < p_n p -> i < p_n p -> visit_of sched j < visit_of sched i ->
  R = before ++ (start + i) :: after -> ~ In (start + j) after.
Lemma compute_oag_facts : forall rules dirs insts s0, well_formed rules s0 -> startable rules s0 -> directed dirs (st_phys s0) -> instances_given s0 insts ->
  exists bound s, (forall fuel, bound <= fuel -> dnc_close fuel rules s0 = Ok s) /\
  (acyclic s -> exists s1 scheds, (forall fuel, bound <= fuel -> oag_phyla fuel rules dirs (seq 0 (length (st_phys s))) s [] = Ok (s1, scheds)) /\
    ((~ acyclic s1 /\ forall fuel, bound <= fuel -> compute_oag fuel rules dirs insts s = Ok (s1, scheds, None)) \/
     (acyclic s1 /\ exists s', kept s0 s' /\ edges_ok s' /\ pmats (st_phys s') /\ kept s1 s' /\
       ((exists x, no_order s' x insts /\ forall fuel, bound <= fuel -> compute_oag fuel rules dirs insts s = Exit) \/
        (exists ts, (forall fuel, bound <= fuel -> compute_oag fuel rules dirs insts s = Ok (s', scheds, Some ts)) /\ length ts = length rules /\
          forall x t, nth_error ts x = Some t -> exists ins, nth_error insts x = Some ins /\ schedule_augmented s' x ins = Ok t /\ branches_right ins t /\ (forall o, right_order s' x ins o (run ins o t)) /\
            forall r start y p, nth_error rules x = Some r -> In (start, Some y) (r_blocks r) -> nth_error (st_phys s') y = Some p ->
              exists sched, nth_error scheds y = Some sched /\ length sched = p_n p /\ (forall o j i, j < p_n p -> i < p_n p -> visit_of sched j < visit_of sched i -> needs_under s' x o (start + j) (start + i)) /\ forall o, follows_phases p sched start (run ins o t)))))).
Proof.
  intros rules dirs insts s0 Wf St Di Gv. destruct (start_dinv rules s0 Wf St) as (B & As0 & D0). destruct (dnc_close_any B rules s0 As0 D0) as (bd & s & As & E & D & L & G & F).
  pose proof (start_good _ _ _ _ D F) as Gd.
  destruct (cycle_ok _ _ _ _ D) as (k & Ek & _). destruct (N.eq_dec k no_dependency) as [->|Nk]; [|exists bd, s; split; auto; intros Ac; unfold acyclic in Ac; congruence].
  assert (Dir : directed dirs (st_phys s)) by (eapply directed_nz; [apply psle_nz; eauto|auto]).
  destruct (oag_phyla_ok B rules dirs (length (st_phys s)) s As [] Gd Ek) as (bd2 & s1 & As1 & scheds & E2 & G2 & L2 & W2 & Le & Sc & Al); auto.
  { intros [|y] sched Ey; discriminate. }
  destruct (cycle_ok _ _ _ _ (proj1 G2)) as (k1 & Ek1 & _). destruct (N.eq_dec k1 no_dependency) as [->|Nk1].
  - pose proof (dinv_0 _ _ _ _ (proj1 G2)) as D1. assert (Gv1 : instances_given s1 insts).
    { eapply given_kept; [|exact Gv]. eapply kept_ok; [apply dinv_0, D0|exact D1| |]; [eapply pnz_trans; [apply psle_nz; exact L|exact L2]|eapply grow_trans; eauto]. }
    destruct (oag_graphs_ok B rules insts (length rules) s1 As1 [] D1 Gv1 eq_refl) as (bd3 & s' & As' & D3 & N3 & G3 & H). { intros [|x] t Ex; discriminate. }
    exists (Nat.max bd (Nat.max bd2 bd3)), s. split; [intros; apply E; lia|]. intros _. exists s1, scheds. split; [intros; apply E2; lia|]. right. split; auto. exists s'.
    assert (Kp : kept s1 s') by (eapply kept_ok; eauto). split. { eapply kept_ok; [apply dinv_0, D0|exact D3| |]; [eapply pnz_trans; [eapply pnz_trans; [apply psle_nz; exact L|exact L2]|exact N3]|eapply grow_trans; [eapply grow_trans; [exact G|exact W2]|exact G3]]. } split; [eapply edges0; eauto|]. split; [apply (d0_mats _ _ _ _ D3)|]. split; auto.
    assert (Cq : forall fuel, Nat.max bd (Nat.max bd2 bd3) <= fuel -> compute_oag fuel rules dirs insts s = ('(s, ts) <- oag_graphs fuel rules insts s1 ;; Ok (s, scheds, Some ts))).
    { intros fuel Hf. unfold compute_oag. rewrite E2 by lia. cbn [bind]. rewrite Ek1. cbn [bind]. rewrite N.eqb_refl. reflexivity. }
    destruct H as [(x & Hx & No & Fx)|(ts & Lt & Or & Fx)].
    + left. exists x. split; auto. intros fuel Hf. rewrite Cq by auto. unfold oag_graphs. rewrite Fx by lia. reflexivity.
    + right. exists ts. split. { intros fuel Hf. rewrite Cq by auto. unfold oag_graphs. rewrite Fx by lia. reflexivity. }
      split; auto. intros x t Et. destruct (Or x t Et) as (ins & Ei & Hi & Sc' & Br & Ro). exists ins. ands; auto.
      intros r start y p Hr Hb Hp. assert (Ly : y < length (st_phys s1)) by (rewrite <- (nz_len _ _ N3); apply nth_error_Some; congruence). destruct (nth_error (st_phys s1) y) as [p1|] eqn:Ep1; [|apply nth_error_None in Ep1; lia].
      destruct (nz_get _ _ N3 y p1 Ep1) as (p2 & Ep2 & La & _ & _). assert (p2 = p) by congruence. subst p2. pose proof (labels_n _ _ La) as Pn.
      assert (Ls : length scheds = length (st_phys s1)). { rewrite (nz_len _ _ L2). auto. }
      destruct (nth_error scheds y) as [sched|] eqn:Es; [|apply nth_error_None in Es; lia]. exists sched. split; auto.
      destruct (Sc y sched Es) as (d & p2 & Ed & Ep3 & (Lf & _) & Fo). assert (p2 = p1) by congruence. subst p2.
      split. { rewrite Lf, Pn. apply (proj2 (directed_nz _ _ _ L2 Dir) y d p1 Ed Ep1). }
      rewrite Pn in *. assert (PN : forall o j i, j < p_n p1 -> i < p_n p1 -> visit_of sched j < visit_of sched i -> needs_under s' x o (start + j) (start + i)).
      { intros o j i Hj Hi' V. destruct (same_needs_ok _ _ _ _ G2 x r start y p1 j i o Hr Hb Ep1 Hj Hi') as [_ Nu]. destruct (Nu (Fo j i Hj Hi' V)) as [(g & Eg & H1 & H2) Hk]. cbn [graphs_of w_graphs] in Eg.
        destruct Kp as (_ & _ & Kg & _). destruct (Kg x g Eg) as (g' & Eg' & En' & Ct). split; [exists g'; cbn [graphs_of w_graphs]; rewrite En'; auto|]. eapply at_most_nz; [exact Hk|]. apply Ct; auto. }
      split; [exact PN|]. intros o j i before after Hj Hi' V Eq. destruct (Ro o) as (_ & _ & _ & R4). rewrite Pn in Hj, Hi'. destruct (R4 before (start + i) after Eq) as [_ R5]. intros Hin. apply (R5 (start + j) o); [intros b _; reflexivity| |now right]. auto.
  - exists (Nat.max bd bd2), s. split; [intros; apply E; lia|]. intros _. exists s1, scheds. split; [intros; apply E2; lia|]. left. split; [unfold acyclic; congruence|].
    intros fuel Hf. unfold compute_oag. rewrite E2 by lia. cbn [bind]. rewrite Ek1. cbn [bind]. rewrite (proj2 (N.eqb_neq _ _) Nk1). reflexivity.
Qed.
(** The whole analysis from a state without a cycle: it ends.  Either no order is
    found for some production; or there is a cycle after scheduling a phylum, and
    there are no orders; or there is an order for every production, right for its
    final dependencies, and at each of its nodes every order made by outcomes of
    the tests follows the phases of the node's phylum. *)
Theorem C153_compute_oag : forall rules dirs insts s0, well_formed rules s0 -> startable rules s0 -> directed dirs (st_phys s0) -> instances_given s0 insts ->
  exists bound s, (forall fuel, bound <= fuel -> dnc_close fuel rules s0 = Ok s) /\
  (acyclic s -> exists s1 scheds, (forall fuel, bound <= fuel -> oag_phyla fuel rules dirs (seq 0 (length (st_phys s))) s [] = Ok (s1, scheds)) /\
    ((~ acyclic s1 /\ forall fuel, bound <= fuel -> compute_oag fuel rules dirs insts s = Ok (s1, scheds, None)) \/
     (acyclic s1 /\ exists s', kept s1 s' /\
       ((exists x, no_order s' x insts /\ forall fuel, bound <= fuel -> compute_oag fuel rules dirs insts s = Exit) \/
        (exists ts, (forall fuel, bound <= fuel -> compute_oag fuel rules dirs insts s = Ok (s', scheds, Some ts)) /\ length ts = length rules /\
          forall x t, nth_error ts x = Some t -> exists ins, nth_error insts x = Some ins /\ schedule_augmented s' x ins = Ok t /\ branches_right ins t /\ (forall o, right_order s' x ins o (run ins o t)) /\
            forall r start y p, nth_error rules x = Some r -> In (start, Some y) (r_blocks r) -> nth_error (st_phys s') y = Some p ->
              exists sched, nth_error scheds y = Some sched /\ length sched = p_n p /\ forall o, follows_phases p sched start (run ins o t)))))).
Proof.
  intros rules dirs insts s0 Wf St Di Gv. destruct (compute_oag_facts rules dirs insts s0 Wf St Di Gv) as (bound & s & E & H). exists bound, s. split; auto. intros Ac. destruct (H Ac) as (s1 & scheds & E1 & H1). exists s1, scheds. split; auto.
  destruct H1 as [H1|(A1 & s' & _ & _ & _ & K & H2)]; [now left|right]. split; auto. exists s'. split; auto. destruct H2 as [H2|(ts & T1 & T2 & T3)]; [now left|right]. exists ts. ands; auto.
  intros x t Ex. destruct (T3 x t Ex) as (ins & I1 & I2 & I3 & I4 & I5). exists ins. ands; auto. intros r start y p Hr Hb Hp. destruct (I5 r start y p Hr Hb Hp) as (sched & J1 & J2 & _ & J3). exists sched. auto.
Qed.

(** A grammar in which the synthesized attribute 0 does not depend on the inherited
    attribute 1: X ::= X passes both on; in the other production a test decides
    what the synthesized one is.  Nothing in the summary graph to begin with; the
    schedule puts the inherited one first, and so do the orders. *)
Definition exo_rules : list rule := [mkRule [7; 8; 7; 8] [(0, Some 0); (2, Some 0)]; mkRule [7; 8; 9] [(0, Some 0)]].
Definition exo_ops : list op := [NewGraph 4; AddEdge 0 1 3 (mkCond 0 0) 31; AddEdge 0 2 0 (mkCond 0 0) 31; NewGraph 3; AddEdge 1 2 0 (mkCond 0 0) 27]%N.
Definition exo_world : world := match build exo_ops (mkWorld (mkMem [] 0) []) with Some w => w | None => mkWorld (mkMem [] 0) [] end.
Definition exo_state : state := mkState (w_mem exo_world) (w_graphs exo_world) ex_phys.
Definition exo_dirs : list (list direction) := [[instance_outward; instance_inward]].
Definition exo_insts : list (list oinst) := [repeat (mkOinst (mkCond 0%N 0%N) None) 4; [mkOinst (mkCond 0%N 0%N) None; mkOinst (mkCond 0%N 0%N) None; mkOinst (mkCond 0%N 0%N) (Some 0)]].
Lemma exo_wf : well_formed exo_rules exo_state.
Proof.
  split; [reflexivity|]. split.
  - intros p [<-|[]]. split; [reflexivity|]. intros x Hx. cbn in Hx. repeat (destruct Hx as [<-|Hx]; [apply zero_ok|]). destruct Hx.
  - intros x r g start y Hr Hg Hb. revert Hg. vm_compute (st_augs exo_state). intros Hg. destruct x as [|[|x]]; cbn in Hr, Hg; try (destruct x; discriminate); injection Hr as <-; injection Hg as <-; cbn in Hb;
      repeat (destruct Hb as [Hb|Hb]; [injection Hb as <- <-; eexists; split; [reflexivity|]; split; [cbn; lia|]; intros i Hi; cbn in Hi; destruct i as [|[|i]]; [reflexivity|reflexivity|lia]|]); destruct Hb.
Qed.
Lemma exo_built : built (graphs_of exo_state).
Proof. apply (build_ok exo_ops (mkWorld (mkMem [] 0) []) _ built_start). vm_compute. reflexivity. Qed.
Example C153_example : well_formed exo_rules exo_state /\ startable exo_rules exo_state /\ directed exo_dirs (st_phys exo_state) /\ instances_given exo_state exo_insts /\
  exists s s', dnc_close 60 exo_rules exo_state = Ok s /\ acyclic s /\ map mingraph (st_phys s) = [[0; 0; 0; 0]%N] /\
    compute_oag 60 exo_rules exo_dirs exo_insts s = Ok (s', [[1; -1]%Z], Some [CNext 1 (CNext 3 (CNext 2 (CNext 0 CDone))); CNext 1 (CIf 2 (CNext 0 CDone) (CNext 0 CDone))]) /\
    map mingraph (st_phys s') = [[0; 0; 3; 0]%N] /\ visit_of [1; -1]%Z 1 < visit_of [1; -1]%Z 0.
Proof.
  split; [exact exo_wf|]. split; [exact (built_startable _ _ exo_wf exo_built)|]. split.
  { split; [reflexivity|]. intros [|y] d p Hd Hp; [|destruct y; discriminate]. injection Hd as <-. injection Hp as <-. split; [reflexivity|]. intros [|[|[]]]; discriminate. }
  split. { intros x g Hg. revert Hg. vm_compute (st_augs exo_state). intros Hg. destruct x as [|[|x]]; [| |destruct x; discriminate]; injection Hg as <-; eexists; split; reflexivity. }
  eexists _, _. split; [vm_compute; reflexivity|]. split; [vm_compute; reflexivity|]. split; [vm_compute; reflexivity|]. split; [vm_compute; reflexivity|]. split; [vm_compute; reflexivity|]. vm_compute. lia.
Qed.
Print Assumptions C152_phyla.
Print Assumptions C153_compute_oag.
