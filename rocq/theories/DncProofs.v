(** * DncProofs: synchronisation and the closure of one production graph. *)
From Verif Require Import Base CondModel EdgeModel DncModel PropsCond EdgeProofs EdgeAddProofs EdgeGraph EdgeSem EdgeWorld PropsEdge SummaryProofs CloseProofs PropsClose.
Open Scope nat_scope.

(** ** more fuel does not change a result *)
Lemma close_worklist_mono : forall f f' m g v, f <= f' -> close_worklist f m g = Ok v -> close_worklist f' m g = Ok v.
Proof.
  induction f as [|f IH]; intros f' m g v Hf H; destruct f' as [|f']; try lia; cbn [close_worklist] in *; destruct (wl_head g); auto; try discriminate.
  destruct (take_head m g) as [[[m1 g1] e]| | |]; cbn [bind] in *; try discriminate. destruct (close_using_edge e m1 g1) as [[m2 g2]| | |]; cbn [bind] in *; try discriminate. eapply IH; eauto. lia.
Qed.
Lemma close_summary_mono n : forall f f' mg any v, f <= f' -> close_summary f n mg any = Ok v -> close_summary f' n mg any = Ok v.
Proof.
  induction f as [|f IH]; intros f' mg any v Hf H; [discriminate|]. destruct f' as [|f']; try lia. cbn [close_summary] in *.
  destruct (summary_pass n mg) as [[mg1 ch]| | |]; cbn [bind] in *; try discriminate. destruct ch; auto. eapply IH; eauto. lia.
Qed.
Lemma foldM_bounded {X Y} (f : nat -> Y -> X -> res Y) (l : list X) (I : list X -> Y -> Prop) b : I [] b ->
  (forall done a rest b, l = done ++ a :: rest -> I done b -> exists bd b', (forall fuel, bd <= fuel -> f fuel b a = Ok b') /\ I (done ++ [a]) b') ->
  exists bd b', (forall fuel, bd <= fuel -> foldM (f fuel) l b = Ok b') /\ I l b'.
Proof.
  intros H0 Hs. assert (G : forall rest done b, l = done ++ rest -> I done b -> exists bd b', (forall fuel, bd <= fuel -> foldM (f fuel) rest b = Ok b') /\ I l b').
  { induction rest as [|x rest IH]; intros done b1 E Hi.
    - exists 0, b1. rewrite app_nil_r in E. subst l. split; auto.
    - destruct (Hs done x rest b1 E Hi) as (bd & b2 & F & Hi2). destruct (IH (done ++ [x]) b2) as (bd2 & b3 & F2 & Hi3); [now rewrite <- app_assoc|auto|].
      exists (Nat.max bd bd2), b3. split; auto. intros fuel Hf. cbn [foldM]. rewrite F by lia. cbn [bind]. apply F2. lia. }
  apply (G l [] b); auto.
Qed.

(** ** kinds of sets *)
Lemma ekind_fold l : forall k0, fold_left (fun max e => dependency_join max (snd e)) l k0 = dependency_join k0 (edgeset_kind l).
Proof.
  unfold edgeset_kind. induction l as [|e l IH]; intros k0; cbn [fold_left].
  - unfold dependency_join, no_dependency. now rewrite N.lor_0_r.
  - rewrite IH, (IH (dependency_join _ _)). unfold dependency_join, no_dependency. now rewrite N.lor_0_l, N.lor_assoc.
Qed.
Lemma ekind_cons e l : edgeset_kind (e :: l) = dependency_join (snd e) (edgeset_kind l).
Proof. unfold edgeset_kind at 1. cbn [fold_left]. rewrite ekind_fold. unfold dependency_join, no_dependency. now rewrite N.lor_0_l. Qed.
Lemma ekind_in l c k : In (c, k) l -> at_most k (edgeset_kind l) = true.
Proof.
  induction l as [|e l IH]; intros H; [destruct H|]. rewrite ekind_cons. destruct H as [->|H]; [apply join_l|]. eapply at_most_trans; [apply IH, H|apply join_r].
Qed.
Lemma ekind_ok B l : ebound B l -> kind_ok (edgeset_kind (pairs l)).
Proof.
  induction l as [|[[a c] k] l IH]; intros H; [apply zero_ok|]. cbn [pairs map]. fold (pairs l). rewrite ekind_cons. cbn [snd kind_of]. apply join_ok; [apply (H a c k); now left|apply IH; eapply ebound_tl; eauto].
Qed.
Definition isu (c : condition) : bool := N.eqb (N.lor (positive c) (negative c)) 0.
Lemma elow_fold l : forall k0, fold_left (fun max e => if negb (N.eqb (N.lor (positive (fst e)) (negative (fst e))) 0) then max else dependency_join max (snd e)) l k0 = dependency_join k0 (edgeset_lowerbound l).
Proof.
  unfold edgeset_lowerbound. induction l as [|e l IH]; intros k0; cbn [fold_left].
  - unfold dependency_join, no_dependency. now rewrite N.lor_0_r.
  - fold (isu (fst e)). destruct (isu (fst e)); cbn [negb]; [|apply IH]. rewrite IH, (IH (dependency_join _ _)). unfold dependency_join, no_dependency. now rewrite N.lor_0_l, N.lor_assoc.
Qed.
Lemma elow_cons e l : edgeset_lowerbound (e :: l) = if isu (fst e) then dependency_join (snd e) (edgeset_lowerbound l) else edgeset_lowerbound l.
Proof. unfold edgeset_lowerbound at 1. cbn [fold_left]. fold (isu (fst e)). destruct (isu (fst e)); cbn [negb]; auto. rewrite elow_fold. unfold dependency_join, no_dependency. now rewrite N.lor_0_l. Qed.
Lemma elow_in l c k : In (c, k) l -> isu c = true -> at_most k (edgeset_lowerbound l) = true.
Proof.
  induction l as [|e l IH]; intros H U; [destruct H|]. rewrite elow_cons. destruct H as [->|H].
  - cbn [fst snd]. rewrite U. apply join_l.
  - destruct (isu (fst e)); auto. eapply at_most_trans; [apply IH; auto|apply join_r].
Qed.
Lemma isu_meets c o : isu c = true -> meets o c.
Proof. unfold isu. rewrite N.eqb_eq, N.lor_eq_0_iff. intros [E1 E2] i. rewrite E1, E2, N.bits_0. split; discriminate. Qed.
(** an unconditional edge is seen under every outcome *)
Lemma elow_seen o l : at_most (edgeset_lowerbound l) (seen o l) = true.
Proof.
  induction l as [|[c k] l IH]; [reflexivity|]. rewrite elow_cons. cbn [fst snd seen fold_right]. fold (seen o l). destruct (isu c) eqn:U.
  - rewrite (proj2 (meetsb_spec o c)) by (now apply isu_meets). apply join_lub; [apply join_l|]. eapply at_most_trans; [exact IH|apply join_r].
  - destruct (meetsb o c); auto. eapply at_most_trans; [exact IH|apply join_r].
Qed.
Lemma seen_ekind o l : at_most (seen o l) (edgeset_kind l) = true.
Proof.
  induction l as [|[c k] l IH]; [reflexivity|]. rewrite ekind_cons. cbn [fst snd seen fold_right]. fold (seen o l). destruct (meetsb o c).
  - apply join_lub; [apply join_l|]. eapply at_most_trans; [exact IH|apply join_r].
  - eapply at_most_trans; [exact IH|apply join_r].
Qed.
Definition ucond : condition := mkCond 0 0.
Lemma ucond_cbound B : cbound B ucond.
Proof. split; intros i; unfold tb; cbn [positive negative ucond]; rewrite N.bits_0; discriminate. Qed.
Lemma ucond_consistent : consistent ucond.
Proof. intros i. unfold tb. cbn [positive negative ucond]. rewrite N.bits_0. discriminate. Qed.
Lemma not_entailed l min kind : at_most min (edgeset_lowerbound (pairs l)) = false -> ~ ent l ucond (dependency_join kind min).
Proof.
  intros H (a & c & k & Hin & [M1 M2] & K). apply at_most_incl in K.
  assert (U : isu c = true). { unfold isu. apply N.eqb_eq, N.lor_eq_0_iff. split; apply N.bits_inj_0; intros i; [specialize (M1 i)|specialize (M2 i)]; unfold tb in *; cbn [positive negative ucond] in *; rewrite N.bits_0 in *; destruct (N.testbit _ i); auto; symmetry; auto. }
  assert (at_most min (edgeset_lowerbound (pairs l)) = true); [|congruence]. eapply at_most_trans; [apply (join_r kind)|]. eapply at_most_trans; [exact K|]. apply (elow_in _ c); auto. apply in_map_iff. exists (a, c, k). auto.
Qed.
Lemma addR_queued c k l wl l' wl' : addR c k l wl l' wl' -> consistent c -> good l -> ent l c k \/ exists a m, In a wl' /\ In (a, m, k) l'.
Proof.
  induction 1; intros Hc Hg; try (pose proof (good_tl _ _ Hg) as Hg'; pose proof (good_hd _ _ _ _ Hg) as [Hc' Hk']).
  - right. exists a, c. split; [apply in_or_app; right; now left|now left].
  - left. apply at_most_incl in H. apply lt_eq_mincl in H0; auto. apply ent_cons. auto.
  - destruct (IHaddR Hc Hg') as [E|E]; auto. left. apply ent_cons. auto.
  - destruct (merge_facts c c' Hc Hc' H) as (M1 & M2 & M3 & _ & _). destruct (IHaddR M1 Hg') as [E|(a0 & m0 & E1 & E2)].
    + left. apply ent_cons. right. eapply ent_weak; eauto. apply incl_refl_mask.
    + right. exists a0, m0. split; auto. apply in_rm. split; auto. intros ->. apply H1. apply (in_map id_of) in E2. exact E2.
  - destruct (IHaddR Hc Hg') as [E|(a0 & m0 & E1 & E2)]; [left; apply ent_cons; auto|]. right. exists a0, m0. split; auto. now right.
Qed.
Lemma indirect_ok k : kind_ok k -> kind_ok (dependency_indirect k).
Proof. intros H. unfold kind_ok in *. eapply N.le_trans; [|exact H]. apply at_most_le, at_most_incl. intros i. unfold tb, dependency_indirect. rewrite N.ldiff_spec, andb_true_iff. tauto. Qed.
Lemma indirect_mono k k' : at_most k k' = true -> at_most (dependency_indirect k) (dependency_indirect k') = true.
Proof. rewrite !at_most_incl. intros H i. unfold tb, dependency_indirect. rewrite !N.ldiff_spec, !andb_true_iff. intros [X Y]. split; auto. Qed.

(** ** one cell *)
Lemma mle_get n mg mg' i j : mle mg mg' -> at_most (get mg n i j) (get mg' n i j) = true.
Proof. intros [_ H]. apply H. Qed.
Lemma composed_gext B A A' : gext B A A' -> composed A -> composed A'.
Proof.
  intros X C i j k a1 c1 k1 a2 c2 k2 Hi Hj Hk H1 H2 N1 N2 o M1 M2. rewrite (ge_n _ _ _ X) in Hi, Hj, Hk.
  destruct (ge_old _ _ _ X i j a1 c1 k1) as [X1 X2]; auto. destruct (ge_old _ _ _ X j k a2 c2 k2) as [Y1 Y2]; auto. eapply at_most_trans; [eapply (C i j k); eauto|]. eapply gext_kind; eauto.
Qed.
Record astep (B : N) (foreign : list addr) (m : mem) (A : agraph) (m' : mem) (g' : aug) (A' : agraph) : Prop := {
  as_inv : exists fl', ginv m' g' A' foreign fl';
  as_bound : abound B A';
  as_ext : gext B A A';
  as_frame : forall b, In b foreign -> edge_at m' b = edge_at m b;
  as_new : A' = A \/ (gpot B A < gpot B A' /\ awl A' <> []) }.
Lemma astep_refl B foreign m g A fl : ginv m g A foreign fl -> abound B A -> astep B foreign m A m g A.
Proof. intros G H. constructor; eauto using gext_refl. Qed.
Lemma astep_trans B foreign m A m1 g1 A1 m2 g2 A2 : astep B foreign m A m1 g1 A1 -> astep B foreign m1 A1 m2 g2 A2 -> astep B foreign m A m2 g2 A2.
Proof.
  intros [I1 B1 X1 F1 N1] [I2 B2 X2 F2 N2]. constructor; auto.
  - eapply gext_trans; eauto.
  - intros b Hb. rewrite F2 by auto. auto.
  - pose proof (ge_pot _ _ _ X1). pose proof (ge_pot _ _ _ X2). destruct N2 as [->|[Y1 Y2]]; auto. right. split; auto. lia.
Qed.
Lemma sync_cell_ok B foreign m g A fl start n isf mg i j : ginv m g A foreign fl -> abound B A -> matrix n mg -> start + n <= an A -> i < n -> j < n ->
  exists m' g' mg' A', sync_cell start n isf (start + i) (start + j) (m, g, mg) = Ok (m', g', mg') /\ astep B foreign m A m' g' A' /\ matrix n mg' /\ mle mg mg' /\
    (isf = false -> forall a c k, In (a, c, k) (cell A' (start + i) (start + j)) -> ~ In a (awl A') -> at_most (dependency_indirect k) (get mg' n i j) = true) /\
    (A' = A -> (isf = false -> forall a c k, In (a, c, k) (cell A (start + i) (start + j)) -> at_most (dependency_indirect k) (get mg n i j) = true) ->
      mg' = mg /\ at_most (get mg n i j) (edgeset_lowerbound (pairs (cell A (start + i) (start + j)))) = true).
Proof.
  intros G HB Mx Hn Hi Hj. pose proof (gi_part _ _ _ _ _ G) as P. pose proof (gp_n _ _ _ P) as En. pose proof (gp_clen _ _ _ P) as Lc.
  set (si := start + i). set (sj := start + j). assert (Hsi : si < an A) by (unfold si; lia). assert (Hsj : sj < an A) by (unfold sj; lia).
  destruct (read_cell _ _ _ _ _ si sj G Hsi Hsj) as (p & E1 & E2). unfold sync_cell. rewrite E1. cbn [bind]. rewrite E2. cbn [bind].
  assert (Ei : si - start = i) by (unfold si; lia). assert (Ej : sj - start = j) by (unfold sj; lia). rewrite Ei, Ej, (rd_get n mg i j) by auto. cbn [bind].
  pose proof (cell_bound _ _ _ _ HB Lc Hsi Hsj) as CB. pose proof (ekind_ok _ _ CB) as Ko. set (l := pairs (cell A si sj)) in *. set (mn := get mg n i j).
  assert (Mo : kind_ok mn) by (now apply get_ok).
  assert (Ein : forall a c k, In (a, c, k) (cell A si sj) -> at_most (dependency_indirect k) (dependency_indirect (edgeset_kind l)) = true).
  { intros a c k Hin. apply indirect_mono. apply (ekind_in _ c). apply in_map_iff. exists (a, c, k). auto. }
  destruct (negb (at_most (dependency_indirect (edgeset_kind l)) mn) && negb isf) eqn:Ep.
  - apply andb_true_iff in Ep. rewrite !negb_true_iff in Ep. destruct Ep as [Ep ->].
    set (k' := dependency_join (dependency_indirect (edgeset_kind l)) mn). assert (Kk : kind_ok k') by (apply join_ok; auto using indirect_ok).
    destruct (N.eqb_spec k' mn) as [Ek|Ek]. { exfalso. assert (at_most (dependency_indirect (edgeset_kind l)) mn = true); [|congruence]. rewrite <- Ek. apply join_l. }
    assert (Li : i * n + j < length mg) by (destruct Mx as [-> _]; now apply idx_lt). rewrite wr_Ok by auto. cbn [bind].
    assert (Gi : get (upd mg (i * n + j) k') n i j = k') by (rewrite get_upd, !Nat.eqb_refl by auto; reflexivity).
    eexists m, g, _, A. split; [reflexivity|]. ands.
    + eapply astep_refl; eauto.
    + now apply matrix_upd.
    + apply mle_upd; auto. apply join_r.
    + intros _ a c k Hin _. rewrite Gi. eapply at_most_trans; [eapply Ein; eauto|]. apply join_l.
    + intros _ H0. exfalso. assert (X : at_most (dependency_indirect (edgeset_kind l)) mn = true); [|congruence]. unfold l.
      clear -H0 Mo. specialize (H0 eq_refl). apply at_most_incl. intros b Hb. unfold tb, dependency_indirect in Hb. rewrite N.ldiff_spec, andb_true_iff in Hb. destruct Hb as [Hb Hd].
      induction (cell A si sj) as [|[[a c] k] t IH]; [change (edgeset_kind (pairs [])) with 0%N in Hb; rewrite N.bits_0 in Hb; discriminate|]. cbn [pairs map] in Hb. fold (pairs t) in Hb. rewrite ekind_cons in Hb. unfold dependency_join in Hb. rewrite N.lor_spec, orb_true_iff in Hb. cbn [snd kind_of] in Hb.
      destruct Hb as [Hb|Hb]; [|apply IH; auto; intros; apply (H0 a0 c0 k0); now right]. specialize (H0 a c k (or_introl eq_refl)). apply at_most_incl in H0. apply H0. unfold tb, dependency_indirect. rewrite N.ldiff_spec, Hb, Hd. reflexivity.
  - assert (Pu : isf = false -> at_most (dependency_indirect (edgeset_kind l)) mn = true). { intros ->. destruct (at_most _ _); auto. }
    destruct (at_most mn (edgeset_lowerbound l)) eqn:Eq; cbn [negb].
    + eexists m, g, mg, A. split; [reflexivity|]. ands; auto using mle_refl.
      * eapply astep_refl; eauto.
      * intros F a c k Hin _. eapply at_most_trans; [eapply Ein; eauto|]. auto.
    + set (k' := dependency_join (edgeset_kind l) mn). assert (Kk : kind_ok k') by (apply join_ok; auto).
      assert (Kz : k' <> 0%N). { intros E. unfold k', dependency_join in E. apply N.lor_eq_0_iff in E. destruct E as [_ E]. rewrite E in Eq. cbn in Eq. discriminate. }
      destruct (add_graph_ok m g A foreign fl si sj ucond k' G Hsi Hsj Kz ucond_consistent) as (m' & g' & A' & fl' & E & G' & Ag & Fr).
      destruct (addG_ext B _ _ _ _ _ _ _ _ _ _ G Ag Hsi Hsj ucond_consistent (ucond_cbound B) Kk HB) as (X & AB' & Ee & _).
      change (mkCond 0 0) with ucond. rewrite E. cbn [bind]. pose proof (not_entailed (cell A si sj) mn (edgeset_kind l) Eq) as Ne. fold k' in Ne.
      assert (Gd : good (cell A si sj)) by (apply (gp_good _ _ _ P); now apply cell_in).
      assert (Wn : awl A' <> []). { destruct Ag as (l' & wl' & Ar & ->). cbn [awl with_cell]. destruct (addR_queued _ _ _ _ _ _ Ar ucond_consistent Gd) as [|(a & mm & Ha & _)]; [contradiction|]. intros Z. rewrite Z in Ha. destruct Ha. }
      assert (Gp : gpot B A < gpot B A').
      { destruct Ag as (l' & wl' & Ar & ->). destruct (addR_ent _ _ _ _ _ _ Ar ucond_consistent Gd) as [F1 F2]. pose proof (gpot_with B A si sj l' wl' Lc Hsi Hsj). pose proof (pot_strict B (cell A si sj) l' ucond k' F2 (ucond_cbound B) Kk F1 Ne). lia. }
      exists m', g', mg, A'. split; [reflexivity|]. ands; auto using mle_refl.
      * constructor; eauto.
      * intros F a c k Hin Hw. destruct (ge_old _ _ _ X si sj a c k Hsi Hsj Hin Hw) as [Y1 Y2]. eapply at_most_trans; [eapply Ein; eauto|]. auto.
      * intros Ea. exfalso. subst A'. lia.
Qed.

(** ** one block *)
Definition bpushed (p : phy) (start : nat) (A : agraph) : Prop := is_func p = false -> forall i j a c k, i < p_n p -> j < p_n p -> In (a, c, k) (cell A (start + i) (start + j)) -> ~ In a (awl A) -> at_most (dependency_indirect k) (get (mingraph p) (p_n p) i j) = true.
Definition ballpushed (p : phy) (start : nat) (A : agraph) : Prop := is_func p = false -> forall i j a c k, i < p_n p -> j < p_n p -> In (a, c, k) (cell A (start + i) (start + j)) -> at_most (dependency_indirect k) (get (mingraph p) (p_n p) i j) = true.
Definition bpulled (p : phy) (start : nat) (A : agraph) : Prop := forall i j, i < p_n p -> j < p_n p -> at_most (get (mingraph p) (p_n p) i j) (edgeset_lowerbound (pairs (cell A (start + i) (start + j)))) = true.
Definition pmat (p : phy) : Prop := matrix (p_n p) (mingraph p).
Record ple (p p' : phy) : Prop := { pl_labels : p_labels p' = p_labels p; pl_func : is_func p' = is_func p; pl_le : mle (mingraph p) (mingraph p') }.
Lemma ple_refl p : ple p p.
Proof. constructor; auto using mle_refl. Qed.
Lemma ple_trans a b c : ple a b -> ple b c -> ple a c.
Proof. intros [X1 X2 X3] [Y1 Y2 Y3]. constructor; try congruence. eapply mle_trans; eauto. Qed.
Lemma ple_n p p' : ple p p' -> p_n p' = p_n p.
Proof. intros H. unfold p_n. now rewrite (pl_labels _ _ H). Qed.
Lemma bpushed_mono B A A' p p' start : gext B A A' -> ple p p' -> start + p_n p <= an A -> bpushed p start A -> bpushed p' start A'.
Proof.
  intros X L Hn H F i j a c k. rewrite (ple_n _ _ L). intros Hi Hj Hin Hw. destruct (ge_old _ _ _ X (start + i) (start + j) a c k) as [Y1 Y2]; auto; try lia.
  rewrite (pl_func _ _ L) in F. eapply at_most_trans; [eapply (H F i j a c k); auto|]. apply mle_get, L.
Qed.
Lemma astep_same B foreign m A m1 g1 A1 m2 g2 : astep B foreign m A m1 g1 A1 -> astep B foreign m1 A1 m2 g2 A -> A1 = A.
Proof. intros S1 S2. destruct (as_new _ _ _ _ _ _ _ S1) as [|[Y _]]; auto. pose proof (ge_pot _ _ _ (as_ext _ _ _ _ _ _ _ S2)). lia. Qed.

Record sstate (B : N) (foreign : list addr) (start n : nat) (isf : bool) (m0 : mem) (A0 : agraph) (mg0 : list N) (D : nat -> nat -> Prop) (st : mem * aug * list N) (A : agraph) : Prop := {
  ss_step : astep B foreign m0 A0 (fst (fst st)) (snd (fst st)) A;
  ss_mat : matrix n (snd st);
  ss_le : mle mg0 (snd st);
  ss_push : isf = false -> forall i j a c k, D i j -> i < n -> j < n -> In (a, c, k) (cell A (start + i) (start + j)) -> ~ In a (awl A) -> at_most (dependency_indirect k) (get (snd st) n i j) = true;
  ss_same : A = A0 -> (isf = false -> forall i j a c k, i < n -> j < n -> In (a, c, k) (cell A0 (start + i) (start + j)) -> at_most (dependency_indirect k) (get mg0 n i j) = true) ->
    snd st = mg0 /\ forall i j, D i j -> at_most (get mg0 n i j) (edgeset_lowerbound (pairs (cell A0 (start + i) (start + j)))) = true }.
Lemma sync_step B foreign start n isf m0 A0 mg0 D st A i j : sstate B foreign start n isf m0 A0 mg0 D st A -> start + n <= an A0 -> i < n -> j < n ->
  exists st' A', sync_cell start n isf (start + i) (start + j) st = Ok st' /\ sstate B foreign start n isf m0 A0 mg0 (fun i' j' => D i' j' \/ (i' = i /\ j' = j)) st' A'.
Proof.
  destruct st as [[m g] mg]. intros [S1 S2 S3 S4 S5] Hn Hi Hj. cbn [fst snd] in *. destruct (as_inv _ _ _ _ _ _ _ S1) as (fl & G). pose proof (ge_n _ _ _ (as_ext _ _ _ _ _ _ _ S1)) as En.
  destruct (sync_cell_ok B foreign m g A fl start n isf mg i j G (as_bound _ _ _ _ _ _ _ S1) S2) as (m' & g' & mg' & A' & E & St & Mx & Le & Pu & Sa); auto; try lia.
  exists (m', g', mg'), A'. split; auto. constructor; cbn [fst snd]; auto.
  - eapply astep_trans; eauto.
  - eapply mle_trans; eauto.
  - intros F i' j' a c k Hd Hi' Hj' Hin Hw. destruct Hd as [Hd|[-> ->]]; [|eapply Pu; eauto]. destruct (ge_old _ _ _ (as_ext _ _ _ _ _ _ _ St) (start + i') (start + j') a c k) as [Y1 Y2]; auto; try lia.
    eapply at_most_trans; [eapply (S4 F i' j'); eauto|]. now apply mle_get.
  - intros -> Q. pose proof (astep_same _ _ _ _ _ _ _ _ _ S1 St) as EA. subst A. destruct (S5 eq_refl Q) as [-> Z]. destruct (Sa eq_refl) as [-> W]. { intros F a c k Hin. eapply (Q F i j); eauto. }
    split; auto. intros i' j' [Hd|[-> ->]]; auto.
Qed.
Lemma synchronize_ok B foreign labels m g A fl start p : ginv m g A foreign fl -> abound B A -> pmat p -> start + p_n p <= an A -> (forall i, i < p_n p -> nth_error labels (start + i) = nth_error (p_labels p) i) ->
  exists m' g' p' A', synchronize labels start p m g = Ok (m', g', p') /\ astep B foreign m A m' g' A' /\ pmat p' /\ ple p p' /\ bpushed p' start A' /\
    (A' = A -> ballpushed p start A -> p' = p /\ bpulled p start A).
Proof.
  intros G HB Mx Hn Lb. unfold synchronize. set (n := p_n p) in *.
  pose (J := fun (done : list nat) (st : mem * aug * list N) => exists A1, sstate B foreign start n (is_func p) m A (mingraph p) (fun i j => In (start + i) done /\ j < n) st A1).
  match goal with |- exists m' g' p' A', (x <- foldM ?f ?l ?b ;; _) = _ /\ _ => destruct (foldM_inv f l J b) as ([[m' g'] mg'] & E & A1 & S) end.
  - exists A. constructor; cbn [fst snd]; auto using mle_refl; try tauto.
    + eapply astep_refl; eauto.
    + cbn. tauto.
    + cbn. split; auto. tauto.
  - intros done si rest st El (A1 & S). assert (Hs : In si (seq start n)) by (rewrite El; apply in_or_app; right; now left). apply in_seq in Hs.
    assert (Hi : exists i, si = start + i /\ i < n) by (exists (si - start); lia). destruct Hi as (i & -> & Hi).
    assert (Li : i < length (p_labels p)) by exact Hi. destruct (nth_error (p_labels p) i) as [lb|] eqn:El1; [|apply nth_error_None in El1; lia].
    rewrite (proj2 (rd_Ok _ _ _) (eq_trans (Lb i Hi) El1)). cbn [bind]. replace (start + i - start) with i by lia. rewrite (proj2 (rd_Ok _ _ _) El1). cbn [bind]. rewrite Nat.eqb_refl. cbn [negb].
    pose (J2 := fun (done2 : list nat) (st : mem * aug * list N) => exists A1, sstate B foreign start n (is_func p) m A (mingraph p) (fun i' j => (In (start + i') done /\ j < n) \/ (i' = i /\ In (start + j) done2)) st A1).
    match goal with |- exists b, foldM ?f ?l ?b = _ /\ _ => destruct (foldM_inv f l J2 b) as (st2 & E2 & A2 & S2) end.
    + exists A1. destruct S as [Q1 Q2 Q3 Q4 Q5]. constructor; auto.
      * intros F i' j a c k [Hd|[_ []]]. apply Q4; auto.
      * intros Ea Q. destruct (Q5 Ea Q) as [X Y]. split; auto. intros i' j [Hd|[_ []]]. auto.
    + clear S. intros done2 sj rest2 st2 El2 (A2 & S2). assert (Hs2 : In sj (seq start n)) by (rewrite El2; apply in_or_app; right; now left). apply in_seq in Hs2.
      assert (Hj : exists j, sj = start + j /\ j < n) by (exists (sj - start); lia). destruct Hj as (j & -> & Hj).
      destruct (sync_step _ _ _ _ _ _ _ _ _ _ _ i j S2 Hn Hi Hj) as (st3 & A3 & E3 & S3). exists st3. split; auto. exists A3. destruct S3 as [Q1 Q2 Q3 Q4 Q5]. constructor; auto.
      * intros F i' j' a c k Hd. apply Q4; auto. destruct Hd as [|[-> Hd]]; auto. apply in_app_iff in Hd. destruct Hd as [|[Eq|[]]]; auto. right. split; auto. lia.
      * intros Ea Q. destruct (Q5 Ea Q) as [X Y]. split; auto. intros i' j' Hd. apply Y. destruct Hd as [|[-> Hd]]; auto. apply in_app_iff in Hd. destruct Hd as [|[Eq|[]]]; auto. right. split; auto. lia.
    + exists st2. split; auto. exists A2. destruct S2 as [Q1 Q2 Q3 Q4 Q5].
      assert (Cv : forall i' j', In (start + i') (done ++ [start + i]) /\ j' < n -> (In (start + i') done /\ j' < n) \/ (i' = i /\ In (start + j') (seq start n))).
      { intros i' j' [Hd Hj]. apply in_app_iff in Hd. destruct Hd as [|[Eq|[]]]; auto. right. split; [lia|]. apply in_seq. lia. }
      constructor; auto.
      * intros F i' j' a c k Hd. apply Q4; auto.
      * intros Ea Q. destruct (Q5 Ea Q) as [X Y]. split; auto.
  - rewrite E. cbn [bind]. destruct S as [Q1 Q2 Q3 Q4 Q5]. cbn [fst snd] in *. eexists m', g', _, A1. split; [reflexivity|]. ands; auto.
    + constructor; auto.
    + intros F i j a c k Hi Hj Hin Hw. cbn [p_n p_labels mingraph] in *. apply (Q4 F i j a c k); auto. split; auto. apply in_seq. unfold p_n in Hi. cbn [p_labels] in Hi. fold (p_n p) in Hi. fold n in Hi. lia.
    + intros Ea Q. destruct (Q5 Ea Q) as [-> Y]. split; [destruct p; reflexivity|]. intros i j Hi Hj. apply Y. split; auto. apply in_seq. fold n in Hi. lia.
Qed.

(** ** all blocks of a production *)
Definition blk_ok (labels : list nat) (n : nat) (ps : list phy) (b : nat * option nat) : Prop := forall x, snd b = Some x ->
  exists p, nth_error ps x = Some p /\ fst b + p_n p <= n /\ forall i, i < p_n p -> nth_error labels (fst b + i) = nth_error (p_labels p) i.
Definition psle (ps ps' : list phy) : Prop := length ps' = length ps /\ forall x p p', nth_error ps x = Some p -> nth_error ps' x = Some p' -> ple p p'.
Lemma psle_refl ps : psle ps ps.
Proof. split; auto. intros x p p' H1 H2. assert (p' = p) by congruence. subst. apply ple_refl. Qed.
Lemma psle_get ps ps' x p : psle ps ps' -> nth_error ps x = Some p -> exists p', nth_error ps' x = Some p' /\ ple p p'.
Proof. intros [L H] E. destruct (nth_error ps' x) as [p'|] eqn:E'; eauto. apply nth_error_None in E'. assert (x < length ps) by (apply nth_error_Some; congruence). lia. Qed.
Lemma psle_trans a b c : psle a b -> psle b c -> psle a c.
Proof.
  intros [L1 H1] [L2 H2]. split; [congruence|]. intros x p p'' E1 E3. destruct (psle_get a b x p (Logic.conj L1 H1) E1) as (p' & E2 & X). eapply ple_trans; eauto.
Qed.
Lemma psle_upd ps x p p' : nth_error ps x = Some p -> ple p p' -> psle ps (upd ps x p').
Proof.
  intros E H. split; [apply upd_length|]. intros y q q' E1 E2. rewrite nth_error_upd in E2. destruct (Nat.eqb_spec x y) as [->|].
  - destruct (y <? length ps); [|discriminate]. injection E2 as <-. assert (q = p) by congruence. subst. auto.
  - assert (q' = q) by congruence. subst. apply ple_refl.
Qed.
Lemma blk_ok_mono labels n ps ps' b : psle ps ps' -> blk_ok labels n ps b -> blk_ok labels n ps' b.
Proof. intros L H x Hx. destruct (H x Hx) as (p & E & H1 & H2). destruct (psle_get _ _ _ _ L E) as (p' & E' & Lp). exists p'. rewrite (ple_n _ _ Lp), (pl_labels _ _ Lp). auto. Qed.
Definition pushedA (blocks : list (nat * option nat)) (ps : list phy) (A : agraph) : Prop := forall start x p, In (start, Some x) blocks -> nth_error ps x = Some p -> bpushed p start A.
Definition allpushedA (blocks : list (nat * option nat)) (ps : list phy) (A : agraph) : Prop := forall start x p, In (start, Some x) blocks -> nth_error ps x = Some p -> ballpushed p start A.
Definition pulledA (blocks : list (nat * option nat)) (ps : list phy) (A : agraph) : Prop := forall start x p, In (start, Some x) blocks -> nth_error ps x = Some p -> bpulled p start A.
Definition pmats (ps : list phy) : Prop := forall p, In p ps -> pmat p.
Lemma pushedA_mono B labels blocks ps ps' A A' : gext B A A' -> psle ps ps' -> (forall b, In b blocks -> blk_ok labels (an A) ps b) -> pushedA blocks ps A -> pushedA blocks ps' A'.
Proof.
  intros X L Hb H start x p' Hin E'. destruct (Hb _ Hin x eq_refl) as (p & E & H1 & _). destruct (psle_get _ _ _ _ L E) as (p2 & E2 & Lp). assert (p2 = p') by congruence. subst p2.
  eapply bpushed_mono; eauto.
Qed.
Lemma in_upd {X} (l : list X) i (x y : X) : In y (upd l i x) -> y = x \/ In y l.
Proof. intros H. apply In_nth_error in H. destruct H as (z & Hz). rewrite nth_error_upd in Hz. destruct (i =? z). { destruct (z <? length l); [|discriminate]. injection Hz as <-. auto. } right. eapply nth_error_In; eauto. Qed.

Lemma upd_same {X} (l : list X) i (x : X) : nth_error l i = Some x -> upd l i x = l.
Proof. revert i; induction l as [|y l IH]; intros [|i] H; cbn in *; try discriminate; [congruence|]. f_equal. auto. Qed.
Lemma augment_ok B foreign r m g A fl ps : ginv m g A foreign fl -> abound B A -> pmats ps -> (forall b, In b (r_blocks r) -> blk_ok (r_labels r) (an A) ps b) ->
  exists m' g' ps' A', augment r m g ps = Ok (m', g', ps') /\ astep B foreign m A m' g' A' /\ pmats ps' /\ psle ps ps' /\ pushedA (r_blocks r) ps' A' /\
    (A' = A -> allpushedA (r_blocks r) ps A -> ps' = ps /\ pulledA (r_blocks r) ps A).
Proof.
  intros G HB Mx Hb. unfold augment.
  pose (J := fun (done : list (nat * option nat)) (st : mem * aug * list phy) => exists A1, astep B foreign m A (fst (fst st)) (snd (fst st)) A1 /\ pmats (snd st) /\ psle ps (snd st) /\ pushedA done (snd st) A1 /\
    (A1 = A -> allpushedA (r_blocks r) ps A -> snd st = ps /\ pulledA done ps A)).
  match goal with |- exists m' g' p' A', foldM ?f ?l ?b = _ /\ _ => destruct (foldM_inv f l J b) as ([[m' g'] ps'] & E & A1 & S1 & S2 & S3 & S4 & S5) end.
  - exists A. cbn [fst snd]. ands; auto using psle_refl.
    + eapply astep_refl; eauto.
    + intros start x p [].
    + intros _ _. split; auto. intros start x p [].
  - intros done [start ox] rest [[m1 g1] ps1] El (A1 & S1 & S2 & S3 & S4 & S5). cbn [fst snd] in *.
    assert (Hin : In (start, ox) (r_blocks r)) by (rewrite El; apply in_or_app; right; now left).
    assert (Hd : forall b, In b done -> In b (r_blocks r)) by (intros b Hbd; rewrite El; apply in_or_app; auto).
    destruct ox as [x|].
    2:{ exists (m1, g1, ps1). split; auto. exists A1. cbn [fst snd]. ands; auto.
        - intros s x p Hi. apply in_app_iff in Hi. destruct Hi as [|[|[]]]; [apply S4; auto|discriminate].
        - intros Ea Q. destruct (S5 Ea Q) as [X Y]. split; auto. intros s x p Hi. apply in_app_iff in Hi. destruct Hi as [|[|[]]]; [apply Y; auto|discriminate]. }
    destruct (blk_ok_mono _ _ _ _ _ S3 (Hb _ Hin) x eq_refl) as (p & Ep & Hn & Lb). cbn [fst] in Hn, Lb. rewrite (proj2 (rd_Ok _ _ _) Ep). cbn [bind].
    destruct (as_inv _ _ _ _ _ _ _ S1) as (fl1 & G1). pose proof (ge_n _ _ _ (as_ext _ _ _ _ _ _ _ S1)) as En.
    destruct (synchronize_ok B foreign (r_labels r) m1 g1 A1 fl1 start p G1 (as_bound _ _ _ _ _ _ _ S1)) as (m2 & g2 & p' & A2 & E2 & T1 & T2 & T3 & T4 & T5); auto; try lia.
    { apply S2. eapply nth_error_In; eauto. }
    rewrite E2. cbn [bind]. assert (Lx : x < length ps1) by (apply nth_error_Some; congruence). rewrite wr_Ok by auto. cbn [bind].
    eexists. split; [reflexivity|]. exists A2. cbn [fst snd].
    assert (Pl : psle ps1 (upd ps1 x p')) by (eapply psle_upd; eauto). ands; auto.
    + eapply astep_trans; eauto.
    + intros q Hq. apply in_upd in Hq. destruct Hq as [->|Hq]; auto.
    + eapply psle_trans; eauto.
    + intros s y q Hi Eq. apply in_app_iff in Hi. destruct Hi as [Hi|[Hi|[]]].
      * apply (pushedA_mono B (r_labels r) done ps1 (upd ps1 x p') A1 A2) with (x := y); auto; try apply T1.
        intros b Hbd. rewrite En. eapply blk_ok_mono; eauto.
      * injection Hi as <- <-. rewrite nth_error_upd_eq in Eq by auto. injection Eq as <-. auto.
    + intros -> Q. pose proof (astep_same _ _ _ _ _ _ _ _ _ S1 T1) as EA. subst A1. destruct (S5 eq_refl Q) as [-> Z]. destruct (T5 eq_refl) as [-> W]. { eapply Q; eauto. }
      rewrite upd_same by auto. split; auto. intros s y q Hi Eq. apply in_app_iff in Hi. destruct Hi as [Hi|[Hi|[]]]; [eapply Z; eauto|]. injection Hi as <- <-. assert (q = p) by congruence. subst. auto.
  - exists m', g', ps', A1. ands; auto.
Qed.

(** ** the closure of one production graph *)
Record cstep (B : N) (foreign : list addr) (r : rule) (m : mem) (A : agraph) (ps : list phy) (m' : mem) (g' : aug) (A' : agraph) (ps' : list phy) : Prop := {
  cs_inv : exists fl', ginv m' g' A' foreign fl';
  cs_bound : abound B A';
  cs_comp : composed A';
  cs_n : an A' = an A;
  cs_pot : gpot B A <= gpot B A';
  cs_ent : forall i j c k, i < an A -> j < an A -> ent (cell A i j) c k -> ent (cell A' i j) c k;
  cs_frame : forall b, In b foreign -> edge_at m' b = edge_at m b;
  cs_pmats : pmats ps';
  cs_psle : psle ps ps';
  cs_pushed : pushedA (r_blocks r) ps' A';
  cs_wl : awl A' = [] }.
Lemma allpushed_of blocks ps A : pushedA blocks ps A -> awl A = [] -> allpushedA blocks ps A.
Proof. intros H W start x p Hin E F i j a c k Hi Hj Hc. eapply (H start x p); eauto. rewrite W. auto. Qed.
Lemma close_rounds_ok B foreign r : forall s m g A fl ps, ginv m g A foreign fl -> abound B A -> composed A -> pmats ps -> (forall b, In b (r_blocks r) -> blk_ok (r_labels r) (an A) ps b) ->
  room B A <= s -> exists bd m' g' A' ps', (forall fuel, bd <= fuel -> close_rounds fuel r m g ps = Ok (m', g', ps')) /\ cstep B foreign r m A ps m' g' A' ps'.
Proof.
  induction s as [s IH] using (well_founded_induction lt_wf). intros m g A fl ps G HB Cm Mx Hb Hr.
  destruct (close_worklist_ok B foreign (room B A) (length (awl A)) m g A fl G HB Cm) as (bd1 & H1); auto. destruct (H1 bd1 (le_n _)) as (m1 & g1 & A1 & E1 & C1 & W1 & _). clear H1.
  destruct C1 as [(fl1 & G1) B1 Cp1 N1 P1 _ _ Ent1 Fr1].
  destruct (augment_ok B foreign r m1 g1 A1 fl1 ps G1 B1 Mx) as (m2 & g2 & ps2 & A2 & E2 & S2 & Mx2 & Pl2 & Pu2 & Sm2). { now rewrite N1. }
  destruct (as_inv _ _ _ _ _ _ _ S2) as (fl2 & G2). pose proof (as_ext _ _ _ _ _ _ _ S2) as X2. pose proof (ge_n _ _ _ X2) as N2. pose proof (ge_pot _ _ _ X2) as P2.
  assert (Hh := wl_head_nil _ _ _ _ _ G2).
  assert (Ent2 : forall i j c k, i < an A -> j < an A -> ent (cell A i j) c k -> ent (cell A2 i j) c k). { intros. apply (ge_ent _ _ _ X2); try lia. auto. }
  assert (Fr2 : forall b, In b foreign -> edge_at m2 b = edge_at m b). { intros b Hf. rewrite (as_frame _ _ _ _ _ _ _ S2) by auto. auto. }
  destruct (Nat.eq_dec (wl_head g2) 0) as [Z|Z].
  - exists (S bd1), m2, g2, A2, ps2. split.
    + intros fuel Hf. destruct fuel as [|f]; [lia|]. cbn [close_rounds]. rewrite (close_worklist_mono bd1 (S f) m g (m1, g1)) by (auto; lia). cbn [bind]. rewrite E2. cbn [bind]. rewrite Z. reflexivity.
    + constructor; auto; try lia; try (apply S2); eauto.
      * eapply composed_gext; eauto.
      * tauto.
  - assert (Lt : gpot B A1 < gpot B A2). { destruct (as_new _ _ _ _ _ _ _ S2) as [->|[Y _]]; auto. exfalso. apply Z. apply Hh. auto. }
    assert (Lr : room B A2 < s).
    { pose proof (room_spec B A (gp_clen _ _ _ (gi_part _ _ _ _ _ G))). pose proof (room_spec B A2 (gp_clen _ _ _ (gi_part _ _ _ _ _ G2))) as Q. rewrite N2, N1 in Q. lia. }
    destruct (IH _ Lr m2 g2 A2 fl2 ps2 G2 (as_bound _ _ _ _ _ _ _ S2) (composed_gext _ _ _ X2 Cp1) Mx2) as (bd2 & m3 & g3 & A3 & ps3 & E3 & C3); auto.
    { intros b Hin. rewrite N2, N1. eapply blk_ok_mono; eauto. }
    exists (S (Nat.max bd1 bd2)), m3, g3, A3, ps3. split.
    + intros fuel Hf. destruct fuel as [|f]; [lia|]. cbn [close_rounds]. rewrite (close_worklist_mono bd1 (S f) m g (m1, g1)) by (auto; lia). cbn [bind]. rewrite E2. cbn [bind].
      rewrite (proj2 (Nat.eqb_neq _ _) Z). apply E3. lia.
    + destruct C3 as [Q1 Q2 Q3 Q4 Q5 Q6 Q7 Q8 Q9 Q10 Q11]. constructor; auto; try lia.
      * intros. apply Q6; try lia. auto.
      * intros b Hf. rewrite Q7 by auto. auto.
      * eapply psle_trans; eauto.
Qed.
Lemma close_augmented_ok B foreign r m g A fl ps : ginv m g A foreign fl -> abound B A -> composed A -> pmats ps -> (forall b, In b (r_blocks r) -> blk_ok (r_labels r) (an A) ps b) -> pushedA (r_blocks r) ps A ->
  exists bd m' g' A' ps' c, (forall fuel, bd <= fuel -> close_augmented fuel r m g ps = Ok (m', g', ps', c)) /\ cstep B foreign r m A ps m' g' A' ps' /\
    (c = true -> awl A <> [] \/ gpot B A < gpot B A') /\ (c = false -> A' = A /\ ps' = ps /\ pulledA (r_blocks r) ps A).
Proof.
  intros G HB Cm Mx Hb Pu.
  destruct (augment_ok B foreign r m g A fl ps G HB Mx Hb) as (m2 & g2 & ps2 & A2 & E2 & S2 & Mx2 & Pl2 & Pu2 & Sm2).
  destruct (as_inv _ _ _ _ _ _ _ S2) as (fl2 & G2). pose proof (as_ext _ _ _ _ _ _ _ S2) as X2. pose proof (ge_n _ _ _ X2) as N2. pose proof (ge_pot _ _ _ X2) as P2.
  assert (Hh := wl_head_nil _ _ _ _ _ G2). unfold close_augmented.
  destruct (Nat.eq_dec (wl_head g2) 0) as [Z|Z].
  - exists 0, m2, g2, A2, ps2, false. split.
    { intros fuel _. rewrite E2. cbn [bind]. rewrite Z. reflexivity. }
    apply Hh in Z. assert (EA : A2 = A). { destruct (as_new _ _ _ _ _ _ _ S2) as [|[_ Y]]; auto. contradiction. } subst A2.
    destruct (Sm2 eq_refl) as [-> Pd]. { now apply allpushed_of. }
    split; [|split; [discriminate|auto]]. constructor; auto; try apply S2.
  - destruct (close_rounds_ok B foreign r (room B A2) m2 g2 A2 fl2 ps2 G2 (as_bound _ _ _ _ _ _ _ S2) (composed_gext _ _ _ X2 Cm) Mx2) as (bd & m3 & g3 & A3 & ps3 & E3 & C3); auto.
    { intros b Hin. rewrite N2. eapply blk_ok_mono; eauto. }
    exists bd, m3, g3, A3, ps3, true. split.
    { intros fuel Hf. rewrite E2. cbn [bind]. rewrite (proj2 (Nat.eqb_neq _ _) Z). rewrite E3 by auto. reflexivity. }
    split; [|split; [|discriminate]].
    + destruct C3 as [Q1 Q2 Q3 Q4 Q5 Q6 Q7 Q8 Q9 Q10 Q11]. constructor; auto; try lia.
      * intros. apply Q6; try lia. apply (ge_ent _ _ _ X2); auto.
      * intros b Hf. rewrite Q7 by auto. apply (as_frame _ _ _ _ _ _ _ S2); auto.
      * eapply psle_trans; eauto.
    + intros _. destruct (as_new _ _ _ _ _ _ _ S2) as [->|[Y _]]; [left; intros W; apply Z; now apply Hh|right]. pose proof (cs_pot _ _ _ _ _ _ _ _ _ _ C3). lia.
Qed.
