(** * CloseProofs: the worklist loop computes a transitive closure. *)
From Verif Require Import Base CondModel EdgeModel DncModel PropsCond EdgeProofs EdgeAddProofs EdgeGraph EdgeSem SummaryProofs.
Open Scope nat_scope.

(** ** bounded conditions *)
Definition cbound (B : N) (c : condition) : Prop := incl_mask (positive c) B /\ incl_mask (negative c) B.
Definition ebound (B : N) (l : list aedge) : Prop := forall a c k, In (a, c, k) l -> cbound B c /\ kind_ok k.
Lemma ebound_tl B e l : ebound B (e :: l) -> ebound B l.
Proof. intros H a c k Hi. apply (H a). now right. Qed.
Lemma cbound_merge B c c' : cbound B c -> cbound B c' -> cbound B (merge_cond c c').
Proof.
  intros [H1 H2] [H3 H4]. unfold merge_cond. split; cbn [positive negative]; intros i; unfold tb in *; rewrite N.ldiff_spec, N.lor_spec, andb_true_iff, orb_true_iff; intros [[|] _]; auto.
Qed.
Definition conj (c1 c2 : condition) : condition := mkCond (N.lor (positive c1) (positive c2)) (N.lor (negative c1) (negative c2)).
Lemma cbound_conj B c c' : cbound B c -> cbound B c' -> cbound B (conj c c').
Proof.
  intros [H1 H2] [H3 H4]. split; cbn [conj positive negative]; intros i; unfold tb in *; rewrite N.lor_spec, orb_true_iff; intros [|]; auto.
Qed.
Lemma conj_meets o c1 c2 : meets o (conj c1 c2) <-> meets o c1 /\ meets o c2.
Proof.
  unfold meets, conj. cbn [positive negative]. setoid_rewrite N.lor_spec. setoid_rewrite orb_true_iff. split.
  - intros H. split; intros i; destruct (H i) as [A B]; split; auto.
  - intros [H1 H2] i. destruct (H1 i), (H2 i). split; intros [|]; auto.
Qed.
Lemma conj_consistent c1 c2 : N.land (positive (conj c1 c2)) (negative (conj c1 c2)) = 0%N <-> consistent (conj c1 c2).
Proof.
  unfold consistent, tb. split.
  - intros Z i H1 H2. assert (Y := f_equal (fun x => N.testbit x i) Z). cbn beta in Y. rewrite N.land_spec, H1, H2, N.bits_0 in Y. discriminate.
  - intros H. apply N.bits_inj_0. intros i. rewrite N.land_spec. specialize (H i). destruct (N.testbit (positive _) i), (N.testbit (negative _) i); auto. exfalso; auto.
Qed.
Lemma addR_bound B c k l wl l' wl' : addR c k l wl l' wl' -> cbound B c -> kind_ok k -> ebound B l -> ebound B l'.
Proof.
  induction 1; intros Hc Hk Hl; auto; try (pose proof (ebound_tl _ _ _ Hl) as Hl').
  - intros a0 c0 k0 [E|[]]. injection E as <- <- <-. auto.
  - apply IHaddR; auto.
  - apply IHaddR; auto. apply cbound_merge; auto. apply (Hl a c' k). now left.
  - intros a0 c0 k0 [E|Hi]; [injection E as <- <- <-; apply (Hl a); now left|]. apply (IHaddR Hc Hk Hl' a0 c0 k0 Hi).
Qed.

(** ** the potential *)
Definition universe (B : N) : list (condition * N) :=
  flat_map (fun p => flat_map (fun n => map (fun k => (mkCond p n, k)) (map N.of_nat (seq 0 32))) (map N.of_nat (seq 0 (S (N.to_nat B))))) (map N.of_nat (seq 0 (S (N.to_nat B)))).
Lemma in_upto (x B : N) : (x <= B)%N -> In x (map N.of_nat (seq 0 (S (N.to_nat B)))).
Proof. intros H. apply in_map_iff. exists (N.to_nat x). split; [apply N2Nat.id|]. apply in_seq. lia. Qed.
Lemma in_universe B c k : cbound B c -> kind_ok k -> In (c, k) (universe B).
Proof.
  intros [H1 H2] Hk. unfold universe. apply in_flat_map. exists (positive c). split; [apply in_upto, at_most_le, at_most_incl; auto|].
  apply in_flat_map. exists (negative c). split; [apply in_upto, at_most_le, at_most_incl; auto|]. apply in_map_iff. exists k. split; [destruct c; reflexivity|].
  change 32 with (S (N.to_nat 31)). apply in_upto. exact Hk.
Qed.
Definition mask_inclb (a b : N) : bool := N.eqb (N.lor a b) b.
Definition entb (l : list aedge) (x : condition * N) : bool :=
  existsb (fun e => mask_inclb (positive (cond_of e)) (positive (fst x)) && mask_inclb (negative (cond_of e)) (negative (fst x)) && mask_inclb (snd x) (kind_of e)) l.
Lemma mask_inclb_spec a b : mask_inclb a b = true <-> incl_mask a b.
Proof. unfold mask_inclb. rewrite N.eqb_eq, N.lor_comm. apply lor_incl. Qed.
Lemma entb_spec l c k : entb l (c, k) = true <-> ent l c k.
Proof.
  unfold entb, ent. rewrite existsb_exists. split.
  - intros ([[a c'] k'] & Hi & H). cbn [cond_of kind_of fst snd] in H. rewrite !andb_true_iff, !mask_inclb_spec in H. exists a, c', k'. unfold mincl. tauto.
  - intros (a & c' & k' & Hi & [M1 M2] & K). exists (a, c', k'). split; auto. cbn [cond_of kind_of fst snd]. rewrite !andb_true_iff, !mask_inclb_spec. tauto.
Qed.
Definition pot (B : N) (l : list aedge) : nat := length (filter (entb l) (universe B)).
Lemma filter_le {X} (f g : X -> bool) l : (forall x, f x = true -> g x = true) -> length (filter f l) <= length (filter g l).
Proof. intros H. induction l as [|x l IH]; cbn; auto. specialize (H x). destruct (f x), (g x); cbn; try lia. Qed.
Lemma filter_lt {X} (f g : X -> bool) l x : (forall x, f x = true -> g x = true) -> In x l -> f x = false -> g x = true -> length (filter f l) < length (filter g l).
Proof.
  intros H. induction l as [|y l IH]; intros Hi Hf Hg; [destruct Hi|]. cbn [filter]. pose proof (filter_le f g l H) as L. destruct Hi as [->|Hi].
  - rewrite Hf, Hg. cbn [length]. lia.
  - specialize (IH Hi Hf Hg). specialize (H y). destruct (f y), (g y); cbn [length]; try lia.
Qed.
Lemma pot_mono B l l' : (forall c k, ent l c k -> ent l' c k) -> pot B l <= pot B l'.
Proof. intros H. apply filter_le. intros [c k]. rewrite !entb_spec. auto. Qed.
Lemma pot_strict B l l' c k : (forall c k, ent l c k -> ent l' c k) -> cbound B c -> kind_ok k -> ent l' c k -> ~ ent l c k -> pot B l < pot B l'.
Proof.
  intros H Hc Hk H1 H2. apply (filter_lt _ _ _ (c, k)).
  - intros [c0 k0]. rewrite !entb_spec. auto.
  - now apply in_universe.
  - destruct (entb l (c, k)) eqn:E; auto. apply entb_spec in E. contradiction.
  - now apply entb_spec.
Qed.
Lemma pot_max B l : pot B l <= length (universe B).
Proof. unfold pot. induction (universe B) as [|x u IH]; cbn; auto. destruct (entb l x); cbn; lia. Qed.
Definition gpot (B : N) (A : agraph) : nat := fold_right (fun l s => pot B l + s) 0 (acells A).
Lemma gpot_max B A : length (acells A) = an A * an A -> gpot B A <= length (universe B) * (an A * an A).
Proof.
  intros <-. unfold gpot. induction (acells A) as [|l t IH]; cbn [fold_right length]; [lia|]. pose proof (pot_max B l). nia.
Qed.
Lemma gpot_with B A i j l wl : length (acells A) = an A * an A -> i < an A -> j < an A -> gpot B (with_cell A i j l wl) + pot B (cell A i j) = gpot B A + pot B l.
Proof.
  intros H Hi Hj. assert (L : i * an A + j < length (acells A)) by (rewrite H; now apply idx_lt). unfold gpot, cell, with_cell. cbn [acells]. revert L. generalize (i * an A + j). generalize (acells A). clear.
  intros cs x L. revert x L; induction cs as [|h t IH]; intros [|x] L; cbn in L; try lia; cbn [upd fold_right nth]; [lia|]. specialize (IH x). lia.
Qed.

(** ** extension of a graph *)
Definition abound (B : N) (A : agraph) : Prop := forall l, In l (acells A) -> ebound B l.
Record gext (B : N) (A A' : agraph) : Prop := {
  ge_n : an A' = an A;
  ge_len : length (acells A') = length (acells A);
  ge_ent : forall i j c k, i < an A -> j < an A -> ent (cell A i j) c k -> ent (cell A' i j) c k;
  ge_pot : gpot B A <= gpot B A';
  ge_wl : gpot B A = gpot B A' -> length (awl A') <= length (awl A);
  ge_old : forall i j a c k, i < an A -> j < an A -> In (a, c, k) (cell A' i j) -> ~ In a (awl A') -> In (a, c, k) (cell A i j) /\ ~ In a (awl A) }.
Lemma gext_refl B A : gext B A A.
Proof. constructor; auto. Qed.
Lemma gext_trans B A1 A2 A3 : gext B A1 A2 -> gext B A2 A3 -> gext B A1 A3.
Proof.
  intros H1 H2. pose proof (ge_n _ _ _ H1) as N1. pose proof (ge_pot _ _ _ H1). pose proof (ge_pot _ _ _ H2). constructor.
  - rewrite (ge_n _ _ _ H2). auto.
  - rewrite (ge_len _ _ _ H2). apply H1.
  - intros i j c k Hi Hj E. apply (ge_ent _ _ _ H2); try congruence. apply (ge_ent _ _ _ H1); auto.
  - lia.
  - intros E. pose proof (ge_wl _ _ _ H1). pose proof (ge_wl _ _ _ H2). lia.
  - intros i j a c k Hi Hj Hin Hn. destruct (ge_old _ _ _ H2 i j a c k) as [X Y]; try congruence. apply (ge_old _ _ _ H1); auto.
Qed.
Definition kindA (A : agraph) (o : outcome) (i j : nat) : N := seen o (pairs (cell A i j)).
Lemma ent_kind l o c k : ent l c k -> meets o c -> at_most k (seen o (pairs l)) = true.
Proof.
  intros (a & c' & k' & Hi & M & K) Ho. apply at_most_incl. intros b Hb. apply seen_bit. exists a, c', k'. ands; auto. eapply mincl_meets; eauto.
Qed.
Lemma ent_in a c k l : In (a, c, k) l -> ent l c k.
Proof. intros H. exists a, c, k. ands; auto using mincl_refl, incl_refl_mask. Qed.
Lemma ent_mono_kind l l' o : (forall c k, ent l c k -> ent l' c k) -> at_most (seen o (pairs l)) (seen o (pairs l')) = true.
Proof.
  intros H. apply at_most_incl. intros b Hb. apply seen_bit in Hb. destruct Hb as (a & c & k & Hi & M & K). pose proof (ent_kind l' o c k (H _ _ (ent_in _ _ _ _ Hi)) M) as X. apply at_most_incl in X. auto.
Qed.
Lemma gext_kind B A A' o i j : gext B A A' -> i < an A -> j < an A -> at_most (kindA A o i j) (kindA A' o i j) = true.
Proof. intros H Hi Hj. apply ent_mono_kind. intros c k. apply H; auto. Qed.

(** upper bounds: closed families *)
Definition okM (n : nat) (M : nat -> nat -> N) : Prop := kinds n M /\ trans_closed n M.
Definition belowM (o : outcome) (M : nat -> nat -> N) (A : agraph) : Prop := forall i j, i < an A -> j < an A -> at_most (kindA A o i j) (M i j) = true.

Lemma cell_bound B A i j : abound B A -> length (acells A) = an A * an A -> i < an A -> j < an A -> ebound B (cell A i j).
Proof. intros H L Hi Hj. apply H. now apply cell_in. Qed.
Lemma seen_ok B l o : ebound B l -> kind_ok (seen o (pairs l)).
Proof.
  induction l as [|[[a c] k] l IH]; intros H; [apply zero_ok|]. cbn [pairs map seen fold_right cond_of kind_of fst snd]. fold (pairs l). fold (seen o (pairs l)).
  specialize (IH (ebound_tl _ _ _ H)). destruct (meetsb o c); auto. apply join_ok; auto. apply (H a c k). now left.
Qed.

Lemma addG_ext B m g A foreign fl i j c k A' : ginv m g A foreign fl -> addG i j c k A A' -> i < an A -> j < an A -> consistent c -> cbound B c -> kind_ok k -> abound B A ->
  gext B A A' /\ abound B A' /\ ent (cell A' i j) c k /\ (forall o i' j', i' < an A -> j' < an A -> kindA A' o i' j' = if (i =? i') && (j =? j') then dependency_join (kindA A o i j) (if meetsb o c then k else no_dependency) else kindA A o i' j').
Proof.
  intros G (l' & wl' & R & ->) Hi Hj Hc Hcb Hk Hb. pose proof (gi_part _ _ _ _ _ G) as P. pose proof (gp_clen _ _ _ P) as Lc.
  assert (Gd : good (cell A i j)) by (apply (gp_good _ _ _ P); now apply cell_in).
  destruct (addR_ent _ _ _ _ _ _ R Hc Gd) as [E1 E2].
  assert (Nd : NoDup (ids (cell A i j))).
  { destruct (allids_cell A i j Lc Hi Hj) as (u & v & _ & Eu). destruct (gi_disj _ _ _ _ _ G) as (N & _). rewrite Eu in N. apply NoDup_mid in N. tauto. }
  pose proof (gpot_with B A i j l' wl' Lc Hi Hj) as Gp. pose proof (pot_mono B _ _ E2) as Pm. pose proof (addR_bound B _ _ _ _ _ _ R Hcb Hk (cell_bound _ _ _ _ Hb Lc Hi Hj)) as Bl.
  assert (Cw : forall i' j', j' < an A -> cell (with_cell A i j l' wl') i' j' = if (i =? i') && (j =? j') then l' else cell A i' j') by (intros; now apply cell_with).
  split; [|split; [|split]].
  - constructor.
    + reflexivity.
    + unfold with_cell. cbn [acells]. apply upd_length.
    + intros i' j' c0 k0 Hi' Hj' He. rewrite Cw by auto. destruct (Nat.eqb_spec i i'); cbn [andb]; auto. destruct (Nat.eqb_spec j j'); cbn [andb]; auto. subst. auto.
    + lia.
    + intros Eq. cbn [awl with_cell]. destruct (addR_grow _ _ _ _ _ _ R Hc Gd) as [[_ H]|(mm & M1 & M2 & M3 & M4 & a & _ & M5)]; auto.
      exfalso. assert (pot B (cell A i j) < pot B l'); [|lia]. destruct (Bl _ _ _ M5) as [Bm _]. eapply pot_strict; eauto.
    + intros i' j' a c0 k0 Hi' Hj' Hin Hn. cbn [awl with_cell] in Hn. destruct (addR_wl _ _ _ _ _ _ R Nd) as (W1 & W2 & W3).
      rewrite Cw in Hin by auto. destruct ((i =? i') && (j =? j')) eqn:Eij.
      * apply andb_true_iff in Eij. rewrite !Nat.eqb_eq in Eij. destruct Eij as [<- <-]. destruct (W3 _ _ _ Hin); [contradiction|auto].
      * split; auto. intros Hw. apply Hn. apply W1; auto. intros Hi2.
        (* a in another cell *)
        apply in_map_iff in Hi2. destruct Hi2 as ([[a1 c1] k1] & Ea & H1). cbn in Ea. subst a1.
        destruct (gp_set _ _ _ P i j Hi Hj) as (p1 & _ & S1). destruct (gp_set _ _ _ P i' j' Hi' Hj') as (p2 & _ & S2).
        destruct (setrep_at _ _ _ _ _ _ _ _ S1 H1) as (e1 & X1 & X2 & X3 & _). destruct (setrep_at _ _ _ _ _ _ _ _ S2 Hin) as (e2 & Y1 & Y2 & Y3 & _).
        assert (e1 = e2) by congruence. subst e2. rewrite <- X2, <- X3, Y2, Y3, !Nat.eqb_refl in Eij. discriminate.
  - intros l Hl. apply (In_nth _ _ []) in Hl. destruct Hl as (q & Hq & <-). unfold with_cell in *. cbn [acells] in *. rewrite upd_length in Hq.
    rewrite nth_upd by (rewrite Lc; now apply idx_lt). destruct (i * an A + j =? q); auto. apply Hb. now apply nth_In.
  - rewrite Cw by auto. now rewrite !Nat.eqb_refl.
  - intros o i' j' Hi' Hj'. unfold kindA. rewrite Cw by auto. destruct ((i =? i') && (j =? j')) eqn:Eij; auto. apply (addR_seen _ _ _ _ _ _ R Hc Gd).
Qed.

(** ** states reached from a start *)
Record reach (B : N) (foreign : list addr) (m0 : mem) (A0 : agraph) (st : mem * aug) (A : agraph) : Prop := {
  re_inv : exists fl, ginv (fst st) (snd st) A foreign fl;
  re_bound : abound B A;
  re_ext : gext B A0 A;
  re_below : forall o M, okM (an A0) M -> belowM o M A0 -> belowM o M A;
  re_frame : forall a, In a foreign -> edge_at (fst st) a = edge_at m0 a }.
Lemma reach_n B foreign m0 A0 st A : reach B foreign m0 A0 st A -> an A = an A0.
Proof. intros R. apply (ge_n _ _ _ (re_ext _ _ _ _ _ _ R)). Qed.

Definition bgood (B : N) (c : condition) (k : N) : Prop := consistent c /\ cbound B c /\ kind_ok k /\ k <> 0%N.
Lemma add_transitive_ok B foreign m0 A0 m g A s t u c1 c2 k1 k2 : reach B foreign m0 A0 (m, g) A -> s < an A0 -> t < an A0 -> u < an A0 -> bgood B c1 k1 -> bgood B c2 k2 ->
  (forall o M, okM (an A0) M -> belowM o M A0 -> (meets o c1 -> at_most k1 (M s t) = true) /\ (meets o c2 -> at_most k2 (M t u) = true)) ->
  exists m' g' A', add_transitive_edge s u c1 c2 k1 k2 m g = Ok (m', g') /\ reach B foreign m0 A0 (m', g') A' /\ gext B A A' /\
    (forall o, meets o c1 -> meets o c2 -> at_most (dependency_trans k1 k2) (kindA A' o s u) = true).
Proof.
  intros R Hs Ht Hu (X1 & X2 & X3 & X4) (Y1 & Y2 & Y3 & Y4) HM. pose proof (reach_n _ _ _ _ _ _ R) as En. unfold add_transitive_edge. fold (conj c1 c2).
  destruct (N.eqb_spec (N.land (positive (conj c1 c2)) (negative (conj c1 c2))) 0) as [Z|Z]; cbn [negb].
  - apply conj_consistent in Z. destruct (re_inv _ _ _ _ _ _ R) as (fl & G). cbn [fst snd] in G.
    assert (Kt : kind_ok (dependency_trans k1 k2)) by (now apply trans_ok).
    assert (Kn : dependency_trans k1 k2 <> 0%N). { intros E. destruct (C38_trans k1 k2 0%N X3 Y3 zero_ok) as (_ & _ & _ & _ & _ & _ & _ & Q). apply Q in E. unfold no_dependency in E. destruct E; contradiction. }
    rewrite <- En in Hs, Hu.
    destruct (add_graph_ok m g A foreign fl s u (conj c1 c2) (dependency_trans k1 k2) G Hs Hu Kn Z) as (m' & g' & A' & fl' & E & G' & Ag & Fr).
    destruct (addG_ext B _ _ _ _ _ _ _ _ _ _ G Ag Hs Hu Z (cbound_conj _ _ _ X2 Y2) Kt (re_bound _ _ _ _ _ _ R)) as (Ex & Bo & En' & Kd).
    exists m', g', A'. split; auto. split; [|split; auto].
    + constructor; cbn [fst snd]; eauto.
      * eapply gext_trans; eauto. apply R.
      * intros o M OM BM i j Hi Hj. pose proof (ge_n _ _ _ Ex) as En2. rewrite En2 in Hi, Hj. rewrite Kd by auto. pose proof (re_below _ _ _ _ _ _ R o M OM BM) as BA.
        destruct (Nat.eqb_spec s i); cbn [andb]; auto. destruct (Nat.eqb_spec u j); cbn [andb]; auto. subst i j. apply join_lub; auto.
        destruct (meetsb o (conj c1 c2)) eqn:Mb.
        { apply meetsb_spec, conj_meets in Mb. destruct (HM o M OM BM) as [H1 H2]. destruct OM as [KM TM]. rewrite En in *.
          eapply at_most_trans; [|apply (TM s u t); auto]. apply trans_mono; auto; tauto. }
        { unfold no_dependency. apply at_most_incl. intros b. unfold tb. rewrite N.bits_0. discriminate. }
      * intros a Ha. rewrite Fr by auto. apply (re_frame _ _ _ _ _ _ R a Ha).
    + intros o M1 M2. eapply ent_kind; eauto. now apply conj_meets.
  - exists m, g, A. split; auto. split; auto. split; [apply gext_refl|]. intros o M1 M2. exfalso. apply Z. apply conj_consistent. apply sat_consistent. exists o. now apply conj_meets.
Qed.
Lemma reach_refl B foreign m g A fl : ginv m g A foreign fl -> abound B A -> reach B foreign m A (m, g) A.
Proof. intros G H. constructor; cbn [fst snd]; eauto using gext_refl. Qed.
Lemma reach_bgood B foreign m0 A0 st A i j a c k : reach B foreign m0 A0 st A -> i < an A0 -> j < an A0 -> In (a, c, k) (cell A i j) -> bgood B c k.
Proof.
  intros R Hi Hj Hin. rewrite <- (reach_n _ _ _ _ _ _ R) in Hi, Hj. destruct (re_inv _ _ _ _ _ _ R) as (fl & G). pose proof (gi_part _ _ _ _ _ G) as P.
  destruct (gp_good _ _ _ P _ (cell_in A i j (gp_clen _ _ _ P) Hi Hj) a c k Hin) as [X1 X2]. destruct (cell_bound _ _ _ _ (re_bound _ _ _ _ _ _ R) (gp_clen _ _ _ P) Hi Hj a c k Hin) as [Y1 Y2]. unfold bgood. auto.
Qed.
Lemma in_pairs c k l : In (c, k) (pairs l) -> exists a, In (a, c, k) l.
Proof. intros H. apply in_map_iff in H. destruct H as ([[a c'] k'] & E & H). cbn in E. injection E as <- <-. eauto. Qed.

(** the edge being processed *)
Definition edge_ok (B : N) (A0 : agraph) (e : edge) : Prop :=
  e_source e < an A0 /\ e_sink e < an A0 /\ bgood B (e_cond e) (e_kind e) /\ ent (cell A0 (e_source e) (e_sink e)) (e_cond e) (e_kind e).
Definition before_done (A : agraph) (e : edge) (i : nat) : Prop :=
  forall a c k, In (a, c, k) (cell A i (e_source e)) -> ~ In a (awl A) -> forall o, meets o c -> meets o (e_cond e) -> at_most (dependency_trans k (e_kind e)) (kindA A o i (e_sink e)) = true.
Definition after_done (A : agraph) (e : edge) (i : nat) : Prop :=
  forall a c k, In (a, c, k) (cell A (e_sink e) i) -> ~ In a (awl A) -> forall o, meets o (e_cond e) -> meets o c -> at_most (dependency_trans (e_kind e) k) (kindA A o (e_source e) i) = true.
Lemma before_mono B A A' e i : gext B A A' -> i < an A -> e_source e < an A -> e_sink e < an A -> before_done A e i -> before_done A' e i.
Proof.
  intros X Hi Hs Hk H a c k Hin Hn o M1 M2. destruct (ge_old _ _ _ X i (e_source e) a c k) as [Y1 Y2]; auto. eapply at_most_trans; [apply (H a c k Y1 Y2 o); auto|]. eapply gext_kind; eauto.
Qed.
Lemma after_mono B A A' e i : gext B A A' -> i < an A -> e_source e < an A -> e_sink e < an A -> after_done A e i -> after_done A' e i.
Proof.
  intros X Hi Hs Hk H a c k Hin Hn o M1 M2. destruct (ge_old _ _ _ X (e_sink e) i a c k) as [Y1 Y2]; auto. eapply at_most_trans; [apply (H a c k Y1 Y2 o); auto|]. eapply gext_kind; eauto.
Qed.

Lemma add_before_ok B foreign m0 A0 m g A e i : reach B foreign m0 A0 (m, g) A -> edge_ok B A0 e -> i < an A0 ->
  exists m' g' A', (s1 <- rd (graph g) (i * n_inst g + e_source e) ;; add_transitive_before s1 i e m g) = Ok (m', g') /\ reach B foreign m0 A0 (m', g') A' /\ gext B A A' /\ before_done A' e i.
Proof.
  intros R (Es & Ek & Eg & Ee) Hi. pose proof (reach_n _ _ _ _ _ _ R) as En. destruct (re_inv _ _ _ _ _ _ R) as (fl & G). cbn [fst snd] in G.
  destruct (read_cell _ _ _ _ _ i (e_source e) G) as (p & -> & E2); try lia. cbn [bind]. unfold add_transitive_before. rewrite E2. cbn [bind].
  pose (J := fun (done : list (condition * N)) (st : mem * aug) => exists A1, reach B foreign m0 A0 st A1 /\ gext B A A1 /\
    forall c k, In (c, k) done -> forall o, meets o c -> meets o (e_cond e) -> at_most (dependency_trans k (e_kind e)) (kindA A1 o i (e_sink e)) = true).
  match goal with |- exists m' g' A', foldM ?f ?l _ = _ /\ _ => destruct (foldM_inv f l J (m, g)) as ([m' g'] & E & A1 & R1 & X1 & D1) end.
  - exists A. split; auto. split; [apply gext_refl|]. intros c k [].
  - intros done [c k] rest [m1 g1] El (A1 & R1 & X1 & D1).
    assert (Hin : In (c, k) (pairs (cell A i (e_source e)))) by (rewrite El; apply in_or_app; right; now left). apply in_pairs in Hin. destruct Hin as (a & Hin).
    destruct (add_transitive_ok B foreign m0 A0 m1 g1 A1 i (e_source e) (e_sink e) c (e_cond e) k (e_kind e) R1) as (m2 & g2 & A2 & E3 & R2 & X2 & D2); auto.
    { exact (reach_bgood _ _ _ _ _ _ i (e_source e) a c k R Hi Es Hin). }
    { intros o M OM BM. split; intros Mo.
      - eapply at_most_trans; [eapply ent_kind; [eapply ent_in; eauto|eauto]|]. apply (re_below _ _ _ _ _ _ R o M OM BM); lia.
      - eapply at_most_trans; [eapply ent_kind; eauto|]. apply BM; auto. }
    exists (m2, g2). split; auto. exists A2. split; auto. split; [eapply gext_trans; eauto|]. intros c' k' Hc o M1 M2. apply in_app_iff in Hc. destruct Hc as [Hc|[Eq|[]]].
    + eapply at_most_trans; [apply (D1 c' k' Hc o); auto|]. pose proof (reach_n _ _ _ _ _ _ R1). eapply gext_kind; eauto; lia.
    + injection Eq as <- <-. auto.
  - exists m', g', A1. split; auto. split; auto. split; auto. intros a c k Hin Hn o M1 M2.
    destruct (ge_old _ _ _ X1 i (e_source e) a c k) as [Y1 Y2]; auto; try lia. apply (D1 c k); auto. apply in_map_iff. exists (a, c, k). auto.
Qed.
Lemma add_after_ok B foreign m0 A0 m g A e i : reach B foreign m0 A0 (m, g) A -> edge_ok B A0 e -> i < an A0 ->
  exists m' g' A', (s2 <- rd (graph g) (e_sink e * n_inst g + i) ;; add_transitive_after e s2 i m g) = Ok (m', g') /\ reach B foreign m0 A0 (m', g') A' /\ gext B A A' /\ after_done A' e i.
Proof.
  intros R (Es & Ek & Eg & Ee) Hi. pose proof (reach_n _ _ _ _ _ _ R) as En. destruct (re_inv _ _ _ _ _ _ R) as (fl & G). cbn [fst snd] in G.
  destruct (read_cell _ _ _ _ _ (e_sink e) i G) as (p & -> & E2); try lia. cbn [bind]. unfold add_transitive_after. rewrite E2. cbn [bind].
  pose (J := fun (done : list (condition * N)) (st : mem * aug) => exists A1, reach B foreign m0 A0 st A1 /\ gext B A A1 /\
    forall c k, In (c, k) done -> forall o, meets o (e_cond e) -> meets o c -> at_most (dependency_trans (e_kind e) k) (kindA A1 o (e_source e) i) = true).
  match goal with |- exists m' g' A', foldM ?f ?l _ = _ /\ _ => destruct (foldM_inv f l J (m, g)) as ([m' g'] & E & A1 & R1 & X1 & D1) end.
  - exists A. split; auto. split; [apply gext_refl|]. intros c k [].
  - intros done [c k] rest [m1 g1] El (A1 & R1 & X1 & D1).
    assert (Hin : In (c, k) (pairs (cell A (e_sink e) i))) by (rewrite El; apply in_or_app; right; now left). apply in_pairs in Hin. destruct Hin as (a & Hin).
    destruct (add_transitive_ok B foreign m0 A0 m1 g1 A1 (e_source e) (e_sink e) i (e_cond e) c (e_kind e) k R1) as (m2 & g2 & A2 & E3 & R2 & X2 & D2); auto.
    { exact (reach_bgood _ _ _ _ _ _ (e_sink e) i a c k R Ek Hi Hin). }
    { intros o M OM BM. split; intros Mo.
      - eapply at_most_trans; [eapply ent_kind; eauto|]. apply BM; auto.
      - eapply at_most_trans; [eapply ent_kind; [eapply ent_in; eauto|eauto]|]. apply (re_below _ _ _ _ _ _ R o M OM BM); lia. }
    exists (m2, g2). split; auto. exists A2. split; auto. split; [eapply gext_trans; eauto|]. intros c' k' Hc o M1 M2. apply in_app_iff in Hc. destruct Hc as [Hc|[Eq|[]]].
    + eapply at_most_trans; [apply (D1 c' k' Hc o); auto|]. pose proof (reach_n _ _ _ _ _ _ R1). eapply gext_kind; eauto; lia.
    + injection Eq as <- <-. auto.
  - exists m', g', A1. split; auto. split; auto. split; auto. intros a c k Hin Hn o M1 M2.
    destruct (ge_old _ _ _ X1 (e_sink e) i a c k) as [Y1 Y2]; auto; try lia. apply (D1 c k); auto. apply in_map_iff. exists (a, c, k). auto.
Qed.
Lemma close_using_ok B foreign m g A fl e : ginv m g A foreign fl -> abound B A -> edge_ok B A e ->
  exists m' g' A', close_using_edge e m g = Ok (m', g') /\ reach B foreign m A (m', g') A' /\ (forall i, i < an A -> before_done A' e i /\ after_done A' e i).
Proof.
  intros G Hb Eo. pose proof (gp_n _ _ _ (gi_part _ _ _ _ _ G)) as En. unfold close_using_edge. rewrite En.
  pose (J := fun (done : list nat) (st : mem * aug) => exists A1, reach B foreign m A st A1 /\ forall i, In i done -> before_done A1 e i /\ after_done A1 e i).
  match goal with |- exists m' g' A', foldM ?f ?l _ = _ /\ _ => destruct (foldM_inv f l J (m, g)) as ([m' g'] & E & A1 & R1 & D1) end.
  - exists A. split; [eapply reach_refl; eauto|]. intros i [].
  - intros done i rest [m1 g1] El (A1 & R1 & D1).
    assert (Hi : i < an A). { assert (In i (seq 0 (an A))) by (rewrite El; apply in_or_app; right; now left). apply in_seq in H. lia. }
    assert (Hd : forall i, In i done -> i < an A). { intros j Hj. assert (In j (seq 0 (an A))) by (rewrite El; apply in_or_app; auto). apply in_seq in H. lia. }
    destruct Eo as (Es & Ek & Erest). pose proof (reach_n _ _ _ _ _ _ R1) as En1.
    destruct (re_inv _ _ _ _ _ _ R1) as (fl1 & G1). pose proof (gp_n _ _ _ (gi_part _ _ _ _ _ G1)) as Eg1. cbn [fst snd] in Eg1.
    destruct (add_before_ok B foreign m A m1 g1 A1 e i R1 (Logic.conj Es (Logic.conj Ek Erest)) Hi) as (m2 & g2 & A2 & E2 & R2 & X2 & D2).
    pose proof (reach_n _ _ _ _ _ _ R2) as En2. destruct (re_inv _ _ _ _ _ _ R2) as (fl2 & G2). pose proof (gp_n _ _ _ (gi_part _ _ _ _ _ G2)) as Eg2. cbn [fst snd] in Eg2.
    destruct (add_after_ok B foreign m A m2 g2 A2 e i R2 (Logic.conj Es (Logic.conj Ek Erest)) Hi) as (m3 & g3 & A3 & E3 & R3 & X3 & D3).
    exists (m3, g3). split.
    + rewrite Eg1, En1 in E2. rewrite Eg2, En2 in E3. destruct (rd (graph g1) (i * an A + e_source e)) as [s1| | |]; cbn [bind] in E2 |- *; try discriminate. rewrite E2. cbn [bind]. exact E3.
    + exists A3. split; auto. intros j Hj. apply in_app_iff in Hj. destruct Hj as [Hj|[<-|[]]].
      * pose proof (Hd j Hj). destruct (D1 j Hj) as [Y1 Y2]. pose proof (gext_trans _ _ _ _ X2 X3) as X. split; [eapply before_mono; eauto|eapply after_mono; eauto]; lia.
      * split; auto. eapply before_mono; eauto; lia.
  - exists m', g', A1. split; auto. split; auto. intros i Hi. apply D1. apply in_seq. lia.
Qed.

(** ** the loop *)
Definition composed (A : agraph) : Prop := forall i j k a1 c1 k1 a2 c2 k2, i < an A -> j < an A -> k < an A ->
  In (a1, c1, k1) (cell A i j) -> In (a2, c2, k2) (cell A j k) -> ~ In a1 (awl A) -> ~ In a2 (awl A) ->
  forall o, meets o c1 -> meets o c2 -> at_most (dependency_trans k1 k2) (kindA A o i k) = true.

Lemma abound_wl B A wl : abound B A -> abound B (set_wl A wl).
Proof. auto. Qed.
Lemma one_round B m g A foreign fl a rest : ginv m g A foreign fl -> abound B A -> composed A -> awl A = a :: rest ->
  exists m1 g1 e m' g' A', take_head m g = Ok (m1, g1, e) /\ close_using_edge e m1 g1 = Ok (m', g') /\ (exists fl', ginv m' g' A' foreign fl') /\ abound B A' /\ composed A' /\
    an A' = an A /\ gpot B A <= gpot B A' /\ (gpot B A = gpot B A' -> length (awl A') < length (awl A)) /\
    (forall o M, okM (an A) M -> belowM o M A -> belowM o M A') /\ (forall o i j, i < an A -> j < an A -> at_most (kindA A o i j) (kindA A' o i j) = true) /\
    (forall i j c k, i < an A -> j < an A -> ent (cell A i j) c k -> ent (cell A' i j) c k) /\
    (forall b, In b foreign -> edge_at m' b = edge_at m b).
Proof.
  intros G Hb Hc Ew. destruct (take_head_ok m g A foreign fl a rest G Ew) as (m1 & g1 & e & i0 & j0 & E1 & G1 & Hi0 & Hj0 & Es & Ek & Hin & Fr).
  set (A0 := set_wl A rest) in *.
  assert (R0 : reach B foreign m1 A0 (m1, g1) A0) by (eapply reach_refl; eauto).
  assert (Eo : edge_ok B A0 e). { unfold edge_ok. rewrite Es, Ek. ands; auto. { eapply (reach_bgood B foreign m1 A0 (m1, g1) A0 i0 j0); eauto. } eapply ent_in. exact Hin. }
  destruct (close_using_ok B foreign m1 g1 A0 fl e G1 Hb Eo) as (m' & g' & A' & E2 & R & D).
  exists m1, g1, e, m', g', A'. pose proof (re_ext _ _ _ _ _ _ R) as X. pose proof (reach_n _ _ _ _ _ _ R) as En. change (an A0) with (an A) in *. change (gpot B A0) with (gpot B A) in *.
  ands; auto.
  - apply (re_inv _ _ _ _ _ _ R).
  - apply R.
  - intros i j k a1 c1 k1 a2 c2 k2 Hi Hj Hk H1 H2 N1 N2 o M1 M2. rewrite En in Hi, Hj, Hk.
    destruct (ge_old _ _ _ X i j a1 c1 k1) as [X1 X2]; auto. destruct (ge_old _ _ _ X j k a2 c2 k2) as [Y1 Y2]; auto. cbn [awl A0 set_wl] in X2, Y2.
    change (cell A0 i j) with (cell A i j) in X1. change (cell A0 j k) with (cell A j k) in Y1.
    pose proof (gi_part _ _ _ _ _ G) as P. destruct (gp_set _ _ _ P i0 j0 Hi0 Hj0) as (p0 & _ & S0). destruct (setrep_at _ _ _ _ _ _ _ _ S0 Hin) as (e0 & Ee0 & Es0 & Ek0 & Ec0 & Ekd0).
    destruct (Nat.eq_dec a1 a) as [->|Ha1]; [|destruct (Nat.eq_dec a2 a) as [->|Ha2]].
    + destruct (gp_set _ _ _ P i j Hi Hj) as (p1 & _ & S1). destruct (setrep_at _ _ _ _ _ _ _ _ S1 X1) as (e1 & Ee1 & Es1 & Ek1 & Ec1 & Ekd1). assert (e1 = e0) by congruence. subst e1.
      destruct (D k Hk) as [_ Af]. specialize (Af a2 c2 k2). rewrite Ek, <- Ek0, Ek1, Es, <- Es0, Es1 in Af. rewrite <- Ekd1, Ekd0. apply Af; auto. now rewrite <- Ec0, Ec1.
    + destruct (gp_set _ _ _ P j k Hj Hk) as (p1 & _ & S1). destruct (setrep_at _ _ _ _ _ _ _ _ S1 Y1) as (e1 & Ee1 & Es1 & Ek1 & Ec1 & Ekd1). assert (e1 = e0) by congruence. subst e1.
      destruct (D i Hi) as [Be _]. specialize (Be a1 c1 k1). rewrite Es, <- Es0, Es1, Ek, <- Ek0, Ek1 in Be. rewrite <- Ekd1, Ekd0. apply Be; auto. now rewrite <- Ec0, Ec1.
    + eapply at_most_trans; [eapply (Hc i j k); eauto; rewrite Ew; intros [|]; auto|]. eapply (gext_kind B A0 A'); eauto.
  - apply (ge_pot _ _ _ X).
  - intros Eq. pose proof (ge_wl _ _ _ X Eq) as W. cbn [awl A0 set_wl] in W. rewrite Ew. cbn [length]. lia.
  - intros o M OM BM. apply (re_below _ _ _ _ _ _ R o M OM BM).
  - intros o i j Hi Hj. apply (gext_kind B A0 A'); auto.
  - intros i j c k Hi Hj He. apply (ge_ent _ _ _ X i j c k Hi Hj He).
  - intros b Hf. pose proof (re_frame _ _ _ _ _ _ R b Hf) as Fb. cbn [fst] in Fb. rewrite Fb. apply Fr. intros ->. destruct (gi_disj _ _ _ _ _ G) as (_ & _ & D3 & _). destruct (D3 a) as (_ & Z); auto.
    apply in_allids; [apply G|]. exists i0, j0. ands; auto. apply (in_map id_of) in Hin. exact Hin.
Qed.

Definition room (B : N) (A : agraph) : nat := length (universe B) * (an A * an A) - gpot B A.
Lemma room_spec B A : length (acells A) = an A * an A -> room B A + gpot B A = length (universe B) * (an A * an A).
Proof. intros L. pose proof (gpot_max B A L). unfold room. lia. Qed.
Record closed_from (B : N) (foreign : list addr) (m : mem) (A : agraph) (m' : mem) (g' : aug) (A' : agraph) : Prop := {
  cf_inv : exists fl', ginv m' g' A' foreign fl';
  cf_bound : abound B A';
  cf_comp : composed A';
  cf_n : an A' = an A;
  cf_pot : gpot B A <= gpot B A';
  cf_wl : gpot B A = gpot B A' -> length (awl A') <= length (awl A);
  cf_below : forall o M, okM (an A) M -> belowM o M A -> belowM o M A';
  cf_ent : forall i j c k, i < an A -> j < an A -> ent (cell A i j) c k -> ent (cell A' i j) c k;
  cf_frame : forall b, In b foreign -> edge_at m' b = edge_at m b }.
Lemma close_worklist_ok B foreign : forall r w m g A fl, ginv m g A foreign fl -> abound B A -> composed A -> room B A <= r -> length (awl A) <= w ->
  exists bound, forall fuel, bound <= fuel -> exists m' g' A', close_worklist fuel m g = Ok (m', g') /\ closed_from B foreign m A m' g' A' /\ awl A' = [] /\
    (awl A <> [] -> gpot B A = gpot B A' -> length (awl A') < length (awl A)).
Proof.
  induction r as [r IHr] using (well_founded_induction lt_wf). induction w as [w IHw] using (well_founded_induction lt_wf). intros m g A fl G Hb Hc Hr Hw.
  assert (Hh := wl_head_nil _ _ _ _ _ G). destruct (awl A) as [|a rest] eqn:Ew.
  - exists 0. intros fuel _. exists m, g, A. split.
    + assert (wl_head g = 0) as E by (now apply Hh). destruct fuel; cbn [close_worklist]; now rewrite E.
    + split; [constructor; eauto|]. split; auto. congruence.
  - assert (Hn : wl_head g <> 0) by (intros E; apply Hh in E; discriminate).
    destruct (one_round B m g A foreign fl a rest G Hb Hc Ew) as (m1 & g1 & e & m' & g' & A' & E1 & E2 & (fl' & G') & B' & C' & En & Gp & Gw & Bl & Kd & Ent & Fr).
    rewrite Ew in Gw. cbn [length] in *.
    assert (Rs : room B A' <= room B A). { unfold room. rewrite En. lia. }
    assert (exists bound, forall fuel, bound <= fuel -> exists m2 g2 A2, close_worklist fuel m' g' = Ok (m2, g2) /\ closed_from B foreign m' A' m2 g2 A2 /\ awl A2 = []) as (bd & Hbd).
    { destruct (Nat.eq_dec (gpot B A) (gpot B A')) as [Eq|Ne].
      - assert (L : length (awl A') < w) by (specialize (Gw Eq); lia). destruct (IHw _ L m' g' A' fl' G' B' C') as (bd & H); try lia. exists bd. intros fuel Hf. destruct (H fuel Hf) as (m2 & g2 & A2 & X1 & X2 & X3 & _). eauto 10.
      - assert (L : room B A' < r). { pose proof (room_spec B A (gp_clen _ _ _ (gi_part _ _ _ _ _ G))). pose proof (room_spec B A' (gp_clen _ _ _ (gi_part _ _ _ _ _ G'))) as Q. rewrite En in Q. lia. }
        destruct (IHr _ L (length (awl A')) m' g' A' fl' G' B' C') as (bd & H); try lia. exists bd. intros fuel Hf. destruct (H fuel Hf) as (m2 & g2 & A2 & X1 & X2 & X3 & _). eauto 10. }
    exists (S bd). intros fuel Hf. destruct fuel as [|f]; [lia|]. destruct (Hbd f) as (m2 & g2 & A2 & X1 & X2 & X3); [lia|].
    exists m2, g2, A2. split.
    { cbn [close_worklist]. destruct (wl_head g) eqn:Eh; [congruence|]. rewrite E1. cbn [bind]. rewrite E2. cbn [bind]. exact X1. }
    destruct X2 as [Y1 Y2 Y3 Y4 Y5 Y5w Y6 Y7 Y8]. rewrite En in *. split; [|split; auto].
    + constructor; auto; try lia.
      * rewrite X3. cbn. lia.
      * intros b Hb'. rewrite Y8 by auto. auto.
    + intros _ _. rewrite X3. cbn. lia.
Qed.
