(** * EdgeGraph: whole dependency graphs, several sharing one heap. *)
From Verif Require Import Base CondModel EdgeModel PropsCond EdgeProofs EdgeAddProofs.
Open Scope nat_scope.

Record agraph := mkA { an : nat; acells : list (list aedge); awl : list addr }.
Definition allids (A : agraph) : list addr := flat_map ids (acells A).
Definition cell (A : agraph) (i j : nat) : list aedge := nth (i * an A + j) (acells A) [].

Record gpart (m : mem) (g : aug) (A : agraph) : Prop := {
  gp_n : n_inst g = an A;
  gp_len : length (graph g) = an A * an A;
  gp_clen : length (acells A) = an A * an A;
  gp_set : forall i j, i < an A -> j < an A -> exists p, nth_error (graph g) (i * an A + j) = Some p /\ setrep m i j p (cell A i j);
  gp_good : forall l, In l (acells A) -> good l;
  gp_wl : wlinv m g (awl A) (allids A) }.
Record ginv (m : mem) (g : aug) (A : agraph) (foreign fl : list addr) : Prop := {
  gi_part : gpart m g A;
  gi_free : freerep m (freelist m) fl;
  gi_disj : disj (allids A) fl foreign;
  gi_for : forall a, In a foreign -> exists e, edge_at m a = Some e }.

(** ** lists *)
Lemma idx_lt n i j : i < n -> j < n -> i * n + j < n * n.
Proof. intros. nia. Qed.
Lemma idx_inj n i j i' j' : j < n -> j' < n -> i * n + j = i' * n + j' -> i = i' /\ j = j'.
Proof. intros H H' E. assert (i = i') by nia. subst. split; auto. lia. Qed.
Lemma nth_error_nth_In {X} (l : list X) i d : i < length l -> nth_error l i = Some (nth i l d).
Proof. intros H. apply nth_error_nth'. auto. Qed.
Lemma upd_split {X} (l : list X) i x d : i < length l -> exists l1 l2, l = l1 ++ nth i l d :: l2 /\ length l1 = i /\ upd l i x = l1 ++ x :: l2.
Proof.
  revert i; induction l as [|h t IH]; intros [|i] H; cbn in H; try lia.
  - exists [], t. auto.
  - destruct (IH i) as (l1 & l2 & E1 & E2 & E3); [lia|]. exists (h :: l1), l2. cbn [app nth upd length]. ands; congruence.
Qed.
Lemma nth_upd {X} (l : list X) i j x d : i < length l -> nth j (upd l i x) d = if i =? j then x else nth j l d.
Proof.
  revert i j; induction l as [|h t IH]; intros [|i] [|j] H; cbn in H |- *; try lia; auto. apply IH. lia.
Qed.
Lemma cell_in A i j : length (acells A) = an A * an A -> i < an A -> j < an A -> In (cell A i j) (acells A).
Proof. intros H Hi Hj. unfold cell. apply nth_In. rewrite H. now apply idx_lt. Qed.
Lemma in_cell A l : length (acells A) = an A * an A -> In l (acells A) -> exists i j, i < an A /\ j < an A /\ l = cell A i j.
Proof.
  intros H Hi. destruct (In_nth _ _ [] Hi) as (x & Hx & <-). rewrite H in Hx.
  assert (an A <> 0) by (intros E; rewrite E in Hx; cbn in Hx; lia).
  exists (x / an A), (x mod an A). ands.
  - apply Nat.div_lt_upper_bound; auto.
  - now apply Nat.mod_upper_bound.
  - unfold cell. rewrite Nat.mul_comm, <- Nat.div_mod; auto.
Qed.
Lemma in_allids A a : length (acells A) = an A * an A -> In a (allids A) <-> exists i j, i < an A /\ j < an A /\ In a (ids (cell A i j)).
Proof.
  intros H. unfold allids. rewrite in_flat_map. split.
  - intros (l & Hl & Ha). destruct (in_cell A l H Hl) as (i & j & Hi & Hj & ->). eauto.
  - intros (i & j & Hi & Hj & Ha). exists (cell A i j). split; auto. now apply cell_in.
Qed.
Lemma cell_nil A : length (acells A) = an A * an A -> forall i j, ~ (i < an A /\ j < an A) -> j < an A -> cell A i j = [].
Proof. intros H i j Hn Hj. unfold cell. apply nth_overflow. rewrite H. nia. Qed.

Definition with_cell (A : agraph) (i j : nat) (l : list aedge) (wl : list addr) : agraph := mkA (an A) (upd (acells A) (i * an A + j) l) wl.
Lemma cell_with A i j l wl i' j' : length (acells A) = an A * an A -> i < an A -> j < an A -> j' < an A ->
  cell (with_cell A i j l wl) i' j' = if (i =? i') && (j =? j') then l else cell A i' j'.
Proof.
  intros H Hi Hj Hj'. unfold cell, with_cell. cbn [an acells]. rewrite nth_upd by (rewrite H; now apply idx_lt).
  destruct (Nat.eqb_spec (i * an A + j) (i' * an A + j')) as [E|E].
  - destruct (idx_inj _ _ _ _ _ Hj Hj' E) as [-> ->]. now rewrite !Nat.eqb_refl.
  - destruct (Nat.eqb_spec i i'), (Nat.eqb_spec j j'); subst; auto. contradiction.
Qed.
(** ids of the other cells *)
Definition others (A : agraph) (i j : nat) : list addr := flat_map ids (upd (acells A) (i * an A + j) []).
Lemma allids_with A i j l wl : length (acells A) = an A * an A -> i < an A -> j < an A ->
  exists x y, others A i j = x ++ y /\ allids (with_cell A i j l wl) = x ++ ids l ++ y.
Proof.
  intros H Hi Hj. unfold others, allids, with_cell. cbn [acells].
  assert (L : i * an A + j < length (acells A)) by (rewrite H; now apply idx_lt).
  destruct (upd_split (acells A) _ [] [] L) as (l1 & l2 & E1 & E2 & E3). destruct (upd_split (acells A) _ l [] L) as (l1' & l2' & E1' & E2' & E3').
  rewrite E3, E3'. assert (l1' = l1 /\ l2' = l2) as [-> ->].
  { rewrite E1 in E1' at 1. clear - E1' E2 E2'. revert l1' E1' E2'. generalize (nth (i * an A + j) (acells A) []). intros z l1' E1' E2'. assert (EL : length l1 = length l1') by congruence. clear E2 E2'.
    revert l1' EL E1'; induction l1 as [|a l1 IH]; intros [|b l1'] EL E; cbn in *; try discriminate; [injection E as E; auto|]. injection E as -> E. destruct (IH l1') as [-> ->]; auto. }
  exists (flat_map ids l1), (flat_map ids l2). rewrite !flat_map_app. cbn [flat_map]. auto.
Qed.
Lemma with_same A i j : length (acells A) = an A * an A -> i < an A -> j < an A -> with_cell A i j (cell A i j) (awl A) = A.
Proof.
  intros H Hi Hj. destruct A as [n cs w]. unfold with_cell, cell. cbn [an acells awl] in *. f_equal.
  apply nth_error_ext. intros x. rewrite nth_error_upd. destruct (Nat.eqb_spec (i * n + j) x); auto. subst x. destruct (Nat.ltb_spec (i * n + j) (length cs)).
  - symmetry. now apply nth_error_nth'.
  - symmetry. now apply nth_error_None.
Qed.
Lemma allids_cell A i j : length (acells A) = an A * an A -> i < an A -> j < an A -> exists x y, others A i j = x ++ y /\ allids A = x ++ ids (cell A i j) ++ y.
Proof. intros H Hi Hj. destruct (allids_with A i j (cell A i j) (awl A) H Hi Hj) as (x & y & E1 & E2). rewrite (with_same A i j H Hi Hj) in E2. eauto. Qed.

Lemma in_mid {X} (a : X) x y z : In a (x ++ z ++ y) <-> In a z \/ In a (x ++ y).
Proof. rewrite !in_app_iff. tauto. Qed.
Lemma NoDup_mid {X} (x y z : list X) : NoDup (x ++ z ++ y) <-> NoDup z /\ NoDup (x ++ y) /\ (forall a, In a z -> ~ In a (x ++ y)).
Proof.
  assert (P : forall u v : list X, NoDup (u ++ v) <-> NoDup u /\ NoDup v /\ (forall a, In a u -> ~ In a v)).
  { induction u as [|b u IH]; intros v; cbn [app].
    - split; [intros H; ands; auto; constructor|tauto].
    - split.
      + intros H. inversion H as [|? ? H1 H2]; subst. apply IH in H2. destruct H2 as (H2 & H3 & H4). rewrite in_app_iff in H1. ands; auto; [constructor; tauto|]. intros a [<-|Ha]; auto.
      + intros (H1 & H2 & H3). inversion H1; subst. constructor.
        * rewrite in_app_iff. intros [|Hb]; auto. apply (H3 b); auto. now left.
        * apply IH. ands; auto. intros a Ha. apply H3. now right. }
  rewrite !P. setoid_rewrite in_app_iff. split.
  - intros (H1 & (H2 & H3 & H4) & H5). ands; auto.
    + intros a Ha Hy. apply (H5 a Ha). auto.
    + intros a Ha [Hx|Hy]; [|eapply H4; eauto]. apply (H5 a Hx). auto.
  - intros (H1 & (H2 & H3 & H4) & H5). ands; auto.
    + intros a Ha Hy. apply (H5 a Ha). auto.
    + intros a Ha [Hz|Hy]; [|eapply H4; eauto]. apply (H5 a Hz). auto.
Qed.

(** ** frames *)
Lemma gpart_frame m m' g A : (forall a, In a (allids A) -> edge_at m' a = edge_at m a) -> gpart m g A -> gpart m' g A.
Proof.
  intros H G. pose proof (gp_clen _ _ _ G) as L. constructor; try apply G.
  - intros i j Hi Hj. destruct (gp_set _ _ _ G i j Hi Hj) as (p & Hp & S). exists p. split; auto.
    eapply setrep_frame; [|exact S]. intros a e Ha E. rewrite H; [eauto|]. apply in_allids; eauto.
  - eapply wlinv_frame; [|apply G]. intros a e Ha E. rewrite H; eauto.
Qed.
Lemma cells_len m g A foreign fl i j : ginv m g A foreign fl -> i < an A -> j < an A -> length (cell A i j) <= length (edges m).
Proof.
  intros G Hi Hj. pose proof (gi_part _ _ _ _ _ G) as P. destruct (gp_set _ _ _ P i j Hi Hj) as (p & _ & S).
  replace (length (cell A i j)) with (length (ids (cell A i j))) by apply map_length.
  rewrite <- (seq_length (length (edges m)) 1). apply NoDup_incl_length.
  - destruct (allids_cell A i j (gp_clen _ _ _ P) Hi Hj) as (x & y & _ & E). destruct (gi_disj _ _ _ _ _ G) as (N & _). rewrite E in N. apply NoDup_mid in N. tauto.
  - intros a Ha. destruct (setrep_ids_at _ _ _ _ _ _ S Ha) as (e & Ea). apply edge_at_le in Ea. apply in_seq. lia.
Qed.

(** ** operations *)
Definition addG (i j : nat) (c : condition) (k : N) (A A' : agraph) : Prop :=
  exists l' wl', addR c k (cell A i j) (awl A) l' wl' /\ A' = with_cell A i j l' wl'.

Lemma good_addR c k l wl l' wl' : addR c k l wl l' wl' -> consistent c -> k <> 0%N -> good l -> good l'.
Proof.
  assert (Z : forall a c k l, good ((a, c, k) :: l) -> good l) by (intros a0 c0 k0 l0 H b cb kb Hb; apply (H b); now right).
  induction 1; intros Hc Hk Hg; eauto.
  - intros b cb kb [E|[]]. injection E as <- <- <-. auto.
  - apply IHaddR; eauto. destruct (Hg a c' k) as (Hc' & _); [now left|]. destruct (merge_spec c c' Hc Hc' H) as (c0 & i & b & Q1 & _ & _ & _ & -> & _). auto.
  - intros b cb kb [E|Hb].
    + injection E as <- <- <-. apply (Hg a). now left.
    + apply (IHaddR Hc Hk (Z _ _ _ _ Hg) b cb kb Hb).
Qed.

Lemma add_graph_ok m g A foreign fl i j c k : ginv m g A foreign fl -> i < an A -> j < an A -> k <> 0%N -> consistent c ->
  exists m' g' A' fl', add_edge_to_graph i j c k m g = Ok (m', g') /\ ginv m' g' A' foreign fl' /\ addG i j c k A A' /\
    (forall a, In a foreign -> edge_at m' a = edge_at m a).
Proof.
  intros G Hi Hj Hk Hc. pose proof (gi_part _ _ _ _ _ G) as P. pose proof (gp_clen _ _ _ P) as Lc.
  destruct (gp_set _ _ _ P i j Hi Hj) as (p & Hp & S). pose proof (gp_n _ _ _ P) as En.
  assert (Li : i * an A + j < length (graph g)) by (rewrite (gp_len _ _ _ P); now apply idx_lt).
  unfold add_edge_to_graph. rewrite En. rewrite (proj2 (rd_Ok _ _ _) Hp). cbn [bind]. rewrite wr_Ok by auto. cbn [bind].
  set (gr0 := upd (graph g) (i * an A + j) 0). set (g0 := mkAug (an A) gr0 (wl_head g) (wl_tail g)).
  destruct (allids_cell A i j Lc Hi Hj) as (x & y & Eo & Ea). destruct (gi_disj _ _ _ _ _ G) as (D1 & D2 & D3 & D4).
  assert (D1' := D1). rewrite Ea in D1'. apply NoDup_mid in D1'. rewrite <- Eo in D1'. destruct D1' as (N1 & N2 & N3).
  assert (Hall : forall a, In a (allids A) <-> In a (ids (cell A i j) ++ others A i j)).
  { intros a. rewrite Ea, Eo, in_mid, !in_app_iff. tauto. }
  destruct (add_edge_ok i j k Hk (cell A i j) (Datatypes.S (length (edges m))) c p m g0 (awl A) (others A i j) foreign fl)
    as (m' & g' & p' & l' & wl' & fl' & E & S' & R & W' & F' & D' & Co & Fo & Gr & Nn & Le); auto.
  { apply (gp_good _ _ _ P). now apply cell_in. }
  { apply (wlinv_own m g0 (awl A) (allids A)); auto. constructor; cbn [wl_head wl_tail g0]; apply (gp_wl _ _ _ P). }
  { apply G. }
  { unfold disj. ands; auto.
    - intros a Ha. destruct (D3 a) as (X1 & X2); [apply Hall; apply in_or_app; auto|]. split; auto. rewrite in_app_iff. intros [Y|Y]; auto. eapply N3; eauto.
    - intros a Ha. rewrite in_app_iff. intros [Y|Y]; [|eapply D4; eauto]. destruct (D3 a) as (X1 & X2); auto. apply Hall. apply in_or_app; auto. }
  { intros a Ha. apply in_app_iff in Ha. destruct Ha as [Ha|Ha]; [|apply (gi_for _ _ _ _ _ G); auto].
    destruct (wl_next _ _ _ _ (gp_wl _ _ _ P) a) as (e & Ee & _); [|eauto]. apply Hall. apply in_or_app; auto. }
  { intros a Ha Hf. destruct (D3 a) as (X1 & X2); auto. apply Hall. apply in_or_app; auto. }
  { pose proof (cells_len _ _ _ _ _ i j G Hi Hj). lia. }
  rewrite E. cbn [bind]. cbn [graph n_inst g0] in Gr, Nn. rewrite Gr.
  rewrite wr_Ok by (unfold gr0; now rewrite upd_length). cbn [bind].
  set (A' := with_cell A i j l' wl').
  assert (LA : length (acells A') = an A' * an A') by (unfold A', with_cell; cbn [acells an]; now rewrite upd_length).
  destruct (allids_with A i j l' wl' Lc Hi Hj) as (x' & y' & Eo' & Ea'). destruct D' as (D1' & D2' & D3' & D4').
  assert (Hall' : forall a, In a (ids l' ++ others A i j) <-> In a (allids A')).
  { intros a. unfold A'. rewrite Ea', Eo', in_mid, !in_app_iff. tauto. }
  eexists m', _, A', fl'. split; [reflexivity|]. split; [|split; [exists l', wl'; auto|auto]].
  constructor; auto.
  - constructor; cbn [n_inst graph]; auto.
    + unfold gr0. rewrite !upd_length. apply P.
    + intros i' j' Hi' Hj'. change (an A') with (an A) in *. unfold A'. rewrite cell_with by auto.
      rewrite !nth_error_upd. unfold gr0. rewrite !upd_length.
      destruct (Nat.eqb_spec (i * an A + j) (i' * an A + j')) as [Ei|Ei].
      * destruct (idx_inj _ _ _ _ _ Hj Hj' Ei) as [-> ->]. rewrite !Nat.eqb_refl. cbn [andb]. destruct (Nat.ltb_spec (i' * an A + j') (length (graph g))); [eauto|lia].
      * destruct (gp_set _ _ _ P i' j' Hi' Hj') as (q & Hq & Sq). exists q. split.
        { rewrite nth_error_upd. destruct (Nat.eqb_spec (i * an A + j) (i' * an A + j')); [contradiction|auto]. }
        assert ((i =? i') && (j =? j') = false) as ->.
        { destruct (Nat.eqb_spec i i'), (Nat.eqb_spec j j'); subst; auto. contradiction. }
        eapply setrep_frame; [|exact Sq]. intros a e Haa Ee. apply Co; auto.
        assert (Hb : In a (ids (cell A i j) ++ others A i j)) by (apply Hall; apply in_allids; eauto).
        apply in_app_iff in Hb. destruct Hb as [Hb|Hb]; auto. exfalso.
        (* a in two cells: its edge would have two different sources or sinks *)
        apply in_map_iff in Hb. destruct Hb as ([[a1 c1] k1] & <- & Hb). destruct (setrep_at _ _ _ _ _ _ _ _ S Hb) as (e1 & E1 & Es1 & Ek1 & _).
        apply in_map_iff in Haa. destruct Haa as ([[a2 c2] k2] & Ea2 & Hb2). destruct (setrep_at _ _ _ _ _ _ _ _ Sq Hb2) as (e2 & E2 & Es2 & Ek2 & _).
        cbn in Ea2, E1. subst a2. cbn [id_of fst] in E1. assert (e1 = e2) by congruence. subst e2. congruence.
    + intros l Hl. apply (In_nth _ _ []) in Hl. destruct Hl as (q & Hq & <-). unfold A', with_cell in *. cbn [acells] in *. rewrite upd_length in Hq.
      rewrite nth_upd by (rewrite Lc; now apply idx_lt). destruct (i * an A + j =? q).
      * eapply good_addR; eauto. apply (gp_good _ _ _ P). now apply cell_in.
      * apply (gp_good _ _ _ P). now apply nth_In.
    + apply (wlinv_own m' _ wl' (ids l' ++ others A i j)); auto. constructor; cbn [wl_head wl_tail]; apply W'.
  - unfold disj. ands; auto.
    + unfold A'. rewrite Ea'. apply NoDup_mid. rewrite <- Eo'. ands; auto. intros a Ha Hb. destruct (D3' a Ha) as (_ & X). apply X. apply in_or_app; auto.
    + intros a Ha. apply Hall' in Ha. apply in_app_iff in Ha. destruct Ha as [Ha|Ha].
      * destruct (D3' a Ha) as (X1 & X2). split; auto. intros Z. apply X2. apply in_or_app; auto.
      * split.
        { intros Z. apply (D4' a Z). apply in_or_app; auto. }
        { destruct (D3 a) as (_ & X2); auto. apply Hall. apply in_or_app; auto. }
    + intros a Ha Z. apply (D4' a Ha). apply in_or_app; auto.
  - intros a Ha. destruct (gi_for _ _ _ _ _ G a Ha) as (e & Ee). exists e. rewrite Fo; auto.
Qed.

Lemma read_set_ok m src snk p l : setrep m src snk p l -> forall fuel, length l <= fuel -> read_set fuel m p = Ok (map (fun e => (cond_of e, kind_of e)) l).
Proof.
  induction 1 as [|p e l E Es Ek S IH]; intros fuel Hf; [destruct fuel; reflexivity|]. pose proof (edge_at_pos _ _ _ E) as Pz.
  destruct p as [|q]; [congruence|]. destruct fuel as [|f]; [cbn in Hf; lia|]. cbn [read_set]. rewrite (proj2 (load_at _ _ _) E). cbn [bind].
  rewrite IH by (cbn in Hf; lia). reflexivity.
Qed.
Definition pairs (l : list aedge) : list (condition * N) := map (fun e => (cond_of e, kind_of e)) l.
Lemma read_cell m g A foreign fl i j : ginv m g A foreign fl -> i < an A -> j < an A ->
  exists p, rd (graph g) (i * n_inst g + j) = Ok p /\ set_at m p = Ok (pairs (cell A i j)).
Proof.
  intros G Hi Hj. pose proof (gi_part _ _ _ _ _ G) as P. destruct (gp_set _ _ _ P i j Hi Hj) as (p & Hp & S). exists p. split.
  - rewrite (gp_n _ _ _ P). now apply rd_Ok.
  - unfold set_at. eapply read_set_ok; eauto. eapply cells_len; eauto.
Qed.

Lemma wl_head_nil m g A foreign fl : ginv m g A foreign fl -> (wl_head g = 0 <-> awl A = []).
Proof.
  intros G. pose proof (gp_wl _ _ _ (gi_part _ _ _ _ _ G)) as W. pose proof (wl_link _ _ _ _ W) as K. split.
  - intros E. rewrite E in K. now apply lseg_zero_nil in K.
  - intros E. rewrite E in K. now inversion K.
Qed.
Definition set_wl (A : agraph) (wl : list addr) : agraph := mkA (an A) (acells A) wl.
Lemma take_head_ok m g A foreign fl a rest : ginv m g A foreign fl -> awl A = a :: rest ->
  exists m' g' e i j, take_head m g = Ok (m', g', e) /\ ginv m' g' (set_wl A rest) foreign fl /\ i < an A /\ j < an A /\
    e_source e = i /\ e_sink e = j /\ In (a, e_cond e, e_kind e) (cell A i j) /\ (forall b, b <> a -> edge_at m' b = edge_at m b).
Proof.
  intros G Ew. pose proof (gi_part _ _ _ _ _ G) as P. pose proof (gp_wl _ _ _ P) as W. pose proof (gp_clen _ _ _ P) as Lc.
  pose proof (wl_link _ _ _ _ W) as K. rewrite Ew in K.
  assert (Hh : wl_head g = a) by (inversion K; auto). rewrite Hh in K.
  assert (exists e, edge_at m a = Some e /\ lseg m (e_next e) rest 0) as (e & E & K') by (inversion K; eauto).
  pose proof (edge_at_pos _ _ _ E) as Az.
  assert (Ha : In a (allids A)). { apply (wl_incl _ _ _ _ W). rewrite Ew. now left. }
  assert (Ha' := Ha). apply in_allids in Ha'; auto. destruct Ha' as (i & j & Hi & Hj & Hc). destruct (gp_set _ _ _ P i j Hi Hj) as (p & Hp & S).
  apply in_map_iff in Hc. destruct Hc as ([[a1 c1] k1] & Ea1 & Hc). cbn in Ea1. subst a1.
  destruct (setrep_at _ _ _ _ _ _ _ _ S Hc) as (e1 & E1 & Es & Ek & Ec & Eki). assert (e1 = e) by congruence. subst e1 c1 k1.
  pose proof (wl_nodup _ _ _ _ W) as Nd. rewrite Ew in Nd. apply NoDup_cons_iff in Nd. destruct Nd as (Nd1 & Nd2). subst i j.
  assert (Hlast : wl_tail g = last rest a). { rewrite (wl_last _ _ _ _ W), Ew. apply last_cons_shift. }
  unfold take_head. rewrite Hh, (proj2 (load_at _ _ _) E). cbn [bind].
  assert (Htail : exists g1, (if wl_tail (set_head g (e_next e)) =? a then if negb (e_next e =? 0) then Exit else Ok (set_tail (set_head g (e_next e)) 0) else Ok (set_head g (e_next e))) = Ok g1 /\
     wl_head g1 = e_next e /\ wl_tail g1 = last rest 0 /\ graph g1 = graph g /\ n_inst g1 = n_inst g).
  { cbn [wl_tail set_head]. rewrite Hlast. destruct rest as [|b r].
    - cbn [last]. rewrite Nat.eqb_refl. assert (e_next e = 0) by (now inversion K'). rewrite H. cbn [Nat.eqb negb]. eexists. split; [reflexivity|]. auto.
    - destruct (Nat.eqb_spec (last (b :: r) a) a) as [El|El].
      + exfalso. apply Nd1. rewrite <- El. apply last_in. discriminate.
      + eexists. split; [reflexivity|]. cbn [wl_head set_head wl_tail graph n_inst]. ands; auto. rewrite Hlast. apply last_cons_default. }
  destruct Htail as (g1 & -> & T1 & T2 & T3 & T4). cbn [bind].
  destruct (set_next_ok m a 0 e E) as (m' & -> & Hm & Hf & Hl). cbn [bind].
  exists m', g1, e, (e_source e), (e_sink e). split; [reflexivity|].
  assert (Hne : forall b, b <> a -> edge_at m' b = edge_at m b). { intros b Hb. rewrite Hm. destruct (Nat.eqb_spec b a); [contradiction|auto]. }
  assert (Hco : forall b eb, edge_at m b = Some eb -> exists e', edge_at m' b = Some e' /\ core e' = core eb).
  { intros b eb Eb. rewrite Hm. destruct (Nat.eqb_spec b a); eauto. subst. eexists. split; [reflexivity|]. assert (eb = e) by congruence. subst. reflexivity. }
  ands; auto. constructor.
  - constructor; cbn [set_wl an acells awl]; try apply P; auto.
    + rewrite T4. apply P.
    + rewrite T3. apply P.
    + intros i j Hi' Hj'. destruct (gp_set _ _ _ P i j Hi' Hj') as (q & Hq & Sq). exists q. rewrite T3. split; auto.
      eapply setrep_frame; [|exact Sq]. intros b eb _ Eb. apply Hco; auto.
    + change (allids (set_wl A rest)) with (allids A). constructor; auto.
      * rewrite T1. eapply lseg_frame; [|exact K']. intros b eb Hb Eb. rewrite Hne; eauto. intros ->. contradiction.
      * intros b Hb. apply (wl_incl _ _ _ _ W). rewrite Ew. now right.
      * intros b Hb. destruct (Nat.eq_dec b a) as [->|Hba].
        { rewrite Hm, Nat.eqb_refl. eexists. split; [reflexivity|]. auto. }
        { rewrite Hne by auto. destruct (wl_next _ _ _ _ W b Hb) as (eb & Eb & Z). exists eb. split; auto. intros Y. apply Z. rewrite Ew. intros [|]; auto. }
  - rewrite Hf. eapply freerep_frame; [|apply G]. intros b eb _ Eb. destruct (Hco b eb Eb) as (e' & Ee' & C'). exists e'. unfold core in C'. ands; auto; congruence.
  - apply G.
  - intros b Hb. destruct (gi_for _ _ _ _ _ G b Hb) as (eb & Eb). destruct (Hco b eb Eb) as (e' & Ee' & _). eauto.
Qed.

(** ** removing a whole cell *)
Definition rms (xs wl : list addr) : list addr := fold_left (fun w a => rm a w) xs wl.
Lemma in_rms xs : forall wl b, In b (rms xs wl) <-> In b wl /\ ~ In b xs.
Proof.
  induction xs as [|a xs IH]; intros wl b; cbn [rms fold_left]; [cbn; tauto|]. change (fold_left (fun w a => rm a w) xs (rm a wl)) with (rms xs (rm a wl)).
  rewrite IH, in_rm. cbn [In]. intuition congruence.
Qed.
Lemma free_edgeset_ok src snk l : forall fuel cur m g wl own foreign fl,
  setrep m src snk cur l -> good l -> wlinv m g wl (ids l ++ own) -> freerep m (freelist m) fl ->
  disj (ids l) fl (own ++ foreign) -> (forall a, In a own -> ~ In a foreign) -> length l <= fuel ->
  exists m' g' fl', free_edgeset fuel cur m g = Ok (m', g') /\ wlinv m' g' (rms (ids l) wl) own /\ freerep m' (freelist m') fl' /\ (forall a, In a fl' <-> In a fl \/ In a (ids l)) /\ NoDup fl' /\ (forall a e, In a own -> edge_at m a = Some e -> exists e', edge_at m' a = Some e' /\ core e' = core e) /\ (forall a, In a foreign -> edge_at m' a = edge_at m a) /\ graph g' = graph g /\ n_inst g' = n_inst g.
Proof.
  induction l as [|[[a c'] k'] l IH]; intros fuel cur m g wl own foreign fl S Hg W F D Of Hfu.
  - inversion S; subst. exists m, g, fl. split; [destruct fuel; reflexivity|]. ands; auto.
    + cbn [In ids map]. tauto.
    + apply D.
    + intros a e _ E. eauto.
  - assert (exists e, edge_at m a = Some e /\ cur = a /\ c' = e_cond e /\ k' = e_kind e /\ setrep m src snk (e_rest e) l) as (e & E & -> & -> & -> & S') by (inversion S; subst; eauto 10).
    destruct fuel as [|f]; [cbn in Hfu; lia|].
    assert (Az : a <> 0) by (eapply edge_at_pos; eauto). destruct a as [|i] eqn:Ea; [congruence|]. rewrite <- Ea in *. clear i Ea.
    destruct (Hg a (e_cond e) (e_kind e)) as (Hc' & Hk'); [now left|].
    assert (Hg' : good l) by (intros b cb kb Hb; apply (Hg b); now right).
    rewrite ids_cons in W, D. destruct D as (D1 & D2 & D3 & D4). inversion D1 as [|x y D1a D1b]; subst x y.
    assert (Da := D3 a (or_introl eq_refl)). destruct Da as (Daf & Dao).
    assert (Wf : forall b, In b wl -> ~ In b foreign).
    { intros b Hb Hf. apply (wl_incl _ _ _ _ W) in Hb. cbn [app In] in Hb. rewrite in_app_iff in Hb. destruct Hb as [<-|[Hb|Hb]].
      - apply Dao. apply in_or_app; auto.
      - destruct (D3 b (or_intror Hb)) as (_ & Z). apply Z. apply in_or_app; auto.
      - eapply Of; eauto. }
    assert (free_edgeset (Datatypes.S f) a m g = e <- load m a ;; '(m, g) <- free_edge a m g ;; free_edgeset f (e_rest e) m g) as -> by (destruct a; [congruence|reflexivity]).
    rewrite (proj2 (load_at _ _ _) E). cbn [bind].
    destruct (free_edge_ok m g wl (a :: ids l ++ own) (ids l ++ own) fl a e) as (m1 & g1 & -> & W1 & G1 & G2 & Ff & F1 & Hl1 & O1 & C1); auto.
    { now left. }
    { rewrite in_app_iff. intros [G|G]; [contradiction|]. apply Dao. apply in_or_app; auto. }
    { intros x Hx. now right. }
    { intros b [<-|Hb]; auto. }
    { intros b Hb [<-|Hb']; [contradiction|]. rewrite in_app_iff in Hb'. destruct Hb' as [Hb'|Hb'].
      - destruct (D3 b (or_intror Hb')). contradiction.
      - apply (D4 b Hb). apply in_or_app; auto. }
    cbn [bind].
    destruct (IH f (e_rest e) m1 g1 (rm a wl) own foreign (a :: fl)) as (m2 & g2 & fl2 & E2 & W2 & F2 & I2 & N2 & Co2 & Fo2 & Gr2 & Nn2); auto.
    { eapply setrep_frame; [|exact S']. intros b eb Hb Eb. apply C1; auto. intros ->. contradiction. }
    { rewrite Ff. exact F1. }
    { unfold disj. ands; auto.
      - constructor; auto.
      - intros b Hb. destruct (D3 b (or_intror Hb)). split; auto. intros [<-|G]; contradiction.
      - intros b [<-|Hb]; auto. }
    { cbn in Hfu. lia. }
    exists m2, g2, fl2. split; [exact E2|]. ands; auto.
    + intros b. rewrite I2, ids_cons. cbn [In]. tauto.
    + intros b eb Hb Eb. destruct (C1 b eb) as (e1 & E1 & Co1); auto. { intros ->. apply Dao. apply in_or_app; auto. }
      destruct (Co2 b e1 Hb E1) as (e2 & ? & ?). exists e2. split; auto. congruence.
    + intros b Hb. rewrite Fo2 by auto. apply O1. { intros G. eapply Wf; eauto. } intros ->. apply Dao. apply in_or_app; auto.
    + congruence.
    + congruence.
Qed.
Lemma remove_graph_ok m g A foreign fl i j : ginv m g A foreign fl -> i < an A -> j < an A ->
  exists m' g' fl', remove_edgeset i j m g = Ok (m', g') /\ ginv m' g' (with_cell A i j [] (rms (ids (cell A i j)) (awl A))) foreign fl' /\
    (forall a, In a foreign -> edge_at m' a = edge_at m a).
Proof.
  intros G Hi Hj. pose proof (gi_part _ _ _ _ _ G) as P. pose proof (gp_clen _ _ _ P) as Lc.
  destruct (gp_set _ _ _ P i j Hi Hj) as (p & Hp & S). pose proof (gp_n _ _ _ P) as En.
  assert (Li : i * an A + j < length (graph g)) by (rewrite (gp_len _ _ _ P); now apply idx_lt).
  unfold remove_edgeset. rewrite En. rewrite (proj2 (rd_Ok _ _ _) Hp). cbn [bind].
  destruct (allids_cell A i j Lc Hi Hj) as (x & y & Eo & Ea). destruct (gi_disj _ _ _ _ _ G) as (D1 & D2 & D3 & D4).
  assert (D1' := D1). rewrite Ea in D1'. apply NoDup_mid in D1'. rewrite <- Eo in D1'. destruct D1' as (N1 & N2 & N3).
  assert (Hall : forall a, In a (allids A) <-> In a (ids (cell A i j) ++ others A i j)).
  { intros a. rewrite Ea, Eo, in_mid, !in_app_iff. tauto. }
  destruct (free_edgeset_ok i j (cell A i j) (Datatypes.S (length (edges m))) p m g (awl A) (others A i j) foreign fl)
    as (m' & g' & fl' & E & W' & F' & I' & Nf & Co & Fo & Gr & Nn); auto.
  { apply (gp_good _ _ _ P). now apply cell_in. }
  { apply (wlinv_own m g (awl A) (allids A)); auto. apply P. }
  { apply G. }
  { unfold disj. ands; auto.
    - intros a Ha. destruct (D3 a) as (X1 & X2); [apply Hall; apply in_or_app; auto|]. split; auto. rewrite in_app_iff. intros [Y|Y]; auto. eapply N3; eauto.
    - intros a Ha. rewrite in_app_iff. intros [Y|Y]; [|eapply D4; eauto]. destruct (D3 a) as (X1 & X2); auto. apply Hall. apply in_or_app; auto. }
  { intros a Ha Hf. destruct (D3 a) as (X1 & X2); auto. apply Hall. apply in_or_app; auto. }
  { pose proof (cells_len _ _ _ _ _ i j G Hi Hj). lia. }
  rewrite E. cbn [bind]. rewrite Gr. rewrite wr_Ok by auto. cbn [bind].
  set (A' := with_cell A i j [] (rms (ids (cell A i j)) (awl A))).
  assert (LA : length (acells A') = an A' * an A') by (unfold A', with_cell; cbn [acells an]; now rewrite upd_length).
  destruct (allids_with A i j [] (rms (ids (cell A i j)) (awl A)) Lc Hi Hj) as (x' & y' & Eo' & Ea'). cbn [ids map app] in Ea'. fold A' in Ea'. rewrite <- Eo' in Ea'.
  eexists m', _, fl'. split; [reflexivity|]. split; [|auto].
  constructor; auto.
  - constructor; cbn [n_inst graph]; auto.
    + rewrite Nn. auto.
    + rewrite !upd_length. apply P.
    + intros i' j' Hi' Hj'. change (an A') with (an A) in *. unfold A'. rewrite cell_with by auto. rewrite !nth_error_upd.
      destruct (Nat.eqb_spec (i * an A + j) (i' * an A + j')) as [Ei|Ei].
      * destruct (idx_inj _ _ _ _ _ Hj Hj' Ei) as [-> ->]. rewrite !Nat.eqb_refl. cbn [andb]. destruct (Nat.ltb_spec (i' * an A + j') (length (graph g))); [|lia]. exists 0. split; auto. constructor.
      * destruct (gp_set _ _ _ P i' j' Hi' Hj') as (q & Hq & Sq). exists q. split; auto.
        assert ((i =? i') && (j =? j') = false) as ->.
        { destruct (Nat.eqb_spec i i'), (Nat.eqb_spec j j'); subst; auto. contradiction. }
        eapply setrep_frame; [|exact Sq]. intros a e Haa Ee. apply Co; auto.
        assert (Hb : In a (ids (cell A i j) ++ others A i j)) by (apply Hall; apply in_allids; eauto).
        apply in_app_iff in Hb. destruct Hb as [Hb|Hb]; auto. exfalso.
        apply in_map_iff in Hb. destruct Hb as ([[a1 c1] k1] & <- & Hb). destruct (setrep_at _ _ _ _ _ _ _ _ S Hb) as (e1 & E1 & Es1 & Ek1 & _).
        apply in_map_iff in Haa. destruct Haa as ([[a2 c2] k2] & Ea2 & Hb2). destruct (setrep_at _ _ _ _ _ _ _ _ Sq Hb2) as (e2 & E2 & Es2 & Ek2 & _).
        cbn in Ea2, E1. subst a2. cbn [id_of fst] in E1. assert (e1 = e2) by congruence. subst e2. congruence.
    + intros l Hl. apply (In_nth _ _ []) in Hl. destruct Hl as (q & Hq & <-). unfold A', with_cell in *. cbn [acells] in *. rewrite upd_length in Hq.
      rewrite nth_upd by (rewrite Lc; now apply idx_lt). destruct (i * an A + j =? q).
      * intros ? ? ? [].
      * apply (gp_good _ _ _ P). now apply nth_In.
    + rewrite Ea'. constructor; cbn [wl_head wl_tail]; apply W'.
  - unfold disj. rewrite Ea'. ands; auto.
    + intros a Ha. rewrite I'. destruct (D3 a) as (X1 & X2); [apply Hall; apply in_or_app; auto|]. split; auto. intros [|Z]; auto. eapply N3; eauto.
    + intros a Ha. apply I' in Ha. destruct Ha as [Ha|Ha]; auto. destruct (D3 a) as (X1 & X2); auto. apply Hall. apply in_or_app; auto.
  - intros a Ha. destruct (gi_for _ _ _ _ _ G a Ha) as (e & Ee). exists e. rewrite Fo; auto.
Qed.
