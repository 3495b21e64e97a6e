(** * PropsEdge: C39 (meaning of add_edge) and C40 (the edge worklist). *)
From Verif Require Import Base CondModel EdgeModel PropsCond EdgeProofs EdgeAddProofs EdgeGraph EdgeSem EdgeWorld.
Open Scope nat_scope.

(** ** Specification *)
(** Several dependency graphs share the heap of edge structures.  Histories of
    the operations the analyser performs on them: *)
Record world := mkWorld { w_mem : mem; w_graphs : list aug }.
Inductive op :=
| NewGraph (n : nat)                                              (** a graph of n instances, no edges *)
| AddEdge (x i j : nat) (c : condition) (k : N)                   (** add_edge_to_graph in graph x *)
| TakeHead (x : nat)                                              (** take the next edge from the worklist *)
| RemoveSet (x i j : nat).                                        (** remove_edgeset *)
Definition step (o : op) (w : world) : res world :=
  let on x f := g <- rd (w_graphs w) x ;; '(m, g) <- f (w_mem w) g ;; gs <- wr (w_graphs w) x g ;; Ok (mkWorld m gs) in
  match o with
  | NewGraph n => Ok (mkWorld (w_mem w) (w_graphs w ++ [mkAug n (repeat 0 (n * n)) 0 0]))
  | AddEdge x i j c k => on x (add_edge_to_graph i j c k)
  | TakeHead x => on x (fun m g => '(m, g, _) <- take_head m g ;; Ok (m, g))
  | RemoveSet x i j => on x (remove_edgeset i j)
  end.
Definition in_graph (w : world) (x i j : nat) : Prop := exists g, nth_error (w_graphs w) x = Some g /\ i < n_inst g /\ j < n_inst g.
(** What callers must respect: instances of the graph, a real dependency, a
    condition that can hold; the head is taken only from a non-empty worklist. *)
Definition allowed (o : op) (w : world) : Prop :=
  match o with
  | NewGraph n => True
  | AddEdge x i j c k => in_graph w x i j /\ k <> no_dependency /\ satisfiable c
  | TakeHead x => exists g, nth_error (w_graphs w) x = Some g /\ wl_head g <> 0
  | RemoveSet x i j => in_graph w x i j
  end.
Inductive reached : world -> Prop :=
| reached_start : reached (mkWorld (mkMem [] 0) [])
| reached_step w o w' : reached w -> allowed o w -> step o w = Ok w' -> reached w'.

(** The kind of dependency between two instances under an outcome [o]. *)
Definition kind_under (w : world) (x i j : nat) (o : outcome) : res N :=
  g <- rd (w_graphs w) x ;; p <- rd (graph g) (i * n_inst g + j) ;; l <- set_at (w_mem w) p ;; Ok (seen o l).
(** The structures of a set, following [rest]; of a worklist, following
    [next_in_edge_worklist]. *)
Fixpoint follow_rest (fuel : nat) (m : mem) (p : addr) : res (list aedge) :=
  match p with
  | 0 => Ok []
  | _ => match fuel with O => Fuel | S f => e <- load m p ;; l <- follow_rest f m (e_rest e) ;; Ok ((p, e_cond e, e_kind e) :: l) end
  end.
Fixpoint follow_next (fuel : nat) (m : mem) (p : addr) : res (list addr) :=
  match p with
  | 0 => Ok []
  | _ => match fuel with O => Fuel | S f => e <- load m p ;; l <- follow_next f m (e_next e) ;; Ok (p :: l) end
  end.
Definition members (w : world) (x i j : nat) (l : list aedge) : Prop :=
  exists g p, nth_error (w_graphs w) x = Some g /\ nth_error (graph g) (i * n_inst g + j) = Some p /\ follow_rest (length (edges (w_mem w))) (w_mem w) p = Ok l.
Definition queue (w : world) (x : nat) (q : list addr) : Prop :=
  exists g, nth_error (w_graphs w) x = Some g /\ follow_next (length (edges (w_mem w))) (w_mem w) (wl_head g) = Ok q.
Definition without (D q : list addr) : list addr := filter (fun b => if in_dec Nat.eq_dec b D then false else true) q.

(** ** Proofs *)
Definition good_world (w : world) : Prop := exists As fl, winv (w_mem w) (w_graphs w) As fl.
Lemma step_ok w As fl o : winv (w_mem w) (w_graphs w) As fl -> allowed o w ->
  exists w' As' fl', step o w = Ok w' /\ winv (w_mem w') (w_graphs w') As' fl' /\
  match o with
  | NewGraph n => As' = As ++ [new_a n]
  | AddEdge x i j c k => exists A A', nth_error As x = Some A /\ i < an A /\ j < an A /\ addG i j c k A A' /\ As' = upd As x A' 
  | TakeHead x => exists A a rest, nth_error As x = Some A /\ awl A = a :: rest /\ As' = upd As x (set_wl A rest)
  | RemoveSet x i j => exists A, nth_error As x = Some A /\ i < an A /\ j < an A /\ As' = upd As x (with_cell A i j [] (rms (ids (cell A i j)) (awl A)))
  end.
Proof.
  intros W H. destruct o as [n|x i j c k|x|x i j]; cbn [step].
  - eexists _, _, fl. split; [reflexivity|]. split; [apply world_new; eauto|reflexivity].
  - destruct H as ((g & Hg & Hi & Hj) & Hk & Hc). destruct (world_focus _ _ _ _ _ _ W Hg) as (A & HA & G). apply sat_consistent in Hc.
    rewrite (gp_n _ _ _ (gi_part _ _ _ _ _ G)) in Hi, Hj.
    destruct (add_graph_ok _ _ _ _ _ i j c k G Hi Hj Hk Hc) as (m' & g' & A' & fl' & E & G' & R & Fr).
    rewrite (proj2 (rd_Ok _ _ _) Hg). cbn [bind]. rewrite E. cbn [bind]. rewrite wr_Ok by (apply nth_error_Some; congruence). cbn [bind].
    eexists _, _, fl'. split; [reflexivity|]. split; [eapply world_put; eauto|]. exists A, A'. ands; auto.
  - destruct H as (g & Hg & Hh). destruct (world_focus _ _ _ _ _ _ W Hg) as (A & HA & G).
    destruct (awl A) as [|a rest] eqn:Ew. { exfalso. apply Hh. eapply wl_head_nil; eauto. }
    destruct (take_head_ok _ _ _ _ _ a rest G Ew) as (m' & g' & e & i & j & E & G' & Hi & Hj & Hs & Hk & Hin & Fr).
    rewrite (proj2 (rd_Ok _ _ _) Hg). cbn [bind]. rewrite E. cbn [bind]. rewrite wr_Ok by (apply nth_error_Some; congruence). cbn [bind].
    eexists _, _, fl. split; [reflexivity|]. split.
    + eapply world_put; eauto. intros b Hb. apply Fr. intros ->. destruct (gi_disj _ _ _ _ _ G) as (_ & _ & D3 & _). destruct (D3 a) as (_ & X); [|auto].
      apply in_allids; [apply G|]. exists i, j. ands; auto. apply (in_map id_of) in Hin. exact Hin.
    + exists A, a, rest. auto.
  - destruct H as (g & Hg & Hi & Hj). destruct (world_focus _ _ _ _ _ _ W Hg) as (A & HA & G).
    rewrite (gp_n _ _ _ (gi_part _ _ _ _ _ G)) in Hi, Hj.
    destruct (remove_graph_ok _ _ _ _ _ i j G Hi Hj) as (m' & g' & fl' & E & G' & Fr).
    rewrite (proj2 (rd_Ok _ _ _) Hg). cbn [bind]. rewrite E. cbn [bind]. rewrite wr_Ok by (apply nth_error_Some; congruence). cbn [bind].
    eexists _, _, fl'. split; [reflexivity|]. split; [eapply world_put; eauto|]. exists A. ands; auto.
Qed.
Lemma reached_good w : reached w -> good_world w.
Proof.
  induction 1 as [|w o w' R (As & fl & W) Al E].
  - exists [], []. apply world_nil.
  - destruct (step_ok _ _ _ _ W Al) as (w2 & As' & fl' & E' & W' & _). assert (w2 = w') by congruence. subst. exists As', fl'. auto.
Qed.
Lemma follow_rest_ok m src snk p l : setrep m src snk p l -> forall f, length l <= f -> follow_rest f m p = Ok l.
Proof.
  induction 1 as [|p e l E Es Ek S IH]; intros f Hf; [destruct f; reflexivity|]. pose proof (edge_at_pos _ _ _ E).
  destruct p; [congruence|]. destruct f; [cbn in Hf; lia|]. cbn [follow_rest]. rewrite (proj2 (load_at _ _ _) E). cbn [bind]. rewrite IH by (cbn in Hf; lia). reflexivity.
Qed.
Lemma follow_next_ok m p l : lseg m p l 0 -> forall f, length l <= f -> follow_next f m p = Ok l.
Proof.
  intros S. remember 0 as z. induction S as [q|p e l q E S IH]; intros f Hf; subst; [destruct f; reflexivity|]. pose proof (edge_at_pos _ _ _ E).
  destruct p; [congruence|]. destruct f; [cbn in Hf; lia|]. cbn [follow_next]. rewrite (proj2 (load_at _ _ _) E). cbn [bind]. rewrite IH by (auto; cbn in Hf; lia). reflexivity.
Qed.
Lemma members_cell w As fl x A i j l : winv (w_mem w) (w_graphs w) As fl -> nth_error As x = Some A -> i < an A -> j < an A -> members w x i j l <-> l = cell A i j.
Proof.
  intros W HA Hi Hj. assert (L : x < length (w_graphs w)) by (rewrite <- (wi_len _ _ _ _ W); apply nth_error_Some; congruence).
  destruct (nth_error (w_graphs w) x) as [g|] eqn:Hg; [|apply nth_error_None in Hg; lia].
  destruct (world_focus _ _ _ _ _ _ W Hg) as (A' & HA' & G). assert (A' = A) by congruence. subst A'.
  pose proof (gi_part _ _ _ _ _ G) as P. destruct (gp_set _ _ _ P i j Hi Hj) as (p & Hp & S). pose proof (cells_len _ _ _ _ _ i j G Hi Hj) as Ln. unfold members. split.
  - intros (g1 & p1 & E1 & E2 & E3). assert (g1 = g) by congruence. subst g1. rewrite (gp_n _ _ _ P) in E2. assert (p1 = p) by congruence. subst p1.
    rewrite (follow_rest_ok _ _ _ _ _ S) in E3 by auto. congruence.
  - intros ->. exists g, p. rewrite (gp_n _ _ _ P). ands; auto. eapply follow_rest_ok; eauto.
Qed.
Lemma queue_awl w As fl x A q : winv (w_mem w) (w_graphs w) As fl -> nth_error As x = Some A -> queue w x q <-> q = awl A.
Proof.
  intros W HA. assert (L : x < length (w_graphs w)) by (rewrite <- (wi_len _ _ _ _ W); apply nth_error_Some; congruence).
  destruct (nth_error (w_graphs w) x) as [g|] eqn:Hg; [|apply nth_error_None in Hg; lia].
  destruct (world_focus _ _ _ _ _ _ W Hg) as (A' & HA' & G). assert (A' = A) by congruence. subst A'.
  pose proof (gp_wl _ _ _ (gi_part _ _ _ _ _ G)) as Wl. pose proof (follow_next_ok _ _ _ (wl_link _ _ _ _ Wl) _ (wl_len _ _ _ _ Wl)) as F. unfold queue. split.
  - intros (g1 & E1 & E2). assert (g1 = g) by congruence. subst g1. congruence.
  - intros ->. exists g. auto.
Qed.
Lemma kind_under_cell w As fl x A i j o : winv (w_mem w) (w_graphs w) As fl -> nth_error As x = Some A -> i < an A -> j < an A -> kind_under w x i j o = Ok (seen o (pairs (cell A i j))).
Proof.
  intros W HA Hi Hj. assert (L : x < length (w_graphs w)) by (rewrite <- (wi_len _ _ _ _ W); apply nth_error_Some; congruence).
  destruct (nth_error (w_graphs w) x) as [g|] eqn:Hg; [|apply nth_error_None in Hg; lia].
  destruct (world_focus _ _ _ _ _ _ W Hg) as (A' & HA' & G). assert (A' = A) by congruence. subst A'.
  destruct (read_cell _ _ _ _ _ i j G Hi Hj) as (p & E1 & E2). unfold kind_under. rewrite (proj2 (rd_Ok _ _ _) Hg). cbn [bind]. rewrite E1. cbn [bind]. rewrite E2. reflexivity.
Qed.
Lemma an_graph w As fl x A : winv (w_mem w) (w_graphs w) As fl -> nth_error As x = Some A -> exists g, nth_error (w_graphs w) x = Some g /\ n_inst g = an A /\ ginv (w_mem w) g A (rest_ids As x) fl.
Proof.
  intros W HA. assert (L : x < length (w_graphs w)) by (rewrite <- (wi_len _ _ _ _ W); apply nth_error_Some; congruence).
  destruct (nth_error (w_graphs w) x) as [g|] eqn:Hg; [|apply nth_error_None in Hg; lia].
  destruct (world_focus _ _ _ _ _ _ W Hg) as (A' & HA' & G). assert (A' = A) by congruence. subst A'. exists g. ands; auto. apply G.
Qed.
Lemma in_graph_A w As fl x i j : winv (w_mem w) (w_graphs w) As fl -> in_graph w x i j -> exists A, nth_error As x = Some A /\ i < an A /\ j < an A.
Proof.
  intros W (g & Hg & Hi & Hj). destruct (world_focus _ _ _ _ _ _ W Hg) as (A & HA & G). exists A. rewrite (gp_n _ _ _ (gi_part _ _ _ _ _ G)) in Hi, Hj. auto.
Qed.

(** ** C39: adding an edge joins its kind exactly under the outcomes that meet its
    condition, for that pair of instances; everything else keeps its meaning. *)
Theorem C39_add_edge : forall w x i j c k, reached w -> allowed (AddEdge x i j c k) w ->
  exists w', step (AddEdge x i j c k) w = Ok w' /\
  forall o y i' j', in_graph w y i' j' -> exists before after,
    kind_under w y i' j' o = Ok before /\ kind_under w' y i' j' o = Ok after /\
    ((y, i', j') <> (x, i, j) -> after = before) /\
    ((y, i', j') = (x, i, j) -> (meets o c -> after = dependency_join before k) /\ (~ meets o c -> after = before)).
Proof.
  intros w x i j c k R Al. destruct (reached_good _ R) as (As & fl & W). destruct (step_ok _ _ _ _ W Al) as (w' & As' & fl' & E & W' & A & A' & HA & Hi & Hj & (l' & wl' & AR & ->) & ->).
  exists w'. split; auto. intros o y i' j' Hin. destruct (in_graph_A _ _ _ _ _ _ W Hin) as (B & HB & Hi' & Hj').
  assert (L : x < length As) by (apply nth_error_Some; congruence).
  destruct (an_graph _ _ _ _ _ W HA) as (g & Hg & _ & G). pose proof (gp_clen _ _ _ (gi_part _ _ _ _ _ G)) as Lc.
  rewrite (kind_under_cell _ _ _ _ _ i' j' o W HB Hi' Hj').
  destruct (Nat.eq_dec x y) as [<-|Hxy].
  - assert (B = A) by congruence. subst B.
    assert (HA' : nth_error (upd As x (with_cell A i j l' wl')) x = Some (with_cell A i j l' wl')) by (now apply nth_error_upd_eq).
    rewrite (kind_under_cell _ _ _ _ _ i' j' o W' HA' Hi' Hj'). rewrite cell_with by auto. eexists _, _. split; [reflexivity|]. split; [reflexivity|].
    destruct (Nat.eqb_spec i i') as [<-|Hii]; cbn [andb]; [destruct (Nat.eqb_spec j j') as [<-|Hjj]|]; cbn [andb].
    + split; [intros Hn; now exfalso|]. intros _. destruct Al as (_ & Hk & Hc). apply sat_consistent in Hc.
      rewrite (addR_seen _ _ _ _ _ _ AR Hc). 2:{ apply (gp_good _ _ _ (gi_part _ _ _ _ _ G)). now apply cell_in. }
      split; intros M. { apply meetsb_spec in M. now rewrite M. } apply meetsb_false in M. rewrite M. unfold dependency_join, no_dependency. apply N.lor_0_r.
    + split; auto. intros Heq. exfalso. apply Hjj. congruence.
    + split; auto. intros Heq. exfalso. apply Hii. congruence.
  - assert (HB' : nth_error (upd As x (with_cell A i j l' wl')) y = Some B) by (rewrite nth_error_upd_neq; auto).
    rewrite (kind_under_cell _ _ _ _ _ i' j' o W' HB' Hi' Hj'). eexists _, _. split; [reflexivity|]. split; [reflexivity|]. split; auto. intros Heq. exfalso. apply Hxy. congruence.
Qed.

(** ** C40: no operation stops with an error, touches freed memory or loops, and the
    worklist is a queue: *)
Theorem C40_no_corruption : forall w o, reached w -> allowed o w -> exists w', step o w = Ok w'.
Proof. intros w o R Al. destruct (reached_good _ R) as (As & fl & W). destruct (step_ok _ _ _ _ W Al) as (w' & ? & ? & E & _). eauto. Qed.
(** its links form a list without repetition that ends at the tail and consists of
    edges in the sets of the graph; an edge structure is in one set only; *)
Theorem C40_queue : forall w x g, reached w -> nth_error (w_graphs w) x = Some g ->
  exists q, queue w x q /\ NoDup q /\ wl_tail g = last q 0 /\ (wl_head g = 0 <-> q = []) /\
  (forall a, In a q -> exists i j l c k, in_graph w x i j /\ members w x i j l /\ In (a, c, k) l) /\
  (forall y i j i' j' l l' a c k c' k', in_graph w x i j -> in_graph w y i' j' -> members w x i j l -> members w y i' j' l' -> In (a, c, k) l -> In (a, c', k') l' -> (x, i, j) = (y, i', j')).
Proof.
  intros w x g R Hg. destruct (reached_good _ R) as (As & fl & W). destruct (world_focus _ _ _ _ _ _ W Hg) as (A & HA & G).
  pose proof (gi_part _ _ _ _ _ G) as P. pose proof (gp_wl _ _ _ P) as Wl. pose proof (gp_clen _ _ _ P) as Lc. exists (awl A). ands.
  - eapply queue_awl; eauto.
  - apply Wl.
  - apply Wl.
  - eapply wl_head_nil; eauto.
  - intros a Ha. apply (wl_incl _ _ _ _ Wl) in Ha. apply in_allids in Ha; auto. destruct Ha as (i & j & Hi & Hj & Ha). apply in_map_iff in Ha. destruct Ha as ([[a' c] k] & <- & Ha).
    exists i, j, (cell A i j), c, k. ands; auto.
    + exists g. rewrite (gp_n _ _ _ P). auto.
    + eapply members_cell; eauto.
  - intros y i j i' j' l l' a c k c' k' I1 I2 M1 M2 H1 H2.
    destruct (in_graph_A _ _ _ _ _ _ W I1) as (A1 & HA1 & Hi & Hj). assert (A1 = A) by congruence. subst A1.
    destruct (in_graph_A _ _ _ _ _ _ W I2) as (B & HB & Hi' & Hj').
    apply (members_cell _ _ _ _ _ _ _ _ W HA Hi Hj) in M1. apply (members_cell _ _ _ _ _ _ _ _ W HB Hi' Hj') in M2. subst l l'.
    assert (Ha : In a (allids A)). { apply in_allids; auto. exists i, j. ands; auto. apply (in_map id_of) in H1. exact H1. }
    destruct (an_graph _ _ _ _ _ W HB) as (gy & Hgy & Hny & Gy). pose proof (gi_part _ _ _ _ _ Gy) as Py.
    destruct (Nat.eq_dec x y) as [<-|Hxy].
    + assert (B = A) by congruence. subst B. assert (gy = g) by congruence. subst gy.
      destruct (gp_set _ _ _ P i j Hi Hj) as (p & _ & S1). destruct (gp_set _ _ _ P i' j' Hi' Hj') as (p' & _ & S2).
      destruct (setrep_at _ _ _ _ _ _ _ _ S1 H1) as (e1 & E1 & X1 & X2 & _). destruct (setrep_at _ _ _ _ _ _ _ _ S2 H2) as (e2 & E2 & Y1 & Y2 & _). assert (e1 = e2) by congruence. subst e2. congruence.
    + exfalso. destruct (gi_disj _ _ _ _ _ G) as (_ & _ & D3 & _). destruct (D3 a Ha) as (_ & X). apply X. apply in_flat_map. exists B. split.
      * apply nth_error_In with y. now rewrite nth_error_upd_neq.
      * apply in_allids; [apply Py|]. exists i', j'. ands; auto. apply (in_map id_of) in H2. exact H2.
Qed.
(** taking the head removes the first element, which is an edge of a set, and returns it; *)
Theorem C40_take_head : forall w x g, reached w -> nth_error (w_graphs w) x = Some g -> wl_head g <> 0 ->
  exists m' g' e a q l, take_head (w_mem w) g = Ok (m', g', e) /\ queue w x (a :: q) /\ queue (mkWorld m' (upd (w_graphs w) x g')) x q /\
    members w x (e_source e) (e_sink e) l /\ In (a, e_cond e, e_kind e) l.
Proof.
  intros w x g R Hg Hh. destruct (reached_good _ R) as (As & fl & W). destruct (world_focus _ _ _ _ _ _ W Hg) as (A & HA & G).
  destruct (awl A) as [|a rest] eqn:Ew. { exfalso. apply Hh. eapply wl_head_nil; eauto. }
  destruct (take_head_ok _ _ _ _ _ a rest G Ew) as (m' & g' & e & i & j & E & G' & Hi & Hj & Hs & Hk & Hin & Fr).
  exists m', g', e, a, rest, (cell A i j). ands; auto.
  - eapply queue_awl; eauto.
  - assert (W' : winv m' (upd (w_graphs w) x g') (upd As x (set_wl A rest)) fl).
    { eapply world_put; eauto. intros b Hb. apply Fr. intros ->. destruct (gi_disj _ _ _ _ _ G) as (_ & _ & D3 & _). destruct (D3 a) as (_ & X); [|auto].
      apply in_allids; [apply G|]. exists i, j. ands; auto. apply (in_map id_of) in Hin. exact Hin. }
    apply (queue_awl (mkWorld m' (upd (w_graphs w) x g')) _ _ x (set_wl A rest) rest W'); auto. apply nth_error_upd_eq. apply nth_error_Some. congruence.
  - rewrite Hs, Hk. eapply members_cell; eauto.
Qed.
(** adding an edge appends at most one edge, a member of the set, and takes off
    exactly freed members of that set; members that are not new were there before,
    unchanged, and neither they nor other graphs' queues are affected; *)
Theorem C40_add_edge : forall w x i j c k w', reached w -> allowed (AddEdge x i j c k) w -> step (AddEdge x i j c k) w = Ok w' ->
  exists q D new l l', queue w x q /\ queue w' x (without D q ++ new) /\ members w x i j l /\ members w' x i j l' /\
    incl D (map id_of l) /\ (new = [] \/ exists a c', new = [a] /\ In (a, c', k) l') /\
    (forall a c' k', In (a, c', k') l' -> In a new \/ (In (a, c', k') l /\ ~ In a D)) /\
    (forall y q, y <> x -> queue w y q -> queue w' y q).
Proof.
  intros w x i j c k w' R Al Est. destruct (reached_good _ R) as (As & fl & W). destruct (step_ok _ _ _ _ W Al) as (w2 & As' & fl' & E & W' & A & A' & HA & Hi & Hj & (l' & wl' & AR & ->) & ->).
  assert (w2 = w') by congruence. subst w2.
  assert (L : x < length As) by (apply nth_error_Some; congruence).
  assert (HA' : nth_error (upd As x (with_cell A i j l' wl')) x = Some (with_cell A i j l' wl')) by (now apply nth_error_upd_eq).
  destruct (an_graph _ _ _ _ _ W HA) as (g & Hg & _ & G). pose proof (gp_clen _ _ _ (gi_part _ _ _ _ _ G)) as Lc.
  assert (Nd : NoDup (ids (cell A i j))).
  { destruct (allids_cell A i j Lc Hi Hj) as (u & v & _ & Eu). destruct (gi_disj _ _ _ _ _ G) as (N & _). rewrite Eu in N. apply NoDup_mid in N. tauto. }
  destruct (addR_queue _ _ _ _ _ _ AR Nd) as (D & new & Q1 & Q2 & Q3 & Q4).
  exists (awl A), D, new, (cell A i j), l'. ands; auto.
  - eapply queue_awl; eauto.
  - apply (queue_awl _ _ _ _ _ _ W' HA'). cbn [awl with_cell]. symmetry. exact Q1.
  - eapply members_cell; eauto.
  - apply (members_cell _ _ _ _ _ _ _ _ W' HA' Hi Hj). rewrite cell_with by auto. now rewrite !Nat.eqb_refl.
  - intros y q Hy Hq. assert (exists B, nth_error As y = Some B) as (B & HB).
    { destruct Hq as (gy & Hgy & _). destruct (world_focus _ _ _ _ _ _ W Hgy) as (B & HB & _). eauto. }
    apply (queue_awl _ _ _ _ _ _ W HB) in Hq. apply (queue_awl w' _ _ y B q W'); auto. rewrite nth_error_upd_neq; auto.
Qed.
(** removing a set takes exactly its edges off the queue. *)
Theorem C40_remove : forall w x i j w', reached w -> allowed (RemoveSet x i j) w -> step (RemoveSet x i j) w = Ok w' ->
  exists q q' l, queue w x q /\ queue w' x q' /\ members w x i j l /\ members w' x i j [] /\
    (forall b, In b q' <-> In b q /\ ~ In b (map id_of l)) /\ (forall y q, y <> x -> queue w y q -> queue w' y q).
Proof.
  intros w x i j w' R Al Est. destruct (reached_good _ R) as (As & fl & W). destruct (step_ok _ _ _ _ W Al) as (w2 & As' & fl' & E & W' & A & HA & Hi & Hj & ->).
  assert (w2 = w') by congruence. subst w2. set (A' := with_cell A i j [] (rms (ids (cell A i j)) (awl A))) in *.
  assert (L : x < length As) by (apply nth_error_Some; congruence).
  assert (HA' : nth_error (upd As x A') x = Some A') by (now apply nth_error_upd_eq).
  destruct (an_graph _ _ _ _ _ W HA) as (g & Hg & _ & G). pose proof (gp_clen _ _ _ (gi_part _ _ _ _ _ G)) as Lc.
  exists (awl A), (awl A'), (cell A i j). ands.
  - eapply queue_awl; eauto.
  - apply (queue_awl _ _ _ _ _ _ W' HA'). reflexivity.
  - eapply members_cell; eauto.
  - apply (members_cell _ _ _ _ _ _ _ _ W' HA' Hi Hj). unfold A'. rewrite cell_with by auto. now rewrite !Nat.eqb_refl.
  - intros b. cbn [awl A' with_cell]. apply in_rms.
  - intros y q Hy Hq. assert (exists B, nth_error As y = Some B) as (B & HB).
    { destruct Hq as (gy & Hgy & _). destruct (world_focus _ _ _ _ _ _ W Hgy) as (B & HB & _). eauto. }
    apply (queue_awl _ _ _ _ _ _ W HB) in Hq. apply (queue_awl w' _ _ y B q W'); auto. rewrite nth_error_upd_neq; auto.
Qed.

(** A concrete history: complementary conditions merge, stronger edges are dropped,
    freed structures are used again. *)
Definition history : list op :=
  [NewGraph 2; AddEdge 0 0 1 (mkCond 1 0) 3; AddEdge 0 0 1 (mkCond 2 0) 1; AddEdge 0 1 1 (mkCond 0 0) 5; AddEdge 0 0 1 (mkCond 0 1) 3; TakeHead 0; AddEdge 0 1 0 (mkCond 4 0) 7; RemoveSet 0 0 1]%N.
Fixpoint run (l : list op) (w : world) : res world := match l with [] => Ok w | o :: l => w <- step o w ;; run l w end.
Definition in_graphb (w : world) (x i j : nat) : bool := match nth_error (w_graphs w) x with Some g => (i <? n_inst g) && (j <? n_inst g) | None => false end.
Definition allowedb (o : op) (w : world) : bool :=
  match o with
  | NewGraph n => true
  | AddEdge x i j c k => in_graphb w x i j && negb (N.eqb k 0) && N.eqb (N.land (positive c) (negative c)) 0
  | TakeHead x => match nth_error (w_graphs w) x with Some g => negb (wl_head g =? 0) | None => false end
  | RemoveSet x i j => in_graphb w x i j
  end.
Fixpoint runb (l : list op) (w : world) : option world :=
  match l with [] => Some w | o :: l => if allowedb o w then match step o w with Ok w => runb l w | _ => None end else None end.
Lemma in_graphb_ok w x i j : in_graphb w x i j = true -> in_graph w x i j.
Proof. unfold in_graphb, in_graph. destruct (nth_error (w_graphs w) x) as [g|]; [|discriminate]. rewrite andb_true_iff, !Nat.ltb_lt. eauto. Qed.
Lemma sat_mask c : N.land (positive c) (negative c) = 0%N -> satisfiable c.
Proof.
  intros Z. apply sat_consistent. intros i H1 H2. assert (Y := f_equal (fun x => N.testbit x i) Z). cbn beta in Y. rewrite N.land_spec in Y. unfold tb in *. rewrite H1, H2, N.bits_0 in Y. discriminate.
Qed.
Lemma runb_ok l : forall w w', reached w -> runb l w = Some w' -> run l w = Ok w' /\ reached w'.
Proof.
  induction l as [|o l IH]; intros w w' R H; cbn [runb run] in *; [injection H as <-; auto|].
  destruct (allowedb o w) eqn:A; [|discriminate]. destruct (step o w) as [w1| | |] eqn:E; try discriminate. cbn [bind]. apply IH; auto. eapply reached_step; eauto.
  destruct o as [n|x i j c k|x|x i j]; cbn [allowedb allowed] in *; auto using in_graphb_ok.
  - rewrite !andb_true_iff, negb_true_iff, N.eqb_neq, N.eqb_eq in A. destruct A as ((A1 & A2) & A3). ands; auto using in_graphb_ok, sat_mask.
  - destruct (nth_error (w_graphs w) x) as [g|]; [|discriminate]. exists g. split; auto. apply negb_true_iff, Nat.eqb_neq in A. auto.
Qed.
Example C40_example : exists w, run history (mkWorld (mkMem [] 0) []) = Ok w /\ reached w /\ queue w 0 [1] /\ kind_under w 0 1 0 (fun _ => true) = Ok 7%N.
Proof.
  destruct (runb history (mkWorld (mkMem [] 0) [])) as [w|] eqn:E; [|vm_compute in E; discriminate].
  destruct (runb_ok _ _ _ reached_start E) as [H1 H2]. exists w. split; auto. split; auto. clear H1 H2. vm_compute in E. injection E as <-. split.
  - eexists. split; [reflexivity|]. vm_compute. reflexivity.
  - vm_compute. reflexivity.
Qed.
Print Assumptions C39_add_edge.
Print Assumptions C40_no_corruption.
Print Assumptions C40_queue.
Print Assumptions C40_take_head.
Print Assumptions C40_add_edge.
Print Assumptions C40_remove.
