(** * InitProofs: graphs made by adding the edges of rules; where instances lie. *)
From Verif Require Import Base CondModel EdgeModel DncModel PropsCond EdgeProofs EdgeAddProofs EdgeGraph EdgeSem EdgeWorld PropsEdge SummaryProofs CloseProofs PropsClose DncProofs PropsDnc PropsTree GbModel GbSpec GbInst GbCond GbFlow GbExact GbGraph PropsBuild InitModel.
From Coq Require Import Cantor.
Open Scope nat_scope.

(** ** Graphs *)
Definition someA (A : agraph) : Prop := forall l a c k, In l (acells A) -> In (a, c, k) l -> N.testbit k 0 = true.
Definition fresh (w : world) (ns : list nat) : Prop :=
  PropsClose.built w /\ exists As fl, winv (w_mem w) (w_graphs w) As fl /\ map an As = ns /\ forall A, In A As -> someA A.
Lemma fresh_start : fresh (mkWorld (mkMem [] 0) []) [].
Proof. split; [apply built_start|]. exists [], []. split; [apply world_nil|]. split; [reflexivity|]. intros A []. Qed.
Lemma fresh_new w ns n w' : fresh w ns -> step (NewGraph n) w = Ok w' -> fresh w' (ns ++ [n]).
Proof.
  intros (Bw & As & fl & W & Q & H) E. split; [eapply built_new; eauto|]. destruct (step_ok w As fl (NewGraph n) W I) as (w2 & As' & fl' & E2 & W' & ->). assert (w2 = w') by congruence. subst w2.
  exists (As ++ [new_a n]), fl'. split; [exact W'|]. split; [rewrite map_app, Q; reflexivity|]. intros A HA. apply in_app_iff in HA. destruct HA as [HA|[<-|[]]]; [now apply H|]. intros l a c k Hl. apply repeat_spec in Hl. subst. intros [].
Qed.
Lemma addR_some c k l wl l' wl' : addR c k l wl l' wl' -> N.testbit k 0 = true -> (forall a c k, In (a, c, k) l -> N.testbit k 0 = true) -> forall a c k, In (a, c, k) l' -> N.testbit k 0 = true.
Proof.
  induction 1; intros Hk Hl a0 c0 k0 Hin.
  - destruct Hin as [Q|[]]. injection Q as <- <- <-. exact Hk.
  - exact (Hl _ _ _ Hin).
  - apply (IHaddR Hk) with a0 c0; [|exact Hin]. intros a1 c1 k1 H3. apply (Hl a1 c1 k1). now right.
  - apply (IHaddR Hk) with a0 c0; [|exact Hin]. intros a1 c1 k1 H3. apply (Hl a1 c1 k1). now right.
  - destruct Hin as [Q|Hin]; [injection Q as <- <- <-; apply (Hl a c'); now left|]. apply (IHaddR Hk) with a0 c0; [|exact Hin]. intros a1 c1 k1 H5. apply (Hl a1 c1 k1). now right.
Qed.
Lemma map_upd_same {X Y} (f : X -> Y) l : forall i x y, nth_error l i = Some x -> f y = f x -> map f (upd l i y) = map f l.
Proof. induction l as [|h t IH]; intros [|i] x y H Q; cbn [nth_error] in H; try discriminate; cbn [upd map]; [injection H as ->; now rewrite Q|f_equal; eapply IH; eauto]. Qed.
Lemma in_upd {X} (l : list X) : forall i x y, In x (upd l i y) -> x = y \/ In x l.
Proof. induction l as [|h t IH]; intros [|i] x y H; cbn [upd] in H; try (destruct H; fail); cbn [In] in *; intuition. - destruct (IH _ _ _ H0); auto. Qed.
Lemma fresh_add w ns x i j c k w' : fresh w ns -> allowed (AddEdge x i j c k) w -> sound k = true -> step (AddEdge x i j c k) w = Ok w' -> fresh w' ns.
Proof.
  intros (Bw & As & fl & W & Q & H) Al Sk E. split; [eapply built_add; eauto; exact (sound_ok _ Sk)|].
  destruct (step_ok w As fl (AddEdge x i j c k) W Al) as (w2 & As' & fl' & E2 & W' & A & A' & HA & Hi & Hj & (l' & wl' & Ar & ->) & ->). assert (w2 = w') by congruence. subst w2.
  exists (upd As x (with_cell A i j l' wl')), fl'. split; [exact W'|]. split; [rewrite (map_upd_same an As x A (with_cell A i j l' wl') HA eq_refl); exact Q|].
  intros A0 HA0. apply in_upd in HA0. destruct HA0 as [->|HA0]; [|now apply H]. pose proof (H A (nth_error_In _ _ HA)) as SA. intros l a c0 k0 Hl Hin. cbn [with_cell acells] in Hl. apply in_upd in Hl.
  destruct Hl as [->|Hl]; [|exact (SA l a c0 k0 Hl Hin)]. eapply (addR_some _ _ _ _ _ _ Ar); [|..|exact Hin].
  - unfold sound in Sk. rewrite !andb_true_iff in Sk. tauto.
  - intros a1 c1 k1 Hin1. destruct (an_graph _ _ _ _ _ W HA) as (g & _ & _ & G). pose proof (gp_clen _ _ _ (gi_part _ _ _ _ _ G)) as L. exact (SA _ a1 c1 k1 (cell_in A i j L Hi Hj) Hin1).
Qed.
Lemma fresh_graph w ns x : fresh w ns -> option_map n_inst (nth_error (w_graphs w) x) = nth_error ns x.
Proof.
  intros (_ & As & fl & W & <- & _). rewrite nth_error_map. destruct (nth_error As x) as [A|] eqn:HA; cbn [option_map].
  - destruct (an_graph _ _ _ _ _ W HA) as (g & Hg & En & _). rewrite Hg. cbn [option_map]. now rewrite En.
  - apply nth_error_None in HA. rewrite (wi_len _ _ _ _ W) in HA. apply nth_error_None in HA. now rewrite HA.
Qed.
Lemma fresh_len w ns : fresh w ns -> length (w_graphs w) = length ns.
Proof. intros (_ & As & fl & W & <- & _). now rewrite map_length, (wi_len _ _ _ _ W). Qed.
Lemma fresh_all x l : forall w ns w', fresh w ns -> (forall e, In e l -> in_graph w x (d_src e) (d_snk e) /\ satisfiable (d_cond e) /\ sound (d_kind e) = true) -> add_all x l w = Ok w' -> fresh w' ns.
Proof.
  induction l as [|e l IH]; intros w ns w' F H E; cbn [add_all] in E; [injection E as <-; exact F|].
  destruct (H e (or_introl eq_refl)) as (Hg & Hc & Hk). assert (Hz : d_kind e <> no_dependency) by (intros Z; rewrite Z in Hk; discriminate). assert (Al : allowed (AddEdge x (d_src e) (d_snk e) (d_cond e) (d_kind e)) w) by (split; auto).
  destruct (C39_add_edge w x _ _ _ _ (built_reached _ (proj1 F)) Al) as (w1 & S1 & _). rewrite S1 in E. cbn [bind] in E. apply (IH w1 ns w'); [eapply fresh_add; eauto| |exact E].
  intros e' He'. destruct (H e' (or_intror He')) as (A1 & A2). split; [|exact A2]. now apply (add_keeps _ _ _ _ _ _ _ (built_reached _ (proj1 F)) Al S1).
Qed.
Lemma fresh_some w ns ps : fresh w ns -> some_kinds (mkState (w_mem w) (w_graphs w) ps).
Proof.
  intros (_ & As & fl & W & _ & H) x i j l a c k M (g & Hg & Hi & Hj) Hin. unfold graphs_of in *. cbn [st_mem st_augs w_mem w_graphs] in *.
  destruct (world_focus _ _ _ _ _ _ W Hg) as (A & HA & G). pose proof (gp_n _ _ _ (gi_part _ _ _ _ _ G)) as En. pose proof (gp_clen _ _ _ (gi_part _ _ _ _ _ G)) as L. rewrite En in Hi, Hj.
  apply (members_cell (mkWorld (w_mem w) (w_graphs w)) As fl x A i j l W HA Hi Hj) in M. subst l. exact (H A (nth_error_In _ _ HA) _ a c k (cell_in A i j L Hi Hj) Hin).
Qed.
Lemma rule_edges_sound E R bt : build E R = Ok bt -> no_for (r_body R) -> forall e, In e (b_edges bt) -> sound (d_kind e) = true.
Proof.
  intros H N e He. destruct (build_ok _ _ _ H) as (n & Qb & Qn & _ & _ & Qi & Qe). rewrite Qe in *. pose proof (built_numbered _ _ _ H N) as Nb.
  assert (T : forall t, In t (tests (b_body bt)) -> satisfiable (t_cond t)) by exact (proj1 (proj2 tests_sat) _ _ _ Nb no_cond (below_no 0) sat_no).
  assert (P : Forall (proper E R (b_body bt) n) (edges E R (b_body bt) n)). { unfold edges. apply Forall_app. split; [|apply shared_proper]. exact (proj1 (proj2 (edges_proper E R (b_body bt) n T)) _ _ _ Nb no_cond (below_no 0) sat_no). }
  rewrite Forall_forall in P. now destruct (P e He) as (_ & _ & P3 & _).
Qed.

(** ** Where the instances of a node lie *)
Lemma label_eq i j : label i = label j <-> i_attr i = i_attr j /\ i_fiber i = i_fiber j.
Proof.
  unfold label. split.
  - intros H. apply to_nat_inj in H. injection H as H1 H2. split.
    + destruct (i_attr i), (i_attr j); f_equal; lia.
    + destruct (i_fiber i), (i_fiber j); congruence.
  - intros [-> ->]. reflexivity.
Qed.
Lemma index_skip d l2 : forall l1 h, ~ In (Index d) l1 -> index_in d h (l1 ++ Index d :: l2) = Some (h + length (insts_of l1)).
Proof.
  induction l1 as [|[d'|i] l1 IH]; intros h H; cbn [app index_in].
  - rewrite Nat.eqb_refl. f_equal. cbn. lia.
  - destruct (Nat.eqb_spec d' d) as [->|D]; [exfalso; apply H; now left|]. rewrite IH by (intros K; apply H; now right). reflexivity.
  - rewrite IH by (intros K; apply H; now right). f_equal. unfold insts_of. cbn [flat_map app length]. lia.
Qed.
Lemma node_index E m phy d : In (Index d) (node_items E m phy) -> d = m.
Proof.
  intros [H|H]; [congruence|]. apply in_flat_map in H. destruct H as (a & _ & H). apply with_fibers_in in H. destruct H as (f & _ & H). discriminate.
Qed.
Lemma kid_index E k d : In (Index d) (kid_items E k) -> d = fst k.
Proof. unfold kid_items. destruct (snd k) as [phy|]; [apply node_index|]. intros [H|[]]. congruence. Qed.
(** the instances of a node, in order: every attribute with its fibers *)
Definition phylum_fibers (E : genv) (phy : decl) : list (decl * option fiber) :=
  flat_map (fun a => (a, None) :: map (fun f => (a, Some f)) (e_normal E a ++ e_backward E a)) (e_attrs E phy).
Lemma fibers_insts E a m : insts_of (with_fibers E a m) = map (fun '(a, f) => mkInst (AD a) f m) ((a, None) :: map (fun f => (a, Some f)) (e_normal E a ++ e_backward E a)).
Proof.
  unfold with_fibers. rewrite <- map_app. cbn [map]. unfold insts_of. cbn [flat_map app]. f_equal. rewrite map_map. induction (e_normal E a ++ e_backward E a) as [|f l IH]; cbn [map flat_map app]; [reflexivity|now f_equal].
Qed.
Lemma node_insts E m l : insts_of (flat_map (fun a => with_fibers E a m) l) = map (fun '(a, f) => mkInst (AD a) f m) (flat_map (fun a => (a, None) :: map (fun f => (a, Some f)) (e_normal E a ++ e_backward E a)) l).
Proof. induction l as [|a l IH]; [reflexivity|]. cbn [flat_map]. now rewrite insts_app, map_app, IH, fibers_insts. Qed.
Lemma node_items_insts E m phy : insts_of (node_items E m phy) = map (fun '(a, f) => mkInst (AD a) f (Some m)) (phylum_fibers E phy).
Proof. unfold node_items. change (insts_of (Index m :: ?l)) with (insts_of l). apply node_insts. Qed.
Lemma summary_as E phy : summary_insts E phy = map (fun '(a, f) => mkInst (AD a) f None) (phylum_fibers E phy).
Proof. apply node_insts. Qed.
Lemma summary_size E phy : p_n (init_summary E phy) = length (phylum_fibers E phy).
Proof. unfold p_n, init_summary. cbn [p_labels]. now rewrite map_length, summary_as, map_length. Qed.
Lemma block_labels E m phy : map label (insts_of (node_items E m phy)) = p_labels (init_summary E phy).
Proof. rewrite node_items_insts. unfold init_summary. cbn [p_labels]. rewrite summary_as, !map_map. apply map_ext. intros [a f]. reflexivity. Qed.
Lemma phylum_fibers_in E phy a f : In (a, f) (phylum_fibers E phy) <-> In a (e_attrs E phy) /\ fiber_of E a f.
Proof.
  unfold phylum_fibers, fiber_of. rewrite in_flat_map. split.
  - intros (a' & Ha & [Q|Q]); [injection Q as -> <-; auto|]. apply in_map_iff in Q. destruct Q as (x & Q & Hx). injection Q as -> <-. split; [exact Ha|]. right. eauto.
  - intros [Ha [->|(x & -> & Hx)]]; exists a; (split; [exact Ha|]); [now left|right]. apply in_map_iff. eauto.
Qed.

Section PLACES.
Context (E : genv) (R : grule) (b : block) (n : nat).
(** a node of the rule *)
Definition placed (m phy : decl) (st : nat) : Prop := start E R b n (AD m) (Some m) = st /\ st + length (phylum_fibers E phy) <= length (instances E R b n) /\
  forall i, i < length (phylum_fibers E phy) -> nth_error (instances E R b n) (st + i) = nth_error (insts_of (node_items E m phy)) i.
Lemma placed_split m phy l1 l2 : items E R b = l1 ++ node_items E m phy ++ l2 -> ~ In (Index m) l1 -> placed m phy (n + length (insts_of l1)).
Proof.
  intros Q H. split; [|split].
  - unfold start. rewrite Q. unfold node_items at 1. cbn [app]. now rewrite (index_skip m _ l1 n H).
  - unfold instances. rewrite Q, !insts_app, !app_length, map_length, seq_length, node_items_insts, map_length. lia.
  - intros i Hi. unfold instances. rewrite Q, !insts_app. rewrite nth_error_app2 by (rewrite map_length, seq_length; lia). rewrite map_length, seq_length. rewrite nth_error_app2 by lia.
    replace (n + length (insts_of l1) + i - n - length (insts_of l1)) with i by lia. apply nth_error_app1. rewrite node_items_insts, map_length. exact Hi.
Qed.
Lemma lhs_placed : placed (r_lhs R) (r_phy R) n.
Proof. replace n with (n + length (insts_of [])) at 1 by (cbn; lia). apply placed_split with (flat_map (kid_items E) (r_kids R) ++ items_block E b); [reflexivity|intros []]. Qed.
Lemma kid_placed k m phy : NoDup (r_lhs R :: map fst (r_kids R)) -> nth_error (r_kids R) k = Some (m, Some phy) -> exists st, placed m phy st.
Proof.
  intros N H. destruct (nth_error_split _ _ H) as (k1 & k2 & Q & _).
  exists (n + length (insts_of (node_items E (r_lhs R) (r_phy R) ++ flat_map (kid_items E) k1))). apply placed_split with (flat_map (kid_items E) k2 ++ items_block E b).
  - unfold items. rewrite Q, flat_map_app. cbn [flat_map]. unfold kid_items at 2. cbn [fst snd]. now rewrite <- !app_assoc.
  - rewrite Q, map_app in N. cbn [map fst] in N. rewrite app_comm_cons in N. apply NoDup_remove_2 in N. intros K. apply N. apply in_or_app. left. apply in_app_iff in K. destruct K as [K|K].
    + left. symmetry. now apply node_index in K.
    + right. apply in_flat_map in K. destruct K as (x & Hx & K). apply kid_index in K. rewrite K. now apply in_map.
Qed.
End PLACES.

(** ** The parts of the initial state *)
Definition located (G : grammar) (insts : list ainst) (m phy : decl) (blk : nat * option nat) : Prop :=
  exists st y, blk = (st, Some y) /\ nth_error (gr_phyla G) y = Some phy /\ st + length (phylum_fibers (gr_env G) phy) <= length insts /\
  forall i a f, nth_error (phylum_fibers (gr_env G) phy) i = Some (a, f) -> nth_error insts (st + i) = Some (mkInst (AD a) f (Some m)).
Definition kid_located (G : grammar) (insts : list ainst) (k : decl * option decl) (blk : nat * option nat) : Prop :=
  match snd k with Some phy => located G insts (fst k) phy blk | None => snd blk = None end.
Lemma index_of_in d : forall l, In d l -> exists y, index_of d l = Some y /\ nth_error l y = Some d.
Proof.
  induction l as [|d' l IH]; intros H; [destruct H|]. cbn [index_of]. destruct (Nat.eqb_spec d' d) as [->|D]; [exists 0; split; reflexivity|].
  destruct H as [H|H]; [contradiction|]. destruct (IH H) as (y & Q & Hy). exists (S y). rewrite Q. split; [reflexivity|exact Hy].
Qed.
Lemma summary_found G d : In d (gr_phyla G) -> exists y, summary_graph_for (gr_phyla G) d = Ok y /\ nth_error (gr_phyla G) y = Some d.
Proof. intros H. destruct (index_of_in d _ H) as (y & Q & Hy). exists y. unfold summary_graph_for. rewrite Q. split; [reflexivity|exact Hy]. Qed.
Lemma placed_located G x R b n m phy st y : placed (env_of G x) R b n m phy st -> nth_error (gr_phyla G) y = Some phy -> located G (instances (env_of G x) R b n) m phy (st, Some y).
Proof.
  intros (_ & P2 & P3) Hy. exists st, y. split; [reflexivity|]. split; [exact Hy|]. split; [exact P2|]. intros i a f H. change (phylum_fibers (gr_env G) phy) with (phylum_fibers (env_of G x) phy) in H.
  rewrite P3 by (apply nth_error_Some; congruence). rewrite node_items_insts, nth_error_map, H. reflexivity.
Qed.
Lemma kids_located G x R b n : NoDup (r_lhs R :: map fst (r_kids R)) -> forall ks, (forall k, In k ks -> In k (r_kids R)) -> (forall m phy, In (m, Some phy) ks -> In phy (gr_phyla G)) ->
  exists bs, kid_blocks (gr_phyla G) (fun d => start (env_of G x) R b n (AD d) (Some d)) ks = Ok bs /\ Forall2 (kid_located G (instances (env_of G x) R b n)) ks bs.
Proof.
  intros N. induction ks as [|[m [phy|]] ks IH]; intros Hk Hp; cbn [kid_blocks].
  - exists []. split; [reflexivity|constructor].
  - destruct (summary_found G phy (Hp m phy (or_introl eq_refl))) as (y & Q & Hy). rewrite Q. cbn [bind].
    destruct IH as (bs & Q2 & F); [intros k H; apply Hk; now right|intros m' p' H; apply (Hp m' p'); now right|]. rewrite Q2. cbn [bind]. eexists. split; [reflexivity|]. constructor; [|exact F].
    destruct (In_nth_error _ _ (Hk _ (or_introl eq_refl))) as (i & Hi). destruct (kid_placed (env_of G x) R b n i m phy N Hi) as (st & P). unfold kid_located. cbn [snd fst]. pose proof (proj1 P) as Z. rewrite Z. now apply placed_located.
  - destruct IH as (bs & Q2 & F); [intros k H; apply Hk; now right|intros m' p' H; apply (Hp m' p'); now right|]. rewrite Q2. cbn [bind]. eexists. split; [reflexivity|]. constructor; [reflexivity|exact F].
Qed.

(** ** The builder does not stop *)
Lemma lhs_fine : (forall e, calls_in e = [] -> lhs_undefined e = false) /\ (forall es, callss_in es = [] -> lhss_undefined es = false).
Proof.
  apply exprs_mutind; intros; cbn [calls_in callss_in lhs_undefined lhss_undefined] in *; auto.
  - discriminate.
  - apply app_eq_nil in H1. destruct H1 as [H1 H2]. rewrite H by exact H1. now rewrite H0.
Qed.
Definition no_calls (l : list expr) : Prop := flat_map calls_in l = [].
Lemma no_calls_app l1 l2 : no_calls (l1 ++ l2) <-> no_calls l1 /\ no_calls l2.
Proof. unfold no_calls. rewrite flat_map_app. split; [apply app_eq_nil|intros [-> ->]; reflexivity]. Qed.
Lemma no_calls_cons e l : no_calls (e :: l) <-> calls_in e = [] /\ no_calls l.
Proof. unfold no_calls. cbn [flat_map]. split; [apply app_eq_nil|intros [-> ->]; reflexivity]. Qed.
Lemma body_fine : (forall s, no_calls (texts_stmt s) -> undefined_stmt s = false) /\ (forall b, no_calls (texts b) -> undefined_block b = false) /\ (forall ms, no_calls (texts_matches ms) -> undefined_matches ms = false).
Proof.
  apply stmts_mut; intros; cbn [texts_stmt texts texts_matches undefined_stmt undefined_block undefined_matches] in *; rewrite ?no_calls_cons, ?no_calls_app in *; auto.
  - apply lhs_fine. tauto.
  - rewrite H by tauto. rewrite H0 by tauto. reflexivity.
  - rewrite H by tauto. rewrite H0 by tauto. reflexivity.
  - apply H. tauto.
  - apply H. tauto.
  - rewrite H by tauto. rewrite H0 by tauto. reflexivity.
  - rewrite H by tauto. rewrite H0 by tauto. reflexivity.
Qed.
Lemma buildable E R : tests_inb (r_body R) <= 32 -> rule_calls R = [] -> exists bt, build E R = Ok bt.
Proof.
  intros H C. unfold build. pose proof (proj1 (proj2 number_count) (r_body R) 0) as Hn. pose proof (proj1 (proj2 number_texts) (r_body R) 0) as [Ht _]. destruct (number_block 0 (r_body R)) as [b n]. cbn [fst snd Nat.add] in *.
  destruct (Nat.ltb_spec 32 n) as [L|L]; [lia|]. rewrite (proj1 (proj2 body_fine) b); [eexists; reflexivity|]. unfold no_calls. rewrite Ht. exact C.
Qed.
