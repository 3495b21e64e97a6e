(** * PropsInit: C159-C160 (from the text of a grammar to its analysis). *)
From Verif Require Import Base CondModel EdgeModel DncModel PropsCond EdgeProofs EdgeAddProofs EdgeGraph EdgeSem EdgeWorld PropsEdge SummaryProofs CloseProofs PropsClose DncProofs PropsDnc PropsTree GbModel GbSpec GbInst GbCond GbFlow GbExact GbGraph PropsBuild InitModel InitProofs.
Open Scope nat_scope.

(** ** Specification *)
(** A grammar of rules only: no calls of functions of the module, no [for], at most 32
    tests in a rule; every declaration is declared once. *)
Record grammar_ok (G : grammar) : Prop := {
  go_phyla : NoDup (gr_phyla G);
  go_start : In (gr_start G) (gr_phyla G);
  go_attrs : forall phy, NoDup (e_attrs (gr_env G) phy);
  go_sets : forall a, NoDup (e_base (gr_env G) :: e_normal (gr_env G) a ++ e_backward (gr_env G) a);
  go_names : forall R, In R (gr_rules G) -> NoDup (names R);
  go_calls : forall R, In R (gr_rules G) -> rule_calls R = [];
  go_for : forall R, In R (gr_rules G) -> no_for (r_body R);
  go_tests : forall R, In R (gr_rules G) -> tests_inb (r_body R) <= 32;
  go_lhs : forall R, In R (gr_rules G) -> In (r_phy R) (gr_phyla G);
  go_kids : forall R m phy, In R (gr_rules G) -> In (m, Some phy) (r_kids R) -> In phy (gr_phyla G)
}.
(** The instances of an attribute of node [m] with phylum [phy] lie from [st] on, as the
    summary graph number [y] of the phylum numbers them. *)
Definition at_node (G : grammar) (s : state) (rules : list DncModel.rule) (x b : nat) (insts : list ainst) (m phy : decl) : Prop :=
  exists st y p, node_at rules s x b st y p /\ nth_error (gr_phyla G) y = Some phy /\ is_func p = false /\
  (forall a f, In a (e_attrs (gr_env G) phy) -> fiber_of (gr_env G) a f -> exists i, i < p_n p /\ nth_error (p_labels p) i = Some (label (mkInst (AD a) f None))) /\
  forall i a f, nth_error (p_labels p) i = Some (label (mkInst (AD a) f None)) -> nth_error insts (st + i) = Some (mkInst (AD a) f (Some m)).
(** The graph of rule [x] has the edges the builder asks for (under every outcome, between
    every two instances, their join), and its nodes are tied to the summary graphs. *)
Definition describes (G : grammar) (rules : list DncModel.rule) (s : state) : Prop :=
  forall x R, nth_error (gr_rules G) x = Some R -> exists bt, GbModel.build (env_of G x) R = Ok bt /\
    (forall i j o, i < length (b_insts bt) -> j < length (b_insts bt) -> in_graph (graphs_of s) x i j /\ joined o i j (b_edges bt) (kind_of_pair (graphs_of s) x o i j)) /\
    at_node G s rules x 0 (b_insts bt) (r_lhs R) (r_phy R) /\
    forall k m phy, nth_error (r_kids R) k = Some (m, Some phy) -> at_node G s rules x (S k) (b_insts bt) m phy.
(** The summary graph of a phylum has the attributes of the phylum with their fibers, each
    once, and no dependency; there is one more graph, of the root's attributes, without
    edges. *)
Definition blank (G : grammar) (rules : list DncModel.rule) (s : state) : Prop :=
  length (st_phys s) = length (gr_phyla G) /\
  (forall y phy, nth_error (gr_phyla G) y = Some phy -> exists p, nth_error (st_phys s) y = Some p /\ is_func p = false /\ (forall k, In k (mingraph p) -> k = no_dependency) /\
     NoDup (p_labels p) /\ forall l, In l (p_labels p) <-> exists a f, In a (e_attrs (gr_env G) phy) /\ fiber_of (gr_env G) a f /\ l = label (mkInst (AD a) f None)) /\
  let x := length (gr_rules G) in length rules = S x /\
  exists insts, at_node G s rules x 0 insts (gr_module G) (gr_start G) /\
    forall i j o, i < length insts -> j < length insts -> in_graph (graphs_of s) x i j /\ kind_of_pair (graphs_of s) x o i j = no_dependency.

(** *** Syntax trees, and who influences whom in one *)
(** A tree over the rules of the grammar: the rule below a child is one for the child's
    phylum; the outcome of the tests is part of a node. *)
Inductive tree_of (rules : list grule) : tree -> Prop :=
| tree_of_node x o cs R : nth_error rules x = Some R ->
    (forall b T, In (b, T) cs -> tree_of rules T /\
       exists k m R', b = S k /\ nth_error rules (t_rule T) = Some R' /\ nth_error (r_kids R) k = Some (m, Some (r_phy R'))) ->
    tree_of rules (Node x o cs).
(** An attribute (or variable, or test) of an occurrence, possibly with a fiber. *)
Definition place_of := (list nat * ainst)%type.
(** The attributes of a child are those of the left-hand side of the rule below it. *)
Inductive same_place (G : grammar) (T : tree) : place_of -> place_of -> Prop :=
| same_below path T0 c k T1 R R' m a f : subtree T path = Some T0 -> nth_error (t_children T0) c = Some (S k, T1) ->
    nth_error (gr_rules G) (t_rule T0) = Some R -> nth_error (gr_rules G) (t_rule T1) = Some R' -> nth_error (r_kids R) k = Some (m, Some (r_phy R')) ->
    In a (e_attrs (gr_env G) (r_phy R')) -> fiber_of (gr_env G) a f ->
    same_place G T (path, mkInst (AD a) f (Some m)) (path ++ [c], mkInst (AD a) f (Some (r_lhs R')))
| same_above u v : same_place G T u v -> same_place G T v u.
(** Changing the value of p alone changes what the rule gives to q, for some meaning of the
    operations and some values; or p is a test, and its outcome alone does. *)
Definition influences (E : genv) (R : grule) (o : outcome) (p q : ainst) : Prop :=
  let body := fst (number_block 0 (r_body R)) in wanted E R p /\ wanted E R q /\
  ((plain (r_body R) /\ exists I sg sg', (forall p', p' <> p -> sg p' = sg' p') /\ given I q (run E R I o sg body) <> given I q (run E R I o sg' body)) \/
   (exists k I sg o', p = mkInst (AT k) None None /\ (forall d, In d (sometimes false (r_body R)) -> q <> mkInst (AD d) None None) /\
      (forall k', k' <> k -> yes o k' = yes o' k') /\ given I q (run E R I o sg body) <> given I q (run E R I o' sg body))).
(** A chain of influences through the tree, and how many there are. *)
Inductive flows (G : grammar) (T : tree) : place_of -> place_of -> nat -> Prop :=
| flow_nil u : flows G T u u 0
| flow_same u v w n : same_place G T u v -> flows G T v w n -> flows G T u w n
| flow_step path T0 R p q w n : subtree T path = Some T0 -> nth_error (gr_rules G) (t_rule T0) = Some R -> influences (gr_env G) R (t_out T0) p q ->
    flows G T (path, q) w n -> flows G T (path, p) w (S n).

(** ** Proofs *)
Lemma nodup_front {X} (l1 l2 : list X) : NoDup (l1 ++ l2) -> NoDup l1.
Proof. induction l1 as [|a l1 IH]; intros H; [constructor|]. cbn [app] in H. inversion H; subst. constructor; [|auto]. intros K. apply H2, in_or_app. now left. Qed.
Lemma nodup_both {X} (l1 l2 : list X) : NoDup l1 -> NoDup l2 -> (forall x, In x l1 -> In x l2 -> False) -> NoDup (l1 ++ l2).
Proof.
  induction l1 as [|a l1 IH]; intros N1 N2 H; [exact N2|]. inversion N1; subst. cbn [app]. constructor.
  - intros K. apply in_app_iff in K. destruct K as [K|K]; [contradiction|]. apply (H a); [now left|exact K].
  - apply IH; auto. intros x H1 H5. apply (H x); [now right|exact H5].
Qed.
Lemma names_nodes R : NoDup (names R) -> NoDup (r_lhs R :: map fst (r_kids R)).
Proof. unfold names. rewrite app_comm_cons. apply nodup_front. Qed.
Lemma kind_of_keeps w w' x o i j : kind_under w' x i j o = kind_under w x i j o -> kind_of_pair w' x o i j = kind_of_pair w x o i j.
Proof. unfold kind_of_pair. now intros ->. Qed.

(** the rule of the analysis that stands for a rule of the grammar *)
Definition stands (G : grammar) (x : nat) (R : grule) (bt : GbModel.built) (r : DncModel.rule) : Prop :=
  GbModel.build (env_of G x) R = Ok bt /\ r_labels r = map label (b_insts bt) /\
  exists b0 bs, r_blocks r = b0 :: bs /\ located G (b_insts bt) (r_lhs R) (r_phy R) b0 /\ Forall2 (kid_located G (b_insts bt)) (r_kids R) bs.
Definition has_edges (w : world) (x : nat) (bt : GbModel.built) : Prop :=
  forall i j o, i < length (b_insts bt) -> j < length (b_insts bt) -> in_graph w x i j /\ exists k, kind_under w x i j o = Ok k /\ joined o i j (b_edges bt) k.
Definition keeps (w w' : world) : Prop := forall y i j, in_graph w y i j -> in_graph w' y i j /\ forall o, kind_under w' y i j o = kind_under w y i j o.
Lemma keeps_refl w : keeps w w.
Proof. intros y i j H. auto. Qed.
Lemma keeps_trans w1 w2 w3 : keeps w1 w2 -> keeps w2 w3 -> keeps w1 w3.
Proof. intros A B y i j H. destruct (A y i j H) as [H2 K2]. destruct (B y i j H2) as [H3 K3]. split; [exact H3|]. intros o. now rewrite K3. Qed.
Lemma keeps_edges w w' x bt : keeps w w' -> has_edges w x bt -> has_edges w' x bt.
Proof. intros K H i j o Hi Hj. destruct (H i j o Hi Hj) as (Hg & k & Q & J). destruct (K x i j Hg) as [Hg' K']. split; [exact Hg'|]. exists k. rewrite K'. auto. Qed.
Lemma fresh_in w ns x i j : fresh w ns -> in_graph w x i j <-> exists n, nth_error ns x = Some n /\ i < n /\ j < n.
Proof.
  intros F. pose proof (fresh_graph w ns x F) as Q. unfold in_graph. split.
  - intros (g & Hg & Hi & Hj). rewrite Hg in Q. cbn [option_map] in Q. exists (n_inst g). rewrite <- Q. auto.
  - intros (n & Hn & Hi & Hj). destruct (nth_error (w_graphs w) x) as [g|]; cbn [option_map] in Q; [|congruence]. exists g. assert (n = n_inst g) by congruence. subst n. auto.
Qed.
Lemma new_keeps w n w' : step (NewGraph n) w = Ok w' -> keeps w w'.
Proof.
  intros E y i j (g & Hg & Hi & Hj). injection E as <-. assert (L : y < length (w_graphs w)) by (apply nth_error_Some; congruence). split.
  - exists g. cbn [w_graphs]. rewrite nth_error_app1 by exact L. auto.
  - intros o. unfold kind_under, rd. cbn [w_graphs w_mem]. now rewrite nth_error_app1 by exact L.
Qed.

Section GRAMMAR.
Context (G : grammar) (Ok_G : grammar_ok G).
Lemma rule_fibers x R : fibers_ok (env_of G x) R.
Proof. constructor; [exact (go_sets G Ok_G)|exact (go_attrs G Ok_G)]. Qed.
Lemma rule_built x R : In R (gr_rules G) -> exists bt, GbModel.build (env_of G x) R = Ok bt.
Proof. intros H. apply buildable; [exact (go_tests G Ok_G R H)|exact (go_calls G Ok_G R H)]. Qed.
Lemma init_match_ok x R w ns : In R (gr_rules G) -> fresh w ns -> exists bt w' r, init_match G x R w = Ok (w', r) /\ stands G x R bt r /\
  fresh w' (ns ++ [length (b_insts bt)]) /\ has_edges w' (length ns) bt /\ keeps w w'.
Proof.
  intros HR F. destruct (rule_built x R HR) as (bt & B). pose proof (go_for G Ok_G R HR) as NF. pose proof (go_names G Ok_G R HR) as Nn.
  destruct (summary_found G (r_phy R) (go_lhs G Ok_G R HR)) as (y & Q1 & Hy). destruct (PropsBuild.build_ok (env_of G x) R bt B) as (n & Qb & Qn & _ & _ & Qi & _).
  destruct (kids_located G x R (b_body bt) n (names_nodes R Nn) (r_kids R) (fun k H => H) (fun m phy H => go_kids G Ok_G R m phy HR H)) as (bs & Q2 & Fk). rewrite <- Qi in Fk.
  pose proof (lhs_placed (env_of G x) R (b_body bt) n) as P0. pose proof (placed_located G x R (b_body bt) n _ _ n y P0 Hy) as L0. rewrite <- Qi in L0.
  destruct (C123_graph (env_of G x) R bt w B NF (built_reached _ (proj1 F))) as (w0 & w' & S0 & S1 & R1 & K1 & K2). cbv zeta in *. pose proof (fresh_len w ns F) as Lw.
  pose proof (fresh_new w ns _ w0 F S0) as F0.
  assert (F1 : fresh w' (ns ++ [length (b_insts bt)])).
  { refine (fresh_all (length (w_graphs w)) (b_edges bt) w0 _ w' F0 _ S1). intros e He. destruct (rule_edges_proper _ _ _ B NF e He) as (P1 & P2 & _ & P4). split; [|split; [exact P4|exact (rule_edges_sound _ _ _ B NF e He)]].
    apply (fresh_in w0 _ _ _ _ F0). exists (length (b_insts bt)). rewrite Lw, nth_error_app2, Nat.sub_diag by lia. auto. }
  exists bt, w'. eexists. split; [|split; [|split; [exact F1|split]]].
  - unfold init_match. rewrite Q1. cbn [bind]. rewrite B. cbn [bind]. rewrite Qb. cbn [snd]. rewrite Q2. cbn [bind]. rewrite S0. cbn [bind]. rewrite S1. cbn [bind]. reflexivity.
  - split; [exact B|]. split; [reflexivity|]. cbn [r_blocks]. eexists _, bs. split; [reflexivity|]. split; [|exact Fk]. pose proof (proj1 P0) as Z. rewrite Z. exact L0.
  - intros i j o Hi Hj. split; [|rewrite <- Lw; now apply K1]. apply (fresh_in w' _ _ _ _ F1). exists (length (b_insts bt)). rewrite nth_error_app2, Nat.sub_diag by lia. auto.
  - intros z i j H. split; [|intros o; now apply K2]. apply (fresh_in w' _ _ _ _ F1). apply (fresh_in w _ _ _ _ F) in H. destruct H as (m & Hm & H). exists m. rewrite nth_error_app1 by (apply nth_error_Some; congruence). auto.
Qed.
Lemma init_matches_ok : forall l x w ns, (forall R, In R l -> In R (gr_rules G)) -> x = length ns -> fresh w ns -> exists w' rs bts, init_matches G x l w = Ok (w', rs) /\
  fresh w' (ns ++ map (fun bt => length (b_insts bt)) bts) /\ keeps w w' /\ length rs = length l /\ length bts = length l /\
  forall k R, nth_error l k = Some R -> exists bt r, nth_error bts k = Some bt /\ nth_error rs k = Some r /\ stands G (x + k) R bt r /\ has_edges w' (x + k) bt.
Proof.
  induction l as [|R l IH]; intros x w ns Hl Hx F.
  - exists w, [], []. cbn [init_matches map]. rewrite app_nil_r. split; [reflexivity|]. split; [exact F|]. split; [apply keeps_refl|]. split; [reflexivity|]. split; [reflexivity|]. intros [|k] R H; discriminate.
  - destruct (init_match_ok x R w ns (Hl R (or_introl eq_refl)) F) as (bt & w1 & r & Q1 & St & F1 & H1 & K1).
    destruct (IH (S x) w1 (ns ++ [length (b_insts bt)])) as (w' & rs & bts & Q2 & F2 & K2 & L1 & L2 & H2); [intros R' H; apply Hl; now right|rewrite app_length; cbn; lia|exact F1|].
    exists w', (r :: rs), (bt :: bts). cbn [init_matches]. rewrite Q1. cbn [bind]. rewrite Q2. cbn [bind]. split; [reflexivity|]. split; [cbn [map]; rewrite <- app_assoc in F2; exact F2|]. split; [now apply keeps_trans with w1|].
    split; [cbn; lia|]. split; [cbn; lia|]. intros [|k] R' H; cbn [nth_error] in *.
    + injection H as <-. exists bt, r. rewrite Nat.add_0_r. split; [reflexivity|]. split; [reflexivity|]. split; [exact St|]. rewrite Hx. exact (keeps_edges _ _ _ _ K2 H1).
    + destruct (H2 k R' H) as (bt' & r' & A1 & A2 & A3 & A4). exists bt', r'. rewrite Nat.add_succ_r. auto.
Qed.
Definition root_insts : list ainst := insts_of (node_items (gr_env G) (gr_module G) (gr_start G)).
Lemma root_located y : nth_error (gr_phyla G) y = Some (gr_start G) -> located G root_insts (gr_module G) (gr_start G) (0, Some y).
Proof.
  intros H. exists 0, y. split; [reflexivity|]. split; [exact H|]. unfold root_insts. rewrite node_items_insts, map_length. split; [lia|]. intros i a f Hi. cbn [Nat.add]. now rewrite nth_error_map, Hi.
Qed.
Lemma init_analysis_ok : exists w ns rs bts y rules s, init_analysis G = Ok (rules, s) /\ nth_error (gr_phyla G) y = Some (gr_start G) /\
  rules = rs ++ [DncModel.mkRule (map label root_insts) [(0, Some y)]] /\ s = mkState (w_mem w) (w_graphs w) (map (init_summary (gr_env G)) (gr_phyla G)) /\
  ns = map (fun bt => length (b_insts bt)) bts ++ [length root_insts] /\ fresh w ns /\ length rs = length (gr_rules G) /\ length bts = length (gr_rules G) /\
  (forall x R, nth_error (gr_rules G) x = Some R -> exists bt r, nth_error bts x = Some bt /\ nth_error rs x = Some r /\ stands G x R bt r /\ has_edges w x bt) /\
  forall i j o, i < length root_insts -> j < length root_insts -> kind_under w (length (gr_rules G)) i j o = Ok no_dependency.
Proof.
  destruct (init_matches_ok (gr_rules G) 0 (mkWorld (mkMem [] 0) []) [] (fun R H => H) eq_refl fresh_start) as (w1 & rs & bts & Q & F & _ & L1 & L2 & H). cbn [app Nat.add] in *.
  destruct (summary_found G (gr_start G) (go_start G Ok_G)) as (y & Q1 & Hy).
  assert (S0 : exists w, step (NewGraph (length root_insts)) w1 = Ok w) by (eexists; reflexivity). destruct S0 as (w & S0).
  exists w, (map (fun bt => length (b_insts bt)) bts ++ [length root_insts]), rs, bts, y. eexists _, _. split; [|split; [exact Hy|split; [reflexivity|split; [reflexivity|split; [reflexivity|split; [|split; [exact L1|split; [exact L2|split]]]]]]]].
  - unfold init_analysis. rewrite Q. cbn [bind]. unfold init_global. rewrite Q1. cbn [bind]. fold root_insts. rewrite S0. reflexivity.
  - exact (fresh_new _ _ _ _ F S0).
  - intros x R HR. destruct (H x R HR) as (bt & r & A1 & A2 & A3 & A4). exists bt, r. split; [exact A1|]. split; [exact A2|]. split; [exact A3|]. exact (keeps_edges _ _ _ _ (new_keeps _ _ _ S0) A4).
  - intros i j o Hi Hj. pose proof (fresh_len _ _ F) as Lw. rewrite map_length, L2 in Lw. injection S0 as <-. unfold kind_under, rd. cbn [w_graphs w_mem]. rewrite <- Lw, nth_error_app2, Nat.sub_diag by lia. cbn [nth_error bind graph n_inst].
    assert (Z : @nth_error addr (repeat 0 (length root_insts * length root_insts)) (i * length root_insts + j) = Some 0) by (rewrite nth_error_repeat; destruct (Nat.ltb_spec (i * length root_insts + j) (length root_insts * length root_insts)); [reflexivity|nia]). rewrite Z. cbn [bind]. unfold set_at. destruct (length (EdgeModel.edges (w_mem w1))); reflexivity.
Qed.
Lemma located_node insts m phy st y : located G insts m phy (st, Some y) -> nth_error (gr_phyla G) y = Some phy /\ st + p_n (init_summary (gr_env G) phy) <= length insts /\
  forall i, i < p_n (init_summary (gr_env G) phy) -> nth_error (map label insts) (st + i) = nth_error (p_labels (init_summary (gr_env G) phy)) i.
Proof.
  intros (st' & y' & Q & Hy & L & H). injection Q as <- <-. rewrite summary_size. split; [exact Hy|]. split; [exact L|]. intros i Hi. destruct (nth_error (phylum_fibers (gr_env G) phy) i) as [[a f]|] eqn:Z; [|apply nth_error_None in Z; lia].
  rewrite nth_error_map, (H i a f Z). unfold init_summary. cbn [p_labels]. rewrite summary_as, map_map, nth_error_map, Z. reflexivity.
Qed.
(** what a block of a rule is *)
Lemma stands_blocks x R bt r st y : stands G x R bt r -> In (st, Some y) (r_blocks r) -> exists m phy, located G (b_insts bt) m phy (st, Some y).
Proof.
  intros (_ & _ & b0 & bs & Q & L0 & F) H. rewrite Q in H. destruct H as [H|H].
  - subst b0. eauto.
  - clear Q L0. induction F as [|k b ks bs Hk F IH]; [destruct H|]. destruct H as [H|H]; [|exact (IH H)]. subst b. unfold kid_located in Hk. destruct (snd k) as [phy|]; [eauto|discriminate].
Qed.
Lemma located_at insts m phy blk rules s x b r : located G insts m phy blk -> nth_error rules x = Some r -> nth_error (r_blocks r) b = Some blk ->
  st_phys s = map (init_summary (gr_env G)) (gr_phyla G) -> at_node G s rules x b insts m phy.
Proof.
  intros (st & y & -> & Hy & L & H) Hr Hb Hs. exists st, y, (init_summary (gr_env G) phy). split; [|split; [exact Hy|split; [reflexivity|]]].
  - exists r. split; [exact Hr|]. split; [exact Hb|]. now rewrite Hs, nth_error_map, Hy.
  - split.
    + intros a f Ha Hf. destruct (In_nth_error _ _ (proj2 (phylum_fibers_in (gr_env G) phy a f) (Logic.conj Ha Hf))) as (i & Hi). exists i. split; [rewrite summary_size; apply nth_error_Some; congruence|].
      unfold init_summary. cbn [p_labels]. now rewrite summary_as, map_map, nth_error_map, Hi.
    + intros i a f Hi. unfold init_summary in Hi. cbn [p_labels] in Hi. rewrite summary_as, map_map, nth_error_map in Hi. destruct (nth_error (phylum_fibers (gr_env G) phy) i) as [[a' f']|] eqn:Z; [|discriminate].
      injection Hi as Hi. apply label_eq in Hi. cbn [i_attr i_fiber] in Hi. destruct Hi as [Q1 Q2]. injection Q1 as ->. subst f'. exact (H i a f Z).
Qed.
Lemma zero_matrix n : matrix n (repeat no_dependency (n * n)).
Proof. split; [apply repeat_length|]. intros x Hx. apply repeat_spec in Hx. subst. apply zero_ok. Qed.
Lemma nth_snoc {X} (l : list X) a k x : nth_error (l ++ [a]) k = Some x -> nth_error l k = Some x \/ (k = length l /\ x = a).
Proof.
  intros H. destruct (Nat.lt_ge_cases k (length l)) as [L|L]; [rewrite nth_error_app1 in H by exact L; auto|]. rewrite nth_error_app2 in H by exact L. destruct (k - length l) as [|d] eqn:D; cbn in H; [|destruct d; discriminate]. injection H as ->. right. split; [lia|reflexivity].
Qed.
Lemma labels_once phy : NoDup (p_labels (init_summary (gr_env G) phy)).
Proof.
  unfold init_summary. cbn [p_labels]. rewrite summary_as, map_map. assert (N : NoDup (phylum_fibers (gr_env G) phy)).
  { unfold phylum_fibers. pose proof (go_attrs G Ok_G phy) as A. induction (e_attrs (gr_env G) phy) as [|a l IH]; [constructor|]. cbn [flat_map]. inversion A as [|? ? Ha Nl]; subst. specialize (IH Nl). apply nodup_both; [|exact IH|].
    - pose proof (go_sets G Ok_G a) as S. inversion S as [|? ? _ Ns]; subst. constructor.
      + intros H. apply in_map_iff in H. destruct H as (f & H & _). discriminate.
      + apply FinFun.Injective_map_NoDup; [intros f f' H; congruence|exact Ns].
    - intros [a' f] H1 H2. assert (a' = a) as ->. { destruct H1 as [H1|H1]; [congruence|]. apply in_map_iff in H1. destruct H1 as (f' & H1 & _). congruence. }
      apply in_flat_map in H2. destruct H2 as (a2 & Ha2 & H2). assert (a = a2) as ->. { destruct H2 as [H2|H2]; [congruence|]. apply in_map_iff in H2. destruct H2 as (f' & H2 & _). congruence. } contradiction. }
  apply FinFun.Injective_map_NoDup; [|exact N]. intros [a f] [a' f'] H. apply label_eq in H. cbn [i_attr i_fiber] in H. destruct H as [H1 H2]. congruence.
Qed.
Lemma init_blank w ns rs y s : nth_error (gr_phyla G) y = Some (gr_start G) -> s = mkState (w_mem w) (w_graphs w) (map (init_summary (gr_env G)) (gr_phyla G)) -> length rs = length (gr_rules G) ->
  nth_error ns (length (gr_rules G)) = Some (length root_insts) -> fresh w ns -> (forall i j o, i < length root_insts -> j < length root_insts -> kind_under w (length (gr_rules G)) i j o = Ok no_dependency) ->
  blank G (rs ++ [DncModel.mkRule (map label root_insts) [(0, Some y)]]) s.
Proof.
  intros Hy Hs L1 Hn F Z. assert (Gs : graphs_of s = w) by (rewrite Hs; destruct w; reflexivity). split; [rewrite Hs; apply map_length|]. split.
  - intros z phy Hz. exists (init_summary (gr_env G) phy). split; [rewrite Hs; cbn [st_phys]; now rewrite nth_error_map, Hz|]. split; [reflexivity|]. split; [intros k Hk; exact (repeat_spec _ _ _ Hk)|]. split; [apply labels_once|].
    intros l. unfold init_summary. cbn [p_labels]. rewrite summary_as, map_map, in_map_iff. split.
    + intros ([a f] & Q & H). apply phylum_fibers_in in H. exists a, f. now rewrite Q.
    + intros (a & f & Ha & Hf & ->). exists (a, f). split; [reflexivity|]. now apply phylum_fibers_in.
  - cbv zeta. split; [rewrite app_length, L1; cbn; lia|]. exists root_insts. split.
    + apply (located_at _ _ _ (0, Some y) _ _ _ _ (DncModel.mkRule (map label root_insts) [(0, Some y)]) (root_located y Hy)); [|reflexivity|now rewrite Hs]. now rewrite nth_error_app2, L1, Nat.sub_diag by lia.
    + intros i j o Hi Hj. rewrite Gs. split; [apply (fresh_in _ _ _ _ _ F); eauto|]. unfold kind_of_pair. now rewrite Z.
Qed.
(** ** C159: the initial state is a well-formed one, describes the grammar, and the iteration
    can start from it. *)
Theorem C159_init : exists rules s, init_analysis G = Ok (rules, s) /\ well_formed rules s /\ startable rules s /\ some_kinds s /\ describes G rules s /\ blank G rules s.
Proof.
  destruct init_analysis_ok as (w & ns & rs & bts & y & rules & s & Q & Hy & -> & Hs & Qn & F & L1 & L2 & H & Z). exists (rs ++ [DncModel.mkRule (map label root_insts) [(0, Some y)]]), s. split; [exact Q|].
  assert (Gs : graphs_of s = w) by (rewrite Hs; destruct w; reflexivity).
  assert (Wf : well_formed (rs ++ [DncModel.mkRule (map label root_insts) [(0, Some y)]]) s).
  { split; [|split].
    - rewrite Hs. cbn [st_augs]. rewrite (fresh_len _ _ F), Qn, !app_length, map_length. cbn [length]. lia.
    - intros p Hp. rewrite Hs in Hp. cbn [st_phys] in Hp. apply in_map_iff in Hp. destruct Hp as (phy & <- & _). unfold p_n, init_summary. cbn [mingraph p_labels]. rewrite map_length. apply zero_matrix.
    - intros x r g st z Hr Hg Hb. assert (Ni : Some (n_inst g) = nth_error ns x) by (rewrite <- (fresh_graph w ns x F); rewrite Hs in Hg; cbn [st_augs] in Hg; now rewrite Hg).
      assert (X : exists m phy insts, located G insts m phy (st, Some z) /\ n_inst g = length insts /\ r_labels r = map label insts).
      { apply nth_snoc in Hr. destruct Hr as [Hr|[-> ->]].
        - destruct (nth_error (gr_rules G) x) as [R|] eqn:HR; [|apply nth_error_None in HR; assert (x < length rs) by (apply nth_error_Some; congruence); lia].
          destruct (H x R HR) as (bt & r' & A1 & A2 & A3 & _). assert (r' = r) by congruence. subst r'. destruct (stands_blocks _ _ _ _ _ _ A3 Hb) as (m & phy & A). exists m, phy, (b_insts bt). split; [exact A|]. split; [|apply A3].
          rewrite Qn, nth_error_app1, nth_error_map, A1 in Ni by (rewrite map_length; apply nth_error_Some; congruence). now injection Ni.
        - cbn [r_blocks r_labels] in *. destruct Hb as [Hb|[]]. injection Hb as <- <-. exists (gr_module G), (gr_start G), root_insts. split; [now apply root_located|]. split; [|reflexivity].
          rewrite Qn, nth_error_app2 in Ni by (rewrite map_length; lia). rewrite map_length, L1, L2, Nat.sub_diag in Ni. now injection Ni. }
      destruct X as (m & phy & insts & Lc & Li & Ll). destruct (located_node _ _ _ _ _ Lc) as (Hz & Hl & Hi). exists (init_summary (gr_env G) phy). split; [rewrite Hs; cbn [st_phys]; now rewrite nth_error_map, Hz|]. split; [now rewrite Li|]. rewrite Ll. exact Hi. }
  split; [exact Wf|]. split; [apply built_startable; [exact Wf|]; rewrite Gs; apply F|]. split; [rewrite Hs; exact (fresh_some _ _ _ F)|]. split; [|refine (init_blank w ns rs y s Hy Hs L1 _ F Z); now rewrite Qn, nth_error_app2, map_length, L2, Nat.sub_diag by (rewrite map_length; lia)].
  intros x R HR. destruct (H x R HR) as (bt & r & A1 & A2 & A3 & A4). exists bt. split; [apply A3|]. split.
  - rewrite Gs. intros i j o Hi Hj. destruct (A4 i j o Hi Hj) as (Hg & k & Qk & J). split; [exact Hg|]. unfold kind_of_pair. now rewrite Qk.
  - destruct A3 as (_ & _ & b0 & bs & Qb & Lb & Fk). assert (Hr : nth_error (rs ++ [DncModel.mkRule (map label root_insts) [(0, Some y)]]) x = Some r) by (rewrite nth_error_app1; [exact A2|apply nth_error_Some; congruence]). split.
    + apply (located_at _ _ _ b0 _ _ _ _ r Lb Hr); [now rewrite Qb|now rewrite Hs].
    + intros k m phy Hk. assert (X : exists b, nth_error bs k = Some b /\ kid_located G (b_insts bt) (m, Some phy) b).
      { clear -Fk Hk. revert k Hk. induction Fk as [|k0 b ks bs H0 Fk IH]; intros [|k] Hk; cbn [nth_error] in Hk; try discriminate; [injection Hk as ->; exists b; split; [reflexivity|exact H0]|exact (IH k Hk)]. }
      destruct X as (b & Hb & Kl). apply (located_at _ _ _ b _ _ _ _ r Kl Hr); [rewrite Qb; exact Hb|now rewrite Hs].
Qed.

(** *** From the text to the graphs *)
Lemma inst_dec (i j : ainst) : {i = j} + {i <> j}.
Proof. repeat decide equality. Defined.
Lemma depends_dec bt o p s : depends bt o p s \/ ~ depends bt o p s.
Proof.
  destruct (Exists_dec (fun e => nth_error (b_insts bt) (d_src e) = Some p /\ nth_error (b_insts bt) (d_snk e) = Some s /\ meets o (d_cond e)) (b_edges bt)) as [H|H].
  - intros e. assert (D : forall x y : option ainst, {x = y} + {x <> y}) by (decide equality; apply inst_dec).
    destruct (D (nth_error (b_insts bt) (d_src e)) (Some p)) as [A|A]; [|right; tauto]. destruct (D (nth_error (b_insts bt) (d_snk e)) (Some s)) as [B|B]; [|right; tauto].
    destruct (meetsb o (d_cond e)) eqn:M; [left; apply meetsb_spec in M; auto|right; intros (_ & _ & K); apply meetsb_spec in K; congruence].
  - left. apply Exists_exists in H. destruct H as (e & He & A & B & C). exists e. auto.
  - right. intros (e & He & A). apply H. apply Exists_exists. exists e. auto.
Qed.
Lemma influence_edge x R bt o p q : In R (gr_rules G) -> GbModel.build (env_of G x) R = Ok bt -> influences (gr_env G) R o p q -> depends bt o p q.
Proof.
  intros HR B (Wp & Wq & H). destruct (depends_dec bt o p q) as [D|D]; [exact D|]. exfalso.
  destruct (C119_instances _ _ _ (go_names G Ok_G R HR) (rule_fibers x R) B) as [_ Wi]. assert (Iq : In q (b_insts bt)) by (apply Wi; inversion Wq; subst; econstructor; eassumption).
  destruct (PropsBuild.build_ok _ _ _ B) as (n & Qb & _). rewrite Qb in H. cbn [fst] in H. destruct H as [(P & I & sg & sg' & S & H)|(k & I & sg & o' & -> & S & A & H)]; apply H.
  - apply (C121_data (env_of G x) R I bt o q sg sg' B P Iq). intros p' Hp. destruct (inst_dec p' p) as [->|N]; [|now apply S]. exfalso. apply D, Hp. apply Wi. inversion Wp; subst; econstructor; eassumption.
  - apply (C121_control (env_of G x) R I bt o o' q sg B (go_for G Ok_G R HR) Iq S). intros k' D'. destruct (Nat.eq_dec k' k) as [->|N]; [contradiction|now apply A].
Qed.
Section TREES.
Context (rules : list DncModel.rule) (s : state) (D : describes G rules s) (T : tree).
Definition stands_for (u : place_of) (v : PropsTree.vertex) : Prop :=
  fst v = fst u /\ exists T0 R bt, subtree T (fst u) = Some T0 /\ nth_error (gr_rules G) (t_rule T0) = Some R /\ GbModel.build (env_of G (t_rule T0)) R = Ok bt /\ nth_error (b_insts bt) (snd v) = Some (snd u).
Lemma insts_once x R bt i j p : nth_error (gr_rules G) x = Some R -> GbModel.build (env_of G x) R = Ok bt -> nth_error (b_insts bt) i = Some p -> nth_error (b_insts bt) j = Some p -> i = j.
Proof.
  intros HR B Hi Hj. apply nth_error_In in HR. destruct (C119_instances _ _ _ (go_names G Ok_G R HR) (rule_fibers x R) B) as [N _].
  apply (NoDup_nth_error (b_insts bt)); [exact N| |congruence]. apply nth_error_Some. congruence.
Qed.
Lemma stands_once u v v' : stands_for u v -> stands_for u v' -> v = v'.
Proof.
  intros (E1 & T0 & R & bt & S1 & S2 & S3 & S4) (E2 & T0' & R' & bt' & S1' & S2' & S3' & S4'). destruct v as [pa i], v' as [pa' j]. cbn [fst snd] in *.
  assert (T0' = T0) by congruence. subst T0'. assert (R' = R) by congruence. subst R'. assert (bt' = bt) by congruence. subst bt'. rewrite (insts_once _ R bt i j _ S2 S3 S4 S4'). congruence.
Qed.
Lemma same_node x b y p st x' b' st' y' p' phy : node_at rules s x b st y p -> nth_error (gr_phyla G) y = Some phy -> node_at rules s x' b' st' y' p' -> nth_error (gr_phyla G) y' = Some phy -> y' = y /\ p' = p.
Proof.
  intros (r & _ & _ & P) Hy (r' & _ & _ & P') Hy'. assert (y' = y) as ->; [|split; congruence]. apply (NoDup_nth_error (gr_phyla G)); [exact (go_phyla G Ok_G)| |congruence]. apply nth_error_Some. congruence.
Qed.
Lemma place_same u v : same_place G T u v -> exists u' v', stands_for u u' /\ stands_for v v' /\ same_instance rules s T u' v'.
Proof.
  induction 1 as [path T0 c k T1 R R' m a f S1 Hc HR HR' Hk Ha Hf|u v H IH].
  - destruct (D _ _ HR) as (bt & B & _ & _ & K). destruct (D _ _ HR') as (bt' & B' & _ & L & _). destruct (K _ _ _ Hk) as (st & y & p & N1 & Y1 & _ & X1 & Z1). destruct L as (st' & y' & p' & N2 & Y2 & _ & _ & Z2).
    destruct (same_node _ _ _ _ _ _ _ _ _ _ _ N1 Y1 N2 Y2) as [-> ->]. destruct (X1 a f Ha Hf) as (i & Li & Hi). exists (path, st + i), (path ++ [c], st' + i).
    split; [|split].
    + split; [reflexivity|]. exists T0, R, bt. cbn [fst snd]. split; [exact S1|]. split; [exact HR|]. split; [exact B|]. now apply Z1.
    + split; [reflexivity|]. exists T1, R', bt'. cbn [fst snd]. split; [|split; [exact HR'|split; [exact B'|now apply Z2]]].
      clear -S1 Hc. revert T S1. induction path as [|c0 path IH]; intros T S1; cbn [app subtree] in *; [injection S1 as ->; now rewrite Hc|]. destruct (nth_error (t_children T) c0) as [[b0 T2]|]; [|discriminate]. now apply IH.
    + exact (same_down rules s T path T0 c (S k) T1 st y p st' i S1 Hc N1 N2 Li).
  - destruct IH as (u' & v' & A & B & C). exists v', u'. split; [exact B|]. split; [exact A|]. now apply same_up.
Qed.
Lemma step_dep path T0 R p q : subtree T path = Some T0 -> nth_error (gr_rules G) (t_rule T0) = Some R -> influences (gr_env G) R (t_out T0) p q ->
  exists i j k, stands_for (path, p) (path, i) /\ stands_for (path, q) (path, j) /\ local_dep s T (path, i) (path, j) k.
Proof.
  intros S1 HR H. destruct (D _ _ HR) as (bt & B & Ed & _). destruct (influence_edge _ _ _ _ _ _ (nth_error_In _ _ HR) B H) as (e & He & Hp & Hq & M).
  assert (Li : d_src e < length (b_insts bt)) by (apply nth_error_Some; congruence). assert (Lj : d_snk e < length (b_insts bt)) by (apply nth_error_Some; congruence). destruct (Ed (d_src e) (d_snk e) (t_out T0) Li Lj) as [Hg J].
  exists (d_src e), (d_snk e), (kind_of_pair (graphs_of s) (t_rule T0) (t_out T0) (d_src e) (d_snk e)). split; [|split].
  - split; [reflexivity|]. exists T0, R, bt. auto.
  - split; [reflexivity|]. exists T0, R, bt. auto.
  - exists path, T0, (d_src e), (d_snk e). split; [reflexivity|]. split; [reflexivity|]. split; [exact S1|]. split; [exact Hg|]. split; [reflexivity|].
    assert (Z : N.testbit (kind_of_pair (graphs_of s) (t_rule T0) (t_out T0) (d_src e) (d_snk e)) 0 = true); [|intros Q; rewrite Q in Z; discriminate].
    apply J. exists e. split; [exact He|]. split; [reflexivity|]. split; [reflexivity|]. split; [exact M|]. pose proof (rule_edges_sound _ _ _ B (go_for G Ok_G R (nth_error_In _ _ HR)) e He) as Sd. unfold sound in Sd. rewrite !andb_true_iff in Sd. tauto.
Qed.
Lemma flows_start u w n : flows G T u w (S n) -> exists u', stands_for u u'.
Proof.
  intros H. inversion H as [|? v ? ? Sp _|path T0 R p q ? ? S1 HR I _]; subst.
  - destruct (place_same _ _ Sp) as (u' & _ & A & _). eauto.
  - destruct (step_dep _ _ _ _ _ S1 HR I) as (i & j & k & A & _). eauto.
Qed.
Lemma flows_chain u w n : flows G T u w n -> forall u', stands_for u u' -> exists w' l, stands_for w w' /\ chain_of rules s T u' w' l /\ length l = n.
Proof.
  induction 1 as [u|u v w n Sp F IH|path T0 R p q w n S1 HR I F IH]; intros u' Su.
  - exists u', []. split; [exact Su|]. split; [constructor|reflexivity].
  - destruct (place_same _ _ Sp) as (u2 & v' & A & B & C). rewrite (stands_once _ _ _ A Su) in C. destruct (IH v' B) as (w' & l & W & Ch & L). exists w', l. split; [exact W|]. split; [|exact L]. exact (chain_same rules s T u' v' w' l C Ch).
  - destruct (step_dep _ _ _ _ _ S1 HR I) as (i & j & k & A & B & C). rewrite (stands_once _ _ _ A Su) in C. destruct (IH (path, j) B) as (w' & l & W & Ch & L). exists w', (k :: l). split; [exact W|]. split; [|cbn; lia]. exact (chain_dep rules s T u' (path, j) w' k l C Ch).
Qed.
Lemma tree_fine T0 : tree_of (gr_rules G) T0 -> tree_ok rules s T0.
Proof.
  revert T0. fix IH 2. intros T0 [x o cs R HR Hc]. destruct (D _ _ HR) as (bt & _ & _ & L & K). constructor.
  - destruct L as (st & y & p & (r & Hr & _) & _). apply nth_error_Some. congruence.
  - intros b T1 H. destruct (Hc b T1 H) as (Ht & k & m & R' & -> & HR' & Hk). split; [exact (IH T1 Ht)|]. split; [discriminate|].
    destruct (K _ _ _ Hk) as (st & y & p & N1 & Y1 & Fn & _). destruct (D _ _ HR') as (bt' & _ & _ & (st' & y' & p' & N2 & Y2 & _) & _). destruct (same_node _ _ _ _ _ _ _ _ _ _ _ N1 Y1 N2 Y2) as [-> ->].
    exists st, y, p, st'. auto.
Qed.
End TREES.
(** ** C160: if the test for cycles finds none, no tree over the rules has a cycle of
    influences. *)
Theorem C160_text : exists rules s0 bound s kind, init_analysis G = Ok (rules, s0) /\
  (forall fuel, bound <= fuel -> dnc_close fuel rules s0 = Ok s) /\ analysis_state_cycle s = Ok kind /\
  (kind = no_dependency -> forall T u n, tree_of (gr_rules G) T -> flows G T u u n -> n = 0).
Proof.
  destruct C159_init as (rules & s0 & Q & Wf & St & Sk & D & _). destruct (C44_cycle_test rules s0 Wf St Sk) as (bound & s & kind & E & Ek & _ & _ & H).
  exists rules, s0, bound, s, kind. split; [exact Q|]. split; [exact E|]. split; [exact Ek|]. intros Hk T u n Ht F. destruct n as [|n]; [reflexivity|]. exfalso.
  destruct (flows_start rules s0 D T u u n F) as (u' & Su). destruct (flows_chain rules s0 D T u u (S n) F u' Su) as (w' & l & Sw & Ch & L). rewrite <- (stands_once T u u' w' Su Sw) in Ch.
  rewrite (H Hk T u' l (tree_fine rules s0 D T Ht) Ch) in L. discriminate.
Qed.
End GRAMMAR.

(** ** C159 continued: a rule for a phylum, or with a child of a phylum, that is not among the
    phyla of the module ends the analysis. *)
Definition unknown (G : grammar) (R : grule) : Prop := ~ In (r_phy R) (gr_phyla G) \/ exists m phy, In (m, Some phy) (r_kids R) /\ ~ In phy (gr_phyla G).
Lemma index_of_none d l : ~ In d l -> index_of d l = None.
Proof. induction l as [|e l IH]; intros H; [reflexivity|]. cbn [index_of]. destruct (Nat.eqb_spec e d) as [->|N]; [exfalso; apply H; now left|]. rewrite IH; [reflexivity|]. intros K. apply H. now right. Qed.
Lemma not_found phyla d : ~ In d phyla -> summary_graph_for phyla d = Exit.
Proof. intros H. unfold summary_graph_for. now rewrite (index_of_none _ _ H). Qed.
Lemma find_cases phyla d : (exists y, summary_graph_for phyla d = Ok y) \/ summary_graph_for phyla d = Exit.
Proof. unfold summary_graph_for. destruct (index_of d phyla); eauto. Qed.
Lemma kids_cases phyla st ks : (exists bs, kid_blocks phyla st ks = Ok bs) \/ kid_blocks phyla st ks = Exit.
Proof.
  induction ks as [|[d [phy|]] ks IH]; cbn [kid_blocks]; [left; eauto| |].
  - destruct (find_cases phyla phy) as [[y ->]| ->]; cbn [bind]; [|now right]. destruct IH as [[bs ->]| ->]; cbn [bind]; [left; eauto|now right].
  - destruct IH as [[bs ->]| ->]; cbn [bind]; [left; eauto|now right].
Qed.
Lemma kids_unknown phyla st m phy ks : In (m, Some phy) ks -> ~ In phy phyla -> kid_blocks phyla st ks = Exit.
Proof.
  induction ks as [|[d [phy'|]] ks IH]; intros H N; [destruct H| |]; cbn [kid_blocks].
  - destruct (find_cases phyla phy') as [[y Q]|Q]; rewrite Q; cbn [bind]; [|reflexivity]. destruct H as [H|H]; [injection H as -> ->; rewrite (not_found _ _ N) in Q; discriminate|]. now rewrite (IH H N).
  - destruct H as [H|H]; [discriminate|]. now rewrite (IH H N).
Qed.
Theorem C159_unknown : forall G l R l' w rs, gr_rules G = l ++ R :: l' -> unknown G R ->
  init_matches G 0 l (mkWorld (mkMem [] 0) []) = Ok (w, rs) -> (exists bt, GbModel.build (env_of G (length l)) R = Ok bt) -> init_analysis G = Exit.
Proof.
  intros G l R l' w rs Q U H (bt & B). unfold init_analysis. rewrite Q.
  assert (X : init_match G (length l) R w = Exit).
  { unfold init_match. destruct U as [U|(m & phy & Hk & U)]; [now rewrite (not_found _ _ U)|]. destruct (find_cases (gr_phyla G) (r_phy R)) as [[y ->]| ->]; cbn [bind]; [|reflexivity]. rewrite B. cbn [bind]. now rewrite (kids_unknown _ _ _ _ _ Hk U). }
  assert (Y : forall l x w0 rs0, init_matches G x l w0 = Ok (w, rs0) -> length l + x = length l + x -> init_match G (length l + x) R w = Exit -> init_matches G x (l ++ R :: l') w0 = Exit).
  { clear. induction l as [|R0 l IH]; intros x w0 rs0 H _ X; cbn [app init_matches] in *.
    - injection H as -> _. cbn [length Nat.add] in X. now rewrite X.
    - destruct (init_match G x R0 w0) as [[w1 r1]| | |]; cbn [bind] in *; try discriminate. destruct (init_matches G (S x) l w1) as [[w2 rs2]| | |] eqn:Q; cbn [bind] in *; try discriminate. injection H as -> _.
      rewrite (IH (S x) w1 rs2 Q eq_refl); [reflexivity|]. now replace (length l + S x) with (length (R0 :: l) + x) by (cbn; lia). }
  rewrite (Y l 0 _ rs H eq_refl); [reflexivity|]. now rewrite Nat.add_0_r.
Qed.

(** ** Examples *)
(** Two phyla (the root 100; 101), each with a synthesized attribute (12; 11) and the shared
    information (13); 101 has an inherited attribute 10 too.
<<
   match ?self=r(?e)       begin e.10 := const; self.12 := e.11; end;
   match ?self=plus(?l,?r) begin l.10 := self.10; r.10 := [by]; self.11 := r.11; end;
   match ?self=leaf()      begin if self.10 then self.11 := const; else self.11 := self.10; endif; end;
>>
    where [by] is self.10 or l.11 (left to right) or r.11 (a cycle through leaf). *)
Definition exg_env : genv := mkEnv [0] 0 (fun _ _ => None) (fun _ => false) (fun _ => []) (fun _ => []) (fun phy => if phy =? 100 then [12; 13] else if phy =? 101 then [10; 11; 13] else [])
  (fun _ => false) (fun _ => 13) S (fun _ => 0) (fun _ => []) (fun _ => 1000).
Definition ex_root : grule := GbModel.mkRule 2 100 [(3, Some 101)] (BCons (SAssign (EAttr 3 10) EConst) (BCons (SAssign (EAttr 2 12) (EAttr 3 11)) BNil)).
Definition ex_plus (by_node by_attr : decl) : grule := GbModel.mkRule 4 101 [(5, Some 101); (6, Some 101)]
  (BCons (SAssign (EAttr 5 10) (EAttr 4 10)) (BCons (SAssign (EAttr 6 10) (EAttr by_node by_attr)) (BCons (SAssign (EAttr 4 11) (EAttr 6 11)) BNil))).
Definition ex_leaf : grule := GbModel.mkRule 7 101 [] (BCons (SIf 0 (EAttr 7 10) (BCons (SAssign (EAttr 7 11) EConst) BNil) (BCons (SAssign (EAttr 7 11) (EAttr 7 10)) BNil)) BNil).
Definition exg (by_node by_attr : decl) : grammar := mkGrammar [100; 101] 100 1 [ex_root; ex_plus by_node by_attr; ex_leaf] exg_env (fun _ _ => 7).
Lemma exg_ok n a : grammar_ok (exg n a).
Proof.
  constructor.
  - repeat constructor; cbn; intuition discriminate.
  - now left.
  - intros phy. cbn [exg gr_env exg_env e_attrs]. destruct (phy =? 100); [|destruct (phy =? 101)]; repeat constructor; cbn; intuition discriminate.
  - intros d. repeat constructor. intros [].
  - intros R [<-|[<-|[<-|[]]]]; cbn; repeat constructor; cbn; intuition discriminate.
  - intros R [<-|[<-|[<-|[]]]]; reflexivity.
  - intros R [<-|[<-|[<-|[]]]]; cbn; tauto.
  - intros R [<-|[<-|[<-|[]]]]; cbn; lia.
  - intros R [<-|[<-|[<-|[]]]]; cbn; tauto.
  - intros R m phy [<-|[<-|[<-|[]]]]; cbn; intuition congruence.
Qed.
(** a leaf of phylum 102, which the module does not have *)
Example C159_unknown_leaf : init_analysis (mkGrammar [100; 101] 100 1 [ex_root; GbModel.mkRule 7 102 [] BNil] exg_env (fun _ _ => 7)) = Exit.
Proof. eapply (C159_unknown _ [ex_root] _ []); [reflexivity|left; cbn; intuition discriminate|vm_compute; reflexivity|eexists; vm_compute; reflexivity]. Qed.
(** what the analysis says *)
Definition verdict (G : grammar) : res N := '(rules, s) <- init_analysis G ;; s <- dnc_close 60 rules s ;; analysis_state_cycle s.
Example C160_accepts : verdict (exg 4 10) = Ok no_dependency /\ verdict (exg 5 11) = Ok no_dependency.
Proof. split; vm_compute; reflexivity. Qed.
Example C160_rejects : exists k, verdict (exg 6 11) = Ok k /\ k <> no_dependency.
Proof. eexists. split; [vm_compute; reflexivity|discriminate]. Qed.
(** the attributes at work *)
Definition nums : interp := mkI nat 0 0 (fun _ _ l => list_sum l) (fun _ a b => a + b) (fun _ a b => a + b) (fun _ l v => list_sum l + v) (fun l v => list_sum l + v) (fun _ v _ => v) (fun _ v => v) (fun v => v) (fun v => v =? 1).
Definition at_ (m a : decl) : ainst := mkInst (AD a) None (Some m).
Lemma copies E R o p q : wanted E R p -> wanted E R q -> plain (r_body R) ->
  given nums q (run E R nums o (fun _ => 0) (fst (number_block 0 (r_body R)))) <> given nums q (run E R nums o (fun p' => if inst_eqb p' p then 1 else 0) (fst (number_block 0 (r_body R)))) -> influences E R o p q.
Proof.
  intros Wp Wq P H. split; [exact Wp|]. split; [exact Wq|]. left. split; [exact P|]. exists nums, (fun _ => 0), (fun p' => if inst_eqb p' p then 1 else 0). split; [|exact H].
  intros p' N. destruct (inst_eqb p' p) eqn:Q; [|reflexivity]. apply inst_eqb_eq in Q. contradiction.
Qed.
Lemma wanted_at E R m phy a : node_of R m phy -> In a (e_attrs E phy) -> wanted E R (at_ m a).
Proof. intros H H2. apply w_node with phy; [exact H|exact H2|now left]. Qed.
(** in r(plus(leaf, leaf)), the test of the left leaf failing, its 10 goes to its 11, which
    (left to right) goes to the 10 of the right one; there it decides the test, which decides
    what 11 gets *)
Definition lo : outcome := fun _ => false.
Definition ext : tree := Node 0 lo [(1, Node 1 lo [(1, Node 2 lo []); (2, Node 2 lo [])])].
Lemma ext_fine n a : tree_of (gr_rules (exg n a)) ext.
Proof.
  apply tree_of_node with ex_root; [reflexivity|]. intros b T [H|[]]. injection H as <- <-. split.
  - apply tree_of_node with (ex_plus n a); [reflexivity|]. intros b T [H|[H|[]]]; injection H as <- <-; (split; [apply tree_of_node with ex_leaf; [reflexivity|intros b T []]|]).
    + exists 0, 5, ex_leaf. split; [reflexivity|]. split; reflexivity.
    + exists 1, 6, ex_leaf. split; [reflexivity|]. split; reflexivity.
  - exists 0, 3, (ex_plus n a). split; [reflexivity|]. split; reflexivity.
Qed.
Example C160_flow : flows (exg 5 11) ext ([0; 0], at_ 7 10) ([0; 1], at_ 7 11) 4.
Proof.
  apply flow_step with (Node 2 lo []) ex_leaf (at_ 7 11); [reflexivity|reflexivity| |].
  { apply copies; [apply wanted_at with 101; [now left|cbn; auto]|apply wanted_at with 101; [now left|cbn; auto]|cbn; auto|vm_compute; discriminate]. }
  apply flow_same with ([0], at_ 5 11).
  { apply same_above. change [0; 0] with ([0] ++ [0]). apply (same_below (exg 5 11) ext [0] (Node 1 lo [(1, Node 2 lo []); (2, Node 2 lo [])]) 0 0 (Node 2 lo []) (ex_plus 5 11) ex_leaf 5 11 None); try reflexivity; [cbn; auto|now left]. }
  apply flow_step with (Node 1 lo [(1, Node 2 lo []); (2, Node 2 lo [])]) (ex_plus 5 11) (at_ 6 10); [reflexivity|reflexivity| |].
  { apply copies; [apply wanted_at with 101; [right; left; cbn; auto|cbn; auto]|apply wanted_at with 101; [right; left; cbn; auto|cbn; auto]|cbn; auto|vm_compute; discriminate]. }
  apply flow_same with ([0; 1], at_ 7 10).
  { change [0; 1] with ([0] ++ [1]). apply (same_below (exg 5 11) ext [0] (Node 1 lo [(1, Node 2 lo []); (2, Node 2 lo [])]) 1 1 (Node 2 lo []) (ex_plus 5 11) ex_leaf 6 10 None); try reflexivity; [cbn; auto|now left]. }
  apply flow_step with (Node 2 lo []) ex_leaf (mkInst (AT 0) None None); [reflexivity|reflexivity| |].
  { apply copies; [apply wanted_at with 101; [now left|cbn; auto]|apply w_test; cbn; lia|cbn; auto|vm_compute; discriminate]. }
  apply flow_step with (Node 2 lo []) ex_leaf (at_ 7 11); [reflexivity|reflexivity| |apply flow_nil].
  split; [apply w_test; cbn; lia|]. split; [apply wanted_at with 101; [now left|cbn; auto]|]. right. exists 0, nums, (fun _ => 1), (fun b => N.eqb b 0). split; [reflexivity|]. split; [intros d []|]. split; [|vm_compute; discriminate].
  intros k Hk. unfold yes, lo. symmetry. apply N.eqb_neq. lia.
Qed.
(** r.10 := r.11 makes a cycle in the same tree *)
Example C160_cycle : tree_of (gr_rules (exg 6 11)) ext /\ flows (exg 6 11) ext ([0; 1], at_ 7 10) ([0; 1], at_ 7 10) 2.
Proof.
  split; [apply ext_fine|].
  apply flow_step with (Node 2 lo []) ex_leaf (at_ 7 11); [reflexivity|reflexivity| |].
  { apply copies; [apply wanted_at with 101; [now left|cbn; auto]|apply wanted_at with 101; [now left|cbn; auto]|cbn; auto|vm_compute; discriminate]. }
  apply flow_same with ([0], at_ 6 11).
  { apply same_above. change [0; 1] with ([0] ++ [1]). apply (same_below (exg 6 11) ext [0] (Node 1 lo [(1, Node 2 lo []); (2, Node 2 lo [])]) 1 1 (Node 2 lo []) (ex_plus 6 11) ex_leaf 6 11 None); try reflexivity; [cbn; auto|now left]. }
  apply flow_step with (Node 1 lo [(1, Node 2 lo []); (2, Node 2 lo [])]) (ex_plus 6 11) (at_ 6 10); [reflexivity|reflexivity| |].
  { apply copies; [apply wanted_at with 101; [right; left; cbn; auto|cbn; auto]|apply wanted_at with 101; [right; left; cbn; auto|cbn; auto]|cbn; auto|vm_compute; discriminate]. }
  apply flow_same with ([0; 1], at_ 7 10); [|apply flow_nil].
  change [0; 1] with ([0] ++ [1]). apply (same_below (exg 6 11) ext [0] (Node 1 lo [(1, Node 2 lo []); (2, Node 2 lo [])]) 1 1 (Node 2 lo []) (ex_plus 6 11) ex_leaf 6 10 None); try reflexivity; [cbn; auto|now left].
Qed.
Print Assumptions C159_init.
Print Assumptions C159_unknown.
Print Assumptions C160_text.
