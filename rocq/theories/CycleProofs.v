(** * CycleProofs: proofs about aps-cycle.c. *)
From Verif Require Import Base CondModel EdgeModel DncModel PropsCond EdgeProofs EdgeAddProofs EdgeGraph EdgeSem EdgeWorld PropsEdge SummaryProofs CloseProofs PropsClose DncProofs PropsDnc PropsTree CycleModel UnionFind CycleSpec.
From Coq Require Import Relations.
Open Scope nat_scope.

(** ** Proofs *)
(** *** loops as flat sequences *)
Lemma foldM_flat {X Y P} (f : P -> X -> res P) (st : P -> Y -> res P) (g : X -> list Y) l : (forall x par, In x l -> f par x = foldM st (g x) par) -> forall par, foldM f l par = foldM st (flat_map g l) par.
Proof.
  induction l as [|x l IH]; intros H par; cbn [foldM flat_map]; auto. rewrite foldM_app, (H x par (or_introl eq_refl)). destruct (foldM st (g x) par); cbn [bind]; auto. apply IH. intros. apply H. now right.
Qed.
Definition cellp (s : state) (x i j : nat) : list (condition * N) := match pairs_at s x i j with Ok l => l | _ => [] end.
Lemma cellp_ok s x i j : edges_ok s -> in_graph (graphs_of s) x i j -> pairs_at s x i j = Ok (cellp s x i j) /\ forall c k, In (c, k) (cellp s x i j) -> satisfiable c /\ k <> no_dependency /\ (k <= max_dependency)%N.
Proof. intros H Hi. destruct (H x i j Hi) as (l & E & Hl). unfold cellp. rewrite E. auto. Qed.
Lemma kind_cellp s x i j o : edges_ok s -> in_graph (graphs_of s) x i j -> kind_of_pair (graphs_of s) x o i j = seen o (cellp s x i j).
Proof.
  intros H Hi. destruct (cellp_ok s x i j H Hi) as [E _]. unfold kind_of_pair, kind_under. unfold pairs_at in E. cbn [graphs_of w_graphs w_mem]. destruct (rd (st_augs s) x) as [g| | |]; cbn [bind] in *; try discriminate. destruct (rd (graph g) (i * n_inst g + j)); cbn [bind] in *; try discriminate. now rewrite E.
Qed.
Lemma seen_nz o l c k : In (c, k) l -> meets o c -> k <> no_dependency -> seen o l <> no_dependency.
Proof.
  induction l as [|[c0 k0] l IH]; intros Hin M Nk; [destruct Hin|]. cbn [seen fold_right fst snd]. fold (seen o l). destruct Hin as [E|Hin].
  - injection E as -> ->. rewrite (proj2 (meetsb_spec o c) M). intros Z. apply N.lor_eq_0_iff in Z. destruct Z. auto.
  - specialize (IH Hin M Nk). destruct (meetsb o c0); auto. intros Z. apply N.lor_eq_0_iff in Z. destruct Z. auto.
Qed.
Lemma seen_witness o l : seen o l <> no_dependency -> exists c k, In (c, k) l /\ meets o c.
Proof.
  induction l as [|[c0 k0] l IH]; cbn [seen fold_right fst snd]; [intros H; exfalso; apply H; reflexivity|]. fold (seen o l). destruct (meetsb o c0) eqn:E.
  - intros _. exists c0, k0. split; [now left|now apply meetsb_spec].
  - intros H. destruct (IH H) as (c & k & H1 & H2). exists c, k. split; auto. now right.
Qed.
Lemma ekind_zero l : edgeset_kind l = no_dependency <-> forall c k, In (c, k) l -> k = no_dependency.
Proof.
  induction l as [|[c k] l IH]; [split; [intros _ c k []|reflexivity]|]. rewrite ekind_cons. cbn [snd]. unfold dependency_join, no_dependency in *. rewrite N.lor_eq_0_iff, IH. split.
  - intros [-> H] c0 k0 [E|Hi]; [congruence|eauto].
  - intros H. split; [apply (H c k); now left|]. intros c0 k0 Hi. apply (H c0 k0). now right.
Qed.
Lemma ekind_nz s x i j : edges_ok s -> in_graph (graphs_of s) x i j -> edgeset_kind (cellp s x i j) <> no_dependency <-> exists o, kind_of_pair (graphs_of s) x o i j <> no_dependency.
Proof.
  intros H Hi. destruct (cellp_ok s x i j H Hi) as [_ G]. setoid_rewrite (kind_cellp s x i j); auto. split.
  - intros Z. destruct (cellp s x i j) as [|[c k] l] eqn:E; [exfalso; apply Z; reflexivity|]. destruct (G c k (or_introl eq_refl)) as ((o & M) & Nk & _). exists o. eapply seen_nz; eauto. now left.
  - intros (o & Z). destruct (seen_witness _ _ Z) as (c & k & Hin & M). intros W. rewrite ekind_zero in W. destruct (G c k Hin) as (_ & Nk & _). apply Nk. eauto.
Qed.
Lemma can_trans_spec s x i j k : edges_ok s -> in_graph (graphs_of s) x i j -> in_graph (graphs_of s) x j k ->
  can_trans (cellp s x i j) (cellp s x j k) = true <-> exists o, kind_of_pair (graphs_of s) x o i j <> no_dependency /\ kind_of_pair (graphs_of s) x o j k <> no_dependency.
Proof.
  intros H Hi Hj. destruct (cellp_ok s x i j H Hi) as [_ G1]. destruct (cellp_ok s x j k H Hj) as [_ G2]. unfold can_trans. rewrite existsb_exists. split.
  - intros ([c1 k1] & I1 & E). apply existsb_exists in E. destruct E as ([c2 k2] & I2 & E). cbn [fst] in E. apply N.eqb_eq in E.
    assert (S : satisfiable (mkCond (N.lor (positive c1) (positive c2)) (N.lor (negative c1) (negative c2)))).
    { apply sat_consistent. intros b B1 B2. cbn [positive negative] in *. assert (B : N.testbit (N.land (N.lor (positive c1) (positive c2)) (N.lor (negative c1) (negative c2))) b = true). { rewrite N.land_spec. unfold tb in *. now rewrite B1, B2. } rewrite E, N.bits_0 in B. discriminate. }
    destruct S as (o & M). assert (M1 : meets o c1 /\ meets o c2).
    { split; intros b; destruct (M b) as [P Q]; cbn [positive negative] in P, Q; rewrite !N.lor_spec in *; split; intros B; [apply P|apply Q|apply P|apply Q]; rewrite B; auto using orb_true_r. }
    exists o. rewrite !kind_cellp by auto. split; eapply seen_nz; eauto; try apply M1; [apply (G1 c1 k1 I1)|apply (G2 c2 k2 I2)].
  - intros (o & Z1 & Z2). rewrite kind_cellp in Z1, Z2 by auto. destruct (seen_witness _ _ Z1) as (c1 & k1 & I1 & M1). destruct (seen_witness _ _ Z2) as (c2 & k2 & I2 & M2).
    exists (c1, k1). split; auto. apply existsb_exists. exists (c2, k2). split; auto. cbn [fst]. apply N.eqb_eq. apply N.bits_inj_0. intros b. rewrite N.land_spec, !N.lor_spec. destruct (M1 b) as [P1 Q1], (M2 b) as [P2 Q2].
    destruct (N.testbit (positive c1) b), (N.testbit (positive c2) b), (N.testbit (negative c1) b), (N.testbit (negative c2) b); auto; specialize (P1 eq_refl) || specialize (P2 eq_refl); specialize (Q1 eq_refl) || specialize (Q2 eq_refl); congruence.
Qed.

(** *** the numbers of the instances *)
Definition gidx (s : state) (v : inst) : nat := match v with InSummary y i => phylum_start s y + i | InGraph x i => constructor_start s x + i end.
Definition block_of {X} (sz : X -> nat) (mk : nat -> nat -> inst) (l : list X) (y0 : nat) : list inst := flat_map (fun y => match nth_error l (y - y0) with Some p => map (mk y) (seq 0 (sz p)) | None => [] end) (seq y0 (length l)).
Definition all_insts (s : state) : list inst := block_of p_n InSummary (st_phys s) 0 ++ block_of n_inst InGraph (st_augs s) 0.
Lemma block_cons {X} (sz : X -> nat) mk p l y0 : block_of sz mk (p :: l) y0 = map (mk y0) (seq 0 (sz p)) ++ block_of sz mk l (S y0).
Proof.
  unfold block_of. cbn [length seq flat_map]. rewrite Nat.sub_diag. cbn [nth_error]. f_equal.
  rewrite !flat_map_concat_map. f_equal. apply map_ext_in. intros y Hy. apply in_seq in Hy. replace (y - y0) with (S (y - S y0)) by lia. reflexivity.
Qed.
Lemma in_block {X} (sz : X -> nat) mk l y0 v : In v (block_of sz mk l y0) <-> exists y p i, v = mk (y0 + y) i /\ nth_error l y = Some p /\ i < sz p.
Proof.
  revert y0; induction l as [|p l IH]; intros y0; [split; [intros []|intros (y & p & i & _ & H & _); destruct y; discriminate]|]. rewrite block_cons, in_app_iff, in_map_iff, IH. split.
  - intros [(i & <- & Hi)|(y & q & i & -> & E & Hi)].
    + apply in_seq in Hi. exists 0, p, i. rewrite Nat.add_0_r. ands; auto. lia.
    + exists (S y), q, i. ands; auto. f_equal. lia.
  - intros ([|y] & q & i & -> & E & Hi); cbn [nth_error] in E.
    + left. injection E as ->. exists i. rewrite Nat.add_0_r. split; auto. apply in_seq. lia.
    + right. exists y, q, i. ands; auto. f_equal. lia.
Qed.
Lemma in_all s v : In v (all_insts s) <-> valid s v.
Proof.
  unfold all_insts. rewrite in_app_iff, !in_block. cbn [plus]. split.
  - intros [(y & p & i & -> & E & Hi)|(x & g & i & -> & E & Hi)]; cbn [valid]; eauto.
  - destruct v as [y i|x i]; cbn [valid]; intros (p & E & Hi); [left; exists y, p, i|right; exists x, p, i]; auto.
Qed.
Lemma seq_block {X} (sz : X -> nat) (st : nat -> nat) mk (gi : inst -> nat) l : forall y0 base, (forall y i, gi (mk y i) = st y + i) -> (forall y, y <= length l -> st (y0 + y) = base + list_sum (map sz (firstn y l))) ->
  map gi (block_of sz mk l y0) = seq base (list_sum (map sz l)).
Proof.
  induction l as [|p l IH]; intros y0 base Hg Hs; [reflexivity|]. rewrite block_cons, map_app, map_map. cbn [map list_sum fold_right]. fold (list_sum (map sz l)). rewrite seq_app. f_equal.
  - rewrite (map_ext _ (fun i => base + i)). 2:{ intros i. rewrite Hg. specialize (Hs 0 ltac:(cbn; lia)). cbn [firstn map list_sum fold_right] in Hs. rewrite !Nat.add_0_r in Hs. now rewrite Hs. }
    clear. revert base. induction (sz p) as [|n IH]; intros base; auto. rewrite !seq_S, map_app, IH. reflexivity.
  - apply IH; auto. intros y Hy. specialize (Hs (S y) ltac:(cbn; lia)). cbn [firstn map list_sum fold_right] in Hs. fold (list_sum (map sz (firstn y l))) in Hs. replace (S y0 + y) with (y0 + S y) by lia. rewrite Hs. lia.
Qed.
Lemma list_sum_nil : list_sum [] = 0. Proof. reflexivity. Qed.
Lemma gidx_all s : map (gidx s) (all_insts s) = seq 0 (num_instances s).
Proof.
  unfold all_insts, num_instances. rewrite map_app, seq_app. f_equal.
  - apply (seq_block _ (phylum_start s)); auto.
  - apply (seq_block _ (constructor_start s)); auto.
Qed.
Lemma map_nodup_inj {X Y} (f : X -> Y) l a b : NoDup (map f l) -> In a l -> In b l -> f a = f b -> a = b.
Proof.
  induction l as [|x l IH]; intros Nd Ha Hb E; [destruct Ha|]. cbn [map] in Nd. inversion Nd; subst. destruct Ha as [<-|Ha], Hb as [<-|Hb]; auto.
  - exfalso. apply H1. rewrite E. now apply in_map.
  - exfalso. apply H1. rewrite <- E. now apply in_map.
Qed.
Lemma gidx_inj s u v : valid s u -> valid s v -> gidx s u = gidx s v -> u = v.
Proof. intros Hu Hv. apply in_all in Hu, Hv. eapply map_nodup_inj; eauto. rewrite gidx_all. apply seq_NoDup. Qed.
Lemma gidx_lt s v : valid s v -> gidx s v < num_instances s.
Proof. intros Hv. apply in_all in Hv. apply (in_map (gidx s)) in Hv. rewrite gidx_all in Hv. apply in_seq in Hv. lia. Qed.
Lemma gidx_onto s i : i < num_instances s -> exists v, valid s v /\ gidx s v = i.
Proof. intros Hi. assert (H : In i (map (gidx s) (all_insts s))) by (rewrite gidx_all; apply in_seq; lia). apply in_map_iff in H. destruct H as (v & E & Hv). exists v. split; auto. now apply in_all. Qed.
(** *** which sets are merged *)
Lemma nz_spec k : negb (N.eqb k no_dependency) = true <-> k <> no_dependency.
Proof. rewrite negb_true_iff, N.eqb_neq. tauto. Qed.
Definition phy_ops (s : state) (y : nat) : list uop :=
  match nth_error (st_phys s) y with
  | None => []
  | Some p => flat_map (fun j => if N.eqb (get (mingraph p) (p_n p) j j) no_dependency then [Mark (phylum_start s y + j)]
      else flat_map (fun k => if (k =? j) || N.eqb (get (mingraph p) (p_n p) j k) no_dependency || N.eqb (get (mingraph p) (p_n p) k j) no_dependency then [] else [Merge (phylum_start s y + j) (phylum_start s y + k)]) (seq 0 (p_n p))) (seq 0 (p_n p))
  end.
Definition node_ops (s : state) (x : nat) (b : nat * option nat) : list uop :=
  match b with
  | (_, None) => []
  | (start, Some y) =>
    match nth_error (st_phys s) y with
    | None => []
    | Some p => flat_map (fun i => if N.eqb (get (mingraph p) (p_n p) i i) no_dependency then [] else [Merge (constructor_start s x + (start + i)) (phylum_start s y + i)]) (seq 0 (p_n p))
    end
  end.
Definition own_ops (s : state) (x : nat) : list uop :=
  match nth_error (st_augs s) x with
  | None => []
  | Some g => flat_map (fun j => if N.eqb (edgeset_kind (cellp s x j j)) no_dependency then [Mark (constructor_start s x + j)]
      else flat_map (fun k => if (k =? j) || N.eqb (edgeset_kind (cellp s x j k)) no_dependency || N.eqb (edgeset_kind (cellp s x k j)) no_dependency || negb (can_trans (cellp s x j k) (cellp s x k j)) then [] else [Merge (constructor_start s x + j) (constructor_start s x + k)]) (seq 0 (n_inst g))) (seq 0 (n_inst g))
  end.
Definition aug_ops (rules : list rule) (s : state) (x : nat) : list uop :=
  own_ops s x ++ match nth_error rules x with None => [] | Some r => flat_map (node_ops s x) (r_blocks r) end.
Definition cycle_ops (rules : list rule) (s : state) : list uop :=
  flat_map (phy_ops s) (seq 0 (length (st_phys s))) ++ flat_map (aug_ops rules s) (seq 0 (length (st_augs s))).
Lemma rd_get p i j : matrix (p_n p) (mingraph p) -> i < p_n p -> j < p_n p -> rd (mingraph p) (i * p_n p + j) = Ok (get (mingraph p) (p_n p) i j).
Proof. intros [L _] Hi Hj. apply rd_Ok. unfold get. apply nth_error_nth'. rewrite L. nia. Qed.
Lemma foldM_one {X P} (st : P -> X -> res P) o par : foldM st [o] par = st par o.
Proof. cbn [foldM]. destruct (st par o); reflexivity. Qed.
Lemma make_cycles_run lf rules s par : analysed rules s -> make_cycles lf rules s par = foldM (ustep lf) (cycle_ops rules s) par.
Proof.
  intros ((Lr & Mx & Bl) & _ & _ & Eo). unfold make_cycles, cycle_ops. rewrite foldM_app.
  assert (In0 : forall y l0, In y (seq 0 l0) -> y < l0) by (intros y l0 H; apply in_seq in H; lia).
  assert (P1 : forall par, foldM (phylum_cycles lf s) (seq 0 (length (st_phys s))) par = foldM (ustep lf) (flat_map (phy_ops s) (seq 0 (length (st_phys s)))) par).
  { apply foldM_flat. intros y par0 Hy. apply In0 in Hy. unfold phylum_cycles, phy_ops. destruct (nth_error (st_phys s) y) as [p|] eqn:Ep; [|apply nth_error_None in Ep; lia].
    rewrite (proj2 (rd_Ok _ _ _) Ep). cbn [bind]. pose proof (Mx p (nth_error_In _ _ Ep)) as M. apply foldM_flat. intros j par1 Hj. apply In0 in Hj. rewrite rd_get by auto. cbn [bind].
    destruct (N.eqb (get (mingraph p) (p_n p) j j) no_dependency); [now rewrite foldM_one|]. apply foldM_flat. intros k par2 Hk. apply In0 in Hk. destruct (k =? j); [reflexivity|]. cbn [orb]. rewrite rd_get by auto. cbn [bind].
    destruct (N.eqb (get (mingraph p) (p_n p) j k) no_dependency); [reflexivity|]. cbn [orb]. rewrite rd_get by auto. cbn [bind]. destruct (N.eqb (get (mingraph p) (p_n p) k j) no_dependency); [reflexivity|]. now rewrite foldM_one. }
  rewrite P1. destruct (foldM (ustep lf) (flat_map (phy_ops s) (seq 0 (length (st_phys s)))) par) as [par'| | |]; cbn [bind]; auto.
  apply foldM_flat. intros x par0 Hx. apply In0 in Hx. unfold constructor_cycles, aug_ops, own_ops. destruct (nth_error (st_augs s) x) as [g|] eqn:Eg; [|apply nth_error_None in Eg; lia]. destruct (nth_error rules x) as [r|] eqn:Er; [|apply nth_error_None in Er; lia].
  rewrite (proj2 (rd_Ok _ _ _) Eg). cbn [bind]. rewrite (proj2 (rd_Ok _ _ _) Er). cbn [bind]. rewrite foldM_app.
  assert (Ig : forall i j, i < n_inst g -> j < n_inst g -> pairs_at s x i j = Ok (cellp s x i j)). { intros i j Hi Hj. apply cellp_ok; auto. exists g. auto. }
  match goal with |- bind (foldM ?f ?l par0) ?h = bind (foldM (ustep lf) ?o par0) _ => assert (P2 : foldM f l par0 = foldM (ustep lf) o par0) end.
  { apply foldM_flat. intros j par1 Hj. apply In0 in Hj. rewrite Ig by auto. cbn [bind]. destruct (N.eqb (edgeset_kind (cellp s x j j)) no_dependency); [now rewrite foldM_one|].
    apply foldM_flat. intros k par2 Hk. apply In0 in Hk. destruct (k =? j); [reflexivity|]. cbn [orb]. rewrite Ig by auto. cbn [bind]. destruct (N.eqb (edgeset_kind (cellp s x j k)) no_dependency); [reflexivity|]. cbn [orb]. rewrite Ig by auto. cbn [bind].
    destruct (N.eqb (edgeset_kind (cellp s x k j)) no_dependency); [reflexivity|]. cbn [orb]. destruct (can_trans (cellp s x j k) (cellp s x k j)); cbn [negb]; [now rewrite foldM_one|reflexivity]. }
  rewrite P2. match goal with |- bind ?a _ = bind ?a _ => destruct a as [par1| | |] end; cbn [bind]; auto.
  apply foldM_flat. intros [start [y|]] par2 Hb; [|reflexivity]. unfold node_cycles, node_ops. destruct (Bl x r g start y Er Eg Hb) as (p & Ep & _). rewrite Ep. rewrite (proj2 (rd_Ok _ _ _) Ep). cbn [bind]. pose proof (Mx p (nth_error_In _ _ Ep)) as M.
  apply foldM_flat. intros i par3 Hi. apply In0 in Hi. rewrite rd_get by auto. cbn [bind]. destruct (N.eqb (get (mingraph p) (p_n p) i i) no_dependency); [reflexivity|now rewrite foldM_one].
Qed.
Lemma circ_summary s y i p : nth_error (st_phys s) y = Some p -> circular s (InSummary y i) <-> i < p_n p /\ get (mingraph p) (p_n p) i i <> no_dependency.
Proof.
  intros Ep. unfold circular, depends. split.
  - intros (o & k & Nz & _ & p' & E & Hi & _ & ->). assert (p' = p) by congruence. subst. auto.
  - intros [Hi Nz]. exists (fun _ => false), (get (mingraph p) (p_n p) i i). ands; auto. exists p. ands; auto.
Qed.
Lemma circ_graph s x i g : edges_ok s -> nth_error (st_augs s) x = Some g -> circular s (InGraph x i) <-> i < n_inst g /\ edgeset_kind (cellp s x i i) <> no_dependency.
Proof.
  intros Eo Eg. unfold circular, depends. split.
  - intros (o & k & Nz & _ & Ig & ->). pose proof Ig as (g' & E & Hi & _). cbn [graphs_of w_graphs] in E. assert (g' = g) by congruence. subst. split; auto. apply ekind_nz; eauto.
  - intros [Hi Nz]. assert (Ig : in_graph (graphs_of s) x i i) by (exists g; auto). apply ekind_nz in Nz; auto. destruct Nz as (o & Nz). exists o, (kind_of_pair (graphs_of s) x o i i). ands; auto.
Qed.
Lemma circ_valid s v : circular s v -> valid s v.
Proof. intros (o & k & _ & H). destruct v; cbn in *; [destruct H as (_ & p & E & Hi & _)|destruct H as (_ & (g & E & Hi & _) & _)]; eauto. Qed.
Lemma seen_kind_ok o l : (forall c k, In (c, k) l -> (k <= max_dependency)%N) -> kind_ok (seen o l).
Proof.
  induction l as [|[c k] l IH]; intros H; [apply zero_ok|]. cbn [seen fold_right fst snd]. fold (seen o l). assert (Hl : kind_ok (seen o l)) by (apply IH; intros c0 k0 Hi; apply (H c0 k0); now right).
  destruct (meetsb o c); auto. apply join_ok; auto. apply (H c k). now left.
Qed.
Lemma trans_nz a b c : kind_ok a -> kind_ok b -> a <> no_dependency -> b <> no_dependency -> at_most (dependency_trans a b) c = true -> c <> no_dependency.
Proof.
  intros Ha Hb Na Nb L ->. destruct (C38_trans a b b Ha Hb Hb) as (_ & _ & _ & _ & _ & _ & _ & Z). assert (E : dependency_trans a b = no_dependency). { apply at_most_antisym; auto using zero_le. } apply Z in E. tauto.
Qed.
Lemma mutual_circular rules s o u v k k' : analysed rules s -> depends s o u v k -> depends s o v u k' -> circular s u.
Proof.
  intros ((_ & Mx & _) & (Cg & Cp) & _ & Eo) [N1 D1] [N2 D2]. destruct u as [y i|x i], v as [y' j|x' j]; try contradiction.
  - destruct D1 as (-> & p & Ep & Hi & Hj & ->), D2 as (_ & p' & Ep' & _ & _ & ->). assert (p' = p) by congruence. subst p'. apply (circ_summary s y i p Ep). split; auto. destruct (Mx p (nth_error_In _ _ Ep)) as [L Ks].
    assert (Kg : forall a b, a < p_n p -> b < p_n p -> kind_ok (get (mingraph p) (p_n p) a b)). { intros a b Ha Hb. apply Ks. unfold get. apply nth_In. rewrite L. nia. }
    eapply trans_nz; [| |exact N1|exact N2|]; auto. apply (Cp p (nth_error_In _ _ Ep)); auto.
  - destruct D1 as (-> & Ig & ->), D2 as (_ & Ig' & ->). pose proof Ig as (g & Eg & Hi & Hj). exists o, (kind_of_pair (graphs_of s) x o i i). assert (Iii : in_graph (graphs_of s) x i i) by (exists g; auto). split; [|cbn; ands; auto].
    assert (Kg : forall a b, in_graph (graphs_of s) x a b -> kind_ok (kind_of_pair (graphs_of s) x o a b)). { intros a b Hab. rewrite kind_cellp by auto. apply seen_kind_ok. intros c k Hin. apply (proj2 (cellp_ok s x a b Eo Hab) c k Hin). }
    eapply trans_nz; [| |exact N1|exact N2|]; auto. destruct (Cg x g Eg) as (_ & _ & Tc). apply Tc; auto.
Qed.
Lemma linked_circular rules s u v : analysed rules s -> linked rules s u v -> circular s u /\ circular s v.
Proof.
  intros An [o u' v' k k' D1 D2|x r start y p i Er Hb Ep Hi Cy].
  - split; eapply mutual_circular; eauto.
  - split; auto. destruct An as ((Lr & Mx & Bl) & (Cg & _) & Sy & Eo). assert (Lx : x < length (st_augs s)) by (rewrite <- Lr; apply nth_error_Some; congruence). destruct (nth_error (st_augs s) x) as [g|] eqn:Eg; [|apply nth_error_None in Eg; lia].
    destruct (Bl x r g start y Er Eg Hb) as (p' & Ep' & Hn & _). assert (p' = p) by congruence. subst p'. apply (circ_summary s y i p Ep) in Cy. destruct Cy as [_ Nz].
    assert (Ig : in_graph (graphs_of s) x (start + i) (start + i)) by (exists g; ands; auto; lia).
    exists (fun _ => false), (kind_of_pair (graphs_of s) x (fun _ => false) (start + i) (start + i)). split; [|cbn; ands; auto].
    destruct (Sy x r start y p i i (fun _ => false) Er Hb Ep Hi Hi) as [_ D]. intros Z. rewrite Z in D. apply Nz. apply at_most_antisym; auto using zero_le.
Qed.
Lemma depends_valid s o u v k : depends s o u v k -> valid s u /\ valid s v.
Proof. intros [_ H]. destruct u, v; try contradiction; cbn; [destruct H as (-> & p & E & Hi & Hj & _)|destruct H as (-> & (g & E & Hi & Hj) & _)]; split; eauto. Qed.
Lemma in_marks rules s i : analysed rules s -> In (Mark i) (cycle_ops rules s) <-> exists v, valid s v /\ ~ circular s v /\ gidx s v = i.
Proof.
  intros (_ & _ & _ & Eo). unfold cycle_ops. rewrite in_app_iff, !in_flat_map. split.
  - intros [(y & Hy & H)|(x & Hx & H)].
    + unfold phy_ops in H. destruct (nth_error (st_phys s) y) as [p|] eqn:Ep; [|destruct H]. apply in_flat_map in H. destruct H as (j & Hj & H). apply in_seq in Hj. destruct (N.eqb_spec (get (mingraph p) (p_n p) j j) no_dependency) as [Z|Z].
      * destruct H as [H|[]]. injection H as <-. exists (InSummary y j). ands; cbn; auto; [exists p; split; auto; lia|]. rewrite (circ_summary s y j p Ep). tauto.
      * exfalso. apply in_flat_map in H. destruct H as (k & _ & H). destruct ((k =? j) || _ || _) in H; [destruct H|destruct H as [H|[]]; discriminate].
    + unfold aug_ops, own_ops in H. apply in_app_iff in H. destruct (nth_error (st_augs s) x) as [g|] eqn:Eg.
      2:{ exfalso. apply nth_error_None in Eg. apply in_seq in Hx. lia. }
      destruct H as [H|H].
      * apply in_flat_map in H. destruct H as (j & Hj & H). apply in_seq in Hj. destruct (N.eqb_spec (edgeset_kind (cellp s x j j)) no_dependency) as [Z|Z].
        { destruct H as [H|[]]. injection H as <-. exists (InGraph x j). ands; cbn; auto; [exists g; split; auto; lia|]. rewrite (circ_graph s x j g Eo Eg). tauto. }
        exfalso. apply in_flat_map in H. destruct H as (k & _ & H). destruct ((k =? j) || _ || _ || _) in H; [destruct H|destruct H as [H|[]]; discriminate].
      * exfalso. destruct (nth_error rules x) as [r|]; [|destruct H]. apply in_flat_map in H. destruct H as ([start [y|]] & _ & H); [|destruct H]. unfold node_ops in H. destruct (nth_error (st_phys s) y) as [p|]; [|destruct H]. apply in_flat_map in H. destruct H as (k & _ & H). destruct (N.eqb _ _) in H; [destruct H|destruct H as [H|[]]; discriminate].
  - intros ([y j|x j] & (p & Ep & Hj) & Nc & <-).
    + left. exists y. split; [apply in_seq; split; [lia|]; apply nth_error_Some; congruence|]. unfold phy_ops. rewrite Ep. apply in_flat_map. exists j. split; [apply in_seq; lia|]. destruct (N.eqb_spec (get (mingraph p) (p_n p) j j) no_dependency) as [Z|Z]; [now left|]. exfalso. apply Nc. apply (circ_summary s y j p Ep). auto.
    + right. exists x. split; [apply in_seq; split; [lia|]; apply nth_error_Some; congruence|]. unfold aug_ops, own_ops. rewrite Ep. apply in_or_app. left. apply in_flat_map. exists j. split; [apply in_seq; lia|]. destruct (N.eqb_spec (edgeset_kind (cellp s x j j)) no_dependency) as [Z|Z]; [now left|]. exfalso. apply Nc. apply (circ_graph s x j p Eo Ep). auto.
Qed.
Lemma in_merges rules s a b : analysed rules s -> In (Merge a b) (cycle_ops rules s) -> exists u v, linked rules s u v /\ gidx s u = a /\ gidx s v = b.
Proof.
  intros An H. pose proof An as ((Lr & Mx & Bl) & _ & _ & Eo). unfold cycle_ops in H. rewrite in_app_iff, !in_flat_map in H. destruct H as [(y & Hy & H)|(x & Hx & H)].
  - unfold phy_ops in H. destruct (nth_error (st_phys s) y) as [p|] eqn:Ep; [|destruct H]. apply in_flat_map in H. destruct H as (j & Hj & H). apply in_seq in Hj. destruct (N.eqb_spec (get (mingraph p) (p_n p) j j) no_dependency) as [Z|Z]; [destruct H as [H|[]]; discriminate|].
    apply in_flat_map in H. destruct H as (k & Hk & H). apply in_seq in Hk. destruct ((k =? j) || _ || _) eqn:T in H; [destruct H|destruct H as [H|[]]; injection H as <- <-]. rewrite !orb_false_iff, !N.eqb_neq in T. destruct T as [[_ T1] T2].
    exists (InSummary y j), (InSummary y k). ands; auto. eapply (linked_mutual _ _ (fun _ => false)); (split; [|cbn; split; [reflexivity|exists p; ands; auto; lia]]); auto.
  - apply in_seq in Hx. destruct (nth_error (st_augs s) x) as [g|] eqn:Eg; [|apply nth_error_None in Eg; lia]. destruct (nth_error rules x) as [r|] eqn:Er; [|apply nth_error_None in Er; lia]. unfold aug_ops, own_ops in H. rewrite Eg, Er in H. apply in_app_iff in H. destruct H as [H|H].
    + apply in_flat_map in H. destruct H as (j & Hj & H). apply in_seq in Hj. destruct (N.eqb_spec (edgeset_kind (cellp s x j j)) no_dependency) as [Z|Z]; [destruct H as [H|[]]; discriminate|].
      apply in_flat_map in H. destruct H as (k & Hk & H). apply in_seq in Hk. destruct ((k =? j) || _ || _ || _) eqn:T in H; [destruct H|destruct H as [H|[]]; injection H as <- <-]. rewrite !orb_false_iff, negb_false_iff in T. destruct T as [_ T].
      assert (I1 : in_graph (graphs_of s) x j k) by (exists g; ands; auto; lia). assert (I2 : in_graph (graphs_of s) x k j) by (exists g; ands; auto; lia).
      apply can_trans_spec in T; auto. destruct T as (o & T1 & T2). exists (InGraph x j), (InGraph x k). ands; auto. eapply (linked_mutual _ _ o); (split; [|cbn; split; [reflexivity|split; [eassumption|reflexivity]]]); auto.
    + apply in_flat_map in H. destruct H as ([start [y|]] & Hb & H); [|destruct H]. unfold node_ops in H. destruct (nth_error (st_phys s) y) as [p|] eqn:Ep; [|destruct H]. apply in_flat_map in H. destruct H as (i & Hi & H). apply in_seq in Hi. destruct (N.eqb_spec (get (mingraph p) (p_n p) i i) no_dependency) as [Z|Z]; [destruct H|destruct H as [H|[]]]. injection H as <- <-.
      exists (InGraph x (start + i)), (InSummary y i). ands; auto. eapply linked_node; eauto; [lia|]. apply (circ_summary s y i p Ep). split; auto. lia.
Qed.
Lemma links_merged rules s u v : analysed rules s -> linked rules s u v -> u = v \/ In (Merge (gidx s u) (gidx s v)) (cycle_ops rules s).
Proof.
  intros An L. pose proof (linked_circular _ _ _ _ An L) as [Cu Cv]. pose proof An as ((Lr & Mx & Bl) & _ & _ & Eo). unfold cycle_ops. rewrite in_app_iff, !in_flat_map. destruct L as [o u v k k' [N1 D1] [N2 D2]|x r start y p i Er Hb Ep Hi Cy].
  - destruct u as [y j|x j], v as [y' i|x' i]; try contradiction.
    + destruct D1 as (-> & p & Ep & Hj & Hi & ->), D2 as (_ & p' & Ep' & _ & _ & ->). assert (p' = p) by congruence. subst p'. destruct (Nat.eq_dec i j) as [->|Ne]; auto. right. left. exists y. split; [apply in_seq; split; [lia|]; apply nth_error_Some; congruence|].
      unfold phy_ops. rewrite Ep. apply in_flat_map. exists j. split; [apply in_seq; lia|]. apply (circ_summary s y j p Ep) in Cu. destruct Cu as [_ Cu]. rewrite (proj2 (N.eqb_neq _ _) Cu). apply in_flat_map. exists i. split; [apply in_seq; lia|].
      rewrite (proj2 (Nat.eqb_neq _ _) Ne), (proj2 (N.eqb_neq _ _) N1), (proj2 (N.eqb_neq _ _) N2). now left.
    + destruct D1 as (-> & I1 & ->), D2 as (_ & I2 & ->). destruct (Nat.eq_dec i j) as [->|Ne]; auto. right. right. pose proof I1 as (g & Eg & Hj & Hi). cbn [graphs_of w_graphs] in Eg. exists x. split; [apply in_seq; split; [lia|]; apply nth_error_Some; congruence|].
      unfold aug_ops, own_ops. rewrite Eg. apply in_or_app. left. apply in_flat_map. exists j. split; [apply in_seq; lia|]. apply (circ_graph s x j g Eo Eg) in Cu. destruct Cu as [_ Cu]. rewrite (proj2 (N.eqb_neq _ _) Cu). apply in_flat_map. exists i. split; [apply in_seq; lia|].
      assert (T : can_trans (cellp s x j i) (cellp s x i j) = true) by (apply can_trans_spec; eauto). assert (K1 : edgeset_kind (cellp s x j i) <> no_dependency) by (apply ekind_nz; eauto). assert (K2 : edgeset_kind (cellp s x i j) <> no_dependency) by (apply ekind_nz; eauto).
      rewrite (proj2 (Nat.eqb_neq _ _) Ne), (proj2 (N.eqb_neq _ _) K1), (proj2 (N.eqb_neq _ _) K2), T. now left.
  - right. right. assert (Lx : x < length (st_augs s)) by (rewrite <- Lr; apply nth_error_Some; congruence). exists x. split; [apply in_seq; lia|]. unfold aug_ops. rewrite Er. apply in_or_app. right. apply in_flat_map. exists (start, Some y). split; auto. unfold node_ops. rewrite Ep. apply in_flat_map. exists i. split; [apply in_seq; lia|].
    apply (circ_summary s y i p Ep) in Cy. destruct Cy as [_ Cy]. rewrite (proj2 (N.eqb_neq _ _) Cy). now left.
Qed.
