(** * PropsTree: C44 (the DNC test is sound for every syntax tree). *)
From Verif Require Import Base CondModel EdgeModel DncModel PropsCond EdgeProofs EdgeAddProofs EdgeGraph EdgeSem EdgeWorld PropsEdge SummaryProofs CloseProofs PropsClose DncProofs PropsDnc.
Open Scope nat_scope.

(** ** Specification *)
(** A syntax tree: an occurrence of a production with the outcome of its
    conditions, and for some of its nodes (given by their position in the
    production's list of nodes) the tree below. *)
Inductive tree := Node (x : nat) (o : outcome) (children : list (nat * tree)).
Definition t_rule (T : tree) : nat := match T with Node x _ _ => x end.
Definition t_out (T : tree) : outcome := match T with Node _ o _ => o end.
Definition t_children (T : tree) : list (nat * tree) := match T with Node _ _ cs => cs end.
(** [node_at rules s x b start y p]: node [b] of production [x] has its instances
    from [start] on, its phylum is number [y]. *)
Definition node_at (rules : list rule) (s : state) (x b start y : nat) (p : phy) : Prop :=
  exists r, nth_error rules x = Some r /\ nth_error (r_blocks r) b = Some (start, Some y) /\ nth_error (st_phys s) y = Some p.
(** Every child is an occurrence of a production for the phylum of the node it is
    attached to; the left-hand side is node 0.  Nodes of a tree are not calls. *)
Inductive tree_ok (rules : list rule) (s : state) : tree -> Prop :=
| tree_ok_node x o cs : x < length rules ->
    (forall b T, In (b, T) cs -> tree_ok rules s T /\ b <> 0 /\ exists start y p start0, node_at rules s x b start y p /\ node_at rules s (t_rule T) 0 start0 y p /\ is_func p = false) ->
    tree_ok rules s (Node x o cs).
(** An instance in the tree: the path to an occurrence and an instance of its graph. *)
Definition vertex := (list nat * nat)%type.
Fixpoint subtree (T : tree) (path : list nat) : option tree :=
  match path with [] => Some T | c :: path => match nth_error (t_children T) c with Some (_, T') => subtree T' path | None => None end end.
(** The instances of a node of the parent are those of the child's left-hand side. *)
Inductive same_instance (rules : list rule) (s : state) (T : tree) : vertex -> vertex -> Prop :=
| same_down path T0 c b T1 start y p start0 i : subtree T path = Some T0 -> nth_error (t_children T0) c = Some (b, T1) ->
    node_at rules s (t_rule T0) b start y p -> node_at rules s (t_rule T1) 0 start0 y p -> i < p_n p ->
    same_instance rules s T (path, start + i) (path ++ [c], start0 + i)
| same_up u v : same_instance rules s T u v -> same_instance rules s T v u.
(** A dependency of kind [k] inside an occurrence, in the graphs of state [s0]. *)
Definition local_dep (s0 : state) (T : tree) (u v : vertex) (k : N) : Prop :=
  exists path T0 i j, u = (path, i) /\ v = (path, j) /\ subtree T path = Some T0 /\ in_graph (graphs_of s0) (t_rule T0) i j /\
    k = kind_of_pair (graphs_of s0) (t_rule T0) (t_out T0) i j /\ k <> no_dependency.
(** A chain of dependencies and the kinds along it. *)
Inductive chain_of (rules : list rule) (s0 : state) (T : tree) : vertex -> vertex -> list N -> Prop :=
| chain_nil u : chain_of rules s0 T u u []
| chain_same u v w l : same_instance rules s0 T u v -> chain_of rules s0 T v w l -> chain_of rules s0 T u w l
| chain_dep u v w k l : local_dep s0 T u v k -> chain_of rules s0 T v w l -> chain_of rules s0 T u w (k :: l).
Fixpoint chain_kind (l : list N) : N := match l with [] => no_dependency | [k] => k | k :: l => dependency_trans k (chain_kind l) end.
(** every edge is a dependency (the code never makes other edges) *)
Definition some_kinds (s : state) : Prop := forall x i j l a c k, members (graphs_of s) x i j l -> in_graph (graphs_of s) x i j -> In (a, c, k) l -> N.testbit k 0 = true.

(** ** Proofs *)
(** *** kinds along a chain *)
Definition proper (k : N) : Prop := kind_ok k /\ N.testbit k 0 = true.
Definition ind (k : N) : N := dependency_indirect k.
Lemma ind_proper k : proper k -> proper (ind k).
Proof.
  intros [H1 H2]. split.
  - apply N.leb_le. revert k H1 H2. intros k H1 _. revert k H1. apply all32_spec. vm_compute. reflexivity.
  - unfold ind. rewrite C38_indirect, H2. reflexivity.
Qed.
Lemma proper_nz k : proper k -> k <> no_dependency.
Proof. intros [_ H] ->. discriminate. Qed.
Lemma trans_proper a b : proper a -> proper b -> proper (dependency_trans a b).
Proof. intros Ha Hb. split; [apply trans_ok; [apply Ha|apply Hb]|]. apply (C38_trans_bits a b); auto using proper_nz; [apply Ha|apply Hb]. Qed.
Lemma ind_le k : at_most (ind k) k = true.
Proof. apply at_most_incl. intros i. unfold tb, ind. rewrite C38_indirect. intros H. apply andb_true_iff in H. tauto. Qed.
Lemma ind_idem k : ind (ind k) = ind k.
Proof. apply N.bits_inj. intros i. unfold ind. rewrite !C38_indirect. destruct (N.testbit k i); auto. cbn [andb]. destruct (negb (i =? 3)%N); auto. Qed.
Lemma ind_trans a b : kind_ok a -> kind_ok b -> ind (dependency_trans a b) = dependency_trans a b.
Proof. intros Ha Hb. apply N.eqb_eq. unfold ind. revert a b Ha Hb. apply all32_2. vm_compute. reflexivity. Qed.
Lemma trans_ind a b : proper a -> proper b -> dependency_trans a b = dependency_trans (ind a) (ind b).
Proof.
  intros [Ha Pa] [Hb Pb]. assert (G : implb (N.testbit a 0 && N.testbit b 0) (dependency_trans a b =? dependency_trans (ind a) (ind b))%N = true).
  { clear Pa Pb. unfold ind. revert a b Ha Hb. apply all32_2. vm_compute. reflexivity. }
  rewrite Pa, Pb in G. now apply N.eqb_eq.
Qed.
Lemma trans_assoc a b c : kind_ok a -> kind_ok b -> kind_ok c -> dependency_trans a (dependency_trans b c) = dependency_trans (dependency_trans a b) c.
Proof. intros Ha Hb Hc. apply (C38_trans a b c); auto. Qed.
Definition all_proper (l : list N) : Prop := forall k, In k l -> proper k.
Lemma all_proper_app l1 l2 : all_proper (l1 ++ l2) <-> all_proper l1 /\ all_proper l2.
Proof. unfold all_proper. setoid_rewrite in_app_iff. intuition auto. Qed.
Lemma ck_cons k l : l <> [] -> chain_kind (k :: l) = dependency_trans k (chain_kind l).
Proof. destruct l; [congruence|reflexivity]. Qed.
Lemma ck_proper l : all_proper l -> l <> [] -> proper (chain_kind l).
Proof.
  induction l as [|k l IH]; intros Hp Hn; [congruence|]. destruct l as [|k2 l]; [apply Hp; now left|]. rewrite ck_cons by discriminate. apply trans_proper; [apply Hp; now left|]. apply IH; [|discriminate]. intros x Hx. apply Hp. now right.
Qed.
Lemma ck_app l1 l2 : all_proper l1 -> all_proper l2 -> l1 <> [] -> l2 <> [] -> chain_kind (l1 ++ l2) = dependency_trans (chain_kind l1) (chain_kind l2).
Proof.
  induction l1 as [|k l1 IH]; intros P1 P2 N1 N2; [congruence|]. destruct l1 as [|k2 l1].
  - cbn [app]. now rewrite ck_cons.
  - cbn [app]. rewrite ck_cons by discriminate. rewrite (ck_cons k (k2 :: l1)) by discriminate.
    assert (P1' : all_proper (k2 :: l1)) by (intros x Hx; apply P1; now right). specialize (IH P1' P2 ltac:(discriminate) N2). cbn [app] in IH. rewrite IH.
    apply trans_assoc; [apply P1; now left|apply ck_proper; auto; discriminate|apply ck_proper; auto].
Qed.
Definition IK (l : list N) : N := ind (chain_kind l).
Lemma IK_cong l r r' : all_proper l -> all_proper r -> all_proper r' -> r <> [] -> r' <> [] -> IK r = IK r' -> IK (l ++ r) = IK (l ++ r').
Proof.
  intros Pl Pr Pr' Nr Nr' E. destruct l as [|k l]; auto. unfold IK in *. rewrite !ck_app by (auto; discriminate). f_equal.
  pose proof (ck_proper (k :: l) Pl ltac:(discriminate)) as P1. pose proof (ck_proper r Pr Nr). pose proof (ck_proper r' Pr' Nr').
  rewrite (trans_ind _ (chain_kind r)), (trans_ind _ (chain_kind r')) by auto. now rewrite E.
Qed.
Lemma IK_one m1 m2 : all_proper m1 -> all_proper m2 -> m1 <> [] -> IK (m1 ++ m2) = IK (IK m1 :: m2).
Proof.
  intros P1 P2 N1. pose proof (ck_proper m1 P1 N1) as Q. destruct m2 as [|k m2].
  - rewrite app_nil_r. unfold IK. cbn [chain_kind]. now rewrite ind_idem.
  - unfold IK. rewrite ck_app by (auto; discriminate). rewrite (ck_cons (ind (chain_kind m1))) by discriminate. pose proof (ck_proper (k :: m2) P2 ltac:(discriminate)). rewrite (trans_ind (chain_kind m1) (chain_kind (k :: m2))) by auto. rewrite (trans_ind (ind (chain_kind m1)) (chain_kind (k :: m2))); [now rewrite ind_idem|now apply ind_proper|auto].
Qed.
Lemma IK_split l1 m1 m2 : all_proper l1 -> all_proper m1 -> all_proper m2 -> m1 <> [] -> IK (l1 ++ m1 ++ m2) = IK (l1 ++ IK m1 :: m2).
Proof.
  intros P0 P1 P2 N1. pose proof (ck_proper m1 P1 N1) as Q. apply IK_cong; auto.
  - apply all_proper_app. auto.
  - intros x [<-|Hx]; [now apply ind_proper|auto].
  - destruct m1; [congruence|discriminate].
  - discriminate.
  - apply IK_one; auto.
Qed.
Lemma trans_bound a b x y : proper a -> proper b -> kind_ok x -> kind_ok y -> at_most (ind a) x = true -> at_most (ind b) y = true -> at_most (dependency_trans a b) (dependency_trans x y) = true.
Proof. intros Pa Pb Hx Hy La Lb. rewrite trans_ind by auto. apply trans_mono; auto; apply ind_proper; auto. Qed.

(** chains in a closed, synchronised state, within a tree, following the tree *)
Section closed.
Variables (rules : list rule) (s : state).
Definition F (T : tree) (i j : nat) : N := kind_of_pair (graphs_of s) (t_rule T) (t_out T) i j.
Definition ninst (T : tree) : nat := match nth_error (st_augs s) (t_rule T) with Some g => n_inst g | None => 0 end.
Definition edge_of (T : tree) (i j : nat) (k : N) : Prop := i < ninst T /\ j < ninst T /\ proper k /\ at_most k (F T i j) = true.
(** [glue T T1 b a a1]: instance a of T is instance a1 of its child T1 at node b *)
Definition glue (T T1 : tree) (b a a1 : nat) : Prop := exists start y p start0 i, node_at rules s (t_rule T) b start y p /\ node_at rules s (t_rule T1) 0 start0 y p /\ i < p_n p /\ a = start + i /\ a1 = start0 + i.
Inductive tstep : tree -> vertex -> vertex -> list N -> Prop :=
| ts_edge T i j k : edge_of T i j k -> tstep T ([], i) ([], j) [k]
| ts_down T c b T1 a a1 : nth_error (t_children T) c = Some (b, T1) -> glue T T1 b a a1 -> tstep T ([], a) ([c], a1) []
| ts_up T c b T1 a a1 : nth_error (t_children T) c = Some (b, T1) -> glue T T1 b a a1 -> tstep T ([c], a1) ([], a) []
| ts_in T c b T1 p1 i1 p2 i2 l : nth_error (t_children T) c = Some (b, T1) -> tstep T1 (p1, i1) (p2, i2) l -> tstep T (c :: p1, i1) (c :: p2, i2) l.
Inductive walk (T : tree) : nat -> vertex -> vertex -> list N -> Prop :=
| w_nil u : walk T 0 u u []
| w_cons n u v w l1 l2 : tstep T u v l1 -> walk T n v w l2 -> walk T (S n) u w (l1 ++ l2).
Lemma walk_app T n1 n2 u v w l1 l2 : walk T n1 u v l1 -> walk T n2 v w l2 -> walk T (n1 + n2) u w (l1 ++ l2).
Proof. induction 1; cbn [plus app]; auto. intros W. rewrite <- app_assoc. econstructor; eauto. Qed.

Lemma first_root T c b T1 n p1 i v l : nth_error (t_children T) c = Some (b, T1) -> walk T n (c :: p1, i) v l ->
  (exists p2 j, v = (c :: p2, j) /\ walk T1 n (p1, i) (p2, j) l) \/
  (exists a a1 n1 n2 l1 l2, glue T T1 b a a1 /\ walk T1 n1 (p1, i) ([], a1) l1 /\ walk T n2 ([], a) v l2 /\ l = l1 ++ l2 /\ n = n1 + S n2).
Proof.
  intros Ec W. remember (c :: p1, i) as u. revert p1 i Hequ. induction W as [u|n u v w l1 l2 S W IH]; intros p1 i ->.
  - left. exists p1, i. split; auto. constructor.
  - inversion S; subst.
    + (* up *) right. assert (b0 = b /\ T2 = T1) as [-> ->] by (split; congruence). exists a, i, 0, n, [], l2. cbn [app plus]. ands; auto. constructor.
    + assert (b0 = b /\ T2 = T1) as [-> ->] by (split; congruence). destruct (IH p2 i2 eq_refl) as [(p3 & j & -> & W')|(a & a1 & n1 & n2 & m1 & m2 & G & W1 & W2 & -> & ->)].
      * left. exists p3, j. split; auto. econstructor; eauto.
      * right. exists a, a1, (Datatypes.S n1), n2, (l1 ++ m1), m2. ands; auto.
        { econstructor; eauto. }
        { now rewrite app_assoc. }
Qed.
Lemma last_root T c b T1 n v p2 j l : nth_error (t_children T) c = Some (b, T1) -> walk T n v (c :: p2, j) l ->
  (exists p1 i, v = (c :: p1, i) /\ walk T1 n (p1, i) (p2, j) l) \/
  (exists a a1 n1 n2 l1 l2, glue T T1 b a a1 /\ walk T n1 v ([], a) l1 /\ walk T1 n2 ([], a1) (p2, j) l2 /\ l = l1 ++ l2).
Proof.
  intros Ec W. remember (c :: p2, j) as u. revert Hequ. induction W as [u|n u v w l1 l2 S W IH]; intros ->.
  - left. exists p2, j. split; auto. constructor.
  - destruct (IH eq_refl) as [(p1 & i & -> & W')|(a & a1 & n1 & n2 & m1 & m2 & G & W1 & W2 & ->)].
    + inversion S; subst.
      * assert (b0 = b /\ T2 = T1) as [-> ->] by (split; congruence). right. exists a, i, 0, n, [], l2. cbn [app]. ands; auto. constructor.
      * assert (b0 = b /\ T2 = T1) as [-> ->] by (split; congruence). left. eexists _, _. split; [reflexivity|]. econstructor; eauto.
    + right. exists a, a1, (Datatypes.S n1), n2, (l1 ++ m1), m2. ands; auto.
      { econstructor; eauto. }
      { now rewrite app_assoc. }
Qed.

Definition good : Prop := graphs_closed s /\ synchronised rules s /\ well_formed rules s /\ forall T i j, i < ninst T -> j < ninst T -> kind_ok (F T i j).
Lemma node_at_fun x b st1 y1 p1 st2 y2 p2 : node_at rules s x b st1 y1 p1 -> node_at rules s x b st2 y2 p2 -> st1 = st2 /\ y1 = y2 /\ p1 = p2.
Proof.
  intros (r & H1 & H2 & H3) (r' & H1' & H2' & H3'). assert (r' = r) by congruence. subst. rewrite H2 in H2'. injection H2' as <- <-. ands; auto. congruence.
Qed.
Lemma node_inst T b start y p i : good -> t_rule T < length rules -> node_at rules s (t_rule T) b start y p -> i < p_n p -> start + i < ninst T.
Proof.
  intros (_ & _ & (L & _ & W) & _) Lt (r & H1 & H2 & H3) Hi. unfold ninst. destruct (nth_error (st_augs s) (t_rule T)) as [g|] eqn:Eg; [|apply nth_error_None in Eg; lia].
  destruct (W _ r g start y H1 Eg (nth_error_In _ _ H2)) as (p' & E & Hs & _). assert (p' = p) by congruence. subst. lia.
Qed.
Lemma closed_step T i j k : good -> t_rule T < length rules -> i < ninst T -> j < ninst T -> k < ninst T -> at_most (dependency_trans (F T i k) (F T k j)) (F T i j) = true.
Proof.
  intros ((C & _) & _) Lt Hi Hj Hk. unfold ninst in *. destruct (nth_error (st_augs s) (t_rule T)) as [g|] eqn:Eg; [|lia]. apply (C _ _ Eg); auto.
Qed.
Definition not_call (T : tree) (b : nat) : Prop := forall start y p, node_at rules s (t_rule T) b start y p -> is_func p = false.
Lemma sync_step T T1 b b' a a1 a' a1' k : good -> not_call T b -> b' = b -> proper k -> glue T T1 b a a1 -> glue T T1 b' a' a1' -> at_most (ind k) (F T1 a1 a1') = true -> at_most (ind k) (F T a a') = true.
Proof.
  intros (_ & Sy & _) Nc -> Pk (st & y & p & st0 & i & N1 & N2 & Hi & -> & ->) (st' & y' & p' & st0' & i' & N1' & N2' & Hi' & -> & ->) Le.
  destruct (node_at_fun _ _ _ _ _ _ _ _ N1 N1') as (<- & <- & <-). destruct (node_at_fun _ _ _ _ _ _ _ _ N2 N2') as (<- & _).
  pose proof (Nc _ _ _ N1) as Fn. destruct N1 as (r & R1 & R2 & R3). destruct N2 as (r0 & Q1 & Q2 & Q3).
  destruct (Sy _ r0 st0 y p i i' (t_out T1) Q1 (nth_error_In _ _ Q2) R3 Hi Hi') as [U _]. destruct (Sy _ r st y p i i' (t_out T) R1 (nth_error_In _ _ R2) R3 Hi Hi') as [_ D].
  unfold F in *. eapply at_most_trans; [|exact D]. eapply at_most_trans; [|exact (U Fn)]. apply at_most_incl. apply at_most_incl in Le. intros x Hx. pose proof (Le x Hx) as Hy. unfold tb, ind in *. rewrite C38_indirect in Hx |- *. apply andb_true_iff in Hx. destruct Hx as [_ Hx]. now rewrite Hy, Hx.
Qed.
Lemma sync_step_up T T1 b a a1 a' a1' k : good -> not_call T b -> proper k -> glue T T1 b a a1 -> glue T T1 b a' a1' -> at_most (ind k) (F T a a') = true -> at_most (ind k) (F T1 a1 a1') = true.
Proof.
  intros (_ & Sy & _) Nc Pk (st & y & p & st0 & i & N1 & N2 & Hi & -> & ->) (st' & y' & p' & st0' & i' & N1' & N2' & Hi' & -> & ->) Le.
  destruct (node_at_fun _ _ _ _ _ _ _ _ N1 N1') as (<- & <- & <-). destruct (node_at_fun _ _ _ _ _ _ _ _ N2 N2') as (<- & _).
  pose proof (Nc _ _ _ N1) as Fn. destruct N1 as (r & R1 & R2 & R3). destruct N2 as (r0 & Q1 & Q2 & Q3).
  destruct (Sy _ r0 st0 y p i i' (t_out T1) Q1 (nth_error_In _ _ Q2) R3 Hi Hi') as [_ D]. destruct (Sy _ r st y p i i' (t_out T) R1 (nth_error_In _ _ R2) R3 Hi Hi') as [U _].
  unfold F in *. eapply at_most_trans; [|exact D]. eapply at_most_trans; [|exact (U Fn)]. apply at_most_incl. apply at_most_incl in Le. intros x Hx. pose proof (Le x Hx) as Hy. unfold tb, ind in *. rewrite C38_indirect in Hx |- *. apply andb_true_iff in Hx. destruct Hx as [_ Hx]. now rewrite Hy, Hx.
Qed.
Lemma glue_inj T T1 b a a1 a' : glue T T1 b a a1 -> glue T T1 b a' a1 -> a = a'.
Proof.
  intros (st & y & p & st0 & i & N1 & N2 & Hi & -> & ->) (st' & y' & p' & st0' & i' & N1' & N2' & Hi' & -> & E). destruct (node_at_fun _ _ _ _ _ _ _ _ N1 N1') as (<- & <- & <-). destruct (node_at_fun _ _ _ _ _ _ _ _ N2 N2') as (<- & _). lia.
Qed.
Lemma glue_fun T T1 b a a1 a1' : glue T T1 b a a1 -> glue T T1 b a a1' -> a1 = a1'.
Proof.
  intros (st & y & p & st0 & i & N1 & N2 & Hi & -> & ->) (st' & y' & p' & st0' & i' & N1' & N2' & Hi' & E & ->). destruct (node_at_fun _ _ _ _ _ _ _ _ N1 N1') as (<- & <- & <-). destruct (node_at_fun _ _ _ _ _ _ _ _ N2 N2') as (<- & _). lia.
Qed.
Lemma glue_bound T T1 b a a1 : good -> t_rule T < length rules -> t_rule T1 < length rules -> glue T T1 b a a1 -> a < ninst T /\ a1 < ninst T1.
Proof. intros G L L1 (st & y & p & st0 & i & N1 & N2 & Hi & -> & ->). split; eapply node_inst; eauto. Qed.
Lemma tree_ok_rec (P : tree -> Prop) :
  (forall x o cs, x < length rules -> (forall b T, In (b, T) cs -> tree_ok rules s T /\ P T /\ not_call (Node x o cs) b) -> P (Node x o cs)) -> forall T, tree_ok rules s T -> P T.
Proof.
  intros H. fix rec 2. intros T [x o cs Lx Hc]. apply H; auto. intros b T1 Hin. destruct (Hc b T1 Hin) as (O & _ & st & y & p & st0 & N1 & N2 & Fn). ands; auto.
  intros st' y' p' N1'. cbn [t_rule] in N1'. now destruct (node_at_fun _ _ _ _ _ _ _ _ N1 N1') as (_ & _ & <-).
Qed.
Lemma tree_ok_rule T : tree_ok rules s T -> t_rule T < length rules.
Proof. now intros [x o cs L _]. Qed.
Lemma tree_ok_child T c b T1 : tree_ok rules s T -> nth_error (t_children T) c = Some (b, T1) -> tree_ok rules s T1 /\ not_call T b.
Proof.
  intros [x o cs L H] E. cbn [t_children] in E. destruct (H b T1 (nth_error_In _ _ E)) as (O & _ & st & y & p & st0 & N1 & N2 & Fn). split; auto.
  intros st' y' p' N1'. cbn [t_rule] in N1'. now destruct (node_at_fun _ _ _ _ _ _ _ _ N1 N1') as (_ & _ & <-).
Qed.
Lemma tstep_proper T u v l : tstep T u v l -> all_proper l.
Proof. induction 1 as [T i j k (_ & _ & Pk & _)| | |]; auto; try (intros z []; fail). intros z [<-|[]]. auto. Qed.
Lemma walk_proper T n u v l : walk T n u v l -> all_proper l.
Proof. induction 1; [intros x []|]. apply all_proper_app. split; auto. eapply tstep_proper; eauto. Qed.

(** a walk between two instances of the root *)
Lemma combine T i k j l1 l2 : good -> t_rule T < length rules -> i < ninst T -> k < ninst T -> j < ninst T -> all_proper l1 -> all_proper l2 -> l1 <> [] -> l2 <> [] ->
  at_most (IK l1) (F T i k) = true -> at_most (IK l2) (F T k j) = true -> at_most (IK (l1 ++ l2)) (F T i j) = true.
Proof.
  intros G L Hi Hk Hj P1 P2 N1 N2 L1 L2. unfold IK. rewrite ck_app by auto. pose proof (ck_proper _ P1 N1) as Q1. pose proof (ck_proper _ P2 N2) as Q2. rewrite ind_trans by (apply Q1 || apply Q2).
  destruct G as (G1 & G2 & G3 & G4). eapply at_most_trans; [|apply (closed_step T i j k); auto; unfold good; auto]. apply trans_bound; auto.
Qed.
Definition inside_at (T : tree) : Prop := forall n i j l, walk T n ([], i) ([], j) l -> (l = [] -> i = j) /\ (l <> [] -> i < ninst T /\ j < ninst T /\ at_most (IK l) (F T i j) = true).
Lemma inside T : good -> tree_ok rules s T -> inside_at T.
Proof.
  intros G. revert T. apply tree_ok_rec. intros x o cs Lx Hc. set (T := Node x o cs) in *. assert (LT : t_rule T < length rules) by exact Lx.
  intros n. induction n as [n IH] using (well_founded_induction lt_wf). intros i j l W.
  inversion W as [u|n' u v w l1 l2 S W']; subst; [split; [auto|congruence]|]. inversion S; subst.
  - (* edge *) destruct (IH n' ltac:(lia) _ _ _ W') as [I1 I2]. match goal with H : edge_of _ _ _ _ |- _ => destruct H as (Hi & Hj & Pk & Le) end. split; [discriminate|]. intros _. cbn [app]. pose proof (walk_proper _ _ _ _ _ W') as Pw. destruct l2 as [|k2 l2].
    + rewrite <- (I1 eq_refl). ands; auto. unfold IK. cbn [chain_kind]. eapply at_most_trans; [apply ind_le|auto].
    + destruct (I2 ltac:(discriminate)) as (_ & Hj' & Le2). ands; auto. change (k :: k2 :: l2) with ([k] ++ (k2 :: l2)). apply (combine T i j0 j); auto; try discriminate.
      * intros y [<-|[]]. auto.
      * unfold IK. cbn [chain_kind]. eapply at_most_trans; [apply ind_le|auto].
  - (* down *) match goal with H : glue _ _ _ _ _ |- _ => rename H into H4 end. match goal with H : nth_error _ _ = Some (_, _) |- _ => rename H into H2 end. destruct (Hc b T1) as (O1 & I1 & Nc). { apply nth_error_In with c. exact H2. } pose proof (tree_ok_rule _ O1) as L1.
    destruct (first_root T c b T1 n' [] a1 ([], j) l2 H2 W') as [(p2 & j2 & E & _)|(a & a1' & n1 & n2 & m1 & m2 & Gl & W1 & W2 & -> & ->)]; [discriminate|].
    destruct (I1 _ _ _ _ W1) as [J1 J2]. destruct (IH n2 ltac:(lia) _ _ _ W2) as [K1 K2]. pose proof (walk_proper _ _ _ _ _ W1) as P1. pose proof (walk_proper _ _ _ _ _ W2) as P2. cbn [app].
    pose proof (glue_bound _ _ _ _ _ G LT L1 H4) as [B1 _]. pose proof (glue_bound _ _ _ _ _ G LT L1 Gl) as [B2 _].
    destruct m1 as [|k1 m1].
    + rewrite (J1 eq_refl) in H4. rewrite (glue_inj _ _ _ _ _ _ H4 Gl). cbn [app]. auto.
    + split; [discriminate|]. intros _. destruct (J2 ltac:(discriminate)) as (_ & _ & Le). assert (Le' : at_most (IK (k1 :: m1)) (F T i a) = true).
      { eapply (sync_step T T1 b b i a1 a a1'); eauto. apply ck_proper; auto. discriminate. }
      destruct m2 as [|k2 m2].
      * rewrite <- (K1 eq_refl). rewrite app_nil_r. auto.
      * destruct (K2 ltac:(discriminate)) as (_ & Hj & Le2). ands; auto. apply (combine T i a j); auto; discriminate.
Qed.
(** a walk between two places below one child, as a walk of the child *)
Lemma descend T c b T1 n p1 i p2 j l : good -> tree_ok rules s T -> nth_error (t_children T) c = Some (b, T1) -> walk T n (c :: p1, i) (c :: p2, j) l ->
  exists n' l', walk T1 n' (p1, i) (p2, j) l' /\ (l = [] <-> l' = []) /\ IK l = IK l'.
Proof.
  intros G Ok Ec W. destruct (tree_ok_child _ _ _ _ Ok Ec) as [Ok1 Nc]. pose proof (tree_ok_rule _ Ok) as LT. pose proof (tree_ok_rule _ Ok1) as L1.
  destruct (first_root T c b T1 n p1 i _ l Ec W) as [(p3 & j3 & E & W1)|(a & a1 & n1 & n2 & l1 & l2 & Gl & W1 & W2 & -> & ->)].
  - injection E as -> ->. exists n, l. ands; auto. tauto.
  - destruct (last_root T c b T1 n2 _ p2 j l2 Ec W2) as [(p3 & j3 & E & _)|(a' & a1' & n3 & n4 & m1 & m2 & Gl' & W3 & W4 & ->)]; [discriminate|].
    destruct (inside T G Ok _ _ _ _ W3) as [I1 I2]. pose proof (walk_proper _ _ _ _ _ W1) as P1. pose proof (walk_proper _ _ _ _ _ W3) as P3. pose proof (walk_proper _ _ _ _ _ W4) as P4.
    destruct m1 as [|k m1].
    + rewrite <- (I1 eq_refl) in Gl'. rewrite <- (glue_fun _ _ _ _ _ _ Gl Gl') in W4. exists (n1 + n4), (l1 ++ m2). cbn [app]. ands; auto; [|tauto]. eapply walk_app; eauto.
    + destruct (I2 ltac:(discriminate)) as (B1 & B2 & Le). set (kk := IK (k :: m1)). assert (Pk : proper kk) by (apply ind_proper, ck_proper; auto; discriminate).
      assert (S : tstep T1 ([], a1) ([], a1') [kk]).
      { constructor. pose proof (glue_bound _ _ _ _ _ G LT L1 Gl) as [_ X1]. pose proof (glue_bound _ _ _ _ _ G LT L1 Gl') as [_ X2]. unfold edge_of. ands; auto.
        eapply (sync_step_up T T1 b a a1 a' a1' (chain_kind (k :: m1))); eauto. apply ck_proper; auto. discriminate. }
      exists (n1 + (1 + n4)), (l1 ++ ([kk] ++ m2)). ands.
      * eapply walk_app; eauto. cbn [plus]. econstructor; eauto.
      * split; intros E; exfalso; destruct l1; discriminate.
      * unfold kk. cbn [app]. rewrite <- IK_split by (auto; discriminate). reflexivity.
Qed.
Lemma covered_walk path : good -> forall T T0 n i j l, tree_ok rules s T -> subtree T path = Some T0 -> walk T n (path, i) (path, j) l -> l <> [] -> i < ninst T0 /\ j < ninst T0 /\ at_most (IK l) (F T0 i j) = true.
Proof.
  intros G. induction path as [|c path IH]; intros T T0 n i j l Ok Es W Nl; cbn [subtree] in Es.
  - injection Es as <-. now apply (proj2 (inside T G Ok _ _ _ _ W)).
  - destruct (nth_error (t_children T) c) as [[b T1]|] eqn:Ec; [|discriminate]. destruct (descend T c b T1 n path i path j l G Ok Ec W) as (n' & l' & W' & E & ->).
    apply (IH T1 T0 n' i j l'); auto; [|tauto]. eapply tree_ok_child; eauto.
Qed.
(** steps below *)
Lemma tstep_sub path : forall T T0 p1 i p2 j l, subtree T path = Some T0 -> tstep T0 (p1, i) (p2, j) l -> tstep T (path ++ p1, i) (path ++ p2, j) l.
Proof.
  induction path as [|c path IH]; intros T T0 p1 i p2 j l Es S; cbn [subtree] in Es.
  - now injection Es as <-.
  - destruct (nth_error (t_children T) c) as [[b T1]|] eqn:Ec; [|discriminate]. cbn [app]. eapply ts_in; eauto.
Qed.
End closed.

(** *** from the specification *)
Lemma node_at_grew rules s0 s x b start y p : only_grew s0 s -> node_at rules s0 x b start y p -> exists p', node_at rules s x b start y p' /\ p_n p' = p_n p /\ is_func p' = is_func p.
Proof. intros (_ & _ & _ & G) (r & H1 & H2 & H3). destruct (G y p H3) as (p' & E & L & Fn & _). exists p'. ands; auto. - exists r. auto. - unfold p_n. now rewrite L. Qed.
Lemma tree_ok_grew rules s0 s T : only_grew s0 s -> tree_ok rules s0 T -> tree_ok rules s T.
Proof.
  intros G. revert T. fix rec 2. intros T [x o cs Lx Hc]. constructor; auto. intros b T1 Hin. destruct (Hc b T1 Hin) as (O & Nb & st & y & p & st0 & N1 & N2 & Fn). split; [apply rec; exact O|]. split; [exact Nb|].
  destruct (node_at_grew _ _ _ _ _ _ _ _ G N1) as (p' & N1' & _ & E1). destruct (node_at_grew _ _ _ _ _ _ _ _ G N2) as (p'' & N2' & _). assert (p'' = p'). { destruct N1' as (r1 & _ & _ & X). destruct N2' as (r2 & _ & _ & Y). congruence. } subst p''.
  exists st, y, p', st0. ands; auto. congruence.
Qed.
Lemma same_walk rules s0 s T u v : only_grew s0 s -> same_instance rules s0 T u v -> tstep rules s T u v [] /\ tstep rules s T v u [].
Proof.
  intros G. induction 1 as [path T0 c b T1 start y p start0 i Es Ec N1 N2 Hi|u v H IH]; [|tauto].
  destruct (node_at_grew _ _ _ _ _ _ _ _ G N1) as (p' & N1' & Ln & _). destruct (node_at_grew _ _ _ _ _ _ _ _ G N2) as (p'' & N2' & _). assert (p'' = p'). { destruct N1' as (r1 & _ & _ & X). destruct N2' as (r2 & _ & _ & Y). congruence. } subst p''.
  assert (Gl : glue rules s T0 T1 b (start + i) (start0 + i)). { exists start, y, p', start0, i. ands; auto. lia. }
  rewrite <- (app_nil_r path) at 1 4. split; eapply tstep_sub; eauto; econstructor; eauto.
Qed.
Lemma ninst_grew s0 s T i j : only_grew s0 s -> in_graph (graphs_of s0) (t_rule T) i j -> i < ninst s T /\ j < ninst s T.
Proof. intros (_ & _ & G & _) (g & Hg & Hi & Hj). cbn [graphs_of w_graphs] in Hg. destruct (G _ _ Hg) as (g' & Hg' & En & _). unfold ninst. rewrite Hg'. lia. Qed.
Lemma dep_proper B rules s0 As x o i j : dinv B rules s0 As -> some_kinds s0 -> in_graph (graphs_of s0) x i j -> kind_of_pair (graphs_of s0) x o i j <> no_dependency -> proper (kind_of_pair (graphs_of s0) x o i j).
Proof.
  intros D Sk Ig Nz. destruct (di_world _ _ _ _ D) as (fl & W). destruct Ig as (g & Hg & Hi & Hj). cbn [graphs_of w_graphs] in Hg. destruct (world_focus _ _ _ _ _ _ W Hg) as (A & EA & Gi).
  pose proof (gp_n _ _ _ (gi_part _ _ _ _ _ Gi)) as En. pose proof (gp_clen _ _ _ (gi_part _ _ _ _ _ Gi)) as Lc. rewrite En in Hi, Hj.
  assert (Cb : ebound B (cell A i j)). { eapply cell_bound; eauto. eapply di_bound; eauto. eapply nth_error_In; eauto. }
  rewrite (kind_of_pair_A (graphs_of s0) As fl x A o) in * by auto. unfold kindA in *. split; [eapply seen_ok; eauto|].
  destruct (cell A i j) as [|e l] eqn:Ec; [exfalso; apply Nz; reflexivity|].
  destruct (N.eq_dec (seen o (pairs (cell A i j))) 0%N) as [Z|Z]; [rewrite Ec in Z; contradiction|]. rewrite <- Ec in *. clear e l Ec.
  assert (Hb : exists b, tb (seen o (pairs (cell A i j))) b = true). { exists (N.log2 (seen o (pairs (cell A i j)))). apply N.bit_log2. auto. }
  destruct Hb as (b & Hb). apply (seen_bit o) in Hb. destruct Hb as (a & c & k & Hin & Mo & Hk). apply (seen_bit o). exists a, c, k. ands; auto.
  apply (Sk x i j (cell A i j) a c k); auto; [|exists g; cbn [graphs_of w_graphs]; rewrite En; auto]. eapply (members_cell (graphs_of s0)); eauto.
Qed.
Lemma chain_walk B rules s0 s As T u v l : dinv B rules s0 As -> some_kinds s0 -> only_grew s0 s -> chain_of rules s0 T u v l -> exists n, walk rules s T n u v l.
Proof.
  intros D Sk G. induction 1 as [u|u v w l Hs Hc (n & IH)|u v w k l Hd Hc (n & IH)].
  - exists 0. constructor.
  - exists (S n). change l with ([] ++ l). apply (w_cons _ _ T n u v w [] l); auto. exact (proj1 (same_walk rules s0 s T u v G Hs)).
  - exists (S n). change (k :: l) with ([k] ++ l). apply (w_cons _ _ T n u v w [k] l); auto. destruct Hd as (path & T0 & i & j & -> & -> & Es & Ig & -> & Nz).
    rewrite <- (app_nil_r path). eapply tstep_sub; eauto. constructor. destruct (ninst_grew s0 s T0 i j G Ig) as [Hi Hj]. unfold edge_of. ands; auto.
    + eapply dep_proper; eauto.
    + destruct G as (_ & _ & G & _). destruct Ig as (g & Hg & Li & Lj). destruct (G _ _ Hg) as (g' & _ & _ & C). apply C; auto.
Qed.
Lemma done_good B rules s As : dinv B rules s As -> done_state rules s As -> good rules s.
Proof.
  intros D Ds. destruct (done_spec _ _ _ _ D Ds) as (G1 & G2 & G3). unfold good. ands; auto. intros T i j Hi Hj. destruct (di_world _ _ _ _ D) as (fl & W). unfold ninst in *. destruct (nth_error (st_augs s) (t_rule T)) as [g|] eqn:Hg; [|lia].
  destruct (world_focus _ _ _ _ _ _ W Hg) as (A & EA & Gi). pose proof (gp_n _ _ _ (gi_part _ _ _ _ _ Gi)) as En. pose proof (gp_clen _ _ _ (gi_part _ _ _ _ _ Gi)) as Lc. rewrite En in Hi, Hj.
  unfold F. rewrite (kind_of_pair_A (graphs_of s) As fl _ A) by auto. eapply seen_ok. eapply cell_bound; eauto. eapply di_bound; eauto. eapply nth_error_In; eauto.
Qed.
(** a chain that is not empty begins in the tree *)
Lemma tstep_in rules s T u v l : tstep rules s T u v l -> exists T0, subtree T (fst u) = Some T0.
Proof.
  induction 1; cbn [fst subtree].
  - eauto.
  - eauto.
  - rewrite H. eauto.
  - rewrite H. eauto.
Qed.
Lemma walk_in rules s T n u v l : walk rules s T n u v l -> l <> [] -> exists T0, subtree T (fst u) = Some T0.
Proof. destruct 1; [congruence|]. intros _. eapply tstep_in; eauto. Qed.

(** *** the cycle test *)
Lemma fold_bits {X} (f : N -> X -> res N) (Q : X -> N -> Prop) l : (forall x k, In x l -> exists k', f k x = Ok k' /\ forall b, tb k' b = true <-> tb k b = true \/ Q x b) ->
  forall k0, exists k, foldM f l k0 = Ok k /\ forall b, tb k b = true <-> tb k0 b = true \/ exists x, In x l /\ Q x b.
Proof.
  induction l as [|x l IH]; intros H k0.
  - exists k0. split; [reflexivity|]. intros b. split; auto. intros [|(x & [] & _)]; auto.
  - destruct (H x k0 (or_introl eq_refl)) as (k1 & E & B1). destruct (IH (fun y k Hy => H y k (or_intror Hy)) k1) as (k2 & E2 & B2). exists k2. cbn [foldM]. rewrite E. cbn [bind]. split; auto.
    intros b. rewrite B2, B1. split.
    + intros [[|]|(y & Hy & Qy)]; auto; right; [exists x|exists y]; split; auto; [now left|now right].
    + intros [|(y & [->|Hy] & Qy)]; auto. right. eauto.
Qed.
Lemma join_bits a c b : tb (dependency_join a c) b = true <-> tb a b = true \/ tb c b = true.
Proof. unfold tb, dependency_join. rewrite N.lor_spec. apply orb_true_iff. Qed.
(** The dependencies of an instance on itself, in the summary and production graphs. *)
Definition self_bit (s : state) (b : N) : Prop :=
  (exists p i, In p (st_phys s) /\ i < p_n p /\ N.testbit (get (mingraph p) (p_n p) i i) b = true) \/
  (exists x i l a c k, in_graph (graphs_of s) x i i /\ members (graphs_of s) x i i l /\ In (a, c, k) l /\ N.testbit k b = true).
Lemma ekind_bits l b : tb (edgeset_kind (pairs l)) b = true <-> exists a c k, In (a, c, k) l /\ tb k b = true.
Proof.
  induction l as [|[[a c] k] l IH].
  - cbn. split; [discriminate|]. intros (a & c & k & [] & _).
  - cbn [pairs map cond_of kind_of fst snd]. fold (pairs l). rewrite ekind_cons, join_bits, IH. cbn [snd]. split.
    + intros [H|(a0 & c0 & k0 & H1 & H2)]; [exists a, c, k|exists a0, c0, k0]; split; auto; [now left|now right].
    + intros (a0 & c0 & k0 & [H1|H1] & H2); [left; congruence|right; eauto].
Qed.
Lemma cycle_ok B rules s As : dinv B rules s As -> exists k, analysis_state_cycle s = Ok k /\ forall b, N.testbit k b = true <-> self_bit s b.
Proof.
  intros D. destruct (di_world _ _ _ _ D) as (fl & W). unfold analysis_state_cycle.
  destruct (fold_bits (fun k p => foldM (fun k j => k1 <- rd (mingraph p) (j * p_n p + j) ;; Ok (dependency_join k k1)) (seq 0 (p_n p)) k)
    (fun p b => exists i, i < p_n p /\ N.testbit (get (mingraph p) (p_n p) i i) b = true) (st_phys s)) with (k0 := no_dependency) as (k1 & E1 & B1).
  { intros p k Hp. destruct (di_mats _ _ _ _ D p Hp) as [Lm _].
    destruct (fold_bits (fun k j => k1 <- rd (mingraph p) (j * p_n p + j) ;; Ok (dependency_join k k1)) (fun i b => tb (get (mingraph p) (p_n p) i i) b = true) (seq 0 (p_n p))) with (k0 := k) as (k' & E & Bk).
    - intros j k0 Hj. apply in_seq in Hj. assert (Lj : j * p_n p + j < length (mingraph p)) by (rewrite Lm; nia). destruct (nth_error (mingraph p) (j * p_n p + j)) as [v|] eqn:Ev; [|apply nth_error_None in Ev; lia].
      rewrite (proj2 (rd_Ok _ _ _) Ev). cbn [bind]. eexists. split; [reflexivity|]. intros b. rewrite join_bits. unfold get. rewrite (nth_error_nth _ _ _ Ev). tauto.
    - exists k'. split; auto. intros b. rewrite Bk. split; (intros [H|(i & H1 & H2)]; [auto|right; exists i; split; auto; try apply in_seq in H1; try apply in_seq; lia]). }
  rewrite E1. cbn [bind].
  destruct (fold_bits (fun k g => foldM (fun k j => set <- rd (graph g) (j * n_inst g + j) ;; l <- set_at (st_mem s) set ;; Ok (dependency_join k (edgeset_kind l))) (seq 0 (n_inst g)) k)
    (fun g b => exists x i l a c k, nth_error (st_augs s) x = Some g /\ i < n_inst g /\ members (graphs_of s) x i i l /\ In (a, c, k) l /\ tb k b = true) (st_augs s)) with (k0 := k1) as (k2 & E2 & B2).
  { intros g k Hg. apply In_nth_error in Hg. destruct Hg as (x & Hg). destruct (world_focus _ _ _ _ _ _ W Hg) as (A & EA & Gi). pose proof (gp_n _ _ _ (gi_part _ _ _ _ _ Gi)) as En.
    destruct (fold_bits (fun k j => set <- rd (graph g) (j * n_inst g + j) ;; l <- set_at (st_mem s) set ;; Ok (dependency_join k (edgeset_kind l))) (fun i b => tb (edgeset_kind (pairs (cell A i i))) b = true) (seq 0 (n_inst g))) with (k0 := k) as (k' & E & Bk).
    - intros j k0 Hj. apply in_seq in Hj. assert (Lj : j < an A) by lia.
      destruct (read_cell _ _ _ _ _ j j Gi Lj Lj) as (p & R1 & R2). rewrite R1. cbn [bind]. rewrite R2. cbn [bind]. eexists. split; [reflexivity|]. intros b. apply join_bits.
    - exists k'. split; auto. intros b. rewrite Bk. split; (intros [H|H]; [auto|right]).
      + destruct H as (i & Hi & Hb). apply in_seq in Hi. apply ekind_bits in Hb. destruct Hb as (a & c & kk & Hin & Hb). exists x, i, (cell A i i), a, c, kk. ands; auto; try lia. eapply (members_cell (graphs_of s)); eauto; lia.
      + destruct H as (x' & i & l & a & c & kk & Hg' & Hi & M & Hin & Hb).
        destruct (world_focus _ _ _ _ _ _ W Hg') as (A' & EA' & Gi'). pose proof (gp_n _ _ _ (gi_part _ _ _ _ _ Gi')) as En'. apply (members_cell (graphs_of s) As fl x' A') in M; auto; try lia. subst l.
        exists i. split; [apply in_seq; lia|]. destruct (read_cell _ _ _ _ _ i i Gi ltac:(lia) ltac:(lia)) as (q & R1 & R2). destruct (read_cell _ _ _ _ _ i i Gi' ltac:(lia) ltac:(lia)) as (q' & R1' & R2'). assert (q' = q) by congruence. subst q'. assert (Ec : pairs (cell A' i i) = pairs (cell A i i)) by congruence. rewrite <- Ec. apply ekind_bits. eauto. }
  exists k2. split; auto. intros b. fold (tb k2 b). rewrite B2, B1. unfold self_bit. split.
  - intros [[H|(p & Hp & i & Hi & Hb)]|(g & Hg & x & i & l & a & c & kk & Hx & Hi & M & Hin & Hb)].
    + discriminate.
    + left. eauto.
    + right. exists x, i, l, a, c, kk. ands; auto. exists g. auto.
  - intros [(p & i & Hp & Hi & Hb)|(x & i & l & a & c & kk & (g & Hg & Hi & _) & M & Hin & Hb)].
    + left. right. eauto.
    + right. exists g. split; [eapply nth_error_In; eauto|]. exists x, i, l, a, c, kk. ands; auto.
Qed.

(** ** C44 *)
(** After the DNC iteration, for every syntax tree and every outcome of the
    conditions in it: whatever chain of dependencies connects two instances of one
    occurrence of a production is accounted for in that production's graph. *)
Theorem C44_covered : forall rules s0, well_formed rules s0 -> startable rules s0 -> some_kinds s0 ->
  exists bound s, (forall fuel, bound <= fuel -> dnc_close fuel rules s0 = Ok s) /\
    forall T path T0 i j l, tree_ok rules s0 T -> subtree T path = Some T0 -> chain_of rules s0 T (path, i) (path, j) l -> l <> [] ->
      at_most (dependency_indirect (chain_kind l)) (kind_of_pair (graphs_of s) (t_rule T0) (t_out T0) i j) = true.
Proof.
  intros rules s0 Wf St Sk. destruct (start_dinv rules s0 Wf St) as (B & As & D). destruct (dnc_close_any B rules s0 As D) as (bd & s & As' & E & D' & L & G & Ds).
  pose proof (grow_spec _ _ _ _ _ _ D D' L G) as Gr. exists bd, s. split; auto. intros T path T0 i j l Ok Es Ch Nl. destruct (chain_walk _ _ _ _ _ _ _ _ _ D Sk Gr Ch) as (n & W).
  eapply (covered_walk rules s path); eauto using done_good, tree_ok_grew.
Qed.
(** The kind the cycle test reports is made of the self-dependencies in the
    graphs, and covers the kind of every dependency cycle in every tree; if it
    reports none then no tree has a cycle. *)
Theorem C44_cycle_test : forall rules s0, well_formed rules s0 -> startable rules s0 -> some_kinds s0 ->
  exists bound s kind, (forall fuel, bound <= fuel -> dnc_close fuel rules s0 = Ok s) /\ analysis_state_cycle s = Ok kind /\
    (forall b, N.testbit kind b = true <-> self_bit s b) /\
    (forall T u l, tree_ok rules s0 T -> chain_of rules s0 T u u l -> l <> [] -> at_most (dependency_indirect (chain_kind l)) kind = true) /\
    (kind = no_dependency -> forall T u l, tree_ok rules s0 T -> chain_of rules s0 T u u l -> l = []).
Proof.
  intros rules s0 Wf St Sk. destruct (start_dinv rules s0 Wf St) as (B & As & D). destruct (dnc_close_any B rules s0 As D) as (bd & s & As' & E & D' & L & G & Ds).
  pose proof (grow_spec _ _ _ _ _ _ D D' L G) as Gr. destruct (cycle_ok _ _ _ _ D') as (kind & Ek & Bk). pose proof (done_good _ _ _ _ D' Ds) as Gd.
  assert (Cov : forall T u l, tree_ok rules s0 T -> chain_of rules s0 T u u l -> l <> [] -> at_most (dependency_indirect (chain_kind l)) kind = true /\ all_proper l).
  { intros T [path i] l Ok Ch Nl. destruct (chain_walk _ _ _ _ _ _ _ _ _ D Sk Gr Ch) as (n & W). destruct (walk_in _ _ _ _ _ _ _ W Nl) as (T0 & Es). cbn [fst] in Es.
    destruct (covered_walk rules s path Gd T T0 n i i l (tree_ok_grew _ _ _ _ Gr Ok) Es W Nl) as (Hi & _ & Le). split; [|eapply walk_proper; eauto].
    eapply at_most_trans; [exact Le|]. apply at_most_incl. intros b Hb. apply Bk. right. unfold F in Hb. unfold ninst in Hi. destruct (nth_error (st_augs s) (t_rule T0)) as [g|] eqn:Hg; [|lia].
    destruct (di_world _ _ _ _ D') as (fl & Wd). destruct (world_focus _ _ _ _ _ _ Wd Hg) as (A & EA & Gi). pose proof (gp_n _ _ _ (gi_part _ _ _ _ _ Gi)) as En. rewrite (kind_of_pair_A (graphs_of s) As' fl _ A) in Hb by (auto; lia).
    apply (seen_bit (t_out T0)) in Hb. destruct Hb as (a & c & k & Hin & Mo & Hk). exists (t_rule T0), i, (cell A i i), a, c, k. ands; auto.
    - exists g. ands; auto.
    - eapply (members_cell (graphs_of s)); eauto; lia. }
  exists bd, s, kind. ands; auto.
  - intros T u l Ok Ch Nl. apply (Cov T u l); auto.
  - intros -> T u l Ok Ch. destruct l as [|k l]; auto. exfalso. destruct (Cov T u (k :: l) Ok Ch ltac:(discriminate)) as [Le Pr]. pose proof (ck_proper _ Pr ltac:(discriminate)) as P. apply ind_proper in P. destruct P as [_ P]. apply at_most_incl in Le. specialize (Le 0%N P). discriminate.
Qed.
Print Assumptions C44_covered.
Print Assumptions C44_cycle_test.

(** The grammar of C43: an X with an X without children below.  In it the
    inherited attribute of the root reaches the root's synthesized one through the
    child if the child's test 0 succeeds. *)
Definition ex_tree (o : outcome) : tree := Node 0 (fun _ => false) [(1, Node 1 o [])].
Definition ex_world : world := match build ex_ops (mkWorld (mkMem [] 0) []) with Some w => w | None => mkWorld (mkMem [] 0) [] end.
Definition ex_state : state := mkState (w_mem ex_world) (w_graphs ex_world) ex_phys.
Lemma ex_wf : well_formed ex_rules ex_state.
Proof.
  split; [reflexivity|]. split.
  + intros p [<-|[]]. split; [reflexivity|]. intros x Hx. cbn in Hx. repeat (destruct Hx as [<-|Hx]; [apply zero_ok|]). destruct Hx.
  + intros x r g start y Hr Hg Hb. vm_compute in Hg. destruct x as [|[|x]]; cbn in Hr; try (destruct x; discriminate); injection Hr as <-; injection Hg as <-; cbn in Hb.
    * repeat (destruct Hb as [Hb|Hb]; [injection Hb as <- <-; eexists; split; [reflexivity|]; split; [cbn; lia|]; intros i Hi; cbn in Hi; destruct i as [|[|i]]; [reflexivity|reflexivity|lia]|]). destruct Hb.
    * repeat (destruct Hb as [Hb|Hb]; [injection Hb as <- <-; eexists; split; [reflexivity|]; split; [cbn; lia|]; intros i Hi; cbn in Hi; destruct i as [|[|i]]; [reflexivity|reflexivity|lia]|]). destruct Hb.
Qed.
Lemma ex_built : built (graphs_of ex_state).
Proof.
  unfold graphs_of, ex_state. cbn [st_mem st_augs]. replace (mkWorld (w_mem ex_world) (w_graphs ex_world)) with ex_world by (vm_compute; reflexivity).
  unfold ex_world. destruct (build ex_ops (mkWorld (mkMem [] 0) [])) as [w|] eqn:E; [|vm_compute in E; discriminate]. exact (build_ok _ _ _ built_start E).
Qed.
Lemma ex_some : some_kinds ex_state.
Proof.
  intros x i j l a c k (g & p & Hg & Hp & Hl) (g' & Hg' & Hi & Hj) Hin. vm_compute in Hg. vm_compute in Hg'.
  destruct x as [|[|x]]; [| |destruct x; discriminate]; injection Hg as <-; injection Hg' as <-; cbn [n_inst] in Hi, Hj;
    repeat (destruct i as [|i]; [|]; try lia); repeat (destruct j as [|j]; [|]; try lia); vm_compute in Hp; injection Hp as <-; vm_compute in Hl; injection Hl as <-; cbn in Hin; (destruct Hin as [Hin|[]] || destruct Hin); injection Hin as <- <- <-; reflexivity.
Qed.
Example C44_example : well_formed ex_rules ex_state /\ startable ex_rules ex_state /\ some_kinds ex_state /\
  (forall o, tree_ok ex_rules ex_state (ex_tree o)) /\
  forall o, o 0%N = true -> chain_of ex_rules ex_state (ex_tree o) ([], 0) ([], 1) [31; 27; 31]%N /\ chain_kind [31; 27; 31]%N = 19%N.
Proof.
  ands; auto using ex_wf, ex_some.
  - apply built_startable; auto using ex_wf, ex_built.
  - intros o. unfold ex_tree. constructor; [cbn; lia|]. intros b T [H|[]]. injection H as <- <-. ands.
    + constructor; [cbn; lia|]. intros b T [].
    + lia.
    + exists 2, 0, (mkPhy [7; 8] [0; 0; 0; 0]%N false), 0. ands; auto; eexists; ands; reflexivity.
  - intros o Ho.
    assert (Dep : forall path T0 i j k, subtree (ex_tree o) path = Some T0 -> in_graph (graphs_of ex_state) (t_rule T0) i j -> kind_of_pair (graphs_of ex_state) (t_rule T0) (t_out T0) i j = k -> k <> no_dependency -> local_dep ex_state (ex_tree o) (path, i) (path, j) k).
    { intros path T0 i j k H1 H2 H3 H4. exists path, T0, i, j. ands; auto. }
    split; [|reflexivity].
    apply chain_dep with ([], 2). { eapply Dep; try reflexivity; try discriminate. eexists. split; [reflexivity|]. vm_compute. lia. }
    apply chain_same with ([0], 0). { change ([] : list nat, 2) with ([] : list nat, 2 + 0). change ([0], 0) with (([] : list nat) ++ [0], 0 + 0). eapply same_down; try reflexivity; try (eexists; ands; reflexivity). cbn. lia. }
    apply chain_dep with ([0], 1). { eapply Dep; [reflexivity| | |discriminate]; [eexists; split; [reflexivity|]; vm_compute; lia|]. cbn [t_rule t_out ex_tree]. unfold kind_of_pair, kind_under. cbn. rewrite Ho. reflexivity. }
    apply chain_same with ([], 3). { apply same_up. change ([] : list nat, 3) with ([] : list nat, 2 + 1). change ([0], 1) with (([] : list nat) ++ [0], 0 + 1). eapply same_down; try reflexivity; try (eexists; ands; reflexivity). cbn. lia. }
    apply chain_dep with ([], 1). { eapply Dep; try reflexivity; try discriminate. eexists. split; [reflexivity|]. vm_compute. lia. }
    constructor.
Qed.
