(** * PropsCycle: C45 (the cycles found are the classes of mutually dependent instances). *)
From Verif Require Import Base CondModel EdgeModel DncModel PropsCond EdgeProofs EdgeAddProofs EdgeGraph EdgeSem EdgeWorld PropsEdge SummaryProofs CloseProofs PropsClose DncProofs PropsDnc PropsTree CycleModel UnionFind CycleSpec CycleProofs.
From Coq Require Import Relations.
Open Scope nat_scope.

(** *** the union-find history of make_cycles *)
Definition liven (s : state) (a : nat) : Prop := exists v, circular s v /\ gidx s v = a.
Lemma cycle_uok rules s q : analysed rules s -> In q (cycle_ops rules s) -> uok (num_instances s) (liven s) q.
Proof.
  intros An Hq. destruct q as [i|a b]; cbn [uok].
  - apply (in_marks rules s i An) in Hq. destruct Hq as (v & Vv & Nc & <-). split; [now apply gidx_lt|]. intros (u & Cu & E). apply gidx_inj in E; auto using circ_valid. congruence.
  - destruct (in_merges rules s a b An Hq) as (u & v & L & <- & <-). destruct (linked_circular _ _ _ _ An L) as [Cu Cv]. ands; auto using gidx_lt, circ_valid; [exists u|exists v]; auto.
Qed.
Lemma clos_up rules s u v : analysed rules s -> clos_refl_sym_trans _ (linked rules s) u v -> clos_refl_sym_trans _ (merged (cycle_ops rules s)) (gidx s u) (gidx s v).
Proof.
  intros An. induction 1 as [u v L|u|u v H IH|u v w H1 IH1 H2 IH2]; eauto using rst_refl, rst_sym, rst_trans. destruct (links_merged rules s u v An L) as [->|M]; [apply rst_refl|now apply rst_step].
Qed.
Lemma clos_down rules s a b : analysed rules s -> clos_refl_sym_trans _ (merged (cycle_ops rules s)) a b ->
  a = b \/ exists u v, circular s u /\ circular s v /\ gidx s u = a /\ gidx s v = b /\ clos_refl_sym_trans _ (linked rules s) u v.
Proof.
  intros An. induction 1 as [a b M|a|a b H IH|a b c H1 IH1 H2 IH2]; auto.
  - right. destruct (in_merges rules s a b An M) as (u & v & L & <- & <-). destruct (linked_circular _ _ _ _ An L). exists u, v. ands; auto. now apply rst_step.
  - destruct IH as [->|(u & v & C1 & C2 & E1 & E2 & C)]; auto. right. exists v, u. ands; auto. now apply rst_sym.
  - destruct IH1 as [->|(u & v & C1 & C2 & E1 & E2 & C)]; auto. destruct IH2 as [<-|(u' & w & C1' & C2' & E1' & E2' & C')]; [right; exists u, v; ands; auto|]. assert (u' = v) by (apply (gidx_inj s); auto using circ_valid; congruence). subst u'. right. exists u, w. ands; auto. eapply rst_trans; eauto.
Qed.
Lemma make_cycles_ok lf rules s : analysed rules s -> exists par, make_cycles lf rules s (init_parents s) = Ok par /\ length par = num_instances s /\
  (forall v, valid s v -> dead par (gidx s v) <-> ~ circular s v) /\ (forall i, i < num_instances s -> dead par i \/ exists r, rooted par i r) /\
  forall u v, circular s u -> valid s v -> same par (gidx s u) (gidx s v) <-> clos_refl_sym_trans _ (linked rules s) u v.
Proof.
  intros An. destruct (urun_ok (num_instances s) (liven s) lf (cycle_ops rules s)) as (par & E & I). { intros q Hq. now apply (cycle_uok rules). }
  assert (Dd : forall v, valid s v -> dead par (gidx s v) <-> ~ circular s v).
  { intros v Vv. rewrite (ui_dead _ _ _ I), (in_marks rules s _ An). split; [|eauto]. intros (u & Vu & Nu & Eu). apply gidx_inj in Eu; auto. congruence. }
  exists par. ands; auto.
  - unfold init_parents. now rewrite make_cycles_run.
  - apply I.
  - apply I.
  - intros u v Cu Vv. pose proof (circ_valid _ _ Cu) as Vu. rewrite (uinv_classes _ _ _ _ _ I) by (auto using gidx_lt; rewrite Dd; auto). split; [|now apply clos_up].
    intros H. destruct (clos_down rules s _ _ An H) as [Eq|(u' & v' & C1 & C2 & E1 & E2 & C)].
    + apply gidx_inj in Eq; auto. subst. apply rst_refl.
    + apply gidx_inj in E1; auto using circ_valid. apply gidx_inj in E2; auto using circ_valid. congruence.
Qed.
(** *** counting and collecting *)
Definition set_of (par : list (option nat)) (k : nat) : option nat := nth k par None.
Definition flat (par : list (option nat)) : Prop := forall k r, nth_error par k = Some (Some r) -> nth_error par r = Some (Some r).
Lemma find_flat par k r : flat par -> nth_error par k = Some (Some r) -> find par k = Ok (par, r).
Proof.
  intros F E. pose proof (F _ _ E) as Er. assert (Lk : k < length par) by (apply nth_error_Some; congruence). unfold find. destruct (length par) as [|n] eqn:Ln; [lia|]. cbn [get_set]. rewrite (proj2 (rd_Ok _ _ _) E). cbn [bind]. destruct (Nat.eqb_spec r k) as [->|Ne]; auto.
  assert (G : get_set n par r = Ok (par, r)) by (destruct n; cbn [get_set]; rewrite (proj2 (rd_Ok _ _ _) Er); cbn [bind]; now rewrite Nat.eqb_refl). rewrite G. cbn [bind]. rewrite wr_Ok by lia. cbn [bind]. f_equal. f_equal.
  apply nth_error_ext. intros x. destruct (Nat.eq_dec x k) as [->|Nx]; [rewrite nth_error_upd_eq by lia; auto|rewrite nth_error_upd_neq by congruence; auto].
Qed.
Lemma rooted_root par i : rooted par i i <-> nth_error par i = Some (Some i).
Proof. split; [intros (d & H); eapply root_self; eauto|]. intros H. exists 0. now constructor. Qed.
Lemma set_of_some par k r : set_of par k = Some r <-> nth_error par k = Some (Some r).
Proof. unfold set_of. split; intros H; [|now apply nth_error_nth]. destruct (nth_error par k) as [p|] eqn:E; [rewrite (nth_error_nth _ _ _ E) in H; congruence|]. apply nth_error_None in E. rewrite nth_overflow in H by auto. discriminate. Qed.
Lemma is_set_spec p i : is_set p i = true <-> p = Some i.
Proof. destruct p as [q|]; cbn [is_set]; [rewrite Nat.eqb_eq; split; congruence|split; discriminate]. Qed.
Lemma filter_snoc {X} (f : X -> bool) l x : filter f (l ++ [x]) = filter f l ++ (if f x then [x] else []).
Proof. rewrite filter_app. reflexivity. Qed.
Definition isroot (par : list (option nat)) (i : nat) : bool := is_set (set_of par i) i.
Lemma count_sets_ok par : (forall i, i < length par -> dead par i \/ exists r, rooted par i r) ->
  exists par', count_sets par (length par) = Ok (par', length (filter (isroot par') (seq 0 (length par)))) /\ compressed par par' /\ flat par'.
Proof.
  intros W. set (n := length par) in *.
  destruct (foldM_inv (fun '(par, num) i => p <- rd par i ;; match p with None => Ok (par, num) | Some _ => '(par, s) <- find par i ;; Ok (par, if s =? i then S num else num) end) (seq 0 n)
    (fun done '(par', num) => compressed par par' /\ num = length (filter (isroot par) done) /\ forall k, In k done -> dead par k \/ exists r, rooted par k r /\ nth_error par' k = Some (Some r)) (par, 0)) as ([par' num] & E & C & En & Fl).
  - ands; auto using compressed_refl. intros k [].
  - intros done i rest [par1 num1] El (C & En & Fl). assert (Hi : i < n). { assert (Hi : In i (seq 0 n)) by (rewrite El; apply in_or_app; right; now left). apply in_seq in Hi. lia. }
    assert (Li : i < length par1) by (rewrite (co_len _ _ C); auto). destruct (nth_error par1 i) as [p|] eqn:Ep; [|apply nth_error_None in Ep; lia]. rewrite (proj2 (rd_Ok _ _ _) Ep). cbn [bind]. rewrite filter_snoc. destruct p as [p|].
    + destruct (W i Hi) as [D|(r & R)]; [apply (co_dead _ _ C) in D; unfold dead in D; congruence|]. destruct (find_ok par1 i r) as (par2 & E2 & C2 & E3); [now apply (co_root _ _ C)|]. rewrite E2. cbn [bind]. eexists. split; [reflexivity|].
      assert (Rt : isroot par i = (r =? i)). { unfold isroot. apply eq_true_iff_eq. rewrite is_set_spec, set_of_some, <- rooted_root, Nat.eqb_eq. split; [intros R'; eapply rooted_fun; eauto|congruence]. }
      cbv beta iota. ands.
      * eapply compressed_trans; eauto.
      * rewrite Rt, app_length. destruct (r =? i); cbn [length]; lia.
      * intros k Hk. apply in_app_iff in Hk. destruct Hk as [Hk|[<-|[]]]; [|right; eauto]. destruct (Fl k Hk) as [|(r' & R' & E')]; auto. right. exists r'. split; auto. destruct (co_entry _ _ C2 k) as [->|(s' & Rs & ->)]; auto. apply (co_root _ _ C) in Rs. rewrite (rooted_fun _ _ _ _ R' Rs). auto.
    + eexists. split; [reflexivity|]. assert (D : dead par i) by (now apply (co_dead _ _ C)). assert (Rt : isroot par i = false). { unfold isroot. destruct (is_set _ _) eqn:Z; auto. apply is_set_spec, set_of_some in Z. unfold dead in D. congruence. }
      rewrite Rt, app_nil_r. cbv beta iota. ands; auto. intros k Hk. apply in_app_iff in Hk. destruct Hk as [Hk|[<-|[]]]; auto.
  - exists par'. ands; auto.
    + unfold count_sets. rewrite E. f_equal. f_equal. rewrite En. f_equal. apply filter_ext. intros i. unfold isroot. apply eq_true_iff_eq. rewrite !is_set_spec, !set_of_some, <- !rooted_root. symmetry. apply (co_root _ _ C).
    + intros k r Ek. assert (Lk : k < n) by (unfold n; rewrite <- (co_len _ _ C); apply nth_error_Some; congruence). destruct (Fl k) as [D|(r' & R & E')]; [apply in_seq; lia|apply (co_dead _ _ C) in D; unfold dead in D; congruence|]. assert (r' = r) by congruence. subst r'. apply rooted_root. apply (co_root _ _ C). eapply rooted_self; eauto.
Qed.
Definition self_kind (s : state) (v : inst) : N :=
  match v with InSummary y i => match nth_error (st_phys s) y with Some p => get (mingraph p) (p_n p) i i | None => no_dependency end | InGraph x i => edgeset_kind (cellp s x i i) end.
Lemma count_set_ok par i : flat par -> count_set par (length par) i = Ok (par, length (filter (fun j => is_set (set_of par j) i) (seq 0 (length par)))).
Proof.
  intros F. unfold count_set. destruct (foldM_inv (fun '(par, count) j => p <- rd par j ;; match p with None => Ok (par, count) | Some _ => '(par, s) <- find par j ;; Ok (par, if s =? i then S count else count) end) (seq 0 (length par))
    (fun done '(par', num) => par' = par /\ num = length (filter (fun j => is_set (set_of par j) i) done)) (par, 0)) as ([par' num] & E & -> & ->); auto.
  intros done j rest [par1 num1] El (-> & ->). assert (Hj : j < length par). { assert (Hj : In j (seq 0 (length par))) by (rewrite El; apply in_or_app; right; now left). apply in_seq in Hj. lia. }
  destruct (nth_error par j) as [p|] eqn:Ep; [|apply nth_error_None in Ep; lia]. rewrite (proj2 (rd_Ok _ _ _) Ep). cbn [bind]. rewrite filter_snoc, app_length. assert (Es : set_of par j = p) by (unfold set_of; now rewrite (nth_error_nth _ _ _ Ep)). rewrite Es. destruct p as [p|].
  - rewrite (find_flat par j p) by auto. cbn [bind is_set]. eexists. split; [reflexivity|]. split; auto. destruct (p =? i); cbn [length]; lia.
  - eexists. split; [reflexivity|]. cbn [is_set length]. split; auto.
Qed.
Definition cstep (s : state) (par : list (option nat)) (room i : nat) (acc : list inst * N) (v : inst) : res (list inst * N) :=
  if is_set (set_of par (gidx s v)) i then add_inst room acc v (self_kind s v) else Ok acc.
Lemma cstep_run s par room i l acc : length (fst acc) + length (filter (fun v => is_set (set_of par (gidx s v)) i) l) <= room ->
  foldM (cstep s par room i) l acc = Ok (fst acc ++ filter (fun v => is_set (set_of par (gidx s v)) i) l, fold_left (fun k v => dependency_join k (self_kind s v)) (filter (fun v => is_set (set_of par (gidx s v)) i) l) (snd acc)).
Proof.
  revert acc; induction l as [|v l IH]; intros [la k] H; cbn [foldM filter fst snd] in *; [cbn; now rewrite app_nil_r|]. unfold cstep at 1. destruct (is_set _ i); cbn [bind].
  - cbn [length] in H. unfold add_inst. rewrite (proj2 (Nat.ltb_lt _ _)) by lia. cbn [bind]. rewrite IH by (cbn [fst]; rewrite app_length; cbn [length]; lia). cbn [fst snd fold_left]. now rewrite <- app_assoc.
  - now rewrite IH.
Qed.
Lemma block_flat {X} (sz : X -> nat) mk l : block_of sz mk l 0 = flat_map (fun y => match nth_error l y with Some p => map (mk y) (seq 0 (sz p)) | None => [] end) (seq 0 (length l)).
Proof. unfold block_of. rewrite !flat_map_concat_map. f_equal. apply map_ext. intros y. now rewrite Nat.sub_0_r. Qed.
Lemma foldM_map {X Y P} (f : P -> Y -> res P) (g : X -> Y) l acc : foldM f (map g l) acc = foldM (fun a x => f a (g x)) l acc.
Proof. revert acc; induction l as [|x l IH]; intros acc; cbn [foldM map]; auto. destruct (f acc (g x)); cbn [bind]; auto. Qed.
Lemma foldM_ext {X P} (f g : P -> X -> res P) l acc : (forall x a, In x l -> f a x = g a x) -> foldM f l acc = foldM g l acc.
Proof. revert acc; induction l as [|x l IH]; intros acc H; cbn [foldM]; auto. rewrite H by (now left). destruct (g acc x); cbn [bind]; auto. apply IH. intros. apply H. now right. Qed.
Lemma collect_run rules s par room i : analysed rules s -> length par = num_instances s -> collect_set s par room i = foldM (cstep s par room i) (all_insts s) ([], no_dependency).
Proof.
  intros ((Lr & Mx & Bl) & _ & _ & Eo) Lp. unfold collect_set, all_insts. rewrite foldM_app, !block_flat.
  assert (Rd : forall v, valid s v -> rd par (gidx s v) = Ok (set_of par (gidx s v))). { intros v Vv. apply rd_Ok. unfold set_of. apply nth_error_nth'. rewrite Lp. now apply gidx_lt. }
  match goal with |- bind (foldM ?f ?l ?a) ?h = bind (foldM ?g ?m ?a) _ => assert (P1 : forall acc, foldM f l acc = foldM g m acc) end.
  { intros acc. apply foldM_flat. intros y acc0 Hy. apply in_seq in Hy. destruct (nth_error (st_phys s) y) as [p|] eqn:Ep; [|apply nth_error_None in Ep; lia]. rewrite (proj2 (rd_Ok _ _ _) Ep). cbn [bind]. rewrite foldM_map. apply foldM_ext. intros k a Hk. apply in_seq in Hk.
    change (phylum_start s y + k) with (gidx s (InSummary y k)). rewrite (Rd (InSummary y k)) by (exists p; split; auto; lia). cbn [bind]. unfold cstep. destruct (is_set _ i); auto. rewrite rd_get; [|apply Mx; eapply nth_error_In; eauto|lia|lia]. cbn [bind self_kind]. now rewrite Ep. }
  rewrite P1. match goal with |- bind ?a _ = bind ?a _ => destruct a as [acc| | |] end; cbn [bind]; auto.
  apply foldM_flat. intros x acc0 Hx. apply in_seq in Hx. destruct (nth_error (st_augs s) x) as [g|] eqn:Eg; [|apply nth_error_None in Eg; lia]. rewrite (proj2 (rd_Ok _ _ _) Eg). cbn [bind]. rewrite foldM_map. apply foldM_ext. intros k a Hk. apply in_seq in Hk.
  change (constructor_start s x + k) with (gidx s (InGraph x k)). rewrite (Rd (InGraph x k)) by (exists g; split; auto; lia). cbn [bind]. unfold cstep. destruct (is_set _ i); auto. rewrite (proj1 (cellp_ok s x k k Eo ltac:(exists g; ands; auto; lia))). reflexivity.
Qed.
Lemma filter_map_length {X Y} (f : Y -> bool) (g : X -> Y) l : length (filter f (map g l)) = length (filter (fun x => f (g x)) l).
Proof. induction l as [|x l IH]; cbn [map filter]; auto. destruct (f (g x)); cbn [length]; auto. Qed.
Definition class_of (s : state) (par : list (option nat)) (i : nat) : list inst := filter (fun v => is_set (set_of par (gidx s v)) i) (all_insts s).
Definition kind_over (s : state) (l : list inst) : N := fold_left (fun k v => dependency_join k (self_kind s v)) l no_dependency.
Definition cyc (s : state) (par : list (option nat)) (i : nat) : cycle := mkCycle i (kind_over s (class_of s par i)) (class_of s par i).
Lemma collect_ok rules s par i : analysed rules s -> length par = num_instances s ->
  collect_set s par (length (filter (fun j => is_set (set_of par j) i) (seq 0 (length par)))) i = Ok (class_of s par i, kind_over s (class_of s par i)) /\ length (class_of s par i) = length (filter (fun j => is_set (set_of par j) i) (seq 0 (length par))).
Proof.
  intros An Lp. assert (L : length (class_of s par i) = length (filter (fun j => is_set (set_of par j) i) (seq 0 (length par)))) by (rewrite Lp, <- gidx_all, filter_map_length; reflexivity). split; auto.
  rewrite (collect_run rules) by auto. rewrite cstep_run; [reflexivity|]. cbn [fst length plus]. fold (class_of s par i). lia.
Qed.
Lemma get_fiber_ok rules s par : analysed rules s -> length par = num_instances s -> (forall i, i < num_instances s -> dead par i \/ exists r, rooted par i r) ->
  exists par', get_fiber_cycles s par = Ok (par', map (cyc s par') (filter (isroot par') (seq 0 (num_instances s)))) /\ compressed par par' /\ flat par'.
Proof.
  intros An Lp W. rewrite <- Lp in W. destruct (count_sets_ok par W) as (par' & E & C & F). exists par'. ands; auto. unfold get_fiber_cycles. rewrite <- Lp, E. cbn [bind]. pose proof (co_len _ _ C) as Lc. set (n := length par) in *.
  destruct (foldM_inv (fun '(par, cs) i => p <- rd par i ;; if is_set p i then if length cs <? length (filter (isroot par') (seq 0 n)) then '(par, count) <- count_set par n i ;; '(l, kind) <- collect_set s par count i ;; if length l =? count then Ok (par, cs ++ [mkCycle i kind l]) else Exit else UB else Ok (par, cs)) (seq 0 n)
    (fun done '(par1, cs) => par1 = par' /\ cs = map (cyc s par') (filter (isroot par') done)) (par', [])) as ([par1 cs] & E1 & -> & ->); auto.
  - intros done i rest [par1 cs] El (-> & ->). assert (Hi : i < n). { assert (Hi : In i (seq 0 n)) by (rewrite El; apply in_or_app; right; now left). apply in_seq in Hi. lia. }
    destruct (nth_error par' i) as [p|] eqn:Ep; [|apply nth_error_None in Ep; lia]. rewrite (proj2 (rd_Ok _ _ _) Ep). cbn [bind]. rewrite filter_snoc, map_app. assert (Ei : isroot par' i = is_set p i) by (unfold isroot, set_of; now rewrite (nth_error_nth _ _ _ Ep)). rewrite Ei. destruct (is_set p i) eqn:Ip.
    + rewrite (proj2 (Nat.ltb_lt _ _)). 2:{ rewrite El, filter_app, app_length, map_length. cbn [filter]. rewrite Ei. cbn [length]. lia. }
      rewrite <- Lc. rewrite count_set_ok by auto. cbn [bind]. destruct (collect_ok rules s par' i An ltac:(congruence)) as [Ec El']. rewrite Ec. cbn [bind]. rewrite <- El', Nat.eqb_refl. eexists. split; [reflexivity|]. split; reflexivity.
    + eexists. split; [reflexivity|]. cbn [map]. rewrite app_nil_r. split; reflexivity.
Qed.
Lemma in_class s par v i : In v (class_of s par i) <-> valid s v /\ nth_error par (gidx s v) = Some (Some i).
Proof. unfold class_of. rewrite filter_In, in_all, is_set_spec, set_of_some. tauto. Qed.
Lemma all_nodup s : NoDup (all_insts s).
Proof. eapply NoDup_map_inv. rewrite gidx_all. apply seq_NoDup. Qed.
Lemma nodup_app_disjoint {X} (l1 l2 : list X) : NoDup l1 -> NoDup l2 -> (forall x, In x l1 -> ~ In x l2) -> NoDup (l1 ++ l2).
Proof.
  intros N1 N2 H. induction N1 as [|x l Hx N1 IH]; cbn [app]; auto. constructor.
  - rewrite in_app_iff. intros [|Z]; auto. apply (H x); auto. now left.
  - apply IH. intros y Hy. apply H. now right.
Qed.
Lemma nodup_concat {X} (f : nat -> list X) l : NoDup l -> (forall i, In i l -> NoDup (f i)) -> (forall i j x, In x (f i) -> In x (f j) -> i = j) -> NoDup (concat (map f l)).
Proof.
  intros Nd H1 H2. induction Nd as [|i l Hi Nd IH]; cbn [map concat]; [constructor|]. apply nodup_app_disjoint; auto.
  - apply H1. now left.
  - apply IH. intros. apply H1. now right.
  - intros x Hx Hc. apply in_concat in Hc. destruct Hc as (y & Hy & Hxy). apply in_map_iff in Hy. destruct Hy as (j & <- & Hj). apply Hi. now rewrite (H2 i j x Hx Hxy).
Qed.
Lemma self_bits s v b : edges_ok s -> valid s v -> tb (self_kind s v) b = true <-> exists o k, depends s o v v k /\ tb k b = true.
Proof.
  intros Eo Vv. assert (Nz : forall k, tb k b = true -> k <> no_dependency) by (intros k H ->; unfold tb, no_dependency in H; rewrite N.bits_0 in H; discriminate). destruct v as [y i|x i]; cbn [self_kind depends] in *.
  - destruct Vv as (p & Ep & Hi). rewrite Ep. split.
    + intros H. exists (fun _ => false), (get (mingraph p) (p_n p) i i). unfold depends. ands; auto. exists p. ands; auto.
    + intros (o & k & (_ & _ & p' & E & _ & _ & ->) & H). congruence.
  - destruct Vv as (g & Eg & Hi). assert (Ig : in_graph (graphs_of s) x i i) by (exists g; auto). destruct (cellp_ok s x i i Eo Ig) as [_ G]. split.
    + intros H. assert (exists c k, In (c, k) (cellp s x i i) /\ tb k b = true) as (c & k & Hin & Hk).
      { clear G. induction (cellp s x i i) as [|[c k] l IH]; [exfalso; exact (Nz _ H eq_refl)|]. rewrite ekind_cons in H. apply join_bits in H. destruct H as [H|H]; [exists c, k; split; auto; now left|]. destruct (IH H) as (c0 & k0 & Z & Z2). exists c0, k0. split; auto. now right. }
      destruct (G c k Hin) as ((o & M) & _ & _). assert (Hs : tb (seen o (cellp s x i i)) b = true).
      { clear - Hin M Hk. induction (cellp s x i i) as [|[c0 k0] l IH]; [destruct Hin|]. cbn [seen fold_right fst snd]. fold (seen o l). destruct Hin as [E|Hin].
        - injection E as -> ->. rewrite (proj2 (meetsb_spec o c) M). apply join_bits. auto.
        - destruct (meetsb o c0); auto. apply join_bits. auto. }
      exists o, (seen o (cellp s x i i)). unfold depends. ands; auto. now rewrite kind_cellp.
    + intros (o & k & (_ & _ & _ & ->) & H). rewrite kind_cellp in H by auto. clear - H Nz. induction (cellp s x i i) as [|[c k] l IH]; [exfalso; exact (Nz _ H eq_refl)|]. cbn [seen fold_right fst snd] in H. fold (seen o l) in H. rewrite ekind_cons. cbn [snd]. apply join_bits. destruct (meetsb o c); [apply join_bits in H; destruct H|]; auto.
Qed.
Lemma kind_over_bits s l b : tb (kind_over s l) b = true <-> exists v, In v l /\ tb (self_kind s v) b = true.
Proof.
  unfold kind_over. assert (G : forall k0, tb (fold_left (fun k v => dependency_join k (self_kind s v)) l k0) b = true <-> tb k0 b = true \/ exists v, In v l /\ tb (self_kind s v) b = true).
  { induction l as [|v l IH]; intros k0; cbn [fold_left]; [split; [auto|intros [H|(v & [] & _)]; auto]|]. rewrite IH, join_bits. split.
    - intros [[H|H]|(u & Hu & H)]; auto; right; [exists v|exists u]; split; auto; [now left|now right].
    - intros [H|(u & [<-|Hu] & H)]; auto. right. eauto. }
  rewrite G. split; auto. intros [H|]; auto. unfold tb, no_dependency in H. rewrite N.bits_0 in H. discriminate.
Qed.

(** ** C45 *)
(** Whatever order C evaluates the merging in: the pass finds cycles without
    undefined behaviour; the circular instances are exactly those in some cycle; no
    instance is in two cycles or twice in one; two instances are together exactly
    if a chain of mutual dependencies (or of the same attribute at a node and its
    phylum) links them; and the kind of a cycle tells whether one of its instances
    depends on itself directly, through fibers, and so on. *)
Theorem C45_cycles : forall left_first rules s, analysed rules s ->
  exists par cycles, find_cycles left_first rules s = Ok (par, cycles) /\
    (forall v, circular s v <-> exists c, In c cycles /\ In v (cy_insts c)) /\
    NoDup (concat (map cy_insts cycles)) /\
    (forall c, In c cycles -> cy_insts c <> []) /\
    (forall c u v, In c cycles -> In u (cy_insts c) -> In v (cy_insts c) <-> clos_refl_sym_trans _ (linked rules s) u v) /\
    (forall c b, In c cycles -> N.testbit (cy_kind c) b = true <-> exists v o k, In v (cy_insts c) /\ depends s o v v k /\ N.testbit k b = true).
Proof.
  intros lf rules s An. destruct (make_cycles_ok lf rules s An) as (par0 & E0 & L0 & D0 & W0 & S0). destruct (get_fiber_ok rules s par0 An L0 W0) as (par & E & C & F). pose proof (co_len _ _ C) as Lp.
  exists par. eexists. split; [unfold find_cycles; rewrite E0; exact E|].
  assert (Eo : edges_ok s) by apply An.
  assert (Cl : forall v, circular s v -> exists r, nth_error par (gidx s v) = Some (Some r)).
  { intros v Cv. pose proof (circ_valid _ _ Cv) as Vv. assert (Lv : gidx s v < length par) by (rewrite Lp, L0; now apply gidx_lt). destruct (nth_error par (gidx s v)) as [[r|]|] eqn:Ev; eauto; [|apply nth_error_None in Ev; lia]. exfalso. apply (co_dead _ _ C) in Ev. apply D0 in Ev; auto. }
  assert (Lc : forall v r, valid s v -> nth_error par (gidx s v) = Some (Some r) -> circular s v).
  { intros v r Vv Ev. destruct v as [y i|x i]; pose proof Vv as (p & Ep & Hi).
    - destruct (N.eq_dec (get (mingraph p) (p_n p) i i) no_dependency) as [Z|Z]; [|apply (circ_summary s y i p Ep); auto]. exfalso. assert (D : dead par (gidx s (InSummary y i))); [|unfold dead in D; congruence]. apply (co_dead _ _ C). apply D0; auto. rewrite (circ_summary s y i p Ep). tauto.
    - destruct (N.eq_dec (edgeset_kind (cellp s x i i)) no_dependency) as [Z|Z]; [|apply (circ_graph s x i p Eo Ep); auto]. exfalso. assert (D : dead par (gidx s (InGraph x i))); [|unfold dead in D; congruence]. apply (co_dead _ _ C). apply D0; auto. rewrite (circ_graph s x i p Eo Ep). tauto. }
  assert (Rt : forall k r, nth_error par k = Some (Some r) -> rooted par0 k r).
  { intros k r Ek. apply (co_root _ _ C). destruct (Nat.eq_dec r k) as [->|]; [exists 0; now constructor|]. exists 1. econstructor; eauto. constructor. eauto. }
  assert (Sm : forall u v r, valid s u -> valid s v -> nth_error par (gidx s u) = Some (Some r) -> nth_error par (gidx s v) = Some (Some r) <-> clos_refl_sym_trans _ (linked rules s) u v).
  { intros u v r Vu Vv Eu. rewrite <- (S0 u v) by eauto. split.
    - intros Ev. exists r. auto.
    - intros (r' & R1 & R2). assert (r' = r) by (eapply rooted_fun; eauto). subst r'. assert (Lv : gidx s v < length par) by (rewrite Lp, L0; now apply gidx_lt). destruct (nth_error par (gidx s v)) as [[r'|]|] eqn:Ev; [|exfalso|apply nth_error_None in Ev; lia].
      + f_equal. f_equal. exact (rooted_fun _ _ _ _ R2 (Rt _ _ Ev)).
      + apply (co_dead _ _ C) in Ev. destruct R2 as (d & R2). apply root_live in R2. destruct R2 as (p & R2). unfold dead in Ev. congruence. }
  assert (Ln : forall u v, clos_refl_sym_trans _ (linked rules s) u v -> circular s u -> circular s v).
  { intros u v H. assert (G : circular s u <-> circular s v); [|tauto]. induction H as [u v L|u|u v H IH|u v w H1 IH1 H2 IH2]; try tauto. destruct (linked_circular _ _ _ _ An L). tauto. }
  assert (Ic : forall c, In c (map (cyc s par) (filter (isroot par) (seq 0 (num_instances s)))) <-> exists r, nth_error par r = Some (Some r) /\ c = cyc s par r).
  { intros c. rewrite in_map_iff. split.
    - intros (r & <- & H). apply filter_In in H. destruct H as [_ H]. apply is_set_spec, set_of_some in H. eauto.
    - intros (r & H & ->). exists r. split; auto. apply filter_In. split; [apply in_seq; split; [lia|]; cbn; rewrite <- L0, <- Lp; apply nth_error_Some; congruence|]. now apply is_set_spec, set_of_some. }
  ands.
  - intros v. split.
    + intros Cv. destruct (Cl v Cv) as (r & Er). exists (cyc s par r). split; [apply Ic; exists r; split; auto; eauto|]. apply in_class. split; auto. now apply circ_valid.
    + intros (c & Hc & Hv). apply Ic in Hc. destruct Hc as (r & Er & ->). apply in_class in Hv. destruct Hv. eauto.
  - rewrite map_map. cbn [cyc cy_insts]. apply nodup_concat.
    + apply NoDup_filter, seq_NoDup.
    + intros i _. apply NoDup_filter, all_nodup.
    + intros i j v Hi Hj. apply in_class in Hi, Hj. destruct Hi, Hj. congruence.
  - intros c Hc. apply Ic in Hc. destruct Hc as (r & Er & ->). cbn [cyc cy_insts]. assert (Lr : r < num_instances s) by (rewrite <- L0, <- Lp; apply nth_error_Some; congruence). destruct (gidx_onto s r Lr) as (v & Vv & <-). intros Z. assert (Hv : In v (class_of s par (gidx s v))) by (now apply in_class). rewrite Z in Hv. destruct Hv.
  - intros c u v Hc Hu. apply Ic in Hc. destruct Hc as (r & Er & ->). cbn [cyc cy_insts] in *. apply in_class in Hu. destruct Hu as [Vu Eu]. rewrite in_class. split.
    + intros [Vv Ev]. apply (Sm u v r); auto.
    + intros H. assert (Vv : valid s v) by (eapply circ_valid, Ln; eauto). split; auto. apply (Sm u v r); auto.
  - intros c b Hc. apply Ic in Hc. destruct Hc as (r & Er & ->). cbn [cyc cy_insts cy_kind]. fold (tb (kind_over s (class_of s par r)) b). rewrite kind_over_bits. split.
    + intros (v & Hv & H). pose proof Hv as Hv'. apply in_class in Hv'. destruct Hv' as [Vv _]. apply (self_bits s v b Eo Vv) in H. destruct H as (o & k & H1 & H2). exists v, o, k. auto.
    + intros (v & o & k & Hv & H1 & H2). exists v. split; auto. apply in_class in Hv. destruct Hv as [Vv _]. apply (self_bits s v b Eo Vv). eauto.
Qed.

Lemma done_edges B rules s As : dinv B rules s As -> edges_ok s.
Proof.
  intros D x i j (g & Hg & Hi & Hj). destruct (di_world _ _ _ _ D) as (fl & W). cbn [graphs_of w_graphs] in Hg. destruct (world_focus _ _ _ _ _ _ W Hg) as (A & EA & Gi).
  pose proof (gp_n _ _ _ (gi_part _ _ _ _ _ Gi)) as En. pose proof (gp_clen _ _ _ (gi_part _ _ _ _ _ Gi)) as Lc. rewrite En in Hi, Hj.
  destruct (read_cell _ _ _ _ _ i j Gi Hi Hj) as (p & E1 & E2). exists (pairs (cell A i j)). split.
  - unfold pairs_at. rewrite (proj2 (rd_Ok _ _ _) Hg). cbn [bind]. rewrite E1. cbn [bind]. exact E2.
  - intros c k Hin. unfold pairs in Hin. apply in_map_iff in Hin. destruct Hin as ([[a c0] k0] & E & Hin). cbn [cond_of kind_of fst snd] in E. injection E as -> ->.
    destruct (gp_good _ _ _ (gi_part _ _ _ _ _ Gi) _ (cell_in A i j Lc Hi Hj) a c k Hin) as [X1 X2]. destruct (cell_bound B A i j (di_bound _ _ _ _ D A (nth_error_In _ _ EA)) Lc Hi Hj a c k Hin) as [Y1 Y2]. ands; auto.
    now apply sat_consistent.
Qed.
(** The state the DNC iteration ends in is as the cycle finder needs it. *)
Theorem C45_after_dnc : forall rules s, well_formed rules s -> startable rules s ->
  exists bound s', (forall fuel, bound <= fuel -> dnc_close fuel rules s = Ok s') /\ analysed rules s'.
Proof.
  intros rules s Wf St. destruct (start_dinv rules s Wf St) as (B & As & D). destruct (dnc_close_any B rules s As D) as (bd & s' & As' & E & D' & L & G & F).
  destruct (done_spec B rules s' As' D' F) as (F1 & F2 & F3). exists bd, s'. split; auto. unfold analysed. ands; auto. eapply done_edges; eauto.
Qed.

(** More fuel does not change the result. *)
Lemma foldM_ok_mono {X Y} (f f' : Y -> X -> res Y) l : (forall x b v, f b x = Ok v -> f' b x = Ok v) -> forall b v, foldM f l b = Ok v -> foldM f' l b = Ok v.
Proof.
  intros H. induction l as [|x l IH]; intros b v E; cbn [foldM] in *; auto. destruct (f b x) as [b1| | |] eqn:E1; cbn [bind] in E; try discriminate. rewrite (H _ _ _ E1). cbn [bind]. auto.
Qed.
Lemma close_rounds_mono : forall f f' r m g ps v, f <= f' -> close_rounds f r m g ps = Ok v -> close_rounds f' r m g ps = Ok v.
Proof.
  induction f as [|f IH]; intros f' r m g ps v Hf H; [discriminate|]. destruct f' as [|f']; [lia|]. cbn [close_rounds] in *.
  destruct (close_worklist (S f) m g) as [[m1 g1]| | |] eqn:E1; cbn [bind] in *; try discriminate. rewrite (close_worklist_mono (S f) (S f') _ _ _ ltac:(lia) E1). cbn [bind].
  repeat match goal with |- context [bind ?a _] => match type of H with context [bind a _] => destruct a as [[[? ?] ?]| | |]; cbn [bind] in *; try discriminate end end.
  destruct (wl_head _); auto. eapply IH; [|exact H]. lia.
Qed.
Lemma dnc_pass_mono f f' rules s v : f <= f' -> dnc_pass f rules s = Ok v -> dnc_pass f' rules s = Ok v.
Proof.
  intros Hf H. unfold dnc_pass in *. match type of H with bind (foldM ?g ?l ?b) _ = _ => destruct (foldM g l b) as [[s1 c1]| | |] eqn:E1 end; cbn [bind] in H; try discriminate.
  match goal with |- bind (foldM ?g ?l ?b) _ = _ => assert (E2 : foldM g l b = Ok (s1, c1)) end.
  { eapply foldM_ok_mono; [|exact E1]. clear - Hf. intros j [s ch] v E. destruct (rd rules j) as [r| | |]; cbn [bind] in *; try discriminate. destruct (rd (st_augs s) j) as [g| | |]; cbn [bind] in *; try discriminate.
    destruct (close_augmented f r (st_mem s) g (st_phys s)) as [q| | |] eqn:Eq; cbn [bind] in E; try discriminate. assert (Q : close_augmented f' r (st_mem s) g (st_phys s) = Ok q); [|now rewrite Q].
    unfold close_augmented in *. destruct (augment r (st_mem s) g (st_phys s)) as [[[m1 g1] ps1]| | |]; cbn [bind] in *; try discriminate. destruct (wl_head g1 =? 0); auto.
    destruct (close_rounds f r m1 g1 ps1) as [q1| | |] eqn:Er; cbn [bind] in Eq; try discriminate. now rewrite (close_rounds_mono f f' _ _ _ _ _ Hf Er). }
  rewrite E2. cbn [bind]. eapply foldM_ok_mono; [|exact H]. clear - Hf. intros j [s ch] v E. destruct (rd (st_phys s) j) as [p| | |]; cbn [bind] in *; try discriminate.
  destruct (close_summary f (p_n p) (mingraph p) false) as [q| | |] eqn:Er; cbn [bind] in E; try discriminate. now rewrite (close_summary_mono _ f f' _ _ _ Hf Er).
Qed.
Lemma dnc_close_mono : forall f f' rules s v, f <= f' -> dnc_close f rules s = Ok v -> dnc_close f' rules s = Ok v.
Proof.
  induction f as [|f IH]; intros f' rules s v Hf H; [discriminate|]. destruct f' as [|f']; [lia|]. cbn [dnc_close] in *.
  destruct (dnc_pass (S f) rules s) as [[s1 ch]| | |] eqn:E1; cbn [bind] in H; try discriminate. rewrite (dnc_pass_mono (S f) (S f') _ _ _ ltac:(lia) E1). cbn [bind]. destruct ch; auto. eapply IH; [|exact H]. lia.
Qed.

(** A circular grammar: in X ::= X the inherited attribute 0 is passed down and the
    synthesized one up; at the leaf the latter is computed from the former; and at
    the root of the tree, production 2, the former from the latter. *)
Definition exc_rules : list rule := [mkRule [7; 8; 7; 8] [(0, Some 0); (2, Some 0)]; mkRule [7; 8] [(0, Some 0)]; mkRule [7; 8] [(0, Some 0)]].
Definition exc_ops : list op := [NewGraph 4; AddEdge 0 0 2 (mkCond 0 0) 31; AddEdge 0 3 1 (mkCond 0 0) 31; NewGraph 2; AddEdge 1 0 1 (mkCond 1 0) 27; NewGraph 2; AddEdge 2 1 0 (mkCond 0 0) 31]%N.
Definition exc_world : world := match build exc_ops (mkWorld (mkMem [] 0) []) with Some w => w | None => mkWorld (mkMem [] 0) [] end.
Definition exc_state : state := mkState (w_mem exc_world) (w_graphs exc_world) ex_phys.
Lemma exc_wf : well_formed exc_rules exc_state.
Proof.
  split; [reflexivity|]. split.
  - intros p [<-|[]]. split; [reflexivity|]. intros x Hx. cbn in Hx. repeat (destruct Hx as [<-|Hx]; [apply zero_ok|]). destruct Hx.
  - intros x r g start y Hr Hg Hb. revert Hg. vm_compute (st_augs exc_state). intros Hg. destruct x as [|[|[|x]]]; cbn in Hr, Hg; try (destruct x; discriminate); injection Hr as <-; injection Hg as <-; cbn in Hb;
      repeat (destruct Hb as [Hb|Hb]; [injection Hb as <- <-; eexists; split; [reflexivity|]; split; [cbn; lia|]; intros i Hi; cbn in Hi; destruct i as [|[|i]]; [reflexivity|reflexivity|lia]|]); destruct Hb.
Qed.
Lemma exc_built : built (graphs_of exc_state).
Proof. apply (build_ok exc_ops (mkWorld (mkMem [] 0) []) _ built_start). vm_compute. reflexivity. Qed.
Example C45_example : exists s', analysed exc_rules s' /\ exists par cycles, find_cycles true exc_rules s' = Ok (par, cycles) /\
  map cy_insts cycles = [[InSummary 0 0; InSummary 0 1; InGraph 0 0; InGraph 0 1; InGraph 0 2; InGraph 0 3; InGraph 1 0; InGraph 1 1; InGraph 2 0; InGraph 2 1]] /\ map cy_kind cycles = [19%N].
Proof.
  destruct (C45_after_dnc exc_rules exc_state exc_wf (built_startable _ _ exc_wf exc_built)) as (bd & s' & E & An). exists s'. split; auto.
  assert (E0 : exists s0, dnc_close 60 exc_rules exc_state = Ok s0) by (eexists; vm_compute; reflexivity). destruct E0 as (s0 & E0). 
  assert (s' = s0). { specialize (E (Nat.max bd 60) ltac:(lia)). rewrite (dnc_close_mono 60 (Nat.max bd 60) exc_rules exc_state s0 ltac:(lia) E0) in E. congruence. }
  subst s'. clear E An. vm_compute in E0. injection E0 as <-. eexists _, _. split; [vm_compute; reflexivity|]. split; reflexivity.
Qed.
Print Assumptions C45_cycles.
Print Assumptions C45_after_dnc.
