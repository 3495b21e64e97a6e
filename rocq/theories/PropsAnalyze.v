(** * PropsAnalyze: C156 (which circular dependencies the analysis lets through) and
    C157 (the check of the declarations). *)
From Verif Require Import Base CondModel EdgeModel DncModel PropsCond EdgeProofs EdgeAddProofs EdgeGraph EdgeSem EdgeWorld PropsEdge SummaryProofs CloseProofs PropsClose DncProofs PropsDnc PropsTree CycleModel UnionFind CycleSpec CycleProofs PropsCycle UpDownModel PropsUpDown OagModel PropsOag PropsCto OaModel OaProofs PropsOagRun AnModel.
From Coq Require Import Relations.
Open Scope nat_scope.

(** ** Specification *)
(** What is known about an instance. *)
Definition info_of (pinfo ainfo : list (list inst_info)) (v : inst) : option inst_info :=
  match v with
  | InSummary y i => match nth_error pinfo y with Some l => nth_error l i | None => None end
  | InGraph x i => match nth_error ainfo x with Some l => nth_error l i | None => None end
  end.
Definition informed (s : state) (pinfo ainfo : list (list inst_info)) : Prop :=
  length pinfo = length (st_phys s) /\ length ainfo = length (st_augs s) /\ forall v, valid s v -> info_of pinfo ainfo v <> None.
(** attributes and values (not the value of a function), not formals in patterns, and
    no fibers of them *)
Definition declarable (i : inst_info) : Prop := in_if i = false /\ in_result i = false /\ in_fiber i = false /\ in_formal i = false.
(** What is to be reported in state [s]. *)
Definition to_report (s : state) (pinfo ainfo : list (list inst_info)) (m : message) : Prop :=
  match m with
  | NotDeclaredCircular v => circular s v /\ exists i, info_of pinfo ainfo v = Some i /\ declarable i /\ in_declared i = false
  | DeclaredButAcyclic v => valid s v /\ ~ circular s v /\ exists i, info_of pinfo ainfo v = Some i /\ declarable i /\ in_declared i = true
  | _ => False
  end.
(** a dependency that may carry a value (not just a fiber), and one that is not on
    a circular attribute *)
Notation carries_value k := (N.testbit k 1 = true).
Notation simple k := (N.testbit k 4 = true).
(** [depends_itself s b]: some instance depends on itself with a kind with bit b *)
Definition depends_itself (s : state) (b : N) : Prop := exists v o k, depends s o v v k /\ N.testbit k b = true.

(** ** Proofs: the check of the declarations *)
Definition hit (par : list (option nat)) (slot k : nat) : bool := is_set (set_of par k) k && is_set (set_of par slot) k.
Definition report (par : list (option nat)) (slot : nat) (v : inst) (i : inst_info) : list message :=
  if applicable_for_circularity_check i then
    if existsb (hit par slot) (seq 0 (length par)) then (if in_declared i then [] else [NotDeclaredCircular v]) else (if in_declared i then [DeclaredButAcyclic v] else [])
  else [].
Lemma rd_set par k : k < length par -> rd par k = Ok (set_of par k).
Proof. intros H. apply rd_Ok. apply nth_error_nth'. exact H. Qed.
Definition chk (par : list (option nat)) (slot : nat) (v : inst) (i : inst_info) : bool * list message -> nat -> res (bool * list message) :=
  fun '(any, out) k => q <- rd par k ;; if is_set q k then r <- rd par slot ;; if is_set r k then (if in_declared i then Ok (true, out) else Ok (any, out ++ [NotDeclaredCircular v])) else Ok (any, out) else Ok (any, out).
Lemma chk_step par slot v i a out k : slot < length par -> k < length par ->
  chk par slot v i (a, out) k = Ok (if hit par slot k then if in_declared i then (true, out) else (a, out ++ [NotDeclaredCircular v]) else (a, out)).
Proof.
  intros Hs Hk. unfold chk, hit. rewrite (rd_set par k Hk), (rd_set par slot Hs). cbn [bind]. destruct (is_set (set_of par k) k); cbn [andb]; [|reflexivity]. destruct (is_set (set_of par slot) k), (in_declared i); reflexivity.
Qed.
Lemma check_loop par slot v i : slot < length par -> forall l a out, (forall k, In k l -> k < length par) ->
  foldM (chk par slot v i) l (a, out) =
  Ok (if in_declared i then (a || existsb (hit par slot) l, out) else (a, out ++ map (fun _ => NotDeclaredCircular v) (filter (hit par slot) l))).
Proof.
  intros Hs. induction l as [|k l IH]; intros a out Hl; cbn [foldM existsb filter map].
  - rewrite orb_false_r, app_nil_r. destruct (in_declared i); reflexivity.
  - rewrite chk_step by (auto; apply Hl; now left). cbn [bind]. assert (Hl' : forall k, In k l -> k < length par) by (intros; apply Hl; now right). destruct (hit par slot k); cbn [orb].
    + destruct (in_declared i) eqn:D; rewrite IH by auto; [now rewrite orb_true_r|]. cbn [map]. rewrite <- app_assoc. reflexivity.
    + rewrite IH by auto. reflexivity.
Qed.
Lemma hit_fun par slot k k' : hit par slot k = true -> hit par slot k' = true -> k = k'.
Proof. unfold hit. rewrite !andb_true_iff, !is_set_spec. intros [_ H] [_ H']. congruence. Qed.
Lemma one_hit par slot l : NoDup l -> filter (hit par slot) l = [] /\ existsb (hit par slot) l = false \/ exists k, filter (hit par slot) l = [k] /\ existsb (hit par slot) l = true.
Proof.
  induction l as [|k l IH]; intros Nd; [left; auto|]. inversion Nd as [|? ? Hk Nd']. subst. cbn [filter existsb]. destruct (hit par slot k) eqn:H; cbn [orb].
  - right. exists k. split; auto. f_equal. destruct (filter (hit par slot) l) as [|k' r] eqn:F; auto. exfalso. assert (X : In k' (filter (hit par slot) l)) by (rewrite F; now left). apply filter_In in X. destruct X as [X1 X2]. rewrite (hit_fun _ _ _ _ H X2) in Hk. contradiction.
  - apply IH. auto.
Qed.
Lemma check_one par slot v i out : slot < length par -> check_instance par (length par) slot v i out = Ok (out ++ report par slot v i).
Proof.
  intros Hs. unfold check_instance, report. destruct (applicable_for_circularity_check i); [|now rewrite app_nil_r]. change (fun '(any, out0) (k : nat) => q <- rd par k ;; if is_set q k then r <- rd par slot ;; if is_set r k then (if in_declared i then Ok (true, out0) else Ok (any, out0 ++ [NotDeclaredCircular v])) else Ok (any, out0) else Ok (any, out0)) with (chk par slot v i). rewrite (check_loop par slot v i Hs) by (intros k Hk; apply in_seq in Hk; lia). cbn [bind].
  destruct (one_hit par slot (seq 0 (length par)) (seq_NoDup _ _)) as [[F X]|(k & F & X)]; rewrite F, X; destruct (in_declared i); cbn [bind andb negb orb map]; rewrite ?app_nil_r; reflexivity.
Qed.
Lemma foldM_out {X} (f : list message -> X -> res (list message)) (g : X -> list message) l : (forall x out, In x l -> f out x = Ok (out ++ g x)) -> forall out, foldM f l out = Ok (out ++ flat_map g l).
Proof.
  induction l as [|x l IH]; intros H out; cbn [foldM flat_map]; [now rewrite app_nil_r|]. rewrite H by now left. cbn [bind]. rewrite IH by (intros; apply H; now right). now rewrite app_assoc.
Qed.
Definition rep (s : state) (par : list (option nat)) (pinfo ainfo : list (list inst_info)) (v : inst) : list message :=
  match info_of pinfo ainfo v with Some i => report par (gidx s v) v i | None => [] end.
Lemma flat_map_map {X Y P} (f : Y -> list P) (g : X -> Y) l : flat_map f (map g l) = flat_map (fun x => f (g x)) l.
Proof. induction l as [|x l IH]; cbn; [reflexivity|now rewrite IH]. Qed.
Lemma flat_map_flat {X Y P} (f : Y -> list P) (g : X -> list Y) l : flat_map f (flat_map g l) = flat_map (fun x => flat_map f (g x)) l.
Proof. induction l as [|x l IH]; cbn; [reflexivity|now rewrite flat_map_app, IH]. Qed.
Lemma flat_map_ext_in' {X Y} (f g : X -> list Y) l : (forall x, In x l -> f x = g x) -> flat_map f l = flat_map g l.
Proof. induction l as [|x l IH]; intros H; cbn; [reflexivity|]. rewrite H by now left. f_equal. apply IH. intros; apply H; now right. Qed.
Lemma assert_run s par pinfo ainfo : length par = num_instances s -> informed s pinfo ainfo -> assert_circular_declaration par pinfo ainfo s = Ok (flat_map (rep s par pinfo ainfo) (all_insts s)).
Proof.
  intros Lp (L1 & L2 & In_). unfold assert_circular_declaration, all_insts. rewrite flat_map_app, !block_flat, !flat_map_flat.
  rewrite (foldM_out _ (fun y => flat_map (rep s par pinfo ainfo) match nth_error (st_phys s) y with Some p => map (InSummary y) (seq 0 (p_n p)) | None => [] end)).
  - cbn [bind app]. apply foldM_out. intros x out Hx. apply in_seq in Hx. destruct (nth_error (st_augs s) x) as [g|] eqn:Eg; [|apply nth_error_None in Eg; lia]. rewrite (proj2 (rd_Ok _ _ _) Eg). cbn [bind].
    destruct (nth_error ainfo x) as [is|] eqn:Ei; [|apply nth_error_None in Ei; lia].
    rewrite (proj2 (rd_Ok _ _ _) Ei). cbn [bind]. rewrite flat_map_map. apply foldM_out. intros j out' Hj. apply in_seq in Hj. assert (V : valid s (InGraph x j)) by (exists g; split; [auto|lia]). specialize (In_ _ V). unfold rep. unfold info_of in *. rewrite Ei in *. destruct (nth_error is j) as [i|] eqn:Ej; [|congruence].
    rewrite (proj2 (rd_Ok _ _ _) Ej). cbn [bind]. rewrite <- Lp. apply check_one. rewrite Lp. apply (gidx_lt s _ V).
  - intros y out Hx. apply in_seq in Hx. destruct (nth_error (st_phys s) y) as [p|] eqn:Eg; [|apply nth_error_None in Eg; lia]. rewrite (proj2 (rd_Ok _ _ _) Eg). cbn [bind].
    destruct (nth_error pinfo y) as [is|] eqn:Ei; [|apply nth_error_None in Ei; lia].
    rewrite (proj2 (rd_Ok _ _ _) Ei). cbn [bind]. rewrite flat_map_map. apply foldM_out. intros j out' Hj. apply in_seq in Hj. assert (V : valid s (InSummary y j)) by (exists p; split; [auto|lia]). specialize (In_ _ V). unfold rep. unfold info_of in *. rewrite Ei in *. destruct (nth_error is j) as [i|] eqn:Ej; [|congruence].
    rewrite (proj2 (rd_Ok _ _ _) Ej). cbn [bind]. rewrite <- Lp. apply check_one. rewrite Lp. apply (gidx_lt s _ V).
Qed.
Definition about (m : message) : option inst := match m with NotDeclaredCircular v | DeclaredButAcyclic v => Some v | _ => None end.
Lemma rep_one s par pinfo ainfo v : rep s par pinfo ainfo v = [] \/ exists m, rep s par pinfo ainfo v = [m] /\ about m = Some v.
Proof.
  unfold rep, report. destruct (info_of pinfo ainfo v) as [i|]; auto. destruct (applicable_for_circularity_check i); auto. destruct (existsb _ _), (in_declared i); auto; right; eexists; split; reflexivity.
Qed.
Lemma rep_nodup s par pinfo ainfo l : NoDup l -> NoDup (flat_map (rep s par pinfo ainfo) l).
Proof.
  induction 1 as [|v l Hv Nd IH]; cbn [flat_map]; [constructor|]. destruct (rep_one s par pinfo ainfo v) as [->|(m & E & Ab)]; auto. rewrite E. cbn [app]. constructor; auto. intros H. apply in_flat_map in H. destruct H as (u & Hu & Hm).
  destruct (rep_one s par pinfo ainfo u) as [Eu|(m' & Eu & Ab')]; rewrite Eu in Hm; [destruct Hm|]. destruct Hm as [<-|[]]. assert (u = v) by congruence. subst. contradiction.
Qed.
Lemma applicable_spec i : applicable_for_circularity_check i = true <-> declarable i.
Proof. unfold applicable_for_circularity_check, declarable. destruct (in_if i), (in_result i), (in_fiber i), (in_formal i); intuition discriminate. Qed.
Lemma hit_circular lf rules s par cycles v : analysed rules s -> find_cycles lf rules s = Ok (par, cycles) -> valid s v -> existsb (hit par (gidx s v)) (seq 0 (length par)) = true <-> circular s v.
Proof.
  intros An E V. destruct (C45_cycles lf rules s An) as (par' & cycles' & E' & H & _). assert (par' = par /\ cycles' = cycles) as [-> ->] by (rewrite E in E'; injection E' as -> ->; auto). destruct (find_cycles_marks _ _ _ _ _ An E) as [Lp Ec]. rewrite H, existsb_exists. split.
  - intros (k & Hk & Ht). apply in_seq in Hk. unfold hit in Ht. apply andb_true_iff in Ht. rewrite !is_set_spec, !set_of_some in Ht. destruct Ht as [T1 T2]. exists (cyc s par k). split.
    + rewrite Ec. apply in_map. apply filter_In. split; [apply in_seq; lia|]. apply is_set_spec, set_of_some. auto.
    + apply in_class. auto.
  - intros (c & Hc & Hv). rewrite Ec in Hc. apply in_map_iff in Hc. destruct Hc as (r & <- & Hr). apply filter_In in Hr. destruct Hr as [Hr Hi]. apply in_class in Hv. destruct Hv as [_ Hv]. exists r. split; [rewrite Lp; auto|]. unfold hit. apply andb_true_iff. split; [exact Hi|]. now apply is_set_spec, set_of_some.
Qed.
Lemma circular_valid s v : circular s v -> valid s v.
Proof. intros (o & k & _ & D). destruct v as [y i|x i]; cbn in D; [destruct D as (_ & p & E & H & _); exists p; auto|destruct D as (_ & (g & E & H & _) & _); exists g; auto]. Qed.

(** ** C157 *)
(** Once cycles are looked for, every instance that takes part in one though it is
    not declared circular is reported, and so is every instance declared circular that
    takes part in none; each once; and nothing else is reported. *)
Theorem C157_declarations : forall left_first rules s par cycles pinfo ainfo, analysed rules s -> find_cycles left_first rules s = Ok (par, cycles) -> informed s pinfo ainfo ->
  exists out, assert_circular_declaration par pinfo ainfo s = Ok out /\ NoDup out /\ forall m, In m out <-> to_report s pinfo ainfo m.
Proof.
  intros lf rules s par cycles pinfo ainfo An E In_. destruct (find_cycles_marks _ _ _ _ _ An E) as [Lp _]. exists (flat_map (rep s par pinfo ainfo) (all_insts s)). split; [now apply assert_run|]. split; [apply rep_nodup, all_nodup|].
  intros m. rewrite in_flat_map.
  assert (R : forall v i, valid s v -> info_of pinfo ainfo v = Some i -> In m (rep s par pinfo ainfo v) <-> declarable i /\ ((circular s v /\ in_declared i = false /\ m = NotDeclaredCircular v) \/ (~ circular s v /\ in_declared i = true /\ m = DeclaredButAcyclic v))).
  { intros v i V Ei. unfold rep. rewrite Ei. unfold report. rewrite <- (hit_circular _ _ _ _ _ _ An E V), <- applicable_spec. destruct (applicable_for_circularity_check i); [|cbn; intuition discriminate].
    destruct (existsb (hit par (gidx s v)) (seq 0 (length par))), (in_declared i); cbn [In]; split; intros H.
    - destruct H.
    - destruct H as (_ & [(_ & X & _)|(X & _ & _)]); [discriminate|congruence].
    - destruct H as [<-|[]]. auto.
    - destruct H as (_ & [(_ & _ & ->)|(X & _ & _)]); [auto|congruence].
    - destruct H as [<-|[]]. split; auto.
    - destruct H as (_ & [(X & _)|(_ & _ & ->)]); [discriminate|auto].
    - destruct H.
    - destruct H as (_ & [(X & _)|(_ & X & _)]); discriminate. }
  destruct In_ as (_ & _ & In_). split.
  - intros (v & Hv & Hm). apply in_all in Hv. destruct (info_of pinfo ainfo v) as [i|] eqn:Ei; [|now apply In_ in Hv]. apply (R v i Hv Ei) in Hm. destruct Hm as (Dc & [(C & D & ->)|(C & D & ->)]); cbn; ands; auto; exists i; auto.
  - destruct m as [v|v|d|d|d]; cbn; intros H; try contradiction.
    + destruct H as (C & i & Ei & Dc & D). pose proof (circular_valid _ _ C) as V. exists v. split; [now apply in_all|]. apply (R v i V Ei). split; auto.
    + destruct H as (V & C & i & Ei & Dc & D). exists v. split; [now apply in_all|]. apply (R v i V Ei). split; auto.
Qed.

(** ** Proofs: the whole analysis *)
Lemma ck_bits l : all_proper l -> l <> [] -> (N.testbit (chain_kind l) 1 = existsb (fun k => N.testbit k 1) l) /\ (N.testbit (chain_kind l) 4 = forallb (fun k => N.testbit k 4) l).
Proof.
  induction l as [|k l IH]; intros Hp Hn; [congruence|]. destruct l as [|k2 l]; [cbn; rewrite orb_false_r, andb_true_r; auto|]. rewrite ck_cons by discriminate.
  assert (Pl : all_proper (k2 :: l)) by (intros x Hx; apply Hp; now right). destruct (IH Pl ltac:(discriminate)) as [I1 I2]. pose proof (Hp k (or_introl eq_refl)) as Pk. pose proof (ck_proper (k2 :: l) Pl ltac:(discriminate)) as Pc.
  destruct (C38_trans_bits k (chain_kind (k2 :: l)) (proj1 Pk) (proj1 Pc) (proper_nz _ Pk) (proper_nz _ Pc)) as (_ & B1 & _ & _ & B4). rewrite B1, B4, I1, I2. auto.
Qed.
Lemma chain_proper B rules s0 As T u v l : dinv B rules s0 As -> some_kinds s0 -> chain_of rules s0 T u v l -> all_proper l.
Proof.
  intros D Sk C. induction C as [u|u v w l _ _ IH|u v w k l L _ IH]; auto; [intros k []|]. intros x [<-|Hx]; auto.
  destruct L as (path & T0 & i & j & _ & _ & _ & Ig & Ek & Nz). subst k. eapply dep_proper; eauto.
Qed.
Lemma chain_bits d l b : all_proper l -> l <> [] -> at_most (dependency_indirect (chain_kind l)) d = true -> b <> 3%N -> N.testbit (chain_kind l) b = true -> N.testbit d b = true.
Proof.
  intros P N L Nb H. apply at_most_incl in L. apply L. unfold tb. rewrite C38_indirect, H. cbn [andb]. destruct (N.eqb_spec b 3); [contradiction|reflexivity].
Qed.
Lemma land_bit d b : N.eqb (N.land d (2 ^ b)) 0 = negb (N.testbit d b).
Proof.
  destruct (N.testbit d b) eqn:T; cbn [negb].
  - apply N.eqb_neq. intros E. assert (X : N.testbit (N.land d (2 ^ b)) b = true) by (rewrite N.land_spec, T, N.pow2_bits_true; reflexivity). rewrite E, N.bits_0 in X. discriminate.
  - apply N.eqb_eq. apply N.bits_inj_0. intros i. rewrite N.land_spec. destruct (N.eq_dec i b) as [->|Ne]; [now rewrite T|]. rewrite (N.pow2_bits_false b i) by congruence. apply andb_false_r.
Qed.
Lemma self_bit_depends B rules s As b : dinv B rules s As -> self_bit s b <-> depends_itself s b.
Proof.
  intros D. destruct (di_world _ _ _ _ D) as (fl & W).
  assert (Nz : forall k, N.testbit k b = true -> k <> no_dependency) by (intros k H ->; unfold no_dependency in H; rewrite N.bits_0 in H; discriminate). split.
  - intros [(p & i & Hp & Hi & Hb)|(x & i & l & a & c & k & Ig & M & Hin & Hb)].
    + apply In_nth_error in Hp. destruct Hp as (y & Ep). exists (InSummary y i), (fun _ => false), (get (mingraph p) (p_n p) i i). split; [|auto]. split; [auto|]. split; auto. exists p. ands; auto.
    + destruct (in_graph_A (graphs_of s) As fl x i i W Ig) as (A & EA & Hi & _). apply (members_cell (graphs_of s) As fl x A) in M; auto. subst l.
      destruct Ig as (g & Eg & Hg1 & Hg2). cbn [graphs_of w_graphs] in Eg. destruct (world_focus _ _ _ _ _ _ W Eg) as (A' & EA' & G). assert (A' = A) by congruence. subst A'. assert (Ig : in_graph (graphs_of s) x i i) by (exists g; auto).
      destruct (gp_good _ _ _ (gi_part _ _ _ _ _ G) _ (cell_in A i i (gp_clen _ _ _ (gi_part _ _ _ _ _ G)) Hi Hi) a c k Hin) as [Sc _].
      apply sat_consistent in Sc. destruct Sc as (o & Mo).
      exists (InGraph x i), o, (kind_of_pair (graphs_of s) x o i i). assert (Bk : N.testbit (kind_of_pair (graphs_of s) x o i i) b = true). { rewrite (kind_of_pair_A (graphs_of s) As fl x A o) by auto. apply seen_bit. exists a, c, k. auto. }
      split; [|exact Bk]. split; [auto|]. cbn. auto.
  - intros (v & o & k & (Hk & Dp) & Hb). destruct v as [y i|x i].
    + destruct Dp as (_ & p & Ep & Hi & _ & ->). left. exists p, i. ands; auto. eapply nth_error_In; eauto.
    + destruct Dp as (_ & Ig & ->). right. destruct (in_graph_A (graphs_of s) As fl x i i W Ig) as (A & EA & Hi & _). rewrite (kind_of_pair_A (graphs_of s) As fl x A o) in Hb by auto. apply seen_bit in Hb. destruct Hb as (a & c & k & Hin & Mo & Hb).
      exists x, i, (cell A i i), a, c, k. ands; auto. eapply (members_cell (graphs_of s)); eauto.
Qed.
Lemma sched_cases fuel F d s loop out r out' : schedule_and_test fuel F d s loop out = Ok (r, out') -> 
  (exists an, r = Some an /\ out' = out /\ a_original an = d /\ a_loop an = loop /\ acyclic (a_state an)) \/ (exists s' scheds ts d', compute_oag fuel (f_rules F) (f_dirs F) (f_insts F) s = Ok (s', scheds, ts) /\ analysis_state_cycle s' = Ok d' /\ d' <> no_dependency /\ r = None /\ out' = out ++ [NotOag d']).
Proof.
  unfold schedule_and_test. destruct (compute_oag _ _ _ _ _) as [[[s' scheds] ts]| | |] eqn:E; cbn [bind]; try discriminate. destruct (analysis_state_cycle s') as [d'| | |] eqn:Ed; cbn [bind]; try discriminate.
  destruct (N.eqb_spec d' no_dependency) as [Z|Z]; intros H; injection H as <- <-; [left|right].
  - eexists. split; [reflexivity|]. cbn. ands; auto. unfold acyclic. congruence.
  - exists s', scheds, ts, d'. auto.
Qed.
Lemma thing_cases fuel lf F s0 r out : analyze_thing fuel lf F s0 = Ok (r, out) -> exists s d, dnc_close fuel (f_rules F) s0 = Ok s /\ analysis_state_cycle s = Ok d /\
  ((d = no_dependency /\ schedule_and_test fuel F d s false [] = Ok (r, out)) \/
   (d <> no_dependency /\ (N.testbit d 4 = false \/ N.testbit d 1 = false) /\ exists s1 out1, break_and_check fuel lf F d s = Ok (s1, out1) /\ schedule_and_test fuel F d s1 (negb (N.testbit d 4)) ([RemovingCycle d] ++ out1) = Ok (r, out)) \/
   (N.testbit d 4 = true /\ N.testbit d 1 = true /\ r = None /\ out = [NotDnc d])).
Proof.
  unfold analyze_thing. destruct (dnc_close fuel (f_rules F) s0) as [s| | |] eqn:E; cbn [bind]; try discriminate. destruct (analysis_state_cycle s) as [d| | |] eqn:Ed; cbn [bind]; try discriminate. intros H. exists s, d. split; auto. split; auto.
  destruct (N.eqb_spec d no_dependency) as [Z|Z]; [auto|]. change DEPENDENCY_MAYBE_SIMPLE with (2 ^ 4)%N in H. change DEPENDENCY_NOT_JUST_FIBER with (2 ^ 1)%N in H. rewrite !land_bit in H. right.
  destruct (negb (N.testbit d 4) || negb (N.testbit d 1)) eqn:T.
  - left. split; auto. split; [apply orb_true_iff in T; rewrite !negb_true_iff in T; auto|]. destruct (break_and_check fuel lf F d s) as [[s1 out1]| | |]; cbn [bind] in H; try discriminate. exists s1, out1. auto.
  - right. apply orb_false_iff in T. rewrite !negb_false_iff in T. injection H as <- <-. tauto.
Qed.

(** ** C156 *)
(** If the analysis does not give up: the graphs it ends with are acyclic; and if
    some syntax tree has a circular chain of dependencies, cycles have been removed,
    and either no loop is asked for and the chain has no dependency that may carry a
    value, or a loop is asked for and some dependency of the chain is on a circular
    attribute. *)
Theorem C156_let_through : forall F s0, well_formed (f_rules F) s0 -> startable (f_rules F) s0 -> some_kinds s0 ->
  forall fuel lf an out, analyze_thing fuel lf F s0 = Ok (Some an, out) ->
    acyclic (a_state an) /\
    forall T u l, tree_ok (f_rules F) s0 T -> chain_of (f_rules F) s0 T u u l -> l <> [] ->
      In (RemovingCycle (a_original an)) out /\
      (a_loop an = false -> forall k, In k l -> ~ carries_value k) /\
      (a_loop an = true -> exists k, In k l /\ ~ simple k).
Proof.
  intros F s0 Wf St Sk fuel lf an out E. destruct (start_dinv _ s0 Wf St) as (B & As & D). destruct (C44_cycle_test _ s0 Wf St Sk) as (bd & s & d & Ec & Ed & _ & Cov & Zero).
  destruct (thing_cases _ _ _ _ _ _ E) as (s' & d' & Es & Ed' & H). assert (s' = s) by (exact (eq_sym (closed_state _ _ _ _ Es bd s Ec))). subst s'. assert (d' = d) by congruence. subst d'. clear E.
  assert (Bits : forall T u l, tree_ok (f_rules F) s0 T -> chain_of (f_rules F) s0 T u u l -> l <> [] -> (N.testbit d 1 = false -> forall k, In k l -> ~ carries_value k) /\ (N.testbit d 4 = false -> exists k, In k l /\ ~ simple k)).
  { intros T u l Ok Ch Nl. pose proof (chain_proper _ _ _ _ _ _ _ _ D Sk Ch) as P. pose proof (Cov T u l Ok Ch Nl) as Le. destruct (ck_bits l P Nl) as [B1 B4]. split.
    - intros Hd k Hk Hc. assert (X : N.testbit d 1 = true); [|congruence]. apply (chain_bits d l 1 P Nl Le); [discriminate|]. rewrite B1. apply existsb_exists. eauto.
    - intros Hd. assert (X : forallb (fun k => N.testbit k 4) l = false). { rewrite <- B4. destruct (N.testbit (chain_kind l) 4) eqn:X; auto. rewrite (chain_bits d l 4 P Nl Le) in Hd; [discriminate|discriminate|auto]. }
      clear - X. induction l as [|k l IH]; [discriminate|]. cbn [forallb] in X. apply andb_false_iff in X. destruct X as [X|X]; [exists k; split; [now left|congruence]|]. destruct (IH X) as (k' & H1 & H2). exists k'. split; auto. now right. }
  destruct H as [(Z & H)|[(Nz & Or & s1 & out1 & _ & H)|(_ & _ & X & _)]]; [| |discriminate].
  - destruct (sched_cases _ _ _ _ _ _ _ _ H) as [(an' & X & -> & H1 & H2 & H3)|(? & ? & ? & ? & _ & _ & _ & X & _)]; [|discriminate]. injection X as <-. split; auto. intros T u l Ok Ch Nl. exfalso. apply Nl. eauto.
  - destruct (sched_cases _ _ _ _ _ _ _ _ H) as [(an' & X & -> & H1 & H2 & H3)|(? & ? & ? & ? & _ & _ & _ & X & _)]; [|discriminate]. injection X as <-. split; auto. intros T u l Ok Ch Nl. destruct (Bits T u l Ok Ch Nl) as [X1 X4]. ands.
    + rewrite H1. now left.
    + rewrite H2. intros Hl. apply negb_false_iff in Hl. apply X1. destruct Or; congruence.
    + rewrite H2. intros Hl. apply negb_true_iff in Hl. auto.
Qed.
(** It says "not DNC" exactly if, in the closed graphs, some instance depends on
    itself with a value and some instance, not always the same, through simple
    dependencies only. *)
Theorem C156_not_dnc : forall F s0, well_formed (f_rules F) s0 -> startable (f_rules F) s0 ->
  exists bound s, (forall fuel, bound <= fuel -> dnc_close fuel (f_rules F) s0 = Ok s) /\
    (forall fuel lf r d, analyze_thing fuel lf F s0 = Ok (r, [NotDnc d]) -> r = None /\ depends_itself s 1 /\ depends_itself s 4) /\
    (depends_itself s 1 -> depends_itself s 4 -> exists d, forall fuel lf, bound <= fuel -> analyze_thing fuel lf F s0 = Ok (None, [NotDnc d])).
Proof.
  intros F s0 Wf St. destruct (start_dinv _ s0 Wf St) as (B & As & D). destruct (dnc_close_any B _ s0 As D) as (bd & s & As' & Ec & D' & L & G & Fl). destruct (cycle_ok _ _ _ _ D') as (d & Ed & Bd). exists bd, s. split; auto. split.
  - intros fuel lf r d0 E. destruct (thing_cases _ _ _ _ _ _ E) as (s' & d' & Es & Ed' & H). assert (s' = s) by (exact (eq_sym (closed_state _ _ _ _ Es bd s Ec))). subst s'. assert (d' = d) by congruence. subst d'.
    destruct H as [(Z & H)|[(Nz & Or & s1 & out1 & _ & H)|(H4 & H1 & X & _)]].
    + destruct (sched_cases _ _ _ _ _ _ _ _ H) as [(an' & _ & X & _)|(? & ? & ? & ? & _ & _ & _ & _ & X)]; discriminate.
    + destruct (sched_cases _ _ _ _ _ _ _ _ H) as [(an' & _ & X & _)|(? & ? & ? & ? & _ & _ & _ & _ & X)]; cbn [app] in X; discriminate.
    + split; auto. split; apply (self_bit_depends _ _ _ _ _ D'), Bd; auto.
  - intros H1 H4. exists d. intros fuel lf Hf. apply (self_bit_depends _ _ _ _ _ D'), Bd in H1. apply (self_bit_depends _ _ _ _ _ D'), Bd in H4. unfold analyze_thing. rewrite Ec by auto. cbn [bind]. rewrite Ed. cbn [bind].
    destruct (N.eqb_spec d no_dependency) as [->|_]; [unfold no_dependency in H1; rewrite N.bits_0 in H1; discriminate|]. change DEPENDENCY_MAYBE_SIMPLE with (2 ^ 4)%N. change DEPENDENCY_NOT_JUST_FIBER with (2 ^ 1)%N. rewrite !land_bit, H1, H4. reflexivity.
Qed.
Lemma foldM_total {X Y} (f : Y -> X -> res Y) l : (forall x acc, In x l -> exists acc', f acc x = Ok acc') -> forall acc, exists acc', foldM f l acc = Ok acc'.
Proof.
  induction l as [|x l IH]; intros H acc; cbn [foldM]; [eauto|]. destruct (H x acc (or_introl eq_refl)) as (a & E). rewrite E. cbn [bind]. apply IH. intros; apply H; now right.
Qed.
Lemma cycle_total s : pmats (st_phys s) -> edges_ok s -> exists d, analysis_state_cycle s = Ok d.
Proof.
  intros M Eo. unfold analysis_state_cycle.
  destruct (foldM_total (fun k p => foldM (fun k j => k1 <- rd (mingraph p) (j * p_n p + j) ;; Ok (dependency_join k k1)) (seq 0 (p_n p)) k) (st_phys s)) with (acc := no_dependency) as (k1 & E1).
  { intros p acc Hp. apply foldM_total. intros j k Hj. apply in_seq in Hj. destruct (M p Hp) as [Lm _]. assert (Lj : j * p_n p + j < length (mingraph p)) by (rewrite Lm; nia). destruct (nth_error (mingraph p) (j * p_n p + j)) as [v|] eqn:Ev; [|apply nth_error_None in Ev; lia].
    rewrite (proj2 (rd_Ok _ _ _) Ev). cbn [bind]. eauto. }
  rewrite E1. cbn [bind]. apply foldM_total. intros g acc Hg. apply In_nth_error in Hg. destruct Hg as (x & Eg). apply foldM_total. intros j k Hj. apply in_seq in Hj.
  destruct (Eo x j j) as (l & El & _). { exists g. cbn [graphs_of w_graphs]. split; [auto|lia]. } unfold pairs_at in El. rewrite (proj2 (rd_Ok _ _ _) Eg) in El. cbn [bind] in El. destruct (rd (graph g) (j * n_inst g + j)) as [p| | |]; cbn [bind] in *; try discriminate. rewrite El. cbn [bind]. eauto.
Qed.
(** When the closed graphs have no circularity the analysis comes to an end: with the
    orders, all right and none missing; with "not OAG" after the schedules of the phyla
    have made the graphs circular; or, when no order can be completed, with the exit
    of the scheduler. *)
Theorem C156_acyclic : forall F s0, well_formed (f_rules F) s0 -> startable (f_rules F) s0 -> directed (f_dirs F) (st_phys s0) -> instances_given s0 (f_insts F) ->
  exists bound s, (forall fuel, bound <= fuel -> dnc_close fuel (f_rules F) s0 = Ok s) /\
    (acyclic s -> exists answer, (forall fuel lf, bound <= fuel -> analyze_thing fuel lf F s0 = answer) /\
      ((exists s' x, answer = Exit /\ kept s0 s' /\ no_order s' x (f_insts F)) \/
       (exists d, d <> no_dependency /\ answer = Ok (None, [NotOag d])) \/
       (exists s' scheds ts, answer = Ok (Some (mkAnalysis no_dependency false s' scheds ts), []) /\ kept s0 s' /\ length ts = length (f_rules F) /\
          forall x t, nth_error ts x = Some t -> exists ins, nth_error (f_insts F) x = Some ins /\ branches_right ins t /\ forall o, right_order s' x ins o (run ins o t)))).
Proof.
  intros F s0 Wf St Dr Ig. destruct (start_dinv _ s0 Wf St) as (B & As & D). destruct (compute_oag_facts _ _ _ s0 Wf St Dr Ig) as (bd & s & Ec & H). exists bd, s. split; auto. intros Ac. destruct (H Ac) as (s1 & scheds & _ & K). unfold acyclic in Ac.
  assert (Un : forall fuel lf, bd <= fuel -> analyze_thing fuel lf F s0 = schedule_and_test fuel F no_dependency s false []).
  { intros fuel lf Hf. unfold analyze_thing. rewrite Ec by auto. cbn [bind]. rewrite Ac. cbn [bind]. reflexivity. }
  destruct K as [(Na & Eo)|(_ & s' & K0 & Ed & Pm & K1 & K)].
  - assert (X : exists d, analysis_state_cycle s1 = Ok d).
    { specialize (Eo bd (le_n _)). unfold compute_oag in Eo. destruct (oag_phyla _ _ _ _ _ _) as [[s2 sc]| | |]; cbn [bind] in Eo; try discriminate. destruct (analysis_state_cycle s2) as [d| | |] eqn:Ed; cbn [bind] in Eo; try discriminate. exists d.
      destruct (N.eqb d no_dependency); [destruct (oag_graphs _ _ _ _) as [[? ?]| | |]; discriminate|]. injection Eo as -> ->. auto. }
    destruct X as (d & Ed). assert (Nd : d <> no_dependency) by (intros ->; apply Na; exact Ed). exists (Ok (None, [NotOag d])). split; [|right; left; eauto]. intros fuel lf Hf. rewrite Un by auto. unfold schedule_and_test. rewrite Eo by auto. cbn [bind]. rewrite Ed. cbn [bind]. rewrite (proj2 (N.eqb_neq _ _) Nd). reflexivity.
  - destruct K as [(x & No & Eo)|(ts & Eo & Lt & K)].
    + exists Exit. split; [|left; eauto]. intros fuel lf Hf. rewrite Un by auto. unfold schedule_and_test. rewrite Eo by auto. reflexivity.
    + destruct (cycle_total s' Pm Ed) as (d & Ec'). destruct (N.eq_dec d no_dependency) as [->|Nd].
      * eexists. split; [intros fuel lf Hf; rewrite Un by auto; unfold schedule_and_test; rewrite Eo by auto; cbn [bind]; rewrite Ec'; cbn [bind]; rewrite N.eqb_refl; reflexivity|].
        right. right. exists s', scheds, ts. ands; auto. intros x t Ex. destruct (K x t Ex) as (ins & H1 & _ & H2 & H3 & _). exists ins. auto.
      * exists (Ok (None, [NotOag d])). split; [|right; left; eauto]. intros fuel lf Hf. rewrite Un by auto. unfold schedule_and_test. rewrite Eo by auto. cbn [bind]. rewrite Ec'. cbn [bind]. rewrite (proj2 (N.eqb_neq _ _) Nd). reflexivity.
Qed.

(** The messages of an analysis that does not give up: nothing if there are no
    cycles; otherwise exactly what C157 says, about the closed graphs. *)
Theorem C157_analysis : forall F s0, well_formed (f_rules F) s0 -> startable (f_rules F) s0 -> informed s0 (f_pinfo F) (f_ainfo F) ->
  exists bound s, (forall fuel, bound <= fuel -> dnc_close fuel (f_rules F) s0 = Ok s) /\
    forall fuel lf an out, analyze_thing fuel lf F s0 = Ok (Some an, out) ->
      (acyclic s /\ out = []) \/ (~ acyclic s /\ exists out', out = RemovingCycle (a_original an) :: out' /\ NoDup out' /\ forall m, In m out' <-> to_report s (f_pinfo F) (f_ainfo F) m).
Proof.
  intros F s0 Wf St (L1 & L2 & In_). destruct (start_dinv _ s0 Wf St) as (B & As & D). destruct (dnc_close_any B _ s0 As D) as (bd & s & As' & Ec & D' & L & G & Fl). destruct (C45_after_dnc _ _ Wf St) as (bd2 & s2 & E2 & An).
  assert (s2 = s). { specialize (E2 (Nat.max bd bd2) ltac:(lia)). rewrite Ec in E2 by lia. congruence. } subst s2. clear E2 bd2.
  pose proof (grow_spec _ _ _ _ _ _ D D' L G) as Gr. exists bd, s. split; auto. intros fuel lf an out E.
  destruct (thing_cases _ _ _ _ _ _ E) as (s' & d' & Es & Ed' & H). assert (s' = s) by (exact (eq_sym (closed_state _ _ _ _ Es bd s Ec))). subst s'. clear E Es.
  destruct H as [(Z & H)|[(Nz & Or & s1 & out1 & Hb & H)|(_ & _ & X & _)]]; [| |discriminate].
  - destruct (sched_cases _ _ _ _ _ _ _ _ H) as [(an' & X & -> & _)|(? & ? & ? & ? & _ & _ & _ & X & _)]; [|discriminate]. left. split; auto. unfold acyclic. congruence.
  - destruct (sched_cases _ _ _ _ _ _ _ _ H) as [(an' & X & -> & H1 & _)|(? & ? & ? & ? & _ & _ & _ & X & _)]; [|discriminate]. injection X as <-. right. split; [unfold acyclic; congruence|]. exists out1. rewrite H1. split; auto.
    unfold break_and_check in Hb. destruct (find_cycles lf (f_rules F) s) as [[par cycles]| | |] eqn:Ef; cbn [bind] in Hb; try discriminate.
    assert (Inf : informed s (f_pinfo F) (f_ainfo F)). { destruct Gr as (G1 & G2 & G3 & G4). split; [congruence|]. split; [congruence|]. intros v V. apply In_. destruct v as [y i|x i]; cbn in *.
      - destruct V as (p' & Ep' & Hi). assert (Ly : y < length (st_phys s0)) by (rewrite <- G2; apply nth_error_Some; congruence). destruct (nth_error (st_phys s0) y) as [p|] eqn:Ep; [|apply nth_error_None in Ep; lia]. exists p. split; auto. destruct (G4 y p Ep) as (p2 & Ep2 & La & _). assert (p2 = p') by congruence. subst. rewrite <- (labels_n _ _ La). auto.
      - destruct V as (g' & Eg' & Hi). assert (Lx : x < length (st_augs s0)) by (rewrite <- G1; apply nth_error_Some; congruence). destruct (nth_error (st_augs s0) x) as [g|] eqn:Eg; [|apply nth_error_None in Eg; lia]. exists g. split; auto. destruct (G3 x g Eg) as (g2 & Eg2 & En & _). assert (g2 = g') by congruence. subst. lia. }
    destruct (C157_declarations _ _ _ _ _ _ _ An Ef Inf) as (o & Eo & Nd & Sp). rewrite Eo in Hb. cbn [bind] in Hb. destruct (add_up_down_attributes _ _ _ _ _ _) as [s3| | |]; cbn [bind] in Hb; try discriminate. destruct (dnc_close _ _ s3) as [s4| | |]; cbn [bind] in Hb; try discriminate. injection Hb as _ <-. auto.
Qed.

(** ** Concrete grammars *)
(** One production without nodes and four instances.  [ops]: its dependencies. *)
Definition exa_rules : list rule := [mkRule [1; 2; 3; 4] []].
Definition exa_world (ops : list op) : world := match build (NewGraph 4 :: ops) (mkWorld (mkMem [] 0) []) with Some w => w | None => mkWorld (mkMem [] 0) [] end.
Definition exa_state (ops : list op) : state := mkState (w_mem (exa_world ops)) (w_graphs (exa_world ops)) [].
Definition attribute (circ : bool) : inst_info := mkInfo false false false false circ.
Definition fiber : inst_info := mkInfo false false true false false.
Definition exa_facts (info : list inst_info) : facts := mkFacts exa_rules [] [[true; false; true; false]] [] [info] [] [repeat (mkOinst (mkCond 0 0) None) 4].
(** 0 and 1 depend on each other through a fiber; 2 and 3, circular attributes, with
    their values *)
Definition ops_fiber : list op := [AddEdge 0 0 1 (mkCond 0 0) 17; AddEdge 0 1 0 (mkCond 0 0) 17]%N.
Definition ops_value : list op := [AddEdge 0 2 3 (mkCond 0 0) 3; AddEdge 0 3 2 (mkCond 0 0) 3]%N.
Definition exa_info : list inst_info := [fiber; fiber; attribute true; attribute true].
Lemma exa_good ops : length (w_graphs (exa_world ops)) = 1 -> built (graphs_of (exa_state ops)) -> (exists g, w_graphs (exa_world ops) = [g] /\ n_inst g = 4) -> well_formed exa_rules (exa_state ops) /\ startable exa_rules (exa_state ops).
Proof.
  intros L Bu (g & Eg & En). assert (W : well_formed exa_rules (exa_state ops)).
  { split; [cbn; auto|]. split; [intros p []|]. intros x r g' start y Hr Hg Hb. destruct x as [|x]; [|destruct x; discriminate]. injection Hr as <-. destruct Hb. }
  split; auto. now apply built_startable.
Qed.
(** Each of the two cycles alone is let through without an error; both together
    are not. *)
Theorem C156_together_refuted : exists both one other r, well_formed exa_rules both /\ startable exa_rules both /\
  analyze_thing 60 true (exa_facts exa_info) one = Ok (Some r, [RemovingCycle 17; DeclaredButAcyclic (InGraph 0 2); DeclaredButAcyclic (InGraph 0 3)]) /\
  (exists r', analyze_thing 60 true (exa_facts exa_info) other = Ok (Some r', [RemovingCycle 3]) /\ a_loop r' = true) /\
  analyze_thing 60 true (exa_facts exa_info) both = Ok (None, [NotDnc 19]) /\
  map (fun g => map (fun k => kind_of_pair (graphs_of both) 0 (fun _ => false) (fst k) (snd k)) [(0, 1); (1, 0); (2, 3); (3, 2); (0, 2); (0, 3); (1, 2); (1, 3); (2, 0); (3, 0); (2, 1); (3, 1)]) (st_augs both) = [[17; 17; 3; 3; 0; 0; 0; 0; 0; 0; 0; 0]%N].
Proof.
  exists (exa_state (ops_fiber ++ ops_value)), (exa_state ops_fiber), (exa_state ops_value). eexists. destruct (exa_good (ops_fiber ++ ops_value)) as [W St].
  - vm_compute. reflexivity.
  - apply (build_ok (NewGraph 4 :: ops_fiber ++ ops_value) (mkWorld (mkMem [] 0) []) _ built_start). vm_compute. reflexivity.
  - vm_compute. eexists. split; reflexivity.
  - split; [exact W|]. split; [exact St|]. split; [vm_compute; reflexivity|]. split; [eexists; split; vm_compute; reflexivity|]. split; vm_compute; reflexivity.
Qed.
Lemma value_some : some_kinds (exa_state ops_value).
Proof.
  intros x i j l a c k (g & p & Hg & Hp & Hl) (g' & Hg' & Hi & Hj) Hin. vm_compute in Hg. vm_compute in Hg'.
  destruct x as [|x]; [|destruct x; discriminate]; injection Hg as <-; injection Hg' as <-; cbn [n_inst] in Hi, Hj;
    do 4 (destruct i as [|i]; [do 4 (destruct j as [|j]; [vm_compute in Hp; injection Hp as <-; vm_compute in Hl; injection Hl as <-; cbn in Hin; (destruct Hin as [Hin|[]] || destruct Hin); injection Hin as <- <- <-; reflexivity|]); lia|]); lia.
Qed.
(** A grammar let through without an error although in a syntax tree the values of two
    attributes depend on each other: the production gets an order in which each is
    computed once. *)
Theorem C156_once_refuted : exists r T, well_formed exa_rules (exa_state ops_value) /\ startable exa_rules (exa_state ops_value) /\ some_kinds (exa_state ops_value) /\ informed (exa_state ops_value) [] [exa_info] /\
  analyze_thing 60 true (exa_facts exa_info) (exa_state ops_value) = Ok (Some r, [RemovingCycle 3]) /\ goes_on [RemovingCycle 3] = true /\ (exists t, a_orders r = [t] /\ run (repeat (mkOinst (mkCond 0 0) None) 4) (fun _ => false) t = [0; 1; 3; 2]) /\
  tree_ok exa_rules (exa_state ops_value) T /\ chain_of exa_rules (exa_state ops_value) T ([], 2) ([], 2) [3; 3]%N /\ carries_value 3%N.
Proof.
  eexists _, (Node 0 (fun _ => false) []). destruct (exa_good ops_value) as [W St].
  - vm_compute. reflexivity.
  - apply (build_ok (NewGraph 4 :: ops_value) (mkWorld (mkMem [] 0) []) _ built_start). vm_compute. reflexivity.
  - vm_compute. eexists. split; reflexivity.
  - split; [exact W|]. split; [exact St|]. split; [exact value_some|]. split.
    { split; [reflexivity|]. split; [reflexivity|]. intros [y i|x i] V; [destruct V as (p & Ep & _); destruct y; discriminate|]. destruct V as (g & Eg & Hi). revert Eg. vm_compute (st_augs (exa_state ops_value)). intros Eg. destruct x as [|x]; [|destruct x; discriminate]. injection Eg as <-. cbn in Hi. destruct i as [|[|[|[|i]]]]; cbn; try discriminate. lia. }
    split; [vm_compute; reflexivity|]. split; [reflexivity|]. split; [eexists; split; [reflexivity|vm_compute; reflexivity]|]. split; [constructor; [cbn; lia|intros b T []]|].
    assert (Dep : forall i j, in_graph (graphs_of (exa_state ops_value)) 0 i j -> kind_of_pair (graphs_of (exa_state ops_value)) 0 (fun _ => false) i j = 3%N -> local_dep (exa_state ops_value) (Node 0 (fun _ => false) []) ([], i) ([], j) 3%N).
    { intros i j H E. exists [], (Node 0 (fun _ => false) []), i, j. ands; auto. discriminate. }
    split; [|reflexivity]. apply chain_dep with ([], 3). { apply Dep; [|vm_compute; reflexivity]. eexists. split; [reflexivity|]. vm_compute. lia. }
    apply chain_dep with ([], 2). { apply Dep; [|vm_compute; reflexivity]. eexists. split; [reflexivity|]. vm_compute. lia. }
    constructor.
Qed.
(** Declared circular and in no cycle: reported in the first grammar above, but not
    when there are no cycles at all. *)
Theorem C157_unused_refuted : exists r, well_formed exa_rules (exa_state []) /\ startable exa_rules (exa_state []) /\
  analyze_thing 60 true (exa_facts exa_info) (exa_state []) = Ok (Some r, []).
Proof.
  eexists. destruct (exa_good []) as [W St].
  - vm_compute. reflexivity.
  - apply (build_ok [NewGraph 4] (mkWorld (mkMem [] 0) []) _ built_start). vm_compute. reflexivity.
  - vm_compute. eexists. split; reflexivity.
  - split; [exact W|]. split; [exact St|]. vm_compute. reflexivity.
Qed.
(** An undeclared cycle of values is an error. *)
Example C157_case : exists r out, analyze_thing 60 true (exa_facts [fiber; fiber; attribute true; attribute false]) (exa_state ops_value) = Ok (Some r, out) /\ out = [RemovingCycle 3; NotDeclaredCircular (InGraph 0 3)] /\ goes_on out = false.
Proof. eexists _, _. split; [vm_compute; reflexivity|]. split; reflexivity. Qed.
(** The grammar of C153 meets the hypotheses of C156_let_through and C156_acyclic. *)
Example C156_case : let F := mkFacts exo_rules [[true; false]] [[true; false; true; false]; [true; false; false]] [[attribute false; attribute false]] [repeat (attribute false) 4; repeat (attribute false) 3] exo_dirs exo_insts in
  well_formed (f_rules F) exo_state /\ startable (f_rules F) exo_state /\ directed (f_dirs F) (st_phys exo_state) /\ instances_given exo_state (f_insts F) /\ informed exo_state (f_pinfo F) (f_ainfo F) /\
  exists s' scheds ts, analyze_thing 60 true F exo_state = Ok (Some (mkAnalysis no_dependency false s' scheds ts), []) /\ scheds = [[1; -1]%Z].
Proof.
  destruct C153_example as (H1 & H2 & H3 & H4 & _). intros F. split; [exact H1|]. split; [exact H2|]. split; [exact H3|]. split; [exact H4|]. split.
  - split; [reflexivity|]. split; [vm_compute; reflexivity|]. intros [y i|x i] V.
    + destruct V as (p & Ep & Hi). destruct y as [|y]; [|destruct y; discriminate]. injection Ep as <-. cbn in Hi. destruct i as [|[|i]]; cbn; try discriminate. lia.
    + destruct V as (g & Eg & Hi). revert Eg. vm_compute (st_augs exo_state). intros Eg. destruct x as [|[|x]]; [| |destruct x; discriminate]; injection Eg as <-; cbn in Hi; [destruct i as [|[|[|[|i]]]]|destruct i as [|[|[|i]]]]; cbn; try discriminate; lia.
  - eexists _, _, _. split; vm_compute; reflexivity.
Qed.
Print Assumptions C156_let_through.
Print Assumptions C156_not_dnc.
Print Assumptions C156_acyclic.
Print Assumptions C156_together_refuted.
Print Assumptions C156_once_refuted.
Print Assumptions C157_declarations.
Print Assumptions C157_analysis.
Print Assumptions C157_unused_refuted.
