(** * PropsComponent: C49 (component circularity flags). *)
From Coq Require Import Permutation Relations.
From Verif Require Import Base CondModel EdgeModel DncModel PropsCond EdgeProofs EdgeAddProofs EdgeGraph EdgeSem EdgeWorld PropsEdge SummaryProofs CloseProofs PropsClose DncProofs PropsDnc PropsTree CycleModel UnionFind CycleSpec CycleProofs PropsCycle OagModel PropsOag PropsCto ComponentModel.
From Verif Require PrimeModel HashTableModel SccModel SccSpec SccProofs SccGraphProofs PropsUtil PropsScc.
Open Scope nat_scope.

(** ** Specification *)
(** The components of the instances 0..n-1 for the edges E, in an order that follows the edges. *)
Definition right_components (n : nat) (E : nat -> nat -> Prop) (comps : list (list nat)) : Prop :=
  Permutation (concat comps) (seq 0 n) /\ ~ In [] comps /\
  (forall i j, i < n -> j < n -> (exists c, In c comps /\ In i c /\ In j c) <-> clos_refl_trans nat E i j /\ clos_refl_trans nat E j i) /\
  forall a b ca cb i j, nth_error comps a = Some ca -> nth_error comps b = Some cb -> In i ca -> In j cb -> E i j -> a <= b.
(** The array fits the C int arithmetic and is somewhere in memory. *)
Definition fits (n : nat) (base size : Z) : Prop := (0 < Z.of_nat n <= 46340 /\ 0 < base /\ 0 < size)%Z.

(** ** Proofs *)
Section C.
Variables (base size : Z) (n : nat) (hasb : nat -> nat -> bool) (has : nat -> nat -> res bool).
Hypothesis Hfits : fits n base size.
Hypothesis Hhas : forall i j, i < n -> j < n -> has i j = Ok (hasb i j).
Notation addr := (inst_addr base size).
Definition sedge (i j : nat) : Prop := i < n /\ j < n /\ hasb i j = true.
Lemma addr_inj i j : addr i = addr j -> i = j.
Proof. unfold inst_addr. destruct Hfits as (_ & _ & Hs). nia. Qed.
Lemma addr_nz i : addr i <> 0%Z.
Proof. unfold inst_addr. destruct Hfits as (_ & Hb & Hs). nia. Qed.
Lemma index_addr i : i < n -> inst_index base size n (addr i) = Ok i.
Proof.
  intros Hi. unfold inst_index. destruct (List.find _ (seq 0 n)) as [j|] eqn:F.
  - apply find_some in F. destruct F as [_ F]. apply Z.eqb_eq in F. apply addr_inj in F. now subst.
  - eapply find_none in F; [|apply in_seq; split; [|exact Hi]; lia]. cbn beta in F. now rewrite Z.eqb_refl in F.
Qed.
Definition vops : list SccModel.gop := map (fun i => SccModel.AddVertex (addr i)) (seq 0 n).
Definition eops : list SccModel.gop := flat_map (fun i => flat_map (fun j => if hasb i j then [SccModel.AddEdge (addr i) (addr j)] else []) (seq 0 n)) (seq 0 n).
Lemma in_eops o : In o eops <-> exists i j, sedge i j /\ o = SccModel.AddEdge (addr i) (addr j).
Proof.
  unfold eops, sedge. rewrite in_flat_map. split.
  - intros (i & Hi & H). apply in_flat_map in H. destruct H as (j & Hj & H). apply in_seq in Hi, Hj. destruct (hasb i j) eqn:E; [|destruct H]. destruct H as [<-|[]]. exists i, j. ands; auto; lia.
  - intros (i & j & (Hi & Hj & E) & ->). exists i. split; [apply in_seq; lia|]. apply in_flat_map. exists j. split; [apply in_seq; lia|]. rewrite E. now left.
Qed.
Lemma in_vops o : In o vops <-> exists i, i < n /\ o = SccModel.AddVertex (addr i).
Proof. unfold vops. rewrite in_map_iff. split; [intros (i & <- & H); apply in_seq in H; exists i; split; auto; lia|intros (i & H & ->); exists i; split; auto; apply in_seq; lia]. Qed.
Lemma verts : SccSpec.vertices (vops ++ eops) = map addr (seq 0 n).
Proof.
  unfold SccSpec.vertices. rewrite flat_map_app. assert (E : forall l, (forall o, In o l -> exists u v, o = SccModel.AddEdge u v) -> flat_map (fun o => match o with SccModel.AddVertex v => [v] | SccModel.AddEdge _ _ => [] end) l = []).
  { induction l as [|o l IH]; intros H; auto. cbn [flat_map]. destruct (H o (or_introl eq_refl)) as (u & v & ->). cbn [app]. apply IH. intros. apply H. now right. }
  rewrite (E eops), app_nil_r; [|intros o Ho; apply in_eops in Ho; destruct Ho as (i & j & _ & ->); eauto]. unfold vops. induction (seq 0 n) as [|i l IH]; auto. cbn [map flat_map app]. now rewrite IH.
Qed.
Lemma sedges u v : SccSpec.edge (vops ++ eops) u v <-> exists i j, sedge i j /\ u = addr i /\ v = addr j.
Proof.
  unfold SccSpec.edge. rewrite in_app_iff, in_vops, in_eops. split.
  - intros [(i & _ & H)|(i & j & H & E)]; [discriminate|]. injection E as -> ->. eauto.
  - intros (i & j & H & -> & ->). right. eauto.
Qed.
Lemma legal_v : forall l before, (forall o, In o before -> exists i, o = SccModel.AddVertex (addr i)) -> NoDup (map addr l) -> (forall i, In i l -> ~ In (addr i) (SccSpec.vertices before)) ->
  (Z.of_nat (length (SccSpec.vertices before) + length l) <= Z.of_nat n)%Z -> forall rest, SccSpec.legal_from (Z.of_nat n) (before ++ map (fun i => SccModel.AddVertex (addr i)) l) rest -> SccSpec.legal_from (Z.of_nat n) before (map (fun i => SccModel.AddVertex (addr i)) l ++ rest).
Proof.
  induction l as [|i l IH]; intros before Hb Nd Hn Hl rest Hr; cbn [map app] in *; [now rewrite app_nil_r in Hr|]. inversion Nd as [|? ? Ni Nl]; subst. cbn [SccSpec.legal_from SccSpec.legal].
  assert (V : SccSpec.vertices (before ++ [SccModel.AddVertex (addr i)]) = SccSpec.vertices before ++ [addr i]) by (unfold SccSpec.vertices; now rewrite flat_map_app).
  split; [split; [cbn [length] in Hl; lia|apply Hn; now left]|]. apply IH; auto.
  - intros o Ho. apply in_app_iff in Ho. destruct Ho as [Ho|[<-|[]]]; eauto.
  - intros j Hj. rewrite V, in_app_iff. intros [H|[H|[]]]; [apply (Hn j); auto; now right|]. apply addr_inj in H. subst j. apply Ni. now apply in_map.
  - rewrite V, app_length. cbn [length] in *. lia.
  - rewrite <- app_assoc. exact Hr.
Qed.
Lemma legal_e : forall ops before, (forall u v, In (SccModel.AddEdge u v) ops -> In u (SccSpec.vertices before) /\ In v (SccSpec.vertices before)) -> (forall o, In o ops -> exists u v, o = SccModel.AddEdge u v) -> SccSpec.legal_from (Z.of_nat n) before ops.
Proof.
  induction ops as [|o ops IH]; intros before H Ho; cbn [SccSpec.legal_from]; auto. destruct (Ho o (or_introl eq_refl)) as (u & v & ->). split; [apply H; now left|]. apply IH; [|intros; apply Ho; now right]. intros u' v' Hin. unfold SccSpec.vertices. rewrite flat_map_app, !in_app_iff. destruct (H u' v' (or_intror Hin)). auto.
Qed.
Lemma ops_complete : PropsScc.complete_program (Z.of_nat n) (vops ++ eops).
Proof.
  destruct Hfits as (Hn & Hb & Hs). unfold PropsScc.complete_program. ands; try lia.
  - unfold SccSpec.no_null. apply Forall_forall. intros o Ho. apply in_app_iff in Ho. rewrite in_vops, in_eops in Ho. destruct Ho as [(i & _ & ->)|(i & j & _ & ->)]; auto using addr_nz.
  - unfold SccSpec.legal_program, vops. apply legal_v.
    + intros o [].
    + apply FinFun.Injective_map_NoDup; [intros a b; apply addr_inj|apply seq_NoDup].
    + intros i _ [].
    + rewrite seq_length. cbn. lia.
    + cbn [app]. fold vops. apply legal_e; [|intros o Ho; apply in_eops in Ho; destruct Ho as (i & j & _ & ->); eauto]. intros u v Hin. apply in_eops in Hin. destruct Hin as (i & j & (Hi & Hj & _) & E). injection E as -> ->.
      assert (V : SccSpec.vertices vops = map addr (seq 0 n)) by (unfold SccSpec.vertices, vops; induction (seq 0 n) as [|k l IH]; auto; cbn [map flat_map app]; now rewrite IH). rewrite V. split; apply in_map; apply in_seq; lia.
  - rewrite verts, map_length, seq_length. reflexivity.
Qed.
Lemma components_run st : components_of st base size n has = s <- SccModel.build st (Z.of_nat n) (vops ++ eops) ;; '(st, _, comps) <- SccModel.scc_graph_components (fst s) (snd s) ;; Ok (st, comps).
Proof.
  unfold components_of, SccModel.build. destruct (SccModel.scc_graph_initialize st (Z.of_nat n)) as [s| | |]; cbn [bind]; auto. rewrite foldM_app. unfold vops. rewrite PropsCycle.foldM_map. cbn [SccModel.gstep].
  destruct (foldM (fun (s : PrimeModel.primes * SccModel.graph) i => SccModel.scc_graph_add_vertex (fst s) (snd s) (addr i)) (seq 0 n) s) as [s1| | |]; cbn [bind]; auto.
  unfold eops. rewrite (foldM_flat _ SccModel.gstep (fun i => flat_map (fun j => if hasb i j then [SccModel.AddEdge (addr i) (addr j)] else []) (seq 0 n))); auto.
  intros i g Hi. apply in_seq in Hi. apply foldM_flat. intros j g' Hj. apply in_seq in Hj. rewrite Hhas by lia. cbn [bind]. destruct (hasb i j); cbn [foldM SccModel.gstep bind fst snd]; auto. destruct (SccModel.scc_graph_add_edge (snd g') (addr i) (addr j)); auto.
Qed.
Lemma reaches_nat i j : SccSpec.reaches (vops ++ eops) (addr i) (addr j) <-> clos_refl_trans nat sedge i j.
Proof.
  split.
  - assert (G : forall u v, SccSpec.reaches (vops ++ eops) u v -> forall i, u = addr i -> exists j, v = addr j /\ clos_refl_trans nat sedge i j).
    { intros u v R. induction R as [u v D|u|u v w _ IH1 _ IH2]; intros a Ea.
      - apply sedges in D. destruct D as (a' & b & D & E1 & E2). assert (a' = a) by (apply addr_inj; congruence). subst a'. exists b. split; auto. now apply rt_step.
      - exists a. split; auto. apply rt_refl.
      - destruct (IH1 a Ea) as (b & Eb & R1). destruct (IH2 b Eb) as (c & Ec & R2). exists c. split; auto. eapply rt_trans; eauto. }
    intros R. destruct (G _ _ R i eq_refl) as (j' & E & R'). apply addr_inj in E. now subst j'.
  - induction 1 as [i j D|i|i j k _ IH1 _ IH2]; [apply rt_step; apply sedges; eauto|apply rt_refl|eapply rt_trans; eauto].
Qed.
Lemma components_ok st : PropsUtil.reachable_sieve st -> exists st' comps, components_of st base size n has = Ok (st', map (map addr) comps) /\ right_components n sedge comps.
Proof.
  intros Hst. destruct (PropsScc.complete_run st (Z.of_nat n) (vops ++ eops) Hst ops_complete) as (st1 & g & st2 & g' & zc & E1 & E2 & P & Ne & Sc & Ed & Nd). rewrite components_run, E1. cbn [bind fst snd]. rewrite E2. cbn [bind]. rewrite verts in *.
  set (un := fun z => match inst_index base size n z with Ok i => i | _ => 0 end). assert (Ua : forall i, i < n -> un (addr i) = i) by (intros i Hi; unfold un; now rewrite index_addr).
  assert (Au : forall c z, In c zc -> In z c -> exists i, i < n /\ z = addr i). { intros c z Hc Hz. assert (Hin : In z (map addr (seq 0 n))) by (eapply Permutation_in; [exact P|]; apply in_concat; eauto). apply in_map_iff in Hin. destruct Hin as (i & <- & Hi). apply in_seq in Hi. exists i. split; auto; lia. }
  exists st2, (map (map un) zc). split.
  - f_equal. f_equal. rewrite map_map. rewrite <- (map_id zc) at 1. apply map_ext_in. intros c Hc. rewrite map_map. rewrite <- (map_id c) at 1. apply map_ext_in. intros z Hz. destruct (Au c z Hc Hz) as (i & Hi & ->). now rewrite Ua.
  - unfold right_components. ands.
    + rewrite <- concat_map. rewrite P. rewrite map_map. replace (map (fun x => un (addr x)) (seq 0 n)) with (seq 0 n); [reflexivity|]. rewrite <- (map_id (seq 0 n)) at 1. apply map_ext_in. intros i Hi. apply in_seq in Hi. symmetry. apply Ua. lia.
    + intros H. apply in_map_iff in H. destruct H as (c & H & Hc). apply map_eq_nil in H. now apply Ne in Hc.
    + intros i j Hi Hj. rewrite <- !reaches_nat, <- Sc by (apply in_map; apply in_seq; lia). split.
      * intros (c & Hc & Hic & Hjc). apply in_map_iff in Hc. destruct Hc as (zc0 & <- & Hc). exists zc0. apply in_map_iff in Hic, Hjc. destruct Hic as (a & Ea & Ha), Hjc as (b & Eb & Hb). destruct (Au _ _ Hc Ha) as (a' & La & ->), (Au _ _ Hc Hb) as (b' & Lb & ->). rewrite Ua in Ea, Eb by auto. subst. auto.
      * intros (c & Hc & Ha & Hb). exists (map un c). ands; [now apply in_map|rewrite <- (Ua i) by auto; now apply in_map|rewrite <- (Ua j) by auto; now apply in_map].
    + intros a b ca cb i j Ea Eb Hi Hj (Li & Lj & Hh). rewrite nth_error_map in Ea, Eb. destruct (nth_error zc a) as [za|] eqn:Za; [|discriminate]. destruct (nth_error zc b) as [zb|] eqn:Zb; [|discriminate]. injection Ea as <-. injection Eb as <-.
      apply in_map_iff in Hi, Hj. destruct Hi as (u & Eu & Hu), Hj as (v & Ev & Hv). destruct (Au za u (nth_error_In _ _ Za) Hu) as (i' & Li' & ->), (Au zb v (nth_error_In _ _ Zb) Hv) as (j' & Lj' & ->). rewrite Ua in Eu, Ev by auto. subst i' j'.
      destruct (PropsScc.C13_scc_topological st (Z.of_nat n) (vops ++ eops) Hst ops_complete) as (st1' & g1 & st2' & g2 & zc' & F1 & F2 & T). rewrite E1 in F1. injection F1 as <- <-. rewrite E2 in F2. injection F2 as <- <- <-. apply (T a b za zb (addr i) (addr j)); auto. apply sedges. exists i, j. split; auto. split; auto.
Qed.
Lemma comp_lt comps c i : right_components n sedge comps -> In c comps -> In i c -> i < n.
Proof. intros (P & _) Hc Hi. assert (H : In i (seq 0 n)) by (eapply Permutation_in; [exact P|]; apply in_concat; eauto). apply in_seq in H. lia. Qed.
(** a flag per component *)
Lemma flags_ok (f : list Z -> res bool) (fb : list nat -> bool) : forall comps acc, (forall c, In c comps -> f (map addr c) = Ok (fb c)) ->
  foldM (fun fl comp => b <- f comp ;; Ok (fl ++ [b])) (map (map addr) comps) acc = Ok (acc ++ map fb comps).
Proof.
  induction comps as [|c comps IH]; intros acc H; cbn [map foldM]; [now rewrite app_nil_r|]. rewrite (H c) by (now left). cbn [bind]. rewrite IH by (intros; apply H; now right). now rewrite <- app_assoc.
Qed.
Lemma any_ok (f : nat -> res bool) (fb : nat -> bool) : forall c b, (forall i, In i c -> f i = Ok (fb i)) ->
  foldM (fun b i => t <- f i ;; Ok (if t : bool then true else b)) c b = Ok (b || existsb fb c).
Proof.
  induction c as [|i c IH]; intros b H; cbn [foldM existsb]; [now rewrite orb_false_r|]. rewrite (H i) by (now left). cbn [bind]. rewrite IH by (intros; apply H; now right). destruct (fb i), b, (existsb fb c); reflexivity.
Qed.
End C.
(** A component of more than one instance has a cycle through each of its instances. *)
Lemma comp_cycle n E comps c i j : right_components n E comps -> (forall a b, E a b -> a < n /\ b < n) -> In c comps -> In i c -> In j c -> i <> j -> clos_trans nat E i i.
Proof.
  intros (P & _ & Sc & _) HE Hc Hi Hj Ne. assert (L : forall k, In k c -> k < n). { intros k Hk. assert (H : In k (seq 0 n)) by (eapply Permutation_in; [exact P|]; apply in_concat; eauto). apply in_seq in H. lia. }
  destruct (proj1 (Sc i j (L i Hi) (L j Hj))) as [R1 R2]; [eauto|]. assert (G : forall a b, clos_refl_trans nat E a b -> a = b \/ clos_trans nat E a b).
  { intros a b R. induction R as [a b D|a|a b d _ [->|H1] _ [->|H2]]; auto; right; [now apply t_step|eapply t_trans; eauto]. }
  destruct (G _ _ R1) as [|T1]; [contradiction|]. destruct (G _ _ R2) as [E2|T2]; [congruence|]. eapply t_trans; eauto.
Qed.
Lemma cycle_comp n E comps i : right_components n E comps -> (forall a b, E a b -> a < n /\ b < n) -> clos_trans nat E i i -> E i i \/ exists c j, In c comps /\ In i c /\ In j c /\ i <> j /\ E i j.
Proof.
  intros (P & _ & Sc & _) HE C. assert (G : forall a b, clos_trans nat E a b -> exists d, E a d /\ clos_refl_trans nat E d b). { intros a b T. induction T as [a b D|a b d _ (x & H1 & H2) _ (y & H3 & H4)]; [exists b; split; auto; apply rt_refl|]. exists x. split; auto. eapply rt_trans; [exact H2|]. eapply rt_trans; [apply rt_step; exact H3|auto]. }
  destruct (G _ _ C) as (d & D & R). destruct (Nat.eq_dec i d) as [->|Ne]; auto. right. destruct (HE i d D) as [Li Ld]. destruct (proj2 (Sc i d Li Ld)) as (c & Hc & Hi & Hd); [split; [now apply rt_step|auto]|]. exists c, d. auto.
Qed.

Lemma concat_unique {X} (cs : list (list X)) c c' x : NoDup (concat cs) -> In c cs -> In c' cs -> In x c -> In x c' -> c' = c.
Proof.
  induction cs as [|d cs IH]; intros Nd Hc Hc' Hx Hx'; [destruct Hc|]. cbn [concat] in Nd.
  assert (Dj : In x d -> ~ In x (concat cs)). { intros H1 H2. apply in_split in H1. destruct H1 as (l1 & l2 & ->). rewrite <- app_assoc in Nd. cbn [app] in Nd. apply NoDup_remove_2 in Nd. apply Nd. rewrite !in_app_iff. auto. }
  assert (Nt : NoDup (concat cs)). { clear - Nd. induction d; auto. inversion Nd; auto. }
  destruct Hc as [->|Hc], Hc' as [->|Hc']; auto; exfalso; apply Dj; auto; apply in_concat; eauto.
Qed.
(** ** C49 *)
Lemma rd_get n mg i j : length mg = n * n -> i < n -> j < n -> rd mg (i * n + j) = Ok (get mg n i j).
Proof. intros L Hi Hj. apply rd_Ok. unfold get. apply nth_error_nth'. nia. Qed.
Lemma needs_sedge n mg i j : needs n mg i j <-> sedge n (fun i j => negb (N.eqb (get mg n i j) no_dependency)) i j.
Proof. unfold needs, sedge. rewrite negb_true_iff, N.eqb_neq. tauto. Qed.
Lemma clos_iff {X} (R S : X -> X -> Prop) : (forall a b, R a b <-> S a b) -> forall a b, clos_refl_trans X R a b <-> clos_refl_trans X S a b.
Proof.
  intros H a b. split; induction 1 as [a b D|a|a b c _ H1 _ H2]; [apply rt_step; now apply H|apply rt_refl|eapply rt_trans; eauto|apply rt_step; now apply H|apply rt_refl|eapply rt_trans; eauto].
Qed.
Lemma components_iff n E E' comps : (forall a b, E a b <-> E' a b) -> right_components n E comps -> right_components n E' comps.
Proof.
  intros H (P & Ne & Sc & Od). unfold right_components. ands; auto.
  - intros i j Hi Hj. rewrite (Sc i j Hi Hj), !(clos_iff E E' H). tauto.
  - intros a b ca cb i j E1 E2 E3 E4 E5. apply (Od a b ca cb i j); auto. now apply H.
Qed.
(** For a summary graph: the components of its dependencies; a component is marked when
    one of its instances depends on itself, which in a closed graph is when some
    dependency cycle runs through it. *)
Theorem C49_phylum_components : forall st base size n mg, PropsUtil.reachable_sieve st -> fits n base size -> length mg = n * n ->
  exists st' comps flags, set_phylum_graph_components st base size n mg = Ok (st', map (map (inst_addr base size)) comps, flags) /\
    right_components n (needs n mg) comps /\ length flags = length comps /\
    (forall a c, nth_error comps a = Some c -> nth_error flags a = Some true <-> exists i, In i c /\ needs n mg i i) /\
    (trans_closed n (get mg n) -> matrix n mg -> forall a c, nth_error comps a = Some c -> nth_error flags a = Some true <-> exists i, In i c /\ clos_trans nat (needs n mg) i i).
Proof.
  intros st base size n mg Hst Hf Hl. set (hb := fun i j => negb (N.eqb (get mg n i j) no_dependency)).
  destruct (components_ok base size n hb (fun i j => k <- rd mg (i * n + j) ;; Ok (negb (N.eqb k no_dependency))) Hf) with (st := st) as (st' & comps & E & R); auto.
  { intros i j Hi Hj. now rewrite rd_get by auto. }
  set (fb := fun c => existsb (fun i => hb i i) c). exists st', comps, (map fb comps). unfold set_phylum_graph_components. rewrite E. cbn [bind].
  rewrite (flags_ok base size _ fb).
  2:{ intros c Hc. rewrite PropsCycle.foldM_map. rewrite (PropsCycle.foldM_ext _ (fun b i => t <- Ok (hb i i) ;; Ok (if t : bool then true else b))).
      - rewrite (any_ok _ (fun i => hb i i)); auto.
      - intros i b Hi. assert (Li : i < n) by (eapply comp_lt; eauto). rewrite index_addr by auto. cbn [bind]. rewrite rd_get by auto. reflexivity. }
  cbn [bind app]. assert (R' : right_components n (needs n mg) comps) by (eapply components_iff; [|exact R]; intros; symmetry; apply needs_sedge).
  assert (F : forall a c, nth_error comps a = Some c -> nth_error (map fb comps) a = Some true <-> exists i, In i c /\ needs n mg i i).
  { intros a c Ec. rewrite nth_error_map, Ec. cbn [option_map]. assert (In c comps) by (eapply nth_error_In; eauto). split.
    - intros H1. injection H1 as H1. apply existsb_exists in H1. destruct H1 as (i & Hi & T). assert (Li : i < n) by (eapply comp_lt; eauto). exists i. split; auto. unfold needs. ands; auto. unfold hb in T. now rewrite negb_true_iff, N.eqb_neq in T.
    - intros (i & Hi & (_ & _ & K)). f_equal. apply existsb_exists. exists i. split; auto. unfold hb. now rewrite negb_true_iff, N.eqb_neq. }
  ands; auto; [now rewrite map_length|]. intros Ht [_ Km] a c Ec. rewrite (F a c Ec).
  assert (T : forall i j, clos_trans nat (needs n mg) i j -> needs n mg i j).
  { intros i j C. induction C as [i j D|i k j _ (L1 & L2 & H1) _ (L3 & L4 & H2)]; auto. unfold needs. ands; auto. eapply trans_nz; [| |exact H1|exact H2|apply Ht; auto]; apply Km; unfold get; apply nth_In; nia. }
  split; intros (i & Hi & D); exists i; split; auto. now apply t_step.
Qed.
(** For a production graph: i may be needed for j under some outcome of the tests;
    an edge counts only if the conditions of its instances do not exclude each other. *)
Definition may_need (s : state) (x i j : nat) : Prop := exists o, needs_under s x o i j.
Definition compatible (conds : list condition) (i j : nat) : Prop := exists ci cj o, nth_error conds i = Some ci /\ nth_error conds j = Some cj /\ meets o ci /\ meets o cj.
Definition edge_of (s : state) (x : nat) (conds : list condition) (i j : nat) : Prop := may_need s x i j /\ compatible conds i j.
Theorem C49_aug_components : forall st base size s x g conds, PropsUtil.reachable_sieve st -> edges_ok s -> nth_error (st_augs s) x = Some g -> fits (n_inst g) base size -> length conds = n_inst g ->
  exists st' comps flags, set_aug_graph_components st base size (n_inst g) (pairs_at s x) conds = Ok (st', map (map (inst_addr base size)) comps, flags) /\
    right_components (n_inst g) (edge_of s x conds) comps /\ length flags = length comps /\
    forall a c, nth_error comps a = Some c -> nth_error flags a = Some true <-> exists i, In i c /\ (may_need s x i i \/ clos_trans nat (edge_of s x conds) i i).
Proof.
  intros st base size s x g conds Hst Hok Eg Hf Hl. set (n := n_inst g) in *.
  assert (Ig : forall i j, i < n -> j < n -> in_graph (graphs_of s) x i j) by (intros i j Hi Hj; exists g; auto).
  set (kb := fun i j => negb (N.eqb (edgeset_kind (cellp s x i j)) no_dependency)).
  set (cond := fun i => nth i conds (mkCond 0 0)).
  assert (Ec : forall i, i < n -> nth_error conds i = Some (cond i)) by (intros i Hi; apply nth_error_nth'; lia).
  set (hb := fun i j => kb i j && negb (impossible (merge_cond (cond i) (cond j)))).
  assert (Kb : forall i j, i < n -> j < n -> kb i j = true <-> may_need s x i j).
  { intros i j Hi Hj. unfold kb, may_need, needs_under. rewrite negb_true_iff, N.eqb_neq, ekind_nz by auto. split; intros (o & H); exists o; auto. tauto. }
  assert (Lm : forall i j, may_need s x i j -> i < n /\ j < n). { intros i j (o & (g' & Eg' & H1 & H2) & _). cbn in Eg'. assert (g' = g) by congruence. subst g'. auto. }
  assert (Hb : forall i j, sedge n hb i j <-> edge_of s x conds i j).
  { intros i j. unfold sedge, edge_of, hb. rewrite andb_true_iff, negb_true_iff. split.
    - intros (Hi & Hj & K & P). split; [now apply Kb|]. apply possible_spec in P. destruct P as (o & M1 & M2). exists (cond i), (cond j), o. auto.
    - intros [M (ci & cj & o & E1 & E2 & M1 & M2)]. destruct (Lm i j M) as [Hi Hj]. ands; auto; [now apply Kb|]. rewrite (Ec i Hi) in E1. rewrite (Ec j Hj) in E2. injection E1 as <-. injection E2 as <-. apply possible_spec. eauto. }
  destruct (components_ok base size n hb (fun i j => es <- pairs_at s x i j ;; if N.eqb (edgeset_kind es) no_dependency then Ok false else ci <- rd conds i ;; cj <- rd conds j ;; Ok (negb (impossible (merge_cond ci cj)))) Hf) with (st := st) as (st' & comps & E & R); auto.
  { intros i j Hi Hj. rewrite (proj1 (cellp_ok s x i j Hok (Ig i j Hi Hj))). cbn [bind]. unfold hb, kb. destruct (N.eqb (edgeset_kind (cellp s x i j)) no_dependency); auto. rewrite (proj2 (rd_Ok _ _ _) (Ec i Hi)), (proj2 (rd_Ok _ _ _) (Ec j Hj)). reflexivity. }
  set (fb := fun c => existsb (fun i => existsb (fun j => kb i j) c) c). exists st', comps, (map fb comps). unfold set_aug_graph_components. rewrite E. cbn [bind].
  rewrite (flags_ok base size _ fb).
  2:{ intros c Hc. rewrite PropsCycle.foldM_map. rewrite (PropsCycle.foldM_ext _ (fun b i => t <- Ok (existsb (fun j => kb i j) c) ;; Ok (if t : bool then true else b))).
      - rewrite (any_ok _ (fun i => existsb (fun j => kb i j) c)); auto.
      - intros i b Hi. assert (Li : i < n) by (eapply comp_lt; eauto). rewrite PropsCycle.foldM_map. rewrite (PropsCycle.foldM_ext _ (fun b j => t <- Ok (kb i j) ;; Ok (if t : bool then true else b))).
        + rewrite (any_ok _ (fun j => kb i j)) by auto. cbn [bind]. now destruct b, (existsb (fun j => kb i j) c).
        + intros j b' Hj. assert (Lj : j < n) by (eapply comp_lt; eauto). rewrite !index_addr by auto. cbn [bind]. rewrite (proj1 (cellp_ok s x i j Hok (Ig i j Li Lj))). reflexivity. }
  cbn [bind app]. assert (R' : right_components n (edge_of s x conds) comps) by (eapply components_iff; [exact Hb|exact R]). assert (He : forall a b, edge_of s x conds a b -> a < n /\ b < n) by (intros a b [M _]; now apply Lm).
  ands; auto; [now rewrite map_length|]. intros a c Ea. assert (Hc : In c comps) by (eapply nth_error_In; eauto). rewrite nth_error_map, Ea. cbn [option_map]. split.
  - intros H1. injection H1 as H1. apply existsb_exists in H1. destruct H1 as (i & Hi & T). apply existsb_exists in T. destruct T as (j & Hj & T). assert (Li : i < n) by (eapply comp_lt; eauto). assert (Lj : j < n) by (eapply comp_lt; eauto). apply Kb in T; auto. exists i. split; auto.
    destruct (Nat.eq_dec i j) as [->|Ne]; auto. right. eapply comp_cycle; eauto.
  - intros (i & Hi & D). f_equal. assert (Li : i < n) by (eapply comp_lt; eauto). destruct D as [D|D].
    + apply existsb_exists. exists i. split; auto. apply existsb_exists. exists i. split; auto. now apply Kb.
    + destruct (cycle_comp n _ comps i R' He D) as [[D' _]|(c' & j & Hc' & Hi' & Hj & Ne & [D' _])].
      * apply existsb_exists. exists i. split; auto. apply existsb_exists. exists i. split; auto. now apply Kb.
      * assert (c' = c). { destruct R' as (P & _). assert (Nd : NoDup (concat comps)) by (eapply Permutation_NoDup; [symmetry; exact P|apply seq_NoDup]). eapply concat_unique; eauto. }
        subst c'. apply existsb_exists. exists i. split; auto. apply existsb_exists. exists j. split; auto. apply Kb; auto. now apply (Lm i j).
Qed.
(** A graph without instances stops the program (scc_graph_components refuses it). *)
Theorem C49_no_instances : forall st base size, PropsUtil.reachable_sieve st -> set_phylum_graph_components st base size 0 [] = Exit /\ forall edges, set_aug_graph_components st base size 0 edges [] = Exit.
Proof.
  intros st base size Hst. assert (E : forall has, components_of st base size 0 has = Exit).
  { intros has. unfold components_of. destruct (PropsScc.C14_construction_partial st 0 [] Hst ltac:(lia) ltac:(constructor)) as [C _]. destruct (C I) as (st' & g & Eb & _ & Z & _). unfold SccModel.build in Eb. cbn [foldM] in Eb. cbn [Z.of_nat]. destruct (SccModel.scc_graph_initialize st 0) as [p| | |]; cbn [bind] in *; try discriminate. injection Eb as ->. cbn [foldM seq bind fst snd]. rewrite Z; auto. }
  split; [|intros edges]; [unfold set_phylum_graph_components|unfold set_aug_graph_components]; rewrite E; reflexivity.
Qed.
(** Example: 0 <-> 1 -> 2, closed; the array is at address 4096. *)
Example C49_example : exists st, set_phylum_graph_components PrimeModel.primes_init 4096 64 3 [31; 31; 31; 31; 31; 31; 0; 0; 0]%N = Ok (st, [[4096; 4160]; [4224]]%Z, [true; false]).
Proof. eexists. vm_compute. reflexivity. Qed.
Example C49_example_closed : fits 3 4096 64 /\ trans_closed 3 (get [31; 31; 31; 31; 31; 31; 0; 0; 0]%N 3).
Proof. split; [unfold fits; cbn; lia|]. intros i j k Hi Hj Hk. do 3 (destruct i as [|i]; [do 3 (destruct j as [|j]; [do 3 (destruct k as [|k]; [reflexivity|]); lia|]); lia|]). lia. Qed.
Example C49_example_aug : exists st, set_aug_graph_components PrimeModel.primes_init 4096 64 4 (pairs_at exo_state 0) (map oi_cond exo_insts) = Ok (st, [[4096]; [4160]; [4224]; [4288]]%Z, [false; false; false; false]).
Proof. eexists. vm_compute. reflexivity. Qed.
Print Assumptions C49_phylum_components.
Print Assumptions C49_aug_components.
Print Assumptions C49_no_instances.
