(** * C12-C14: strongly connected components (utilities/scc.c) *)
From Coq Require Import Permutation Relations.
From Verif Require Import Base PrimeModel PrimeSpec PrimeProofs HashTableModel SccModel SccSpec SccProofs SccCompProofs SccGraphProofs PropsUtil.
Open Scope Z_scope.

(** Any program that adds exactly the declared number n of vertices, none
    twice, and edges between vertices added before (vertices are not NULL);
    n*n must fit an int. *)
Definition complete_program (n : Z) (ops : list gop) : Prop :=
  0 < n <= 46340 /\ no_null ops /\ legal_program n ops /\ Z.of_nat (length (vertices ops)) = n.

Lemma complete_run st n ops : reachable_sieve st -> complete_program n ops ->
  exists st1 g st2 g' comps, build st n ops = Ok (st1, g) /\
    scc_graph_components st1 g = Ok (st2, g', comps) /\
    Permutation (concat comps) (vertices ops) /\ (forall c, In c comps -> c <> []) /\
    (forall u v, In u (vertices ops) -> In v (vertices ops) ->
       (same_component comps u v <-> reaches ops u v /\ reaches ops v u)) /\
    (forall u v, edge ops u v -> same_component comps u v \/ precedes comps u v) /\
    NoDup (vertices ops).
Proof.
  intros Hst (Hn & Hnn & Hl & Hlen). rewrite <- Hlen in *.
  destruct (build_ok st (length (vertices ops)) ops (reachable_ok _ Hst) ltac:(lia) Hnn) as [B _].
  destruct (B Hl) as (st1 & g & E & A1 & G).
  destruct (components_complete st1 _ g ops A1 Hn G eq_refl) as (st2 & g' & comps & E2 & _ & H1 & H2 & H3 & H4).
  exists st1, g, st2, g', comps. ands; auto. apply (g_nd _ _ _ G).
Qed.

(** ** C12 *)
Theorem C12_scc_classes : forall st n ops, reachable_sieve st -> complete_program n ops ->
  exists st1 g st2 g' comps, build st n ops = Ok (st1, g) /\
    scc_graph_components st1 g = Ok (st2, g', comps) /\
    Permutation (concat comps) (vertices ops) /\ NoDup (concat comps) /\ ~ In [] comps /\
    (forall u v, In u (vertices ops) -> In v (vertices ops) ->
       (same_component comps u v <-> reaches ops u v /\ reaches ops v u)).
Proof.
  intros st n ops Hst Hc. destruct (complete_run st n ops Hst Hc) as (st1 & g & st2 & g' & comps & E1 & E2 & H1 & H2 & H3 & _ & H5).
  exists st1, g, st2, g', comps. ands; auto.
  - eapply Permutation_NoDup; [symmetry; exact H1|auto].
  - intros H. apply H2 in H. congruence.
Qed.
Print Assumptions C12_scc_classes.

(** ** C13: an edge between different components goes forward in the result;
    consequently every path does. *)
Theorem C13_scc_topological : forall st n ops, reachable_sieve st -> complete_program n ops ->
  exists st1 g st2 g' comps, build st n ops = Ok (st1, g) /\
    scc_graph_components st1 g = Ok (st2, g', comps) /\
    forall i j a b u v, nth_error comps i = Some a -> nth_error comps j = Some b ->
      In u a -> In v b -> edge ops u v -> (i <= j)%nat.
Proof.
  intros st n ops Hst Hc. destruct (complete_run st n ops Hst Hc) as (st1 & g & st2 & g' & comps & E1 & E2 & H1 & H2 & H3 & H4 & H5).
  exists st1, g, st2, g', comps. ands; auto.
  assert (Hnd : NoDup (concat comps)) by (eapply Permutation_NoDup; [symmetry; exact H1|auto]).
  assert (Huniq : forall i j a b x, nth_error comps i = Some a -> nth_error comps j = Some b -> In x a -> In x b -> i = j).
  { clear - Hnd. induction comps as [|c comps IH]; intros [|i] [|j] a b x Hi Hj Ha Hb; cbn [nth_error] in *; try discriminate; auto.
    - inversion Hi; subst. exfalso. cbn [concat] in Hnd. apply nth_error_In in Hj. apply in_split in Ha. destruct Ha as (l1 & l2 & ->).
      rewrite <- app_assoc in Hnd. cbn [app] in Hnd. apply NoDup_remove_2 in Hnd. apply Hnd. rewrite !in_app_iff. right; right. apply in_concat; eauto.
    - inversion Hj; subst. exfalso. cbn [concat] in Hnd. apply nth_error_In in Hi. apply in_split in Hb. destruct Hb as (l1 & l2 & ->).
      rewrite <- app_assoc in Hnd. cbn [app] in Hnd. apply NoDup_remove_2 in Hnd. apply Hnd. rewrite !in_app_iff. right; right. apply in_concat; eauto.
    - f_equal. eapply IH; eauto. cbn [concat] in Hnd. clear - Hnd. induction c; auto. inversion Hnd; auto. }
  intros i j a b u v Hi Hj Ha Hb Huv. destruct (H4 u v Huv) as [(c & Hc1 & Hu & Hv)|(i' & j' & a' & b' & K1 & K2 & K3 & K4 & K5)].
  - apply In_nth_error in Hc1. destruct Hc1 as [k Hk].
    assert (i = k) by (eapply Huniq; eauto). assert (j = k) by (eapply Huniq; eauto). lia.
  - assert (i = i') by (eapply Huniq; eauto). assert (j = j') by (eapply Huniq; eauto). lia.
Qed.
Print Assumptions C13_scc_topological.

(** A concrete program: 1 <-> 2 -> 3, 4 isolated, 5 -> 1. *)
Definition scc_example : list gop :=
  [AddVertex 30; AddVertex 10; AddVertex 20; AddEdge 10 20; AddVertex 40; AddVertex 50; AddEdge 20 10; AddEdge 20 30; AddEdge 50 10].
Definition run (n : Z) (ops : list gop) : res (list (list Z)) :=
  '(st, g) <- build primes_init n ops ;; '(_, _, comps) <- scc_graph_components st g ;; Ok comps.
Example C12_case : complete_program 5 scc_example /\ run 5 scc_example = Ok [[50]; [40]; [10; 20]; [30]].
Proof.
  split.
  - unfold complete_program, scc_example, legal_program, no_null. ands; try lia; try reflexivity.
    + repeat constructor; lia.
    + simpl. ands; try lia; auto; intros H; repeat destruct H as [H|H]; try discriminate; auto.
  - vm_compute. reflexivity.
Qed.

(** ** C14: for operations without NULL, building succeeds exactly for legal
    programs (else the process exits at the first illegal operation); the
    matrix holds exactly the added edges, by vertex number. *)
Theorem C14_construction_partial : forall st n ops, reachable_sieve st -> 0 <= n <= 46340 -> no_null ops ->
  (legal_program n ops ->
     exists st' g, build st n ops = Ok (st', g) /\
       (forall i j u v, nth_error (vertices ops) i = Some u -> nth_error (vertices ops) j = Some v ->
          exists b, contains_edge (Z.to_nat n) (matrix g) i j = Ok b /\ (b = true <-> edge ops u v)) /\
       (n = 0 -> scc_graph_components st' g = Exit) /\
       (Z.of_nat (length (vertices ops)) < n -> scc_graph_components st' g = UB)) /\
  (~ legal_program n ops -> build st n ops = Exit).
Proof.
  intros st n ops Hst Hn Hnn.
  destruct (build_ok st (Z.to_nat n) ops (reachable_ok _ Hst) ltac:(lia) Hnn) as [B1 B2].
  rewrite Z2Nat.id in B1, B2 by lia. split; auto. intros Hl. destruct (B1 Hl) as (st' & g & E & A1 & G).
  exists st', g. ands; auto.
  - intros i j u v Hu Hv. pose proof (g_le _ _ _ G).
    assert (i < length (vertices ops))%nat by (apply nth_error_Some; congruence).
    assert (j < length (vertices ops))%nat by (apply nth_error_Some; congruence).
    destruct (contains_edge_ok (Z.to_nat n) (matrix g) i j (g_wf _ _ _ G)) as (b & Eb & Hb); try lia.
    exists b. split; auto. rewrite Hb, (g_mat _ _ _ G). split.
    + intros (u' & v' & H2 & H3 & H4). congruence.
    + intros He. eauto.
  - intros ->. unfold scc_graph_components. rewrite (g_n _ _ _ G). reflexivity.
  - intros HL. eapply components_incomplete; eauto; lia.
Qed.
Print Assumptions C14_construction_partial.

Example C14_case : run 2 [AddVertex 10; AddEdge 10 10] = UB /\ run 2 [AddVertex 10; AddEdge 10 20] = Exit /\
  run 1 [AddVertex 10; AddVertex 20] = Exit /\ run 2 [AddVertex 10; AddVertex 10] = Exit /\ run 0 [] = Exit.
Proof. ands; vm_compute; reflexivity. Qed.

(** The remaining part of C14, a NULL end point: adding NULL as a vertex exits
    ("already contains"), but an edge with a NULL end point is accepted and
    recorded as an edge of the vertex added first. *)
Theorem C14_null_end_point_refuted :
  ('(_, g) <- build primes_init 3 [AddVertex 10; AddVertex 20; AddVertex 30; AddEdge 20 0] ;;
   contains_edge 3 (matrix g) 1 0) = Ok true /\
  run 3 [AddVertex 10; AddVertex 20; AddVertex 30; AddEdge 20 0; AddEdge 10 20] = Ok [[30]; [10; 20]] /\
  run 3 [AddVertex 0] = Exit.
Proof. ands; vm_compute; reflexivity. Qed.
Print Assumptions C14_null_end_point_refuted.
