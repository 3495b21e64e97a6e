(** * PropsGen2: C72 (fixed-point loops), C73 (right hand sides), C74 (case statements),
    C75 (for-in statements) of the code of visit procedures. *)
From Verif Require Import Base CondModel OagModel PropsCond PropsComponent ChunkModel OrderModel SchedSpec PropsChunk PropsSched GenModel GenSpec GenProofs GenTrace GenSched GenRun GenText SchedFuel PropsGen GenLoop GenCirc GenScope.
From Verif Require PrimeModel PropsUtil.
Open Scope nat_scope.

(** ** C72: fixed-point loops *)
(** Whatever the total order: loops are not nested, and there are none if the caller does
    not allow them or the whole visit is circular. *)
Theorem C72_flat : forall G block t phase skip allowed toks, generate G block t phase skip allowed = Ok toks ->
  exists body, toks = flat_map text body /\ (forall id b, In (id, b) (loops body) -> loops b = []) /\ (allowed = false -> loops body = []) /\
  (g_mod G = false -> nth_error (cyclic_flags (g_parent G)) phase <> Some false -> loops body = []).
Proof.
  intros G block t phase skip allowed toks H. destruct (generate_body G block t phase skip allowed toks H) as (asg & c & b & _ & E & _ & Et). exists (snd b). split; [exact Et|].
  destruct (plan_keeps G phase skip t None asg allowed None (mkCond 0 0) c b E (fun _ => eq_refl)) as [_ T]. split; [|split].
  - destruct (may G phase allowed); [exact T|]. intros id b0 Hi. rewrite T in Hi. destruct Hi.
  - intros ->. cbn in T. exact T.
  - intros Hm Hf. unfold may in T. rewrite Hm in T. cbn [orb] in T. destruct (nth_error (cyclic_flags (g_parent G)) phase) as [[|]|]; [|congruence|]; cbn [negb] in T; rewrite andb_false_r in T; exact T.
Qed.
(** In a rule of which no visit is circular: what is circular is done in loops, unless the
    total order begins with it. *)
Lemma node_proper r cg n : Forall (chunk_ok r) (cg_chunks cg) -> (forall b, In b (cyclic_flags (r_parent r)) -> b = false) -> node_ok r cg n ->
  let '(inst, g, visit, ck, circ) := n in
  circ = match nth_error (cg_chunks cg) ck with Some k => c_circular k | None => false end /\
  (circ = true <-> circular_event r (event_of inst g)) /\ (inst = None -> snd g = (-1)%Z -> circ = false).
Proof.
  destruct n as [[[[inst g] visit] ck] circ]. intros HC HF (k & Ek & Ec & Hf & Hi). rewrite Ek. split; [auto|]. pose proof (proj1 (Forall_forall _ _) HC k (nth_error_In _ _ Ek)) as Ck. unfold chunk_ok in Ck. unfold fits_chunk in Hf. subst circ. destruct g as [gp gc]. cbn [fst snd] in *.
  assert (HALF : c_type k = HalfLeft \/ c_type k = HalfRight -> c_circular k = false) by (intros [T|T]; rewrite T in Ck; apply HF; exact (nth_error_In _ _ Ck)).
  split; [|intros -> ->; destruct Hi as [Hi _]; destruct (c_type k); [now apply HALF; auto|now apply HALF; auto|contradiction|]; destruct Ck as (_ & c & _ & Ck & _); lia].
  destruct inst as [i|]; cbn [event_of circular_event].
  - destruct Hi as (s & Hs & Hg & Hin). destruct (c_type k) eqn:T.
    1-2: rewrite HALF by auto; split; [discriminate|]; intros (s' & Hs' & [[G0 _]|(c & q & _ & G0)]); unfold instance in *; assert (s' = s) by congruence; subst s'; rewrite Hg in G0; [injection G0; lia|destruct G0 as [G0|G0]; injection G0; lia].
    + injection Hf as -> ->. destruct Ck as (_ & _ & j & Ej & Ecy). rewrite Ej in Hin. destruct (Hin eq_refl) as [->|[]]. unfold instance_in_aug_cycle, rd in Ecy. destruct (nth_error (r_kinds r) (i * length (r_insts r) + i)) as [kk|] eqn:Ekk; [|discriminate]. cbn [bind] in Ecy. injection Ecy as Ecy.
      assert (Hlt : i < length (r_insts r)) by (apply nth_error_Some; unfold instance in Hs; congruence). split.
      * intros Ht. rewrite Ht in Ecy. apply negb_true_iff, N.eqb_neq in Ecy. exists s. split; [exact Hs|]. left. split; [exact Hg|]. exists kk. auto.
      * intros (s' & Hs' & [[_ (k' & _ & _ & D1 & D2)]|(c & q & [Hq _] & G0)]).
        -- rewrite <- Ecy. apply negb_true_iff, N.eqb_neq. congruence.
        -- unfold instance in *. assert (s' = s) by congruence. subst s'. rewrite Hg in G0. destruct G0 as [G0|G0]; injection G0; lia.
    + destruct Hf as [F1 F2]. destruct Ck as (C1 & c & ph & C2 & C3 & C4). split.
      * intros Ht. exists s. split; [exact Hs|]. right. exists c, (c_ph k). split; [split; [exact C1|]; exists ph; rewrite C4, Ht; auto|]. rewrite Hg. destruct (Z.abs_spec gp) as [[_ A]|[_ A]]; [left|right]; f_equal; lia.
      * intros (s' & Hs' & [[G0 _]|(c' & q & (Hq & ph' & D1 & D2) & G0)]); unfold instance in *; assert (s' = s) by congruence; subst s'; rewrite Hg in G0; [injection G0; lia|]. assert (c' = c /\ q = c_ph k) as [-> ->] by (destruct G0 as [G0|G0]; injection G0 as -> ->; lia). rewrite C3 in D1. injection D1 as <-. congruence.
  - destruct Hi as [Hl Hpos]. destruct (c_type k) eqn:T; [| |contradiction|].
    1-2: rewrite HALF by auto; split; [discriminate|]; subst gc; cbn; tauto.
    destruct Hf as [F1 F2]. destruct Ck as (C1 & c & ph & C2 & C3 & C4). specialize (Hpos eq_refl). rewrite C2 in F1. assert (gp = Z.of_nat (c_ph k)) by lia. subst gc gp. cbn [snd fst]. rewrite (proj2 (Z.eqb_neq (Z.of_nat c) (-1))) by lia. rewrite !Nat2Z.id. unfold circular_event, circular_visit. split.
    + intros Ht. split; [exact C1|]. exists ph. rewrite C4, Ht. auto.
    + intros (_ & ph' & D1 & D2). rewrite C3 in D1. injection D1 as <-. congruence.
Qed.
Lemma scheduled_nodes fuel ps base size r t : schedule_rule fuel ps base size r = Ok t -> own_tests r -> local_tests r -> exists cg, Forall (chunk_ok r) (cg_chunks cg) /\ Forall (node_ok r cg) (nodes t).
Proof.
  unfold schedule_rule. intros H Ho Hl. destruct (collect_aug_graph_chunks ps base size r) as [cg| | |] eqn:Ec; try discriminate. cbn [bind] in H.
  destruct (sched ps base size r cg fuel VisitStart 0 (mkCond 0 0) 1 (mkSst (repeat false (length (r_insts r))) (repeat false (length (cg_chunks cg))) 0)) as [[st t0]| | |] eqn:E; try discriminate. cbn [bind] in H.
  assert (t0 = t) by (destruct t0 as [|a b0 c0 d0 e0 f0 g0 h0 i0]; [discriminate|]; destruct (assert_total_order r cg (Node a b0 c0 d0 e0 f0 g0 h0 i0)); try discriminate; now injection H). subst t0. exists cg.
  assert (HC : Forall (chunk_ok r) (cg_chunks cg)). { unfold collect_aug_graph_chunks in Ec. destruct (collect_chunks r) as [ch| | |] eqn:E1; try discriminate. cbn [bind] in Ec. chop Ec. chop Ec. chop Ec. destruct a1 as [x y]. chop Ec. injection Ec as <-. exact (collect_ok r ch E1). }
  split; [exact HC|]. apply (sched_nodes ps base size r cg Ho Hl HC _ _ _ _ _ _ _ _ E); [intros X; now contradiction X| |reflexivity|exact I]. intros k Hk. unfold bit_in in Hk. cbn in Hk. discriminate.
Qed.
Theorem C72_inside : forall fuel ps base size r t G block body phase,
  schedule_rule fuel ps base size r = Ok t -> own_tests r -> local_tests r -> describes G r -> g_mod G = false ->
  1 <= phase <= last_phase r -> last_phase r < length (cyclic_flags (r_parent r)) -> (forall b, In b (cyclic_flags (r_parent r)) -> b = false) ->
  (forall o e L, run r o t = e :: L -> ~ circular_event r e) ->
  visit_procedure G block t true phase = Ok (flat_map text body) ->
  forall yes times a, In a (bare yes times body) -> ~ circular_action r a.
Proof.
  intros fuel ps base size r t G block body phase Hs Ho Hl Hd Hm Hp Hlen Hf Hfirst Hv yes times a Ha. destruct (scheduled_nodes _ _ _ _ _ _ Hs Ho Hl) as (cg & HC & HN).
  destruct (generate_body G block t phase true true _ Hv) as (asg & c & b & _ & E & _ & Et). apply text_unique in Et. subst body.
  assert (Hflag : nth_error (cyclic_flags (g_parent G)) phase = Some false). { rewrite (ds_parent G r Hd). destruct (nth_error (cyclic_flags (r_parent r)) phase) as [x|] eqn:Ex; [|apply nth_error_None in Ex; lia]. now rewrite (Hf x (nth_error_In _ _ Ex)). }
  set (circ_of := fun ck => match nth_error (cg_chunks cg) ck with Some k => c_circular k | None => false end).
  assert (HP : Forall (proper phase true circ_of (circular_action r)) (nodes t)).
  { apply Forall_forall. intros n Hn. pose proof (node_proper r cg n HC Hf (proj1 (Forall_forall _ _) HN n Hn)) as P. destruct n as [[[[inst g] visit] ck] circ]. destruct P as (P1 & P2 & P3). destruct g as [gp gc]. cbn [snd] in P3. split; [exact P1|]. split; [|intros A B _; now apply P3].
    intros Ec. subst circ. destruct inst as [i|]; cbn [event_of circular_event] in P2.
    - intros e Hb. apply P2 in Hb. congruence.
    - intros e Hg Hb. cbn [snd fst] in P2. rewrite (proj2 (Z.eqb_neq gc (-1)) Hg) in P2. apply P2 in Hb. congruence. }
  destruct t as [|ad prev inst g visit ck circ t1 t2]; [injection E as _ <-; destruct Ha|]. destruct g as [gp gc]. cbn [nodes] in HP, HN. inversion HP as [|? ? P0 PS]; subst. apply Forall_app in PS. destruct PS as [PS1 PS2]. inversion HN as [|? ? N0 _]; subst.
  pose proof (node_proper r cg _ HC Hf N0) as (Q1 & Q2 & _). assert (Hroot : circ = false). { destruct circ; [|reflexivity]. exfalso. refine (Hfirst (fun _ => true) _ _ eq_refl _). apply Q2. reflexivity. }
  pose proof P0 as (Pc & _). rewrite Hroot in Pc. rewrite Hroot in P0. rewrite Pc in P0.
  cbn [plan chunk_step bind] in E. destruct (info G inst) as [gi| | |] eqn:Ei; try discriminate. cbn [bind] in E. chop E. destruct a0 as [c' b']. injection E as <- <-. cbn [after] in Ha.
  refine (core_cleans G phase true yes times circ_of (circular_action r) Hm _ _ _ _ _ _ _ _ _ _ _ _ _ _ Ei P0 _ _ E0 _ eq_refl a Ha).
  - exact (plan_clean G phase true yes times circ_of (circular_action r) Hm Hflag t1 PS1 ck).
  - exact (plan_clean G phase true yes times circ_of (circular_action r) Hm Hflag t2 PS2 ck).
  - intros _ X. congruence.
Qed.
Print Assumptions C72_flat.
Print Assumptions C72_inside.
