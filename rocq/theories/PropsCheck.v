(** * PropsCheck: C60 (what the checks on total orders guarantee). *)
From Verif Require Import Base CondModel EdgeModel DncModel CycleModel OagModel PropsCond PropsCto PropsComponent ChunkModel OrderModel SchedSpec ChunkProofs SchedProofs PropsChunk PropsSched PropsSched2.
From Verif Require PrimeModel PropsUtil.
Open Scope nat_scope.

(** ** Specification *)
(** Trees over the instances of the rule: only tests have two branches, markers are those
    of visits. *)
Inductive tree_of (r : rule) : cto -> Prop :=
  | to_null : tree_of r Null
  | to_inst a p i s ph ck b t1 t2 : instance r i s -> (si_if s = None -> t1 = Null) -> tree_of r t1 -> tree_of r t2 -> tree_of r (Node a p (Some i) (si_group s) ph ck b t1 t2)
  | to_child a p c q ph ck b t : 1 <= q <= phases_of r c -> tree_of r t -> tree_of r (Node a p None (Z.of_nat q, Z.of_nat c) ph ck b Null t)
  | to_own a p q ph ck b t : 1 <= q -> tree_of r t -> tree_of r (Node a p None (Z.of_nat q, -1)%Z ph ck b Null t).
(** The prev pointers are right. *)
Inductive linked : nat -> cto -> Prop :=
  | ln_null p : linked p Null
  | ln_node a p i g ph ck b t1 t2 : linked a t1 -> linked a t2 -> linked p (Node a p i g ph ck b t1 t2).
(** The p-th and the q-th visit of child c are in one component. *)
Definition one_component (cg : chunk_graph) (c p q : nat) : Prop := exists comp x y kx ky, In comp (cg_comps cg) /\ In x comp /\ In y comp /\
  nth_error (cg_chunks cg) x = Some kx /\ c_type kx = Visit /\ c_ph kx = p /\ c_ch kx = Z.of_nat c /\
  nth_error (cg_chunks cg) y = Some ky /\ c_type ky = Visit /\ c_ph ky = q /\ c_ch ky = Z.of_nat c.
Definition circular (p : phy) (q : nat) : Prop := nth_error (cyclic_flags p) q = Some true.
(** The group an event belongs to; events that are plain locals. *)
Definition of_group (r : rule) (e : event) (g : group) : Prop :=
  match e with Compute i => exists s, instance r i s /\ si_group s = g | VisitChild c p => g = (Z.of_nat p, Z.of_nat c) | EndVisit p => g = (Z.of_nat p, -1)%Z end.
Definition plain_local (r : rule) (e : event) : Prop := exists i s, e = Compute i /\ instance r i s /\ si_group s = (0, 0)%Z /\ si_if s = None.
(** Tests are locals, one instance per test. *)
Definition simple_tests (r : rule) : Prop :=
  (forall i s b, instance r i s -> si_if s = Some b -> si_group s = (0, 0)%Z) /\ (forall i s i' s' b, instance r i s -> instance r i' s' -> si_if s = Some b -> si_if s' = Some b -> i = i').

Section C.
Variables (r : rule) (cg : chunk_graph).
Hypothesis Ht : simple_tests r.

Lemma validate_linked t : forall p, validate_linked_list t p = Ok tt -> linked p t.
Proof.
  induction t as [|a p i g ph ck b t1 IH1 t2 IH2]; intros p0 H; [constructor|]. cbn [validate_linked_list] in H. destruct (Nat.eqb_spec p p0) as [->|]; cbn [negb] in H; [|discriminate]. destruct (match t2 with Null => false | _ => _ end); [discriminate|]. destruct (validate_linked_list t1 a) as [[]| | |] eqn:E; cbn [bind] in H; try discriminate. constructor; auto.
Qed.
(** the two ways a run goes on *)
Lemma run_test o a p i s ph ck b t1 t2 k : instance r i s -> si_if s = Some k -> run r o (Node a p (Some i) (si_group s) ph ck b t1 t2) = Compute i :: if o (N.of_nat k) then run r o t1 else run r o t2.
Proof. intros Es Ek. cbn [run event_of]. unfold test_of. unfold instance in Es. now rewrite Es, Ek. Qed.
Lemma run_plain o a p i s ph ck b t1 t2 : instance r i s -> si_if s = None -> run r o (Node a p (Some i) (si_group s) ph ck b t1 t2) = Compute i :: run r o t2.
Proof. intros Es Ek. cbn [run event_of]. unfold test_of. unfold instance in Es. now rewrite Es, Ek. Qed.
Lemma run_child o a p c q ph ck b t1 t2 : run r o (Node a p None (Z.of_nat q, Z.of_nat c) ph ck b t1 t2) = VisitChild c q :: run r o t2.
Proof. cbn [run event_of fst snd]. rewrite (proj2 (Z.eqb_neq _ _)) by lia. now rewrite !Nat2Z.id. Qed.
Lemma run_own o a p q ph ck b t1 t2 : run r o (Node a p None (Z.of_nat q, -1)%Z ph ck b t1 t2) = EndVisit q :: run r o t2.
Proof. cbn [run event_of fst snd]. rewrite Z.eqb_refl. now rewrite Nat2Z.id. Qed.
(** nothing twice *)
Definition comps (L : list event) : list nat := flat_map (fun e => match e with Compute i => [i] | _ => [] end) L.
Lemma dup_nodup o t : tree_of r t -> forall seen, check_duplicates t seen = Ok tt -> NoDup (comps (run r o t)) /\ forall i, In i (comps (run r o t)) -> nth_error seen i = Some false.
Proof.
  induction 1 as [|a p i s ph ck b t1 t2 Es Hn T1 IH1 T2 IH2|a p c q ph ck b t Hq T IH|a p q ph ck b t Hq T IH]; intros seen H.
  - cbn. split; [constructor|intros i []].
  - cbn [check_duplicates] in H. unfold rd, wr in H. destruct (nth_error seen i) as [x|] eqn:Ei; cbn [bind] in H; [|discriminate]. destruct x; [discriminate|]. destruct (Nat.ltb_spec i (length seen)) as [Li|]; cbn [bind] in H; [|discriminate]. destruct (check_duplicates t1 (upd seen i true)) as [[]| | |] eqn:E1; cbn [bind] in H; try discriminate.
    assert (G : forall L, NoDup (comps L) /\ (forall j, In j (comps L) -> nth_error (upd seen i true) j = Some false) -> NoDup (comps (Compute i :: L)) /\ forall j, In j (comps (Compute i :: L)) -> nth_error seen j = Some false).
    { intros L [N A]. unfold comps. cbn [flat_map app]. fold (comps L). assert (Ni : ~ In i (comps L)) by (intros I; apply A in I; rewrite nth_error_upd_eq in I by auto; discriminate). split; [now constructor|]. intros j [<-|Hj]; auto. pose proof (A j Hj) as Aj. rewrite nth_error_upd_neq in Aj by congruence. exact Aj. }
    destruct (si_if s) as [k|] eqn:Ek.
    + rewrite (run_test o a p i s ph ck b t1 t2 k Es Ek). apply G. destruct (o (N.of_nat k)); auto.
    + rewrite (run_plain o a p i s ph ck b t1 t2 Es Ek). apply G. auto.
  - rewrite run_child. cbn [check_duplicates bind] in H. now apply IH.
  - rewrite run_own. cbn [check_duplicates bind] in H. now apply IH.
Qed.
(** visits of a child *)
Lemma component_sound c1 c2 a : chunk_component_indexof cg c1 = Ok a -> chunk_component_indexof cg c2 = Ok a -> exists comp, In comp (cg_comps cg) /\ In c1 comp /\ In c2 comp.
Proof.
  unfold chunk_component_indexof. intros H1 H2. destruct (List.find _ _) as [x|] eqn:F1 in H1; [|discriminate]. injection H1 as ->. destruct (List.find _ _) as [y|] eqn:F2 in H2; [|discriminate]. injection H2 as ->. apply find_some in F1, F2. destruct F1 as [_ F1], F2 as [_ F2]. destruct (nth_error (cg_comps cg) a) as [comp|] eqn:E; [|discriminate]. exists comp. split; [eapply nth_error_In; eauto|]. apply existsb_exists in F1, F2. destruct F1 as (z & Hz & E1), F2 as (w & Hw & E2). apply Nat.eqb_eq in E1, E2. subst. auto.
Qed.
Lemma lookup_sound ty ph ch x : chunk_lookup cg ty ph ch = Ok x -> exists k, nth_error (cg_chunks cg) x = Some k /\ c_type k = ty /\ c_ph k = ph /\ c_ch k = ch.
Proof.
  unfold chunk_lookup, find_chunk. destruct (List.find _ _) as [y|] eqn:F; [|discriminate]. intros H. injection H as ->. apply find_some in F. destruct F as [_ F]. destruct (nth_error (cg_chunks cg) x) as [k|]; [|discriminate]. exists k. rewrite !andb_true_iff, Nat.eqb_eq, Z.eqb_eq in F. destruct F as [[F1 F2] F3]. ands; auto. destruct (c_type k), ty; auto; discriminate.
Qed.
Lemma consecutive_sound o c t : tree_of r t -> forall ph, child_visit_consecutive_check cg t ph (Z.of_nat c) = Ok tt ->
  forall j p, nth_error (flat_map (child_phase c) (run r o t)) j = Some p -> p = ph + j \/ one_component cg c p (ph + j).
Proof.
  induction 1 as [|a p i s ph0 ck b t1 t2 Es Hn T1 IH1 T2 IH2|a p c0 q ph0 ck b t Hq T IH|a p q ph0 ck b t Hq T IH]; intros ph H j x Hx.
  - destruct j; discriminate.
  - cbn [child_visit_consecutive_check] in H. destruct (child_visit_consecutive_check cg t1 ph (Z.of_nat c)) as [[]| | |] eqn:E1; cbn [bind] in H; try discriminate. destruct (si_if s) as [k|] eqn:Ek.
    + rewrite (run_test o a p i s ph0 ck b t1 t2 k Es Ek) in Hx. cbn [flat_map child_phase app] in Hx. destruct (o (N.of_nat k)); eauto.
    + rewrite (run_plain o a p i s ph0 ck b t1 t2 Es Ek) in Hx. cbn [flat_map child_phase app] in Hx. eauto.
  - rewrite run_child in Hx. cbn [flat_map child_phase] in Hx. cbn [child_visit_consecutive_check fst snd] in H. destruct (Nat.eqb_spec c c0) as [<-|Ne].
    + rewrite Z.eqb_refl in H. match type of H with bind ?e _ = _ => destruct e as [[]| | |] eqn:E1; cbn [bind] in H; try discriminate end. destruct j as [|j]; cbn [app nth_error] in Hx.
      * injection Hx as <-. rewrite Nat.add_0_r. destruct (Z.eqb_spec (Z.of_nat q) (Z.of_nat ph)) as [E|_]; [left; lia|]. right. rewrite (proj2 (Z.ltb_ge _ _)) in E1 by lia. rewrite Nat2Z.id in E1.
        destruct (chunk_lookup cg Visit q (Z.of_nat c)) as [c1| | |] eqn:K1; cbn [bind] in E1; try discriminate. destruct (chunk_component_indexof cg c1) as [a1| | |] eqn:K2; cbn [bind] in E1; try discriminate. destruct (chunk_lookup cg Visit ph (Z.of_nat c)) as [c2| | |] eqn:K3; cbn [bind] in E1; try discriminate. destruct (chunk_component_indexof cg c2) as [a2| | |] eqn:K4; cbn [bind] in E1; try discriminate. destruct (Nat.eqb_spec a1 a2) as [<-|]; [|discriminate].
        destruct (component_sound c1 c2 a1 K2 K4) as (comp & C1 & C2 & C3). apply lookup_sound in K1, K3. destruct K1 as (k1 & L1), K3 as (k2 & L2). exists comp, c1, c2, k1, k2. tauto.
      * replace (ph + S j) with (S ph + j) by lia. eapply IH; eauto.
    + rewrite (proj2 (Z.eqb_neq _ _)) in H by lia. cbn [bind app] in *. eauto.
  - rewrite run_own in Hx. cbn [flat_map child_phase app] in Hx. cbn [child_visit_consecutive_check fst snd] in H. rewrite (proj2 (Z.eqb_neq _ _)) in H by lia. cbn [bind] in H. eauto.
Qed.
(** every visit somewhere *)
Definition agree (seen : list bool) (o o' : outcome) : Prop := forall i s k, instance r i s -> si_if s = Some k -> nth_error seen i = Some true -> o' (N.of_nat k) = o (N.of_nat k).
Lemma followed_somewhere c q t : tree_of r t -> forall seen o, check_duplicates t seen = Ok tt -> followed_by r t (Z.of_nat q, Z.of_nat c) false true = Ok true -> exists o', agree seen o o' /\ In (VisitChild c q) (run r o' t).
Proof.
  induction 1 as [|a p i s ph ck b t1 t2 Es Hn T1 IH1 T2 IH2|a p c0 q0 ph ck b t Hq T IH|a p q0 ph ck b t Hq T IH]; intros seen o Hd Hf.
  - discriminate.
  - cbn [check_duplicates] in Hd. unfold rd, wr in Hd. destruct (nth_error seen i) as [x|] eqn:Ei; cbn [bind] in Hd; [|discriminate]. destruct x; [discriminate|]. destruct (Nat.ltb_spec i (length seen)) as [Li|]; cbn [bind] in Hd; [|discriminate]. destruct (check_duplicates t1 (upd seen i true)) as [[]| | |] eqn:E1; cbn [bind] in Hd; try discriminate.
    cbn [followed_by] in Hf. rewrite andb_false_r in Hf. cbn [negb orb] in Hf. rewrite andb_false_r in Hf. unfold local_if in Hf.
    assert (Ag : forall o0 o', (forall b, (forall k, si_if s = Some k -> b <> N.of_nat k) -> o0 b = o b) -> agree (upd seen i true) o0 o' -> agree seen o o').
    { intros o0 o' H0 A i' s' k' Es' Ek' S'. assert (Ni : i <> i') by congruence. rewrite (A i' s' k' Es' Ek') by (now rewrite nth_error_upd_neq). apply H0. intros k Ek E. apply Nat2N.inj in E. subst k'. apply Ni. apply (proj2 Ht i s i' s' k); auto. }
    destruct (si_if s) as [k|] eqn:Ek.
    + assert (Gl : group_is_local (si_group s) = true) by (rewrite (proj1 Ht i s k Es Ek); reflexivity). rewrite Gl in Hf. unfold rd in Hf. pose proof Es as Es0. unfold instance in Es0. rewrite Es0 in Hf. cbn [bind] in Hf. rewrite Ek in Hf. destruct (followed_by r t1 (Z.of_nat q, Z.of_nat c) false true) as [x1| | |] eqn:F1; cbn [bind] in Hf; try discriminate. destruct (followed_by r t2 (Z.of_nat q, Z.of_nat c) false true) as [x2| | |] eqn:F2; cbn [bind] in Hf; try discriminate.
      set (ov := fun (v : bool) (b : N) => if N.eqb b (N.of_nat k) then v else o b). assert (Hov : forall v b, (forall k', Some k = Some k' -> b <> N.of_nat k') -> ov v b = o b) by (intros v b0 Hb; unfold ov; destruct (N.eqb_spec b0 (N.of_nat k)) as [->|]; auto; exfalso; now apply (Hb k)).
      assert (Hk : forall v o', agree (upd seen i true) (ov v) o' -> o' (N.of_nat k) = v) by (intros v o' A; rewrite (A i s k Es Ek) by (now apply nth_error_upd_eq); unfold ov; now rewrite N.eqb_refl).
      destruct x1.
      * destruct (IH1 (upd seen i true) (ov true) E1 eq_refl) as (o' & A & I). exists o'. split; [exact (Ag _ o' (Hov true) A)|]. rewrite (run_test o' a p i s ph ck b t1 t2 k Es Ek), (Hk true o' A). now right.
      * cbn [orb] in Hf. injection Hf as ->. destruct (IH2 (upd seen i true) (ov false) Hd eq_refl) as (o' & A & I). exists o'. split; [exact (Ag _ o' (Hov false) A)|]. rewrite (run_test o' a p i s ph ck b t1 t2 k Es Ek), (Hk false o' A). now right.
    + rewrite (Hn eq_refl) in Hf. assert (F2 : followed_by r t2 (Z.of_nat q, Z.of_nat c) false true = Ok true). { destruct (group_is_local (si_group s)); [unfold rd in Hf; unfold instance in Es; rewrite Es in Hf; cbn [bind] in Hf; rewrite Ek in Hf|]; cbn [followed_by bind] in Hf; (destruct (followed_by r t2 (Z.of_nat q, Z.of_nat c) false true) as [x2| | |]; cbn [bind] in Hf; try discriminate); exact Hf. }
      destruct (IH2 (upd seen i true) o Hd F2) as (o' & A & I). exists o'. split; [exact (Ag o o' (fun b0 _ => eq_refl) A)|]. rewrite (run_plain o' a p i s ph ck b t1 t2 Es Ek). now right.
  - cbn [check_duplicates bind] in Hd. cbn [followed_by] in Hf. rewrite andb_false_r in Hf. cbn [negb orb] in Hf. rewrite andb_true_r in Hf. unfold local_if in Hf. assert (Gl : group_is_local (Z.of_nat q0, Z.of_nat c0) = false) by (destruct (group_is_local (Z.of_nat q0, Z.of_nat c0)) eqn:G; auto; apply group_eqb_spec in G; injection G; lia). rewrite Gl in Hf. cbn [bind] in Hf. destruct (followed_by r t (Z.of_nat q, Z.of_nat c) false true) as [x| | |] eqn:F; cbn [bind] in Hf; try discriminate. injection Hf as Hf. rewrite orb_false_r in Hf. apply orb_true_iff in Hf. destruct Hf as [Hf| ->].
    + apply group_eqb_spec in Hf. injection Hf as E1 E2. exists o. split; [intros ? ? ? _ _ _; reflexivity|]. rewrite run_child. left. f_equal; lia.
    + destruct (IH seen o Hd eq_refl) as (o' & A & I). exists o'. split; auto. rewrite run_child. now right.
  - cbn [check_duplicates bind] in Hd. cbn [followed_by] in Hf. rewrite andb_false_r in Hf. cbn [negb orb] in Hf. rewrite andb_true_r in Hf. unfold local_if in Hf. assert (Gl : group_is_local (Z.of_nat q0, -1)%Z = false) by (destruct (group_is_local (Z.of_nat q0, -1)%Z) eqn:G; auto; apply group_eqb_spec in G; injection G; lia). rewrite Gl in Hf. cbn [bind] in Hf. destruct (followed_by r t (Z.of_nat q, Z.of_nat c) false true) as [x| | |] eqn:F; cbn [bind] in Hf; try discriminate. injection Hf as Hf. rewrite orb_false_r in Hf. apply orb_true_iff in Hf. destruct Hf as [Hf| ->].
    + apply group_eqb_spec in Hf. injection Hf as E1 E2. lia.
    + destruct (IH seen o Hd eq_refl) as (o' & A & I). exists o'. split; auto. rewrite run_own. now right.
Qed.
(** circular phases *)
Definition own_count (L : list event) : nat := length (flat_map own_phase L).
Lemma circular_sound o t : tree_of r t -> forall ph, check_circular_visit r t ph = Ok tt -> forall L1 e L2, run r o t = L1 ++ e :: L2 -> circular (r_parent r) (ph + own_count L1) ->
  match e with
  | VisitChild c q => exists phy, nth_error (r_children r) c = Some (Some phy) /\ circular phy q
  | Compute i => forall s p c, instance r i s -> si_group s = (p, Z.of_nat c) -> p <> 0%Z -> depends r i i
  | EndVisit _ => True
  end.
Proof.
  induction 1 as [|a p i s ph0 ck b t1 t2 Es Hn T1 IH1 T2 IH2|a p c0 q0 ph0 ck b t Hq T IH|a p q0 ph0 ck b t Hq T IH]; intros ph H L1 e L2 E Hc.
  - destruct L1; discriminate.
  - cbn [check_circular_visit] in H. match type of H with bind ?x _ = _ => destruct x as [ph1| | |] eqn:E0; cbn [bind] in H; try discriminate end. assert (ph1 = ph). { destruct (negb (group_is_local (si_group s)) && Z.ltb (-1) (snd (si_group s))); [|congruence]. destruct (rd (r_children r) (Z.to_nat (snd (si_group s)))); cbn [bind] in E0; try discriminate. destruct (rd (cyclic_flags (r_parent r)) ph) as [[|]| | |]; cbn [bind] in E0; try discriminate; [|congruence]. destruct (instance_in_aug_cycle r i) as [[|]| | |]; cbn [bind] in E0; congruence. } subst ph1.
    destruct (check_circular_visit r t1 ph) as [[]| | |] eqn:E1; cbn [bind] in H; try discriminate.
    assert (G : forall L, run r o (Node a p (Some i) (si_group s) ph0 ck b t1 t2) = Compute i :: L -> (forall M1 M2, L = M1 ++ e :: M2 -> circular (r_parent r) (ph + own_count M1) -> match e with VisitChild c q => exists phy, nth_error (r_children r) c = Some (Some phy) /\ circular phy q | Compute i => forall s p c, instance r i s -> si_group s = (p, Z.of_nat c) -> p <> 0%Z -> depends r i i | EndVisit _ => True end) ->
      match e with VisitChild c q => exists phy, nth_error (r_children r) c = Some (Some phy) /\ circular phy q | Compute i => forall s p c, instance r i s -> si_group s = (p, Z.of_nat c) -> p <> 0%Z -> depends r i i | EndVisit _ => True end).
    { intros L EL HL. rewrite EL in E. destruct L1 as [|e1 L1]; cbn [app] in E; injection E as <- E.
      - intros s' p' c Es' Gs' Np. assert (s' = s) by (unfold instance in *; congruence). subst s'. rewrite Gs' in E0. cbn [fst snd] in E0. assert (Gl : group_is_local (p', Z.of_nat c) = false) by (destruct (group_is_local (p', Z.of_nat c)) eqn:G; auto; apply group_eqb_spec in G; injection G; lia). rewrite Gl in E0. rewrite (proj2 (Z.ltb_lt _ _)) in E0 by lia. cbn [negb andb] in E0. destruct (rd (r_children r) (Z.to_nat (Z.of_nat c))); cbn [bind] in E0; try discriminate. unfold own_count in Hc. cbn [flat_map length] in Hc. rewrite Nat.add_0_r in Hc. unfold rd in E0 at 1. rewrite Hc in E0. cbn [bind] in E0. unfold instance_in_aug_cycle in E0. unfold rd in E0. destruct (nth_error (r_kinds r) (i * length (r_insts r) + i)) as [k|] eqn:Ek; cbn [bind] in E0; [|discriminate]. destruct (N.eqb_spec k no_dependency) as [|Nk]; cbn [negb bind] in E0; [discriminate|]. assert (Li : i < length (r_insts r)) by (apply nth_error_Some; unfold instance in Es; congruence). exists k. auto.
      - apply (HL L1 L2); auto. }
    destruct (si_if s) as [k|] eqn:Ek.
    + apply (G (if o (N.of_nat k) then run r o t1 else run r o t2)); [now apply run_test|]. destruct (o (N.of_nat k)); [exact (fun M1 M2 => IH1 ph E1 M1 e M2)|exact (fun M1 M2 => IH2 ph H M1 e M2)].
    + apply (G (run r o t2)); [now apply run_plain|exact (fun M1 M2 => IH2 ph H M1 e M2)].
  - rewrite run_child in E. cbn [check_circular_visit fst snd] in H. rewrite (proj2 (Z.eqb_neq _ _)) in H by lia. assert (Gl : group_is_local (Z.of_nat q0, Z.of_nat c0) = false) by (destruct (group_is_local (Z.of_nat q0, Z.of_nat c0)) eqn:G; auto; apply group_eqb_spec in G; injection G; lia). rewrite Gl in H. rewrite (proj2 (Z.ltb_ge _ _)) in H by lia. rewrite !Nat2Z.id in H. unfold rd in H at 1. destruct (nth_error (r_children r) c0) as [ch|] eqn:Ec; cbn [bind] in H; [|discriminate].
    match type of H with bind ?x _ = _ => destruct x as [ph1| | |] eqn:E0; cbn [bind] in H; try discriminate end. assert (X : ph1 = ph /\ (circular (r_parent r) ph -> exists phy, ch = Some phy /\ circular phy q0)).
    { destruct ch as [phy|]. 2:{ exfalso. unfold phases_of in Hq. rewrite Ec in Hq. lia. } unfold rd in E0. destruct (nth_error (cyclic_flags (r_parent r)) ph) as [pc|] eqn:Ep; cbn [bind] in E0; [|discriminate]. destruct pc; [|split; [congruence|unfold circular; congruence]]. rewrite (proj2 (Z.ltb_ge _ _)) in E0 by lia. destruct (nth_error (cyclic_flags phy) q0) as [cc|] eqn:Eq; cbn [bind] in E0; [|discriminate]. destruct cc; [|discriminate]. split; [congruence|]. intros _. now exists phy. }
    destruct X as [-> X]. destruct L1 as [|e1 L1]; cbn [app] in E; injection E as <- E.
    + unfold own_count in Hc. cbn [flat_map length] in Hc. rewrite Nat.add_0_r in Hc. destruct (X Hc) as (phy & -> & Hy). now exists phy.
    + apply (IH ph H L1 e L2 E Hc).
  - rewrite run_own in E. cbn [check_circular_visit fst snd] in H. rewrite Z.eqb_refl in H. cbn [bind] in H. destruct L1 as [|e1 L1]; cbn [app] in E; injection E as <- E; auto. apply (IH (S ph) H L1 e L2 E). replace (S ph + own_count L1) with (ph + own_count (EndVisit q0 :: L1)); auto. unfold own_count. cbn [flat_map own_phase app length]. lia.
Qed.
(** around the visits of a child *)
Lemma contains_true o cond g i s : instance r i s -> si_group s = g -> meets o cond -> meets o (si_cond s) -> aug_graph_contains_phase r cond g = true.
Proof. intros Es G M1 M2. unfold aug_graph_contains_phase. apply existsb_exists. exists s. split; [unfold instance in Es; eapply nth_error_In; eauto|]. rewrite (proj2 (group_eqb_spec _ _) G). cbn [andb]. apply negb_true_iff. apply possible_spec. eauto. Qed.
Lemma followed_now o t g : tree_of r t -> followed_by r t g true false = Ok true -> exists e L, run r o t = e :: L /\ of_group r e g.
Proof.
  intros T H. destruct T as [|a p i s ph ck b t1 t2 Es Hn T1 T2|a p c0 q0 ph ck b t Hq T|a p q0 ph ck b t Hq T].
  - discriminate.
  - cbn [followed_by] in H. destruct (group_eqb (si_group s) g) eqn:G; cbn [negb andb] in H; [|discriminate]. apply group_eqb_spec in G. exists (Compute i). cbn [run event_of]. eexists. split; [reflexivity|]. exists s. auto.
  - cbn [followed_by] in H. destruct (group_eqb (Z.of_nat q0, Z.of_nat c0) g) eqn:G; cbn [negb andb] in H; [|discriminate]. apply group_eqb_spec in G. rewrite run_child. eexists; eexists; split; [reflexivity|]. cbn. auto.
  - cbn [followed_by] in H. destruct (group_eqb (Z.of_nat q0, -1)%Z g) eqn:G; cbn [negb andb] in H; [|discriminate]. apply group_eqb_spec in G. rewrite run_own. eexists; eexists; split; [reflexivity|]. cbn. auto.
Qed.
Lemma sane_sound o t : tree_of r t -> forall cond pg pp, total_order_sanity_check r t cond pg pp = Ok tt -> meets o cond -> forall L1 c q L2, run r o t = L1 ++ VisitChild c q :: L2 ->
  (forall i s, instance r i s -> si_group s = (Z.of_nat q, Z.of_nat c) -> meets o (si_cond s) -> exists e L3, L2 = e :: L3 /\ of_group r e (Z.of_nat q, Z.of_nat c)) /\
  (forall i s, instance r i s -> si_group s = (- Z.of_nat q, Z.of_nat c)%Z -> meets o (si_cond s) ->
    (exists K e P, L1 = K ++ e :: P /\ of_group r e (- Z.of_nat q, Z.of_nat c)%Z /\ Forall (plain_local r) P) \/ (Forall (plain_local r) L1 /\ pg = (- Z.of_nat q, Z.of_nat c)%Z)).
Proof.
  induction 1 as [|a p i0 s0 ph0 ck b t1 t2 Es0 Hn T1 IH1 T2 IH2|a p c0 q0 ph0 ck b t Hq T IH|a p q0 ph0 ck b t Hq T IH]; intros cond pg pp H M L1 c q L2 E.
  - destruct L1; discriminate.
  - assert (G : forall L pg', run r o (Node a p (Some i0) (si_group s0) ph0 ck b t1 t2) = Compute i0 :: L -> (pg' = si_group s0 \/ pg' = pg /\ plain_local r (Compute i0)) ->
      (forall M1 M2, L = M1 ++ VisitChild c q :: M2 -> (forall i s, instance r i s -> si_group s = (Z.of_nat q, Z.of_nat c) -> meets o (si_cond s) -> exists e L3, M2 = e :: L3 /\ of_group r e (Z.of_nat q, Z.of_nat c)) /\
      (forall i s, instance r i s -> si_group s = (- Z.of_nat q, Z.of_nat c)%Z -> meets o (si_cond s) -> (exists K e P, M1 = K ++ e :: P /\ of_group r e (- Z.of_nat q, Z.of_nat c)%Z /\ Forall (plain_local r) P) \/ (Forall (plain_local r) M1 /\ pg' = (- Z.of_nat q, Z.of_nat c)%Z))) ->
      (forall i s, instance r i s -> si_group s = (Z.of_nat q, Z.of_nat c) -> meets o (si_cond s) -> exists e L3, L2 = e :: L3 /\ of_group r e (Z.of_nat q, Z.of_nat c)) /\
      (forall i s, instance r i s -> si_group s = (- Z.of_nat q, Z.of_nat c)%Z -> meets o (si_cond s) -> (exists K e P, L1 = K ++ e :: P /\ of_group r e (- Z.of_nat q, Z.of_nat c)%Z /\ Forall (plain_local r) P) \/ (Forall (plain_local r) L1 /\ pg = (- Z.of_nat q, Z.of_nat c)%Z))).
    { intros L pg' EL Hp HL. rewrite EL in E. destruct L1 as [|e1 L1]; cbn [app] in E; [discriminate|]. injection E as <- E. destruct (HL L1 L2 E) as [H1 H2]. split; auto. intros i s Es Gs Ms. destruct (H2 i s Es Gs Ms) as [(K & e & P & -> & He & HP)|[HP Hg]].
      - left. exists (Compute i0 :: K), e, P. auto.
      - destruct Hp as [-> |[-> Hpl]]; [|right; split; auto]. left. exists [], (Compute i0), L1. split; auto. split; auto. exists s0. auto. }
    cbn [total_order_sanity_check bind] in H. destruct (group_is_local (si_group s0)) eqn:Gl.
    + unfold rd in H. pose proof Es0 as Es1. unfold instance in Es1. rewrite Es1 in H. cbn [bind] in H. destruct (si_if s0) as [k|] eqn:Ek.
      * match type of H with bind ?x _ = _ => destruct x as [[]| | |] eqn:E1; cbn [bind] in H; try discriminate end. apply (G (if o (N.of_nat k) then run r o t1 else run r o t2) (si_group s0)); [now apply run_test|auto|]. destruct (o (N.of_nat k)) eqn:Ok'; intros M1 M2 EM.
        -- eapply IH1; eauto. apply (tcond_meets o cond k). auto.
        -- eapply IH2; eauto. intros b0. destruct (M b0) as [P Q]. rewrite (fcond_pos cond k b0 : N.testbit (positive (mkCond _ _)) b0 = true <-> _). cbn [negative]. rewrite N.lor_spec, orb_true_iff, cmask_spec. split; [tauto|]. intros [?| ->]; auto.
      * apply (G (run r o t2) pg); [now apply run_plain| |intros M1 M2 EM; eapply IH2; eauto]. right. split; auto. exists i0, s0. ands; auto. now apply group_eqb_spec.
    + assert (Ek : si_if s0 = None) by (destruct (si_if s0) as [k|] eqn:Ek; auto; rewrite (proj1 Ht i0 s0 k Es0 Ek) in Gl; discriminate). apply (G (run r o t2) (si_group s0)); [now apply run_plain|auto|]. intros M1 M2 EM. eapply IH2; eauto.
  - rewrite run_child in E. cbn [total_order_sanity_check fst snd] in H. assert (Nc : Z.eqb (Z.of_nat c0) (-1) = false) by (apply Z.eqb_neq; lia). rewrite Nc in H. destruct (followed_by r t (Z.of_nat q0, Z.of_nat c0) true false) as [fl| | |] eqn:Ef; cbn [bind] in H; try discriminate. destruct (aug_graph_contains_phase r cond (Z.of_nat q0, Z.of_nat c0) && negb fl) eqn:C1; [discriminate|]. destruct (aug_graph_contains_phase r cond (- Z.of_nat q0, Z.of_nat c0)%Z && negb (Z.eqb (fst pg) (- Z.of_nat q0) && Z.eqb (snd pg) (Z.of_nat c0))) eqn:C2; [discriminate|]. cbn [bind] in H.
    assert (Gl : group_is_local (Z.of_nat q0, Z.of_nat c0) = false) by (destruct (group_is_local (Z.of_nat q0, Z.of_nat c0)) eqn:G; auto; apply group_eqb_spec in G; injection G; lia). rewrite Gl in H. destruct L1 as [|e1 L1]; cbn [app] in E.
    + injection E as <- <- E. split.
      * intros i s Es Gs Ms. rewrite (contains_true o cond _ i s Es Gs M Ms) in C1. cbn [andb] in C1. apply negb_false_iff in C1. subst fl. destruct (followed_now o t _ T Ef) as (e & L3 & E3 & He). exists e, L3. split; [congruence|auto].
      * intros i s Es Gs Ms. right. split; [constructor|]. rewrite (contains_true o cond _ i s Es Gs M Ms) in C2. cbn [andb] in C2. apply negb_false_iff, andb_true_iff in C2. rewrite !Z.eqb_eq in C2. destruct pg. cbn in C2. f_equal; tauto.
    + injection E as <- E. destruct (IH _ _ _ H M L1 c q L2 E) as [H1 H2]. split; auto. intros i s Es Gs Ms. left. destruct (H2 i s Es Gs Ms) as [(K & e & P & -> & He & HP)|[HP Hg]]; [exists (VisitChild c0 q0 :: K), e, P; auto|]. injection Hg as Hg1 Hg2. lia.
  - rewrite run_own in E. destruct L1 as [|e1 L1]; cbn [app] in E; [discriminate|]. injection E as <- E. cbn [total_order_sanity_check fst snd] in H. rewrite Z.eqb_refl in H. match type of H with bind (if ?x then Exit else _) _ = _ => destruct x; [discriminate|] end.
    assert (Gl : group_is_local (Z.of_nat q0, -1)%Z = false) by (destruct (group_is_local (Z.of_nat q0, -1)%Z) eqn:G; auto; apply group_eqb_spec in G; injection G; lia). rewrite Gl in H.
    assert (H' : total_order_sanity_check r t cond (Z.of_nat q0, -1)%Z (Z.of_nat q0, -1)%Z = Ok tt). { destruct t; [reflexivity|]. match type of H with bind (bind ?x _) _ = _ => destruct x as [?| | |]; cbn [bind] in H; try discriminate end. exact H. }
    destruct (IH _ _ _ H' M L1 c q L2 E) as [H1 H2]. split; auto. intros i s Es Gs Ms. left. destruct (H2 i s Es Gs Ms) as [(K & e & P & -> & He & HP)|[HP Hg]]; [exists (EndVisit q0 :: K), e, P; auto|]. injection Hg as Hg1 Hg2. lia.
Qed.
Lemma foldM_unit {X} (f : X -> res unit) l : foldM (fun _ x => f x) l tt = Ok tt -> forall x, In x l -> f x = Ok tt.
Proof. induction l as [|y l IH]; intros H x Hx; [destruct Hx|]. cbn [foldM] in H. destruct (f y) as [[]| | |] eqn:E; cbn [bind] in H; try discriminate. destruct Hx as [->|Hx]; auto. Qed.
End C.

(** ** C60 *)
Theorem C60_checks_partial : forall r cg t, simple_tests r -> tree_of r t -> assert_total_order r cg t = Ok tt ->
  linked 0 t /\
  (forall o, NoDup (comps (run r o t))) /\
  (forall c p, 1 <= p <= phases_of r c -> exists o, In (VisitChild c p) (run r o t)) /\
  (forall o c j p, c < length (r_children r) -> nth_error (flat_map (child_phase c) (run r o t)) j = Some p -> p = S j \/ one_component cg c p (S j)) /\
  (forall o L1 c q L2, run r o t = L1 ++ VisitChild c q :: L2 ->
     (circular (r_parent r) (S (own_count L1)) -> exists phy, nth_error (r_children r) c = Some (Some phy) /\ circular phy q) /\
     (forall i s, instance r i s -> si_group s = (Z.of_nat q, Z.of_nat c) -> wanted r o i -> exists e L3, L2 = e :: L3 /\ of_group r e (Z.of_nat q, Z.of_nat c)) /\
     (forall i s, instance r i s -> si_group s = (- Z.of_nat q, Z.of_nat c)%Z -> wanted r o i -> exists K e P, L1 = K ++ e :: P /\ of_group r e (- Z.of_nat q, Z.of_nat c)%Z /\ Forall (plain_local r) P)) /\
  (forall o L1 i L2 s p c, run r o t = L1 ++ Compute i :: L2 -> instance r i s -> si_group s = (p, Z.of_nat c) -> p <> 0%Z -> circular (r_parent r) (S (own_count L1)) -> depends r i i).
Proof.
  intros r cg t Ht T H. unfold assert_total_order in H. destruct (validate_linked_list t 0) as [[]| | |] eqn:E1; cbn [bind] in H; try discriminate. destruct (child_visit_completeness r t) as [[]| | |] eqn:E2; cbn [bind] in H; try discriminate. destruct (total_order_sanity_check r t (mkCond 0 0) (1, -1)%Z (1, -1)%Z) as [[]| | |] eqn:E3; cbn [bind] in H; try discriminate. destruct (child_visit_consecutive r cg t) as [[]| | |] eqn:E4; cbn [bind] in H; try discriminate. destruct (check_circular_visit r t 1) as [[]| | |] eqn:E5; cbn [bind] in H; try discriminate.
  assert (W : forall o i s, instance r i s -> wanted r o i -> meets o (si_cond s)) by (intros o i s Es (s' & Es' & M); assert (s' = s) by (unfold instance in *; congruence); now subst).
  split; [now apply validate_linked|]. split; [intros o; now apply (dup_nodup r o t T _ H)|]. split; [|split; [|split]].
  - intros c p Hp. assert (Ec : exists phy, nth_error (r_children r) c = Some (Some phy) /\ p <= max_phase phy) by (unfold phases_of in Hp; destruct (nth_error (r_children r) c) as [[phy|]|]; try lia; exists phy; split; [auto|lia]). destruct Ec as (phy & Ec & Lp). unfold child_visit_completeness in E2. pose proof (foldM_unit _ _ E2 c) as F. cbv beta in F. unfold rd in F. rewrite Ec in F. cbn [bind] in F. assert (Lc : c < length (r_children r)) by (apply nth_error_Some; congruence). specialize (F ltac:(apply in_seq; lia)). pose proof (foldM_unit _ _ F p ltac:(apply in_seq; lia)) as F2. cbv beta in F2. destruct (followed_by r t (Z.of_nat p, Z.of_nat c) false true) as [[|]| | |] eqn:Ef; cbn [bind] in F2; try discriminate. destruct (followed_somewhere r Ht c p t T _ (fun _ => true) H Ef) as (o & _ & Ho). eauto.
  - intros o c j p Lc Hj. unfold child_visit_consecutive in E4. pose proof (foldM_unit _ _ E4 c ltac:(apply in_seq; lia)) as F. apply (consecutive_sound r cg o c t T 1 F j p Hj).
  - intros o L1 c q L2 E. split; [intros Hc; exact (circular_sound r o t T 1 E5 L1 (VisitChild c q) L2 E Hc)|]. assert (M0 : meets o (mkCond 0 0)) by (intros b; cbn [positive negative]; rewrite N.bits_0; split; discriminate). destruct (sane_sound r Ht o t T _ _ _ E3 M0 L1 c q L2 E) as [H1 H2]. split.
    + intros i s Es Gs Ws. eapply H1; eauto.
    + intros i s Es Gs Ws. destruct (H2 i s Es Gs (W o i s Es Ws)) as [X|[_ X]]; auto. exfalso. injection X as X1 X2. lia.
  - intros o L1 i L2 s p c E Es Gs Np Hc. pose proof (circular_sound r o t T 1 E5 L1 (Compute i) L2 E Hc) as X. cbv beta iota in X. eapply X; eauto.
Qed.
Print Assumptions C60_checks_partial.
Ltac tree := repeat (apply to_null || (eapply (to_inst small_rule) with (s := mkSinst _ _ _); [reflexivity|try reflexivity; try discriminate| |]) || (apply (to_child small_rule _ _ 0 1); [cbn; lia|]) || (apply (to_own small_rule _ _ 1); [cbn; lia|])).
Lemma small_simple : simple_tests small_rule.
Proof. destruct small_tests as [H1 H2 _]. split; auto. Qed.
(** The order of the scheduler for small_rule meets all of the above ... *)
Definition small_order : cto :=
  Node 1 0 (Some 0) (-1, -1)%Z 1 0 false Null (Node 2 1 (Some 2) (0, 0)%Z 1 3 false
    (Node 3 2 (Some 3) (-1, 0)%Z 1 2 false Null (Node 4 3 None (1, 0)%Z 1 2 false Null (Node 5 4 (Some 4) (1, 0)%Z 1 2 false Null
      (Node 6 5 (Some 1) (1, -1)%Z 1 1 false Null (Node 7 6 None (1, -1)%Z 1 1 false Null Null)))))
    (Node 9 2 None (1, 0)%Z 1 2 false Null (Node 10 9 (Some 4) (1, 0)%Z 1 2 false Null (Node 11 10 (Some 1) (1, -1)%Z 1 1 false Null (Node 12 11 None (1, -1)%Z 1 1 false Null Null))))).
Example C60_example : exists cg, collect_aug_graph_chunks PrimeModel.primes_init 4096 64 small_rule = Ok cg /\ simple_tests small_rule /\ tree_of small_rule small_order /\ assert_total_order small_rule cg small_order = Ok tt.
Proof. eexists. split; [vm_compute; reflexivity|]. split; [apply small_simple|]. split; [unfold small_order; tree|vm_compute; reflexivity]. Qed.
(** ... but so does one where the child is visited only if the test is true, and the
    attribute that the visit computes is used all the same. *)
Definition lame_order : cto :=
  Node 1 0 (Some 0) (-1, -1)%Z 1 0 false Null (Node 2 1 (Some 2) (0, 0)%Z 1 3 false
    (Node 3 2 (Some 3) (-1, 0)%Z 1 2 false Null (Node 4 3 None (1, 0)%Z 1 2 false Null (Node 5 4 (Some 4) (1, 0)%Z 1 2 false Null
      (Node 6 5 (Some 1) (1, -1)%Z 1 1 false Null (Node 7 6 None (1, -1)%Z 1 1 false Null Null)))))
    (Node 11 2 (Some 1) (1, -1)%Z 1 1 false Null (Node 12 11 None (1, -1)%Z 1 1 false Null Null))).
Theorem C60_refuted : exists ps base size r cg t o, PropsUtil.reachable_sieve ps /\ fits (chunk_count r) base size /\ legal_rule r /\ room r /\ tests_ok r /\ orderly r /\
  collect_aug_graph_chunks ps base size r = Ok cg /\ tree_of r t /\ assert_total_order r cg t = Ok tt /\
  (exists c p, 1 <= p <= phases_of r c /\ ~ In (VisitChild c p) (run r o t)) /\
  (exists j i, depends r j i /\ wanted r o j /\ In (Compute i) (run r o t) /\ ~ In (Compute j) (run r o t)).
Proof.
  destruct C61_example as (E1 & E2 & E3 & E4 & _ & E5 & E6 & _).
  exists PrimeModel.primes_init, 4096%Z, 64%Z, small_rule. eexists. exists lame_order, (fun _ => false).
  split; [exact E1|]. split; [exact E2|]. split; [exact E3|]. split; [exact E4|]. split; [exact E5|]. split; [exact E6|]. split; [vm_compute; reflexivity|]. split; [unfold lame_order; tree|]. split; [vm_compute; reflexivity|]. split; [exists 0, 1|exists 4, 1].
  - split; [cbn; lia|]. vm_compute. intuition discriminate.
  - split; [exists 31%N; cbn; ands; auto; try lia; discriminate|]. split; [eexists; split; [reflexivity|apply nc_meets]|]. split; vm_compute; intuition discriminate.
Qed.
Print Assumptions C60_refuted.
