(** * StProofs2: the evaluation of a tree. *)
From Verif Require Import Base OagModel StModel StSpec StProofs.
Open Scope Z_scope.

(** ** Plans of one rule *)
Section RULE.
Context (M : phylum -> Z) (r : rule) (L : legal M r) (scala : bool).
Let W := lg_wf _ _ L.
Notation insts := (r_insts r).
Notation wpath o := (path (r_insts r) o (r_cto r)).
Notation cur := (cur r).
Notation cp := (cp r).
Notation step_items := (step_items r).
Notation full_plan := (full_plan r).
Notation plan := (plan r).

Lemma step_phase o pre i rest : wpath o = pre ++ i :: rest -> step_items scala o pre i = [] \/ 1 <= cur (pre ++ [i]).
Proof.
  intros E. pose proof (lg_order _ _ L o) as Gd.
  destruct (nth_error insts i) as [g|] eqn:Ei; [|left; unfold StProofs.step_items, visit_of, set_of; rewrite Ei; reflexivity].
  destruct (g_test g) as [x|] eqn:Gt.
  { left. destruct (wf_test _ _ W g x (nth_In _ _ _ Ei) Gt) as [_ Nc]. unfold StProofs.step_items, visit_of, set_of. rewrite Ei, Nc, Gt. reflexivity. }
  right.
  assert (H : forall pre' rest', wpath o = pre' ++ rest' -> (forall j, In j pre' -> is_test insts j) \/ 1 <= cur pre').
  { intros pre'. induction pre' as [|j pre' IH] using rev_ind; intros rest' E'.
    - left. intros j [].
    - rewrite <- app_assoc in E'. cbn [app] in E'. destruct (IH _ E') as [T|T].
      + destruct (nth_error insts j) as [gj|] eqn:Ej.
        * destruct (g_test gj) as [xj|] eqn:Tj.
          -- left. intros k Hk. apply in_app_iff in Hk. destruct Hk as [Hk|[<-|[]]]; [now apply T|]. exists gj, xj. auto.
          -- right. assert (Nt : ~ is_test insts j) by (intros (g1 & x1 & E1 & E2); congruence).
             destruct (gd_first _ _ _ Gd pre' j rest' E' T Nt) as (g1 & E1 & L1 & P1).
             unfold StProofs.cur. rewrite top_snoc, (lhs_ph_eq r j g1 E1 L1). rewrite P1. change (Z.abs (-1)) with 1. lia.
        * right. assert (Nt : ~ is_test insts j) by (intros (g1 & x1 & E1 & E2); congruence).
          destruct (gd_first _ _ _ Gd pre' j rest' E' T Nt) as (g1 & E1 & L1 & P1). congruence.
      + right. unfold StProofs.cur in *. rewrite top_snoc. lia. }
  destruct (H (pre ++ [i]) rest) as [T|T]; [rewrite <- app_assoc; exact E| |exact T].
  destruct (T i) as (g1 & x1 & E1 & E2); [apply in_app_iff; right; now left|]. congruence.
Qed.

Fixpoint plan_upto (o : outcome) (m : Z) (pre p : list nat) : list item :=
  match p with [] => [] | i :: p => (if cur (pre ++ [i]) <=? m then step_items scala o pre i else []) ++ plan_upto o m (pre ++ [i]) p end.
Lemma cur_mono pre i : cur pre <= cur (pre ++ [i]).
Proof. unfold StProofs.cur. rewrite top_snoc. lia. Qed.
Lemma upto_later o m p : forall pre, m < cur pre -> plan_upto o m pre p = [].
Proof. induction p as [|i p IH]; intros pre H; cbn [plan_upto]; [reflexivity|]. pose proof (cur_mono pre i). rewrite IH by lia. replace (cur (pre ++ [i]) <=? m) with false by (symmetry; apply Z.leb_gt; lia). reflexivity. Qed.
Lemma upto_succ o m p : forall pre, plan_upto o (m + 1) pre p = plan_upto o m pre p ++ plan scala o (m + 1) pre p.
Proof.
  induction p as [|i p IH]; intros pre; cbn [plan_upto StProofs.plan]; [reflexivity|]. rewrite IH.
  destruct (Z.leb_spec (cur (pre ++ [i])) m) as [H|H].
  - replace (cur (pre ++ [i]) <=? m + 1) with true by (symmetry; apply Z.leb_le; lia).
    replace (cur (pre ++ [i]) =? m + 1) with false by (symmetry; apply Z.eqb_neq; lia). cbn [app]. now rewrite app_assoc.
  - rewrite (upto_later o m p (pre ++ [i]) H). cbn [app].
    destruct (Z.eqb_spec (cur (pre ++ [i])) (m + 1)) as [Q|Q].
    + replace (cur (pre ++ [i]) <=? m + 1) with true by (symmetry; apply Z.leb_le; lia). reflexivity.
    + replace (cur (pre ++ [i]) <=? m + 1) with false by (symmetry; apply Z.leb_gt; lia). reflexivity.
Qed.
Lemma upto_all o m p : forall pre, cur (pre ++ p) <= m -> plan_upto o m pre p = full_plan scala o pre p.
Proof.
  induction p as [|i p IH]; intros pre H; cbn [plan_upto StProofs.full_plan]; [reflexivity|].
  assert (E : (pre ++ [i]) ++ p = pre ++ i :: p) by (rewrite <- app_assoc; reflexivity).
  rewrite IH by (rewrite E; exact H). replace (cur (pre ++ [i]) <=? m) with true; [reflexivity|]. symmetry. apply Z.leb_le.
  rewrite <- E in H. unfold StProofs.cur in *. rewrite (top_app _ (pre ++ [i])) in H. lia.
Qed.
Lemma upto_none o p : forall pre, wpath o = pre ++ p -> plan_upto o 0 pre p = [].
Proof.
  induction p as [|i p IH]; intros pre E; cbn [plan_upto]; [reflexivity|]. rewrite IH by (rewrite <- app_assoc; exact E).
  destruct (step_phase o pre i p E) as [H|H].
  - rewrite H. destruct (_ <=? _); reflexivity.
  - replace (cur (pre ++ [i]) <=? 0) with false by (symmetry; apply Z.leb_gt; lia). reflexivity.
Qed.
Lemma plan_phases o (h : item -> list event) m : 0 <= m -> flat_map (fun ph => flat_map h (plan scala o ph [] (wpath o))) (phases m) = flat_map h (plan_upto o m [] (wpath o)).
Proof.
  intros Hm. rewrite <- (Z2Nat.id m Hm). induction (Z.to_nat m) as [|n IH].
  - change (phases (Z.of_nat 0)) with (@nil Z). change (Z.of_nat 0) with 0. rewrite (upto_none o _ [] eq_refl). reflexivity.
  - replace (Z.of_nat (S n)) with (Z.of_nat n + 1) by lia. rewrite phases_snoc by lia. rewrite flat_map_app. cbn [flat_map]. rewrite IH, app_nil_r, upto_succ, flat_map_app. reflexivity.
Qed.
Lemma plan_whole o (h : item -> list event) : flat_map (fun ph => flat_map h (plan scala o ph [] (wpath o))) (phases (M (r_lhs r))) = flat_map h (full_plan scala o [] (wpath o)).
Proof.
  pose proof (wf_some _ _ W). rewrite plan_phases by lia. rewrite upto_all; [reflexivity|]. cbn [app].
  rewrite (cur_end M r W _ (lg_order _ _ L o)). lia.
Qed.

(** the visits of a child *)
Definition visits_of (c : nat) (it : item) : list Z := match it with IVisit c' q => if (c' =? c)%nat then [q] else [] | ISet _ _ => [] end.
Lemma visits_set c o pre i : flat_map (visits_of c) (set_of r scala o pre i) = [].
Proof. unfold set_of. destruct (nth_error insts i) as [g|]; [|reflexivity]. destruct (g_test g); [reflexivity|]. destruct (assigned_here scala (g_kind g)); [|reflexivity]. destruct (in_effect r o pre i); reflexivity. Qed.
Lemma plan_visits o c p : forall pre, wpath o = pre ++ p -> phases (cp c pre) ++ flat_map (visits_of c) (full_plan scala o pre p) = phases (cp c (pre ++ p)).
Proof.
  induction p as [|i p IH]; intros pre E; cbn [StProofs.full_plan]; [rewrite !app_nil_r; reflexivity|].
  rewrite flat_map_app. assert (E' : (pre ++ [i]) ++ p = pre ++ i :: p) by (rewrite <- app_assoc; reflexivity).
  rewrite <- E'. rewrite <- IH by (rewrite E'; exact E). rewrite app_assoc. f_equal.
  unfold StProofs.step_items. rewrite flat_map_app, visits_set, app_nil_r.
  unfold StProofs.cp at 2. rewrite top_snoc. fold (StProofs.cp r c).
  pose proof (top_nonneg (ch_ph r c) pre) as Nn. fold (StProofs.cp r c) in Nn.
  unfold visit_of. destruct (nth_error insts i) as [g|] eqn:Ei.
  2:{ unfold ch_ph. rewrite Ei. cbn [flat_map]. rewrite app_nil_r. f_equal. lia. }
  destruct (g_ch g) as [c'|] eqn:Ec.
  2:{ rewrite (ch_ph_none r c i g Ei) by congruence. cbn [flat_map]. rewrite app_nil_r. f_equal. lia. }
  destruct (Nat.eq_dec c' c) as [Q|Q].
  - subst c'. rewrite (ch_ph_eq r c i g Ei Ec).
    destruct (step_child M r W _ (lg_order _ _ L o) pre i p g c E Ei Ec) as [Q|[P [Q|Q]]].
    + replace (cp c pre <? g_ph g) with false by (symmetry; apply Z.ltb_ge; lia). cbn [flat_map]. rewrite app_nil_r. f_equal. lia.
    + replace (cp c pre <? g_ph g) with false by (symmetry; apply Z.ltb_ge; lia). cbn [flat_map]. rewrite app_nil_r. f_equal. lia.
    + replace (cp c pre <? g_ph g) with true by (symmetry; apply Z.ltb_lt; lia). cbn [flat_map visits_of]. rewrite Nat.eqb_refl. cbn [app].
      replace (Z.max (cp c pre) (Z.max 0 (g_ph g))) with (cp c pre + 1) by lia. rewrite phases_snoc by lia. now rewrite Q.
  - rewrite (ch_ph_none r c i g Ei) by congruence. replace (Z.max (cp c pre) 0) with (cp c pre) by lia.
    destruct (cp c' pre <? g_ph g); cbn [flat_map visits_of]; [|apply app_nil_r]. destruct (Nat.eqb_spec c' c); [contradiction|]. cbn [app]. apply app_nil_r.
Qed.
Lemma child_visits o c X : nth_error (r_children r) c = Some X -> flat_map (visits_of c) (full_plan scala o [] (wpath o)) = phases (M X).
Proof.
  intros EX. pose proof (plan_visits o c (wpath o) [] eq_refl) as H. change (phases (cp c [])) with (@nil Z) in H. cbn [app] in H. rewrite H.
  rewrite (cp_end M r W _ (lg_order _ _ L o) c X EX). unfold phases. f_equal. f_equal. lia.
Qed.
Lemma prefix_visits o c p rest : wpath o = p ++ rest -> flat_map (visits_of c) (full_plan scala o [] p) = phases (cp c p).
Proof.
  intros E. assert (G : forall pre q, wpath o = pre ++ q ++ rest -> phases (cp c pre) ++ flat_map (visits_of c) (full_plan scala o pre q) = phases (cp c (pre ++ q))).
  { intros pre q Eq.
    revert pre Eq. induction q as [|i q IH]; intros pre Eq.
    - cbn [StProofs.full_plan flat_map]. now rewrite !app_nil_r.
    - cbn [StProofs.full_plan]. rewrite flat_map_app.
      assert (Eq' : wpath o = (pre ++ [i]) ++ q ++ rest) by (rewrite <- app_assoc; exact Eq).
      assert (E' : (pre ++ [i]) ++ q = pre ++ i :: q) by (rewrite <- app_assoc; reflexivity). rewrite <- E'. rewrite <- (IH _ Eq'). rewrite app_assoc. f_equal.
      pose proof (plan_visits o c (i :: q ++ rest) pre Eq) as A. cbn [StProofs.full_plan] in A. rewrite flat_map_app in A.
      pose proof (plan_visits o c (q ++ rest) (pre ++ [i]) Eq') as B. rewrite <- Eq' in B. cbn [app] in Eq. rewrite <- Eq in A. rewrite <- B in A. rewrite app_assoc in A. now apply app_inv_tail in A. }
  specialize (G [] p E). exact G.
Qed.
Lemma visit_child o p : forall pre c q, In (IVisit c q) (full_plan scala o pre p) -> exists X, nth_error (r_children r) c = Some X.
Proof.
  induction p as [|i p IH]; intros pre c q; cbn [StProofs.full_plan In]; [tauto|]. intros H. apply in_app_iff in H. destruct H as [H|H]; [|now apply (IH _ _ _ H)].
  unfold StProofs.step_items in H. apply in_app_iff in H. destruct H as [H|H].
  - unfold visit_of in H. destruct (nth_error insts i) as [g|] eqn:Ei; [|destruct H]. destruct (g_ch g) as [c'|] eqn:Ec; [|destruct H].
    destruct (cp c' pre <? g_ph g); [|destruct H]. destruct H as [H|[]]. injection H as <- <-.
    destruct (wf_child _ _ W g c' (nth_In _ _ _ Ei) Ec) as (X & EX & _). eauto.
  - unfold set_of in H. destruct (nth_error insts i) as [g|]; [|destruct H]. destruct (g_test g); [destruct H|]. destruct (assigned_here scala (g_kind g)); [|destruct H]. destruct (in_effect r o pre i); [|destruct H]. destruct H as [H|[]]. discriminate.
Qed.

(** splitting *)
Lemma full_app o p1 : forall pre p2, full_plan scala o pre (p1 ++ p2) = full_plan scala o pre p1 ++ full_plan scala o (pre ++ p1) p2.
Proof.
  induction p1 as [|i p1 IH]; intros pre p2; cbn [app StProofs.full_plan]; [now rewrite app_nil_r|]. rewrite IH, <- !app_assoc. reflexivity.
Qed.
Lemma full_in o p : forall pre it, In it (full_plan scala o pre p) -> exists p1 i p2, p = p1 ++ i :: p2 /\ In it (step_items scala o (pre ++ p1) i).
Proof.
  induction p as [|i p IH]; intros pre it; cbn [StProofs.full_plan In]; [tauto|]. intros H. apply in_app_iff in H. destruct H as [H|H].
  - exists [], i, p. split; [reflexivity|]. now rewrite app_nil_r.
  - destruct (IH _ _ H) as (p1 & j & p2 & -> & H'). exists (i :: p1), j, p2. split; [reflexivity|]. rewrite <- app_assoc in H'. exact H'.
Qed.
Lemma full_split o p : forall pre P1 it P2, full_plan scala o pre p = P1 ++ it :: P2 ->
  exists p1 i p2 s1 s2, p = p1 ++ i :: p2 /\ step_items scala o (pre ++ p1) i = s1 ++ it :: s2 /\ P1 = full_plan scala o pre p1 ++ s1.
Proof.
  induction p as [|i p IH]; intros pre P1 it P2; cbn [StProofs.full_plan]; [destruct P1; discriminate|]. intros H.
  destruct (Nat.lt_ge_cases (length P1) (length (step_items scala o pre i))) as [Hl|Hl].
  - exists [], i, p. rewrite app_nil_r. cbn [StProofs.full_plan app].
    assert (E : step_items scala o pre i = P1 ++ it :: firstn (length (step_items scala o pre i) - length P1 - 1) P2).
    { assert (F : firstn (length (step_items scala o pre i)) (step_items scala o pre i ++ full_plan scala o (pre ++ [i]) p) = firstn (length (step_items scala o pre i)) (P1 ++ it :: P2)) by now rewrite H.
      rewrite firstn_app, firstn_all, Nat.sub_diag, firstn_O, app_nil_r in F. rewrite F at 1. rewrite firstn_app. rewrite firstn_all2 by lia. f_equal.
      destruct (length (step_items scala o pre i) - length P1)%nat as [|n] eqn:En; [lia|]. cbn [firstn]. f_equal. f_equal. lia. }
    exists P1, (firstn (length (step_items scala o pre i) - length P1 - 1) P2). auto.
  - assert (E : exists Q1, P1 = step_items scala o pre i ++ Q1).
    { exists (skipn (length (step_items scala o pre i)) P1). assert (F : firstn (length (step_items scala o pre i)) (step_items scala o pre i ++ full_plan scala o (pre ++ [i]) p) = firstn (length (step_items scala o pre i)) (P1 ++ it :: P2)) by now rewrite H.
      rewrite firstn_app, firstn_all, Nat.sub_diag, firstn_O, app_nil_r in F. rewrite firstn_app in F. replace (length (step_items scala o pre i) - length P1)%nat with 0%nat in F by lia. rewrite firstn_O, app_nil_r in F.
      rewrite <- (firstn_skipn (length (step_items scala o pre i)) P1) at 1. f_equal. now symmetry. }
    destruct E as (Q1 & ->). rewrite <- app_assoc in H. apply app_inv_head in H. destruct (IH _ _ _ _ H) as (p1 & j & p2 & s1 & s2 & -> & Hs & ->).
    exists (i :: p1), j, p2, s1, s2. split; [reflexivity|]. split; [rewrite <- app_assoc in Hs; exact Hs|]. cbn [StProofs.full_plan]. now rewrite app_assoc.
Qed.
Lemma set_of_action o a vs pre i : flat_map (run a vs) (set_of r scala o pre i) = action scala r o a pre i.
Proof. unfold set_of, action. destruct (nth_error insts i) as [g|]; [|reflexivity]. destruct (g_test g); [reflexivity|]. destruct (assigned_here scala (g_kind g)); [|reflexivity]. destruct (in_effect r o pre i); reflexivity. Qed.
Lemma set_of_in o pre i j e : In (ISet j e) (step_items scala o pre i) -> j = i /\ In (ISet j e) (set_of r scala o pre i).
Proof.
  unfold StProofs.step_items. intros H. apply in_app_iff in H. destruct H as [H|H].
  - unfold visit_of in H. destruct (nth_error insts i) as [g|]; [|destruct H]. destruct (g_ch g) as [c'|]; [|destruct H]. destruct (cp c' pre <? g_ph g); [|destruct H]. destruct H as [H|[]]. discriminate.
  - split; [|exact H]. unfold set_of in H. destruct (nth_error insts i) as [g|]; [|destruct H]. destruct (g_test g); [destruct H|]. destruct (assigned_here scala (g_kind g)); [|destruct H]. destruct (in_effect r o pre i); [|destruct H]. destruct H as [H|[]]. now injection H.
Qed.
Lemma visit_of_in o pre i c q : In (IVisit c q) (step_items scala o pre i) -> exists g, nth_error insts i = Some g /\ g_ch g = Some c /\ g_ph g = q /\ cp c pre < q.
Proof.
  unfold StProofs.step_items. intros H. apply in_app_iff in H. destruct H as [H|H].
  - unfold visit_of in H. destruct (nth_error insts i) as [g|]; [|destruct H]. destruct (g_ch g) as [c'|] eqn:Ec; [|destruct H]. destruct (Z.ltb_spec (cp c' pre) (g_ph g)); [|destruct H]. destruct H as [H|[]]. injection H as <- <-. exists g. auto.
  - unfold set_of in H. destruct (nth_error insts i) as [g|]; [|destruct H]. destruct (g_test g); [destruct H|]. destruct (assigned_here scala (g_kind g)); [|destruct H]. destruct (in_effect r o pre i); [|destruct H]. destruct H as [H|[]]. discriminate.
Qed.
End RULE.
