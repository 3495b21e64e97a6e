(** * StProofs: what the generated procedures do. *)
From Verif Require Import Base OagModel StModel StSpec.
Open Scope Z_scope.

Lemma addr_eqb_spec a b : reflect (a = b) (addr_eqb a b).
Proof.
  revert b. induction a as [|x a IH]; intros [|y b]; cbn [addr_eqb]; try (constructor; congruence).
  destruct (Nat.eqb_spec x y) as [Q|Q]; cbn [andb]; [|constructor; congruence].
  destruct (IH b) as [Q'|Q']; constructor; congruence.
Qed.
Lemma nth_In {A} (l : list A) i x : nth_error l i = Some x -> In x l.
Proof. apply nth_error_In. Qed.

Inductive item := IVisit (c : nat) (q : Z) | ISet (i : nat) (e : expr).

Section RULE.
Context (M : phylum -> Z) (r : rule) (W : wf M r).
Notation insts := (r_insts r).

Definition lhs_ph (i : nat) : Z := match nth_error insts i with Some g => if g_lhs g then Z.abs (g_ph g) else 0 | None => 0 end.
Definition ch_ph (c i : nat) : Z :=
  match nth_error insts i with
  | Some g => match g_ch g with Some c' => if (c' =? c)%nat then Z.max 0 (g_ph g) else 0 | None => 0 end
  | None => 0
  end.
Definition top (f : nat -> Z) (pre : list nat) : Z := fold_right (fun i m => Z.max (f i) m) 0 pre.
Definition cur := top lhs_ph.
Definition cp (c : nat) := top (ch_ph c).

Lemma top_app f l1 l2 : top f (l1 ++ l2) = Z.max (top f l1) (top f l2).
Proof. unfold top. induction l1 as [|i l IH]; cbn [app fold_right]; [|rewrite IH; lia].
  assert (0 <= fold_right (fun i m => Z.max (f i) m) 0 l2) by (induction l2; cbn [fold_right]; lia). lia. Qed.
Lemma top_snoc f l i : top f (l ++ [i]) = Z.max (top f l) (f i).
Proof. rewrite top_app. unfold top at 2. cbn [fold_right].
  assert (0 <= top f l) by (unfold top; induction l; cbn [fold_right]; lia). lia. Qed.
Lemma top_nonneg f l : 0 <= top f l.
Proof. unfold top; induction l; cbn [fold_right]; lia. Qed.
Lemma top_in f l i : In i l -> f i <= top f l.
Proof. unfold top. induction l as [|x l IH]; cbn [In fold_right]; [tauto|]. intros [->|H]; [lia|]. specialize (IH H). lia. Qed.
Lemma top_some f l : 0 < top f l -> exists i, In i l /\ f i = top f l.
Proof.
  unfold top. induction l as [|x l IH]; cbn [fold_right]; [lia|]. intros H.
  destruct (Z_le_gt_dec (fold_right (fun i m => Z.max (f i) m) 0 l) (f x)) as [L|L].
  - exists x. split; [now left|lia].
  - destruct IH as (i & I & E); [lia|]. exists i. split; [now right|lia].
Qed.

Definition belongs_ph (w : whose) (i : nat) (ph : Z) : Prop := exists g, nth_error insts i = Some g /\ belongs g w /\ g_ph g = ph.
Lemma lhs_ph_pos i : 0 < lhs_ph i -> exists g, nth_error insts i = Some g /\ g_lhs g = true /\ Z.abs (g_ph g) = lhs_ph i.
Proof. unfold lhs_ph. destruct (nth_error insts i) as [g|]; [|lia]. destruct (g_lhs g) eqn:E; [|lia]. eauto. Qed.
Lemma ch_ph_pos c i : 0 < ch_ph c i -> exists g, nth_error insts i = Some g /\ g_ch g = Some c /\ g_ph g = ch_ph c i.
Proof. unfold ch_ph. destruct (nth_error insts i) as [g|]; [|lia]. destruct (g_ch g) as [c'|] eqn:E; [|lia]. destruct (Nat.eqb_spec c' c) as [Q|Q]; [|lia]. subst c'. intros H. exists g. rewrite E. repeat split. lia. Qed.
Lemma lhs_ph_eq i g : nth_error insts i = Some g -> g_lhs g = true -> lhs_ph i = Z.abs (g_ph g).
Proof. unfold lhs_ph. intros -> ->. reflexivity. Qed.
Lemma lhs_ph_none i g : nth_error insts i = Some g -> g_lhs g = false -> lhs_ph i = 0.
Proof. unfold lhs_ph. intros -> ->. reflexivity. Qed.
Lemma ch_ph_eq c i g : nth_error insts i = Some g -> g_ch g = Some c -> ch_ph c i = Z.max 0 (g_ph g).
Proof. unfold ch_ph. intros -> ->. now rewrite Nat.eqb_refl. Qed.
Lemma ch_ph_none c i g : nth_error insts i = Some g -> g_ch g <> Some c -> ch_ph c i = 0.
Proof. unfold ch_ph. intros -> H. destruct (g_ch g) as [c'|]; [|reflexivity]. destruct (Nat.eqb_spec c' c) as [Q|Q]; [congruence|reflexivity]. Qed.
Lemma rank_abs ph : ph <> 0 -> 2 * Z.abs ph - 1 <= rank ph <= 2 * Z.abs ph.
Proof. unfold rank. destruct (Z.ltb_spec ph 0); lia. Qed.

Section PATH.
Context (p : list nat) (Gd : good M r p).

Lemma order_at pre i rest g g' j w : p = pre ++ i :: rest -> nth_error insts i = Some g -> nth_error insts j = Some g' -> belongs g w -> belongs g' w ->
  (In j pre -> rank (g_ph g') <= rank (g_ph g)) /\ (In j rest -> rank (g_ph g) <= rank (g_ph g')).
Proof.
  intros E Ei Ej Bi Bj. split; intros I; apply in_split in I; destruct I as (l1 & l2 & ->).
  - apply (gd_order _ _ _ Gd l1 j l2 i rest g' g w); auto. rewrite E. now rewrite <- app_assoc.
  - apply (gd_order _ _ _ Gd pre i l1 j l2 g g' w); auto.
Qed.
Lemma step_lhs pre i rest g : p = pre ++ i :: rest -> nth_error insts i = Some g -> g_lhs g = true -> Z.abs (g_ph g) = cur pre \/ Z.abs (g_ph g) = cur pre + 1.
Proof.
  intros E Ei L. destruct (wf_lhs _ _ W g (nth_In _ _ _ Ei) L) as [B _].
  assert (L1 : cur pre <= Z.abs (g_ph g)).
  { destruct (Z_le_gt_dec (cur pre) 0); [lia|]. destruct (top_some lhs_ph pre) as (j & I & Ej); [unfold cur in *; lia|].
    destruct (lhs_ph_pos j) as (g' & Eg & Lg & Ph); [unfold cur in *; lia|].
    destruct (order_at pre i rest g g' j Lhs E Ei Eg L Lg) as [O _]. specialize (O I).
    pose proof (rank_abs (g_ph g)). pose proof (rank_abs (g_ph g')). unfold cur in *. lia. }
  destruct (Z_le_gt_dec (Z.abs (g_ph g)) (cur pre + 1)) as [L2|L2]; [lia|]. exfalso.
  pose proof (top_nonneg lhs_ph pre) as Nn. fold cur in Nn.
  destruct (gd_lhs _ _ _ Gd (cur pre + 1)) as (j & g' & I & Ej & Lj & Ph); [lia|].
  rewrite E in I. apply in_app_iff in I. destruct I as [I|[I|I]].
  - pose proof (top_in lhs_ph pre j I) as T. rewrite (lhs_ph_eq j g' Ej Lj) in T. fold cur in T. lia.
  - subst j. rewrite Ei in Ej. injection Ej as <-. lia.
  - destruct (order_at pre i rest g g' j Lhs E Ei Ej L Lj) as [_ O]. specialize (O I).
    pose proof (rank_abs (g_ph g)). pose proof (rank_abs (g_ph g')). lia.
Qed.
Lemma step_child pre i rest g c : p = pre ++ i :: rest -> nth_error insts i = Some g -> g_ch g = Some c ->
  g_ph g = - cp c pre - 1 \/ (0 < g_ph g /\ (g_ph g = cp c pre \/ g_ph g = cp c pre + 1)).
Proof.
  intros E Ei L. destruct (wf_child _ _ W g c (nth_In _ _ _ Ei) L) as (X & EX & B).
  pose proof (top_nonneg (ch_ph c) pre) as Nn. fold (cp c) in Nn.
  assert (L1 : cp c pre <= 0 \/ rank (cp c pre) <= rank (g_ph g)).
  { destruct (Z_le_gt_dec (cp c pre) 0); [lia|]. right. destruct (top_some (ch_ph c) pre) as (j & I & Ej); [unfold cp in *; lia|].
    destruct (ch_ph_pos c j) as (g' & Eg & Lg & Ph); [unfold cp in *; lia|].
    destruct (order_at pre i rest g g' j (Child c) E Ei Eg L Lg) as [O _]. specialize (O I).
    unfold cp in *. rewrite <- Ej, <- Ph. exact O. }
  assert (L2 : rank (g_ph g) <= 2 * cp c pre + 2).
  { destruct (Z_le_gt_dec (rank (g_ph g)) (2 * cp c pre + 2)) as [L2|L2]; [lia|]. exfalso.
    pose proof (rank_abs (g_ph g)).
    destruct (gd_child _ _ _ Gd c X (cp c pre + 1) EX) as (j & g' & I & Ej & Lj & Ph); [lia|].
    rewrite E in I. apply in_app_iff in I. destruct I as [I|[I|I]].
    - pose proof (top_in (ch_ph c) pre j I) as T. rewrite (ch_ph_eq c j g' Ej Lj) in T. fold (cp c) in T. lia.
    - subst j. rewrite Ei in Ej. injection Ej as <-. rewrite Ph in L2. unfold rank in L2. destruct (Z.ltb_spec (cp c pre + 1) 0); lia.
    - destruct (order_at pre i rest g g' j (Child c) E Ei Ej L Lj) as [_ O]. specialize (O I).
      pose proof (rank_abs (g_ph g')). lia. }
  unfold rank in *. destruct (Z.ltb_spec (g_ph g) 0), (Z.ltb_spec (cp c pre) 0); try lia.
Qed.
Lemma cur_end : cur p = M (r_lhs r).
Proof.
  destruct (gd_lhs _ _ _ Gd (M (r_lhs r))) as (i & g & I & Ei & L & Ph); [pose proof (wf_some _ _ W); lia|].
  pose proof (top_in lhs_ph p i I) as T. rewrite (lhs_ph_eq i g Ei L) in T. fold cur in T.
  destruct (top_some lhs_ph p) as (j & J & Ej); [fold cur; pose proof (wf_some _ _ W); lia|]. fold cur in Ej.
  destruct (lhs_ph_pos j) as (g' & Eg & Lg & Ph'); [pose proof (wf_some _ _ W); lia|].
  destruct (wf_lhs _ _ W g' (nth_In _ _ _ Eg) Lg). lia.
Qed.
Lemma cp_end c X : nth_error (r_children r) c = Some X -> cp c p = Z.max 0 (M X).
Proof.
  intros EX. pose proof (top_nonneg (ch_ph c) p) as Nn. fold (cp c) in Nn.
  assert (U : cp c p <= Z.max 0 (M X)).
  { destruct (Z_le_gt_dec (cp c p) 0); [lia|]. destruct (top_some (ch_ph c) p) as (j & J & Ej); [fold (cp c); lia|]. fold (cp c) in Ej.
    destruct (ch_ph_pos c j) as (g' & Eg & Lg & Ph'); [lia|].
    destruct (wf_child _ _ W g' c (nth_In _ _ _ Eg) Lg) as (X' & EX' & B). rewrite EX in EX'. injection EX' as <-. lia. }
  destruct (Z_le_gt_dec (M X) 0) as [L0|L0]; [lia|].
  destruct (gd_child _ _ _ Gd c X (M X) EX) as (i & g & I & Ei & L & Ph); [lia|].
  pose proof (top_in (ch_ph c) p i I) as T. rewrite (ch_ph_eq c i g Ei L) in T. fold (cp c) in T. lia.
Qed.
Lemma cp_prefix c X pre rest : p = pre ++ rest -> nth_error (r_children r) c = Some X -> cp c pre <= Z.max 0 (M X).
Proof. intros E EX. pose proof (cp_end c X EX) as T. rewrite E in T. unfold cp in *. rewrite top_app in T. lia. Qed.
Lemma cur_prefix pre rest : p = pre ++ rest -> cur pre <= M (r_lhs r).
Proof. intros E. pose proof cur_end as T. rewrite E in T. unfold cur in *. rewrite top_app in T. lia. Qed.

(** The visits and assignments at an instance *)
Definition visit_of (pre : list nat) (i : nat) : list item :=
  match nth_error insts i with
  | Some g => match g_ch g with
              | Some c => if (cp c pre <? g_ph g) then [IVisit c (g_ph g)] else []
              | None => []
              end
  | None => []
  end.

Lemma enter_eq f g phase pre i rest cps k : p = pre ++ i :: rest -> nth_error insts i = Some g ->
  (forall c, (c < length (r_children r))%nat -> nth_error cps c = Some (cp c pre)) ->
  enter (S (S f)) g phase (cur pre) cps k =
  if negb (cur (pre ++ [i]) =? cur pre) && (cur pre =? phase) then Ok (Done, true)
  else match visit_of pre i with
       | IVisit c q :: _ =>
         if cur pre =? phase then '(code, cont) <- k (cur (pre ++ [i])) (upd cps c q) ;; Ok (Visit c q code, cont)
         else k (cur (pre ++ [i])) (upd cps c q)
       | _ => k (cur (pre ++ [i])) cps
       end.
Proof.
  intros E Ei Hc.
  assert (Cn : cur (pre ++ [i]) = Z.max (cur pre) (lhs_ph i)) by (unfold cur; apply top_snoc). rewrite Cn.
  pose proof (top_nonneg lhs_ph pre) as Nn. fold cur in Nn.
  unfold visit_of. rewrite Ei.
  destruct (g_lhs g) eqn:L.
  - rewrite (lhs_ph_eq i g Ei L). destruct (wf_lhs _ _ W g (nth_In _ _ _ Ei) L) as [B Nc]. rewrite Nc.
    cbn [enter]. rewrite L, Nc. cbn [andb].
    destruct (step_lhs pre i rest g E Ei L) as [Q|Q].
    + replace (Z.max (cur pre) (Z.abs (g_ph g))) with (cur pre) by lia. rewrite Z.eqb_refl. cbn [negb andb].
      assert (T : negb (g_ph g =? cur pre) && negb (g_ph g =? - cur pre) = false).
      { destruct (Z.eqb_spec (g_ph g) (cur pre)), (Z.eqb_spec (g_ph g) (- cur pre)); try reflexivity. lia. }
      rewrite T. reflexivity.
    + replace (Z.max (cur pre) (Z.abs (g_ph g))) with (cur pre + 1) by lia.
      assert (T : negb (g_ph g =? cur pre) && negb (g_ph g =? - cur pre) = true).
      { destruct (Z.eqb_spec (g_ph g) (cur pre)), (Z.eqb_spec (g_ph g) (- cur pre)); try reflexivity; lia. }
      rewrite T. replace (cur pre + 1 =? cur pre) with false by (symmetry; apply Z.eqb_neq; lia). reflexivity.
  - rewrite (lhs_ph_none i g Ei L). replace (Z.max (cur pre) 0) with (cur pre) by lia. rewrite Z.eqb_refl. cbn [negb andb].
    cbn [enter]. rewrite L. cbn [andb].
    destruct (g_ch g) as [c|] eqn:Ec; [|reflexivity].
    destruct (wf_child _ _ W g c (nth_In _ _ _ Ei) Ec) as (X & EX & B).
    assert (Lc : (c < length (r_children r))%nat) by (apply nth_error_Some; congruence).
    unfold rd. rewrite (Hc c Lc). cbn [bind].
    pose proof (top_nonneg (ch_ph c) pre) as Np. fold (cp c) in Np.
    assert (Lcp : (c < length cps)%nat) by (apply nth_error_Some; rewrite (Hc c Lc); discriminate).
    destruct (step_child pre i rest g c E Ei Ec) as [Q|[P [Q|Q]]].
    + replace (g_ph g =? - cp c pre - 1) with true by (symmetry; apply Z.eqb_eq; lia).
      replace (cp c pre <? g_ph g) with false by (symmetry; apply Z.ltb_ge; lia).
      rewrite andb_false_r. reflexivity.
    + replace (g_ph g =? cp c pre) with true by (symmetry; apply Z.eqb_eq; lia).
      replace (cp c pre <? g_ph g) with false by (symmetry; apply Z.ltb_ge; lia). reflexivity.
    + replace (g_ph g =? cp c pre) with false by (symmetry; apply Z.eqb_neq; lia).
      replace (g_ph g =? - cp c pre - 1) with false by (symmetry; apply Z.eqb_neq; lia).
      replace (cp c pre <? g_ph g) with true by (symmetry; apply Z.ltb_lt; lia). cbn [negb andb].
      replace (g_ph g <? 0) with false by (symmetry; apply Z.ltb_ge; lia).
      rewrite (nth_error_upd_eq cps c (cp c pre + 1) Lcp). cbn [bind]. rewrite <- Q. rewrite Z.eqb_refl. reflexivity.
Qed.
Lemma visit_of_shape pre i c q l : visit_of pre i = IVisit c q :: l -> exists g, nth_error insts i = Some g /\ g_ch g = Some c /\ g_ph g = q /\ cp c pre < q /\ l = [].
Proof.
  unfold visit_of. destruct (nth_error insts i) as [g|]; [|discriminate]. destruct (g_ch g) as [c'|] eqn:Ec; [|discriminate].
  destruct (Z.ltb_spec (cp c' pre) (g_ph g)); [|discriminate]. intros H'. injection H' as -> <- <-. exists g. auto.
Qed.
Lemma visit_of_set pre i j e l : visit_of pre i <> ISet j e :: l.
Proof. unfold visit_of. destruct (nth_error insts i) as [g|]; [|discriminate]. destruct (g_ch g) as [c'|]; [|discriminate]. destruct (cp c' pre <? g_ph g); discriminate. Qed.
(** the phases of the children after an instance *)
Lemma cps_next pre i rest g cps : p = pre ++ i :: rest -> nth_error insts i = Some g ->
  (forall c, (c < length (r_children r))%nat -> nth_error cps c = Some (cp c pre)) ->
  forall c, (c < length (r_children r))%nat ->
  nth_error (match visit_of pre i with IVisit c' q :: _ => upd cps c' q | _ => cps end) c = Some (cp c (pre ++ [i])).
Proof.
  intros E Ei Hc c Lc. unfold cp. rewrite top_snoc. fold (cp c).
  pose proof (top_nonneg (ch_ph c) pre) as Np. fold (cp c) in Np.
  unfold visit_of. rewrite Ei. destruct (g_ch g) as [c'|] eqn:Ec.
  - destruct (Nat.eq_dec c' c) as [Q|Q].
    + subst c'. rewrite (ch_ph_eq c i g Ei Ec). destruct (Z.ltb_spec (cp c pre) (g_ph g)).
      * rewrite nth_error_upd_eq; [f_equal; lia|]. apply nth_error_Some. rewrite (Hc c Lc). discriminate.
      * rewrite (Hc c Lc). f_equal. lia.
    + rewrite (ch_ph_none c i g Ei) by congruence. destruct (cp c' pre <? g_ph g).
      * rewrite nth_error_upd_neq by auto. rewrite (Hc c Lc). f_equal. lia.
      * rewrite (Hc c Lc). f_equal. lia.
  - rewrite (ch_ph_none c i g Ei) by congruence. rewrite (Hc c Lc). f_equal. lia.
Qed.
End PATH.

(** ** Right-hand sides *)
Definition pick (i : nat) (r0 : option expr) (b : block) : option expr := fold_left (fun r s => if (fst s =? i)%nat then Some (snd s) else r) b r0.
Lemma pick_last i r0 b : pick i r0 b = match last_def i b with Some e => Some e | None => r0 end.
Proof.
  unfold last_def, pick. revert r0. induction b as [|[j e] b IH]; intros r0; cbn [fold_left fst snd]; [reflexivity|].
  rewrite IH. rewrite (IH (if (j =? i)%nat then Some e else None)). destruct (fold_left _ b None); [reflexivity|]. destruct (j =? i)%nat; reflexivity.
Qed.
Lemma last_def_app i b1 b2 : last_def i (b1 ++ b2) = match last_def i b2 with Some e => Some e | None => last_def i b1 end.
Proof. unfold last_def at 1. rewrite fold_left_app. fold (last_def i b1). apply pick_last. Qed.
Lemma assign_block_nth is b : forall asg asg' i, assign_block is b asg = Ok asg' -> length asg = length is ->
  length asg' = length is /\ ((i < length is)%nat -> nth_error asg' i = match last_def i b with Some e => Some (Some e) | None => nth_error asg i end).
Proof.
  induction b as [|[j e] b IH]; intros asg asg' i; cbn [assign_block].
  - intros H L. injection H as <-. split; auto.
  - destruct (Nat.leb_spec (length is) j) as [Lj|Lj]; [discriminate|]. intros H L.
    destruct (IH _ _ i H) as [L' N]; [now rewrite upd_length|]. split; [exact L'|]. intros Li. rewrite (N Li).
    change ((j, e) :: b) with ([(j, e)] ++ b). rewrite last_def_app. destruct (last_def i b); [reflexivity|].
    unfold last_def. cbn [fold_left fst snd]. rewrite nth_error_upd. destruct (Nat.eqb_spec j i) as [Q|Q]; [|reflexivity].
    subst j. destruct (Nat.ltb_spec i (length asg)); [reflexivity|lia].
Qed.
Definition asg_ok (o : outcome) (pre : list nat) (asg : list (option expr)) : Prop :=
  length asg = length insts /\ forall i, (i < length insts)%nat -> nth_error asg i = Some (in_effect r o pre i).
Lemma in_effect_snoc o pre i j : in_effect r o (pre ++ [j]) i = match last_def i (taken insts o j) with Some e => Some e | None => in_effect r o pre i end.
Proof.
  unfold in_effect. rewrite flat_map_app. cbn [flat_map]. rewrite app_nil_r. rewrite app_assoc. rewrite last_def_app.
  destruct (last_def i (taken insts o j)); reflexivity.
Qed.
Lemma asg_block o pre j b asg asg' : asg_ok o pre asg -> taken insts o j = b -> assign_block insts b asg = Ok asg' -> asg_ok o (pre ++ [j]) asg'.
Proof.
  intros [L H] T A. split; [apply (assign_block_nth insts b asg asg' 0 A L)|]. intros i Li.
  destruct (assign_block_nth insts b asg asg' i A L) as [_ N]. rewrite (N Li), (H i Li), in_effect_snoc, T.
  destruct (last_def i b); reflexivity.
Qed.
Lemma asg_same o pre j asg : asg_ok o pre asg -> taken insts o j = [] -> asg_ok o (pre ++ [j]) asg.
Proof. intros [L H] T. split; [exact L|]. intros i Li. rewrite (H i Li), in_effect_snoc, T. reflexivity. Qed.

(** ** The plan *)
Definition set_of (scala : bool) (o : outcome) (pre : list nat) (i : nat) : list item :=
  match nth_error insts i with
  | Some g => match g_test g, assigned_here scala (g_kind g), in_effect r o pre i with
              | None, true, Some e => [ISet i e]
              | _, _, _ => []
              end
  | None => []
  end.
Definition step_items scala o pre i := visit_of pre i ++ set_of scala o pre i.
Fixpoint plan (scala : bool) (o : outcome) (phase : Z) (pre p : list nat) : list item :=
  match p with
  | [] => []
  | i :: p => (if cur (pre ++ [i]) =? phase then step_items scala o pre i else []) ++ plan scala o phase (pre ++ [i]) p
  end.
Lemma plan_later scala o phase pre p : phase < cur pre -> plan scala o phase pre p = [].
Proof.
  revert pre. induction p as [|i p IH]; intros pre H; cbn [plan]; [reflexivity|].
  assert (cur pre <= cur (pre ++ [i])) by (unfold cur; rewrite top_snoc; lia).
  rewrite IH by lia. replace (cur (pre ++ [i]) =? phase) with false by (symmetry; apply Z.eqb_neq; lia). reflexivity.
Qed.
Lemma emitted_eq scala k rhs : emitted scala k rhs = if assigned_here scala k then rhs else None.
Proof. destruct k; cbn; try reflexivity. destruct scala; reflexivity. Qed.

Definition run (a : addr) (vs : list (Z -> list event)) (it : item) : list event :=
  match it with
  | IVisit c q => match nth_error vs c with Some v => v q | None => [Missing (c :: a) q] end
  | ISet i e => [Set_ a i e]
  end.

Section EXEC.
Context (I : nat -> list ginst) (O : addr -> outcome) (wrong : addr -> nat -> nat -> bool) (con : nat) (HI : I con = insts) (a : addr) (vs : list (Z -> list event)) (scala : bool) (f : nat).
Notation ex := (exec I O wrong con a vs).
Notation o := (O a).
Context (whole : list nat) (Gd : good M r whole).

Lemma in_scope_app n l1 l2 : in_scope insts n (l1 ++ l2) = in_scope insts (in_scope insts n l1) l2.
Proof. revert n. induction l1 as [|i l IH]; intros n; cbn [app in_scope]; [reflexivity|]. apply IH. Qed.

Lemma gen_exec : forall t phase pre asg cps code cont,
  1 <= phase -> cur pre <= phase -> whole = pre ++ path insts o t -> asg_ok o pre asg ->
  (forall c, (c < length (r_children r))%nat -> nth_error cps c = Some (cp c pre)) ->
  gen scala (S (S f)) insts t phase (cur pre) asg cps = Ok (code, cont) ->
  ex (in_scope insts None pre) code = flat_map (run a vs) (plan scala o phase pre (path insts o t)).
Proof.
  induction t as [|i t IH|i tf IHf tt IHt]; intros phase pre asg cps code cont P1 Pc Ew Ha Hc.
  - cbn [gen path plan flat_map]. intros H. injection H as <- <-. reflexivity.
  - cbn [gen path plan]. cbn [path] in Ew. destruct (nth_error insts i) as [g|] eqn:Ei; [|unfold rd; rewrite Ei; discriminate].
    unfold rd at 1. rewrite Ei. cbn [bind]. rewrite (enter_eq whole Gd f g phase pre i _ cps _ Ew Ei Hc).
    assert (Ew' : whole = (pre ++ [i]) ++ path insts o t) by (rewrite <- app_assoc; exact Ew).
    pose proof (cps_next whole pre i _ g cps Ew Ei Hc) as Hc'.
    assert (Mono : cur pre <= cur (pre ++ [i])) by (unfold cur; rewrite top_snoc; lia).
    destruct (negb (cur (pre ++ [i]) =? cur pre) && (cur pre =? phase)) eqn:Ch.
    { apply andb_true_iff in Ch. destruct Ch as [Ch1 Ch2]. apply negb_true_iff in Ch1. apply Z.eqb_neq in Ch1. apply Z.eqb_eq in Ch2.
      intros H. injection H as <- <-. cbn [exec]. replace (cur (pre ++ [i]) =? phase) with false by (symmetry; apply Z.eqb_neq; lia).
      cbn [app]. rewrite plan_later by lia. reflexivity. }
    assert (Pn : cur (pre ++ [i]) <= phase).
    { apply andb_false_iff in Ch. destruct (Z.eq_dec (cur (pre ++ [i])) (cur pre)); [lia|].
      destruct Ch as [Ch|Ch]; [apply negb_false_iff in Ch; apply Z.eqb_eq in Ch; lia|]. apply Z.eqb_neq in Ch.
      destruct (g_lhs g) eqn:Lg; [destruct (step_lhs whole Gd pre i _ g Ew Ei Lg) as [Q|Q]|]; unfold cur in *; rewrite top_snoc in *.
      - rewrite (lhs_ph_eq i g Ei Lg) in *. lia.
      - rewrite (lhs_ph_eq i g Ei Lg) in *. lia.
      - rewrite (lhs_ph_none i g Ei Lg) in *. pose proof (top_nonneg lhs_ph pre). lia. }
    (* the continuation *)
    assert (K : forall cps' code cont, g_test g = None ->
      (forall c, (c < length (r_children r))%nat -> nth_error cps' c = Some (cp c (pre ++ [i]))) ->
      (if negb (phase =? cur (pre ++ [i])) then gen scala (S (S f)) insts t phase (cur (pre ++ [i])) asg cps'
       else rhs <- rd asg i ;;
            match emitted scala (g_kind g) rhs with
            | Some e => '(code, cont) <- gen scala (S (S f)) insts t phase (cur (pre ++ [i])) asg cps' ;; Ok (Assign i e code, cont)
            | None => gen scala (S (S f)) insts t phase (cur (pre ++ [i])) asg cps'
            end) = Ok (code, cont) ->
      ex (in_scope insts None pre) code = flat_map (run a vs) ((if cur (pre ++ [i]) =? phase then set_of scala o pre i else []) ++ plan scala o phase (pre ++ [i]) (path insts o t))).
    { intros cps' code' cont' Gt Hcp H.
      assert (Sc : in_scope insts None (pre ++ [i]) = in_scope insts None pre) by (rewrite in_scope_app; cbn [in_scope]; rewrite Ei, Gt; reflexivity).
      assert (Ha' : asg_ok o (pre ++ [i]) asg) by (apply asg_same; [exact Ha|unfold taken; rewrite Ei, Gt; reflexivity]).
      rewrite (Z.eqb_sym phase) in H. unfold set_of. rewrite Ei, Gt.
      destruct (cur (pre ++ [i]) =? phase) eqn:Eq; cbn [negb] in H.
      - unfold rd in H. rewrite (proj2 Ha i) in H by (apply nth_error_Some; congruence). cbn [bind] in H. rewrite emitted_eq in H.
        destruct (assigned_here scala (g_kind g)); cbn beta iota in H |- *.
        + destruct (in_effect r o pre i) as [e|].
          * apply bind_Ok in H. destruct H as ([code1 cont1] & H & H'). injection H' as <- <-. cbn [exec app flat_map run].
            f_equal. rewrite <- Sc. apply (IH phase (pre ++ [i]) asg cps' code1 cont1 P1 Pn Ew' Ha' Hcp H).
          * cbn [app]. rewrite <- Sc. apply (IH phase (pre ++ [i]) asg cps' code' cont' P1 Pn Ew' Ha' Hcp H).
        + cbn [app]. rewrite <- Sc. apply (IH phase (pre ++ [i]) asg cps' code' cont' P1 Pn Ew' Ha' Hcp H).
      - cbn [app]. rewrite <- Sc. apply (IH phase (pre ++ [i]) asg cps' code' cont' P1 Pn Ew' Ha' Hcp H). }
    destruct (g_test g) as [x|] eqn:Gt.
    { destruct (visit_of pre i) as [|[c q|] l]; try discriminate. destruct (cur pre =? phase); discriminate. }
    unfold step_items. destruct (visit_of pre i) as [|[c q|j e] l] eqn:Vi.
    + intros H. rewrite (K cps code cont eq_refl Hc' H). cbn [app]. reflexivity.
    + destruct (visit_of_shape pre i c q l Vi) as (g' & Eg' & Ec & Eq & Lt & ->). rewrite Ei in Eg'. injection Eg' as <-.
      assert (Cs : cur (pre ++ [i]) = cur pre).
      { unfold cur. rewrite top_snoc. destruct (g_lhs g) eqn:Lg; [destruct (wf_lhs _ _ W g (nth_In _ _ _ Ei) Lg); congruence|].
        rewrite (lhs_ph_none i g Ei Lg). pose proof (top_nonneg lhs_ph pre). lia. }
      rewrite <- Cs at 1. destruct (cur (pre ++ [i]) =? phase) eqn:Eph.
      * intros H. apply bind_Ok in H. destruct H as ([code1 cont1] & H & H'). injection H' as <- <-.
        pose proof (K (upd cps c q) code1 cont1 eq_refl Hc' H) as E1. cbn [exec app]. cbn [app flat_map run]. rewrite E1. reflexivity.
      * intros H. rewrite (K (upd cps c q) code cont eq_refl Hc' H). reflexivity.
    + now destruct (visit_of_set pre i j e l).
  - cbn [gen path plan]. cbn [path] in Ew. destruct (nth_error insts i) as [g|] eqn:Ei; [|unfold rd; rewrite Ei; discriminate].
    unfold rd at 1. rewrite Ei. cbn [bind]. rewrite (enter_eq whole Gd f g phase pre i _ cps _ Ew Ei Hc).
    pose proof (cps_next whole pre i _ g cps Ew Ei Hc) as Hc'.
    destruct (g_test g) as [[k x]|] eqn:Gt.
    2:{ destruct (negb (cur (pre ++ [i]) =? cur pre) && (cur pre =? phase)) eqn:Ch.
      { destruct (g_lhs g) eqn:Lg.
        - apply andb_true_iff in Ch. destruct Ch as [Ch1 Ch2]. apply negb_true_iff in Ch1. apply Z.eqb_neq in Ch1. apply Z.eqb_eq in Ch2.
          assert (Mono : cur pre <= cur (pre ++ [i])) by (unfold cur; rewrite top_snoc; lia).
          intros H. injection H as <- <-. cbn [exec]. replace (cur (pre ++ [i]) =? phase) with false by (symmetry; apply Z.eqb_neq; lia).
          cbn [app]. rewrite plan_later by lia. reflexivity.
        - exfalso. apply andb_true_iff in Ch. destruct Ch as [Ch1 Ch2]. apply negb_true_iff in Ch1. apply Z.eqb_neq in Ch1. apply Ch1.
          unfold cur. rewrite top_snoc, (lhs_ph_none i g Ei Lg). pose proof (top_nonneg lhs_ph pre). lia. }
      destruct (visit_of pre i) as [|[c q|] l]; try discriminate. destruct (cur pre =? phase); discriminate. }
    destruct (wf_test _ _ W g (k, x) (nth_In _ _ _ Ei) Gt) as [Nl Nc].
    assert (Cs : cur (pre ++ [i]) = cur pre) by (unfold cur; rewrite top_snoc, (lhs_ph_none i g Ei Nl); pose proof (top_nonneg lhs_ph pre); lia).
    assert (Vi : visit_of pre i = []) by (unfold visit_of; rewrite Ei, Nc; reflexivity).
    rewrite Vi in Hc' |- *. rewrite Cs in *. rewrite Z.eqb_refl. cbn [negb andb].
    assert (Si : step_items scala o pre i = []) by (unfold step_items, set_of; rewrite Vi, Ei, Gt; reflexivity).
    rewrite Si. assert (Sn : (if cur pre =? phase then @nil item else []) = []) by (destruct (cur pre =? phase); reflexivity). rewrite Sn. cbn [app].
    assert (Tr : truth insts o i = o k) by (unfold truth; rewrite Ei, Gt; reflexivity). rewrite Tr in Ew |- *.
    assert (Gp : forall t, (pre ++ [i]) ++ path insts o t = pre ++ i :: path insts o t) by (intros; rewrite <- app_assoc; reflexivity).
    destruct x as [b_t b_f|h first body default].
    + intros H. apply bind_Ok in H. destruct H as (asg_t & At & H). apply bind_Ok in H. destruct H as ([ct contt] & Gt' & H).
      apply bind_Ok in H. destruct H as (asg_f & Af & H). apply bind_Ok in H. destruct H as ([cf contf] & Gf & H). injection H as <- <-.
      cbn [exec]. rewrite HI, Tr.
      assert (Sc : in_scope insts None (pre ++ [i]) = in_scope insts None pre) by (rewrite in_scope_app; cbn [in_scope]; rewrite Ei, Gt; reflexivity).
      rewrite <- Sc. rewrite <- Cs in Gt', Gf.
      destruct (o k) eqn:Ok.
      * apply (IHt phase (pre ++ [i]) asg_t cps ct contt P1); try rewrite Cs; auto.
        -- rewrite Gp. exact Ew.
        -- apply (asg_block o pre i b_t asg); auto. unfold taken. rewrite Ei, Gt, Ok. reflexivity.
        -- now rewrite Cs in Gt'.
      * apply (IHf phase (pre ++ [i]) asg_f cps cf contf P1); try rewrite Cs; auto.
        -- rewrite Gp. exact Ew.
        -- apply (asg_block o pre i b_f asg); auto. unfold taken. rewrite Ei, Gt, Ok. reflexivity.
        -- now rewrite Cs in Gf.
    + intros H. apply bind_Ok in H. destruct H as (asg_t & At & H). apply bind_Ok in H. destruct H as ([ct contt] & Gt' & H).
      apply bind_Ok in H. destruct H as (asg_f & Af & H). apply bind_Ok in H. destruct H as ([cf contf] & Gf & H). injection H as <- <-.
      assert (Hh : header_of insts i = Some h) by (unfold header_of; rewrite Ei, Gt; reflexivity).
      pose proof (gd_scope _ _ _ Gd pre i _ h Ew Hh) as Sc.
      assert (Ex : ex (in_scope insts None pre) (if first then LetNode h (Match i ct cf) else Match i ct cf) = ex (Some h) (Match i ct cf)).
      { rewrite in_scope_app in Sc. cbn [in_scope] in Sc. rewrite Ei, Gt in Sc. destruct first; [reflexivity|]. rewrite Sc. reflexivity. }
      rewrite Ex. cbn [exec]. rewrite HI, Hh, Nat.eqb_refl, Tr. rewrite <- Sc.
      rewrite <- Cs in Gt', Gf.
      destruct (o k) eqn:Ok.
      * apply (IHt phase (pre ++ [i]) asg_t cps ct contt P1); try rewrite Cs; auto.
        -- rewrite Gp. exact Ew.
        -- apply (asg_block o pre i body asg); auto. unfold taken. rewrite Ei, Gt, Ok. reflexivity.
        -- now rewrite Cs in Gt'.
      * apply (IHf phase (pre ++ [i]) asg_f cps cf contf P1); try rewrite Cs; auto.
        -- rewrite Gp. exact Ew.
        -- destruct default as [b|].
           ++ apply (asg_block o pre i b asg); auto. unfold taken. rewrite Ei, Gt, Ok. reflexivity.
           ++ injection Af as <-. apply asg_same; auto. unfold taken. rewrite Ei, Gt, Ok. reflexivity.
        -- now rewrite Cs in Gf.
Qed.
End EXEC.

(** ** The generation succeeds *)
Lemma assign_block_ok is b asg : (forall i e, In (i, e) b -> (i < length is)%nat) -> exists asg', assign_block is b asg = Ok asg'.
Proof.
  revert asg. induction b as [|[j e] b IH]; intros asg H; cbn [assign_block]; [eauto|].
  destruct (Nat.leb_spec (length is) j) as [L|L]; [specialize (H j e (or_introl eq_refl)); lia|].
  apply IH. intros i e' Hi. apply (H i e'). now right.
Qed.
Lemma assign_block_len is b : forall asg asg', assign_block is b asg = Ok asg' -> length asg' = length asg.
Proof. induction b as [|[j e] b IH]; intros asg asg'; cbn [assign_block]; [intros H; injection H as <-; reflexivity|]. destruct (length is <=? j)%nat; [discriminate|]. intros H. rewrite (IH _ _ H). apply upd_length. Qed.

Definition agrees (D : list (nat * bool)) (o : outcome) : Prop := forall k b, In (k, b) D -> o k = b.
Section TOTAL.
Context (scala : bool) (f : nat) (B : branches_right insts (r_cto r)) (Gd : forall o, good M r (path insts o (r_cto r))).

Lemma gen_total : forall t phase pre asg cps D,
  branches_right insts t -> 1 <= phase -> cur pre <= phase ->
  (exists o, agrees D o) -> (forall k b, In (k, b) D -> exists j g x, In j pre /\ nth_error insts j = Some g /\ g_test g = Some (k, x)) ->
  (forall o, agrees D o -> path insts o (r_cto r) = pre ++ path insts o t) ->
  length asg = length insts ->
  (forall c, (c < length (r_children r))%nat -> nth_error cps c = Some (cp c pre)) ->
  exists code, gen scala (S (S f)) insts t phase (cur pre) asg cps = Ok (code, phase <? M (r_lhs r)).
Proof.
  induction t as [|i t IH|i tf IHf tt IHt]; intros phase pre asg cps D Br P1 Pc (o & Ag) HD Ew La Hc.
  - cbn [gen]. exists Done. specialize (Ew o Ag). cbn [path] in Ew. rewrite app_nil_r in Ew.
    pose proof (cur_end _ (Gd o)) as Ce. rewrite Ew in Ce. replace (phase <? M (r_lhs r)) with false by (symmetry; apply Z.ltb_ge; lia). reflexivity.
  - cbn [gen branches_right] in *. destruct Br as [(g & Ei & Gt) Br]. unfold rd at 1. rewrite Ei. cbn [bind].
    pose proof (Ew o Ag) as Ew1. cbn [path] in Ew1. rewrite (enter_eq _ (Gd o) f g phase pre i _ cps _ Ew1 Ei Hc).
    pose proof (cps_next _ pre i _ g cps Ew1 Ei Hc) as Hc'.
    assert (Mono : cur pre <= cur (pre ++ [i])) by (unfold cur; rewrite top_snoc; lia).
    assert (Ew1' : path insts o (r_cto r) = (pre ++ [i]) ++ path insts o t) by (rewrite <- app_assoc; exact Ew1).
    destruct (negb (cur (pre ++ [i]) =? cur pre) && (cur pre =? phase)) eqn:Ch.
    { apply andb_true_iff in Ch. destruct Ch as [Ch1 Ch2]. apply negb_true_iff in Ch1. apply Z.eqb_neq in Ch1. apply Z.eqb_eq in Ch2.
      exists Done. pose proof (cur_prefix _ (Gd o) (pre ++ [i]) _ Ew1') as Cp. replace (phase <? M (r_lhs r)) with true by (symmetry; apply Z.ltb_lt; lia). reflexivity. }
    assert (Pn : cur (pre ++ [i]) <= phase).
    { apply andb_false_iff in Ch. destruct (Z.eq_dec (cur (pre ++ [i])) (cur pre)); [lia|].
      destruct Ch as [Ch|Ch]; [apply negb_false_iff in Ch; apply Z.eqb_eq in Ch; lia|]. apply Z.eqb_neq in Ch.
      destruct (g_lhs g) eqn:Lg; [destruct (step_lhs _ (Gd o) pre i _ g Ew1 Ei Lg) as [Q|Q]|]; unfold cur in *; rewrite top_snoc in *.
      - rewrite (lhs_ph_eq i g Ei Lg) in *. lia.
      - rewrite (lhs_ph_eq i g Ei Lg) in *. lia.
      - rewrite (lhs_ph_none i g Ei Lg) in *. pose proof (top_nonneg lhs_ph pre). lia. }
    assert (K : forall cps',
      (forall c, (c < length (r_children r))%nat -> nth_error cps' c = Some (cp c (pre ++ [i]))) ->
      exists code, (if negb (phase =? cur (pre ++ [i])) then gen scala (S (S f)) insts t phase (cur (pre ++ [i])) asg cps'
       else rhs <- rd asg i ;;
            match emitted scala (g_kind g) rhs with
            | Some e => '(code, cont) <- gen scala (S (S f)) insts t phase (cur (pre ++ [i])) asg cps' ;; Ok (Assign i e code, cont)
            | None => gen scala (S (S f)) insts t phase (cur (pre ++ [i])) asg cps'
            end) = Ok (code, phase <? M (r_lhs r))).
    { intros cps' Hcp. destruct (IH phase (pre ++ [i]) asg cps' D Br P1 Pn (ex_intro _ o Ag)) as (code & Hg); auto.
      - intros k b Hin. destruct (HD k b Hin) as (j & g' & x & Hj & H'). exists j, g', x. split; [apply in_app_iff; now left|exact H'].
      - intros o' Ag'. rewrite <- app_assoc. apply (Ew o' Ag').
      - rewrite Hg. destruct (negb (phase =? cur (pre ++ [i]))); [eauto|].
        unfold rd. destruct (nth_error asg i) as [rhs|] eqn:Er; [|exfalso; apply nth_error_None in Er; rewrite La in Er; assert (i < length insts)%nat by (apply nth_error_Some; congruence); lia].
        cbn [bind]. destruct (emitted scala (g_kind g) rhs); eauto. }
    rewrite Gt. destruct (visit_of pre i) as [|[c q|j e] l] eqn:Vi.
    + apply (K cps Hc').
    + destruct (K (upd cps c q) Hc') as (code & Hk). destruct (cur pre =? phase); [|eauto]. rewrite Hk. cbn [bind]. eauto.
    + now destruct (visit_of_set pre i j e l).
  - cbn [gen branches_right] in *. destruct Br as [(g & [k x] & Ei & Gt) [Bf Bt]]. unfold rd at 1. rewrite Ei. cbn [bind].
    pose proof (Ew o Ag) as Ew1. cbn [path] in Ew1. rewrite (enter_eq _ (Gd o) f g phase pre i _ cps _ Ew1 Ei Hc).
    pose proof (cps_next _ pre i _ g cps Ew1 Ei Hc) as Hc'.
    destruct (wf_test _ _ W g (k, x) (nth_In _ _ _ Ei) Gt) as [Nl Nc].
    assert (Cs : cur (pre ++ [i]) = cur pre) by (unfold cur; rewrite top_snoc, (lhs_ph_none i g Ei Nl); pose proof (top_nonneg lhs_ph pre); lia).
    assert (Vi : visit_of pre i = []) by (unfold visit_of; rewrite Ei, Nc; reflexivity).
    rewrite Vi in Hc' |- *. rewrite Cs in *. rewrite Z.eqb_refl. cbn [negb andb]. rewrite Gt.
    assert (Fresh : forall b, ~ In (k, b) D).
    { intros b Hin. destruct (HD k b Hin) as (j & g' & x' & Hj & Ej & Tj). pose proof (wf_conds _ _ W i j g g' k x x' Ei Ej Gt Tj) as Q. subst j.
      pose proof (gd_once _ _ _ (Gd o)) as Nd. rewrite Ew1 in Nd. apply NoDup_remove_2 in Nd. apply Nd. apply in_app_iff. now left. }
    assert (Next : forall (v : bool) t0, (if v then tt else tf) = t0 ->
       (exists o, agrees ((k, v) :: D) o) /\ (forall k' b, In (k', b) ((k, v) :: D) -> exists j g x, In j (pre ++ [i]) /\ nth_error insts j = Some g /\ g_test g = Some (k', x)) /\
       (forall o, agrees ((k, v) :: D) o -> path insts o (r_cto r) = (pre ++ [i]) ++ path insts o t0)).
    { intros v t0 Et0. split; [|split].
      - exists (fun k' => if (k' =? k)%nat then v else o k'). intros k' b [Hin|Hin].
        + injection Hin as <- <-. now rewrite Nat.eqb_refl.
        + destruct (Nat.eqb_spec k' k) as [Q|Q]; [subst k'; now destruct (Fresh b)|]. now apply Ag.
      - intros k' b [Hin|Hin].
        + injection Hin as <- <-. exists i, g, x. split; [apply in_app_iff; right; now left|auto].
        + destruct (HD k' b Hin) as (j & g' & x' & Hj & H'). exists j, g', x'. split; [apply in_app_iff; now left|exact H'].
      - intros o' Ag'. rewrite (Ew o'); [|intros k' b Hin; apply Ag'; now right]. cbn [path].
        assert (Tr : truth insts o' i = v) by (unfold truth; rewrite Ei, Gt; apply Ag'; now left). rewrite Tr. rewrite <- app_assoc. cbn [app]. subst t0. destruct v; reflexivity. }
    assert (Tk : forall b, (exists o', taken insts o' i = b) -> exists asg', assign_block insts b asg = Ok asg' /\ length asg' = length insts).
    { intros b (o' & Tb). destruct (assign_block_ok insts b asg) as (asg' & A).
      - intros i' e Hin. apply (wf_blocks _ _ W b i' e); auto. right. exists o', i. now rewrite Tb.
      - exists asg'. split; [exact A|]. rewrite (assign_block_len _ _ _ _ A). exact La. }
    destruct (Next true tt eq_refl) as (N1 & N2 & N3). destruct (Next false tf eq_refl) as (N4 & N5 & N6).
    rewrite <- Cs in Pc.
    destruct x as [b_t b_f|h first body default].
    + destruct (Tk b_t) as (asg_t & At & Lt); [exists (fun _ => true); unfold taken; rewrite Ei, Gt; reflexivity|].
      destruct (Tk b_f) as (asg_f & Af & Lf); [exists (fun _ => false); unfold taken; rewrite Ei, Gt; reflexivity|].
      rewrite At. cbn [bind]. destruct (IHt phase (pre ++ [i]) asg_t cps _ Bt P1 Pc N1 N2 N3 Lt Hc') as (ct & Gct). rewrite Cs in Gct. rewrite Gct. cbn [bind].
      rewrite Af. cbn [bind]. destruct (IHf phase (pre ++ [i]) asg_f cps _ Bf P1 Pc N4 N5 N6 Lf Hc') as (cf & Gcf). rewrite Cs in Gcf. rewrite Gcf. cbn [bind]. eauto.
    + destruct (Tk body) as (asg_t & At & Lt); [exists (fun _ => true); unfold taken; rewrite Ei, Gt; reflexivity|].
      assert (exists asg_f, (match default with Some b => assign_block insts b asg | None => Ok asg end) = Ok asg_f /\ length asg_f = length insts) as (asg_f & Af & Lf).
      { destruct default as [b|]; [|eauto]. apply Tk. exists (fun _ => false); unfold taken; rewrite Ei, Gt; reflexivity. }
      rewrite At. cbn [bind]. destruct (IHt phase (pre ++ [i]) asg_t cps _ Bt P1 Pc N1 N2 N3 Lt Hc') as (ct & Gct). rewrite Cs in Gct. rewrite Gct. cbn [bind].
      rewrite Af. cbn [bind]. destruct (IHf phase (pre ++ [i]) asg_f cps _ Bf P1 Pc N4 N5 N6 Lf Hc') as (cf & Gcf). rewrite Cs in Gcf. rewrite Gcf. cbn [bind]. eauto.
Qed.
Lemma gen_start_total phase asg : 1 <= phase -> length asg = length insts ->
  exists code, gen scala (S (S f)) insts (r_cto r) phase 0 asg (map (fun _ => 0) (r_children r)) = Ok (code, phase <? M (r_lhs r)).
Proof.
  intros P1 La. apply (gen_total (r_cto r) phase [] asg (map (fun _ => 0) (r_children r)) [] B P1); auto.
  - change (cur []) with 0. lia.
  - exists (fun _ => false). intros k b [].
  - intros k b [].
  - intros c Lc. change (cp c []) with 0. rewrite nth_error_map. destruct (nth_error (r_children r) c) eqn:E; [reflexivity|]. apply nth_error_None in E. lia.
Qed.
Lemma procs_total asg : length asg = length insts -> forall phases phase, 0 <= phase < M (r_lhs r) -> M (r_lhs r) - phase <= Z.of_nat phases ->
  exists l, visit_procs scala (S (S f)) phases r asg phase = Ok l /\ Z.of_nat (length l) = M (r_lhs r) - phase /\
  forall n, (n < length l)%nat -> exists c cont, nth_error l n = Some c /\ gen scala (S (S f)) insts (r_cto r) (phase + 1 + Z.of_nat n) 0 asg (map (fun _ => 0) (r_children r)) = Ok (c, cont).
Proof.
  intros La. induction phases as [|ph IH]; intros phase P1 P2; [lia|]. cbn [visit_procs].
  destruct (gen_start_total (phase + 1) asg) as (code & Hg); [lia|exact La|]. rewrite Hg. cbn [bind].
  destruct (Z.ltb_spec (phase + 1) (M (r_lhs r))) as [L|L].
  - destruct (IH (phase + 1)) as (l & Hl & Ll & Hn); [lia|lia|]. rewrite Hl. cbn [bind]. exists (code :: l). split; [reflexivity|]. split; [cbn [length]; lia|].
    intros [|n] Ln.
    + exists code. cbn [nth_error]. replace (phase + 1 + Z.of_nat 0) with (phase + 1) by lia. eauto.
    + cbn [nth_error length] in *. destruct (Hn n) as (c & cont & E & Hc); [lia|]. exists c, cont. split; [exact E|]. replace (phase + 1 + Z.of_nat (S n)) with (phase + 1 + 1 + Z.of_nat n) by lia. exact Hc.
  - exists [code]. split; [reflexivity|]. split; [cbn [length]; lia|]. intros [|n] Ln; [|cbn [length] in Ln; lia].
    exists code. cbn [nth_error]. replace (phase + 1 + Z.of_nat 0) with (phase + 1) by lia. eauto.
Qed.
End TOTAL.

(** ** The whole plan *)
Fixpoint full_plan (scala : bool) (o : outcome) (pre p : list nat) : list item :=
  match p with [] => [] | i :: p => step_items scala o pre i ++ full_plan scala o (pre ++ [i]) p end.
Lemma phases_snoc m : 0 <= m -> phases (m + 1) = phases m ++ [m + 1].
Proof.
  intros H. unfold phases. replace (Z.to_nat (m + 1)) with (S (Z.to_nat m)) by lia. rewrite seq_S, map_app. cbn [map]. f_equal. f_equal. lia.
Qed.
Lemma phases_in m ph : In ph (phases m) <-> 1 <= ph <= m.
Proof. unfold phases. rewrite in_map_iff. split; [intros (n & <- & H); apply in_seq in H; lia|]. intros H. exists (Z.to_nat ph). split; [lia|]. apply in_seq. lia. Qed.
End RULE.
