(** * StCheck: deciding that an order is legal (for the examples). *)
From Verif Require Import Base OagModel StModel StSpec.
Open Scope Z_scope.

Definition pair_ok (g g' : ginst) : bool :=
  (negb (g_lhs g && g_lhs g') || (rank (g_ph g) <=? rank (g_ph g'))) &&
  match g_ch g, g_ch g' with Some c, Some c' => negb (c =? c')%nat || (rank (g_ph g) <=? rank (g_ph g')) | _, _ => true end.
Section CHECK.
Context (M : phylum -> Z) (r : rule).
Notation insts := (r_insts r).
Definition rel_ok (i j : nat) : bool := match nth_error insts i, nth_error insts j with Some g, Some g' => pair_ok g g' | _, _ => true end.
Fixpoint order_ok (p : list nat) : bool := match p with [] => true | i :: p => negb (existsb (Nat.eqb i) p) && forallb (rel_ok i) p && order_ok p end.
Definition has (p : list nat) (f : ginst -> bool) : bool := existsb (fun i => match nth_error insts i with Some g => f g | None => false end) p.
Definition lhs_ok (p : list nat) : bool := forallb (fun ph => has p (fun g => g_lhs g && (g_ph g =? ph))) (phases (M (r_lhs r))).
Definition child_ok (p : list nat) : bool :=
  forallb (fun c => match nth_error (r_children r) c with
                    | Some X => forallb (fun ph => has p (fun g => match g_ch g with Some c' => (c' =? c)%nat && (g_ph g =? ph) | None => false end)) (phases (M X))
                    | None => true end) (seq 0 (length (r_children r))).
Fixpoint first_ok (p : list nat) : bool :=
  match p with
  | [] => true
  | i :: p => match nth_error insts i with
              | Some g => match g_test g with Some _ => first_ok p | None => g_lhs g && (g_ph g =? -1) end
              | None => false
              end
  end.
Fixpoint scope_ok (pre p : list nat) : bool :=
  match p with
  | [] => true
  | i :: p => match header_of insts i with
              | Some h => match in_scope insts None (pre ++ [i]) with Some h' => (h =? h')%nat | None => false end
              | None => true
              end && scope_ok (pre ++ [i]) p
  end.
Definition good_ok (p : list nat) : bool := order_ok p && lhs_ok p && child_ok p && first_ok p && scope_ok [] p.

Lemma in_phases m ph : In ph (phases m) <-> 1 <= ph <= m.
Proof. unfold phases. rewrite in_map_iff. split; [intros (n & <- & H); apply in_seq in H; lia|]. intros H. exists (Z.to_nat ph). split; [lia|]. apply in_seq. lia. Qed.
Lemma has_spec p f : has p f = true -> exists i g, In i p /\ nth_error insts i = Some g /\ f g = true.
Proof. unfold has. intros H. apply existsb_exists in H. destruct H as (i & Hi & H). destruct (nth_error insts i) as [g|] eqn:E; [|discriminate]. eauto. Qed.
Lemma order_nodup p : order_ok p = true -> NoDup p.
Proof.
  induction p as [|i p IH]; cbn [order_ok]; intros H; constructor; apply andb_true_iff in H; destruct H as [H1 H2]; [|now apply IH].
  apply andb_true_iff in H1. destruct H1 as [H1 _]. apply negb_true_iff in H1. intros Hin. assert (existsb (Nat.eqb i) p = true) by (apply existsb_exists; exists i; split; [exact Hin|apply Nat.eqb_refl]). congruence.
Qed.
Lemma order_rel p : order_ok p = true -> forall l1 i l2 j l3, p = l1 ++ i :: l2 ++ j :: l3 -> rel_ok i j = true.
Proof.
  induction p as [|x p IH]; intros H l1 i l2 j l3 E; [destruct l1; discriminate|]. cbn [order_ok] in H. apply andb_true_iff in H. destruct H as [H1 H2]. apply andb_true_iff in H1. destruct H1 as [_ H1].
  destruct l1 as [|y l1]; cbn [app] in E; injection E as -> E.
  - rewrite forallb_forall in H1. apply H1. rewrite E. apply in_app_iff. right. now left.
  - apply (IH H2 l1 i l2 j l3 E).
Qed.
Lemma rel_rank i j g g' w : rel_ok i j = true -> nth_error insts i = Some g -> nth_error insts j = Some g' -> belongs g w -> belongs g' w -> rank (g_ph g) <= rank (g_ph g').
Proof.
  unfold rel_ok. intros H Ei Ej. rewrite Ei, Ej in H. unfold pair_ok in H. apply andb_true_iff in H. destruct H as [H1 H2]. destruct w as [|c]; cbn [belongs]; intros B B'.
  - rewrite B, B' in H1. cbn in H1. now apply Z.leb_le.
  - rewrite B, B', Nat.eqb_refl in H2. cbn in H2. now apply Z.leb_le.
Qed.
Lemma first_spec p : first_ok p = true -> forall l1 i l2, p = l1 ++ i :: l2 -> (forall j, In j l1 -> is_test insts j) -> ~ is_test insts i -> exists g, nth_error insts i = Some g /\ g_lhs g = true /\ g_ph g = -1.
Proof.
  induction p as [|x p IH]; intros H l1 i l2 E T N; [destruct l1; discriminate|]. cbn [first_ok] in H. destruct (nth_error insts x) as [g|] eqn:Ex; [|discriminate].
  destruct l1 as [|y l1]; cbn [app] in E; injection E as -> E.
  - destruct (g_test g) eqn:Gt; [destruct N; exists g; eauto|]. apply andb_true_iff in H. destruct H as [H1 H2]. apply Z.eqb_eq in H2. eauto.
  - destruct (T y (or_introl eq_refl)) as (g' & x' & E1 & E2). rewrite Ex in E1. injection E1 as <-. rewrite E2 in H. apply (IH H l1 i l2 E); auto. intros j Hj. apply T. now right.
Qed.
Lemma scope_spec p : forall pre, scope_ok pre p = true -> forall l1 i l2 h, p = l1 ++ i :: l2 -> header_of insts i = Some h -> in_scope insts None (pre ++ l1 ++ [i]) = Some h.
Proof.
  induction p as [|x p IH]; intros pre H l1 i l2 h E Hh; [destruct l1; discriminate|]. cbn [scope_ok] in H. apply andb_true_iff in H. destruct H as [H1 H2].
  destruct l1 as [|y l1]; cbn [app] in E; injection E as -> E.
  - rewrite Hh in H1. cbn [app]. destruct (in_scope insts None (pre ++ [i])) as [h'|]; [|discriminate]. apply Nat.eqb_eq in H1. now subst.
  - specialize (IH _ H2 l1 i l2 h E Hh). rewrite <- app_assoc in IH. exact IH.
Qed.
Theorem good_ok_good p : good_ok p = true -> good M r p.
Proof.
  unfold good_ok. intros H. apply andb_true_iff in H. destruct H as [H H5]. apply andb_true_iff in H. destruct H as [H H4]. apply andb_true_iff in H. destruct H as [H H3]. apply andb_true_iff in H. destruct H as [H1 H2].
  constructor.
  - now apply order_nodup.
  - intros l1 i l2 j l3 g g' w E Ei Ej B B'. apply (rel_rank i j g g' w); auto. apply (order_rel p H1 l1 i l2 j l3 E).
  - intros ph P. unfold lhs_ok in H2. rewrite forallb_forall in H2. destruct (has_spec _ _ (H2 ph (proj2 (in_phases _ _) P))) as (i & g & Hi & Ei & Hf). apply andb_true_iff in Hf. destruct Hf as [F1 F2]. apply Z.eqb_eq in F2. exists i, g. auto.
  - intros c X ph EX P. unfold child_ok in H3. rewrite forallb_forall in H3. assert (Hc : In c (seq 0 (length (r_children r)))) by (apply in_seq; split; [lia|]; cbn; apply nth_error_Some; congruence).
    specialize (H3 c Hc). rewrite EX in H3. rewrite forallb_forall in H3. destruct (has_spec _ _ (H3 ph (proj2 (in_phases _ _) P))) as (i & g & Hi & Ei & Hf). destruct (g_ch g) as [c'|] eqn:Ec; [|discriminate]. apply andb_true_iff in Hf. destruct Hf as [F1 F2]. apply Z.eqb_eq in F2. apply Nat.eqb_eq in F1. subst. exists i, g. auto.
  - now apply first_spec.
  - intros l1 i l2 h E Hh. apply (scope_spec p [] H5 l1 i l2 h E Hh).
Qed.

(** the rule *)
Definition inst_ok (g : ginst) : bool :=
  (negb (g_lhs g) || ((1 <=? Z.abs (g_ph g)) && (Z.abs (g_ph g) <=? M (r_lhs r)) && match g_ch g with None => true | Some _ => false end)) &&
  match g_ch g with
  | Some c => match nth_error (r_children r) c with Some X => (1 <=? Z.abs (g_ph g)) && (Z.abs (g_ph g) <=? M X) | None => false end
  | None => true
  end &&
  match g_test g with Some _ => negb (g_lhs g) && match g_ch g with None => true | Some _ => false end | None => true end.
Definition block_ok (b : block) : bool := forallb (fun s => (fst s <? length insts)%nat) b.
Definition test_blocks (g : ginst) : list block :=
  match g_test g with Some (_, TIf t f) => [t; f] | Some (_, TMatch _ _ body d) => [body; match d with Some b => b | None => [] end] | None => [] end.
Definition conds : list (list nat) := map (fun g => match g_test g with Some (k, _) => [k] | None => [] end) insts.
Fixpoint nodupb (l : list nat) : bool := match l with [] => true | x :: l => negb (existsb (Nat.eqb x) l) && nodupb l end.
Definition rule_ok : bool :=
  forallb inst_ok insts && nodupb (concat conds) && block_ok (r_block r) && forallb (fun g => forallb block_ok (test_blocks g)) insts &&
  (length (r_defaults r) =? length insts)%nat && (1 <=? M (r_lhs r)).
Lemma nodupb_spec l : nodupb l = true -> NoDup l.
Proof. induction l as [|x l IH]; cbn [nodupb]; intros H; constructor; apply andb_true_iff in H; destruct H as [H1 H2]; [|now apply IH]. apply negb_true_iff in H1. intros Hin. assert (existsb (Nat.eqb x) l = true) by (apply existsb_exists; exists x; split; [exact Hin|apply Nat.eqb_refl]). congruence. Qed.
Lemma concat_apart (ll : list (list nat)) : NoDup (concat ll) -> forall i j k, nth_error ll i = Some [k] -> nth_error ll j = Some [k] -> i = j.
Proof.
  induction ll as [|l ll IH]; intros N i j k Ei Ej; [destruct i; discriminate|]. cbn [concat] in N.
  assert (In' : forall m, nth_error ll m = Some [k] -> In k (concat ll)) by (intros m Em; apply in_concat; exists [k]; split; [now apply nth_error_In in Em|now left]).
  destruct i as [|i], j as [|j]; cbn [nth_error] in *; auto.
  - injection Ei as ->. cbn [app] in N. apply NoDup_cons_iff in N. destruct N as [N _]. now destruct N; apply (In' j).
  - injection Ej as ->. cbn [app] in N. apply NoDup_cons_iff in N. destruct N as [N _]. now destruct N; apply (In' i).
  - f_equal. assert (N' : NoDup (concat ll)) by (clear - N; induction l as [|x l IHl]; [exact N|apply IHl; cbn [app] in N; now apply NoDup_cons_iff in N]). apply (IH N' i j k Ei Ej).
Qed.
Theorem rule_ok_wf : rule_ok = true -> wf M r.
Proof.
  unfold rule_ok. intros H. apply andb_true_iff in H. destruct H as [H H6]. apply andb_true_iff in H. destruct H as [H H5]. apply andb_true_iff in H. destruct H as [H H4]. apply andb_true_iff in H. destruct H as [H H3]. apply andb_true_iff in H. destruct H as [H1 H2].
  rewrite forallb_forall in H1. apply Z.leb_le in H6. apply Nat.eqb_eq in H5. unfold block_ok in H3.
  constructor; auto.
  - intros g Hg Lg. specialize (H1 g Hg). unfold inst_ok in H1. rewrite Lg in H1. cbn [negb orb] in H1. apply andb_true_iff in H1. destruct H1 as [H1 _]. apply andb_true_iff in H1. destruct H1 as [H1 _].
    apply andb_true_iff in H1. destruct H1 as [H1 Hc]. apply andb_true_iff in H1. destruct H1 as [Ha Hb]. apply Z.leb_le in Ha. apply Z.leb_le in Hb. split; [lia|]. destruct (g_ch g); [discriminate|reflexivity].
  - intros g c Hg Ec. specialize (H1 g Hg). unfold inst_ok in H1. apply andb_true_iff in H1. destruct H1 as [H1 _]. apply andb_true_iff in H1. destruct H1 as [_ H1]. rewrite Ec in H1.
    destruct (nth_error (r_children r) c) as [X|]; [|discriminate]. apply andb_true_iff in H1. destruct H1 as [Ha Hb]. apply Z.leb_le in Ha. apply Z.leb_le in Hb. exists X. auto.
  - intros g x Hg Et. specialize (H1 g Hg). unfold inst_ok in H1. apply andb_true_iff in H1. destruct H1 as [_ H1]. rewrite Et in H1. apply andb_true_iff in H1. destruct H1 as [Ha Hb]. apply negb_true_iff in Ha. split; [exact Ha|]. destruct (g_ch g); [discriminate|reflexivity].
  - intros i j g g' k x x' Ei Ej Ti Tj. apply (concat_apart conds (nodupb_spec _ H2) i j k); unfold conds; rewrite nth_error_map; [rewrite Ei|rewrite Ej]; cbn [option_map]; [rewrite Ti|rewrite Tj]; reflexivity.
  - assert (Bk : forall b, block_ok b = true -> forall i e, In (i, e) b -> (i < length insts)%nat). { intros b Hb i e Hin. unfold block_ok in Hb. rewrite forallb_forall in Hb. specialize (Hb _ Hin). now apply Nat.ltb_lt. }
    intros b i e [Hb|(o & j & Hb)] Hin; [apply (Bk b) with e; [now subst b|exact Hin]|]. subst b. unfold taken in Hin.
    destruct (nth_error insts j) as [g|] eqn:Ej; [|destruct Hin]. rewrite forallb_forall in H4. specialize (H4 g (nth_error_In _ _ Ej)). unfold test_blocks in H4.
    destruct (g_test g) as [[k [t f|h fi body d]]|]; [| |destruct Hin]; cbn [forallb] in H4; apply andb_true_iff in H4; destruct H4 as [Ha Hb]; apply andb_true_iff in Hb; destruct Hb as [Hb _];
      destruct (o k); try (now apply (Bk t Ha i e)); try (now apply (Bk f Hb i e)); try (now apply (Bk body Ha i e)). apply (Bk _ Hb i e Hin).
Qed.
End CHECK.
