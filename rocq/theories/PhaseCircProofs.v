(** * PhaseCircProofs: a circular phase. *)
From Coq Require Import Permutation Relations.
From Verif Require Import Base CondModel EdgeModel DncModel SummaryProofs CycleModel OagModel PropsOag ComponentModel PropsComponent PhaseModel PhaseSpec PhaseProofs.
From Verif Require PropsCycle PrimeModel.
Open Scope nat_scope.

Definition inb (k : nat) (c : list nat) : bool := existsb (Nat.eqb k) c.
Lemma inb_spec k c : inb k c = true <-> In k c.
Proof. unfold inb. rewrite existsb_exists. split; [intros (x & H & E); apply Nat.eqb_eq in E; now subst|intros H; exists k; split; auto; apply Nat.eqb_refl]. Qed.
Lemma fold_and {A} (f : bool -> A -> res bool) (g : A -> bool) : forall l b, (forall x b, In x l -> f b x = Ok (if g x then b else false)) -> foldM f l b = Ok (b && forallb g l).
Proof.
  induction l as [|x l IH]; intros b H; cbn [foldM forallb]; [now rewrite andb_true_r|]. rewrite (H x b) by (now left). cbn [bind]. rewrite IH by (intros; apply H; now right). destruct (g x), b; cbn [andb]; auto.
Qed.
(** writing a value for each of several indices *)
Lemma fold_wr (f : nat -> Z) : forall c s, (forall i, In i c -> i < length s) ->
  exists s', foldM (fun s i => wr s i (f i)) c s = Ok s' /\ length s' = length s /\ forall k, phase_of s' k = if inb k c then f k else phase_of s k.
Proof.
  induction c as [|i c IH]; intros s H; cbn [foldM]; [exists s; ands; auto|]. rewrite wr_Ok by (apply H; now left). cbn [bind]. destruct (IH (upd s i (f i))) as (s' & E & L & G); [intros j Hj; rewrite upd_length; apply H; now right|]. exists s'. rewrite upd_length in L. ands; auto. intros k. rewrite G. unfold inb at 2. cbn [existsb]. fold (inb k c). rewrite sg_upd by (apply H; now left). destruct (Nat.eqb_spec k i) as [->|Ne]; cbn [orb]; auto. now destruct (inb i c).
Qed.
Lemma cnt_set dirs : forall c s s', NoDup c -> length s = length dirs -> length s' = length dirs -> (forall i, In i c -> i < length dirs /\ phase_of s i = 0%Z /\ phase_of s' i <> 0%Z) -> (forall i, ~ In i c -> phase_of s' i = phase_of s i) -> cnt dirs s' = cnt dirs s + length c.
Proof.
  intros c s s' Nd L L' H1 H2. unfold cnt.
  assert (G : forall l, NoDup l -> length (filter (fun i => negb (Z.eqb (phase_of s' i) 0)) l) = length (filter (fun i => negb (Z.eqb (phase_of s i) 0)) l) + length (filter (fun i => inb i c) l)).
  { induction l as [|x l IH]; intros Nl; auto. inversion Nl; subst. cbn [filter]. destruct (inb x c) eqn:Ex.
    - apply inb_spec in Ex. destruct (H1 x Ex) as (_ & Z0 & Z1). rewrite Z0, (proj2 (Z.eqb_neq _ _) Z1). cbn [Z.eqb negb length]. rewrite IH by auto. lia.
    - rewrite H2 by (rewrite <- inb_spec, Ex; congruence). destruct (Z.eqb (phase_of s x) 0); cbn [negb length]; rewrite IH by auto; lia. }
  rewrite G by apply seq_NoDup. f_equal. apply Permutation_length. apply NoDup_Permutation; auto; [apply NoDup_filter; apply seq_NoDup|]. intros x. rewrite filter_In, inb_spec, in_seq. split; [tauto|]. intros Hx. destruct (H1 x Hx). split; auto. lia.
Qed.

Section S.
Variable dirs : list direction.
Variable mg0 : list N.
Let n := length dirs.
Variables (base size : Z) (comps : list (list nat)) (flags : list bool).
Hypothesis Hfits : fits n base size.
Hypothesis Hcomps : right_components n (needs n mg0) comps.
Hypothesis Lflags : length flags = length comps.
Hypothesis Hflags : forall a c, nth_error comps a = Some c -> nth_error flags a = Some true <-> exists i, In i c /\ needs n mg0 i i.
Hypothesis Lmg0 : length mg0 = n * n.
Definition circb (i : nat) : bool := existsb (fun a => nth a flags false && inb i (nth a comps [])) (seq 0 (length comps)).
Lemma comp_mem c i : In c comps -> In i c -> i < n.
Proof. destruct Hcomps as (P & _). intros Hc Hi. assert (H : In i (seq 0 n)) by (eapply Permutation_in; [exact P|]; apply in_concat; eauto). apply in_seq in H. lia. Qed.
Lemma comp_of i : i < n -> exists a c, nth_error comps a = Some c /\ In i c.
Proof. destruct Hcomps as (P & _). intros Hi. assert (H : In i (concat comps)) by (eapply Permutation_in; [symmetry; exact P|apply in_seq; lia]). apply in_concat in H. destruct H as (c & Hc & Hi'). apply In_nth_error in Hc. destruct Hc as (a & Ea). eauto. Qed.
Lemma comp_mutual c i j : In c comps -> In i c -> j < n -> (In j c <-> mutual n mg0 i j).
Proof.
  intros Hc Hi Lj. assert (Li : i < n) by (eapply comp_mem; eauto). destruct Hcomps as (P & _ & Sc & _). unfold mutual. rewrite <- (Sc i j Li Lj). split; [eauto|]. intros (c' & Hc' & Hi' & Hj'). assert (Nd : NoDup (concat comps)) by (eapply Permutation_NoDup; [symmetry; exact P|apply seq_NoDup]). now rewrite <- (concat_unique comps c c' i Nd Hc Hc' Hi Hi').
Qed.
Lemma comp_nodup c : In c comps -> NoDup c.
Proof.
  intros Hc. destruct Hcomps as (P & _). assert (Nd : NoDup (concat comps)) by (eapply Permutation_NoDup; [symmetry; exact P|apply seq_NoDup]). apply in_split in Hc. destruct Hc as (l1 & l2 & ->). rewrite concat_app in Nd. cbn [concat] in Nd. assert (G : forall (A : Type) (a b : list A), NoDup (a ++ b) -> NoDup a /\ NoDup b).
  { clear. intros A a b. induction a as [|x a IH]; cbn [app]; intros H; [split; auto; constructor|]. inversion H as [|? ? H1 H2]; subst. destruct (IH H2). split; auto. constructor; auto. intros Hx. apply H1. apply in_or_app. auto. }
  apply G in Nd. destruct Nd as [_ Nd]. apply G in Nd. apply Nd.
Qed.
Lemma flag_circular a c i : nth_error comps a = Some c -> In i c -> nth_error flags a = Some true <-> circular n mg0 i.
Proof.
  intros Ea Hi. assert (Hc : In c comps) by (eapply nth_error_In; eauto). rewrite (Hflags a c Ea). unfold circular. split.
  - intros (j & Hj & D). exists j. split; auto. apply (comp_mutual c i j); auto. apply D.
  - intros (j & M & D). exists j. split; auto. apply (comp_mutual c i j); auto. apply D.
Qed.
Lemma circb_spec i : i < n -> circb i = true <-> circular n mg0 i.
Proof.
  intros Li. unfold circb. rewrite existsb_exists. split.
  - intros (a & Ha & T). apply in_seq in Ha. apply andb_true_iff in T. destruct T as [T1 T2]. apply inb_spec in T2. destruct (nth_error comps a) as [c|] eqn:Ea; [|apply nth_error_None in Ea; lia]. rewrite (nth_error_nth _ _ _ Ea) in T2. apply (flag_circular a c i); auto. destruct (nth_error flags a) as [f|] eqn:Ef; [|apply nth_error_None in Ef; lia]. rewrite (nth_error_nth _ _ _ Ef) in T1. congruence.
  - intros Hc. destruct (comp_of i Li) as (a & c & Ea & Hi). exists a. assert (La : a < length comps) by (apply nth_error_Some; congruence). split; [apply in_seq; lia|]. rewrite (nth_error_nth _ _ _ Ea). apply (flag_circular a c i Ea Hi) in Hc. rewrite (nth_error_nth _ _ _ Hc). cbn [andb]. now apply inb_spec.
Qed.
Notation pinv := (pinv dirs mg0 circb).
Lemma members_ok c : (forall i, In i c -> i < n) -> foldM (fun l p => i <- inst_index base size n p ;; Ok (l ++ [i])) (map (inst_addr base size) c) [] = Ok c.
Proof.
  intros H. assert (G : forall c acc, (forall i, In i c -> i < n) -> foldM (fun l p => i <- inst_index base size n p ;; Ok (l ++ [i])) (map (inst_addr base size) c) acc = Ok (acc ++ c)).
  { clear c H. induction c as [|i c IH]; intros acc H; cbn [map foldM]; [now rewrite app_nil_r|]. rewrite index_addr by (auto; apply H; now left). cbn [bind]. rewrite IH by (intros; apply H; now right). now rewrite <- app_assoc. }
  now apply G.
Qed.
Definition readyb (sched : list Z) (mg : list N) (c : list nat) : bool := forallb (fun i => forallb (fun k => inb k c || negb (Z.eqb (phase_of sched k) 0) || N.eqb (get mg n k i) no_dependency) (seq 0 n)) c.
Lemma ready_ok sched mg c : length sched = n -> length mg = n * n -> (forall i, In i c -> i < n) -> cycle_ready n sched mg c = Ok (readyb sched mg c).
Proof.
  intros Ls Lm Hc. unfold cycle_ready. destruct (fold_wr (fun _ => 1%Z) c sched) as (t & E & Lt & G); [intros; rewrite Ls; auto|]. rewrite E. cbn [bind]. unfold readyb.
  rewrite (fold_and _ (fun i => forallb (fun k => inb k c || negb (Z.eqb (phase_of sched k) 0) || N.eqb (get mg n k i) no_dependency) (seq 0 n))); auto.
  intros i b Hi. rewrite (fold_and _ (fun k => inb k c || negb (Z.eqb (phase_of sched k) 0) || N.eqb (get mg n k i) no_dependency)).
  - f_equal. now destruct (forallb _ _), b.
  - intros k b' Hk. apply in_seq in Hk. rewrite rd_sched by lia. cbn [bind]. rewrite G. destruct (inb k c); cbn [orb]; auto. destruct (Z.eqb (phase_of sched k) 0); cbn [negb orb]; auto. rewrite (rd_mg n mg k i) by (auto; lia). cbn [bind]. now destruct (N.eqb (get mg n k i) no_dependency).
Qed.
(** a circular component that is not scheduled and not ready *)
Definition blocked (sched : list Z) (c : list nat) : Prop := exists i k, In i c /\ k < n /\ ~ In k c /\ phase_of sched k = 0%Z /\ needs n mg0 k i.
Lemma circ_ok P q sched mg : 1 <= P -> q < 2 * P - 1 -> pinv P q n sched mg -> forall is, (forall a, In a is -> a < length comps) ->
  (phase_circular dirs base size (map (map (inst_addr base size)) comps) flags P sched mg is = Ok (sched, 0) /\
   forall a c, In a is -> nth_error comps a = Some c -> nth_error flags a = Some true -> (forall i, In i c -> phase_of sched i <> 0%Z) \/ blocked sched c) \/
  (exists c sched', phase_circular dirs base size (map (map (inst_addr base size)) comps) flags P sched mg is = Ok (sched', length c) /\ c <> [] /\ pinv (S P) (2 * P) n sched' mg /\ cnt dirs sched' = cnt dirs sched + length c /\
     (forall i, In i c -> i < n /\ phase_of sched i = 0%Z /\ aphase sched' i = P /\ circular n mg0 i) /\ (forall i, ~ In i c -> phase_of sched' i = phase_of sched i)).
Proof.
  intros HP Hq I. pose proof (f_len _ _ _ _ _ _ _ _ I) as Ls. pose proof (f_mlen _ _ _ _ _ _ _ _ I) as Lm. fold n in Ls, Lm. induction is as [|a is IH]; intros His.
  { left. split; [reflexivity|]. intros a c []. }
  cbn [phase_circular]. fold n. assert (La : a < length comps) by (apply His; now left). destruct (nth_error comps a) as [c|] eqn:Ea; [|apply nth_error_None in Ea; lia]. destruct (nth_error flags a) as [f|] eqn:Ef; [|apply nth_error_None in Ef; lia].
  assert (Hc : In c comps) by (eapply nth_error_In; eauto). assert (Cm : forall i, In i c -> i < n) by (intros; eapply comp_mem; eauto).
  replace (rd (map (map (inst_addr base size)) comps) a) with (Ok (map (inst_addr base size) c)) by (symmetry; apply rd_Ok; rewrite nth_error_map, Ea; reflexivity). rewrite (proj2 (rd_Ok _ _ _) Ef). cbn [bind].
  assert (Next : (f = true -> (forall i, In i c -> phase_of sched i <> 0%Z) \/ blocked sched c) -> (phase_circular dirs base size (map (map (inst_addr base size)) comps) flags P sched mg is = Ok (sched, 0) /\
   forall a0 c, In a0 (a :: is) -> nth_error comps a0 = Some c -> nth_error flags a0 = Some true -> (forall i, In i c -> phase_of sched i <> 0%Z) \/ blocked sched c) \/
  (exists c sched', phase_circular dirs base size (map (map (inst_addr base size)) comps) flags P sched mg is = Ok (sched', length c) /\ c <> [] /\ pinv (S P) (2 * P) n sched' mg /\ cnt dirs sched' = cnt dirs sched + length c /\
     (forall i, In i c -> i < n /\ phase_of sched i = 0%Z /\ aphase sched' i = P /\ circular n mg0 i) /\ (forall i, ~ In i c -> phase_of sched' i = phase_of sched i))).
  { intros Hf. destruct (IH ltac:(intros; apply His; now right)) as [[E1 E2]|H]; [|now right]. left. split; auto. intros a0 c0 [<-|Ha] Ec Fc; [|eauto]. rewrite Ea in Ec. injection Ec as <-. apply Hf. congruence. }
  destruct f; cbn [negb]; [|apply Next; discriminate]. destruct c as [|i0 c0] eqn:Ec; [destruct Hcomps as (_ & Ne & _); contradiction|]. rewrite <- Ec in *. replace (rd (map (inst_addr base size) c) 0) with (Ok (inst_addr base size i0)) by (symmetry; apply rd_Ok; rewrite Ec; reflexivity). cbn [bind].
  assert (Hi0 : In i0 c) by (rewrite Ec; now left). rewrite index_addr by auto. cbn [bind]. rewrite rd_sched by (rewrite Ls; auto). cbn [bind].
  assert (Cc : forall i, In i c -> circular n mg0 i) by (intros i Hi; apply (flag_circular a c i); auto).
  assert (Same : forall i, In i c -> aphase sched i = aphase sched i0). { intros i Hi. apply (f_comp _ _ _ _ _ _ _ _ I i i0); auto. apply (comp_mutual c i i0); auto. }
  destruct (Z.eqb_spec (phase_of sched i0) 0) as [Z0|Z0]; cbn [negb].
  2:{ apply Next. intros _. left. intros i Hi Zi. specialize (Same i Hi). unfold aphase in Same. rewrite Zi in Same. cbn in Same. lia. }
  assert (Zc : forall i, In i c -> phase_of sched i = 0%Z). { intros i Hi. specialize (Same i Hi). unfold aphase in Same. rewrite Z0 in Same. cbn in Same. lia. }
  rewrite members_ok by auto. cbn [bind]. rewrite ready_ok by auto. cbn [bind]. destruct (readyb sched mg c) eqn:Rb.
  2:{ apply Next. intros _. right. unfold readyb in Rb. apply not_true_iff_false in Rb. rewrite forallb_forall in Rb.
      assert (Ex : existsb (fun i => negb (forallb (fun k => inb k c || negb (Z.eqb (phase_of sched k) 0) || N.eqb (get mg n k i) no_dependency) (seq 0 n))) c = true).
      { apply not_false_iff_true. intros Ex. apply Rb. intros i Hi. destruct (forallb _ (seq 0 n)) eqn:Fi; auto. exfalso. rewrite <- not_true_iff_false in Ex. apply Ex. apply existsb_exists. exists i. split; auto. now rewrite Fi. }
      apply existsb_exists in Ex. destruct Ex as (i & Hi & Fi). apply negb_true_iff in Fi.
      assert (Ek : existsb (fun k => negb (inb k c || negb (Z.eqb (phase_of sched k) 0) || N.eqb (get mg n k i) no_dependency)) (seq 0 n) = true).
      { apply not_false_iff_true. intros Ek. apply not_true_iff_false in Fi. apply Fi. apply forallb_forall. intros k Hk. destruct (inb k c || _ || _) eqn:Fk; auto. exfalso. rewrite <- not_true_iff_false in Ek. apply Ek. apply existsb_exists. exists k. split; auto. now rewrite Fk. }
      apply existsb_exists in Ek. destruct Ek as (k & Hk & Fk). apply in_seq in Hk. rewrite negb_true_iff, !orb_false_iff in Fk. destruct Fk as [[F1 F2] F3]. apply negb_false_iff, Z.eqb_eq in F2. apply N.eqb_neq in F3. exists i, k. ands; auto; try lia; [rewrite <- inb_spec; congruence|]. split; [lia|]. split; auto.
      rewrite (f_mg _ _ _ _ _ _ _ _ I) in F3 by (auto; fold n; lia). rewrite (Zc i Hi) in F3. auto. }
  right. set (mark := fun i => (if same_direction (nth i dirs instance_local) instance_inward then - Z.of_nat P else Z.of_nat P)%Z).
  rewrite (PropsCycle.foldM_ext _ (fun s i => wr s i (mark i))).
  2:{ intros i s Hi. pose proof (Cm i Hi) as Li. destruct (nth_error dirs i) as [d|] eqn:Ed; [|apply nth_error_None in Ed; unfold n in Li; lia]. rewrite (proj2 (rd_Ok _ _ _) Ed). cbn [bind]. unfold mark. now rewrite (nth_error_nth _ _ _ Ed). }
  destruct (fold_wr mark c sched) as (s' & E & L' & G); [intros; rewrite Ls; auto|]. rewrite E. cbn [bind]. exists c, s'. rewrite map_length.
  assert (Mk : forall i, mark i <> 0%Z /\ Z.abs_nat (mark i) = P) by (intros i; unfold mark; destruct (same_direction _ _); split; lia).
  assert (Gi : forall i, In i c -> phase_of s' i = mark i) by (intros i Hi; rewrite G, (proj2 (inb_spec _ _) Hi); auto).
  assert (Go : forall i, ~ In i c -> phase_of s' i = phase_of sched i) by (intros i Hi; rewrite G; rewrite <- inb_spec in Hi; apply not_true_iff_false in Hi; now rewrite Hi).
  assert (Ai : forall i, In i c -> aphase s' i = P) by (intros i Hi; unfold aphase; rewrite Gi by auto; apply Mk).
  assert (Ao : forall i, ~ In i c -> aphase s' i = aphase sched i) by (intros i Hi; unfold aphase; now rewrite Go).
  assert (Vo : forall i, ~ In i c -> visit_of s' i = visit_of sched i) by (intros i Hi; unfold visit_of; now rewrite Go).
  assert (Vi : forall i, In i c -> 2 * P - 1 <= visit_of s' i <= 2 * P) by (intros i Hi; unfold visit_of, visit; rewrite Gi by auto; unfold mark; destruct (same_direction _ _); match goal with |- context [(?a <? 0)%Z] => destruct (Z.ltb_spec a 0) end; lia).
  assert (Old : forall i, i < n -> phase_of sched i <> 0%Z -> visit_of sched i < 2 * P - 1) by (intros i Li Zi; destruct (f_pos _ _ _ _ _ _ _ _ I i Li Zi) as [|[]]; lia).
  assert (Dc : forall i, {In i c} + {~ In i c}) by (intros; apply in_dec, Nat.eq_dec).
  assert (Rd : forall k i, In i c -> needs n mg0 k i -> In k c \/ phase_of sched k <> 0%Z).
  { intros k i Hi D. assert (Lk : k < n) by apply D. unfold readyb in Rb. rewrite forallb_forall in Rb. specialize (Rb i Hi). rewrite forallb_forall in Rb. specialize (Rb k ltac:(apply in_seq; lia)). rewrite !orb_true_iff in Rb. destruct Rb as [[F|F]|F]; [left; now apply inb_spec|right; now rewrite negb_true_iff, Z.eqb_neq in F|]. exfalso. apply N.eqb_eq in F. rewrite (f_mg _ _ _ _ _ _ _ _ I) in F by (auto; fold n; auto). rewrite (Zc i Hi) in F. cbn [Z.eqb negb andb] in F. apply D. auto. }
  ands; auto; [congruence| |].
  - constructor; fold n; auto; try lia.
    + intros i d Ed Zi. destruct (Dc i) as [Hi|Hi]; [|rewrite Go in * by auto; apply (f_dir _ _ _ _ _ _ _ _ I i d Ed Zi)]. rewrite Gi by auto. unfold mark. rewrite (nth_error_nth _ _ _ Ed). destruct d; cbn [same_direction]; split; try congruence; lia.
    + intros i Li Zi. destruct (Dc i) as [Hi|Hi]; [specialize (Vi i Hi); lia|]. rewrite Go in Zi by auto. rewrite Vo by auto. specialize (Old i Li Zi). lia.
    + intros j i D Zi. assert (Lj : j < n) by apply D. assert (Li : i < n) by apply D. destruct (Dc i) as [Hi|Hi].
      * destruct (Dc j) as [Hj|Hj].
        { split; [rewrite Gi by auto; apply Mk|]. right. right. split; auto. apply (comp_mutual c j i); auto. }
        destruct (Rd j i Hi D) as [|Zj]; [contradiction|]. rewrite Go, Vo by auto. split; auto. left. specialize (Old j Lj Zj). specialize (Vi i Hi). lia.
      * rewrite Go in Zi by auto. destruct (f_dep _ _ _ _ _ _ _ _ I j i D Zi) as [Zj H]. assert (Hj : ~ In j c) by (intros Hj; apply Zj; auto). rewrite Go, !Vo by auto. auto.
    + intros j i Lj Li. rewrite (f_mg _ _ _ _ _ _ _ _ I) by auto. destruct (Dc i) as [Hi|Hi].
      * rewrite (Zc i Hi), (proj2 (circb_spec i Li) (Cc i Hi)). cbn [Z.eqb negb andb]. rewrite andb_false_r. reflexivity.
      * rewrite (Go i Hi), (Vo i Hi). destruct (Dc j) as [Hj|Hj]; [|now rewrite (Go j Hj), (Vo j Hj)]. rewrite (Zc j Hj). cbn [Z.eqb negb]. rewrite andb_false_r. cbn [andb]. destruct (Z.eqb_spec (phase_of sched i) 0) as [Zi|Zi]; cbn [negb andb]; auto. rewrite (proj2 (Nat.ltb_ge _ _)); [now rewrite andb_false_r|]. specialize (Old i Li Zi). specialize (Vi j Hj). lia.
    + intros i j Li Lj Ci M. destruct (Dc i) as [Hi|Hi].
      * rewrite (Ai i Hi), (Ai j); auto. apply (comp_mutual c i j); auto.
      * assert (Hj : ~ In j c) by (intros Hj; apply Hi; apply (comp_mutual c j i); auto using mutual_sym). rewrite !Ao by auto. apply (f_comp _ _ _ _ _ _ _ _ I i j); auto.
    + intros i j Li Lj Ci Zi Ea'. destruct (Dc i) as [Hi|Hi], (Dc j) as [Hj|Hj].
      * apply (comp_mutual c i j); auto.
      * exfalso. rewrite (Ai i Hi), (Ao j Hj) in Ea'. assert (Zj : phase_of sched j <> 0%Z) by (intros Zj; unfold aphase in Ea'; rewrite Zj in Ea'; cbn in Ea'; lia). specialize (Old j Lj Zj). unfold aphase in Ea'. unfold visit_of, visit in Old. destruct (Z.ltb_spec (phase_of sched j) 0); lia.
      * exfalso. rewrite (Ai j Hj), (Ao i Hi) in Ea'. rewrite Go in Zi by auto. specialize (Old i Li Zi). unfold aphase in Ea'. unfold visit_of, visit in Old. destruct (Z.ltb_spec (phase_of sched i) 0); lia.
      * rewrite !Ao in Ea' by auto. rewrite Go in Zi by auto. apply (f_one _ _ _ _ _ _ _ _ I i j); auto.
    + intros i Li Zi Nc. destruct (Dc i) as [Hi|Hi]; [exfalso; auto|]. rewrite Go in Zi by auto. apply (f_nc _ _ _ _ _ _ _ _ I i); auto.
    + intros i Li Ci. destruct (Dc i) as [Hi|Hi]; [rewrite Ai by auto; lia|]. rewrite Ao by auto. pose proof (f_old _ _ _ _ _ _ _ _ I i Li Ci). lia.
  - apply (cnt_set dirs c sched s'); auto; [eapply comp_nodup; eauto|rewrite L'; auto|]. intros i Hi. ands; auto. rewrite Gi by auto. apply Mk.
Qed.
End S.
