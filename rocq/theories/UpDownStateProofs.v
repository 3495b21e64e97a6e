(** * UpDownStateProofs: breaking all cycles, in all graphs of a state. *)
From Verif Require Import Base CondModel EdgeModel DncModel PropsCond EdgeProofs EdgeAddProofs EdgeGraph EdgeSem EdgeWorld SummaryProofs CycleModel UpDownModel UpDownProofs UpDownAugProofs.
Open Scope nat_scope.

Section Classes.
Variables (par : list (option nat)) (start n : nat).
Definition tog (R : list nat) (i j : nat) : Prop := exists r, In r R /\ insd par r start i = true /\ insd par r start j = true.
Definition lk (R : list nat) (i j : nat) : Prop := i = j \/ tog R i j.
Lemma insd_fun r r' i : insd par r start i = true -> insd par r' start i = true -> r = r'.
Proof. unfold insd, is_set. destruct (nth (i + start) par None); [|discriminate]. intros H H'. apply Nat.eqb_eq in H, H'. congruence. Qed.
Lemma lk_sym R i j : lk R i j -> lk R j i.
Proof. intros [->|(r & H & H1 & H2)]; [now left|]. right. exists r. auto. Qed.
Lemma lk_trans R i j k : lk R i j -> lk R j k -> lk R i k.
Proof. intros [->|(r & H & H1 & H2)] [<-|(r' & H' & H1' & H2')]; try (now left); try (right; eauto; fail); [right; exists r'; auto|right; exists r; auto|]. assert (r' = r) by exact (insd_fun _ _ _ H1' H2). subst. right. exists r. auto. Qed.
Lemma tog_snoc R r i j : tog (R ++ [r]) i j <-> tog R i j \/ (insd par r start i = true /\ insd par r start j = true).
Proof.
  split.
  - intros (r' & H & H1 & H2). apply in_app_or in H. destruct H as [H|[H|[]]]; [left; exists r'; auto|subst; auto].
  - intros [(r' & H & H1 & H2)|[H1 H2]]; [exists r'|exists r]; ands; auto; apply in_or_app; [now left|right; now left].
Qed.
Lemma tog_fresh R r i j : ~ In r R -> insd par r start i = true \/ insd par r start j = true -> ~ tog R i j.
Proof. intros Hn Hi (r' & H & H1 & H2). apply Hn. destruct Hi as [Hi|Hi]; [assert (r' = r) by (eapply insd_fun; [exact H1|exact Hi])|assert (r' = r) by (eapply insd_fun; [exact H2|exact Hi])]; now subst. Qed.
Lemma lk_fresh R r i j : ~ In r R -> insd par r start i = true -> lk R i j -> j = i.
Proof. intros Hn Hi [<-|H]; auto. exfalso. apply (tog_fresh R r i j); auto. Qed.
Lemma lk_snoc R r i j : lk (R ++ [r]) i j <-> lk R i j \/ (insd par r start i = true /\ insd par r start j = true).
Proof. unfold lk. rewrite tog_snoc. tauto. Qed.
Lemma lk_in R r i j : ~ In r R -> insd par r start i = true -> lk (R ++ [r]) i j <-> insd par r start j = true.
Proof. intros Hn Hi. rewrite lk_snoc. split; [intros [H|[_ H]]; auto; apply (lk_fresh R r) in H; auto; now subst|auto]. Qed.
Lemma lk_out R r i j : insd par r start i = false -> lk (R ++ [r]) i j <-> lk R i j.
Proof. intros Hi. rewrite lk_snoc. split; [intros [H|[H _]]; auto; congruence|auto]. Qed.

(** ** Summary graphs *)
Variables (direction : bool) (ups : list bool).
Definition phyS (R : list nat) (M0 M : nat -> nat -> N) : Prop := forall i j b, i < n -> j < n ->
  (tog R i j -> tb (M i j) b = true <-> direction = true /\ up ups i = true /\ up ups j = false /\ exists j', j' < n /\ tog R i j' /\ tb (M0 i j') b = true) /\
  (~ tog R i j -> tb (M i j) b = true <-> exists i' j', i' < n /\ j' < n /\ lk R i i' /\ lk R j j' /\ tb (M0 i' j') b = true).
Lemma phyS_nil M : phyS [] M M.
Proof.
  intros i j b Hi Hj. split.
  - intros (r & [] & _).
  - intros _. split; [intros H; exists i, j; ands; auto; now left|]. intros (i' & j' & _ & _ & [->|(? & [] & _)] & [->|(? & [] & _)] & H). auto.
Qed.
Lemma insd_dec r i : insd par r start i = true \/ insd par r start i = false.
Proof. destruct (insd par r start i); auto. Qed.
Lemma tog_dec R i j : tog R i j \/ ~ tog R i j.
Proof.
  destruct (existsb (fun r => insd par r start i && insd par r start j) R) eqn:E.
  - left. apply existsb_exists in E. destruct E as (r & H & E). apply andb_true_iff in E. exists r. tauto.
  - right. intros (r & H & H1 & H2). assert (X : existsb (fun r => insd par r start i && insd par r start j) R = true); [|congruence]. apply existsb_exists. exists r. split; auto. now rewrite H1, H2.
Qed.
Lemma phyS_step R r M0 M M' : ~ In r R -> phyS R M0 M -> (forall i j, i < n -> j < n -> M' i j = target par r start n direction ups M i j) -> phyS (R ++ [r]) M0 M'.
Proof.
  intros Hn H HM i j b Hi Hj. rewrite HM by auto. unfold target. destruct (insd par r start i) eqn:Ei, (insd par r start j) eqn:Ej.
  - split. 2:{ intros X. exfalso. apply X, tog_snoc. auto. } intros _.
    assert (T : forall j', tog (R ++ [r]) i j' <-> insd par r start j' = true). { intros j'. rewrite tog_snoc. split; [intros [X|X]; [exfalso; eapply (tog_fresh R r i j'); eauto|tauto]|auto]. }
    assert (O : forall j', j' < n -> insd par r start j' = true -> tb (M i j') b = true <-> tb (M0 i j') b = true).
    { intros j' Hj' Ej'. destruct (H i j' b Hi Hj') as [_ H2]. rewrite H2 by (eapply tog_fresh; eauto). split.
      - intros (i1 & j1 & _ & _ & L1 & L2 & X). apply (lk_fresh R r) in L1; auto. apply (lk_fresh R r) in L2; auto. now subst.
      - intros X. exists i, j'. ands; auto; now left. }
    destruct (direction && up ups i && negb (up ups j)) eqn:Z.
    + apply andb_true_iff in Z. destruct Z as [Z Zj]. apply andb_true_iff in Z. destruct Z as [Zd Zi]. apply negb_true_iff in Zj. rewrite joinl_bits. split.
      * intros (l & Hl & El & X). ands; auto. exists l. ands; auto. { apply T; auto. } apply O; auto.
      * intros (_ & _ & _ & l & Hl & El & X). apply T in El. exists l. ands; auto. apply O; auto.
    + split; [intros X; exfalso; unfold tb, no_dependency in X; rewrite N.bits_0 in X; discriminate|]. intros (-> & X1 & X2 & _). rewrite X1, X2 in Z. discriminate.
  - split. { intros X. exfalso. apply tog_snoc in X. destruct X as [X|X]; [eapply (tog_fresh R r i j); eauto|destruct X; congruence]. } intros _.
    rewrite joinl_bits. split.
    + intros (l & Hl & El & X). destruct (H l j b Hl Hj) as [_ H2]. apply H2 in X; [|eapply tog_fresh; eauto]. destruct X as (i' & j' & Hi' & Hj' & L1 & L2 & X). apply (lk_fresh R r) in L1; auto. subst i'. exists l, j'. ands; auto; [apply (lk_in R r)|apply lk_out]; auto.
    + intros (i' & j' & Hi' & Hj' & L1 & L2 & X). apply (lk_in R r) in L1; auto. apply lk_out in L2; auto. exists i'. ands; auto. destruct (H i' j b Hi' Hj) as [_ H2]. apply H2; [eapply tog_fresh; eauto|]. exists i', j'. ands; auto. now left.
  - split. { intros X. exfalso. apply tog_snoc in X. destruct X as [X|X]; [eapply (tog_fresh R r i j); eauto|destruct X; congruence]. } intros _.
    rewrite joinl_bits. split.
    + intros (l & Hl & El & X). destruct (H i l b Hi Hl) as [_ H2]. apply H2 in X; [|eapply tog_fresh; eauto]. destruct X as (i' & j' & Hi' & Hj' & L1 & L2 & X). apply (lk_fresh R r) in L2; auto. subst j'. exists i', l. ands; auto; [apply lk_out|apply (lk_in R r)]; auto.
    + intros (i' & j' & Hi' & Hj' & L1 & L2 & X). apply (lk_in R r) in L2; auto. apply lk_out in L1; auto. exists j'. ands; auto. destruct (H i j' b Hi Hj') as [_ H2]. apply H2; [eapply tog_fresh; eauto|]. exists i', j'. ands; auto. now left.
  - destruct (H i j b Hi Hj) as [H1 H2]. split.
    + intros X. apply tog_snoc in X. destruct X as [X|[X _]]; [|congruence]. rewrite (H1 X). split; intros (A1 & A2 & A3 & j' & A4 & A5 & A6); ands; auto; exists j'; ands; auto.
      * apply tog_snoc. auto.
      * apply tog_snoc in A5. destruct A5 as [A5|[A5 _]]; auto. congruence.
    + intros X. rewrite H2. 2:{ intros Y. apply X, tog_snoc. auto. } split; intros (i' & j' & Hi' & Hj' & L1 & L2 & Y); exists i', j'; ands; auto; try (apply lk_out; auto; fail).
      * apply lk_out in L1; auto.
      * apply lk_out in L2; auto.
Qed.

(** ** Production graphs *)
Variable roots : list nat.
Definition goodA (A : agraph) : Prop := forall i j, i < n -> j < n -> good (cell A i j).
Definition blk (A : agraph) (o : outcome) (i j : nat) : Prop := forall i' j', i' < n -> j' < n -> lk roots i i' -> lk roots j j' -> allm o (cell A i' j').
Definition okp (i j : nat) : bool := sup direction ups i && negb (sup direction ups j).
Record augS (R : list nat) (A0 A : agraph) : Prop := {
  as_cut : forall i j, i < n -> j < n -> tog R i j -> okp i j = false -> cell A i j = [];
  as_keep : forall i j o b, i < n -> j < n -> ~ (tog R i j /\ okp i j = false) -> sees o (cell A0 i j) b -> sees o (cell A i j) b;
  as_gain : forall i j i' j' o b, i < n -> j < n -> i' < n -> j' < n -> ~ tog R i j -> blk A0 o i j -> lk R i i' -> lk R j j' -> sees o (cell A0 i' j') b -> sees o (cell A i j) b;
  as_gain_in : forall i j j' o b, i < n -> j < n -> j' < n -> tog R i j -> okp i j = true -> blk A0 o i j -> tog R i j' -> sees o (cell A0 i j') b -> sees o (cell A i j) b;
  as_from : forall i j o b, i < n -> j < n -> ~ tog R i j -> sees o (cell A i j) b -> exists i' j' o', i' < n /\ j' < n /\ lk R i i' /\ lk R j j' /\ sees o' (cell A0 i' j') b;
  as_from_in : forall i j o b, i < n -> j < n -> tog R i j -> sees o (cell A i j) b -> exists j' o', j' < n /\ tog R i j' /\ sees o' (cell A0 i j') b;
  as_cond : forall i j o, i < n -> j < n -> blk A0 o i j -> allm o (cell A i j) }.
Lemma augS_nil A : augS [] A A.
Proof.
  assert (T : forall i j, ~ tog [] i j) by (intros i j (r & [] & _)). assert (L : forall i j, lk [] i j -> j = i) by (intros i j [->|X]; auto; exfalso; eapply T; eauto).
  constructor; auto; try (intros; exfalso; eapply T; eauto; fail).
  - intros i j i' j' o b Hi Hj Hi' Hj' _ _ L1 L2 X. apply L in L1, L2. now subst.
  - intros i j o b Hi Hj _ X. exists i, j, o. ands; auto; now left.
  - intros i j o Hi Hj B. apply B; auto; now left.
Qed.
Lemma blk_move A o i j i' j' : lk roots i i' -> lk roots j j' -> blk A o i j -> blk A o i' j'.
Proof. intros L1 L2 B a b Ha Hb L3 L4. apply B; auto; eapply lk_trans; eauto. Qed.
Lemma some_sees A i j b : goodA A -> i < n -> j < n -> some_bit (cell A i j) b -> exists o, sees o (cell A i j) b.
Proof. intros G Hi Hj (a & c & k & Hin & X). destruct (G i j Hi Hj a c k Hin) as [Hc _]. apply sat_consistent in Hc. destruct Hc as (o & Ho). exists o, a, c, k. auto. Qed.
Lemma lk_root r i j : In r roots -> insd par r start i = true -> insd par r start j = true -> lk roots i j.
Proof. intros. right. exists r. auto. Qed.
Lemma sees_some o l b : sees o l b -> some_bit l b.
Proof. intros (a & c & k & H & _ & X). exists a, c, k. auto. Qed.
Lemma line_blk R r A0 A o i j : In r roots -> augS R A0 A -> i < n -> j < n -> insd par r start i || insd par r start j = true -> blk A0 o i j -> linem par r start n A o i j.
Proof.
  intros Hr S Hi Hj Hor B i' j' (Hi' & Hj' & Li). apply (as_cond _ _ _ S); auto. apply (blk_move _ _ i j); auto.
  - destruct (insd par r start j) eqn:Ej; destruct Li as [-> Li]; [now left|]. rewrite orb_false_r in Hor. eapply lk_root; eauto.
  - destruct (insd par r start j) eqn:Ej; destruct Li as [-> Li]; [|now left]. eapply lk_root; eauto.
Qed.
Lemma augS_step R r A0 A A' : ~ In r R -> In r roots -> goodA A -> augS R A0 A -> (forall i j, i < n -> j < n -> out par r start n direction ups A A' i j) -> augS (R ++ [r]) A0 A'.
Proof.
  intros Hn Hr Gd S O.
  assert (Tin : forall i j, insd par r start i = true -> tog (R ++ [r]) i j <-> insd par r start j = true).
  { intros i j Hi. rewrite tog_snoc. split; [intros [X|X]; [exfalso; eapply (tog_fresh R r i j); eauto|tauto]|auto]. }
  assert (Tout : forall i j, insd par r start i = false \/ insd par r start j = false -> tog (R ++ [r]) i j <-> tog R i j).
  { intros i j Hi. rewrite tog_snoc. split; [intros [X|[X1 X2]]; auto; destruct Hi; congruence|auto]. }
  assert (Tno : forall i j, insd par r start i || insd par r start j = true -> ~ tog R i j) by (intros i j Hor; apply orb_true_iff in Hor; eapply tog_fresh; eauto).
  constructor.
  - intros i j Hi Hj T Z. specialize (O i j Hi Hj). unfold out in O. fold (okp i j) in O. rewrite Z in O. cbn [negb] in O. rewrite andb_true_r in O. destruct (insd par r start i) eqn:Ei, (insd par r start j) eqn:Ej; cbn [orb andb] in O; auto.
    + exfalso. apply Tin in T; auto. congruence.
    + exfalso. apply Tout in T; auto. eapply (Tno i j); [rewrite Ei, Ej; auto|auto].
    + rewrite O. apply (as_cut _ _ _ S); auto. apply Tout in T; auto.
  - intros i j o b Hi Hj Hno X. specialize (O i j Hi Hj). unfold out in O. fold (okp i j) in O. destruct (insd par r start i || insd par r start j) eqn:Hor.
    + assert (Old : sees o (cell A i j) b). { apply (as_keep _ _ _ S); auto. intros [T _]. eapply Tno; eauto. }
      destruct (insd par r start i && insd par r start j && negb (okp i j)) eqn:Z.
      * exfalso. apply Hno. apply andb_true_iff in Z. destruct Z as [Z1 Z2]. apply andb_true_iff in Z1. apply negb_true_iff in Z2. split; auto. apply Tin; tauto.
      * apply O. auto.
    + rewrite O. apply (as_keep _ _ _ S); auto. intros [T Z]. apply Hno. split; auto. apply tog_snoc. auto.
  - intros i j i' j' o b Hi Hj Hi' Hj' Hno B L1 L2 X. specialize (O i j Hi Hj). unfold out in O. fold (okp i j) in O. destruct (insd par r start i || insd par r start j) eqn:Hor.
    + assert (Z : insd par r start i && insd par r start j = false). { destruct (insd par r start i) eqn:Ei, (insd par r start j) eqn:Ej; auto. exfalso. apply Hno, Tin; auto. }
      rewrite Z in O. cbn [andb] in O. apply O. right. split; [eapply line_blk; eauto|].
      destruct (insd par r start j) eqn:Ej.
      * rewrite andb_true_r in Z. apply lk_out in L1; auto. apply lk_in in L2; auto. exists i, j'. split. { unfold line. rewrite Ej. auto. }
        apply (sees_some o). apply (as_gain _ _ _ S i j' i' j' o b); auto. { eapply tog_fresh; eauto. } { apply (blk_move _ _ i j); auto; [now left|eapply lk_root; eauto]. } now left.
      * rewrite orb_false_r in Hor. apply lk_in in L1; auto. apply lk_out in L2; auto. exists i', j. split. { unfold line. rewrite Ej. auto. }
        apply (sees_some o). apply (as_gain _ _ _ S i' j i' j' o b); auto. { eapply tog_fresh; eauto. } { apply (blk_move _ _ i j); auto; [eapply lk_root; eauto|now left]. } now left.
    + apply orb_false_iff in Hor. destruct Hor as [Ei Ej]. rewrite O. apply lk_out in L1; auto. apply lk_out in L2; auto. apply (as_gain _ _ _ S i j i' j'); auto. intros T. apply Hno, tog_snoc. auto.
  - intros i j j' o b Hi Hj Hj' T Z B T' X. specialize (O i j Hi Hj). unfold out in O. fold (okp i j) in O. rewrite Z in O. cbn [negb] in O. rewrite andb_false_r in O. destruct (insd par r start i) eqn:Ei.
    + apply Tin in T; auto. apply Tin in T'; auto. rewrite T in O. cbn [orb] in O. apply O. right. split. { eapply line_blk; eauto. now rewrite Ei. }
      exists i, j'. split. { unfold line. rewrite T. auto. } apply (sees_some o). apply (as_keep _ _ _ S); auto. intros [Y _]. eapply (tog_fresh R r i j'); eauto.
    + apply Tout in T; auto. apply Tout in T'; auto. destruct (insd par r start j) eqn:Ej; [exfalso; eapply (tog_fresh R r i j); eauto|]. cbn [orb] in O. rewrite O. apply (as_gain_in _ _ _ S i j j'); auto.
  - intros i j o b Hi Hj Hno X. specialize (O i j Hi Hj). unfold out in O. fold (okp i j) in O. destruct (insd par r start i || insd par r start j) eqn:Hor.
    + assert (Z : insd par r start i && insd par r start j = false). { destruct (insd par r start i) eqn:Ei, (insd par r start j) eqn:Ej; auto. exfalso. apply Hno, Tin; auto. }
      rewrite Z in O. cbn [andb] in O. apply O in X. assert (Up : forall a, lk R i a -> lk (R ++ [r]) i a) by (intros a L; apply lk_snoc; auto). assert (Up2 : forall a, lk R j a -> lk (R ++ [r]) j a) by (intros a L; apply lk_snoc; auto). destruct X as [X|[_ (i1 & j1 & Li & X)]].
      * destruct (as_from _ _ _ S i j o b Hi Hj (Tno i j Hor) X) as (i' & j' & o' & Hi' & Hj' & L1 & L2 & Y). exists i', j', o'. ands; auto.
      * destruct Li as (Hi1 & Hj1 & Li). apply some_sees in X; auto. destruct X as (o1 & X).
        assert (T1 : ~ tog R i1 j1). { destruct (insd par r start j) eqn:Ej; destruct Li as [-> Li]; eapply tog_fresh; eauto. }
        destruct (as_from _ _ _ S i1 j1 o1 b Hi1 Hj1 T1 X) as (i' & j' & o' & Hi' & Hj' & L1 & L2 & Y). exists i', j', o'. destruct (insd par r start j) eqn:Ej; destruct Li as [-> Li]; ands; auto.
        { apply (lk_in R r); auto. apply (lk_fresh R r) in L2; auto. now subst. }
        { rewrite orb_false_r in Hor. apply (lk_in R r); auto. apply (lk_fresh R r) in L1; auto. now subst. }
    + apply orb_false_iff in Hor. destruct Hor as [Ei Ej]. rewrite O in X. destruct (as_from _ _ _ S i j o b Hi Hj) as (i' & j' & o' & Hi' & Hj' & L1 & L2 & Y); auto. { intros T. apply Hno, tog_snoc. auto. } exists i', j', o'. ands; auto; apply lk_out; auto.
  - intros i j o b Hi Hj T X. specialize (O i j Hi Hj). unfold out in O. fold (okp i j) in O. destruct (insd par r start i) eqn:Ei.
    + apply Tin in T; auto. rewrite T in O. cbn [orb andb] in O. destruct (negb (okp i j)); [rewrite O in X; destruct X as (? & ? & ? & [] & _)|].
      assert (Q : exists j' o', j' < n /\ insd par r start j' = true /\ sees o' (cell A i j') b).
      { apply O in X. destruct X as [X|[_ (i1 & j1 & (Hi1 & Hj1 & Li) & X)]]; [exists j, o; auto|]. rewrite T in Li. destruct Li as [-> Li]. apply some_sees in X; auto. destruct X as (o1 & X). exists j1, o1. auto. }
      destruct Q as (j1 & o1 & Hj1 & Ej1 & Y). assert (T1 : ~ tog R i j1) by (eapply tog_fresh; eauto).
      destruct (as_from _ _ _ S i j1 o1 b Hi Hj1 T1 Y) as (i' & j' & o' & Hi' & Hj' & L1 & L2 & W). apply (lk_fresh R r) in L1; auto. apply (lk_fresh R r) in L2; auto. subst. exists j1, o'. ands; auto. apply Tin; auto.
    + apply Tout in T; auto. destruct (insd par r start j) eqn:Ej; [exfalso; eapply (tog_fresh R r i j); eauto|]. cbn [orb] in O. rewrite O in X. destruct (as_from_in _ _ _ S i j o b Hi Hj T X) as (j' & o' & Hj' & T' & Y). exists j', o'. ands; auto. apply tog_snoc. auto.
  - intros i j o Hi Hj B. assert (Old := as_cond _ _ _ S i j o Hi Hj B). specialize (O i j Hi Hj). unfold out in O. fold (okp i j) in O. destruct (insd par r start i || insd par r start j) eqn:Hor; [|now rewrite O].
    destruct (insd par r start i && insd par r start j && negb (okp i j)); [rewrite O; intros ? ? ? []|]. apply O; auto. eapply line_blk; eauto.
Qed.
End Classes.
