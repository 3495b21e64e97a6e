(** * Proofs about the conditions and bindings printed by the C++ back end. *)

Require Import List Arith Lia Bool.
Import ListNotations.
Require Import Verif.PmModel Verif.PmSpec Verif.PmScala Verif.PmScalaSem.

(** ** Conjunctions *)

Lemma conjunction_cons : forall a l, l <> nil ->
  conjunction (a :: l) = CAtom a :: CAnd :: conjunction l.
Proof. intros a [|b l] H; [destruct (H eq_refl)|reflexivity]. Qed.

Lemma conjunction_app : forall l1 l2, l1 <> nil -> l2 <> nil ->
  conjunction (l1 ++ l2) = conjunction l1 ++ CAnd :: conjunction l2.
Proof.
  induction l1 as [|a l1 IH]; intros l2 H1 H2; [destruct (H1 eq_refl)|].
  destruct l1 as [|b l1].
  - cbn [app]. rewrite conjunction_cons by exact H2. reflexivity.
  - cbn [app]. rewrite !conjunction_cons by discriminate.
    change (b :: l1 ++ l2) with ((b :: l1) ++ l2). rewrite IH by (discriminate || exact H2).
    reflexivity.
Qed.

Lemma conjunction_inj : forall l l', conjunction l = conjunction l' -> l = l'.
Proof.
  induction l as [|a l IH]; intros [|b l'] H.
  - reflexivity.
  - destruct l'; discriminate H.
  - destruct l; discriminate H.
  - destruct l as [|a2 l], l' as [|b2 l'].
    + injection H as H. subst. reflexivity.
    + discriminate H.
    + discriminate H.
    + rewrite !conjunction_cons in H by discriminate.
      remember (conjunction (a2 :: l)) as c1 eqn:Hc1.
      remember (conjunction (b2 :: l')) as c2 eqn:Hc2.
      injection H as H1 H2. subst b. rewrite (IH (b2 :: l')); [reflexivity|].
      exact H2.
Qed.

Section Sem.
Variable code : val -> nat.

Notation Matches := (Matches code).
Notation MatchAll := (MatchAll code).
Notation MatchSeq := (MatchSeq code).
Notation cval := (cval code).
Notation aval := (aval code).

Lemma cval_app_true : forall v l1 l2,
  cval v (l1 ++ l2) = Some true <-> cval v l1 = Some true /\ cval v l2 = Some true.
Proof.
  intros v l1 l2. induction l1 as [|a l1 IH]; cbn.
  - split; [intros H; split; [reflexivity|exact H]|intros [_ H]; exact H].
  - destruct (aval v a) as [[|]|].
    + exact IH.
    + split; [intros H; discriminate H|intros [H _]; discriminate H].
    + split; [intros H; discriminate H|intros [H _]; discriminate H].
Qed.

Lemma cval_app_none : forall v l1 l2, cval v (l1 ++ l2) = None ->
  cval v l1 = None \/ (cval v l1 = Some true /\ cval v l2 = None).
Proof.
  intros v l1 l2. induction l1 as [|a l1 IH]; cbn; intros H.
  - right. split; [reflexivity|exact H].
  - destruct (aval v a) as [[|]|]; [exact (IH H)|discriminate H|left; reflexivity].
Qed.

(** The remembered expressions give the values of the variables. *)
Definition agree (v : val) (m : impls) (r : env) : Prop := forall x,
  match impl_of x m with
  | Some n => exists w, nval v n = Some w /\ look x r = Some w
  | None => look x r = None
  end.

Definition keys (m : impls) : list nat := map fst m.

Lemma impl_of_in : forall x m, In x (keys m) -> impl_of x m <> None.
Proof.
  induction m as [|[y n] m IH]; cbn; intros H; [destruct H|].
  destruct (Nat.eqb x y) eqn:E; [discriminate|].
  destruct H as [H|H]; [subst; rewrite Nat.eqb_refl in E; discriminate E|exact (IH H)].
Qed.

Lemma agree_cond : forall v m r e, agree v m r ->
  aval v (ACond e (map (fun x => impl_of x m) (ce_vars e))) = holds code e (fun x => look x r).
Proof.
  intros v m r e H. cbn. unfold holds. rewrite map_map.
  replace (map (fun x => match impl_of x m with Some n => nval v n | None => None end) (ce_vars e))
     with (map (fun x => look x r) (ce_vars e)); [reflexivity|].
  apply map_ext. intros x. specialize (H x). destruct (impl_of x m) as [n|].
  - destruct H as [w [H1 H2]]. rewrite H1, H2. reflexivity.
  - exact H.
Qed.

Lemma all_some_none : forall {A} (l : list (option A)), all_some l = None -> In None l.
Proof.
  induction l as [|[a|] l IH]; cbn; intros H; [discriminate H| |left; reflexivity].
  destruct (all_some l); [discriminate H|]. right. apply IH. reflexivity.
Qed.

Fixpoint arities_all (ps : list pat) : Prop :=
  match ps with nil => True | p :: ps' => arities p /\ arities_all ps' end.

Fixpoint suits_args (ps : list pat) (vs : list val) : Prop :=
  match ps, vs with
  | p :: ps', v :: vs' => suits p v /\ suits_args ps' vs'
  | _, _ => True
  end.

Fixpoint suits_seq (ps : list pat) (xs : list val) : Prop :=
  match ps with
  | nil => True
  | p :: ps' => (forall x, In x xs -> suits p x) /\ suits_seq ps' xs
  end.

Lemma suits_cons : forall k n ps t k' args,
  suits (PCall (Some (FCons k n)) ps) (VNode t k' args) =
  (k' = k -> length args = n /\ suits_args ps args).
Proof. reflexivity. Qed.

Lemma suits_seq_eq : forall ps t xs,
  suits (PCall (Some FSeq) ps) (VSeq t xs) = suits_seq ps xs.
Proof.
  intros ps t xs. cbn [suits]. induction ps as [|p ps IH]; [reflexivity|].
  cbn [suits_seq]. rewrite IH. reflexivity.
Qed.

Fixpoint scoped_all (b : list nat) (ps : list pat) : Prop :=
  match ps with nil => True | p :: ps' => scoped b p /\ scoped_all (b ++ named p) ps' end.

Fixpoint rest_last_all (ps : list pat) : bool :=
  match ps with
  | nil => true
  | PRest _ :: nil => true
  | PRest _ :: _ => false
  | p :: ps' => rest_last p && rest_last_all ps'
  end.

Lemma rest_last_call : forall f ps, rest_last (PCall f ps) = rest_last_all ps.
Proof. reflexivity. Qed.
Lemma scoped_call : forall b f ps, scoped b (PCall f ps) = scoped_all b ps.
Proof. reflexivity. Qed.

(** ** The main statement *)

Definition right (p : pat) : Prop := arities p -> forall node m t e m',
  cond p node m = (t, e, m') -> e = 0 ->
  exists l, l <> nil /\ t = conjunction l /\
  (forall x, In x (keys m') <-> In x (keys m) \/ In x (named p)) /\
  (forall v w r, nval v node = Some w -> suits p w -> agree v m r ->
     (rest_last p = true -> cval v l = Some true -> exists r', Matches r p w r' /\ agree v m' r') /\
     (forall r', Matches r p w r' -> cval v l = Some true /\ agree v m' r') /\
     (rest_last p = true -> scoped (keys m) p -> cval v l <> None)).

Lemma scoped_incl : forall p b b', incl b b' -> scoped b p -> scoped b' p.
Proof.
  induction p as [p t IH|f ps IH|c|p q IHp IHq|x|e|] using pat_ind'; intros b b' Hi H.
  - exact (IH b b' Hi H).
  - rewrite scoped_call in *. revert b b' Hi H.
    induction ps as [|p ps IHps]; intros b b' Hi H; [exact I|].
    inversion IH as [|x l H1 H2]; subst x l. destruct H as [Ha Hb]. split.
    + exact (H1 b b' Hi Ha).
    + apply (IHps H2 (b ++ named p)); [|exact Hb].
      intros x Hx. apply in_app_or in Hx. apply in_or_app. destruct Hx as [Hx|Hx]; [left; apply Hi; exact Hx|right; exact Hx].
  - exact I.
  - destruct H as [Ha Hb]. split; [exact (IHp b b' Hi Ha)|].
    apply (IHq (b ++ named p)); [|exact Hb].
    intros x Hx. apply in_app_or in Hx. apply in_or_app. destruct Hx as [Hx|Hx]; [left; apply Hi; exact Hx|right; exact Hx].
  - exact I.
  - intros x Hx. apply Hi. exact (H x Hx).
  - exact I.
Qed.

Lemma skipn_nth : forall {A} (l : list A) i x l', skipn i l = x :: l' ->
  nth_error l i = Some x /\ skipn (S i) l = l'.
Proof.
  induction l as [|a l IH]; intros [|i] x l' H; cbn in H; try discriminate H.
  - injection H as H1 H2. subst. split; reflexivity.
  - exact (IH i x l' H).
Qed.

(** Actuals of a constructor, from formal [i] on. *)
Lemma cond_args_right : forall ps, Forall right ps -> forall k n i node m t e m',
  cond_args cond k n i ps node m = (t, e, m') -> e = 0 -> i + length ps <= n ->
  arities_all ps ->
  exists l, t = flat_map (fun a => [CAnd; CAtom a]) l /\
  (forall x, In x (keys m') <-> In x (keys m) \/ In x (flat_map named ps)) /\
  (forall v ty args r, nval v node = Some (VNode ty k args) ->
     suits_args ps (skipn i args) -> agree v m r -> length args = i + length ps ->
     (rest_last_all ps = true -> cval v l = Some true ->
        exists r', MatchAll r ps (skipn i args) r' /\ agree v m' r') /\
     (forall r', MatchAll r ps (skipn i args) r' -> cval v l = Some true /\ agree v m' r') /\
     (rest_last_all ps = true -> scoped_all (keys m) ps -> cval v l <> None)).
Proof.
  assert (Hconj : forall l, l <> nil -> CAnd :: conjunction l = flat_map (fun a => [CAnd; CAtom a]) l).
  { induction l as [|a l IH]; intros H; [destruct (H eq_refl)|]. destruct l as [|b l]; [reflexivity|].
    rewrite conjunction_cons by discriminate. cbn [flat_map app]. rewrite IH by discriminate. reflexivity. }
  induction ps as [|p ps IH]; intros HF k n i node m t e m' HC HE Hle HAR.
  - cbn in HC. injection HC as <- <- <-. exists nil. split; [reflexivity|]. split.
    + intros x. cbn. tauto.
    + intros v ty args r Hn Ho Ha Hl. cbn [length] in Hl.
      rewrite skipn_all2 by lia. split; [|split].
      * intros _ _. exists r. split; [constructor|exact Ha].
      * intros r' H. inversion H; subst. split; [reflexivity|exact Ha].
      * intros _ _. discriminate.
  - inversion HF as [|x l H1 H2]; subst x l. cbn [cond_args] in HC. cbn [length] in Hle.
    destruct HAR as [A1 A2].
    destruct (Nat.ltb_spec i n) as [Hlt|Hge]; [|lia].
    destruct (cond p (NField k i node) m) as [[t1 e1] m1] eqn:E1.
    destruct (cond_args cond k n (S i) ps node m1) as [[t2 e2] m2] eqn:E2.
    injection HC as Ht He Hm. subst e t m'. assert (He1 : e1 = 0) by lia. assert (He2 : e2 = 0) by lia.
    destruct (H1 A1 _ _ _ _ _ E1 He1) as [l1 [Hl1 [Ht1 [K1 S1]]]].
    destruct (IH H2 _ _ _ _ _ _ _ _ E2 He2) as [l2 [Ht2 [K2 S2]]]; [lia|exact A2|].
    exists (l1 ++ l2). split; [|split].
    + rewrite flat_map_app, Ht1, Ht2.
      change (CAnd :: conjunction l1 ++ flat_map (fun a => [CAnd; CAtom a]) l2)
        with ((CAnd :: conjunction l1) ++ flat_map (fun a => [CAnd; CAtom a]) l2).
      rewrite Hconj by exact Hl1. reflexivity.
    + intros x. rewrite K2, K1. cbn [flat_map]. rewrite in_app_iff. tauto.
    + intros v ty args r Hn Ho Ha Hl. cbn [length] in Hl.
      assert (Hsk : exists w ws, skipn i args = w :: ws).
      { destruct (skipn i args) as [|w ws] eqn:Hsk; [|eauto].
        assert (Hx : length (skipn i args) = 0) by (rewrite Hsk; reflexivity).
        rewrite skipn_length in Hx. lia. }
      destruct Hsk as [w [ws Hsk]]. destruct (skipn_nth _ _ _ _ Hsk) as [Hnth Hsk2].
      assert (Hnv : nval v (NField k i node) = Some w).
      { cbn [nval]. rewrite Hn, Nat.eqb_refl. exact Hnth. }
      rewrite Hsk in Ho. destruct Ho as [Hok Ho]. rewrite <- Hsk2 in Ho.
      destruct (S1 v w r Hnv Hok Ha) as [C1 [C2 C3]]. rewrite Hsk.
      assert (HRA : rest_last_all (p :: ps) = true -> rest_last p = true /\ rest_last_all ps = true).
      { intros HR.
        destruct p as [p t|f qs|c|p q|x|ce| ]; try (cbn [rest_last_all] in HR; apply andb_true_iff in HR; exact HR).
        cbn in E1. injection E1 as _ E1 _. lia. }
      split; [|split].
      * intros HR H. apply HRA in HR. destruct HR as [HR1 HR2]. apply cval_app_true in H. destruct H as [Ha1 Hb1].
        destruct (C1 HR1 Ha1) as [r1 [M1 G1]].
        destruct (S2 v ty args r1 Hn Ho G1) as [D1 _]; [lia|].
        destruct (D1 HR2 Hb1) as [r2 [M2 G2]]. rewrite Hsk2 in M2.
        exists r2. split; [econstructor; [exact M1|exact M2]|exact G2].
      * intros r' H. inversion H as [|r0 p0 ps0 v0 vs0 r1 r2 M1 M2]; subst r0 p0 ps0 v0 vs0 r2.
        destruct (C2 r1 M1) as [T1 G1].
        destruct (S2 v ty args r1 Hn Ho G1) as [_ [D2 _]]; [lia|].
        rewrite Hsk2 in D2. destruct (D2 r' M2) as [T2 G2].
        split; [apply cval_app_true; split; [exact T1|exact T2]|exact G2].
      * intros HR HS Hnone. destruct HS as [HS1 HS2].
        apply HRA in HR. destruct HR as [HR1 HR2].
        apply cval_app_none in Hnone. destruct Hnone as [Hnone|[Ht' Hnone]].
        -- exact (C3 HR1 HS1 Hnone).
        -- destruct (C1 HR1 Ht') as [r1 [M1 G1]].
           destruct (S2 v ty args r1 Hn Ho G1) as [_ [_ D3]]; [lia|].
           apply (D3 HR2); [|exact Hnone].
           clear - HS2 K1. 
           assert (Hi : incl (keys m ++ named p) (keys m1)).
           { intros x Hx. apply K1. apply in_app_or in Hx. exact Hx. }
           revert HS2 Hi. generalize (keys m ++ named p) as b. generalize (keys m1) as b'.
           clear. intros b' b HS Hi.
           change (scoped b' (PCall None ps)). apply (scoped_incl (PCall None ps) b b' Hi). exact HS.
Qed.

(** Elements of a sequence. *)
Lemma suits_seq_tl : forall ps xs x, suits_seq ps (x :: xs) -> suits_seq ps xs.
Proof.
  induction ps as [|p ps IH]; intros xs x H; [exact I|]. destruct H as [H1 H2]. split.
  - intros y Hy. apply H1. right. exact Hy.
  - exact (IH xs x H2).
Qed.

Lemma cond_seq_right : forall ps, Forall right ps -> forall node m t e m',
  cond_seq cond ps node m = (t, e, m') -> e = 0 -> arities_all ps ->
  exists l, l <> nil /\ t = conjunction l /\
  (forall x, In x (keys m') <-> In x (keys m) \/ In x (flat_map named ps)) /\
  (forall v ty xs r, nval v node = Some (VSeq ty xs) ->
     suits_seq ps xs -> agree v m r ->
     (rest_last_all ps = true -> cval v l = Some true ->
        exists r', MatchSeq r ps xs r' /\ agree v m' r') /\
     (forall r', MatchSeq r ps xs r' -> cval v l = Some true /\ agree v m' r') /\
     (rest_last_all ps = true -> scoped_all (keys m) ps -> cval v l <> None)).
Proof.
  induction ps as [|p ps IH]; intros HF node m t e m' HC HE HAR.
  - cbn in HC. injection HC as <- <- <-. exists [AEmpty node].
    split; [discriminate|]. split; [reflexivity|]. split; [intros x; cbn; tauto|].
    intros v ty xs r Hn _ Ha. cbn [PmSpec.cval PmSpec.aval]. rewrite Hn.
    destruct xs as [|x xs]; (split; [|split]).
    + intros _ _. exists r. split; [constructor|exact Ha].
    + intros r' H. inversion H; subst. split; [reflexivity|exact Ha].
    + discriminate.
    + intros _ H. discriminate H.
    + intros r' H. inversion H.
    + discriminate.
  - inversion HF as [|x l H1 H2]; subst x l.
    assert (Hcase : (exists c, p = PRest c) \/
      (forall c, p <> PRest c) /\
      cond_seq cond (p :: ps) node m =
        (let '(t1, e1, m1) := cond p (NFirst node) m in
         let '(t2, e2, m2) := cond_seq cond ps (NButfirst node) m1 in
            (CAtom (ANonEmpty node) :: CAnd :: t1 ++ CAnd :: t2, e1 + e2, m2)) /\
      rest_last_all (p :: ps) = rest_last p && rest_last_all ps).
    { destruct p as [p t0|f qs|c|p q|x|ce| ]; try (right; split; [discriminate|split; reflexivity]).
      left. exists c. reflexivity. }
    destruct Hcase as [[c ->]|[Hnr [Heq Hrl]]].
    + (* ... *)
      cbn [cond_seq] in HC. destruct ps as [|q ps].
      * destruct c as [c|]; injection HC as <- <- <-; [discriminate HE|].
        exists [ATrue]. split; [discriminate|]. split; [reflexivity|].
        split; [intros x; cbn; tauto|].
        intros v ty xs r Hn _ Ha. split; [|split].
        -- intros _ _. exists r. split; [|exact Ha]. rewrite <- (app_nil_r xs). constructor. constructor.
        -- intros r' H. split; [reflexivity|].
           inversion H as [|r0 p0 ps0 v0 vs0 r1 r2 M1 M2|r0 ps0 vs1 vs2 r0' HM X1 X2].
           ++ destruct (no_rest code _ _ _ _ M1).
           ++ subst. inversion HM; subst. exact Ha.
        -- discriminate.
      * destruct ps as [|q2 ps]; [|injection HC as _ HC _; lia].
        destruct (cond q (NLast node) m) as [[t1 e1] m1] eqn:E1.
        injection HC as Ht He Hm. subst t e m'.
        destruct c as [c|]; [lia|]. assert (He1 : e1 = 0) by lia.
        inversion H2 as [|x l Hq _]; subst x l.
        destruct HAR as [_ [A2 _]].
        destruct (Hq A2 _ _ _ _ _ E1 He1) as [l1 [Hl1 [Ht1 [K1 S1]]]].
        exists l1. split; [exact Hl1|]. split; [exact Ht1|].
        split; [intros x; rewrite K1; cbn; rewrite app_nil_r; tauto|].
        intros v ty xs r Hn [_ [Hs _]] Ha.
        split; [intros HR; discriminate HR|].
        split; [|intros HR; discriminate HR].
        intros r' H.
        inversion H as [|r0 p0 ps0 v0 vs0 r1 r2 M1 M2|r0 ps0 vs1 vs2 r0' HM X1 X2].
        -- destruct (no_rest code _ _ _ _ M1).
        -- subst r0 ps0 r0' xs.
           inversion HM as [|r0 p0 ps0 v0 vs0 r1 r2 M1 M2|r0 ps0 vs1' vs2' r0' HM' Y1 Y2].
           ++ subst. inversion M2; subst.
              destruct (S1 v v0 r) as [_ [C2 _]].
              ** cbn [nval]. rewrite Hn, rev_app_distr. reflexivity.
              ** apply Hs. apply in_or_app. right. left. reflexivity.
              ** exact Ha.
              ** exact (C2 r' M1).
           ++ exfalso. subst q. cbn in E1. injection E1 as _ E1 _. lia.
    + rewrite Heq in HC. clear Heq. destruct HAR as [A1 A2].
      destruct (cond p (NFirst node) m) as [[t1 e1] m1] eqn:E1.
      destruct (cond_seq cond ps (NButfirst node) m1) as [[t2 e2] m2] eqn:E2.
      injection HC as Ht He Hm. subst e t m'. assert (He1 : e1 = 0) by lia. assert (He2 : e2 = 0) by lia.
      destruct (H1 A1 _ _ _ _ _ E1 He1) as [l1 [Hl1 [Ht1 [K1 S1]]]].
      destruct (IH H2 _ _ _ _ _ E2 He2 A2) as [l2 [Hl2 [Ht2 [K2 S2]]]].
      exists (ANonEmpty node :: l1 ++ l2). split; [discriminate|]. split.
      { rewrite conjunction_cons by (destruct l1; [destruct (Hl1 eq_refl)|discriminate]).
        rewrite conjunction_app by assumption. rewrite Ht1, Ht2. reflexivity. }
      split.
      { intros x. rewrite K2, K1. cbn [flat_map]. rewrite in_app_iff. tauto. }
      intros v ty xs r Hn Hs Ha. cbn [PmSpec.cval PmSpec.aval]. rewrite Hn.
      destruct xs as [|x xs].
      * split; [|split].
        -- intros _ H. discriminate H.
        -- intros r' H.
           inversion H as [|r0 p0 ps0 v0 vs0 r1 r2 M1 M2|r0 ps0 vs1 vs2 r0' HM X1 X2].
           exfalso. subst p. exact (Hnr None eq_refl).
        -- discriminate.
      * assert (Hnv : nval v (NFirst node) = Some x) by (cbn [nval]; rewrite Hn; reflexivity).
        assert (Hnb : nval v (NButfirst node) = Some (VSeq ty xs)) by (cbn [nval]; rewrite Hn; reflexivity).
        destruct Hs as [Hs1 Hs2].
        destruct (S1 v x r Hnv (Hs1 x (or_introl eq_refl)) Ha) as [C1 [C2 C3]].
        apply suits_seq_tl in Hs2. rewrite Hrl. split; [|split].
        -- intros HR H. apply andb_true_iff in HR. destruct HR as [HR1 HR2].
           apply cval_app_true in H. destruct H as [Ha1 Hb1].
           destruct (C1 HR1 Ha1) as [r1 [M1 G1]].
           destruct (S2 v ty xs r1 Hnb Hs2 G1) as [D1 _].
           destruct (D1 HR2 Hb1) as [r2 [M2 G2]].
           exists r2. split; [econstructor; [exact M1|exact M2]|exact G2].
        -- intros r' H.
           inversion H as [|r0 p0 ps0 v0 vs0 r1 r2 M1 M2|r0 ps0 vs1 vs2 r0' HM X1 X2];
             [|exfalso; subst p; exact (Hnr None eq_refl)].
           subst r0 p0 ps0 v0 vs0 r2.
           destruct (C2 r1 M1) as [T1 G1].
           destruct (S2 v ty xs r1 Hnb Hs2 G1) as [_ [D2 _]].
           destruct (D2 r' M2) as [T2 G2].
           split; [apply cval_app_true; split; [exact T1|exact T2]|exact G2].
        -- intros HR HS Hnone. apply andb_true_iff in HR. destruct HR as [HR1 HR2].
           destruct HS as [HS1 HS2].
           apply cval_app_none in Hnone. destruct Hnone as [Hnone|[Ht' Hnone]].
           ++ exact (C3 HR1 HS1 Hnone).
           ++ destruct (C1 HR1 Ht') as [r1 [M1 G1]].
              destruct (S2 v ty xs r1 Hnb Hs2 G1) as [_ [_ D3]].
              apply (D3 HR2); [|exact Hnone].
              change (scoped (keys m1) (PCall None ps)).
              apply (scoped_incl (PCall None ps) (keys m ++ named p)); [|exact HS2].
              intros y Hy. apply K1. apply in_app_or in Hy. exact Hy.
Qed.

Lemma conj_args : forall a l, CAtom a :: flat_map (fun a => [CAnd; CAtom a]) l = conjunction (a :: l).
Proof.
  intros a l. revert a. induction l as [|b l IH]; intros a; [reflexivity|].
  rewrite conjunction_cons by discriminate. cbn [flat_map app]. rewrite IH. reflexivity.
Qed.

Lemma cond_right : forall p, right p.
Proof.
  induction p as [p t IH|f ps IH|c|p q IHp IHq|x|ce|] using pat_ind'; intros HAR node m tt e m' HC HE.
  - cbn [cond] in HC. destruct (cond p node m) as [[t1 e1] m1] eqn:E1.
    injection HC as Ht He Hm. subst tt e1 m1.
    destruct (IH HAR _ _ _ _ _ E1 HE) as [l [Hl [Ht1 [K S]]]].
    exists (AType node t :: l). split; [discriminate|]. split.
    { rewrite conjunction_cons by exact Hl. rewrite Ht1. reflexivity. }
    split; [exact K|].
    intros v w r Hn Hs Ha. cbn [PmSpec.cval PmSpec.aval]. rewrite Hn.
    destruct (S v w r Hn Hs Ha) as [C1 [C2 C3]].
    destruct (Nat.eqb (type_of w) t) eqn:Et.
    + apply Nat.eqb_eq in Et. split; [|split].
      * intros HR H. destruct (C1 HR H) as [r' [M G]]. exists r'.
        split; [constructor; [exact Et|exact M]|exact G].
      * intros r' H. inversion H as [ | | | |r0 p0 t0 v0 r0' _ M| | ]; subst r0 p0 t0 v0 r0'.
        exact (C2 r' M).
      * exact C3.
    + apply Nat.eqb_neq in Et. split; [|split].
      * intros _ H. discriminate H.
      * intros r' H. inversion H as [ | | | |r0 p0 t0 v0 r0' X M| | ]; subst r0 p0 t0 v0 r0'.
        exfalso. apply Et. exact X.
      * discriminate.
  - cbn [cond] in HC. destruct f as [[k n| |d]|].
    + destruct (cond_args cond k n 0 ps node m) as [[t1 e1] m1] eqn:E1.
      injection HC as Ht He Hm. subst tt e1 m1.
      cbn [arities] in HAR. destruct HAR as [A1 A2].
      destruct (cond_args_right ps IH k n 0 node m t1 e m' E1 HE) as [l [Ht1 [K S]]]; [lia|exact A2|].
      exists (ACons node k :: l). split; [discriminate|]. split.
      { rewrite <- conj_args, Ht1. reflexivity. }
      split; [exact K|].
      intros v w r Hn Hs Ha.
      cbn [PmSpec.cval PmSpec.aval]. rewrite Hn.
      destruct w as [t k' args|t xs|t b]; [|destruct Hs|destruct Hs].
      rewrite suits_cons in Hs.
      destruct (Nat.eqb k' k) eqn:Ek.
      -- apply Nat.eqb_eq in Ek. subst k'. destruct (Hs eq_refl) as [Hs1 Hs2].
         destruct (S v t args r Hn Hs2 Ha) as [C1 [C2 C3]]; [cbn; lia|].
         cbn [skipn] in *. rewrite rest_last_call, scoped_call. split; [|split].
         ++ intros HR H. destruct (C1 HR H) as [r' [M G]]. exists r'. split; [constructor; exact M|exact G].
         ++ intros r' H. inversion H as [ | | | | |r0 k0 n0 ps0 t0 args0 r0' M| ];
            subst r0 k0 n0 ps0 t0 args0 r0'. exact (C2 r' M).
         ++ exact C3.
      -- split; [|split].
         ++ intros _ H. discriminate H.
         ++ intros r' H. exfalso.
            inversion H as [ | | | | |r0 k0 n0 ps0 t0 args0 r0' M|].
            apply Nat.eqb_neq in Ek. apply Ek. congruence.
         ++ discriminate.
    + cbn [arities] in HAR. destruct HAR as [_ A2].
      destruct (cond_seq_right ps IH node m tt e m' HC HE A2) as [l [Hl [Ht1 [K S]]]].
      exists l. split; [exact Hl|]. split; [exact Ht1|]. split; [exact K|].
      intros v w r Hn Hs Ha.
      destruct w as [t k' args|t xs|t b]; [destruct Hs| |destruct Hs].
      rewrite suits_seq_eq in Hs.
      destruct (S v t xs r Hn Hs Ha) as [C1 [C2 C3]].
      rewrite rest_last_call, scoped_call. split; [|split].
      * intros HR H. destruct (C1 HR H) as [r' [M G]]. exists r'. split; [constructor; exact M|exact G].
      * intros r' H. inversion H as [ | | | | | |r0 ps0 t0 xs0 r0' M];
                subst r0 ps0 t0 xs0 r0'. exact (C2 r' M).
      * exact C3.
    + injection HC as _ HC _. lia.
    + injection HC as _ HC _. lia.
  - injection HC as _ HC _. lia.
  - cbn [cond] in HC.
    destruct (cond p node m) as [[t1 e1] m1] eqn:E1.
    destruct (cond q node m1) as [[t2 e2] m2] eqn:E2.
    injection HC as Ht He Hm. subst e tt m'. assert (He1 : e1 = 0) by lia. assert (He2 : e2 = 0) by lia.
    destruct HAR as [A1 A2].
    destruct (IHp A1 _ _ _ _ _ E1 He1) as [l1 [Hl1 [Ht1 [K1 S1]]]].
    destruct (IHq A2 _ _ _ _ _ E2 He2) as [l2 [Hl2 [Ht2 [K2 S2]]]].
    exists (l1 ++ l2). split; [destruct l1; [destruct (Hl1 eq_refl)|discriminate]|].
    split; [rewrite conjunction_app by assumption; rewrite Ht1, Ht2; reflexivity|].
    split; [intros x; rewrite K2, K1; cbn [named]; rewrite in_app_iff; tauto|].
    intros v w r Hn [Hs1 Hs2] Ha.
    destruct (S1 v w r Hn Hs1 Ha) as [C1 [C2 C3]]. split; [|split].
    + intros HR H. cbn [rest_last] in HR. apply andb_true_iff in HR. destruct HR as [HR1 HR2].
      apply cval_app_true in H. destruct H as [Ha1 Hb1].
      destruct (C1 HR1 Ha1) as [r1 [M1 G1]].
      destruct (S2 v w r1 Hn Hs2 G1) as [D1 _].
      destruct (D1 HR2 Hb1) as [r2 [M2 G2]].
      exists r2. split; [econstructor; [exact M1|exact M2]|exact G2].
    + intros r' H. inversion H as [ | |r0 p0 q0 v0 r1 r2 M1 M2| | | | ]; subst r0 p0 q0 v0 r2.
      destruct (C2 r1 M1) as [T1 G1].
      destruct (S2 v w r1 Hn Hs2 G1) as [_ [D2 _]].
      destruct (D2 r' M2) as [T2 G2].
      split; [apply cval_app_true; split; [exact T1|exact T2]|exact G2].
    + intros HR [HS1 HS2] Hnone. cbn [rest_last] in HR. apply andb_true_iff in HR. destruct HR as [HR1 HR2].
      apply cval_app_none in Hnone. destruct Hnone as [Hnone|[Ht' Hnone]].
      * exact (C3 HR1 HS1 Hnone).
      * destruct (C1 HR1 Ht') as [r1 [M1 G1]].
        destruct (S2 v w r1 Hn Hs2 G1) as [_ [_ D3]].
        apply (D3 HR2); [|exact Hnone].
        apply (scoped_incl q (keys m ++ named p)); [|exact HS2].
        intros y Hy. apply K1. apply in_app_or in Hy. exact Hy.
  - destruct x as [x|]; injection HC as <- <- <-.
    + exists [ATrue]. split; [discriminate|]. split; [reflexivity|].
      split; [intros y; cbn; tauto|].
      intros v w r Hn _ Ha.
      assert (G : agree v ((x, node) :: m) ((x, w) :: r)).
      { intros y. cbn. destruct (Nat.eqb y x) eqn:E.
        - exists w. split; [exact Hn|reflexivity].
        - exact (Ha y). }
      split; [|split].
      * intros _ _. exists ((x, w) :: r). split; [constructor|exact G].
      * intros r' H. inversion H; subst. split; [reflexivity|exact G].
      * discriminate.
    + exists [ATrue]. split; [discriminate|]. split; [reflexivity|].
      split; [intros y; cbn; tauto|].
      intros v w r Hn _ Ha. split; [|split].
      * intros _ _. exists r. split; [constructor|exact Ha].
      * intros r' H. inversion H; subst. split; [reflexivity|exact Ha].
      * discriminate.
  - injection HC as <- <- <-.
    exists [ACond ce (map (fun x => impl_of x m) (ce_vars ce))].
    split; [discriminate|]. split; [reflexivity|]. split; [intros y; cbn; tauto|].
    intros v w r Hn _ Ha. cbn [PmSpec.cval]. rewrite (agree_cond v m r ce Ha).
    split; [|split].
    + intros _ H. exists r. split; [|exact Ha]. constructor.
      destruct (holds code ce (fun x => look x r)) as [[|]|]; [reflexivity|discriminate H|discriminate H].
    + intros r' H. inversion H as [ | | |r0 e0 v0 He| | | ]; subst r0 e0 v0 r'.
      rewrite He. split; [reflexivity|exact Ha].
    + intros _ HS. cbn [scoped] in HS.
      destruct (holds code ce (fun x => look x r)) as [[|]|] eqn:E; [discriminate|discriminate|exfalso].
      unfold holds in E.
      destruct (all_some (map (fun x => look x r) (ce_vars ce))) eqn:E2; [discriminate E|].
      apply all_some_none in E2. apply in_map_iff in E2. destruct E2 as [x [E3 E4]].
      pose proof (impl_of_in x m (HS x E4)) as Hi. specialize (Ha x).
      destruct (impl_of x m) as [nn|]; [|exact (Hi eq_refl)].
      destruct Ha as [w' [_ Hl]]. congruence.
  - injection HC as _ HC _. lia.
Qed.

(** ** Bindings *)

Lemma impl_of_unmark : forall x y m, impl_of y (unmark x m) = if Nat.eqb y x then None else impl_of y m.
Proof.
  intros x y m. induction m as [|[z n] m IH]; cbn.
  - destruct (Nat.eqb y x); reflexivity.
  - destruct (Nat.eqb x z) eqn:E1; cbn.
    + apply Nat.eqb_eq in E1. subst z. rewrite IH. destruct (Nat.eqb y x); reflexivity.
    + destruct (Nat.eqb y z) eqn:E2; [|exact IH].
      apply Nat.eqb_eq in E2. subst z. rewrite Nat.eqb_sym in E1. rewrite E1. reflexivity.
Qed.

Definition bound (p : pat) : Prop := forall m b e m2,
  bindings p m = (b, e, m2) -> NoDup (named p) ->
  (forall x, In x (named p) -> impl_of x m <> None) ->
  map fst b = named p /\ (forall x n, In (x, n) b -> impl_of x m = Some n) /\
  (forall y, ~ In y (named p) -> impl_of y m2 = impl_of y m).

Fixpoint bindings_all (ps : list pat) (m : impls) : list (nat * nexp) * nat * impls :=
  match ps with
  | nil => (nil, 0, m)
  | p :: ps' =>
      let '(b1, e1, m1) := bindings p m in
      let '(b2, e2, m2) := bindings_all ps' m1 in
      (b1 ++ b2, e1 + e2, m2)
  end.

Lemma nodup_app : forall (a b : list nat), NoDup (a ++ b) ->
  NoDup a /\ NoDup b /\ (forall x, In x a -> ~ In x b).
Proof.
  induction a as [|x a IH]; cbn; intros b H.
  - split; [constructor|]. split; [exact H|]. intros y [].
  - inversion H as [|x' l H1 H2]; subst x' l. destruct (IH b H2) as [A [B C]].
    split; [constructor; [intros H3; apply H1; apply in_or_app; left; exact H3|exact A]|].
    split; [exact B|]. intros y [->|Hy]; [intros H3; apply H1; apply in_or_app; right; exact H3|exact (C y Hy)].
Qed.

Lemma bound_two : forall (b1 b2 : list (nat * nexp)) (n1 n2 : list nat) m m1 m2,
  map fst b1 = n1 /\ (forall x n, In (x, n) b1 -> impl_of x m = Some n) /\
  (forall y, ~ In y n1 -> impl_of y m1 = impl_of y m) ->
  map fst b2 = n2 /\ (forall x n, In (x, n) b2 -> impl_of x m1 = Some n) /\
  (forall y, ~ In y n2 -> impl_of y m2 = impl_of y m1) ->
  (forall x, In x n1 -> ~ In x n2) ->
  map fst (b1 ++ b2) = n1 ++ n2 /\ (forall x n, In (x, n) (b1 ++ b2) -> impl_of x m = Some n) /\
  (forall y, ~ In y (n1 ++ n2) -> impl_of y m2 = impl_of y m).
Proof.
  intros b1 b2 n1 n2 m m1 m2 [A1 [A2 A3]] [B1 [B2 B3]] HD. split; [|split].
  - rewrite map_app, A1, B1. reflexivity.
  - intros x n H. apply in_app_or in H. destruct H as [H|H]; [exact (A2 x n H)|].
    rewrite <- (B2 x n H). symmetry. apply A3. intros H1. apply (HD x H1).
    rewrite <- B1. apply in_map_iff. exists (x, n). split; [reflexivity|exact H].
  - intros y H. rewrite B3, A3; [reflexivity| |];
      intros H1; apply H; apply in_or_app; [left|right]; exact H1.
Qed.

Lemma bindings_bound : forall p, bound p.
Proof.
  induction p as [p t IH|f ps IH|c|p q IHp IHq|x|ce|] using pat_ind'; intros m b e m2 HB HN HI.
  - exact (IH m b e m2 HB HN HI).
  - change (bindings_all ps m = (b, e, m2)) in HB. cbn [named] in *.
    revert m b e m2 HB HN HI. induction ps as [|p ps IHps]; intros m b e m2 HB HN HI.
    + injection HB as <- <- <-. split; [reflexivity|]. split; [intros x n []|reflexivity].
    + inversion IH as [|x l H1 H2]; subst x l. cbn [bindings_all] in HB.
      destruct (bindings p m) as [[b1 e1] m1] eqn:E1.
      destruct (bindings_all ps m1) as [[b2 e2] m2'] eqn:E2.
      injection HB as <- <- <-. cbn [flat_map] in *.
      destruct (nodup_app _ _ HN) as [N1 [N2 N3]].
      assert (P1 : map fst b1 = named p /\ (forall x n, In (x, n) b1 -> impl_of x m = Some n) /\
        (forall y, ~ In y (named p) -> impl_of y m1 = impl_of y m)).
      { apply (H1 m b1 e1 m1 E1 N1). intros x Hx. apply HI. apply in_or_app. left. exact Hx. }
      apply (bound_two b1 b2 (named p) (flat_map named ps) m m1 m2' P1); [|exact N3].
      apply (IHps H2 m1 b2 e2 m2' E2 N2). intros x Hx.
      rewrite (proj2 (proj2 P1)); [apply HI; apply in_or_app; right; exact Hx|].
      intros Hx1. exact (N3 x Hx1 Hx).
  - injection HB as <- <- <-. split; [reflexivity|]. split; [intros x n []|reflexivity].
  - cbn [bindings] in HB.
    destruct (bindings p m) as [[b1 e1] m1] eqn:E1.
    destruct (bindings q m1) as [[b2 e2] m2'] eqn:E2.
    injection HB as <- <- <-. cbn [named] in *.
    destruct (nodup_app _ _ HN) as [N1 [N2 N3]].
    assert (P1 : map fst b1 = named p /\ (forall x n, In (x, n) b1 -> impl_of x m = Some n) /\
        (forall y, ~ In y (named p) -> impl_of y m1 = impl_of y m)).
    { apply (IHp m b1 e1 m1 E1 N1). intros x Hx. apply HI. apply in_or_app. left. exact Hx. }
    apply (bound_two b1 b2 (named p) (named q) m m1 m2' P1); [|exact N3].
    apply (IHq m1 b2 e2 m2' E2 N2). intros x Hx.
    rewrite (proj2 (proj2 P1)); [apply HI; apply in_or_app; right; exact Hx|].
    intros Hx1. exact (N3 x Hx1 Hx).
  - destruct x as [x|]; cbn [bindings named] in *.
    + destruct (impl_of x m) as [n|] eqn:Ex; [|exfalso; exact (HI x (or_introl eq_refl) Ex)].
      injection HB as <- <- <-. split; [reflexivity|]. split.
      * intros y n' [H|[]]. injection H as <- <-. exact Ex.
      * intros y Hy. rewrite impl_of_unmark. destruct (Nat.eqb y x) eqn:E; [|reflexivity].
        apply Nat.eqb_eq in E. exfalso. apply Hy. left. symmetry. exact E.
    + injection HB as <- <- <-. split; [reflexivity|]. split; [intros x n []|reflexivity].
  - injection HB as <- <- <-. split; [reflexivity|]. split; [intros x n []|reflexivity].
  - injection HB as <- <- <-. split; [reflexivity|]. split; [intros x n []|reflexivity].
Qed.

Lemma declared_agree : forall v b m r, agree v m r ->
  (forall x n, In (x, n) b -> impl_of x m = Some n) ->
  exists r', declared v b = Some r' /\ map fst r' = map fst b /\
    (forall x w, In (x, w) r' -> look x r = Some w).
Proof.
  intros v b m r Ha. induction b as [|[x n] b IH]; intros H.
  - exists nil. split; [reflexivity|]. split; [reflexivity|]. intros x w [].
  - destruct IH as [r' [D1 [D2 D3]]]; [intros y n' Hy; apply H; right; exact Hy|].
    pose proof (H x n (or_introl eq_refl)) as Hx.
    pose proof (Ha x) as Hax. rewrite Hx in Hax. destruct Hax as [w [Hw Hl]].
    cbn [declared]. rewrite Hw, D1. exists ((x, w) :: r').
    split; [reflexivity|]. split; [cbn; rewrite D2; reflexivity|].
    intros y w' [Hy|Hy]; [injection Hy as <- <-; exact Hl|exact (D3 y w' Hy)].
Qed.

Lemma look_in : forall {A} (r : list (nat * A)) x, In x (map fst r) -> exists w, look x r = Some w /\ In (x, w) r.
Proof.
  induction r as [|[y w] r IH]; intros x H; [destruct H|]. cbn. destruct (Nat.eqb x y) eqn:E.
  - apply Nat.eqb_eq in E. subst y. exists w. split; [reflexivity|left; reflexivity].
  - destruct H as [H|H]; [cbn in H; subst; rewrite Nat.eqb_refl in E; discriminate E|].
    destruct (IH x H) as [w' [H1 H2]]. exists w'. split; [exact H1|right; exact H2].
Qed.

(** ** The generated C++ *)
Theorem cpp_meaning : forall p t b, cpp_match p = (t, b, 0) -> arities p -> NoDup (named p) ->
  exists l, l <> nil /\ t = conjunction l /\ map fst b = named p /\
  forall v, suits p v ->
    (forall r, Matches nil p v r ->
       cval v l = Some true /\
       exists r', declared v b = Some r' /\ forall x, look x r' = look x r) /\
    (rest_last p = true -> cval v l = Some true -> exists r, Matches nil p v r) /\
    (rest_last p = true -> scoped nil p -> cval v l <> None).
Proof.
  intros p t b HC HA HN. unfold cpp_match in HC.
  destruct (cond p NRoot nil) as [[t1 e1] m1] eqn:E1.
  destruct (bindings p m1) as [[b2 e2] m2] eqn:E2.
  injection HC as H1 H2 H3. subst t1 b2.
  assert (He1 : e1 = 0) by lia.
  destruct (cond_right p HA _ _ _ _ _ E1 He1) as [l [Hl [Ht [K S]]]].
  destruct (bindings_bound p m1 b e2 m2 E2 HN) as [B1 [B2 B3]].
  { intros x Hx. apply impl_of_in. apply K. right. exact Hx. }
  exists l. split; [exact Hl|]. split; [exact Ht|]. split; [exact B1|].
  intros v Hs.
  assert (Ha : agree v nil nil) by (intros x; reflexivity).
  destruct (S v v nil eq_refl Hs Ha) as [C1 [C2 C3]]. split; [|split].
  - intros r HM. destruct (C2 r HM) as [T G]. split; [exact T|].
    destruct (declared_agree v b m1 r G B2) as [r' [D1 [D2 D3]]].
    exists r'. split; [exact D1|]. intros x.
    destruct (in_dec Nat.eq_dec x (named p)) as [Hx|Hx].
    + rewrite <- B1, <- D2 in Hx. destruct (look_in r' x Hx) as [w [L1 L2]].
      rewrite L1. symmetry. exact (D3 x w L2).
    + rewrite look_none by (rewrite D2, B1; exact Hx).
      specialize (G x). destruct (impl_of x m1) as [n|] eqn:Ei; [|symmetry; exact G].
      exfalso. apply Hx.
      assert (Hk : In x (keys m1)).
      { clear - Ei. induction m1 as [|[y n'] m1 IH]; [discriminate Ei|]. cbn in Ei |- *.
        destruct (Nat.eqb x y) eqn:E; [left; symmetry; apply Nat.eqb_eq; exact E|right; exact (IH Ei)]. }
      apply K in Hk. destruct Hk as [[]|Hk]. exact Hk.
  - intros HR H. destruct (C1 HR H) as [r' [M _]]. exists r'. exact M.
  - intros HR HS. exact (C3 HR HS).
Qed.

End Sem.
