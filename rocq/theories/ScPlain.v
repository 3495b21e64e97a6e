(** * ScPlain: systems without circular attributes. *)
From Coq Require Import Relations Wellfounded.Transitive_Closure.
From Verif Require Import Base ScModel ScAbs ScWf ScSpec.

Section Plain.
Context {V : Type} (Y : system V) (known : nat -> option V).
Local Open Scope ev_scope.
Hypothesis HP : plain Y.

Notation value := (value_of Y known).
Notation need := (needs Y known).
Notation need_plus := (clos_trans nat need).

(** ** The values *)
Lemma runs_det (p : prog V) L v : runs p L v -> forall L' v', runs p L' v' ->
  (forall b w w', In (b, w) L -> In (b, w') L' -> w = w') -> v = v'.
Proof.
  induction 1 as [v|b k w L v R IH]; intros L' v' R' H; inversion R'; subst; auto.
  assert (w = w0) by (apply (H b); now left). subst w0.
  eapply IH; eauto. intros c u u' I I'. apply (H c); now right.
Qed.

Lemma value_det a v : value a v -> forall v', value a v' -> v = v'.
Proof.
  induction 1 as [a v E|a L v E R H IH]; intros v' H'; inversion H'; subst; try congruence.
  eapply runs_det; eauto. 
Qed.

Lemma next_in (p : prog V) L c : reads_next p L c -> forall L' v, runs p L' v ->
  (forall b w w', In (b, w) L -> In (b, w') L' -> w = w') -> exists w, In (c, w) L'.
Proof.
  induction 1 as [b k|b k w L c N IH]; intros L' v R H; inversion R; subst.
  - exists w. now left.
  - assert (w = w0) by (apply (H b); now left). subst w0.
    destruct (IH _ _ H4) as (u & I).
    { intros x u u' I I'. apply (H x); now right. }
    exists u. now right.
Qed.

Lemma value_acc a v : value a v -> Acc (fun b a => need a b) a.
Proof.
  induction 1 as [a v E|a L v E R H IH]; constructor; intros b (K & L' & N & H').
  - congruence.
  - destruct (next_in _ _ _ N _ _ R) as (w & I).
    { intros c u u' I I'. apply (value_det c); auto. }
    eapply IH; eauto.
Qed.

Lemma acc_irrefl a : Acc (fun b a => need a b) a -> ~ need_plus a a.
Proof.
  intros A. apply Acc_clos_trans in A. induction A as [a _ IH]. intros H.
  assert (clos_trans nat (fun b a => need a b) a a).
  { clear IH. revert H. generalize a at 1 4 as x. generalize a as y. clear.
    intros y x H. induction H as [x y H|x y z _ I1 _ I2]; [now constructor|].
    eapply t_trans; eauto. }
  apply (IH a); auto.
Qed.

(** ** Evaluation *)
Record sound (s : state V) : Prop := {
  so_value : forall x, e_status (at_ s x) = EVALUATED -> value x (e_value (at_ s x));
  so_known : forall x, known x = assigned s x
}.

Definition in_progress (s : state V) (x : nat) : Prop := e_status (at_ s x) = CYCLE.

Definition good (a : nat) (s : state V) (o : out (state V) V) : Prop :=
  match o with
  | Done v s' => value a v /\ v = e_value (at_ s' a) /\ settled s' a /\ sound s' /\
      (forall x, in_progress s' x <-> in_progress s x) /\ pending s' = pending s
  | Throws Cyclic _ => exists x, need_plus x x /\ clos_refl_trans nat need a x
  | Throws Failed _ => True
  | Throws _ _ => False
  | Crash _ => False
  | OutOfFuel => True
  end.

Section Calls.
Variable g : nat -> M (state V) V.
Hypothesis Hg : forall b s, sound s -> (forall x, in_progress s x -> need_plus x b) -> good b s (g b s).

Definition good_run (c : nat) (p : prog V) (s : state V) (o : out (state V) V) : Prop :=
  match o with
  | Done v s' => (exists L, runs p L v /\ forall b w, In (b, w) L -> value b w) /\ sound s' /\
      (forall x, in_progress s' x <-> in_progress s x) /\ pending s' = pending s
  | Throws Cyclic _ => exists x, need_plus x x /\ clos_refl_trans nat need c x
  | Throws Failed _ => True
  | Throws _ _ => False
  | Crash _ => False
  | OutOfFuel => True
  end.

Lemma run_good c p : forall s, sound s ->
  (forall x, in_progress s x -> x = c \/ need_plus x c) ->
  (forall L b, reads_next p L b -> (forall d w, In (d, w) L -> value d w) -> need c b) ->
  good_run c p s (run g p s).
Proof.
  induction p as [v|b k IH|]; intros s H HC HN; cbn [run].
  - simpl. split; [|split; [auto|split; [tauto|auto]]]. exists []. split; [constructor|intros b w []].
  - assert (NB : need c b) by (apply (HN [] b); [constructor|intros d w []]).
    assert (G1 : good b s (g b s)).
    { apply Hg; auto. intros x Hx. destruct (HC x Hx) as [->|Q]; [now constructor|].
      eapply t_trans; [exact Q|now constructor]. }
    unfold bnd. destruct (g b s) as [w s1|e s1|s1|]; simpl in G1; auto.
    + destruct G1 as (Vw & _ & _ & S1 & C1 & P1).
      assert (G2 : good_run c (k w) s1 (run g (k w) s1)).
      { apply IH; auto.
        - intros x Hx. apply HC. now apply C1.
        - intros L d N HL. apply (HN ((b, w) :: L) d); [now constructor|].
          intros y u [E|I]; [inversion E; subst; auto|eauto]. }
      destruct (run g (k w) s1) as [v s2|e s2|s2|]; simpl in *; auto.
      destruct G2 as ((L & R & HL) & S2 & C2 & P2). split; [|split; [auto|split]].
      * exists ((b, w) :: L). split; [now constructor|].
        intros y u [E|I]; [inversion E; subst; auto|eauto].
      * intros x. rewrite C2. apply C1.
      * congruence.
    + destruct e; simpl; auto. destruct G1 as (x & X1 & X2). exists x. split; auto.
      eapply rt_trans; [apply rt_step; exact NB|exact X2].
  - simpl. auto.
Qed.
End Calls.

Lemma initialize_plain a s : exists s', initialize Y a s = Done tt s' /\
  pending s' = pending s /\ (forall x, x <> a -> at_ s' x = at_ s x) /\
  ((at_ s' a = at_ s a) \/ (e_status (at_ s a) = UNINITIALIZED /\ e_status (at_ s' a) = UNEVALUATED)).
Proof.
  unfold initialize. destruct (s_initial Y a) as [w|].
  2:{ exists s. split; [reflexivity|]. auto. }
  rewrite bnd_get. destruct (e_status (at_ s a)) eqn:S;
    try (exists s; split; [reflexivity|]; auto; fail).
  eexists. split; [reflexivity|]. simpl. split; auto. split.
  - intros x D. rewrite !set_fun_neq by auto. reflexivity.
  - right. split; auto. rewrite set_fun_eq. simpl. now rewrite set_fun_eq.
Qed.

Theorem get_good n : forall a s, sound s -> (forall x, in_progress s x -> need_plus x a) ->
  good a s (get Y n a s).
Proof.
  induction n as [|n IH]; intros a s H HC; [exact I|]. cbn [get].
  destruct (initialize_plain a s) as (s1 & E1 & P1 & O1 & A1).
  unfold bnd at 1. rewrite E1.
  assert (H1 : sound s1).
  { destruct H as [Z1 Z2]. constructor.
    - intros x Hx. destruct (Nat.eq_dec x a) as [->|D].
      + destruct A1 as [A1|(A1 & A2)]; [rewrite A1 in *; auto|congruence].
      + rewrite O1 in * by auto. auto.
    - intros x. rewrite Z2. unfold assigned. destruct (Nat.eq_dec x a) as [->|D].
      + destruct A1 as [A1|(A1 & A2)]; [now rewrite A1|now rewrite A1, A2].
      + now rewrite O1. }
  assert (C1 : forall x, in_progress s1 x <-> in_progress s x).
  { intros x. unfold in_progress. destruct (Nat.eq_dec x a) as [->|D].
    - destruct A1 as [A1|(A1 & A2)]; [now rewrite A1|]. rewrite A1, A2. split; discriminate.
    - now rewrite O1. }
  assert (HC1 : forall x, in_progress s1 x -> need_plus x a) by (intros x Hx; apply HC; now apply C1).
  rewrite bnd_get.
  assert (EV : e_status (at_ s1 a) = UNINITIALIZED \/ e_status (at_ s1 a) = UNEVALUATED ->
     good a s ((set_status a CYCLE ;;; push a ;;;
      v <- run (get Y n) (s_compute Y a) ;;
      set_value a v ;;; pop ;;;
      c <- in_cycle Y n a ;;
      (match c with
       | Some _ => evaluate_cycle Y n (get Y n) a
       | None => set_status a EVALUATED
       end) ;;;
      get_st (fun s => e_value (at_ s a))) s1)).
  { intros S. unfold set_status at 1, edit. rewrite bnd_put. unfold push. rewrite bnd_put.
    set (s2 := mkState _ _).
    assert (K : known a = None).
    { rewrite (so_known _ H1). unfold assigned. destruct S as [-> | ->]; reflexivity. }
    assert (S2 : e_status (at_ s2 a) = CYCLE) by (simpl; now rewrite set_fun_eq).
    assert (O2 : forall x, x <> a -> at_ s2 x = at_ s1 x).
    { intros x D. simpl. now rewrite set_fun_neq. }
    assert (H2 : sound s2).
    { destruct H1 as [Z1 Z2]. constructor.
      - intros x Hx. destruct (Nat.eq_dec x a) as [->|D]; [congruence|]. rewrite O2 in * by auto. auto.
      - intros x. destruct (Nat.eq_dec x a) as [->|D].
        + rewrite K. unfold assigned. now rewrite S2.
        + rewrite Z2. unfold assigned. now rewrite O2. }
    assert (R : good_run a (s_compute Y a) s2 (run (get Y n) (s_compute Y a) s2)).
    { apply run_good; auto.
      - intros x Hx. destruct (Nat.eq_dec x a) as [->|D]; [auto|]. right. apply HC1.
        unfold in_progress in *. now rewrite O2 in Hx.
      - intros L b N HL. split; auto. exists L. auto. }
    unfold bnd at 1. destruct (run (get Y n) (s_compute Y a) s2) as [v s3|e s3|s3|]; simpl in R; auto.
    - destruct R as ((L & RL & HL) & H3 & C3 & P3).
      unfold set_value at 1, edit. rewrite bnd_put. unfold bnd at 1, pop. simpl pending. rewrite P3.
      simpl pending. cbv iota. unfold in_cycle. rewrite HP, bnd_ret.
      unfold set_status, edit. rewrite bnd_put. unfold get_st. simpl.
      assert (VA : value a v) by (eapply value_computed; eauto).
      rewrite set_fun_eq. simpl. rewrite set_fun_eq. simpl.
      split; auto. split; auto. split; [|split; [|split]].
      + left. simpl. now rewrite set_fun_eq.
      + constructor.
        * intros x Hx. simpl in *. unfold set_fun in *. destruct (Nat.eqb_spec x a) as [D|D].
          -- subst x. simpl. exact VA.
          -- now apply (so_value _ H3).
        * intros x. unfold assigned. simpl. unfold set_fun. destruct (Nat.eqb_spec x a) as [D|D].
          -- subst x. exact K.
          -- apply (so_known _ H3).
      + intros x. rewrite <- C1. unfold in_progress. simpl. unfold set_fun.
        destruct (Nat.eqb_spec x a) as [D|D].
        * subst x. simpl. split; [discriminate|]. intros Q. destruct S; congruence.
        * rewrite <- (O2 x D). apply C3.
      + exact P1. }
  destruct (e_status (at_ s1 a)) eqn:S; auto.
  - unfold detected_cycle. rewrite HP. simpl. exists a. split; [now apply HC1|apply rt_refl].
  - simpl. split; [apply (so_value _ H1); exact S|]. split; auto. split; [left; exact S|].
    split; auto.
  - simpl. split; [|split; [auto|split; [right; exact S|split; auto]]].
    apply value_known. rewrite (so_known _ H1). unfold assigned. now rewrite S.
Qed.

(** ** Fuel *)
Lemma run_fuel {St' : Type} (g g' : nat -> M St' V) p :
  (forall b s, g b s <> OutOfFuel -> g' b s = g b s) ->
  forall s, run g p s <> OutOfFuel -> run g' p s = run g p s.
Proof.
  intros H. induction p as [v|b k IH|]; intros s N; cbn [run] in *; auto.
  unfold bnd in *. rewrite H.
  - destruct (g b s); auto.
  - intros Q. rewrite Q in N. congruence.
Qed.

Definition body (g : nat -> M (state V) V) (a : nat) : M (state V) V :=
  initialize Y a ;;;
  st <- get_st (fun s => e_status (at_ s a)) ;;
  match st with
  | CYCLE => throw Cyclic
  | UNINITIALIZED | UNEVALUATED =>
    set_status a CYCLE ;;;
    push a ;;;
    v <- run g (s_compute Y a) ;;
    set_value a v ;;;
    pop ;;;
    set_status a EVALUATED ;;;
    get_st (fun s => e_value (at_ s a))
  | EVALUATED | ASSIGNED => get_st (fun s => e_value (at_ s a))
  end.

Lemma body_eq g a s s1 : initialize Y a s = Done tt s1 ->
  body g a s =
  (match e_status (at_ s1 a) with
  | CYCLE => throw Cyclic
  | UNINITIALIZED | UNEVALUATED =>
    set_status a CYCLE ;;;
    push a ;;;
    v <- run g (s_compute Y a) ;;
    set_value a v ;;;
    pop ;;;
    set_status a EVALUATED ;;;
    get_st (fun s => e_value (at_ s a))
  | EVALUATED | ASSIGNED => get_st (fun s => e_value (at_ s a))
  end) s1.
Proof. intros E. unfold body, bnd at 1. now rewrite E. Qed.

Lemma bnd_ext {St A B} (m : M St A) (k k' : A -> M St B) s :
  (forall v s', k v s' = k' v s') -> bnd m k s = bnd m k' s.
Proof. intros H. unfold bnd. destruct (m s); auto. Qed.

Lemma get_body n a s : get Y (S n) a s = body (get Y n) a s.
Proof.
  cbn [get]. unfold body. apply bnd_ext. intros _ s1. apply bnd_ext. intros st s2.
  destruct st; auto.
  - apply bnd_ext. intros _ s3. apply bnd_ext. intros _ s4. apply bnd_ext. intros v s5.
    apply bnd_ext. intros _ s6. apply bnd_ext. intros _ s7.
    unfold in_cycle. rewrite HP. reflexivity.
  - apply bnd_ext. intros _ s3. apply bnd_ext. intros _ s4. apply bnd_ext. intros v s5.
    apply bnd_ext. intros _ s6. apply bnd_ext. intros _ s7.
    unfold in_cycle. rewrite HP. reflexivity.
  - unfold detected_cycle. rewrite HP. reflexivity.
Qed.

Lemma bnd_fuel {St A B} (m m' : M St A) (k k' : A -> M St B) s :
  (m s <> OutOfFuel -> m' s = m s) ->
  (forall v s', k v s' <> OutOfFuel -> k' v s' = k v s') ->
  bnd m k s <> OutOfFuel -> bnd m' k' s = bnd m k s.
Proof.
  unfold bnd. intros H1 H2 N. rewrite H1.
  - destruct (m s); auto.
  - intros Q. rewrite Q in N. congruence.
Qed.

Lemma body_fuel g g' a : (forall b s, g b s <> OutOfFuel -> g' b s = g b s) ->
  forall s, body g a s <> OutOfFuel -> body g' a s = body g a s.
Proof.
  intros H s. unfold body. apply bnd_fuel; auto. intros _ s1. apply bnd_fuel; auto. intros st s2.
  assert (E : forall s3, (set_status a CYCLE ;;; push a ;;; v <- run g (s_compute Y a) ;;
      set_value a v ;;; pop ;;; set_status a EVALUATED ;;; get_st (fun s => e_value (at_ s a))) s3 <> OutOfFuel ->
      (set_status a CYCLE ;;; push a ;;; v <- run g' (s_compute Y a) ;;
      set_value a v ;;; pop ;;; set_status a EVALUATED ;;; get_st (fun s => e_value (at_ s a))) s3 =
      (set_status a CYCLE ;;; push a ;;; v <- run g (s_compute Y a) ;;
      set_value a v ;;; pop ;;; set_status a EVALUATED ;;; get_st (fun s => e_value (at_ s a))) s3).
  { intros s3. apply bnd_fuel; auto. intros _ s4. apply bnd_fuel; auto. intros _ s5.
    apply bnd_fuel; auto. apply run_fuel. exact H. }
  destruct st; auto.
Qed.

Lemma get_fuel_S n : forall a s, get Y n a s <> OutOfFuel -> get Y (S n) a s = get Y n a s.
Proof.
  induction n as [|n IH]; intros a s N; [now elim N|].
  rewrite get_body in N. rewrite !get_body. apply body_fuel; auto.
Qed.

Lemma get_fuel n m a s : n <= m -> get Y n a s <> OutOfFuel -> get Y m a s = get Y n a s.
Proof.
  induction 1 as [|m L IH]; intros N; auto. rewrite get_fuel_S; auto. rewrite IH; auto.
Qed.

(** ** Every value is found *)
Theorem get_complete a v : value a v -> forall s, sound s ->
  (forall x, in_progress s x -> need_plus x a) -> exists n s', get Y n a s = Done v s'.
Proof.
  intros VV. pose proof (acc_irrefl a (value_acc a v VV)) as IRR.
  enough (E : forall s, sound s -> (forall x, in_progress s x -> need_plus x a) ->
    exists n w s', get Y n a s = Done w s').
  { intros s H HC. destruct (E s H HC) as (n & w & s' & Q). exists n, s'.
    pose proof (get_good n a s H HC) as X. rewrite Q in X. destruct X as (X & _).
    now rewrite (value_det a v VV w X). }
  revert IRR. induction VV as [a v E|a L v E R HL IH]; intros IRR s H HC.
  - exists 1. rewrite get_body. unfold body.
    destruct (initialize_plain a s) as (s1 & E1 & P1 & O1 & A1).
    unfold bnd at 1. rewrite E1, bnd_get.
    rewrite (so_known _ H) in E. unfold assigned in E.
    destruct A1 as [A1|(A1 & _)]; [|rewrite A1 in E; discriminate].
    rewrite A1. destruct (e_status (at_ s a)); try discriminate. eexists _, _. reflexivity.
  - destruct (initialize_plain a s) as (s1 & E1 & P1 & O1 & A1).
    assert (H1 : sound s1 /\ forall x, in_progress s1 x -> need_plus x a).
    { split.
      - destruct H as [Z1 Z2]. constructor.
        + intros x Hx. destruct (Nat.eq_dec x a) as [->|D].
          * destruct A1 as [A1|(A1 & A2)]; [rewrite A1 in *; auto|congruence].
          * rewrite O1 in * by auto. auto.
        + intros x. rewrite Z2. unfold assigned. destruct (Nat.eq_dec x a) as [->|D].
          * destruct A1 as [A1|(A1 & A2)]; [now rewrite A1|now rewrite A1, A2].
          * now rewrite O1.
      - intros x Hx. apply HC. unfold in_progress in *. destruct (Nat.eq_dec x a) as [->|D].
        + destruct A1 as [A1|(A1 & A2)]; [now rewrite A1 in Hx|congruence].
        + now rewrite O1 in Hx. }
    destruct H1 as (H1 & HC1).
    enough (X : exists n w s', body (get Y n) a s = Done w s').
    { destruct X as (n & w & s' & X). exists (S n), w, s'. now rewrite get_body. }
    pose proof (fun g => body_eq g a s s1 E1) as BE.
    assert (EV : e_status (at_ s1 a) = UNINITIALIZED \/ e_status (at_ s1 a) = UNEVALUATED ->
      exists n w s', (set_status a CYCLE ;;; push a ;;; v <- run (get Y n) (s_compute Y a) ;;
      set_value a v ;;; pop ;;; set_status a EVALUATED ;;; get_st (fun s => e_value (at_ s a))) s1 = Done w s').
    { intros S.
      set (s2 := mkState (set_fun (at_ s1) a (mkEvaluation CYCLE (e_value (at_ s1 a)) (e_parent (at_ s1 a))
                     (e_next (at_ s1 a)) (e_helper (at_ s1 a)))) (a :: pending s1)).
      assert (S2 : e_status (at_ s2 a) = CYCLE) by (simpl; now rewrite set_fun_eq).
      assert (O2 : forall x, x <> a -> at_ s2 x = at_ s1 x).
      { intros x D. simpl. now rewrite set_fun_neq. }
      assert (H2 : sound s2).
      { destruct H1 as [Z1 Z2]. constructor.
        - intros x Hx. destruct (Nat.eq_dec x a) as [->|D]; [congruence|]. rewrite O2 in * by auto. auto.
        - intros x. destruct (Nat.eq_dec x a) as [->|D].
          + rewrite E. unfold assigned. now rewrite S2.
          + rewrite Z2. unfold assigned. now rewrite O2. }
      assert (HC2 : forall x, in_progress s2 x -> x = a \/ need_plus x a).
      { intros x Hx. destruct (Nat.eq_dec x a) as [->|D]; [auto|]. right. apply HC1.
        unfold in_progress in *. now rewrite O2 in Hx. }
      assert (HN : forall L' b, reads_next (s_compute Y a) L' b ->
         (forall d w, In (d, w) L' -> value d w) -> need a b).
      { intros L' b N HL'. split; auto. exists L'. auto. }
      assert (AC : forall b w, In (b, w) L -> ~ need_plus b b).
      { intros b w I. apply acc_irrefl. apply (value_acc b w). eauto. }
      assert (RUN : exists n w s', run (get Y n) (s_compute Y a) s2 = Done w s' /\ pending s' = pending s2).
      { clear S S2 O2 BE E1 P1 O1 A1 H1 HC1 H HC IRR. clearbody s2.
        revert s2 H2 HC2 HN AC IH HL. induction R as [v|b k w L v R IHR]; intros s2 H2 HC2 HN AC IH HL.
        - exists 0, v, s2. split; reflexivity.
        - assert (NB : need a b) by (apply (HN [] b); [constructor|intros d u []]).
          assert (HCb : forall x, in_progress s2 x -> need_plus x b).
          { intros x Hx. destruct (HC2 x Hx) as [->|Q]; [now constructor|].
            eapply t_trans; [exact Q|now constructor]. }
          destruct (IH b w (or_introl eq_refl) (AC b w (or_introl eq_refl)) s2 H2 HCb) as (n1 & w1 & s3 & E1).
          pose proof (get_good n1 b s2 H2 HCb) as X. rewrite E1 in X.
          destruct X as (X1 & _ & _ & X4 & X5 & X6).
          assert (w1 = w) by (apply (value_det b w1 X1); apply HL; now left). subst w1.
          destruct (IHR s3 X4) as (n2 & u & s4 & E2 & P2).
          + intros x Hx. apply HC2. now apply X5.
          + intros L' d N HL'. apply (HN ((b, w) :: L') d); [now constructor|].
            intros y z [Q|I]; [inversion Q; subst; auto|auto].
          + intros d u I. apply (AC d u). now right.
          + intros d u I. apply (IH d u). now right.
          + intros d u I. apply HL. now right.
          + exists (max n1 n2), u, s4. cbn [run]. unfold bnd.
            rewrite (get_fuel n1 (max n1 n2)); [|lia|congruence]. rewrite E1.
            split; [|congruence].
            rewrite <- E2. apply run_fuel; [|congruence].
            intros d s5 N. apply get_fuel; auto. lia. }
      destruct RUN as (n & w & s3 & E3 & P3). exists n. unfold set_status at 1, edit. rewrite bnd_put. unfold push. rewrite bnd_put.
      fold s2. change (mkState (at_ s2) (pending s2)) with s2.
      unfold bnd at 1. match goal with |- context [run (get Y n) (s_compute Y a) ?z] => change z with s2 end. rewrite E3.
      unfold set_value at 1, edit. rewrite bnd_put. unfold bnd at 1, pop. simpl pending. rewrite P3.
      simpl pending. cbv iota. unfold set_status, edit. rewrite bnd_put. eexists _, _. reflexivity. }
    destruct (e_status (at_ s1 a)) eqn:S.
    + destruct (EV (or_introl eq_refl)) as (n & w & s' & Q). exists n, w, s'. rewrite BE. exact Q.
    + destruct (EV (or_intror eq_refl)) as (n & w & s' & Q). exists n, w, s'. rewrite BE. exact Q.
    + exfalso. apply IRR. apply HC1. exact S.
    + exists 0. eexists _, _. rewrite BE. reflexivity.
    + exists 0. eexists _, _. rewrite BE. reflexivity.
Qed.
End Plain.
