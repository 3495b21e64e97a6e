(** * ScFix: without merged cycles, evaluated attributes satisfy their equations. *)
From Verif Require Import Base ScModel ScAbs ScWf ScRep ScSafe ScSpec ScHist.

(** The frame that the members of the cycle [l] wait for. *)
Definition anchor (f : frame) (l : nat) : Prop := f = (l, Comp) \/ snd f = Rec l.

(** Frames of one cycle lie on top of each other, with the anchor below. *)
Fixpoint stacked (cyc : nat -> option nat) (G : list frame) : Prop :=
  match G with
  | [] => True
  | f :: rest =>
    stacked cyc rest /\
    (match snd f with
     | Comp => ~ In (fst f) (map fst rest)
     | Rec l => cyc (fst f) = Some l
     end) /\
    forall l, cyc (fst f) = Some l ->
      (anchor f l /\ forall f', In f' rest -> cyc (fst f') <> Some l) \/
      (~ anchor f l /\ exists f' rest', rest = f' :: rest' /\ cyc (fst f') = Some l)
  end.

Lemma stacked_ext cyc cyc' G :
  (forall f, In f G -> cyc' (fst f) = cyc (fst f)) -> stacked cyc G -> stacked cyc' G.
Proof.
  induction G as [|f G IH]; simpl; auto. intros E (S & D & C). split; [|split].
  - apply IH; auto.
  - destruct (snd f); auto. rewrite E; auto.
  - intros l Hl. rewrite E in Hl by auto. destruct (C l Hl) as [(A & N)|(A & f' & r & -> & Q)].
    + left. split; auto. intros f' I. rewrite E; auto.
    + right. split; auto. exists f', r. split; auto. rewrite E; auto. right; now left.
Qed.

Section Fix.
Context {V : Type} (Y : system V).
Local Open Scope ev_scope.
Hypothesis HE : forall a u v, s_equal Y a u v = true -> u = v.

Definition final_st (t : astate V) (a : nat) : Prop := a_st t a = EVALUATED \/ a_st t a = ASSIGNED.
Definition unev (t : astate V) (a : nat) : Prop := a_st t a = UNINITIALIZED \/ a_st t a = UNEVALUATED.

(** The equation of [a], with ranks: what is read was evaluated before, or in the
    same cycle. *)
Definition eqn (rk : nat -> nat) (t : astate V) (a : nat) : Prop :=
  exists L, runs (s_compute Y a) L (a_val t a) /\
    forall b w, In (b, w) L -> final_st t b /\ a_val t b = w /\
      (a_st t b = ASSIGNED \/ rk b < rk a \/
       (rk b = rk a /\ a_cyc t b = a_cyc t a /\ a_cyc t a <> None)).

Definition eqns (t : astate V) : Prop :=
  exists rk N, forall x, a_st t x = EVALUATED -> rk x < N /\ eqn rk t x.

Lemma eqns_keep t t' : eqns t ->
  (forall x, a_st t' x = EVALUATED -> a_st t x = EVALUATED) ->
  (forall b, final_st t b -> a_st t' b = a_st t b /\ a_val t' b = a_val t b /\ a_cyc t' b = a_cyc t b) ->
  eqns t'.
Proof.
  intros (rk & N & H) E F. exists rk, N. intros x Hx. apply E in Hx.
  destruct (H x Hx) as (B & L & R & HL). split; auto.
  destruct (F x (or_introl Hx)) as (X1 & X2 & X3). exists L. rewrite X2, X3. split; auto.
  intros b w I. destruct (HL b w I) as (S & V1 & Q). destruct (F b S) as (Y1 & Y2 & Y3).
  unfold final_st in *. rewrite Y1, Y2, Y3. auto.
Qed.

(** Some attributes are evaluated now. *)
Lemma eqns_add t t' : eqns t ->
  (forall b, final_st t b -> a_st t' b = a_st t b /\ a_val t' b = a_val t b /\ a_cyc t' b = a_cyc t b) ->
  (forall x, a_st t' x = EVALUATED -> a_st t x <> EVALUATED ->
     exists L, runs (s_compute Y x) L (a_val t' x) /\
       forall b w, In (b, w) L -> a_val t' b = w /\
         (final_st t b \/ (a_st t' b = EVALUATED /\ a_cyc t' b = a_cyc t' x /\ a_cyc t' x <> None))) ->
  eqns t'.
Proof.
  intros (rk & N & H) F A.
  exists (fun x => match a_st t x with EVALUATED => rk x | _ => N end), (S N).
  assert (OLD : forall x, a_st t x = EVALUATED \/ a_st t x <> EVALUATED).
  { intros x. destruct (a_st t x); auto; right; discriminate. }
  assert (RK : forall x, a_st t x = EVALUATED -> match a_st t x with EVALUATED => rk x | _ => N end = rk x).
  { intros x ->. reflexivity. }
  assert (RN : forall x, a_st t x <> EVALUATED -> match a_st t x with EVALUATED => rk x | _ => N end = N).
  { intros x Q. destruct (a_st t x); congruence. }
  intros x Hx. destruct (OLD x) as [O|O].
  - destruct (H x O) as (B & L & R & HL). rewrite (RK x O). split; [lia|].
    destruct (F x (or_introl O)) as (X1 & X2 & X3). exists L. rewrite X2, X3. split; auto.
    intros b w I. destruct (HL b w I) as (S & V1 & Q). destruct (F b S) as (Y1 & Y2 & Y3).
    rewrite (RK x O). unfold final_st in *. rewrite Y1, Y2, Y3. split; auto. split; auto.
    destruct S as [S|S]; [|auto]. rewrite (RK b S). auto.
  - rewrite (RN x O). split; [lia|]. destruct (A x Hx O) as (L & R & HL). exists L. split; auto.
    intros b w I. destruct (HL b w I) as (V1 & Q). rewrite (RN x O).
    destruct Q as [S|(S & C & CN)].
    + destruct (F b S) as (Y1 & Y2 & Y3). unfold final_st in *. rewrite Y1. split; auto. split; auto.
      destruct S as [S|S]; [|auto]. rewrite (RK b S). right; left. apply (H b S).
    + split; [now left|]. split; auto. destruct (OLD b) as [Ob|Ob].
      * rewrite (RK b Ob). right; left. apply (H b Ob).
      * rewrite (RN b Ob). auto.
Qed.

Record K (t : astate V) (G : list frame) (o : option nat) : Prop := {
  k_wf : awf Y t;
  k_merged : a_merged t = false;
  k_pend : a_pend t = map fst G;
  k_frame : forall f, In f G -> a_st t (fst f) = CYCLE;
  k_stack : stacked (a_cyc t) G;
  k_cycle : forall x, a_st t x = CYCLE ->
     match a_cyc t x with
     | None => In (x, Comp) G
     | Some l => anchored l G \/ o = Some l
     end;
  k_cyc : forall x l, a_cyc t x = Some l ->
     a_st t x = a_st t l /\ (a_st t x = CYCLE \/ a_st t x = EVALUATED);
  k_float : forall d, o = Some d -> a_cyc t d = Some d /\ a_st t d = CYCLE /\
     forall f, In f G -> a_cyc t (fst f) <> Some d;
  k_eqn : eqns t
}.

(** What does not change, but for the cycle [e]. *)
Record F (e : option nat) (t t' : astate V) : Prop := {
  f_grow : grow t t';
  f_live : forall y, ~ unev t y -> ~ unev t' y;
  f_set : forall y, final_st t y ->
     a_st t' y = a_st t y /\ a_val t' y = a_val t y /\ a_cyc t' y = a_cyc t y;
  f_cyc : forall y l, a_st t y = CYCLE -> a_cyc t y = Some l -> e <> Some l ->
     a_val t' y = a_val t y;
  f_mod : forall l, a_cyc t l = Some l -> e <> Some l -> a_mod t' l = a_mod t l
}.

Lemma F_refl e t : F e t t.
Proof. constructor; auto. apply grow_refl. Qed.

Lemma F_trans e t1 t2 t3 : F e t1 t2 -> F e t2 t3 -> a_merged t3 = false ->
  (forall y l, a_cyc t1 y = Some l -> a_st t1 y = CYCLE -> e <> Some l -> a_st t2 y = CYCLE) ->
  F e t1 t3.
Proof.
  intros [A1 A2 A3 A4 A5] [B1 B2 B3 B4 B5] M H.
  assert (M2 : a_merged t2 = false).
  { destruct (a_merged t2) eqn:Q; auto. rewrite (gr_merged _ _ B1) in M; congruence. }
  constructor; auto.
  - eapply grow_trans; eauto.
  - intros y S. destruct (A3 y S) as (E1 & E2 & E3).
    destruct (B3 y) as (E4 & E5 & E6); [red; now rewrite E1|]. repeat split; congruence.
  - intros y l S C E. rewrite (B4 y l); eauto. now apply (gr_kept _ _ A1).
  - intros l C E. rewrite B5; auto. now apply (gr_kept _ _ A1).
Qed.

Lemma merged_back t t' : grow (V := V) t t' -> a_merged t' = false -> a_merged t = false.
Proof. intros G M. destruct (a_merged t) eqn:Q; auto. now rewrite (gr_merged _ _ G) in M. Qed.

(** ** Detection of cycles *)
Lemma mark_spec ls : forall c t t', awf Y t -> a_cyc t c = Some c ->
  a_mark Y c ls t = Done tt t' -> a_merged t' = false ->
  (exists e, In e ls /\ a_cyc t e = Some c) ->
  awf Y t' /\ grow t t' /\ a_st t' = a_st t /\ a_val t' = a_val t /\ a_mod t' = a_mod t /\
  a_pend t' = a_pend t /\
  exists A f R, ls = A ++ f :: R /\ a_cyc t' f = Some c /\
    (forall x, In x A -> a_cyc t x = None /\ a_cyc t' x = Some c) /\
    (forall x, ~ In x A -> a_cyc t' x = a_cyc t x).
Proof.
  induction ls as [|e ls IH]; intros c t t' W C E M (w & Iw & Cw); [destruct Iw|].
  cbn [a_mark] in E. rewrite bnd_get in E.
  destruct (eq_ref_spec (a_cyc t e) (Some c)) as [Q|Q].
  - inversion E; subst t'. split; [exact W|]. split; [apply grow_refl|].
    do 4 (split; [reflexivity|]).
    exists [], e, ls. split; [reflexivity|]. split; [exact Q|]. split; [intros x []|auto].
  - apply bnd_Done in E. destruct E as ([] & t1 & E1 & E).
    pose proof (root_stays Y _ _ _ _ E1 C) as C1.
    unfold a_join in E1. destruct (s_circular Y e) eqn:Ke; [|discriminate].
    rewrite bnd_get in E1. destruct (a_cyc t e) as [p|] eqn:Ce.
    + exfalso. inversion E1; subst t1.
      assert (W1 : awf Y (merge p c t)).
      { apply (awf_merge Y t p c W C (wf_root _ _ W _ _ Ce)). congruence. }
      pose proof (mark_calm Y ls c _ W1 C1) as X. rewrite E in X. destruct X as (_ & _ & X).
      rewrite (gr_merged _ _ X) in M; [discriminate|reflexivity].
    + inversion E1; subst t1. destruct (awf_join Y t e c W C Ce Ke) as (W1 & G1).
      assert (D : w <> e) by congruence.
      destruct (IH c _ t' W1 C1 E M) as (W' & G' & X1 & X2 & X3 & X4 & A & f & R & -> & Cf & HA & HN).
      { exists w. split; [destruct Iw; [congruence|auto]|]. simpl. now rewrite set_fun_neq. }
      split; [exact W'|]. split; [apply (grow_trans _ _ _ G1 G')|].
      split; [exact X1|]. split; [exact X2|]. split; [exact X3|]. split; [exact X4|].
      exists (e :: A), f, R. split; [reflexivity|]. split; [exact Cf|]. split.
      * intros x H. split.
        -- destruct H as [<-|H]; auto. destruct (HA x H) as (Y1 & _). simpl in Y1. unfold set_fun in Y1.
           destruct (x =? e); congruence.
        -- destruct H as [<-|H]; [|apply (HA x H)].
           destruct (in_dec Nat.eq_dec e A) as [Ie|Ne]; [apply (HA e Ie)|].
           rewrite HN by auto. simpl. apply set_fun_eq.
      * intros x Hx. simpl in Hx. rewrite HN by tauto. simpl. apply set_fun_neq. intuition.
Qed.

Lemma stacked_mark cyc cyc' c (G : list frame) A : forall f R,
  stacked cyc G -> map fst G = A ++ f :: R -> cyc' f = Some c -> cyc c = Some c ->
  (forall x, In x A -> cyc x = None /\ cyc' x = Some c) ->
  (forall x, ~ In x A -> cyc' x = cyc x) -> stacked cyc' G.
Proof.
  revert cyc' A. induction G as [|g G IH]; intros cyc' A f R S E Cf Cc HA HN; [exact I|].
  destruct A as [|x A].
  - apply stacked_ext with cyc; auto.
  - simpl in E. inversion E; subst x. simpl in S. destruct S as (S & D & C).
    destruct (HA (fst g)) as (Cg & Cg'); [now left|].
    destruct (snd g) eqn:Kg; [|congruence].
    assert (NA : ~ In (fst g) A).
    { intros X. apply D. rewrite H1. apply in_or_app. now left. }
    simpl. split; [|split].
    + (* the frames below *)
      assert (S1 : forall cyc1, (forall y, cyc1 y = if y =? fst g then cyc (fst g) else cyc' y) -> stacked cyc1 G).
      { intros cyc1 Q. apply (IH cyc1 A f R); auto.
        - rewrite Q. destruct (Nat.eqb_spec f (fst g)) as [Z|]; auto.
          exfalso. apply D. rewrite H1, <- Z. apply in_or_app. right; now left.
        - intros y Hy. destruct (HA y) as (Y1 & Y2); [now right|]. split; auto.
          rewrite Q. destruct (Nat.eqb_spec y (fst g)) as [Z|]; auto. subst y; contradiction.
        - intros y Hy. rewrite Q. destruct (Nat.eqb_spec y (fst g)) as [Z|Z]; [now subst y|].
          apply HN. simpl. intuition. }
      apply stacked_ext with (fun y => if y =? fst g then cyc (fst g) else cyc' y).
      2:{ now apply S1. }
      intros f' If'. destruct (Nat.eqb_spec (fst f') (fst g)) as [Z|]; auto.
      exfalso. apply D. rewrite <- Z. now apply in_map.
    + rewrite Kg. exact D.
    + intros l Hl. assert (l = c) by congruence. subst l. right. split.
      * intros [Z|Z]; [|congruence]. rewrite Z in Cg. simpl in Cg. congruence.
      * destruct G as [|f' G']; [destruct A; discriminate|].
        exists f', G'. split; auto. simpl in H1. destruct A as [|y A]; inversion H1; subst; auto.
        apply HA. right; now left.
Qed.

Lemma K_new t G b : K t G None -> a_st t b = CYCLE -> a_cyc t b = None ->
  s_circular Y b = true -> K (new_cycle Y b t) G None /\ F None t (new_cycle Y b t).
Proof.
  intros [W M P FR SK CY C1 FL EQ] S C Kb.
  destruct (awf_new Y t b W C Kb) as (W' & G').
  pose proof (CY b S) as IG. rewrite C in IG.
  assert (NR : forall x, a_cyc t x <> Some b).
  { intros x Hx. pose proof (wf_root _ _ W _ _ Hx). congruence. }
  split.
  - constructor; simpl; auto.
    + clear - SK IG NR C. induction G as [|f G IH]; [exact I|]. simpl in *.
      destruct SK as (S & D & Q). destruct f as [x k]. simpl in *. unfold set_fun.
      destruct (Nat.eqb_spec x b) as [E|N].
      * subst x. destruct k as [|l]; [|congruence].
        assert (NB : forall f', In f' G -> fst f' <> b).
        { intros f' If' Z. apply D. rewrite <- Z. now apply in_map. }
        split; [|split; auto].
        -- apply stacked_ext with (a_cyc t); auto. intros f' If'. specialize (NB f' If').
           destruct (Nat.eqb_spec (fst f') b); congruence.
        -- intros l [= <-]. left. split; [now left|]. intros f' If'. specialize (NB f' If').
           destruct (Nat.eqb_spec (fst f') b); [congruence|]. apply NR.
      * assert (IG' : In (b, Comp) G) by (destruct IG as [Z|]; [congruence|auto]).
        split; [|split].
        -- now apply IH.
        -- exact D.
        -- intros l Hl. destruct (Q l Hl) as [(A & X)|(A & f' & r & -> & X)].
           ++ left. split; auto. intros f' If'. specialize (X f' If').
              destruct (Nat.eqb_spec (fst f') b); auto. intros [= <-]. now apply (NR x).
           ++ right. split; auto. exists f', r. split; auto.
              destruct (Nat.eqb_spec (fst f') b); auto. congruence.
    + intros x Hx. specialize (CY x Hx). unfold set_fun.
      destruct (Nat.eqb_spec x b) as [E|]; auto. subst x. left. now left.
    + intros x l H. unfold set_fun in H. destruct (Nat.eqb_spec x b) as [E|]; auto.
      inversion H; subst. split; auto.
    + intros d H. discriminate.
    + apply eqns_keep with t; auto; simpl.
      intros y Hy. assert (y <> b) by (destruct Hy; congruence). now rewrite !set_fun_neq.
  - constructor; simpl; auto.
    + intros y Hy. assert (y <> b) by (destruct Hy; congruence). now rewrite !set_fun_neq.
    + intros y l S1 Cl _. rewrite set_fun_neq; auto. congruence.
    + intros l Cl _. rewrite set_fun_neq; auto. congruence.
Qed.

(** What a demand of [b] leaves, for the frame on top. *)
Definition ready (t : astate V) (G : list frame) (b : nat) : Prop :=
  final_st t b \/
  exists f rest l, G = f :: rest /\ a_st t b = CYCLE /\ a_cyc t b = Some l /\ a_cyc t (fst f) = Some l.

Lemma detected_fix G b t v t' : K t G None -> a_st t b = CYCLE ->
  a_detected Y b t = Done v t' -> a_merged t' = false ->
  K t' G None /\ F None t t' /\ v = a_val t' b /\ ready t' G b.
Proof.
  intros H S E M. unfold a_detected in E. destruct (s_circular Y b) eqn:Kb; [|discriminate].
  rewrite bnd_get in E. apply bnd_Done in E. destruct E as ([] & t1 & E1 & E).
  apply bnd_Done in E. destruct E as ([] & t2 & E2 & E).
  inversion E; subst v t2. clear E.
  assert (X : exists c, a_cyc t1 b = Some c /\ K t1 G None /\ F None t t1 /\ a_st t1 = a_st t /\ a_mod t1 = a_mod t1).
  { destruct (a_cyc t b) as [c|] eqn:C; inversion E1; subst t1.
    - exists c. repeat (split; [auto; apply F_refl|]). auto.
    - exists b. destruct (K_new t G b H S C Kb). simpl. rewrite set_fun_eq.
      repeat (split; [auto|]). auto. }
  destruct X as (c & C & H1 & F1 & S1 & _).
  pose proof (k_wf _ _ _ H1) as W1. pose proof (wf_root _ _ W1 _ _ C) as Cc.
  unfold a_mark_pending in E2. rewrite bnd_get, C, bnd_get in E2.
  assert (AC : anchored c G).
  { pose proof (k_cycle _ _ _ H1 b) as Q. rewrite S1, C in Q. destruct (Q S); [auto|discriminate]. }
  assert (A : exists e, In e (a_pend t1) /\ a_cyc t1 e = Some c).
  { rewrite (k_pend _ _ _ H1). destruct AC as [Q|(z & Q)].
    - exists c. split; auto. apply (in_map fst) in Q. exact Q.
    - exists z. split; [apply (in_map fst) in Q; exact Q|].
      pose proof (k_stack _ _ _ H1) as SK. clear - SK Q. induction G as [|f G IH]; [destruct Q|].
      simpl in SK. destruct SK as (SK & D & _). destruct Q as [Q|Q]; auto. subst f. exact D. }
  destruct (mark_spec _ c t1 t' W1 Cc E2 M A) as (W' & G' & X1 & X2 & X3 & X4 & As & f & R & EL & Cf & HA & HN).
  rewrite (k_pend _ _ _ H1) in EL.
  assert (AG : forall x, In x As -> a_st t1 x = CYCLE).
  { intros x Ix. assert (I : In x (map fst G)) by (rewrite EL; apply in_or_app; now left).
    apply in_map_iff in I. destruct I as (g & <- & I). now apply (k_frame _ _ _ H1). }
  assert (CC : forall x l, a_cyc t' x = Some l -> (In x As /\ l = c) \/ a_cyc t1 x = Some l).
  { intros x l Hx. destruct (in_dec Nat.eq_dec x As) as [I|N].
    - left. split; auto. destruct (HA x I). congruence.
    - right. now rewrite <- HN. }
  assert (SC : a_st t1 c = CYCLE).
  { destruct (k_cyc _ _ _ H1 b c C) as (Z & _). congruence. }
  assert (K2 : K t' G None).
  { destruct H1 as [W M1 P FR SK CY C1 FL EQ]. constructor; auto.
    - congruence.
    - intros g Ig. rewrite X1. auto.
    - apply (stacked_mark (a_cyc t1) _ c G As f R); auto.
    - intros x Hx. rewrite X1 in Hx. specialize (CY x Hx).
      destruct (in_dec Nat.eq_dec x As) as [I|N].
      + destruct (HA x I) as (_ & ->). now left.
      + rewrite HN by auto. exact CY.
    - intros x l Hx. rewrite X1. destruct (CC x l Hx) as [(I & ->)|Hx']; auto.
      rewrite SC, (AG x I). auto.
    - intros d X; discriminate.
    - apply eqns_keep with t1; auto; [now rewrite X1|].
      intros y Hy. rewrite X1, X2. split; auto. split; auto. apply HN. intros I.
      specialize (AG y I). destruct Hy; congruence. }
  assert (NF : forall y, final_st t1 y -> ~ In y As).
  { intros y Hy I. specialize (AG y I). destruct Hy; congruence. }
  assert (F2 : F None t1 t').
  { constructor; auto.
    - intros y Hy. unfold unev in *. now rewrite X1.
    - intros y Hy. rewrite X1, X2, HN; auto.
    - intros y l _ _ _. now rewrite X2.
    - intros l _ _. now rewrite X3. }
  split; [exact K2|]. split; [|split; [reflexivity|]].
  - apply (F_trans None t t1 t'); auto. intros y l _ Sy _. congruence.
  - right. destruct G as [|g G0]; [destruct As; discriminate|].
    exists g, G0, c. split; [reflexivity|]. split; [congruence|]. split.
    + apply (gr_kept _ _ G'); auto.
    + destruct As as [|y As]; simpl in EL; inversion EL; subst; auto. apply HA. now left.
Qed.

(** A value that was read is still there. *)
Definition seen (t : astate V) (c : nat) (b : nat) (w : V) : Prop :=
  a_val t b = w /\
  (final_st t b \/ exists l, a_st t b = CYCLE /\ a_cyc t b = Some l /\ a_cyc t c = Some l).

Lemma K_live t G o x l : K t G o -> a_cyc t x = Some l ->
  (exists f, In f G /\ a_cyc t (fst f) = Some l) -> a_st t x = CYCLE.
Proof.
  intros H C (f & I & Cf). destruct (k_cyc _ _ _ H x l C) as (-> & _).
  destruct (k_cyc _ _ _ H _ l Cf) as (E & _). rewrite <- E. now apply (k_frame _ _ _ H).
Qed.

Lemma F_live_cycle t t' G y l : K t G None -> K t' G None -> F None t t' ->
  a_cyc t y = Some l -> a_st t y = CYCLE -> a_st t' y = CYCLE.
Proof.
  intros H H' FF C S. pose proof (k_cycle _ _ _ H y S) as A. rewrite C in A.
  destruct A as [A|A]; [|discriminate].
  assert (exists f, In f G /\ a_cyc t (fst f) = Some l) as (f & I & Cf).
  { pose proof (wf_root _ _ (k_wf _ _ _ H) _ _ C) as Cl.
    destruct A as [A|(z & A)]; [exists (l, Comp); auto|exists (z, Rec l); split; auto].
    pose proof (k_stack _ _ _ H) as SK. clear - SK A. induction G as [|f G IH]; [destruct A|].
    simpl in SK. destruct SK as (SK & D & _). destruct A as [A|A]; auto. subst f. exact D. }
  apply (K_live t' G None y l); auto.
  - apply (gr_kept _ _ (f_grow _ _ _ FF)); auto. apply (k_merged _ _ _ H').
  - exists f. split; auto. apply (gr_kept _ _ (f_grow _ _ _ FF)); auto. apply (k_merged _ _ _ H').
Qed.

Lemma F_trans_None t1 t2 t3 G : K t1 G None -> K t2 G None -> K t3 G None ->
  F None t1 t2 -> F None t2 t3 -> F None t1 t3.
Proof.
  intros H1 H2 H3 F1 F2. apply (F_trans None t1 t2 t3); auto.
  - apply (k_merged _ _ _ H3).
  - intros y l C S _. apply (F_live_cycle t1 t2 G y l); auto.
Qed.

Lemma seen_keep t t' G c b w : K t G None -> K t' G None -> F None t t' ->
  seen t c b w -> seen t' c b w.
Proof.
  intros H H' FF (E & Q). pose proof (k_merged _ _ _ H') as M.
  pose proof (gr_kept _ _ (f_grow _ _ _ FF) M) as GK.
  destruct Q as [Q|(l & S & C1 & C2)].
  - destruct (f_set _ _ _ FF b Q) as (E1 & E2 & _). split; [congruence|].
    left. red. rewrite E1. exact Q.
  - split.
    + rewrite (f_cyc _ _ _ FF b l); auto. discriminate.
    + right. exists l. split; [|auto]. apply (F_live_cycle t t' G b l); auto.
Qed.

Section Calls.
Variable g : nat -> M (astate V) V.
Hypothesis Hc : forall b t, awf Y t -> calm Y t (g b t).
Hypothesis Hg : forall b t G v t', K t G None -> g b t = Done v t' -> a_merged t' = false ->
  K t' G None /\ F None t t' /\ v = a_val t' b /\ ready t' G b.

Lemma run_fix c k G p : forall t v t',
  K t ((c, k) :: G) None -> run g p t = Done v t' -> a_merged t' = false ->
  K t' ((c, k) :: G) None /\ F None t t' /\
  exists L, runs p L v /\ forall b w, In (b, w) L -> seen t' c b w.
Proof.
  induction p as [v0|b q IH|]; intros t v t' H E M; cbn [run] in E.
  - inversion E; subst. split; auto. split; [apply F_refl|].
    exists []. split; [constructor|intros b w []].
  - apply bnd_Done in E. destruct E as (w & t1 & E1 & E2).
    pose proof (Hc b t (k_wf _ _ _ H)) as C1. rewrite E1 in C1. destruct C1 as (_ & W1 & _).
    pose proof (run_calm Y g Hc (q w) t1 W1) as C2. rewrite E2 in C2. destruct C2 as (_ & _ & G2).
    destruct (Hg b t _ w t1 H E1 (merged_back _ _ G2 M)) as (K1 & F1 & Ew & RD).
    destruct (IH w t1 v t' K1 E2 M) as (K2 & F2 & L & RL & HL).
    split; auto. split; [apply (F_trans_None t t1 t' _ H K1 K2 F1 F2)|].
    exists ((b, w) :: L). split; [now constructor|].
    intros x u [Q|Q]; [|auto]. inversion Q; subst x u.
    apply (seen_keep t1 t' ((c, k) :: G)); auto. split; auto.
    destruct RD as [RD|(f & r & l & X & S & X1 & X2)]; [auto|].
    inversion X; subst f. right. exists l. auto.
  - discriminate.
Qed.

(** The recomputation of [c] in cycle [d] found its value. *)
Definition logged (t : astate V) (d c : nat) : Prop :=
  exists L, runs (s_compute Y c) L (a_val t c) /\
    forall b w, In (b, w) L -> a_val t b = w /\ (final_st t b \/ a_cyc t b = Some d).

Lemma pass_fix d n G : forall i t early t',
  K t G (Some d) -> nth_error (a_mem t d) i <> None ->
  (a_mod t d = false -> forall j c, j < i -> nth_error (a_mem t d) j = Some c -> logged t d c) ->
  a_pass Y n g d i t = Done early t' -> a_merged t' = false ->
  early = false /\ K t' G (Some d) /\ F (Some d) t t' /\
  (a_mod t' d = false -> forall c, a_cyc t' c = Some d -> logged t' d c).
Proof.
  induction n as [|n IH]; intros i t early t' H Ni LG E M; [discriminate|]. cbn [a_pass] in E.
  destruct (k_float _ _ _ H d eq_refl) as (C & SD & NG).
  pose proof (k_wf _ _ _ H) as W.
  rewrite bnd_get in E. destruct (nth_error (a_mem t d) i) as [c|] eqn:Ec; [|congruence].
  assert (Cc : a_cyc t c = Some d).
  { apply (wf_mem _ _ W); auto. eapply nth_error_In; eauto. }
  unfold a_push in E. rewrite bnd_put in E. set (t1 := w_pend (c :: a_pend t) t) in *.
  assert (K1 : K t1 ((c, Rec d) :: G) None).
  { destruct H as [W0 M0 P FR SK CY C1 FL EQ]. constructor; simpl; auto.
    - apply (awf_same Y t); auto.
    - now rewrite P.
    - intros f [<-|If]; auto. simpl. destruct (C1 c d Cc). congruence.
    - split; auto. split; auto. intros l Hl. assert (l = d) by congruence. subst l.
      left. split; [right; reflexivity|]. auto.
    - intros x Hx. specialize (CY x Hx). destruct (a_cyc t x) as [l|]; [|now right].
      left. destruct CY as [[A|(z & A)]|A].
      + left; now right.
      + right; exists z; now right.
      + inversion A; subst. right. exists c. now left.
    - intros d0 X. discriminate. }
  apply bnd_Done in E. destruct E as ([] & t4 & ER & E).
  unfold a_recompute in ER. apply bnd_Done in ER. destruct ER as (v & t2 & ER & EK).
  apply bnd_Done in EK. destruct EK as ([] & t3 & EK & E4). inversion E4; subst t4; clear E4.
  pose proof (run_calm Y g Hc (s_compute Y c) t1 (k_wf _ _ _ K1)) as C2. rewrite ER in C2.
  destruct C2 as (P2 & W2 & G2).
  assert (Cd2 : a_cyc t2 c <> None) by (apply (gr_some _ _ G2); simpl; congruence).
  pose proof (check_calm Y c v t2 W2 Cd2) as C3. rewrite EK in C3. destruct C3 as (P3 & W3 & G3).
  set (t4 := set_val c v t3) in *.
  apply bnd_Done in E. destruct E as ([] & t5 & E5 & E).
  assert (P4 : a_pend t4 = c :: a_pend t) by (simpl; now rewrite P3, P2).
  unfold a_pop in E5. rewrite P4 in E5. inversion E5; subst t5; clear E5.
  set (t5 := w_pend (a_pend t) t4) in *.
  assert (W5 : awf Y t5 /\ grow t3 t5) by (apply (awf_same Y t3); auto).
  destruct W5 as (W5 & G5).
  rewrite bnd_get in E.
  (* no cycle was merged so far *)
  assert (G6 : grow t5 t').
  { destruct (eq_ref_spec (a_cyc t5 d) (Some d)) as [Q|Q]; cbn [negb] in E;
      [|inversion E; apply grow_refl].
    rewrite bnd_get in E. destruct (nth_error (a_mem t5 d) (S i)) eqn:E6;
      [|inversion E; apply grow_refl].
    pose proof (pass_calm Y g Hc d n (S i) t5 W5) as Z. rewrite E in Z.
    apply Z; auto. congruence. }
  assert (M5 : a_merged t5 = false) by apply (merged_back _ _ G6 M).
  assert (M3 : a_merged t3 = false) by exact M5.
  assert (M2 : a_merged t2 = false) by apply (merged_back _ _ G3 M3).
  destruct (run_fix c (Rec d) G _ t1 v t2 K1 ER M2) as (K2 & F2 & L & RL & HL).
  pose proof (gr_kept _ _ G2 M2) as KP.
  assert (C2 : a_cyc t2 c = Some d) by (apply KP; exact Cc).
  assert (D2 : a_cyc t2 d = Some d) by (apply KP; exact C).
  assert (S2 : a_st t2 c = CYCLE) by apply (k_frame _ _ _ K2 (c, Rec d) (or_introl eq_refl)).
  assert (T3 : a_st t3 = a_st t2 /\ a_val t3 = a_val t2 /\ a_cyc t3 = a_cyc t2 /\ a_mem t3 = a_mem t2 /\
    (forall l, l <> d -> a_mod t3 l = a_mod t2 l) /\
    (a_mod t3 d = false -> a_mod t2 d = false /\ a_val t2 c = v)).
  { unfold a_check in EK. rewrite bnd_get in EK.
    destruct (s_equal Y c (a_val t2 c) v) eqn:EQ.
    - inversion EK; subst t3. do 4 (split; [reflexivity|]). split; auto.
      intros X. split; auto. apply (HE c). exact EQ.
    - rewrite bnd_get, C2, bnd_put in EK. destruct (s_compare Y c (a_val t2 c) v); [|discriminate].
      inversion EK; subst t3. do 4 (split; [reflexivity|]). simpl. split.
      + intros l Hl. now rewrite set_fun_neq.
      + rewrite set_fun_eq. discriminate. }
  destruct T3 as (T31 & T32 & T33 & T34 & T35 & T36).
  assert (CY5 : a_cyc t5 = a_cyc t2) by exact T33.
  assert (ST5 : a_st t5 = a_st t2) by exact T31.
  assert (VA5 : forall x, x <> c -> a_val t5 x = a_val t2 x).
  { intros x D. simpl. rewrite set_fun_neq by auto. now rewrite T32. }
  assert (VC5 : a_val t5 c = v) by (simpl; apply set_fun_eq).
  assert (NC : forall x, final_st t2 x -> x <> c) by (intros x Q ->; destruct Q; congruence).
  assert (K5 : K t5 G (Some d)).
  { destruct K2 as [W0 M0 P FR SK CY C1 FL EQ].
    destruct SK as (SK & _ & SC). destruct (SC d C2) as [(_ & SN)|(X & _)]; [|exfalso; apply X; now right].
    constructor; rewrite ?CY5, ?ST5; auto.
    - simpl. apply (k_pend _ _ _ H).
    - intros f If. apply FR. now right.
    - intros x Hx. specialize (CY x Hx). destruct (a_cyc t2 x) as [l|].
      + destruct CY as [[[A|A]|(z & [A|A])]|A]; try discriminate.
        * left; now left.
        * right. congruence.
        * left; right; eauto.
      + destruct CY as [A|A]; [discriminate|auto].
    - intros d0 Q. inversion Q; subst d0. split; auto. split; auto.
      destruct (C1 c d C2). congruence.
    - apply eqns_keep with t2; auto; [now rewrite ST5|].
      intros y Hy. rewrite ST5, CY5. split; auto. }
  assert (F5 : F (Some d) t t5).
  { destruct F2 as [A1 A2 A3 A4 A5]. constructor.
    - apply (grow_trans t t3 t5); auto. apply (grow_trans t t2 t3); auto.
      apply (grow_trans t t1 t2); auto. apply (awf_same Y t t1); auto.
    - intros y Hy. unfold unev in *. rewrite ST5. apply A2. exact Hy.
    - intros y Hy. destruct (A3 y Hy) as (Q1 & Q2 & Q3).
      rewrite ST5, CY5, Q1, Q3. rewrite VA5; [auto|]. apply NC. red. rewrite Q1. exact Hy.
    - intros y l Sy Cy D. rewrite VA5.
      + apply (A4 y l); auto. discriminate.
      + intros ->. simpl in Cc. congruence.
    - intros l Cl D. transitivity (a_mod t2 l).
      + apply T35. congruence.
      + apply (A5 l); auto. discriminate. }
  (* the log of [c] and those before *)
  assert (MM : exists ext, a_mem t5 d = a_mem t d ++ ext).
  { destruct (gr_root _ _ (f_grow _ _ _ F5) d d C) as (_ & X); auto. now rewrite CY5. }
  destruct MM as (ext & MM).
  assert (LG5 : a_mod t5 d = false -> forall j y, j < S i -> nth_error (a_mem t5 d) j = Some y -> logged t5 d y).
  { intros MF j y Hj Hn. destruct (T36 MF) as (MF2 & VC).
    assert (MF0 : a_mod t d = false).
    { rewrite <- MF2. symmetry. apply (f_mod _ _ _ F2 d); [exact C|discriminate]. }
    assert (V5 : forall x, a_val t5 x = a_val t2 x).
    { intros x. destruct (Nat.eq_dec x c) as [->|D]; [congruence|auto]. }
    assert (Hn' : nth_error (a_mem t d) j = Some y).
    { rewrite <- Hn, MM, nth_error_app1; auto.
      assert (i < length (a_mem t d)) by (apply nth_error_Some; congruence). lia. }
    destruct (Nat.eq_dec j i) as [->|D].
    - assert (y = c) by congruence. subst y. exists L. rewrite VC5. split; auto.
      intros b w Ib. destruct (HL b w Ib) as (X1 & X2). rewrite V5. split; auto.
      destruct X2 as [X2|(l & Y1 & Y2 & Y3)].
      + left. unfold final_st in *. now rewrite ST5.
      + right. rewrite CY5. congruence.
    - destruct (LG MF0 j y) as (L0 & R0 & H0); [lia|auto|].
      assert (KV : forall b, final_st t b \/ a_cyc t b = Some d -> a_val t5 b = a_val t b).
      { intros b Q. rewrite V5. destruct Q as [Q|Q].
        - apply (f_set _ _ _ F2 b Q).
        - apply (f_cyc _ _ _ F2 b d); [|exact Q|discriminate].
          destruct (k_cyc _ _ _ H b d Q). simpl. congruence. }
      exists L0. rewrite KV.
      + split; auto. intros b w Ib. destruct (H0 b w Ib) as (X1 & X2). split.
        * rewrite KV; auto.
        * destruct X2 as [X2|X2]; [left|right].
          -- destruct (f_set _ _ _ F5 b X2) as (Q & _). unfold final_st in *. now rewrite Q.
          -- rewrite CY5. now apply KP.
      + right. apply (wf_mem _ _ W); auto. eapply nth_error_In; eauto. }
  assert (D5 : a_cyc t5 d = Some d) by now rewrite CY5.
  rewrite D5 in E. rewrite eq_ref_refl in E. cbn [negb] in E. rewrite bnd_get in E.
  destruct (nth_error (a_mem t5 d) (S i)) eqn:E6.
  - destruct (IH (S i) t5 early t' K5) as (Z1 & Z2 & Z3 & Z4); auto; [congruence|].
    split; auto. split; auto. split; auto.
    apply (F_trans (Some d) t t5 t'); auto.
    intros y l Cy Sy D.
    pose proof (k_cycle _ _ _ H y Sy) as A. rewrite Cy in A.
    destruct A as [A|A]; [|congruence].
    assert (exists f, In f G /\ a_cyc t (fst f) = Some l) as (f & If & Cf).
    { pose proof (wf_root _ _ W _ _ Cy) as Cl.
      destruct A as [A|(z & A)]; [exists (l, Comp); auto|exists (z, Rec l); split; auto].
      pose proof (k_stack _ _ _ H) as SK. clear - SK A. induction G as [|f G IH]; [destruct A|].
      simpl in SK. destruct SK as (SK & X & _). destruct A as [A|A]; auto. subst f. exact X. }
    apply (K_live t5 G (Some d) y l); auto.
    + rewrite CY5. now apply KP.
    + exists f. split; auto. rewrite CY5. now apply KP.
  - inversion E; subst early t'. split; auto. split; auto. split; auto.
    intros MF y Cy. apply (wf_mem _ _ W5) in Cy; auto. apply In_nth_error in Cy.
    destruct Cy as (j & Hj). apply (LG5 MF j); auto.
    apply nth_error_None in E6. assert (j < length (a_mem t5 d)) by (apply nth_error_Some; congruence). lia.
Qed.

Lemma K_mod t G o l b : K t G o -> K (set_mod l b t) G o.
Proof.
  intros [W0 M0 P FR SK CY C1 FL EQ]. constructor; simpl; auto. apply (awf_same Y t); auto.
Qed.

Lemma K_float_live t G d t' : K t G (Some d) -> K t' G (Some d) -> F (Some d) t t' ->
  forall y l, a_cyc t y = Some l -> a_st t y = CYCLE -> Some d <> Some l -> a_st t' y = CYCLE.
Proof.
  intros H H' FF y l Cy Sy D.
  pose proof (gr_kept _ _ (f_grow _ _ _ FF) (k_merged _ _ _ H')) as KP.
  pose proof (k_cycle _ _ _ H y Sy) as A. rewrite Cy in A.
  destruct A as [A|A]; [|congruence].
  assert (exists f, In f G /\ a_cyc t (fst f) = Some l) as (f & If & Cf).
  { pose proof (wf_root _ _ (k_wf _ _ _ H) _ _ Cy) as Cl.
    destruct A as [A|(z & A)]; [exists (l, Comp); auto|exists (z, Rec l); split; auto].
    pose proof (k_stack _ _ _ H) as SK. clear - SK A. induction G as [|f G IH]; [destruct A|].
    simpl in SK. destruct SK as (SK & X & _). destruct A as [A|A]; auto. subst f. exact X. }
  apply (K_live t' G (Some d) y l); auto.
  exists f. split; auto.
Qed.

Lemma passes_fix d m n G : forall t t',
  K t G (Some d) -> a_passes Y n m g d t = Done tt t' -> a_merged t' = false ->
  K t' G None /\ F (Some d) t t' /\ a_st t' d = EVALUATED.
Proof.
  induction n as [|n IH]; intros t t' H E M; [discriminate|]. cbn [a_passes] in E.
  rewrite bnd_put in E. pose proof (K_mod t G _ d false H) as H1.
  assert (F1 : F (Some d) t (set_mod d false t)).
  { constructor; simpl; auto.
    - apply (awf_same Y t); auto. apply (k_wf _ _ _ H).
    - intros l _ D. rewrite set_fun_neq; [reflexivity|congruence]. }
  set (t1 := set_mod d false t) in *. apply bnd_Done in E. destruct E as (early & t2 & E2 & E).
  destruct (k_float _ _ _ H1 d eq_refl) as (C & SD & NG).
  pose proof (k_wf _ _ _ H1) as W1.
  assert (N0 : nth_error (a_mem t1 d) 0 <> None).
  { pose proof C as C'. apply (wf_mem _ _ W1 d d C) in C'.
    destruct (a_mem t1 d); [contradiction|discriminate]. }
  pose proof (pass_calm Y g Hc d m 0 t1 W1 N0 C) as Z. rewrite E2 in Z. destruct Z as (_ & W2 & G2).
  assert (G3 : grow t2 t').
  { destruct early; [inversion E; apply grow_refl|]. rewrite bnd_get in E.
    pose proof (pass_root Y g _ _ _ _ _ E2) as C2.
    destruct (a_mod t2 d); [|inversion E; apply (awf_same Y t2); auto].
    pose proof (passes_calm Y g Hc d m n t2 W2 C2) as Z. rewrite E in Z. apply Z. }
  pose proof (merged_back _ _ G3 M) as M2.
  assert (LG : a_mod t1 d = false -> forall j c, j < 0 -> nth_error (a_mem t1 d) j = Some c -> logged t1 d c).
  { intros _ j c Hj. lia. }
  destruct (pass_fix d m G 0 t1 early t2 H1 N0 LG E2 M2) as (-> & K2 & F2 & LG2).
  assert (F12 : F (Some d) t t2).
  { apply (F_trans (Some d) t t1 t2); auto. }
  rewrite bnd_get in E. destruct (a_mod t2 d) eqn:MD.
  - destruct (IH t2 t' K2 E M) as (Z1 & Z2 & Z3). split; auto. split; auto.
    apply (F_trans (Some d) t t2 t'); auto. apply (K_float_live t G d t2); auto.
  - inversion E; subst t'. clear E. specialize (LG2 eq_refl).
    destruct (k_float _ _ _ K2 d eq_refl) as (C2 & SD2 & NG2).
    assert (IM : forall x, inb x (a_mem t2 d) = true <-> a_cyc t2 x = Some d).
    { intros x. rewrite inb_true. now apply (wf_mem _ _ W2). }
    assert (FS : forall y, final_st t2 y -> inb y (a_mem t2 d) = false).
    { intros y Hy. destruct (inb y (a_mem t2 d)) eqn:Q; auto. apply IM in Q.
      destruct (k_cyc _ _ _ K2 y d Q) as (X & _). destruct Hy; congruence. }
    split; [|split].
    + destruct K2 as [W0 M0 P FR SK CY C1 FL EQ].
      constructor; simpl; auto.
      * apply (awf_same Y t2); auto.
      * intros f If. destruct (inb (fst f) (a_mem t2 d)) eqn:Q; auto. apply IM in Q. now apply NG2 in Q.
      * intros x Hx. destruct (inb x (a_mem t2 d)) eqn:Q; [discriminate|].
        specialize (CY x Hx). destruct (a_cyc t2 x) as [l|] eqn:Cx; auto.
        destruct CY as [A|A]; auto. inversion A; subst. apply IM in Cx. congruence.
      * intros x l Hx. destruct (C1 x l Hx) as (X1 & X2).
        destruct (inb x (a_mem t2 d)) eqn:Q.
        -- pose proof Q as Q0. apply IM in Q0. assert (l = d) by congruence. subst l.
           destruct (inb d (a_mem t2 d)) eqn:Q1; [auto|]. apply IM in C2. congruence.
        -- destruct (inb l (a_mem t2 d)) eqn:Q1; auto.
           apply IM in Q1. pose proof (wf_root _ _ W2 _ _ Hx) as Cl.
           assert (l = d) by congruence. subst l. apply IM in Hx. congruence.
      * intros d0 X; discriminate.
      * apply eqns_add with t2; auto.
        -- intros b Hb. simpl. rewrite (FS b Hb). auto.
        -- intros x Hx NE. simpl in *. destruct (inb x (a_mem t2 d)) eqn:Q; [|congruence].
           apply IM in Q. destruct (LG2 x Q) as (L & RL & HL). exists L. split; auto.
           intros b w Ib. destruct (HL b w Ib) as (X1 & X2). split; auto.
           destruct X2 as [X2|X2]; [auto|right]. split; [|split; congruence].
           apply IM in X2. now rewrite X2.
    + apply (F_trans (Some d) t t2 _); auto.
      * constructor; simpl; auto.
        -- intros y Hy X. unfold unev in X; simpl in X. destruct (inb y (a_mem t2 d)); [destruct X; discriminate|]. now apply Hy.
        -- intros y Hy. now rewrite (FS y Hy).
      * apply (K_float_live t G d t2); auto.
    + simpl. destruct (inb d (a_mem t2 d)) eqn:Q; auto. apply IM in C2. congruence.
Qed.
End Calls.

Lemma K_val t G o a v : K t G o -> a_st t a = CYCLE -> K (set_val a v t) G o.
Proof.
  intros [W0 M0 P FR SK CY C1 FL EQ] S. constructor; simpl; auto.
  - apply (awf_same Y t); auto.
  - apply eqns_keep with t; auto; simpl.
    intros y Hy. split; auto. split; auto. apply set_fun_neq. destruct Hy; congruence.
Qed.

Lemma initialize_fix a t t' G : K t G None -> a_initialize Y a t = Done tt t' ->
  K t' G None /\ F None t t' /\ (forall x, x <> a -> a_st t' x = a_st t x) /\
  (a_st t' a = a_st t a \/ (a_st t a = UNINITIALIZED /\ a_st t' a = UNEVALUATED)) /\
  a_cyc t' = a_cyc t.
Proof.
  intros H E. unfold a_initialize in E.
  destruct (s_initial Y a) as [w|].
  2:{ inversion E; subst. split; auto. split; [apply F_refl|auto]. }
  rewrite bnd_get in E. destruct (a_st t a) eqn:S;
    try (inversion E; subst; split; auto; split; [apply F_refl|auto]).
  inversion E; subst t'. clear E.
  assert (N : forall y, final_st t y -> y <> a) by (intros y Hy ->; destruct Hy; congruence).
  pose proof (k_merged _ _ _ H) as M.
  destruct H as [W0 M0 P FR SK CY C1 FL EQ].
  assert (CA : a_cyc t a = None).
  { destruct (a_cyc t a) as [l|] eqn:Q; auto. destruct (C1 a l Q) as (_ & [X|X]); congruence. }
  split; [|split; [|split; [|split]]].
  - constructor; simpl; auto.
    + apply (awf_same Y t); auto.
    + intros f If. specialize (FR f If). rewrite set_fun_neq; auto. congruence.
    + intros x Hx. unfold set_fun in Hx. destruct (x =? a); [discriminate|]. now apply CY.
    + intros x l Hx. destruct (C1 x l Hx) as (X1 & X2).
      pose proof (wf_root _ _ W0 _ _ Hx). rewrite !set_fun_neq by congruence. auto.
    + intros d X; discriminate.
    + apply eqns_keep with t; auto; simpl.
      * intros x Hx. unfold set_fun in Hx. destruct (x =? a); [discriminate|auto].
      * intros y Hy. specialize (N y Hy). rewrite !set_fun_neq by auto. auto.
  - constructor; simpl; auto.
    + apply (awf_same Y t); auto.
    + intros y Hy X. unfold unev in X, Hy; simpl in X. unfold set_fun in X. destruct (Nat.eqb_spec y a); auto.
      subst y. auto.
    + intros y Hy. specialize (N y Hy). rewrite !set_fun_neq by auto. auto.
    + intros y l Sy _ _. rewrite set_fun_neq; auto. congruence.
  - intros x D. simpl. now rewrite set_fun_neq.
  - right. split; auto. simpl. apply set_fun_eq.
  - reflexivity.
Qed.

Theorem get_fix n : forall b t G v t', K t G None -> a_get Y n b t = Done v t' ->
  a_merged t' = false ->
  K t' G None /\ F None t t' /\ v = a_val t' b /\ ready t' G b.
Proof.
  induction n as [|n IH]; intros a t G v t' H E M; [discriminate|]. cbn [a_get] in E.
  apply bnd_Done in E. destruct E as ([] & t1 & E1 & E).
  destruct (initialize_fix a t t1 G H E1) as (H1 & F1 & S1o & S1a & C1o).
  rewrite bnd_get in E.
  assert (FT : forall t6, F None t1 t6 -> a_merged t6 = false -> F None t t6).
  { intros t6 F6 M6. apply (F_trans None t t1 t6); auto.
    intros y l C S _. destruct (Nat.eq_dec y a) as [->|D]; [|rewrite S1o; auto].
    destruct S1a as [X|(X & _)]; congruence. }
  assert (EV : unev t1 a ->
      (put_st (set_st a CYCLE) ;;; a_push a ;;;
       v <- run (a_get Y n) (s_compute Y a) ;;
       put_st (set_val a v) ;;; a_pop ;;;
       c <- get_st (fun t => a_cyc t a) ;;
       (match c with Some _ => a_evaluate Y n (a_get Y n) a | None => put_st (set_st a EVALUATED) end) ;;;
       get_st (fun t => a_val t a)) t1 = Done v t' ->
      K t' G None /\ F None t1 t' /\ v = a_val t' a /\ ready t' G a).
  { clear E. intros S E. rewrite bnd_put in E. unfold a_push in E. rewrite bnd_put in E.
    set (t2 := w_pend (a :: a_pend (set_st a CYCLE t1)) (set_st a CYCLE t1)) in *.
    assert (CA : a_cyc t1 a = None).
    { destruct (a_cyc t1 a) as [l|] eqn:Q; auto.
      destruct (k_cyc _ _ _ H1 a l Q) as (_ & [X|X]); destruct S; congruence. }
    assert (NA : forall x, a_cyc t1 x <> Some a).
    { intros x Hx. pose proof (wf_root _ _ (k_wf _ _ _ H1) _ _ Hx). congruence. }
    assert (NFa : forall y, final_st t1 y -> y <> a).
    { intros y Hy ->. destruct Hy, S; congruence. }
    assert (H2 : K t2 ((a, Comp) :: G) None).
    { destruct H1 as [W0 M0 P FR SK CY C1 FL EQ]. constructor; simpl; auto.
      - apply (awf_same Y t1); auto.
      - now rewrite P.
      - intros f [<-|If]; simpl; [apply set_fun_eq|]. unfold set_fun. destruct (fst f =? a); auto.
      - split; auto. split.
        + intros I. apply in_map_iff in I. destruct I as (f & Ef & I). specialize (FR f I).
          rewrite Ef in FR. destruct S; congruence.
        + intros l Hl. congruence.
      - intros x Hx. unfold set_fun in Hx. destruct (Nat.eqb_spec x a) as [Q|Q].
        + subst x. rewrite CA. now left.
        + specialize (CY x Hx). destruct (a_cyc t1 x) as [l|]; [|now right].
          destruct CY as [[A|(z & A)]|A]; [| |discriminate].
          * left; left; now right.
          * left; right; exists z; now right.
      - intros x l Hx. destruct (C1 x l Hx). pose proof (NA x).
        rewrite !set_fun_neq by congruence. auto.
      - intros d X; discriminate.
      - apply eqns_keep with t1; auto; simpl.
        + intros x Hx. unfold set_fun in Hx. destruct (x =? a); [discriminate|auto].
        + intros y Hy. specialize (NFa y Hy). rewrite set_fun_neq by auto. auto. }
    assert (F2 : F None t1 t2).
    { constructor; simpl; auto.
      - apply (awf_same Y t1); auto. apply (k_wf _ _ _ H1).
      - intros y Hy X. unfold unev in X, Hy. simpl in X. unfold set_fun in X.
        destruct (y =? a); [destruct X; discriminate|auto].
      - intros y Hy. specialize (NFa y Hy). rewrite set_fun_neq by auto. auto. }
    apply bnd_Done in E. destruct E as (w & t3 & ER & E). rewrite bnd_put in E.
    apply bnd_Done in E. destruct E as ([] & t5 & E5 & E). rewrite bnd_get in E.
    apply bnd_Done in E. destruct E as ([] & t6 & E6 & E). inversion E; subst v t6; clear E.
    pose proof (run_calm Y (a_get Y n) (get_calm Y n) (s_compute Y a) t2 (k_wf _ _ _ H2)) as Z.
    rewrite ER in Z. destruct Z as (P3 & W3 & G3).
    unfold a_pop in E5. simpl a_pend in E5. rewrite P3 in E5. simpl a_pend in E5. cbv iota in E5.
    inversion E5; subst t5; clear E5.
    set (t5 := w_pend (a_pend t1) (set_val a w t3)) in *.
    destruct (awf_same Y t3 t5 W3 eq_refl eq_refl eq_refl) as (W5 & G5).
    assert (G6 : grow t5 t').
    { destruct (a_cyc t5 a).
      - pose proof (evaluate_calm Y (a_get Y n) (get_calm Y n) a n t5 W5) as Z. rewrite E6 in Z. apply Z.
      - inversion E6. apply (awf_same Y t5); auto. }
    assert (M3 : a_merged t3 = false).
    { apply (merged_back _ _ G5). now apply (merged_back _ _ G6). }
    destruct (run_fix (a_get Y n) (get_calm Y n) IH a Comp G _ t2 w t3 H2 ER M3) as (K3 & F3 & L & RL & HL).
    assert (S3 : a_st t3 a = CYCLE) by apply (k_frame _ _ _ K3 (a, Comp) (or_introl eq_refl)).
    assert (K4 : K (set_val a w t3) ((a, Comp) :: G) None) by now apply K_val.
    assert (KP : forall x l, a_cyc t1 x = Some l -> a_cyc t3 x = Some l).
    { intros x l Hx. apply (gr_kept _ _ G3 M3). exact Hx. }
    assert (F5 : F None t1 t5).
    { destruct F3 as [A1 A2 A3 A4 A5]. constructor.
      - apply (grow_trans t1 t2 t5); [apply (f_grow _ _ _ F2)|]. apply (grow_trans t2 t3 t5); auto.
      - intros y Hy. apply (A2 y). intros X. unfold unev in X. simpl in X. unfold set_fun in X.
        destruct (y =? a); [destruct X; discriminate|auto].
      - intros y Hy. specialize (NFa y Hy).
        destruct (A3 y) as (Q1 & Q2 & Q3).
        { unfold final_st; simpl. rewrite set_fun_neq by auto. exact Hy. }
        simpl in *. rewrite set_fun_neq in Q1 by auto. rewrite set_fun_neq by auto. auto.
      - intros y l Sy Cy _. assert (y <> a) by (intros ->; destruct S; congruence).
        simpl. rewrite set_fun_neq by auto. apply (A4 y l); auto; [|discriminate].
        simpl. now rewrite set_fun_neq.
      - intros l Cl _. apply (A5 l); auto. discriminate. }
    destruct K4 as [W0 M0 P FR SK CY C1 FL EQ]. simpl in SK. destruct SK as (SK & _ & SC).
    change (a_cyc t5 a) with (a_cyc t3 a) in E6.
    destruct (a_cyc t3 a) as [l|] eqn:Ca.
    - assert (Kc : s_circular Y a = true) by apply (wf_circ _ _ W3 _ _ Ca).
      assert (KO : forall o, (l <> a /\ o = None) \/ (l = a /\ o = Some a) -> K t5 G o).
      { intros o Ho. constructor; simpl; auto.
        - apply (k_pend _ _ _ H1).
        - intros f If. apply FR. now right.
        - intros x Hx. specialize (CY x Hx). simpl in CY. destruct (a_cyc t3 x) as [m|] eqn:Cx.
          + destruct CY as [[[A|A]|(z & [A|A])]|A]; try discriminate.
            * inversion A; subst m. pose proof (wf_root _ _ W3 _ _ Cx) as Q.
              destruct Ho as [(D & _)|(D & ->)]; [congruence|now right].
            * left; now left.
            * left; right; eauto.
          + destruct CY as [A|A]; [inversion A; congruence|auto].
        - intros d Hd. destruct Ho as [(D & ->)|(D & ->)]; [discriminate|].
          inversion Hd; subst d. subst l. split; [exact Ca|]. split; [exact S3|].
          destruct (SC a eq_refl) as [(_ & X)|(X & _)]; [exact X|]. exfalso. apply X. now left. }
      unfold a_evaluate in E6. rewrite Kc, bnd_get in E6.
      change (a_cyc t5 a) with (a_cyc t3 a) in E6. rewrite Ca in E6.
      destruct (eq_ref_spec (Some l) (Some a)) as [Q|Q].
      + inversion Q; subst l.
        destruct (passes_fix (a_get Y n) (get_calm Y n) IH a n n G t5 t') as (K6 & F6 & S6); auto.
        split; [exact K6|]. split; [|split; [reflexivity|left; now left]].
        destruct F5 as [A1 A2 A3 A4 A5]. destruct F6 as [B1 B2 B3 B4 B5].
        assert (CD : forall y m, a_cyc t1 y = Some m -> Some a <> Some m).
        { intros y m Hy X. apply (NA y). congruence. }
        constructor; auto.
        * apply (grow_trans t1 t5 t'); auto.
        * intros y Hy. destruct (A3 y Hy) as (Q1 & Q2 & Q3).
          destruct (B3 y) as (Q4 & Q5 & Q6); [unfold final_st; rewrite Q1; exact Hy|].
          split; [congruence|]. split; congruence.
        * intros y m Sy Cy _. rewrite (B4 y m).
          -- apply (A4 y m); auto. discriminate.
          -- (* still in progress *)
             pose proof (k_cycle _ _ _ H1 y Sy) as AN. rewrite Cy in AN.
             destruct AN as [AN|AN]; [|discriminate].
             assert (exists f, In f G /\ a_cyc t1 (fst f) = Some m) as (f & If & Cf).
             { pose proof (wf_root _ _ (k_wf _ _ _ H1) _ _ Cy) as Cl.
               destruct AN as [AN|(z & AN)]; [exists (m, Comp); auto|exists (z, Rec m); split; auto].
               pose proof (k_stack _ _ _ H1) as SK1. clear - SK1 AN. induction G as [|f G IH]; [destruct AN|].
               simpl in SK1. destruct SK1 as (SK1 & X & _). destruct AN as [AN|AN]; auto. subst f. exact X. }
             apply (K_live t5 G (Some a) y m); auto; [apply KP; auto|].
             exists f. split; auto. apply KP; auto.
          -- apply KP; auto.
          -- apply (CD y m Cy).
        * intros m Cm _. rewrite (B5 m).
          -- apply (A5 m); auto. discriminate.
          -- apply KP; auto.
          -- apply (CD m m Cm).
      + inversion E6; subst t'. assert (D : l <> a) by congruence.
        split; [apply KO; auto|]. split; [exact F5|]. split; [reflexivity|]. right.
        destruct (SC l eq_refl) as [(X & _)|(_ & f & r & EG & Cf)].
        * destruct X as [X|X]; [inversion X; congruence|discriminate].
        * exists f, r, l. split; [exact EG|]. split; [exact S3|]. split; [exact Ca|exact Cf].
    - inversion E6; subst t'. clear E6.
      assert (LS : forall b u, In (b, u) L -> final_st t3 b /\ a_val t3 b = u).
      { intros b u Ib. destruct (HL b u Ib) as (X1 & X2). split; auto.
        destruct X2 as [X2|(l & _ & _ & X2)]; [auto|congruence]. }
      assert (NF3 : forall b, final_st t3 b -> b <> a) by (intros b Hb ->; destruct Hb; congruence).
      assert (FST : forall b, final_st t3 b -> final_st (set_st a EVALUATED t5) b /\
                 a_val (set_st a EVALUATED t5) b = a_val t3 b).
      { intros b Hb. specialize (NF3 b Hb). unfold final_st; simpl. rewrite !set_fun_neq by auto. auto. }
      split; [|split; [|split; [reflexivity|left; left; simpl; apply set_fun_eq]]].
      + constructor; simpl; auto.
        * apply (awf_same Y t3); auto.
        * apply (k_pend _ _ _ H1).
        * intros f If. rewrite set_fun_neq; [apply FR; now right|].
          intros Q. pose proof (k_frame _ _ _ H1 f If) as X. rewrite Q in X. destruct S; congruence.
        * intros x Hx. unfold set_fun in Hx. destruct (Nat.eqb_spec x a) as [|D]; [discriminate|].
          specialize (CY x Hx). simpl in CY. destruct (a_cyc t3 x) as [m|] eqn:Cx.
          -- destruct CY as [[[A|A]|(z & [A|A])]|A]; try discriminate.
             ++ inversion A; subst m. pose proof (wf_root _ _ W3 _ _ Cx) as Q. congruence.
             ++ left; now left.
             ++ left; right; eauto.
          -- destruct CY as [A|A]; [inversion A; congruence|auto].
        * intros x m Hx. destruct (C1 x m Hx) as (X1 & X2). pose proof (wf_root _ _ W3 _ _ Hx).
          simpl in *. rewrite !set_fun_neq by congruence. auto.
        * intros d X; discriminate.
        * apply eqns_add with t3.
          -- apply (k_eqn _ _ _ K3).
          -- intros b Hb. specialize (NF3 b Hb). simpl. rewrite !set_fun_neq by auto. auto.
          -- intros x Hx NE. simpl in Hx. unfold set_fun in Hx.
             destruct (Nat.eqb_spec x a) as [Q|Q]; [|congruence]. subst x.
             exists L. simpl. rewrite set_fun_eq. split; auto.
             intros b u Ib. destruct (LS b u Ib) as (X1 & X2). split; [|auto].
             rewrite set_fun_neq by auto. exact X2.
      + apply (F_trans None t1 t5 _ F5); auto.
        * constructor; simpl; auto.
          -- intros y Hy X. unfold unev in X, Hy. simpl in *. unfold set_fun in X.
             destruct (y =? a); [destruct X; discriminate|auto].
          -- intros y Hy. rewrite set_fun_neq; auto.
        * intros y l Cy Sy _. simpl.
          pose proof (k_cycle _ _ _ H1 y Sy) as AN. rewrite Cy in AN.
          destruct AN as [AN|AN]; [|discriminate].
          assert (exists f, In f G /\ a_cyc t1 (fst f) = Some l) as (f & If & Cf).
          { pose proof (wf_root _ _ (k_wf _ _ _ H1) _ _ Cy) as Cl.
            destruct AN as [AN|(z & AN)]; [exists (l, Comp); auto|exists (z, Rec l); split; auto].
            pose proof (k_stack _ _ _ H1) as SK1. clear - SK1 AN. induction G as [|f G IH]; [destruct AN|].
            simpl in SK1. destruct SK1 as (SK1 & X & _). destruct AN as [AN|AN]; auto. subst f. exact X. }
          apply (K_live t3 ((a, Comp) :: G) None y l); auto.
          exists f. split; [now right|]. apply KP; auto. }
  destruct (a_st t1 a) eqn:S.
  - destruct (EV (or_introl S) E) as (X1 & X2 & X3 & X4). auto.
  - destruct (EV (or_intror S) E) as (X1 & X2 & X3 & X4). auto.
  - destruct (detected_fix G a t1 v t' H1 S E M) as (X1 & X2 & X3 & X4). auto.
  - inversion E; subst. split; auto. split; auto. split; auto. left. left. exact S.
  - inversion E; subst. split; auto. split; auto. split; auto. left. right. exact S.
Qed.
End Fix.
