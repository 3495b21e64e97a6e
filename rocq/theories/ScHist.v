(** * ScHist: what holds between calls. *)
From Verif Require Import Base ScModel ScAbs ScWf ScRep ScSafe ScSpec.

(** Frames of [pending]: an attribute in its first computation, or a member of
    the cycle of [l] that is recomputed. *)
Inductive kind := Comp | Rec (l : nat).
Definition frame := (nat * kind)%type.

Definition anchored (l : nat) (G : list frame) : Prop :=
  In (l, Comp) G \/ exists z, In (z, Rec l) G.

(** As [respected], for the attributes that are not in [O]. *)
Record respected_but {V} (Y : system V) (B : nat -> V -> Prop) (O : nat -> Prop) : Prop := {
  rb_compute : forall a L v, ~ O a -> runs (s_compute Y a) L v ->
     (forall b w, In (b, w) L -> B b w) -> B a v;
  rb_default : forall a, ~ O a -> s_circular Y a = true -> B a (s_default Y a);
  rb_initial : forall a v, ~ O a -> s_initial Y a = Some v -> B a v
}.

Lemma respected_all {V} (Y : system V) B O : respected Y B -> respected_but Y B O.
Proof. intros [H1 H2 H3 H4]. constructor; eauto. Qed.

Section Hist.
Context {V : Type} (Y : system V).
Local Open Scope ev_scope.
Variable B : nat -> V -> Prop.
Variable O : nat -> Prop.
Hypothesis HB : respected_but Y B O.
Variable st0 : nat -> status.
Variable val0 : nat -> V.

Record J (N : nat -> Prop) (t : astate V) (G : list frame) (o : option nat) : Prop := {
  j_wf : awf Y t;
  j_pend : a_pend t = map fst G;
  j_cycle : forall x, a_st t x = CYCLE ->
     match a_cyc t x with
     | None => In (x, Comp) G
     | Some l => anchored l G \/ o = Some l
     end;
  j_cyc : forall x, a_cyc t x <> None -> a_st t x = CYCLE \/ a_st t x = EVALUATED;
  j_st : forall x, In x (a_pend t) -> a_st t x = CYCLE \/ a_st t x = EVALUATED;
  j_closed : forall x l, a_cyc t x = Some l -> (O x <-> O l);
  j_new : forall x, In x (a_pend t) -> ~ O x;
  j_old : forall x, O x -> a_st t x = st0 x /\ a_val t x = val0 x /\
     (a_st t x = EVALUATED \/ a_st t x = ASSIGNED);
  j_float : forall d, o = Some d -> a_cyc t d = Some d /\ ~ O d;
  j_nonu : forall x, N x -> a_st t x <> UNINITIALIZED /\ a_st t x <> UNEVALUATED;
  j_bound : forall x, a_st t x = EVALUATED \/ a_st t x = ASSIGNED \/
     (s_circular Y x = true /\ s_initial Y x = None) \/
     (s_initial Y x <> None /\ a_st t x <> UNINITIALIZED) -> B x (a_val t x)
}.

Definition post {A} (N : nat -> Prop) (G : list frame) (Q : A -> astate V -> Prop)
           (o : out (astate V) A) : Prop :=
  match o with
  | Done v t => J N t G None /\ Q v t
  | Crash _ => False
  | _ => True
  end.

Lemma post_bnd {A C} N G (Q : A -> astate V -> Prop) (R : C -> astate V -> Prop)
      (m : M (astate V) A) (k : A -> M (astate V) C) t :
  post N G Q (m t) ->
  (forall v t1, m t = Done v t1 -> J N t1 G None -> Q v t1 -> post N G R (k v t1)) ->
  post N G R (bnd m k t).
Proof. unfold bnd. destruct (m t); simpl; auto. intros (H1 & H2) H. auto. Qed.

(** ** Detection of cycles *)
Lemma J_new N t G b : J N t G None -> a_st t b = CYCLE -> a_cyc t b = None ->
  s_circular Y b = true -> J N (new_cycle Y b t) G None.
Proof.
  intros [W P CY C1 ST CL NW OL FL NU BD] S C K.
  destruct (awf_new Y t b W C K) as (W' & _).
  pose proof (CY b S) as IG. rewrite C in IG.
  assert (NO : ~ O b).
  { intros H. destruct (OL b H) as (_ & _ & [X|X]); congruence. }
  constructor; simpl; auto.
  - intros x Hx. specialize (CY x Hx). unfold set_fun.
    destruct (Nat.eqb_spec x b) as [E|]; auto. subst x. left. now left.
  - intros x H. unfold set_fun in H. destruct (Nat.eqb_spec x b) as [E|]; auto. subst; auto.
  - intros x l H. unfold set_fun in H. destruct (Nat.eqb_spec x b) as [E|].
    + inversion H; subst. tauto.
    + eauto.
  - intros x H. rewrite set_fun_neq; auto. congruence.
  - intros d H. discriminate.
  - intros x H. unfold set_fun. destruct (Nat.eqb_spec x b) as [E|]; auto.
    subst. apply (rb_default _ _ _ HB); [exact NO|exact K].
Qed.

Lemma J_join N t G e l : J N t G None -> a_cyc t l = Some l -> a_cyc t e = None ->
  s_circular Y e = true -> In e (a_pend t) -> anchored l G -> ~ O l ->
  J N (join e l t) G None.
Proof.
  intros [W P CY C1 ST CL NW OL FL NU BD] Cl C K I A NO.
  destruct (awf_join Y t e l W Cl C K) as (W' & _).
  constructor; simpl; auto.
  - intros x Hx. specialize (CY x Hx). unfold set_fun.
    destruct (Nat.eqb_spec x e) as [E|]; auto.
  - intros x H. unfold set_fun in H. destruct (Nat.eqb_spec x e) as [E|]; auto. subst; auto.
  - intros x m H. unfold set_fun in H. destruct (Nat.eqb_spec x e) as [E|].
    + inversion H; subst. specialize (NW _ I). tauto.
    + eauto.
  - intros d H. discriminate.
Qed.

Lemma J_merge N t G e p l : J N t G None -> a_cyc t l = Some l -> a_cyc t e = Some p ->
  In e (a_pend t) -> anchored l G -> ~ O l -> p <> l ->
  J N (merge p l t) G None.
Proof.
  intros [W P CY C1 ST CL NW OL FL NU BD] Cl C I A NO D.
  pose proof (wf_root _ _ W _ _ C) as Cp.
  destruct (awf_merge Y t p l W Cl Cp D) as (W' & _).
  assert (Q : forall x, inb x (a_mem t p) = true <-> a_cyc t x = Some p).
  { intros x. rewrite inb_true. now apply (wf_mem _ _ W). }
  constructor; simpl; auto.
  - intros x Hx. specialize (CY x Hx). destruct (inb x (a_mem t p)); auto.
  - intros x H. destruct (inb x (a_mem t p)) eqn:E; auto. apply Q in E.
    apply C1. congruence.
  - intros x m H. destruct (inb x (a_mem t p)) eqn:E; eauto. inversion H; subst m.
    apply Q in E. specialize (NW _ I). rewrite (CL _ _ E), <- (CL _ _ C). tauto.
  - intros d H. discriminate.
Qed.

Lemma mark_post N G ls : forall c t, J N t G None -> a_cyc t c = Some c -> anchored c G -> ~ O c ->
  (forall e, In e ls -> In e (a_pend t)) ->
  post N G (fun _ t' => a_val t' = a_val t /\ a_st t' = a_st t) (a_mark Y c ls t).
Proof.
  induction ls as [|e ls IH]; intros c t H C A NO IN; cbn [a_mark].
  - split; auto.
  - rewrite bnd_get. destruct (eq_ref_spec (a_cyc t e) (Some c)) as [E|E]; [split; auto|].
    assert (Ie : In e (a_pend t)) by (apply IN; now left).
    unfold bnd, a_join. destruct (s_circular Y e) eqn:K; [|exact I].
    unfold bnd, get_st, put_st. destruct (a_cyc t e) as [p|] eqn:Ce.
    + assert (D : p <> c) by congruence.
      pose proof (J_merge N t G e p c H C Ce Ie A NO D) as H1.
      specialize (IH c _ H1). apply IH; auto.
      * simpl. now destruct (inb c (a_mem t p)).
      * intros x Hx. simpl. apply IN. now right.
    + pose proof (J_join N t G e c H C Ce K Ie A NO) as H1.
      specialize (IH c _ H1). apply IH; auto.
      * simpl. unfold set_fun. now destruct (c =? e).
      * intros x Hx. simpl. apply IN. now right.
Qed.

Lemma detected_post N G b t : J N t G None -> a_st t b = CYCLE ->
  post N G (fun v t' => B b v /\ v = a_val t' b /\ a_st t' b = CYCLE) (a_detected Y b t).
Proof.
  intros H S. unfold a_detected. destruct (s_circular Y b) eqn:K; [|exact I].
  rewrite bnd_get.
  apply (post_bnd N G (fun _ t1 => a_st t1 b = CYCLE /\ exists l, a_cyc t1 b = Some l)).
  { destruct (a_cyc t b) as [l|] eqn:C.
    - split; eauto.
    - split; [now apply J_new|]. simpl. split; auto. exists b. apply set_fun_eq. }
  intros [] t1 _ H1 (S1 & l & C1).
  assert (Cl : a_cyc t1 l = Some l) by apply (wf_root _ _ (j_wf _ _ _ _ H1) _ _ C1).
  assert (NO : ~ O l).
  { rewrite <- (j_closed _ _ _ _ H1 _ _ C1). intros X.
    destruct (j_old _ _ _ _ H1 _ X) as (_ & _ & [Q|Q]); congruence. }
  assert (A : anchored l G).
  { pose proof (j_cycle _ _ _ _ H1 b S1) as X. rewrite C1 in X. destruct X; auto. discriminate. }
  apply (post_bnd N G (fun _ t2 => a_val t2 = a_val t1 /\ a_st t2 = a_st t1)).
  { unfold a_mark_pending. rewrite bnd_get, C1, bnd_get. apply mark_post; auto. }
  intros [] t2 _ H2 (E1 & E2). split; [exact H2|].
  split; [|split; [reflexivity|congruence]].
  apply (j_bound _ _ _ _ H2). right; right. destruct (s_initial Y b) eqn:Q; [right|left; auto].
  split; [discriminate|]. rewrite E2, S1. discriminate.
Qed.

(** ** Small steps *)
Lemma J_val N t G o a v : J N t G o -> In a (a_pend t) -> B a v -> J N (set_val a v t) G o.
Proof.
  intros [W P CY C1 ST CL NW OL FL NU BD] I Hv.
  constructor; simpl; auto.
  - apply (awf_same Y t); auto.
  - intros x H. rewrite set_fun_neq; auto. intros ->. now apply (NW a).
  - intros x H. unfold set_fun. destruct (Nat.eqb_spec x a) as [->|]; auto.
Qed.

Lemma J_mod N t G o l b : J N t G o -> J N (set_mod l b t) G o.
Proof.
  intros [W P CY C1 ST CL NW OL FL NU BD]. constructor; simpl; auto.
  apply (awf_same Y t); auto.
Qed.

Section Calls.
Variable g : nat -> M (astate V) V.
Hypothesis Hg : forall b t N G, J N t G None ->
  post N G (fun v t' => B b v /\ grow t t') (g b t).

Lemma run_post p N G : forall t L,
  J N t G None ->
  (forall b w, In (b, w) L -> B b w) ->
  post N G (fun v t' => grow t t' /\ exists L', runs p L' v /\ forall b w, In (b, w) L' -> B b w)
       (run g p t).
Proof.
  induction p as [v|b k IH|]; intros t L H HL; cbn [run].
  - split; auto. split; [apply grow_refl|]. exists []. split; [constructor|]. intros b w [].
  - apply (post_bnd N G (fun v t' => B b v /\ grow t t')); auto.
    intros v t1 _ H1 (Bv & G1).
    specialize (IH v t1 L H1 HL). destruct (run g (k v) t1); auto.
    destruct IH as (H2 & G2 & L' & R & HL'). split; auto.
    split; [eapply grow_trans; eauto|]. exists ((b, v) :: L'). split; [now constructor|].
    intros x w [E|E]; [inversion E; subst; auto|auto].
  - exact I.
Qed.

Lemma compute_post a N G t : J N t G None -> In a (a_pend t) ->
  post N G (fun v t' => B a v /\ grow t t') (run g (s_compute Y a) t).
Proof.
  intros H IA. pose proof (j_new _ _ _ _ H a IA) as NOA.
  pose proof (run_post (s_compute Y a) N G t [] H) as R.
  destruct (run g (s_compute Y a) t); simpl in *; auto.
  - destruct R as (H1 & G1 & L & RL & HL); [intros b w []|]. split; auto. split; auto.
    eapply (rb_compute _ _ _ HB); eauto.
  - apply R. intros b w [].
Qed.

Definition fpost {A} N G d (o : out (astate V) A) (Q : A -> astate V -> Prop) : Prop :=
  match o with
  | Done v t => J N t G (if eq_ref (a_cyc t d) (Some d) then Some d else None) /\ Q v t
  | Crash _ => False
  | _ => True
  end.

Lemma pass_post d n N G : forall i t,
  J N t G (Some d) -> nth_error (a_mem t d) i <> None ->
  fpost N G d (a_pass Y n g d i t)
        (fun early t' => early = negb (eq_ref (a_cyc t' d) (Some d))).
Proof.
  induction n as [|n IH]; intros i t H Ni; [exact I|]. cbn [a_pass].
  destruct (j_float _ _ _ _ H d eq_refl) as (C & NO).
  rewrite bnd_get. destruct (nth_error (a_mem t d) i) as [c|] eqn:Ec; [|congruence].
  assert (Cc : a_cyc t c = Some d).
  { apply (wf_mem _ _ (j_wf _ _ _ _ H)); auto. eapply nth_error_In; eauto. }
  unfold a_push. rewrite bnd_put. set (t1 := w_pend (c :: a_pend t) t).
  assert (H1 : J N t1 ((c, Rec d) :: G) None).
  { destruct H as [W P CY C1 ST CL NW OL FL NU BD]. constructor; simpl; auto.
    - apply (awf_same Y t); auto.
    - now rewrite P.
    - intros x Hx. specialize (CY x Hx). destruct (a_cyc t x) as [l|]; [|now right].
      left. destruct CY as [[A|(z & A)]|A].
      + left; now right.
      + right; exists z; now right.
      + inversion A; subst. right. exists c. now left.
    - intros x [<-|Hx]; auto. apply C1. congruence.
    - intros x [<-|Hx]; auto. rewrite (CL _ _ Cc). exact NO.
    - intros d0 X. discriminate. }
  unfold bnd at 1, a_recompute at 1. unfold bnd at 1.
  pose proof (compute_post c N ((c, Rec d) :: G) t1 H1 (or_introl eq_refl)) as R.
  destruct (run g (s_compute Y c) t1) as [v t2|e t2|t2|]; try exact I; [|destruct R].
  destruct R as (H2 & Bv & G2).
  assert (CK : calm Y t2 (a_check Y c v t2)).
  { apply check_calm; [apply (j_wf _ _ _ _ H2)|]. apply (gr_some _ _ G2). simpl. congruence. }
  assert (CJ : match a_check Y c v t2 with Done _ t3 => J N t3 ((c, Rec d) :: G) None | _ => True end).
  { unfold a_check. rewrite bnd_get. destruct (s_equal Y c (a_val t2 c) v); [exact H2|].
    rewrite bnd_get. destruct (a_cyc t2 c) as [l|]; [|exact I]. rewrite bnd_put.
    destruct (s_compare Y c (a_val t2 c) v); [|exact I]. simpl. now apply J_mod. }
  unfold bnd at 1. destruct (a_check Y c v t2) as [[] t3|e t3|t3|]; try exact I; [|destruct CK].
  simpl in CK. destruct CK as (P3 & W3 & G3).
  unfold put_st at 1. set (t4 := set_val c v t3).
  assert (H4 : J N t4 ((c, Rec d) :: G) None).
  { apply J_val; auto. rewrite (j_pend _ _ _ _ CJ). now left. }
  assert (P4 : a_pend t4 = c :: map fst G) by apply (j_pend _ _ _ _ H4).
  unfold bnd at 1, a_pop at 1. rewrite P4.
  set (t5 := w_pend (map fst G) t4).
  assert (H5 : J N t5 G (if eq_ref (a_cyc t5 d) (Some d) then Some d else None)).
  { clearbody t4. clear - H4 NO.
    destruct H4 as [W P CY C1 ST CL NW OL FL NU BD].
    destruct (eq_ref_spec (a_cyc t5 d) (Some d)) as [Q|Q]; simpl in Q.
    - constructor; simpl; auto.
      + apply (awf_same Y t4); auto.
      + intros x Hx. specialize (CY x Hx). destruct (a_cyc t4 x) as [l|].
        * destruct CY as [[[A|A]|(z & [A|A])]|A]; try discriminate.
          -- left; now left.
          -- inversion A; subst. now right.
          -- left; right; eauto.
        * destruct CY as [A|A]; [discriminate|auto].
      + intros x Hx. apply ST. rewrite P. now right.
      + intros x Hx. apply NW. rewrite P. now right.
      + intros d0 X. inversion X; subst. auto.
    - constructor; simpl; auto.
      + apply (awf_same Y t4); auto.
      + intros x Hx. specialize (CY x Hx). destruct (a_cyc t4 x) as [l|] eqn:Cx.
        * destruct CY as [[[A|A]|(z & [A|A])]|A]; try discriminate.
          -- left; now left.
          -- inversion A; subst. exfalso. apply Q. apply (wf_root _ _ W _ _ Cx).
          -- left; right; eauto.
        * destruct CY as [A|A]; [discriminate|auto].
      + intros x Hx. apply ST. rewrite P. now right.
      + intros x Hx. apply NW. rewrite P. now right. }
  rewrite bnd_get. destruct (eq_ref_spec (a_cyc t5 d) (Some d)) as [Q|Q].
  2:{ cbn [negb ret fpost]. destruct (eq_ref_spec (a_cyc t5 d) (Some d)); [contradiction|]. auto. }
  cbn [negb]. rewrite bnd_get. destruct (nth_error (a_mem t5 d) (S i)) eqn:E5.
  - apply IH; auto. congruence.
  - cbn [ret fpost]. destruct (eq_ref_spec (a_cyc t5 d) (Some d)); [|contradiction]. auto.
Qed.

Lemma passes_post d m n N G : forall t,
  J N t G (Some d) -> post N G (fun _ t' => True) (a_passes Y n m g d t).
Proof.
  induction n as [|n IH]; intros t H; [exact I|]. cbn [a_passes].
  rewrite bnd_put. apply (J_mod _ _ _ _ d false) in H. set (t1 := set_mod d false t) in *.
  destruct (j_float _ _ _ _ H d eq_refl) as (C & NO).
  assert (N0 : nth_error (a_mem t1 d) 0 <> None).
  { pose proof C as C'. apply (wf_mem _ _ (j_wf _ _ _ _ H) d d C) in C'.
    destruct (a_mem t1 d); [contradiction|discriminate]. }
  pose proof (pass_post d m N G 0 t1 H N0) as R. unfold bnd at 1.
  destruct (a_pass Y m g d 0 t1) as [early t2|e t2|t2|]; auto; try exact I.
  destruct R as (H2 & E). destruct (eq_ref_spec (a_cyc t2 d) (Some d)) as [Q|Q];
    simpl in E; subst early; [|split; auto].
  rewrite bnd_get. destruct (a_mod t2 d); [now apply IH|].
  simpl. split; auto.
  destruct H2 as [W P CY C1 ST CL NW OL FL NU BD].
  assert (IM : forall x, inb x (a_mem t2 d) = true <-> a_cyc t2 x = Some d).
  { intros x. rewrite inb_true. now apply (wf_mem _ _ W). }
  constructor; simpl; auto.
  - apply (awf_same Y t2); auto.
  - intros x Hx. destruct (inb x (a_mem t2 d)) eqn:E; [discriminate|].
    specialize (CY x Hx). destruct (a_cyc t2 x) as [l|] eqn:Cx; auto.
    destruct CY as [A|A]; auto. inversion A; subst. apply IM in Cx. congruence.
  - intros x Hx. destruct (inb x (a_mem t2 d)); auto.
  - intros x Hx. destruct (inb x (a_mem t2 d)); auto.
  - intros x Hx. destruct (inb x (a_mem t2 d)) eqn:E; auto.
    apply IM in E. exfalso. apply NO. now apply (CL _ _ E).
  - intros d0 X; discriminate.
  - intros x Hx. destruct (inb x (a_mem t2 d)); auto. split; discriminate.
  - intros x Hx. apply BD. destruct (inb x (a_mem t2 d)) eqn:E; auto.
    apply IM in E. destruct (s_initial Y x) eqn:SI.
    + right; right; right. split; [discriminate|]. destruct (C1 x) as [X|X]; congruence.
    + right; right; left. split; auto. apply (wf_circ _ _ W _ _ E).
Qed.
End Calls.

(** ** Demands *)
Theorem get_post n : forall a t N G, J N t G None ->
  post N G (fun v t' => B a v /\ v = a_val t' a /\
     (a_st t' a <> UNINITIALIZED /\ a_st t' a <> UNEVALUATED)) (a_get Y n a t).
Proof.
  induction n as [|n IH]; intros a t N G H; [exact I|]. cbn [a_get].
  assert (IH' : forall b t N G, J N t G None ->
     post N G (fun v t' => B b v /\ grow t t') (a_get Y n b t)).
  { intros b t1 N1 G1 H1. specialize (IH b t1 N1 G1 H1).
    pose proof (get_calm Y n b t1 (j_wf _ _ _ _ H1)) as K.
    destruct (a_get Y n b t1); simpl in *; auto. destruct IH as (X & Bv & _).
    destruct K as (_ & _ & K). auto. }
  apply (post_bnd N G (fun _ t1 => s_initial Y a <> None -> a_st t1 a <> UNINITIALIZED)).
  { unfold a_initialize. destruct (s_initial Y a) as [w|] eqn:SI; [|split; auto].
    rewrite bnd_get. destruct (a_st t a) eqn:S; try (split; [exact H|]; intros _; congruence).
    rewrite bnd_put. unfold put_st. split.
    2:{ intros _. simpl. rewrite set_fun_eq. discriminate. }
    destruct H as [W P CY C1 ST CL NW OL FL NU BD].
    assert (X : forall x, a_st t x <> UNINITIALIZED -> x <> a) by congruence.
    constructor; simpl; auto.
    - apply (awf_same Y t); auto.
    - intros x Hx. unfold set_fun in Hx. destruct (Nat.eqb_spec x a); [discriminate|]. now apply CY.
    - intros x Hx. rewrite set_fun_neq; auto. apply X. destruct (C1 x Hx); congruence.
    - intros x Hx. rewrite set_fun_neq; auto. apply X. destruct (ST x Hx); congruence.
    - intros x Hx. rewrite !set_fun_neq; auto; apply X; destruct (OL x Hx) as (_ & _ & [Q|Q]); congruence.
    - intros x Hx. rewrite set_fun_neq; auto. apply X. apply NU; auto.
    - intros x Hx. unfold set_fun in *. destruct (Nat.eqb_spec x a) as [E|D]; [subst x|auto].
      apply (rb_initial _ _ _ HB); [|exact SI].
      intros X1. destruct (OL a X1) as (_ & _ & [Q|Q]); congruence. }
  intros [] t1 _ H1 NI. clear H t. rewrite bnd_get.
  assert (EV : a_st t1 a = UNINITIALIZED \/ a_st t1 a = UNEVALUATED ->
   post N G (fun v t' => B a v /\ v = a_val t' a /\
     (a_st t' a <> UNINITIALIZED /\ a_st t' a <> UNEVALUATED))
    ((put_st (set_st a CYCLE);;; a_push a;;; v <- run (a_get Y n) (s_compute Y a);;
      put_st (set_val a v);;; a_pop;;; c <- get_st (fun t0 => a_cyc t0 a);;
      match c with Some _ => a_evaluate Y n (a_get Y n) a | None => put_st (set_st a EVALUATED) end;;;
      get_st (fun t0 => a_val t0 a)) t1)).
  { intros S. unfold a_push. rewrite !bnd_put. set (t2 := w_pend _ _).
    set (N' := fun x => N x \/ x = a).
    assert (H2 : J N' t2 ((a, Comp) :: G) None).
    { destruct H1 as [W P CY C1 ST CL NW OL FL NU BD].
      assert (X : forall x, a_st t1 x <> UNINITIALIZED -> a_st t1 x <> UNEVALUATED -> x <> a).
      { intros x X1 X2 ->. destruct S; congruence. }
      constructor; simpl; auto.
      - apply (awf_same Y t1); auto.
      - now rewrite P.
      - intros x Hx. unfold set_fun in Hx. destruct (Nat.eqb_spec x a) as [E|D]; [subst x|].
        + destruct (a_cyc t1 a) as [l|] eqn:Ca; [|now left].
          destruct (C1 a); [congruence| |]; destruct S; congruence.
        + specialize (CY x Hx). destruct (a_cyc t1 x) as [l|]; [|now right].
          destruct CY as [[A|(z & A)]|A]; [|eauto|discriminate].
          * left; left; now right.
          * left; right; exists z; now right.
      - intros x Hx. rewrite set_fun_neq; auto. apply X; destruct (C1 x Hx); congruence.
      - intros x Hx. unfold set_fun. destruct (Nat.eqb_spec x a) as [->|D]; auto.
        destruct Hx as [->|Hx]; [congruence|]. auto.
      - intros x [<-|Hx]; auto. intros X1. destruct (OL a X1) as (_ & _ & [Q|Q]); destruct S; congruence.
      - intros x Hx. rewrite !set_fun_neq; auto. apply X; destruct (OL x Hx) as (_ & _ & [Q|Q]); congruence.
      - intros x Hx. unfold set_fun. destruct (Nat.eqb_spec x a) as [->|D]; [split; discriminate|].
        destruct Hx as [Hx|Hx]; [auto|congruence].
      - intros x Hx. unfold set_fun in Hx. destruct (Nat.eqb_spec x a) as [E|D]; [subst x|]; auto.
        apply BD. destruct Hx as [Hx|[Hx|[Hx|Hx]]]; try discriminate; auto.
        right; right; right. destruct Hx. auto. }
    pose proof (compute_post (a_get Y n) IH' a N' ((a, Comp) :: G) t2 H2 (or_introl eq_refl)) as R.
    unfold bnd at 1. destruct (run (a_get Y n) (s_compute Y a) t2) as [v t3|e t3|t3|]; auto; try exact I.
    destruct R as (H3 & Bv & _). rewrite bnd_put.
    assert (H4 : J N' (set_val a v t3) ((a, Comp) :: G) None).
    { apply J_val; auto. rewrite (j_pend _ _ _ _ H3). now left. }
    assert (BV : B a (a_val (set_val a v t3) a)) by (simpl; now rewrite set_fun_eq).
    set (t4 := set_val a v t3) in *. clearbody t4. clear H3 t3 H2 t2.
    unfold bnd at 1, a_pop at 1. rewrite (j_pend _ _ _ _ H4). simpl map. cbv iota.
    set (t5 := w_pend (map fst G) t4). rewrite bnd_get.
    assert (Ia : In a (a_pend t4)) by (rewrite (j_pend _ _ _ _ H4); now left).
    apply (post_bnd N G (fun _ t' => a_st t' a <> UNINITIALIZED /\ a_st t' a <> UNEVALUATED /\
                           (s_circular Y a = true \/ a_st t' a = EVALUATED))).
    2:{ intros [] t6 _ H6 (U1 & U2 & KE). split; auto. split; [|auto].
        apply (j_bound _ _ _ _ H6). destruct KE as [K|K]; [|auto].
        destruct (s_initial Y a); [right; right; right; split; auto; discriminate|].
        right; right; left; auto. }
    destruct H4 as [W P CY C1 ST CL NW OL FL NU BD].
    change (a_cyc t5 a) with (a_cyc t4 a). destruct (a_cyc t4 a) as [l|] eqn:Ca.
    - assert (K : s_circular Y a = true) by apply (wf_circ _ _ W _ _ Ca).
      assert (EQ : forall o, (l <> a /\ o = None) \/ (l = a /\ o = Some a) -> J N' t5 G o).
      { intros o Ho. constructor; simpl; auto.
        - apply (awf_same Y t4); auto.
        - intros x Hx. specialize (CY x Hx). destruct (a_cyc t4 x) as [m|] eqn:Cx.
          + destruct CY as [[[A|A]|(z & [A|A])]|A]; try discriminate.
            * inversion A; subst m. pose proof (wf_root _ _ W _ _ Cx) as Q.
              destruct Ho as [(D & _)|(D & ->)]; [congruence|now right].
            * left; now left.
            * left; right; eauto.
          + destruct CY as [A|A]; [inversion A; congruence|auto].
        - intros x Hx. apply ST. rewrite P. now right.
        - intros x Hx. apply NW. rewrite P. now right.
        - intros d Hd. destruct Ho as [(D & ->)|(D & ->)]; [discriminate|].
          inversion Hd; subst d. subst l. split; auto. }
      unfold a_evaluate. rewrite K, bnd_get. change (a_cyc t5 a) with (a_cyc t4 a). rewrite Ca.
      destruct (eq_ref_spec (Some l) (Some a)) as [E|E].
      + pose proof (passes_post (a_get Y n) IH' a n n N' G t5) as R.
        destruct (a_passes Y n n (a_get Y n) a t5) as [[] t6|e t6|t6|].
        * destruct R as (H6 & _); [apply EQ; right; split; congruence|].
          destruct (j_nonu _ _ _ _ H6 a) as (X1 & X2); [now right|].
          split; [|auto]. destruct H6 as [Z1 Z2 Z3 Z4 Z5 Z6 Z7 Z8 Z9 Z10 Z11].
          constructor; auto. intros x Hx. apply Z10. now left.
        * exact I.
        * apply R. apply EQ. right; split; congruence.
        * exact I.
      + destruct (EQ None) as [Z1 Z2 Z3 Z4 Z5 Z6 Z7 Z8 Z9 Z10 Z11]; [left; split; congruence|].
        destruct (Z10 a) as (X1 & X2); [now right|]. split; [|auto].
        constructor; auto. intros x Hx. apply Z10. now left.
    - unfold put_st. split.
      2:{ simpl. rewrite set_fun_eq. repeat split; try discriminate. auto. }
      constructor; simpl; auto.
      + apply (awf_same Y t4); auto.
      + intros x Hx. unfold set_fun in Hx. destruct (Nat.eqb_spec x a) as [|D]; [discriminate|].
        specialize (CY x Hx). destruct (a_cyc t4 x) as [m|] eqn:Cx.
        * destruct CY as [[[A|A]|(z & [A|A])]|A]; try discriminate.
          -- inversion A; subst m. pose proof (wf_root _ _ W _ _ Cx) as Q. congruence.
          -- left; now left.
          -- left; right; eauto.
        * destruct CY as [A|A]; [inversion A; congruence|auto].
      + intros x Hx. unfold set_fun. destruct (x =? a); auto.
      + intros x Hx. unfold set_fun. destruct (x =? a); auto. apply ST. rewrite P. now right.
      + intros x Hx. apply NW. rewrite P. now right.
      + intros x Hx. rewrite set_fun_neq; auto. intros ->. now apply (NW a).
      + intros x Hx. unfold set_fun. destruct (x =? a); [split; discriminate|]. apply NU. now left.
      + intros x Hx. unfold set_fun in Hx. destruct (Nat.eqb_spec x a) as [E|D]; [subst x|]; auto. }
  destruct (a_st t1 a) eqn:S; auto.
  - pose proof (detected_post N G a t1 H1 S) as R.
    destruct (a_detected Y a t1); auto. destruct R as (H2 & Bv & E & S2).
    split; auto. split; auto. split; auto. rewrite S2. split; discriminate.
  - split; auto. rewrite S. repeat split; try discriminate.
    apply (j_bound _ _ _ _ H1). auto.
  - split; auto. rewrite S. repeat split; try discriminate.
    apply (j_bound _ _ _ _ H1). auto.
Qed.
End Hist.

(** ** Histories *)
Definition never (x : nat) : Prop := False.

(** Between calls, without any evaluation in progress. *)
Definition rest {V} (Y : system V) (B : nat -> V -> Prop) (t : astate V) : Prop :=
  J Y B never (a_st t) (a_val t) never t [] None.

Section Rest.
Context {V : Type} (Y : system V) (B : nat -> V -> Prop).
Hypothesis HB : respected Y B.

Lemma rest_start : rest Y B (a_start Y).
Proof.
  constructor; simpl; try discriminate; try tauto.
  - constructor; simpl; discriminate.
  - intros x []. 
  - intros x [H|[H|[(H1 & H2)|(H1 & H2)]]]; try discriminate; try congruence.
    now apply (re_null _ _ HB).
Qed.

Lemma rest_none t : rest Y B t -> forall x, a_st t x <> CYCLE.
Proof.
  intros H x S. pose proof (j_cycle _ _ _ _ _ _ _ _ _ H x S) as X.
  destruct (a_cyc t x); [destruct X as [[X|(z & X)]|X]; try contradiction; discriminate|destruct X].
Qed.

Lemma rest_cyc t : rest Y B t -> forall x, a_cyc t x <> None -> a_st t x = EVALUATED.
Proof.
  intros H x S. destruct (j_cyc _ _ _ _ _ _ _ _ _ H x S) as [X|X]; auto.
  now apply rest_none in X.
Qed.

Lemma rest_pend t : rest Y B t -> a_pend t = [].
Proof. intros H. apply (j_pend _ _ _ _ _ _ _ _ _ H). Qed.

(** For other sets [O] and [N]. *)
Lemma rest_J t (N O : nat -> Prop) : rest Y B t ->
  (forall x, O x <-> (a_st t x = EVALUATED \/ a_st t x = ASSIGNED)) ->
  (forall x, N x -> a_st t x <> UNINITIALIZED /\ a_st t x <> UNEVALUATED) ->
  J Y B O (a_st t) (a_val t) N t [] None.
Proof.
  intros H HO HN. pose proof (rest_cyc t H) as RC.
  pose proof H as [W P CY C1 ST CL NW OL FL NU BD].
  constructor; auto.
  - intros x l C. rewrite !HO. pose proof (wf_root _ _ W _ _ C).
    rewrite (RC x), (RC l) by congruence. tauto.
  - intros x Hx. rewrite P in Hx. contradiction.
  - intros x Hx. apply HO in Hx. auto.
  - intros d X; discriminate.
Qed.

Lemma J_rest t (N O : nat -> Prop) st0 val0 : J Y B O st0 val0 N t [] None -> rest Y B t.
Proof.
  intros [W P CY C1 ST CL NW OL FL NU BD]. constructor; auto.
  all: unfold never; try (intros; tauto).
  intros d X; discriminate.
Qed.

Theorem get_rest_but n a t :
  respected_but Y B (fun x => a_st t x = EVALUATED \/ a_st t x = ASSIGNED) -> rest Y B t ->
  match a_get Y n a t with
  | Done v t' => rest Y B t' /\ B a v /\ v = a_val t' a /\
      (a_st t' a = EVALUATED \/ a_st t' a = ASSIGNED) /\
      (forall x, a_st t x = EVALUATED \/ a_st t x = ASSIGNED ->
         a_st t' x = a_st t x /\ a_val t' x = a_val t x)
  | Crash _ => False
  | _ => True
  end.
Proof.
  intros HB' H.
  pose proof (rest_J t never (fun x => a_st t x = EVALUATED \/ a_st t x = ASSIGNED) H) as K.
  assert (KJ : J Y B (fun x => a_st t x = EVALUATED \/ a_st t x = ASSIGNED) (a_st t) (a_val t) never t [] None).
  { apply K; [tauto|intros x []]. }
  pose proof (get_post Y B _ HB' _ _ n a t never [] KJ) as R.
  destruct (a_get Y n a t) as [v t'|e t'|t'|]; auto.
  destruct R as (J' & Bv & E & U1 & U2). pose proof (J_rest _ _ _ _ _ J') as R'.
  split; [exact R'|]. split; [exact Bv|]. split; [exact E|]. split.
  - pose proof (rest_none _ R' a). destruct (a_st t' a); tauto.
  - intros x Hx. destruct (j_old _ _ _ _ _ _ _ _ _ J' x Hx) as (Q1 & Q2 & _). auto.
Qed.

Theorem get_rest n a t : rest Y B t ->
  match a_get Y n a t with
  | Done v t' => rest Y B t' /\ B a v /\ v = a_val t' a /\
      (a_st t' a = EVALUATED \/ a_st t' a = ASSIGNED) /\
      (forall x, a_st t x = EVALUATED \/ a_st t x = ASSIGNED ->
         a_st t' x = a_st t x /\ a_val t' x = a_val t x)
  | Crash _ => False
  | _ => True
  end.
Proof. intros H. apply get_rest_but; auto. now apply respected_all. Qed.

Theorem set_rest a v t t' : rest Y B t -> a_set Y a v t = Done tt t' ->
  (match s_initial Y a with
   | None => B a v
   | Some _ => forall old, B a old -> B a (s_combine Y a old v)
   end) ->
  rest Y B t' /\ a_st t' a = ASSIGNED /\
  (forall x, x <> a -> a_st t' x = a_st t x /\ a_val t' x = a_val t x) /\
  a_st t a <> EVALUATED.
Proof.
  intros H E HA.
  assert (P : forall w t1 t2, rest Y B t1 -> B a w -> a_set_circular Y a w t1 = Done tt t2 ->
     rest Y B t2 /\ a_st t2 a = ASSIGNED /\
     (forall x, x <> a -> a_st t2 x = a_st t1 x /\ a_val t2 x = a_val t1 x) /\
     a_st t1 a <> EVALUATED).
  { intros w t1 t2 H1 Bw E1. unfold a_set_circular in E1. apply bnd_Done in E1.
    destruct E1 as ([] & t3 & C & E1).
    unfold a_set_plain in E1. rewrite bnd_get in E1.
    assert (S3 : a_st t3 = a_st t1 /\ a_val t3 = a_val t1 /\ rest Y B t3).
    { destruct (s_circular Y a); [|inversion C; subst; auto].
      unfold a_check in C. rewrite bnd_get in C.
      destruct (s_equal Y a (a_val t1 a) w); [inversion C; subst; auto|].
      rewrite bnd_get in C. destruct (a_cyc t1 a); [|discriminate]. rewrite bnd_put in C.
      destruct (s_compare Y a (a_val t1 a) w); [|discriminate]. inversion C; subst.
      split; [reflexivity|]. split; [reflexivity|]. unfold rest. now apply J_mod. }
    destruct S3 as (S3 & V3 & R3).
    assert (NC : a_st t3 a <> EVALUATED ->
       E1 = E1 -> put_st (set_val a w) t3 = Done tt (set_val a w t3) ->
       t2 = set_st a ASSIGNED (set_val a w t3) ->
       rest Y B t2 /\ a_st t2 a = ASSIGNED /\
       (forall x, x <> a -> a_st t2 x = a_st t1 x /\ a_val t2 x = a_val t1 x) /\
       a_st t1 a <> EVALUATED).
    { intros NE _ _ ->. split; [|split; [|split]].
      2:{ simpl. apply set_fun_eq. }
      2:{ intros x D. simpl. rewrite !set_fun_neq by auto. rewrite S3, V3. auto. }
      2:{ now rewrite <- S3. }
      assert (CA : a_cyc t3 a = None).
      { destruct (a_cyc t3 a) eqn:Q; auto. exfalso. apply NE. apply (rest_cyc _ R3). congruence. }
      destruct R3 as [Z1 Z2 Z3 Z4 Z5 Z6 Z7 Z8 Z9 Z10 Z11].
      constructor; simpl; auto; try tauto.
      - apply (awf_same Y t3); auto.
      - intros x Hx. unfold set_fun in Hx. destruct (x =? a); [discriminate|]. now apply Z3.
      - intros x Hx. rewrite set_fun_neq; auto. congruence.
      - intros x Hx. rewrite Z2 in Hx. contradiction.
      - intros x [].
      - intros x Hx. unfold set_fun in *. destruct (Nat.eqb_spec x a) as [Q|Q]; [subst x; exact Bw|auto]. }
    destruct (a_st t3 a) eqn:Q; try discriminate; apply NC; auto; try discriminate;
      inversion E1; reflexivity. }
  unfold a_set in E. destruct (s_initial Y a) as [w|] eqn:SI.
  - apply bnd_Done in E. destruct E as ([] & t1 & E1 & E). rewrite bnd_get in E.
    unfold a_initialize in E1. rewrite SI, bnd_get in E1.
    assert (R1 : rest Y B t1 /\ a_st t1 a <> UNINITIALIZED /\
              (forall x, x <> a -> a_st t1 x = a_st t x /\ a_val t1 x = a_val t x) /\
              (a_st t a = EVALUATED -> a_st t1 a = EVALUATED)).
    { destruct (a_st t a) eqn:S; try (inversion E1; subst t1; split; [exact H|]; split; [congruence|]; split; [auto|congruence]).
      inversion E1; subst t1. simpl. split; [|split; [|split]].
      2:{ rewrite set_fun_eq; discriminate. }
      2:{ intros x D. rewrite !set_fun_neq; auto. }
      2:{ discriminate. }
      pose proof (rest_cyc _ H) as RC.
      destruct H as [Z1 Z2 Z3 Z4 Z5 Z6 Z7 Z8 Z9 Z10 Z11].
      constructor; simpl; auto; try tauto.
      - apply (awf_same Y t); auto.
      - intros x Hx. unfold set_fun in Hx. destruct (x =? a); [discriminate|]. now apply Z3.
      - intros x Hx. rewrite set_fun_neq; auto. intros ->. apply RC in Hx. congruence.
      - intros x Hx. rewrite Z2 in Hx. contradiction.
      - intros x [].
      - intros x Hx. unfold set_fun in *. destruct (Nat.eqb_spec x a) as [Q|Q]; [subst x|auto].
        apply (re_initial _ _ HB). exact SI. }
    destruct R1 as (R1 & S1 & F1 & X1).
    assert (Bw : B a (s_combine Y a (a_val t1 a) v)).
    { apply HA. apply (j_bound _ _ _ _ _ _ _ _ _ R1). right; right; right. split; congruence. }
    destruct (P _ _ _ R1 Bw E) as (R2 & S2 & F2 & X2). split; auto. split; auto. split.
    + intros x D. destruct (F1 x D), (F2 x D). split; congruence.
    + auto.
  - now apply (P v t t').
Qed.

Theorem history_rest h s : history Y h s -> assignments_respect Y B h ->
  exists t, Rep Y s t /\ rest Y B t.
Proof.
  intros H. induction H as [|h s e s' H IH S]; intros HA.
  - exists (a_start Y). split; [apply start_rep|apply rest_start].
  - destruct IH as (t & R & RT).
    { intros a v I. apply HA. apply in_or_app. now left. }
    inversion S as [n s0 a v s1 E|n s0 a v s1 E]; subst.
    + pose proof (get_rep Y n a s t R) as Q. rewrite E in Q. destruct Q as (t' & E' & R').
      pose proof (get_rest n a t RT) as Q. rewrite E' in Q. exists t'. tauto.
    + pose proof (set_rep Y n a v s t R) as Q. rewrite E in Q. destruct Q as (t' & E' & R').
      destruct (set_rest a v t t' RT E') as (Q & _).
      { apply HA. apply in_or_app. right; now left. }
      exists t'. tauto.
Qed.
End Rest.

(** No bound. *)
Definition anything {V} (a : nat) (v : V) : Prop := True.
Lemma anything_respected {V} (Y : system V) : respected Y anything.
Proof. constructor; unfold anything; auto. Qed.
Lemma anything_assigned {V} (Y : system V) h : assignments_respect Y anything h.
Proof. intros a v _. destruct (s_initial Y a); unfold anything; auto. Qed.
