(** * PropsScala: demand-driven evaluation of attributes in the Scala runtime
    (C76-C85).

    The model is [ScModel] (base/scala/aps-impl.scala 180-293, 356-522), the
    specification [ScSpec]. *)
From Coq Require Import Relations.
From Verif Require Import Base ScModel ScAbs ScWf ScRep ScSafe ScSpec ScHist ScFix ScPlain ScUse.

(** ** C76: no demand fails internally *)
Theorem C76_demand {V} (Y : system V) s : life Y s ->
  forall n a s', get Y n a s <> Crash s'.
Proof.
  intros H n a s' E. destruct (life_rep Y s H) as (t & R & W).
  pose proof (get_rep Y n a s t R) as Q. rewrite E in Q. destruct Q as (t' & Q).
  pose proof (get_calm Y n a t W) as C. rewrite Q in C. exact C.
Qed.

Theorem C76_assign {V} (Y : system V) s : life Y s ->
  forall n a v s', s_circular Y a = false -> set Y n a v s <> Crash s'.
Proof.
  intros _ n a v s' K E. unfold set, set_circular in E. rewrite K in E.
  assert (P : forall w s1, set_plain (V := V) a w s1 <> Crash s').
  { intros w s1 E1. unfold set_plain in E1. rewrite bnd_get in E1.
    destruct (e_status (at_ s1 a)); discriminate. }
  destruct (s_initial Y a) as [w|] eqn:SI.
  - destruct (initialize_plain Y a s) as (s1 & E1 & _). unfold bnd at 1 in E.
    rewrite E1, bnd_get, bnd_ret in E. now apply P in E.
  - rewrite bnd_ret in E. now apply P in E.
Qed.

(** ** C77: values are final *)
Section Final.
Context {V : Type} (Y : system V).

Theorem C77_idle h s : history Y h s -> idle s.
Proof.
  intros H. destruct (history_rest Y anything (anything_respected Y) h s H (anything_assigned Y h))
    as (t & R & RT). split.
  - rewrite (r_pend _ _ _ R). apply (rest_pend Y anything t RT).
  - intros a. rewrite (r_st _ _ _ R). apply (rest_none Y anything t RT).
Qed.

Theorem C77_demand h s a v s' : history Y h s -> step Y s (Demand a v) s' ->
  settled s' a /\ e_value (at_ s' a) = v /\
  forall x, settled s x -> e_status (at_ s' x) = e_status (at_ s x) /\
                           e_value (at_ s' x) = e_value (at_ s x).
Proof.
  intros H S. destruct (history_rest Y anything (anything_respected Y) h s H (anything_assigned Y h))
    as (t & R & RT).
  inversion S as [n s0 a0 v0 s1 E|]; subst.
  pose proof (get_rep Y n a s t R) as Q. rewrite E in Q. destruct Q as (t' & E' & R').
  pose proof (get_rest Y anything (anything_respected Y) n a t RT) as X. rewrite E' in X.
  destruct X as (_ & _ & X1 & X2 & X3). unfold settled.
  rewrite (r_st _ _ _ R'), (r_val _ _ _ R'). split; auto. split; auto.
  intros x. rewrite (r_st _ _ _ R), (r_st _ _ _ R'), (r_val _ _ _ R), (r_val _ _ _ R'). apply X3.
Qed.

Theorem C77_assign h s a v s' : history Y h s -> step Y s (Assign a v) s' ->
  e_status (at_ s a) <> EVALUATED /\ e_status (at_ s' a) = ASSIGNED /\
  e_value (at_ s' a) = match s_initial Y a with
                       | None => v
                       | Some i => s_combine Y a (match e_status (at_ s a) with
                                                  | UNINITIALIZED => i
                                                  | _ => e_value (at_ s a)
                                                  end) v
                       end /\
  forall x, x <> a -> e_status (at_ s' x) = e_status (at_ s x) /\
                      e_value (at_ s' x) = e_value (at_ s x).
Proof.
  intros H S. destruct (history_rep Y h s H) as (t & R & W).
  inversion S as [|n s0 a0 v0 s1 E]; subst.
  pose proof (set_rep Y n a v s t R) as Q. rewrite E in Q. destruct Q as (t' & E' & R').
  destruct (set_frame_val Y a v t t' E') as ((_ & _ & _ & X1 & X2) & X3 & X4).
  rewrite (r_st _ _ _ R), (r_st _ _ _ R'), (r_val _ _ _ R), (r_val _ _ _ R').
  split; auto. split; auto. split; auto.
  intros x D. rewrite (r_st _ _ _ R), (r_st _ _ _ R'), (r_val _ _ _ R), (r_val _ _ _ R'). auto.
Qed.

Theorem C77_again h a v h' w s :
  history Y (h ++ Demand a v :: h' ++ [Demand a w]) s ->
  (forall u, ~ In (Assign a u) h') -> w = v.
Proof.
  intros H NA.
  assert (P : forall l s, history Y l s -> forall h', l = h ++ Demand a v :: h' ->
     (forall u, ~ In (Assign a u) h') -> settled s a /\ e_value (at_ s a) = v).
  { clear. intros l s H. induction H as [|l s e s' H IH S]; intros h' E NA.
    - destruct h; discriminate.
    - destruct (rev h') as [|e' r] eqn:RV.
      + assert (h' = []) by (rewrite <- (rev_involutive h'), RV; reflexivity). subst h'.
        apply app_inj_tail in E. destruct E as (-> & ->).
        destruct (C77_demand _ _ _ _ _ H S) as (X1 & X2 & _). auto.
      + assert (h' = rev r ++ [e']) by (rewrite <- (rev_involutive h'), RV; reflexivity). subst h'.
        change (h ++ Demand a v :: rev r ++ [e']) with (h ++ (Demand a v :: rev r) ++ [e']) in E.
        rewrite app_assoc in E. apply app_inj_tail in E. destruct E as (E & ->).
        destruct (IH (rev r) E) as (X1 & X2).
        { intros u I. apply (NA u). apply in_or_app. now left. }
        destruct e' as [b u|b u].
        * destruct (C77_demand _ _ _ _ _ H S) as (_ & _ & X3). destruct (X3 a X1) as (Y1 & Y2).
          unfold settled. rewrite Y1, Y2. auto.
        * assert (a <> b).
          { intros ->. apply (NA u). apply in_or_app. right. now left. }
          destruct (C77_assign _ _ _ _ _ H S) as (_ & _ & _ & X3). destruct (X3 a) as (Y1 & Y2); auto.
          unfold settled. rewrite Y1, Y2. auto. }
  change (h ++ Demand a v :: h' ++ [Demand a w]) with (h ++ (Demand a v :: h') ++ [Demand a w]) in H.
  rewrite app_assoc in H. inversion H as [E|l s0 e s1 H0 S E]; subst.
  - symmetry in E. apply app_eq_nil in E. destruct E. discriminate.
  - apply app_inj_tail in E. destruct E as (-> & ->).
    destruct (P _ _ H0 h' eq_refl NA) as (X1 & X2).
    destruct (C77_demand _ _ _ _ _ H0 S) as (_ & X3 & X4). destruct (X4 a X1) as (_ & X5). congruence.
Qed.
End Final.

(** ** C78: evaluated attributes satisfy their equations (partial: no cycles
    were merged; assignments come first) *)
Theorem C78_equations_partial {V} (Y : system V) : equal_sound Y ->
  forall h1 h2 s, history Y (h1 ++ h2) s -> only_assigns h1 -> only_demands h2 -> unmerged s ->
  forall a, e_status (at_ s a) = EVALUATED -> equation_holds Y s a.
Proof. intros HE h1 h2 s. now apply equations. Qed.

(** ** C79: values stay within every bound that the programs respect *)
Theorem C79_bound {V} (Y : system V) B : respected Y B ->
  forall h s, history Y h s -> assignments_respect Y B h ->
  forall a, settled s a -> B a (e_value (at_ s a)).
Proof.
  intros HB h s H HA a Sa. destruct (history_rest Y B HB h s H HA) as (t & R & RT).
  rewrite (r_val _ _ _ R). apply (j_bound _ _ _ _ _ _ _ _ _ RT).
  unfold settled in Sa. rewrite (r_st _ _ _ R) in Sa. tauto.
Qed.

Theorem C79_below {V} (Y : system V) le sigma : upper Y le sigma ->
  forall h s, history Y h s -> assignments_respect Y (fun a v => le v (sigma a)) h ->
  forall a, settled s a -> le (e_value (at_ s a)) (sigma a).
Proof.
  intros [U1 U2 U3 U4] h s H HA a Sa.
  apply (C79_bound Y (fun a v => le v (sigma a))) with (h := h); auto.
  constructor; auto.
Qed.

(** ** C80: without circular attributes, a demand gives the value of the attribute *)
Section NoCycles.
Context {V : Type} (Y : system V).

Theorem C80_value : plain Y ->
  forall h1 h2 s, history Y (h1 ++ h2) s -> only_assigns h1 -> only_demands h2 ->
  forall a v, (exists n s', get Y n a s = Done v s') <-> value_of Y (assigned s) a v.
Proof.
  intros HP h1 h2 s H OA OD a v.
  destruct (demands_sound Y HP h1 h2 s H OA OD) as (SO & NP).
  assert (HC : forall x, in_progress s x -> clos_trans nat (needs Y (assigned s)) x a).
  { intros x Hx. now apply NP in Hx. }
  split.
  - intros (n & s' & E). pose proof (get_good Y (assigned s) HP n a s SO HC) as X. rewrite E in X.
    apply X.
  - intros VV. exact (get_complete Y (assigned s) HP a v VV s SO HC).
Qed.

Theorem C80_cycle : plain Y ->
  forall h1 h2 s, history Y (h1 ++ h2) s -> only_assigns h1 -> only_demands h2 ->
  forall n a s', get Y n a s = Throws Cyclic s' ->
  (exists x, clos_refl_trans nat (needs Y (assigned s)) a x /\
             clos_trans nat (needs Y (assigned s)) x x) /\
  forall v, ~ value_of Y (assigned s) a v.
Proof.
  intros HP h1 h2 s H OA OD n a s' E.
  destruct (demands_sound Y HP h1 h2 s H OA OD) as (SO & NP).
  assert (HC : forall x, in_progress s x -> clos_trans nat (needs Y (assigned s)) x a).
  { intros x Hx. now apply NP in Hx. }
  split.
  - pose proof (get_good Y (assigned s) HP n a s SO HC) as X. rewrite E in X.
    destruct X as (x & X1 & X2). exists x. auto.
  - intros v VV. destruct (get_complete Y (assigned s) HP a v VV s SO HC) as (m & s1 & E1).
    assert (Q1 : get Y (max n m) a s = Throws Cyclic s').
    { rewrite <- E. apply get_fuel; [exact HP|lia|congruence]. }
    assert (Q2 : get Y (max n m) a s = Done v s1).
    { rewrite <- E1. apply get_fuel; [exact HP|lia|congruence]. }
    congruence.
Qed.

(** Nor does the evaluator throw anything else, unless a program does. *)
Theorem C80_exceptions : plain Y ->
  forall h1 h2 s, history Y (h1 ++ h2) s -> only_assigns h1 -> only_demands h2 ->
  forall n a e s', get Y n a s = Throws e s' -> e = Cyclic \/ e = Failed.
Proof.
  intros HP h1 h2 s H OA OD n a e s' E.
  destruct (demands_sound Y HP h1 h2 s H OA OD) as (SO & NP).
  assert (HC : forall x, in_progress s x -> clos_trans nat (needs Y (assigned s)) x a).
  { intros x Hx. now apply NP in Hx. }
  pose proof (get_good Y (assigned s) HP n a s SO HC) as X. rewrite E in X.
  destruct e; simpl in X; tauto.
Qed.
End NoCycles.

(** ** C81: no demand gives [null] (partial: if all circular attributes are
    collections) *)
Theorem C81_null_partial {V} (Y : system V) :
  (forall a, s_circular Y a = true -> s_initial Y a <> None) ->
  (forall a, s_circular Y a = true -> s_default Y a <> s_null Y) ->
  (forall a w, s_initial Y a = Some w -> w <> s_null Y) ->
  (forall a L v, runs (s_compute Y a) L v ->
     (forall b w, In (b, w) L -> w <> s_null Y) -> v <> s_null Y) ->
  (forall a old v, old <> s_null Y -> v <> s_null Y -> s_combine Y a old v <> s_null Y) ->
  forall h s, history Y h s -> (forall a v, In (Assign a v) h -> v <> s_null Y) ->
  forall a v s', step Y s (Demand a v) s' -> v <> s_null Y.
Proof.
  intros H1 H2 H3 H4 H5 h s H HA a v s' S.
  assert (H' : history Y (h ++ [Demand a v]) s') by (econstructor; eauto).
  destruct (C77_demand Y h s a v s' H S) as (X1 & X2 & _). rewrite <- X2.
  apply (C79_bound Y (fun _ v => v <> s_null Y)) with (h := h ++ [Demand a v]); auto.
  - constructor; auto.
    intros b K E. now apply H1 in K.
  - intros b u I. assert (u <> s_null Y).
    { apply in_app_or in I. destruct I as [I|[I|[]]]; [eauto|discriminate]. }
    destruct (s_initial Y b); auto.
Qed.

(** ** C82: an attribute that was not evaluated can be assigned (refuted for
    circular attributes that are no collections, for every history) *)
Theorem C82_refuted {V} (Y : system V) h s : history Y h s ->
  forall a v n, s_circular Y a = true -> s_initial Y a = None ->
  e_status (at_ s a) <> EVALUATED -> s_equal Y a (e_value (at_ s a)) v = false ->
  exists s', set Y (S n) a v s = Crash s'.
Proof.
  intros H a v n K SI NE EQ.
  destruct (history_rest Y anything (anything_respected Y) h s H (anything_assigned Y h))
    as (t & R & RT).
  assert (C : a_cyc t a = None).
  { destruct (a_cyc t a) eqn:Q; auto. exfalso. apply NE. rewrite (r_st _ _ _ R).
    apply (rest_cyc Y anything t RT). congruence. }
  destruct (r_none _ _ _ R a C) as (P & _).
  unfold set, set_circular. rewrite SI, K. unfold bnd at 1. unfold check. rewrite bnd_get, EQ.
  unfold in_cycle. rewrite K. cbn [in_cycle_]. unfold bnd, get_st. rewrite P. simpl. eauto.
Qed.

(** The assignments that work: for attributes that are not circular. *)
Theorem C82_assign_partial {V} (Y : system V) h s : history Y h s ->
  forall a v n, s_circular Y a = false -> e_status (at_ s a) <> EVALUATED ->
  exists s', set Y n a v s = Done tt s'.
Proof.
  intros _ a v n K NE. unfold set, set_circular. rewrite K.
  assert (P : forall w s1, e_status (at_ s1 a) <> EVALUATED ->
     exists s', set_plain (V := V) a w s1 = Done tt s').
  { intros w s1 N1. unfold set_plain. rewrite bnd_get. destruct (e_status (at_ s1 a)); try congruence;
      eexists; reflexivity. }
  destruct (s_initial Y a) as [w|] eqn:SI.
  - destruct (initialize_plain Y a s) as (s1 & E1 & _ & _ & A1). unfold bnd at 1.
    rewrite E1, bnd_get, bnd_ret. apply P. destruct A1 as [A1|(_ & A1)]; rewrite A1; congruence.
  - rewrite bnd_ret. now apply P.
Qed.

(** ** C83: an assignment that comes too late is reported (partial: if the
    attribute itself was evaluated) *)
Theorem C83_late_partial {V} (Y : system V) h s : history Y h s ->
  forall a v n, e_status (at_ s a) = EVALUATED ->
  (forall s', set Y n a v s <> Done tt s') /\
  (s_circular Y a = false -> set Y n a v s = Throws TooLate s).
Proof.
  intros H a v n E. split.
  - intros s' Q. destruct (C77_assign Y h s a v s' H) as (X & _); [econstructor; eauto|congruence].
  - intros K. unfold set, set_circular. rewrite K.
    assert (P : forall w, bnd (ret tt) (fun _ => set_plain a w) s = Throws TooLate s).
    { intros w. rewrite bnd_ret. unfold set_plain. rewrite bnd_get, E. reflexivity. }
    destruct (s_initial Y a) eqn:SI; [|apply P].
    unfold bnd at 1, initialize. rewrite SI, bnd_get, E. unfold ret at 1. rewrite bnd_get. apply P.
Qed.

(** ** C84: the order of demands does not matter (partial: no cycles were
    merged, the programs are monotone and always read the same attributes; or
    no attributes are circular) *)
Theorem C84_order_partial {V} (Y : system V) (le : V -> V -> Prop) :
  equal_sound Y -> monotone Y le -> fixed_reads Y -> least_start Y le ->
  (forall v, le v v) -> (forall u v, le u v -> le v u -> u = v) ->
  forall h1 h2 s h1' h2' s',
  history Y (h1 ++ h2) s -> only_assigns h1 -> only_demands h2 -> unmerged s ->
  history Y (h1' ++ h2') s' -> only_assigns h1' -> only_demands h2' -> unmerged s' ->
  (forall x, assigned s x = assigned s' x) ->
  forall a, settled s a -> settled s' a -> e_value (at_ s a) = e_value (at_ s' a).
Proof.
  intros HE HM HF HL HR HA h1 h2 s h1' h2' s' H OA OD U H' OA' OD' U' EA a Sa Sa'.
  apply HA.
  - apply (below Y le HE HM HF HR HL h1' h2' s' h1 h2 s); auto.
  - apply (below Y le HE HM HF HR HL h1 h2 s h1' h2' s'); auto.
Qed.

Theorem C84_plain {V} (Y : system V) : plain Y ->
  forall h1 h2 s h1' h2' s',
  history Y (h1 ++ h2) s -> only_assigns h1 -> only_demands h2 ->
  history Y (h1' ++ h2') s' -> only_assigns h1' -> only_demands h2' ->
  (forall x, assigned s x = assigned s' x) ->
  forall a, settled s a -> settled s' a -> e_value (at_ s a) = e_value (at_ s' a).
Proof.
  intros HP h1 h2 s h1' h2' s' H OA OD H' OA' OD' EA a Sa Sa'.
  destruct (demands_sound Y HP h1 h2 s H OA OD) as (SO & _).
  destruct (demands_sound Y HP h1' h2' s' H' OA' OD') as (SO' & _).
  assert (X : forall s, sound Y (assigned s) s -> settled s a -> value_of Y (assigned s) a (e_value (at_ s a))).
  { clear. intros s SO [S|S]; [now apply (so_value _ _ _ SO)|].
    apply value_known. unfold assigned. now rewrite S. }
  apply (value_det Y (assigned s) a _ (X s SO Sa)).
  assert (T : forall k k' b v, (forall x, k x = k' x) -> value_of Y k b v -> value_of Y k' b v).
  { clear. intros k k' b v E VV. induction VV as [a v Q|a L v Q RL HL IH].
    - apply value_known. now rewrite <- E.
    - eapply value_computed; eauto. now rewrite <- E. }
  apply (T (assigned s') (assigned s)); [now intros x; rewrite EA|]. now apply X.
Qed.

(** ** C85: only circular attributes depend on themselves (partial: no cycles
    were merged) *)
Theorem C85_circular_partial {V} (Y : system V) : equal_sound Y ->
  forall h1 h2 s, history Y (h1 ++ h2) s -> only_assigns h1 -> only_demands h2 -> unmerged s ->
  forall a, s_circular Y a = false -> ~ clos_trans nat (depends Y s) a a.
Proof. intros HE h1 h2 s. now apply not_on_cycle. Qed.

(** ** Concrete cases *)
Definition outcome {St A} (o : out St A) : option A :=
  match o with Done v _ => Some v | _ => None end.
Definition after {St A} (d : St) (o : out St A) : St :=
  match o with Done _ s => s | Throws _ s => s | Crash s => s | OutOfFuel => d end.
Lemma done_is {St A} (o : out St A) d v : outcome o = Some v -> o = Done v (after d o).
Proof. destruct o; simpl; congruence. Qed.

(** Demands and assignments, one after the other. *)
Fixpoint play {V} (Y : system V) (n : nat) (h : list (event V)) (s : state V) : state V :=
  match h with
  | [] => s
  | Demand a _ :: h => play Y n h (after s (get Y n a s))
  | Assign a v :: h => play Y n h (after s (set Y n a v s))
  end.
Fixpoint played {V} (Y : system V) (n : nat) (h : list (event V)) (s : state V) : Prop :=
  match h with
  | [] => True
  | Demand a v :: h => outcome (get Y n a s) = Some v /\ played Y n h (after s (get Y n a s))
  | Assign a v :: h => outcome (set Y n a v s) = Some tt /\ played Y n h (after s (set Y n a v s))
  end.
Lemma play_history {V} (Y : system V) n h2 : forall h1 s, history Y h1 s -> played Y n h2 s ->
  history Y (h1 ++ h2) (play Y n h2 s).
Proof.
  induction h2 as [|e h2 IH]; intros h1 s H P; simpl.
  - now rewrite app_nil_r.
  - change (e :: h2) with ([e] ++ h2). rewrite app_assoc.
    destruct e as [a v|a v]; destruct P as (P1 & P2); apply IH; auto;
      apply history_snoc with (s := s); auto; econstructor; now apply done_is.
Qed.
Lemma play_start {V} (Y : system V) n h : played Y n h (start Y) ->
  history Y h (play Y n h (start Y)).
Proof. apply (play_history Y n h []). constructor. Qed.

(** Numbers, with [0] as [null] and as the default. *)
Definition numbers (circ : nat -> bool) (init : nat -> option nat) (f : nat -> prog nat) : system nat :=
  mkSystem _ circ init (fun _ => 0) (fun _ => Nat.eqb) (fun _ => Nat.leb) (fun _ => Nat.add) f 0.

Lemma numbers_equal c i f : equal_sound (numbers c i f).
Proof. intros a u v E. now apply Nat.eqb_eq. Qed.

(** Four attributes: [1] and [2] are copies of [2] and [3], [3] is the maximum of
    [2] and [0], which reads [1] but always gives 1. *)
Definition four (a : nat) : prog nat :=
  match a with
  | 0 => Read 1 (fun _ => Give 1)
  | 1 => Read 2 (fun x => Give x)
  | 2 => Read 3 (fun x => Give x)
  | 3 => Read 2 (fun x => Read 0 (fun y => Give (Nat.max x y)))
  | _ => Give 0
  end.
Definition all_circular (a : nat) : bool := true.
Definition no_initial (a : nat) : option nat := None.
Definition Four : system nat := numbers all_circular no_initial four.

Ltac invert_runs :=
  repeat match goal with
  | H : runs _ _ _ |- _ => inversion H; clear H; subst
  end.

Ltac solve_le :=
  repeat match goal with |- context [match ?x with _ => _ end] => destruct x end; lia.

Lemma four_reads c i : fixed_reads (numbers c i four).
Proof.
  intros [|[|[|[|a]]]] L v L' v' R R'; cbn in R, R'; invert_runs; reflexivity.
Qed.
Lemma four_monotone c i : monotone (numbers c i four) le.
Proof.
  intros [|[|[|[|a]]]] L v L' v' R R' F; cbn in R, R'; invert_runs;
    repeat match goal with
    | F : Forall2 _ (_ :: _) _ |- _ => inversion F; clear F; subst
    | H : _ /\ _ |- _ => destruct H
    end; cbn [fst snd] in *; solve_le.
Qed.
Lemma four_least c : least_start (numbers c no_initial four) le.
Proof. constructor; intros; simpl in *; try discriminate; lia. Qed.

Lemma four_copy c i s : e_value (at_ s 1) <> e_value (at_ s 2) -> ~ equation_holds (numbers c i four) s 1.
Proof.
  intros D (L & R & H). cbn [s_compute numbers four] in R. revert D R H.
  generalize (e_value (at_ s 1)). intros u D R H.
  inversion R as [|b k w L' v R' E1 E2 E3]; subst. inversion R' as [v' E4 E5|]; subst.
  destruct (H 2 _ (or_introl eq_refl)) as (_ & E). congruence.
Qed.

(** The evaluator leaves [1] with the value 0 although it is a copy of [2],
    which has the value 1: everything is monotone, and the cycle consists of
    circular attributes. *)
Theorem C78_refuted :
  equal_sound Four /\ monotone Four le /\ fixed_reads Four /\ least_start Four le /\
  exists s, history Four [Demand 0 1] s /\
    e_status (at_ s 1) = EVALUATED /\ e_value (at_ s 1) = 0 /\ e_value (at_ s 2) = 1 /\
    ~ equation_holds Four s 1.
Proof.
  split; [apply numbers_equal|]. split; [apply four_monotone|]. split; [apply four_reads|].
  split; [apply four_least|].
  exists (play Four 20 [Demand 0 1] (start Four)).
  split; [apply play_start; vm_compute; auto|].
  split; [vm_compute; reflexivity|]. split; [vm_compute; reflexivity|].
  split; [vm_compute; reflexivity|].
  apply four_copy. vm_compute. discriminate.
Qed.

(** If [1] is demanded first, it has the value 1. *)
Theorem C84_refuted : 
  (exists s, history Four [Demand 0 1; Demand 1 0] s) /\
  (exists s, history Four [Demand 1 1; Demand 0 1] s).
Proof.
  split.
  - exists (play Four 20 [Demand 0 1; Demand 1 0] (start Four)). apply play_start. vm_compute. auto.
  - exists (play Four 20 [Demand 1 1; Demand 0 1] (start Four)). apply play_start. vm_compute. auto.
Qed.

(** Even the attribute that is demanded first: *)
Definition six (a : nat) : prog nat :=
  match a with
  | 0 => Read 5 (fun x => Read 1 (fun _ => Give (Nat.min 2 (S x))))
  | 1 => Read 2 (fun x => Give x)
  | 2 => Read 3 (fun x => Read 4 (fun y => Give (Nat.max x y)))
  | 3 => Read 2 (fun x => Read 0 (fun y => Give (Nat.max x y)))
  | 4 => Read 1 (fun x => Give x)
  | 5 => Read 0 (fun x => Give x)
  | _ => Give 0
  end.
Definition Six : system nat := numbers all_circular no_initial six.
Theorem C84_first_refuted :
  equal_sound Six /\ monotone Six le /\ fixed_reads Six /\ least_start Six le /\
  (exists s, history Six [Demand 0 1] s) /\ (exists s, history Six [Demand 1 2; Demand 0 2] s).
Proof.
  split; [apply numbers_equal|]. split.
  { intros [|[|[|[|[|[|a]]]]]] L v L' v' R R' F; cbn [s_compute numbers six Six] in R, R'; invert_runs;
      repeat match goal with
      | F : Forall2 _ (_ :: _) _ |- _ => inversion F; clear F; subst
      | H : _ /\ _ |- _ => destruct H
      end; cbn [fst snd] in *; solve_le. }
  split.
  { intros [|[|[|[|[|[|a]]]]]] L v L' v' R R'; cbn [s_compute numbers six Six] in R, R'; invert_runs; reflexivity. }
  split; [constructor; intros; simpl in *; try discriminate; lia|]. split.
  - exists (play Six 30 [Demand 0 1] (start Six)). apply play_start. vm_compute. auto.
  - exists (play Six 30 [Demand 1 2; Demand 0 2] (start Six)). apply play_start. vm_compute. auto.
Qed.

(** [1] is not circular, but depends on itself, and there is no exception. *)
Definition Mixed : system nat := numbers (fun a => negb (a =? 1)) no_initial four.
Theorem C85_refuted :
  exists s, history Mixed [Demand 0 1] s /\
    s_circular Mixed 1 = false /\ clos_trans nat (depends Mixed s) 1 1.
Proof.
  exists (play Mixed 20 [Demand 0 1] (start Mixed)).
  split; [apply play_start; vm_compute; auto|]. split; [reflexivity|].
  pose (s := play Mixed 20 [Demand 0 1] (start Mixed)).
  change (clos_trans nat (depends Mixed s) 1 1).
  assert (D1 : depends Mixed s 1 2).
  { split; [vm_compute; reflexivity|]. exists []. split; [constructor|intros c w []]. }
  assert (D2 : depends Mixed s 2 3).
  { split; [vm_compute; reflexivity|]. exists []. split; [constructor|intros c w []]. }
  assert (D3 : depends Mixed s 3 0).
  { split; [vm_compute; reflexivity|]. exists [(2, 1)]. split.
    - cbn. apply reads_later. apply reads_now.
    - intros c w [E|[]]. inversion E; subst. vm_compute. reflexivity. }
  assert (D4 : depends Mixed s 0 1).
  { split; [vm_compute; reflexivity|]. exists []. split; [constructor|intros c w []]. }
  eapply t_trans; [apply t_step; exact D1|]. eapply t_trans; [apply t_step; exact D2|].
  eapply t_trans; [apply t_step; exact D3|]. apply t_step; exact D4.
Qed.

(** A member of a cycle that was not the one where the cycle was detected is
    [null] until it is computed; here programs fail for [null]. *)
Definition checked (b : nat) (k : nat -> prog (option nat)) : prog (option nat) :=
  Read b (fun v => match v with Some x => k x | None => Fail end).
Definition two (a : nat) : prog (option nat) :=
  match a with
  | 0 => checked 1 (fun x => Give (Some x))
  | 1 => checked 0 (fun x => checked 1 (fun y => Give (Some (Nat.max x y))))
  | _ => Give (Some 0)
  end.
Definition Two : system (option nat) :=
  mkSystem _ (fun _ => true) (fun _ => None) (fun _ => Some 0)
    (fun _ x y => match x, y with Some a, Some b => a =? b | None, None => true | _, _ => false end)
    (fun _ x y => match x, y with Some a, Some b => a <=? b | None, _ => true | _, _ => false end)
    (fun _ x _ => x) two None.
Theorem C81_refuted :
  (forall a, s_default Two a <> s_null Two) /\
  (forall a (env : nat -> nat), exists L x, runs (s_compute Two a) L (Some x) /\
     forall b w, In (b, w) L -> w = Some (env b)) /\
  (exists s, get Two 20 0 (start Two) = Throws Failed s) /\
  (exists s, history Two [Demand 1 (Some 0); Demand 0 (Some 0)] s).
Proof.
  split; [discriminate|]. split; [|split].
  - intros [|[|a]] env; cbn [s_compute Two two].
    + exists [(1, Some (env 1))], (env 1). split; [constructor; constructor|].
      intros b w [E|[]]. now inversion E.
    + exists [(0, Some (env 0)); (1, Some (env 1))]. eexists. split.
      * constructor. constructor. constructor.
      * intros b w [E|[E|[]]]; now inversion E.
    + exists [], 0. split; [constructor|intros b w []].
  - eexists. vm_compute. reflexivity.
  - exists (play Two 20 [Demand 1 (Some 0); Demand 0 (Some 0)] (start Two)).
    apply play_start. vm_compute. auto.
Qed.

(** The assignment of [0] comes after it was used. *)
Definition copy (a : nat) : prog nat := match a with 1 => Read 0 (fun x => Give x) | _ => Fail end.
Definition Copy : system nat := numbers (fun _ => false) no_initial copy.
Lemma copy_differs s : e_value (at_ s 1) <> e_value (at_ s 0) -> ~ equation_holds Copy s 1.
Proof.
  intros D (L & R & H). cbn [s_compute Copy numbers copy] in R. revert D R H.
  generalize (e_value (at_ s 1)). intros u D R H.
  inversion R as [|b k w L' v R' E1 E2 E3]; subst. inversion R' as [v' E4 E5|]; subst.
  destruct (H 0 _ (or_introl eq_refl)) as (_ & E). congruence.
Qed.
Theorem C83_refuted :
  exists s, history Copy [Assign 0 5; Demand 1 5; Assign 0 7] s /\
    e_status (at_ s 1) = EVALUATED /\ ~ equation_holds Copy s 1.
Proof.
  exists (play Copy 20 [Assign 0 5; Demand 1 5; Assign 0 7] (start Copy)).
  split; [apply play_start; vm_compute; auto|]. split; [vm_compute; reflexivity|].
  apply copy_differs. vm_compute. discriminate.
Qed.

(** *** The hypotheses of the theorems are met *)
(** C76, C77, C78, C79, C84, C85: a cycle of circular attributes. *)
Definition ring (a : nat) : prog nat :=
  match a with
  | 0 => Read 1 (fun x => Read 3 (fun y => Give (Nat.max x y)))
  | 1 => Read 2 (fun x => Give x)
  | 2 => Read 0 (fun x => Give (Nat.min 4 (S x)))
  | _ => Fail
  end.
Definition Ring : system nat := numbers (fun a => a <? 3) no_initial ring.
Definition ring_life := [Assign 3 2; Demand 2 4; Demand 0 4; Demand 2 4].
Definition ring_end := play Ring 30 ring_life (start Ring).
Example ring_history : history Ring ring_life ring_end.
Proof. apply play_start. vm_compute. auto. Qed.
Example ring_unmerged : unmerged ring_end.
Proof.
  intros a h. unfold ring_end. destruct a as [|[|[|[|a]]]]; vm_compute; intros E; inversion E; discriminate.
Qed.
Example ring_settled : e_status (at_ ring_end 0) = EVALUATED /\ e_status (at_ ring_end 1) = EVALUATED /\
  e_status (at_ ring_end 2) = EVALUATED /\ e_status (at_ ring_end 3) = ASSIGNED /\
  e_value (at_ ring_end 1) = 4.
Proof. vm_compute. auto. Qed.
Example ring_equation : equation_holds Ring ring_end 1.
Proof.
  apply (C78_equations_partial Ring (numbers_equal _ _ _) [Assign 3 2] [Demand 2 4; Demand 0 4; Demand 2 4]).
  - exact ring_history.
  - intros e [<-|[]]. eauto.
  - intros e [<-|[<-|[<-|[]]]]; eauto.
  - exact ring_unmerged.
  - vm_compute. reflexivity.
Qed.
Example ring_upper : upper Ring le (fun _ => 4).
Proof.
  constructor.
  - intros [|[|[|a]]] L v R H; cbn [s_compute numbers ring Ring] in R; invert_runs;
      repeat match goal with H : forall b w, In (b, w) _ -> _ |- _ =>
        first [ pose proof (H _ _ (or_introl eq_refl)); pose proof (H _ _ (or_intror (or_introl eq_refl))); clear H
              | pose proof (H _ _ (or_introl eq_refl)); clear H ] end; solve_le.
  - intros; simpl; lia.
  - intros a v E. discriminate.
  - intros; simpl; lia.
Qed.
Example ring_below : e_value (at_ ring_end 1) <= 4.
Proof.
  apply (C79_below Ring le (fun _ => 4) ring_upper ring_life).
  - exact ring_history.
  - intros a v I. simpl. destruct I as [E|[E|[E|[E|[]]]]]; inversion E; subst; simpl; lia.
  - left. vm_compute. reflexivity.
Qed.
Example ring_lives : life Ring ring_end /\ exists v s', get Ring 30 1 ring_end = Done v s'.
Proof.
  assert (L : forall h s, history Ring h s -> life Ring s).
  { intros h s H. induction H as [|h s e s' H IH S]; [constructor|].
    inversion S; subst; [eapply life_get|eapply life_set]; eauto. }
  split; [apply (L _ _ ring_history)|]. exists 4. eexists. vm_compute. reflexivity.
Qed.
Example ring_order : monotone Ring le /\ fixed_reads Ring /\ least_start Ring le /\
  exists s, history Ring ([Assign 3 2] ++ [Demand 0 4]) s /\ unmerged s /\
    settled s 2 /\ forall x, assigned ring_end x = assigned s x.
Proof.
  split.
  { intros [|[|[|a]]] L v L' v' R R' F; cbn [s_compute numbers ring Ring] in R, R'; invert_runs;
      repeat match goal with
      | F : Forall2 _ (_ :: _) _ |- _ => inversion F; clear F; subst
      | H : _ /\ _ |- _ => destruct H
      end; cbn [fst snd] in *; solve_le. }
  split; [intros [|[|[|a]]] L v L' v' R R'; cbn [s_compute numbers ring Ring] in R, R'; invert_runs; reflexivity|].
  split; [constructor; intros; simpl in *; try discriminate; lia|].
  exists (play Ring 30 [Assign 3 2; Demand 0 4] (start Ring)).
  split; [apply play_start; vm_compute; auto|]. split; [|split].
  - intros a h. destruct a as [|[|[|[|a]]]]; vm_compute; intros E; inversion E; discriminate.
  - left. vm_compute. reflexivity.
  - intros [|[|[|[|x]]]]; vm_compute; reflexivity.
Qed.

(** C80, C82, C83: no circular attributes; [2] and [3] need each other. *)
Definition flat (a : nat) : prog nat :=
  match a with
  | 0 => Read 1 (fun x => if x =? 0 then Read 2 (fun y => Give y) else Read 4 (fun y => Give (x + y)))
  | 2 => Read 3 (fun x => Give x)
  | 3 => Read 2 (fun x => Give x)
  | 4 => Read 1 (fun x => Give (2 * x))
  | _ => Fail
  end.
Definition Flat : system nat := numbers (fun _ => false) no_initial flat.
Definition flat_end := play Flat 20 [Assign 1 5; Demand 4 10] (start Flat).
Example flat_history : history Flat ([Assign 1 5] ++ [Demand 4 10]) flat_end.
Proof. apply play_start. vm_compute. auto. Qed.
Example flat_value : plain Flat /\ only_assigns [Assign 1 5] /\ only_demands [Demand 4 10] /\
  (exists s', get Flat 20 0 flat_end = Done 15 s') /\ value_of Flat (assigned flat_end) 0 15.
Proof.
  assert (P : plain Flat) by (intros a; reflexivity).
  assert (OA : only_assigns [Assign 1 5]) by (intros e [<-|[]]; eauto).
  assert (OD : only_demands [Demand 4 10]) by (intros e [<-|[]]; eauto).
  assert (E : exists s', get Flat 20 0 flat_end = Done 15 s') by (eexists; vm_compute; reflexivity).
  split; auto. split; auto. split; auto. split; auto.
  apply (C80_value Flat P _ _ _ flat_history OA OD). destruct E as (s' & E). eauto.
Qed.
Example flat_cycle : exists s', get Flat 20 2 flat_end = Throws Cyclic s'.
Proof. eexists. vm_compute. reflexivity. Qed.
Example flat_late : e_status (at_ flat_end 4) = EVALUATED /\ e_status (at_ flat_end 0) <> EVALUATED.
Proof. vm_compute. split; [reflexivity|discriminate]. Qed.

(** C81: circular collections. *)
Definition Coll : system (option nat) :=
  mkSystem _ (fun _ => true) (fun _ => Some (Some 0)) (fun _ => Some 0)
    (s_equal Two) (s_compare Two)
    (fun _ x y => match x, y with Some a, Some b => Some (a + b) | _, _ => None end) two None.
Example coll_hypotheses :
  (forall a w, s_initial Coll a = Some w -> w <> s_null Coll) /\
  (forall a L v, runs (s_compute Coll a) L v -> (forall b w, In (b, w) L -> w <> s_null Coll) -> v <> s_null Coll) /\
  (forall a old v, old <> s_null Coll -> v <> s_null Coll -> s_combine Coll a old v <> s_null Coll) /\
  exists s, history Coll [Demand 0 (Some 0)] s.
Proof.
  split; [|split; [|split]].
  - intros a w E. inversion E. discriminate.
  - assert (C : forall b k L v, runs (checked b k) L v -> exists x L', runs (k x) L' v).
    { intros b k L v R. inversion R as [|b' k' w L' v' R' E1 E2 E3]; subst. clear R.
      destruct w as [x|]; [eauto|]. inversion R'. }
    intros [|[|a]] L v R _; cbn [s_compute Coll two] in R.
    + apply C in R. destruct R as (x & L' & R). inversion R. discriminate.
    + apply C in R. destruct R as (x & L' & R). apply C in R. destruct R as (y & L2 & R).
      inversion R. discriminate.
    + inversion R. discriminate.
  - intros a [x|] [y|]; simpl; congruence.
  - exists (play Coll 20 [Demand 0 (Some 0)] (start Coll)). apply play_start. vm_compute. auto.
Qed.

(** C82: a circular attribute that is no collection. *)
Example ring_assign : exists s', set Ring 1 0 7 (start Ring) = Crash s'.
Proof.
  apply (C82_refuted Ring [] (start Ring)); try reflexivity; [constructor|discriminate].
Qed.

Print Assumptions C76_demand.
Print Assumptions C76_assign.
Print Assumptions C77_idle.
Print Assumptions C77_demand.
Print Assumptions C77_assign.
Print Assumptions C77_again.
Print Assumptions C78_equations_partial.
Print Assumptions C78_refuted.
Print Assumptions C79_bound.
Print Assumptions C79_below.
Print Assumptions C80_value.
Print Assumptions C80_cycle.
Print Assumptions C80_exceptions.
Print Assumptions C81_null_partial.
Print Assumptions C81_refuted.
Print Assumptions C82_refuted.
Print Assumptions C82_assign_partial.
Print Assumptions C83_late_partial.
Print Assumptions C83_refuted.
Print Assumptions C84_order_partial.
Print Assumptions C84_plain.
Print Assumptions C84_refuted.
Print Assumptions C84_first_refuted.
Print Assumptions C85_circular_partial.
Print Assumptions C85_refuted.
