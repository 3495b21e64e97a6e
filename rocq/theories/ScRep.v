(** * ScRep: [ScModel] does what the machine of [ScAbs] does. *)
From Verif Require Import Base ScModel ScAbs ScWf.

(** ** Links *)
Section Links.
Variable p : nat -> option nat.

Inductive leads : nat -> nat -> Prop :=
| leads_root l : p l = Some l -> leads l l
| leads_step a b l : p a = Some b -> a <> b -> leads b l -> leads a l.

Lemma leads_end a l : leads a l -> p l = Some l.
Proof. induction 1; auto. Qed.
Lemma leads_fun a l l' : leads a l -> leads a l' -> l = l'.
Proof.
  intros H; revert l'; induction H as [l H|a b l H N H1 IH]; intros l' H';
    inversion H'; subst; try congruence.
  rewrite H in H0; inversion H0; subst. auto.
Qed.
Lemma leads_some a l : leads a l -> exists b, p a = Some b.
Proof. inversion 1; eauto. Qed.
End Links.

Lemma leads_ext p q a l : (forall x, p x = q x) -> leads p a l -> leads q a l.
Proof.
  intros E H; induction H.
  - apply leads_root. now rewrite <- E.
  - eapply leads_step; eauto. now rewrite <- E.
Qed.

Lemma leads_compress p a l x m :
  leads p a l -> a <> l -> leads p x m -> leads (set_fun p a (Some l)) x m.
Proof.
  intros Ha N H. pose proof (leads_end _ _ _ Ha) as El.
  assert (Rl : leads (set_fun p a (Some l)) l l).
  { apply leads_root. rewrite set_fun_neq; auto. }
  induction H as [m H|x b m H N1 H1 IH].
  - destruct (Nat.eq_dec m a) as [->|D].
    + assert (l = a) by (apply (leads_fun p a l a Ha); now apply leads_root). congruence.
    + apply leads_root. now rewrite set_fun_neq.
  - destruct (Nat.eq_dec x a) as [->|D].
    + assert (l = m) as <-.
      { apply (leads_fun p a l m Ha). eapply leads_step; eauto. }
      eapply leads_step with (b := l); auto. now rewrite set_fun_eq.
    + eapply leads_step with (b := b); auto. now rewrite set_fun_neq.
Qed.

(** A root is linked to another one. *)
Lemma leads_link p r l x m :
  p r = Some r -> p l = Some l -> r <> l -> leads p x m ->
  leads (set_fun p r (Some l)) x (if m =? r then l else m).
Proof.
  intros Hr Hl N H.
  assert (Rl : leads (set_fun p r (Some l)) l l).
  { apply leads_root. rewrite set_fun_neq; auto. }
  induction H as [m H|x b m H N1 H1 IH].
  - destruct (Nat.eqb_spec m r) as [->|D].
    + eapply leads_step with (b := l); auto. now rewrite set_fun_eq.
    + apply leads_root. now rewrite set_fun_neq.
  - eapply leads_step with (b := b); auto. rewrite set_fun_neq; auto. congruence.
Qed.

(** A new link. *)
Lemma leads_new p r q x m :
  p r = None -> leads p x m -> leads (set_fun p r q) x m.
Proof.
  intros Hr H. induction H as [m H|x b m H N1 H1 IH].
  - apply leads_root. rewrite set_fun_neq; auto. congruence.
  - eapply leads_step with (b := b); auto. rewrite set_fun_neq; auto. congruence.
Qed.

(** ** Lists *)
Fixpoint chain (nx : nat -> option nat) (l : list nat) : Prop :=
  match l with
  | [] => True
  | x :: r => nx x = hd_error r /\ chain nx r
  end.

Lemma chain_ext nx nx' l :
  (forall x, In x l -> nx x = nx' x) -> chain nx l -> chain nx' l.
Proof.
  induction l as [|x r IH]; simpl; auto. intros E [H1 H2]. split.
  - rewrite <- E; auto.
  - apply IH; auto.
Qed.

Lemma chain_nth nx l i c :
  chain nx l -> nth_error l i = Some c -> nx c = nth_error l (S i).
Proof.
  revert i; induction l as [|x r IH]; intros [|i]; simpl; try discriminate.
  - intros [H _] E. inversion E; subst. destruct r; auto.
  - intros [_ H] E. apply IH; auto.
Qed.

Lemma chain_last nx l d : chain nx l -> l <> [] -> nx (last l d) = None.
Proof.
  induction l as [|x r IH]; [congruence|]. intros [H1 H2] _.
  destruct r as [|y r']; [exact H1|]. apply IH; auto. discriminate.
Qed.

Lemma in_last (l : list nat) d : l <> [] -> In (last l d) l.
Proof.
  induction l as [|x r IH]; [congruence|]. intros _.
  destruct r as [|y r']; [now left|]. right. apply IH. discriminate.
Qed.

Lemma last_app_ne (l m : list nat) d e : m <> [] -> last (l ++ m) d = last m e.
Proof.
  intros N. induction l as [|x r IH]; simpl.
  - induction m as [|y m' IHm]; [congruence|]. destruct m'; auto.
    apply IHm; discriminate.
  - destruct (r ++ m) eqn:E; auto. apply app_eq_nil in E. tauto.
Qed.

Lemma chain_app nx l m d :
  chain nx l -> chain nx m -> l <> [] -> NoDup l ->
  ~ In (last l d) m ->
  chain (set_fun nx (last l d) (hd_error m)) (l ++ m).
Proof.
  intros Hl Hm N ND Nm.
  assert (chain (set_fun nx (last l d) (hd_error m)) m) as Hm'.
  { eapply chain_ext; [|exact Hm]. intros x Hx. rewrite set_fun_neq; auto. congruence. }
  clear Hm. induction l as [|x r IH]; [congruence|].
  destruct Hl as [H1 H2]. inversion ND; subst.
  destruct r as [|y r'].
  - simpl. split; auto. now rewrite set_fun_eq.
  - change (last (x :: y :: r') d) with (last (y :: r') d) in *.
    change ((x :: y :: r') ++ m) with (x :: (y :: r') ++ m). split.
    + rewrite set_fun_neq; [exact H1|]. intros E. apply H3. rewrite E.
      apply in_last. discriminate.
    + apply IH; auto. discriminate.
Qed.

(** ** Representation *)
Section Rep.
Context {V : Type} (Y : system V).
Local Open Scope ev_scope.

Notation par s := (fun x => e_parent (at_ s x)).
Notation nxt s := (fun x => e_next (at_ s x)).
Notation hlp s := (fun x => e_helper (at_ s x)).

Record Rep (s : state V) (t : astate V) : Prop := {
  r_st : forall x, e_status (at_ s x) = a_st t x;
  r_val : forall x, e_value (at_ s x) = a_val t x;
  r_pend : pending s = a_pend t;
  r_none : forall x, a_cyc t x = None -> par s x = None /\ nxt s x = None /\ hlp s x = None;
  r_some : forall x l, a_cyc t x = Some l ->
      leads (par s) x l /\ a_cyc t l = Some l /\ s_circular Y x = true;
  r_root : forall l, a_cyc t l = Some l ->
      hlp s l = Some (mkHelper (Some (last (a_mem t l) l)) (a_mod t l)) /\
      chain (nxt s) (a_mem t l) /\ hd_error (a_mem t l) = Some l /\ NoDup (a_mem t l) /\
      forall x, In x (a_mem t l) <-> a_cyc t x = Some l;
  r_other : forall x l, a_cyc t x = Some l -> l <> x ->
      hlp s x = None \/ exists b, hlp s x = Some (mkHelper None b);
  r_merged : a_merged t = true <-> exists x h, hlp s x = Some h /\ cycleLast h = None
}.

Definition simo {A} (o : out (state V) A) (o' : out (astate V) A) : Prop :=
  match o with
  | Done v s => exists t, o' = Done v t /\ Rep s t
  | Throws e s => exists t, o' = Throws e t /\ Rep s t
  | Crash s => exists t, o' = Crash t
  | OutOfFuel => True
  end.

Lemma simo_bnd {A B} (m : M (state V) A) (m' : M (astate V) A)
      (k : A -> M (state V) B) (k' : A -> M (astate V) B) s t :
  simo (m s) (m' t) ->
  (forall v s1 t1, m s = Done v s1 -> m' t = Done v t1 -> Rep s1 t1 ->
     simo (k v s1) (k' v t1)) ->
  simo (bnd m k s) (bnd m' k' t).
Proof.
  unfold bnd. intros H1 H2. destruct (m s) as [v s1|e s1|s1|]; simpl in H1.
  - destruct H1 as (t1 & E & R). rewrite E. apply H2; auto.
  - destruct H1 as (t1 & E & R). rewrite E. simpl; eauto.
  - destruct H1 as (t1 & E). rewrite E. simpl; eauto.
  - exact I.
Qed.

Lemma rep_parent s t x l : Rep s t -> par s x = Some l -> a_cyc t x <> None.
Proof.
  intros R E N. destruct (r_none _ _ R x N) as (H & _). congruence.
Qed.

Lemma rep_own s t x : Rep s t -> (par s x = Some x <-> a_cyc t x = Some x).
Proof.
  intros R. split; intros E.
  - destruct (a_cyc t x) as [l|] eqn:C.
    + destruct (r_some _ _ R _ _ C) as (L & _).
      f_equal. eapply leads_fun; [exact L|]. now apply leads_root.
    + destruct (r_none _ _ R _ C). congruence.
  - destruct (r_some _ _ R _ _ E) as (L & _). exact (leads_end _ _ _ L).
Qed.

Lemma rep_nonempty s t l : Rep s t -> a_cyc t l = Some l -> a_mem t l <> [].
Proof.
  intros R E. destruct (r_root _ _ R _ E) as (_ & _ & H & _).
  intros N. rewrite N in H. discriminate.
Qed.

(** Path compression. *)
Lemma rep_compress s t a l :
  Rep s t -> a_cyc t a = Some l -> a <> l ->
  Rep (mkState (set_fun (at_ s) a
         (mkEvaluation (e_status (at_ s a)) (e_value (at_ s a)) (Some l)
                       (e_next (at_ s a)) (e_helper (at_ s a)))) (pending s)) t.
Proof.
  intros R C N.
  set (s' := mkState _ _).
  assert (F : forall x, at_ s' x
     = mkEvaluation (e_status (at_ s x)) (e_value (at_ s x))
         (set_fun (par s) a (Some l) x) (e_next (at_ s x)) (e_helper (at_ s x))).
  { intros x. unfold s'; simpl. unfold set_fun. destruct (Nat.eqb_spec x a) as [->|]; auto.
    now destruct (at_ s x). }
  assert (P : pending s' = pending s) by reflexivity.
  clearbody s'.
  destruct R as [R1 R2 R3 R4 R5 R6 R7 R8].
  constructor; try (intros x; rewrite F; simpl; auto; fail).
  - congruence.
  - intros x Hx. rewrite F; simpl. rewrite set_fun_neq; auto. congruence.
  - intros x m Hx. destruct (R5 x m Hx) as (L & E & K). split; [|auto].
    eapply leads_ext; [intros y; rewrite F; simpl; reflexivity|].
    apply leads_compress; auto. apply (R5 a l C).
  - intros m Hm. destruct (R6 m Hm) as (H1 & H2 & H3). rewrite F; simpl.
    split; [exact H1|]. split; [|exact H3].
    eapply chain_ext; [|exact H2]. intros x _. now rewrite F.
  - intros x m Hx D. rewrite F; simpl. eapply R7; eauto.
  - rewrite R8. split; intros (x & h & E & F'); exists x, h; rewrite F in *; auto.
Qed.

Lemma in_cycle_rep_ n : forall a s t, Rep s t ->
  match in_cycle_ n a s with
  | Done c s' => c = a_cyc t a /\ Rep s' t
  | OutOfFuel => True
  | _ => False
  end.
Proof.
  induction n as [|n IH]; intros a s t R; simpl; [exact I|].
  unfold bnd at 1, get_st at 1. simpl.
  destruct (e_parent (at_ s a)) as [p|] eqn:E.
  - destruct (a_cyc t a) as [l|] eqn:C.
    2:{ destruct (r_none _ _ R _ C); congruence. }
    destruct (r_some _ _ R _ _ C) as (L & Cl & K).
    destruct (Nat.eqb_spec p a) as [->|D].
    + unfold bnd, get_st, ret. simpl. rewrite E, Nat.eqb_refl.
      split; [|exact R]. f_equal. apply (leads_fun (par s) a); [|exact L].
      now apply leads_root.
    + assert (a <> l) as Nl.
      { intros <-. pose proof (leads_end _ _ _ L) as X. simpl in X. congruence. }
      assert (leads (par s) p l) as Lp.
      { inversion L; subst; congruence. }
      assert (a_cyc t p = Some l) as Cp.
      { destruct (a_cyc t p) as [l2|] eqn:Cp.
        - f_equal. eapply leads_fun; [|exact Lp]. now apply (r_some _ _ R).
        - destruct (r_none _ _ R _ Cp) as (X & _). destruct (leads_some _ _ _ Lp). congruence. }
      specialize (IH p s t R). unfold bnd.
      destruct (in_cycle_ n p s) as [c s1|e s1|s1|]; auto.
      destruct IH as (-> & R1). unfold get_st, ret. rewrite Cp.
      destruct (eq_ref_spec (Some l) (e_parent (at_ s1 a))) as [Q|Q].
      * auto.
      * unfold set_parent, edit, put_st. split; auto. now apply rep_compress.
  - simpl. split; [|exact R]. destruct (a_cyc t a) as [l|] eqn:C; auto.
    destruct (r_some _ _ R _ _ C) as (L & _). destruct (leads_some _ _ _ L). congruence.
Qed.

Lemma in_cycle_rep n a s t : Rep s t ->
  match in_cycle Y n a s with
  | Done c s' => c = a_cyc t a /\ Rep s' t
  | OutOfFuel => True
  | _ => False
  end.
Proof.
  intros R. unfold in_cycle. destruct (s_circular Y a) eqn:K.
  - now apply in_cycle_rep_.
  - simpl. split; [|exact R]. destruct (a_cyc t a) as [l|] eqn:C; auto.
    destruct (r_some _ _ R _ _ C) as (_ & _ & X). congruence.
Qed.

Lemma in_cycle_sim n a s t : Rep s t ->
  simo (in_cycle Y n a s) (Done (a_cyc t a) t).
Proof.
  intros R. pose proof (in_cycle_rep n a s t R) as H.
  destruct (in_cycle Y n a s); simpl; try tauto.
  destruct H as (-> & R'). eauto.
Qed.

(** Helper fields in a state given by [F]. *)
Lemma rep_view s s' t :
  Rep s t -> (forall x, at_ s' x = at_ s x) -> pending s' = pending s -> Rep s' t.
Proof.
  intros [R1 R2 R3 R4 R5 R6 R7 R8] F P.
  constructor; try (intros x; rewrite F; auto; fail).
  - congruence.
  - intros x l Hx. destruct (R5 x l Hx) as (L & E & K). split; [|auto].
    eapply leads_ext; [|exact L]. intros y. simpl. now rewrite F.
  - intros m Hm. destruct (R6 m Hm) as (H1 & H2 & H3). rewrite F.
    split; [exact H1|]. split; [|exact H3].
    eapply chain_ext; [|exact H2]. intros x _. simpl. now rewrite F.
  - intros x m Hx D. rewrite F. eapply R7; eauto.
  - rewrite R8. split; intros (x & h & E & F'); exists x, h; rewrite F in *; auto.
Qed.

Lemma rep_edit s t a f t' :
  Rep s t ->
  (forall e, e_parent (f e) = e_parent e /\ e_next (f e) = e_next e /\ e_helper (f e) = e_helper e) ->
  (forall x, e_status (set_fun (at_ s) a (f (at_ s a)) x) = a_st t' x) ->
  (forall x, e_value (set_fun (at_ s) a (f (at_ s a)) x) = a_val t' x) ->
  a_cyc t' = a_cyc t -> a_mem t' = a_mem t -> a_mod t' = a_mod t ->
  a_merged t' = a_merged t -> a_pend t' = a_pend t ->
  Rep (mkState (set_fun (at_ s) a (f (at_ s a))) (pending s)) t'.
Proof.
  intros [R1 R2 R3 R4 R5 R6 R7 R8] Hf E1 E2 E3 E4 E5 E6 E7.
  assert (F : forall x, e_parent (set_fun (at_ s) a (f (at_ s a)) x) = e_parent (at_ s x) /\
                        e_next (set_fun (at_ s) a (f (at_ s a)) x) = e_next (at_ s x) /\
                        e_helper (set_fun (at_ s) a (f (at_ s a)) x) = e_helper (at_ s x)).
  { intros x. unfold set_fun. destruct (Nat.eqb_spec x a) as [->|]; auto. }
  constructor; simpl; auto.
  - congruence.
  - intros x. destruct (F x) as (-> & -> & ->). rewrite E3. apply R4.
  - intros x l. rewrite E3. intros Hx. destruct (R5 x l Hx) as (L & E & K).
    split; [|auto]. eapply leads_ext; [|exact L]. intros y. simpl.
    now destruct (F y) as (-> & _).
  - intros l. rewrite E3, E4, E5. intros Hl. destruct (R6 l Hl) as (H1 & H2 & H3).
    destruct (F l) as (_ & _ & ->). split; [exact H1|]. split; [|exact H3].
    eapply chain_ext; [|exact H2]. intros x _. simpl. now destruct (F x) as (_ & -> & _).
  - intros x l. rewrite E3. destruct (F x) as (_ & _ & ->). apply R7.
  - rewrite E6, R8. split; intros (x & h & E & F'); exists x, h; destruct (F x) as (_ & _ & G);
      [rewrite G|rewrite G in E]; auto.
Qed.

Lemma set_status_rep s t a x :
  Rep s t -> simo (set_status a x s) (Done tt (set_st a x t)).
Proof.
  intros R. simpl. eexists; split; [reflexivity|].
  apply (rep_edit s t a (fun e => mkEvaluation x (e_value e) (e_parent e) (e_next e) (e_helper e)));
    auto; intros y; simpl; unfold set_fun; destruct (Nat.eqb_spec y a) as [->|]; simpl; auto;
    try apply R.
Qed.

Lemma set_value_rep s t a v :
  Rep s t -> simo (set_value a v s) (Done tt (set_val a v t)).
Proof.
  intros R. simpl. eexists; split; [reflexivity|].
  apply (rep_edit s t a (fun e => mkEvaluation (e_status e) v (e_parent e) (e_next e) (e_helper e)));
    auto; intros y; simpl; unfold set_fun; destruct (Nat.eqb_spec y a) as [->|]; simpl; auto;
    try apply R.
Qed.

Lemma rep_pend s t l : Rep s t -> Rep (mkState (at_ s) l) (w_pend l t).
Proof. intros [R1 R2 R3 R4 R5 R6 R7 R8]. constructor; simpl; auto. Qed.

Lemma push_rep s t a : Rep s t -> simo (push a s) (a_push a t).
Proof.
  intros R. unfold push, a_push, put_st. simpl. eexists; split; [reflexivity|].
  rewrite (r_pend _ _ R). now apply rep_pend.
Qed.

Lemma pop_rep s t : Rep s t -> simo (pop s) (a_pop t).
Proof.
  intros R. unfold pop, a_pop. rewrite <- (r_pend _ _ R).
  destruct (pending s); simpl; eauto. eexists; split; [reflexivity|]. now apply rep_pend.
Qed.

(** The flag of a cycle. *)
Lemma set_mod_rep s t l b h :
  Rep s t -> a_cyc t l = Some l -> hlp s l = Some h ->
  simo (set_helper l (mkHelper (cycleLast h) b) s) (Done tt (set_mod l b t)).
Proof.
  intros R C H. simpl. eexists; split; [reflexivity|].
  destruct R as [R1 R2 R3 R4 R5 R6 R7 R8].
  set (s' := mkState _ _).
  assert (F : forall x, at_ s' x = mkEvaluation (e_status (at_ s x)) (e_value (at_ s x))
      (e_parent (at_ s x)) (e_next (at_ s x))
      (if x =? l then Some (mkHelper (cycleLast h) b) else e_helper (at_ s x))).
  { intros x. unfold s'; simpl. unfold set_fun. destruct (Nat.eqb_spec x l) as [->|]; auto.
    now destruct (at_ s x). }
  assert (P : pending s' = pending s) by reflexivity.
  clearbody s'.
  destruct (R6 l C) as (Hl & _). simpl in H, Hl. rewrite H in Hl. inversion Hl; subst h; clear Hl.
  simpl in *.
  constructor; try (intros x; rewrite F; simpl; auto; fail).
  - simpl; congruence.
  - intros x Hx. rewrite F; simpl. destruct (Nat.eqb_spec x l) as [->|]; [|auto].
    simpl in Hx. congruence.
  - intros x m Hx. destruct (R5 x m Hx) as (L & E & K). split; [|auto].
    eapply leads_ext; [|exact L]. intros y. simpl. now rewrite F.
  - intros m Hm. destruct (R6 m Hm) as (H1 & H2 & H3). rewrite F. simpl.
    split; [|split; [|exact H3]].
    + unfold set_fun. destruct (Nat.eqb_spec m l) as [->|]; auto.
    + eapply chain_ext; [|exact H2]. intros x _. now rewrite F.
  - intros x m Hx D. rewrite F; simpl. destruct (Nat.eqb_spec x l) as [->|]; [|eapply R7; eauto].
    simpl in Hx. congruence.
  - simpl. rewrite R8. split; intros (x & h & E & F'); exists x, h; rewrite F in *; simpl in *;
      split; auto; destruct (Nat.eqb_spec x l) as [->|]; auto;
      [rewrite H in E|]; inversion E; subst h; discriminate.
Qed.

(** ** Joining *)
Lemma join_rep n s t e l :
  Rep s t -> a_cyc t l = Some l -> a_cyc t e <> Some l ->
  simo (set_in_cycle Y n e l s) (a_join Y e l t).
Proof.
  intros R Cl Ne. unfold set_in_cycle, a_join.
  destruct (s_circular Y e) eqn:K.
  2:{ simpl. eauto. }
  unfold bnd at 1, get_st at 1. unfold bnd at 4, get_st at 1.
  destruct (a_cyc t e) as [p|] eqn:C.
  - (* merged *)
    destruct (r_some _ _ R _ _ C) as (L & Cp & _).
    destruct (leads_some _ _ _ L) as (b & Eb). simpl in Eb. rewrite Eb. clear Eb.
    assert (N : p <> l) by congruence. clear L Ne.
    unfold bnd at 1. pose proof (in_cycle_rep n e s t R) as H.
    destruct (in_cycle Y n e s) as [c s1|x s1|s1|]; try contradiction; [|exact I].
    destruct H as (-> & R1). rewrite C. clear s R. rename s1 into s, R1 into R.
    destruct (r_root _ _ R _ Cl) as (Hl & CHl & HDl & NDl & Il).
    destruct (r_root _ _ R _ Cp) as (Hp & CHp & HDp & NDp & Ip).
    pose proof (rep_nonempty _ _ _ R Cl) as NEl.
    pose proof (rep_nonempty _ _ _ R Cp) as NEp.
    simpl in Hl, Hp.
    assert (NX : e_next (at_ s (last (a_mem t l) l)) = None).
    { apply (chain_last (nxt s)); auto. }
    cbv beta iota delta [helper_add_all bnd get_st not_null ret assert_]. rewrite Hl, C.
    destruct (Nat.eqb_spec p l) as [|_]; [congruence|].
    rewrite Hp. cbn [cycleLast]. rewrite NX. cbn [eq_ref].
    unfold set_next, set_helper, set_parent, edit, put_st. simpl.
    eexists; split; [reflexivity|].
    set (ll := last (a_mem t l) l) in *. set (lp := last (a_mem t p) p) in *.
    assert (Ill : a_cyc t ll = Some l) by (apply Il; apply in_last; auto).
    set (s' := mkState _ _).
    assert (F : forall x, at_ s' x = mkEvaluation (e_status (at_ s x)) (e_value (at_ s x))
        (set_fun (par s) p (Some l) x) (set_fun (nxt s) ll (Some p) x)
        (if x =? p then Some (mkHelper None (a_mod t p))
         else if x =? l then Some (mkHelper (Some lp) (if a_mod t p then true else a_mod t l))
         else e_helper (at_ s x))).
    { intros x. unfold s'; simpl. unfold set_fun. rewrite Nat.eqb_refl.
      destruct (Nat.eqb_spec x p) as [->|Dp]; simpl.
      - destruct (Nat.eqb_spec p l); [congruence|]. simpl.
        destruct (Nat.eqb_spec p ll) as [E|]; [|now destruct (at_ s p)].
        congruence.
      - destruct (Nat.eqb_spec x l) as [->|Dl]; simpl.
        + destruct (Nat.eqb_spec l ll) as [E|]; simpl; auto.
          rewrite <- E; auto.
        + destruct (Nat.eqb_spec x ll) as [->|]; simpl; auto. now destruct (at_ s x). }
    assert (P : pending s' = pending s) by reflexivity.
    clearbody s'.
    destruct R as [R1 R2 R3 R4 R5 R6 R7 R8].
    assert (Q : forall x, inb x (a_mem t p) = true <-> a_cyc t x = Some p).
    { intros x. rewrite <- Ip. destruct (inb_spec x (a_mem t p)); split; congruence. }
    assert (Q' : forall x m, (if inb x (a_mem t p) then Some l else a_cyc t x) = Some m <->
       (a_cyc t x = Some p /\ m = l) \/ (a_cyc t x = Some m /\ m <> p)).
    { intros x m. destruct (inb x (a_mem t p)) eqn:Ex.
      - apply Q in Ex. rewrite Ex. split; [intros [= <-]; now left|].
        intros [(_ & ->)|(G & D)]; congruence.
      - split; [|intros [(G & ->)|(G & D)]; auto].
        + intros G. right. split; auto. intros ->. apply Q in G. congruence.
        + apply Q in G. congruence. }
    unfold merge. constructor; simpl.
    + intros x; rewrite F; simpl; auto.
    + intros x; rewrite F; simpl; auto.
    + congruence.
    + intros x Hx. assert (Nx : a_cyc t x = None).
      { destruct (inb x (a_mem t p)); [discriminate|exact Hx]. }
      rewrite F; simpl.
      assert (x <> p /\ x <> l /\ x <> ll) as (D1 & D2 & D3).
      { repeat split; congruence. }
      rewrite !set_fun_neq by auto.
      destruct (Nat.eqb_spec x p); [congruence|]. destruct (Nat.eqb_spec x l); [congruence|].
      now apply R4.
    + intros x m Hx. apply Q' in Hx.
      assert (Lx : forall m0, leads (par s) x m0 ->
                leads (fun y => e_parent (at_ s' y)) x (if m0 =? p then l else m0)).
      { intros m0 L. eapply leads_ext.
        2:{ apply (leads_link (par s) p l); [| |exact N|exact L].
            - apply (leads_end (par s) p p). apply (R5 p p Cp).
            - apply (leads_end (par s) l l). apply (R5 l l Cl). }
        intros y. simpl. now rewrite F. }
      destruct Hx as [(Hx & ->)|(Hx & D)]; destruct (R5 _ _ Hx) as (L & E & Kx);
        apply Lx in L.
      * rewrite Nat.eqb_refl in L. split; [exact L|]. split; [|exact Kx].
        apply Q'. right. auto.
      * destruct (Nat.eqb_spec m p); [congruence|]. split; [exact L|]. split; [|exact Kx].
        apply Q'. right. auto.
    + intros m Hm. apply Q' in Hm. destruct Hm as [(Hm & ->)|(Hm & D)]; [congruence|].
      rewrite F; simpl. destruct (Nat.eqb_spec m p) as [->|_]; [congruence|].
      assert (DJ : forall x, In x (a_mem t l) -> ~ In x (a_mem t p)).
      { intros x H1 H2. apply Il in H1. apply Ip in H2. congruence. }
      destruct (Nat.eqb_spec m l) as [->|Dl].
      * rewrite !set_fun_eq. split; [|split; [|split; [|split]]].
        -- f_equal. f_equal. f_equal. symmetry. unfold lp. apply last_app_ne; auto.
        -- eapply chain_ext; [|apply (chain_app (nxt s) (a_mem t l) (a_mem t p) l); auto].
           ++ intros x _. rewrite F; simpl. rewrite HDp. reflexivity.
           ++ intros H. apply Ip in H. fold ll in H. congruence.
        -- destruct (a_mem t l); [congruence|exact HDl].
        -- clear - NDl NDp DJ. induction (a_mem t l) as [|x r IH]; simpl; auto.
           inversion NDl; subst. constructor.
           ++ rewrite in_app_iff. intros [G|G]; [auto|]. apply (DJ x); simpl; auto.
           ++ apply IH; auto. intros y G. apply DJ. simpl; auto.
        -- intros x. rewrite in_app_iff, Il, Ip, Q'. split.
           ++ intros [G|G]; [right; split; auto|left; auto].
           ++ intros [(G & _)|(G & _)]; auto.
      * rewrite ?(set_fun_neq (a_mem t) l _ m Dl), ?(set_fun_neq (a_mod t) l _ m Dl).
        destruct (R6 m Hm) as (H1 & H2 & H3 & H4 & H5). split; [|split; [|split; [|split]]]; auto.
        -- eapply chain_ext; [|exact H2]. intros x Hx. rewrite F; simpl.
           rewrite set_fun_neq; auto. intros ->. apply H5 in Hx. congruence.
        -- intros x. rewrite H5, Q'. split; [intros G; right; auto|].
           intros [(G & ->)|(G & _)]; congruence.
    + intros x m Hx Dx. apply Q' in Hx. rewrite F; simpl.
      destruct (Nat.eqb_spec x p) as [->|Dp]; [right; eauto|].
      destruct (Nat.eqb_spec x l) as [->|Dl].
      * destruct Hx as [(Hx & ->)|(Hx & _)]; congruence.
      * destruct Hx as [(Hx & ->)|(Hx & _)]; eapply R7; eauto.
    + split; auto. intros _. exists p, (mkHelper None (a_mod t p)). rewrite F; simpl.
      rewrite Nat.eqb_refl. auto.
  - (* joined *)
    destruct (r_none _ _ R _ C) as (Ep & En & Eh). simpl in Ep, En, Eh. rewrite Ep.
    assert (N : e <> l) by congruence.
    destruct (r_root _ _ R _ Cl) as (Hl & CHl & HDl & NDl & Il). simpl in Hl.
    pose proof (rep_nonempty _ _ _ R Cl) as NEl.
    set (ll := last (a_mem t l) l) in *.
    assert (Ill : a_cyc t ll = Some l) by (apply Il; apply in_last; auto).
    assert (Dll : e <> ll) by congruence.
    unfold helper_add, set_parent, edit.
    unfold bnd at 1, put_st at 1.
    unfold bnd at 1, get_st at 1. cbn [at_]. rewrite set_fun_neq by auto. rewrite Hl.
    unfold bnd at 1, not_null at 1, ret at 1.
    unfold bnd at 1, not_null at 1, ret at 1. cbn [cycleLast].
    unfold bnd at 1, get_st at 1. cbn [at_]. rewrite set_fun_eq. cbn [e_next]. rewrite En.
    unfold bnd at 1, assert_ at 1, eq_ref, ret at 1.
    unfold bnd, set_next, set_helper, set_parent, edit, put_st. simpl.
    rewrite C. eexists; split; [reflexivity|].
    set (s' := mkState _ _).
    assert (F : forall x, at_ s' x = mkEvaluation (e_status (at_ s x)) (e_value (at_ s x))
        (set_fun (par s) e (Some l) x) (set_fun (nxt s) ll (Some e) x)
        (if x =? l then Some (mkHelper (Some e) (a_mod t l)) else e_helper (at_ s x))).
    { intros x. unfold s'; simpl. unfold set_fun.
      destruct (Nat.eqb_spec x l) as [->|Dl]; simpl.
      - destruct (Nat.eqb_spec l ll) as [E|]; simpl.
        + rewrite <- E. destruct (Nat.eqb_spec l e); [congruence|]. reflexivity.
        + destruct (Nat.eqb_spec l e); [congruence|]. reflexivity.
      - destruct (Nat.eqb_spec x ll) as [->|]; simpl.
        + destruct (Nat.eqb_spec ll e); [congruence|]. reflexivity.
        + destruct (Nat.eqb_spec x e) as [->|]; [now rewrite En|]. now destruct (at_ s x). }
    assert (P : pending s' = pending s) by reflexivity.
    clearbody s'.
    destruct R as [R1 R2 R3 R4 R5 R6 R7 R8].
    unfold join. constructor; simpl.
    + intros x; rewrite F; simpl; auto.
    + intros x; rewrite F; simpl; auto.
    + congruence.
    + intros x Hx. rewrite F; simpl. unfold set_fun in Hx.
      destruct (Nat.eqb_spec x e) as [|D1]; [discriminate|].
      assert (x <> l /\ x <> ll) as (D2 & D3) by (split; congruence).
      rewrite !set_fun_neq by auto. destruct (Nat.eqb_spec x l); [congruence|]. now apply R4.
    + intros x m Hx. rewrite (set_fun_neq (a_cyc t) e (Some l) m).
      2:{ intros ->. unfold set_fun in Hx. destruct (x =? e); [congruence|].
          destruct (R5 _ _ Hx) as (_ & X & _). congruence. }
      unfold set_fun in Hx. destruct (Nat.eqb_spec x e) as [->|D1].
      * inversion Hx; subst m. split; [|auto].
        eapply leads_step with (b := l); [rewrite F; simpl; apply set_fun_eq|auto|].
        apply leads_root. rewrite F; simpl. rewrite set_fun_neq by auto.
        apply (leads_end (par s) l l). apply (R5 l l Cl).
      * destruct (R5 _ _ Hx) as (L & E & Kx). split; [|auto].
        eapply leads_ext; [|apply (leads_new (par s) e (Some l)); [exact Ep|exact L]].
        intros y. simpl. now rewrite F.
    + intros m Hm. unfold set_fun in Hm. destruct (Nat.eqb_spec m e) as [E1|Dm]; [congruence|].
      rewrite F; simpl.
      destruct (Nat.eqb_spec m l) as [->|Dl].
      * rewrite !set_fun_eq. split; [|split; [|split; [|split]]].
        -- f_equal. f_equal. f_equal. symmetry. apply (last_app_ne (a_mem t l) [e] l e). discriminate.
        -- eapply chain_ext; [|apply (chain_app (nxt s) (a_mem t l) [e] l); auto].
           ++ intros x _. rewrite F; simpl. reflexivity.
           ++ simpl. auto.
           ++ simpl. fold ll. intros [G|[]]. congruence.
        -- destruct (a_mem t l); [congruence|exact HDl].
        -- assert (~ In e (a_mem t l)) as G by (rewrite Il; congruence).
           clear - NDl G. induction (a_mem t l) as [|x r IH]; simpl.
           ++ constructor; auto.
           ++ inversion NDl; subst. simpl in G. constructor; [|apply IH; auto].
              rewrite in_app_iff. simpl. intros [X|[X|[]]]; auto.
        -- intros x. rewrite in_app_iff, Il. simpl. unfold set_fun.
           destruct (Nat.eqb_spec x e) as [->|]; split; auto.
           intros [G|[G|[]]]; congruence.
      * rewrite ?(set_fun_neq (a_mem t) l _ m Dl), ?(set_fun_neq (a_mod t) l _ m Dl).
        destruct (R6 m Hm) as (H1 & H2 & H3 & H4 & H5). split; [|split; [|split; [|split]]]; auto.
        -- eapply chain_ext; [|exact H2]. intros x Hx. rewrite F; simpl.
           rewrite set_fun_neq; auto. intros ->. apply H5 in Hx. congruence.
        -- intros x. rewrite H5. unfold set_fun. destruct (Nat.eqb_spec x e) as [->|]; split; congruence.
    + intros x m Hx Dx. rewrite F; simpl. unfold set_fun in Hx.
      destruct (Nat.eqb_spec x e) as [->|D1].
      * left. destruct (Nat.eqb_spec e l); [congruence|]. exact Eh.
      * destruct (Nat.eqb_spec x l) as [->|D2]; [congruence|]. eapply R7; eauto.
    + rewrite R8. split; intros (x & h & E & F'); exists x, h; rewrite F in *; simpl in *;
        split; auto; destruct (Nat.eqb_spec x l) as [->|]; auto.
      * rewrite Hl in E. inversion E; subst h. discriminate.
      * inversion E; subst h. discriminate.
Qed.

Lemma bnd_in_cycle {B} n a s t (k : option nat -> M (state V) B) (o' : out (astate V) B) :
  Rep s t -> (forall s1, Rep s1 t -> simo (k (a_cyc t a) s1) o') ->
  simo (bnd (in_cycle Y n a) k s) o'.
Proof.
  intros R H. unfold bnd. pose proof (in_cycle_rep n a s t R) as H1.
  destruct (in_cycle Y n a s) as [c s1|x s1|s1|]; try contradiction; [|exact I].
  destruct H1 as (-> & R1). auto.
Qed.

Lemma mark_rep n l : forall c s t,
  Rep s t -> a_cyc t c = Some c -> simo (mark_loop Y n c l s) (a_mark Y c l t).
Proof.
  induction l as [|e l IH]; intros c s t R C; simpl.
  - eauto.
  - rewrite bnd_get. apply (bnd_in_cycle n e s t); auto. intros s1 R1.
    destruct (eq_ref_spec (a_cyc t e) (Some c)) as [E|E]; [simpl; eauto|].
    apply simo_bnd.
    + apply join_rep; auto.
    + intros [] s2 t2 _ E2 R2. apply IH; auto. eapply root_stays; eauto.
Qed.

Lemma new_cycle_rep s t a :
  Rep s t -> a_cyc t a = None -> s_circular Y a = true ->
  simo ((set_value a (s_default Y a) ;;; set_helper a (mkHelper (Some a) false) ;;;
         set_parent a (Some a)) s) (Done tt (new_cycle Y a t)).
Proof.
  intros R C K. destruct (r_none _ _ R _ C) as (Ep & En & Eh). simpl in Ep, En, Eh.
  unfold bnd, set_value, set_helper, set_parent, edit, put_st. simpl.
  eexists; split; [reflexivity|].
  set (s' := mkState _ _).
  assert (F : forall x, at_ s' x = mkEvaluation (e_status (at_ s x))
      (set_fun (fun x => e_value (at_ s x)) a (s_default Y a) x)
      (set_fun (par s) a (Some a) x) (e_next (at_ s x))
      (set_fun (hlp s) a (Some (mkHelper (Some a) false)) x)).
  { intros x. unfold s'; simpl. unfold set_fun. rewrite Nat.eqb_refl. simpl.
    destruct (Nat.eqb_spec x a) as [->|]; auto. now destruct (at_ s x). }
  assert (P : pending s' = pending s) by reflexivity.
  clearbody s'.
  assert (OT : forall x l, a_cyc t x = Some l -> x <> a /\ l <> a).
  { intros x l Hx. destruct (r_some _ _ R _ _ Hx) as (_ & X & _). split; congruence. }
  destruct R as [R1 R2 R3 R4 R5 R6 R7 R8].
  constructor; simpl.
  - intros x; rewrite F; simpl; auto.
  - intros x; rewrite F; simpl. unfold set_fun. now destruct (x =? a).
  - congruence.
  - intros x Hx. rewrite F; simpl. unfold set_fun in *.
    destruct (x =? a); [discriminate|]. now apply R4.
  - intros x l Hx. unfold set_fun in Hx. destruct (Nat.eqb_spec x a) as [E1|D1].
    + inversion Hx; subst l. subst x. rewrite set_fun_eq. repeat split; auto.
      apply leads_root. rewrite F; simpl. apply set_fun_eq.
    + destruct (OT _ _ Hx) as (_ & D2). rewrite set_fun_neq by auto.
      destruct (R5 _ _ Hx) as (L & E & Kx). split; [|auto].
      eapply leads_ext; [|apply (leads_new (par s) a (Some a)); [exact Ep|exact L]].
      intros y. simpl. now rewrite F.
  - intros l Hl. unfold set_fun in Hl. destruct (Nat.eqb_spec l a) as [E1|D1].
    + subst l. rewrite F; simpl. rewrite !set_fun_eq. simpl. repeat split; auto.
      * rewrite F; simpl. exact En.
      * constructor; auto. constructor.
      * intros [<-|[]]. apply set_fun_eq.
      * unfold set_fun. destruct (Nat.eqb_spec x a); auto. intros H.
        destruct (OT _ _ H). congruence.
    + destruct (R6 l Hl) as (H1 & H2 & H3 & H4 & H5).
      rewrite F; simpl. rewrite (set_fun_neq (a_mem t) a _ l D1),
        (set_fun_neq (a_mod t) a _ l D1), (set_fun_neq (hlp s) a _ l D1).
      repeat split; auto.
      * eapply chain_ext; [|exact H2]. intros x _. simpl. now rewrite F.
      * intros Hx. apply H5 in Hx. rewrite set_fun_neq; auto. apply (OT _ _ Hx).
      * intros Hx. apply H5. unfold set_fun in Hx. destruct (x =? a); congruence.
  - intros x l Hx D. rewrite F; simpl. unfold set_fun in *.
    destruct (Nat.eqb_spec x a) as [E1|D1]; [congruence|]. eapply R7; eauto.
  - rewrite R8. split; intros (x & h & E & F'); exists x, h; rewrite F in *; simpl in *;
      split; auto; unfold set_fun in *; destruct (Nat.eqb_spec x a) as [E1|]; auto.
    + subst x. congruence.
    + inversion E; subst h. discriminate.
Qed.

Lemma get_st_rep {A} (f : state V -> A) (f' : astate V -> A) s t :
  f s = f' t -> Rep s t -> simo (get_st f s) (get_st f' t).
Proof. intros E R. unfold get_st; simpl. rewrite E. eauto. Qed.

Lemma detected_rep n a s t :
  Rep s t -> simo (detected_cycle Y n a s) (a_detected Y a t).
Proof.
  intros R. unfold detected_cycle, a_detected.
  destruct (s_circular Y a) eqn:K; [|simpl; eauto].
  rewrite !bnd_get.
  assert (Q : simo (match e_parent (at_ s a) with
       | Some _ => ret tt
       | None => set_value a (s_default Y a) ;;; set_helper a (mkHelper (Some a) false) ;;;
                 set_parent a (Some a) end s)
       (match a_cyc t a with Some _ => ret tt | None => put_st (new_cycle Y a) end t)).
  { destruct (a_cyc t a) as [l|] eqn:C.
    - destruct (r_some _ _ R _ _ C) as (L & _). destruct (leads_some _ _ _ L) as (b & E).
      simpl in E. rewrite E. simpl. eauto.
    - destruct (r_none _ _ R _ C) as (E & _). simpl in E. rewrite E.
      apply new_cycle_rep; auto. }
  apply simo_bnd; [exact Q|].
  intros [] s1 t1 _ E1 R1.
  assert (C1 : exists l, a_cyc t1 a = Some l).
  { destruct (a_cyc t a) as [l|] eqn:C; inversion E1; subst t1; eauto.
    exists a. simpl. apply set_fun_eq. }
  destruct C1 as (l & C1).
  apply simo_bnd.
  - unfold mark_pending, a_mark_pending. rewrite bnd_get.
    apply (bnd_in_cycle n a s1 t1); auto. intros s2 R2. rewrite C1.
    unfold not_null. rewrite bnd_ret, !bnd_get. rewrite (r_pend _ _ R2).
    apply mark_rep; auto.
    now destruct (r_some _ _ R1 _ _ C1) as (_ & X & _).
  - intros [] s2 t2 _ _ R2. apply get_st_rep; auto. apply (r_val _ _ R2).
Qed.

Lemma check_rep n c v s t : Rep s t -> simo (check Y n c v s) (a_check Y c v t).
Proof.
  intros R. unfold check, a_check. rewrite !bnd_get. rewrite (r_val _ _ R).
  destruct (s_equal Y c (a_val t c) v); [simpl; eauto|].
  rewrite bnd_get. apply (bnd_in_cycle n c s t); auto. intros s1 R1.
  destruct (a_cyc t c) as [l|] eqn:C.
  2:{ simpl. eauto. }
  assert (Cl : a_cyc t l = Some l) by now destruct (r_some _ _ R1 _ _ C) as (_ & X & _).
  destruct (r_root _ _ R1 _ Cl) as (H & _). simpl in H.
  unfold not_null. rewrite bnd_ret, bnd_get, H, bnd_ret.
  apply simo_bnd.
  - apply set_mod_rep; auto.
  - intros [] s2 t2 _ _ R2. destruct (s_compare Y c (a_val t c) v); simpl; eauto.
Qed.

Lemma rep_awf s t : Rep s t -> awf Y t.
Proof.
  intros R. constructor.
  - intros x l H. apply (r_some _ _ R _ _ H).
  - intros x l H. apply (r_root _ _ R _ H).
  - intros x l H. apply (r_some _ _ R _ _ H).
Qed.

Section Calls.
Variable g : nat -> M (state V) V.
Variable g' : nat -> M (astate V) V.
Hypothesis Hg : forall b s t, Rep s t -> simo (g b s) (g' b t).
Hypothesis Hw : forall b t, awf Y t -> final (g' b t) (fun t' => awf Y t' /\ grow t t').

Lemma run_rep p : forall s t, Rep s t -> simo (run g p s) (run g' p t).
Proof.
  induction p as [v|b k IH|]; intros s t R; simpl; eauto.
  apply simo_bnd; auto.
Qed.

Lemma recompute_rep n c s t : Rep s t -> simo (recompute Y n g c s) (a_recompute Y g' c t).
Proof.
  intros R. unfold recompute, a_recompute. apply simo_bnd; [now apply run_rep|].
  intros v s1 t1 _ _ R1. apply simo_bnd; [now apply check_rep|].
  intros [] s2 t2 _ _ R2. now apply set_value_rep.
Qed.

Lemma recompute_wf c t : awf Y t -> final (a_recompute Y g' c t) (fun t' => awf Y t' /\ grow t t').
Proof.
  revert t. apply (keeps_recompute Y (awf Y) grow).
  - intros; apply grow_refl.
  - intros. eapply grow_trans; eauto.
  - intros; now apply awf_same.
  - intros; now apply awf_same.
  - exact Hw.
Qed.

Lemma pass_rep m a n : forall i c s t,
  Rep s t -> a_cyc t a = Some a -> nth_error (a_mem t a) i = Some c ->
  simo (pass Y n m g a c s) (a_pass Y n g' a i t).
Proof.
  induction n as [|n IH]; intros i c s t R C E; [exact I|]. cbn [pass a_pass].
  rewrite bnd_get, E.
  apply simo_bnd; [now apply push_rep|]. intros [] s1 t1 _ E1 R1.
  inversion E1; subst t1; clear E1.
  apply simo_bnd; [now apply recompute_rep|]. intros [] s2 t2 _ E2 R2.
  apply simo_bnd; [now apply pop_rep|]. intros [] s3 t3 _ E3 R3.
  rewrite !bnd_get.
  pose proof (rep_own s3 t3 a R3) as OW. simpl in OW.
  destruct (eq_ref_spec (e_parent (at_ s3 a)) (Some a)) as [Q|Q];
    destruct (eq_ref_spec (a_cyc t3 a) (Some a)) as [Q'|Q']; try tauto; cbn [negb].
  2:{ simpl. eauto. }
  rewrite !bnd_get.
  assert (EI : nth_error (a_mem t3 a) i = Some c).
  { pose proof (recompute_wf c _ (rep_awf _ _ R1)) as W. rewrite E2 in W. simpl in W.
    destruct W as (_ & G).
    assert (a_cyc t3 = a_cyc t2 /\ a_mem t3 = a_mem t2) as (E4 & E5).
    { unfold a_pop in E3. destruct (a_pend t2); inversion E3; auto. }
    rewrite E4 in Q'. rewrite E5.
    destruct (gr_root _ _ G a a C Q') as (_ & ext & ->).
    rewrite nth_error_app1; [exact E|]. apply nth_error_Some. simpl. congruence. }
  assert (NX : e_next (at_ s3 c) = nth_error (a_mem t3 a) (S i)).
  { destruct (r_root _ _ R3 _ Q') as (_ & CH & _). apply (chain_nth _ _ i c CH EI). }
  rewrite NX. destruct (nth_error (a_mem t3 a) (S i)) as [c'|] eqn:E6.
  - now apply IH.
  - simpl. eauto.
Qed.

Lemma pass_root a n : forall i t t',
  a_pass Y n g' a i t = Done false t' -> a_cyc t' a = Some a.
Proof.
  induction n as [|n IH]; intros i t t'; [discriminate|]. cbn [a_pass].
  rewrite bnd_get. destruct (nth_error (a_mem t a) i) as [c|]; [|discriminate].
  intros H. apply bnd_Done in H. destruct H as ([] & t1 & _ & H).
  apply bnd_Done in H. destruct H as ([] & t2 & _ & H).
  apply bnd_Done in H. destruct H as ([] & t3 & _ & H).
  rewrite bnd_get in H. destruct (eq_ref_spec (a_cyc t3 a) (Some a)) as [Q|Q]; [|discriminate].
  cbn [negb] in H. rewrite bnd_get in H. destruct (nth_error (a_mem t3 a) (S i)).
  - eapply IH; eauto.
  - inversion H; subst; auto.
Qed.

(** Freezing the members from index [i] on. *)
Lemma freeze_rep n a : forall i c s t,
  Rep s t -> a_cyc t a = Some a -> nth_error (a_mem t a) i = Some c ->
  simo (freeze n c s)
       (Done tt (w_st (fun x => if inb x (skipn i (a_mem t a)) then EVALUATED else a_st t x) t)).
Proof.
  induction n as [|n IH]; intros i c s t R C E; simpl; [exact I|].
  unfold bnd at 1. pose proof (set_status_rep s t c EVALUATED R) as H.
  destruct (set_status c EVALUATED s) as [[] s1|e s1|s1|]; simpl in H;
    [|destruct H as (t1 & H); destruct H; discriminate|destruct H; discriminate|exact I].
  destruct H as (t1 & H & R1). inversion H; subst t1; clear H.
  rewrite bnd_get.
  assert (NX : e_next (at_ s1 c) = nth_error (a_mem t a) (S i)).
  { destruct (r_root _ _ R1 _ C) as (_ & CH & _). apply (chain_nth _ _ i c CH E). }
  assert (SK : skipn i (a_mem t a) = c :: skipn (S i) (a_mem t a)).
  { clear - E. revert i E. induction (a_mem t a) as [|x r IHr]; intros [|i] E;
      simpl in *; try discriminate.
    - inversion E; auto.
    - rewrite (IHr i E). reflexivity. }
  rewrite NX. destruct (nth_error (a_mem t a) (S i)) as [c'|] eqn:E6.
  - specialize (IH (S i) c' s1 (set_st c EVALUATED t) R1 C E6).
    destruct (freeze n c' s1) as [[] s2|e s2|s2|]; unfold simo in IH |- *;
      [|destruct IH as (t2 & IH & _); discriminate|destruct IH as (t2 & IH); discriminate|exact I].
    destruct IH as (t2 & IH & R2). inversion IH; subst t2; clear IH.
    eexists; split; [reflexivity|].
    destruct R2 as [X1 X2 X3 X4 X5 X6 X7 X8]. constructor; simpl in *; auto.
    intros x. rewrite X1. rewrite SK. unfold inb. cbn [existsb]. unfold set_fun.
    destruct (Nat.eqb_spec x c) as [->|]; cbn [orb]; [now destruct (existsb _ _)|reflexivity].
  - assert (SK' : skipn (S i) (a_mem t a) = []).
    { apply skipn_all2. apply nth_error_None in E6. lia. }
    rewrite SK' in SK. simpl. eexists; split; [reflexivity|].
    destruct R1 as [X1 X2 X3 X4 X5 X6 X7 X8]. constructor; simpl in *; auto.
    intros x. rewrite X1, SK. unfold inb, set_fun. simpl. destruct (x =? c); auto.
Qed.

Lemma passes_rep a m n : forall s t,
  Rep s t -> a_cyc t a = Some a -> simo (passes Y n m g a s) (a_passes Y n m g' a t).
Proof.
  induction n as [|n IH]; intros s t R C; [exact I|].
  destruct (r_root _ _ R _ C) as (H & _). simpl in H.
  cbn [passes a_passes]. rewrite bnd_get, H. unfold not_null. rewrite bnd_ret.
  apply simo_bnd.
  { unfold put_st. apply set_mod_rep; auto. }
  intros [] s1 t1 _ E1 R1. inversion E1; subst t1; clear E1.
  assert (C1 : a_cyc (set_mod a false t) a = Some a) by exact C.
  apply simo_bnd.
  { apply pass_rep; auto. destruct (r_root _ _ R1 _ C1) as (_ & _ & HD & _).
    destruct (a_mem (set_mod a false t) a); [discriminate|exact HD]. }
  intros early s2 t2 _ E2 R2.
  destruct early; [simpl; eauto|].
  pose proof (pass_root _ _ _ _ _ E2) as C2.
  destruct (r_root _ _ R2 _ C2) as (H2 & _ & HD & _). simpl in H2.
  rewrite !bnd_get, H2. rewrite bnd_ret. cbn [modified].
  destruct (a_mod t2 a); [now apply IH|].
  assert (E0 : nth_error (a_mem t2 a) 0 = Some a).
  { destruct (a_mem t2 a); [discriminate|exact HD]. }
  apply (freeze_rep m a 0 a s2 t2 R2 C2 E0).
Qed.

Lemma evaluate_rep n a s t :
  Rep s t -> simo (evaluate_cycle Y n g a s) (a_evaluate Y n g' a t).
Proof.
  intros R. unfold evaluate_cycle, a_evaluate. destruct (s_circular Y a); [|simpl; eauto].
  rewrite !bnd_get. pose proof (rep_own s t a R) as OW. simpl in OW.
  destruct (eq_ref_spec (e_parent (at_ s a)) (Some a)) as [Q|Q];
    destruct (eq_ref_spec (a_cyc t a) (Some a)) as [Q'|Q']; try tauto.
  - now apply passes_rep.
  - simpl. eauto.
Qed.
End Calls.

Lemma initialize_rep a s t : Rep s t -> simo (initialize Y a s) (a_initialize Y a t).
Proof.
  intros R. unfold initialize, a_initialize. destruct (s_initial Y a); [|simpl; eauto].
  rewrite !bnd_get, (r_st _ _ R). destruct (a_st t a); try (simpl; eauto; fail).
  apply simo_bnd; [now apply set_status_rep|]. intros [] s1 t1 _ E R1.
  now apply set_value_rep.
Qed.

Theorem get_rep n : forall a s t, Rep s t -> simo (get Y n a s) (a_get Y n a t).
Proof.
  induction n as [|n IH]; intros a s t R; [exact I|]. cbn [get a_get].
  apply simo_bnd; [now apply initialize_rep|]. intros [] s1 t1 _ _ R1.
  rewrite !bnd_get, (r_st _ _ R1).
  assert (EV : simo
    ((set_status a CYCLE;;; push a;;; v <- run (get Y n) (s_compute Y a);;
      set_value a v;;; pop;;; c <- in_cycle Y n a;;
      match c with Some _ => evaluate_cycle Y n (get Y n) a | None => set_status a EVALUATED end;;;
      get_st (fun s0 => e_value (at_ s0 a))) s1)
    ((put_st (set_st a CYCLE);;; a_push a;;; v <- run (a_get Y n) (s_compute Y a);;
      put_st (set_val a v);;; a_pop;;; c <- get_st (fun t0 => a_cyc t0 a);;
      match c with Some _ => a_evaluate Y n (a_get Y n) a | None => put_st (set_st a EVALUATED) end;;;
      get_st (fun t0 => a_val t0 a)) t1)).
  { apply simo_bnd; [now apply set_status_rep|]. intros [] s2 t2 _ _ R2.
    apply simo_bnd; [now apply push_rep|]. intros [] s3 t3 _ _ R3.
    apply simo_bnd; [now apply run_rep|]. intros v s4 t4 _ _ R4.
    apply simo_bnd; [now apply set_value_rep|]. intros [] s5 t5 _ _ R5.
    apply simo_bnd; [now apply pop_rep|]. intros [] s6 t6 _ _ R6.
    rewrite bnd_get. apply (bnd_in_cycle n a s6 t6); auto. intros s7 R7.
    apply simo_bnd.
    - destruct (a_cyc t6 a).
      + apply evaluate_rep; auto. intros b t0 W. now apply a_get_wf.
      + now apply set_status_rep.
    - intros [] s8 t8 _ _ R8. apply get_st_rep; auto. apply (r_val _ _ R8). }
  destruct (a_st t1 a); auto.
  - now apply detected_rep.
  - apply get_st_rep; auto. apply (r_val _ _ R1).
  - apply get_st_rep; auto. apply (r_val _ _ R1).
Qed.

Theorem set_rep n a v s t : Rep s t -> simo (set Y n a v s) (a_set Y a v t).
Proof.
  intros R.
  assert (P : forall s t w, Rep s t -> simo (set_plain a w s) (a_set_plain a w t)).
  { intros s1 t1 w R1. unfold set_plain, a_set_plain. rewrite !bnd_get, (r_st _ _ R1).
    destruct (a_st t1 a); try (simpl; eauto; fail);
    (apply simo_bnd; [now apply set_value_rep|]; intros [] s2 t2 _ _ R2; now apply set_status_rep). }
  assert (C : forall s t w, Rep s t -> simo (set_circular Y n a w s) (a_set_circular Y a w t)).
  { intros s1 t1 w R1. unfold set_circular, a_set_circular.
    apply simo_bnd; [|intros [] s2 t2 _ _ R2; now apply P].
    destruct (s_circular Y a); [now apply check_rep|simpl; eauto]. }
  unfold set, a_set. destruct (s_initial Y a); [|now apply C].
  apply simo_bnd; [now apply initialize_rep|]. intros [] s1 t1 _ _ R1.
  rewrite !bnd_get, (r_val _ _ R1). now apply C.
Qed.

Lemma start_rep : Rep (start Y) (a_start Y).
Proof.
  constructor; simpl; auto; try discriminate.
  split; [discriminate|]. intros (x & h & E & _). discriminate.
Qed.
End Rep.
