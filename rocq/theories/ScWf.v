(** * ScWf: invariants of the machine of [ScAbs] that each step preserves. *)
From Verif Require Import Base ScModel ScAbs.

Definition final {St A} (o : out St A) (Q : St -> Prop) : Prop :=
  match o with
  | Done _ t | Throws _ t | Crash t => Q t
  | OutOfFuel => True
  end.

Lemma final_bnd {St A B} (m : M St A) (k : A -> M St B) (s : St) (Q : St -> Prop) :
  final (m s) Q -> (forall v s1, m s = Done v s1 -> Q s1 -> final (k v s1) Q) ->
  final (bnd m k s) Q.
Proof. unfold bnd. destruct (m s); simpl; auto. Qed.

Lemma bnd_get {St A B} (f : St -> A) (k : A -> M St B) s : bnd (get_st f) k s = k (f s) s.
Proof. reflexivity. Qed.
Lemma bnd_put {St B} (f : St -> St) (k : unit -> M St B) s : bnd (put_st f) k s = k tt (f s).
Proof. reflexivity. Qed.
Lemma bnd_ret {St A B} (a : A) (k : A -> M St B) s : bnd (ret a) k s = k a s.
Proof. reflexivity. Qed.
Lemma bnd_Done {St A B} (m : M St A) (k : A -> M St B) s v s' :
  bnd m k s = Done v s' -> exists w s1, m s = Done w s1 /\ k w s1 = Done v s'.
Proof. unfold bnd. destruct (m s); try discriminate. eauto. Qed.

Section Closed.
Context {V : Type} (Y : system V).
Variable I : astate V -> Prop.
Variable P : astate V -> astate V -> Prop.
Hypothesis P_refl : forall t, I t -> P t t.
Hypothesis P_trans : forall t1 t2 t3, I t1 -> P t1 t2 -> P t2 t3 -> P t1 t3.
Hypothesis H_root : forall t x l, I t -> a_cyc t x = Some l -> a_cyc t l = Some l.
Notation good t t' := (I t' /\ P t t').
Hypothesis H_st : forall t f, I t -> good t (w_st f t).
Hypothesis H_val : forall t f, I t -> good t (w_val f t).
Hypothesis H_mod : forall t f, I t -> good t (w_mod f t).
Hypothesis H_pend : forall t l, I t -> good t (w_pend l t).
Hypothesis H_new : forall t b, I t -> a_cyc t b = None -> s_circular Y b = true ->
  good t (new_cycle Y b t).
Hypothesis H_join : forall t e l, I t -> a_cyc t l = Some l -> a_cyc t e = None ->
  s_circular Y e = true -> good t (join e l t).
Hypothesis H_merge : forall t p l, I t -> a_cyc t l = Some l -> a_cyc t p = Some p -> p <> l ->
  good t (merge p l t).

Definition keeps {A} (m : M (astate V) A) : Prop :=
  forall t, I t -> final (m t) (fun t' => good t t').

Lemma keeps_bnd {A B} (m : M (astate V) A) (k : A -> M (astate V) B) :
  keeps m -> (forall v, keeps (k v)) -> keeps (bnd m k).
Proof.
  intros H1 H2 t It. unfold bnd. specialize (H1 t It).
  destruct (m t) as [v t1|e t1|t1|]; simpl in *; auto. destruct H1 as (I1 & P1).
  specialize (H2 v t1 I1). destruct (k v t1); simpl in *; auto;
    destruct H2; split; auto; eapply P_trans; eauto.
Qed.
Lemma keeps_get {A} (f : astate V -> A) : keeps (get_st f).
Proof. intros t It. simpl. auto. Qed.
Lemma keeps_ret {A} (a : A) : keeps (ret a).
Proof. intros t It. simpl. auto. Qed.
Lemma keeps_throw {A} e : keeps (@throw (astate V) A e).
Proof. intros t It. simpl. auto. Qed.
Lemma keeps_crash {A} : keeps (@crash (astate V) A).
Proof. intros t It. simpl. auto. Qed.
Lemma keeps_put f : (forall t, I t -> good t (f t)) -> keeps (put_st f).
Proof. intros H t It. simpl. auto. Qed.
Lemma keeps_pop : keeps a_pop.
Proof. intros t It. unfold a_pop. destruct (a_pend t); simpl; auto. Qed.
Lemma keeps_push a : keeps (a_push a).
Proof. apply keeps_put. auto. Qed.

Lemma keeps_join e l t : I t -> a_cyc t l = Some l -> a_cyc t e <> Some l ->
  final (a_join Y e l t) (fun t' => good t t').
Proof.
  intros It C N. unfold a_join. destruct (s_circular Y e) eqn:K; [|simpl; auto].
  rewrite bnd_get. destruct (a_cyc t e) as [p|] eqn:E; simpl; [|auto].
  apply (H_merge t p l It C); [apply (H_root t e p It E)|congruence].
Qed.

Lemma root_stays e l t t' : a_join Y e l t = Done tt t' -> a_cyc t l = Some l ->
  a_cyc t' l = Some l.
Proof.
  unfold a_join, bnd, get_st, put_st, throw. destruct (s_circular Y e); [|discriminate].
  destruct (a_cyc t e) as [p|]; intros E H; inversion E; subst t'; simpl.
  - destruct (inb l (a_mem t p)); auto.
  - unfold set_fun. destruct (l =? e); auto.
Qed.

Lemma keeps_mark l : forall c t, I t -> a_cyc t c = Some c ->
  final (a_mark Y c l t) (fun t' => good t t').
Proof.
  induction l as [|e l IH]; intros c t It C; simpl; [auto|].
  rewrite bnd_get. destruct (a_cyc t e) as [p|] eqn:E; simpl.
  - destruct (Nat.eqb_spec p c); [simpl; auto|].
    pose proof (keeps_join e c t It C) as H. unfold bnd.
    destruct (a_join Y e c t) as [[] t1|x t1|t1|] eqn:J; simpl in *; try (apply H; congruence).
    destruct H as (I1 & P1); [congruence|].
    specialize (IH c t1 I1 (root_stays _ _ _ _ J C)).
    destruct (a_mark Y c l t1); simpl in *; auto; destruct IH; split; eauto.
  - pose proof (keeps_join e c t It C) as H. unfold bnd.
    destruct (a_join Y e c t) as [[] t1|x t1|t1|] eqn:J; simpl in *; try (apply H; congruence).
    destruct H as (I1 & P1); [congruence|].
    specialize (IH c t1 I1 (root_stays _ _ _ _ J C)).
    destruct (a_mark Y c l t1); simpl in *; auto; destruct IH; split; eauto.
Qed.

Lemma keeps_detected a : keeps (a_detected Y a).
Proof.
  unfold a_detected. destruct (s_circular Y a) eqn:K; [|apply keeps_throw].
  intros t It. rewrite bnd_get.
  assert (MP : keeps (bnd (a_mark_pending Y a) (fun _ => get_st (fun t => a_val t a)))).
  { apply keeps_bnd; [|intros; apply keeps_get].
    intros t0 I0. unfold a_mark_pending. rewrite bnd_get.
    destruct (a_cyc t0 a) as [l|] eqn:C; [|simpl; auto].
    rewrite bnd_get. apply keeps_mark; auto. eapply H_root; eauto. }
  destruct (a_cyc t a) eqn:C.
  - rewrite bnd_ret. now apply MP.
  - rewrite bnd_put. destruct (H_new t a It C K) as (I1 & P1).
    specialize (MP _ I1).
    match goal with |- final ?o _ => destruct o end; simpl in *; auto;
      destruct MP; split; eauto.
Qed.

Lemma keeps_check c v : keeps (a_check Y c v).
Proof.
  unfold a_check. apply keeps_bnd; [apply keeps_get|]. intros old.
  destruct (s_equal Y c old v); [apply keeps_ret|].
  apply keeps_bnd; [apply keeps_get|]. intros [l|]; [|apply keeps_crash].
  apply keeps_bnd; [apply keeps_put; intros; now apply H_mod|]. intros _.
  destruct (s_compare Y c old v); [apply keeps_ret|apply keeps_throw].
Qed.

Lemma keeps_run (g : nat -> M (astate V) V) p : (forall b, keeps (g b)) -> keeps (run g p).
Proof.
  intros Hg. induction p as [v|b k IH|]; simpl.
  - apply keeps_ret.
  - apply keeps_bnd; auto.
  - apply keeps_throw.
Qed.

Lemma keeps_recompute (g : nat -> M (astate V) V) c : (forall b, keeps (g b)) -> keeps (a_recompute Y g c).
Proof.
  intros Hg. unfold a_recompute. apply keeps_bnd; [now apply keeps_run|]. intros v.
  apply keeps_bnd; [apply keeps_check|]. intros _. apply keeps_put. intros; now apply H_val.
Qed.

Lemma keeps_pass (g : nat -> M (astate V) V) a n : (forall b, keeps (g b)) -> forall i, keeps (a_pass Y n g a i).
Proof.
  intros Hg. induction n as [|n IH]; intros i; simpl; [intros t It; exact Logic.I|].
  apply keeps_bnd; [apply keeps_get|]. intros [c|]; [|apply keeps_crash].
  apply keeps_bnd; [apply keeps_push|]. intros _.
  apply keeps_bnd; [now apply keeps_recompute|]. intros _.
  apply keeps_bnd; [apply keeps_pop|]. intros _.
  apply keeps_bnd; [apply keeps_get|]. intros l.
  destruct (negb (eq_ref l (Some a))); [apply keeps_ret|].
  apply keeps_bnd; [apply keeps_get|]. intros [|]; [apply IH|apply keeps_ret].
Qed.

Lemma keeps_passes (g : nat -> M (astate V) V) a m n : (forall b, keeps (g b)) -> keeps (a_passes Y n m g a).
Proof.
  intros Hg. induction n as [|n IH]; simpl; [intros t It; exact Logic.I|].
  apply keeps_bnd; [apply keeps_put; intros; now apply H_mod|]. intros _.
  apply keeps_bnd; [now apply keeps_pass|]. intros [|]; [apply keeps_ret|].
  apply keeps_bnd; [apply keeps_get|]. intros [|]; [apply IH|].
  apply keeps_put. intros; now apply H_st.
Qed.

Lemma keeps_evaluate (g : nat -> M (astate V) V) a n : (forall b, keeps (g b)) -> keeps (a_evaluate Y n g a).
Proof.
  intros Hg. unfold a_evaluate. destruct (s_circular Y a); [|apply keeps_throw].
  apply keeps_bnd; [apply keeps_get|]. intros c.
  destruct (eq_ref c (Some a)); [now apply keeps_passes|apply keeps_ret].
Qed.

Lemma keeps_initialize a : keeps (a_initialize Y a).
Proof.
  unfold a_initialize. destruct (s_initial Y a); [|apply keeps_ret].
  apply keeps_bnd; [apply keeps_get|]. intros []; try apply keeps_ret.
  apply keeps_bnd; [apply keeps_put; intros; now apply H_st|]. intros _.
  apply keeps_put. intros; now apply H_val.
Qed.

Lemma keeps_a_get n : forall a, keeps (a_get Y n a).
Proof.
  induction n as [|n IH]; intros a; simpl; [intros t It; exact Logic.I|].
  apply keeps_bnd; [apply keeps_initialize|]. intros _.
  apply keeps_bnd; [apply keeps_get|].
  assert (E : keeps (bnd (put_st (set_st a CYCLE)) (fun _ =>
      bnd (a_push a) (fun _ => bnd (run (a_get Y n) (s_compute Y a)) (fun v =>
      bnd (put_st (set_val a v)) (fun _ => bnd a_pop (fun _ =>
      bnd (get_st (fun t => a_cyc t a)) (fun c =>
      bnd match c with Some _ => a_evaluate Y n (a_get Y n) a | None => put_st (set_st a EVALUATED) end
        (fun _ => get_st (fun t => a_val t a)))))))))).
  { apply keeps_bnd; [apply keeps_put; intros; now apply H_st|]. intros _.
    apply keeps_bnd; [apply keeps_push|]. intros _.
    apply keeps_bnd; [now apply keeps_run|]. intros v.
    apply keeps_bnd; [apply keeps_put; intros; now apply H_val|]. intros _.
    apply keeps_bnd; [apply keeps_pop|]. intros _.
    apply keeps_bnd; [apply keeps_get|]. intros c.
    apply keeps_bnd; [|intros; apply keeps_get].
    destruct c; [now apply keeps_evaluate|apply keeps_put; intros; now apply H_st]. }
  intros []; auto; try apply keeps_get. apply keeps_detected.
Qed.

Lemma keeps_set_plain a v : keeps (a_set_plain a v).
Proof.
  unfold a_set_plain. apply keeps_bnd; [apply keeps_get|].
  assert (E : keeps (bnd (put_st (set_val a v)) (fun _ => put_st (set_st a ASSIGNED)))).
  { apply keeps_bnd; [apply keeps_put; intros; now apply H_val|]. intros _.
    apply keeps_put. intros; now apply H_st. }
  intros []; auto. apply keeps_throw.
Qed.

Lemma keeps_a_set a v : keeps (a_set Y a v).
Proof.
  assert (E : forall w, keeps (a_set_circular Y a w)).
  { intros w. unfold a_set_circular. apply keeps_bnd; [|intros; apply keeps_set_plain].
    destruct (s_circular Y a); [apply keeps_check|apply keeps_ret]. }
  unfold a_set. destruct (s_initial Y a); auto.
  apply keeps_bnd; [apply keeps_initialize|]. intros _.
  apply keeps_bnd; [apply keeps_get|]. auto.
Qed.
End Closed.

(** ** Well-formed cycles *)
Record awf {V} (Y : system V) (t : astate V) : Prop := {
  wf_root : forall x l, a_cyc t x = Some l -> a_cyc t l = Some l;
  wf_mem : forall x l, a_cyc t l = Some l -> (In x (a_mem t l) <-> a_cyc t x = Some l);
  wf_circ : forall x l, a_cyc t x = Some l -> s_circular Y x = true
}.

Record grow {V} (t t' : astate V) : Prop := {
  gr_some : forall x, a_cyc t x <> None -> a_cyc t' x <> None;
  gr_root : forall x l, a_cyc t x = Some l -> a_cyc t' x = Some x ->
     l = x /\ exists ext, a_mem t' x = a_mem t x ++ ext;
  gr_same : forall x y, a_cyc t x <> None -> a_cyc t x = a_cyc t y -> a_cyc t' x = a_cyc t' y;
  gr_merged : a_merged t = true -> a_merged t' = true;
  gr_kept : a_merged t' = false -> forall x l, a_cyc t x = Some l -> a_cyc t' x = Some l
}.

Section Wf.
Context {V : Type} (Y : system V).

Lemma grow_refl t : grow (V := V) t t.
Proof.
  constructor; auto. intros x l H1 H2. split; [congruence|]. exists []. now rewrite app_nil_r.
Qed.

Lemma grow_trans t1 t2 t3 : grow (V := V) t1 t2 -> grow t2 t3 -> grow t1 t3.
Proof.
  intros [A1 A2 A3 A4 A5] [B1 B2 B3 B4 B5]. constructor; auto.
  - intros x l H H3. destruct (a_cyc t2 x) as [m|] eqn:E.
    + destruct (B2 x m E H3) as (-> & e2 & E2).
      destruct (A2 x l H E) as (-> & e1 & E1). split; auto.
      exists (e1 ++ e2). now rewrite E2, E1, app_assoc.
    + exfalso. apply (A1 x); congruence.
  - intros M x l H. assert (a_merged t2 = false) as M2.
    { destruct (a_merged t2) eqn:Q; auto. rewrite B4 in M; congruence. }
    auto.
Qed.

Lemma awf_same t t' : awf Y t -> a_cyc t' = a_cyc t -> a_mem t' = a_mem t ->
  a_merged t' = a_merged t -> awf Y t' /\ grow t t'.
Proof.
  intros [W1 W2 W3] E1 E2 E3. split.
  - constructor; rewrite E1, ?E2; auto.
  - constructor; rewrite ?E1, ?E2, ?E3; auto.
    intros x l H1 H2. split; [congruence|]. exists []. now rewrite app_nil_r.
Qed.

Lemma awf_new t b : awf Y t -> a_cyc t b = None -> s_circular Y b = true ->
  awf Y (new_cycle Y b t) /\ grow t (new_cycle Y b t).
Proof.
  intros W C K.
  assert (OT : forall x l, a_cyc t x = Some l -> x <> b /\ l <> b).
  { intros x l Hx. pose proof (wf_root _ _ W _ _ Hx). split; congruence. }
  destruct W as [W1 W2 W3]. split; constructor; simpl.
  - intros x l H. unfold set_fun in *. destruct (Nat.eqb_spec x b).
    + inversion H; subst. now rewrite Nat.eqb_refl.
    + destruct (OT _ _ H). destruct (Nat.eqb_spec l b); [congruence|]. eauto.
  - intros x l H. unfold set_fun in *. destruct (Nat.eqb_spec l b) as [E|D].
    + subst l. destruct (Nat.eqb_spec x b) as [->|]; simpl; split; auto.
      * intros [G|[]]; congruence.
      * intros G. destruct (OT _ _ G); congruence.
    + rewrite W2 by auto. destruct (Nat.eqb_spec x b) as [->|]; split; congruence.
  - intros x l H. unfold set_fun in *. destruct (Nat.eqb_spec x b) as [->|]; eauto.
  - intros x H. unfold set_fun. destruct (x =? b); congruence.
  - intros x l H1 H2. destruct (OT _ _ H1). rewrite set_fun_neq in H2 by auto.
    rewrite set_fun_neq by auto.
    split; [congruence|]. exists []. now rewrite app_nil_r.
  - intros x y H1 H2. assert (x <> b /\ y <> b) as (D1 & D2) by (split; congruence).
    rewrite !set_fun_neq; auto.
  - auto.
  - intros _ x l H. destruct (OT _ _ H). now rewrite set_fun_neq.
Qed.

Lemma awf_join t e l : awf Y t -> a_cyc t l = Some l -> a_cyc t e = None ->
  s_circular Y e = true -> awf Y (join e l t) /\ grow t (join e l t).
Proof.
  intros W Cl C K.
  assert (OT : forall x l, a_cyc t x = Some l -> x <> e /\ l <> e).
  { intros x m Hx. pose proof (wf_root _ _ W _ _ Hx). split; congruence. }
  assert (Nl : l <> e) by congruence.
  destruct W as [W1 W2 W3]. split; constructor; simpl.
  - intros x m H. unfold set_fun in *. destruct (Nat.eqb_spec x e).
    + inversion H; subst. destruct (Nat.eqb_spec m e); congruence.
    + destruct (OT _ _ H). destruct (Nat.eqb_spec m e); [congruence|]. eauto.
  - intros x m H. unfold set_fun in *.
    destruct (Nat.eqb_spec m e) as [D0|D0]; [congruence|].
    destruct (Nat.eqb_spec m l) as [->|D].
    + rewrite in_app_iff, W2 by auto. simpl.
      destruct (Nat.eqb_spec x e) as [->|]; split; auto.
      intros [G|[G|[]]]; congruence.
    + rewrite W2 by auto. destruct (Nat.eqb_spec x e) as [->|]; split; congruence.
  - intros x m H. unfold set_fun in *. destruct (Nat.eqb_spec x e) as [->|]; eauto.
  - intros x H. unfold set_fun. destruct (x =? e); congruence.
  - intros x m H1 H2. destruct (OT _ _ H1). rewrite set_fun_neq in H2 by auto.
    split; [congruence|]. unfold set_fun. destruct (Nat.eqb_spec x l) as [->|]; eauto.
    exists []. now rewrite app_nil_r.
  - intros x y H1 H2. assert (x <> e /\ y <> e) as (D1 & D2) by (split; congruence).
    rewrite !set_fun_neq; auto.
  - auto.
  - intros _ x m H. destruct (OT _ _ H). now rewrite set_fun_neq.
Qed.

Lemma inb_true x l : inb x l = true <-> In x l.
Proof.
  unfold inb. rewrite existsb_exists. split.
  - intros (y & H & E). apply Nat.eqb_eq in E. now subst.
  - intros H. exists x. split; auto. apply Nat.eqb_refl.
Qed.

Lemma awf_merge t p l : awf Y t -> a_cyc t l = Some l -> a_cyc t p = Some p -> p <> l ->
  awf Y (merge p l t) /\ grow t (merge p l t).
Proof.
  intros [W1 W2 W3] Cl Cp N.
  assert (Q : forall x, inb x (a_mem t p) = true <-> a_cyc t x = Some p).
  { intros x. rewrite inb_true. now apply W2. }
  assert (Q' : forall x m, (if inb x (a_mem t p) then Some l else a_cyc t x) = Some m <->
     (a_cyc t x = Some p /\ m = l) \/ (a_cyc t x = Some m /\ m <> p)).
  { intros x m. destruct (inb x (a_mem t p)) eqn:Ex.
    - apply Q in Ex. rewrite Ex. split; [intros [= <-]; now left|].
      intros [(_ & ->)|(G & D)]; congruence.
    - split; [|intros [(G & ->)|(G & D)]; auto].
      + intros G. right. split; auto. intros ->. apply Q in G. congruence.
      + apply Q in G. congruence. }
  split; constructor; simpl.
  - intros x m H. apply Q'. apply Q' in H. right.
    destruct H as [(H & ->)|(H & D)]; auto. split; eauto.
  - intros x m H. apply Q' in H. rewrite Q'.
    destruct H as [(H & ->)|(H & D)]; [congruence|].
    unfold set_fun. destruct (Nat.eqb_spec m l) as [->|Dl].
    + rewrite in_app_iff, !W2 by auto. split.
      * intros [G|G]; auto.
      * intros [(G & _)|(G & _)]; auto.
    + rewrite W2 by auto. split; [auto|]. intros [(_ & G)|(G & _)]; congruence.
  - intros x m H. apply Q' in H. destruct H as [(H & ->)|(H & D)]; eauto.
  - intros x H. destruct (inb x (a_mem t p)); congruence.
  - intros x m H1 H2. apply Q' in H2. destruct H2 as [(H2 & G)|(H2 & D)]; [congruence|].
    split; [congruence|]. unfold set_fun. destruct (Nat.eqb_spec x l) as [->|]; eauto.
    exists []. now rewrite app_nil_r.
  - intros x y H1 H2. destruct (inb x (a_mem t p)) eqn:Ex, (inb y (a_mem t p)) eqn:Ey; auto.
    + apply Q in Ex. rewrite H2 in Ex. apply Q in Ex. congruence.
    + apply Q in Ey. rewrite <- H2 in Ey. apply Q in Ey. congruence.
  - auto.
  - discriminate.
Qed.

Lemma a_get_wf n a t : awf Y t -> final (a_get Y n a t) (fun t' => awf Y t' /\ grow t t').
Proof.
  intros W. revert t W. apply (keeps_a_get Y (awf Y) grow).
  - intros; apply grow_refl.
  - intros. eapply grow_trans; eauto.
  - intros t x l W. apply (wf_root _ _ W).
  - intros; now apply awf_same.
  - intros; now apply awf_same.
  - intros; now apply awf_same.
  - intros; now apply awf_same.
  - intros; now apply awf_new.
  - intros; now apply awf_join.
  - intros; now apply awf_merge.
Qed.

Lemma a_set_wf a v t : awf Y t -> final (a_set Y a v t) (fun t' => awf Y t' /\ grow t t').
Proof.
  intros W. revert t W. apply (keeps_a_set Y (awf Y) grow).
  - intros; apply grow_refl.
  - intros. eapply grow_trans; eauto.
  - intros; now apply awf_same.
  - intros; now apply awf_same.
  - intros; now apply awf_same.
Qed.

End Wf.
