(** * ScSafe: no internal failure; bounds of the values. *)
From Verif Require Import Base ScModel ScAbs ScWf ScRep.

Section Safe.
Context {V : Type} (Y : system V).
Local Open Scope ev_scope.

(** The outcome is no failure, and [pending] is as before if it returns. *)
Definition calm {A} (t : astate V) (o : out (astate V) A) : Prop :=
  match o with
  | Done _ t' => a_pend t' = a_pend t /\ awf Y t' /\ grow t t'
  | Crash _ => False
  | _ => True
  end.

Lemma calm_bnd {A B} (m : M (astate V) A) (k : A -> M (astate V) B) t :
  calm t (m t) ->
  (forall v t1, m t = Done v t1 -> a_pend t1 = a_pend t -> awf Y t1 -> grow t t1 ->
     calm t1 (k v t1)) ->
  calm t (bnd m k t).
Proof.
  unfold bnd. intros H1 H2. destruct (m t) as [v t1|e t1|t1|]; simpl in *; auto.
  destruct H1 as (P1 & W1 & G1). specialize (H2 v t1 eq_refl P1 W1 G1).
  destruct (k v t1); simpl in *; auto. destruct H2 as (P2 & W2 & G2).
  split; [congruence|]. split; auto. eapply grow_trans; eauto.
Qed.

Lemma calm_same {A} t t' (a : A) : awf Y t -> a_pend t' = a_pend t -> a_cyc t' = a_cyc t ->
  a_mem t' = a_mem t -> a_merged t' = a_merged t -> calm t (Done a t').
Proof. intros W P E1 E2 E3. split; auto. now apply awf_same. Qed.

Lemma calm_refl {A} t (a : A) : awf Y t -> calm t (Done a t).
Proof. intros W. now apply calm_same. Qed.

Lemma mark_calm l : forall c t, awf Y t -> a_cyc t c = Some c -> calm t (a_mark Y c l t).
Proof.
  induction l as [|e l IH]; intros c t W C; cbn [a_mark]; [now apply (calm_refl t tt)|].
  rewrite bnd_get. destruct (eq_ref_spec (a_cyc t e) (Some c)) as [E|E]; [now apply calm_refl|].
  apply calm_bnd.
  - unfold a_join. destruct (s_circular Y e) eqn:K; [|exact I].
    rewrite bnd_get. destruct (a_cyc t e) as [p|] eqn:C1; simpl; (split; [reflexivity|]).
    + apply (awf_merge Y t p c W C (wf_root _ _ W _ _ C1)). congruence.
    + now apply awf_join.
  - intros [] t1 J P1 W1 G1. apply IH; auto. eapply root_stays; eauto.
Qed.

Lemma detected_calm a t : awf Y t -> calm t (a_detected Y a t).
Proof.
  intros W. unfold a_detected. destruct (s_circular Y a) eqn:K; [|exact I].
  rewrite bnd_get.
  apply calm_bnd.
  - destruct (a_cyc t a) eqn:C; [now apply calm_refl|]. simpl. split; auto. now apply awf_new.
  - intros [] t1 E P1 W1 G1. apply calm_bnd.
    + unfold a_mark_pending. rewrite bnd_get.
      assert (exists l, a_cyc t1 a = Some l) as (l & C1).
      { destruct (a_cyc t a) as [l|] eqn:C; inversion E; subst t1; eauto.
        exists a. simpl. apply set_fun_eq. }
      rewrite C1, bnd_get. apply mark_calm; auto. apply (wf_root _ _ W1 _ _ C1).
    + intros [] t2 _ P2 W2 G2. now apply calm_refl.
Qed.

Lemma check_calm c v t : awf Y t -> a_cyc t c <> None -> calm t (a_check Y c v t).
Proof.
  intros W N. unfold a_check. rewrite bnd_get.
  destruct (s_equal Y c (a_val t c) v); [now apply calm_refl|].
  rewrite bnd_get. destruct (a_cyc t c) as [l|]; [|congruence].
  rewrite bnd_put. destruct (s_compare Y c (a_val t c) v); [|exact I].
  now apply calm_same.
Qed.

Section Calls.
Variable g : nat -> M (astate V) V.
Hypothesis Hg : forall b t, awf Y t -> calm t (g b t).

Lemma run_calm p : forall t, awf Y t -> calm t (run g p t).
Proof.
  induction p as [v|b k IH|]; intros t W; cbn [run].
  - now apply (calm_refl t v).
  - apply calm_bnd; auto.
  - exact I.
Qed.

Lemma pass_calm a n : forall i t, awf Y t -> nth_error (a_mem t a) i <> None ->
  a_cyc t a = Some a -> calm t (a_pass Y n g a i t).
Proof.
  induction n as [|n IH]; intros i t W Ni C; [exact I|]. cbn [a_pass].
  rewrite bnd_get. destruct (nth_error (a_mem t a) i) as [c|] eqn:Ec; [|congruence].
  assert (Cc : a_cyc t c = Some a).
  { apply (wf_mem _ _ W); auto. eapply nth_error_In; eauto. }
  unfold a_push. rewrite bnd_put. set (t1 := w_pend (c :: a_pend t) t).
  assert (W1 : awf Y t1) by (apply (awf_same Y t t1); auto).
  assert (R : calm t1 (a_recompute Y g c t1)).
  { unfold a_recompute. apply calm_bnd; [now apply run_calm|].
    intros v t2 _ P2 W2 G2. apply calm_bnd.
    - apply check_calm; auto. apply (gr_some _ _ G2). simpl. congruence.
    - intros [] t3 _ P3 W3 G3. now apply calm_same. }
  unfold bnd at 1. destruct (a_recompute Y g c t1) as [[] t2|e t2|t2|]; simpl in R; auto;
    try exact I.
  destruct R as (P2 & W2 & G2).
  unfold bnd at 1, a_pop at 1. rewrite P2. simpl a_pend. cbv iota.
  set (t3 := w_pend (a_pend t) t2).
  assert (calm t (Done tt t3)) as (P3 & W3 & G3).
  { split; [reflexivity|]. destruct (awf_same Y t2 t3 W2) as (W3 & G3); auto.
    split; auto. apply (grow_trans t t2 t3); auto.
    apply (grow_trans t t1 t2); auto. apply (awf_same Y t t1); auto. }
  rewrite bnd_get. destruct (eq_ref_spec (a_cyc t3 a) (Some a)) as [Q|Q].
  2:{ simpl. auto. }
  cbn [negb]. rewrite bnd_get. destruct (nth_error (a_mem t3 a) (S i)) eqn:E3.
  - assert (K : calm t3 (a_pass Y n g a (S i) t3)).
    { apply IH; auto. congruence. }
    destruct (a_pass Y n g a (S i) t3); simpl in *; auto. destruct K as (P4 & W4 & G4).
    split; [congruence|]. split; auto. eapply grow_trans; eauto.
  - simpl. auto.
Qed.

Lemma passes_calm a m n : forall t, awf Y t -> a_cyc t a = Some a ->
  calm t (a_passes Y n m g a t).
Proof.
  induction n as [|n IH]; intros t W C; [exact I|]. cbn [a_passes].
  apply calm_bnd; [now apply calm_same|]. intros [] t1 E1 P1 W1 G1.
  inversion E1; subst t1; clear E1.
  apply calm_bnd.
  - apply pass_calm; auto. destruct (a_mem (set_mod a false t) a) eqn:E; [|discriminate].
    apply (wf_mem _ _ W a a C) in C. simpl in E. rewrite E in C. contradiction.
  - intros early t2 E2 P2 W2 G2. destruct early; [now apply calm_refl|].
    pose proof (pass_root Y g _ _ _ _ _ E2) as C2. rewrite bnd_get.
    destruct (a_mod t2 a); [now apply IH|]. now apply calm_same.
Qed.

Lemma evaluate_calm a n t : awf Y t -> calm t (a_evaluate Y n g a t).
Proof.
  intros W. unfold a_evaluate. destruct (s_circular Y a); [|exact I].
  rewrite bnd_get. destruct (eq_ref_spec (a_cyc t a) (Some a)).
  - now apply passes_calm.
  - now apply calm_refl.
Qed.
End Calls.

Lemma initialize_calm a t : awf Y t -> calm t (a_initialize Y a t).
Proof.
  intros W. unfold a_initialize. destruct (s_initial Y a); [|now apply calm_refl].
  rewrite bnd_get. destruct (a_st t a); try (now apply calm_refl). now apply calm_same.
Qed.

Theorem get_calm n : forall a t, awf Y t -> calm t (a_get Y n a t).
Proof.
  induction n as [|n IH]; intros a t W; [exact I|]. cbn [a_get].
  apply calm_bnd; [now apply initialize_calm|]. intros [] t1 _ P1 W1 G1.
  rewrite bnd_get.
  assert (EV : calm t1
    ((put_st (set_st a CYCLE);;; a_push a;;; v <- run (a_get Y n) (s_compute Y a);;
      put_st (set_val a v);;; a_pop;;; c <- get_st (fun t0 => a_cyc t0 a);;
      match c with Some _ => a_evaluate Y n (a_get Y n) a | None => put_st (set_st a EVALUATED) end;;;
      get_st (fun t0 => a_val t0 a)) t1)).
  { unfold a_push. rewrite !bnd_put. set (t2 := w_pend _ _).
    destruct (awf_same Y t1 t2 W1) as (W2 & G2); auto.
    unfold bnd at 1. pose proof (run_calm (a_get Y n) IH (s_compute Y a) t2 W2) as R.
    destruct (run (a_get Y n) (s_compute Y a) t2) as [v t3|e t3|t3|]; simpl in R; auto; try exact I.
    destruct R as (P3 & W3 & G3).
    rewrite bnd_put. unfold bnd at 1, a_pop at 1. simpl a_pend. rewrite P3. simpl a_pend. cbv iota.
    set (t4 := w_pend _ _).
    destruct (awf_same Y t3 t4 W3) as (W4 & G4); auto.
    assert (P4 : a_pend t4 = a_pend t1) by reflexivity.
    assert (G5 : grow t1 t4) by (eapply grow_trans; [exact G2|]; eapply grow_trans; eauto).
    rewrite bnd_get.
    match goal with |- calm t1 (?m t4) => assert (K : calm t4 (m t4)) end.
    { apply calm_bnd.
      - destruct (a_cyc t4 a); [now apply evaluate_calm|]. now apply calm_same.
      - intros [] t5 _ P5 W5 _. now apply calm_refl. }
    match goal with |- calm t1 ?o => destruct o end; simpl in *; auto.
    destruct K as (P6 & W6 & G6). split; [congruence|]. split; auto. eapply grow_trans; eauto. }
  destruct (a_st t1 a); auto; try (now apply calm_refl).
  now apply detected_calm.
Qed.

(** ** Histories *)
Lemma history_rep h s : history Y h s -> exists t, Rep Y s t /\ awf Y t.
Proof.
  intros H. enough (exists t, Rep Y s t) as (t & R) by (exists t; split; auto; eapply rep_awf; eauto).
  induction H as [|h s e s' H IH S].
  - exists (a_start Y). apply start_rep.
  - destruct IH as (t & R). inversion S as [n s0 a v s1 E|n s0 a v s1 E]; subst.
    + pose proof (get_rep Y n a s t R) as Q. rewrite E in Q. destruct Q as (t' & _ & R'). eauto.
    + pose proof (set_rep Y n a v s t R) as Q. rewrite E in Q. destruct Q as (t' & _ & R'). eauto.
Qed.
End Safe.
