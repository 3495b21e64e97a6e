(** * AttrStartProofs: when assignment is possible; collections. *)
From Verif Require Import Base AttrModel AttrSpec AttrProofs AttrCircProofs.

Section K.
Context {V : Type} (vdef : V) (decl : nat -> attr_decl V) (P : inst -> comp V) (psize : nat -> nat).
Notation state := (AttrModel.state V).
Notation evaluate := (evaluate V vdef decl P).

(** An attribute has started exactly if its evaluate has been called. *)
Definition startok (s : state) : Prop := forall a, st_started s a = true <-> exists y, In y (calls V s) /\ fst y = a.
Definition pres {A} (m : M V A) : Prop := forall s, startok s -> startok (fst (m s)).
Definition neutral {A} (m : M V A) : Prop := forall s, calls V (fst (m s)) = calls V s /\ forall a, st_started (fst (m s)) a = st_started s a.

Lemma neutral_pres {A} (m : M V A) : neutral m -> pres m.
Proof. intros H s K a. destruct (H s) as [E1 E2]. rewrite E1, E2. apply K. Qed.
Lemma neutral_bind {A B} (m : M V A) (f : A -> M V B) : neutral m -> (forall a, neutral (f a)) -> neutral (mbind V m f).
Proof.
  intros Hm Hf s. unfold mbind. destruct (Hm s) as [E1 E2]. destruct (m s) as [s1 [a|e| |]]; cbn in *; auto.
  destruct (Hf a s1) as [E3 E4]. split; [congruence|]. intros b. rewrite E4; auto.
Qed.
Lemma pres_bind {A B} (m : M V A) (f : A -> M V B) : pres m -> (forall a, pres (f a)) -> pres (mbind V m f).
Proof. intros Hm Hf s K. unfold mbind. specialize (Hm s K). destruct (m s) as [s1 [a|e| |]]; cbn in *; auto. apply Hf; auto. Qed.

Lemma neutral_id {A} (m : M V A) : (forall s, calls V (fst (m s)) = calls V s /\ attrs V (fst (m s)) = attrs V s) -> neutral m.
Proof. intros H s. destruct (H s) as [E1 E2]. split; auto. intros a. unfold st_started. now rewrite E2. Qed.
Lemma neutral_attr {A} (m : M V A) a (t : state -> astate V) : (forall s, fst (m s) = set_attr V s a (t s) /\ started V (t s) = started V (attrs V s a)) -> neutral m.
Proof.
  intros H s. destruct (H s) as [E1 E2]. rewrite E1. split; auto. intros b. unfold st_started. cbn. unfold fupd. destruct (Nat.eqb_spec a b); subst; auto.
Qed.
Lemma neutral_put_value x v : neutral (put_value V x v).
Proof. apply neutral_attr with (a := fst x) (t := fun s => mkA V (started V (attrs V s (fst x))) (complete V (attrs V s (fst x))) (upd (values V (attrs V s (fst x))) (index_of (snd x)) v) (stats V (attrs V s (fst x)))). auto. Qed.
Lemma neutral_put_status x v : neutral (put_status V x v).
Proof. apply neutral_attr with (a := fst x) (t := fun s => mkA V (started V (attrs V s (fst x))) (complete V (attrs V s (fst x))) (values V (attrs V s (fst x))) (upd (stats V (attrs V s (fst x))) (index_of (snd x)) v)). auto. Qed.
Lemma neutral_check x : neutral (check_phylum V vdef decl x).
Proof.
  intros s. unfold check_phylum. destruct (negb _); [split; auto|]. destruct (_ <=? _); [|split; auto]. split; auto. intros b. unfold st_started. cbn. unfold fupd.
  destruct (Nat.eqb_spec (fst x) b); subst; auto.
Qed.
Lemma neutral_ret {A} (a : A) : neutral (ret V a). Proof. apply neutral_id; auto. Qed.
Lemma neutral_throw {A} e : neutral (@throw V A e). Proof. apply neutral_id; auto. Qed.
Lemma neutral_get x : neutral (get V vdef decl x).
Proof.
  unfold get. apply neutral_bind; [apply neutral_check|intros _]. apply neutral_bind; [apply neutral_id; auto|intros st].
  apply neutral_bind; [|intros _; apply neutral_id; auto]. destruct st; try apply neutral_ret. apply neutral_bind.
  - unfold get_default. destruct (coll V (decl (fst x))) as [[]|]; [apply neutral_ret|apply neutral_throw].
  - intros d. apply neutral_bind; [apply neutral_put_value|intros _; apply neutral_put_status].
Qed.
Lemma neutral_attribute_set x v : neutral (attribute_set V vdef decl x v).
Proof. unfold attribute_set. apply neutral_bind; [apply neutral_check|intros _; apply neutral_bind; [apply neutral_put_value|intros _; apply neutral_put_status]]. Qed.
Lemma neutral_set x v : neutral (set V vdef decl x v).
Proof.
  unfold set. destruct (coll V (decl (fst x))) as [[]|]; [|apply neutral_attribute_set].
  apply neutral_bind; [apply neutral_get|intros; apply neutral_attribute_set].
Qed.
Lemma neutral_cycle x : neutral (cycle_evaluate V vdef decl x).
Proof.
  unfold cycle_evaluate. destruct (circ V (decl (fst x))); [|apply neutral_throw].
  apply neutral_bind; [apply neutral_id; auto|intros _]. apply neutral_bind; [apply neutral_attribute_set|intros; apply neutral_ret].
Qed.

Lemma pres_run ev : (forall x, pres (ev x)) -> forall c, pres (run V ev c).
Proof.
  intros He. induction c as [v|y k IH|e]; cbn [run]; [apply neutral_pres, neutral_ret| |apply neutral_pres, neutral_throw].
  exact (pres_bind (ev y) (fun v => run V ev (k v)) (He y) IH).
Qed.
Lemma pres_compute ev x : (forall x, pres (ev x)) -> pres (compute V P ev x).
Proof. intros He. unfold compute. apply pres_bind; [apply neutral_pres, neutral_id; auto|intros _; now apply pres_run]. Qed.

Lemma pres_attribute_evaluate ev x : (forall x, pres (ev x)) -> pres (attribute_evaluate V vdef decl P ev x).
Proof.
  intros He. unfold attribute_evaluate. apply pres_bind; [apply neutral_pres, neutral_check|intros _].
  assert (R : forall (m : M V V), pres m -> pres (mbind V (note_call V x) (fun _ => mbind V (set_started V (fst x)) (fun _ => m)))).
  { intros m Hm s K. unfold mbind. cbn. apply Hm. intros a. unfold st_started. cbn. unfold fupd. destruct (Nat.eqb_spec (fst x) a) as [E|N]; cbn.
    - split; auto. intros _. exists x. split; auto. apply in_or_app. right; left; auto.
    - rewrite (K a). split; intros (y & H & Ey); exists y; split; auto; [apply in_or_app; auto|].
      apply in_app_or in H. destruct H as [H|[<-|[]]]; auto. congruence. }
  apply R. apply pres_bind; [apply neutral_pres, neutral_id; auto|intros st].
  assert (C : pres (mbind V (put_status V x CYCLE) (fun _ => mbind V (compute V P ev x) (fun v =>
        mbind V (put_value V x v) (fun _ => mbind V (put_status V x EVALUATED) (fun _ => get V vdef decl x)))))).
  { apply pres_bind; [apply neutral_pres, neutral_put_status|intros _]. apply pres_bind; [now apply pres_compute|intros v]. apply neutral_pres.
    apply neutral_bind; [apply neutral_put_value|intros _; apply neutral_bind; [apply neutral_put_status|intros _; apply neutral_get]]. }
  destruct st; auto; apply neutral_pres; auto using neutral_get, neutral_cycle.
Qed.
Lemma pres_eval_changed ev x : (forall x, pres (ev x)) -> pres (eval_changed V vdef decl P ev x).
Proof.
  intros He. unfold eval_changed. destruct (circ V (decl (fst x))) as [lat|]; [|apply neutral_pres, neutral_throw].
  apply pres_bind; [apply neutral_pres, neutral_get|intros old]. apply pres_bind; [now apply pres_compute|intros e]. cbn zeta.
  destruct (equal V lat old (join V lat old e)); apply neutral_pres; [apply neutral_ret|]. apply neutral_bind; [apply neutral_set|intros; apply neutral_ret].
Qed.
Lemma pres_pass ev : (forall x, pres (ev x)) -> forall fuel i ep n, pres (pass V vdef decl P fuel ev i ep n).
Proof.
  intros He. induction fuel as [|fuel IH]; intros i ep n s K; cbn [pass]; auto. destruct (negb _); auto. destruct (nth_error _ _) as [x|]; auto.
  apply (pres_bind (eval_changed V vdef decl P ev x)); auto. now apply pres_eval_changed.
Qed.
Lemma pres_clear ev : (forall x, pres (ev x)) -> forall fuel, pres (clear_loop V vdef decl P fuel ev).
Proof.
  intros He. induction fuel as [|fuel IH]; intros s K; cbn [clear_loop]; auto.
  apply (pres_bind (pass V vdef decl P (S fuel) ev 0 (epoch V s) 0)); auto; [now apply pres_pass|]. intros n s1 K1.
  destruct (n <? length (pending V s1)); [apply IH; auto|]. cbn. intros a. apply K1.
Qed.
Lemma pres_evaluate : forall fuel x, pres (evaluate fuel x).
Proof.
  induction fuel as [|fuel IH]; intros x s K; cbn [AttrModel.evaluate]; auto.
  destruct (circ V (decl (fst x))) as [lat|]; [|apply pres_attribute_evaluate; auto].
  match goal with |- context [?m (checks_add V s)] => assert (R : pres m); [|specialize (R (checks_add V s) K); destruct (m (checks_add V s)) as [s1 o]] end.
  - apply pres_bind; [apply pres_attribute_evaluate; auto|intros v s1 K1]. destruct (Nat.eqb _ 1); auto.
    apply (pres_bind (clear_pending V vdef decl P fuel (evaluate fuel))); auto; [now apply pres_clear|intros _; apply neutral_pres, neutral_get].
  - cbn in *. intros a. apply R.
Qed.
Lemma pres_step fuel o s : startok s -> startok (fst (step V vdef decl P psize fuel s o)).
Proof.
  intros K. destruct o as [x v|x|a|x v|x]; cbn [step].
  - unfold assign. destruct (started V (attrs V s (fst x))); auto. pose proof (neutral_pres _ (neutral_set x v) s K). destruct (set V vdef decl x v s); auto.
  - pose proof (pres_evaluate fuel x s K). destruct (evaluate fuel x s); auto.
  - assert (H : pres (finish V vdef decl P psize fuel a)); [|specialize (H s K); destruct (finish V vdef decl P psize fuel a s); auto].
    assert (C : neutral (set_complete V a)).
    { apply neutral_attr with (a := a) (t := fun s => mkA V (started V (attrs V s a)) true (values V (attrs V s a)) (stats V (attrs V s a))). auto. }
    intros s1 K1. unfold finish. destruct (complete V (attrs V s1 a)); [now apply neutral_pres|].
    apply (pres_bind (resize_arrays V vdef a (psize (dphylum V (decl a))))); auto.
    + apply neutral_pres. apply neutral_attr with (a := a) (t := fun s => mkA V (started V (attrs V s a)) (complete V (attrs V s a)) (resize (values V (attrs V s a)) (psize (dphylum V (decl a))) vdef) (resize (stats V (attrs V s a)) (psize (dphylum V (decl a))) UNINITIALIZED)). auto.
    + intros _. apply pres_bind; [|intros _; now apply neutral_pres].
      generalize (seq 0 (psize (dphylum V (decl a)))). induction l; cbn [evaluate_all]; [apply neutral_pres, neutral_ret|]. apply pres_bind; [apply pres_evaluate|auto].
  - pose proof (neutral_pres _ (neutral_set x v) s K). destruct (set V vdef decl x v s); auto.
  - pose proof (neutral_pres _ (neutral_get x) s K). destruct (get V vdef decl x s); auto.
Qed.
Lemma startok_history fuel : forall ops s, startok s -> startok (fst (history V vdef decl P psize fuel ops s)).
Proof.
  induction ops as [|o ops IH]; intros s K; cbn [history]; auto. pose proof (pres_step fuel o s K).
  destruct (step V vdef decl P psize fuel s o) as [s1 a]. cbn in H. specialize (IH s1 H). destruct (history V vdef decl P psize fuel ops s1). auto.
Qed.
Lemma startok_initial : startok (initial_state V).
Proof. intros a. split; [discriminate|]. intros (y & [] & _). Qed.
End K.
