(** * AttrProofs: state lemmas and the main lemma about demand evaluation. *)
From Verif Require Import Base AttrModel AttrSpec.

Section S.
Context {V : Type} (vdef : V) (decl : nat -> attr_decl V) (P : inst -> comp V) (psize : nat -> nat).
Notation stat := (stat V). Notation value := (value V vdef).
Notation state := (state V).

Definition slot (x y : inst) : bool := Nat.eqb (fst x) (fst y) && Nat.eqb (index_of (snd x)) (index_of (snd y)).
Definition wf (s : state) : Prop := forall a, length (values V (attrs V s a)) = length (stats V (attrs V s a)).
Definition inb (s : state) (x : inst) : Prop := index_of (snd x) < length (stats V (attrs V s (fst x))).
Definition st_started (s : state) (a : nat) : bool := started V (attrs V s a).

Lemma mbind_Val {A B} (m : M V A) (f : A -> M V B) s s' a : m s = (s', Val a) -> mbind V m f s = f a s'.
Proof. intros E. unfold mbind. now rewrite E. Qed.
Lemma mbind_Thrown {A B} (m : M V A) (f : A -> M V B) s s' e : m s = (s', Thrown e) -> mbind V m f s = (s', Thrown e).
Proof. intros E. unfold mbind. now rewrite E. Qed.

(** Everything but the arrays and [started] is equal. *)
Record frame (s s' : state) : Prop := {
  f_pending : pending V s' = pending V s; f_cap : cap V s' = cap V s; f_epoch : epoch V s' = epoch V s;
  f_checks : num_checks V s' = num_checks V s;
  f_complete : forall a, complete V (attrs V s' a) = complete V (attrs V s a) }.
Ltac frame_tac := constructor; auto; intros; cbn; unfold fupd; match goal with |- context [Nat.eqb ?a ?b] => destruct (Nat.eqb_spec a b); subst; auto end.
Lemma frame_refl s : frame s s. Proof. constructor; auto. Qed.
Lemma frame_trans s1 s2 s3 : frame s1 s2 -> frame s2 s3 -> frame s1 s3.
Proof. intros A B; constructor; try (intros a; rewrite (f_complete _ _ B); apply A); destruct A, B; congruence. Qed.

Record same (s s' : state) : Prop := {
  sm_wf : wf s -> wf s';
  sm_stat : forall y, stat s' y = stat s y;
  sm_value : forall y, value s' y = value s y;
  sm_started : forall a, st_started s' a = st_started s a;
  sm_log : log V s' = log V s; sm_calls : calls V s' = calls V s;
  sm_inb : forall y, inb s y -> inb s' y;
  sm_frame : frame s s' }.

Lemma same_refl s : same s s.
Proof. constructor; auto using frame_refl. Qed.
Lemma same_trans s1 s2 s3 : same s1 s2 -> same s2 s3 -> same s1 s3.
Proof.
  intros A B. constructor.
  - intros; apply (sm_wf _ _ B), (sm_wf _ _ A); auto.
  - intros; rewrite (sm_stat _ _ B); apply A.
  - intros; rewrite (sm_value _ _ B); apply A.
  - intros; rewrite (sm_started _ _ B); apply A.
  - rewrite (sm_log _ _ B); apply A.
  - rewrite (sm_calls _ _ B); apply A.
  - intros; apply (sm_inb _ _ B), (sm_inb _ _ A); auto.
  - eapply frame_trans; [apply A|apply B].
Qed.

Lemma resize_nth {B} (l : list B) n d i : length l <= n -> nth i (resize l n d) d = nth i l d.
Proof.
  intros H. unfold resize. rewrite firstn_all2 by lia. destruct (Nat.lt_ge_cases i (length l)).
  - now rewrite app_nth1.
  - rewrite app_nth2 by lia. rewrite (nth_overflow l) by lia. apply nth_repeat.
Qed.
Lemma resize_length {B} (l : list B) n d : length (resize l n d) = n.
Proof. unfold resize. rewrite app_length, firstn_length, repeat_length. lia. Qed.

Lemma resize_same s a n : length (values V (attrs V s a)) <= n -> wf s ->
  let t := attrs V s a in
  same s (set_attr V s a (mkA V (started V t) (complete V t) (resize (values V t) n vdef) (resize (stats V t) n UNINITIALIZED))).
Proof.
  intros L W t. constructor; auto; cbn.
  - intros _ b. cbn. unfold fupd. destruct (Nat.eqb_spec a b); [|apply W]. cbn. now rewrite !resize_length.
  - intros y. unfold AttrModel.stat. cbn. unfold fupd. destruct (Nat.eqb_spec a (fst y)); auto. cbn. subst a. apply resize_nth.
    rewrite <- (W (fst y)). auto.
  - intros y. unfold AttrModel.value. cbn. unfold fupd. destruct (Nat.eqb_spec a (fst y)); auto. cbn. subst a. now apply resize_nth.
  - intros b. unfold st_started. cbn. unfold fupd. destruct (Nat.eqb_spec a b); subst; auto.
  - intros y. unfold inb. cbn. unfold fupd. destruct (Nat.eqb_spec a (fst y)); auto. cbn. subst a. rewrite resize_length.
    specialize (W (fst y)). lia.
  - frame_tac.
Qed.

Lemma check_phylum_ok s x : wf s -> phylum_of (snd x) = dphylum V (decl (fst x)) ->
  exists s', check_phylum V vdef decl x s = (s', Val tt) /\ same s s' /\ inb s' x.
Proof.
  intros W Hp. unfold check_phylum. rewrite Hp, Nat.eqb_refl. cbn [negb].
  destruct (Nat.leb_spec (length (values V (attrs V s (fst x)))) (index_of (snd x))) as [L|L].
  - eexists. split; [reflexivity|]. split; [apply resize_same; auto; lia|].
    unfold inb. cbn. unfold fupd. rewrite Nat.eqb_refl. cbn. rewrite resize_length. lia.
  - exists s. split; auto. split; [apply same_refl|]. unfold inb. rewrite <- (W (fst x)). auto.
Qed.

Lemma nth_upd {B} (l : list B) i j b d : i < length l -> nth j (upd l i b) d = if Nat.eqb i j then b else nth j l d.
Proof.
  revert i j; induction l as [|h t IH]; intros [|i] [|j] H; cbn in *; try lia; auto.
  apply IH. lia.
Qed.

Lemma put_status_ok s x st : wf s -> inb s x -> exists s', put_status V x st s = (s', Val tt) /\
  wf s' /\ (forall y, stat s' y = if slot x y then st else stat s y) /\ (forall y, value s' y = value s y) /\
  (forall a, st_started s' a = st_started s a) /\ log V s' = log V s /\ calls V s' = calls V s /\
  (forall y, inb s y -> inb s' y) /\ frame s s'.
Proof.
  intros W I. unfold put_status. eexists. split; [reflexivity|]. ands; auto.
  - intros b. cbn. unfold fupd. destruct (Nat.eqb_spec (fst x) b); [|apply W]. cbn. rewrite upd_length. apply W.
  - intros y. unfold AttrModel.stat, slot. cbn. unfold fupd. destruct (Nat.eqb_spec (fst x) (fst y)) as [E|N]; cbn; auto.
    rewrite nth_upd by auto. rewrite E. auto.
  - intros y. unfold AttrModel.value. cbn. unfold fupd. destruct (Nat.eqb_spec (fst x) (fst y)) as [E|N]; cbn; auto. now rewrite E.
  - intros a. unfold st_started. cbn. unfold fupd. destruct (Nat.eqb_spec (fst x) a); cbn; subst; auto.
  - intros y. unfold inb. cbn. unfold fupd. destruct (Nat.eqb_spec (fst x) (fst y)) as [E|N]; cbn; auto. rewrite upd_length, E. auto.
  - frame_tac.
Qed.

Lemma put_value_ok s x v : wf s -> inb s x -> exists s', put_value V x v s = (s', Val tt) /\
  wf s' /\ (forall y, stat s' y = stat s y) /\ (forall y, value s' y = if slot x y then v else value s y) /\
  (forall a, st_started s' a = st_started s a) /\ log V s' = log V s /\ calls V s' = calls V s /\
  (forall y, inb s y -> inb s' y) /\ frame s s'.
Proof.
  intros W I. unfold put_value. eexists. split; [reflexivity|]. ands; auto.
  - intros b. cbn. unfold fupd. destruct (Nat.eqb_spec (fst x) b); [|apply W]. cbn. rewrite upd_length. subst. apply W.
  - intros y. unfold AttrModel.stat. cbn. unfold fupd. destruct (Nat.eqb_spec (fst x) (fst y)) as [E|N]; cbn; auto. now rewrite E.
  - intros y. unfold AttrModel.value, slot. cbn. unfold fupd. destruct (Nat.eqb_spec (fst x) (fst y)) as [E|N]; cbn; auto.
    rewrite nth_upd; [rewrite E; auto|]. rewrite (W (fst x)). auto.
  - intros a. unfold st_started. cbn. unfold fupd. destruct (Nat.eqb_spec (fst x) a); cbn; subst; auto.
  - intros y. unfold inb. cbn. unfold fupd. destruct (Nat.eqb_spec (fst x) (fst y)) as [E|N]; cbn; auto. rewrite E. auto.
  - frame_tac.
Qed.

Lemma set_started_ok s a : exists s', set_started V a s = (s', Val tt) /\
  (wf s -> wf s') /\ (forall y, stat s' y = stat s y) /\ (forall y, value s' y = value s y) /\
  (forall b, st_started s' b = Nat.eqb a b || st_started s b) /\ log V s' = log V s /\ calls V s' = calls V s /\
  (forall y, inb s y -> inb s' y) /\ frame s s'.
Proof.
  unfold set_started. eexists. split; [reflexivity|]. ands; auto.
  - intros W b. cbn. unfold fupd. destruct (Nat.eqb_spec a b); [|apply W]. cbn. apply W.
  - intros y. unfold AttrModel.stat. cbn. unfold fupd. destruct (Nat.eqb_spec a (fst y)) as [E|N]; cbn; auto. now rewrite E.
  - intros y. unfold AttrModel.value. cbn. unfold fupd. destruct (Nat.eqb_spec a (fst y)) as [E|N]; cbn; auto. now rewrite E.
  - intros b. unfold st_started. cbn. unfold fupd. destruct (Nat.eqb_spec a b); cbn; subst; auto.
  - intros y. unfold inb. cbn. unfold fupd. destruct (Nat.eqb_spec a (fst y)) as [E|N]; cbn; auto. now rewrite E.
  - frame_tac.
Qed.

Lemma get_ok s x : wf s -> phylum_of (snd x) = dphylum V (decl (fst x)) -> stat s x <> UNINITIALIZED ->
  exists s', get V vdef decl x s = (s', Val (value s x)) /\ same s s' /\ inb s' x.
Proof.
  intros W Hp Hs. destruct (check_phylum_ok s x W Hp) as (s' & E & S & I).
  unfold get, mbind. rewrite E. unfold get_status. rewrite (sm_stat _ _ S).
  exists s'. destruct (stat s x); try congruence; cbn; unfold get_value; rewrite (sm_value _ _ S); auto.
Qed.

Lemma get_eval_ok s x : wf s -> inb s x -> phylum_of (snd x) = dphylum V (decl (fst x)) -> stat s x <> UNINITIALIZED ->
  get V vdef decl x s = (s, Val (value s x)).
Proof.
  intros W I Hp Hs. unfold get, mbind, check_phylum. rewrite Hp, Nat.eqb_refl. cbn [negb].
  destruct (Nat.leb_spec (length (values V (attrs V s (fst x)))) (index_of (snd x))) as [L|L].
  { unfold inb in I. rewrite <- (W (fst x)) in I. lia. }
  unfold get_status. destruct (stat s x); try congruence; auto.
Qed.

Definition fresh (st : status) : bool := match st with UNINITIALIZED | UNEVALUATED => true | _ => false end.

(** The prologue of Attribute::evaluate. *)
Lemma prologue s x : wf s -> phylum_of (snd x) = dphylum V (decl (fst x)) ->
  exists s1, wf s1 /\ inb s1 x /\ (forall y, stat s1 y = stat s y) /\ (forall y, value s1 y = value s y) /\
    (forall b, st_started s1 b = Nat.eqb (fst x) b || st_started s b) /\ log V s1 = log V s /\ calls V s1 = calls V s ++ [x] /\
    (forall y, inb s y -> inb s1 y) /\ frame s s1 /\
  forall ev, attribute_evaluate V vdef decl P ev x s =
    match stat s x with
    | CYCLE => cycle_evaluate V vdef decl x s1
    | UNINITIALIZED | UNEVALUATED =>
        mbind V (put_status V x CYCLE) (fun _ => mbind V (compute V P ev x) (fun v =>
        mbind V (put_value V x v) (fun _ => mbind V (put_status V x EVALUATED) (fun _ => get V vdef decl x)))) s1
    | _ => (s1, Val (value s x))
    end.
Proof.
  intros W Hp. destruct (check_phylum_ok s x W Hp) as (s0 & E0 & S0 & I0).
  set (sc := mkS V (attrs V s0) (pending V s0) (cap V s0) (epoch V s0) (num_checks V s0) (log V s0) (calls V s0 ++ [x])).
  destruct (set_started_ok sc (fst x)) as (s1 & E1 & W1 & A1 & A2 & A3 & A4 & A5 & A6 & A7).
  assert (Wc : wf sc) by (intros b; apply (sm_wf _ _ S0 W)).
  assert (Wx : wf s1) by (apply W1; auto).
  assert (Ix : inb s1 x) by (apply A6; auto).
  assert (SC : forall y, stat sc y = stat s y) by (intros y; apply (sm_stat _ _ S0)).
  assert (VC : forall y, value sc y = value s y) by (intros y; apply (sm_value _ _ S0)).
  exists s1. ands; auto.
  - intros y. rewrite A1. auto.
  - intros y. rewrite A2. auto.
  - intros b. rewrite A3. f_equal. apply (sm_started _ _ S0).
  - rewrite A4. apply S0.
  - rewrite A5. cbn. f_equal. apply S0.
  - intros y Hy. apply A6. apply (sm_inb _ _ S0 y Hy).
  - eapply frame_trans; [apply (sm_frame _ _ S0)|]. eapply frame_trans; [|exact A7]. constructor; auto.
  - intros ev. unfold attribute_evaluate at 1. rewrite (mbind_Val _ _ _ _ _ E0).
    rewrite (mbind_Val (note_call V x) _ s0 sc tt eq_refl). rewrite (mbind_Val _ _ _ _ _ E1).
    rewrite (mbind_Val (get_status V x) _ s1 s1 (stat s1 x) eq_refl). rewrite A1, SC.
    destruct (stat s x) eqn:Es; auto.
    + rewrite get_eval_ok; auto; [rewrite A2, VC; auto|rewrite A1, SC, Es; discriminate].
    + rewrite get_eval_ok; auto; [rewrite A2, VC; auto|rewrite A1, SC, Es; discriminate].
Qed.

End S.

(** ** The meaning of equations, with heights *)
Section D.
Context {V : Type} (P : inst -> comp V) (sg : inst -> option V).
Notation den := (den P sg). Notation runs := (runs P sg).

Inductive denh : nat -> inst -> V -> Prop :=
| denh_assigned n x v : sg x = Some v -> denh n x v
| denh_computed n x v : sg x = None -> runsh n (P x) v -> denh (S n) x v
with runsh : nat -> comp V -> V -> Prop :=
| runsh_ret n v : runsh n (Ret V v) v
| runsh_demand n y k w v : denh n y w -> runsh n (k w) v -> runsh n (Demand V y k) v.
Scheme denh_ind2 := Minimality for denh Sort Prop with runsh_ind2 := Minimality for runsh Sort Prop.
Combined Scheme denh_mut from denh_ind2, runsh_ind2.
Scheme den_ind2 := Minimality for AttrSpec.den Sort Prop with runs_ind2 := Minimality for AttrSpec.runs Sort Prop.
Combined Scheme den_mut from den_ind2, runs_ind2.

Lemma denh_mono : (forall n x v, denh n x v -> forall m, n <= m -> denh m x v) /\ (forall n c v, runsh n c v -> forall m, n <= m -> runsh m c v).
Proof.
  apply denh_mut.
  - intros; now apply denh_assigned.
  - intros n x v E R IH m L. destruct m; [lia|]. apply denh_computed; auto. apply IH; lia.
  - intros; constructor.
  - intros n y k w v D IHd R IHr m L. eapply runsh_demand; eauto.
Qed.
Lemma den_denh : (forall x v, den x v -> exists n, denh n x v) /\ (forall c v, runs c v -> exists n, runsh n c v).
Proof.
  apply den_mut.
  - intros x v E. exists 0. now apply denh_assigned.
  - intros x v E R (n & H). exists (S n). now apply denh_computed.
  - intros v. exists 0. constructor.
  - intros y k w v D (n & Hn) R (m & Hm). exists (n + m). eapply runsh_demand; [eapply (proj1 denh_mono)|eapply (proj2 denh_mono)]; eauto; lia.
Qed.
Lemma denh_den : (forall n x v, denh n x v -> den x v) /\ (forall n c v, runsh n c v -> runs c v).
Proof.
  apply denh_mut; intros.
  - now apply den_assigned.
  - now apply den_computed.
  - constructor.
  - eapply runs_demand; eauto.
Qed.
Lemma den_det : (forall x v, den x v -> forall w, den x w -> v = w) /\ (forall c v, runs c v -> forall w, runs c w -> v = w).
Proof.
  apply den_mut.
  - intros x v E w D. inversion D; subst; congruence.
  - intros x v E R IH w D. inversion D; subst; [congruence|auto].
  - intros v w R. inversion R; auto.
  - intros y k w v D IHd R IHr w' R'. inversion R'; subst. apply IHr. rewrite (IHd _ H1). auto.
Qed.

Definition denE n x := exists v, denh n x v.

Lemma needs_denh x y n : needs P sg x y -> denE n x -> exists m, m < n /\ denE m y.
Proof.
  intros [E R] (v & D). inversion D as [|n' ? ? ? RR]; subst; [congruence|]. exists n'. split; auto.
  clear D E. revert v RR. induction R as [y k|z k w y Dz R IH]; intros v RR; inversion RR; subst.
  - eexists; eauto.
  - assert (w = w0) by (eapply (proj1 den_det); [exact Dz|eapply (proj1 denh_den); eauto]). subst. eauto.
Qed.
Lemma needs_plus_denh x y : clos_trans _ (needs P sg) x y -> forall n, denE n x -> exists m, m < n /\ denE m y.
Proof.
  induction 1 as [x y H|x y z H1 IH1 H2 IH2]; intros n D.
  - eapply needs_denh; eauto.
  - destruct (IH1 _ D) as (m & L & D1). destruct (IH2 _ D1) as (m2 & L2 & D2). exists m2. split; auto. lia.
Qed.
Lemma descent x : (forall n, denE n x -> exists m, m < n /\ denE m x) -> forall v, ~ den x v.
Proof.
  intros H v D. destruct (proj1 den_denh _ _ D) as (n & Hn).
  assert (G : forall n, ~ denE n x). { induction n0 as [n0 IH] using lt_wf_ind. intros D1. destruct (H _ D1) as (m & L & Dm). eapply IH; eauto. }
  apply (G n). eexists; eauto.
Qed.
Lemma den_no_cycle x v : den x v -> ~ reaches_cycle P sg x.
Proof.
  intros D (y & R & C).
  assert (Dy : exists w, den y w).
  { clear C. apply clos_rt_rt1n in R. revert v D. induction R as [|x z y N R IH]; intros v D; eauto.
    destruct (proj1 den_denh _ _ D) as (n & Hn). destruct (needs_denh _ _ n N) as (m & _ & w & Dw); [eexists; eauto|].
    eapply IH. eapply (proj1 denh_den). eauto. }
  destruct Dy as (w & Dw). eapply descent; [|exact Dw]. intros n Dn. eapply needs_plus_denh; eauto.
Qed.
End D.
