(** * ScUse: from the invariants to histories. *)
From Coq Require Import Relations.
From Verif Require Import Base ScModel ScAbs ScWf ScRep ScSafe ScSpec ScHist ScFix ScPlain.

Section Use.
Context {V : Type} (Y : system V).
Local Open Scope ev_scope.

Lemma life_rep s : life Y s -> exists t, Rep Y s t /\ awf Y t.
Proof.
  intros H. enough (exists t, Rep Y s t) as (t & R) by (exists t; split; auto; eapply rep_awf; eauto).
  induction H as [|n s a H IH s' E|n s a v H IH s' E].
  - exists (a_start Y). apply start_rep.
  - destruct IH as (t & R). pose proof (get_rep Y n a s t R) as Q.
    destruct E as [(v & E)|(e & E)]; rewrite E in Q; destruct Q as (t' & _ & R'); eauto.
  - destruct IH as (t & R). pose proof (set_rep Y n a v s t R) as Q.
    destruct E as [E|(e & E)]; rewrite E in Q; destruct Q as (t' & _ & R'); eauto.
Qed.

Lemma unmerged_rep s t : Rep Y s t -> (unmerged s <-> a_merged t = false).
Proof.
  intros R. pose proof (r_merged _ _ _ R) as M. unfold unmerged. split.
  - intros H. destruct (a_merged t) eqn:Q; auto. destruct (proj1 M eq_refl) as (x & h & E & C).
    now apply H in E.
  - intros Q a h E C. enough (a_merged t = true) by congruence. apply M. eauto.
Qed.

(** ** Assignments first *)
Lemma set_frame_val a v t t' : a_set Y a v t = Done tt t' ->
  (a_cyc t' = a_cyc t /\ a_merged t' = a_merged t /\ a_pend t' = a_pend t /\
   a_st t' a = ASSIGNED /\ forall x, x <> a -> a_st t' x = a_st t x /\ a_val t' x = a_val t x) /\
  a_st t a <> EVALUATED /\
  a_val t' a = match s_initial Y a with
               | None => v
               | Some i => s_combine Y a (match a_st t a with UNINITIALIZED => i | _ => a_val t a end) v
               end.
Proof.
  intros E.
  assert (P : forall w t1 t2, a_set_circular Y a w t1 = Done tt t2 ->
    (a_cyc t2 = a_cyc t1 /\ a_merged t2 = a_merged t1 /\ a_pend t2 = a_pend t1 /\
    a_st t2 a = ASSIGNED /\ forall x, x <> a -> a_st t2 x = a_st t1 x /\ a_val t2 x = a_val t1 x) /\
    a_st t1 a <> EVALUATED /\ a_val t2 a = w).
  { intros w t1 t2 E1. unfold a_set_circular in E1. apply bnd_Done in E1.
    destruct E1 as ([] & t3 & C & E1).
    assert (X : a_cyc t3 = a_cyc t1 /\ a_merged t3 = a_merged t1 /\ a_pend t3 = a_pend t1 /\
                a_st t3 = a_st t1 /\ a_val t3 = a_val t1).
    { destruct (s_circular Y a); [|inversion C; subst; auto].
      unfold a_check in C. rewrite bnd_get in C.
      destruct (s_equal Y a (a_val t1 a) w); [inversion C; subst; auto|].
      rewrite bnd_get in C. destruct (a_cyc t1 a); [|discriminate]. rewrite bnd_put in C.
      destruct (s_compare Y a (a_val t1 a) w); [|discriminate]. inversion C; subst. simpl. auto. }
    destruct X as (X1 & X2 & X3 & X4 & X5).
    unfold a_set_plain in E1. rewrite bnd_get in E1.
    assert (t2 = set_st a ASSIGNED (set_val a w t3) /\ a_st t3 a <> EVALUATED) as (-> & NE).
    { destruct (a_st t3 a); try discriminate; inversion E1; split; try reflexivity; discriminate. }
    simpl. rewrite !set_fun_eq. split; [|split; [congruence|auto]].
    split; auto. split; auto. split; auto. split; auto.
    intros x D. rewrite !set_fun_neq by auto. now rewrite X4, X5. }
  unfold a_set in E. destruct (s_initial Y a) as [w|] eqn:SI; [|eauto].
  apply bnd_Done in E. destruct E as ([] & t1 & E1 & E). rewrite bnd_get in E.
  destruct (P _ _ _ E) as ((Z1 & Z2 & Z3 & Z4 & Z5) & Z6 & Z7).
  unfold a_initialize in E1. rewrite SI, bnd_get in E1.
  assert (F : forall x, x <> a -> a_st t1 x = a_st t x /\ a_val t1 x = a_val t x).
  { intros x D. destruct (a_st t a); inversion E1; subst t1; simpl; rewrite ?set_fun_neq by auto; auto. }
  assert (G : a_cyc t1 = a_cyc t /\ a_merged t1 = a_merged t /\ a_pend t1 = a_pend t).
  { destruct (a_st t a); inversion E1; subst t1; simpl; auto. }
  destruct G as (G1 & G2 & G3). split.
  - split; [congruence|]. split; [congruence|]. split; [congruence|]. split; auto.
    intros x D. destruct (F x D), (Z5 x D). split; congruence.
  - rewrite Z7. destruct (a_st t a) eqn:S; inversion E1; subst t1; simpl; rewrite ?set_fun_eq;
      (split; [congruence|reflexivity]).
Qed.

Lemma set_frame a v t t' : a_set Y a v t = Done tt t' ->
  a_cyc t' = a_cyc t /\ a_merged t' = a_merged t /\ a_pend t' = a_pend t /\
  a_st t' a = ASSIGNED /\ forall x, x <> a -> a_st t' x = a_st t x /\ a_val t' x = a_val t x.
Proof. intros E. apply (set_frame_val a v t t' E). Qed.

(** Only assignments so far. *)
Record fresh (t : astate V) : Prop := {
  fr_cyc : forall x, a_cyc t x = None;
  fr_merged : a_merged t = false;
  fr_pend : a_pend t = [];
  fr_st : forall x, a_st t x = ASSIGNED \/ (a_st t x = UNINITIALIZED /\ a_val t x = s_null Y)
}.

Lemma assigns_fresh h s : history Y h s -> only_assigns h -> exists t, Rep Y s t /\ fresh t.
Proof.
  intros H. induction H as [|h s e s' H IH S]; intros OA.
  - exists (a_start Y). split; [apply start_rep|]. constructor; simpl; auto.
  - destruct IH as (t & R & FR).
    { intros e' I. apply OA. apply in_or_app. now left. }
    destruct (OA e) as (a & v & ->); [apply in_or_app; right; now left|].
    inversion S as [|n s0 a0 v0 s1 E]; subst.
    pose proof (set_rep Y n a v s t R) as Q. rewrite E in Q. destruct Q as (t' & E' & R').
    exists t'. split; auto. destruct (set_frame a v t t' E') as (X1 & X2 & X3 & X4 & X5).
    destruct FR as [F1 F2 F3 F4]. constructor; try congruence.
    intros x. destruct (Nat.eq_dec x a) as [->|D]; [auto|]. destruct (X5 x D) as (-> & ->). auto.
Qed.

Lemma fresh_K t : fresh t -> K Y t [] None.
Proof.
  intros [F1 F2 F3 F4]. constructor; auto.
  - constructor; intros; rewrite F1 in *; discriminate.
  - intros f [].
  - exact I.
  - intros x Hx. destruct (F4 x) as [Q|(Q & _)]; congruence.
  - intros x l Hx. rewrite F1 in Hx. discriminate.
  - intros d X; discriminate.
  - exists (fun _ => 0), 0. intros x Hx. destruct (F4 x) as [Q|(Q & _)]; congruence.
Qed.

Lemma fresh_rest (B : nat -> V -> Prop) t :
  (forall a, s_circular Y a = true -> s_initial Y a = None -> B a (s_null Y)) -> fresh t ->
  (forall x, a_st t x = ASSIGNED -> B x (a_val t x)) -> rest Y B t.
Proof.
  intros HB FR HA. pose proof (k_wf _ _ _ _ (fresh_K t FR)) as W. destruct FR as [F1 F2 F3 F4].
  constructor; simpl; auto; unfold never; try tauto.
  - intros x Hx. destruct (F4 x) as [Q|(Q & _)]; congruence.
  - intros x Hx. now elim Hx.
  - rewrite F3. intros x [].
  - intros d X; discriminate.
  - intros x Hx. destruct (F4 x) as [Q|(Q & E)]; [auto|].
    destruct Hx as [X|[X|[(X1 & X2)|(X1 & X2)]]]; try congruence.
    rewrite E. now apply HB.
Qed.

(** ** Then demands *)
Lemma demands_ind (P : state V -> astate V -> Prop) :
  (forall t s, Rep Y s t -> fresh t -> P s t) ->
  (forall s t n a v s' t', Rep Y s t -> P s t -> get Y n a s = Done v s' -> a_get Y n a t = Done v t' ->
     Rep Y s' t' -> P s' t') ->
  forall h s, history Y h s -> forall h1 h2, h = h1 ++ h2 -> only_assigns h1 -> only_demands h2 ->
  exists t, Rep Y s t /\ P s t.
Proof.
  intros P0 PS h s H. induction H as [|h s e s' H IH S]; intros h1 h2 E OA OD.
  - exists (a_start Y). split; [apply start_rep|].
    apply P0; [apply start_rep|]. constructor; simpl; auto.
  - destruct (rev h2) as [|e' r] eqn:RV.
    + assert (h2 = []) by (rewrite <- (rev_involutive h2), RV; reflexivity). subst h2.
      rewrite app_nil_r in E. destruct (assigns_fresh (h ++ [e]) s') as (t & R & FR).
      * econstructor; eauto.
      * now rewrite E.
      * exists t. split; auto.
    + assert (h2 = rev r ++ [e']) by (rewrite <- (rev_involutive h2), RV; reflexivity). subst h2.
      rewrite app_assoc in E. apply app_inj_tail in E. destruct E as (-> & ->).
      destruct (IH h1 (rev r) eq_refl OA) as (t & R & Pt).
      { intros x I. apply OD. apply in_or_app. now left. }
      destruct (OD e') as (a & v & ->); [apply in_or_app; right; now left|].
      inversion S as [n s0 a0 v0 s1 E1|]; subst.
      pose proof (get_rep Y n a s t R) as Q. rewrite E1 in Q. destruct Q as (t' & E' & R').
      exists t'. split; auto. apply (PS s t n a v s' t'); auto.
Qed.

Section Equations.
Hypothesis HE : equal_sound Y.

Lemma demands_K h1 h2 s : history Y (h1 ++ h2) s -> only_assigns h1 -> only_demands h2 ->
  unmerged s -> exists t, Rep Y s t /\ K Y t [] None.
Proof.
  intros H OA OD U.
  destruct (demands_ind (fun s t => a_merged t = false -> K Y t [] None)) with (4 := eq_refl (h1 ++ h2)) (3 := H) as (t & R & Q); auto.
  - intros t s0 _ FR _. now apply fresh_K.
  - intros s0 t n a v s1 t' R IH E E' R' M.
    pose proof (rep_awf _ _ _ R) as W.
    pose proof (get_calm Y n a t W) as C. rewrite E' in C. destruct C as (_ & _ & G).
    apply (get_fix Y HE n a t [] v t'); auto. apply IH. eapply merged_back; eauto.
  - exists t. split; auto. apply Q. now apply (unmerged_rep s t R).
Qed.

Theorem equations h1 h2 s : history Y (h1 ++ h2) s -> only_assigns h1 -> only_demands h2 ->
  unmerged s -> forall a, e_status (at_ s a) = EVALUATED -> equation_holds Y s a.
Proof.
  intros H OA OD U a E. destruct (demands_K h1 h2 s H OA OD U) as (t & R & KK).
  destruct (k_eqn _ _ _ _ KK) as (rk & N & Q). rewrite (r_st _ _ _ R) in E.
  destruct (Q a E) as (_ & L & RL & HL). exists L. rewrite (r_val _ _ _ R). split; auto.
  intros b w I. destruct (HL b w I) as (X1 & X2 & _). unfold settled.
  rewrite (r_st _ _ _ R), (r_val _ _ _ R). auto.
Qed.

Theorem not_on_cycle h1 h2 s : history Y (h1 ++ h2) s -> only_assigns h1 -> only_demands h2 ->
  unmerged s -> forall a, s_circular Y a = false -> ~ clos_trans nat (depends Y s) a a.
Proof.
  intros H OA OD U a NC.
  destruct (demands_K h1 h2 s H OA OD U) as (t & R & KK).
  destruct (k_eqn _ _ _ _ KK) as (rk & N & Q).
  assert (ST : forall x y, depends Y s x y -> a_st t x = EVALUATED /\
     (a_st t y = ASSIGNED \/ rk y < rk x \/ (rk y = rk x /\ a_cyc t x <> None))).
  { intros x y (E & L & RN & HL). rewrite (r_st _ _ _ R) in E. split; auto.
    destruct (Q x E) as (_ & L' & RL & HL').
    destruct (next_in _ _ _ RN _ _ RL) as (w & I).
    { intros b u u' I I'. destruct (HL' b u' I') as (_ & <- & _).
      rewrite <- (HL b u I). apply (r_val _ _ _ R). }
    destruct (HL' y w I) as (_ & _ & X). intuition. }
  assert (TR : forall x y, clos_trans nat (depends Y s) x y -> a_st t x = EVALUATED /\
     (a_st t y = ASSIGNED \/ rk y < rk x \/ (rk y = rk x /\ a_cyc t x <> None))).
  { intros x y C. induction C as [x y C|x y z C1 (A1 & A2) C2 (B1 & B2)]; auto.
    split; auto. destruct A2 as [A2|[A2|(A2 & A3)]]; [congruence| |].
    - destruct B2 as [B2|[B2|(B2 & _)]]; auto; right; left; lia.
    - destruct B2 as [B2|[B2|(B2 & _)]]; auto; [right; left; lia|]. right; right. split; auto. congruence. }
  intros C. destruct (TR a a C) as (E & [X|[X|(_ & X)]]); [congruence|lia|].
  destruct (a_cyc t a) as [l|] eqn:Ca; [|congruence].
  pose proof (wf_circ _ _ (k_wf _ _ _ _ KK) _ _ Ca). congruence.
Qed.
End Equations.

(** ** Demands assign nothing *)
Definition unassigned {A} (m : M (astate V) A) : Prop :=
  forall t v t', m t = Done v t' -> forall x, a_st t' x = ASSIGNED -> a_st t x = ASSIGNED.

Lemma un_bnd {A C} (m : M (astate V) A) (k : A -> M (astate V) C) :
  unassigned m -> (forall v, unassigned (k v)) -> unassigned (bnd m k).
Proof.
  intros H1 H2 t v t' E x Hx. apply bnd_Done in E. destruct E as (u & t1 & E1 & E2).
  apply (H1 t u t1 E1). apply (H2 u t1 v t' E2). exact Hx.
Qed.
Lemma un_ret {A} (v : A) : unassigned (ret v).
Proof. intros t u t' E. inversion E; subst; auto. Qed.
Lemma un_get {A} (f : astate V -> A) : unassigned (get_st f).
Proof. intros t u t' E. inversion E; subst; auto. Qed.
Lemma un_put (f : astate V -> astate V) :
  (forall t x, a_st (f t) x = ASSIGNED -> a_st t x = ASSIGNED) -> unassigned (put_st f).
Proof. intros H t u t' E. inversion E; subst; auto. Qed.
Lemma un_throw {A} e : unassigned (A := A) (throw e).
Proof. intros t u t' E. discriminate. Qed.
Lemma un_crash {A} : unassigned (A := A) crash.
Proof. intros t u t' E. discriminate. Qed.
Lemma un_nofuel {A} : unassigned (A := A) nofuel.
Proof. intros t u t' E. discriminate. Qed.
Lemma un_st a c : c <> ASSIGNED -> unassigned (put_st (set_st a c)).
Proof.
  intros D. apply un_put. intros t x. simpl. unfold set_fun. destruct (x =? a); congruence.
Qed.
Lemma un_pop : unassigned (a_pop).
Proof. intros t u t' E. unfold a_pop in E. destruct (a_pend t); inversion E; subst; auto. Qed.

Ltac un :=
  repeat match goal with
  | |- unassigned (bnd _ _) => apply un_bnd; [|intros ?]
  | |- unassigned (ret _) => apply un_ret
  | |- unassigned (get_st _) => apply un_get
  | |- unassigned (throw _) => apply un_throw
  | |- unassigned crash => apply un_crash
  | |- unassigned nofuel => apply un_nofuel
  | |- unassigned a_pop => apply un_pop
  | |- unassigned (put_st (set_st _ _)) => apply un_st; discriminate
  | |- unassigned (put_st _) => apply un_put; intros ? ?; simpl; auto; fail
  | |- unassigned (if ?b then _ else _) => destruct b
  | |- unassigned (match ?b with _ => _ end) => destruct b
  end.

Lemma un_mark c l : unassigned (A := unit) (a_mark Y c l).
Proof.
  induction l as [|e l IH]; cbn [a_mark]; un; auto. unfold a_join. un.
Qed.

Lemma un_run (g : nat -> M (astate V) V) p : (forall b, unassigned (g b)) -> unassigned (run g p).
Proof. intros Hg. induction p; cbn [run]; un; auto. Qed.

Lemma un_pass (g : nat -> M (astate V) V) n : (forall b, unassigned (g b)) -> forall a i, unassigned (a_pass Y n g a i).
Proof.
  intros Hg. induction n as [|n IH]; intros a i; cbn [a_pass]; un; auto; unfold a_push; un.
  unfold a_recompute. un; [now apply un_run|]. unfold a_check. un.
Qed.

Lemma un_passes (g : nat -> M (astate V) V) m n : (forall b, unassigned (g b)) -> forall a, unassigned (a_passes Y n m g a).
Proof.
  intros Hg. induction n as [|n IH]; intros a; cbn [a_passes]; un; auto; try now apply un_pass.
  apply un_put. intros t x. simpl. destruct (inb x (a_mem t a)); congruence.
Qed.

Lemma un_a_get n : forall a, unassigned (a_get Y n a).
Proof.
  induction n as [|n IH]; intros a; cbn [a_get]; un.
  - unfold a_initialize. un.
  - unfold a_push. un.
  - now apply un_run.
  - unfold a_evaluate. un. now apply un_passes.
  - unfold a_push. un.
  - now apply un_run.
  - unfold a_evaluate. un. now apply un_passes.
  - unfold a_detected, a_mark_pending. un. apply un_mark.
Qed.

(** Bounds, for histories where assignments come first. *)
Lemma demands_rest B h1 h2 s :
  respected_but Y B (fun x => e_status (at_ s x) = ASSIGNED) ->
  (forall a, s_circular Y a = true -> s_initial Y a = None -> B a (s_null Y)) ->
  history Y (h1 ++ h2) s -> only_assigns h1 -> only_demands h2 ->
  (forall x, e_status (at_ s x) = ASSIGNED -> B x (e_value (at_ s x))) ->
  exists t, Rep Y s t /\ rest Y B t.
Proof.
  intros HB HN H OA OD HA.
  pose (P := fun (s : state V) (t : astate V) =>
     rest Y anything t /\
     (respected_but Y B (fun x => a_st t x = ASSIGNED) ->
      (forall x, a_st t x = ASSIGNED -> B x (a_val t x)) -> rest Y B t)).
  destruct (demands_ind P) with (4 := eq_refl (h1 ++ h2)) (3 := H) as (t & R & Q1 & Q2); auto.
  - intros t s0 _ FR. split; [apply fresh_rest; auto|].
    + unfold anything. auto.
    + intros x _. exact I.
    + intros _. apply fresh_rest; auto.
  - intros s0 t n a v s1 t' R (R1 & R2) E E' R'.
    pose proof (get_rest Y anything (anything_respected Y) n a t R1) as X. rewrite E' in X.
    destruct X as (X1 & _ & _ & _ & X5). split; auto.
    intros HB' HA'.
    assert (EQ : forall x, a_st t x = ASSIGNED <-> a_st t' x = ASSIGNED).
    { intros x. split; intros Hx.
      - destruct (X5 x) as (Y1 & Y2); [now right|]. congruence.
      - apply (un_a_get n a t v t' E'). exact Hx. }
    assert (HBt : respected_but Y B (fun x => a_st t x = ASSIGNED)).
    { destruct HB' as [B1 B2 B3]. constructor; intros; [eapply B1|eapply B2|eapply B3]; eauto;
        rewrite <- EQ; auto. }
    assert (RB : rest Y B t).
    { apply R2; [exact HBt|]. intros x Hx. destruct (X5 x) as (Y1 & Y2); [now right|].
      rewrite <- Y2. apply HA'. congruence. }
    assert (HBt' : respected_but Y B (fun x => a_st t x = EVALUATED \/ a_st t x = ASSIGNED)).
    { destruct HBt as [B1 B2 B3]. constructor; intros; [eapply B1|eapply B2|eapply B3]; eauto. }
    pose proof (get_rest_but Y B n a t HBt' RB) as X. rewrite E' in X. apply X.
  - exists t. split; auto. apply Q2.
    + destruct HB as [B1 B2 B3]. constructor; intros; [eapply B1|eapply B2|eapply B3]; eauto;
        rewrite (r_st _ _ _ R); auto.
    + intros x Hx. rewrite <- (r_val _ _ _ R). apply HA. now rewrite (r_st _ _ _ R).
Qed.

(** ** The order of demands *)
Section Order.
Variable le : V -> V -> Prop.
Hypothesis HE : equal_sound Y.
Hypothesis HM : monotone Y le.
Hypothesis HF : fixed_reads Y.
Hypothesis HR : forall v, le v v.
Hypothesis HL : least_start Y le.

Lemma below h1 h2 s h1' h2' s' :
  history Y (h1 ++ h2) s -> only_assigns h1 -> only_demands h2 -> unmerged s ->
  history Y (h1' ++ h2') s' -> only_assigns h1' -> only_demands h2' ->
  (forall x, assigned s x = assigned s' x) ->
  forall a, settled s a -> settled s' a -> le (e_value (at_ s' a)) (e_value (at_ s a)).
Proof.
  intros H OA OD U H' OA' OD' EA a Sa Sa'.
  pose (B := fun x v => settled s x -> le v (e_value (at_ s x))).
  assert (AS : forall x, e_status (at_ s x) = ASSIGNED <-> e_status (at_ s' x) = ASSIGNED).
  { intros x. specialize (EA x). unfold assigned in EA.
    destruct (e_status (at_ s x)), (e_status (at_ s' x)); split; congruence. }
  destruct HL as [L1 L2 L3].
  destruct (demands_rest B h1' h2' s') as (t' & R' & RT); auto.
  - constructor.
    + intros x L v NA RL HB Sx. destruct Sx as [Sx|Sx]; [|now apply AS in Sx].
      destruct (equations HE h1 h2 s H OA OD U x Sx) as (L' & RL' & HL').
      apply (HM x L v L' (e_value (at_ s x)) RL RL').
      pose proof (HF x L v L' _ RL RL') as FF. clear RL RL'.
      revert L' FF HL'. induction L as [|(b, w) L IH]; intros [|(b', w') L'] FF HL'; try discriminate; constructor.
      * simpl in *. inversion FF; subst b'. split; auto.
        destruct (HL' b w' (or_introl eq_refl)) as (Q1 & Q2). rewrite <- Q2.
        apply (HB b w); [now left|exact Q1].
      * inversion FF. apply IH; auto.
        -- intros b0 w0 I0. apply HB. now right.
        -- intros b0 w0 I0. apply HL'. now right.
    + intros x NA C _. apply L1; auto.
    + intros x v NA C _. apply (L2 x); auto.
  - intros x C NI _. apply (L3 x); auto.
  - intros x Hx _. specialize (EA x). unfold assigned in EA. rewrite Hx in EA.
    rewrite (proj2 (AS x) Hx) in EA. inversion EA as [Q]. rewrite Q. apply HR.
  - rewrite (r_val _ _ _ R'). apply (j_bound _ _ _ _ _ _ _ _ _ RT); auto.
    unfold settled in Sa'. rewrite (r_st _ _ _ R') in Sa'. tauto.
Qed.
End Order.

(** ** Systems without circular attributes *)
Section PlainUse.
Hypothesis HP : plain Y.

Lemma demands_sound h1 h2 s : history Y (h1 ++ h2) s -> only_assigns h1 -> only_demands h2 ->
  sound Y (assigned s) s /\ forall x, ~ in_progress s x.
Proof.
  intros H OA OD.
  destruct (demands_ind (fun s t => sound Y (assigned s) s /\ forall x, ~ in_progress s x))
     with (4 := eq_refl (h1 ++ h2)) (3 := H) as (t & R & Q); auto.
  - intros t s0 R FR. split.
    + constructor; auto. intros x Hx. rewrite (r_st _ _ _ R) in Hx.
      destruct (fr_st _ FR x) as [Q|(Q & _)]; congruence.
    + intros x Hx. unfold in_progress in Hx. rewrite (r_st _ _ _ R) in Hx.
      destruct (fr_st _ FR x) as [Q|(Q & _)]; congruence.
  - intros s0 t n a v s1 t' R (S0 & N0) E E' R'.
    assert (HC : forall x, in_progress s0 x -> clos_trans nat (needs Y (assigned s0)) x a).
    { intros x Hx. now apply N0 in Hx. }
    pose proof (get_good Y (assigned s0) HP n a s0 S0 HC) as X. rewrite E in X.
    destruct X as (_ & _ & _ & S1 & C1 & _).
    assert (NP : forall x, ~ in_progress s1 x) by (intros x Hx; apply (N0 x); now apply C1).
    split; auto.
    (* what was assigned is the same *)
    assert (EA : forall x, assigned s0 x = assigned s1 x) by apply (so_known _ _ _ S1).
    constructor; auto. intros x Hx. pose proof (so_value _ _ _ S1 x Hx) as VV.
    clear - VV EA. induction VV as [a v Q|a L v Q RL HL IH].
    + apply value_known. now rewrite <- EA.
    + eapply value_computed; eauto. now rewrite <- EA.
Qed.
End PlainUse.
End Use.
