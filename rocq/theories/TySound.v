(** * The checker accepts only well typed programs: proofs. *)
From Coq Require Import List Arith Bool Lia.
From Verif Require Import TyModel TySpec TyEq.
Import ListNotations.

Section Sound.
Variable P : program.
Hypothesis W : wf_types P.

(** ** Substitution *)
Lemma inst_nil : forall s u t, p_env P u = [] -> inst P s u t = t.
Proof.
  intros s u t E. induction t as [d|fs r HF HR|t IH] using ty_ind2; cbn.
  - destruct (p_type P d) as [ | | |[p|] i ph sg]; try reflexivity. rewrite E. reflexivity.
  - rewrite HR. f_equal. induction HF as [|[k t] l H _ IHl]; [reflexivity|]. cbn in *.
    rewrite H, IHl. reflexivity.
  - rewrite IH. reflexivity.
Qed.

Lemma inst_no_poly : forall s u t, no_poly P t -> inst P s u t = t.
Proof.
  intros s u t. induction t as [d|fs r HF HR|t IH] using ty_ind2; cbn.
  - destruct (p_type P d) as [ | | |[p|] i ph sg]; intro H; try reflexivity. contradiction.
  - intros [H1 H2]. rewrite (HR H2). f_equal. clear HR H2.
    induction HF as [|[k t] l H _ IHl]; [reflexivity|]. cbn in *. destruct H1 as [A B].
    rewrite (H A), (IHl B). reflexivity.
  - intro H. rewrite (IH H). reflexivity.
Qed.

Lemma inst_same : forall s u t1 t2, same P t1 t2 -> same P (inst P s u t1) (inst P s u t2).
Proof.
  intros s u t1 t2 H. induction H using same_ind2.
  - apply same_refl.
  - apply same_sym. assumption.
  - eapply same_trans; eassumption.
  - cbn. rewrite H. rewrite (inst_no_poly s u t (wf_rename W _ H)). apply same_rename. exact H.
  - cbn. apply same_remote.
  - cbn. apply same_fun; [|assumption]. clear IHsame H0.
    induction H as [|[k1 a1] [k2 a2] l l' [A [B C]] _ IH]; cbn; constructor; [|exact IH].
    split; assumption.
Qed.

Definition insto (s : instantiation) (u : option nat) (t : ty) : ty :=
  match u with None => t | Some u => inst P s u t end.

(** ** States *)
Record sound_st0 (st : state) : Prop := mkSound {
  so_memo : forall e t, s_memo st e = Some t ->
      forall s v, agrees st s v -> has_type P s v e t;
  so_var : forall x t t', p_vtype P x = Some t -> s_pmemo st x = Some t' -> same P t t' }.
Definition sound_st (st : state) : Prop := s_err st = false -> sound_st0 st.

Definition bnd (st : state) (u p i : nat) (t : ty) : Prop :=
  forall d ph sg x, p_type P d = DFormal (Some p) i ph sg -> In (Some x) sg ->
  forall s v, agrees st s v -> exists t', element P t t' /\ same P t' (inst P s u x).

Record steps (st st' : state) : Prop := mkSteps {
  sp_err : s_err st' = false -> s_err st = false;
  sp_slot : forall u p i t, s_slot st u p i = Some t -> s_slot st' u p i = Some t;
  sp_pm : forall x t, s_pmemo st x = Some t -> s_pmemo st' x = Some t;
  sp_fresh : s_err st' = false -> forall u p i t,
      s_slot st u p i = None -> s_slot st' u p i = Some t -> bnd st' u p i t }.

Lemma agrees_back : forall st st' s v, steps st st' -> agrees st' s v -> agrees st s v.
Proof.
  intros st st' s v [_ A B _] [C D]. split.
  - intros u p i t H. apply C. apply A. exact H.
  - intros x t H. apply D. apply B. exact H.
Qed.

Lemma steps_refl : forall st, steps st st.
Proof. intro st. constructor; auto. intros _ u p i t A B. congruence. Qed.

Lemma steps_trans : forall a b c, steps a b -> steps b c -> steps a c.
Proof.
  intros a b c H K. pose proof (agrees_back b c) as AB.
  destruct H as [H1 H2 H3 H4]. constructor.
  - intro E. apply H1. apply (sp_err _ _ K). exact E.
  - intros u p i t E. apply (sp_slot _ _ K). apply H2. exact E.
  - intros x t E. apply (sp_pm _ _ K). apply H3. exact E.
  - intros E u p i t N S. destruct (s_slot b u p i) as [t'|] eqn:M.
    + pose proof (sp_slot _ _ K _ _ _ _ M) as M'. rewrite S in M'. injection M' as <-.
      intros d ph sg x Hd Hx s v Ha. apply (H4 (sp_err _ _ K E) _ _ _ _ N M _ _ _ _ Hd Hx s v).
      apply (AB s v K Ha).
    + exact (sp_fresh _ _ K E _ _ _ _ M S).
Qed.

(** ** Triples *)
Definition tri {A} (m : M A) (Q : A -> instantiation -> (nat -> ty) -> Prop) : Prop :=
  forall st st' a, sound_st st -> m st = Done (st', a) ->
    steps st st' /\ sound_st st' /\
    (s_err st' = false -> forall s v, agrees st' s v -> Q a s v).

Lemma tri_ret : forall A (a : A) (Q : A -> instantiation -> (nat -> ty) -> Prop),
  (forall s v, Q a s v) -> tri (ret a) Q.
Proof.
  intros A a Q H st st' b S E. injection E as <- <-.
  split; [apply steps_refl|]. split; [exact S|]. intros _ s v _. apply H.
Qed.

Lemma tri_conseq : forall A (m : M A) (Q Q' : A -> instantiation -> (nat -> ty) -> Prop),
  tri m Q -> (forall a s v, Q a s v -> Q' a s v) -> tri m Q'.
Proof.
  intros A m Q Q' H K st st' a S E. destruct (H _ _ _ S E) as [X [Y Z]].
  split; [exact X|]. split; [exact Y|]. intros F s v Ha. apply K. apply Z; assumption.
Qed.

Lemma tri_bind : forall A B (m : M A) (f : A -> M B)
    (Q : A -> instantiation -> (nat -> ty) -> Prop) (Q' : B -> instantiation -> (nat -> ty) -> Prop),
  tri m Q -> (forall a, tri (f a) (fun b s v => Q a s v -> Q' b s v)) -> tri (bind m f) Q'.
Proof.
  intros A B m f Q Q' H K st st' b S E. unfold bind in E.
  destruct (m st) as [[st1 a]| | |] eqn:E1; try discriminate.
  destruct (H _ _ _ S E1) as [X [Y Z]].
  destruct (K a _ _ _ Y E) as [X' [Y' Z']].
  split; [exact (steps_trans _ _ _ X X')|]. split; [exact Y'|].
  intros F s v Ha. apply (Z' F s v Ha).
  apply Z; [exact (sp_err _ _ X' F)|exact (agrees_back _ _ _ _ X' Ha)].
Qed.

Lemma tri_abort : forall A (Q : A -> instantiation -> (nat -> ty) -> Prop), tri abort Q.
Proof. intros A Q st st' a _ E. discriminate. Qed.
Lemma tri_ub : forall A (Q : A -> instantiation -> (nat -> ty) -> Prop), tri ub Q.
Proof. intros A Q st st' a _ E. discriminate. Qed.
Lemma tri_out : forall A (Q : A -> instantiation -> (nat -> ty) -> Prop), tri out Q.
Proof. intros A Q st st' a _ E. discriminate. Qed.

Lemma tri_err : forall (Q : unit -> instantiation -> (nat -> ty) -> Prop), tri err Q.
Proof.
  intros Q st st' a S E. injection E as <- <-. split; [|split].
  - constructor; cbn; auto; intro; discriminate.
  - intro F. discriminate.
  - intro F. discriminate.
Qed.

Lemma tri_err_then : forall A (m : M A) (Q : A -> instantiation -> (nat -> ty) -> Prop),
  tri m (fun _ _ _ => True) -> tri (err ;; m) Q.
Proof.
  intros A m Q H. apply (tri_bind _ _ err (fun _ => m) (fun _ _ _ => False)).
  - apply tri_err.
  - intros _. apply (tri_conseq _ _ _ _ H). intros a s v _ F. contradiction.
Qed.

Lemma tri_lift : forall A (r : res A) (Q : A -> instantiation -> (nat -> ty) -> Prop),
  (forall a, r = Done a -> forall s v, Q a s v) -> tri (lift r) Q.
Proof.
  intros A r Q H st st' a S E. unfold lift in E. destruct r as [x| | |]; try discriminate.
  injection E as <- <-. split; [apply steps_refl|]. split; [exact S|].
  intros _ s v _. apply H. reflexivity.
Qed.

(** branching on the state *)
Lemma tri_state : forall A (f : state -> M A) (Q : A -> instantiation -> (nat -> ty) -> Prop),
  (forall st0, tri (f st0) Q) -> tri (fun st => f st st) Q.
Proof. intros A f Q H st st' a S E. exact (H st st st' a S E). Qed.

Variable N : nat.

Lemma tri_equal : forall t1 t2,
  tri (check_equal P N t1 t2)
      (fun _ _ _ => match t1, t2 with Some a, Some b => same P a b | _, _ => True end).
Proof.
  intros [a|] [b|]; cbn [check_equal]; try (apply tri_ret; intros; exact I).
  apply (tri_bind _ _ _ _ (fun r _ _ => r = true -> same P a b)).
  - apply tri_lift. intros r Hr _ _ ->. exact (type_eq_true _ _ _ _ Hr).
  - intros [|].
    + apply tri_ret. intros s v H. apply H. reflexivity.
    + apply tri_err.
Qed.

Lemma tri_tsubst : forall u t,
  tri (tsubst P u t) (fun o s _ => o = Some (inst P s u t)).
Proof.
  intros u t. induction t as [d|fs r HF HR|t IH] using ty_ind2; cbn [tsubst inst].
  - unfold bound_in. destruct (p_type P d) as [ | | |[p|] i ph sg];
      try (apply tri_ret; intros; reflexivity).
    destruct (existsb (Nat.eqb p) (p_env P u)); [|apply tri_ret; intros; reflexivity].
    intros st st' a S E. destruct (s_slot st u p i) as [t'|] eqn:Es.
    + injection E as <- <-. split; [apply steps_refl|]. split; [exact S|].
      intros _ s v [A _]. rewrite (A _ _ _ _ Es). reflexivity.
    + revert st st' a S E Es.
      assert (T : tri (err ;; ret None) (fun (o : option ty) (s : instantiation) (_ : nat -> ty) => o = Some (s u p i))).
      { apply tri_err_then. apply tri_ret. intros; exact I. }
      intros st st' a S E _. exact (T _ _ _ S E).
  - apply (tri_bind _ _ _ _ (fun l s _ => l = map (fun f => (fst f, inst P s u (snd f))) fs)).
    + clear HR. induction HF as [|[k t] l H _ IH]; cbn [map fst snd].
      * apply tri_ret. intros; reflexivity.
      * cbn [snd] in H. apply (tri_bind _ _ _ _ _ _ H). intros [t'|]; [|apply tri_abort].
        apply (tri_bind _ _ _ _ _ _ IH). intro l''. apply tri_ret.
        intros s v E1 E2. injection E2 as ->. rewrite E1. reflexivity.
    + intro fs'. apply (tri_bind _ _ _ _ _ _ HR). intros [r'|]; [|apply tri_abort].
      apply tri_ret. intros s v E1 E2. injection E1 as ->. rewrite E2. reflexivity.
  - apply (tri_bind _ _ _ _ _ _ IH). intros [t'|]; [|apply tri_abort].
    apply tri_ret. intros s v E. injection E as ->. reflexivity.
Qed.

Lemma tri_subst : forall u t,
  tri (type_subst P u (Some t)) (fun o s _ => o = Some (insto s u t)).
Proof.
  intros [u|] t; cbn [type_subst insto].
  - destruct (p_env P u) as [|p l] eqn:E.
    + apply tri_ret. intros s v. rewrite (inst_nil s u t E). reflexivity.
    + apply tri_tsubst.
  - apply tri_ret. reflexivity.
Qed.

Lemma tri_subst_null : forall u, tri (type_subst P u None) (fun _ _ _ => True).
Proof.
  intros [u|]; cbn [type_subst].
  - destruct (p_env P u); [apply tri_ret; intros; exact I|apply tri_abort].
  - apply tri_ret; intros; exact I.
Qed.

Lemma first_some_in : forall l t, first_some l = Some t -> In (Some t) l.
Proof.
  induction l as [|[x|] l IH]; intros t H; cbn in *; [discriminate| |].
  - injection H as ->. left. reflexivity.
  - right. apply IH. exact H.
Qed.

Lemma tri_elem : forall n t, tri (elem P n t) (fun r _ _ => element P t r).
Proof.
  assert (X : forall t, tri (err ;; ret (p_bool P)) (fun r _ _ => element P t r)).
  { intro t. apply tri_err_then. apply tri_ret. intros; exact I. }
  induction n as [|n IH]; intro t; [apply tri_out|]. cbn [elem].
  destruct t as [d|fs r|t'].
  - destruct (p_type P d) as [ |[el|]|t'|o i ph sg] eqn:E; try apply X.
    + apply tri_ret. intros. apply el_inst. exact E.
    + apply (tri_conseq _ _ _ _ (IH t')). intros a s v H. apply el_rename with t'; assumption.
    + destruct (first_some sg) as [t'|] eqn:F; [|apply X].
      apply tri_ret. intros. eapply el_formal; [exact E|]. apply first_some_in. exact F.
  - apply X.
  - apply (tri_conseq _ _ _ _ (IH t')). intros a s v H. apply el_remote. exact H.
Qed.

Definition rel (t1 : option ty) (u : option nat) (t2 : ty) (s : instantiation) : Prop :=
  match t1 with Some a => same P a (insto s u t2) | None => True end.

Lemma tri_cdecls : forall u cs,
  (forall a b, tri (cs a b) (fun _ s _ => same P a (inst P s u b))) ->
  forall l1 l2,
  tri (cdecls cs l1 l2)
      (fun _ s _ => Forall2 (fun x y => fst x = fst y /\ same P (snd x) (snd y)) l1
                            (map (fun f => (fst f, inst P s u (snd f))) l2)).
Proof.
  intros u cs H. induction l1 as [|[k1 a1] l1 IH]; intros [|[k2 a2] l2]; cbn [cdecls];
    try apply tri_err.
  - apply tri_ret. intros. constructor.
  - destruct (Bool.eqb k1 k2) eqn:K; [|apply tri_err]. apply Bool.eqb_prop in K.
    apply (tri_bind _ _ _ _ _ _ (H a1 a2)). intros _.
    apply (tri_conseq _ _ _ _ (IH l2)). intros _ s v F S. cbn. constructor; [|exact F].
    split; [exact K|exact S].
Qed.

Lemma tri_csigs : forall u cs,
  (forall a b, tri (cs a b) (fun _ s _ => same P a (inst P s u b))) ->
  forall t l,
  tri (csigs P N cs t l)
      (fun _ s _ => forall a x, t = Some a -> In (Some x) l ->
                    exists t', element P a t' /\ same P t' (inst P s u x)).
Proof.
  intros u cs H t. induction l as [|[x|] l IH]; cbn [csigs].
  - apply tri_ret. intros s v a x _ [].
  - destruct t as [t|]; [|].
    + apply (tri_bind _ _ _ _ (fun _ s _ => exists t', element P t t' /\ same P t' (inst P s u x))).
      * apply (tri_bind _ _ _ _ _ _ (tri_elem N t)). intro e.
        apply (tri_conseq _ _ _ _ (H e x)). intros _ s v A B. exists e. split; assumption.
      * intros _. apply (tri_conseq _ _ _ _ IH). intros _ s v A B a y E [F|F].
        -- injection F as <-. injection E as <-. exact B.
        -- apply A; assumption.
    + apply (tri_bind _ _ _ _ (fun _ _ _ => False)); [apply tri_abort|].
      intros _. apply (tri_conseq _ _ _ _ IH). intros _ s v _ F. contradiction.
  - apply (tri_conseq _ _ _ _ IH). intros _ s v A a y E [F|F]; [discriminate|]. apply A; assumption.
Qed.

Lemma tri_csubst : forall n t1 u t2,
  tri (csubst P N n t1 u t2) (fun _ s _ => rel t1 (Some u) t2 s).
Proof.
  induction n as [|n IH]; intros t1 u t2; [apply tri_out|]. cbn [csubst].
  assert (IH2 : forall a b, tri ((fun a b => csubst P N n (Some a) u b) a b)
                                (fun _ s _ => same P a (inst P s u b))).
  { intros a b. exact (IH (Some a) u b). }
  intros st st' [] S E.
  destruct (complete P st u) eqn:C.
  { assert (T : tri (o <- type_subst P (Some u) (Some t2) ;; check_equal P N t1 o)
                    (fun _ s _ => rel t1 (Some u) t2 s)).
    { apply (tri_bind _ _ _ _ _ _ (tri_subst (Some u) t2)). intro o.
      apply (tri_conseq _ _ _ _ (tri_equal t1 o)). intros _ s v A ->.
      unfold rel. destruct t1; [exact A|exact I]. }
    exact (T _ _ _ S E). }
  clear C. destruct t2 as [d|fs r|t2].
  - destruct (p_type P d) as [ |el|t'|o i0 ph sigs] eqn:Ed.
    1,2,3: (assert (T : tri (check_equal P N t1 (Some (TUse d))) (fun _ s _ => rel t1 (Some u) (TUse d) s));
      [apply (tri_conseq _ _ _ _ (tri_equal t1 (Some (TUse d)))); intros _ s v A; unfold rel;
       destruct t1; [|exact I]; cbn; rewrite Ed; exact A
      |exact (T _ _ _ S E)]).
    destruct (bound_in P u d) as [[p i]|] eqn:B.
    2:{ assert (T : tri (check_equal P N t1 (Some (TUse d)) ;; ub) (fun (_:unit) s _ => rel t1 (Some u) (TUse d) s)).
        { apply (tri_bind _ _ _ _ _ _ (tri_equal t1 (Some (TUse d)))). intros _. apply tri_ub. }
        exact (T _ _ _ S E). }
    unfold bound_in in B. rewrite Ed in B.
    destruct o as [p0|]; [|discriminate].
    destruct (existsb (Nat.eqb p0) (p_env P u)) eqn:X; [|discriminate].
    injection B as <- <-.
    destruct (s_slot st u p0 i0) as [t|] eqn:Es.
    + destruct (tri_equal t1 (Some t) _ _ _ S E) as [A1 [A2 A3]].
      split; [exact A1|]. split; [exact A2|]. intros F s v Ha. specialize (A3 F s v Ha).
      unfold rel. destruct t1 as [a|]; [|exact I]. cbn. rewrite Ed, X.
      destruct (agrees_back _ _ _ _ A1 Ha) as [G _]. rewrite (G _ _ _ _ Es). exact A3.
    + unfold bind, set_slot in E.
      set (st1 := mkSt (s_err st)
             (fun u' p' i' => if (u' =? u) && (p' =? p0) && (i' =? i0) then t1 else s_slot st u' p' i')
             (s_memo st) (s_pmemo st)) in E.
      assert (Hs : forall u' p' i', s_slot st1 u' p' i' =
                 if (u' =? u) && (p' =? p0) && (i' =? i0) then t1 else s_slot st u' p' i') by reflexivity.
      assert (Hme : s_slot st1 u p0 i0 = t1) by (rewrite Hs, !Nat.eqb_refl; reflexivity).
      assert (Hold : forall u' p' i' t, s_slot st u' p' i' = Some t -> s_slot st1 u' p' i' = Some t).
      { intros u' p' i' t Ht. rewrite Hs. destruct ((u' =? u) && (p' =? p0) && (i' =? i0)) eqn:Q; [|exact Ht].
        apply andb_prop in Q. destruct Q as [Q Q3]. apply andb_prop in Q. destruct Q as [Q1 Q2].
        apply Nat.eqb_eq in Q1, Q2, Q3. subst u' p' i'. congruence. }
      assert (S1 : sound_st st1).
      { intros F. constructor; [|exact (so_var _ (S F))].
        intros e t Hm s v [G1 G2]. apply (so_memo _ (S F) e t Hm s v). split.
        - intros u' p' i' t' Ht. apply G1. apply Hold. exact Ht.
        - exact G2. }
      destruct (tri_csigs u _ IH2 t1 sigs _ _ _ S1 E) as [A1 [A2 A3]].
      split; [|split; [exact A2|]].
      * constructor.
        -- intro F. exact (sp_err _ _ A1 F).
        -- intros u' p' i' t Ht. apply (sp_slot _ _ A1). apply Hold. exact Ht.
        -- exact (sp_pm _ _ A1).
        -- intros F u' p' i' t Hn Ht.
           destruct ((u' =? u) && (p' =? p0) && (i' =? i0)) eqn:Q.
           ++ apply andb_prop in Q. destruct Q as [Q Q3]. apply andb_prop in Q. destruct Q as [Q1 Q2].
              apply Nat.eqb_eq in Q1, Q2, Q3. subst u' p' i'.
              intros d' ph' sg' x Hd' Hx s v Ha.
              pose proof (wf_index W _ _ Ed Hd') as <-. rewrite Ed in Hd'. injection Hd' as <- <-.
              destruct t1 as [a|].
              ** pose proof (sp_slot _ _ A1 _ _ _ _ Hme) as Ht'. rewrite Ht in Ht'. injection Ht' as <-.
                 apply (A3 F s v Ha t x eq_refl Hx).
              ** apply (sp_fresh _ _ A1 F _ _ _ _ Hme Ht d ph sigs x Ed Hx s v Ha).
           ++ assert (Hn1 : s_slot st1 u' p' i' = None) by (rewrite Hs, Q; exact Hn).
              exact (sp_fresh _ _ A1 F _ _ _ _ Hn1 Ht).
      * intros F s v Ha. unfold rel. destruct t1 as [a|]; [|exact I]. cbn. rewrite Ed, X.
        destruct (agrees_back _ _ _ _ A1 Ha) as [G _]. rewrite (G _ _ _ _ Hme). apply same_refl.
  - destruct t1 as [a|]; [|discriminate].
    assert (T : tri (b <- lift (base P N a) ;;
               match b with
               | TFun fs1 r1 =>
                   cdecls (fun a b => csubst P N n (Some a) u b) fs1 fs ;;
                   csubst P N n (Some r1) u r
               | _ => err
               end) (fun _ s _ => rel (Some a) (Some u) (TFun fs r) s)).
    { apply (tri_bind _ _ _ _ (fun b _ _ => same P a b)).
      - apply tri_lift. intros b Hb _ _. exact (base_same _ _ _ _ Hb).
      - intros [d|fs1 r1|x]; try apply tri_err.
        apply (tri_bind _ _ _ _ _ _ (tri_cdecls u _ IH2 fs1 fs)). intros _.
        apply (tri_conseq _ _ _ _ (IH2 r1 r)). intros _ s v A B D. cbn.
        apply same_trans with (TFun fs1 r1); [exact D|]. apply same_fun; assumption. }
    exact (T _ _ _ S E).
  - destruct (IH t1 u t2 _ _ _ S E) as [A1 [A2 A3]]. split; [exact A1|]. split; [exact A2|].
    intros F s v Ha. specialize (A3 F s v Ha). unfold rel in *. destruct t1 as [a|]; [|exact I].
    cbn in *. apply same_trans with (inst P s u t2); [exact A3|]. apply same_sym. apply same_remote.
Qed.

Lemma tri_check_subst : forall n t1 u t2,
  tri (check_subst P N n t1 u t2)
      (fun _ s _ => match t2 with Some t2 => rel t1 u t2 s | None => True end).
Proof.
  intros n t1 [u|] [t2|]; cbn [check_subst].
  - apply tri_csubst.
  - intros st st' a S E. destruct (complete P st u); [|discriminate].
    assert (T : tri (o <- type_subst P (Some u) None ;; check_equal P N t1 o) (fun (_:unit) _ _ => True)).
    { apply (tri_bind _ _ _ _ _ _ (tri_subst_null (Some u))). intro o.
      apply (tri_conseq _ _ _ _ (tri_equal t1 o)). intros; exact I. }
    exact (T _ _ _ S E).
  - apply (tri_conseq _ _ _ _ (tri_equal t1 (Some t2))). intros _ s v A. unfold rel. destruct t1; exact A.
  - apply (tri_conseq _ _ _ _ (tri_equal t1 None)). intros; exact I.
Qed.

(** ** Expressions and patterns *)
Section Step.
Variable R : rec.
Record good : Prop := mkGood {
  g_infer : forall e, tri (r_infer R e) (fun o s v => exists t, o = Some t /\ has_type P s v e t);
  g_check : forall e t, tri (r_check R e t)
      (fun _ s v => match t with Some t => has_type P s v e t | None => exists t, has_type P s v e t end);
  g_pinfer : forall p, tri (r_pinfer R p)
      (fun o s v => plain P false p -> exists t, o = Some t /\ has_ptype P s v p t);
  g_pcheck : forall p t, tri (r_pcheck R p t)
      (fun _ s v => plain P true p -> match t with Some t => has_ptype P s v p t | None => True end) }.
Hypothesis G : good.

Lemma tri_decl : forall d,
  tri (decl_type P N R d) (fun o s v => exists t, o = Some t /\ value_type P s v d t).
Proof.
  intro d. unfold decl_type. destruct (v_kind (p_value P d)) as [t|old|set|x] eqn:K.
  - apply tri_ret. intros. exists t. split; [reflexivity|]. apply vt_typed. exact K.
  - apply (tri_conseq _ _ _ _ (g_infer G old)). intros o s v [t [A B]]. exists t. split; [exact A|].
    apply vt_rename with old; assumption.
  - apply (tri_bind _ _ _ _ _ _ (g_infer G set)). intros [c|]; [|apply tri_abort].
    apply (tri_bind _ _ _ _ _ _ (tri_elem N c)). intro t. apply tri_ret.
    intros s v A [c' [B C]]. injection B as <-. exists t. split; [reflexivity|].
    eapply vt_element; eassumption.
  - intros st st' a S E. destruct (s_pmemo st x) as [t|] eqn:Ex.
    + injection E as <- <-. split; [apply steps_refl|]. split; [exact S|].
      intros _ s v [_ A]. exists t. split; [reflexivity|]. rewrite <- (A _ _ Ex). apply vt_pattern. exact K.
    + assert (T : tri (err ;; ret None) (fun (o : option ty) s v => exists t, o = Some t /\ value_type P s v d t)).
      { apply tri_err_then. apply tri_ret. intros; exact I. }
      exact (T _ _ _ S E).
Qed.

Definition instf (s : instantiation) (u : option nat) (fs : list (bool * ty)) :=
  map (fun f => (fst f, insto s u (snd f))) fs.

Lemma tri_actuals : forall u args fs,
  tri (actuals P N R u fs args) (fun _ s v => fits P s v (instf s u fs) args).
Proof.
  intro u. induction args as [|a args IH]; intros fs; cbn [actuals].
  - destruct fs as [|[[] t] fs]; [| |apply tri_err]; apply tri_ret; intros; constructor.
  - destruct fs as [|[k t] fs]; [apply tri_err|].
    apply (tri_bind _ _ _ _ (fun _ s v => has_type P s v a (insto s u t))).
    + apply tri_state with (f := fun st => if is_complete P st u then
                t' <- type_subst P u (Some t) ;; r_check R a t'
              else
                o <- r_infer R a ;; check_subst P N N o u (Some t)).
      intro st0. destruct (is_complete P st0 u).
      * apply (tri_bind _ _ _ _ _ _ (tri_subst u t)). intro o.
        apply (tri_conseq _ _ _ _ (g_check G a o)). intros _ s v A ->. exact A.
      * apply (tri_bind _ _ _ _ _ _ (g_infer G a)). intro o.
        apply (tri_conseq _ _ _ _ (tri_check_subst N o u (Some t))). intros _ s v A [t' [-> B]].
        eapply ht_same; [exact B|exact A].
    + intros _. apply (tri_conseq _ _ _ _ (IH _)). intros _ s v A B. cbn [instf map fst snd].
      destruct k.
      * apply fits_seq_cons; assumption.
      * apply fits_cons; assumption.
Qed.

Lemma tri_check_actuals : forall args ft u,
  tri (check_actuals P N R args ft u)
      (fun o s v => exists t fs r, ft = Some t /\ same P t (TFun fs r) /\
                    o = Some (insto s u r) /\ fits P s v (instf s u fs) args).
Proof.
  intros args [ft|] u; cbn [check_actuals]; [|apply tri_abort].
  apply (tri_bind _ _ _ _ (fun b _ _ => same P ft b)).
  - apply tri_lift. intros b Hb _ _. exact (base_same _ _ _ _ Hb).
  - intros [d|fs r|x]; try (apply tri_err_then; apply tri_ret; intros; exact I).
    apply (tri_bind _ _ _ _ _ _ (tri_actuals u args fs)). intros _.
    apply (tri_conseq _ _ _ _ (tri_subst u r)). intros o s v -> A B.
    exists ft, fs, r. repeat split; assumption.
Qed.

Lemma use_fun : forall s v f u t fs r,
  p_node P f = EUse u -> value_type P s v (p_use P u) t -> same P t (TFun fs r) ->
  has_type P s v f (TFun (instf s (Some u) fs) (inst P s u r)).
Proof.
  intros s v f u t fs r E V H. apply ht_same with (inst P s u t).
  - apply ht_use; assumption.
  - exact (inst_same s u _ _ H).
Qed.

Lemma instf_none : forall s fs, instf s None fs = fs.
Proof.
  intros s fs. unfold instf. induction fs as [|[k t] fs IH]; [reflexivity|]. cbn in *. rewrite IH. reflexivity.
Qed.

Lemma tri_infer_ret : forall f args,
  tri (infer_ret P N R f args)
      (fun o s v => exists t, o = Some t /\ forall e, p_node P e = ECall f args -> has_type P s v e t).
Proof.
  intros f args. unfold infer_ret.
  assert (X : forall t0,
     tri (check_actuals P N R args t0 None)
       (fun o s v => (exists t, t0 = Some t /\ has_type P s v f t) ->
          exists t, o = Some t /\ forall e, p_node P e = ECall f args -> has_type P s v e t)).
  { intro t0. apply (tri_conseq _ _ _ _ (tri_check_actuals args t0 None)).
    intros o s v [t [fs [r [-> [A [-> B]]]]]] [t' [E H]]. injection E as <-.
    exists r. split; [reflexivity|]. intros e Ee. rewrite instf_none in B.
    eapply ht_call; [exact Ee| |exact B].
    eapply ht_same; eassumption. }
  destruct (p_node P f) as [u|t|e' t|f' as'|a b|e'|e' c|s0 e'|] eqn:E;
    try (apply (tri_bind _ _ _ _ _ _ (g_infer G f)); intro o; exact (X o)).
  - apply (tri_bind _ _ _ _ _ _ (tri_decl (p_use P u))). intro o.
    apply (tri_conseq _ _ _ _ (tri_check_actuals args o (Some u))).
    intros o' s v [t [fs [r [-> [A [-> B]]]]]] [t' [Et V]]. injection Et as <-.
    exists (inst P s u r). split; [reflexivity|]. intros e Ee.
    eapply ht_call; [exact Ee| |exact B].
    apply use_fun with t; assumption.
  - apply (tri_bind _ _ _ _ _ _ (g_check G f (Some t))). intros _.
    apply (tri_conseq _ _ _ _ (X (Some t))). intros o s v A B. apply A. exists t. split; [reflexivity|exact B].
Qed.

Lemma tri_check_ret : forall f args type,
  tri (check_ret P N R f args type)
      (fun _ s v => forall e, p_node P e = ECall f args -> has_type P s v e type).
Proof.
  intros f args type. unfold check_ret.
  assert (X : forall t0,
     tri (o <- check_actuals P N R args t0 None ;; check_equal P N (Some type) o)
       (fun (_:unit) s v => (exists t, t0 = Some t /\ has_type P s v f t) ->
          forall e, p_node P e = ECall f args -> has_type P s v e type)).
  { intro t0. apply (tri_bind _ _ _ _ _ _ (tri_check_actuals args t0 None)). intro o.
    apply (tri_conseq _ _ _ _ (tri_equal (Some type) o)).
    intros _ s v S [t [fs [r [-> [A [-> B]]]]]] [t' [E H]] e Ee. injection E as <-.
    rewrite instf_none in B. apply ht_same with r; [|apply same_sym; exact S].
    eapply ht_call; [exact Ee| |exact B].
    eapply ht_same; eassumption. }
  destruct (p_node P f) as [u|t|e' t|f' as'|a b|e'|e' c|s0 e'|] eqn:E;
    try (apply (tri_bind _ _ _ _ _ _ (g_infer G f)); intro o; exact (X o)).
  - apply (tri_bind _ _ _ _ _ _ (tri_decl (p_use P u))). intros [t|]; [|apply tri_abort].
    apply (tri_bind _ _ _ _ (fun b _ _ => same P t b)).
    + apply tri_lift. intros b Hb _ _. exact (base_same _ _ _ _ Hb).
    + intros [d|fs r|x]; try apply tri_err.
      apply (tri_bind _ _ _ _ _ _ (tri_check_subst N (Some type) (Some u) (Some r))). intros _.
      apply (tri_bind _ _ _ _ _ _ (tri_check_actuals args (Some (TFun fs r)) (Some u))). intro o.
      apply tri_ret. intros s v [t1 [fs1 [r1 [E1 [A [_ B]]]]]] D S [t' [Et V]] e Ee.
      injection Et as <-. injection E1 as <-. cbn in D.
      apply ht_same with (inst P s u r); [|apply same_sym; exact D].
      assert (Hf : has_type P s v f (TFun (instf s (Some u) fs1) (inst P s u r1))).
      { apply use_fun with t; [exact E|exact V|]. apply same_trans with (TFun fs r); assumption. }
      apply ht_same with (inst P s u r1).
      * eapply ht_call; eassumption.
      * apply inst_same. apply same_sym.
        destruct (proj1 (same_bases P _ _ A) (TFun fs r) (ex_intro _ 1 eq_refl)) as [b [[n Hb] Hh]].
        destruct n as [|n]; [discriminate|]. injection Hb as <-. exact (proj2 Hh).
  - apply (tri_bind _ _ _ _ _ _ (g_check G f (Some t))). intros _.
    apply (tri_conseq _ _ _ _ (X (Some t))). intros o s v A B. apply A. exists t. split; [reflexivity|exact B].
Qed.

Lemma tri_infer_elem : forall e,
  tri (infer_elem P N R e) (fun r s v => exists c, has_type P s v e c /\ element P c r).
Proof.
  intro e. unfold infer_elem. apply (tri_bind _ _ _ _ _ _ (g_infer G e)).
  intros [c|]; [|apply tri_abort]. apply (tri_conseq _ _ _ _ (tri_elem N c)).
  intros r s v A [t [B C]]. injection B as <-. exists c. split; assumption.
Qed.

(** setting the memo *)
Lemma tri_memo : forall e t,
  forall st st' a, sound_st st ->
  (s_err st = false -> forall s v, agrees st s v -> exists t', t = Some t' /\ has_type P s v e t') ->
  set_memo e t st = Done (st', a) -> steps st st' /\ sound_st st'.
Proof.
  intros e t st st' a S H E. injection E as <- <-. split.
  - constructor; cbn; auto. intros _ u p i x A B. congruence.
  - intros F. constructor; [|exact (so_var _ (S F))].
    intros e0 t0 Hm s v Ha. cbn in *. destruct (e0 =? e) eqn:Ee.
    + apply Nat.eqb_eq in Ee. subst e0. destruct (H F s v Ha) as [t' [E1 E2]].
      rewrite E1 in Hm. injection Hm as <-. exact E2.
    + apply (so_memo _ (S F) e0 t0 Hm s v). exact Ha.
Qed.

Lemma tri_memo_then : forall A e t (m : M A),
  tri m (fun _ s v => has_type P s v e t) ->
  tri (m ;; set_memo e (Some t)) (fun _ s v => has_type P s v e t).
Proof.
  intros A e t m T st st' o S E. unfold bind in E.
  destruct (m st) as [[st1 a]| | |] eqn:Em1; try discriminate.
  destruct (T _ _ _ S Em1) as [A1 [A2 A3]].
  destruct (tri_memo e (Some t) _ _ _ A2 (fun F s v H => ex_intro _ t (conj eq_refl (A3 F s v H))) E) as [B1 B2].
  split; [exact (steps_trans _ _ _ A1 B1)|]. split; [exact B2|].
  intros F s v Ha. apply A3; [exact (sp_err _ _ B1 F)|exact (agrees_back _ _ _ _ B1 Ha)].
Qed.

Lemma tri_pre : forall A (m : M A) e (Q : A -> instantiation -> (nat -> ty) -> Prop), tri m Q ->
     tri (match p_within P e with
          | Some fd => b <- lift (impure P N fd e) ;; (if b : bool then err else ret tt)
          | None => ret tt
          end ;; m) Q.
Proof.
  intros A m e Q Hm. apply (tri_bind _ _ _ _ (fun _ _ _ => True)).
  - destruct (p_within P e); [|apply tri_ret; intros; exact I].
    apply (tri_bind _ _ _ _ (fun _ _ _ => True)); [apply tri_lift; intros; exact I|].
    intros [|]; [apply tri_err|apply tri_ret; intros; exact I].
  - intros _. apply (tri_conseq _ _ _ _ Hm). intros; assumption.
Qed.

Lemma good_infer : forall e,
  tri (infer_body P N R e) (fun o s v => exists t, o = Some t /\ has_type P s v e t).
Proof.
  intros e st st' o S E. unfold infer_body in E.
  destruct (s_memo st e) as [t|] eqn:Em.
  { injection E as <- <-. split; [apply steps_refl|]. split; [exact S|].
    intros F s v Ha. exists t. split; [reflexivity|]. exact (so_memo _ (S F) e t Em s v Ha). }
  unfold bind at 1 in E.
  match type of E with match ?x st with _ => _ end = _ => set (m := x) in E end.
  assert (T : tri m (fun o s v => exists t, o = Some t /\ has_type P s v e t)).
  { subst m. clear E Em. destruct (p_node P e) as [u|t|e' t|f args|a b|e'|e' c|s0 e'|] eqn:En.
    - apply (tri_bind _ _ _ _ _ _ (tri_decl (p_use P u))). intros [t|].
      + apply (tri_conseq _ _ _ _ (tri_subst (Some u) t)). intros o' s v -> [t' [A B]].
        injection A as <-. exists (inst P s u t). split; [reflexivity|]. apply ht_use; assumption.
      + apply (tri_conseq _ _ _ _ (tri_subst_null (Some u))). intros o' s v _ [t' [A _]]. discriminate.
    - apply tri_ret. intros. exists t. split; [reflexivity|]. apply ht_const. exact En.
    - apply (tri_bind _ _ _ _ _ _ (g_check G e' (Some t))). intros _. apply tri_ret.
      intros s v A. exists t. split; [reflexivity|]. apply ht_typed with e'; assumption.
    - apply (tri_conseq _ _ _ _ (tri_infer_ret f args)). intros o' s v [t [A B]].
      exists t. split; [exact A|]. apply B. exact En.
    - apply (tri_bind _ _ _ _ _ _ (g_infer G a)). intro o'.
      apply (tri_bind _ _ _ _ _ _ (g_check G b o')). intros _. apply tri_ret.
      intros s v B [t [-> A]]. exists t. split; [reflexivity|]. apply ht_append with a b; assumption.
    - apply (tri_bind _ _ _ _ _ _ (tri_infer_elem e')). intro t. apply tri_ret.
      intros s v [c [A B]]. exists t. split; [reflexivity|]. apply ht_repeat with e' c; assumption.
    - apply (tri_bind _ _ _ _ _ _ (g_infer G e')). intro o'.
      apply (tri_bind _ _ _ _ _ _ (g_check G c (Some (p_bool P)))). intros _. apply tri_ret.
      intros s v B [t [-> A]]. exists t. split; [reflexivity|]. apply ht_guarded with e' c; assumption.
    - apply (tri_bind _ _ _ _ _ _ (tri_infer_elem s0)). intro t.
      apply (tri_conseq _ _ _ _ (g_infer G e')). intros o' s v [t' [-> B]] [c [C D]].
      exists t'. split; [reflexivity|]. apply ht_controlled with s0 e' c t; assumption.
    - apply tri_err_then. apply tri_ret. intros; exact I. }
  destruct (m st) as [[st1 o1]| | |] eqn:Em1; try discriminate.
  destruct (T _ _ _ S Em1) as [A1 [A2 A3]].
  unfold bind, ret in E. destruct (set_memo e o1 st1) as [[st2 []]| | |] eqn:E2; try discriminate.
  injection E as <- <-.
  destruct (tri_memo e o1 _ _ _ A2 A3 E2) as [B1 B2].
  split; [exact (steps_trans _ _ _ A1 B1)|]. split; [exact B2|].
  intros F s v Ha. apply A3; [exact (sp_err _ _ B1 F)|exact (agrees_back _ _ _ _ B1 Ha)].
Qed.

Lemma good_check : forall e t,
  tri (check_body P N R e t)
      (fun _ s v => match t with Some t => has_type P s v e t | None => exists t, has_type P s v e t end).
Proof.
  intros e [type|]; cbn [check_body].
  2:{ apply (tri_bind _ _ _ _ _ _ (g_infer G e)). intro o. apply tri_ret.
      intros s v [t [_ A]]. exists t. exact A. }
  intros st st' o S E.
  destruct (s_memo st e) as [t|] eqn:Em.
  { destruct (tri_equal (Some type) (Some t) _ _ _ S E) as [A1 [A2 A3]].
    split; [exact A1|]. split; [exact A2|]. intros F s v Ha.
    apply ht_same with t; [|apply same_sym; exact (A3 F s v Ha)].
    apply (so_memo _ (S (sp_err _ _ A1 F)) e t Em s v). exact (agrees_back _ _ _ _ A1 Ha). }
  assert (T : tri (match p_node P e with
       | EUse u =>
           t <- decl_type P N R (p_use P u) ;; check_subst P N N (Some type) (Some u) t
       | EConst t => check_equal P N (Some type) (Some t)
       | ETyped _ _ => t <- r_infer R e ;; check_equal P N (Some type) t
       | ECall f args => check_ret P N R f args type
       | EAppend a b => r_check R a (Some type) ;; r_check R b (Some type)
       | ERepeat e' => t <- infer_elem P N R e' ;; check_equal P N (Some type) (Some t)
       | EGuarded e' c => r_check R e' (Some type) ;; r_check R c (Some (p_bool P))
       | EControlled s e' => infer_elem P N R s ;; r_check R e' (Some type)
       | EUndef => ret tt
       end) (fun _ s v => has_type P s v e type)).
  { clear E Em. destruct (p_node P e) as [u|t|e' t|f args|a b|e'|e' c|s0 e'|] eqn:En.
    - apply (tri_bind _ _ _ _ _ _ (tri_decl (p_use P u))). intro o0.
      apply (tri_conseq _ _ _ _ (tri_check_subst N (Some type) (Some u) o0)).
      intros _ s v A [t [-> B]]. apply ht_same with (inst P s u t); [apply ht_use; assumption|].
      apply same_sym. exact A.
    - apply (tri_conseq _ _ _ _ (tri_equal (Some type) (Some t))). intros _ s v A.
      apply ht_same with t; [apply ht_const; exact En|apply same_sym; exact A].
    - apply (tri_bind _ _ _ _ _ _ (g_infer G e)). intro o0.
      apply (tri_conseq _ _ _ _ (tri_equal (Some type) o0)). intros _ s v A [t0 [-> B]].
      apply ht_same with t0; [exact B|apply same_sym; exact A].
    - apply (tri_conseq _ _ _ _ (tri_check_ret f args type)). intros _ s v A. apply A. exact En.
    - apply (tri_bind _ _ _ _ _ _ (g_check G a (Some type))). intros _.
      apply (tri_conseq _ _ _ _ (g_check G b (Some type))). intros _ s v A B.
      apply ht_append with a b; assumption.
    - apply (tri_bind _ _ _ _ _ _ (tri_infer_elem e')). intro t.
      apply (tri_conseq _ _ _ _ (tri_equal (Some type) (Some t))). intros _ s v A [c [B C]].
      apply ht_same with t; [apply ht_repeat with e' c; assumption|apply same_sym; exact A].
    - apply (tri_bind _ _ _ _ _ _ (g_check G e' (Some type))). intros _.
      apply (tri_conseq _ _ _ _ (g_check G c (Some (p_bool P)))). intros _ s v A B.
      apply ht_guarded with e' c; assumption.
    - apply (tri_bind _ _ _ _ _ _ (tri_infer_elem s0)). intro t.
      apply (tri_conseq _ _ _ _ (g_check G e' (Some type))). intros _ s v A [c [B C]].
      apply ht_controlled with s0 e' c t; assumption.
    - apply tri_ret. intros. apply ht_undefined. exact En. }
  exact (tri_pre _ _ e _ (tri_memo_then _ e type _ T) _ _ _ S E).
Qed.

Lemma tri_pactuals : forall u args fs,
  tri (pactuals P N R u fs args)
      (fun _ s v => (match u with Some u => p_env P u = [] | None => True end) ->
                    Forall (plain P true) args -> pfits P s v fs args).
Proof.
  intro u. induction args as [|a args IH]; intros fs; cbn [pactuals].
  - destruct fs as [|[[] t] fs]; [| |apply tri_err]; apply tri_ret; intros; constructor.
  - destruct fs as [|[k t] fs]; [apply tri_err|].
    apply (tri_bind _ _ _ _ (fun _ s v => (match u with Some u => p_env P u = [] | None => True end) ->
                    plain P true a -> has_ptype P s v a t)).
    + apply tri_state with (f := fun st => if is_complete P st u then
                t' <- type_subst P u (Some t) ;; r_pcheck R a t'
              else
                o <- r_pinfer R a ;; check_subst P N N o u (Some t)).
      intro st0. destruct (is_complete P st0 u) eqn:C.
      * apply (tri_bind _ _ _ _ _ _ (tri_subst u t)). intro o.
        apply (tri_conseq _ _ _ _ (g_pcheck G a o)). intros _ s v A -> B D. specialize (A D).
        cbn in A. destruct u as [u|]; [|exact A]. cbn in A. rewrite (inst_nil s u t B) in A. exact A.
      * apply (tri_bind _ _ _ _ _ _ (g_pinfer G a)). intro o.
        apply (tri_conseq _ _ _ _ (tri_check_subst N o u (Some t))). intros _ s v _ _ B.
        exfalso. destruct u as [u|]; [|discriminate]. cbn in C. unfold complete in C. rewrite B in C. discriminate.
    + intros _. apply (tri_conseq _ _ _ _ (IH _)). intros _ s v A B D F. inversion F; subst.
      specialize (A D H2). specialize (B D H1). destruct k.
      * apply pfits_seq_cons; assumption.
      * apply pfits_cons; assumption.
Qed.

Lemma tri_check_pactuals : forall args ft u,
  tri (check_pactuals P N R args ft u)
      (fun o s v => (match u with Some u => p_env P u = [] | None => True end) ->
                    Forall (plain P true) args ->
                    exists fs r, ft = Some (TFun fs r) /\ o = Some r /\ pfits P s v fs args).
Proof.
  intros args [[d|fs r|x]|] u; cbn [check_pactuals];
    try (apply tri_err_then; apply tri_ret; intros; exact I); [|apply tri_abort].
  apply (tri_bind _ _ _ _ _ _ (tri_pactuals u args fs)). intros _.
  apply (tri_conseq _ _ _ _ (tri_subst u r)). intros o s v -> A B D.
  exists fs, r. split; [reflexivity|]. split; [|exact (A B D)].
  destruct u as [u|]; [|reflexivity]. cbn. rewrite (inst_nil s u r B). reflexivity.
Qed.

Lemma plain_args : forall (l : list pat),
  (fix go (l : list pat) : Prop :=
     match l with [] => True | a :: l' => plain P true a /\ go l' end) l -> Forall (plain P true) l.
Proof. induction l as [|a l IH]; intro H; constructor; [exact (proj1 H)|exact (IH (proj2 H))]. Qed.

Lemma good_pinfer : forall p,
  tri (pinfer_body P N R p)
      (fun o s v => plain P false p -> exists t, o = Some t /\ has_ptype P s v p t).
Proof.
  intro p. destruct p as [u|q t|f args|q|p1 p2|x|e|]; cbn [pinfer_body].
  - apply (tri_conseq _ _ _ _ (tri_subst (Some u) (p_pdecl P (p_use P u)))). intros o s v -> _.
    eexists. split; [reflexivity|]. apply hp_use.
  - apply (tri_bind _ _ _ _ _ _ (g_pcheck G q (Some t))). intros _. apply tri_ret.
    intros s v A [_ B]. exists t. split; [reflexivity|]. apply hp_typed. exact (A B).
  - assert (X : tri (t <- r_pinfer R f ;; check_pactuals P N R args t None)
        (fun o s v => plain P false (PCall f args) -> exists t, o = Some t /\ has_ptype P s v (PCall f args) t)).
    { apply (tri_bind _ _ _ _ _ _ (g_pinfer G f)). intro t.
      apply (tri_conseq _ _ _ _ (tri_check_pactuals args t None)). intros o s v A B [C D].
      destruct (A I (plain_args _ D)) as [fs [r [-> [-> F]]]]. destruct (B C) as [t' [E H]].
      injection E as <-. exists r. split; [reflexivity|]. apply hp_call with fs; assumption. }
    destruct f as [u|q t|f' args'|q|p1 p2|x|e|]; try exact X.
    apply (tri_bind _ _ _ _ _ _ (tri_subst (Some u) (p_pdecl P (p_use P u)))). intro t.
    apply (tri_conseq _ _ _ _ (tri_check_pactuals args t (Some u))). intros o s v A E [C D].
    destruct (A C (plain_args _ D)) as [fs [r [-> [-> F]]]].
    exists r. split; [reflexivity|]. apply hp_call with fs; [|exact F].
    injection E as ->. apply hp_use.
  - apply (tri_conseq _ _ _ _ (g_pinfer G q)). intros o s v A B. destruct (A B) as [t [E H]].
    exists t. split; [exact E|]. apply hp_rest. exact H.
  - apply (tri_bind _ _ _ _ _ _ (g_pinfer G p2)). intro t.
    apply (tri_bind _ _ _ _ _ _ (g_pcheck G p1 t)). intros _. apply tri_ret.
    intros s v A B [C D]. destruct (B D) as [t' [-> H]]. exists t'. split; [reflexivity|].
    apply hp_and; [exact (A C)|exact H].
  - intros st st' o S E. destruct (s_pmemo st x) as [t'|] eqn:Ex.
    + injection E as <- <-. split; [apply steps_refl|]. split; [exact S|].
      intros F s v [_ Ha] B. cbn in B. destruct (p_vtype P x) as [t|] eqn:Et; [discriminate|].
      exists t'. split; [reflexivity|]. rewrite <- (Ha _ _ Ex). apply hp_var. exact Et.
    + destruct (p_vtype P x) as [t|] eqn:Et.
      * injection E as <- <-. split; [apply steps_refl|]. split; [exact S|].
        intros F s v _ B. cbn in B. rewrite Et in B. discriminate.
      * assert (T : tri (err ;; ret None) (fun (o : option ty) s v =>
             plain P false (PVar x) -> exists t, o = Some t /\ has_ptype P s v (PVar x) t)).
        { apply tri_err_then. apply tri_ret. intros; exact I. }
        exact (T _ _ _ S E).
  - apply tri_err_then. apply (tri_bind _ _ _ _ _ _ (g_check G e (Some (p_bool P)))). intros _.
    apply tri_ret. intros; exact I.
  - apply tri_err_then. apply tri_ret. intros; exact I.
Qed.

Lemma good_pcheck : forall p t,
  tri (pcheck_body P N R p t)
      (fun _ s v => plain P true p -> match t with Some t => has_ptype P s v p t | None => True end).
Proof.
  intros p [type|]; cbn [pcheck_body].
  2:{ apply (tri_bind _ _ _ _ _ _ (g_pinfer G p)). intro o. apply tri_ret. intros; exact I. }
  destruct p as [u|q t|f args|q|p1 p2|x|e|].
  - apply (tri_conseq _ _ _ _ (tri_check_subst N (Some type) (Some u) (Some (p_pdecl P (p_use P u))))).
    intros _ s v A _. eapply hp_same; [apply hp_use|]. apply same_sym. exact A.
  - apply (tri_conseq _ _ _ _ (tri_equal (Some type) (Some type))). intros _ s v _ [A _]. discriminate.
  - assert (X : tri (t <- r_pinfer R f ;; o <- check_pactuals P N R args t None ;; check_equal P N (Some type) o)
        (fun _ s v => plain P true (PCall f args) -> has_ptype P s v (PCall f args) type)).
    { apply (tri_bind _ _ _ _ _ _ (g_pinfer G f)). intro t.
      apply (tri_bind _ _ _ _ _ _ (tri_check_pactuals args t None)). intro o.
      apply (tri_conseq _ _ _ _ (tri_equal (Some type) o)). intros _ s v S A B [C D].
      destruct (A I (plain_args _ D)) as [fs [r [-> [-> F]]]]. destruct (B C) as [t' [E H]].
      injection E as <-. apply hp_same with r; [|apply same_sym; exact S]. apply hp_call with fs; assumption. }
    destruct f as [u|q t|f' args'|q|p1 p2|x|e|]; try exact X.
    clear X. apply (tri_bind _ _ _ _ (fun b _ _ => same P (p_pdecl P (p_use P u)) b)).
    + apply tri_lift. intros b Hb _ _. exact (base_same _ _ _ _ Hb).
    + intros [d|fs r|x]; try apply tri_err.
      apply (tri_bind _ _ _ _ _ _ (tri_check_subst N (Some type) (Some u) (Some r))). intros _.
      apply (tri_bind _ _ _ _ _ _ (tri_check_pactuals args (Some (TFun fs r)) (Some u))). intro o.
      apply tri_ret. intros s v A B E [C D].
      destruct (A C (plain_args _ D)) as [fs' [r' [E1 [_ F]]]]. injection E1 as <- <-.
      cbn in B. rewrite (inst_nil s u r C) in B.
      apply hp_same with r; [|apply same_sym; exact B]. apply hp_call with fs; [|exact F].
      eapply hp_same; [apply hp_use|]. rewrite (inst_nil s u _ C). exact E.
  - apply (tri_conseq _ _ _ _ (g_pcheck G q (Some type))). intros _ s v A B. apply hp_rest. exact (A B).
  - apply (tri_bind _ _ _ _ _ _ (g_pcheck G p2 (Some type))). intros _.
    apply (tri_conseq _ _ _ _ (g_pcheck G p1 (Some type))). intros _ s v A B [C D].
    apply hp_and; [exact (A C)|exact (B D)].
  - intros st st' o S E. destruct (s_pmemo st x) as [t'|] eqn:Ex.
    + destruct (tri_equal (Some type) (Some t') _ _ _ S E) as [A1 [A2 A3]].
      split; [exact A1|]. split; [exact A2|]. intros F s v Ha B. specialize (A3 F s v Ha).
      destruct (p_vtype P x) as [t|] eqn:Et.
      * apply hp_same with t'; [|apply same_sym; exact A3].
        apply hp_same with t; [apply hp_tvar; exact Et|].
        exact (so_var _ (S (sp_err _ _ A1 F)) _ _ _ Et Ex).
      * apply hp_same with t'; [|apply same_sym; exact A3].
        destruct (agrees_back _ _ _ _ A1 Ha) as [_ Hv]. rewrite <- (Hv _ _ Ex). apply hp_var. exact Et.
    + unfold bind, set_pmemo in E.
      set (st1 := mkSt (s_err st) (s_slot st) (s_memo st)
             (fun x' => if x' =? x then Some type else s_pmemo st x')) in E.
      assert (Hx : forall x', s_pmemo st1 x' = if x' =? x then Some type else s_pmemo st x') by reflexivity.
      assert (Hme : s_pmemo st1 x = Some type) by (rewrite Hx, Nat.eqb_refl; reflexivity).
      assert (S0 : steps st st1).
      { constructor; cbn; auto.
        - intros x' t' Ht. destruct (x' =? x) eqn:Q; [|exact Ht]. apply Nat.eqb_eq in Q. subst x'. congruence.
        - intros _ u p i t' A B. congruence. }
      assert (S1 : (forall t, p_vtype P x = Some t -> same P t type) -> sound_st st1).
      { intros Ht F. constructor.
        - intros e t' Hm s v Ha. apply (so_memo _ (S F) e t' Hm s v). exact (agrees_back _ _ _ _ S0 Ha).
        - intros x' t' t'' Hv Hp. rewrite Hx in Hp. destruct (x' =? x) eqn:Q.
          + apply Nat.eqb_eq in Q. subst x'. injection Hp as <-. exact (Ht _ Hv).
          + exact (so_var _ (S F) _ _ _ Hv Hp). }
      destruct (p_vtype P x) as [t|] eqn:Et.
      * unfold check_equal, bind, lift in E. destruct (type_eq P N t type) as [[|]| | |] eqn:Q; try discriminate.
        -- pose proof (type_eq_true _ _ _ _ Q) as Hs. injection E as <-.
           split; [exact S0|]. split; [apply S1; intros t0 E0; injection E0 as <-; exact Hs|].
           intros F s v Ha B. apply hp_same with t; [apply hp_tvar; exact Et|exact Hs].
        -- injection E as <-. split; [|split; intro; discriminate].
           apply (steps_trans _ _ _ S0). constructor; cbn; auto; intro; discriminate.
      * injection E as <-. split; [exact S0|]. split; [apply S1; intros; discriminate|].
        intros F s v [_ Ha] B. rewrite <- (Ha _ _ Hme). apply hp_var. exact Et.
  - apply (tri_conseq _ _ _ _ (g_check G e (Some (p_bool P)))). intros _ s v A _. apply hp_cond. exact A.
  - apply tri_ret. intros. apply hp_no.
Qed.
End Step.

Lemma good_run : forall n, good (run P N n).
Proof.
  induction n as [|n IH]; cbn [run].
  - constructor; intros; apply tri_out.
  - constructor; cbn.
    + exact (good_infer _ IH).
    + exact (good_check _ IH).
    + exact (good_pinfer _ IH).
    + exact (good_pcheck _ IH).
Qed.

(** ** Statements *)
Variable n : nat.

Lemma tri_default : forall d t,
  tri (check_default P N n d t) (fun _ s v => ok_default P s v t d).
Proof.
  intros [|e|e c] t; cbn [check_default].
  - apply tri_ret. intros. constructor.
  - apply (tri_conseq _ _ _ _ (g_check _ (good_run n) e (Some t))). intros _ s v A. constructor. exact A.
  - apply (tri_bind _ _ _ _ _ _ (g_check _ (good_run n) e (Some t))). intros _.
    apply (tri_conseq _ _ _ _ (g_check _ (good_run n) c _)). intros _ s v A B. constructor; assumption.
Qed.

Lemma tri_target : forall normal l,
  tri (check_target P N n normal l) (fun _ _ _ => assignable P l).
Proof.
  intros normal l. unfold check_target, assignable.
  apply (tri_bind _ _ _ _ (fun _ _ _ => True)).
  - destruct normal; [|apply tri_ret; intros; exact I].
    destruct (p_node P l) as [u|t|e' t|f args|a b|e'|e' c|s0 e'|]; try (apply tri_ret; intros; exact I).
    destruct args as [|a args]; [apply tri_abort|].
    apply (tri_bind _ _ _ _ _ _ (g_infer _ (good_run n) a)). intros [t|]; [|apply tri_abort].
    apply (tri_bind _ _ _ _ (fun _ _ _ => True)); [apply tri_lift; intros; exact I|].
    intros [|]; [apply tri_err|apply tri_ret; intros; exact I].
  - intros _. destruct (p_node P l) as [u|t|e' t|f args|a b|e'|e' c|s0 e'|]; try (apply tri_ret; intros; exact I).
    + destruct (v_var (p_value P (p_use P u))); [apply tri_ret; intros; reflexivity|apply tri_err].
    + destruct (p_node P f) as [u|t|e' t|f' args'|a b|e'|e' c|s0 e'|] eqn:Ef; try apply tri_abort.
      destruct (v_var (p_value P (p_use P u))) eqn:Ev; [apply tri_ret|apply tri_err].
      intros s v _. exists u. split; [reflexivity|exact Ev].
Qed.

Section StmtInd.
Variable Q : stmt -> Prop.
Hypothesis HV : forall t d, Q (SValue t d).
Hypothesis HA : forall b l r, Q (SAssign b l r).
Hypothesis HI : forall c t f, Forall Q t -> Forall Q f -> Q (SIf c t f).
Hypothesis HF : forall e ms, Forall (fun m => Forall Q (snd m)) ms -> Q (SFor e ms).
Hypothesis HC : forall e ms d, Forall (fun m => Forall Q (snd m)) ms -> Forall Q d -> Q (SCase e ms d).
Hypothesis HN : forall e b, Forall Q b -> Q (SForIn e b).
Hypothesis HM : forall p b, Forall Q b -> Q (SMatch p b).
Hypothesis HB : forall b, Forall Q b -> Q (SBlock b).
Fixpoint stmt_ind2 (x : stmt) : Q x :=
  let fix block (l : list stmt) : Forall Q l :=
    match l with [] => Forall_nil _ | a :: l' => Forall_cons a (stmt_ind2 a) (block l') end in
  let fix matches (l : list (pat * list stmt)) : Forall (fun m => Forall Q (snd m)) l :=
    match l with [] => Forall_nil _ | a :: l' => Forall_cons a (block (snd a)) (matches l') end in
  match x with
  | SValue t d => HV t d
  | SAssign b l r => HA b l r
  | SIf c t f => HI c t f (block t) (block f)
  | SFor e ms => HF e ms (matches ms)
  | SCase e ms d => HC e ms d (matches ms) (block d)
  | SForIn e b => HN e b (block b)
  | SMatch p b => HM p b (block b)
  | SBlock b => HB b (block b)
  end.
End StmtInd.

Definition stmt_ok (x : stmt) : Prop :=
  tri (check_stmt P N n x) (fun _ s v => ok_stmt P s v (plain P) x).

Lemma tri_block : forall b, Forall stmt_ok b ->
  tri ((fix block (b : list stmt) : M unit :=
          match b with [] => ret tt | s :: b' => check_stmt P N n s ;; block b' end) b)
      (fun _ s v => Forall (ok_stmt P s v (plain P)) b).
Proof.
  intros b H. induction H as [|x b Hx _ IH].
  - apply tri_ret. intros. constructor.
  - apply (tri_bind _ _ _ _ _ _ Hx). intros _.
    apply (tri_conseq _ _ _ _ IH). intros _ s v A B. constructor; assumption.
Qed.

Lemma tri_matches : forall t ms, Forall (fun m => Forall stmt_ok (snd m)) ms ->
  tri ((fix matches (t : option ty) (ms : list (pat * list stmt)) : M unit :=
    match ms with
    | [] => ret tt
    | (p, b) :: ms' => r_pcheck (run P N n) p t ;;
       (fix block (b : list stmt) : M unit :=
          match b with [] => ret tt | s :: b' => check_stmt P N n s ;; block b' end) b ;; matches t ms'
    end) t ms)
      (fun _ s v => forall t', t = Some t' ->
       Forall (fun m => (plain P true (fst m) -> has_ptype P s v (fst m) t') /\
                        Forall (ok_stmt P s v (plain P)) (snd m)) ms).
Proof.
  intros t ms H. induction H as [|[p b] ms Hb _ IH].
  - apply tri_ret. intros. constructor.
  - apply (tri_bind _ _ _ _ _ _ (g_pcheck _ (good_run n) p t)). intros _.
    apply (tri_bind _ _ _ _ _ _ (tri_block b Hb)). intros _.
    apply (tri_conseq _ _ _ _ IH). intros _ s v A B C t' ->.
    constructor; [|exact (A t' eq_refl)]. split; [exact C|exact B].
Qed.

Lemma all_stmt_ok : forall x, stmt_ok x.
Proof.
  apply stmt_ind2; unfold stmt_ok.
  - intros t d. apply (tri_conseq _ _ _ _ (tri_default d t)). intros _ s v A. constructor. exact A.
  - intros b l r. apply (tri_bind _ _ _ _ _ _ (tri_target b l)). intros _.
    apply (tri_bind _ _ _ _ _ _ (g_infer _ (good_run n) l)). intro o.
    apply (tri_conseq _ _ _ _ (g_check _ (good_run n) r o)). intros _ s v A [t [-> B]] D.
    apply os_assign with t; assumption.
  - intros c t f Ht Hf. apply (tri_bind _ _ _ _ _ _ (g_check _ (good_run n) c (Some (p_bool P)))). intros _.
    apply (tri_bind _ _ _ _ _ _ (tri_block t Ht)). intros _.
    apply (tri_conseq _ _ _ _ (tri_block f Hf)). intros _ s v A B C.
    apply os_if; assumption.
  - intros e ms Hm. apply (tri_bind _ _ _ _ _ _ (g_infer _ (good_run n) e)). intro o.
    apply (tri_conseq _ _ _ _ (tri_matches o ms Hm)). intros _ s v A [t [-> B]].
    apply os_for with t; [exact B|exact (A t eq_refl)].
  - intros e ms d Hm Hd. apply (tri_bind _ _ _ _ _ _ (g_infer _ (good_run n) e)). intro o.
    apply (tri_bind _ _ _ _ _ _ (tri_matches o ms Hm)). intros _.
    apply (tri_conseq _ _ _ _ (tri_block d Hd)). intros _ s v D A [t [-> B]].
    apply os_case with t; [exact B|exact (A t eq_refl)|exact D].
  - intros e b Hb. apply (tri_bind _ _ _ _ _ _ (g_infer _ (good_run n) e)). intro o.
    apply (tri_conseq _ _ _ _ (tri_block b Hb)). intros _ s v A [t [_ B]].
    apply os_forin with t; [exact B|exact A].
  - intros p b Hb. apply (tri_bind _ _ _ _ _ _ (g_pinfer _ (good_run n) p)). intro o.
    apply (tri_conseq _ _ _ _ (tri_block b Hb)). intros _ s v A B.
    apply os_match; [|exact A]. intro C. destruct (B C) as [t [_ E]]. exists t. exact E.
  - intros b Hb. apply (tri_conseq _ _ _ _ (tri_block b Hb)). intros _ s v A. constructor. exact A.
Qed.

Lemma tri_check_block : forall b,
  tri (check_block P N n b) (fun _ s v => Forall (ok_stmt P s v (plain P)) b).
Proof.
  induction b as [|x b IH]; cbn [check_block].
  - apply tri_ret. intros. constructor.
  - apply (tri_bind _ _ _ _ _ _ (all_stmt_ok x)). intros _.
    apply (tri_conseq _ _ _ _ IH). intros _ s v A B. constructor; assumption.
Qed.

Lemma ok_block_all : forall s v b,
  Forall (fun x => plain_stmt P x -> ok_stmt P s v (plain P) x -> ok_stmt P s v every x) b ->
  (fix block (b : list stmt) : Prop :=
          match b with [] => True | s :: b' => plain_stmt P s /\ block b' end) b ->
  Forall (ok_stmt P s v (plain P)) b -> Forall (ok_stmt P s v every) b.
Proof.
  intros s v b H. induction H as [|x b Hx _ IH]; intros A B; [constructor|].
  inversion B; subst. destruct A as [A1 A2]. constructor; [exact (Hx A1 H1)|exact (IH A2 H2)].
Qed.

Lemma ok_matches_all : forall s v t ms,
  Forall (fun m => Forall (fun x => plain_stmt P x -> ok_stmt P s v (plain P) x -> ok_stmt P s v every x) (snd m)) ms ->
  (fix matches (ms : list (pat * list stmt)) : Prop :=
    match ms with [] => True | (p, b) :: ms' => plain P true p /\ 
       (fix block (b : list stmt) : Prop :=
          match b with [] => True | s :: b' => plain_stmt P s /\ block b' end) b /\ matches ms' end) ms ->
  Forall (fun m => (plain P true (fst m) -> has_ptype P s v (fst m) t) /\
                        Forall (ok_stmt P s v (plain P)) (snd m)) ms ->
  Forall (fun m => (every true (fst m) -> has_ptype P s v (fst m) t) /\
                        Forall (ok_stmt P s v every) (snd m)) ms.
Proof.
  intros s v t ms H. induction H as [|[p b] ms Hb _ IH]; intros A B; [constructor|].
  inversion B; subst. destruct A as [A1 [A2 A3]]. destruct H1 as [C D]. cbn in *.
  constructor; [|exact (IH A3 H2)]. split; [intros _; exact (C A1)|].
  exact (ok_block_all s v b Hb A2 D).
Qed.

Lemma ok_all : forall s v x, plain_stmt P x -> ok_stmt P s v (plain P) x -> ok_stmt P s v every x.
Proof.
  intros s v. apply (stmt_ind2 (fun x => plain_stmt P x -> ok_stmt P s v (plain P) x -> ok_stmt P s v every x)).
  - intros t d _ H. inversion H; subst. constructor. assumption.
  - intros b l r _ H. inversion H; subst. eapply os_assign; eassumption.
  - intros c t f Ht Hf [A B] H. inversion H; subst. constructor; [assumption| |].
    + exact (ok_block_all s v t Ht A H4). + exact (ok_block_all s v f Hf B H5).
  - intros e ms Hm A H. inversion H; subst. apply os_for with t; [assumption|].
    exact (ok_matches_all s v t ms Hm A H3).
  - intros e ms d Hm Hd [A B] H. inversion H; subst. apply os_case with t; [assumption| |].
    + exact (ok_matches_all s v t ms Hm A H4). + exact (ok_block_all s v d Hd B H5).
  - intros e b Hb A H. inversion H; subst. apply os_forin with t; [assumption|].
    exact (ok_block_all s v b Hb A H3).
  - intros p b Hb [A B] H. inversion H; subst. apply os_match; [intros _; exact (H2 A)|].
    exact (ok_block_all s v b Hb B H3).
  - intros b Hb A H. inversion H; subst. constructor. exact (ok_block_all s v b Hb A H1).
Qed.

Lemma start_sound : sound_st start.
Proof. intros _. constructor; cbn; intros; discriminate. Qed.

Theorem accepted_sound : forall b st,
  check_block P N n b start = Done (st, tt) -> s_err st = false ->
  forall s v, agrees st s v ->
    Forall (ok_stmt P s v (plain P)) b /\
    (forall d p i ph sg u t x, p_type P d = DFormal (Some p) i ph sg -> In (Some x) sg ->
       s_slot st u p i = Some t -> exists t', element P t t' /\ same P t' (inst P s u x)).
Proof.
  intros b st E F s v Ha. destruct (tri_check_block b _ _ _ start_sound E) as [A [B C]].
  split.
  - exact (C F s v Ha).
  - intros d p i ph sg u t x Hd Hx Ht.
    exact (sp_fresh _ _ A F u p i t eq_refl Ht d ph sg x Hd Hx s v Ha).
Qed.

Theorem memo_sound : forall b st,
  check_block P N n b start = Done (st, tt) -> s_err st = false ->
  forall s v, agrees st s v -> forall e t, s_memo st e = Some t -> has_type P s v e t.
Proof.
  intros b st E F s v Ha e t H. destruct (tri_check_block b _ _ _ start_sound E) as [A [B C]].
  exact (so_memo _ (B F) e t H s v Ha).
Qed.

(** every type that is asked for later is right, and asking reports nothing *)
Theorem later_sound : forall b st e st' o m,
  check_block P N n b start = Done (st, tt) ->
  r_infer (run P N m) e st = Done (st', o) -> s_err st' = false ->
  exists t, o = Some t /\ forall s v, agrees st' s v -> has_type P s v e t.
Proof.
  intros b st e st' o m E I F. destruct (tri_check_block b _ _ _ start_sound E) as [_ [B _]].
  destruct (g_infer _ (good_run m) e _ _ _ B I) as [_ [_ C]].
  set (s0 := fun u p i => match s_slot st' u p i with Some t => t | None => p_bool P end).
  set (v0 := fun x => match s_pmemo st' x with Some t => t | None => p_bool P end).
  assert (A0 : agrees st' s0 v0).
  { split; [intros u p i t H; unfold s0; rewrite H; reflexivity|intros x t H; unfold v0; rewrite H; reflexivity]. }
  destruct (C F s0 v0 A0) as [t [-> _]]. exists t. split; [reflexivity|].
  intros s v Ha. destruct (C F s v Ha) as [t' [Et H]]. injection Et as <-. exact H.
Qed.

End Sound.

(** the state always has an instantiation that agrees with it *)
Lemma agrees_exists : forall (d : ty) st, exists s v, agrees st s v.
Proof.
  intros d st.
  exists (fun u p i => match s_slot st u p i with Some t => t | None => d end).
  exists (fun x => match s_pmemo st x with Some t => t | None => d end).
  split; [intros u p i t H; rewrite H; reflexivity|intros x t H; rewrite H; reflexivity].
Qed.
