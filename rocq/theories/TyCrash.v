(** * The checker reads no null contour, if the types of polymorphic entities mention
      no other type formals than those that their uses instantiate. *)
From Coq Require Import List Arith Bool Lia.
From Verif Require Import TyModel TySpec TyEq TySound.
Import ListNotations.

(** [t] mentions no type formal but those instantiated by use [u]. *)
Fixpoint closed (P : program) (u : nat) (t : ty) : Prop :=
  match t with
  | TUse d => match p_type P d with
              | DFormal o _ _ _ => exists p, o = Some p /\ In p (p_env P u)
              | _ => True end
  | TFun fs r => (fix go (l : list (bool * ty)) : Prop :=
                    match l with [] => True | f :: l' => closed P u (snd f) /\ go l' end) fs
                 /\ closed P u r
  | TRemote t' => closed P u t'
  end.

(** No polymorphic constructor in a pattern. *)
Fixpoint mono_pat (P : program) (p : pat) : Prop :=
  match p with
  | PUse u => p_env P u = []
  | PTyped q _ | PRest q => mono_pat P q
  | PCall f args => mono_pat P f /\
      (fix go (l : list pat) : Prop := match l with [] => True | a :: l' => mono_pat P a /\ go l' end) args
  | PAnd p1 p2 => mono_pat P p1 /\ mono_pat P p2
  | PVar _ | PCond _ | PNo => True
  end.
Fixpoint mono_stmt (P : program) (s : stmt) : Prop :=
  let fix block (b : list stmt) : Prop :=
    match b with [] => True | s :: b' => mono_stmt P s /\ block b' end in
  let fix matches (ms : list (pat * list stmt)) : Prop :=
    match ms with [] => True | (p, b) :: ms' => (mono_pat P p /\ block b) /\ matches ms' end in
  match s with
  | SValue _ _ | SAssign _ _ _ => True
  | SIf _ t f => block t /\ block f
  | SFor _ ms => matches ms
  | SCase _ ms d => matches ms /\ block d
  | SForIn _ b => block b
  | SMatch p b => mono_pat P p /\ block b
  | SBlock b => block b
  end.

Record closed_program (P : program) : Prop := mkClosed {
  cl_value : forall u, p_env P u <> [] ->
      exists t, v_kind (p_value P (p_use P u)) = VTyped t /\ closed P u t;
  cl_rename : forall u d t, p_env P u <> [] -> p_type P d = DRename t -> closed P u t;
  cl_sig : forall u d p i ph sg t, p_type P d = DFormal (Some p) i ph sg -> In p (p_env P u) ->
      In (Some t) sg -> closed P u t }.

Section Crash.
Variable P : program.
Variable N : nat.
Hypothesis Cl : closed_program P.

Definition sat {A} (m : M A) (Q : A -> Prop) : Prop := forall st,
  match m st with Done (_, a) => Q a | Ub => False | Abort | Fuel => True end.
Notation safe m := (sat m (fun _ => True)).

Lemma sat_ret : forall A (a : A) (Q : A -> Prop), Q a -> sat (ret a) Q.
Proof. intros A a Q H st. exact H. Qed.
Lemma sat_bind : forall A B (m : M A) (f : A -> M B) (Q : A -> Prop) (Q' : B -> Prop),
  sat m Q -> (forall a, Q a -> sat (f a) Q') -> sat (bind m f) Q'.
Proof.
  intros A B m f Q Q' H K st. unfold bind. specialize (H st).
  destruct (m st) as [[st' a]| | |]; try exact H. exact (K a H st').
Qed.
Lemma safe_bind : forall A B (m : M A) (f : A -> M B), safe m -> (forall a, safe (f a)) -> safe (bind m f).
Proof. intros A B m f H K. apply (sat_bind _ _ _ _ _ _ H). intros a _. apply K. Qed.
Lemma sat_weak : forall A (m : M A) (Q : A -> Prop), sat m Q -> safe m.
Proof. intros A m Q H st. specialize (H st). destruct (m st) as [[st' a]| | |]; try exact H. exact I. Qed.
Lemma safe_ret : forall A (a : A), safe (ret a).
Proof. intros. apply sat_ret. exact I. Qed.
Lemma safe_err : safe err.
Proof. intro st. exact I. Qed.
Lemma safe_abort : forall A, safe (@abort A).
Proof. intros A st. exact I. Qed.
Lemma safe_out : forall A, safe (@out A).
Proof. intros A st. exact I. Qed.
Lemma sat_lift : forall A (r : res A) (Q : A -> Prop),
  match r with Done a => Q a | Ub => False | _ => True end -> sat (lift r) Q.
Proof. intros A r Q H st. unfold lift. destruct r; exact H. Qed.

Lemma base_ok : forall n t, match base P n t with Ub => False | _ => True end.
Proof.
  induction n as [|n IH]; intro t; [exact I|]. cbn [base]. destruct t as [d|fs r|t']; [|exact I|apply IH].
  destruct (p_type P d); try exact I. apply IH.
Qed.
Lemma type_eq_ok : forall n t1 t2, match type_eq P n t1 t2 with Ub => False | _ => True end.
Proof.
  induction n as [|n IH]; intros t1 t2; [exact I|]. rewrite type_eq_S.
  pose proof (base_ok n t1) as B1. pose proof (base_ok n t2) as B2.
  assert (D : forall l1 l2, match decls_eq (type_eq P n) l1 l2 with Ub => False | _ => True end).
  { induction l1 as [|[k1 x1] l1 IHl]; intros [|[k2 x2] l2]; cbn; try exact I.
    destruct (Bool.eqb k1 k2); [|exact I]. specialize (IH x1 x2).
    destruct (type_eq P n x1 x2) as [[|]| | |]; try contradiction; try exact I. apply IHl. }
  destruct (base P n t1) as [b1| | |]; try contradiction; destruct (base P n t2) as [b2| | |]; try contradiction;
    try exact I; try (destruct b1; exact I); try (destruct b2; exact I).
  destruct b1 as [d1|f1 r1|x1]; destruct b2 as [d2|f2 r2|x2]; try exact I.
  specialize (D f1 f2). destruct (decls_eq (type_eq P n) f1 f2) as [[|]| | |]; try contradiction; try exact I.
  apply IH.
Qed.

Lemma safe_equal : forall a b, safe (check_equal P N a b).
Proof.
  intros [a|] [b|]; try apply safe_ret. cbn [check_equal]. apply safe_bind.
  - apply sat_lift. pose proof (type_eq_ok N a b). destruct (type_eq P N a b); try exact I. exact H.
  - intros [|]; [apply safe_ret|apply safe_err].
Qed.

Lemma safe_tsubst : forall u t, safe (tsubst P u t).
Proof.
  intros u. apply (ty_ind2 (fun t => safe (tsubst P u t))).
  - intros d. cbn [tsubst]. destruct (bound_in P u d) as [[p i]|]; [|apply safe_ret].
    intro st. destruct (s_slot st u p i); exact I.
  - intros fs r Hf Hr. cbn [tsubst]. apply safe_bind.
    + induction Hf as [|[k t] l Ht Hl IH]; [apply safe_ret|]. apply safe_bind; [exact Ht|].
      intros [t'|]; [|apply safe_abort]. apply safe_bind; [exact IH|intro; apply safe_ret].
    + intro fs'. apply safe_bind; [exact Hr|]. intros [r'|]; [apply safe_ret|apply safe_abort].
  - intros t Ht. cbn [tsubst]. apply safe_bind; [exact Ht|]. intros [t'|]; [apply safe_ret|apply safe_abort].
Qed.
Lemma safe_subst : forall u t, safe (type_subst P u t).
Proof.
  intros [u|] t; cbn [type_subst]; [|apply safe_ret]. destruct (p_env P u); [apply safe_ret|].
  destruct t; [apply safe_tsubst|apply safe_abort].
Qed.
Lemma safe_elem : forall n t, safe (elem P n t).
Proof.
  assert (E : safe (err ;; ret (p_bool P))) by (apply safe_bind; [apply safe_err|intro; apply safe_ret]).
  induction n as [|n IH]; intro t; [apply safe_out|]. cbn [elem]. destruct t as [d|fs r|t']; [|exact E|apply IH].
  destruct (p_type P d) as [|[t'|]|t'|o i ph sg]; try exact E; try apply safe_ret; try apply IH.
  destruct (first_some sg); [apply safe_ret|exact E].
Qed.

Lemma closed_fun : forall u fs r, closed P u (TFun fs r) ->
  Forall (fun f => closed P u (snd f)) fs /\ closed P u r.
Proof.
  intros u fs r [A B]. split; [|exact B]. induction fs as [|f l IH]; [constructor|].
  destruct A as [A1 A2]. constructor; [exact A1|exact (IH A2)].
Qed.

Lemma safe_csubst : forall n t1 u t2, closed P u t2 -> safe (csubst P N n t1 u t2).
Proof.
  induction n as [|n IH]; intros t1 u t2 C; [apply safe_out|]. cbn [csubst]. intro st.
  destruct (complete P st u).
  { apply safe_bind; [apply safe_subst|]. intro o. apply safe_equal. }
  destruct t2 as [d|fs r|t].
  - destruct (p_type P d) as [|el|t'|o i ph sg] eqn:E; try apply safe_equal.
    destruct (bound_in P u d) as [[p j]|] eqn:Bd.
    + destruct (s_slot st u p j) as [t|]; [apply safe_equal|].
      apply safe_bind; [intro st'; exact I|]. intros _.
      cbn [closed] in C. rewrite E in C. destruct C as [p0 [-> K]].
      assert (Sg : forall t, In (Some t) sg -> closed P u t) by (intros t Ht; exact (cl_sig _ Cl _ _ _ _ _ _ _ E K Ht)).
      clear E Bd. induction sg as [|[t|] l IHl]; cbn [csigs].
      * apply safe_ret.
      * apply safe_bind.
        -- destruct t1 as [t1|]; [|apply safe_abort]. apply safe_bind; [apply safe_elem|].
           intro e. apply IH. apply Sg. left. reflexivity.
        -- intros _. apply IHl. intros t' H. apply Sg. right. exact H.
      * apply IHl. intros t' H. apply Sg. right. exact H.
    + exfalso. cbn [closed] in C. rewrite E in C. destruct C as [p [-> K]].
      unfold bound_in in Bd. rewrite E in Bd.
      destruct (existsb (Nat.eqb p) (p_env P u)) eqn:X; [discriminate|].
      assert (Y : existsb (Nat.eqb p) (p_env P u) = true) by (apply existsb_exists; exists p; split; [exact K|apply Nat.eqb_refl]).
      rewrite X in Y. discriminate.
  - destruct t1 as [t1|]; [|exact I]. apply safe_bind.
    + apply sat_lift. pose proof (base_ok N t1). destruct (base P N t1); try exact I. exact H.
    + intros [d|fs1 r1|x]; try apply safe_err. apply closed_fun in C. destruct C as [Cf Cr].
      apply safe_bind; [|intros _; apply IH; exact Cr].
      revert fs1. induction Cf as [|[k2 a2] l Ha Hl IHl]; intros [|[k1 a1] fs1]; cbn [cdecls]; try apply safe_err.
      destruct (Bool.eqb k1 k2); [|apply safe_err]. apply safe_bind; [apply IH; exact Ha|]. intros _. apply IHl.
  - apply IH. exact C.
Qed.

(** use [u] is not polymorphic, or type [t] is closed for it *)
Definition fit (u : option nat) (t : ty) : Prop :=
  match u with Some u => p_env P u = [] \/ closed P u t | None => True end.

Lemma safe_check_subst : forall t1 u t2,
  (forall t, t2 = Some t -> fit u t) -> safe (check_subst P N N t1 u t2).
Proof.
  intros t1 [u|] t2 F; cbn [check_subst]; [|apply safe_equal]. destruct t2 as [t2|].
  - specialize (F t2 eq_refl). cbn [fit] in F. destruct F as [E|C]; [|apply safe_csubst; exact C].
    generalize N at 2. intros [|n0]; [apply safe_out|]. cbn [csubst]. intro st.
    assert (X : complete P st u = true) by (unfold complete; rewrite E; reflexivity). rewrite X.
    exact (safe_bind _ _ _ _ (safe_subst _ _) (fun o => safe_equal t1 o) st).
  - intro st. destruct (complete P st u); [|exact I].
    exact (safe_bind _ _ _ _ (safe_subst _ _) (fun o => safe_equal t1 o) st).
Qed.

Lemma fit_base : forall u n t b, base P n t = Done b -> fit u t -> fit u b.
Proof.
  intros [u|] n t b E F; [|exact I]. destruct F as [F|F]; [left; exact F|].
  destruct (p_env P u) as [|p l] eqn:Ev; [left; exact Ev|]. right.
  assert (Ne : p_env P u <> []) by (rewrite Ev; discriminate). clear Ev.
  revert t b E F. induction n as [|n IH]; intros t b E F; [discriminate|]. cbn [base] in E.
  destruct t as [d|fs r|t'].
  - destruct (p_type P d) eqn:K; try (injection E as <-; exact F).
    apply (IH _ _ E). exact (cl_rename _ Cl _ _ _ Ne K).
  - injection E as <-. exact F.
  - exact (IH _ _ E F).
Qed.
Lemma fit_fun : forall u fs r, fit u (TFun fs r) -> (forall k t, In (k, t) fs -> fit u t) /\ fit u r.
Proof.
  intros [u|] fs r F; [|split; intros; exact I]. destruct F as [F|F]; [split; [intros k t H|]; left; exact F|].
  apply closed_fun in F. destruct F as [A B]. split; [|right; exact B].
  intros k t H. right. rewrite Forall_forall in A. exact (A _ H).
Qed.

Section Step.
Variable R : rec.
Record calm : Prop := mkCalm {
  k_infer : forall e, safe (r_infer R e);
  k_check : forall e t, safe (r_check R e t);
  k_pinfer : forall p, mono_pat P p -> safe (r_pinfer R p);
  k_pcheck : forall p t, mono_pat P p -> safe (r_pcheck R p t) }.
Hypothesis G : calm.

Lemma safe_infer_elem : forall e, safe (infer_elem P N R e).
Proof.
  intro e. unfold infer_elem. apply safe_bind; [apply (k_infer G)|]. intros [t|]; [apply safe_elem|apply safe_abort].
Qed.

Lemma sat_decl : forall u, sat (decl_type P N R (p_use P u)) (fun o => forall t, o = Some t -> fit (Some u) t).
Proof.
  intro u.
  assert (S : safe (decl_type P N R (p_use P u))).
  { unfold decl_type. destruct (v_kind (p_value P (p_use P u))) as [t|old|set|x].
    - apply safe_ret.
    - apply (k_infer G).
    - apply safe_bind; [apply (k_infer G)|]. intros [t|]; [|apply safe_abort].
      apply safe_bind; [apply safe_elem|intro; apply safe_ret].
    - intro st. destruct (s_pmemo st x); exact I. }
  intro st. specialize (S st). destruct (p_env P u) as [|p l] eqn:Ev.
  - destruct (decl_type P N R (p_use P u) st) as [[st' o]| | |]; try exact S.
    intros t _. left. exact Ev.
  - assert (Ne : p_env P u <> []) by (rewrite Ev; discriminate).
    destruct (cl_value _ Cl u Ne) as [t [E C]]. unfold decl_type. rewrite E. cbn.
    intros t' H. injection H as <-. right. exact C.
Qed.

Lemma safe_actuals : forall u args fs, (forall k t, In (k, t) fs -> fit u t) -> safe (actuals P N R u fs args).
Proof.
  intro u. induction args as [|a args IH]; intros fs F; cbn [actuals].
  - destruct fs as [|[[|] t] fs]; [apply safe_ret|apply safe_ret|apply safe_err].
  - destruct fs as [|[k t] fs]; [apply safe_err|]. apply safe_bind.
    + intro st. destruct (is_complete P st u).
      * exact (safe_bind _ _ _ _ (safe_subst _ _) (fun o => k_check G a o) st).
      * refine (safe_bind _ _ _ _ (k_infer G a) _ st). intro o. apply safe_check_subst.
        intros t0 H. injection H as <-. exact (F k t (or_introl eq_refl)).
    + intros _. apply IH. destruct k; [exact F|]. intros k0 t0 H. exact (F k0 t0 (or_intror H)).
Qed.
Lemma safe_check_actuals : forall args ft u, (forall t, ft = Some t -> fit u t) -> safe (check_actuals P N R args ft u).
Proof.
  intros args [ft|] u F; [|apply safe_abort]. cbn [check_actuals].
  apply sat_bind with (Q := fit u).
  - apply sat_lift. pose proof (base_ok N ft). destruct (base P N ft) eqn:E; try exact I; [|exact H].
    exact (fit_base _ _ _ _ E (F _ eq_refl)).
  - intros [d|fs r|x] H; try (apply safe_bind; [apply safe_err|intro; apply safe_ret]).
    apply safe_bind; [apply safe_actuals; exact (proj1 (fit_fun _ _ _ H))|]. intros _. apply safe_subst.
Qed.
Lemma safe_infer_ret : forall f args, safe (infer_ret P N R f args).
Proof.
  intros f args. unfold infer_ret.
  assert (X : safe (t <- r_infer R f ;; check_actuals P N R args t None)).
  { apply safe_bind; [apply (k_infer G)|]. intro o. apply safe_check_actuals. intros; exact I. }
  destruct (p_node P f); try exact X.
  - apply (sat_bind _ _ _ _ _ _ (sat_decl u)). intros o H. apply safe_check_actuals. exact H.
  - apply safe_bind; [apply (k_check G)|]. intros _. apply safe_check_actuals. intros; exact I.
Qed.
Lemma safe_check_ret : forall f args type, safe (check_ret P N R f args type).
Proof.
  intros f args type. unfold check_ret.
  assert (X : safe (t <- r_infer R f ;; o <- check_actuals P N R args t None ;; check_equal P N (Some type) o)).
  { apply safe_bind; [apply (k_infer G)|]. intro o. apply safe_bind; [apply safe_check_actuals; intros; exact I|].
    intro o'. apply safe_equal. }
  destruct (p_node P f); try exact X.
  - apply (sat_bind _ _ _ _ _ _ (sat_decl u)). intros [t|] H; [|apply safe_abort].
    apply sat_bind with (Q := fit (Some u)).
    + apply sat_lift. pose proof (base_ok N t) as K. destruct (base P N t) eqn:E; try exact I; [|exact K].
      exact (fit_base _ _ _ _ E (H _ eq_refl)).
    + intros [d|fs r|x] F; try apply safe_err.
      apply safe_bind; [apply safe_check_subst; intros t0 E; injection E as <-; exact (proj2 (fit_fun _ _ _ F))|].
      intros _. apply safe_bind; [apply safe_check_actuals; intros t0 E; injection E as <-; exact F|].
      intro; apply safe_ret.
  - apply safe_bind; [apply (k_check G)|]. intros _.
    apply safe_bind; [apply safe_check_actuals; intros; exact I|]. intro o. apply safe_equal.
Qed.

Lemma safe_infer : forall e, safe (infer_body P N R e).
Proof.
  intros e st. unfold infer_body. destruct (s_memo st e); [exact I|]. revert st.
  match goal with |- forall st, match ?m st with _ => _ end => change (safe m) end.
  apply safe_bind; [|intro t; apply safe_bind; [intro st; exact I|intro; apply safe_ret]].
  destruct (p_node P e) as [u|t0|e' t0|f args|a b|e'|e' c|s0 e'|].
  - apply (sat_bind _ _ _ _ _ _ (sat_decl u)). intros o _. apply safe_subst.
  - apply safe_ret.
  - apply safe_bind; [apply (k_check G)|intro; apply safe_ret].
  - apply safe_infer_ret.
  - apply safe_bind; [apply (k_infer G)|]. intro o. apply safe_bind; [apply (k_check G)|intro; apply safe_ret].
  - apply safe_bind; [apply safe_infer_elem|intro; apply safe_ret].
  - apply safe_bind; [apply (k_infer G)|]. intro o. apply safe_bind; [apply (k_check G)|intro; apply safe_ret].
  - apply safe_bind; [apply safe_infer_elem|intro; apply (k_infer G)].
  - apply safe_bind; [apply safe_err|intro; apply safe_ret].
Qed.

Lemma impure_ok : forall n fd e, match impure P n fd e with Ub => False | _ => True end.
Proof.
  induction n as [|n IH]; intros fd e; [exact I|]. cbn [impure].
  destruct (p_node P e); try exact I; [|apply IH]. destruct (v_kind (p_value P (p_use P u))); exact I.
Qed.

Lemma safe_check : forall e t, safe (check_body P N R e t).
Proof.
  intros e [t|]; cbn [check_body]; [|apply safe_bind; [apply (k_infer G)|intro; apply safe_ret]].
  intro st. destruct (s_memo st e) as [t0|]; [apply safe_equal|]. revert st.
  match goal with |- forall st, match ?m st with _ => _ end => change (safe m) end.
  apply safe_bind.
  { destruct (p_within P e) as [fd|]; [|apply safe_ret]. apply safe_bind.
    - apply sat_lift. pose proof (impure_ok N fd e). destruct (impure P N fd e); try exact I. exact H.
    - intros [|]; [apply safe_err|apply safe_ret]. }
  intros _. apply safe_bind; [|intros _ st; exact I].
  destruct (p_node P e) as [u|t0|e' t0|f args|a b|e'|e' c|s0 e'|].
  - apply (sat_bind _ _ _ _ _ _ (sat_decl u)). intros o H. apply safe_check_subst. exact H.
  - apply safe_equal.
  - apply safe_bind; [apply (k_infer G)|]. intro o. apply safe_equal.
  - apply safe_check_ret.
  - apply safe_bind; [apply (k_check G)|]. intros _. apply (k_check G).
  - apply safe_bind; [apply safe_infer_elem|]. intro. apply safe_equal.
  - apply safe_bind; [apply (k_check G)|]. intros _. apply (k_check G).
  - apply safe_bind; [apply safe_infer_elem|]. intro. apply (k_check G).
  - apply safe_ret.
Qed.

Lemma mono_args : forall args,
  (fix go (l : list pat) : Prop := match l with [] => True | a :: l' => mono_pat P a /\ go l' end) args ->
  Forall (mono_pat P) args.
Proof.
  induction args as [|a l IH]; intro H; [constructor|]. destruct H as [H1 H2]. constructor; [exact H1|exact (IH H2)].
Qed.

Lemma safe_pactuals : forall u args fs, Forall (mono_pat P) args -> (forall t, fit u t) ->
  safe (pactuals P N R u fs args).
Proof.
  intro u. induction args as [|a args IH]; intros fs Ma F; cbn [pactuals].
  - destruct fs as [|[[|] t] fs]; [apply safe_ret|apply safe_ret|apply safe_err].
  - destruct fs as [|[k t] fs]; [apply safe_err|]. inversion Ma as [|a0 l0 M1 M2]; subst a0 l0. apply safe_bind.
    + intro st. destruct (is_complete P st u).
      * exact (safe_bind _ _ _ _ (safe_subst _ _) (fun o => k_pcheck G a o M1) st).
      * refine (safe_bind _ _ _ _ (k_pinfer G a M1) _ st). intro o. apply safe_check_subst.
        intros t0 H. apply F.
    + intros _. apply IH; [exact M2|exact F].
Qed.
Lemma safe_check_pactuals : forall args ft u, Forall (mono_pat P) args -> (forall t, fit u t) ->
  safe (check_pactuals P N R args ft u).
Proof.
  intros args [[d|fs r|x]|] u Ma F; cbn [check_pactuals]; try (apply safe_bind; [apply safe_err|intro; apply safe_ret]); [|apply safe_abort].
  apply safe_bind; [apply safe_pactuals; assumption|]. intros _. apply safe_subst.
Qed.

Lemma safe_pinfer : forall p, mono_pat P p -> safe (pinfer_body P N R p).
Proof.
  intros p Mp. destruct p as [u|q t0|f args|q|p1 p2|x|e|]; cbn [pinfer_body].
  - apply safe_subst.
  - apply safe_bind; [exact (k_pcheck G q _ Mp)|intro; apply safe_ret].
  - destruct Mp as [Mf Ma]. apply mono_args in Ma.
    assert (X : safe (t <- r_pinfer R f ;; check_pactuals P N R args t None)).
    { apply safe_bind; [exact (k_pinfer G _ Mf)|]. intro o. apply safe_check_pactuals; [exact Ma|intro; exact I]. }
    destruct f; try exact X. apply safe_bind; [apply safe_subst|]. intro o.
    apply safe_check_pactuals; [exact Ma|]. intro t. left. exact Mf.
  - exact (k_pinfer G q Mp).
  - destruct Mp as [M1 M2]. apply safe_bind; [exact (k_pinfer G _ M2)|]. intro o.
    apply safe_bind; [exact (k_pcheck G _ _ M1)|intro; apply safe_ret].
  - intro st. destruct (s_pmemo st x); [exact I|]. destruct (p_vtype P x); exact I.
  - apply safe_bind; [apply safe_err|]. intros _. apply safe_bind; [apply (k_check G)|intro; apply safe_ret].
  - apply safe_bind; [apply safe_err|intro; apply safe_ret].
Qed.

Lemma safe_pcheck : forall p t, mono_pat P p -> safe (pcheck_body P N R p t).
Proof.
  intros p [t|] Mp; cbn [pcheck_body]; [|apply safe_bind; [exact (k_pinfer G _ Mp)|intro; apply safe_ret]].
  destruct p as [u|q t0|f args|q|p1 p2|x|e|].
  - apply safe_check_subst. intros t0 _. left. exact Mp.
  - apply safe_equal.
  - destruct Mp as [Mf Ma]. apply mono_args in Ma.
    assert (X : safe (t0 <- r_pinfer R f ;; o <- check_pactuals P N R args t0 None ;; check_equal P N (Some t) o)).
    { apply safe_bind; [exact (k_pinfer G _ Mf)|]. intro o.
      apply safe_bind; [apply safe_check_pactuals; [exact Ma|intro; exact I]|]. intro. apply safe_equal. }
    destruct f; try exact X. apply safe_bind.
    { apply sat_lift. match goal with |- match base P N ?x with _ => _ end => pose proof (base_ok N x) as K; destruct (base P N x) end; try exact I. exact K. }
    intros [d|fs r|x]; try apply safe_err.
    apply safe_bind; [apply safe_check_subst; intros t0 _; left; exact Mf|]. intros _.
    apply safe_bind; [apply safe_check_pactuals; [exact Ma|intro; left; exact Mf]|intro; apply safe_ret].
  - exact (k_pcheck G q _ Mp).
  - destruct Mp as [M1 M2]. apply safe_bind; [exact (k_pcheck G _ _ M2)|]. intros _. exact (k_pcheck G _ _ M1).
  - intro st. destruct (s_pmemo st x); [apply safe_equal|].
    apply safe_bind; [intro; exact I|]. intros _. destruct (p_vtype P x); [apply safe_equal|apply safe_ret].
  - apply (k_check G).
  - apply safe_ret.
Qed.
End Step.

Lemma calm_run : forall n, calm (run P N n).
Proof.
  induction n as [|n IH].
  - constructor; intros; apply safe_out.
  - constructor; cbn [run r_infer r_check r_pinfer r_pcheck].
    + exact (safe_infer _ IH). + exact (safe_check _ IH). + exact (safe_pinfer _ IH). + exact (safe_pcheck _ IH).
Qed.

Variable n : nat.
Let G := calm_run n.

Lemma remote_p_ok : forall k t, match remote_p P k t with Ub => False | _ => True end.
Proof.
  induction k as [|k IH]; intro t; [exact I|]. cbn [remote_p]. destruct t as [d|fs r|t']; try exact I.
  destruct (p_type P d); try exact I. apply IH.
Qed.

Lemma safe_target : forall b l, safe (check_target P N n b l).
Proof.
  intros b l. unfold check_target. apply safe_bind.
  - destruct b; [|apply safe_ret]. destruct (p_node P l); try apply safe_ret.
    destruct args as [|a args]; [apply safe_abort|]. apply safe_bind; [apply (k_infer _ G)|].
    intros [t|]; [|apply safe_abort]. apply safe_bind.
    + apply sat_lift. pose proof (remote_p_ok N t) as K. destruct (remote_p P N t); try exact I. exact K.
    + intros [|]; [apply safe_err|apply safe_ret].
  - intros _. destruct (p_node P l); try apply safe_ret.
    + destruct (v_var (p_value P (p_use P u))); [apply safe_ret|apply safe_err].
    + destruct (p_node P f); try apply safe_abort.
      destruct (v_var (p_value P (p_use P u))); [apply safe_ret|apply safe_err].
Qed.

Definition calm_stmt (x : stmt) : Prop := mono_stmt P x -> safe (check_stmt P N n x).
Lemma safe_block : forall b, Forall calm_stmt b ->
  (fix block (b : list stmt) : Prop :=
    match b with [] => True | s :: b' => mono_stmt P s /\ block b' end) b ->
  safe ((fix block (b : list stmt) : M unit :=
    match b with [] => ret tt | s :: b' => check_stmt P N n s ;; block b' end) b).
Proof.
  intros b Hb. induction Hb as [|x b Hx Hb IH]; intro Mb; [apply safe_ret|]. destruct Mb as [M1 M2].
  apply safe_bind; [exact (Hx M1)|]. intros _. exact (IH M2).
Qed.
Lemma safe_matches : forall ms, Forall (fun m => Forall calm_stmt (snd m)) ms -> forall t,
  (fix matches (ms : list (pat * list stmt)) : Prop :=
    match ms with [] => True | (p, b) :: ms' => (mono_pat P p /\
      (fix block (b : list stmt) : Prop :=
        match b with [] => True | s :: b' => mono_stmt P s /\ block b' end) b) /\ matches ms' end) ms ->
  safe ((fix matches (t : option ty) (ms : list (pat * list stmt)) : M unit :=
    match ms with
    | [] => ret tt
    | (p, b) :: ms' => r_pcheck (run P N n) p t ;;
        (fix block (b : list stmt) : M unit :=
           match b with [] => ret tt | s :: b' => check_stmt P N n s ;; block b' end) b ;; matches t ms'
    end) t ms).
Proof.
  intros ms Hm t. induction Hm as [|[p b] ms Hb Hm IH]; intro Mm; [apply safe_ret|]. destruct Mm as [[M1 M2] M3].
  apply safe_bind; [exact (k_pcheck _ G _ _ M1)|]. intros _. apply safe_bind; [exact (safe_block b Hb M2)|].
  intros _. exact (IH M3).
Qed.
Lemma all_calm : forall x, calm_stmt x.
Proof.
  apply stmt_ind2; unfold calm_stmt.
  - intros t d _. cbn [check_stmt]. destruct d as [|e|e c]; cbn [check_default].
    + apply safe_ret. + apply (k_check _ G). + apply safe_bind; [apply (k_check _ G)|intros _; apply (k_check _ G)].
  - intros b l r _. cbn [check_stmt]. apply safe_bind; [apply safe_target|]. intros _.
    apply safe_bind; [apply (k_infer _ G)|]. intro o. apply (k_check _ G).
  - intros c t f Ht Hf [M1 M2]. cbn [check_stmt]. apply safe_bind; [apply (k_check _ G)|]. intros _.
    apply safe_bind; [exact (safe_block t Ht M1)|]. intros _. exact (safe_block f Hf M2).
  - intros e ms Hm Mm. cbn [check_stmt]. apply safe_bind; [apply (k_infer _ G)|]. intro o. exact (safe_matches ms Hm o Mm).
  - intros e ms d Hm Hd [Mm Md]. cbn [check_stmt]. apply safe_bind; [apply (k_infer _ G)|]. intro o.
    apply safe_bind; [exact (safe_matches ms Hm o Mm)|]. intros _. exact (safe_block d Hd Md).
  - intros e b Hb Mb. cbn [check_stmt]. apply safe_bind; [apply (k_infer _ G)|]. intro o. exact (safe_block b Hb Mb).
  - intros p b Hb [Mp Mb]. cbn [check_stmt]. apply safe_bind; [exact (k_pinfer _ G _ Mp)|]. intro o. exact (safe_block b Hb Mb).
  - intros b Hb Mb. cbn [check_stmt]. exact (safe_block b Hb Mb).
Qed.

Theorem no_crash : forall b st, Forall (mono_stmt P) b -> check_block P N n b st <> Ub.
Proof.
  intros b st Mb.
  assert (S : safe (check_block P N n b)).
  { induction Mb as [|x b M1 M2 IH]; cbn [check_block]; [apply safe_ret|].
    apply safe_bind; [exact (all_calm x M1)|]. intros _. exact IH. }
  specialize (S st). intro E. rewrite E in S. exact S.
Qed.
End Crash.
