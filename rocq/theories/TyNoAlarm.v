(** * No false alarms, continued: patterns and statements. *)
From Coq Require Import List Arith Bool Lia.
From Verif Require Import TyModel TySpec TyEq TySound TyComplete.
Import ListNotations.

(** Variables of a pattern. *)
Fixpoint binds (p : pat) : list nat :=
  match p with
  | PUse _ | PCond _ | PNo => []
  | PTyped q _ | PRest q => binds q
  | PCall f args => binds f ++ flat_map binds args
  | PAnd p1 p2 => binds p2 ++ binds p1
  | PVar x => [x]
  end.
Definition under (B : nat -> Prop) (l : list nat) : nat -> Prop := fun x => B x \/ In x l.

(** A condition in a pattern mentions variables of [B], of the patterns to its left
    and, in a conjunction, of the right side only. *)
Fixpoint scoped (P : program) (B : nat -> Prop) (p : pat) : Prop :=
  match p with
  | PUse _ | PVar _ | PNo => True
  | PTyped q _ | PRest q => scoped P B q
  | PCall f args =>
      scoped P B f /\
      (fix go (B : nat -> Prop) (l : list pat) : Prop :=
         match l with [] => True | a :: l' => scoped P B a /\ go (under B (binds a)) l' end)
        (under B (binds f)) args
  | PAnd p1 p2 => scoped P B p2 /\ scoped P (under B (binds p2)) p1
  | PCond e => forall x, mentions P e x -> B x
  end.

(** A pattern whose type can be found without further help: only constructors are
    applied; where a type must be inferred ([chk = false]) there is a constructor or
    a type annotation (of [W0]), and where a type is given there is no annotation. *)
Fixpoint direct (P : program) (W0 : ty -> Prop) (chk : bool) (p : pat) : Prop :=
  match p with
  | PUse _ => True
  | PTyped q t => chk = false /\ W0 t /\ direct P W0 true q
  | PCall f args =>
      (exists u fs r, f = PUse u /\ p_pdecl P (p_use P u) = TFun fs r) /\
      (fix go (l : list pat) : Prop :=
         match l with [] => True | a :: l' => direct P W0 true a /\ go l' end) args
  | PRest q => direct P W0 chk q
  | PAnd p1 p2 => direct P W0 true p1 /\ direct P W0 chk p2
  | PVar _ | PCond _ | PNo => chk = true
  end.

Inductive remote (P : program) : ty -> Prop :=
| rm_remote t : remote P (TRemote t)
| rm_formal d o i sg : p_type P d = DFormal o i false sg -> remote P (TUse d)
| rm_rename d t : p_type P d = DRename t -> remote P t -> remote P (TUse d).

(** What is assigned is not an attribute of something remote: no type written in
    the program for it is a remote one. *)
Definition target (P : program) (s : instantiation) (v : nat -> ty) (W0 : ty -> Prop)
    (normal : bool) (l : nat) : Prop :=
  normal = false \/
  match p_node P l with
  | ECall f args =>
      match args with
      | a :: _ => forall t, written P W0 t -> has_type P s v a t -> ~ remote P t
      | [] => False
      end
  | _ => True
  end.

(** Statements whose expressions use pattern variables in their scope only. *)
Definition in_scope (P : program) (B : nat -> Prop) (e : nat) : Prop := forall x, mentions P e x -> B x.
Fixpoint ready (P : program) (s : instantiation) (v : nat -> ty) (W0 : ty -> Prop) (B : nat -> Prop) (x : stmt) : Prop :=
  let block (B : nat -> Prop) := fix block (b : list stmt) : Prop :=
    match b with [] => True | y :: b' => ready P s v W0 B y /\ block b' end in
  let fix matches (ms : list (pat * list stmt)) : Prop :=
    match ms with
    | [] => True
    | (p, b) :: ms' => (direct P W0 true p /\ scoped P B p /\ block (under B (binds p)) b) /\ matches ms'
    end in
  match x with
  | SValue t NoDefault => W0 t
  | SValue t (Simple e) => W0 t /\ in_scope P B e
  | SValue t (Composite e c) => W0 t /\ in_scope P B e /\ in_scope P B c
  | SAssign n l r => target P s v W0 n l /\ in_scope P B l /\ in_scope P B r
  | SIf c t f => in_scope P B c /\ block B t /\ block B f
  | SFor e ms => in_scope P B e /\ matches ms
  | SCase e ms d => in_scope P B e /\ matches ms /\ block B d
  | SForIn e b => in_scope P B e /\ block B b
  | SMatch p b => direct P W0 false p /\ scoped P B p /\ block (under B (binds p)) b
  | SBlock b => block B b
  end.

Section NoAlarm.
Variable P : program.
Hypothesis Mo : monomorphic P.
Variable s : instantiation.
Variable v : nat -> ty.
Variable W0 : ty -> Prop.
Notation W := (written P W0).
Variable N : nat.

Notation inv := (fun B => inv P s v B W0).
Definition compx {A} (B B' : nat -> Prop) (m : M A) (Q : A -> Prop) : Prop := forall st, inv B st ->
  match m st with
  | Done (st', a) => inv B' st' /\ Q a
  | Abort | Ub => False
  | Fuel => True
  end.

Lemma inv_less : forall (B B' : nat -> Prop) st, (forall x, B' x -> B x) -> inv B st -> inv B' st.
Proof.
  intros B B' st H [A C D E]. constructor; [exact A|exact C|exact D|]. intros x K. exact (E x (H x K)).
Qed.
Lemma x_less : forall A B (B1 B2 : nat -> Prop) (m : M A) (Q : A -> Prop),
  (forall x, B2 x -> B1 x) -> compx B B1 m Q -> compx B B2 m Q.
Proof.
  intros A B B1 B2 m Q H K st I. specialize (K st I). destruct (m st) as [[st' a]| | |]; try exact K.
  destruct K as [K1 K2]. split; [exact (inv_less _ _ _ H K1)|exact K2].
Qed.
Lemma x_comp : forall A B (m : M A) Q, comp P s v B W0 m Q -> compx B B m Q.
Proof. intros A B m Q H. exact H. Qed.
Lemma x_bind : forall A C B B' B'' (m : M A) (f : A -> M C) (Q : A -> Prop) (Q' : C -> Prop),
  compx B B' m Q -> (forall a, Q a -> compx B' B'' (f a) Q') -> compx B B'' (bind m f) Q'.
Proof.
  intros A C B B' B'' m f Q Q' H K st I. unfold bind. specialize (H st I).
  destruct (m st) as [[st' a]| | |]; try exact H. destruct H as [H1 H2]. exact (K a H2 st' H1).
Qed.
Lemma x_conseq : forall A B B' (m : M A) (Q Q' : A -> Prop), compx B B' m Q -> (forall a, Q a -> Q' a) -> compx B B' m Q'.
Proof.
  intros A B B' m Q Q' H K st I. specialize (H st I). destruct (m st) as [[st' a]| | |]; try exact H.
  destruct H as [H1 H2]. split; [exact H1|exact (K _ H2)].
Qed.
Lemma x_ret : forall A B (a : A) (Q : A -> Prop), Q a -> compx B B (ret a) Q.
Proof. intros A B a Q H st I. split; assumption. Qed.
Lemma x_out : forall A B B' (Q : A -> Prop), compx B B' out Q.
Proof. intros A B B' Q st I. exact Logic.I. Qed.

Lemma has_ptype_inv : forall p t, has_ptype P s v p t ->
  match p with
  | PUse u => same P (p_pdecl P (p_use P u)) t
  | PTyped q t0 => has_ptype P s v q t0 /\ same P t0 t
  | PCall f args => exists fs r, has_ptype P s v f (TFun fs r) /\ pfits P s v fs args /\ same P r t
  | PRest q => has_ptype P s v q t
  | PAnd p1 p2 => has_ptype P s v p1 t /\ has_ptype P s v p2 t
  | PVar x => same P (vtype P v x) t
  | PCond e => has_type P s v e (p_bool P)
  | PNo => True
  end.
Proof.
  intros p t H. induction H as [p t t' H IH S|u|p t H _|f args fs r H _ F|p t H _|p1 p2 t H1 _ H2 _|x E|x t E|e t H|t].
  - destruct p as [u|q t0|f args|q|p1 p2|x|e|].
    + eapply same_trans; eassumption.
    + destruct IH as [A C]. split; [exact A|]. eapply same_trans; eassumption.
    + destruct IH as [fs [r [A [C D]]]]. exists fs, r. split; [exact A|]. split; [exact C|]. eapply same_trans; eassumption.
    + eapply hp_same; eassumption.
    + destruct IH as [A C]. split; eapply hp_same; eassumption.
    + eapply same_trans; eassumption.
    + exact IH.
    + exact I.
  - rewrite (mono_inst P Mo). apply same_refl.
  - split; [exact H|apply same_refl].
  - exists fs, r. split; [exact H|]. split; [exact F|apply same_refl].
  - exact H.
  - split; assumption.
  - unfold vtype. rewrite E. apply same_refl.
  - unfold vtype. rewrite E. apply same_refl.
  - exact H.
  - exact I.
Qed.

Fixpoint scoped_list (B : nat -> Prop) (l : list pat) : Prop :=
  match l with [] => True | a :: l' => scoped P B a /\ scoped_list (under B (binds a)) l' end.
Lemma scoped_args : forall l B,
  (fix go (B : nat -> Prop) (l : list pat) : Prop :=
         match l with [] => True | a :: l' => scoped P B a /\ go (under B (binds a)) l' end) B l -> scoped_list B l.
Proof. induction l as [|a l IH]; intros B H; [exact I|]. destruct H as [H1 H2]. split; [exact H1|exact (IH _ H2)]. Qed.
Lemma direct_args : forall l,
  (fix go (l : list pat) : Prop :=
         match l with [] => True | a :: l' => direct P W0 true a /\ go l' end) l -> Forall (direct P W0 true) l.
Proof. induction l as [|a l IH]; intros H; [constructor|]. destruct H as [H1 H2]. constructor; [exact H1|exact (IH H2)]. Qed.

Section Step.
Variable n : nat.
Let R := run P N n.
Hypothesis Hc : forall p B t, direct P W0 true p -> scoped P B p -> has_ptype P s v p t -> W t ->
  compx B (under B (binds p)) (r_pcheck R p (Some t)) (fun _ => True).
Hypothesis Hi : forall p B t, direct P W0 false p -> scoped P B p -> has_ptype P s v p t ->
  compx B (under B (binds p)) (r_pinfer R p) (fun o => exists t', o = Some t' /\ same P t t' /\ W t').

Lemma fine_R : forall B, fine P s v B W0 R.
Proof. intro B. exact (fine_run P Mo s v B W0 N n). Qed.

Lemma x_pactuals : forall u args fs fs' B, Forall (direct P W0 true) args -> scoped_list B args ->
  pfits P s v fs args -> Forall2 (fun x y => fst x = fst y /\ same P (snd x) (snd y)) fs fs' ->
  (forall k t, In (k, t) fs' -> W t) ->
  compx B (under B (flat_map binds args)) (pactuals P N R u fs' args) (fun _ => True).
Proof.
  intro u. induction args as [|a args IH]; intros fs fs' B D Sc F S Wf; cbn [pactuals].
  - apply x_less with B; [intros x [K|K]; [exact K|contradiction]|].
    inversion F; subst; inversion S; subst; [apply x_ret; exact I|].
    destruct y as [k t']. destruct H1 as [K _]. cbn in K. subst k. apply x_ret. exact I.
  - inversion D as [|a0 l0 D1 D2]; subst a0 l0. destruct Sc as [Sc1 Sc2].
    assert (Arg : forall t t', has_ptype P s v a t -> same P t t' -> W t' ->
       compx B (under B (binds a)) (fun st => (if is_complete P st u then t'' <- type_subst P u (Some t') ;; r_pcheck R a t''
                        else o <- r_pinfer R a ;; check_subst P N N o u (Some t')) st) (fun _ => True)).
    { intros t t' H St Wt st I.
      assert (C : is_complete P st u = true) by (destruct u; [apply (mono_complete P Mo)|reflexivity]).
      rewrite C. refine (x_bind _ _ B B _ _ _ (fun o => o = Some t') _ _ _ st I).
      - destruct u as [u|]; [apply x_comp; apply (comp_subst P Mo)|apply x_ret; reflexivity].
      - intros o ->. apply Hc; [exact D1|exact Sc1| |exact Wt]. eapply hp_same; eassumption. }
    assert (W : forall x, under B (flat_map binds (a :: args)) x -> under (under B (binds a)) (flat_map binds args) x).
    { intros x [K|K]; [left; left; exact K|]. cbn in K. apply in_app_or in K. destruct K as [K|K]; [left; right; exact K|right; exact K]. }
    apply (x_less _ _ _ _ _ _ W).
    inversion F as [|t f0 a0 r0 Ha Hr E1 E2| |t f0 a0 r0 Ha Hr E1 E2]; subst fs a0 r0;
      inversion S as [|x [k t'] l l' [K St] L E3 E4]; subst x l fs'; cbn in K, St; subst k.
    + eapply x_bind; [exact (Arg t t' Ha St (Wf _ _ (or_introl eq_refl)))|]. intros _ _. exact (IH _ _ _ D2 Sc2 Hr L (fun k0 t0 K0 => Wf k0 t0 (or_intror K0))).
    + eapply x_bind; [exact (Arg t t' Ha St (Wf _ _ (or_introl eq_refl)))|]. intros _ _. exact (IH _ _ _ D2 Sc2 Hr S Wf).
Qed.

Lemma x_check_pactuals : forall args fs' r' u fs r B, Forall (direct P W0 true) args -> scoped_list B args ->
  same P (TFun fs r) (TFun fs' r') -> W (TFun fs' r') -> pfits P s v fs args ->
  compx B (under B (flat_map binds args)) (check_pactuals P N R args (Some (TFun fs' r')) u) (fun o => o = Some r' /\ W r').
Proof.
  intros args fs' r' u fs r B D Sc S Wf F. cbn [check_pactuals]. destruct (same_fun_inv P _ _ _ _ S) as [Hf Hr].
  eapply x_bind; [exact (x_pactuals u args fs fs' B D Sc F Hf (fun k0 t0 K0 => wr_formal _ _ _ _ _ _ Wf K0))|]. intros _ _.
  apply x_conseq with (Q := fun o => o = Some r').
  - destruct u as [u|]; [apply x_comp; apply (comp_subst P Mo)|apply x_ret; reflexivity].
  - intros o ->. split; [reflexivity|exact (wr_result _ _ _ _ Wf)].
Qed.

Lemma x_base : forall B fs r, compx B B (lift (base P N (TFun fs r))) (fun b => b = TFun fs r).
Proof. intros B fs r. destruct N as [|n0]; [exact (x_out _ _ _ _)|]. exact (x_ret _ B (TFun fs r) _ eq_refl). Qed.

Lemma x_set_pvar : forall B x t, same P (vtype P v x) t -> W t ->
  compx B (under B [x]) (set_pmemo x (Some t)) (fun _ => True).
Proof.
  intros B x t S Wt st I. cbn. split; [|exact Logic.I]. destruct I as [A C D E]. constructor; cbn.
  - exact A.
  - exact C.
  - intros x0 t0 K. destruct (x0 =? x) eqn:Q; [|exact (D _ _ K)].
    apply Nat.eqb_eq in Q. subst x0. injection K as <-. split; assumption.
  - intros x0 [K|[K|[]]]; destruct (x0 =? x) eqn:Q; try discriminate; [exact (E x0 K)|].
    subst x0. rewrite Nat.eqb_refl in Q. discriminate.
Qed.

Lemma x_pcheck : forall p B t, direct P W0 true p -> scoped P B p -> has_ptype P s v p t -> W t ->
  compx B (under B (binds p)) (pcheck_body P N R p (Some t)) (fun _ => True).
Proof.
  intros p B t D Sc H Wt. pose proof (has_ptype_inv _ _ H) as I0.
  assert (Z : forall B, forall x, under B [] x -> B x) by (intros B0 x [K|K]; [exact K|contradiction]).
  destruct p as [u|q t0|f args|q|p1 p2|x|e|]; cbn [pcheck_body binds].
  - apply (x_less _ _ _ _ _ _ (Z B)). apply x_comp. apply (comp_check_subst P Mo). apply same_sym. exact I0.
  - destruct D as [D _]. discriminate.
  - destruct D as [[u [fs' [r' [-> E]]]] D]. apply direct_args in D. destruct Sc as [_ Sc]. apply scoped_args in Sc.
    destruct I0 as [fs [r [A [F S]]]]. apply has_ptype_inv in A.
    pose proof (wr_pdecl P W0 (p_use P u)) as Wd. rewrite E in A, Wd |- *.
    assert (Zb : forall x, under B (binds (PUse u) ++ flat_map binds args) x -> under (under B []) (flat_map binds args) x).
    { intros x [K|K]; [left; left; exact K|right; exact K]. }
    apply (x_less _ _ _ _ _ _ Zb).
    apply x_bind with (B' := under B []) (Q := fun b => b = TFun fs' r').
    { apply x_less with B; [apply Z|]. apply x_base. }
    intros b ->. 
    apply x_bind with (B' := under B []) (Q := fun _ => True).
    { apply x_comp. apply (comp_check_subst P Mo). apply same_trans with r; [apply same_sym; exact S|].
      exact (proj2 (same_fun_inv P _ _ _ _ (same_sym A))). }
    intros _ _. eapply x_bind; [eapply x_check_pactuals; [exact D|exact Sc|apply same_sym; exact A|exact Wd|exact F]|].
    intros o _. apply x_ret. exact I.
  - exact (Hc q B t D Sc I0 Wt).
  - destruct D as [D1 D2]. destruct Sc as [S2 S1]. destruct I0 as [A1 A2].
    apply x_less with (under (under B (binds p2)) (binds p1)).
    { intros x [K|K]; [left; left; exact K|]. apply in_app_or in K. destruct K as [K|K]; [left; right; exact K|right; exact K]. }
    eapply x_bind; [exact (Hc p2 B t D2 S2 A2 Wt)|]. intros _ _. exact (Hc p1 _ t D1 S1 A1 Wt).
  - intros st I. destruct (s_pmemo st x) as [t'|] eqn:E.
    + assert (I' : inv (under B [x]) st).
      { destruct I as [A C X Y]. constructor; [exact A|exact C|exact X|]. intros x0 [K|[K|[]]]; [exact (Y _ K)|].
        subst x0. rewrite E. discriminate. }
      refine (x_comp _ _ _ _ (comp_equal P s v _ W0 N t t' _) st I').
      apply same_trans with (vtype P v x); [apply same_sym; exact I0|exact (proj1 (in_var _ _ _ _ _ _ I x t' E))].
    + refine (x_bind _ _ _ _ _ _ _ _ _ (x_set_pvar B x t I0 Wt) _ st I). intros _ _.
      destruct (p_vtype P x) as [t0|] eqn:Ev; [|apply x_ret; exact Logic.I].
      apply x_comp. apply comp_equal. unfold vtype in I0. rewrite Ev in I0. exact I0.
  - apply (x_less _ _ _ _ _ _ (Z B)). apply x_comp. exact (f_check _ _ _ _ _ _ (fine_R B) e _ Sc I0 (wr_bool _ _)).
  - apply (x_less _ _ _ _ _ _ (Z B)). apply x_ret. exact I.
Qed.

Lemma x_pinfer : forall p B t, direct P W0 false p -> scoped P B p -> has_ptype P s v p t ->
  compx B (under B (binds p)) (pinfer_body P N R p) (fun o => exists t', o = Some t' /\ same P t t' /\ W t').
Proof.
  intros p B t D Sc H. pose proof (has_ptype_inv _ _ H) as I0.
  assert (Z : forall B, forall x, under B [] x -> B x) by (intros B0 x [K|K]; [exact K|contradiction]).
  destruct p as [u|q t0|f args|q|p1 p2|x|e|]; cbn [pinfer_body binds]; try discriminate D.
  - apply (x_less _ _ _ _ _ _ (Z B)). refine (x_conseq _ _ _ _ _ _ (x_comp _ _ _ _ (comp_subst P Mo s v B W0 u _)) _).
    intros o ->. eexists. split; [reflexivity|]. split; [apply same_sym; exact I0|apply wr_pdecl].
  - destruct D as [_ [Wq D]]. destruct I0 as [A S]. apply wr_stmt with (P := P) in Wq.
    eapply x_bind; [exact (Hc q B t0 D Sc A Wq)|].
    intros _ _. apply x_ret. exists t0. split; [reflexivity|]. split; [apply same_sym; exact S|exact Wq].
  - destruct D as [[u [fs' [r' [-> E]]]] D]. apply direct_args in D. destruct Sc as [_ Sc]. apply scoped_args in Sc.
    destruct I0 as [fs [r [A [F S]]]]. apply has_ptype_inv in A.
    pose proof (wr_pdecl P W0 (p_use P u)) as Wd. rewrite E in A, Wd |- *.
    assert (Zb : forall x, under B (binds (PUse u) ++ flat_map binds args) x -> under (under B []) (flat_map binds args) x).
    { intros x [K|K]; [left; left; exact K|right; exact K]. }
    apply (x_less _ _ _ _ _ _ Zb).
    eapply x_bind; [apply x_less with B; [apply Z|]; apply x_comp; apply (comp_subst P Mo)|].
    intros o ->. eapply x_conseq; [eapply x_check_pactuals; [exact D|exact Sc|apply same_sym; exact A|exact Wd|exact F]|].
    intros o [-> Wr]. exists r'. split; [reflexivity|]. split; [|exact Wr]. apply same_trans with r; [apply same_sym; exact S|].
    exact (proj2 (same_fun_inv P _ _ _ _ (same_sym A))).
  - exact (Hi q B t D Sc I0).
  - destruct D as [D1 D2]. destruct Sc as [S2 S1]. destruct I0 as [A1 A2].
    apply x_less with (under (under B (binds p2)) (binds p1)).
    { intros x [K|K]; [left; left; exact K|]. apply in_app_or in K. destruct K as [K|K]; [left; right; exact K|right; exact K]. }
    eapply x_bind; [exact (Hi p2 B t D2 S2 A2)|]. intros o [t' [-> [S Wt]]].
    eapply x_bind; [exact (Hc p1 _ t' D1 S1 (hp_same A1 S) Wt)|].
    intros _ _. apply x_ret. exists t'. split; [reflexivity|split; assumption].
Qed.
End Step.

Lemma x_run : forall n,
  (forall p B t, direct P W0 true p -> scoped P B p -> has_ptype P s v p t -> W t ->
     compx B (under B (binds p)) (r_pcheck (run P N n) p (Some t)) (fun _ => True)) /\
  (forall p B t, direct P W0 false p -> scoped P B p -> has_ptype P s v p t ->
     compx B (under B (binds p)) (r_pinfer (run P N n) p) (fun o => exists t', o = Some t' /\ same P t t' /\ W t')).
Proof.
  induction n as [|n [IHc IHi]].
  - split; intros; exact (x_out _ _ _ _).
  - split; [exact (x_pcheck n IHc IHi)|exact (x_pinfer n IHc IHi)].
Qed.

Variable n : nat.
Let Fi := fun B => f_infer _ _ _ _ _ _ (fine_run P Mo s v B W0 N n).
Let Fc := fun B => f_check _ _ _ _ _ _ (fine_run P Mo s v B W0 N n).

Lemma remote_p_fine : forall k t, ~ remote P t ->
  match remote_p P k t with Done b => b = false | Abort | Ub => False | Fuel => True end.
Proof.
  induction k as [|k IH]; intros t H; [exact I|]. cbn [remote_p]. destruct t as [d|fs r|t'].
  - destruct (p_type P d) as [|el|t'|o i ph sg] eqn:E; try reflexivity.
    + apply IH. intro K. apply H. eapply rm_rename; eassumption.
    + destruct ph; [reflexivity|]. exfalso. apply H. eapply rm_formal. exact E.
  - reflexivity.
  - exfalso. apply H. apply rm_remote.
Qed.


Lemma x_target : forall B b l t, target P s v W0 b l -> in_scope P B l -> has_type P s v l t -> assignable P l ->
  compx B B (check_target P N n b l) (fun _ => True).
Proof.
  intros B b l t T Sl H As. unfold check_target. apply x_bind with (B' := B) (Q := fun _ => True).
  - destruct b; [|apply x_ret; exact I].
    pose proof (has_type_inv P Mo s v _ _ H) as I0.
    destruct T as [T|T]; [discriminate|].
    destruct (p_node P l) as [u|t0|e' t0|f args|a b|e'|e' c|s0 e'|] eqn:E; try (apply x_ret; exact I).
    destruct args as [|a args]; [contradiction|]. destruct I0 as [fs [r [_ [F _]]]].
    assert (Ha : exists t0, has_type P s v a t0) by (inversion F; subst; eexists; eassumption).
    destruct Ha as [t0 Ha].
    assert (Sa : in_scope P B a).
    { intros x K. apply Sl. eapply me_child; [|exact K]. unfold child. rewrite E. right. left. reflexivity. }
    eapply x_bind; [exact (Fi B a t0 Sa Ha)|]. intros o [t1 [-> [A Wt]]].
    apply x_bind with (B' := B) (Q := fun b => b = false).
    + apply x_comp. apply comp_lift. exact (remote_p_fine N t1 (T t1 Wt A)).
    + intros b0 ->. apply x_ret. exact I.
  - intros _ _. unfold assignable in As.
    destruct (p_node P l) as [u|t0|e' t0|f args|a b0|e'|e' c|s0 e'|] eqn:E; try (apply x_ret; exact I).
    + rewrite As. apply x_ret. exact I.
    + destruct As as [u [E' Vu]]. rewrite E', Vu. apply x_ret. exact I.
Qed.

Definition fine_stmt (x : stmt) : Prop := forall B, ready P s v W0 B x -> ok_stmt P s v every x ->
  compx B B (check_stmt P N n x) (fun _ => True).

Lemma x_block : forall b, Forall fine_stmt b -> forall B,
  (fix block (b : list stmt) : Prop :=
    match b with [] => True | y :: b' => ready P s v W0 B y /\ block b' end) b ->
  Forall (ok_stmt P s v every) b ->
  compx B B ((fix block (b : list stmt) : M unit :=
    match b with [] => ret tt | s :: b' => check_stmt P N n s ;; block b' end) b) (fun _ => True).
Proof.
  intros b Hb. induction Hb as [|x b Hx Hb IH]; intros B Rd Ok; [apply x_ret; exact I|].
  destruct Rd as [R1 R2]. inversion Ok as [|x0 b0 O1 O2]; subst x0 b0.
  eapply x_bind; [exact (Hx B R1 O1)|]. intros _ _. exact (IH B R2 O2).
Qed.

Lemma x_matches : forall ms, Forall (fun m => Forall fine_stmt (snd m)) ms -> forall B t,
  (fix matches (ms : list (pat * list stmt)) : Prop :=
    match ms with
    | [] => True
    | (p, b) :: ms' => (direct P W0 true p /\ scoped P B p /\
         (fix block (b : list stmt) : Prop :=
            match b with [] => True | y :: b' => ready P s v W0 (under B (binds p)) y /\ block b' end) b) /\ matches ms'
    end) ms ->
  W t ->
  Forall (fun m => (every true (fst m) -> has_ptype P s v (fst m) t) /\ Forall (ok_stmt P s v every) (snd m)) ms ->
  compx B B ((fix matches (t : option ty) (ms : list (pat * list stmt)) : M unit :=
    match ms with
    | [] => ret tt
    | (p, b) :: ms' => r_pcheck (run P N n) p t ;;
        (fix block (b : list stmt) : M unit :=
           match b with [] => ret tt | s :: b' => check_stmt P N n s ;; block b' end) b ;; matches t ms'
    end) (Some t) ms) (fun _ => True).
Proof.
  intros ms Hm. induction Hm as [|[p b] ms Hb Hm IH]; intros B t Rd Wt Ok; [apply x_ret; exact I|].
  destruct Rd as [[D [Sc Rb]] Rm]. inversion Ok as [|x0 b0 O1 O2]; subst x0 b0. destruct O1 as [Op Ob]. cbn [fst snd] in *.
  eapply x_bind; [exact (proj1 (x_run n) p B t D Sc (Op I) Wt)|]. intros _ _.
  eapply x_bind; [exact (x_block b Hb _ Rb Ob)|]. intros _ _.
  intros st Iv. apply (IH B t Rm Wt O2 st). apply (inv_less _ _ _ (fun x K => or_introl K) Iv).
Qed.

Lemma all_fine : forall x, fine_stmt x.
Proof.
  apply stmt_ind2; unfold fine_stmt.
  - intros t d B Rd Ok. inversion Ok as [t0 d0 Od| | | | | | |]; subst t0 d0. cbn [check_stmt].
    destruct d as [|e|e c]; cbn [check_default ready] in *.
    + apply x_ret. exact I.
    + destruct Rd as [Rw Rs]. inversion Od; subst. exact (Fc B e t Rs H1 (wr_stmt _ _ _ Rw)).
    + destruct Rd as [Rw [R1 R2]]. pose proof (wr_stmt P W0 _ Rw) as Wt. inversion Od; subst.
      eapply x_bind; [exact (Fc B e t R1 H2 Wt)|]. intros _ _. exact (Fc B c _ R2 H3 (wr_combine _ _ _ Wt)).
  - intros b l r B [T [Sl Sr]] Ok. inversion Ok as [|n0 l0 r0 t K1 K2 K3| | | | | |]; subst n0 l0 r0. cbn [check_stmt].
    eapply x_bind; [eapply x_target; eassumption|]. intros _ _.
    eapply x_bind; [exact (Fi B l t Sl K1)|]. intros o [t' [-> [A Wt]]].
    refine (Fc B r t' Sr _ Wt). eapply ht_same; [exact K2|]. exact (type_unique P Mo s v _ _ K1 _ A).
  - intros c t f Ht Hf B [Rc [R1 R2]] Ok. inversion Ok as [| |c0 t0 f0 K1 K2 K3| | | | |]; subst c0 t0 f0. cbn [check_stmt].
    eapply x_bind; [exact (Fc B c _ Rc K1 (wr_bool _ _))|]. intros _ _.
    eapply x_bind; [exact (x_block t Ht B R1 K2)|]. intros _ _. exact (x_block f Hf B R2 K3).
  - intros e ms Hm B [Re Rm] Ok. inversion Ok as [| | |e0 ms0 t K1 K2| | | |]; subst e0 ms0. cbn [check_stmt].
    eapply x_bind; [exact (Fi B e t Re K1)|]. intros o [t' [-> [A Wt]]].
    apply (x_matches ms Hm B t' Rm Wt). pose proof (type_unique P Mo s v _ _ K1 _ A) as S.
    clear - K2 S. induction K2 as [|m ms [J1 J2] H IH]; constructor; [|exact IH].
    split; [|exact J2]. intro Z. exact (hp_same (J1 Z) S).
  - intros e ms d Hm Hd B [Re [Rm Rd]] Ok. inversion Ok as [| | | |e0 ms0 d0 t K1 K2 K3| | |]; subst e0 ms0 d0. cbn [check_stmt].
    eapply x_bind; [exact (Fi B e t Re K1)|]. intros o [t' [-> [A Wt]]].
    eapply x_bind; [|intros _ _; exact (x_block d Hd B Rd K3)].
    apply (x_matches ms Hm B t' Rm Wt). pose proof (type_unique P Mo s v _ _ K1 _ A) as S.
    clear - K2 S. induction K2 as [|m ms [J1 J2] H IH]; constructor; [|exact IH].
    split; [|exact J2]. intro Z. exact (hp_same (J1 Z) S).
  - intros e b Hb B [Re Rb] Ok. inversion Ok as [| | | | |e0 b0 t K1 K2| |]; subst e0 b0. cbn [check_stmt].
    eapply x_bind; [exact (Fi B e t Re K1)|]. intros o _. exact (x_block b Hb B Rb K2).
  - intros p b Hb B [D [Sc Rb]] Ok. inversion Ok as [| | | | | |p0 b0 Op Ob|]; subst p0 b0. cbn [check_stmt].
    destruct (Op I) as [t Hp]. apply x_less with (under B (binds p)); [intros x K; left; exact K|].
    eapply x_bind; [exact (proj2 (x_run n) p B t D Sc Hp)|]. intros o _. exact (x_block b Hb _ Rb Ob).
  - intros b Hb B Rb Ok. inversion Ok; subst. cbn [check_stmt]. exact (x_block b Hb B Rb H0).
Qed.

Theorem no_alarm : forall b,
  Forall (ready P s v W0 (fun _ => False)) b -> Forall (ok_stmt P s v every) b ->
  match check_block P N n b start with
  | Done (st, _) => s_err st = false
  | Abort | Ub => False
  | Fuel => True
  end.
Proof.
  intros b Rd Ok.
  assert (T : compx (fun _ => False) (fun _ => False) (check_block P N n b) (fun _ => True)).
  { induction b as [|x b IH]; cbn [check_block]; [apply x_ret; exact I|].
    inversion Rd; subst. inversion Ok; subst. eapply x_bind; [exact (all_fine x _ H1 H3)|]. intros _ _. exact (IH H2 H4). }
  assert (Iv : inv (fun _ => False) start).
  { constructor; cbn; [reflexivity|discriminate|discriminate|contradiction]. }
  specialize (T start Iv). destruct (check_block P N n b start) as [[st a]| | |]; try exact T.
  exact (in_err _ _ _ _ _ _ (proj1 T)).
Qed.

End NoAlarm.
