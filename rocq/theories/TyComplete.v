(** * No false alarms: the checker accepts well typed expressions when nothing is
      polymorphic. *)
From Coq Require Import List Arith Bool Lia.
From Verif Require Import TyModel TySpec TyEq TySound.
Import ListNotations.

(** The sub-expressions of an expression. *)
Definition child (P : program) (e e' : nat) : Prop :=
  match p_node P e with
  | EUse u => match v_kind (p_value P (p_use P u)) with
              | VRename old => e' = old
              | VElement set => e' = set
              | _ => False end
  | EConst _ | EUndef => False
  | ETyped a _ | ERepeat a => e' = a
  | ECall f args => e' = f \/ In e' args
  | EAppend a b | EGuarded a b | EControlled a b => e' = a \/ e' = b
  end.

(** Expression [e] mentions the pattern variable [x], maybe through a renaming or
    through the collection that a formal ranges over. *)
Inductive mentions (P : program) : nat -> nat -> Prop :=
| me_use e u x : p_node P e = EUse u -> v_kind (p_value P (p_use P u)) = VPattern x -> mentions P e x
| me_child e e' x : child P e e' -> mentions P e' x -> mentions P e x.

(** [e] is, or calls, something that is not constant and is declared outside of
    function [fd]. *)
Inductive reads_var (P : program) (fd : nat) : nat -> Prop :=
| rv_use e u t : p_node P e = EUse u -> v_kind (p_value P (p_use P u)) = VTyped t ->
    v_var (p_value P (p_use P u)) = true -> v_owner (p_value P (p_use P u)) <> Some fd -> reads_var P fd e
| rv_call e f args : p_node P e = ECall f args -> reads_var P fd f -> reads_var P fd e.

(** Conditions: no use is of a polymorphic entity, no expression is undefined,
    a type formal has one element type, constant functions read no variables, and
    a pattern variable with a type is a formal with a type. *)
Record monomorphic (P : program) : Prop := mkMono {
  mo_env : forall u, p_env P u = [];
  mo_undef : forall e, p_node P e <> EUndef;
  mo_sig : forall d o i ph sg x y,
      p_type P d = DFormal o i ph sg -> In (Some x) sg -> In (Some y) sg -> same P x y;
  mo_within : forall e fd, p_within P e = Some fd -> ~ reads_var P fd e;
  mo_pat : forall d x, v_kind (p_value P d) = VPattern x -> p_vtype P x = None }.

(** The types written in the program, with their parts; [W0]: in statements. *)
Inductive written (P : program) (W0 : ty -> Prop) : ty -> Prop :=
| wr_stmt t : W0 t -> written P W0 t
| wr_value d t : v_kind (p_value P d) = VTyped t -> written P W0 t
| wr_const e t : p_node P e = EConst t -> written P W0 t
| wr_typed e e' t : p_node P e = ETyped e' t -> written P W0 t
| wr_bool : written P W0 (p_bool P)
| wr_pdecl d : written P W0 (p_pdecl P d)
| wr_vtype x t : p_vtype P x = Some t -> written P W0 t
| wr_rename d t : p_type P d = DRename t -> written P W0 t
| wr_inst d t : p_type P d = DInst (Some t) -> written P W0 t
| wr_sig d o i ph sg t : p_type P d = DFormal o i ph sg -> In (Some t) sg -> written P W0 t
| wr_remote t : written P W0 (TRemote t) -> written P W0 t
| wr_formal k t fs r : written P W0 (TFun fs r) -> In (k, t) fs -> written P W0 t
| wr_result fs r : written P W0 (TFun fs r) -> written P W0 r
| wr_combine t : written P W0 t -> written P W0 (TFun [(false, t); (false, t)] t).

Section Complete.
Variable P : program.
Hypothesis Mo : monomorphic P.
Variable s : instantiation.
Variable v : nat -> ty.

Lemma mono_inst : forall u t, inst P s u t = t.
Proof. intros u t. apply inst_nil. apply (mo_env _ Mo). Qed.

(** ** Inversion and uniqueness of types *)
Lemma has_type_inv : forall e t, has_type P s v e t ->
  match p_node P e with
  | EUse u => exists t', value_type P s v (p_use P u) t' /\ same P t' t
  | EConst t' => same P t' t
  | ETyped e' t' => has_type P s v e' t' /\ same P t' t
  | ECall f args => exists fs r, has_type P s v f (TFun fs r) /\ fits P s v fs args /\ same P r t
  | EAppend a b => has_type P s v a t /\ has_type P s v b t
  | ERepeat e' => exists c t', has_type P s v e' c /\ element P c t' /\ same P t' t
  | EGuarded e' c => has_type P s v e' t /\ has_type P s v c (p_bool P)
  | EControlled set e' => (exists c c', has_type P s v set c /\ element P c c') /\ has_type P s v e' t
  | EUndef => True
  end.
Proof.
  intros e t H. induction H as [e t t' H IH S|e u t E V|e t E|e e' t E H _|e f args fs r E H _ F|e a b t E A _ B _|
      e e' c t E H _ X|e e' c t E H _ K _|e set e' c c' t E H _ X K _|e t E]; try rewrite E.
  - destruct (p_node P e) as [u|t0|e' t0|f args|a b|e'|e' c|s0 e'|].
    + destruct IH as [t0 [A B]]. exists t0. split; [exact A|]. eapply same_trans; eassumption.
    + eapply same_trans; eassumption.
    + destruct IH as [A B]. split; [exact A|]. eapply same_trans; eassumption.
    + destruct IH as [fs [r [A [B C]]]]. exists fs, r. split; [exact A|]. split; [exact B|]. eapply same_trans; eassumption.
    + destruct IH as [A B]. split; eapply ht_same; eassumption.
    + destruct IH as [c [t0 [A [B C]]]]. exists c, t0. split; [exact A|]. split; [exact B|]. eapply same_trans; eassumption.
    + destruct IH as [A B]. split; [|exact B]. eapply ht_same; eassumption.
    + destruct IH as [A B]. split; [exact A|]. eapply ht_same; eassumption.
    + exact I.
  - exists t. split; [exact V|]. rewrite mono_inst. apply same_refl.
  - apply same_refl.
  - split; [exact H|apply same_refl].
  - exists fs, r. split; [exact H|]. split; [exact F|apply same_refl].
  - split; assumption.
  - exists c, t. split; [exact H|]. split; [exact X|apply same_refl].
  - split; assumption.
  - split; [exists c, c'; split; assumption|assumption].
  - exact I.
Qed.

Lemma element_base : forall c t, element P c t ->
  exists d, bases P c (TUse d) /\ element P (TUse d) t.
Proof.
  intros c t H. induction H as [d t E|d o i ph sg t E K|d t' t E H IH|t' t H IH].
  - exists d. split; [exists 1; cbn; rewrite E; reflexivity|apply el_inst; exact E].
  - exists d. split; [exists 1; cbn; rewrite E; reflexivity|eapply el_formal; eassumption].
  - destruct IH as [d' [A B]]. exists d'. split; [|exact B]. apply (proj2 (bases_rename P _ _ _ E)). exact A.
  - destruct IH as [d' [A B]]. exists d'. split; [|exact B]. apply (proj2 (bases_remote P _ _)). exact A.
Qed.

Lemma element_unique : forall c c' t t', same P c c' -> element P c t -> element P c' t' -> same P t t'.
Proof.
  intros c c' t t' S H H'. destruct (element_base _ _ H) as [d [A B]]. destruct (element_base _ _ H') as [d' [A' B']].
  destruct (proj1 (same_bases P _ _ S) _ A) as [b [C D]].
  pose proof (bases_det P _ _ _ C A') as ->. cbn in D. subst d'.
  assert (R : forall x, p_type P d <> DRename x).
  { intros x E. destruct A as [n A]. pose proof (base_is_base _ _ _ _ A) as K. cbn in K. rewrite E in K. exact K. }
  assert (Q : forall x, element P (TUse d) x ->
     p_type P d = DInst (Some x) \/ exists o i ph sg, p_type P d = DFormal o i ph sg /\ In (Some x) sg).
  { intros x X. inversion X; subst; [left; assumption|right; repeat eexists; eassumption|].
    exfalso. eapply R. eassumption. }
  destruct (Q _ B) as [E|[o [i [ph [sg [E K]]]]]]; destruct (Q _ B') as [E'|[o' [i' [ph' [sg' [E' K']]]]]];
    rewrite E in E'; try discriminate.
  - injection E' as <-. apply same_refl.
  - injection E' as <- <- <- <-. exact (mo_sig _ Mo _ _ _ _ _ _ _ E K K').
Qed.

Lemma same_fun_inv : forall fs r fs' r', same P (TFun fs r) (TFun fs' r') ->
  Forall2 (fun x y => fst x = fst y /\ same P (snd x) (snd y)) fs fs' /\ same P r r'.
Proof.
  intros fs r fs' r' S.
  destruct (proj1 (same_bases P _ _ S) (TFun fs r) (ex_intro _ 1 eq_refl)) as [b [[n Hb] Hh]].
  destruct n as [|n]; [discriminate|]. injection Hb as <-. exact Hh.
Qed.

Scheme ht_mind := Minimality for has_type Sort Prop
  with vt_mind := Minimality for value_type Sort Prop
  with fits_mind := Minimality for fits Sort Prop.

Lemma type_unique : forall e t, has_type P s v e t -> forall t', has_type P s v e t' -> same P t t'.
Proof.
  apply (ht_mind P s v (fun e t => forall t', has_type P s v e t' -> same P t t')
                      (fun d t => forall t', value_type P s v d t' -> same P t t')
                      (fun _ _ => True)).
  - intros e t t' H IH S t2 H2. apply same_trans with t; [apply same_sym; exact S|exact (IH _ H2)].
  - intros e u t E V IH t' H. apply has_type_inv in H. rewrite E in H. destruct H as [t0 [A B]].
    rewrite mono_inst. apply same_trans with t0; [exact (IH _ A)|exact B].
  - intros e t E t' H. apply has_type_inv in H. rewrite E in H. exact H.
  - intros e e' t E _ _ t' H. apply has_type_inv in H. rewrite E in H. exact (proj2 H).
  - intros e f args fs r E _ IH _ _ t' H. apply has_type_inv in H. rewrite E in H.
    destruct H as [fs' [r' [A [_ C]]]]. apply same_trans with r'; [|exact C].
    exact (proj2 (same_fun_inv _ _ _ _ (IH _ A))).
  - intros e a b t E _ IH _ _ t' H. apply has_type_inv in H. rewrite E in H. exact (IH _ (proj1 H)).
  - intros e e' c t E _ IH X t' H. apply has_type_inv in H. rewrite E in H. destruct H as [c' [t0 [A [B C]]]].
    apply same_trans with t0; [|exact C]. exact (element_unique _ _ _ _ (IH _ A) X B).
  - intros e e' c t E _ IH _ _ t' H. apply has_type_inv in H. rewrite E in H. exact (IH _ (proj1 H)).
  - intros e set e' c c' t E _ _ _ _ IH t' H. apply has_type_inv in H. rewrite E in H. exact (IH _ (proj2 H)).
  - intros e t E. exfalso. exact (mo_undef _ Mo e E).
  - intros d t E t' H. inversion H; subst; try congruence. rewrite E in H0. injection H0 as <-. apply same_refl.
  - intros d old t E _ IH t' H. inversion H; subst; try congruence.
    rewrite E in H0. injection H0 as <-. exact (IH _ H1).
  - intros d set c t E _ IH X t' H. inversion H; subst; try congruence.
    rewrite E in H0. injection H0 as <-. exact (element_unique _ _ _ _ (IH _ H1) X H2).
  - intros d x E t' H. inversion H; subst; try congruence. rewrite E in H0. injection H0 as <-. apply same_refl.
  - exact I.
  - intros; exact I.
  - intros; exact I.
  - intros; exact I.
Qed.

(** ** Runs without a false alarm *)
Variable Bd : nat -> Prop.
Variable W0 : ty -> Prop.
Notation W := (written P W0).
Definition vtype (x : nat) : ty := match p_vtype P x with Some t => t | None => v x end.
Record inv (st : state) : Prop := mkInv {
  in_err : s_err st = false;
  in_memo : forall e t, s_memo st e = Some t -> has_type P s v e t /\ W t;
  in_var : forall x t, s_pmemo st x = Some t -> same P (vtype x) t /\ W t;
  in_seen : forall x, Bd x -> s_pmemo st x <> None }.
Definition seen (e : nat) : Prop := forall x, mentions P e x -> Bd x.

Definition comp {A} (m : M A) (Q : A -> Prop) : Prop := forall st, inv st ->
  match m st with
  | Done (st', a) => inv st' /\ Q a
  | Abort | Ub => False
  | Fuel => True
  end.

Lemma seen_child : forall e e', seen e -> child P e e' -> seen e'.
Proof. intros e e' H C x K. apply H. eapply me_child; eassumption. Qed.

Lemma comp_ret : forall A (a : A) (Q : A -> Prop), Q a -> comp (ret a) Q.
Proof. intros A a Q H st I. split; assumption. Qed.
Lemma comp_out : forall A (Q : A -> Prop), comp out Q.
Proof. intros A Q st I. exact Logic.I. Qed.
Lemma comp_bind : forall A B (m : M A) (f : A -> M B) (Q : A -> Prop) (Q' : B -> Prop),
  comp m Q -> (forall a, Q a -> comp (f a) Q') -> comp (bind m f) Q'.
Proof.
  intros A B m f Q Q' H K st I. unfold bind. specialize (H st I).
  destruct (m st) as [[st' a]| | |]; try exact H. destruct H as [H1 H2]. exact (K a H2 st' H1).
Qed.
Lemma comp_lift : forall A (r : res A) (Q : A -> Prop),
  match r with Done a => Q a | Abort | Ub => False | Fuel => True end -> comp (lift r) Q.
Proof. intros A r Q H st I. unfold lift. destruct r; try exact H. split; assumption. Qed.
Lemma comp_conseq : forall A (m : M A) (Q Q' : A -> Prop), comp m Q -> (forall a, Q a -> Q' a) -> comp m Q'.
Proof.
  intros A m Q Q' H K st I. specialize (H st I). destruct (m st) as [[st' a]| | |]; try exact H.
  destruct H as [H1 H2]. split; [exact H1|exact (K _ H2)].
Qed.

Lemma base_fine : forall n t, match base P n t with Abort | Ub => False | _ => True end.
Proof.
  induction n as [|n IH]; intro t; [exact I|]. cbn [base]. destruct t as [d|fs r|t']; [|exact I|apply IH].
  destruct (p_type P d); try exact I. apply IH.
Qed.

Lemma type_eq_fine : forall n t1 t2, match type_eq P n t1 t2 with Abort | Ub => False | _ => True end.
Proof.
  induction n as [|n IH]; intros t1 t2; [exact I|]. rewrite type_eq_S.
  pose proof (base_fine n t1) as B1. pose proof (base_fine n t2) as B2.
  destruct (base P n t1) as [b1| | |]; try contradiction; destruct (base P n t2) as [b2| | |]; try contradiction;
    try exact I; try (destruct b1; exact I).
  assert (D : forall l1 l2, match decls_eq (type_eq P n) l1 l2 with Abort | Ub => False | _ => True end).
  { induction l1 as [|[k1 x1] l1 IHl]; intros [|[k2 x2] l2]; cbn; try exact I.
    destruct (Bool.eqb k1 k2); [|exact I]. specialize (IH x1 x2).
    destruct (type_eq P n x1 x2) as [[|]| | |]; try contradiction; try exact I. apply IHl. }
  destruct b1 as [d1|f1 r1|x1]; destruct b2 as [d2|f2 r2|x2]; try exact I.
  specialize (D f1 f2). destruct (decls_eq (type_eq P n) f1 f2) as [[|]| | |]; try contradiction; try exact I.
  apply IH.
Qed.

Variable N : nat.

Lemma comp_equal : forall a b, same P a b -> comp (check_equal P N (Some a) (Some b)) (fun _ => True).
Proof.
  intros a b S. cbn [check_equal]. apply comp_bind with (Q := fun r => r = true).
  - apply comp_lift. pose proof (type_eq_fine N a b) as F.
    destruct (type_eq P N a b) as [[|]| | |] eqn:E; try exact F; [reflexivity|].
    exfalso. exact (type_eq_false _ _ _ _ E S).
  - intros r ->. apply comp_ret. exact I.
Qed.

Lemma comp_subst : forall u t, comp (type_subst P (Some u) (Some t)) (fun o => o = Some t).
Proof. intros u t. cbn. rewrite (mo_env _ Mo). apply comp_ret. reflexivity. Qed.

Lemma mono_complete : forall st u, complete P st u = true.
Proof. intros st u. unfold complete. rewrite (mo_env _ Mo). reflexivity. Qed.

Lemma comp_check_subst : forall a u b, same P a b ->
  comp (check_subst P N N (Some a) (Some u) (Some b)) (fun _ => True).
Proof.
  intros a u b S. cbn [check_subst]. destruct N as [|n0] eqn:EN; [apply comp_out|]. rewrite <- EN at 1.
  cbn [csubst]. intros st I. rewrite mono_complete.
  exact (comp_bind _ _ _ _ _ _ (comp_subst u b) (fun o (E : o = Some b) => eq_ind_r (fun o => comp (check_equal P N (Some a) o) (fun _ => True)) (comp_equal a b S) E) st I).
Qed.

Lemma comp_elem : forall n c t, element P c t -> comp (elem P n c) (fun r => element P c r).
Proof.
  induction n as [|n IH]; intros c t H; [apply comp_out|]. cbn [elem].
  inversion H; subst.
  - rewrite H0. apply comp_ret. exact H.
  - rewrite H0. destruct (first_some sigs) as [t'|] eqn:F.
    + apply comp_ret. eapply el_formal; [exact H0|]. apply first_some_in. exact F.
    + exfalso. clear - F H1. induction sigs as [|[x|] l IHl]; [contradiction|discriminate|].
      destruct H1 as [H1|H1]; [discriminate|]. exact (IHl H1 F).
  - rewrite H0. apply (comp_conseq _ _ _ _ (IH _ _ H1)). intros r Hr. eapply el_rename; eassumption.
  - apply (comp_conseq _ _ _ _ (IH _ _ H0)). intros r Hr. apply el_remote. exact Hr.
Qed.

Lemma element_written : forall c t, element P c t -> W t.
Proof.
  intros c t H. induction H as [d t E|d o i ph sg t E K|d t' t E H IH|t' t H IH].
  - exact (wr_inst _ _ _ _ E).
  - exact (wr_sig _ _ _ _ _ _ _ _ E K).
  - exact IH.
  - exact IH.
Qed.
Lemma base_written : forall n t b, base P n t = Done b -> W t -> W b.
Proof.
  induction n as [|n IH]; intros t b E H; [discriminate|]. cbn [base] in E. destruct t as [d|fs r|t'].
  - destruct (p_type P d) eqn:K; try (injection E as <-; exact H). apply (IH _ _ E). exact (wr_rename _ _ _ _ K).
  - injection E as <-. exact H.
  - apply (IH _ _ E). exact (wr_remote _ _ _ H).
Qed.

Section Step.
Variable R : rec.
Record fine : Prop := mkFine {
  f_infer : forall e t, seen e -> has_type P s v e t ->
     comp (r_infer R e) (fun o => exists t, o = Some t /\ has_type P s v e t /\ W t);
  f_check : forall e t, seen e -> has_type P s v e t -> W t -> comp (r_check R e (Some t)) (fun _ => True) }.
Hypothesis G : fine.

Definition seend (d : nat) : Prop :=
  match v_kind (p_value P d) with
  | VTyped _ => True
  | VRename old => seen old
  | VElement set => seen set
  | VPattern x => Bd x
  end.
Lemma seen_use : forall e u, seen e -> p_node P e = EUse u -> seend (p_use P u).
Proof.
  intros e u H E. unfold seend. destruct (v_kind (p_value P (p_use P u))) as [t|old|set|x] eqn:K.
  - exact I.
  - apply (seen_child _ _ H). unfold child. rewrite E, K. reflexivity.
  - apply (seen_child _ _ H). unfold child. rewrite E, K. reflexivity.
  - apply H. eapply me_use; eassumption.
Qed.

Lemma comp_decl : forall d t, seend d -> value_type P s v d t ->
  comp (decl_type P N R d) (fun o => exists t', o = Some t' /\ same P t t' /\ W t').
Proof.
  intros d t Sd H. unfold seend in Sd. unfold decl_type. inversion H; subst; rewrite H0 in Sd |- *.
  - apply comp_ret. exists t. split; [reflexivity|]. split; [apply same_refl|exact (wr_value _ _ _ _ H0)].
  - apply (comp_conseq _ _ _ _ (f_infer G old t Sd H1)). intros o [t' [-> [A Wt]]]. exists t'. split; [reflexivity|].
    split; [exact (type_unique _ _ H1 _ A)|exact Wt].
  - apply (comp_bind _ _ _ _ _ _ (f_infer G set c Sd H1)). intros o [c' [-> [A _]]].
    pose proof (type_unique _ _ H1 _ A) as S.
    assert (X : exists t', element P c' t').
    { destruct (element_base _ _ H2) as [d' [B1 B2]].
      destruct (proj1 (same_bases P _ _ S) _ B1) as [b [C D]]. destruct b as [d2|fs r|x]; try contradiction.
      cbn in D. subst d2. exists t. clear - C B2. destruct C as [n C].
      revert c' C. induction n as [|n IH]; intros c' C; [discriminate|]. cbn in C.
      destruct c' as [d0|fs r|x]; [|discriminate|apply el_remote; apply IH; exact C].
      destruct (p_type P d0) eqn:E; try (injection C as <-; exact B2).
      eapply el_rename; [exact E|apply IH; exact C]. }
    destruct X as [t' X].
    apply (comp_bind _ _ _ _ _ _ (comp_elem N c' t' X)). intros r Hr. apply comp_ret.
    exists r. split; [reflexivity|]. split; [exact (element_unique _ _ _ _ S H2 Hr)|exact (element_written _ _ Hr)].
  - intros st I. destruct (s_pmemo st x) as [t|] eqn:E.
    + pose proof (in_var _ I x t E) as S. unfold vtype in S. rewrite (mo_pat _ Mo _ _ H0) in S.
      split; [exact I|]. exists t. split; [reflexivity|exact S].
    + exfalso. exact (in_seen _ I x Sd E).
Qed.

Lemma comp_infer_elem : forall e c t, seen e -> has_type P s v e c -> element P c t ->
  comp (infer_elem P N R e) (fun r => same P t r /\ exists c', has_type P s v e c' /\ element P c' r).
Proof.
  intros e c t Se H X. unfold infer_elem. apply (comp_bind _ _ _ _ _ _ (f_infer G e c Se H)).
  intros o [c' [-> [A _]]]. pose proof (type_unique _ _ H _ A) as S.
  assert (Y : exists t', element P c' t').
  { destruct (element_base _ _ X) as [d' [B1 B2]].
    destruct (proj1 (same_bases P _ _ S) _ B1) as [b [C D]]. destruct b as [d2|fs r|x]; try contradiction.
    cbn in D. subst d2. exists t. clear - C B2. destruct C as [n C].
    revert c' C. induction n as [|n IH]; intros c' C; [discriminate|]. cbn in C.
    destruct c' as [d0|fs r|x]; [|discriminate|apply el_remote; apply IH; exact C].
    destruct (p_type P d0) eqn:E; try (injection C as <-; exact B2).
    eapply el_rename; [exact E|apply IH; exact C]. }
  destruct Y as [t' Y]. apply (comp_conseq _ _ _ _ (comp_elem N c' t' Y)). intros r Hr.
  split; [exact (element_unique _ _ _ _ S X Hr)|]. exists c'. split; assumption.
Qed.

Lemma comp_actuals : forall u args fs fs', (forall a, In a args -> seen a) ->
  fits P s v fs args -> Forall2 (fun x y => fst x = fst y /\ same P (snd x) (snd y)) fs fs' ->
  (forall k t, In (k, t) fs' -> W t) ->
  comp (actuals P N R u fs' args) (fun _ => True).
Proof.
  intro u. induction args as [|a args IH]; intros fs fs' Sa F S Wf; cbn [actuals].
  - inversion F; subst; inversion S; subst; [apply comp_ret; exact I|].
    destruct y as [k t']. destruct H1 as [K _]. cbn in K. subst k. apply comp_ret. exact I.
  - assert (Arg : forall t t', has_type P s v a t -> same P t t' -> W t' ->
       comp (fun st => (if is_complete P st u then t'' <- type_subst P u (Some t') ;; r_check R a t''
                        else o <- r_infer R a ;; check_subst P N N o u (Some t')) st) (fun _ => True)).
    { intros t t' H St Wt st I.
      assert (C : is_complete P st u = true) by (destruct u; [apply mono_complete|reflexivity]).
      rewrite C. refine (comp_bind _ _ _ _ (fun o => o = Some t') _ _ _ st I).
      - destruct u as [u|]; [apply comp_subst|apply comp_ret; reflexivity].
      - intros o ->. apply (f_check G); [apply Sa; left; reflexivity| |exact Wt]. eapply ht_same; eassumption. }
    assert (Sa' : forall a, In a args -> seen a) by (intros a' K; apply Sa; right; exact K).
    inversion F as [|t f0 a0 r0 Ha Hr E1 E2| |t f0 a0 r0 Ha Hr E1 E2]; subst fs a0 r0;
      inversion S as [|x [k t'] l l' [K St] L E3 E4]; subst x l fs'; cbn in K, St; subst k.
    + apply (comp_bind _ _ _ _ (fun _ => True)); [apply (Arg t t'); [exact Ha|exact St|eapply Wf; left; reflexivity]|]. intros _ _.
      exact (IH _ _ Sa' Hr L (fun k0 t0 K0 => Wf k0 t0 (or_intror K0))).
    + apply (comp_bind _ _ _ _ (fun _ => True)); [apply (Arg t t'); [exact Ha|exact St|eapply Wf; left; reflexivity]|]. intros _ _.
      exact (IH _ _ Sa' Hr S Wf).
Qed.

Lemma comp_check_actuals : forall args ft u fs r, (forall a, In a args -> seen a) ->
  same P (TFun fs r) ft -> W ft -> fits P s v fs args ->
  comp (check_actuals P N R args (Some ft) u) (fun o => exists r', o = Some r' /\ same P r r' /\ W r').
Proof.
  intros args ft u fs r Sa S Wf F. cbn [check_actuals].
  apply comp_bind with (Q := fun b => heads P (TFun fs r) b /\ W b).
  - apply comp_lift. pose proof (base_fine N ft) as B. destruct (base P N ft) as [b| | |] eqn:E; try exact B.
    destruct (proj1 (same_bases P _ _ S) (TFun fs r) (ex_intro _ 1 eq_refl)) as [b' [C D]].
    pose proof (bases_det P _ _ _ C (ex_intro _ N E)) as ->. split; [exact D|exact (base_written _ _ _ E Wf)].
  - intros [d|fs' r'|x] [H Wb]; try contradiction. destruct H as [Hf Hr].
    apply (comp_bind _ _ _ _ (fun _ => True)); [eapply comp_actuals; try eassumption; intros k0 t0 K0; exact (wr_formal _ _ _ _ _ _ Wb K0)|]. intros _ _.
    refine (comp_conseq _ _ (fun o => o = Some r') _ _ _).
    + destruct u as [u|]; [apply comp_subst|apply comp_ret; reflexivity].
    + intros o ->. exists r'. split; [reflexivity|]. split; [exact Hr|exact (wr_result _ _ _ _ Wb)].
Qed.

Lemma comp_infer_ret : forall f args fs r, seen f -> (forall a, In a args -> seen a) ->
  has_type P s v f (TFun fs r) -> fits P s v fs args ->
  comp (infer_ret P N R f args) (fun o => exists r', o = Some r' /\ same P r r' /\ W r').
Proof.
  intros f args fs r Sf Sa H F. unfold infer_ret.
  assert (X : comp (t <- r_infer R f ;; check_actuals P N R args t None) (fun o => exists r', o = Some r' /\ same P r r' /\ W r')).
  { apply (comp_bind _ _ _ _ _ _ (f_infer G f _ Sf H)). intros o [t [-> [A Wt]]].
    eapply comp_check_actuals; [exact Sa| |exact Wt|exact F]. exact (type_unique _ _ H _ A). }
  pose proof (has_type_inv _ _ H) as I0.
  destruct (p_node P f) as [u|t|e' t|f' as'|a b|e'|e' c|s0 e'|] eqn:E; try exact X.
  - destruct I0 as [t [V S]]. apply (comp_bind _ _ _ _ _ _ (comp_decl _ _ (seen_use f u Sf E) V)). intros o [t' [-> [S' Wt]]].
    eapply comp_check_actuals; [exact Sa| |exact Wt|exact F]. apply same_trans with t; [apply same_sym; exact S|exact S'].
  - destruct I0 as [A S].
    assert (Hf : has_type P s v f t) by (eapply ht_typed; eassumption).
    apply (comp_bind _ _ _ _ (fun _ => True)); [exact (f_check G f t Sf Hf (wr_typed _ _ _ _ _ E))|]. intros _ _.
    eapply comp_check_actuals; [exact Sa| |exact (wr_typed _ _ _ _ _ E)|exact F]. apply same_sym. exact S.
Qed.

Lemma comp_check_ret : forall f args fs r type, seen f -> (forall a, In a args -> seen a) ->
  has_type P s v f (TFun fs r) -> fits P s v fs args -> same P r type ->
  comp (check_ret P N R f args type) (fun _ => True).
Proof.
  intros f args fs r type Sf Sa H F S0. unfold check_ret.
  assert (X : comp (t <- r_infer R f ;; o <- check_actuals P N R args t None ;; check_equal P N (Some type) o) (fun _ => True)).
  { apply (comp_bind _ _ _ _ _ _ (f_infer G f _ Sf H)). intros o [t [-> [A Wt]]].
    eapply comp_bind; [eapply comp_check_actuals; [exact Sa| |exact Wt|exact F]; exact (type_unique _ _ H _ A)|].
    intros o [r' [-> [S _]]]. apply comp_equal. apply same_trans with r; [apply same_sym; exact S0|exact S]. }
  pose proof (has_type_inv _ _ H) as I0.
  destruct (p_node P f) as [u|t|e' t|f' as'|a b|e'|e' c|s0 e'|] eqn:E; try exact X.
  - destruct I0 as [t [V S]]. apply (comp_bind _ _ _ _ _ _ (comp_decl _ _ (seen_use f u Sf E) V)). intros o [t' [-> [S' Wt]]].
    assert (S1 : same P (TFun fs r) t') by (apply same_trans with t; [apply same_sym; exact S|exact S']).
    apply comp_bind with (Q := fun b => heads P (TFun fs r) b /\ W b).
    + apply comp_lift. pose proof (base_fine N t') as B. destruct (base P N t') as [b| | |] eqn:Eb; try exact B.
      destruct (proj1 (same_bases P _ _ S1) (TFun fs r) (ex_intro _ 1 eq_refl)) as [b' [C D]].
      pose proof (bases_det P _ _ _ C (ex_intro _ N Eb)) as ->. split; [exact D|exact (base_written _ _ _ Eb Wt)].
    + intros [d|fs' r'|x] [Hh Wb]; try contradiction. destruct Hh as [Hf Hr].
      apply (comp_bind _ _ _ _ (fun _ => True)).
      { apply comp_check_subst. apply same_trans with r; [apply same_sym; exact S0|exact Hr]. }
      intros _ _. eapply comp_bind; [eapply comp_check_actuals; [exact Sa| |exact Wb|exact F]; apply same_fun; eassumption|].
      intros o _. apply comp_ret. exact I.
  - destruct I0 as [A S].
    assert (Hf : has_type P s v f t) by (eapply ht_typed; eassumption).
    apply (comp_bind _ _ _ _ (fun _ => True)); [exact (f_check G f t Sf Hf (wr_typed _ _ _ _ _ E))|]. intros _ _.
    eapply comp_bind; [eapply comp_check_actuals; [exact Sa| |exact (wr_typed _ _ _ _ _ E)|exact F]; apply same_sym; exact S|].
    intros o [r' [-> [S' _]]]. apply comp_equal. apply same_trans with r; [apply same_sym; exact S0|exact S'].
Qed.

Lemma comp_memo : forall e t, has_type P s v e t -> W t -> comp (set_memo e (Some t)) (fun _ => True).
Proof.
  intros e t H Wt st I. cbn. split; [|exact Logic.I]. constructor; cbn.
  - exact (in_err _ I).
  - intros e0 t0 E. destruct (e0 =? e) eqn:Q; [|exact (in_memo _ I _ _ E)].
    apply Nat.eqb_eq in Q. subst e0. injection E as <-. split; assumption.
  - exact (in_var _ I).
  - exact (in_seen _ I).
Qed.

Lemma impure_reads : forall n fd e,
  match impure P n fd e with Done b => if b then reads_var P fd e else True | Abort | Ub => False | Fuel => True end.
Proof.
  induction n as [|n IH]; intros fd e; [exact I|]. cbn [impure].
  destruct (p_node P e) as [u|t0|e' t0|f args|a b|e'|e' c|s0 e'|] eqn:En; try exact I.
  - destruct (v_kind (p_value P (p_use P u))) eqn:K; try exact I.
    destruct (v_var (p_value P (p_use P u))) eqn:Vv; [|exact I]. cbn.
    destruct (v_owner (p_value P (p_use P u))) as [o|] eqn:Vo.
    + destruct (o =? fd) eqn:Q; cbn; [exact I|]. apply Nat.eqb_neq in Q.
      eapply rv_use; try eassumption. rewrite Vo. intro X. injection X as X. exact (Q X).
    + eapply rv_use; try eassumption. rewrite Vo. discriminate.
  - specialize (IH fd f). destruct (impure P n fd f) as [[|]| | |]; try exact IH. eapply rv_call; eassumption.
Qed.

Lemma fine_infer : forall e t, seen e -> has_type P s v e t ->
  comp (infer_body P N R e) (fun o => exists t, o = Some t /\ has_type P s v e t /\ W t).
Proof.
  intros e t Se H.
  assert (Sc : forall e', child P e e' -> seen e') by (intros e'; exact (seen_child e e' Se)). unfold child in Sc.
  intros st I. unfold infer_body. destruct (s_memo st e) as [t0|] eqn:Em.
  { split; [exact I|]. exists t0. split; [reflexivity|exact (in_memo _ I _ _ Em)]. }
  revert st I Em. 
  match goal with |- forall st, inv st -> _ -> match ?m st with _ => _ end =>
    assert (T : comp m (fun o => exists t, o = Some t /\ has_type P s v e t /\ W t)); [|intros st I _; exact (T st I)] end.
  apply comp_bind with (Q := fun o => exists t, o = Some t /\ has_type P s v e t /\ W t).
  2:{ intros o [t0 [-> [A Wt]]]. apply (comp_bind _ _ _ _ _ _ (comp_memo e t0 A Wt)). intros _ _.
      apply comp_ret. exists t0. split; [reflexivity|split; assumption]. }
  pose proof (has_type_inv _ _ H) as I0.
  destruct (p_node P e) as [u|t0|e' t0|f args|a b|e'|e' c|s0 e'|] eqn:En.
  - destruct I0 as [t0 [V S]]. apply (comp_bind _ _ _ _ _ _ (comp_decl _ _ (seen_use e u Se En) V)). intros o [t' [-> [S' Wt]]].
    apply (comp_conseq _ _ _ _ (comp_subst u t')). intros o ->. exists t'. split; [reflexivity|]. split; [|exact Wt].
    apply ht_same with t; [exact H|]. apply same_trans with t0; [apply same_sym; exact S|exact S'].
  - apply comp_ret. exists t0. split; [reflexivity|]. split; [apply ht_const; exact En|exact (wr_const _ _ _ _ En)].
  - destruct I0 as [A S]. apply (comp_bind _ _ _ _ _ _ (f_check G e' t0 (Sc _ eq_refl) A (wr_typed _ _ _ _ _ En))). intros _ _. apply comp_ret.
    exists t0. split; [reflexivity|]. split; [eapply ht_typed; eassumption|exact (wr_typed _ _ _ _ _ En)].
  - destruct I0 as [fs [r [A [B S]]]]. apply (comp_conseq _ _ _ _ (comp_infer_ret f args fs r (Sc _ (or_introl eq_refl)) (fun a Ka => Sc a (or_intror Ka)) A B)).
    intros o [r' [-> [S' Wr]]]. exists r'. split; [reflexivity|]. split; [|exact Wr]. apply ht_same with r; [|exact S'].
    eapply ht_call; eassumption.
  - destruct I0 as [A B]. apply (comp_bind _ _ _ _ _ _ (f_infer G a t (Sc _ (or_introl eq_refl)) A)). intros o [t' [-> [A' Wt]]].
    assert (B' : has_type P s v b t') by (eapply ht_same; [exact B|exact (type_unique _ _ A _ A')]).
    apply (comp_bind _ _ _ _ _ _ (f_check G b t' (Sc _ (or_intror eq_refl)) B' Wt)). intros _ _. apply comp_ret.
    exists t'. split; [reflexivity|]. split; [eapply ht_append; eassumption|exact Wt].
  - destruct I0 as [c [t' [A [B S]]]]. apply (comp_bind _ _ _ _ _ _ (comp_infer_elem e' c t' (Sc _ eq_refl) A B)).
    intros r [_ [c' [A' B']]]. apply comp_ret. exists r. split; [reflexivity|]. split; [eapply ht_repeat; eassumption|exact (element_written _ _ B')].
  - destruct I0 as [A B]. apply (comp_bind _ _ _ _ _ _ (f_infer G e' t (Sc _ (or_introl eq_refl)) A)). intros o [t' [-> [A' Wt]]].
    apply (comp_bind _ _ _ _ _ _ (f_check G c _ (Sc _ (or_intror eq_refl)) B (wr_bool _ _))). intros _ _. apply comp_ret.
    exists t'. split; [reflexivity|]. split; [eapply ht_guarded; eassumption|exact Wt].
  - destruct I0 as [[c [c' [A X]]] B]. apply (comp_bind _ _ _ _ _ _ (comp_infer_elem s0 c c' (Sc _ (or_introl eq_refl)) A X)).
    intros r _. apply (comp_conseq _ _ _ _ (f_infer G e' t (Sc _ (or_intror eq_refl)) B)). intros o [t' [-> [B' Wt]]].
    exists t'. split; [reflexivity|]. split; [eapply ht_controlled; eassumption|exact Wt].
  - exfalso. exact (mo_undef _ Mo e En).
Qed.

Lemma fine_check : forall e t, seen e -> has_type P s v e t -> W t -> comp (check_body P N R e (Some t)) (fun _ => True).
Proof.
  intros e t Se H Wt.
  assert (Sc : forall e', child P e e' -> seen e') by (intros e'; exact (seen_child e e' Se)). unfold child in Sc.
  intros st I. cbn [check_body]. destruct (s_memo st e) as [t0|] eqn:Em.
  { apply comp_equal; [|exact I]. exact (type_unique _ _ H _ (proj1 (in_memo _ I _ _ Em))). }
  revert st I Em.
  match goal with |- forall st, inv st -> _ -> match ?m st with _ => _ end =>
    assert (T : comp m (fun _ => True)); [|intros st I _; exact (T st I)] end.
  apply (comp_bind _ _ _ _ (fun _ => True)).
  { destruct (p_within P e) as [fd|] eqn:Wi; [|apply comp_ret; exact I].
    apply comp_bind with (Q := fun b => b = false); [|intros b ->; apply comp_ret; exact I].
    apply comp_lift. pose proof (impure_reads N fd e) as K. destruct (impure P N fd e) as [[|]| | |]; try exact K.
    - exfalso. exact (mo_within _ Mo e fd Wi K).
    - reflexivity. }
  intros _ _.
  apply (comp_bind _ _ _ _ (fun _ => True)); [|intros _ _; apply comp_memo; assumption].
  pose proof (has_type_inv _ _ H) as I0.
  destruct (p_node P e) as [u|t0|e' t0|f args|a b|e'|e' c|s0 e'|] eqn:En.
  - destruct I0 as [t0 [V S]]. apply (comp_bind _ _ _ _ _ _ (comp_decl _ _ (seen_use e u Se En) V)). intros o [t' [-> [S' _]]].
    apply comp_check_subst. apply same_trans with t0; [apply same_sym; exact S|exact S'].
  - apply comp_equal. apply same_sym. exact I0.
  - apply (comp_bind _ _ _ _ _ _ (f_infer G e t Se H)). intros o [t' [-> [A _]]]. apply comp_equal.
    exact (type_unique _ _ H _ A).
  - destruct I0 as [fs [r [A [B S]]]]. eapply comp_check_ret; try eassumption; [exact (Sc _ (or_introl eq_refl))|exact (fun a Ka => Sc a (or_intror Ka))].
  - destruct I0 as [A B]. apply (comp_bind _ _ _ _ _ _ (f_check G a t (Sc _ (or_introl eq_refl)) A Wt)). intros _ _. exact (f_check G b t (Sc _ (or_intror eq_refl)) B Wt).
  - destruct I0 as [c [t' [A [B S]]]]. apply (comp_bind _ _ _ _ _ _ (comp_infer_elem e' c t' (Sc _ eq_refl) A B)).
    intros r [S' _]. apply comp_equal. apply same_trans with t'; [apply same_sym; exact S|exact S'].
  - destruct I0 as [A B]. apply (comp_bind _ _ _ _ _ _ (f_check G e' t (Sc _ (or_introl eq_refl)) A Wt)). intros _ _. exact (f_check G c _ (Sc _ (or_intror eq_refl)) B (wr_bool _ _)).
  - destruct I0 as [[c [c' [A X]]] B]. apply (comp_bind _ _ _ _ _ _ (comp_infer_elem s0 c c' (Sc _ (or_introl eq_refl)) A X)).
    intros r _. exact (f_check G e' t (Sc _ (or_intror eq_refl)) B Wt).
  - exfalso. exact (mo_undef _ Mo e En).
Qed.

End Step.

Lemma fine_run : forall n, fine (run P N n).
Proof.
  induction n as [|n IH]; cbn [run].
  - constructor; intros; apply comp_out.
  - constructor; cbn; [exact (fine_infer _ IH)|exact (fine_check _ IH)].
Qed.

End Complete.
