(** * The comparison of types decides sameness. *)
From Coq Require Import List Arith Bool Lia.
From Verif Require Import TyModel TySpec.
Import ListNotations.
Unset Implicit Arguments.

(** Induction over types and over sameness, through the lists of formals. *)
Section TyInd.
Variable Q : ty -> Prop.
Hypothesis HU : forall d, Q (TUse d).
Hypothesis HF : forall fs r, Forall (fun f => Q (snd f)) fs -> Q r -> Q (TFun fs r).
Hypothesis HR : forall t, Q t -> Q (TRemote t).
Fixpoint ty_ind2 (t : ty) : Q t :=
  match t with
  | TUse d => HU d
  | TFun fs r =>
      HF _ _ ((fix go (l : list (bool * ty)) : Forall (fun f => Q (snd f)) l :=
             match l with
             | [] => Forall_nil _
             | f :: l' => Forall_cons f (ty_ind2 (snd f)) (go l') end) fs) (ty_ind2 r)
  | TRemote t' => HR _ (ty_ind2 t')
  end.
End TyInd.

Section SameInd.
Variable P : program.
Variable Q : ty -> ty -> Prop.
Hypothesis Hrefl : forall t, Q t t.
Hypothesis Hsym : forall t1 t2, same P t1 t2 -> Q t1 t2 -> Q t2 t1.
Hypothesis Htrans : forall t1 t2 t3, same P t1 t2 -> Q t1 t2 -> same P t2 t3 -> Q t2 t3 -> Q t1 t3.
Hypothesis Hren : forall d t, p_type P d = DRename t -> Q (TUse d) t.
Hypothesis Hrem : forall t, Q (TRemote t) t.
Hypothesis Hfun : forall fs1 fs2 r1 r2,
  Forall2 (fun f1 f2 => fst f1 = fst f2 /\ same P (snd f1) (snd f2) /\ Q (snd f1) (snd f2)) fs1 fs2 ->
  same P r1 r2 -> Q r1 r2 -> Q (TFun fs1 r1) (TFun fs2 r2).
Fixpoint same_ind2 (t1 t2 : ty) (H : same P t1 t2) {struct H} : Q t1 t2 :=
  match H in same _ a b return Q a b with
  | @same_refl _ t => Hrefl t
  | @same_sym _ _ _ h => Hsym _ _ h (same_ind2 _ _ h)
  | @same_trans _ _ _ _ h1 h2 => Htrans _ _ _ h1 (same_ind2 _ _ h1) h2 (same_ind2 _ _ h2)
  | @same_rename _ _ _ h => Hren _ _ h
  | @same_remote _ t => Hrem t
  | @same_fun _ _ _ _ _ hfs h =>
      Hfun _ _ _ _ ((fix go l1 l2 (f : Forall2 (fun f1 f2 => fst f1 = fst f2 /\ same P (snd f1) (snd f2)) l1 l2)
               : Forall2 (fun f1 f2 => fst f1 = fst f2 /\ same P (snd f1) (snd f2) /\ Q (snd f1) (snd f2)) l1 l2 :=
               match f with
               | @Forall2_nil _ _ _ => Forall2_nil _
               | @Forall2_cons _ _ _ x y _ _ hd tl =>
                   Forall2_cons x y
                     (match hd with conj a b => conj a (conj b (same_ind2 _ _ b)) end) (go _ _ tl)
               end) _ _ hfs) h (same_ind2 _ _ h)
  end.
End SameInd.

Section Eq.
Variable P : program.

Lemma base_mono : forall n t b, base P n t = Done b -> forall m, n <= m -> base P m t = Done b.
Proof.
  induction n as [|n IH]; intros t b H m Hm; [discriminate|].
  destruct m as [|m]; [lia|]. cbn [base] in *.
  destruct t as [d|fs r|t'].
  - destruct (p_type P d) eqn:E; try exact H. apply (IH _ _ H). lia.
  - exact H.
  - apply (IH _ _ H). lia.
Qed.

Lemma base_det : forall n m t b c, base P n t = Done b -> base P m t = Done c -> b = c.
Proof.
  intros n m t b c H1 H2.
  pose proof (base_mono _ _ _ H1 (n + m) ltac:(lia)) as A.
  pose proof (base_mono _ _ _ H2 (n + m) ltac:(lia)) as B. congruence.
Qed.

Lemma base_same : forall n t b, base P n t = Done b -> same P t b.
Proof.
  induction n as [|n IH]; intros t b H; [discriminate|]. cbn [base] in H.
  destruct t as [d|fs r|t'].
  - destruct (p_type P d) as [ |el|t'|o i ph sg] eqn:E.
    + injection H as <-. apply same_refl.
    + injection H as <-. apply same_refl.
    + eapply same_trans; [apply same_rename; exact E|apply IH; exact H].
    + injection H as <-. apply same_refl.
  - injection H as <-. apply same_refl.
  - eapply same_trans; [apply same_remote|apply IH; exact H].
Qed.

(** what base_type returns *)
Definition is_base (b : ty) : Prop :=
  match b with
  | TUse d => match p_type P d with DRename _ => False | _ => True end
  | TFun _ _ => True
  | TRemote _ => False
  end.

Lemma base_is_base : forall n t b, base P n t = Done b -> is_base b.
Proof.
  induction n as [|n IH]; intros t b H; [discriminate|]. cbn [base] in H.
  destruct t as [d|fs r|t'].
  - destruct (p_type P d) as [ |el|t'|o i ph sg] eqn:E; try (injection H as <-; cbn; rewrite E; exact I).
    exact (IH _ _ H).
  - injection H as <-. exact I.
  - exact (IH _ _ H).
Qed.

Lemma base_fix : forall n b, is_base b -> base P (S n) b = Done b.
Proof.
  intros n b H. destruct b as [d|fs r|t]; cbn in *; [|reflexivity|contradiction].
  destruct (p_type P d); [reflexivity|reflexivity|contradiction|reflexivity].
Qed.

Definition heads (b1 b2 : ty) : Prop :=
  match b1, b2 with
  | TUse d1, TUse d2 => d1 = d2
  | TFun f1 r1, TFun f2 r2 =>
      Forall2 (fun x y => fst x = fst y /\ same P (snd x) (snd y)) f1 f2 /\ same P r1 r2
  | _, _ => False
  end.

Lemma heads_refl : forall b, is_base b -> heads b b.
Proof.
  intros [d|fs r|t] H; cbn in *; [reflexivity| |contradiction].
  split; [|apply same_refl]. clear H. induction fs as [|f fs IH]; constructor; [|exact IH].
  split; [reflexivity|apply same_refl].
Qed.

Lemma heads_sym : forall a b, heads a b -> heads b a.
Proof.
  intros [d|fs r|t] [d'|fs' r'|t'] H; cbn in *; try contradiction; [congruence|].
  destruct H as [H1 H2]. split; [|apply same_sym; exact H2].
  clear H2. induction H1 as [|x y l l' [A B] _ IH]; constructor; [|exact IH].
  split; [congruence|apply same_sym; exact B].
Qed.

Lemma heads_trans : forall a b c, heads a b -> heads b c -> heads a c.
Proof.
  intros [d|fs r|t] [d'|fs' r'|t'] [d2|fs2 r2|t2] H K; cbn in *; try contradiction; [congruence|].
  destruct H as [H1 H2]. destruct K as [K1 K2]. split; [|eapply same_trans; eassumption].
  clear H2 K2. revert fs2 K1. induction H1 as [|x y l l' [A B] _ IH]; intros fs2 K1; inversion K1; subst.
  - constructor.
  - constructor; [|apply IH; assumption]. destruct H1 as [C D]. split; [congruence|eapply same_trans; eassumption].
Qed.

Definition bases (t b : ty) : Prop := exists n, base P n t = Done b.

Lemma bases_det : forall t b c, bases t b -> bases t c -> b = c.
Proof. intros t b c [n H] [m K]. eapply base_det; eassumption. Qed.

Lemma bases_rename : forall d t b, p_type P d = DRename t -> (bases (TUse d) b <-> bases t b).
Proof.
  intros d t b E. split; intros [n H].
  - destruct n as [|n]; [discriminate|]. cbn [base] in H. rewrite E in H. exists n. exact H.
  - exists (S n). cbn [base]. rewrite E. exact H.
Qed.

Lemma bases_remote : forall t b, bases (TRemote t) b <-> bases t b.
Proof.
  intros t b. split; intros [n H].
  - destruct n as [|n]; [discriminate|]. exists n. exact H.
  - exists (S n). exact H.
Qed.

Lemma same_bases : forall t1 t2, same P t1 t2 ->
  (forall b1, bases t1 b1 -> exists b2, bases t2 b2 /\ heads b1 b2) /\
  (forall b2, bases t2 b2 -> exists b1, bases t1 b1 /\ heads b1 b2).
Proof.
  intros t1 t2 H. induction H using same_ind2.
  - split; intros b Hb; exists b; (split; [exact Hb|]); destruct Hb as [n Hn];
      apply heads_refl; exact (base_is_base _ _ _ Hn).
  - destruct IHsame as [A B]. split; intros b Hb.
    + destruct (B _ Hb) as [b' [C D]]. exists b'. split; [exact C|apply heads_sym; exact D].
    + destruct (A _ Hb) as [b' [C D]]. exists b'. split; [exact C|apply heads_sym; exact D].
  - destruct IHsame1 as [A1 B1]. destruct IHsame2 as [A2 B2]. split; intros b Hb.
    + destruct (A1 _ Hb) as [b' [C D]]. destruct (A2 _ C) as [b'' [E F]].
      exists b''. split; [exact E|eapply heads_trans; eassumption].
    + destruct (B2 _ Hb) as [b' [C D]]. destruct (B1 _ C) as [b'' [E F]].
      exists b''. split; [exact E|eapply heads_trans; eassumption].
  - split; intros b Hb.
    + exists b. apply (proj1 (bases_rename _ _ _ H)) in Hb. split; [exact Hb|]. destruct Hb as [n Hn].
      apply heads_refl. exact (base_is_base _ _ _ Hn).
    + exists b. split; [apply (bases_rename _ _ _ H); exact Hb|]. destruct Hb as [n Hn].
      apply heads_refl. exact (base_is_base _ _ _ Hn).
  - split; intros b Hb.
    + exists b. apply (proj1 (bases_remote _ _)) in Hb. split; [exact Hb|]. destruct Hb as [n Hn].
      apply heads_refl. exact (base_is_base _ _ _ Hn).
    + exists b. split; [apply bases_remote; exact Hb|]. destruct Hb as [n Hn].
      apply heads_refl. exact (base_is_base _ _ _ Hn).
  - assert (F : Forall2 (fun x y => fst x = fst y /\ same P (snd x) (snd y)) fs1 fs2).
    { clear - H. induction H as [|x y l l' [A [B C]] _ IH]; constructor; [split; assumption|exact IH]. }
    split; intros b [n Hn]; (destruct n as [|n]; [discriminate|]); cbn [base] in Hn; injection Hn as <-.
    + exists (TFun fs2 r2). split; [exists 1; reflexivity|]. split; assumption.
    + exists (TFun fs1 r1). split; [exists 1; reflexivity|]. split; assumption.
Qed.

Lemma decls_eq_true : forall eqf l1 l2,
  (forall t1 t2, eqf t1 t2 = Done true -> same P t1 t2) ->
  decls_eq eqf l1 l2 = Done true ->
  Forall2 (fun x y => fst x = fst y /\ same P (snd x) (snd y)) l1 l2.
Proof.
  intros eqf l1. induction l1 as [|[k1 t1] l1 IH]; intros [|[k2 t2] l2] He H; cbn in H;
    try discriminate; [constructor|].
  destruct (Bool.eqb k1 k2) eqn:K; [|discriminate]. apply Bool.eqb_prop in K.
  destruct (eqf t1 t2) as [[]| | |] eqn:E; try discriminate.
  constructor; [split; [exact K|apply He; exact E]|apply IH; assumption].
Qed.

Theorem type_eq_true : forall n t1 t2, type_eq P n t1 t2 = Done true -> same P t1 t2.
Proof.
  induction n as [|n IH]; intros t1 t2 H; [discriminate|]. cbn [type_eq] in H.
  destruct (base P n t1) as [b1| | |] eqn:E1; [| destruct (base P n t2); discriminate ..].
  destruct (base P n t2) as [b2| | |] eqn:E2; [|destruct b1; discriminate ..].
  apply same_trans with b1; [exact (base_same _ _ _ E1)|].
  apply same_trans with b2; [|apply same_sym; exact (base_same _ _ _ E2)].
  destruct b1 as [d1|f1 r1|x1]; destruct b2 as [d2|f2 r2|x2]; try discriminate.
  - injection H as H. apply Nat.eqb_eq in H. subst. apply same_refl.
  - destruct (decls_eq (type_eq P n) f1 f2) as [[]| | |] eqn:E; try discriminate.
    apply same_fun; [|apply IH; exact H]. apply (decls_eq_true _ _ _ (IH) E).
Qed.

Lemma decls_eq_false : forall eqf l1 l2,
  (forall t1 t2, eqf t1 t2 = Done false -> ~ same P t1 t2) ->
  decls_eq eqf l1 l2 = Done false ->
  ~ Forall2 (fun x y => fst x = fst y /\ same P (snd x) (snd y)) l1 l2.
Proof.
  intros eqf l1. induction l1 as [|[k1 t1] l1 IH]; intros [|[k2 t2] l2] He H F; cbn in H;
    try discriminate; inversion F; subst; cbn in *.
  destruct H3 as [A B]. destruct (Bool.eqb k1 k2) eqn:K.
  - destruct (eqf t1 t2) as [[]| | |] eqn:E; try discriminate.
    + exact (IH _ He H H5).
    + exact (He _ _ E B).
  - subst. rewrite Bool.eqb_reflx in K. discriminate.
Qed.

Theorem type_eq_false : forall n t1 t2, type_eq P n t1 t2 = Done false -> ~ same P t1 t2.
Proof.
  induction n as [|n IH]; intros t1 t2 H S; [discriminate|]. cbn [type_eq] in H.
  destruct (base P n t1) as [b1| | |] eqn:E1; [| destruct (base P n t2); discriminate ..].
  destruct (base P n t2) as [b2| | |] eqn:E2; [|destruct b1; discriminate ..].
  destruct (proj1 (same_bases _ _ S) b1 (ex_intro _ n E1)) as [b2' [Hb Hh]].
  assert (b2' = b2) by (eapply bases_det; [exact Hb|exists n; exact E2]). subst b2'.
  destruct b1 as [d1|f1 r1|x1]; destruct b2 as [d2|f2 r2|x2]; try contradiction.
  - injection H as H. cbn in Hh. apply Nat.eqb_neq in H. contradiction.
  - destruct Hh as [Hf Hr].
    destruct (decls_eq (type_eq P n) f1 f2) as [[]| | |] eqn:E; try discriminate.
    + exact (IH _ _ H Hr).
    + exact (decls_eq_false _ _ _ IH E Hf).
Qed.

Lemma type_eq_S : forall n t1 t2, type_eq P (S n) t1 t2 =
    match base P n t1, base P n t2 with
    | Done (TUse d1), Done (TUse d2) => Done (d1 =? d2)
    | Done (TFun f1 r1), Done (TFun f2 r2) =>
        match decls_eq (type_eq P n) f1 f2 with
        | Done true => type_eq P n r1 r2
        | r => r end
    | Done _, Done _ => Done false
    | Fuel, _ | _, Fuel => Fuel
    | Abort, _ | _, Abort => Abort
    | Ub, _ | _, Ub => Ub
    end.
Proof. reflexivity. Qed.

(** Termination when renamings are not recursive. *)
Section Terminates.
Variable rank : nat -> nat.
Hypothesis Hrank : forall d t, p_type P d = DRename t -> below rank (rank d) t.

Lemma below_mono : forall k k' t, k <= k' -> below rank k t -> below rank k' t.
Proof.
  intros k k' t Hk. induction t as [d|fs r HF HR|t IH] using ty_ind2; cbn.
  - lia.
  - intros [A B]. split; [|exact (HR B)]. clear HR B r.
    induction fs as [|f fs IH]; [exact I|]. inversion HF; subst. destruct A as [A1 A2].
    split; [exact (H1 A1)|apply IH; assumption].
  - exact IH.
Qed.

Lemma some_below : forall t, exists k, below rank k t.
Proof.
  intro t. induction t as [d|fs r HF HR|t IH] using ty_ind2.
  - exists (S (rank d)). cbn. lia.
  - destruct HR as [kr Hr].
    assert (exists k, (fix go (l : list (bool * ty)) : Prop :=
                    match l with [] => True | f :: l' => below rank k (snd f) /\ go l' end) fs) as [kf Hf].
    { clear kr Hr. induction fs as [|f fs IH]; [exists 0; exact I|].
      inversion HF; subst. destruct H1 as [k1 K1]. destruct (IH H2) as [k2 K2].
      exists (k1 + k2). split; [apply below_mono with k1; [lia|exact K1]|].
      clear - K2. induction fs as [|g fs IH]; [exact I|]. destruct K2 as [A B].
      split; [apply below_mono with k2; [lia|exact A]|exact (IH B)]. }
    exists (kr + kf). split; [|apply below_mono with kr; [lia|exact Hr]].
    clear - Hf. induction fs as [|g fs IH]; [exact I|]. destruct Hf as [A B].
    split; [apply below_mono with kf; [lia|exact A]|exact (IH B)].
  - exact IH.
Qed.

(** what holds of types built from smaller ones and of renamings of such *)
Lemma rank_ind : forall (Q : ty -> Prop),
  (forall d, (forall t, p_type P d = DRename t -> Q t) -> Q (TUse d)) ->
  (forall fs r, Forall (fun f => Q (snd f)) fs -> Q r -> Q (TFun fs r)) ->
  (forall t, Q t -> Q (TRemote t)) -> forall t, Q t.
Proof.
  intros Q HU HF HR.
  assert (A : forall k t, below rank k t -> Q t).
  { induction k as [|k IHk]; intro t; induction t as [d|fs r Hfs Hr|t IHt] using ty_ind2; cbn.
    - lia.
    - intros [A B]. apply HF; [|exact (Hr B)]. clear Hr B.
      induction fs as [|f fs IH]; constructor; inversion Hfs; subst.
      + exact (H1 (proj1 A)). + exact (IH H2 (proj2 A)).
    - intro B. apply HR. exact (IHt B).
    - intro Hd. apply HU. intros t Ht. apply IHk. apply below_mono with (rank d); [lia|].
      exact (Hrank _ _ Ht).
    - intros [A B]. apply HF; [|exact (Hr B)]. clear Hr B.
      induction fs as [|f fs IH]; constructor; inversion Hfs; subst.
      + exact (H1 (proj1 A)). + exact (IH H2 (proj2 A)).
    - intro B. apply HR. exact (IHt B). }
  intro t. destruct (some_below t) as [k Hk]. exact (A _ _ Hk).
Qed.

Lemma base_total : forall t, exists b, bases t b.
Proof.
  apply rank_ind.
  - intros d H. destruct (p_type P d) as [ |el|t|o i ph sg] eqn:E;
      try (exists (TUse d); exists 1; cbn; rewrite E; reflexivity).
    destruct (H _ eq_refl) as [b Hb]. exists b. apply (bases_rename _ _ _ E). exact Hb.
  - intros fs r _ _. exists (TFun fs r). exists 1. reflexivity.
  - intros t [b Hb]. exists b. apply bases_remote. exact Hb.
Qed.

Definition decided (t1 t2 : ty) : Prop :=
  exists n b, forall m, n <= m -> type_eq P m t1 t2 = Done b.

Lemma decided_base : forall t1 t2 b, bases t1 b -> (decided b t2 <-> decided t1 t2).
Proof.
  intros t1 t2 b [k Hk].
  pose proof (base_is_base _ _ _ Hk) as Hb.
  assert (E : forall m, S (S k) <= m -> type_eq P m b t2 = type_eq P m t1 t2).
  { intros m Hm. destruct m as [|m]; [lia|]. cbn [type_eq].
    rewrite (base_mono _ _ _ Hk (m) ltac:(lia)).
    destruct m as [|m]; [lia|]. rewrite (base_fix m b Hb). reflexivity. }
  split; intros [n [c Hc]]; exists (n + S (S k)), c; intros m Hm.
  - rewrite <- E by lia. apply Hc. lia.
  - rewrite E by lia. apply Hc. lia.
Qed.

Lemma decided_all : forall t1 t2, decided t1 t2.
Proof.
  apply (rank_ind (fun t1 => forall t2, decided t1 t2)).
  - intros d H t2. destruct (p_type P d) as [ |el|t|o i ph sg] eqn:E.
    3:{ specialize (H _ eq_refl t2). destruct (base_total t) as [b Hb].
        apply (decided_base _ t2 _ (proj2 (bases_rename _ _ b E) Hb)).
        apply (decided_base _ t2 _ Hb). exact H. }
    all: destruct (base_total t2) as [b2 [k Hk]];
      exists (S (S k)); exists (match b2 with TUse d2 => d =? d2 | _ => false end);
      intros m Hm; (destruct m as [|[|m]]; [lia|lia|]); cbn [type_eq];
      rewrite (base_mono _ _ _ Hk (S m) ltac:(lia)); cbn [base]; rewrite E;
      destruct b2; reflexivity.
  - intros fs r Hfs Hr t2. destruct (base_total t2) as [b2 [k Hk]].
    destruct b2 as [d2|fs2 r2|x2].
    + exists (S (S k)), false. intros m Hm. destruct m as [|[|m]]; [lia|lia|]. cbn [type_eq].
      rewrite (base_mono _ _ _ Hk (S m) ltac:(lia)). reflexivity.
    + assert (exists n b, forall m, n <= m -> decls_eq (type_eq P m) fs fs2 = Done b) as [n1 [b1 H1]].
      { clear - Hfs. revert fs2. induction Hfs as [|[k t] fs Ht _ IH]; intros [|[k2 t2] fs2].
        - exists 0, true. reflexivity.
        - exists 0, false. reflexivity.
        - exists 0, false. reflexivity.
        - cbn. destruct (Bool.eqb k k2); [|exists 0, false; reflexivity].
          destruct (Ht t2) as [n [b Hb]]. destruct (IH fs2) as [n' [b' Hb']].
          exists (n + n'), (if b then b' else false). intros m Hm. cbn in Hb.
          rewrite Hb by lia. destruct b; [apply Hb'; lia|reflexivity]. }
      destruct (Hr r2) as [n2 [b2 H2]].
      exists (S (S (k + n1 + n2))), (if b1 then b2 else false). intros m Hm.
      destruct m as [|m]; [lia|]. rewrite type_eq_S.
      rewrite (base_mono _ _ _ Hk m ltac:(lia)).
      rewrite (base_mono 1 (TFun fs r) (TFun fs r) eq_refl m ltac:(lia)).
      rewrite H1 by lia. destruct b1; [apply H2; lia|reflexivity].
    + exfalso. exact (base_is_base _ _ _ Hk).
  - intros t H t2. destruct (base_total t) as [b Hb].
    apply (decided_base _ t2 _ (proj2 (bases_remote t b) Hb)). apply (decided_base _ t2 _ Hb). apply H.
Qed.

End Terminates.

End Eq.
