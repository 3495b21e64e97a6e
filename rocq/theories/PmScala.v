(** * Proofs about the patterns printed by the Scala back end. *)

Require Import List Arith Lia Bool.
Import ListNotations.
Require Import Verif.PmModel Verif.PmSpec.

(** ** Induction principles *)

Section PatInd.
  Variable P : pat -> Prop.
  Hypothesis HMatch : forall p t, P p -> P (PMatch p t).
  Hypothesis HCall : forall f ps, Forall P ps -> P (PCall f ps).
  Hypothesis HRest : forall c, P (PRest c).
  Hypothesis HAnd : forall p q, P p -> P q -> P (PAnd p q).
  Hypothesis HVar : forall x, P (PVar x).
  Hypothesis HCond : forall e, P (PCond e).
  Hypothesis HOther : P POther.

  Fixpoint pat_ind' (p : pat) : P p :=
    match p with
    | PMatch q t => HMatch q t (pat_ind' q)
    | PCall f ps =>
        HCall f ps
          ((fix go (ps : list pat) : Forall P ps :=
              match ps with
              | nil => Forall_nil P
              | q :: ps' => Forall_cons q (pat_ind' q) (go ps')
              end) ps)
    | PRest c => HRest c
    | PAnd p q => HAnd p q (pat_ind' p) (pat_ind' q)
    | PVar x => HVar x
    | PCond e => HCond e
    | POther => HOther
    end.
End PatInd.

Section SpatInd.
  Variable P : spat -> Prop.
  Hypothesis HVar : forall n, P (SVar n).
  Hypothesis HWild : P SWild.
  Hypothesis HStar : P SStar.
  Hypothesis HTyped : forall n t, P (STyped n t).
  Hypothesis HExt : forall f ps, Forall P ps -> P (SExt f ps).

  Fixpoint spat_ind' (p : spat) : P p :=
    match p with
    | SVar n => HVar n
    | SWild => HWild
    | SStar => HStar
    | STyped n t => HTyped n t
    | SExt f ps =>
        HExt f ps
          ((fix go (ps : list spat) : Forall P ps :=
              match ps with
              | nil => Forall_nil P
              | q :: ps' => Forall_cons q (spat_ind' q) (go ps')
              end) ps)
    end.
End SpatInd.

(** ** Written Scala patterns can be read in one way only *)

Definition follow (s : list tok) : Prop :=
  match s with TColon :: _ => False | _ => True end.

Lemma written_head : forall p, exists t l, written p = t :: l /\
  t <> TRp /\ t <> TComma /\ t <> TColon /\ t <> TLp.
Proof.
  intros [n| | |n t|f ps]; cbn.
  - exists (TVar n), nil. repeat split; discriminate.
  - exists TWild, nil. repeat split; discriminate.
  - exists TStar, nil. repeat split; discriminate.
  - exists (TVar n), [TColon; TType t]. repeat split; discriminate.
  - destruct ps as [|q ps]; eexists; eexists; (split; [reflexivity|]);
      destruct f; cbn; repeat split; discriminate.
Qed.

Lemma head_tok_inj : forall f g, head_tok f = head_tok g -> f = g.
Proof. intros [f|] [g|] H; cbn in H; congruence. Qed.

Lemma written_inj_follow : forall p q s s',
  follow s -> follow s' -> written p ++ s = written q ++ s' -> p = q /\ s = s'.
Proof.
  induction p as [n| | |n t|f ps IH] using spat_ind'; intros q s s' Fs Fs' E.
  - destruct q as [n'| | |n' t'|f' [|q1 qs]]; cbn in E; try discriminate E.
    + injection E as E1 E2. subst. split; reflexivity.
    + injection E as E1 E2. subst s. destruct Fs.
    + destruct f'; discriminate E.
    + destruct f'; discriminate E.
  - destruct q as [n'| | |n' t'|f' [|q1 qs]]; cbn in E; try discriminate E.
    + injection E as E2. subst. split; reflexivity.
    + destruct f'; discriminate E.
    + destruct f'; discriminate E.
  - destruct q as [n'| | |n' t'|f' [|q1 qs]]; cbn in E; try discriminate E.
    + injection E as E2. subst. split; reflexivity.
    + destruct f'; discriminate E.
    + destruct f'; discriminate E.
  - destruct q as [n'| | |n' t'|f' [|q1 qs]]; cbn in E; try discriminate E.
    + injection E as E1 E2. subst s'. destruct Fs'.
    + injection E as E1 E2 E3. subst. split; reflexivity.
  - assert (Hl : forall ps qs s s', Forall (fun p => forall q s s',
        follow s -> follow s' -> written p ++ s = written q ++ s' -> p = q /\ s = s') ps ->
        flat_map (fun q => TComma :: written q) ps ++ TRp :: s =
        flat_map (fun q => TComma :: written q) qs ++ TRp :: s' -> ps = qs /\ s = s').
    { clear. induction ps as [|p ps IHps]; intros [|q qs] s s' HF E; cbn in E.
      - injection E as E. split; [reflexivity|exact E].
      - discriminate E.
      - discriminate E.
      - injection E as E. rewrite <- !app_assoc in E.
        inversion HF as [|x l H1 H2]; subst x l.
        apply H1 in E.
        + destruct E as [E1 E2]. apply IHps in E2; [|exact H2].
          destruct E2 as [E2 E3]. subst. split; reflexivity.
        + destruct ps; cbn; exact I.
        + destruct qs; cbn; exact I. }
    destruct q as [n'| | |n' t'|f' qs].
    + destruct f, ps; discriminate E.
    + destruct f, ps; discriminate E.
    + destruct f, ps; discriminate E.
    + destruct f, ps; discriminate E.
    + destruct ps as [|p1 ps], qs as [|q1 qs]; cbn [written app] in E.
      * injection E as E1 E2. apply head_tok_inj in E1. subst. split; reflexivity.
      * exfalso. injection E as _ E2.
        destruct (written_head q1) as [t [l [Hw [Ht _]]]]. rewrite Hw in E2. cbn in E2.
        injection E2 as E2 _. apply Ht. symmetry. exact E2.
      * exfalso. injection E as _ E2.
        destruct (written_head p1) as [t [l [Hw [Ht _]]]]. rewrite Hw in E2. cbn in E2.
        injection E2 as E2 _. apply Ht. exact E2.
      * injection E as E1 E2. apply head_tok_inj in E1.
        rewrite <- !app_assoc in E2. cbn [app] in E2.
        inversion IH as [|x l H1 H2]; subst x l.
        apply H1 in E2.
        -- destruct E2 as [E2 E3]. apply Hl in E3; [|exact H2].
           destruct E3 as [E3 E4]. subst. split; reflexivity.
        -- destruct ps; cbn; exact I.
        -- destruct qs; cbn; exact I.
Qed.

Lemma written_no_if : forall p, ~ In TIf (written p).
Proof.
  induction p as [n| | |n t|f ps IH] using spat_ind'; cbn.
  - intros [H|[]]; discriminate H.
  - intros [H|[]]; discriminate H.
  - intros [H|[]]; discriminate H.
  - intros [H|[H|[H|[]]]]; discriminate H.
  - destruct ps as [|q ps].
    + intros [H|[H|[H|[]]]]; destruct f; discriminate H.
    + inversion IH as [|x l H1 H2]; subst x l.
      intros [H|[H|H]]; [destruct f; discriminate H|discriminate H|].
      apply in_app_or in H. destruct H as [H|H]; [exact (H1 H)|].
      apply in_app_or in H. destruct H as [H|[H|[]]]; [|discriminate H].
      apply in_flat_map in H. destruct H as [p [Hp [H|H]]]; [discriminate H|].
      rewrite Forall_forall in H2. exact (H2 p Hp H).
Qed.

Lemma written_clause_inj : forall c c', written_clause c = written_clause c' -> c = c'.
Proof.
  intros [p g] [p' g'] E. unfold written_clause in E. cbn in E.
  apply written_inj_follow in E.
  - destruct E as [E1 E2]. subst p'.
    destruct g as [e|], g' as [e'|]; try discriminate E2; [|reflexivity].
    injection E2 as E2. subst. reflexivity.
  - destruct g; exact I.
  - destruct g'; exact I.
Qed.

(** ** What is printed for patterns without conditions *)

(** [Tr p sp]: the printed pattern [sp] stands for [p]. *)
Inductive Tr : pat -> spat -> Prop :=
| Tr_any : forall k, Tr (PVar None) (SVar (NAnon k))
| Tr_var : forall x, Tr (PVar (Some x)) (SVar (NUser x))
| Tr_tany : forall k t, Tr (PMatch (PVar None) t) (STyped (NAnon k) t)
| Tr_tvar : forall x t, Tr (PMatch (PVar (Some x)) t) (STyped (NUser x) t)
| Tr_rest : Tr (PRest None) SStar
| Tr_call : forall f ps sps, Trs ps sps ->
    Tr (PCall (Some f) ps) (SExt (Some f) (SWild :: sps))
| Tr_acall : forall p f ps sp sps, Tr p sp -> Trs ps sps ->
    Tr (PAnd p (PCall (Some f) ps)) (SExt (Some f) (sp :: sps))
| Tr_and : forall p q sp sq, Tr p sp -> Tr q sq ->
    (forall f ps, q <> PCall f ps) -> Tr (PAnd p q) (SExt None [sp; sq])
with Trs : list pat -> list spat -> Prop :=
| Trs_nil : Trs nil nil
| Trs_cons : forall p ps sp sps, Tr p sp -> Trs ps sps -> Trs (p :: ps) (sp :: sps).

Scheme Tr_ind2 := Induction for Tr Sort Prop
  with Trs_ind2 := Induction for Trs Sort Prop.
Combined Scheme Tr_mut from Tr_ind2, Trs_ind2.

Definition good (p : pat) : Prop := forall next fc,
  unconditional p = true -> errs (emit next p fc) = 0 ->
  exists sp, Tr p sp /\ toks (emit next p fc) = written sp.

Lemma emit_args_good : forall ps fc, Forall good ps ->
  forallb unconditional ps = true -> errs (emit_args emit ps fc) = 0 ->
  exists sps, Trs ps sps /\
    toks (emit_args emit ps fc) = flat_map (fun q => TComma :: written q) sps.
Proof.
  induction ps as [|p ps IH]; intros fc HF HU HE.
  - exists nil. split; [constructor|reflexivity].
  - inversion HF as [|x l H1 H2]; subst x l.
    cbn [forallb] in HU. apply andb_true_iff in HU. destruct HU as [U1 U2].
    cbn [emit_args] in *.
    destruct (emit match ps with nil => false | _ => true end p fc) as [[t1 e1] fc1] eqn:E1.
    destruct (emit_args emit ps (S fc1)) as [[t2 e2] fc2] eqn:E2.
    cbn [errs toks fst snd] in *.
    destruct (H1 (match ps with nil => false | _ => true end) fc U1) as [sp [Hsp Hw]].
    { rewrite E1. cbn. lia. }
    destruct (IH (S fc1) H2 U2) as [sps [Hsps Hws]].
    { rewrite E2. cbn. lia. }
    rewrite E1 in Hw. rewrite E2 in Hws. cbn in Hw, Hws.
    exists (sp :: sps). split; [constructor; assumption|].
    cbn [flat_map]. rewrite Hw, Hws. reflexivity.
Qed.

Lemma emit_good : forall p, good p.
Proof.
  induction p as [p t IH|f ps IH|c|p q IHp IHq|x|e|] using pat_ind'; intros next fc HU HE.
  - cbn [emit] in *. destruct p as [ | | | |[x|]| | ];
      try (match goal with H : context [emit false ?q fc] |- _ =>
             destruct (emit false q fc) as [[t1 e1] fc1]; discriminate HE end).
    + cbn in *. exists (STyped (NUser x) t). split; [constructor|reflexivity].
    + cbn in *. exists (STyped (NAnon fc) t). split; [constructor|reflexivity].
  - cbn [emit] in *. unfold emit_call in *. destruct f as [f|]; [|discriminate HE].
    cbn [unconditional] in HU.
    destruct (emit_args emit ps 0) as [[t1 e1] fc1] eqn:E1. cbn [errs toks fst snd] in *.
    destruct (emit_args_good ps 0 IH HU) as [sps [Hs Hw]].
    { rewrite E1. cbn. lia. }
    rewrite E1 in Hw. cbn in Hw.
    exists (SExt (Some f) (SWild :: sps)). split; [constructor; exact Hs|].
    cbn [written head_tok app]. rewrite Hw. reflexivity.
  - cbn [emit] in *. destruct next; cbn in HE; destruct c; try discriminate HE.
    exists SStar. split; [constructor|reflexivity].
  - cbn [unconditional] in HU. apply andb_true_iff in HU. destruct HU as [U1 U2].
    assert (Hgen : (forall f ps, q <> PCall f ps) -> 
       emit next (PAnd p q) fc =
       (let '(t1, e1, fc1) := emit false p fc in
          let '(t2, e2, fc2) := emit false q fc1 in
          (TAnd :: TLp :: t1 ++ TComma :: t2 ++ [TRp], e1 + e2, fc2)) ->
       exists sp, Tr (PAnd p q) sp /\ toks (emit next (PAnd p q) fc) = written sp).
    { intros Hq Heq. rewrite Heq in HE |- *.
      destruct (emit false p fc) as [[t1 e1] fc1] eqn:E1.
      destruct (emit false q fc1) as [[t2 e2] fc2] eqn:E2. cbn [errs toks fst snd] in *.
      destruct (IHp false fc U1) as [sp [Hsp Hw]]; [rewrite E1; cbn; lia|].
      destruct (IHq false fc1 U2) as [sq [Hsq Hw2]]; [rewrite E2; cbn; lia|].
      rewrite E1 in Hw. rewrite E2 in Hw2. cbn in Hw, Hw2.
      exists (SExt None [sp; sq]). split; [constructor; assumption|].
      cbn [written head_tok flat_map]. rewrite Hw, Hw2. rewrite app_nil_r. reflexivity. }
    destruct q as [q t|f ps|c|q1 q2|x|e| ];
      try (apply Hgen; [discriminate|reflexivity]).
    + (* call *)
      clear Hgen. cbn [emit] in *. unfold emit_call in *. destruct f as [f|]; [|discriminate HE].
      destruct (emit false p fc) as [[t0 e0] fc0] eqn:E0.
      destruct (emit_args emit ps 0) as [[t1 e1] fc1] eqn:E1. cbn [errs toks fst snd] in *.
      destruct (IHp false fc U1) as [sp [Hsp Hw]]; [rewrite E0; cbn; lia|].
      destruct (IHq false 0 U2) as [sq [Hsq Hwq]].
      { cbn [emit]. unfold emit_call. rewrite E1. cbn. lia. }
      rewrite E0 in Hw. cbn in Hw.
      cbn [emit] in Hwq. unfold emit_call in Hwq. rewrite E1 in Hwq. cbn [toks fst snd] in Hwq.
      inversion Hsq as [ | | | | |f' ps' sps Hs| | ]; subst f' ps' sq.
      exists (SExt (Some f) (sp :: sps)). split; [constructor; assumption|].
      cbn [written head_tok app] in Hwq |- *.
      injection Hwq as Hwq. apply app_inv_tail in Hwq. rewrite Hw, Hwq. reflexivity.
    + discriminate U2.
  - destruct x as [x|]; cbn in *.
    + exists (SVar (NUser x)). split; [constructor|reflexivity].
    + exists (SVar (NAnon fc)). split; [constructor|reflexivity].
  - discriminate HU.
  - discriminate HE.
Qed.

(** ** Conditions inside *)

Definition has_if (p : pat) : Prop := forall next fc,
  unconditional p = false -> errs (emit next p fc) = 0 -> In TIf (toks (emit next p fc)).

Lemma emit_args_if : forall ps fc, Forall has_if ps ->
  forallb unconditional ps = false -> errs (emit_args emit ps fc) = 0 ->
  In TIf (toks (emit_args emit ps fc)).
Proof.
  induction ps as [|p ps IH]; intros fc HF HU HE; [discriminate HU|].
  inversion HF as [|x l H1 H2]; subst x l.
  cbn [forallb] in HU. cbn [emit_args] in *.
  destruct (emit match ps with nil => false | _ => true end p fc) as [[t1 e1] fc1] eqn:E1.
  destruct (emit_args emit ps (S fc1)) as [[t2 e2] fc2] eqn:E2.
  cbn [errs toks fst snd] in *. right. apply in_or_app.
  apply andb_false_iff in HU. destruct HU as [HU|HU].
  - left. specialize (H1 (match ps with nil => false | _ => true end) fc HU).
    rewrite E1 in H1. apply H1. cbn. lia.
  - right. specialize (IH (S fc1) H2 HU). rewrite E2 in IH. apply IH. cbn. lia.
Qed.

Lemma emit_if : forall p, has_if p.
Proof.
  induction p as [p t IH|f ps IH|c|p q IHp IHq|x|e|] using pat_ind'; intros next fc HU HE;
    try discriminate HU.
  - cbn [emit] in *. destruct p as [ | | | |[x|]| | ]; try discriminate HU;
      match goal with H : context [emit false ?q fc] |- _ =>
             destruct (emit false q fc) as [[t1 e1] fc1]; discriminate HE end.
  - cbn [emit] in *. unfold emit_call in *. destruct f as [f|]; [|discriminate HE].
    cbn [unconditional] in HU.
    pose proof (emit_args_if ps 0 IH HU) as H.
    destruct (emit_args emit ps 0) as [[t1 e1] fc1] eqn:E1. cbn [errs toks fst snd] in *.
    right. right. apply in_or_app. right. apply in_or_app. left. apply H. lia.
  - assert (Hgen : emit next (PAnd p q) fc =
       (let '(t1, e1, fc1) := emit false p fc in
          let '(t2, e2, fc2) := emit false q fc1 in
          (TAnd :: TLp :: t1 ++ TComma :: t2 ++ [TRp], e1 + e2, fc2)) ->
       In TIf (toks (emit next (PAnd p q) fc))).
    { intros Heq. rewrite Heq in HE |- *.
      cbn [unconditional] in HU. apply andb_false_iff in HU.
      pose proof (IHp false fc) as HP.
      destruct (emit false p fc) as [[t1 e1] fc1] eqn:E1.
      pose proof (IHq false fc1) as HQ.
      destruct (emit false q fc1) as [[t2 e2] fc2] eqn:E2. cbn [errs toks fst snd] in *.
      right. right. apply in_or_app.
      destruct HU as [HU|HU].
      - left. apply HP; [exact HU|lia].
      - right. right. apply in_or_app. left. apply HQ; [exact HU|lia]. }
    destruct q as [q t|f ps|c|q1 q2|x|e| ]; try (apply Hgen; reflexivity).
    + clear Hgen. cbn [unconditional] in HU. apply andb_false_iff in HU.
      cbn [emit] in *. unfold emit_call in *. destruct f as [f|]; [|discriminate HE].
      pose proof (IHp false fc) as HP.
      destruct (emit false p fc) as [[t0 e0] fc0] eqn:E0.
      specialize (IHq false 0).
      cbn [emit] in IHq. unfold emit_call in IHq.
      destruct (emit_args emit ps 0) as [[t1 e1] fc1] eqn:E1. cbn [errs toks fst snd] in *.
      right. right. apply in_or_app. destruct HU as [HU|HU].
      * left. apply HP; [exact HU|lia].
      * right. cbn [unconditional] in IHq.
        assert (H : In TIf (TFun f :: TLp :: [TWild] ++ t1 ++ [TRp])) by (apply IHq; [exact HU|lia]).
        destruct H as [H|[H|[H|H]]]; try discriminate H. exact H.
    + cbn [emit] in *. destruct (emit false p fc) as [[t1 e1] fc1]. cbn.
      apply in_or_app. right. left. reflexivity.
  - discriminate HE.
Qed.

(** The last token printed is not an expression, unless the pattern is
    "p if e". *)
Lemma emit_last : forall p next fc, (forall q e, p <> PAnd q (PCond e)) ->
  errs (emit next p fc) = 0 ->
  exists l t, toks (emit next p fc) = l ++ [t] /\ (forall e, t <> TExpr e).
Proof.
  intros p next fc Hp HE. destruct p as [p t|f ps|c|p q|x|e| ].
  - cbn [emit] in *. destruct (emit false p fc) as [[t1 e1] fc1]. cbn.
    exists (t1 ++ [TColon]), (TType t). split; [rewrite <- app_assoc; reflexivity|discriminate].
  - cbn [emit] in *. unfold emit_call in *. destruct f as [f|]; [|discriminate HE].
    destruct (emit_args emit ps 0) as [[t1 e1] fc1]. cbn.
    exists (TFun f :: TLp :: TWild :: t1), TRp. split; [reflexivity|discriminate].
  - cbn [emit] in *. destruct next; [destruct c; discriminate HE|].
    exists nil, TStar. split; [reflexivity|discriminate].
  - assert (Hgen : emit next (PAnd p q) fc =
       (let '(t1, e1, fc1) := emit false p fc in
          let '(t2, e2, fc2) := emit false q fc1 in
          (TAnd :: TLp :: t1 ++ TComma :: t2 ++ [TRp], e1 + e2, fc2)) ->
       exists l t, toks (emit next (PAnd p q) fc) = l ++ [t] /\ (forall e, t <> TExpr e)).
    { intros Heq. rewrite Heq.
      destruct (emit false p fc) as [[t1 e1] fc1].
      destruct (emit false q fc1) as [[t2 e2] fc2]. cbn.
      exists (TAnd :: TLp :: t1 ++ TComma :: t2), TRp.
      split; [|discriminate]. cbn. rewrite <- app_assoc. reflexivity. }
    destruct q as [q t|f ps|c|q1 q2|x|e| ]; try (apply Hgen; reflexivity).
    + clear Hgen. cbn [emit] in *. unfold emit_call in *. destruct f as [f|]; [|discriminate HE].
      destruct (emit false p fc) as [[t0 e0] fc0].
      destruct (emit_args emit ps 0) as [[t1 e1] fc1]. cbn.
      exists (TFun f :: TLp :: t0 ++ t1), TRp. split; [|discriminate].
      cbn. rewrite <- app_assoc. reflexivity.
    + exfalso. exact (Hp p e eq_refl).
  - destruct x as [x|]; cbn.
    + exists nil, (TVar (NUser x)). split; [reflexivity|discriminate].
    + exists nil, (TVar (NAnon fc)). split; [reflexivity|discriminate].
  - discriminate HE.
  - discriminate HE.
Qed.

Lemma condition_last_cases : forall p,
  (exists q e, p = PAnd q (PCond e)) \/ (forall q e, p <> PAnd q (PCond e)).
Proof.
  intros p. destruct p as [ | | |p q| | | ]; try (right; discriminate).
  destruct q as [ | | | | |e| ]; try (right; intros; discriminate).
  left. exists p, e. reflexivity.
Qed.

Lemma condition_last_other : forall p, (forall q e, p <> PAnd q (PCond e)) ->
  condition_last p = unconditional p.
Proof.
  intros p H. destruct p as [ | | |p q| | | ]; try reflexivity.
  destruct q as [ | | | | |e| ]; try reflexivity. exfalso. exact (H p e eq_refl).
Qed.

(** The printed clause, when conditions come last. *)
Lemma emit_clause_good : forall p fc,
  errs (emit_clause p fc) = 0 -> condition_last p = true ->
  exists sp, 
    (exists q e, p = PAnd q (PCond e) /\ Tr q sp /\
       toks (emit_clause p fc) = written_clause {| cl_pat := sp; cl_guard := Some e |}) \/
    (Tr p sp /\ unconditional p = true /\
       toks (emit_clause p fc) = written_clause {| cl_pat := sp; cl_guard := None |}).
Proof.
  intros p fc HE HC. unfold emit_clause in *.
  destruct (condition_last_cases p) as [[q [e ->]]|H].
  - cbn [condition_last] in HC. cbn [emit] in *.
    pose proof (emit_good q false fc HC) as HG.
    destruct (emit false q fc) as [[t1 e1] fc1]. cbn [errs toks fst snd] in *.
    destruct (HG HE) as [sp [H1 H2]].
    exists sp. left. exists q, e. split; [reflexivity|]. split; [exact H1|].
    unfold written_clause. cbn. rewrite H2. reflexivity.
  - rewrite (condition_last_other p H) in HC.
    destruct (emit_good p false fc HC HE) as [sp [H1 H2]].
    exists sp. right. split; [exact H1|]. split; [exact HC|].
    unfold written_clause. cbn. rewrite app_nil_r. exact H2.
Qed.

Lemma emit_clause_iff : forall p fc, errs (emit_clause p fc) = 0 ->
  ((exists c, toks (emit_clause p fc) = written_clause c) <-> condition_last p = true).
Proof.
  intros p fc HE. split.
  - intros [[sp g] Hc]. unfold written_clause in Hc. cbn in Hc. unfold emit_clause in *.
    destruct (condition_last_cases p) as [[q [e ->]]|H].
    + cbn [condition_last]. destruct (unconditional q) eqn:HU; [reflexivity|exfalso].
      cbn [emit] in *. pose proof (emit_if q false fc HU) as HI.
      destruct (emit false q fc) as [[t1 e1] fc1]. cbn [errs toks fst snd] in *.
      specialize (HI HE). destruct g as [e'|].
      * change [TIf; TExpr e] with ([TIf] ++ [TExpr e]) in Hc.
        change [TIf; TExpr e'] with ([TIf] ++ [TExpr e']) in Hc.
        rewrite !app_assoc in Hc. apply app_inj_tail in Hc. destruct Hc as [Hc _].
        apply app_inj_tail in Hc. destruct Hc as [Hc _]. subst t1.
        exact (written_no_if sp HI).
      * rewrite app_nil_r in Hc. apply (written_no_if sp). rewrite <- Hc.
        apply in_or_app. left. exact HI.
    + rewrite (condition_last_other p H).
      destruct (unconditional p) eqn:HU; [reflexivity|exfalso].
      pose proof (emit_if p false fc HU HE) as HI.
      destruct (emit_last p false fc H HE) as [l [t [Hl Ht]]].
      destruct g as [e'|].
      * rewrite Hl in Hc. change [TIf; TExpr e'] with ([TIf] ++ [TExpr e']) in Hc.
        rewrite app_assoc in Hc. apply app_inj_tail in Hc. destruct Hc as [_ Hc].
        exact (Ht e' Hc).
      * rewrite app_nil_r in Hc. rewrite Hc in HI. exact (written_no_if sp HI).
  - intros HC. destruct (emit_clause_good p fc HE HC) as [sp [[q [e [_ [_ H]]]]|[_ [_ H]]]];
      eexists; exact H.
Qed.
