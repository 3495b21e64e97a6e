(** * When the printed Scala clauses are legal. *)

Require Import List Arith Lia Bool FinFun.
Import ListNotations.
Require Import Verif.PmModel Verif.PmSpec Verif.PmScala Verif.PmScalaSem Verif.PmCpp.

Lemma rest_in_seq_call : forall f ps, rest_in_seq (PCall f ps) =
  forallb (fun q => match q with
                    | PRest _ => match f with Some FSeq => true | _ => false end
                    | _ => rest_in_seq q
                    end) ps.
Proof. reflexivity. Qed.

(** Without errors, "..." comes last. *)
Lemma errs_rest_last : forall p next fc, rest_in_seq p = true -> errs (emit next p fc) = 0 ->
  rest_last p = true.
Proof.
  assert (Hargs : forall f ps, Forall (fun p => forall next fc, rest_in_seq p = true ->
      errs (emit next p fc) = 0 -> rest_last p = true) ps ->
      rest_in_seq (PCall f ps) = true -> forall fc, errs (emit_args emit ps fc) = 0 ->
      rest_last_all ps = true).
  { intros f. induction ps as [|p ps IH]; intros HF HR fc HE; [reflexivity|].
    inversion HF as [|x l H1 H2]; subst x l.
    rewrite rest_in_seq_call in HR. cbn [forallb] in HR. apply andb_true_iff in HR.
    destruct HR as [R1 R2]. cbn [emit_args] in HE.
    destruct (emit match ps with nil => false | _ => true end p fc) as [[t1 e1] fc1] eqn:E1.
    destruct (emit_args emit ps (S fc1)) as [[t2 e2] fc2] eqn:E2.
    cbn [errs fst snd] in HE.
    assert (Htl : rest_last_all ps = true).
    { apply (IH H2 R2 (S fc1)). rewrite E2. cbn. lia. }
    assert (Hp : forall c, p <> PRest c -> rest_in_seq p = true -> rest_last p = true).
    { intros c _ Hr. apply (H1 (match ps with nil => false | _ => true end) fc Hr).
      rewrite E1. cbn. lia. }
    destruct p as [p t|g qs|c|p q|x|ce| ].
    - cbn [rest_last_all]. rewrite (Hp None) by (discriminate || exact R1). exact Htl.
    - cbn [rest_last_all]. rewrite (Hp None) by (discriminate || exact R1). exact Htl.
    - destruct ps as [|p2 ps]; [reflexivity|]. cbn in E1. injection E1 as _ E1 _. lia.
    - cbn [rest_last_all]. rewrite (Hp None) by (discriminate || exact R1). exact Htl.
    - exact Htl.
    - exact Htl.
    - exact Htl. }
  induction p as [p t IH|f ps IH|c|p q IHp IHq|x|ce|] using pat_ind'; intros next fc HR HE;
    try reflexivity.
  - cbn [emit] in HE. cbn [rest_last rest_in_seq] in *.
    apply (IH false fc HR). destruct (emit false p fc) as [[t1 e1] fc1]. cbn in *. lia.
  - rewrite rest_last_call. cbn [emit] in HE. unfold emit_call in HE.
    destruct f as [f|]; [|discriminate HE].
    apply (Hargs (Some f) ps IH HR 0).
    destruct (emit_args emit ps 0) as [[t1 e1] fc1]. cbn in *. lia.
  - discriminate HR.
  - cbn [rest_in_seq] in HR. apply andb_true_iff in HR. destruct HR as [R1 R2].
    cbn [rest_last].
    assert (Hgen : emit next (PAnd p q) fc =
       (let '(t1, e1, fc1) := emit false p fc in
          let '(t2, e2, fc2) := emit false q fc1 in
          (TAnd :: TLp :: t1 ++ TComma :: t2 ++ [TRp], e1 + e2, fc2)) ->
       rest_last p && rest_last q = true).
    { intros Heq. rewrite Heq in HE. apply andb_true_iff.
      pose proof (IHp false fc R1) as HP.
      destruct (emit false p fc) as [[t1 e1] fc1] eqn:E1.
      pose proof (IHq false fc1 R2) as HQ.
      destruct (emit false q fc1) as [[t2 e2] fc2] eqn:E2. cbn [errs toks fst snd] in *.
      split; [apply HP|apply HQ]; lia. }
    destruct q as [q t|f ps|c|q1 q2|x|ce| ]; try (apply Hgen; reflexivity).
    + clear Hgen. apply andb_true_iff. cbn [emit] in HE. unfold emit_call in HE.
      destruct f as [f|]; [|discriminate HE].
      pose proof (IHp false fc R1) as HP.
      specialize (IHq false 0 R2). cbn [emit] in IHq. unfold emit_call in IHq.
      destruct (emit false p fc) as [[t0 e0] fc0].
      destruct (emit_args emit ps 0) as [[t1 e1] fc1]. cbn [errs toks fst snd] in *.
      split; [apply HP; lia|apply IHq; lia].
    + rewrite andb_true_r. cbn [emit] in HE.
      apply (IHp false fc R1). destruct (emit false p fc) as [[t1 e1] fc1]. exact HE.
Qed.

Definition arity_ok (f : pfun) (ps : list pat) : Prop :=
  match f with FCons k n => length ps = n | _ => True end.

Definition rest_ok (f : pfun) (q : pat) : bool :=
  match q with
  | PRest _ => match f with FSeq => true | _ => false end
  | _ => rest_in_seq q
  end.

Lemma tr_shaped :
  (forall p sp, Tr p sp -> arities p -> rest_in_seq p = true -> rest_last p = true ->
     shaped sp = true) /\
  (forall ps sps, Trs ps sps -> arities_all ps -> forall f,
     forallb (rest_ok f) ps = true ->
     rest_last_all ps = true ->
     length sps = length ps /\ forallb elem_shaped sps = true /\
     (f <> FSeq -> forallb no_star sps = true) /\
     star_last sps = true).
Proof.
  assert (Hcall : forall f ps sp sps, shaped sp = true -> arity_ok f ps ->
     length sps = length ps /\ forallb elem_shaped sps = true /\
     (f <> FSeq -> forallb no_star sps = true) /\
     star_last sps = true -> shaped (SExt (Some f) (sp :: sps)) = true).
  { intros f ps sp sps Hs HA [H1 [H2 [H3 H4]]]. rewrite shaped_ext.
    pose proof (shaped_no_star sp Hs) as Hn.
    assert (He : elem_shaped sp = true) by (destruct sp; try exact Hs; reflexivity).
    cbn [forallb]. rewrite He, H2. cbn [andb].
    destruct f as [k n| |d].
    - cbn in HA. rewrite H1, HA, Nat.eqb_refl. cbn [forallb andb].
      rewrite Hn. cbn [andb]. apply H3. discriminate.
    - rewrite Hn. exact H4.
    - cbn [forallb]. rewrite Hn. cbn [andb]. apply H3. discriminate. }
  apply Tr_mut; try (intros; reflexivity).
  - intros _ H. discriminate H.
  - intros f ps sps _ IH HA HR HL. apply (Hcall f ps); [reflexivity| |].
    + destruct HA as [HA _]. exact HA.
    + destruct HA as [_ HA]. apply (IH HA f); [|exact HL].
      rewrite rest_in_seq_call in HR. destruct f as [k n| |d]; exact HR.
  - intros p f ps sp sps _ IHp _ IH HA HR HL.
    destruct HA as [A1 [A2 A3]]. cbn [rest_in_seq rest_last] in HR, HL.
    apply andb_true_iff in HR. apply andb_true_iff in HL.
    destruct HR as [R1 R2]. destruct HL as [L1 L2].
    apply (Hcall f ps); [exact (IHp A1 R1 L1)|exact A2|].
    apply (IH A3 f); [|exact L2]. destruct f as [k n| |d]; exact R2.
  - intros p q sp sq _ IHp _ IHq _ HA HR HL.
    destruct HA as [A1 A2]. cbn [rest_in_seq rest_last] in HR, HL.
    apply andb_true_iff in HR. apply andb_true_iff in HL.
    destruct HR as [R1 R2]. destruct HL as [L1 L2].
    pose proof (IHp A1 R1 L1) as S1. pose proof (IHq A2 R2 L2) as S2.
    rewrite shaped_ext. cbn [forallb].
    rewrite (shaped_no_star sp S1), (shaped_no_star sq S2).
    replace (elem_shaped sp) with true by (destruct sp; try (symmetry; exact S1); reflexivity).
    replace (elem_shaped sq) with true by (destruct sq; try (symmetry; exact S2); reflexivity).
    reflexivity.
  - intros _ f _ _. split; [reflexivity|]. split; [reflexivity|]. split; [intros _; reflexivity|reflexivity].
  - intros p ps sp sps HT IHp HTs IH [A1 A2] f HR HL.
    cbn [forallb] in HR. apply andb_true_iff in HR. destruct HR as [R1 R2].
    assert (Hc : (exists c, p = PRest c) \/
       (rest_ok f p = rest_in_seq p /\ rest_last_all (p :: ps) = rest_last p && rest_last_all ps)).
    { destruct p as [p t|g qs|c|p q|x|ce| ]; try (right; split; reflexivity).
      left. exists c. reflexivity. }
    destruct Hc as [[c ->]|[Hr Hl]].
    + inversion HT as [ | | | |Hc Hsp| | | ]. subst sp.
      destruct ps as [|p2 ps]; [|discriminate HL].
      inversion HTs as [Hx Hy|]. subst sps. 
      split; [reflexivity|]. split; [reflexivity|]. split; [|reflexivity].
      intros Hf. destruct f; try discriminate R1. exfalso. exact (Hf eq_refl).
    + rewrite Hr in R1. rewrite Hl in HL. apply andb_true_iff in HL. destruct HL as [L1 L2].
      pose proof (IHp A1 R1 L1) as S1. pose proof (shaped_no_star sp S1) as N1.
      destruct (IH A2 f R2 L2) as [B1 [B2 [B3 B4]]].
      split; [cbn; rewrite B1; reflexivity|]. split.
      { cbn [forallb]. rewrite B2, andb_true_r. destruct sp; try exact S1; reflexivity. }
      split.
      { intros Hf. cbn [forallb]. rewrite N1. exact (B3 Hf). }
      { cbn [star_last]. destruct sp; try discriminate N1; cbn; exact B4. }
Qed.

Lemma tr_all_named :
  (forall p sp, Tr p sp -> all_named p = true -> binders sp = map NUser (named p)) /\
  (forall ps sps, Trs ps sps -> forallb all_named ps = true ->
     flat_map binders sps = map NUser (flat_map named ps)).
Proof.
  apply Tr_mut; try (intros; reflexivity).
  - intros k H. discriminate H.
  - intros k t H. discriminate H.
  - intros f ps sps _ IH H. cbn. exact (IH H).
  - intros p f ps sp sps _ IHp _ IH H. cbn [all_named] in H. apply andb_true_iff in H.
    destruct H as [H1 H2]. cbn [binders flat_map named]. rewrite (IHp H1), (IH H2), map_app. reflexivity.
  - intros p q sp sq _ IHp _ IHq _ H. cbn [all_named] in H. apply andb_true_iff in H.
    destruct H as [H1 H2]. cbn [binders flat_map named]. rewrite (IHp H1), (IHq H2), map_app, app_nil_r.
    reflexivity.
  - intros p ps sp sps _ IHp _ IH H. cbn [forallb] in H. apply andb_true_iff in H.
    destruct H as [H1 H2]. cbn [flat_map]. rewrite (IHp H1), (IH H2), map_app. reflexivity.
Qed.

Lemma nodup_user : forall l, NoDup (map NUser l) <-> NoDup l.
Proof.
  intros l. split.
  - intros H. apply (NoDup_map_inv _ _ H).
  - intros H. apply Injective_map_NoDup; [|exact H]. intros x y E. congruence.
Qed.

(** Legal exactly if names are distinct. *)
Theorem legal_clause : forall p fc,
  errs (emit_clause p fc) = 0 -> condition_last p = true -> arities p ->
  rest_in_seq p = true -> all_named p = true ->
  exists c, toks (emit_clause p fc) = written_clause c /\ (legal c <-> NoDup (named p)).
Proof.
  intros p fc HE HC HA HR HN.
  pose proof (errs_rest_last p false fc HR HE) as HL.
  destruct (emit_clause_good p fc HE HC) as [sp [[q [e [-> [Hq Hw]]]]|[Hp [HU Hw]]]].
  - eexists. split; [exact Hw|]. unfold legal. cbn [cl_pat].
    cbn [rest_in_seq rest_last all_named] in *.
    rewrite andb_true_r in HR, HL, HN. destruct HA as [HA _].
    rewrite (proj1 tr_shaped q sp Hq HA HR HL).
    rewrite (proj1 tr_all_named q sp Hq HN). cbn [named]. rewrite app_nil_r, nodup_user.
    split; [intros [_ H]; exact H|intros H; split; [reflexivity|exact H]].
  - eexists. split; [exact Hw|]. unfold legal. cbn [cl_pat].
    rewrite (proj1 tr_shaped p sp Hp HA HR HL).
    rewrite (proj1 tr_all_named p sp Hp HN). rewrite nodup_user.
    split; [intros [_ H]; exact H|intros H; split; [reflexivity|exact H]].
Qed.

(** Without "_", what is printed does not depend on the counter. *)
Lemma emit_count : forall p, all_named p = true -> forall next fc fc',
  toks (emit next p fc) = toks (emit next p fc') /\ errs (emit next p fc) = errs (emit next p fc').
Proof.
  assert (Hargs : forall ps, Forall (fun p => all_named p = true -> forall next fc fc',
     toks (emit next p fc) = toks (emit next p fc') /\ errs (emit next p fc) = errs (emit next p fc')) ps ->
     forallb all_named ps = true -> forall fc fc',
     toks (emit_args emit ps fc) = toks (emit_args emit ps fc') /\
     errs (emit_args emit ps fc) = errs (emit_args emit ps fc')).
  { induction ps as [|p ps IH]; intros HF HN fc fc'; [split; reflexivity|].
    inversion HF as [|x l H1 H2]; subst x l. cbn [forallb] in HN. apply andb_true_iff in HN.
    destruct HN as [N1 N2]. cbn [emit_args].
    destruct (H1 N1 (match ps with nil => false | _ => true end) fc fc') as [T1 T2].
    destruct (emit match ps with nil => false | _ => true end p fc) as [[t1 e1] fc1].
    destruct (emit match ps with nil => false | _ => true end p fc') as [[t1' e1'] fc1'].
    destruct (IH H2 N2 (S fc1) (S fc1')) as [U1 U2].
    destruct (emit_args emit ps (S fc1)) as [[t2 e2] fc2].
    destruct (emit_args emit ps (S fc1')) as [[t2' e2'] fc2'].
    cbn in *. subst. split; reflexivity. }
  induction p as [p t IH|f ps IH|c|p q IHp IHq|x|ce|] using pat_ind'; intros HN next fc fc'.
  - cbn [emit]. destruct (IH HN false fc fc') as [T1 T2].
    destruct (emit false p fc) as [[t1 e1] fc1]. destruct (emit false p fc') as [[t1' e1'] fc1'].
    cbn in *. subst. split; reflexivity.
  - cbn [emit]. unfold emit_call. destruct f as [f|]; [|split; reflexivity].
    destruct (emit_args emit ps 0) as [[t1 e1] fc1]. split; reflexivity.
  - cbn [emit]. destruct next; split; reflexivity.
  - cbn [all_named] in HN. apply andb_true_iff in HN. destruct HN as [N1 N2].
    destruct (IHp N1 false fc fc') as [T1 T2].
    assert (Hgen : forall k, emit next (PAnd p q) k =
       (let '(t1, e1, fc1) := emit false p k in
          let '(t2, e2, fc2) := emit false q fc1 in
          (TAnd :: TLp :: t1 ++ TComma :: t2 ++ [TRp], e1 + e2, fc2)) ->
       forall k', emit next (PAnd p q) k' =
       (let '(t1, e1, fc1) := emit false p k' in
          let '(t2, e2, fc2) := emit false q fc1 in
          (TAnd :: TLp :: t1 ++ TComma :: t2 ++ [TRp], e1 + e2, fc2)) ->
       toks (emit next (PAnd p q) k) = toks (emit next (PAnd p q) k') /\
       errs (emit next (PAnd p q) k) = errs (emit next (PAnd p q) k')).
    { intros k E1 k' E2. rewrite E1, E2. clear E1 E2 T1 T2.
      destruct (IHp N1 false k k') as [T1 T2].
      destruct (emit false p k) as [[t1 e1] fc1]. destruct (emit false p k') as [[t1' e1'] fc1'].
      destruct (IHq N2 false fc1 fc1') as [U1 U2].
      destruct (emit false q fc1) as [[t2 e2] fc2]. destruct (emit false q fc1') as [[t2' e2'] fc2'].
      cbn in *. subst. split; reflexivity. }
    destruct q as [q t|f ps|c|q1 q2|x|ce| ]; try (apply Hgen; reflexivity).
    + cbn [emit]. unfold emit_call. destruct f as [f|]; [|split; reflexivity].
      destruct (emit false p fc) as [[t1 e1] fc1]. destruct (emit false p fc') as [[t1' e1'] fc1'].
      destruct (emit_args emit ps 0) as [[t2 e2] fc2]. cbn in *. subst. split; reflexivity.
    + cbn [emit].
      destruct (emit false p fc) as [[t1 e1] fc1]. destruct (emit false p fc') as [[t1' e1'] fc1'].
      cbn in *. subst. split; reflexivity.
  - destruct x as [x|]; [split; reflexivity|discriminate HN].
  - split; reflexivity.
  - split; reflexivity.
Qed.
