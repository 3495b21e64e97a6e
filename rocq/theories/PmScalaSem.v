(** * Scala clauses mean what the APS patterns mean. *)

Require Import List Arith Lia Bool.
Import ListNotations.
Require Import Verif.PmModel Verif.PmSpec Verif.PmScala.

Fixpoint sall (ps : list spat) (vs : list val) : option senv :=
  match ps, vs with
  | nil, nil => Some nil
  | SStar :: nil, _ => Some nil
  | p :: ps', v :: vs' =>
      match smatch p v, sall ps' vs' with
      | Some r1, Some r2 => Some (r1 ++ r2)
      | _, _ => None
      end
  | _, _ => None
  end.

Lemma smatch_ext : forall f ps v,
  smatch (SExt f ps) v =
  match f, v with
  | None, _ => sall ps [v; v]
  | Some (FCons k _), VNode _ k' args =>
      if Nat.eqb k k' then sall ps (v :: args) else None
  | Some FSeq, VSeq _ xs => sall ps (v :: xs)
  | _, _ => None
  end.
Proof. intros f ps v. reflexivity. Qed.

Lemma sall_cons : forall p ps v vs, no_star p = true ->
  sall (p :: ps) (v :: vs) =
  match smatch p v, sall ps vs with
  | Some r1, Some r2 => Some (r1 ++ r2)
  | _, _ => None
  end.
Proof. intros p ps v vs H. destruct p; try discriminate H; reflexivity. Qed.

Lemma sall_nil_cons : forall p ps, no_star p = true -> sall (p :: ps) nil = None.
Proof. intros p ps H. destruct p; try discriminate H; reflexivity. Qed.

Fixpoint users (r : senv) : env :=
  match r with
  | nil => nil
  | (NUser x, v) :: r' => (x, v) :: users r'
  | (NAnon _, _) :: r' => users r'
  end.

Lemma users_app : forall a b, users (a ++ b) = users a ++ users b.
Proof.
  induction a as [|[[x|k] v] a IH]; intros b; cbn; [reflexivity| |apply IH].
  rewrite IH. reflexivity.
Qed.

Section Sem.
Variable code : val -> nat.

Notation Matches := (Matches code).
Notation MatchAll := (MatchAll code).
Notation MatchSeq := (MatchSeq code).

Definition same (p : pat) (sp : spat) : Prop :=
  no_star sp = true -> shaped sp = true -> forall v,
  (forall sr, smatch sp v = Some sr -> forall r, Matches r p v (rev (users sr) ++ r)) /\
  (forall r r', Matches r p v r' -> exists sr, smatch sp v = Some sr /\ r' = rev (users sr) ++ r).

Definition elem_shaped (q : spat) : bool := match q with SStar => true | _ => shaped q end.

Definition same_all (ps : list pat) (sps : list spat) : Prop :=
  forallb elem_shaped sps = true ->
  (forallb no_star sps = true -> forall vs,
    (forall sr, sall sps vs = Some sr -> forall r, MatchAll r ps vs (rev (users sr) ++ r)) /\
    (forall r r', MatchAll r ps vs r' -> exists sr, sall sps vs = Some sr /\ r' = rev (users sr) ++ r)) /\
  (star_last sps = true -> forall vs,
    (forall sr, sall sps vs = Some sr -> forall r, MatchSeq r ps vs (rev (users sr) ++ r)) /\
    (forall r r', MatchSeq r ps vs r' -> exists sr, sall sps vs = Some sr /\ r' = rev (users sr) ++ r)).

Lemma no_rest : forall r c v r', ~ Matches r (PRest c) v r'.
Proof. intros r c v r' H. inversion H. Qed.

Lemma elem_shaped_no_star : forall sp, elem_shaped sp = true -> no_star sp = true -> shaped sp = true.
Proof. intros sp H1 H2. destruct sp; try exact H1. discriminate H2. Qed.

Lemma shaped_ext : forall f ps, shaped (SExt f ps) =
      forallb elem_shaped ps &&
      match f, ps with
      | None, [a; b] => no_star a && no_star b
      | Some (FCons k n), r :: args =>
          Nat.eqb (length args) n && forallb no_star ps
      | Some FSeq, r :: args => no_star r && star_last args
      | Some (FUser _), _ => forallb no_star ps
      | _, _ => false
      end.
Proof. reflexivity. Qed.

(** A call, with the pattern for the whole value first. *)
Lemma same_call : forall f ps sp sps (R : env -> val -> env -> Prop),
  same_all ps sps ->
  no_star sp = true ->
  (forall v,
     (forall sr, smatch sp v = Some sr -> forall r, R r v (rev (users sr) ++ r)) /\
     (forall r r', R r v r' -> exists sr, smatch sp v = Some sr /\ r' = rev (users sr) ++ r)) ->
  shaped (SExt (Some f) (sp :: sps)) = true ->
  forall v,
  (forall sr, smatch (SExt (Some f) (sp :: sps)) v = Some sr -> forall r,
     exists r1, R r v r1 /\ Matches r1 (PCall (Some f) ps) v (rev (users sr) ++ r)) /\
  (forall r r1 r', R r v r1 -> Matches r1 (PCall (Some f) ps) v r' ->
     exists sr, smatch (SExt (Some f) (sp :: sps)) v = Some sr /\ r' = rev (users sr) ++ r).
Proof.
  intros f ps sp sps R HA Hn HR HS v.
  rewrite shaped_ext in HS. apply andb_true_iff in HS. destruct HS as [HE HS].
  cbn [forallb] in HE. apply andb_true_iff in HE. destruct HE as [_ HE].
  specialize (HA HE). destruct HA as [HA1 HA2]. destruct (HR v) as [R1 R2].
  rewrite smatch_ext. destruct f as [k n| |d].
  - apply andb_true_iff in HS. destruct HS as [_ HS]. cbn [forallb] in HS.
    apply andb_true_iff in HS. destruct HS as [_ HS].
    destruct v as [t k' args|t xs|t b].
    + destruct (Nat.eqb k k') eqn:Ek.
      * apply Nat.eqb_eq in Ek. subst k'. destruct (HA1 HS args) as [A1 A2].
        rewrite sall_cons by exact Hn. split.
        -- intros sr H r.
           destruct (smatch sp (VNode t k args)) as [r1|] eqn:E1; [|discriminate H].
           destruct (sall sps args) as [r2|] eqn:E2; [|discriminate H].
           injection H as H. subst sr. exists (rev (users r1) ++ r).
           split; [exact (R1 r1 eq_refl r)|]. rewrite users_app, rev_app_distr, <- app_assoc.
           constructor. exact (A1 r2 eq_refl _).
        -- intros r r1 r' H1 H2. destruct (R2 r r1 H1) as [sr1 [S1 ->]].
           inversion H2 as [ | | | | |r0 k0 n0 ps0 t0 args0 r0' HM| ];
             subst r0 k0 n0 ps0 t0 args0 r0'.
           destruct (A2 _ _ HM) as [sr2 [S2 ->]]. rewrite S1, S2.
           exists (sr1 ++ sr2). split; [reflexivity|].
           rewrite users_app, rev_app_distr, <- app_assoc. reflexivity.
      * split; [intros sr H; discriminate H|]. intros r r1 r' H1 H2.
        inversion H2 as [ | | | | |r0 k0 n0 ps0 t0 args0 r0' HM| ];
             subst r0 k0 n0 ps0 t0 args0 r0'.
        apply Nat.eqb_neq in Ek. exfalso. apply Ek. assumption.
    + split; [intros sr H; discriminate H|]. intros r r1 r' H1 H2. inversion H2.
    + split; [intros sr H; discriminate H|]. intros r r1 r' H1 H2. inversion H2.
  - apply andb_true_iff in HS. destruct HS as [_ HS].
    destruct v as [t k' args|t xs|t b].
    + split; [intros sr H; discriminate H|]. intros r r1 r' H1 H2. inversion H2.
    + destruct (HA2 HS xs) as [A1 A2].
      rewrite sall_cons by exact Hn. split.
      * intros sr H r.
        destruct (smatch sp (VSeq t xs)) as [r1|] eqn:E1; [|discriminate H].
        destruct (sall sps xs) as [r2|] eqn:E2; [|discriminate H].
        injection H as H. subst sr. exists (rev (users r1) ++ r).
        split; [exact (R1 r1 eq_refl r)|]. rewrite users_app, rev_app_distr, <- app_assoc.
        constructor. exact (A1 r2 eq_refl _).
      * intros r r1 r' H1 H2. destruct (R2 r r1 H1) as [sr1 [S1 ->]].
        inversion H2 as [ | | | | | |r0 ps0 t0 xs0 r0' HM];
             subst r0 ps0 t0 xs0 r0'.
        destruct (A2 _ _ HM) as [sr2 [S2 ->]]. rewrite S1, S2.
        exists (sr1 ++ sr2). split; [reflexivity|].
        rewrite users_app, rev_app_distr, <- app_assoc. reflexivity.
    + split; [intros sr H; discriminate H|]. intros r r1 r' H1 H2. inversion H2.
  - split; [intros sr H; discriminate H|]. intros r r1 r' H1 H2. inversion H2.
Qed.

Lemma tr_same : (forall p sp, Tr p sp -> same p sp) /\ (forall ps sps, Trs ps sps -> same_all ps sps).
Proof.
  apply Tr_mut.
  - intros k _ _ v. split.
    + intros sr H r. cbn in H. injection H as H. subst sr. cbn. constructor.
    + intros r r' H. inversion H; subst. eexists. split; [reflexivity|reflexivity].
  - intros x _ _ v. split.
    + intros sr H r. cbn in H. injection H as H. subst sr. cbn. constructor.
    + intros r r' H. inversion H; subst. eexists. split; [reflexivity|reflexivity].
  - intros k t _ _ v. cbn. split.
    + intros sr H r. destruct (Nat.eqb (type_of v) t) eqn:E; [|discriminate H].
      injection H as H. subst sr. cbn. constructor; [apply Nat.eqb_eq; exact E|constructor].
    + intros r r' H. inversion H as [ | | | |r0 p0 t0 v0 r0' Ht HM| | ]; subst r0 p0 t0 v0 r0'.
      inversion HM; subst. rewrite Nat.eqb_refl. eexists. split; reflexivity.
  - intros x t _ _ v. cbn. split.
    + intros sr H r. destruct (Nat.eqb (type_of v) t) eqn:E; [|discriminate H].
      injection H as H. subst sr. cbn. constructor; [apply Nat.eqb_eq; exact E|constructor].
    + intros r r' H. inversion H as [ | | | |r0 p0 t0 v0 r0' Ht HM| | ]; subst r0 p0 t0 v0 r0'.
      inversion HM; subst. rewrite Nat.eqb_refl. eexists. split; reflexivity.
  - intros H. discriminate H.
  - intros f ps sps _ HA _ HS v.
    destruct (same_call f ps SWild sps (fun r v r' => r' = r) HA eq_refl) with (v := v) as [S1 S2].
    + intros v0. split.
      * intros sr H r. cbn in H. injection H as H. subst sr. reflexivity.
      * intros r r' H. exists nil. split; [reflexivity|exact H].
    + exact HS.
    + split.
      * intros sr H r. destruct (S1 sr H r) as [r1 [-> HM]]. exact HM.
      * intros r r' H. exact (S2 r r r' eq_refl H).
  - intros p f ps sp sps _ HP _ HA _ HS v.
    assert (Hn : no_star sp = true).
    { rewrite shaped_ext in HS. apply andb_true_iff in HS. destruct HS as [_ HS].
      destruct f as [k n| |d].
      - apply andb_true_iff in HS. destruct HS as [_ HS]. cbn in HS.
        apply andb_true_iff in HS. exact (proj1 HS).
      - apply andb_true_iff in HS. exact (proj1 HS).
      - cbn in HS. apply andb_true_iff in HS. exact (proj1 HS). }
    assert (Hs : shaped sp = true).
    { rewrite shaped_ext in HS. apply andb_true_iff in HS. destruct HS as [HS _].
      cbn [forallb] in HS. apply andb_true_iff in HS.
      exact (elem_shaped_no_star sp (proj1 HS) Hn). }
    destruct (same_call f ps sp sps (fun r v r' => Matches r p v r') HA Hn (HP Hn Hs) HS v)
      as [S1 S2].
    split.
    + intros sr H r. destruct (S1 sr H r) as [r1 [H1 H2]]. econstructor; [exact H1|exact H2].
    + intros r r' H. inversion H as [ | |r0 p0 q0 v0 r1 r2 H1 H2| | | | ];
        subst r0 p0 q0 v0 r2. exact (S2 r r1 r' H1 H2).
  - intros p q sp sq _ HP _ HQ _ _ HS v.
    rewrite shaped_ext in HS. apply andb_true_iff in HS. destruct HS as [HE HS].
    apply andb_true_iff in HS. destruct HS as [N1 N2].
    cbn [forallb] in HE. apply andb_true_iff in HE. destruct HE as [E1 HE].
    apply andb_true_iff in HE. destruct HE as [E2 _].
    destruct (HP N1 (elem_shaped_no_star sp E1 N1) v) as [P1 P2].
    destruct (HQ N2 (elem_shaped_no_star sq E2 N2) v) as [Q1 Q2].
    rewrite smatch_ext, sall_cons by exact N1. rewrite sall_cons by exact N2. cbn [sall].
    split.
    + intros sr H r.
      destruct (smatch sp v) as [r1|]; [|discriminate H].
      destruct (smatch sq v) as [r2|]; [|discriminate H].
      injection H as H. subst sr. rewrite app_nil_r, users_app, rev_app_distr, <- app_assoc.
      econstructor; [exact (P1 r1 eq_refl r)|exact (Q1 r2 eq_refl _)].
    + intros r r' H. inversion H as [ | |r0 p0 q0 v0 r1 r2 H1 H2| | | | ];
        subst r0 p0 q0 v0 r2.
      destruct (P2 r r1 H1) as [s1 [-> ->]]. destruct (Q2 _ _ H2) as [s2 [-> ->]].
      exists (s1 ++ s2 ++ nil). split; [reflexivity|].
      rewrite app_nil_r, users_app, rev_app_distr, <- app_assoc. reflexivity.
  - intros _. split; intros _ vs; split.
    + intros sr H r. destruct vs; [|discriminate H]. injection H as H. subst sr. constructor.
    + intros r r' H. inversion H; subst. exists nil. split; reflexivity.
    + intros sr H r. destruct vs; [|discriminate H]. injection H as H. subst sr. constructor.
    + intros r r' H. inversion H; subst. exists nil. split; reflexivity.
  - intros p ps sp sps HT HP HTs HA HE.
    cbn [forallb] in HE. apply andb_true_iff in HE. destruct HE as [E1 E2].
    destruct (HA E2) as [A1 A2]. split.
    + intros HN vs. cbn [forallb] in HN. apply andb_true_iff in HN. destruct HN as [N1 N2].
      specialize (HP N1 (elem_shaped_no_star sp E1 N1)).
      destruct vs as [|v vs].
      * rewrite sall_nil_cons by exact N1.
        split; [intros sr H; discriminate H|intros r r' H; inversion H].
      * destruct (HP v) as [P1 P2]. destruct (A1 N2 vs) as [B1 B2].
        rewrite sall_cons by exact N1. split.
        -- intros sr H r. destruct (smatch sp v) as [r1|]; [|discriminate H].
           destruct (sall sps vs) as [r2|]; [|discriminate H].
           injection H as H. subst sr. rewrite users_app, rev_app_distr, <- app_assoc.
           econstructor; [exact (P1 r1 eq_refl r)|exact (B1 r2 eq_refl _)].
        -- intros r r' H. inversion H as [|r0 p0 ps0 v0 vs0 r1 r2 H1 H2]; subst r0 p0 ps0 v0 vs0 r2.
           destruct (P2 r r1 H1) as [s1 [-> ->]]. destruct (B2 _ _ H2) as [s2 [-> ->]].
           exists (s1 ++ s2). split; [reflexivity|].
           rewrite users_app, rev_app_distr, <- app_assoc. reflexivity.
    + intros HL vs. destruct (no_star sp) eqn:N1.
      * assert (N2 : star_last sps = true).
        { cbn [star_last] in HL. destruct sp; try discriminate N1; cbn in HL; exact HL. }
        specialize (HP N1 (elem_shaped_no_star sp E1 N1)).
        destruct vs as [|v vs].
        -- rewrite sall_nil_cons by exact N1.
           split; [intros sr H; discriminate H|intros r r' H].
           inversion H as [| |r0 ps0 vs1 vs2 r0' HM Ha Hb].
           subst p. inversion HT; subst. discriminate N1.
        -- destruct (HP v) as [P1 P2]. destruct (A2 N2 vs) as [B1 B2].
           rewrite sall_cons by exact N1. split.
           ++ intros sr H r. destruct (smatch sp v) as [r1|]; [|discriminate H].
              destruct (sall sps vs) as [r2|]; [|discriminate H].
              injection H as H. subst sr. rewrite users_app, rev_app_distr, <- app_assoc.
              econstructor; [exact (P1 r1 eq_refl r)|exact (B1 r2 eq_refl _)].
           ++ intros r r' H.
              inversion H as [|r0 p0 ps0 v0 vs0 r1 r2 H1 H2|r0 ps0 vs1 vs2 r0' HM Ha Hb].
              ** subst r0 p0 ps0 v0 vs0 r2.
                 destruct (P2 r r1 H1) as [s1 [-> ->]]. destruct (B2 _ _ H2) as [s2 [-> ->]].
                 exists (s1 ++ s2). split; [reflexivity|].
                 rewrite users_app, rev_app_distr, <- app_assoc. reflexivity.
              ** subst p. inversion HT; subst. discriminate N1.
      * destruct sp; try discriminate N1.
        destruct sps as [|sp2 sps]; [|discriminate HL].
        inversion HTs; subst ps. inversion HT; subst p. split.
        -- intros sr H r. cbn in H. injection H as H. subst sr. cbn.
           rewrite <- (app_nil_r vs). constructor. constructor.
        -- intros r r' H. exists nil. split; [reflexivity|].
           inversion H as [|r0 p0 ps0 v0 vs0 r1 r2 H1 H2|r0 ps0 vs1 vs2 r0' HM Ha Hb].
           ++ destruct (no_rest _ _ _ _ H1).
           ++ subst. inversion HM; subst. reflexivity.
Qed.

(** ** Variables *)

Lemma slook_users : forall r x, slook x r = look x (users r).
Proof.
  induction r as [|[[y|k] v] r IH]; intros x; cbn; [reflexivity| |apply IH].
  destruct (Nat.eqb x y); [reflexivity|apply IH].
Qed.

Lemma look_none : forall {A} (r : list (nat * A)) x, ~ In x (map fst r) -> look x r = None.
Proof.
  induction r as [|[y v] r IH]; intros x H; cbn in *; [reflexivity|].
  destruct (Nat.eqb x y) eqn:E.
  - apply Nat.eqb_eq in E. subst y. exfalso. apply H. left. reflexivity.
  - apply IH. intros H2. apply H. right. exact H2.
Qed.

Lemma look_app : forall {A} (a b : list (nat * A)) x,
  look x (a ++ b) = match look x a with Some v => Some v | None => look x b end.
Proof.
  induction a as [|[y v] a IH]; intros b x; cbn; [reflexivity|].
  destruct (Nat.eqb x y); [reflexivity|apply IH].
Qed.

Lemma look_rev : forall {A} (r : list (nat * A)) x, NoDup (map fst r) -> look x (rev r) = look x r.
Proof.
  induction r as [|[y v] r IH]; intros x H; cbn; [reflexivity|].
  inversion H as [|y' l H1 H2]; subst y' l.
  rewrite look_app, (IH x H2). cbn. destruct (Nat.eqb x y) eqn:E.
  - apply Nat.eqb_eq in E. subst y. rewrite (look_none r x H1). reflexivity.
  - destruct (look x r); reflexivity.
Qed.

Fixpoint user_names (l : list pname) : list nat :=
  match l with
  | nil => nil
  | NUser x :: l' => x :: user_names l'
  | NAnon _ :: l' => user_names l'
  end.

Lemma user_names_app : forall a b, user_names (a ++ b) = user_names a ++ user_names b.
Proof.
  induction a as [|[x|k] a IH]; intros b; cbn; [reflexivity| |apply IH]. rewrite IH. reflexivity.
Qed.

Lemma user_names_in : forall l x, In x (user_names l) -> In (NUser x) l.
Proof.
  induction l as [|[y|k] l IH]; intros x H; cbn in *; [exact H| |].
  - destruct H as [->|H]; [left; reflexivity|right; exact (IH x H)].
  - right. exact (IH x H).
Qed.

Lemma user_names_nodup : forall l, NoDup l -> NoDup (user_names l).
Proof.
  induction l as [|[y|k] l IH]; intros H; cbn; [exact (NoDup_nil _)| |];
    inversion H as [|y' l' H1 H2]; subst y' l'.
  - constructor; [|exact (IH H2)]. intros H3. exact (H1 (user_names_in l y H3)).
  - exact (IH H2).
Qed.

Lemma users_names : forall r, map fst (users r) = user_names (map fst r).
Proof. induction r as [|[[x|k] v] r IH]; cbn; [reflexivity| |exact IH]. rewrite IH. reflexivity. Qed.

Lemma smatch_names : forall p v r, shaped p = true -> smatch p v = Some r -> map fst r = binders p.
Proof.
  induction p as [n| | |n t|f ps IH] using spat_ind'; intros v r HS H.
  - injection H as H. subst. reflexivity.
  - injection H as H. subst. reflexivity.
  - discriminate H.
  - cbn in H. destruct (Nat.eqb (type_of v) t); [|discriminate H]. injection H as H. subst. reflexivity.
  - assert (HL : forall vs r, sall ps vs = Some r -> forallb elem_shaped ps = true ->
        map fst r = flat_map binders ps).
    { clear - IH. induction ps as [|p ps IHps]; intros vs r H HE.
      - destruct vs; [|discriminate H]. injection H as H. subst r. reflexivity.
      - inversion IH as [|x l H1 H2]; subst x l.
        cbn [forallb] in HE. apply andb_true_iff in HE. destruct HE as [E1 E2].
        destruct (no_star p) eqn:N.
        + destruct vs as [|v vs]; [rewrite sall_nil_cons in H by exact N; discriminate H|].
          rewrite sall_cons in H by exact N.
          destruct (smatch p v) as [r1|] eqn:S1; [|discriminate H].
          destruct (sall ps vs) as [r2|] eqn:S2; [|discriminate H].
          injection H as H. subst r. rewrite map_app. cbn [flat_map].
          rewrite (H1 v r1 (elem_shaped_no_star p E1 N) S1).
          rewrite (IHps H2 vs r2 S2 E2). reflexivity.
        + destruct p; try discriminate N. destruct ps as [|p2 ps].
          * destruct vs; injection H as H; subst r; reflexivity.
          * destruct vs; discriminate H. }
    rewrite shaped_ext in HS. apply andb_true_iff in HS. destruct HS as [HE _].
    rewrite smatch_ext in H. cbn [binders].
    destruct f as [[k n| |d]|].
    + destruct v; try discriminate H. destruct (Nat.eqb k k0); [|discriminate H]. exact (HL _ _ H HE).
    + destruct v; try discriminate H. exact (HL _ _ H HE).
    + destruct v; discriminate H.
    + exact (HL _ _ H HE).
Qed.

Lemma tr_names : (forall p sp, Tr p sp -> user_names (binders sp) = named p) /\
  (forall ps sps, Trs ps sps -> user_names (flat_map binders sps) = flat_map named ps).
Proof.
  apply Tr_mut; try reflexivity.
  - intros f ps sps _ H. cbn. exact H.
  - intros p f ps sp sps _ H1 _ H2. cbn. rewrite user_names_app, H1, H2. reflexivity.
  - intros p q sp sq _ H1 _ H2 _. cbn. rewrite app_nil_r, user_names_app, H1, H2. reflexivity.
  - intros p ps sp sps _ H1 _ H2. cbn. rewrite user_names_app, H1, H2. reflexivity.
Qed.

Lemma holds_ext : forall e f g, (forall x, f x = g x) -> holds code e f = holds code e g.
Proof.
  intros e f g H. unfold holds. rewrite (map_ext f g H). reflexivity.
Qed.

Lemma shaped_no_star : forall p, shaped p = true -> no_star p = true.
Proof. intros p H. destruct p; try reflexivity. discriminate H. Qed.

(** ** The meaning of a legal clause. *)
Theorem clause_meaning : forall p fc c,
  errs (emit_clause p fc) = 0 -> toks (emit_clause p fc) = written_clause c -> legal c ->
  forall v,
  (forall sr, applies code c v sr -> exists r, Matches nil p v r /\ forall x, slook x sr = look x r) /\
  (forall r, Matches nil p v r -> exists sr, applies code c v sr /\ forall x, slook x sr = look x r).
Proof.
  intros p fc c HE HT [HS HN] v.
  assert (HC : condition_last p = true) by (apply (emit_clause_iff p fc HE); exists c; exact HT).
  destruct (emit_clause_good p fc HE HC) as [sp [[q [e [-> [Hq Hw]]]]|[Hp [HU Hw]]]].
  - rewrite Hw in HT. apply written_clause_inj in HT. subst c. cbn in HS, HN.
    destruct (proj1 tr_same q sp Hq (shaped_no_star sp HS) HS v) as [S1 S2].
    assert (Heq : forall sr, smatch sp v = Some sr -> forall x, slook x sr = look x (rev (users sr) ++ nil)).
    { intros sr Hsr x. rewrite app_nil_r, slook_users, look_rev; [reflexivity|].
      rewrite users_names, (smatch_names sp v sr HS Hsr). apply user_names_nodup. exact HN. }
    split.
    + intros sr [A1 A2]. cbn in A1, A2. exists (rev (users sr) ++ nil). split.
      * econstructor; [exact (S1 sr A1 nil)|]. constructor.
        rewrite <- A2. apply holds_ext. intros x. symmetry. exact (Heq sr A1 x).
      * exact (Heq sr A1).
    + intros r H. inversion H as [ | |r0 p0 q0 v0 r1 r2 H1 H2| | | | ]; subst r0 p0 q0 v0 r2.
      inversion H2 as [ | | |r0 e0 v0 He| | | ]; subst r0 e0 v0 r1.
      destruct (S2 nil r H1) as [sr [A1 ->]]. exists sr. split.
      * split; [exact A1|]. cbn. rewrite <- He. apply holds_ext. exact (Heq sr A1).
      * exact (Heq sr A1).
  - rewrite Hw in HT. apply written_clause_inj in HT. subst c. cbn in HS, HN.
    destruct (proj1 tr_same p sp Hp (shaped_no_star sp HS) HS v) as [S1 S2].
    assert (Heq : forall sr, smatch sp v = Some sr -> forall x, slook x sr = look x (rev (users sr) ++ nil)).
    { intros sr Hsr x. rewrite app_nil_r, slook_users, look_rev; [reflexivity|].
      rewrite users_names, (smatch_names sp v sr HS Hsr). apply user_names_nodup. exact HN. }
    split.
    + intros sr [A1 _]. cbn in A1. exists (rev (users sr) ++ nil).
      split; [exact (S1 sr A1 nil)|exact (Heq sr A1)].
    + intros r H. destruct (S2 nil r H) as [sr [A1 ->]].
      exists sr. split; [split; [exact A1|exact I]|exact (Heq sr A1)].
Qed.

End Sem.
