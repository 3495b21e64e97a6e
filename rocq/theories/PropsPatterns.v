(** * Patterns and expressions in generated code (C134-C140). *)

Require Import List Arith ZArith Lia Bool.
Import ListNotations.
Require Import Verif.PmModel Verif.PmSpec Verif.PmScala Verif.PmScalaSem Verif.PmCpp
  Verif.PmLegal Verif.PmExpr.

(** ** C134: which patterns give Scala clauses *)

(** Where no error is reported, what is printed after "case" is a Scala
    pattern, perhaps with a guard, exactly if the APS pattern has no condition
    except perhaps one at its very end. *)
Theorem scala_clause_iff_condition_last : forall p fc,
  errs (emit_clause p fc) = 0 ->
  ((exists c, toks (emit_clause p fc) = written_clause c) <-> condition_last p = true).
Proof. exact emit_clause_iff. Qed.

(** The text can be read in one way only. *)
Theorem scala_clause_unique : forall c c', written_clause c = written_clause c' -> c = c'.
Proof. exact written_clause_inj. Qed.

(** The pattern of a literal (parse/aps.y:113-117) *)
Definition literal (g : nat) (f : list nat -> bool) : pat :=
  PAnd (PVar (Some g)) (PCond {| ce_vars := [g]; ce_fun := f |}).

(** The full property fails: a constructor pattern with a literal among its
    actuals, such as "plus(?x,0)", is printed without any error but never
    gives a Scala clause. *)
Theorem scala_literal_inside_refuted : forall k n before g f after fc,
  errs (emit_clause (PCall (Some (FCons k n)) (before ++ literal g f :: after)) fc) = 0 ->
  ~ exists c, toks (emit_clause (PCall (Some (FCons k n)) (before ++ literal g f :: after)) fc)
              = written_clause c.
Proof.
  intros k n before g f after fc HE H. apply (emit_clause_iff _ fc HE) in H.
  cbn [condition_last unconditional] in H. rewrite forallb_app in H.
  cbn in H. rewrite andb_false_r in H. discriminate H.
Qed.

Example literal_inside : forall f fc,
  let p := PCall (Some (FCons 7 2)) [PVar (Some 1); literal 2 f] in
  errs (emit_clause p fc) = 0 /\
  toks (emit_clause p fc) =
    [TFun (FCons 7 2); TLp; TWild; TComma; TVar (NUser 1); TComma;
     TVar (NUser 2); TIf; TExpr {| ce_vars := [2]; ce_fun := f |}; TRp].
Proof. intros f fc. split; reflexivity. Qed.

Example condition_at_the_end : forall e,
  let p := PAnd (PCall (Some (FCons 7 2)) [PVar (Some 1); PVar (Some 2)]) (PCond e) in
  errs (emit_clause p 5) = 0 /\ condition_last p = true /\
  toks (emit_clause p 5) = written_clause
    {| cl_pat := SExt (Some (FCons 7 2)) [SWild; SVar (NUser 1); SVar (NUser 2)];
       cl_guard := Some e |}.
Proof. intros e. repeat split; reflexivity. Qed.

(** ** C135: names in Scala patterns *)

(** If all variables are named, the clause is legal Scala exactly if the names
    are different. *)
Theorem scala_clause_legal_partial : forall p fc,
  errs (emit_clause p fc) = 0 -> condition_last p = true -> arities p ->
  rest_in_seq p = true -> all_named p = true ->
  exists c, toks (emit_clause p fc) = written_clause c /\ (legal c <-> NoDup (named p)).
Proof. exact legal_clause. Qed.

(** If all variables are named, what is printed does not depend on what was
    printed before. *)
Theorem scala_pattern_independent_partial : forall p fc fc', all_named p = true ->
  toks (emit_clause p fc) = toks (emit_clause p fc') /\
  errs (emit_clause p fc) = errs (emit_clause p fc').
Proof. intros p fc fc' H. exact (emit_count p H false fc fc'). Qed.

(** Unnamed variables among the actuals of one call get different names. *)
Lemma flat_args : forall ps fc, (forall p, In p ps -> exists x, p = PVar x) ->
  toks (emit_args emit ps fc) =
  flat_map (fun q => TComma :: written q)
    (map (fun ip => match snd ip with PVar (Some x) => SVar (NUser x) | _ => SVar (NAnon (fst ip)) end)
       (combine (seq fc (length ps)) ps)) /\
  errs (emit_args emit ps fc) = 0.
Proof.
  induction ps as [|p ps IH]; intros fc H; [split; reflexivity|].
  destruct (H p (or_introl eq_refl)) as [x ->].
  destruct (IH (S fc) (fun q Hq => H q (or_intror Hq))) as [T E].
  cbn [emit_args length seq combine map flat_map].
  assert (He : forall next, emit next (PVar x) fc =
    ([TVar (match x with Some x => NUser x | None => NAnon fc end)], 0, fc)).
  { intros next. destruct x; reflexivity. }
  rewrite He. destruct (emit_args emit ps (S fc)) as [[t2 e2] fc2]. cbn [toks errs fst snd] in *.
  rewrite T, E. destruct x; split; reflexivity.
Qed.

Theorem scala_flat_call_legal : forall k ps fc,
  (forall p, In p ps -> exists x, p = PVar x) -> NoDup (flat_map named ps) ->
  exists c, toks (emit_clause (PCall (Some (FCons k (length ps))) ps) fc) = written_clause c /\
    errs (emit_clause (PCall (Some (FCons k (length ps))) ps) fc) = 0 /\ legal c.
Proof.
  intros k ps fc HV HN.
  destruct (flat_args ps 0 HV) as [T E].
  set (sps := map (fun ip => match snd ip with PVar (Some x) => SVar (NUser x) | _ => SVar (NAnon (fst ip)) end)
       (combine (seq 0 (length ps)) ps)) in *.
  exists {| cl_pat := SExt (Some (FCons k (length ps))) (SWild :: sps); cl_guard := None |}.
  assert (Hx : emit_clause (PCall (Some (FCons k (length ps))) ps) fc =
     (TFun (FCons k (length ps)) :: TLp :: TWild :: toks (emit_args emit ps 0) ++ [TRp],
      errs (emit_args emit ps 0), count_after (emit_args emit ps 0))).
  { unfold emit_clause. cbn [emit]. unfold emit_call.
    destruct (emit_args emit ps 0) as [[t e] fc']. reflexivity. }
  rewrite Hx. cbn [toks errs fst snd]. split; [|split; [exact E|]].
  - unfold written_clause. cbn [cl_pat cl_guard written head_tok app].
    rewrite T, app_nil_r. reflexivity.
  - assert (Hl : length sps = length ps).
    { unfold sps. rewrite map_length, combine_length, seq_length, Nat.min_id. reflexivity. }
    assert (Hv : forall q, In q sps -> exists n, q = SVar n).
    { intros q Hq. unfold sps in Hq. apply in_map_iff in Hq. destruct Hq as [[i p] [Hq _]]. cbn in Hq.
      destruct p as [ | | | |[x|]| | ]; subst q; eexists; reflexivity. }
    unfold legal. cbn [cl_pat]. split.
    + rewrite shaped_ext. cbn [forallb]. rewrite Hl, Nat.eqb_refl.
      assert (Hf : forallb elem_shaped sps = true /\ forallb no_star sps = true).
      { split; apply forallb_forall; intros q Hq; destruct (Hv q Hq) as [n ->]; reflexivity. }
      destruct Hf as [-> ->]. reflexivity.
    + cbn [binders flat_map app].
      assert (Hgen : forall ps a, (forall p, In p ps -> exists x, p = PVar x) ->
        NoDup (flat_map named ps) ->
        let l := flat_map binders (map (fun ip => match snd ip with PVar (Some x) => SVar (NUser x) | _ => SVar (NAnon (fst ip)) end)
            (combine (seq a (length ps)) ps)) in
        NoDup l /\ (forall i, In (NAnon i) l -> a <= i) /\
        (forall x, In (NUser x) l -> In x (flat_map named ps))).
      { clear. induction ps as [|p ps IH]; intros a HV HN; cbn.
        - split; [constructor|]. split; intros ? [].
        - destruct (HV p (or_introl eq_refl)) as [x ->].
          destruct (IH (S a) (fun q Hq => HV q (or_intror Hq))) as [A [B C]].
          { cbn in HN. destruct x; [inversion HN; assumption|exact HN]. }
          destruct x as [x|]; cbn.
          + cbn in HN. inversion HN as [|x' l' H1 H2]; subst x' l'.
            split; [constructor; [intros H; apply H1; exact (C x H)|exact A]|].
            split; [intros i [H|H]; [discriminate H|apply B in H; lia]|].
            intros y [H|H]; [injection H as <-; left; reflexivity|right; exact (C y H)].
          + split; [constructor; [intros H; apply B in H; lia|exact A]|].
            split; [intros i [H|H]; [injection H as <-; lia|apply B in H; lia]|].
            intros y [H|H]; [discriminate H|exact (C y H)]. }
      exact (proj1 (Hgen ps 0 HV HN)).
Qed.

(** The full properties fail.  "f(?,g(?))" is printed without errors and with
    the same Scala variable twice, so it is not legal... *)
Theorem scala_unnamed_nested_refuted : forall k k' fc,
  let p := PCall (Some (FCons k 2)) [PVar None; PCall (Some (FCons k' 1)) [PVar None]] in
  errs (emit_clause p fc) = 0 /\ named p = nil /\ arities p /\
  exists c, toks (emit_clause p fc) = written_clause c /\
    binders (cl_pat c) = [NAnon 0; NAnon 0] /\ ~ legal c.
Proof.
  intros k k' fc. cbn. split; [reflexivity|]. split; [reflexivity|].
  split; [repeat split|].
  exists {| cl_pat := SExt (Some (FCons k 2))
     [SWild; SVar (NAnon 0); SExt (Some (FCons k' 1)) [SWild; SVar (NAnon 0)]]; cl_guard := None |}.
  split; [reflexivity|]. split; [reflexivity|].
  intros [_ H]. cbn in H. inversion H as [|x l H1 H2]. apply H1. left. reflexivity.
Qed.

(** ... and whether "?=f(?)" is legal depends on the pattern printed
    before. *)
Theorem scala_pattern_depends_refuted : forall k,
  let p := PAnd (PVar None) (PCall (Some (FCons k 1)) [PVar None]) in
  (exists c, toks (emit_clause p 0) = written_clause c /\ ~ legal c) /\
  (exists c, toks (emit_clause p 1) = written_clause c /\ legal c).
Proof.
  intros k p. split.
  - exists {| cl_pat := SExt (Some (FCons k 1)) [SVar (NAnon 0); SVar (NAnon 0)]; cl_guard := None |}.
    split; [reflexivity|]. intros [_ H]. cbn in H. inversion H as [|x l H1 H2]. apply H1. left. reflexivity.
  - exists {| cl_pat := SExt (Some (FCons k 1)) [SVar (NAnon 1); SVar (NAnon 0)]; cl_guard := None |}.
    split; [reflexivity|]. split; [reflexivity|]. cbn. constructor.
    + intros [H|[]]. discriminate H.
    + constructor; [intros []|constructor].
Qed.

(** ** C136: legal Scala clauses mean what the patterns mean *)
Theorem scala_clause_meaning : forall code p fc c,
  errs (emit_clause p fc) = 0 -> toks (emit_clause p fc) = written_clause c -> legal c ->
  forall v,
  (forall sr, applies code c v sr ->
     exists r, Matches code nil p v r /\ forall x, slook x sr = look x r) /\
  (forall r, Matches code nil p v r ->
     exists sr, applies code c v sr /\ forall x, slook x sr = look x r).
Proof. exact clause_meaning. Qed.

Definition tree2 (a b : val) : val := VNode 3 7 [a; b].
Definition leaf (n : nat) : val := VBase 1 n.

Example scala_meaning_case : forall code,
  let p := PAnd (PVar (Some 9)) (PCall (Some (FCons 7 2))
             [PVar (Some 1); PCall (Some FSeq) [PVar (Some 2); PRest None]]) in
  let v := tree2 (leaf 5) (VSeq 2 [leaf 6; leaf 8]) in
  exists c, errs (emit_clause p 0) = 0 /\ toks (emit_clause p 0) = written_clause c /\ legal c /\
  applies code c v [(NUser 9, v); (NUser 1, leaf 5); (NUser 2, leaf 6)].
Proof.
  intros code p v.
  exists {| cl_pat := SExt (Some (FCons 7 2)) [SVar (NUser 9); SVar (NUser 1);
     SExt (Some FSeq) [SWild; SVar (NUser 2); SStar]]; cl_guard := None |}.
  split; [reflexivity|]. split; [reflexivity|]. split.
  - split; [reflexivity|]. cbn. repeat (constructor; [cbn; intuition discriminate|]). constructor.
  - split; reflexivity.
Qed.

(** ** C137: the C++ conditions *)

(** What is printed is a conjunction.  Wherever the pattern matches, the
    condition is true and the declarations give the variables their values.
    Where "..." comes last in its sequence pattern, the condition is true only
    if the pattern matches, and evaluating it never fails. *)
Theorem cpp_condition_meaning_partial : forall code p t b,
  cpp_match p = (t, b, 0) -> arities p -> NoDup (named p) ->
  exists l, l <> nil /\ t = conjunction l /\ map fst b = named p /\
  forall v, suits p v ->
    (forall r, Matches code nil p v r ->
       cval code v l = Some true /\
       exists r', declared v b = Some r' /\ forall x, look x r' = look x r) /\
    (rest_last p = true -> cval code v l = Some true -> exists r, Matches code nil p v r) /\
    (rest_last p = true -> scoped nil p -> cval code v l <> None).
Proof. exact cpp_meaning. Qed.

Theorem cpp_condition_unique : forall l l', conjunction l = conjunction l' -> l = l'.
Proof. exact conjunction_inj. Qed.

(** The rest of the property fails: "{...,?}" does not match the empty
    sequence, but its condition is true there; and for "{...,?x}" and
    "{?y,...,?x}" also the declarations fail, on sequences that are too
    short. *)
Theorem cpp_rest_then_pattern_refuted : forall code ty a,
  (let p := PCall (Some FSeq) [PRest None; PVar None] in
   exists l, cpp_match p = (conjunction l, nil, 0) /\ suits p (VSeq ty nil) /\
     cval code (VSeq ty nil) l = Some true /\
     forall r, ~ Matches code nil p (VSeq ty nil) r) /\
  (let p := PCall (Some FSeq) [PVar (Some 2); PRest None; PVar (Some 1)] in
   exists l b, cpp_match p = (conjunction l, b, 0) /\ suits p (VSeq ty [a]) /\
     cval code (VSeq ty [a]) l = Some true /\ declared (VSeq ty [a]) b = None /\
     forall r, ~ Matches code nil p (VSeq ty [a]) r).
Proof.
  intros code ty a. split; intros p.
  - exists [ATrue]. split; [reflexivity|]. split; [cbn; tauto|]. split; [reflexivity|].
    intros r H. inversion H as [ | | | | | |r0 ps0 t0 xs0 r0' HM]; subst.
    inversion HM as [| |r0 ps0 vs1 vs2 r0' HM' X1 X2]; subst.
    match goal with X : _ ++ _ = nil |- _ => apply app_eq_nil in X; destruct X as [-> ->] end.
    inversion HM'.
  - exists [ANonEmpty NRoot; ATrue; ATrue], [(2, NFirst NRoot); (1, NLast (NButfirst NRoot))].
    split; [reflexivity|]. split; [cbn; repeat split; tauto|]. split; [reflexivity|].
    split; [reflexivity|].
    intros r H. inversion H as [ | | | | | |r0 ps0 t0 xs0 r0' HM]; subst.
    inversion HM as [|r0 p0 ps0 v0 vs0 r1 r2 M1 M2|]; subst.
    inversion M2 as [| |r0 ps0 vs1 vs2 r0' HM' X1 X2]; subst.
    match goal with X : _ ++ _ = nil |- _ => apply app_eq_nil in X; destruct X as [-> ->] end.
    inversion HM'.
Qed.

Example cpp_meaning_case : forall code,
  let p := PAnd (PVar (Some 9)) (PCall (Some (FCons 7 2))
             [PVar (Some 1); PCall (Some FSeq) [PVar (Some 2); PRest None]]) in
  let v := tree2 (leaf 5) (VSeq 2 [leaf 6; leaf 8]) in
  exists t b, cpp_match p = (t, b, 0) /\ arities p /\ NoDup (named p) /\ suits p v /\
    rest_last p = true /\ scoped nil p /\
    Matches code nil p v [(2, leaf 6); (1, leaf 5); (9, v)].
Proof.
  intros code p v. eexists. eexists. split; [reflexivity|].
  split; [cbn; tauto|].
  split; [cbn; repeat (constructor; [cbn; intuition discriminate|]); constructor|].
  split; [cbn; repeat split; tauto|]. split; [reflexivity|]. split; [cbn; tauto|].
  unfold p, v, tree2. econstructor; [constructor|]. constructor.
  econstructor; [constructor|]. econstructor; [|constructor].
  constructor. econstructor; [constructor|].
  change [leaf 8] with ([leaf 8] ++ nil). constructor. constructor.
Qed.

(** ** C138: the two back ends agree *)
Theorem back_ends_agree : forall code p fc c t b,
  errs (emit_clause p fc) = 0 -> toks (emit_clause p fc) = written_clause c -> legal c ->
  cpp_match p = (t, b, 0) -> arities p -> rest_in_seq p = true ->
  exists l, t = conjunction l /\
  forall v, suits p v ->
    ((exists sr, applies code c v sr) <-> cval code v l = Some true) /\
    (forall sr, applies code c v sr ->
       exists r, declared v b = Some r /\ forall x, look x r = slook x sr).
Proof.
  intros code p fc c t b HE HT HL HC HA HR.
  assert (HN : NoDup (named p)).
  { assert (Hc : condition_last p = true) by (apply (emit_clause_iff p fc HE); exists c; exact HT).
    destruct HL as [_ HN].
    destruct (emit_clause_good p fc HE Hc) as [sp [[q [e [Hp [Hq Hw]]]]|[Hp [HU Hw]]]].
    - rewrite Hw in HT. apply written_clause_inj in HT. subst c p. cbn in HN |- *.
      rewrite app_nil_r, <- (proj1 tr_names q sp Hq). apply user_names_nodup. exact HN.
    - rewrite Hw in HT. apply written_clause_inj in HT. subst c. cbn in HN.
      rewrite <- (proj1 tr_names p sp Hp). apply user_names_nodup. exact HN. }
  pose proof (errs_rest_last p false fc HR HE) as Hrl.
  destruct (cpp_meaning code p t b HC HA HN) as [l [_ [Ht [_ Hm]]]].
  exists l. split; [exact Ht|]. intros v Hs.
  destruct (Hm v Hs) as [C1 [C2 _]].
  destruct (clause_meaning code p fc c HE HT HL v) as [S1 S2]. split.
  - split.
    + intros [sr Ha]. destruct (S1 sr Ha) as [r [M _]]. exact (proj1 (C1 r M)).
    + intros Hc. destruct (C2 Hrl Hc) as [r M]. destruct (S2 r M) as [sr [Ha _]]. exists sr. exact Ha.
  - intros sr Ha. destruct (S1 sr Ha) as [r [M Heq]].
    destruct (C1 r M) as [_ [r' [D L]]]. exists r'. split; [exact D|].
    intros x. rewrite L, Heq. reflexivity.
Qed.

Example back_ends_agree_case :
  let p := PAnd (PVar (Some 9)) (PCall (Some (FCons 7 2))
             [PVar (Some 1); PCall (Some FSeq) [PVar (Some 2); PRest None]]) in
  exists c t b, errs (emit_clause p 0) = 0 /\ toks (emit_clause p 0) = written_clause c /\ legal c /\
    cpp_match p = (t, b, 0) /\ arities p /\ rest_in_seq p = true.
Proof.
  intros p.
  exists {| cl_pat := SExt (Some (FCons 7 2)) [SVar (NUser 9); SVar (NUser 1);
     SExt (Some FSeq) [SWild; SVar (NUser 2); SStar]]; cl_guard := None |}.
  eexists. eexists. split; [reflexivity|]. split; [reflexivity|]. split.
  - split; [reflexivity|]. cbn. repeat (constructor; [cbn; intuition discriminate|]). constructor.
  - split; [reflexivity|]. split; [cbn; tauto|reflexivity].
Qed.

(** ** C139: pattern declarations in Scala *)

(** A clause of "x match { ... }": "case" and a case clause. *)
Definition scala_case (ks : list ktok) : Prop :=
  exists c, ks = KCase :: map KTok (written_clause c).

(** Pattern declarations, as the parser makes them (no body, or choices),
    never work: without choices there is no clause, so that the pattern
    matches nothing, and every choice is printed as something that is not a
    clause of Scala. *)
Theorem scala_pattern_decl_refuted :
  (forall fc, fst (fst (pattern_decl_clauses BNone fc)) = nil) /\
  (forall cs fc,
    length (fst (fst (pattern_decl_clauses (BChoices cs) fc))) = length cs /\
    forall ks, In ks (fst (fst (pattern_decl_clauses (BChoices cs) fc))) -> ~ scala_case ks).
Proof.
  split; [reflexivity|]. cbn [pattern_decl_clauses].
  induction cs as [|p cs IH]; intros fc; [split; [reflexivity|intros ks []]|].
  cbn [choice_clauses].
  destruct (emit match cs with nil => false | _ => true end p fc) as [[t1 e1] fc1].
  destruct (IH fc1) as [IH1 IH2]. destruct (choice_clauses cs fc1) as [[ks0 e2] fc2]. cbn [fst] in *.
  split; [cbn; rewrite IH1; reflexivity|].
  intros ks [<-|H]; [intros [c Hc]; discriminate Hc|exact (IH2 ks H)].
Qed.

(** The form that is not reachable from the parser would work. *)
Theorem scala_pattern_decl_single : forall p fc,
  errs (emit_clause p fc) = 0 -> condition_last p = true ->
  exists ks, pattern_decl_clauses (BOne p) fc = ([ks], 0, count_after (emit_clause p fc)) /\ scala_case ks.
Proof.
  intros p fc HE HC. pose proof (proj2 (emit_clause_iff p fc HE) HC) as [c Hc].
  unfold emit_clause in *. cbn [pattern_decl_clauses]. destruct (emit false p fc) as [[t e] fc1].
  cbn [toks errs count_after fst snd] in *. subst e.
  eexists. split; [reflexivity|]. exists c. rewrite Hc. reflexivity.
Qed.

Example one_choice : forall k fc,
  errs (emit_clause (PCall (Some (FCons k 1)) [PVar (Some 1)]) fc) = 0 /\
  pattern_decl_clauses (BChoices [PCall (Some (FCons k 1)) [PVar (Some 1)]]) fc =
  ([[KAt; KCase; KTok (TFun (FCons k 1)); KTok TLp; KTok TWild; KTok TComma;
     KTok (TVar (NUser 1)); KTok TRp]], 0, 1).
Proof. intros k fc. split; reflexivity. Qed.

(** ** C140: values of expressions *)

(** Where no error is reported and no function with a sequence formal is
    called, the generated expression has the value of the source expression;
    in particular displays of collections have their elements in order, and
    "e..." contributes the elements of [e]. *)
Theorem expression_value_partial : forall use call e,
  no_variadic e = true -> snd (dump_exp e) = 0 ->
  forall v, means use call e = Some v -> run use call (fst (dump_exp e)) = Some v.
Proof. intros use call e. exact (proj1 (proj1 (dump_right use call) e)). Qed.

(** The full property fails in Scala: a call of a function with a sequence
    formal passes a zero that is not there in the source. *)
Theorem variadic_call_refuted : forall use,
  exists call e v w, snd (dump_exp e) = 0 /\ means use call e = Some v /\
    run use call (fst (dump_exp e)) = Some w /\ v <> w.
Proof.
  intros use. exists (fun _ vs => VInt (Z.of_nat (length vs))).
  exists (ECall 0 1 (AApp (AOne (ELit 3)) (AOne (ELit 4)))). eexists. eexists.
  split; [reflexivity|]. split; [reflexivity|]. split; [reflexivity|]. discriminate.
Qed.

(** What a call passes, exactly. *)
Theorem call_passes : forall use call f s a xs vs,
  dump_actuals a = (xs, 0) -> run_all use call xs = Some vs ->
  snd (dump_exp (ECall f s a)) = 0 /\
  run use call (fst (dump_exp (ECall f s a))) = Some (call f (vs ++ repeat (VInt 0) s)).
Proof.
  intros use call f s a xs vs H1 H2. rewrite (call_args f s a xs H1). split; [reflexivity|].
  cbn [fst]. rewrite run_call, run_all_app, H2, run_zeros. reflexivity.
Qed.

Example display_case : forall call,
  let use := fun d => VColl [VInt 1; VInt (Z.of_nat d)] in
  let e := EDisplay (AApp (AApp (AOne (ELit 5)) (AOne (ERepeat (EUse 2) true))) (AOne (ELit 6))) in
  no_variadic e = true /\ snd (dump_exp e) = 0 /\
  means use call e = Some (VColl [VInt 5; VInt 1; VInt 2; VInt 6]).
Proof. intros call. repeat split; reflexivity. Qed.

Print Assumptions scala_clause_iff_condition_last.
Print Assumptions scala_clause_unique.
Print Assumptions scala_literal_inside_refuted.
Print Assumptions scala_clause_legal_partial.
Print Assumptions scala_pattern_independent_partial.
Print Assumptions scala_flat_call_legal.
Print Assumptions scala_unnamed_nested_refuted.
Print Assumptions scala_pattern_depends_refuted.
Print Assumptions scala_clause_meaning.
Print Assumptions cpp_condition_meaning_partial.
Print Assumptions cpp_condition_unique.
Print Assumptions cpp_rest_then_pattern_refuted.
Print Assumptions back_ends_agree.
Print Assumptions scala_pattern_decl_refuted.
Print Assumptions scala_pattern_decl_single.
Print Assumptions expression_value_partial.
Print Assumptions variadic_call_refuted.
Print Assumptions call_passes.
