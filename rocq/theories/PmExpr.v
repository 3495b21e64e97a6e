(** * Expressions in the generated Scala code.

    Models [dump_Expression], [dump_collect_Actuals] and
    [funcall_is_collection_construction] of aps2scala/dump-scala.cc; the
    functions of the same names in apscpp/dump-cpp.cc:2030-2160 are copies
    that print "->" for "." *)

Require Import List Arith ZArith Lia Bool.
Import ListNotations.

(** Abstract syntax of expressions (parse/aps-tree, phyla Expression and
    Actuals).  [ECall f s as]: a call of [f], whose type has [s] sequence
    formals (0 or 1 in practice); [EDisplay]: a call of the function named
    "{}" (dump-scala.cc:2232-2256); [ERepeat e same]: "e...", where [same]
    tells whether the type of [e] equals the type of the display around it
    (2270).  [EOther]: expressions the back end does not handle.
    Simplification: constants are integers, functions are names. *)
Inductive aexp :=
| ELit (z : Z)
| EUse (d : nat)
| ETyped (e : aexp)
| ECall (f : nat) (s : nat) (a : actuals)
| EDisplay (a : actuals)
| ERepeat (e : aexp) (same : bool)
| EOther
with actuals :=
| ANil
| AOne (e : aexp)
| AApp (a b : actuals).

Scheme aexp_ind2 := Induction for aexp Sort Prop
  with actuals_ind2 := Induction for actuals Sort Prop.
Combined Scheme aexp_mut from aexp_ind2, actuals_ind2.

(** What is printed, as Scala expressions: names, calls, and calls of
    v_none, v_single and v_append of the type of a display.  Everything is
    printed with its own parentheses, so the structure of the text is that of
    the expression printed.  [XErr]: nothing printed (an error was
    reported). *)
Inductive sexp :=
| XLit (z : Z)
| XUse (d : nat)
| XCall (f : nat) (args : list sexp)
| XNone
| XSingle (e : sexp)
| XAppend (a b : sexp)
| XErr.

(** [dump_Expression] (dump-scala.cc:2293-2347), [dump_collect_Actuals]
    (2258-2291) and the loop over actuals (2314-2317): what is printed and
    the number of errors. *)
Fixpoint dump_exp (e : aexp) : sexp * nat :=
  match e with
  | ELit z => (XLit z, 0)
  | EUse d => (XUse d, 0)
  | ETyped e => dump_exp e
  | EDisplay a => dump_collect a
  | ECall f s a =>
      let '(xs, n) := dump_actuals a in
      (XCall f (xs ++ repeat (XLit 0) s), n)      (* 2318-2323: "0" for each sequence formal *)
  | ERepeat _ _ => (XErr, 1)
  | EOther => (XErr, 1)
  end
with dump_collect (a : actuals) : sexp * nat :=
  match a with
  | ANil => (XNone, 0)
  | AOne (ERepeat e true) => dump_exp e           (* 2268-2273 *)
  | AOne e => let '(x, n) := dump_exp e in (XSingle x, n)
  | AApp a b =>
      let '(x, n) := dump_collect a in
      let '(y, m) := dump_collect b in
      (XAppend x y, n + m)
  end
with dump_actuals (a : actuals) : list sexp * nat :=
  match a with
  | ANil => (nil, 0)
  | AOne e => let '(x, n) := dump_exp e in ([x], n)
  | AApp a b =>
      let '(xs, n) := dump_actuals a in
      let '(ys, m) := dump_actuals b in
      (xs ++ ys, n + m)
  end.

(** ** Specification: values of expressions. *)

Inductive value := VInt (z : Z) | VColl (l : list value) | VFun (n : nat).

Section Values.
Variable use : nat -> value.                     (* values of names *)
Variable call : nat -> list value -> value.      (* results of functions *)

(** The value of an APS expression: the display of a collection consists of
    the values of its actuals, in order, where "e..." contributes the elements
    of the collection [e].  [None]: not meaningful. *)
Fixpoint means (e : aexp) : option value :=
  match e with
  | ELit z => Some (VInt z)
  | EUse d => Some (use d)
  | ETyped e => means e
  | ECall f _ a =>
      match plain a with Some vs => Some (call f vs) | None => None end
  | EDisplay a =>
      match spliced a with Some vs => Some (VColl vs) | None => None end
  | ERepeat _ _ => None
  | EOther => None
  end
with plain (a : actuals) : option (list value) :=
  match a with
  | ANil => Some nil
  | AOne e => match means e with Some v => Some [v] | None => None end
  | AApp a b =>
      match plain a, plain b with Some x, Some y => Some (x ++ y) | _, _ => None end
  end
with spliced (a : actuals) : option (list value) :=
  match a with
  | ANil => Some nil
  | AOne (ERepeat e _) =>
      match means e with Some (VColl l) => Some l | _ => None end
  | AOne e => match means e with Some v => Some [v] | None => None end
  | AApp a b =>
      match spliced a, spliced b with Some x, Some y => Some (x ++ y) | _, _ => None end
  end.

(** The value of the generated expression. *)
Fixpoint run (x : sexp) : option value :=
  match x with
  | XLit z => Some (VInt z)
  | XUse d => Some (use d)
  | XCall f args =>
      let fix all (l : list sexp) : option (list value) :=
        match l with
        | nil => Some nil
        | x :: l' =>
            match run x, all l' with Some v, Some vs => Some (v :: vs) | _, _ => None end
        end in
      match all args with Some vs => Some (call f vs) | None => None end
  | XNone => Some (VColl nil)
  | XSingle e => match run e with Some v => Some (VColl [v]) | None => None end
  | XAppend a b =>
      match run a, run b with
      | Some (VColl x), Some (VColl y) => Some (VColl (x ++ y))
      | _, _ => None
      end
  | XErr => None
  end.

End Values.

(** No function with a sequence formal is called (displays are not calls of
    that kind). *)
Fixpoint no_variadic (e : aexp) : bool :=
  match e with
  | ELit _ | EUse _ | EOther => true
  | ETyped e => no_variadic e
  | ECall _ s a => Nat.eqb s 0 && no_variadic_all a
  | EDisplay a => no_variadic_all a
  | ERepeat e _ => no_variadic e
  end
with no_variadic_all (a : actuals) : bool :=
  match a with
  | ANil => true
  | AOne e => no_variadic e
  | AApp a b => no_variadic_all a && no_variadic_all b
  end.

(** ** Proofs *)

Section Proofs.
Variable use : nat -> value.
Variable call : nat -> list value -> value.

Fixpoint run_all (l : list sexp) : option (list value) :=
  match l with
  | nil => Some nil
  | x :: l' =>
      match run use call x, run_all l' with Some v, Some vs => Some (v :: vs) | _, _ => None end
  end.

Lemma run_call : forall f args, run use call (XCall f args) =
  match run_all args with Some vs => Some (call f vs) | None => None end.
Proof. reflexivity. Qed.

Lemma run_all_app : forall a b, run_all (a ++ b) =
  match run_all a, run_all b with Some x, Some y => Some (x ++ y) | _, _ => None end.
Proof.
  induction a as [|x a IH]; intros b; cbn.
  - destruct (run_all b); reflexivity.
  - rewrite IH. destruct (run use call x); [|reflexivity].
    destruct (run_all a); [|reflexivity]. destruct (run_all b); reflexivity.
Qed.

(** All zeros *)
Lemma run_zeros : forall s, run_all (repeat (XLit 0) s) = Some (repeat (VInt 0) s).
Proof. induction s as [|s IH]; cbn; [reflexivity|]. rewrite IH. reflexivity. Qed.

Lemma means_call : forall f s a, means use call (ECall f s a) =
  match plain use call a with Some vs => Some (call f vs) | None => None end.
Proof. reflexivity. Qed.
Lemma means_display : forall a, means use call (EDisplay a) =
  match spliced use call a with Some vs => Some (VColl vs) | None => None end.
Proof. reflexivity. Qed.
Lemma plain_one : forall e, plain use call (AOne e) =
  match means use call e with Some v => Some [v] | None => None end.
Proof. reflexivity. Qed.
Lemma plain_app : forall a b, plain use call (AApp a b) =
  match plain use call a, plain use call b with Some x, Some y => Some (x ++ y) | _, _ => None end.
Proof. reflexivity. Qed.
Lemma spliced_app : forall a b, spliced use call (AApp a b) =
  match spliced use call a, spliced use call b with Some x, Some y => Some (x ++ y) | _, _ => None end.
Proof. reflexivity. Qed.
Lemma spliced_repeat : forall e b, spliced use call (AOne (ERepeat e b)) =
  match means use call e with Some (VColl l) => Some l | _ => None end.
Proof. reflexivity. Qed.

(** Strengthened for the operand of "e...". *)
Definition right_exp (e : aexp) : Prop :=
  no_variadic e = true -> snd (dump_exp e) = 0 ->
     forall v, means use call e = Some v -> run use call (fst (dump_exp e)) = Some v.

Lemma dump_right :
  (forall e, right_exp e /\ match e with ERepeat e' _ => right_exp e' | _ => True end) /\
  (forall a, no_variadic_all a = true ->
     (snd (dump_collect a) = 0 -> forall vs, spliced use call a = Some vs ->
        run use call (fst (dump_collect a)) = Some (VColl vs)) /\
     (snd (dump_actuals a) = 0 -> forall vs, plain use call a = Some vs ->
        run_all (fst (dump_actuals a)) = Some vs)).
Proof.
  apply aexp_mut.
  - intros z. split; [|exact I]. intros _ _ v H. exact H.
  - intros d. split; [|exact I]. intros _ _ v H. exact H.
  - intros e [IH _]. split; [|exact I]. intros HN HE v H. exact (IH HN HE v H).
  - intros f s a IH. split; [|exact I]. intros HN HE v H.
    cbn [no_variadic] in HN. apply andb_true_iff in HN. destruct HN as [Hs HN].
    apply Nat.eqb_eq in Hs. subst s. destruct (IH HN) as [_ IH2].
    rewrite means_call in H. cbn [dump_exp] in *. destruct (dump_actuals a) as [xs n]. cbn [fst snd] in *.
    destruct (plain use call a) as [vs|]; [|discriminate H]. injection H as <-.
    rewrite run_call. cbn [repeat]. rewrite app_nil_r, (IH2 HE vs eq_refl). reflexivity.
  - intros a IH. split; [|exact I]. intros HN HE v H. destruct (IH HN) as [IH1 _].
    rewrite means_display in H. cbn [dump_exp] in *.
    destruct (spliced use call a) as [vs|]; [|discriminate H]. injection H as <-.
    exact (IH1 HE vs eq_refl).
  - intros e [IH _] same. split; [|exact IH]. intros _ _ v H. discriminate H.
  - split; [|exact I]. intros _ _ v H. discriminate H.
  - intros _. split; intros _ vs H; injection H as <-; reflexivity.
  - intros e [IH IHr] HN. cbn [no_variadic_all] in HN. split.
    + assert (Hgen : dump_collect (AOne e) = (let '(x, n) := dump_exp e in (XSingle x, n)) ->
         spliced use call (AOne e) = (match means use call e with Some v => Some [v] | None => None end) ->
         snd (dump_collect (AOne e)) = 0 -> forall vs, spliced use call (AOne e) = Some vs ->
         run use call (fst (dump_collect (AOne e))) = Some (VColl vs)).
      { intros E1 E2 HE vs H. rewrite E1 in *. rewrite E2 in H.
        specialize (IH HN). destruct (dump_exp e) as [x n]. cbn [fst snd run] in *.
        destruct (means use call e) as [v|]; [|discriminate H]. injection H as <-.
        rewrite (IH HE v eq_refl). reflexivity. }
      destruct e as [z|d|e|f s a|a|e same| ]; try (apply Hgen; reflexivity).
      destruct same.
      * intros HE vs H. rewrite spliced_repeat in H. cbn [dump_collect] in *.
        destruct (means use call e) as [[z|l|n]|] eqn:Em; try discriminate H. injection H as <-.
        exact (IHr HN HE (VColl l) Em).
      * intros HE vs H. cbn [dump_collect dump_exp fst snd] in HE. discriminate HE.
    + intros HE vs H. rewrite plain_one in H. cbn [dump_actuals] in *. specialize (IH HN).
      destruct (dump_exp e) as [x n]. cbn [fst snd run_all] in *.
      destruct (means use call e) as [v|]; [|discriminate H]. injection H as <-.
      rewrite (IH HE v eq_refl). reflexivity.
  - intros a IHa b IHb HN. cbn [no_variadic_all] in HN. apply andb_true_iff in HN.
    destruct HN as [N1 N2]. destruct (IHa N1) as [A1 A2]. destruct (IHb N2) as [B1 B2]. split.
    + intros HE vs H. rewrite spliced_app in H. cbn [dump_collect] in *.
      destruct (dump_collect a) as [x n]. destruct (dump_collect b) as [y m]. cbn [fst snd run] in *.
      destruct (spliced use call a) as [va|]; [|discriminate H].
      destruct (spliced use call b) as [vb|]; [|discriminate H]. injection H as <-.
      rewrite (A1 ltac:(lia) va eq_refl), (B1 ltac:(lia) vb eq_refl). reflexivity.
    + intros HE vs H. rewrite plain_app in H. cbn [dump_actuals] in *.
      destruct (dump_actuals a) as [x n]. destruct (dump_actuals b) as [y m]. cbn [fst snd] in *.
      destruct (plain use call a) as [va|]; [|discriminate H].
      destruct (plain use call b) as [vb|]; [|discriminate H]. injection H as <-.
      rewrite run_all_app, (A2 ltac:(lia) va eq_refl), (B2 ltac:(lia) vb eq_refl). reflexivity.
Qed.

End Proofs.

(** What is passed by a call. *)
Lemma call_args : forall f s a xs, dump_actuals a = (xs, 0) ->
  dump_exp (ECall f s a) = (XCall f (xs ++ repeat (XLit 0) s), 0).
Proof. intros f s a xs H. cbn [dump_exp]. rewrite H. reflexivity. Qed.
