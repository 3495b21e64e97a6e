(** * StDispatch: the procedure called is the one of the constructor. *)
From Verif Require Import Base OagModel StModel.
Open Scope nat_scope.

Lemma proc_instance h cons d j : instance_index h cons d = Some j -> proc_of h cons j = Some d.
Proof.
  revert j. induction cons as [|c cs IH]; intros j; cbn [instance_index proc_of]; [discriminate|].
  destruct (Nat.eqb_spec c d) as [Q|Q].
  - subst c. destruct (h d); [|discriminate]. intros E. injection E as <-. reflexivity.
  - destruct (instance_index h cs d) as [k|]; [|discriminate]. cbn [option_map]. intros E. injection E as <-. destruct (h c); apply (IH k eq_refl).
Qed.
Lemma instance_some h cons d : In d cons -> h d = true -> exists j, instance_index h cons d = Some j.
Proof.
  induction cons as [|c cs IH]; cbn [instance_index In]; [tauto|]. intros Hin Hd. destruct (Nat.eqb_spec c d) as [Q|Q].
  - subst c. rewrite Hd. eauto.
  - destruct Hin as [Hin|Hin]; [contradiction|]. destruct (IH Hin Hd) as (j & ->). cbn [option_map]. eauto.
Qed.
Lemma instance_none h cons d : h d = false -> instance_index h cons d = None.
Proof. intros Hd. induction cons as [|c cs IH]; cbn [instance_index]; [reflexivity|]. destruct (Nat.eqb_spec c d) as [Q|Q]; [subst c; now rewrite Hd|]. now rewrite IH. Qed.
(** In Scala the procedure of the constructor is called; without a rule there is an exception. *)
Theorem dispatch_scala h cons d : In d cons -> dispatch true h cons d = if h d then Some d else None.
Proof.
  intros Hin. unfold dispatch. destruct (h d) eqn:Hd; [|now rewrite instance_none].
  destruct (instance_some h cons d Hin Hd) as (j & Ej). rewrite Ej. now apply proc_instance.
Qed.
Lemma get_index_app l d r : ~ In d l -> get_index (l ++ d :: r) d = Some (length l).
Proof.
  induction l as [|c l IH]; cbn [app get_index length]; intros Nd; [now rewrite Nat.eqb_refl|].
  destruct (Nat.eqb_spec c d) as [Q|Q]; [now destruct Nd; left|]. rewrite IH; [reflexivity|]. intros H. apply Nd. now right.
Qed.
(** In C++ too, if all constructors before it, and itself, have rules. *)
Theorem dispatch_cpp h l d r : (forall c, In c l -> h c = true) -> h d = true -> ~ In d l -> dispatch false h (l ++ d :: r) d = Some d.
Proof.
  intros Hl Hd Nd. unfold dispatch.
  rewrite (get_index_app l d r Nd). clear Nd. induction l as [|c l IH]; cbn [app proc_of length]; [now rewrite Hd|].
  rewrite (Hl c (or_introl eq_refl)). apply IH. intros c' Hc. apply Hl. now right.
Qed.
(** Otherwise it is the procedure of another constructor, or there is an exception: the
    constructors after one without a rule are never evaluated by their own rules. *)
Lemma proc_none_in h l : forall j, (exists c, In c l /\ h c = false) -> (length l <= S j) -> proc_of h l j = None.
Proof.
  induction l as [|c l IH]; intros j (c0 & Hin & Hc); cbn [proc_of length]; [destruct Hin|]. intros Hl.
  destruct Hin as [->|Hin].
  - rewrite Hc. clear IH Hc. revert j Hl. induction l as [|x l IHl]; intros j Hl; cbn [proc_of]; [reflexivity|]. cbn [length] in Hl. destruct (h x); [destruct j as [|j]; [lia|]|]; apply IHl; lia.
  - destruct (h c).
    + destruct j as [|j].
      * destruct l; [destruct Hin|cbn [length] in Hl; lia].
      * apply IH; [eauto|lia].
    + apply IH; [eauto|lia].
Qed.
Lemma proc_app h l r : forall j, proc_of h (l ++ r) j = match proc_of h l j with Some c => Some c | None => proc_of h r (j - length (filter h l)) end.
Proof.
  induction l as [|c l IH]; intros j; cbn [app proc_of filter length]; [now rewrite Nat.sub_0_r|].
  destruct (h c); [|apply IH]. destruct j as [|j]; [reflexivity|]. cbn [length]. apply IH.
Qed.
Lemma proc_in h l : forall j c, proc_of h l j = Some c -> In c l.
Proof. induction l as [|x l IH]; intros j c; cbn [proc_of]; [discriminate|]. destruct (h x); [destruct j; [intros E; injection E as ->; now left|]|]; intros E; right; apply (IH _ _ E). Qed.
Theorem dispatch_cpp_wrong h l d r : NoDup (l ++ d :: r) -> (exists c, In c l /\ h c = false) -> dispatch false h (l ++ d :: r) d <> Some d.
Proof.
  intros Nd Ex. assert (Nl : ~ In d l). { intros H. apply NoDup_remove_2 in Nd. apply Nd. apply in_app_iff. now left. }
  unfold dispatch. rewrite (get_index_app l d r Nl). rewrite proc_app. rewrite (proc_none_in h l (length l) Ex) by lia.
  assert (Hlt : length (filter h l) < length l).
  { destruct Ex as (c & Hin & Hc). clear - Hin Hc. induction l as [|x l IH]; cbn [filter length]; [destruct Hin|]. destruct Hin as [->|Hin].
    - rewrite Hc. assert (length (filter h l) <= length l) by (clear; induction l as [|x l IH]; cbn [filter length]; [lia|destruct (h x); cbn [length]; lia]). lia.
    - specialize (IH Hin). destruct (h x); cbn [length]; lia. }
  cbn [proc_of]. intros E.
  assert (Nr : ~ In d r). { intros H. apply NoDup_remove_2 in Nd. apply Nd. apply in_app_iff. now right. }
  destruct (h d); [destruct (length l - length (filter h l)) eqn:Es; [lia|]|]; apply proc_in in E; contradiction.
Qed.
