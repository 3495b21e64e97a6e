(** * Proofs for utilities/stack.c *)
From Verif Require Import Base StackModel StackSpec.

(** [chain h s l a]: starting at [s] the heap holds the linked list [l] at the
    addresses [a]. *)
Fixpoint chain (h : heap) (s : nat) (l : list Z) (a : list nat) : Prop :=
  match l, a with
  | [], [] => s = 0
  | v :: l, p :: a => s = p /\ exists c, load h p = Ok c /\ value c = v /\ chain h (next c) l a
  | _, _ => False
  end.

Lemma load_app h c p x : load h p = Ok x -> load (h ++ [c]) p = Ok x.
Proof.
  destruct p as [|i]; simpl; [discriminate|].
  destruct (nth_error h i) eqn:E; [|discriminate].
  rewrite nth_error_app1, E; auto. apply nth_error_Some. congruence.
Qed.

Lemma chain_app h c l : forall s a, chain h s l a -> chain (h ++ [c]) s l a.
Proof.
  induction l as [|v l IH]; intros s [|p a]; simpl; auto.
  intros [-> (x & H1 & H2 & H3)]. split; auto. exists x. split; auto using load_app.
Qed.

Lemma load_upd h p q : p <> q -> load (upd h (p - 1) None) q = load h q \/ p = 0.
Proof.
  intros Hn. destruct p as [|i]; auto. left. destruct q as [|j]; auto. simpl.
  rewrite nth_error_upd_neq; auto. lia.
Qed.

Lemma chain_upd h p l : p <> 0 -> forall s a, ~ In p a -> chain h s l a -> chain (upd h (p - 1) None) s l a.
Proof.
  intros Hp. induction l as [|v l IH]; intros s [|q a]; simpl; auto.
  intros Hi [-> (x & H1 & H2 & H3)]. split; auto. exists x. split; auto.
  - destruct (load_upd h p q); try congruence. intuition.
  - split; auto.
Qed.

(** Live addresses of a heap. *)
Definition live (h : heap) (p : nat) : Prop := exists c, load h p = Ok c.

(** The invariant: every stack variable is a chain, chains are disjoint and
    duplicate free, and every live cell belongs to some chain. *)
Record inv (h : heap) (m : vars) (sm : nat -> list Z) (ad : nat -> list nat) : Prop := {
  inv_chain : forall i, chain h (m i) (sm i) (ad i);
  inv_nodup : forall i, NoDup (ad i);
  inv_disj : forall i j p, In p (ad i) -> In p (ad j) -> i = j;
  inv_live : forall p, live h p -> exists i, In p (ad i) }.

Lemma chain_live h l : forall s a p, chain h s l a -> In p a -> live h p.
Proof.
  induction l as [|v l IH]; intros s [|q a] p; simpl; try tauto.
  intros [-> (x & H1 & H2 & H3)] [->|Hi]; [exists x; auto | eauto].
Qed.

Lemma live_le h p : live h p -> 1 <= p <= length h.
Proof.
  intros [c H]. destruct p as [|i]; simpl in H; [discriminate|].
  destruct (nth_error h i) eqn:E; [|discriminate].
  assert (i < length h) by (apply nth_error_Some; congruence). lia.
Qed.

Lemma setvar_eq {A} (m : nat -> A) i s : setvar m i s i = s.
Proof. unfold setvar. now rewrite Nat.eqb_refl. Qed.
Lemma setvar_neq {A} (m : nat -> A) i j s : j <> i -> setvar m i s j = m j.
Proof. unfold setvar. intros H. apply Nat.eqb_neq in H. now rewrite H. Qed.

Lemma push_inv h m sm ad i v : inv h m sm ad ->
  let '(h', s) := stack_push h (m i) v in
  exists ad', inv h' (setvar m i s) (setvar sm i (v :: sm i)) ad'.
Proof.
  intros [Hc Hn Hd Hl]. simpl. set (c := {| value := v; next := m i |}).
  exists (setvar ad i (S (length h) :: ad i)).
  assert (Hfresh : forall j, ~ In (S (length h)) (ad j)).
  { intros j Hj. pose proof (live_le _ _ (chain_live _ _ _ _ _ (Hc j) Hj)). lia. }
  constructor.
  - intros j. destruct (Nat.eq_dec j i) as [->|Hj].
    + rewrite !setvar_eq. simpl. split; auto. exists c. split.
      * rewrite nth_error_app2, Nat.sub_diag by lia. reflexivity.
      * split; auto. apply chain_app. apply Hc.
    + rewrite !setvar_neq by auto. apply chain_app, Hc.
  - intros j. destruct (Nat.eq_dec j i) as [->|Hj];
      [rewrite setvar_eq; constructor; auto | rewrite setvar_neq by auto; auto].
  - intros j k p. destruct (Nat.eq_dec j i) as [->|Hj], (Nat.eq_dec k i) as [->|Hk]; auto;
      rewrite ?setvar_eq, ?setvar_neq by auto; intros H1 H2.
    + destruct H1 as [<-|H1]; [exfalso; eapply Hfresh; eauto | eauto].
    + destruct H2 as [<-|H2]; [exfalso; eapply Hfresh; eauto | eauto].
    + eauto.
  - intros p [x Hx]. destruct (Nat.eq_dec p (S (length h))) as [->|Hp].
    + exists i. rewrite setvar_eq. left; auto.
    + destruct p as [|q]; simpl in Hx; [discriminate|].
      assert (Hq : q < length h).
      { assert (q < length (h ++ [Some c])).
        { apply nth_error_Some. destruct (nth_error (h ++ [Some c]) q); congruence. }
        rewrite app_length in H. simpl in H. lia. }
      rewrite nth_error_app1 in Hx by auto.
      destruct (Hl (S q)) as [j Hj]; [exists x; auto|].
      exists j. destruct (Nat.eq_dec j i) as [->|Hji]; [rewrite setvar_eq; right; auto | rewrite setvar_neq; auto].
Qed.

Lemma pop_inv h m sm ad i : inv h m sm ad ->
  match sm i with
  | [] => stack_pop h (m i) = Ok (h, m i, None) /\ m i = 0
  | v :: l => m i <> 0 /\ exists h' s' ad', stack_pop h (m i) = Ok (h', s', Some v) /\
              length h' = length h /\ (exists p, ad i = p :: ad' i) /\
              inv h' (setvar m i s') (setvar sm i l) ad'
  end.
Proof.
  intros [Hc Hn Hd Hl]. pose proof (Hc i) as Hci. destruct (sm i) as [|v l] eqn:Es.
  - destruct (ad i); simpl in Hci; [|contradiction]. rewrite Hci. auto.
  - destruct (ad i) as [|p a] eqn:Ea; simpl in Hci; [contradiction|].
    destruct Hci as [Hp (c & H1 & H2 & H3)].
    destruct p as [|q]; [discriminate|].
    assert (Hq : nth_error h q = Some (Some c)).
    { simpl in H1. destruct (nth_error h q) as [[?|]|]; inversion H1; auto. }
    rewrite Hp. split; [lia|].
    exists (upd h q None), (next c), (setvar ad i a).
    split; [unfold stack_pop; rewrite H1; cbn [bind free]; rewrite Hq; cbn [bind]; congruence|].
    split; [apply upd_length|]. split; [exists (S q); now rewrite setvar_eq|].
    assert (Hni : forall j, j <> i -> ~ In (S q) (ad j)).
    { intros j Hj Hin. apply Hj. apply (Hd j i (S q)); auto. rewrite Ea. left; auto. }
    pose proof (Hn i) as Hndi. rewrite Ea in Hndi. inversion Hndi as [|? ? Hq1 Hq2]; subst.
    replace q with (S q - 1) at 1 by lia.
    constructor.
    + intros j. destruct (Nat.eq_dec j i) as [->|Hj]; rewrite ?setvar_eq, ?setvar_neq by auto;
        apply chain_upd; auto; lia.
    + intros j. destruct (Nat.eq_dec j i) as [->|Hj]; rewrite ?setvar_eq, ?setvar_neq by auto; auto.
    + intros j k r. destruct (Nat.eq_dec j i) as [->|Hj], (Nat.eq_dec k i) as [->|Hk]; auto;
        rewrite ?setvar_eq, ?setvar_neq by auto; intros G1 G2.
      * apply (Hd i k r); auto. rewrite Ea. right; auto.
      * apply (Hd j i r); auto. rewrite Ea. right; auto.
      * eauto.
    + intros r [x Hx]. destruct (Nat.eq_dec (S q) r) as [<-|Hr].
      { simpl in Hx. rewrite Nat.sub_0_r, nth_error_upd_eq in Hx; [discriminate|].
        apply nth_error_Some. congruence. }
      destruct (load_upd h (S q) r Hr) as [G|G]; [|discriminate]. rewrite G in Hx.
      destruct (Hl r) as [j Hj]; [exists x; auto|]. exists j.
      destruct (Nat.eq_dec j i) as [->|Hji]; rewrite ?setvar_eq, ?setvar_neq by auto; auto.
      rewrite Ea in Hj. destruct Hj; [congruence|auto].
Qed.

Lemma inv_ext h m m' sm sm' ad : (forall i, m i = m' i) -> (forall i, sm i = sm' i) ->
  inv h m sm ad -> inv h m' sm' ad.
Proof. intros H1 H2 [A B C D]. constructor; auto. intros i. rewrite <- H1, <- H2. auto. Qed.

Lemma setvar_twice {A} (m : nat -> A) i s s' j : setvar (setvar m i s) i s' j = setvar m i s' j.
Proof. unfold setvar. destruct (Nat.eqb j i); auto. Qed.

Lemma destroy_inv l : forall fuel h m sm ad i, inv h m sm ad -> sm i = l -> length l < fuel ->
  exists h' ad', destroy_loop fuel h (m i) = Ok (h', 0) /\ length h' = length h /\
                 inv h' (setvar m i 0) (setvar sm i []) ad' .
Proof.
  induction l as [|v l IH]; intros fuel h m sm ad i Hinv Hs Hf;
    (destruct fuel as [|fuel]; [simpl in Hf; lia|]);
    pose proof (pop_inv h m sm ad i Hinv) as Hp; rewrite Hs in Hp; cbn [destroy_loop].
  - destruct Hp as [E0 E1]. rewrite E0; cbn [bind]. rewrite E1. exists h, ad. split; auto. split; auto.
    eapply inv_ext; [| |exact Hinv]; intros j; unfold setvar;
      destruct (Nat.eqb_spec j i); subst; auto.
  - destruct Hp as [Hn (h' & s' & ad' & E & HL & _ & Hinv')]. rewrite E; cbn [bind].
    assert (Es : setvar m i s' i = s') by apply setvar_eq.
    destruct (IH fuel h' (setvar m i s') (setvar sm i l) ad' i Hinv' (setvar_eq _ _ _))
      as (h2 & ad2 & E2 & HL2 & Hinv2); [simpl in Hf; lia|].
    rewrite Es in E2. exists h2, ad2. split; auto. split; [lia|].
    eapply inv_ext; [| |exact Hinv2]; intros j; apply setvar_twice.
Qed.

Lemma chain_len h l : forall s a, chain h s l a -> length l = length a.
Proof.
  induction l as [|v l IH]; intros s [|q a]; simpl; try tauto.
  intros [-> (x & H1 & H2 & H3)]. f_equal. eauto.
Qed.

Lemma chain_bound h m sm ad i : inv h m sm ad -> length (sm i) <= length h.
Proof.
  intros [Hc Hn Hd Hl]. rewrite (chain_len _ _ _ _ (Hc i)).
  assert (Hin : incl (ad i) (seq 1 (length h))).
  { intros p Hp. apply in_seq. pose proof (live_le _ _ (chain_live _ _ _ _ _ (Hc i) Hp)). lia. }
  pose proof (NoDup_incl_length (Hn i) Hin) as H. rewrite seq_length in H. auto.
Qed.

Lemma step_inv h m sm ad o : inv h m sm ad ->
  exists h' m' ad' x, step h m o = Ok (h', m', x) /\
    x = snd (sstep sm o) /\ inv h' m' (fst (sstep sm o)) ad'.
Proof.
  intros Hinv. destruct o as [i v|i|i|i]; simpl.
  - pose proof (push_inv h m sm ad i v Hinv) as H. simpl in H. destruct H as [ad' H].
    eexists _, _, ad', _. split; [reflexivity|]. auto.
  - pose proof (pop_inv h m sm ad i Hinv) as H. destruct (sm i) as [|v l].
    + destruct H as [E0 E1]. rewrite E0; cbn [bind]. eexists _, _, ad, _. split; [reflexivity|].
      split; auto. eapply inv_ext; [| |exact Hinv]; auto. intros j. unfold setvar.
      destruct (Nat.eqb_spec j i); subst; auto.
    + destruct H as [_ (h' & s' & ad' & E & _ & _ & H)]. rewrite E; cbn [bind].
      eexists _, _, ad', _. split; [reflexivity|]. auto.
  - eexists _, _, ad, _. split; [reflexivity|]. split; auto. f_equal.
    pose proof (pop_inv h m sm ad i Hinv) as H. unfold stack_is_empty. destruct (sm i) as [|v l].
    + destruct H as [_ ->]. reflexivity.
    + destruct H as [H _]. apply Nat.eqb_neq. auto.
  - destruct (destroy_inv (sm i) (S (length h)) h m sm ad i Hinv eq_refl) as (h' & ad' & E & _ & H).
    { pose proof (chain_bound h m sm ad i Hinv). lia. }
    unfold stack_destroy. rewrite E; cbn [bind]. eexists _, _, ad', _. split; [reflexivity|]. auto.
Qed.

Lemma run_inv ops : forall h m sm ad, inv h m sm ad ->
  exists h' m' ad', run h m ops = Ok (h', m', snd (srun sm ops)) /\ inv h' m' (fst (srun sm ops)) ad'.
Proof.
  induction ops as [|o ops IH]; intros h m sm ad Hinv; simpl.
  - eauto.
  - destruct (step_inv h m sm ad o Hinv) as (h1 & m1 & ad1 & x & E & Hx & H1). rewrite E; cbn [bind].
    destruct (IH h1 m1 _ ad1 H1) as (h2 & m2 & ad2 & E2 & H2). rewrite E2; cbn [bind].
    destruct (sstep sm o) as [sm1 x1]. simpl in *. subst x1.
    destruct (srun sm1 ops) as [sm2 xs]. simpl in *. exists h2, m2, ad2. auto.
Qed.

Lemma inv_init : inv [] (fun _ => stack_create) (fun _ => []) (fun _ => []).
Proof.
  constructor; simpl; auto; try contradiction.
  - intros i. constructor.
  - intros p [c H]. destruct p as [|[|p]]; discriminate.
Qed.

(** Number of live cells. *)
Definition live_count (h : heap) : nat :=
  length (filter (fun x => match x with Some _ => true | None => false end) h).

Lemma no_live_count h : (forall p, ~ live h p) -> live_count h = 0.
Proof.
  intros H. unfold live_count.
  destruct (filter _ h) as [|x l] eqn:E; auto. exfalso.
  assert (Hin : In x (x :: l)) by (left; auto). rewrite <- E in Hin.
  apply filter_In in Hin. destruct Hin as [Hin Hx]. destruct x as [c|]; [|discriminate].
  apply In_nth_error in Hin. destruct Hin as [n Hn].
  apply (H (S n)). exists c. simpl. now rewrite Hn.
Qed.

Theorem stack_history ops :
  exists h m, run [] (fun _ => stack_create) ops = Ok (h, m, snd (srun (fun _ => []) ops)) /\
    ((forall i, fst (srun (fun _ => []) ops) i = []) -> live_count h = 0).
Proof.
  destruct (run_inv ops _ _ _ _ inv_init) as (h & m & ad & E & [Hc Hn Hd Hl]).
  exists h, m. split; auto. intros Hall. apply no_live_count. intros p Hp.
  destruct (Hl p Hp) as [i Hi]. specialize (Hc i). rewrite Hall in Hc.
  destruct (ad i); simpl in *; contradiction.
Qed.
