(** * FiberProofs: epsilon closure, one step, and the construction of the DFA. *)
From Verif Require Import Base FiberModel FiberSpec.

Lemma node_in_set_spec l i : node_in_set l i = true <-> In i l.
Proof. unfold node_in_set. rewrite existsb_exists. split; [intros (x & H & E); apply Nat.eqb_eq in E; now subst|intros H; exists i; split; auto; apply Nat.eqb_refl]. Qed.
Lemma node_in_set_false l i : node_in_set l i = false <-> ~ In i l.
Proof. rewrite <- node_in_set_spec. destruct (node_in_set l i); split; intros; try congruence; try (exfalso; now auto). Qed.
Lemma add_fresh l x : ~ In x l -> add_to_nodeset l x = x :: l.
Proof. intros H. unfold add_to_nodeset. destruct l as [|y l]; auto. destruct (Nat.eqb_spec y x) as [Heq|]; auto. subst. exfalso. apply H. now left. Qed.

Definition inside (g : list (list fedge)) (l : list nat) : Prop := forall q, In q l -> q < length g.
Definition inb (g : list (list fedge)) : Prop := forall q l r, fsa_edge g q l r -> q < length g /\ r < length g.

Section WithGraph.
Variable g : list (list fedge).
Hypothesis Hg : inb g.

Lemma rd_graph r : r < length g -> exists es, rd g r = Ok es /\ nth_error g r = Some es.
Proof. intros H. unfold rd. destruct (nth_error g r) eqn:E; [eauto|]. apply nth_error_None in E. lia. Qed.

(** ** epsilon closure *)
Inductive eps : nat -> nat -> Prop := eps_refl q : eps q q | eps_step q r s : fsa_edge g q None r -> eps r s -> eps q s.
(** the preds of one node: the added ones are those not in head *)
Lemma fold_eps es node : nth_error g node = Some es -> forall done rest added head, es = done ++ rest ->
  NoDup (added ++ []) -> (forall x, In x added -> In x head) ->
  exists added' head', fold_left (fun st e => match label e with None => if node_in_set (snd st) (efrom e) then st else (efrom e :: fst st, add_to_nodeset (snd st) (efrom e)) | Some _ => st end) rest (added, head) = (added', head') /\
    (forall x, In x added -> In x added') /\ (forall x, In x head -> In x head') /\ (forall x, In x added' -> In x head') /\
    (forall x, In x head' -> In x head \/ (In x added' /\ exists e, In e rest /\ label e = None /\ efrom e = x)) /\
    (forall e, In e rest -> label e = None -> In (efrom e) head') /\ (forall x, In x added' -> In x added \/ ~ In x head) /\
    (NoDup head -> NoDup head') /\ (added' = added -> head' = head).
Proof.
  intros En. intros done rest. revert done. induction rest as [|e rest IH]; intros done added head E N Sub; cbn [fold_left].
  - exists added, head. ands; auto. intros e [].
  - destruct (label e) as [l|] eqn:El.
    + destruct (IH (done ++ [e]) added head) as (a' & h' & F & A1 & A2 & A3 & A4 & A5 & A6 & A7 & A8); [now rewrite <- app_assoc|auto|auto|]. exists a', h'. ands; auto.
      * intros x Hx. destruct (A4 x Hx) as [?|[? (e0 & ? & ? & ?)]]; auto. right. split; auto. exists e0. cbn. auto.
      * intros e0 [ -> |H0] L0; [congruence|auto].
    + cbn [snd fst]. destruct (node_in_set head (efrom e)) eqn:Em.
      * destruct (IH (done ++ [e]) added head) as (a' & h' & F & A1 & A2 & A3 & A4 & A5 & A6 & A7 & A8); [now rewrite <- app_assoc|auto|auto|]. exists a', h'. ands; auto.
        -- intros x Hx. destruct (A4 x Hx) as [?|[? (e0 & ? & ? & ?)]]; auto. right. split; auto. exists e0. cbn. auto.
        -- intros e0 [ <- |H0] L0; auto. apply A2. now apply node_in_set_spec.
      * apply node_in_set_false in Em. rewrite (add_fresh _ _ Em).
        destruct (IH (done ++ [e]) (efrom e :: added) (efrom e :: head)) as (a' & h' & F & A1 & A2 & A3 & A4 & A5 & A6 & A7 & A8); [now rewrite <- app_assoc| |intros x [ -> |Hx]; cbn; auto|].
        { rewrite app_nil_r in *. constructor; auto. }
        exists a', h'. ands; auto.
        -- intros x Hx. apply A1. now right.
        -- intros x Hx. apply A2. now right.
        -- intros x Hx. destruct (A4 x Hx) as [[ <- |?]|[? (e0 & ? & ? & ?)]]; auto.
           ++ right. split; [apply A1; now left|]. exists e. cbn. auto.
           ++ right. split; auto. exists e0. cbn. auto.
        -- intros e0 [ <- |H0] L0; auto. apply A2. now left.
        -- intros x Hx. destruct (A6 x Hx) as [[ <- |?]|Hn]; auto. right. intros X. apply Hn. now right.
        -- intros Nh. apply A7. now constructor.
        -- intros X. exfalso. assert (In (efrom e) a') by (apply A1; now left). subst a'. auto.
Qed.
Lemma seg_ok seg head : inside g seg -> inside g head -> exists added head', foldM (beclose_node g) seg ([], head) = Ok (added, head') /\
  (forall x, In x head -> In x head') /\ (forall x, In x added -> In x head' /\ ~ In x head) /\ inside g head' /\
  (forall x, In x head' -> In x head \/ (In x added /\ exists r, In r seg /\ fsa_edge g x None r)) /\
  (forall r x, In r seg -> fsa_edge g x None r -> In x head') /\ (NoDup head -> NoDup head') /\ (added = [] -> head' = head).
Proof.
  intros Hs Hh. set (J := fun (done : list nat) (st : list nat * list nat) => let '(added, head') := st in
    NoDup added /\ (forall x, In x head -> In x head') /\ (forall x, In x added -> In x head' /\ ~ In x head) /\ inside g head' /\
    (forall x, In x head' -> In x head \/ (In x added /\ exists r, In r done /\ fsa_edge g x None r)) /\
    (forall r x, In r done -> fsa_edge g x None r -> In x head') /\ (NoDup head -> NoDup head') /\ (added = [] -> head' = head)).
  destruct (foldM_inv (beclose_node g) seg J ([], head)) as ([added head'] & E & J1 & J2 & J3 & J4 & J5 & J6 & J7 & J8).
  - cbn. ands; auto; try constructor; intros; contradiction.
  - intros done node rest [added h] El (J1 & J2 & J3 & J4 & J5 & J6 & J7 & J8).
    destruct (rd_graph node) as (es & Er & En). { apply Hs. rewrite El. apply in_app_iff. right. now left. }
    unfold beclose_node. rewrite Er. cbn [bind].
    destruct (fold_eps es node En [] es added h eq_refl) as (a' & h' & F & A1 & A2 & A3 & A4 & A5 & A6 & A7 & A8); [now rewrite app_nil_r|intros x Hx; apply (J3 x Hx)|].
    assert (Na : NoDup a').
    { (* a' extends added by fresh distinct ones *)
      clear - F J1 J3. revert F. generalize es. intros l. assert (Sub : forall x, In x added -> In x h) by (intros; now apply J3). clear J3. revert added h J1 Sub. induction l as [|e l IH]; cbn [fold_left]; intros added h J1 Sub F; [injection F as <- <-; auto|].
      destruct (label e); [eapply IH; eauto|]. cbn [fst snd] in F. destruct (node_in_set h (efrom e)) eqn:Em; [eapply IH; eauto|]. apply node_in_set_false in Em. rewrite (add_fresh _ _ Em) in F. eapply IH; [| |exact F]; [constructor; auto|intros x [ -> |Hx]; cbn; auto]. }
    exists (a', h'). split; [now f_equal|]. unfold J. ands; auto.
    + intros x Hx. split; auto. destruct (A6 x Hx) as [Ha|Hn]; [apply (J3 x Ha)|]. intros X. apply Hn. auto.
    + intros x Hx. destruct (A4 x Hx) as [H|[_ (e & He & Le & <-)]]; auto. destruct e as [l q]. cbn in *. subst. apply (Hg q None node). exists es; auto.
    + intros x Hx. destruct (A4 x Hx) as [H|[Ha (e & He & Le & <-)]].
      * destruct (J5 x H) as [?|[Ha (r & Hr & Hf)]]; auto. right. split; auto. exists r. split; auto. apply in_app_iff; auto.
      * destruct (in_dec Nat.eq_dec (efrom e) head) as [Hh2|Hh2]; auto. right. split; auto. exists node. split; [apply in_app_iff; cbn; auto|]. destruct e as [l q]. cbn in *. subst. exists es; auto.
    + intros r x Hr Hf. apply in_app_iff in Hr. destruct Hr as [Hr|[ <- |[]]]; [apply A2; eauto|]. destruct Hf as (es' & En' & Hin). assert (es' = es) by congruence. subst. apply (A5 _ Hin eq_refl).
    + intros Ea. subst a'. assert (added = []) by (destruct added as [|a added]; auto; exfalso; apply (A1 a); now left). subst. rewrite A8, J8; auto.
  - exists added, head'. ands; auto.
Qed.
Definition missing (head : list nat) : nat := length (filter (fun x => negb (node_in_set head x)) (seq 0 (length g))).
Lemma filter_le {A} (p q : A -> bool) l : (forall x, p x = true -> q x = true) -> length (filter p l) <= length (filter q l).
Proof. intros H. induction l as [|x l IH]; cbn; auto. destruct (p x) eqn:P; [rewrite (H x P); cbn; lia|]. destruct (q x); cbn; lia. Qed.
Lemma filter_lt {A} (p q : A -> bool) l y : (forall x, p x = true -> q x = true) -> In y l -> p y = false -> q y = true -> length (filter p l) < length (filter q l).
Proof.
  intros H Hy Py Qy. induction l as [|x l IH]; [destruct Hy|]. cbn. destruct Hy as [ -> |Hy].
  - rewrite Py, Qy. cbn. pose proof (filter_le p q l H). lia.
  - specialize (IH Hy). destruct (p x) eqn:P; [rewrite (H x P); cbn; lia|]. destruct (q x); cbn; lia.
Qed.
Lemma beclose_loop_ok (N : list nat) : forall fuel seg head, missing head < fuel -> inside g head -> (forall x, In x seg -> In x head) -> (forall x, In x N -> In x head) ->
  (forall x, In x head -> exists r, In r N /\ eps x r) -> (forall r x, In r head -> ~ In r seg -> fsa_edge g x None r -> In x head) ->
  exists R, beclose_loop fuel g seg head = Ok R /\ (forall q, In q R <-> exists r, In r N /\ eps q r) /\ (NoDup head -> NoDup R).
Proof.
  induction fuel as [|fuel IH]; intros seg head Hm Hh Hs HN Hr Hc; [lia|]. cbn [beclose_loop].
  destruct (seg_ok seg head) as (added & head' & E & A1 & A2 & A3 & A4 & A5 & A6 & A7); auto. { intros x Hx. apply Hh, Hs, Hx. }
  rewrite E. cbn [bind]. assert (Hr' : forall x, In x head' -> exists r, In r N /\ eps x r).
  { intros x Hx. destruct (A4 x Hx) as [H|[_ (r & Hrs & He)]]; auto. destruct (Hr r (Hs r Hrs)) as (s & Hs1 & Hs2). exists s. split; auto. econstructor; eauto. }
  destruct added as [|a added].
  - specialize (A7 eq_refl). subst head'. exists head. split; [reflexivity|]. split; auto. intros q. split; auto. intros (r & HrN & He). induction He as [q|q r s Hq He IHe]; [auto|]. specialize (IHe HrN). destruct (in_dec Nat.eq_dec r seg) as [Hi|Hi]; [eapply A5; eauto|eapply Hc; eauto].
  - destruct (IH (a :: added) head') as (R & ER & SR & NR).
    + assert (missing head' < missing head); [|lia]. unfold missing. destruct (A2 a (or_introl eq_refl)) as [X1 X2]. apply (filter_lt _ _ _ a).
      * intros x Hx. apply negb_true_iff in Hx. apply negb_true_iff. apply node_in_set_false in Hx. apply node_in_set_false. auto.
      * apply in_seq. specialize (A3 a X1). lia.
      * apply negb_false_iff. now apply node_in_set_spec.
      * apply negb_true_iff. now apply node_in_set_false.
    + auto.
    + intros x Hx. apply (A2 x Hx).
    + auto.
    + auto.
    + intros r x Hrh Hn He. destruct (A4 r Hrh) as [H|[Ha _]]; [|contradiction]. destruct (in_dec Nat.eq_dec r seg) as [Hi|Hi]; [eapply A5; eauto|apply A1; eapply Hc; eauto].
    + exists R. split; [exact ER|]. split; auto.
Qed.
Lemma beclose_ok N : inside g N -> exists R, (forall fuel, length g < fuel -> beclose fuel g N = Ok R) /\ (forall q, In q R <-> exists r, In r N /\ eps q r) /\ (NoDup N -> NoDup R) /\ inside g R.
Proof.
  intros H. assert (M : missing N <= length g). { unfold missing. etransitivity; [apply (filter_le _ (fun _ => true)); auto|]. rewrite <- (seq_length (length g) 0) at 2. induction (seq 0 (length g)); cbn; lia. }
  assert (G : forall fuel, length g < fuel -> exists R, beclose fuel g N = Ok R /\ (forall q, In q R <-> exists r, In r N /\ eps q r) /\ (NoDup N -> NoDup R)).
  { intros fuel Hf. unfold beclose. apply beclose_loop_ok; auto; try lia. intros x Hx. exists x. split; auto. constructor. intros r x Hr Hn. contradiction. }
  assert (Mono : forall f1 f2 seg head R, f1 <= f2 -> beclose_loop f1 g seg head = Ok R -> beclose_loop f2 g seg head = Ok R).
  { induction f1 as [|f1 IH]; intros f2 seg head R Hf E; [discriminate|]. destruct f2 as [|f2]; [lia|]. cbn [beclose_loop] in *. destruct (foldM (beclose_node g) seg ([], head)) as [[a h]| | |]; try discriminate. cbn [bind] in *. destruct a; auto. eapply IH; eauto. lia. }
  destruct (G (S (length g)) ltac:(lia)) as (R & E & S1 & S2). exists R. ands; auto.
  - intros fuel Hf. apply (Mono (S (length g))); auto.
  - intros q Hq. apply S1 in Hq. destruct Hq as (r & Hr & He). inversion He as [|? r' ? Hq He']; subst; auto. apply (Hg _ _ _ Hq).
Qed.

(** ** One step *)
Lemma step_set_ok N f : inside g N -> exists R, step_set g N f = Ok R /\ (forall q, In q R <-> exists r, In r N /\ fsa_edge g q (Some f) r) /\ NoDup R /\ inside g R.
Proof.
  intros H. set (J := fun (done : list nat) (R : list nat) => (forall q, In q R <-> exists r, In r done /\ fsa_edge g q (Some f) r) /\ NoDup R).
  unfold step_set. match goal with |- exists R, foldM ?F ?l ?b = _ /\ _ => destruct (foldM_inv F l J b) as (R & E & J1 & J2) end.
  - split; [|constructor]. intros q. split; [intros []|intros (r & [] & _)].
  - intros done p rest R El (J1 & J2). destruct (rd_graph p) as (es & Er & En). { apply H. rewrite El. apply in_app_iff. right. now left. } rewrite Er. cbn [bind].
    assert (G : forall l R, NoDup R -> exists R', fold_left (fun result e => match label e with Some l => if (l =? f) && negb (node_in_set result (efrom e)) then add_to_nodeset result (efrom e) else result | None => result end) l R = R' /\ NoDup R' /\
      forall q, In q R' <-> In q R \/ In (mkFedge (Some f) q) l).
    { clear. induction l as [|e l IH]; cbn [fold_left]; intros R N; [exists R; ands; auto; intros q; cbn; tauto|]. destruct e as [[x|] from]; cbn [label efrom].
      - destruct (Nat.eqb_spec x f) as [Heq|Hne]; cbn [andb].
        + subst x. destruct (node_in_set R from) eqn:Em; cbn [negb].
          * destruct (IH R N) as (R' & E & N' & S). exists R'. ands; auto. intros q. rewrite S. cbn [In]. apply node_in_set_spec in Em. split; [tauto|]. intros [?|[X|?]]; auto. injection X as <-. auto.
          * apply node_in_set_false in Em. rewrite (add_fresh _ _ Em). destruct (IH (from :: R)) as (R' & E & N' & S); [now constructor|]. exists R'. ands; auto. intros q. rewrite S. cbn [In]. split; [intros [[ <- |?]|?]; auto|intros [?|[X|?]]; auto]. injection X as <-. auto.
        + destruct (IH R N) as (R' & E & N' & S). exists R'. ands; auto. intros q. rewrite S. cbn [In]. split; [tauto|]. intros [?|[X|?]]; auto. injection X as X _. contradiction.
      - destruct (IH R N) as (R' & E & N' & S). exists R'. ands; auto. intros q. rewrite S. cbn [In]. split; [tauto|]. intros [?|[X|?]]; auto. discriminate. }
    destruct (G es R J2) as (R' & E & N' & S). exists R'. split; [now rewrite <- E|]. split; auto. intros q. rewrite S, J1. split.
    + intros [(r & Hr & He)|Hin]; [exists r; split; auto; apply in_app_iff; auto|]. exists p. split; [apply in_app_iff; cbn; auto|]. exists es; auto.
    + intros (r & Hr & He). apply in_app_iff in Hr. destruct Hr as [Hr|[ <- |[]]]; [left; eauto|]. right. destruct He as (es' & En' & Hin). congruence.
  - exists R. ands; auto. intros q Hq. apply J1 in Hq. destruct Hq as (r & _ & He). apply (Hg _ _ _ He).
Qed.

(** ** Sets of nodes and fibers *)
Variable om : list nat.
Hypothesis Hom : inside g om.
Definition means (l : list nat) (w : list nat) : Prop := forall q, In q l <-> has_fiber g om w q.
Lemma eps_fiber w q r : eps q r -> has_fiber g om w r -> has_fiber g om w q.
Proof. induction 1 as [q|q r s Hq He IH]; auto. intros H. destruct (IH H) as (q' & Hq' & Hr). exists q'. split; auto. eapply reads_eps; eauto. Qed.
Lemma fiber_nil q : has_fiber g om [] q <-> exists r, In r om /\ eps q r.
Proof.
  split.
  - intros (q' & H & R). remember [] as w. induction R; subst; try discriminate; [exists q; split; auto; constructor|]. destruct IHR as (s & Hs & He); auto. exists s. split; auto. econstructor; eauto.
  - intros (r & Hr & He). apply (eps_fiber _ _ _ He). exists r. split; auto. constructor.
Qed.
Lemma fiber_cons l w q : has_fiber g om (l :: w) q <-> exists p, eps q p /\ exists r, fsa_edge g p (Some l) r /\ has_fiber g om w r.
Proof.
  split.
  - intros (q' & H & R). remember (l :: w) as v. induction R; subst; try discriminate.
    + destruct IHR as (p & Hp & X); auto. exists p. split; auto. econstructor; eauto.
    + injection Heqv as -> ->. exists q. split; [constructor|]. exists r. split; auto. exists q'; auto.
  - intros (p & He & r & Hf & q' & H & R). apply (eps_fiber _ _ _ He). exists q'. split; auto. eapply reads_field; eauto.
Qed.
Lemma means_nil R : (forall q, In q R <-> exists r, In r om /\ eps q r) -> means R [].
Proof. intros H q. rewrite H. symmetry. apply fiber_nil. Qed.
Lemma means_cons N w f P R : means N w -> (forall q, In q P <-> exists r, In r N /\ fsa_edge g q (Some f) r) -> (forall q, In q R <-> exists r, In r P /\ eps q r) -> means R (f :: w).
Proof.
  intros HN HP HR q. rewrite HR, fiber_cons. split.
  - intros (p & Hp & He). apply HP in Hp. destruct Hp as (r & Hr & Hf). exists p. split; auto. exists r. split; auto. now apply HN.
  - intros (p & He & r & Hf & Hr). exists p. split; auto. apply HP. exists r. split; auto. now apply HN.
Qed.
Lemma means_nil_step N w f : means N w -> (forall q, ~ exists r, In r N /\ fsa_edge g q (Some f) r) -> forall q, ~ has_fiber g om (f :: w) q.
Proof. intros HN H q X. apply fiber_cons in X. destruct X as (p & _ & r & Hf & Hr). apply (H p). exists r. split; auto. now apply HN. Qed.
End WithGraph.
