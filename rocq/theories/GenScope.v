(** * GenScope: the value a match looks at; what is assigned. *)
From Verif Require Import Base CondModel OagModel PropsCond ChunkModel SchedSpec GenModel GenSpec GenProofs GenTrace.
Open Scope nat_scope.
Ltac chop E := lazymatch type of E with bind ?x _ = _ => let E2 := fresh E in destruct x as [?a| | |] eqn:E2; cbn [bind] in E; try discriminate E end.

Section Scope.
Variables (G : gen) (r : rule) (phase : nat) (skip : bool).
Hypotheses (HD : describes G r) (HF : no_for_in G).
Notation hdr := (header_of G).
Definition quiet (l : list stmt) : Prop := forall s, In s l -> match s with SNote | SSet _ _ | SCall _ _ | SRoots _ => True | SLoop _ [SRoots _] => True | _ => False end.
Lemma scoped_quiet now a b : quiet a -> scoped hdr now b -> scoped hdr now (a ++ b).
Proof.
  induction a as [|s a IH]; intros Hq Hb; [exact Hb|]. assert (Hs := Hq s (or_introl eq_refl)). assert (Ha : scoped hdr now (a ++ b)) by (apply IH; auto; intros x Hx; apply Hq; now right). destruct s; cbn [app scoped] in *; try contradiction; try (split; [exact I|exact Ha]). split; [|exact Ha]. destruct body as [|[] []]; try contradiction. cbn. auto.
Qed.
Lemma quiet_app a b : quiet a -> quiet b -> quiet (a ++ b).
Proof. intros H1 H2 s H. apply in_app_iff in H. destruct H; [now apply H1|now apply H2]. Qed.
Lemma quiet_notes : quiet (notes G).
Proof. unfold notes. destruct (g_comments G); intros s H; [destruct H as [<-|[]]; exact I|destruct H]. Qed.
Lemma quiet_assign i p ch s : forall ss, assigns_stmts G i p ch s = Ok ss -> quiet ss.
Proof.
  assert (One : forall e ss, assign_stmts G i p ch e = Ok ss -> quiet ss).
  { intros e ss H. unfold assign_stmts in H. destruct (Z.eqb e 0); [injection H as <-; intros x []|].
    destruct (pl_node p), (pl_fiber p), (g_lhs G e), (pl_local_attr p), (pl_prefix p =? 0), (Z.ltb ch (g_nch G)), (pl_lhs p), (pl_shared p), (pl_updown p); cbn in H; try discriminate; injection H as <-; try apply quiet_notes; intros x [<-|[]]; exact I. }
  induction s as [|e s IH]; intros ss H; [injection H as <-; intros x []|]. cbn [assigns_stmts] in H. chop H. chop H. injection H as <-. apply quiet_app; eauto.
Qed.
Definition fits_in (now : option nat) (b : list stmt * list stmt) : Prop := scoped hdr now (fst b) /\ scoped hdr now (snd b).
Lemma fits_andthen now open ss b : quiet ss -> fits_in now b -> fits_in now (andthen open ss b).
Proof. intros Hq [H1 H2]. unfold andthen. destruct open; split; cbn [fst snd]; auto; now apply scoped_quiet. Qed.
Lemma scoped_fix now l : (fix all (now : option nat) (l : list stmt) {struct l} : Prop := match l with [] => True | SLet h :: l => all (Some h) l | s :: l => scoped1 hdr now s /\ all now l end) now l <-> scoped hdr now l.
Proof. revert now. induction l as [|s l IH]; intros now; [tauto|]. destruct s; cbn [scoped]; rewrite <- IH; tauto. Qed.
Lemma scoped_if now i a b : scoped hdr now a -> scoped hdr now b -> scoped1 hdr now (SIf i a b).
Proof. intros H1 H2. cbn [scoped1]. split; now apply scoped_fix. Qed.
Lemma scoped_match h i a b : hdr i = Some h -> scoped hdr (Some h) a -> scoped hdr (Some h) b -> scoped1 hdr (Some h) (SMatch i a b).
Proof. intros E H1 H2. cbn [scoped1]. split; [discriminate|]. split; [auto|]. split; now apply scoped_fix. Qed.
Lemma scoped_loop now id a : scoped hdr now a -> scoped1 hdr now (SLoop id a).
Proof. intros H. cbn [scoped1]. now apply scoped_fix. Qed.
Theorem plan_scope c0 p t : good r c0 p t -> forall now asg chunk allowed loop c b, (g_mod G = true -> loop = None) -> length asg = length (g_insts G) -> in_turn G now t -> plan G phase skip t asg chunk allowed loop c0 = Ok (c, b) -> c = c0 /\ fits_in now b.
Proof.
  assert (NODE : forall p0 ad pr inst gp gc visit ck circ t1 t now asg chunk allowed loop c b,
    (g_mod G = true -> loop = None) ->
    (forall gi step b', (g_mod G = true -> loop_after step allowed loop ck = None) -> info G inst = Ok gi -> chunk_step G phase allowed chunk ck circ = Ok step ->
       core G phase skip gi gp gc visit ck asg allowed (loop_after step allowed loop ck) p0 (fun asg => plan G phase skip t1 asg (Some ck)) (fun asg => plan G phase skip t asg (Some ck)) = Ok (c, b') ->
       c = p0 /\ fits_in now b') ->
    plan G phase skip (Node ad pr inst (gp, gc) visit ck circ t1 t) asg chunk allowed loop p0 = Ok (c, b) -> c = p0 /\ fits_in now b).
  { clear c0 p t. intros p0 ad pr inst gp gc visit ck circ t1 t now asg chunk allowed loop c b Hm K H. cbn [plan] in H. chop H. chop H. chop H. destruct a1 as [c' b']. injection H as <- <-. assert (Hm2 : g_mod G = true -> loop_after a0 allowed loop ck = None) by (intros M; unfold chunk_step in H1; destruct chunk as [c1|]; [rewrite M in H1|]; injection H1 as <-; exact (Hm M)). destruct (K a a0 b' Hm2 eq_refl eq_refl H2) as [-> [K1 K2]]. split; auto. pose proof quiet_notes as Qn. unfold after. destruct a0 as [|post|].
    - split; auto.
    - assert (Qp : quiet post) by (destruct (step_close G phase allowed chunk ck circ _ post H1 eq_refl) as [-> | ->]; [exact Qn|intros x []]). destruct (isopen allowed loop); split; cbn [fst snd]; repeat apply scoped_quiet; auto; try exact I. rewrite <- (app_nil_r (notes G)). apply scoped_quiet; [exact Qn|exact I].
    - assert (Hl : scoped hdr now (loopify ck (fst b') (snd b'))) by (unfold loopify; destruct (fst b') as [|s0 l0]; [exact K2|]; split; [apply scoped_loop; exact K1|exact K2]). destruct (isopen allowed loop); split; cbn [fst snd]; repeat apply scoped_quiet; auto; try exact I. rewrite <- (app_nil_r (notes G)). apply scoped_quiet; [exact Qn|exact I]. }
  assert (LEN : forall bl asg asg', make_instance_assignment G bl asg = Ok asg' -> length asg = length (g_insts G) -> length asg' = length (g_insts G)).
  { intros bl asg asg' H Hl. unfold make_instance_assignment in H. chop H. chop H. destruct (defaults_inst G _ asg a (seq_NoDup _ _) H0 Hl) as [L1 _]. destruct (steps_inst G true bl a a0 H1 L1) as [L2 _]. exact (proj1 (steps_inst G false bl a0 asg' H L2)). }
  induction 1 as [c0 p Hp|c0 p a pr i s ck b0 t1 t Hp Hi Hk Himp Hg IH|c0 p a pr i s k ck b0 t1 t Hp Hi Hk Himp Hbit Hg1 IH1 Hg2 IH2|c0 p a pr q ch ck b0 t1 t Hp Hch Hg IH|c0 p a pr q ck b0 t1 t Hp Hg IH]; intros now asg chunk allowed loop c b Hm Hl HT H.
  - injection H as <- <-. split; [reflexivity|split; exact I].
  - destruct (described G r HD i s Hi) as (x & Ex & Ec & Et). destruct (si_group s) as [gp gc] eqn:Eg. revert H. apply NODE; [exact Hm|]. clear Hm. intros gi step b' Hm Hgi _ E. set (lo := loop_after step allowed loop ck) in *. clearbody lo. cbn [info] in Hgi. unfold rd in Hgi. rewrite Ex in Hgi. injection Hgi as <-. rewrite Hk in Et. unfold test_index in Et. cbn [in_turn] in HT. rewrite Ex in HT.
    destruct (gi_kind x) as [| |s0 b1|pl] eqn:Ek; try discriminate; [exfalso; exact (HF i x s0 b1 Ex Ek)|]. destruct HT as [_ HT].
    unfold core, always in E. rewrite Ek in E. cbn [negb] in E. rewrite andb_true_r in E. destruct (skip && negb (p =? phase)); [exact (IH now asg _ _ _ _ _ Hm Hl HT E)|]. rewrite Ec, Himp in E. destruct (gi_inward x).
    + chop E. destruct a0 as [c2 b2]. injection E as <- <-. destruct (IH now asg _ _ _ _ _ Hm Hl HT E0) as [-> IHt]. split; auto. apply fits_andthen; [apply quiet_notes|auto].
    + chop E. chop E. chop E. destruct a2 as [c2 b2]. injection E as <- <-. destruct (IH now asg _ _ _ _ _ Hm Hl HT E2) as [-> IHt]. split; auto. apply fits_andthen; [exact (quiet_assign _ _ _ _ _ E1)|auto].
  - destruct (described G r HD i s Hi) as (x & Ex & Ec & Et). destruct (si_group s) as [gp gc] eqn:Eg. revert H. apply NODE; [exact Hm|]. clear Hm. intros gi step b' Hm Hgi _ E. set (lo := loop_after step allowed loop ck) in *. clearbody lo. cbn [info] in Hgi. unfold rd in Hgi. rewrite Ex in Hgi. injection Hgi as <-. rewrite Hk in Et. unfold test_index in Et. unfold bit_in in Hbit. apply orb_false_iff in Hbit. destruct Hbit as [Hb1 Hb2]. cbn [in_turn] in HT. rewrite Ex in HT.
    destruct (gi_kind x) as [k0 b1 b2|k0 header first b1 b2| |] eqn:Ek; try discriminate; injection Et as ->; unfold core, always in E; rewrite Ek, andb_false_r in E; cbn [andb] in E; rewrite Ec, Himp in E; fold (mask k) in E; cbv zeta in E.
    + destruct HT as [HT1 HT2]. chop E. chop E. destruct a1 as [c1 x1]. destruct (IH1 now a0 _ _ _ _ _ Hm (LEN _ _ _ E0 Hl) HT1 E1) as [-> [_ T1]]. cbn [yes_cond positive negative] in E. rewrite unmask in E by auto. chop E. chop E. destruct a2 as [c2 x2]. injection E as <- <-.
      destruct (IH2 now a1 _ _ _ _ _ Hm (LEN _ _ _ E2 Hl) HT2 E3) as [-> [_ T2]]. cbn [no_cond positive negative]. rewrite unmask by auto. split; [destruct c0; reflexivity|]. pose proof (scoped_if now i _ _ T1 T2) as S. unfold closed. destruct (isopen allowed lo); split; cbn [fst snd]; try exact I; (split; [exact S|exact I]).
    + destruct HT as [HT0 [HT1 HT2]]. chop E. chop E. destruct a1 as [c1 x1]. destruct (IH1 (Some header) a0 _ _ _ _ _ Hm (LEN _ _ _ E0 Hl) HT1 E1) as [-> [_ T1]]. cbn [yes_cond positive negative] in E. rewrite unmask in E by auto. chop E. chop E. destruct a2 as [c2 x2]. injection E as <- <-.
      assert (Ha : length a1 = length (g_insts G)) by (destruct b2 as [b2|]; [exact (LEN _ _ _ E2 Hl)|injection E2 as <-; exact Hl]).
      destruct (IH2 (Some header) a1 _ _ _ _ _ Hm Ha HT2 E3) as [-> [_ T2]]. cbn [no_cond positive negative]. rewrite unmask by auto. split; [destruct c0; reflexivity|].
      assert (Eh : hdr i = Some header) by (unfold header_of; now rewrite Ex, Ek). pose proof (scoped_match header i _ _ Eh T1 T2) as S. unfold andthen, closed. destruct (isopen allowed lo), first; split; cbn [fst snd app scoped]; try exact I; try (split; [exact S|exact I]); destruct HT0 as [HT0|HT0]; try discriminate; subst now; (split; [exact S|exact I]).
  - revert H. apply NODE; [exact Hm|]. clear Hm. intros gi step b' Hm Hgi _ E. set (lo := loop_after step allowed loop ck) in *. clearbody lo. injection Hgi as <-. cbn [in_turn] in HT. destruct HT as [_ HT]. unfold core, always in E. cbn [negb] in E. rewrite andb_true_r in E. rewrite (proj2 (Z.eqb_neq ch (-1))) in * by lia. destruct (skip && negb (p =? phase)); [exact (IH now asg _ _ _ _ _ Hm Hl HT E)|].
    rewrite (proj2 (Z.ltb_lt (-1) ch)) in E by lia. destruct (Z.ltb q 0); [discriminate|]. chop E. chop E. destruct a1 as [c2 b2]. injection E as <- <-. destruct (IH now asg _ _ _ _ _ Hm Hl HT E1) as [-> IHt]. split; auto. apply fits_andthen; [|auto]. unfold child_step in E0. chop E0. destruct a1 as [pg|]; [|discriminate]. chop E0. chop E0. injection E0 as <-. intros y [<-|[]]. exact I.
  - revert H. apply NODE; [exact Hm|]. clear Hm. intros gi step b' Hm Hgi _ E. set (lo := loop_after step allowed loop ck) in *. clearbody lo. injection Hgi as <-. cbn [in_turn] in HT. destruct HT as [_ HT]. unfold core, always in E. cbn [negb] in E. rewrite andb_true_r in E. rewrite Z.eqb_refl in *. destruct (skip && negb (p =? phase)); [exact (IH now asg _ _ _ _ _ Hm Hl HT E)|].
    destruct (Z.ltb q 0); [discriminate|]. chop E. assert (Ess : quiet a0).
    { unfold end_step in E0. destruct (g_mod G); [|injection E0 as <-; apply quiet_notes]. chop E0. injection E0 as <-. apply quiet_app; [|apply quiet_notes]. destruct (a1 && allowed); intros y [<-|[]]; exact I. }
    assert (END : forall z, scoped hdr now z -> fits_in now (ended (isopen allowed lo) a0 z)). { intros z Hz. unfold ended. destruct (isopen allowed lo); split; cbn [fst snd]; auto; try exact I; [rewrite <- (app_nil_r a0); apply scoped_quiet; auto; exact I|now apply scoped_quiet]. }
    destruct (Z.eqb q (Z.of_nat phase)); [injection E as <- <-; split; auto; apply END; exact I|]. chop E. destruct a1 as [c2 b2]. injection E as <- <-. assert (Hm2 : g_mod G = true -> (if allowed && negb (g_mod G) then None else lo) = None) by (intros M; rewrite M in *; rewrite andb_false_r; auto).
    destruct (IH now asg _ _ _ _ _ Hm2 Hl HT E1) as [-> [_ IHt]]. split; auto.
Qed.
End Scope.

(** ** The right hand sides *)
Definition tab_in (G : gen) (bs : list gblock) (tab : table) : table := fold_left (fun tab b => inside G b tab) bs tab.
Lemma performed_entered G r o : forall L L2 tab, performed G r o tab (L ++ L2) = performed G r o tab L ++ performed G r o (tab_in G (entered G o L) tab) L2.
Proof.
  induction L as [|e L IH]; intros L2 tab; [reflexivity|]. destruct e as [i|c q|q]; cbn [app performed entered].
  - destruct (nth_error (g_insts G) i) as [x|]; [|apply IH]. unfold branch. destruct (gi_kind x) as [k a b|k h f a b|s a|p]; rewrite IH.
    + destruct (o (N.of_nat k)); reflexivity.
    + destruct (o (N.of_nat k)); [reflexivity|]. destruct b; reflexivity.
    + reflexivity.
    + now rewrite app_assoc.
  - now rewrite IH.
  - now rewrite IH, app_assoc.
Qed.
Lemma tab_untouched G i bs : (forall b, In b bs -> of_inst i b = []) -> default_of G i = None -> forall tab, tab_in G bs tab i = tab i.
Proof.
  intros H Hd. induction bs as [|b bs IH]; intros tab; [reflexivity|]. unfold tab_in in *. cbn [fold_left]. rewrite IH by (intros x Hx; apply H; now right). unfold inside. rewrite (H b (or_introl eq_refl)), Hd. reflexivity.
Qed.
Lemma put_in_again e : put_in e [e] = [e].
Proof. cbn. now rewrite Z.compare_refl. Qed.
Lemma tab_default G i e bs : (forall b, In b bs -> of_inst i b = []) -> default_of G i = Some e -> forall tab, tab i = [e] -> tab_in G bs tab i = [e].
Proof.
  intros H Hd. induction bs as [|b bs IH]; intros tab Ht; [exact Ht|]. unfold tab_in in *. cbn [fold_left]. apply IH; [intros x Hx; apply H; now right|]. unfold inside. rewrite (H b (or_introl eq_refl)), Hd, Ht. apply put_in_again.
Qed.
