(** * PropsGen3: C72 (continued), C73, C74, C75: what the code of visit procedures assigns. *)
From Verif Require Import Base CondModel OagModel PropsCond PropsComponent ChunkModel OrderModel SchedSpec PropsChunk PropsSched GenModel GenSpec GenProofs GenTrace GenSched GenRun GenText SchedFuel PropsGen GenLoop GenCirc GenScope PropsGen2.
From Verif Require PrimeModel PropsUtil.
Open Scope nat_scope.

Definition always_ : condition := mkCond 0 0.
Definition local_ : gkind := GPlain (mkPlace NNone false false true 0 false false).
Definition of_rule (r : rule) : cto := match schedule_rule 1000 PrimeModel.primes_init 4096 64 r with Ok t => t | _ => Null end.
Definition one_visit : phy := mkPhy 1 [false; false].
Ltac each_inst H := repeat (match type of H with nth_error _ ?i = Some _ => destruct i as [|i]; [injection H as <-|cbn [nth_error] in H] end); try (match type of H with nth_error _ ?i = Some _ => destruct i; discriminate end).

(** ** C72: what is left out *)
(** A rule with two locals that depend on each other, a := b | {1} and b := a | {2}, and a
    synthesized attribute that depends on both *)
Definition two_locals : rule := mkRule
  [mkSinst (-1, -1)%Z always_ None; mkSinst (0, 0)%Z always_ None; mkSinst (0, 0)%Z always_ None; mkSinst (1, -1)%Z always_ None]
  [0;31;0;0; 0;31;31;0; 0;31;31;31; 0;0;0;0]%N one_visit [].
Definition two_locals_gen : gen := mkGen [mkGI always_ true None (plain NNode true); mkGI always_ false None local_; mkGI always_ false None local_; mkGI always_ false None (plain NNode true)] one_visit [] 0 false false (fun _ => LValueUse).
Definition two_locals_block : gblock := [mkGA false (Some 1) 11; mkGA false (Some 2) 12; mkGA true (Some 3) 13].
Definition two_locals_tree : cto := Eval vm_compute in of_rule two_locals.
Definition two_locals_body : list stmt := [SLoop 3 [SSet 2 12]; SLoop 2 [SSet 1 11]; SSet 3 13].
Lemma two_locals_hyps : schedule_rule 1000 PrimeModel.primes_init 4096 64 two_locals = Ok two_locals_tree /\ own_tests two_locals /\ local_tests two_locals /\ describes two_locals_gen two_locals /\ g_mod two_locals_gen = false /\
  last_phase two_locals = 1 /\ last_phase two_locals < length (cyclic_flags (r_parent two_locals)) /\ (forall b, In b (cyclic_flags (r_parent two_locals)) -> b = false) /\
  (forall o e L, run two_locals o two_locals_tree = e :: L -> ~ circular_event two_locals e) /\ circular_inst two_locals 1 /\ circular_inst two_locals 2 /\
  visit_procedure two_locals_gen two_locals_block two_locals_tree true 1 = Ok (flat_map text two_locals_body).
Proof.
  split; [vm_compute; reflexivity|]. split; [intros i s j s' b Hi Hj E; unfold instance in Hi; cbn [two_locals r_insts] in Hi; each_inst Hi; discriminate|]. split; [intros i s b Hi E; unfold instance in Hi; cbn [two_locals r_insts] in Hi; each_inst Hi; discriminate|].
  split; [constructor; [repeat constructor|reflexivity|reflexivity]|]. split; [reflexivity|]. split; [reflexivity|]. split; [cbn; lia|]. split; [intros b [<-|[<-|[]]]; reflexivity|].
  split. { intros o e L H. injection H as <- _. intros (s & Hs & [[G _]|(c & q & ((_ & ph & Hn & _) & _))]); [injection Hs as <-; discriminate|destruct c; discriminate]. }
  split; [exists (mkSinst (0, 0)%Z always_ None); split; [reflexivity|]; left; split; [reflexivity|]; exists 31%N; cbn; repeat split; try lia; discriminate|].
  split; [exists (mkSinst (0, 0)%Z always_ None); split; [reflexivity|]; left; split; [reflexivity|]; exists 31%N; cbn; repeat split; try lia; discriminate|].
  vm_compute. reflexivity.
Qed.
(** The hypotheses of C72_inside hold; still the code does not compute a fixed point,
    because each local has a loop of its own. *)
Definition joins (e : Z) (s : list N) : N :=
  match e with 11%Z => N.lor (nth 2 s 0) 1 | 12%Z => N.lor (nth 1 s 0) 2 | 13%Z => N.lor (nth 1 s 0) (nth 2 s 0) | _ => 0 end%N.
Definition two_locals_assigns : list (nat * Z) := [(1, 11%Z); (2, 12%Z); (3, 13%Z)].
Lemma settles_det value l s s1 : settles value l s s1 -> forall s2, settles value l s s2 -> s1 = s2.
Proof.
  induction 1 as [s|l s s' H IH|i e l s v s' Hv H IH|id a l s s' H1 IH1 H2 IH2|id a l s sm s' H1 IH1 Hn H2 IH2]; intros s2 K; inversion K; subst; auto.
  - apply IH. congruence.
  - match goal with A : settles value a s ?x, B : ?x <> s |- _ => exfalso; apply B; symmetry; now apply IH1 end.
  - exfalso. apply Hn. now apply IH1.
  - apply IH2. match goal with A : settles value a s ?x |- _ => rewrite (IH1 x A) in *; auto end.
Qed.
Theorem C72_refuted_mutual : exists s, (forall s', settles joins two_locals_body [0; 0; 0; 0]%N s' <-> s' = s) /\ ~ fixed joins two_locals_assigns s.
Proof.
  exists [0; 3; 2; 3]%N. assert (K : settles joins two_locals_body [0; 0; 0; 0]%N [0; 3; 2; 3]%N).
  { unfold two_locals_body. apply se_loop with (s1 := [0; 0; 2; 0]%N); [eapply se_set; [reflexivity|apply se_nil]|discriminate|]. apply se_loop_end; [eapply se_set; [reflexivity|apply se_nil]|].
    apply se_loop with (s1 := [0; 3; 2; 0]%N); [eapply se_set; [reflexivity|apply se_nil]|discriminate|]. apply se_loop_end; [eapply se_set; [reflexivity|apply se_nil]|]. eapply se_set; [reflexivity|apply se_nil]. }
  split; [intros s'; split; [intros H; exact (settles_det _ _ _ _ H _ K)|intros ->; exact K]|]. intros F. destruct (F 2 12%Z) as (v & E & H); [right; left; reflexivity|]. injection E as <-. discriminate.
Qed.
(** When the total order begins with a circular local it is assigned only once. *)
Definition first_local : rule := mkRule [mkSinst (0, 0)%Z always_ None; mkSinst (1, -1)%Z always_ None] [31; 31; 0; 0]%N one_visit [].
Definition first_local_gen : gen := mkGen [mkGI always_ false None local_; mkGI always_ false None (plain NNode true)] one_visit [] 0 false false (fun _ => LValueUse).
Theorem C72_refuted_first : exists r t G block, schedule_rule 1000 PrimeModel.primes_init 4096 64 r = Ok t /\ own_tests r /\ local_tests r /\ describes G r /\ g_mod G = false /\
  (forall b, In b (cyclic_flags (r_parent r)) -> b = false) /\ circular_inst r 0 /\ visit_procedure G block t true 1 = Ok (flat_map text [SSet 0 7; SSet 1 8]).
Proof.
  exists first_local, (of_rule first_local), first_local_gen, [mkGA true (Some 0) 7; mkGA true (Some 1) 8].
  split; [vm_compute; reflexivity|]. split; [intros i s j s' b Hi Hj E; unfold instance in Hi; cbn [first_local r_insts] in Hi; each_inst Hi; discriminate|]. split; [intros i s b Hi E; unfold instance in Hi; cbn [first_local r_insts] in Hi; each_inst Hi; discriminate|].
  split; [constructor; [repeat constructor|reflexivity|reflexivity]|]. split; [reflexivity|]. split; [intros b [<-|[<-|[]]]; reflexivity|].
  split; [exists (mkSinst (0, 0)%Z always_ None); split; [reflexivity|]; left; split; [reflexivity|]; exists 31%N; cbn; repeat split; try lia; discriminate|].
  vm_compute. reflexivity.
Qed.
Print Assumptions C72_refuted_mutual.
Print Assumptions C72_refuted_first.

(** ** C73: the right hand sides that are assigned *)
(** After L it is the turn of instance i, and we are in these blocks (outermost first). *)
Definition blocks_at (G : gen) (block : gblock) (o : outcome) (L : list event) : list gblock := block :: entered G o L.
Theorem C73_assigned_partial : forall G r block o L i x p,
  nth_error (g_insts G) i = Some x -> gi_kind x = GPlain p -> gi_inward x = false ->
  let start := inside G block (fun _ => []) in
  exists rhs, performed G r o start (L ++ [Compute i]) = performed G r o start L ++ sets G i p (channel r i) rhs /\
  (** without a default: all the right hand sides of the block that has assignments of i,
      from the last normal one on, each once; none if there is no such block *)
  (forall b1 b b2, gi_default x = None -> blocks_at G block o L = b1 ++ b :: b2 -> (forall c, In c (b1 ++ b2) -> of_inst i c = []) -> of_inst i b <> [] -> rhs = in_order (map ga_rhs (that_count (of_inst i b)))) /\
  (gi_default x = None -> (forall c, In c (blocks_at G block o L) -> of_inst i c = []) -> rhs = []) /\
  (** with a default: that one, if there is no such block *)
  (forall e, gi_default x = Some e -> (forall c, In c (blocks_at G block o L) -> of_inst i c = []) -> rhs = [e]).
Proof.
  intros G r block o L i x p Hx Hk Hi start. exists (tab_in G (blocks_at G block o L) (fun _ => []) i). split.
  { rewrite performed_entered. f_equal. cbn [performed]. rewrite Hx, Hk, Hi, app_nil_r. reflexivity. }
  assert (Hd : default_of G i = gi_default x) by (unfold default_of; now rewrite Hx). split; [|split].
  - intros b1 b b2 En Eb Hc Hb. rewrite Eb. unfold tab_in. rewrite fold_left_app. cbn [fold_left]. fold (tab_in G b1 (fun _ => [])). fold (tab_in G b2 (inside G b (tab_in G b1 (fun _ => [])))).
    rewrite tab_untouched; [|intros c Hc'; apply Hc; apply in_or_app; now right|congruence]. unfold inside. destruct (of_inst i b); [congruence|reflexivity].
  - intros En Hc. rewrite tab_untouched; auto. congruence.
  - intros e Ee Hc. unfold blocks_at, tab_in. cbn [fold_left]. apply (tab_default G i e (entered G o L)); [intros c Hc'; apply Hc; now right|congruence|]. unfold inside. rewrite (Hc block (or_introl eq_refl)), Hd, Ee. reflexivity.
Qed.
Print Assumptions C73_assigned_partial.
(** Two if statements that both add to a local; a synthesized attribute with a default that
    has an assignment *)
Definition two_ifs : rule := mkRule [mkSinst (0, 0)%Z always_ (Some 0); mkSinst (0, 0)%Z always_ (Some 1); mkSinst (0, 0)%Z always_ None; mkSinst (1, -1)%Z always_ None]
  [0;0;31;0; 0;0;31;0; 0;0;0;31; 0;0;0;0]%N one_visit [].
Definition two_ifs_gen : gen := mkGen [mkGI always_ false None (GIf 0 [mkGA false (Some 2) 21] []); mkGI always_ false None (GIf 1 [mkGA false (Some 2) 22] []); mkGI always_ false None local_; mkGI always_ false (Some 5%Z) (plain NNode true)]
  one_visit [] 0 false false (fun _ => LValueUse).
Definition two_ifs_block : gblock := [mkGA true (Some 3) 13].
Definition two_ifs_tree : cto := Eval vm_compute in of_rule two_ifs.
Definition two_ifs_body : list stmt := Eval vm_compute in match plan two_ifs_gen 1 true two_ifs_tree [[]; []; []; [13%Z]] None true None (mkCond 0 0) with Ok (_, b) => snd b | _ => [] end.
Lemma two_ifs_hyps : schedule_rule 1000 PrimeModel.primes_init 4096 64 two_ifs = Ok two_ifs_tree /\ own_tests two_ifs /\ local_tests two_ifs /\ describes two_ifs_gen two_ifs /\ no_for_in two_ifs_gen /\
  procedures two_ifs_gen two_ifs two_ifs_block two_ifs_tree true (fun _ => two_ifs_body).
Proof.
  split; [vm_compute; reflexivity|]. split; [intros i s j s' b Hi Hj E E'; unfold instance in Hi, Hj; cbn [two_ifs r_insts] in Hi, Hj; each_inst Hi; each_inst Hj; try discriminate; cbn in E, E'; congruence|]. split; [intros i s b Hi E; unfold instance in Hi; cbn [two_ifs r_insts] in Hi; each_inst Hi; try discriminate; reflexivity|].
  split; [constructor; [repeat constructor|reflexivity|reflexivity]|]. split; [intros i x s b Hx; cbn [two_ifs_gen g_insts] in Hx; each_inst Hx; discriminate|]. intros p Hp. assert (p = 1) by (cbn in Hp; lia). subst p. vm_compute. reflexivity.
Qed.
(** Both tests are true: one of the two values is lost, and the attribute is assigned its
    default as well. *)
Theorem C73_refuted : let o := fun _ => true in let L := run two_ifs o two_ifs_tree in
  In [mkGA false (Some 2) 21] (blocks_at two_ifs_gen two_ifs_block o L) /\ In [mkGA false (Some 2) 22] (blocks_at two_ifs_gen two_ifs_block o L) /\
  forall times, exists A, once (verdict two_ifs_gen o) times two_ifs_body = [ASet 2 A; ASet 3 5; ASet 3 13] /\ (A = 21%Z \/ A = 22%Z).
Proof.
  cbn zeta. split; [vm_compute; auto|]. split; [vm_compute; auto|]. intros times. eexists. split; [vm_compute; reflexivity|auto].
Qed.
Print Assumptions C73_refuted.

(** ** C74: the value a match looks at *)
(** If on each way through the total order the matches of a case statement follow its first
    one, every match finds in [node] the value of its own case statement. *)
Theorem C74_scrutinee_partial : forall fuel ps base size r t G block lr body p,
  schedule_rule fuel ps base size r = Ok t -> own_tests r -> local_tests r -> describes G r -> no_for_in G ->
  in_turn G None t -> visit_procedure G block t lr p = Ok (flat_map text body) -> scoped (header_of G) None body.
Proof.
  intros fuel ps base size r t G block lr body p Hs Ho Hl Hd Hf Ht Hv. pose proof (scheduled_good _ _ _ _ _ _ Hs Ho Hl) as Hg. destruct (generate_body G block t p true lr _ Hv) as (asg & c & b & E1 & E2 & _ & E4). apply text_unique in E4. subst body.
  destruct (make_inside G block _ asg _ E1 (start_holds G)) as [Hlen _].
  exact (proj2 (proj2 (plan_scope G r p true Hd Hf (mkCond 0 0) 1 t Hg None asg None lr None c b (fun _ => eq_refl) Hlen Ht E2))).
Qed.
Print Assumptions C74_scrutinee_partial.
(** A case statement with two matches, which assign a synthesized attribute; [ordered] says
    whether the second match depends on the first. *)
Definition one_case (ordered : bool) : rule := mkRule [mkSinst (0, 0)%Z always_ (Some 0); mkSinst (0, 0)%Z (mkCond 0 1) (Some 1); mkSinst (1, -1)%Z always_ None]
  [0; if ordered then 31 else 0; 31; 0; 0; 31; 0; 0; 0]%N one_visit [].
Definition one_case_gen : gen := mkGen [mkGI always_ false None (GMatch 0 40 true [mkGA true (Some 2) 21] None); mkGI (mkCond 0 1) false None (GMatch 1 40 false [mkGA true (Some 2) 22] (Some [mkGA true (Some 2) 23])); mkGI always_ false None (plain NNode true)]
  one_visit [] 0 false false (fun _ => LValueUse).
Lemma one_case_hyps b : own_tests (one_case b) /\ local_tests (one_case b) /\ describes one_case_gen (one_case b) /\ no_for_in one_case_gen.
Proof.
  split; [intros i s j s' k Hi Hj E E'; unfold instance in Hi, Hj; cbn [one_case r_insts] in Hi, Hj; each_inst Hi; each_inst Hj; try discriminate; cbn in E, E'; congruence|]. split; [intros i s k Hi E; unfold instance in Hi; cbn [one_case r_insts] in Hi; each_inst Hi; try discriminate; reflexivity|].
  split; [constructor; [repeat constructor|reflexivity|reflexivity]|]. intros i x s k Hx; cbn [one_case_gen g_insts] in Hx; each_inst Hx; discriminate.
Qed.
Example C74_example : exists t body, schedule_rule 1000 PrimeModel.primes_init 4096 64 (one_case true) = Ok t /\ in_turn one_case_gen None t /\ visit_procedure one_case_gen [] t true 1 = Ok (flat_map text body) /\
  body = [SLet 40; SMatch 0 [SSet 2 21] [SMatch 1 [SSet 2 22] [SSet 2 23]]].
Proof. exists (of_rule (one_case true)). eexists. split; [vm_compute; reflexivity|]. split; [vm_compute; repeat split; auto|]. split; [|reflexivity]. vm_compute. reflexivity. Qed.
(** The dependencies that are recorded (aps-dnc.c:1635-1650) do not order the matches: then
    the second one comes first, before [node] has a value. *)
Theorem C74_refuted : exists t, schedule_rule 1000 PrimeModel.primes_init 4096 64 (one_case false) = Ok t /\
  visit_procedure one_case_gen [] t true 1 = Ok (flat_map text [SMatch 1 [SLet 40; SMatch 0 [SSet 2 21] [SSet 2 22]] [SLet 40; SMatch 0 [SSet 2 21] [SSet 2 23]]]) /\
  ~ scoped (header_of one_case_gen) None [SMatch 1 [SLet 40; SMatch 0 [SSet 2 21] [SSet 2 22]] [SLet 40; SMatch 0 [SSet 2 21] [SSet 2 23]]].
Proof. exists (of_rule (one_case false)). split; [vm_compute; reflexivity|]. split; [vm_compute; reflexivity|]. intros [[H _] _]. now apply H. Qed.
Print Assumptions C74_refuted.

(** ** C75: for-in statements *)
(** All that comes after a for-in statement in the total order, its own or not, is done once
    for each element. *)
Theorem C75_rest_inside : forall G block a0 pr i x s bl g p ck circ t1 t lr phase toks,
  nth_error (g_insts G) i = Some x -> gi_kind x = GForIn s bl -> impossible (gi_cond x) = false ->
  visit_procedure G block (Node a0 pr (Some i) g p ck circ t1 t) lr phase = Ok toks ->
  exists body, toks = flat_map text [SFor s body] /\ forall yes times L, exec yes times [SFor s body] L -> exists Ls, length Ls = times s /\ L = concat Ls /\ Forall (exec yes times body) Ls.
Proof.
  intros G block a0 pr i x s bl g p ck circ t1 t lr phase toks Hx Hk Hi Hv. destruct (generate_body G block _ phase true lr _ Hv) as (asg & c & b & _ & E & _ & Et).
  destruct g as [gp gc]. cbn [plan info] in E. unfold rd in E. rewrite Hx in E. cbn [bind chunk_step] in E. chop E. destruct a as [c' b']. injection E as <- <-. cbn [after] in Et. unfold core in E0. cbn [always] in E0. rewrite Hk in E0. cbn [negb andb] in E0.
  replace (impossible (merge_cond (mkCond 0 0) (gi_cond x))) with false in E0 by (rewrite <- Hi; unfold impossible, merge_cond; cbn [positive negative]; now rewrite !N.lor_0_l). chop E0. chop E0. destruct a1 as [c1 x1]. injection E0 as <- <-. cbn [loop_after isopen closed snd] in Et. exists (snd x1). split; [exact Et|].
  intros yes times L HL. inversion HL as [| | | | | | | |s0 a1 l L1 L2 K1 K2|]; subst. inversion K2; subst. rewrite app_nil_r. clear - K1. remember (times s) as n eqn:En. clear En. revert L1 K1. induction n as [|n IH]; intros L1 K1; inversion K1; subst; [exists []; repeat constructor|]. destruct (IH _ H2) as (Ls & A & B & C). exists (L0 :: Ls). cbn [length concat]. split; [congruence|]. split; [congruence|]. now constructor.
Qed.
Print Assumptions C75_rest_inside.
(** A for-in statement that adds to a local, and a synthesized attribute that has nothing to
    do with it: when the sequence is empty it is not assigned. *)
Definition one_for : rule := mkRule [mkSinst (0, 0)%Z always_ None; mkSinst (0, 0)%Z always_ None; mkSinst (1, -1)%Z always_ None] [0;31;0; 0;0;0; 0;0;0]%N one_visit [].
Definition one_for_gen : gen := mkGen [mkGI always_ false None (GForIn 50 [mkGA false (Some 1) 21]); mkGI always_ false None local_; mkGI always_ false None (plain NNode true)] one_visit [] 0 false false (fun _ => LValueUse).
Theorem C75_refuted : exists t, schedule_rule 1000 PrimeModel.primes_init 4096 64 one_for = Ok t /\ describes one_for_gen one_for /\
  visit_procedure one_for_gen [mkGA true (Some 2) 13] t true 1 = Ok (flat_map text [SFor 50 [SSet 1 21; SSet 2 13]]) /\ forall yes times, exec yes times [SFor 50 [SSet 1 21; SSet 2 13]] [] <-> times 50 = 0.
Proof.
  exists (of_rule one_for). split; [vm_compute; reflexivity|]. split; [constructor; [repeat constructor|reflexivity|reflexivity]|]. split; [vm_compute; reflexivity|]. intros yes times. split.
  - intros H. inversion H as [| | | | | | | |s0 a1 l L1 L2 K1 K2 E0 E|]; subst. apply app_eq_nil in E. destruct E as [-> ->]. destruct (times 50) as [|n]; [reflexivity|]. inversion K1; subst. match goal with X : _ ++ _ = [] |- _ => apply app_eq_nil in X; destruct X as [-> ->] end. match goal with A : exec _ _ (SSet 1 _ :: _) _ |- _ => inversion A end.
  - intros E. apply (ex_for yes times 50 _ [] [] []); [rewrite E; constructor|constructor].
Qed.
Print Assumptions C75_refuted.
