(** * GenTrace: what the program of a visit procedure does. *)
From Verif Require Import Base CondModel OagModel PropsCond ChunkModel SchedSpec GenModel GenSpec GenProofs.
Open Scope nat_scope.

(** ** The table of right hand sides *)
Lemma insert_put e s : insert e s = put_in e s.
Proof. induction s as [|x s IH]; [reflexivity|]. cbn. destruct (Z.compare_spec e x) as [->|L|L]; [rewrite Z.ltb_irrefl, Z.eqb_refl; auto|rewrite (proj2 (Z.ltb_lt e x)) by lia; auto|]. rewrite (proj2 (Z.ltb_ge e x)), (proj2 (Z.eqb_neq e x)) by lia. now rewrite IH. Qed.
Definition holds (G : gen) (asg : list (list Z)) (tab : table) : Prop := length asg = length (g_insts G) /\ forall i, i < length (g_insts G) -> nth_error asg i = Some (tab i).
Lemma wr_nth {X} (l l' : list X) i x : wr l i x = Ok l' -> length l' = length l /\ nth_error l' i = Some x /\ forall j, j <> i -> nth_error l' j = nth_error l j.
Proof.
  unfold wr. destruct (i <? length l) eqn:E; [|discriminate]. apply Nat.ltb_lt in E. intros [= <-]. split; [apply upd_length|]. split; [now apply nth_error_upd_eq|]. intros j Hj. apply nth_error_upd_neq; auto.
Qed.
(** one declaration after the other, seen from instance i *)
Definition st (step1 : bool) (s : list Z) (d : gassign) : list Z := if ga_normal d then [ga_rhs d] else if step1 then [] else insert (ga_rhs d) s.
Lemma steps_inst G step1 b : forall asg asg', foldM (assign_step G step1) b asg = Ok asg' -> length asg = length (g_insts G) ->
  length asg' = length (g_insts G) /\ forall i s, nth_error asg i = Some s -> nth_error asg' i = Some (fold_left (st step1) (of_inst i b) s).
Proof.
  induction b as [|d b IH]; cbn [foldM]; intros asg asg' H Hl; [injection H as <-; auto|]. destruct (assign_step G step1 asg d) as [a1| | |] eqn:E; try discriminate. cbn [bind] in H.
  assert (S1 : length a1 = length (g_insts G) /\ forall i s, nth_error asg i = Some s -> nth_error a1 i = Some (fold_left (st step1) (of_inst i [d]) s)).
  { unfold assign_step in E. cbn [of_inst filter]. destruct (ga_for d) as [j|]; [|injection E as <-; auto]. destruct (length (g_insts G) <=? j) eqn:Ej; [discriminate|].
    assert (Q : forall x, wr asg j x = Ok a1 -> (forall s, nth_error asg j = Some s -> x = st step1 s d) -> length a1 = length (g_insts G) /\ forall i s, nth_error asg i = Some s -> nth_error a1 i = Some (fold_left (st step1) (if j =? i then [d] else []) s)).
    { intros x W Hx. apply wr_nth in W. destruct W as (W1 & W2 & W3). split; [congruence|]. intros i s Hs. destruct (Nat.eqb_spec j i) as [->|Hn]; cbn [fold_left]; [rewrite W2; f_equal; auto|rewrite W3 by auto; auto]. }
    destruct (ga_normal d) eqn:En; [apply (Q _ E); intros s _; unfold st; now rewrite En|]. destruct step1; [apply (Q _ E); intros s _; unfold st; now rewrite En|]. unfold rd in E. destruct (nth_error asg j) as [s|] eqn:Es; [|discriminate]. cbn [bind] in E. apply (Q _ E). intros s' [= <-]. unfold st. now rewrite En. }
  destruct S1 as [L1 S1]. destruct (IH a1 asg' H L1) as [L2 S2]. split; [auto|]. intros i s Hs. rewrite (S2 i _ (S1 i s Hs)). rewrite <- fold_left_app. f_equal. f_equal. unfold of_inst. cbn [filter]. destruct (match ga_for d with Some j => j =? i | None => false end); reflexivity.
Qed.
Lemma defaults_inst G : forall l asg asg', NoDup l -> foldM (insert_default G) l asg = Ok asg' -> length asg = length (g_insts G) ->
  length asg' = length (g_insts G) /\ forall i s, nth_error asg i = Some s -> nth_error asg' i = Some (if existsb (Nat.eqb i) l then match default_of G i with Some e => put_in e s | None => s end else s).
Proof.
  induction l as [|j l IH]; cbn [foldM]; intros asg asg' Hn H Hl; [injection H as <-; auto|]. inversion Hn as [|? ? N1 N2]; subst. destruct (insert_default G asg j) as [a1| | |] eqn:E; try discriminate. cbn [bind] in H.
  assert (S1 : length a1 = length (g_insts G) /\ forall i s, nth_error asg i = Some s -> nth_error a1 i = Some (if i =? j then match default_of G i with Some e => put_in e s | None => s end else s)).
  { unfold insert_default, rd in E. destruct (nth_error (g_insts G) j) as [x|] eqn:Ex; [|discriminate]. cbn [bind] in E. assert (Ed : default_of G j = gi_default x) by (unfold default_of; now rewrite Ex). destruct (gi_default x) as [e|].
    - destruct (nth_error asg j) as [s|] eqn:Es; [|discriminate]. cbn [bind] in E. apply wr_nth in E. destruct E as (W1 & W2 & W3). split; [congruence|]. intros i s' Hs. destruct (Nat.eqb_spec i j) as [->|Hi]; [|now rewrite W3]. rewrite W2, Ed, <- insert_put. assert (s' = s) by congruence. now subst.
    - injection E as <-. split; auto. intros i s Hs. destruct (Nat.eqb_spec i j) as [->|]; [now rewrite Ed|auto]. }
  destruct S1 as [L1 S1]. destruct (IH a1 asg' N2 H L1) as [L2 S2]. split; [auto|]. intros i s Hs. rewrite (S2 i _ (S1 i s Hs)). cbn [existsb]. destruct (Nat.eqb_spec i j) as [->|Hi]; cbn [orb]; [|reflexivity].
  destruct (existsb (Nat.eqb j) l) eqn:Ee; [|reflexivity]. apply existsb_exists in Ee. destruct Ee as (k & K1 & K2). apply Nat.eqb_eq in K2. subst k. contradiction.
Qed.
Lemma collects l : existsb ga_normal l = false -> forall s, fold_left (st false) l s = fold_left (fun s e => put_in e s) (map ga_rhs l) s.
Proof. induction l as [|d l IH]; [reflexivity|]. cbn [existsb]. intros H s. apply orb_false_iff in H. destruct H as [Hd H]. cbn [fold_left map]. unfold st at 2. rewrite Hd, insert_put. auto. Qed.
Lemma counted l : existsb ga_normal l = true -> forall s, fold_left (st false) l s = in_order (map ga_rhs (that_count l)).
Proof.
  induction l as [|d l IH]; [discriminate|]. cbn [existsb that_count fold_left]. intros H s. destruct (existsb ga_normal l) eqn:E; [auto|]. rewrite orb_false_r in H. rewrite collects by auto. unfold st. rewrite H. unfold in_order. reflexivity.
Qed.
Lemma cleared l s : l <> [] -> existsb ga_normal l = false -> fold_left (st true) l s = [].
Proof. intros Hn H. destruct (exists_last Hn) as (l' & d & ->). rewrite existsb_app in H. apply orb_false_iff in H. destruct H as [_ H]. cbn in H. rewrite orb_false_r in H. rewrite fold_left_app. cbn. unfold st. now rewrite H. Qed.
Lemma that_count_all l : existsb ga_normal l = false -> that_count l = l.
Proof. destruct l as [|d l]; [reflexivity|]. cbn. intros H. apply orb_false_iff in H. destruct H as [_ H]. now rewrite H. Qed.
Lemma both_steps l s : fold_left (st false) l (fold_left (st true) l s) = match l with [] => s | _ => in_order (map ga_rhs (that_count l)) end.
Proof.
  destruct l as [|d l]; [reflexivity|]. set (m := d :: l). assert (Hn : m <> []) by discriminate. clearbody m. destruct (existsb ga_normal m) eqn:E; [now apply counted|]. rewrite cleared, collects, that_count_all by auto. reflexivity.
Qed.
(** [make_instance_assignment] is as specified. *)
Theorem make_inside G b asg asg' tab : make_instance_assignment G b asg = Ok asg' -> holds G asg tab -> holds G asg' (inside G b tab).
Proof.
  intros H [Hl Ht]. unfold make_instance_assignment in H. destruct (foldM (insert_default G) (seq 0 (length (g_insts G))) asg) as [a1| | |] eqn:E1; try discriminate. cbn [bind] in H. destruct (foldM (assign_step G true) b a1) as [a2| | |] eqn:E2; try discriminate. cbn [bind] in H.
  destruct (defaults_inst G _ asg a1 (seq_NoDup _ _) E1 Hl) as [L1 S1]. destruct (steps_inst G true b a1 a2 E2 L1) as [L2 S2]. destruct (steps_inst G false b a2 asg' H L2) as [L3 S3]. split; [auto|].
  intros i Hi. rewrite (S3 i _ (S2 i _ (S1 i _ (Ht i Hi)))), both_steps. f_equal. unfold inside. assert (Ee : existsb (Nat.eqb i) (seq 0 (length (g_insts G))) = true) by (apply existsb_exists; exists i; split; [apply in_seq; lia|apply Nat.eqb_refl]). rewrite Ee. destruct (of_inst i b); reflexivity.
Qed.

(** ** Trees of the scheduler *)
Definition bit_in (c : condition) (k : nat) : bool := N.testbit (positive c) (N.of_nat k) || N.testbit (negative c) (N.of_nat k).
Definition mask (k : nat) : N := N.shiftl 1 (N.of_nat k).
Definition yes_cond (c : condition) (k : nat) : condition := mkCond (N.lor (positive c) (mask k)) (negative c).
Definition no_cond (c : condition) (k : nat) : condition := mkCond (positive c) (N.lor (negative c) (mask k)).
Inductive good (r : rule) : condition -> nat -> cto -> Prop :=
  | gd_null c p : last_phase r < p -> good r c p Null
  | gd_plain c p a pr i s ck b t1 t : p <= last_phase r -> instance r i s -> si_if s = None -> impossible (merge_cond c (si_cond s)) = false -> good r c p t -> good r c p (Node a pr (Some i) (si_group s) p ck b t1 t)
  | gd_test c p a pr i s k ck b t1 t : p <= last_phase r -> instance r i s -> si_if s = Some k -> impossible (merge_cond c (si_cond s)) = false -> bit_in c k = false ->
      good r (yes_cond c k) p t1 -> good r (no_cond c k) p t -> good r c p (Node a pr (Some i) (si_group s) p ck b t1 t)
  | gd_child c p a pr q ch ck b t1 t : p <= last_phase r -> (0 <= ch)%Z -> good r c p t -> good r c p (Node a pr None (q, ch) p ck b t1 t)
  | gd_own c p a pr q ck b t1 t : p <= last_phase r -> good r c (S p) t -> good r c p (Node a pr None (q, -1)%Z p ck b t1 t).

Lemma testbit_mask k b : N.testbit (mask k) b = (b =? N.of_nat k)%N.
Proof.
  unfold mask. destruct (N.eqb_spec b (N.of_nat k)) as [->|Hn].
  - rewrite N.shiftl_spec_high' by lia. rewrite N.sub_diag. reflexivity.
  - destruct (N.lt_ge_cases b (N.of_nat k)); [now apply N.shiftl_spec_low|]. rewrite N.shiftl_spec_high' by auto. destruct (b - N.of_nat k)%N as [|q] eqn:E; [lia|]. destruct q; reflexivity.
Qed.
Lemma unmask x k : N.testbit x (N.of_nat k) = false -> N.ldiff (N.lor x (mask k)) (mask k) = x.
Proof. intros H. apply N.bits_inj. intros b. rewrite N.ldiff_spec, N.lor_spec, testbit_mask. destruct (N.eqb_spec b (N.of_nat k)) as [->|]; cbn; [now rewrite H, andb_false_r|]. now rewrite orb_false_r, andb_true_r. Qed.

(** ** What is done *)
Section Trail.
Variables (G : gen) (r : rule) (phase : nat) (skip : bool) (o : outcome) (times : nat -> nat).
Definition here (visit : nat) : bool := negb (skip && negb (visit =? phase)).
Fixpoint trail (t : cto) (tab : table) : list action :=
  match t with
  | Null => []
  | Node _ _ None (ph, ch) visit _ _ _ next =>
    if Z.eqb ch (-1) then
      if here visit then (if g_mod G then [ARoots (Z.to_nat ph)] else []) ++ if Z.eqb ph (Z.of_nat phase) then [] else trail next tab else trail next tab
    else (if here visit then [ACall (Z.to_nat ch) (Z.to_nat ph)] else []) ++ trail next tab
  | Node _ _ (Some i) (ph, ch) visit _ _ t1 next =>
    match nth_error (g_insts G) i with
    | None => trail next tab
    | Some x => match gi_kind x with
                | GPlain p => (if here visit && negb (gi_inward x) then sets G i p ch (tab i) else []) ++ trail next tab
                | _ => if verdict G o i then trail t1 (branch G o x tab) else trail next (branch G o x tab)
                end
    end
  end.
Hypotheses (HD : describes G r) (HF : no_for_in G).

Notation yes := (verdict G o).
Definition tr (b : list stmt * list stmt) : list action := once yes times (fst b) ++ once yes times (snd b).
Lemma once_app a b : once yes times (a ++ b) = once yes times a ++ once yes times b.
Proof. apply flat_map_app. Qed.
Lemma once_notes : once yes times (notes G) = [].
Proof. unfold notes. destruct (g_comments G); reflexivity. Qed.
Lemma tr_andthen open ss b : (open = false -> fst b = []) -> tr (andthen open ss b) = once yes times ss ++ tr b.
Proof. unfold tr, andthen. destruct open; intros H; cbn [fst snd]; rewrite once_app; [now rewrite app_assoc|]. now rewrite H. Qed.
Lemma tr_closed open s : tr (closed open s) = once1 yes times s.
Proof. unfold tr, closed. destruct open; cbn; rewrite ?app_nil_r; reflexivity. Qed.
Lemma tr_ended open ss b : tr (ended open ss b) = once yes times ss ++ once yes times b.
Proof. unfold tr, ended. destruct open; cbn [fst snd]; [reflexivity|]. now rewrite once_app. Qed.
Lemma tr_after open s ck b : (open = false -> s = Same -> fst b = []) -> (forall post, s = Close post -> fst b = [] /\ (post = notes G \/ post = [])) -> tr (after G open s ck b) = tr b.
Proof.
  intros H1 H2. unfold after. destruct s as [|post|]; [reflexivity| |].
  - destruct (H2 post eq_refl) as [E Hp]. assert (Ep : once yes times post = []) by (destruct Hp as [-> | ->]; [apply once_notes|reflexivity]). unfold tr. rewrite E. destruct open; cbn [fst snd app]; rewrite !once_app, once_notes, Ep; reflexivity.
  - assert (E : once yes times (loopify ck (fst b) (snd b)) = tr b) by (unfold loopify, tr; destruct (fst b); [reflexivity|]; cbn [once flat_map once1]; reflexivity). unfold tr at 1. destruct open; cbn [fst snd]; rewrite !once_app, once_notes; cbn [app]; exact E.
Qed.
(** the code outside of a loop is empty when there is none *)
Definition shutter (f : planner) : Prop := forall asg allowed loop cond c b, f asg allowed loop cond = Ok (c, b) -> isopen allowed loop = false -> fst b = [].
Ltac chop E := lazymatch type of E with bind ?x _ = _ => let E2 := fresh E in destruct x as [?a| | |] eqn:E2; cbn [bind] in E; try discriminate E end.
Lemma core_shut ph0 sk gi ph ch visit ck asg allowed loop cond f g c b : shutter g -> core G ph0 sk gi ph ch visit ck asg allowed loop cond f g = Ok (c, b) -> isopen allowed loop = false -> fst b = [].
Proof.
  intros Hg E Hs. unfold core in E. rewrite Hs in E. destruct (sk && negb (always gi) && negb (visit =? ph0)); [eapply Hg; eauto|]. destruct gi as [[i x]|].
  - destruct (impossible (merge_cond cond (gi_cond x))); [chop E; destruct a as [c9 b9]; injection E as <- <-; exact (Hg _ _ _ _ _ _ E0 Hs)|].
    destruct (gi_kind x) as [index b1 b2|index header first b1 b2|stm body|p].
    + chop E. chop E. destruct a0 as [c1 x1]. chop E. chop E. destruct a1 as [c2 x2]. injection E as <- <-. reflexivity.
    + chop E. chop E. destruct a0 as [c1 x1]. chop E. chop E. destruct a1 as [c2 x2]. injection E as <- <-. reflexivity.
    + chop E. chop E. destruct a0 as [c1 x1]. injection E as <- <-. reflexivity.
    + destruct (gi_inward x); [chop E; destruct a as [c9 b9]; injection E as <- <-; exact (Hg _ _ _ _ _ _ E0 Hs)|]. chop E. chop E. chop E. destruct a1 as [c2 x2]. injection E as <- <-. exact (Hg _ _ _ _ _ _ E2 Hs).
  - destruct (Z.eqb ch (-1)).
    + destruct (Z.ltb ph 0); [discriminate|]. chop E. destruct (Z.eqb ph (Z.of_nat ph0)); [injection E as <- <-; reflexivity|]. chop E. destruct a0 as [c1 x1]. injection E as <- <-. reflexivity.
    + destruct (Z.ltb (-1) ch); [|discriminate]. destruct (Z.ltb ph 0); [discriminate|]. chop E. chop E. destruct a0 as [c1 x1]. injection E as <- <-. exact (Hg _ _ _ _ _ _ E1 Hs).
Qed.
Lemma plan_shut ph sk t : forall chunk, shutter (fun asg => plan G ph sk t asg chunk).
Proof.
  induction t as [|ad prev inst g visit ck circ t1 IH1 t2 IH2]; intros chunk asg allowed loop cond c b H Hs; [injection H as _ <-; reflexivity|]. destruct g as [gp gc]. cbn [plan] in H. chop H. chop H. chop H. destruct a1 as [c' b']. injection H as <- <-. rewrite Hs. unfold after. destruct a0 as [|post|]; [|reflexivity|reflexivity]. cbn [loop_after] in *. eapply core_shut; [exact (IH2 (Some ck))|exact H2|exact Hs].
Qed.
Lemma assigns_once i p ch s : forall ss, assigns_stmts G i p ch s = Ok ss -> once yes times ss = sets G i p ch s.
Proof.
  unfold sets. assert (One : forall e ss, assign_stmts G i p ch e = Ok ss -> once yes times ss = if has_code G p ch then map (ASet i) (filter (fun e => negb (Z.eqb e 0)) [e]) else []).
  { intros e ss H. unfold assign_stmts in H. cbn [filter]. destruct (Z.eqb e 0); cbn [negb]; [injection H as <-; destruct (has_code G p ch); reflexivity|]. unfold has_code. cbn [map].
    destruct (pl_node p), (pl_fiber p), (g_lhs G e), (pl_local_attr p), (pl_prefix p =? 0), (Z.ltb ch (g_nch G)), (pl_lhs p), (pl_shared p), (pl_updown p); cbn in H; try discriminate; injection H as <-; cbn; try reflexivity; apply once_notes. }
  induction s as [|e s IH]; intros ss H; [injection H as <-; destruct (has_code G p ch); reflexivity|]. cbn [assigns_stmts] in H. destruct (assign_stmts G i p ch e) as [a| | |] eqn:Ea; try discriminate. cbn [bind] in H. destruct (assigns_stmts G i p ch s) as [b| | |]; try discriminate. cbn [bind] in H. injection H as <-.
  rewrite once_app, (One e a Ea), (IH b eq_refl). destruct (has_code G p ch); [|reflexivity]. rewrite <- map_app. f_equal. cbn [filter]. destruct (negb (Z.eqb e 0)); reflexivity.
Qed.
Lemma described i s : instance r i s -> exists x, nth_error (g_insts G) i = Some x /\ gi_cond x = si_cond s /\ test_index x = si_if s.
Proof.
  intros Hs. destruct HD as [F _ _]. unfold instance in Hs. revert i Hs. induction F as [|x s' xs ss [H1 H2] F IH]; intros [|i] Hs; cbn in *; try discriminate; [injection Hs as <-; eauto|now apply IH].
Qed.
Lemma step_close allowed chunk ck circ step post : chunk_step G phase allowed chunk ck circ = Ok step -> step = Close post -> post = notes G \/ post = [].
Proof.
  intros H ->. unfold chunk_step in H. destruct chunk as [c|]; [|discriminate]. destruct (g_mod G || (ck =? c)); [discriminate|]. destruct (allowed && circ); [|injection H as <-; auto]. destruct (rd (cyclic_flags (g_parent G)) phase) as [f| | |]; try discriminate. cbn [bind] in H. destruct f; [injection H as <-; auto|discriminate].
Qed.
Lemma step_shut allowed chunk ck circ loop step post : chunk_step G phase allowed chunk ck circ = Ok step -> step = Close post -> isopen allowed (loop_after step allowed loop ck) = false.
Proof. intros H ->. cbn [loop_after]. destruct allowed; [reflexivity|]. destruct loop; reflexivity. Qed.
(** The program does what is found on the way through the tree. *)
Theorem plan_trail c0 p t : good r c0 p t -> forall asg tab chunk allowed loop c b, (g_mod G = true -> loop = None) -> holds G asg tab -> plan G phase skip t asg chunk allowed loop c0 = Ok (c, b) -> c = c0 /\ tr b = trail t tab.
Proof.
  assert (NODE : forall p0 ad pr inst gp gc visit ck circ t1 t asg tab chunk allowed loop c b,
    (g_mod G = true -> loop = None) ->
    (forall gi step b', (g_mod G = true -> loop_after step allowed loop ck = None) -> info G inst = Ok gi -> chunk_step G phase allowed chunk ck circ = Ok step ->
       core G phase skip gi gp gc visit ck asg allowed (loop_after step allowed loop ck) p0 (fun asg => plan G phase skip t1 asg (Some ck)) (fun asg => plan G phase skip t asg (Some ck)) = Ok (c, b') ->
       c = p0 /\ tr b' = trail (Node ad pr inst (gp, gc) visit ck circ t1 t) tab) ->
    plan G phase skip (Node ad pr inst (gp, gc) visit ck circ t1 t) asg chunk allowed loop p0 = Ok (c, b) -> c = p0 /\ tr b = trail (Node ad pr inst (gp, gc) visit ck circ t1 t) tab).
  { clear c0 p t. intros p0 ad pr inst gp gc visit ck circ t1 t asg tab chunk allowed loop c b Hm K H. cbn [plan] in H. chop H. chop H. chop H. destruct a1 as [c' b']. injection H as <- <-. assert (Hm2 : g_mod G = true -> loop_after a0 allowed loop ck = None) by (intros M; unfold chunk_step in H1; destruct chunk as [c1|]; [rewrite M in H1|]; injection H1 as <-; exact (Hm M)). destruct (K a a0 b' Hm2 eq_refl eq_refl H2) as [-> K2]. split; auto. rewrite tr_after; auto.
    - intros Ho ->. eapply core_shut; [|exact H2|exact Ho]. apply plan_shut.
    - intros post ->. split; [|eapply step_close; eauto]. eapply core_shut; [apply plan_shut|exact H2|]. eapply step_shut; eauto. }
  induction 1 as [c0 p Hp|c0 p a pr i s ck b0 t1 t Hp Hi Hk Himp Hg IH|c0 p a pr i s k ck b0 t1 t Hp Hi Hk Himp Hbit Hg1 IH1 Hg2 IH2|c0 p a pr q ch ck b0 t1 t Hp Hch Hg IH|c0 p a pr q ck b0 t1 t Hp Hg IH]; intros asg tab chunk allowed loop c b Hm Ht H.
  - injection H as <- <-. split; reflexivity.
  - destruct (described i s Hi) as (x & Ex & Ec & Et). destruct (si_group s) as [gp gc] eqn:Eg. revert H. apply NODE; [exact Hm|]. clear Hm. intros gi step b' Hm Hgi _ E. set (lo := loop_after step allowed loop ck) in *. clearbody lo. cbn [info] in Hgi. unfold rd in Hgi. rewrite Ex in Hgi. injection Hgi as <-. rewrite Hk in Et. unfold test_index in Et. cbn [trail]. rewrite Ex.
    destruct (gi_kind x) as [| |s0 b1|pl] eqn:Ek; try discriminate; [exfalso; exact (HF i x s0 b1 Ex Ek)|].
    unfold core, always in E. rewrite Ek in E. cbn [negb] in E. unfold here. rewrite andb_true_r in E. destruct (skip && negb (p =? phase)); cbn [negb andb]; [now apply (IH asg tab _ _ _ _ _ Hm Ht E)|]. rewrite Ec, Himp in E. destruct (gi_inward x); cbn [negb].
    + chop E. destruct a0 as [c2 b2]. injection E as <- <-. destruct (IH asg tab _ _ _ _ _ Hm Ht E0) as [-> IHt]. split; auto. rewrite tr_andthen by (intros; eapply plan_shut; eauto). now rewrite once_notes.
    + pose proof Ht as [Hl Hv]. unfold rd in E. rewrite (Hv i) in E by (apply nth_error_Some; congruence). cbn [bind] in E. chop E. chop E. destruct a1 as [c2 b2]. injection E as <- <-. destruct (IH asg tab _ _ _ _ _ Hm Ht E1) as [-> IHt]. split; auto. rewrite tr_andthen by (intros; eapply plan_shut; eauto). rewrite (assigns_once i pl gc _ a0 E0), IHt. reflexivity.
  - destruct (described i s Hi) as (x & Ex & Ec & Et). destruct (si_group s) as [gp gc] eqn:Eg. revert H. apply NODE; [exact Hm|]. clear Hm. intros gi step b' Hm Hgi _ E. set (lo := loop_after step allowed loop ck) in *. clearbody lo. cbn [info] in Hgi. unfold rd in Hgi. rewrite Ex in Hgi. injection Hgi as <-. rewrite Hk in Et. unfold test_index in Et. cbn [trail]. rewrite Ex. unfold bit_in in Hbit. apply orb_false_iff in Hbit. destruct Hbit as [Hb1 Hb2].
    assert (Ev : verdict G o i = o (N.of_nat k)) by (unfold verdict, test_index; rewrite Ex; destruct (gi_kind x); try discriminate; injection Et as ->; reflexivity). unfold branch.
    assert (Sh : isopen (allowed_inside allowed lo) lo = false) by apply inside_shut.
    destruct (gi_kind x) as [k0 b1 b2|k0 header first b1 b2| |] eqn:Ek; try discriminate; injection Et as ->; unfold core, always in E; rewrite Ek, andb_false_r in E; cbn [andb] in E; rewrite Ec, Himp in E; fold (mask k) in E; cbv zeta in E.
    + chop E. chop E. destruct a1 as [c1 x1]. destruct (IH1 a0 (inside G b1 tab) _ _ _ _ _ Hm (make_inside G b1 asg a0 tab E0 Ht) E1) as [-> T1]. cbn [yes_cond positive negative] in E. rewrite unmask in E by auto. chop E. chop E. destruct a2 as [c2 x2]. injection E as <- <-.
      destruct (IH2 a1 (inside G b2 tab) _ _ _ _ _ Hm (make_inside G b2 asg a1 tab E2 Ht) E3) as [-> T2]. cbn [no_cond positive negative]. rewrite unmask by auto. split; [destruct c0; reflexivity|]. rewrite tr_closed. cbn [once1]. rewrite Ev.
      unfold tr in T1, T2. rewrite (plan_shut _ _ _ _ _ _ _ _ _ _ E1 Sh) in T1. rewrite (plan_shut _ _ _ _ _ _ _ _ _ _ E3 Sh) in T2. cbn [once flat_map app] in T1, T2. destruct (o (N.of_nat k)); [exact T1|exact T2].
    + chop E. chop E. destruct a1 as [c1 x1]. destruct (IH1 a0 (inside G b1 tab) _ _ _ _ _ Hm (make_inside G b1 asg a0 tab E0 Ht) E1) as [-> T1]. cbn [yes_cond positive negative] in E. rewrite unmask in E by auto. chop E. chop E. destruct a2 as [c2 x2]. injection E as <- <-.
      assert (Ha : holds G a1 (match b2 with Some b => inside G b tab | None => tab end)) by (destruct b2 as [b2|]; [exact (make_inside G b2 asg a1 tab E2 Ht)|injection E2 as <-; exact Ht]).
      destruct (IH2 a1 _ _ _ _ _ _ Hm Ha E3) as [-> T2]. cbn [no_cond positive negative]. rewrite unmask by auto. split; [destruct c0; reflexivity|]. rewrite tr_andthen by (intros ->; reflexivity). rewrite tr_closed. cbn [once1]. rewrite Ev.
      unfold tr in T1, T2. rewrite (plan_shut _ _ _ _ _ _ _ _ _ _ E1 Sh) in T1. rewrite (plan_shut _ _ _ _ _ _ _ _ _ _ E3 Sh) in T2. cbn [once flat_map app] in T1, T2. replace (once yes times (if first then [SLet header] else [])) with (@nil action) by (destruct first; reflexivity). cbn [app]. destruct (o (N.of_nat k)); [exact T1|exact T2].
  - revert H. apply NODE; [exact Hm|]. clear Hm. intros gi step b' Hm Hgi _ E. set (lo := loop_after step allowed loop ck) in *. clearbody lo. injection Hgi as <-. cbn [trail]. unfold core, always in E. cbn [negb] in E. rewrite andb_true_r in E. unfold here. rewrite (proj2 (Z.eqb_neq ch (-1))) in * by lia. destruct (skip && negb (p =? phase)); cbn [negb]; [now apply (IH asg tab _ _ _ _ _ Hm Ht E)|].
    rewrite (proj2 (Z.ltb_lt (-1) ch)) in E by lia. destruct (Z.ltb q 0); [discriminate|]. chop E. chop E. destruct a1 as [c2 b2]. injection E as <- <-. destruct (IH asg tab _ _ _ _ _ Hm Ht E1) as [-> IHt]. split; auto. rewrite tr_andthen by (intros; eapply plan_shut; eauto). rewrite IHt. f_equal.
    unfold child_step in E0. chop E0. destruct a1 as [pg|]; [|discriminate]. chop E0. chop E0. injection E0 as <-. reflexivity.
  - revert H. apply NODE; [exact Hm|]. clear Hm. intros gi step b' Hm Hgi _ E. set (lo := loop_after step allowed loop ck) in *. clearbody lo. injection Hgi as <-. cbn [trail]. unfold core, always in E. cbn [negb] in E. rewrite andb_true_r in E. unfold here. rewrite Z.eqb_refl in *. destruct (skip && negb (p =? phase)); cbn [negb]; [now apply (IH asg tab _ _ _ _ _ Hm Ht E)|].
    destruct (Z.ltb q 0); [discriminate|]. chop E. assert (Ess : once yes times a0 = if g_mod G then [ARoots (Z.to_nat q)] else []).
    { unfold end_step in E0. destruct (g_mod G); [|injection E0 as <-; apply once_notes]. chop E0. injection E0 as <-. rewrite once_app, once_notes, app_nil_r. destruct (a1 && allowed); reflexivity. }
    destruct (Z.eqb q (Z.of_nat phase)); [injection E as <- <-; split; auto; rewrite tr_ended, Ess; reflexivity|]. chop E. destruct a1 as [c2 b2]. injection E as <- <-. assert (Hn : (if allowed && negb (g_mod G) then None else lo) = None \/ allowed = false) by (destruct allowed; [|auto]; left; cbn [andb]; destruct (g_mod G); cbn [negb]; auto).
    assert (Hm2 : g_mod G = true -> (if allowed && negb (g_mod G) then None else lo) = None) by (intros M; rewrite M in *; rewrite andb_false_r; auto).
    destruct (IH asg tab _ _ _ _ _ Hm2 Ht E1) as [-> IHt]. split; auto. rewrite tr_ended, Ess. f_equal. rewrite <- IHt. unfold tr. rewrite (plan_shut _ _ _ _ _ _ _ _ _ _ E1); [reflexivity|]. unfold isopen. destruct Hn as [-> | ->]; [reflexivity|]. now destruct (if false && negb (g_mod G) then None else lo).
Qed.
End Trail.
