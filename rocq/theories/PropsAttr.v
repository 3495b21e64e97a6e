(** * PropsAttr: C25-C30. *)
From Verif Require Import Base AttrModel AttrSpec AttrProofs AttrEvalProofs AttrHistProofs AttrCircProofs AttrBoundProofs AttrStartProofs AttrCollProofs.

(** Hypotheses of a demand-evaluation history. *)
Definition demand_history {V} (vdef : V) decl P psize natt fuel ops s ans : Prop :=
  plain decl /\ (forall x, valid decl psize natt x -> demands_ok (valid decl psize natt) (P x)) /\
  length (instances decl psize natt) < fuel /\ Forall (demand_op decl psize natt) ops /\
  history V vdef decl P psize fuel ops (initial_state V) = (s, ans).

Lemma nth_Forall2 {A B} (R : A -> B -> Prop) l l' : Forall2 R l l' -> forall i x, nth_error l i = Some x -> exists y, nth_error l' i = Some y /\ R x y.
Proof. induction 1; intros [|i] z E; cbn in *; try discriminate; eauto. injection E as <-. eauto. Qed.

Lemma demand_facts {V} (vdef : V) decl P psize natt fuel ops s ans : demand_history vdef decl P psize natt fuel ops s ans ->
  let sg := assigned ops ans none in
  idle vdef decl P psize natt s /\ length ans = length ops /\ Forall2 (answer_at decl P psize natt sg) ops ans /\
  agreeF vdef decl psize natt sg s.
Proof.
  intros (Hp & Hd & Hf & Ho & E) sg.
  destruct (history_ok vdef decl P psize natt (fun a => proj1 (Hp a)) (fun a => proj2 (Hp a)) Hd fuel Hf ops (initial_state V)
    (idle_initial vdef decl P psize natt) Ho) as (s' & ans' & E' & I & L & B & F & St & A).
  rewrite E in E'. injection E' as <- <-.
  assert (AF : agreeF vdef decl psize natt sg s).
  { apply F. intros y Vy. unfold AttrModel.stat. cbn. destruct (index_of (snd y)); auto. }
  ands; auto. apply A. now apply agreeF_agree.
Qed.

(** ** C25: every evaluate returns the value the equations determine (whatever
    was called before), or there is none; compute runs at most once per
    instance and never for an assigned one. *)
Theorem C25_demand_values : forall V (vdef : V) decl P psize natt fuel ops s ans,
  demand_history vdef decl P psize natt fuel ops s ans ->
  let sg := assigned ops ans none in
  (forall i x, nth_error ops i = Some (Evaluate V x) ->
     (exists v, nth_error ans i = Some (Value V (Val v)) /\ den P sg x v) \/
     (exists e, nth_error ans i = Some (Value V (Thrown e)) /\ forall v, ~ den P sg x v)) /\
  (forall i a, nth_error ops i = Some (Finish V a) ->
     (nth_error ans i = Some (Unit V (Val tt)) /\ forall x, valid decl psize natt x -> fst x = a -> exists v, den P sg x v) \/
     (exists e x, nth_error ans i = Some (Unit V (Thrown e)) /\ valid decl psize natt x /\ fst x = a /\ forall v, ~ den P sg x v)) /\
  NoDup (log V s) /\ (forall x, In x (log V s) -> sg x = None).
Proof.
  intros V vdef decl P psize natt fuel ops s ans H sg. destruct (demand_facts _ _ _ _ _ _ _ _ _ H) as (I & L & A & AF). fold sg in A, AF. ands.
  - intros i x Hi. destruct (nth_Forall2 _ _ _ A i _ Hi) as (r & Hr & (ro & -> & [(v & -> & D)|(e & -> & N & _)])); [left|right]; eauto.
  - intros i a Hi. destruct (nth_Forall2 _ _ _ A i _ Hi) as (r & Hr & (ro & -> & [(-> & D)|(e & y & -> & Vy & Ey & N)])); [left|right]; eauto 7.
  - apply I.
  - intros x Hx. destruct (i_log _ _ _ _ _ _ I x Hx) as (Vx & _ & Nx). rewrite (AF x Vx). destruct (stat V s x); congruence.
Qed.
Print Assumptions C25_demand_values.

(** The equations determine at most one value. *)
Theorem C25_value_unique : forall V (P : inst -> comp V) sg x v w, den P sg x v -> den P sg x w -> v = w.
Proof. intros V P sg x v w D1 D2. eapply (proj1 (den_det P sg)); eauto. Qed.
Print Assumptions C25_value_unique.

(** If the demands of [x] are acyclic, every evaluate of it returns a value. *)
Theorem C25_acyclic_answered : forall V (vdef : V) decl P psize natt fuel ops s ans,
  demand_history vdef decl P psize natt fuel ops s ans -> (forall x, no_raise (P x)) ->
  forall i x, nth_error ops i = Some (Evaluate V x) -> ~ reaches_cycle P (assigned ops ans none) x ->
  exists v, nth_error ans i = Some (Value V (Val v)) /\ den P (assigned ops ans none) x v.
Proof.
  intros V vdef decl P psize natt fuel ops s ans H NR i x Hi NC. destruct (demand_facts _ _ _ _ _ _ _ _ _ H) as (I & L & A & AF).
  destruct (nth_Forall2 _ _ _ A i _ Hi) as (r & Hr & (ro & -> & [(v & -> & D)|(e & -> & N & R)])); eauto.
  destruct (R NR). contradiction.
Qed.
Print Assumptions C25_acyclic_answered.

(** Example: attribute 0 of node i is i for the last node, and otherwise the
    value at i+1 plus the value of attribute 1 at i; attribute 1 at i is twice i. *)
Definition ex_decl : nat -> attr_decl nat := fun _ => mkDecl nat 0 None None.
Definition ex_psize : nat -> nat := fun _ => 3.
Definition ex_P : inst -> comp nat := fun x =>
  match fst x, index_of (snd x) with
  | 0, 2 => Ret nat 2
  | 0, i => Demand nat (0, mkNode 0 (if Nat.leb 2 (S i) then 2 else S i)) (fun v => Demand nat (1, mkNode 0 (Nat.min i 2)) (fun w => Ret nat (v + w)))
  | _, i => Ret nat (2 * i)
  end.
Definition ex_node (a i : nat) : inst := (a, mkNode 0 i).
Example C25_case :
  let ops := [Assign nat (ex_node 1 0) 7; Evaluate nat (ex_node 0 0); Assign nat (ex_node 1 1) 9; Evaluate nat (ex_node 1 1); Finish nat 0] in
  let '(s, ans) := history nat 0 ex_decl ex_P ex_psize 7 ops (initial_state nat) in
  demand_history 0 ex_decl ex_P ex_psize 2 7 ops s ans /\
  ans = [Unit nat (Val tt); Value nat (Val 11); Unit nat (Thrown TooLate); Value nat (Val 2); Unit nat (Val tt)] /\ length (log nat s) = 4.
Proof.
  vm_compute history. cbv beta iota zeta. ands; auto. unfold demand_history. ands.
  - intros a; split; reflexivity.
  - intros [a [p i]] (Ha & Hp & Hi). unfold ex_psize in Hi. cbn in *. subst p. unfold ex_P. cbn.
    destruct a as [|[|a]]; [| |lia]; cbn; auto. unfold valid, ex_psize.
    destruct i as [|[|[|i]]]; cbn; ands; auto; intros; ands; auto; lia.
  - cbn. lia.
  - unfold demand_op, valid, ex_psize. repeat constructor; cbn; lia.
  - reflexivity.
Qed.

(** ** C26: cycles of demands are reported; an evaluate that returns a value never met one. *)
Theorem C26_cycles_reported : forall V (vdef : V) decl P psize natt fuel ops s ans,
  demand_history vdef decl P psize natt fuel ops s ans ->
  let sg := assigned ops ans none in
  (forall i x v, nth_error ops i = Some (Evaluate V x) -> nth_error ans i = Some (Value V (Val v)) -> ~ reaches_cycle P sg x) /\
  ((forall x, no_raise (P x)) -> forall i x, nth_error ops i = Some (Evaluate V x) ->
     (nth_error ans i = Some (Value V (Thrown Cyclic)) <-> reaches_cycle P sg x) /\
     forall e, nth_error ans i = Some (Value V (Thrown e)) -> e = Cyclic).
Proof.
  intros V vdef decl P psize natt fuel ops s ans H sg. destruct (demand_facts _ _ _ _ _ _ _ _ _ H) as (I & L & A & AF). fold sg in A, AF.
  assert (Q : forall i x v, nth_error ops i = Some (Evaluate V x) -> nth_error ans i = Some (Value V (Val v)) -> ~ reaches_cycle P sg x).
  { intros i x v Hi Hr. destruct (nth_Forall2 _ _ _ A i _ Hi) as (r & Hr' & (ro & -> & [(w & -> & D)|(e & -> & N & R)])); [|congruence].
    eapply den_no_cycle; eauto. }
  split; auto. intros NR i x Hi. destruct (nth_Forall2 _ _ _ A i _ Hi) as (r & Hr & (ro & -> & [(w & -> & D)|(e & -> & N & R)])).
  - ands; [split; [congruence|intros C; exfalso; eapply Q; eauto]|]. intros e He. congruence.
  - destruct (R NR) as [-> C]. ands; [split; auto|]. intros e He. congruence.
Qed.
Print Assumptions C26_cycles_reported.

(** Example: attribute 0 demands attribute 1 and back; attribute 2 does not. *)
Definition cyc_P : inst -> comp nat := fun x =>
  match fst x with
  | 0 => Demand nat (1, snd x) (fun v => Ret nat v)
  | 1 => Demand nat (0, snd x) (fun v => Ret nat v)
  | _ => Ret nat 5
  end.
Example C26_case :
  let ops := [Evaluate nat (ex_node 2 0); Evaluate nat (ex_node 1 0); Evaluate nat (ex_node 0 0); Evaluate nat (ex_node 0 0)] in
  let '(s, ans) := history nat 0 ex_decl cyc_P ex_psize 10 ops (initial_state nat) in
  demand_history 0 ex_decl cyc_P ex_psize 3 10 ops s ans /\ (forall x, no_raise (cyc_P x)) /\
  ans = [Value nat (Val 5); Value nat (Thrown Cyclic); Value nat (Thrown Cyclic); Value nat (Thrown Cyclic)].
Proof.
  vm_compute history. cbv beta iota zeta. ands; auto.
  - unfold demand_history. ands.
    + intros a; split; reflexivity.
    + intros [a [p i]] (Ha & Hp & Hi). cbn in *. unfold cyc_P. cbn. destruct a as [|[|a]]; cbn; ands; auto; unfold valid; cbn; ands; auto; lia.
    + cbn. lia.
    + unfold demand_op, valid, ex_psize. repeat constructor; cbn; lia.
    + reflexivity.
  - intros [a n]. unfold cyc_P. destruct a as [|[|a]]; cbn; auto.
Qed.

(** Without [no_raise] the exception need not tell the truth: an instance whose
    compute threw stays marked as in progress, so evaluating it again reports a
    cycle although there is none. *)
Theorem C26_cyclic_only_on_cycles_refuted : exists (P : inst -> comp nat) x,
  (forall y, ~ needs P none x y) /\
  forall fuel, snd (history nat 0 ex_decl P ex_psize (S fuel) [Evaluate nat x; Evaluate nat x] (initial_state nat)) =
    [Value nat (Thrown (Other 3)); Value nat (Thrown Cyclic)].
Proof.
  exists (fun _ => Raise nat (Other 3)), (ex_node 0 0). split.
  - intros y [_ H]. inversion H.
  - intros fuel. reflexivity.
Qed.
Print Assumptions C26_cyclic_only_on_cycles_refuted.

(** ** C27: assign is accepted exactly until the first evaluate of that
    attribute (by the client or by another equation); for every kind of attribute. *)
Theorem C27_assign_until_evaluated : forall V (vdef : V) decl P psize fuel ops x v,
  let s := fst (history V vdef decl P psize fuel ops (initial_state V)) in
  ((exists y, In y (calls V s) /\ fst y = fst x) -> assign V vdef decl x v s = (s, Thrown TooLate)) /\
  (~ (exists y, In y (calls V s) /\ fst y = fst x) ->
     assign V vdef decl x v s = set V vdef decl x v s).
Proof.
  intros V vdef decl P psize fuel ops x v s. pose proof (startok_history vdef decl P psize fuel ops _ (startok_initial)) as K. fold s in K. specialize (K (fst x)).
  unfold assign, st_started in *. destruct (started V (attrs V s (fst x))); split; auto; intros H; [exfalso; apply H; now apply K|apply K in H; discriminate].
Qed.
Print Assumptions C27_assign_until_evaluated.

Lemma assigned_app {V} ops1 ans1 ops2 ans2 (sg : inst -> option V) : length ops1 = length ans1 ->
  assigned (ops1 ++ ops2) (ans1 ++ ans2) sg = assigned ops2 ans2 (assigned ops1 ans1 sg).
Proof.
  revert ans1 sg. induction ops1 as [|o ops1 IH]; intros [|r ans1] sg L; try discriminate; auto. cbn [app].
  rewrite (assigned_cons o r (ops1 ++ ops2)), (assigned_cons o r ops1 ans1). apply IH. cbn in L. lia.
Qed.
Lemma assigned_none {V} x ops : (forall v, ~ In (Assign V x v) ops) -> forall ans sg, assigned ops ans sg x = sg x.
Proof.
  induction ops as [|o ops IH]; intros N [|r ans] sg; auto.
  - destruct o; auto.
  - rewrite assigned_cons, IH by (intros v H; apply (N v); right; auto). destruct o, r as [[]|]; cbn; auto.
    destruct (inst_eqb x0 x) eqn:E; auto. apply inst_eqb_spec in E. subst. exfalso. eapply N. left. eauto.
Qed.

(** In a demand history every assign is answered as it should be, and an
    accepted value is what every evaluate returns (until assigned anew), with no
    run of compute. *)
Theorem C27_assigned_value : forall V (vdef : V) decl P psize natt fuel ops1 x v ops2 s ans1 a ans2,
  demand_history vdef decl P psize natt fuel (ops1 ++ Assign V x v :: ops2) s (ans1 ++ a :: ans2) -> length ans1 = length ops1 ->
  (a = Unit V (Val tt) \/ a = Unit V (Thrown TooLate)) /\
  (a = Unit V (Val tt) -> (forall w, ~ In (Assign V x w) ops2) ->
     ~ In x (log V s) /\ forall i, nth_error ops2 i = Some (Evaluate V x) -> nth_error ans2 i = Some (Value V (Val v))).
Proof.
  intros V vdef decl P psize natt fuel ops1 x v ops2 s ans1 a ans2 H L. destruct (demand_facts _ _ _ _ _ _ _ _ _ H) as (I & _ & A & AF).
  pose proof (C25_demand_values _ _ _ _ _ _ _ _ _ _ H) as (CE & _ & _ & CL).
  assert (Ha : answer_at decl P psize natt (assigned (ops1 ++ Assign V x v :: ops2) (ans1 ++ a :: ans2) none) (Assign V x v) a).
  { destruct (nth_Forall2 _ _ _ A (length ops1) (Assign V x v)) as (r & Hr & R); [rewrite nth_error_app2, Nat.sub_diag by auto; auto|].
    rewrite nth_error_app2 in Hr by lia. rewrite L, Nat.sub_diag in Hr. cbn in Hr. injection Hr as <-. auto. }
  split; [exact Ha|]. intros -> N.
  assert (E : assigned (ops1 ++ Assign V x v :: ops2) (ans1 ++ Unit V (Val tt) :: ans2) none x = Some v).
  { rewrite assigned_app by auto. rewrite assigned_cons, assigned_none by auto. cbn. now rewrite (proj2 (inst_eqb_spec x x) eq_refl). }
  split; [intros Hx; apply CL in Hx; congruence|]. intros i Hi.
  destruct (CE (length ops1 + S i) x) as [(w & Hw & D)|(e & Hw & D)].
  - rewrite nth_error_app2 by lia. replace (length ops1 + S i - length ops1) with (S i) by lia. auto.
  - rewrite nth_error_app2 in Hw by lia. replace (length ops1 + S i - length ans1) with (S i) in Hw by lia. cbn in Hw. rewrite Hw.
    do 3 f_equal. eapply (proj1 (den_det P _)); [exact D|]. now apply den_assigned.
  - exfalso. apply (D v). now apply den_assigned.
Qed.
Print Assumptions C27_assigned_value.

Example C27_case : exists s ans,
  demand_history 0 ex_decl ex_P ex_psize 2 7
    ([Evaluate nat (ex_node 0 2)] ++ Assign nat (ex_node 1 0) 7 :: [Evaluate nat (ex_node 0 0); Evaluate nat (ex_node 1 0)]) s
    ([Value nat (Val 2)] ++ Unit nat (Val tt) :: ans) /\ ans = [Value nat (Val 11); Value nat (Val 7)].
Proof.
  eexists _, _. split; [|reflexivity]. unfold demand_history. ands.
  - intros a; split; reflexivity.
  - intros [a [p i]] (Ha & Hp & Hi). unfold ex_psize in Hi. cbn in *. subst p. unfold ex_P. cbn.
    destruct a as [|[|a]]; [| |lia]; cbn; auto. unfold valid, ex_psize.
    destruct i as [|[|[|i]]]; cbn; ands; auto; intros; ands; auto; lia.
  - cbn. lia.
  - unfold demand_op, valid, ex_psize. repeat constructor; cbn; lia.
  - vm_compute. reflexivity.
Qed.

(** ** C28: collection attributes fold all contributions, in order. *)
Theorem C28_collection_folds : forall V (vdef : V) decl P psize fuel ops x i cb,
  coll V (decl (fst x)) = Some (i, cb) -> right_phylum decl x -> Forall (coll_op decl) ops ->
  let '(s, ans) := history V vdef decl P psize fuel ops (initial_state V) in
  (forall n, nth_error ops n = Some (Get V x) -> nth_error ans n = Some (Value V (Val (fold_left cb (contributions (firstn n ops) x) i)))) /\
  snd (get V vdef decl x s) = Val (fold_left cb (contributions ops x) i) /\
  (contributions ops x <> [] -> circ V (decl (fst x)) = None ->
     exists s', evaluate V vdef decl P (S fuel) x s = (s', Val (fold_left cb (contributions ops x) i)) /\ log V s' = log V s).
Proof.
  intros V vdef decl P psize fuel ops x i cb Hx Px Ho.
  destruct (cinv_history vdef decl P psize x i cb Hx Px fuel ops [] _ (cinv_initial vdef x i cb) Ho) as (s & ans & E & L & C & R).
  rewrite E. cbn [app] in *. ands; auto.
  - destruct (cinv_get vdef decl x i cb Hx Px _ _ C) as (s' & E' & _). now rewrite E'.
  - intros Ne Hc. destruct C as (W & St & Lg & H). destruct (contributions ops x) as [|v l] eqn:Ec; [congruence|]. destruct H as [H1 H2].
    cbn [evaluate]. rewrite Hc. destruct (prologue vdef decl P s x W Px) as (s1 & _ & _ & _ & _ & _ & L1 & _ & _ & _ & E1). rewrite E1, H1, H2. eauto.
Qed.
Print Assumptions C28_collection_folds.

Definition coll_decl : nat -> attr_decl (list nat) := fun _ => mkDecl _ 0 None (Some ([0], @app nat)).
Example C28_case :
  let ops := [Get _ (ex_node 0 1); Set_ _ (ex_node 0 1) [1]; Set_ _ (ex_node 0 0) [9]; Assign _ (ex_node 0 1) [2; 3]; Get _ (ex_node 0 1)] in
  Forall (coll_op coll_decl) ops /\
  snd (history _ [] coll_decl (fun _ => Raise _ Undefined) (fun _ => 2) 1 ops (initial_state _)) =
    [Value _ (Val [0]); Unit _ (Val tt); Unit _ (Val tt); Unit _ (Val tt); Value _ (Val [0; 1; 2; 3])].
Proof. split; [repeat constructor|reflexivity]. Qed.

(** ** C29: circular attributes do not reach the least fixed point.
    Two circular attributes a = b and b = min 3 (a + 1) over 0..3: the only
    solution is a = b = 3, but evaluating a gives 1. *)
Definition max_lattice : lattice nat := mkLat nat 0 Nat.max Nat.eqb.
Definition loop_decl : nat -> attr_decl nat := fun _ => mkDecl nat 0 (Some max_lattice) None.
Definition loop_P : inst -> comp nat := fun x =>
  match fst x with
  | 0 => Demand nat (1, snd x) (fun v => Ret nat v)
  | _ => Demand nat (0, snd x) (fun v => Ret nat (Nat.min 3 (v + 1)))
  end.
Theorem C29_least_fixed_point_refuted :
  lattice_for Nat.le max_lattice /\ (forall x, monotone Nat.le (loop_P x)) /\
  solution loop_decl loop_P (fun _ => 3) /\ (forall F, solution loop_decl loop_P F -> forall a i, F (ex_node a i) = 3) /\
  forall fuel, snd (evaluate nat 0 loop_decl loop_P (10 + fuel) (ex_node 0 0) (initial_state nat)) = Val 1.
Proof.
  ands.
  - unfold lattice_for. cbn. unfold Nat.le. ands; intros; lia.
  - intros [a n]. unfold monotone, loop_P. destruct a; cbn [fst]; constructor; intros v w L; apply cl_ret; unfold Nat.le in *; lia.
  - intros [a n] _. unfold loop_P. destruct a; reflexivity.
  - intros F So a i.
    assert (A : F (ex_node 1 i) = F (ex_node 0 i)) by (specialize (So (ex_node 0 i) eq_refl); injection So; auto).
    assert (B : forall b, Nat.min 3 (F (ex_node 0 i) + 1) = F (ex_node (S b) i)) by (intros b; specialize (So (ex_node (S b) i) eq_refl); injection So; auto).
    pose proof (B 0). assert (F (ex_node 0 i) = 3) by lia. destruct a; auto. specialize (B a). lia.
  - intros fuel. reflexivity.
Qed.
Print Assumptions C29_least_fixed_point_refuted.

(** What does hold: whatever is evaluated in whatever order, no value ever
    exceeds any solution of the (monotone) equations, so none exceeds the least. *)
Definition circ_op {V} (decl : nat -> attr_decl V) (le : V -> V -> Prop) (F : inst -> V) (o : op V) : Prop :=
  match o with
  | Evaluate _ _ | Get _ _ => True
  | Assign _ x v => coll V (decl (fst x)) = None /\ le v (F x)
  | _ => False
  end.
Lemma monotone_bounded {V} (le : V -> V -> Prop) F c c' : comp_le le c c' -> forall u, with_values F c' = Some u -> bounded le F c u.
Proof.
  induction 1 as [v w L|y k k' H IH]; intros u E; cbn in *.
  - congruence.
  - intros w L. eapply IH; eauto.
Qed.
Lemma history_J {V} (vdef : V) decl P psize (le : V -> V -> Prop) F fuel :
  (forall x lat, circ V (decl (fst x)) = Some lat -> le (bottom V lat) (F x)) ->
  (forall x lat u v, circ V (decl (fst x)) = Some lat -> le u (F x) -> le v (F x) -> le (join V lat u v) (F x)) ->
  (forall x i cb, coll V (decl (fst x)) = Some (i, cb) -> le i (F x) /\ forall u v, le u (F x) -> le v (F x) -> le (cb u v) (F x)) ->
  (forall x, right_phylum decl x -> bounded le F (P x) (F x)) ->
  forall ops s s' ans, Forall (circ_op decl le F) ops -> J vdef decl le F s -> history V vdef decl P psize fuel ops s = (s', ans) ->
  J vdef decl le F s' /\ num_checks V s' = num_checks V s /\
  (forall i x v, nth_error ops i = Some (Evaluate V x) -> nth_error ans i = Some (Value V (Val v)) -> le v (F x)).
Proof.
  intros H1 H2 H3 H4. induction ops as [|o ops IH]; intros s s' ans Ho I E; cbn [history] in E.
  - inversion E; subst. ands; auto. intros [|i]; discriminate.
  - inversion Ho as [|? ? Oo Os]; subst. destruct (step V vdef decl P psize fuel s o) as [s1 a] eqn:E1. destruct (history V vdef decl P psize fuel ops s1) as [s2 l] eqn:E2.
    inversion E; subst. clear E.
    assert (S : J vdef decl le F s1 /\ num_checks V s1 = num_checks V s /\ (forall x v, o = Evaluate V x -> a = Value V (Val v) -> le v (F x))).
    { destruct o as [x v|x|b|x v|x]; cbn in Oo; try tauto; cbn [step] in E1.
      - destruct (assign V vdef decl x v s) as [sx r] eqn:Ea. inversion E1; subst. unfold assign in Ea. destruct (started V (attrs V s (fst x))); [inversion Ea; subst; ands; auto; discriminate|].
        destruct (set_J vdef decl le F H3 s x v s1 r I (proj2 Oo) (or_intror (proj1 Oo)) Ea) as [J1 G1]. ands; auto; [apply G1|discriminate].
      - destruct (evaluate V vdef decl P fuel x s) as [sx r] eqn:Ea. inversion E1; subst.
        destruct (evaluate_J vdef decl P le F H1 H2 H3 H4 fuel x s s1 r I Ea) as (J1 & G1 & R1). ands; auto; [apply G1|].
        intros y v Hy Hv. injection Hy as <-. injection Hv as ->. apply (R1 v eq_refl).
      - destruct (get V vdef decl x s) as [sx r] eqn:Ea. inversion E1; subst. destruct (get_J vdef decl le F H3 s x s1 r I Ea) as (J1 & G1 & _). ands; auto; [apply G1|discriminate]. }
    destruct S as (J1 & N1 & R1). destruct (IH _ _ _ Os J1 E2) as (J2 & N2 & R2). ands; auto; [congruence|].
    intros [|i] x v Hi Hr; cbn in *; [injection Hi as ->; injection Hr as ->; eauto|eauto].
Qed.

Theorem C29_never_above_a_solution_partial : forall V (vdef : V) decl P psize (le : V -> V -> Prop) F fuel ops s ans,
  (forall a lat, circ V (decl a) = Some lat -> lattice_for le lat) ->
  (forall a, coll V (decl a) = None) ->
  (forall x, right_phylum decl x -> monotone le (P x)) -> solution decl P F ->
  Forall (circ_op decl le F) ops ->
  history V vdef decl P psize fuel ops (initial_state V) = (s, ans) ->
  forall i x v, nth_error ops i = Some (Evaluate V x) -> nth_error ans i = Some (Value V (Val v)) -> le v (F x).
Proof.
  intros V vdef decl P psize le F fuel ops s ans HL HC HM HS Ho E.
  destruct (history_J vdef decl P psize le F fuel) with (ops := ops) (s := initial_state V) (s' := s) (ans := ans) as (_ & _ & R); auto.
  - intros x lat Hx. apply (HL _ _ Hx).
  - intros x lat u v Hx. apply (HL _ _ Hx).
  - intros x i cb Hx. rewrite HC in Hx. discriminate.
  - intros x Px. eapply monotone_bounded; [apply HM; auto|apply HS; auto].
  - apply J_initial.
Qed.
Print Assumptions C29_never_above_a_solution_partial.

Example C29_case : let ops := [Evaluate nat (ex_node 1 0); Evaluate nat (ex_node 0 0); Evaluate nat (ex_node 0 1)] in
  Forall (circ_op loop_decl Nat.le (fun _ => 3)) ops /\
  snd (history nat 0 loop_decl loop_P ex_psize 10 ops (initial_state nat)) = [Value nat (Val 1); Value nat (Val 0); Value nat (Val 1)].
Proof. split; [repeat constructor|reflexivity]. Qed.

(** ** C30: when evaluate of a circular attribute returns, every instance that
    was pending is at a fixed point: its equation, run on the values now held,
    adds nothing; and circular values have only moved up by joins. *)
Theorem C30_stops_at_fixed_point : forall V (vdef : V) decl P psize fuel ops s ans n x lat s' v,
  Forall (circ_op decl (fun _ _ => True) (fun _ => vdef)) ops ->
  history V vdef decl P psize fuel ops (initial_state V) = (s, ans) ->
  circ V (decl (fst x)) = Some lat -> evaluate V vdef decl P n x s = (s', Val v) ->
  exists L, (forall p, In p (pending V s) -> In p L) /\ Forall (stable vdef decl P s') L /\ pending V s' = [] /\
    (forall y l, right_phylum decl y -> settled s y -> circ V (decl (fst y)) = Some l -> coll V (decl (fst y)) = None ->
       upward l (value V vdef s y) (value V vdef s' y)) /\ evaluated_to vdef decl s' x v.
Proof.
  intros V vdef decl P psize fuel ops s ans n x lat s' v Ho E Ec Ee.
  destruct (history_J vdef decl P psize (fun _ _ => True) (fun _ => vdef) fuel) with (ops := ops) (s := initial_state V) (s' := s) (ans := ans) as (I & N & _); auto.
  - intros y _. generalize (P y). induction c; cbn; auto.
  - apply J_initial.
  - eapply circular_ok; eauto.
Qed.
Print Assumptions C30_stops_at_fixed_point.

(** The same for a call of clear_pending. *)
Theorem C30_clear_pending : forall V (vdef : V) decl P n fuel s s',
  wf s -> 1 <= num_checks V s -> pendok decl s ->
  clear_pending V vdef decl P n (evaluate V vdef decl P fuel) s = (s', Val tt) ->
  exists L, (exists l, L = pending V s ++ l) /\ Forall (stable vdef decl P s') L /\ pending V s' = [] /\
    (forall y l, right_phylum decl y -> settled s y -> circ V (decl (fst y)) = Some l -> coll V (decl (fst y)) = None ->
       upward l (value V vdef s y) (value V vdef s' y)) /\
    (forall y, right_phylum decl y -> settled s y -> circ V (decl (fst y)) = None -> value V vdef s' y = value V vdef s y).
Proof.
  intros V vdef decl P n fuel s s' W N PO E.
  destruct (clear_ok vdef decl P _ (evaluate_keeps vdef decl P fuel) n s s' W N PO E) as (s0 & R0 & PO0 & St0 & ->).
  exists (pending V s0). ands; auto.
  - apply R0.
  - apply Forall_forall. intros p Hp. destruct (St0 p Hp) as (l & e & El & A & Q). exists l, e. ands; auto.
    clear -A. induction A; [constructor|]. econstructor; eauto.
  - apply R0.
  - intros y Py Sy Cy. apply (r_plain _ _ _ _ R0 y Py Sy Cy).
Qed.
Print Assumptions C30_clear_pending.

(** A self-dependent circular attribute does reach its fixed point 3. *)
Definition self_P : inst -> comp nat := fun x => Demand nat x (fun v => Ret nat (Nat.min 3 (v + 1))).
Example C30_case : let '(s, r) := evaluate nat 0 loop_decl self_P 10 (ex_node 0 0) (initial_state nat) in r = Val 3 /\ length (log nat s) = 4.
Proof. vm_compute. auto. Qed.

(** And it can meet undefined behaviour: when computing a pending instance
    makes another one pending and the vector reallocates, the loop goes on with
    an invalid iterator. *)
Definition grow_P : inst -> comp nat := fun x =>
  match fst x with
  | 0 => Demand nat x (fun v => if Nat.eqb v 0 then Ret nat 1 else Demand nat (1, snd x) (fun _ => Ret nat 1))
  | _ => Demand nat x (fun v => Ret nat v)
  end.
Theorem C30_pending_iteration_defined_refuted :
  forall fuel, snd (evaluate nat 0 loop_decl grow_P (10 + fuel) (ex_node 0 0) (initial_state nat)) = Undef.
Proof. intros fuel. reflexivity. Qed.
Print Assumptions C30_pending_iteration_defined_refuted.
