(** * Properties of the type checker: C126 - C133. *)
From Coq Require Import List Arith Bool Lia.
From Verif Require Import TyModel TySpec TyEq TySound TyComplete TyNoAlarm TyCrash.
Import ListNotations.

(** ** An example program

    Types: 0 Integer, 1 Boolean, 2 a type formal of polymorphic 0, 3 a list of
    Integer, 4 a renaming of Integer, 5 a type formal of the module, 6 and 7 type
    formals of polymorphic 1 (a collection and its elements), 8 String.
    Values: 0 the polymorphic equality, 1 an Integer, 2 a list, 3 the polymorphic
    constructor of collections, 4 an Integer variable, 5 a function on Integer, 6 a
    function of polymorphic 0 on the module's type formal, 7 a value of that type,
    8 a function of polymorphic 0 with a sequence formal, 9 the element formal of a
    loop over node 4. *)
Definition I : ty := TUse 0.
Definition Bo : ty := TUse 1.
Definition demo_type (d : nat) : tdecl :=
  match d with
  | 2 => DFormal (Some 0) 0 false []
  | 3 => DInst (Some I)
  | 4 => DRename I
  | 5 => DFormal None 0 false []
  | 6 => DFormal (Some 1) 0 false [None; Some (TUse 7)]
  | 7 => DFormal (Some 1) 1 false []
  | _ => DAbstract
  end.
Definition demo_value (d : nat) : vdecl :=
  match d with
  | 0 => mkV (VTyped (TFun [(false, TUse 2); (false, TUse 2)] Bo)) false None
  | 1 => mkV (VTyped I) false None
  | 2 => mkV (VTyped (TUse 3)) false None
  | 3 => mkV (VTyped (TFun [(true, TUse 7)] (TUse 6))) false None
  | 4 => mkV (VTyped I) true None
  | 5 => mkV (VTyped (TFun [(false, I)] (TUse 4))) false None
  | 6 => mkV (VTyped (TFun [(false, TUse 5); (false, TUse 2)] Bo)) false None
  | 7 => mkV (VTyped (TUse 5)) false None
  | 8 => mkV (VTyped (TFun [(true, TUse 2)] I)) false None
  | 9 => mkV (VElement 4) false None
  | _ => mkV (VPattern 0) false None
  end.
(** Use [u] is of value [u / 10]; polymorphic entities have their contour. *)
Definition demo_env (u : nat) : list nat :=
  match u / 10 with 0 => [0] | 3 => [1] | 6 => [0] | 8 => [0] | _ => [] end.
Definition demo_node (e : nat) : enode :=
  match e with
  | 0 => ECall 1 [2; 3]           (* i = f(i) *)
  | 1 => EUse 0
  | 2 => EUse 10
  | 3 => ECall 8 [9]
  | 8 => EUse 50
  | 9 => EUse 11
  | 4 => ECall 5 [6; 7]           (* {i, 7} *)
  | 5 => EUse 30
  | 6 => EUse 12
  | 7 => EConst I
  | 10 => EUse 90                 (* the element of the loop *)
  | 11 => EUse 40                 (* the variable *)
  | 12 => EAppend 13 14
  | 13 => EUse 20
  | 14 => EUse 21
  | 20 => ECall 21 [22; 23]       (* undefined = 7 *)
  | 21 => EUse 1
  | 22 => EUndef
  | 23 => EConst I
  | 30 => ECall 31 [32; 33]       (* g(m, i), g polymorphic on a module type *)
  | 31 => EUse 60
  | 32 => EUse 70
  | 33 => EUse 13
  | 40 => ECall 41 [42; 43]       (* variable = 7 *)
  | 41 => EUse 2
  | 42 => EUse 41
  | 43 => EConst I
  | 44 => ECall 45 [46]           (* f(variable) *)
  | 45 => EUse 51
  | 46 => EUse 42
  | 50 => ECall 51 []             (* h() *)
  | 51 => EUse 80
  | 60 => EUse 100                (* a pattern variable *)
  | _ => EConst I
  end.
(** Pattern constructors: 0 of two Integers to a list.  Expressions 40-49 are in the
    constant function 0. *)
Definition demo : program := mkProgram demo_type
  (fun p => match p with 0 => 1 | _ => 2 end) Bo demo_node demo_value (fun u => u / 10) demo_env
  (fun _ => TFun [(false, I); (false, I)] (TUse 3)) (fun x => if x =? 7 then Some I else None)
  (fun e => if (40 <=? e) && (e <? 50) then Some 0 else None).

Definition errors (P : program) (b : list stmt) : option bool :=
  match check_block P 30 30 b start with Done (st, _) => Some (s_err st) | _ => None end.

Definition good_block : list stmt :=
  [SValue Bo (Simple 0);
   SValue (TUse 3) (Simple 4);
   SForIn 4 [SAssign true 11 10];
   SCase 12 [(PCall (PUse 99) [PVar 0; PVar 7], [SAssign false 11 60])] [];
   SIf 0 [] [SMatch (PCall (PUse 99) [PVar 1; PNo]) []]].

Example demo_accepted : errors demo good_block = Some false.
Proof. vm_compute. reflexivity. Qed.
(** the list where an Integer is expected, a third argument, an assignment to a
    constant *)
Example demo_wrong : errors demo [SValue I (Simple 4)] = Some true.
Proof. vm_compute. reflexivity. Qed.
Example demo_wrong_target : errors demo [SAssign true 2 7] = Some true.
Proof. vm_compute. reflexivity. Qed.

Lemma demo_formals : forall d o i ph sg, demo_type d = DFormal o i ph sg ->
  (d = 2 /\ o = Some 0 /\ i = 0 /\ sg = []) \/ (d = 5 /\ o = None) \/
  (d = 6 /\ o = Some 1 /\ i = 0 /\ sg = [None; Some (TUse 7)]) \/ (d = 7 /\ o = Some 1 /\ i = 1 /\ sg = []).
Proof.
  intros d o i ph sg E.
  destruct d as [|[|[|[|[|[|[|[|d]]]]]]]]; cbn in E; try discriminate; injection E as <- <- <- <-.
  - left. repeat split.
  - right. left. repeat split.
  - right. right. left. repeat split.
  - right. right. right. repeat split.
Qed.
Lemma demo_renames : forall d t, demo_type d = DRename t -> d = 4 /\ t = I.
Proof.
  intros d t E. destruct d as [|[|[|[|[|[|[|[|d]]]]]]]]; cbn in E; try discriminate; injection E as <-. split; reflexivity.
Qed.

Lemma demo_wf : wf_types demo.
Proof.
  constructor.
  - intros d t E. destruct (demo_renames d t E) as [_ ->]. exact Logic.I.
  - intros d d' p i ph ph' sg sg' E E'.
    destruct (demo_formals _ _ _ _ _ E) as [[-> [A [B _]]]|[[-> A]|[[-> [A [B _]]]|[-> [A [B _]]]]]];
    destruct (demo_formals _ _ _ _ _ E') as [[-> [A' [B' _]]]|[[-> A']|[[-> [A' [B' _]]]|[-> [A' [B' _]]]]]];
    try reflexivity; congruence.
Qed.

(** ** C126: comparison of types *)
Theorem C126_type_equality : forall P t1 t2,
  (forall n, type_eq P n t1 t2 = Done true -> same P t1 t2) /\
  (forall n, type_eq P n t1 t2 = Done false -> ~ same P t1 t2) /\
  (forall n, type_eq P n t1 t2 <> Abort /\ type_eq P n t1 t2 <> Ub) /\
  (acyclic P -> exists n b, forall m, n <= m -> type_eq P m t1 t2 = Done b).
Proof.
  intros P t1 t2. split; [|split; [|split]].
  - intro n. apply type_eq_true.
  - intro n. apply type_eq_false.
  - intro n. pose proof (type_eq_fine P n t1 t2) as H.
    destruct (type_eq P n t1 t2); try contradiction; split; discriminate.
  - intros [rank H]. exact (decided_all P rank H t1 t2).
Qed.

Example demo_acyclic : acyclic demo.
Proof.
  exists (fun d => d). intros d t E. destruct (demo_renames d t E) as [-> ->]. cbn. lia.
Qed.
Example same_example : same demo (TFun [(false, TUse 4)] Bo) (TFun [(false, TRemote I)] Bo).
Proof. apply (proj1 (C126_type_equality demo _ _) 10). vm_compute. reflexivity. Qed.
Example not_same_example : ~ same demo (TFun [(true, I)] Bo) (TFun [(false, I)] Bo) /\ ~ same demo I (TUse 8).
Proof.
  split; [apply (proj1 (proj2 (C126_type_equality demo (TFun [(true, I)] Bo) (TFun [(false, I)] Bo))) 10)|
          apply (proj1 (proj2 (C126_type_equality demo I (TUse 8))) 10)]; vm_compute; reflexivity.
Qed.

(** A renaming of itself is never decided: acyclic is needed. *)
Definition loop : program := mkProgram (fun d => DRename (TUse d)) (fun _ => 0) I (fun _ => EUndef)
  demo_value (fun u => u) (fun _ => []) (fun _ => I) (fun _ => None) (fun _ => None).
Theorem C126_cyclic_refuted : exists P t, forall n, type_eq P n t t = Fuel.
Proof.
  exists loop, I. assert (B : forall n, base loop n I = Fuel).
  { induction n as [|n IH]; [reflexivity|]. exact IH. }
  intros [|n]; [reflexivity|]. rewrite type_eq_S. rewrite B. reflexivity.
Qed.

(** ** C127: accepted programs are well typed *)
Theorem C127_well_typed : forall P N n b st,
  wf_types P -> check_block P N n b start = Done (st, tt) -> s_err st = false ->
  (exists s v, agrees st s v) /\
  forall s v, agrees st s v ->
    Forall (ok_stmt P s v (plain P)) b /\
    (forall e t, s_memo st e = Some t -> has_type P s v e t).
Proof.
  intros P N n b st W E F. split; [exact (agrees_exists (p_bool P) st)|]. intros s v A. split.
  - exact (proj1 (accepted_sound P W N n b st E F s v A)).
  - exact (memo_sound P W N n b st E F s v A).
Qed.

Definition demo_end : state :=
  match check_block demo 30 30 good_block start with Done (st, _) => st | _ => start end.
Lemma demo_end_ok : check_block demo 30 30 good_block start = Done (demo_end, tt).
Proof.
  assert (H : match check_block demo 30 30 good_block start with Done _ => true | _ => false end = true)
    by (vm_compute; reflexivity).
  unfold demo_end. destruct (check_block demo 30 30 good_block start) as [[st []]| | |]; try discriminate. reflexivity.
Qed.
(** what is inferred for the equality and for the constructor of collections *)
Example demo_inferred : (s_err demo_end, s_slot demo_end 0 0 0, s_slot demo_end 30 1 0, s_slot demo_end 30 1 1) =
  (false, Some I, Some (TUse 3), Some I).
Proof. vm_compute. reflexivity. Qed.
Example demo_well_typed : exists s v, Forall (ok_stmt demo s v (plain demo)) good_block.
Proof.
  assert (F : s_err demo_end = false) by (vm_compute; reflexivity).
  destruct (C127_well_typed demo 30 30 good_block demo_end demo_wf demo_end_ok F) as [[s [v A]] H].
  exists s, v. exact (proj1 (H s v A)).
Qed.
(** the specification is not trivial: a use of an Integer has no other type *)
Lemma const_type : forall P s v e t t', p_node P e = EConst t -> has_type P s v e t' -> same P t t'.
Proof.
  intros P s v e t t' E H. induction H; try congruence.
  - eapply same_trans; [exact (IHhas_type E)|eassumption].
  - rewrite E in H. injection H as <-. apply same_refl.
Qed.
Example demo_ill_typed : forall s v, ~ ok_stmt demo s v every (SValue Bo (Simple 7)).
Proof.
  intros s v H. inversion H; subst. inversion H1; subst.
  pose proof (const_type demo s v 7 I Bo eq_refl H3) as S. revert S.
  apply (proj1 (proj2 (C126_type_equality demo I Bo)) 5). vm_compute. reflexivity.
Qed.

(** ** C128: patterns *)
Theorem C128_patterns_partial : forall P N n b st,
  wf_types P -> Forall (plain_stmt P) b ->
  check_block P N n b start = Done (st, tt) -> s_err st = false ->
  forall s v, agrees st s v -> Forall (ok_stmt P s v every) b.
Proof.
  intros P N n b st W Pl E F s v A.
  pose proof (proj1 (accepted_sound P W N n b st E F s v A)) as H. clear E. revert Pl.
  induction H as [|x b Hx Hb IH]; intro Pl; [constructor|]. inversion Pl; subst.
  constructor; [apply ok_all; assumption|exact (IH H2)].
Qed.
Example demo_plain : Forall (plain_stmt demo) good_block.
Proof. repeat constructor. Qed.

Lemma ptyped_type : forall P s v q t t', has_ptype P s v (PTyped q t) t' -> same P t t' /\ has_ptype P s v q t.
Proof.
  intros P s v q t t' H. remember (PTyped q t) as p eqn:E. revert E.
  induction H; intro E; try discriminate.
  - destruct (IHhas_ptype E) as [A B]. split; [eapply same_trans; eassumption|exact B].
  - injection E as -> ->. split; [apply same_refl|assumption].
Qed.
(** A type annotation in a pattern that is matched against a known type is not
    looked at: an Integer is matched with a String pattern. *)
Theorem C128_annotations_refuted : exists b st,
  check_block demo 30 30 b start = Done (st, tt) /\ s_err st = false /\
  forall s v, ~ Forall (ok_stmt demo s v every) b.
Proof.
  exists [SCase 7 [(PTyped (PVar 0) (TUse 8), [])] []].
  set (r := check_block demo 30 30 [SCase 7 [(PTyped (PVar 0) (TUse 8), [])] []] start).
  assert (H : match r with Done (st, _) => s_err st | _ => true end = false) by (vm_compute; reflexivity).
  destruct r as [[st []]| | |]; try discriminate. exists st. split; [reflexivity|]. split; [exact H|].
  intros s v K. inversion K as [|x l Ks _]; subst. inversion Ks as [| | | |e ms d t He Hm Hd| | |]; subst.
  inversion Hm as [|x l [Hp _] _]; subst. cbn in Hp.
  pose proof (proj1 (ptyped_type _ _ _ _ _ _ (Hp Logic.I))) as A.
  pose proof (const_type demo s v 7 I t eq_refl He) as B.
  assert (S : same demo I (TUse 8)) by (eapply same_trans; [exact B|apply same_sym; exact A]).
  exact (proj2 not_same_example S).
Qed.

(** ** C129: bounds of inferred type formals *)
Theorem C129_bounds_partial : forall P N n b st,
  wf_types P -> check_block P N n b start = Done (st, tt) -> s_err st = false ->
  forall s v, agrees st s v ->
  forall d p i ph sg u t x,
    p_type P d = DFormal (Some p) i ph sg -> In (Some x) sg -> s_slot st u p i = Some t ->
    exists t', element P t t' /\ same P t' (inst P s u x).
Proof.
  intros P N n b st W E F s v A. exact (proj2 (accepted_sound P W N n b st E F s v A)).
Qed.
Example demo_bounds : exists t', element demo (TUse 3) t' /\ same demo t' I.
Proof.
  assert (F : s_err demo_end = false) by (vm_compute; reflexivity).
  destruct (agrees_exists I demo_end) as [s [v A]].
  pose proof (C129_bounds_partial demo 30 30 good_block demo_end demo_wf demo_end_ok F s v A
    6 1 0 false [None; Some (TUse 7)] 30 (TUse 3) (TUse 7) eq_refl) as H.
  assert (K : In (Some (TUse 7)) [None; Some (TUse 7)]) by (right; left; reflexivity).
  assert (S : s_slot demo_end 30 1 0 = Some (TUse 3)) by (vm_compute; reflexivity).
  destruct (H K S) as [t' [B C]]. exists t'. split; [exact B|].
  assert (Q : inst demo s 30 (TUse 7) = I).
  { apply (proj1 A). vm_compute. reflexivity. }
  rewrite Q in C. exact C.
Qed.
(** an Integer is no collection *)
Example demo_no_collection : errors demo [SValue I (Simple 4)] = Some true.
Proof. vm_compute. reflexivity. Qed.

(** ** C130: no crash *)
Theorem C130_no_crash_partial : forall P N n b,
  closed_program P -> Forall (mono_stmt P) b ->
  check_block P N n b start <> Ub.
Proof. intros P N n b Cl Mb. exact (no_crash P N Cl n b start Mb). Qed.

(** the example without the value that mentions a type formal of the module *)
Definition demo_closed : program := mkProgram demo_type
  (fun p => match p with 0 => 1 | _ => 2 end) Bo demo_node
  (fun d => match d with 6 => demo_value 0 | _ => demo_value d end) (fun u => u / 10) demo_env
  (fun _ => TFun [(false, I); (false, I)] (TUse 3)) (fun _ => None) (fun _ => None).
Example demo_is_closed : closed_program demo_closed /\ Forall (mono_stmt demo_closed) good_block.
Proof.
  split; [constructor|].
  - intros u H. cbn [demo_closed p_env p_value p_use] in *. unfold demo_env in H.
    destruct (u / 10) as [|[|[|[|[|[|[|[|[|]]]]]]]]] eqn:E; try (exfalso; apply H; reflexivity).
    + eexists. split; [reflexivity|]. cbn. unfold demo_env. rewrite E. cbn.
      repeat split; exists 0; (split; [reflexivity|left; reflexivity]).
    + eexists. split; [reflexivity|]. cbn. unfold demo_env. rewrite E. cbn.
      repeat split; exists 1; (split; [reflexivity|left; reflexivity]).
    + eexists. split; [reflexivity|]. cbn. unfold demo_env. rewrite E. cbn.
      repeat split; exists 0; (split; [reflexivity|left; reflexivity]).
    + eexists. split; [reflexivity|]. cbn. unfold demo_env. rewrite E. cbn.
      repeat split; exists 0; (split; [reflexivity|left; reflexivity]).
  - intros u d t _ E. destruct (demo_renames d t E) as [_ ->]. exact Logic.I.
  - intros u d p i ph sg t E K H.
    destruct (demo_formals _ _ _ _ _ E) as [[-> [A [B ->]]]|[[-> A]|[[-> [A [B ->]]]|[-> [A [B ->]]]]]];
      try contradiction; [discriminate|].
    destruct H as [H|[H|[]]]; [discriminate|]. injection H as <-. injection A as ->.
    cbn. exists 1. split; [reflexivity|exact K].
  - repeat constructor.
Qed.

(** A well typed call of a polymorphic function whose type mentions a type formal of
    the module around it reads a null pointer. *)
Theorem C130_no_crash_refuted : exists b,
  (exists s v, Forall (ok_stmt demo s v every) b) /\ check_block demo 30 30 b start = Ub.
Proof.
  exists [SValue Bo (Simple 30)]. split; [|vm_compute; reflexivity].
  exists (fun _ _ _ => I), (fun _ => I). constructor; [|constructor]. constructor. constructor.
  apply ht_call with (f := 31) (args := [32; 33]) (fs := [(false, TUse 5); (false, I)]); [reflexivity| |].
  - change (TFun [(false, TUse 5); (false, I)] Bo)
      with (inst demo (fun _ _ _ => I) 60 (TFun [(false, TUse 5); (false, TUse 2)] Bo)).
    apply ht_use; [reflexivity|]. apply vt_typed. reflexivity.
  - constructor; [|constructor; [|constructor]].
    + change (TUse 5) with (inst demo (fun _ _ _ => I) 70 (TUse 5)). apply ht_use; [reflexivity|]. apply vt_typed. reflexivity.
    + change (has_type demo (fun _ _ _ => I) (fun _ => I) 33 (inst demo (fun _ _ _ => I) 13 I)). apply ht_use; [reflexivity|]. apply vt_typed. reflexivity.
Qed.

(** ** C131: constant functions *)
Lemma impure_complete : forall P fd e, reads_var P fd e -> forall n, impure P n fd e <> Done false.
Proof.
  intros P fd e H. induction H as [e u t E K V O|e f args E H IH]; intros [|n]; cbn [impure]; try discriminate.
  - rewrite E, K, V. destruct (v_owner (p_value P (p_use P u))) as [o|]; [|discriminate].
    destruct (o =? fd) eqn:Q; [|discriminate]. apply Nat.eqb_eq in Q. subst o. exfalso. exact (O eq_refl).
  - rewrite E. apply IH.
Qed.
Theorem C131_constant_functions_partial : forall P N n m b st e fd t st',
  wf_types P ->
  check_block P N n b start = Done (st, tt) -> s_memo st e = None ->
  p_within P e = Some fd -> reads_var P fd e ->
  r_check (run P N m) e (Some t) st = Done (st', tt) ->
  s_err st' = true.
Proof.
  intros P N n m b st e fd t st' W _ Em Wi Rv E. destruct m as [|m]; [discriminate|].
  set (st1 := mkSt true (s_slot st) (s_memo st) (s_pmemo st)).
  assert (E1 : r_check (run P N (S m)) e (Some t) st1 = Done (st', tt)).
  { cbn [run r_check check_body] in E |- *. rewrite Em in E. unfold st1 at 1. cbn [s_memo]. rewrite Em.
    rewrite Wi in E |- *. unfold bind at 1 2 in E. unfold bind at 1 2. unfold lift in E |- *.
    pose proof (impure_complete _ _ _ Rv N) as K.
    destruct (impure P N fd e) as [[|]| | |]; try discriminate; [|exfalso; apply K; reflexivity].
    exact E. }
  destruct (s_err st') eqn:F; [reflexivity|]. exfalso.
  assert (So : sound_st P st1) by (intro X; discriminate X).
  destruct (g_check _ _ (good_run P W N (S m)) e (Some t) st1 st' tt So E1) as [St _].
  pose proof (sp_err _ _ _ St F) as X. discriminate X.
Qed.
Example demo_impure : reads_var demo 0 42 /\ errors demo [SValue I (Simple 42)] = Some true.
Proof. split; [|vm_compute; reflexivity]. eapply rv_use; try reflexivity. discriminate. Qed.
Example demo_impure_argument : errors demo [SValue I (Simple 44)] = Some true.
Proof. vm_compute. reflexivity. Qed.
(** ... but not in an argument of a polymorphic function: variable = 7 *)
Theorem C131_constant_functions_refuted : exists e e' st,
  child demo e e' /\ p_within demo e = Some 0 /\ p_within demo e' = Some 0 /\ reads_var demo 0 e' /\
  check_block demo 30 30 [SValue Bo (Simple e)] start = Done (st, tt) /\ s_err st = false.
Proof.
  exists 40, 42.
  set (r := check_block demo 30 30 [SValue Bo (Simple 40)] start).
  assert (H : match r with Done (st, _) => s_err st | _ => true end = false) by (vm_compute; reflexivity).
  destruct r as [[st []]| | |]; try discriminate. exists st.
  split; [right; left; reflexivity|]. split; [reflexivity|]. split; [reflexivity|].
  split; [eapply rv_use; try reflexivity; discriminate|]. split; [reflexivity|exact H].
Qed.

(** ** C132: no false alarms *)
Theorem C132_no_false_alarms_partial : forall P s v W0 N n b,
  monomorphic P ->
  Forall (ready P s v W0 (fun _ => False)) b -> Forall (ok_stmt P s v every) b ->
  match check_block P N n b start with
  | Done (st, _) => s_err st = false
  | Abort | Ub => False
  | Fuel => True
  end.
Proof. intros P s v W0 N n b Mo Rd Ok. exact (no_alarm P Mo s v W0 N n b Rd Ok). Qed.

(** Types of an expression [undefined = 7] *)
Theorem C132_undefined_refuted : exists b st,
  (exists s v, Forall (ok_stmt demo s v every) b) /\
  check_block demo 30 30 b start = Done (st, tt) /\ s_err st = true.
Proof.
  exists [SValue Bo (Simple 20)].
  set (r := check_block demo 30 30 [SValue Bo (Simple 20)] start).
  assert (H : match r with Done (st, _) => s_err st | _ => false end = true) by (vm_compute; reflexivity).
  destruct r as [[st []]| | |]; try discriminate. exists st. split; [|split; [reflexivity|exact H]].
  exists (fun _ _ _ => I), (fun _ => I). constructor; [|constructor]. constructor. constructor.
  apply ht_call with (f := 21) (args := [22; 23]) (fs := [(false, I); (false, I)]); [reflexivity| |].
  - change (TFun [(false, I); (false, I)] Bo)
      with (inst demo (fun _ _ _ => I) 1 (TFun [(false, TUse 2); (false, TUse 2)] Bo)).
    apply ht_use; [reflexivity|]. apply vt_typed. reflexivity.
  - constructor; [|constructor; [|constructor]].
    + apply ht_undefined. reflexivity.
    + apply ht_const. reflexivity.
Qed.

(** A monomorphic program: a loop over a list, a match, an assignment to an attribute. *)
Definition mono_node (e : nat) : enode :=
  match e with
  | 0 => EUse 0                   (* the list *)
  | 1 => ECall 2 [3]              (* attribute of a node *)
  | 2 => EUse 2
  | 3 => EUse 3
  | 4 => EUse 4                   (* element of the list *)
  | 5 => EUse 5                   (* a pattern variable *)
  | 6 => EAppend 0 0
  | _ => EConst I
  end.
Definition mono_value (d : nat) : vdecl :=
  match d with
  | 0 => mkV (VTyped (TUse 3)) false None
  | 2 => mkV (VTyped (TFun [(false, TUse 8)] I)) true None
  | 3 => mkV (VTyped (TUse 8)) false None
  | 4 => mkV (VElement 0) false None
  | 5 => mkV (VPattern 0) false None
  | _ => mkV (VTyped I) false None
  end.
Definition mono : program := mkProgram demo_type
  (fun p => match p with 0 => 1 | _ => 2 end) Bo mono_node mono_value (fun u => u) (fun _ => [])
  (fun _ => TFun [(false, I); (false, TUse 4)] (TUse 3)) (fun _ => None) (fun _ => None).
Definition mono_block : list stmt :=
  [SForIn 0 [SAssign true 1 4];
   SCase 6 [(PCall (PUse 9) [PVar 0; PNo], [SAssign true 1 5])] [SValue I (Simple 7)]].
Lemma mono_mono : monomorphic mono.
Proof.
  constructor.
  - reflexivity.
  - intros e H. cbn in H. do 8 (destruct e as [|e]; cbn in H; try discriminate).
  - intros d o i ph sg x y E Hx Hy.
    assert (S5 : forall o i ph sg, demo_type 5 = DFormal o i ph sg -> sg = []) by (intros ? ? ? ? X; injection X as <- <- <- <-; reflexivity).
    destruct (demo_formals _ _ _ _ _ E) as [[-> [A [B ->]]]|[[-> A]|[[-> [A [B ->]]]|[-> [A [B ->]]]]]];
      try contradiction; [rewrite (S5 _ _ _ _ E) in Hx; contradiction|].
    destruct Hx as [Hx|[Hx|[]]]; [discriminate|]. destruct Hy as [Hy|[Hy|[]]]; [discriminate|].
    injection Hx as <-. injection Hy as <-. apply same_refl.
  - discriminate.
  - reflexivity.
Qed.
Definition mono_inst : instantiation := fun _ _ _ => I.
Definition mono_vars : nat -> ty := fun _ => I.
Lemma mono_list : has_type mono mono_inst mono_vars 0 (TUse 3).
Proof. change (TUse 3) with (inst mono mono_inst 0 (TUse 3)). apply ht_use; [reflexivity|]. apply vt_typed. reflexivity. Qed.
Lemma mono_element : element mono (TUse 3) I.
Proof. apply el_inst. reflexivity. Qed.
Lemma mono_four : same mono I (TUse 4).
Proof. apply same_sym. apply same_rename. reflexivity. Qed.
Lemma mono_attr : has_type mono mono_inst mono_vars 1 I.
Proof.
  apply ht_call with (f := 2) (args := [3]) (fs := [(false, TUse 8)]); [reflexivity| |].
  - change (TFun [(false, TUse 8)] I) with (inst mono mono_inst 2 (TFun [(false, TUse 8)] I)).
    apply ht_use; [reflexivity|]. apply vt_typed. reflexivity.
  - constructor; [|constructor]. change (TUse 8) with (inst mono mono_inst 3 (TUse 8)).
    apply ht_use; [reflexivity|]. apply vt_typed. reflexivity.
Qed.
Example mono_ok : Forall (ok_stmt mono mono_inst mono_vars every) mono_block.
Proof.
  constructor; [|constructor; [|constructor]].
  - apply os_forin with (TUse 3); [exact mono_list|]. constructor; [|constructor].
    apply os_assign with I; [exact mono_attr| |exists 2; split; reflexivity].
    change I with (inst mono mono_inst 4 I). apply ht_use; [reflexivity|].
    eapply vt_element; [reflexivity|exact mono_list|exact mono_element].
  - apply os_case with (TUse 3).
    + eapply ht_append; [reflexivity|exact mono_list|exact mono_list].
    + constructor; [|constructor]. split.
      * intros _. apply hp_call with (fs := [(false, I); (false, TUse 4)]).
        -- change (TFun [(false, I); (false, TUse 4)] (TUse 3))
             with (inst mono mono_inst 9 (p_pdecl mono (p_use mono 9))). apply hp_use.
        -- constructor; [|constructor; [|constructor]].
           ++ change I with (mono_vars 0). apply hp_var. reflexivity.
           ++ apply hp_no.
      * constructor; [|constructor]. apply os_assign with I; [exact mono_attr| |exists 2; split; reflexivity].
        change I with (inst mono mono_inst 5 (mono_vars 0)). apply ht_use; [reflexivity|]. apply vt_pattern. reflexivity.
    + constructor; [|constructor]. constructor. constructor. apply ht_const. reflexivity.
Qed.

Fixpoint plain_ty (t : ty) : Prop :=
  match t with
  | TUse d => In d [0; 1; 3; 4; 7; 8]
  | TFun fs r => (fix go (l : list (bool * ty)) : Prop :=
                    match l with [] => True | f :: l' => plain_ty (snd f) /\ go l' end) fs /\ plain_ty r
  | TRemote _ => False
  end.
Lemma mono_written : forall t, written mono (fun t => t = I) t -> plain_ty t.
Proof.
  intros t H. induction H as [t E|d t E|e t E|e e' t E| |d|x t E|d t E|d t E|d o i ph sg t E K|t H IH|k t fs r H IH K|fs r H IH|t H IH].
  - subst t. cbn. tauto.
  - cbn in E. destruct d as [|[|[|[|[|[|d]]]]]]; cbn in E; try discriminate; injection E as <-; cbn; tauto.
  - cbn in E. destruct e as [|[|[|[|[|[|[|e]]]]]]]; cbn in E; try discriminate; injection E as <-; cbn; tauto.
  - cbn in E. destruct e as [|[|[|[|[|[|[|e]]]]]]]; cbn in E; discriminate.
  - cbn. tauto.
  - cbn. tauto.
  - discriminate.
  - destruct (demo_renames d t E) as [_ ->]. cbn. tauto.
  - cbn in E. destruct d as [|[|[|[|[|[|[|[|d]]]]]]]]; cbn in E; try discriminate. injection E as <-. cbn. tauto.
  - assert (S5 : forall o i ph sg, demo_type 5 = DFormal o i ph sg -> sg = []) by (intros ? ? ? ? X; injection X as <- <- <- <-; reflexivity).
    destruct (demo_formals _ _ _ _ _ E) as [[-> [A [B ->]]]|[[-> A]|[[-> [A [B ->]]]|[-> [A [B ->]]]]]];
      try contradiction; [rewrite (S5 _ _ _ _ E) in K; contradiction|].
    destruct K as [K|[K|[]]]; [discriminate|]. injection K as <-. cbn. tauto.
  - contradiction.
  - destruct IH as [IH _]. clear H. induction fs as [|f l IHl]; [contradiction|]. destruct IH as [I1 I2].
    destruct K as [->|K]; [exact I1|exact (IHl K I2)].
  - exact (proj2 IH).
  - cbn. tauto.
Qed.
Lemma mono_remote : forall t, remote mono t -> plain_ty t -> t = TUse 7.
Proof.
  intros t H. induction H as [t|d o i sg E|d t E H IH]; intro K; [contradiction| |].
  - destruct (demo_formals _ _ _ _ _ E) as [[-> _]|[[-> _]|[[-> _]|[-> _]]]]; try reflexivity; cbn in K;
      repeat (destruct K as [K|K]; [discriminate|]); contradiction.
  - destruct (demo_renames d t E) as [-> ->]. exfalso. assert (X : I = TUse 7) by (apply IH; cbn; tauto). discriminate X.
Qed.
Lemma mono_use : forall e u t t', p_node mono e = EUse u -> v_kind (p_value mono u) = VTyped t ->
  has_type mono mono_inst mono_vars e t' -> same mono t t'.
Proof.
  intros e u t t' E V H. apply (has_type_inv mono mono_mono) in H. rewrite E in H. destruct H as [t0 [A B]].
  inversion A; subst; change (p_use mono u) with u in H; rewrite V in H; try discriminate. injection H as <-. exact B.
Qed.
Example mono_ready : Forall (ready mono mono_inst mono_vars (fun t => t = I) (fun _ => False)) mono_block.
Proof.
  assert (T : target mono mono_inst mono_vars (fun t => t = I) true 1).
  { right. cbn. intros t Wt H R. pose proof (mono_remote t R (mono_written t Wt)) as ->.
    pose proof (mono_use 3 3 (TUse 8) (TUse 7) eq_refl eq_refl H) as S. revert S.
    apply (proj1 (proj2 (C126_type_equality mono (TUse 8) (TUse 7))) 5). vm_compute. reflexivity. }
  assert (Z : forall B e, (e = 0 \/ e = 1 \/ e = 2 \/ e = 3 \/ e = 4 \/ e = 6 \/ e = 7) -> in_scope mono B e).
  { intros B e He x M. exfalso. revert He. induction M as [e u x E K|e e' x C M IH]; intro He.
    - repeat (destruct He as [He|He]; [subst e; cbn in E; try discriminate; injection E as <-; discriminate K|]).
      subst e. discriminate E.
    - apply IH. unfold child in C.
      repeat (destruct He as [He|He]; [subst e; cbn in C; try contradiction; intuition|]).
      subst e. contradiction. }
  constructor; [|constructor; [|constructor]].
  - cbn [ready]. split; [apply Z; tauto|]. split; [|exact Logic.I]. split; [exact T|]. split; apply Z; tauto.
  - cbn [ready]. split; [apply Z; tauto|]. split; [|split; [split; [reflexivity|apply Z; tauto]|exact Logic.I]].
    split; [|exact Logic.I]. split; [|split].
    + cbn. split; [|repeat split]. exists 9. eexists. eexists. split; reflexivity.
    + cbn. tauto.
    + split; [|exact Logic.I]. split; [exact T|]. split; [apply Z; tauto|].
      intros x M. inversion M as [e u x0 E K|e e' x0 C M']; subst.
      * injection E as <-. injection K as <-. right. left. reflexivity.
      * contradiction.
Qed.
Example mono_accepted : errors mono mono_block = Some false.
Proof. vm_compute. reflexivity. Qed.

(** ** C133: types asked for after the check *)
Theorem C133_later_partial : forall P N n b st e st' o m,
  wf_types P -> check_block P N n b start = Done (st, tt) ->
  r_infer (run P N m) e st = Done (st', o) -> s_err st' = false ->
  exists t, o = Some t /\ forall s v, agrees st' s v -> has_type P s v e t.
Proof. intros P N n b st e st' o m W E. exact (later_sound P W N n b st e st' o m E). Qed.
Example demo_later : match r_infer (run demo 30 30) 5 demo_end with Done (st, o) => (s_err st, o) | _ => (true, None) end
  = (false, Some (TFun [(true, I)] (TUse 3))).
Proof. vm_compute. reflexivity. Qed.
(** A call without arguments leaves the type formal of the function open; the type of
    the function is asked for when code is generated. *)
Theorem C133_later_refuted : exists b st f,
  check_block demo 30 30 b start = Done (st, tt) /\ s_err st = false /\
  p_node demo 50 = ECall f [] /\ b = [SValue I (Simple 50)] /\
  forall m, r_infer (run demo 30 (S m)) f st = Abort.
Proof.
  set (r := check_block demo 30 30 [SValue I (Simple 50)] start).
  assert (H : match r with Done (st, _) => (s_err st, s_memo st 51, s_slot st 80 0 0) | _ => (true, None, None) end = (false, None, None))
    by (vm_compute; reflexivity).
  exists [SValue I (Simple 50)]. fold r. destruct r as [[st []]| | |]; try discriminate.
  exists st, 51. injection H as H1 H2 H3. split; [reflexivity|]. split; [exact H1|]. split; [reflexivity|]. split; [reflexivity|].
  intro m. cbn [run r_infer]. unfold infer_body. rewrite H2. cbn. unfold bind, ret. cbn. unfold type_subst. cbn.
  unfold demo_env. cbn. unfold bind. rewrite H3. reflexivity.
Qed.

Print Assumptions C126_type_equality.
Print Assumptions C126_cyclic_refuted.
Print Assumptions C127_well_typed.
Print Assumptions C128_patterns_partial.
Print Assumptions C128_annotations_refuted.
Print Assumptions C129_bounds_partial.
Print Assumptions C130_no_crash_partial.
Print Assumptions C130_no_crash_refuted.
Print Assumptions C131_constant_functions_partial.
Print Assumptions C131_constant_functions_refuted.
Print Assumptions C132_no_false_alarms_partial.
Print Assumptions C132_undefined_refuted.
Print Assumptions C133_later_partial.
Print Assumptions C133_later_refuted.
