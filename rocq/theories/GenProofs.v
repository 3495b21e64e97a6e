(** * GenProofs: the text of a visit procedure is that of a program. *)
From Verif Require Import Base CondModel OagModel PropsCond ChunkModel SchedSpec GenModel GenSpec.
Open Scope nat_scope.

(** ** The program *)
Definition isopen (allowed : bool) (loop : option nat) : bool := match loop with Some _ => allowed | None => false end.
Definition notes (G : gen) : list stmt := if g_comments G then [SNote] else [].
Definition loopify (id : nat) (b1 b2 : list stmt) : list stmt := match b1 with [] => b2 | _ => SLoop id b1 :: b2 end.
(** ss and then the rest *)
Definition andthen (open : bool) (ss : list stmt) (b : list stmt * list stmt) : list stmt * list stmt :=
  if open then (ss ++ fst b, snd b) else (fst b, ss ++ snd b).
Inductive cstep := Same | Close (post : list stmt) | Start.
Definition chunk_step (G : gen) (phase : nat) (allowed : bool) (chunk : option nat) (ck : nat) (circular : bool) : res cstep :=
  match chunk with
  | None => Ok Same
  | Some c =>
    if g_mod G || (ck =? c) then Ok Same else
    if allowed && circular then
      flag <- rd (cyclic_flags (g_parent G)) phase ;;
      Ok (if flag : bool then Close (notes G) else Start)
    else Ok (Close [])
  end.
Definition loop_after (s : cstep) (allowed : bool) (loop : option nat) (ck : nat) : option nat :=
  match s with Same => loop | Close _ => if allowed then None else loop | Start => Some ck end.
Definition after (G : gen) (open : bool) (s : cstep) (ck : nat) (b : list stmt * list stmt) : list stmt * list stmt :=
  let n := notes G in
  match s with
  | Same => b
  | Close post => if open then (n, n ++ post ++ snd b) else ([], n ++ n ++ post ++ snd b)
  | Start => let c := loopify ck (fst b) (snd b) in if open then (n, n ++ c) else ([], n ++ n ++ c)
  end.
Definition assign_stmts (G : gen) (i : nat) (p : place) (ch : Z) (rhs : Z) : res (list stmt) :=
  if Z.eqb rhs 0 then Ok [] else
  match pl_node p with
  | NAssign | NPragma => Ok (notes G)
  | nk =>
    if pl_fiber p then
      match g_lhs G rhs with LValueUse | LFieldRef => Ok [SSet i rhs] | _ => Exit end
    else
    match nk with
    | NNone =>
      if pl_local_attr p then Ok [SSet i rhs] else
      if pl_prefix p =? 0 then Ok (notes G) else Ok [SSet i rhs]
    | _ =>
      if Z.ltb ch (g_nch G) || pl_lhs p then
        if pl_shared p && Z.ltb ch (g_nch G) then Ok (notes G) else
        if pl_updown p then Ok (notes G) else Ok [SSet i rhs]
      else match nk with NValue => Ok [SSet i rhs] | _ => Ok [SNote] end
    end
  end.
Fixpoint assigns_stmts (G : gen) (i : nat) (p : place) (ch : Z) (s : list Z) : res (list stmt) :=
  match s with [] => Ok [] | e :: s => a <- assign_stmts G i p ch e ;; b <- assigns_stmts G i p ch s ;; Ok (a ++ b) end.
(** the end of a visit: the code before a loop is closed *)
Definition end_step (G : gen) (allowed : bool) (ck ph : nat) : res (list stmt) :=
  if g_mod G then
    flag <- rd (cyclic_flags (g_parent G)) ph ;;
    Ok ((if flag && allowed then [SLoop ck [SRoots ph]] else [SRoots ph]) ++ notes G)
  else Ok (notes G).
Definition child_step (G : gen) (phase : nat) (ch ph : nat) : res (list stmt) :=
  child <- rd (g_children G) ch ;;
  match child with
  | None => UB
  | Some pg =>
    pflag <- rd (cyclic_flags (g_parent G)) phase ;;
    _ <- (if g_comments G || negb pflag then rd (cyclic_flags pg) ph else Ok false) ;;
    Ok [SCall ch ph]
  end.
Definition closed (open : bool) (s : stmt) : list stmt * list stmt := if open then ([s], []) else ([], [s]).
Definition ended (open : bool) (ss : list stmt) (b : list stmt) : list stmt * list stmt := if open then (ss, b) else ([], ss ++ b).
(** what is known about the instance *)
Definition info (G : gen) (inst : option nat) : res (option (nat * ginst)) :=
  match inst with Some i => x <- rd (g_insts G) i ;; Ok (Some (i, x)) | None => Ok None end.
Definition always (gi : option (nat * ginst)) : bool := match gi with Some (_, x) => match gi_kind x with GPlain _ => false | _ => true end | None => false end.
Definition planner := list (list Z) -> bool -> option nat -> condition -> res (condition * (list stmt * list stmt)).
Definition core (G : gen) (phase : nat) (skip : bool) (gi : option (nat * ginst)) (ph ch : Z) (visit ck : nat) (asg : list (list Z)) (allowed : bool) (loop : option nat) (cond : condition) (if_true next : planner) : res (condition * (list stmt * list stmt)) :=
  let open := isopen allowed loop in
  if skip && negb (always gi) && negb (visit =? phase) then next asg allowed loop cond else
  match gi with
  | None =>
    if Z.eqb ch (-1) then
      if Z.ltb ph 0 then UB else
      ss <- end_step G allowed ck (Z.to_nat ph) ;;
      if Z.eqb ph (Z.of_nat phase) then Ok (cond, ended open ss []) else
      '(cond, b) <- next asg allowed (if allowed && negb (g_mod G) then None else loop) cond ;;
      Ok (cond, ended open ss (snd b))
    else if Z.ltb (-1) ch then
      if Z.ltb ph 0 then UB else
      ss <- child_step G phase (Z.to_nat ch) (Z.to_nat ph) ;;
      '(cond, b) <- next asg allowed loop cond ;;
      Ok (cond, andthen open ss b)
    else Exit
  | Some (i, x) =>
    if impossible (merge_cond cond (gi_cond x)) then '(cond, b) <- next asg allowed loop cond ;; Ok (cond, andthen open (notes G) b) else
    match gi_kind x with
    | GForIn stmt body =>
      asg' <- make_instance_assignment G body asg ;;
      '(cond, b) <- next asg' (allowed_inside allowed loop) loop cond ;;
      Ok (cond, closed open (SFor stmt (snd b)))
    | GPlain p =>
      if gi_inward x then '(cond, b) <- next asg allowed loop cond ;; Ok (cond, andthen open (notes G) b) else
      s <- rd asg i ;;
      ss <- assigns_stmts G i p ch s ;;
      '(cond, b) <- next asg allowed loop cond ;;
      Ok (cond, andthen open ss b)
    | GIf index b1 b2 =>
      let cmask := N.shiftl 1 (N.of_nat index) in
      asg1 <- make_instance_assignment G b1 asg ;;
      '(cond, x1) <- if_true asg1 (allowed_inside allowed loop) loop (mkCond (N.lor (positive cond) cmask) (negative cond)) ;;
      let cond := mkCond (N.ldiff (positive cond) cmask) (negative cond) in
      asg2 <- make_instance_assignment G b2 asg ;;
      '(cond, x2) <- next asg2 (allowed_inside allowed loop) loop (mkCond (positive cond) (N.lor (negative cond) cmask)) ;;
      let cond := mkCond (positive cond) (N.ldiff (negative cond) cmask) in
      Ok (cond, closed open (SIf i (snd x1) (snd x2)))
    | GMatch index header first b1 b2 =>
      let cmask := N.shiftl 1 (N.of_nat index) in
      asg1 <- make_instance_assignment G b1 asg ;;
      '(cond, x1) <- if_true asg1 (allowed_inside allowed loop) loop (mkCond (N.lor (positive cond) cmask) (negative cond)) ;;
      let cond := mkCond (N.ldiff (positive cond) cmask) (negative cond) in
      asg2 <- match b2 with Some b => make_instance_assignment G b asg | None => Ok asg end ;;
      '(cond, x2) <- next asg2 (allowed_inside allowed loop) loop (mkCond (positive cond) (N.lor (negative cond) cmask)) ;;
      let cond := mkCond (positive cond) (N.ldiff (negative cond) cmask) in
      Ok (cond, andthen open (if first then [SLet header] else []) (closed open (SMatch i (snd x1) (snd x2))))
    end
  end.
Fixpoint plan (G : gen) (phase : nat) (skip : bool) (t : cto) (asg : list (list Z)) (chunk : option nat) (allowed : bool) (loop : option nat) (cond : condition) : res (condition * (list stmt * list stmt)) :=
  match t with
  | Null => Ok (cond, ([], []))
  | Node _ _ inst (ph, ch) visit ck circular if_true next =>
    gi <- info G inst ;;
    step <- chunk_step G phase allowed chunk ck circular ;;
    '(cond, b) <- core G phase skip gi ph ch visit ck asg allowed (loop_after step allowed loop ck) cond
       (fun asg => plan G phase skip if_true asg (Some ck)) (fun asg => plan G phase skip next asg (Some ck)) ;;
    Ok (cond, after G (isopen allowed loop) step ck b)
  end.

(** ** What the writer holds in the end *)
Notation flat := (flat_map text).
Definition realize (allowed : bool) (loop : option nat) (w : writer) (b : list stmt * list stmt) : writer :=
  match loop, allowed with
  | Some id, true =>
    match w_queue w, fst b with
    | [], b1 => mkW (w_out w ++ flat b1 ++ TWhile id :: flat (snd b)) []
    | _, [] => mkW (w_out w ++ flat (snd b)) []
    | _, b1 => mkW (w_out w ++ TDo id :: flat b1 ++ TWhile id :: flat (snd b)) []
    end
  | _, _ => mkW (w_out w ++ flat (snd b)) []
  end.
Definition winv (allowed : bool) (loop : option nat) (w : writer) : Prop :=
  w_queue w = [] \/ exists id, loop = Some id /\ allowed = true /\ w_queue w = [id].
Definition emit (ss : list stmt) (w : writer) : writer := match ss with [] => w | _ => put (flat ss) w end.

Lemma emit_app a b w : emit (a ++ b) w = emit b (emit a w).
Proof.
  destruct a as [|s a]; [reflexivity|]. destruct b as [|s' b]; [now rewrite app_nil_r|]. cbn [emit app]. unfold put. cbn [w_out w_queue map]. f_equal.
  change (s :: a ++ s' :: b) with ((s :: a) ++ s' :: b). rewrite flat_map_app, <- !app_assoc. reflexivity.
Qed.
Lemma note_emit G w : note G w = emit (notes G) w.
Proof. unfold note, notes. destruct (g_comments G); reflexivity. Qed.
Lemma winv_put a l ts w : winv a l (put ts w).
Proof. left. reflexivity. Qed.
Lemma winv_emit a l ss w : winv a l w -> winv a l (emit ss w).
Proof. intros H. destruct ss; [exact H|apply winv_put]. Qed.
Lemma emit_closed ss w : w_queue w = [] -> emit ss w = mkW (w_out w ++ flat ss) [].
Proof. intros E. destruct ss; cbn [emit]; [rewrite app_nil_r; destruct w; cbn in *; now rewrite E|]. unfold put. rewrite E. reflexivity. Qed.
Lemma realize_shut a l w b : isopen a l = false -> realize a l w b = mkW (w_out w ++ flat (snd b)) [].
Proof. unfold isopen, realize. destruct l; [intros ->|]; reflexivity. Qed.
Lemma realize_emit a l ss w b : winv a l w -> realize a l (emit ss w) b = realize a l w (andthen (isopen a l) ss b).
Proof.
  intros I. unfold andthen. destruct (isopen a l) eqn:O.
  - destruct l as [id|]; [|discriminate]. cbn in O. subst a. unfold realize. cbn [fst snd]. destruct ss as [|s ss]; [destruct b; reflexivity|]. cbn [emit app]. unfold put. cbn [w_queue w_out].
    destruct I as [E|(id' & E1 & _ & E)].
    + rewrite E. cbn [map app]. change (s :: ss ++ fst b) with ((s :: ss) ++ fst b). rewrite flat_map_app, <- !app_assoc. reflexivity.
    + injection E1 as <-. rewrite E. cbn [map app]. change (s :: ss ++ fst b) with ((s :: ss) ++ fst b). rewrite flat_map_app, <- !app_assoc. reflexivity.
  - rewrite !realize_shut by auto. cbn [snd]. assert (E : w_queue w = []) by (destruct I as [|(id & -> & -> & _)]; [auto|discriminate]). rewrite emit_closed by auto. cbn [w_out]. rewrite flat_map_app, app_assoc. reflexivity.
Qed.
Lemma realize_null a l w : winv a l w -> close_loop a l w = realize a l w ([], []).
Proof.
  intros I. unfold close_loop, realize, dump_loop_end, clear_since, contains_marker. destruct l as [id|], a; cbn [fst snd]; try (cbn; rewrite app_nil_r; destruct I as [E|(id' & E1 & E2 & E)]; [destruct w; cbn in *; now rewrite E|congruence]).
  destruct I as [E|(id' & E1 & _ & E)].
  - rewrite E. cbn. unfold put. rewrite E. reflexivity.
  - injection E1 as <-. rewrite E. cbn. rewrite Nat.eqb_refl. cbn. rewrite app_nil_r. reflexivity.
Qed.
Lemma close_queue a l w : winv a l w -> w_queue (close_loop a l w) = [].
Proof. intros I. rewrite (realize_null a l w I). unfold realize. destruct l, a; cbn; try reflexivity. destruct (w_queue w); reflexivity. Qed.
Lemma realize_close l w b : winv true l w -> realize true None (close_loop true l w) b = realize true l w (ended (isopen true l) [] (snd b)).
Proof.
  intros I. unfold ended. destruct l as [id|]; cbn [isopen].
  - unfold close_loop, dump_loop_end, clear_since, contains_marker, realize. cbn [fst snd]. destruct I as [E|(id' & E1 & _ & E)].
    + rewrite E. cbn. unfold put. rewrite E. cbn. rewrite <- app_assoc. reflexivity.
    + injection E1 as <-. rewrite E. cbn. rewrite Nat.eqb_refl. cbn. reflexivity.
  - cbn. reflexivity.
Qed.
Lemma realize_start ck w b : w_queue w = [] -> dump_loop_start ck w = Ok (mkW (w_out w) [ck]) /\ realize true (Some ck) (mkW (w_out w) [ck]) b = realize true None w ([], loopify ck (fst b) (snd b)).
Proof.
  intros E. unfold dump_loop_start, queue_write, contains_marker. rewrite E. split; [reflexivity|]. unfold realize, loopify. cbn [w_queue w_out fst snd]. destruct (fst b) as [|s b1]; [reflexivity|]. cbn [flat_map text]. f_equal. f_equal. cbn [app]. now rewrite <- !app_assoc.
Qed.

(** ** The code for assignments *)
Lemma assign_emit G i p ch rhs w : assign_tokens G i p ch rhs w = (ss <- assign_stmts G i p ch rhs ;; Ok (emit ss w)).
Proof.
  unfold assign_tokens, assign_stmts. rewrite !note_emit. destruct (Z.eqb rhs 0); [reflexivity|]. destruct (pl_node p), (pl_fiber p), (g_lhs G rhs), (pl_local_attr p), (pl_prefix p =? 0), (Z.ltb ch (g_nch G)), (pl_lhs p), (pl_shared p), (pl_updown p); reflexivity.
Qed.
Lemma assigns_emit G i p ch s : forall w, assigns_tokens G i p ch s w = (ss <- assigns_stmts G i p ch s ;; Ok (emit ss w)).
Proof.
  induction s as [|e s IH]; intros w; [reflexivity|]. unfold assigns_tokens. cbn [foldM assigns_stmts]. rewrite assign_emit. destruct (assign_stmts G i p ch e) as [a| | |]; cbn [bind]; try reflexivity.
  fold (assigns_tokens G i p ch s (emit a w)). rewrite IH. destruct (assigns_stmts G i p ch s) as [b| | |]; cbn [bind]; try reflexivity. now rewrite emit_app.
Qed.
Lemma child_emit G phase ch ph w : child_visit G phase ch ph w = (ss <- child_step G phase ch ph ;; Ok (emit ss w)).
Proof.
  unfold child_visit, child_step. destruct (rd (g_children G) ch) as [[pg|]| | |]; cbn [bind]; try reflexivity. destruct (rd (cyclic_flags (g_parent G)) phase) as [f| | |]; cbn [bind]; try reflexivity.
  destruct (g_comments G || negb f); cbn [bind]; [|reflexivity]. destruct (rd (cyclic_flags pg) ph); reflexivity.
Qed.

(** ** A new chunk; the end of a visit *)
Definition okres {X Y} (r : res X) (f : X -> res Y) : res Y := bind r f.
Lemma chunk_emit G phase allowed chunk loop ck circ w : winv allowed loop w -> (g_mod G = true -> loop = None) ->
  (next_chunk G phase allowed chunk loop ck circ w = UB /\ chunk_step G phase allowed chunk ck circ = UB) \/
  exists step w', next_chunk G phase allowed chunk loop ck circ w = Ok (loop_after step allowed loop ck, w') /\ chunk_step G phase allowed chunk ck circ = Ok step /\
    winv allowed (loop_after step allowed loop ck) w' /\ (g_mod G = true -> loop_after step allowed loop ck = None) /\
    forall b, realize allowed (loop_after step allowed loop ck) w' b = realize allowed loop w (after G (isopen allowed loop) step ck b).
Proof.
  intros I Hm. unfold next_chunk, chunk_step. destruct chunk as [c|]; [|right; exists Same, w; cbn; ands; auto]. destruct (g_mod G || (ck =? c)) eqn:Em; [right; exists Same, w; cbn; ands; auto|]. apply orb_false_iff in Em. destruct Em as [Em _].
  rewrite !note_emit. set (n := notes G). set (w1 := emit n w). assert (I1 : winv allowed loop w1) by now apply winv_emit. assert (Q2 : w_queue (close_loop allowed loop w1) = []) by now apply close_queue.
  assert (Q3 : w_queue (emit n (close_loop allowed loop w1)) = []) by (destruct n; [exact Q2|reflexivity]).
  assert (KEY : forall post b, realize allowed (if allowed then None else loop) (emit post (emit n (close_loop allowed loop w1))) b = realize allowed loop w (after G (isopen allowed loop) (Close post) ck b)).
  { intros post b. assert (W0 : winv allowed (if allowed then None else loop) (close_loop allowed loop w1)) by (left; exact Q2).
    rewrite realize_emit by (apply winv_emit; exact W0). rewrite realize_emit by exact W0. cbn [after]. fold n. assert (Es : isopen allowed (if allowed then None else loop) = false) by (destruct allowed, loop; reflexivity). rewrite Es. unfold andthen. cbn [fst snd].
    destruct allowed.
    - rewrite realize_close by exact I1. cbn [snd]. unfold w1. rewrite realize_emit by exact I. unfold andthen, ended. destruct (isopen true loop); cbn [fst snd]; [now rewrite app_nil_r|reflexivity].
    - assert (Ec : close_loop false loop w1 = w1) by (destruct loop; reflexivity). rewrite Ec. unfold w1. rewrite realize_emit by exact I. unfold andthen. assert (E0 : isopen false loop = false) by (destruct loop; reflexivity). rewrite E0. cbn [fst snd]. rewrite !realize_shut by exact E0. reflexivity. }
  destruct (allowed && circ) eqn:Ea.
  - apply andb_true_iff in Ea. destruct Ea as [-> _]. unfold rd. destruct (nth_error (cyclic_flags (g_parent G)) phase) as [flag|]; cbn [bind]; [|left; auto]. destruct flag.
    + right. exists (Close n). eexists. split; [reflexivity|]. split; [reflexivity|]. cbn [loop_after]. split; [apply winv_emit; left; exact Q3|]. split; [reflexivity|]. intros b. apply KEY.
    + right. destruct (realize_start ck (emit n (close_loop true loop w1)) ([], []) Q3) as [Hs _]. rewrite Hs. cbn [bind]. exists Start. eexists. split; [reflexivity|]. split; [reflexivity|]. cbn [loop_after]. split; [right; exists ck; auto|]. split; [congruence|].
      intros b. destruct (realize_start ck (emit n (close_loop true loop w1)) b Q3) as [_ Hb]. rewrite Hb. specialize (KEY [] ([], loopify ck (fst b) (snd b))). cbn [emit] in KEY. rewrite KEY. reflexivity.
  - right. exists (Close []). eexists. split; [reflexivity|]. split; [reflexivity|]. cbn [loop_after]. split; [left; exact Q3|]. split; [intros Hg; rewrite Hm by auto; destruct allowed; reflexivity|]. intros b. exact (KEY [] b).
Qed.
Lemma end_emit G allowed loop ck ph w : winv allowed loop w -> (g_mod G = true -> loop = None) ->
  (end_of_visit G allowed loop ck ph w = UB /\ end_step G allowed ck ph = UB) \/
  exists ss w', end_of_visit G allowed loop ck ph w = Ok (if allowed && negb (g_mod G) then None else loop, w') /\ end_step G allowed ck ph = Ok ss /\
    winv allowed (if allowed && negb (g_mod G) then None else loop) w' /\
    w' = realize allowed loop w (ended (isopen allowed loop) ss []) /\
    forall b, realize allowed (if allowed && negb (g_mod G) then None else loop) w' b = realize allowed loop w (ended (isopen allowed loop) ss (snd b)).
Proof.
  intros I Hm. unfold end_of_visit, end_step. destruct (g_mod G) eqn:Em.
  - rewrite (Hm eq_refl) in *. unfold rd. destruct (nth_error (cyclic_flags (g_parent G)) ph) as [flag|]; cbn [bind]; [|left; auto]. right.
    assert (Q : w_queue w = []) by (destruct I as [|(id & E & _)]; [auto|discriminate]).
    rewrite andb_false_r. destruct (flag && allowed) eqn:Ef.
    + apply andb_true_iff in Ef. destruct Ef as [-> ->]. destruct (realize_start ck w ([], []) Q) as [Hs _]. rewrite Hs. cbn [bind]. eexists. eexists. split; [reflexivity|]. split; [reflexivity|]. rewrite note_emit.
      assert (Ew : close_loop true (Some ck) (put [TRoots ph] (mkW (w_out w) [ck])) = emit [SLoop ck [SRoots ph]] w). { unfold close_loop, dump_loop_end, contains_marker. cbn. unfold put. cbn. rewrite Q, <- app_assoc. reflexivity. }
      rewrite Ew, <- emit_app. set (ss := [SLoop ck [SRoots ph]] ++ notes G). split; [left; cbn; reflexivity|]. split.
      * unfold ended. cbn [isopen]. rewrite app_nil_r. rewrite realize_shut by reflexivity. apply emit_closed. exact Q.
      * intros b. rewrite realize_emit by exact I. reflexivity.
    + eexists. eexists. split; [|split; [reflexivity|]].
      { cbn [bind]. replace (if flag then close_loop allowed None (put [TRoots ph] w) else put [TRoots ph] w) with (put [TRoots ph] w) by (destruct flag; reflexivity). reflexivity. }
      rewrite note_emit. change (put [TRoots ph] w) with (emit [SRoots ph] w). rewrite <- emit_app. split; [left; destruct (notes G); reflexivity|]. split.
      * unfold ended. cbn [isopen]. rewrite app_nil_r. rewrite realize_shut by reflexivity. apply emit_closed. exact Q.
      * intros b. rewrite realize_emit by exact I. reflexivity.
  - right. exists (notes G). eexists. rewrite note_emit. cbn [negb]. rewrite andb_true_r. split; [reflexivity|]. split; [reflexivity|]. assert (I1 : winv allowed loop (emit (notes G) w)) by now apply winv_emit. split; [left; now apply close_queue|]. split.
    + rewrite (realize_null allowed loop _ I1). rewrite realize_emit by exact I. unfold andthen, ended. destruct (isopen allowed loop); cbn [fst snd]; rewrite ?app_nil_r; reflexivity.
    + intros b. destruct allowed.
      * rewrite realize_close by exact I1. rewrite realize_emit by exact I. unfold andthen, ended. destruct (isopen true loop); cbn [fst snd]; rewrite ?app_nil_r; reflexivity.
      * assert (Ec : close_loop false loop (emit (notes G) w) = emit (notes G) w) by (destruct loop; reflexivity). rewrite Ec, realize_emit by exact I. unfold andthen, ended. assert (E0 : isopen false loop = false) by (destruct loop; reflexivity). rewrite E0. rewrite !realize_shut by exact E0. reflexivity.
Qed.

(** ** The program's text *)
Lemma inside_shut a l : isopen (allowed_inside a l) l = false.
Proof. destruct a, l; reflexivity. Qed.
Lemma realize_closed a l w s : winv a l w -> close_loop a l (emit [s] w) = realize a l w (closed (isopen a l) s).
Proof.
  intros I. assert (I1 : winv a l (emit [s] w)) by now apply winv_emit. rewrite (realize_null a l _ I1), realize_emit by exact I. unfold andthen, closed. destruct (isopen a l); reflexivity.
Qed.
Lemma put_put a b w : put b (put a w) = put (a ++ b) w.
Proof. unfold put. cbn. now rewrite <- !app_assoc. Qed.
Lemma put_add w ts us : mkW (w_out (put ts w) ++ us) [] = put (ts ++ us) w.
Proof. unfold put. cbn. now rewrite <- !app_assoc. Qed.
Ltac inner x := lazymatch x with bind ?y _ => inner y | _ => x end.
Tactic Notation "same" simple_intropattern(p) := match goal with |- bind ?x _ = _ => let y := inner x in destruct y as p; cbn [bind]; try reflexivity end.
Theorem implement_plan G phase skip t : forall asg chunk allowed loop cond w, winv allowed loop w -> (g_mod G = true -> loop = None) ->
  implement_visit_function G phase skip t asg chunk allowed loop cond w =
  ('(c, b) <- plan G phase skip t asg chunk allowed loop cond ;; Ok (c, realize allowed loop w b)).
Proof.
  induction t as [|ad prev inst g visit ck circ t1 IH1 t2 IH2]; intros asg chunk allowed loop cond w I Hm.
  - cbn. rewrite (realize_null allowed loop w I). reflexivity.
  - destruct g as [ph ch]. cbn [implement_visit_function plan].
    fold (info G inst). destruct (info G inst) as [gi| | |]; cbn [bind]; try reflexivity. fold (always gi).
    destruct (chunk_emit G phase allowed chunk loop ck circ w I Hm) as [[E1 E2]|(step & w1 & E1 & E2 & I1 & Hm1 & KEY)]; [rewrite E1, E2; reflexivity|]. rewrite E1, E2. cbn [bind]. clear E1 E2. set (lo := loop_after step allowed loop ck) in *. clearbody lo.
    assert (FIN : forall (X : res (condition * writer)) (Y : res (condition * (list stmt * list stmt))), X = ('(c, b) <- Y ;; Ok (c, realize allowed lo w1 b)) ->
      X = ('(c, b) <- ('(c, b) <- Y ;; Ok (c, after G (isopen allowed loop) step ck b)) ;; Ok (c, realize allowed loop w b))).
    { intros X Y ->. destruct Y as [[c b]| | |]; cbn [bind]; try reflexivity. now rewrite KEY. }
    apply FIN. clear FIN KEY. unfold core.
    match goal with |- context [if ?c then _ else _] => destruct c end; [apply IH2; auto|]. destruct gi as [[i x]|].
    + destruct (impossible (merge_cond cond (gi_cond x))).
      { rewrite note_emit. rewrite IH2 by (auto; now apply winv_emit). destruct (plan G phase skip t2 asg (Some ck) allowed lo cond) as [[c b]| | |]; cbn [bind]; try reflexivity. now rewrite realize_emit. }
      destruct (gi_kind x) as [index b1 b2|index header first b1 b2|stm body|p].
      * same [v| | |]. rewrite IH1 by (auto; apply winv_put). same [[c1 x1]| | |]. rewrite !realize_shut by apply inside_shut. same [v0| | |].
        rewrite IH2 by (auto; apply winv_put). same [[c2 x2]| | |]. cbn [bind]. f_equal. f_equal. rewrite realize_shut by apply inside_shut. rewrite put_add, !put_put, put_add, put_put.
        rewrite <- (realize_closed allowed lo w1 (SIf i (snd x1) (snd x2)) I1). f_equal. cbn [emit flat_map text]. rewrite app_nil_r. f_equal; cbn [app]; rewrite <- ?app_assoc; reflexivity.
      * same [v| | |]. set (wl := if first then put [TLet header] w1 else w1). assert (Il : winv allowed lo wl) by (unfold wl; destruct first; [apply winv_put|exact I1]).
        rewrite IH1 by (auto; apply winv_put). same [[c1 x1]| | |]. rewrite !realize_shut by apply inside_shut. same [v0| | |].
        rewrite IH2 by (auto; apply winv_put). same [[c2 x2]| | |]. cbn [bind]. f_equal. f_equal. rewrite realize_shut by apply inside_shut. rewrite put_add, !put_put, put_add, put_put.
        rewrite <- realize_emit by exact I1. assert (El : wl = emit (if first then [SLet header] else []) w1) by (unfold wl; destruct first; reflexivity). rewrite <- El. rewrite <- (realize_closed allowed lo wl (SMatch i (snd x1) (snd x2)) Il). f_equal. cbn [emit flat_map text]. rewrite app_nil_r. f_equal; cbn [app]; rewrite <- ?app_assoc; reflexivity.
      * same [v| | |]. rewrite IH2 by (auto; apply winv_put). same [[c b]| | |]. cbn [bind]. f_equal. f_equal. rewrite realize_shut by apply inside_shut. rewrite put_add, put_put. rewrite <- (realize_closed allowed lo w1 (SFor stm (snd b)) I1). f_equal. cbn [emit flat_map text]. rewrite app_nil_r. reflexivity.
      * destruct (gi_inward x).
        { rewrite note_emit. rewrite IH2 by (auto; now apply winv_emit). destruct (plan G phase skip t2 asg (Some ck) allowed lo cond) as [[c b]| | |]; cbn [bind]; try reflexivity. now rewrite realize_emit. }
        same [v| | |]. rewrite assigns_emit. destruct (assigns_stmts G i p ch v) as [ss| | |]; cbn [bind]; try reflexivity. rewrite IH2 by (auto; now apply winv_emit). same [[c b]| | |]. cbn [bind]. now rewrite realize_emit.
    + destruct (Z.eqb ch (-1)).
      { destruct (Z.ltb ph 0); [reflexivity|]. destruct (end_emit G allowed lo ck (Z.to_nat ph) w1 I1 Hm1) as [[E1 E2]|(ss & w2 & E1 & E2 & I2 & Hw & KEY)]; [rewrite E1, E2; reflexivity|]. rewrite E1, E2. cbn [bind].
        destruct (Z.eqb ph (Z.of_nat phase)); [cbn [bind]; now rewrite Hw|]. rewrite IH2; [|auto|intros Hg; rewrite Hg, andb_false_r; auto]. same [[c b]| | |]. cbn [bind]. now rewrite KEY. }
      destruct (Z.ltb (-1) ch); [|reflexivity]. destruct (Z.ltb ph 0); [reflexivity|]. rewrite child_emit. destruct (child_step G phase (Z.to_nat ch) (Z.to_nat ph)) as [ss| | |]; cbn [bind]; try reflexivity.
      rewrite IH2 by (auto; now apply winv_emit). same [[c b]| | |]. cbn [bind]. now rewrite realize_emit.
Qed.
