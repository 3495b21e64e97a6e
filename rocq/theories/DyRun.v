(** * DyRun: what the generated programs compute. *)
From Verif Require Import Base DyModel DySpec DyText.
From Coq Require Import Lia.

Section RUN.
Context (W : world) (d : decl) (col : bool) (anode : W_val W).
Notation Env := (W_env W).
Notation V := (W_val W).

(** assigning the values [vs] in this order *)
Definition deliver (vs : list V) (env : Env) (c : option V) : outcome W :=
  if col then Next env (fold_left (collect W) vs c)
  else match vs with v :: _ => Ret v | [] => Next env c end.

Lemma deliver_seq : forall vs vs' e e' c,
  seq W (deliver vs e c) (fun _ c => deliver vs' e' c) = deliver (vs ++ vs') e' c.
Proof.
  intros vs vs' e e' c. unfold deliver. destruct col; simpl.
  - rewrite fold_left_app. reflexivity.
  - destruct vs; reflexivity.
Qed.
Lemma deliver_scope : forall vs e e' c, scope W e' (deliver vs e c) = deliver vs e' c.
Proof. intros. unfold scope, deliver. destruct col; [reflexivity|destruct vs; reflexivity]. Qed.
Lemma seq_assoc : forall o f g, seq W (seq W o f) g = seq W o (fun e c => seq W (f e c) g).
Proof. intros [e c|v|] f g; reflexivity. Qed.
Lemma seq_ext : forall o f g, (forall e c, f e c = g e c) -> seq W o f = seq W o g.
Proof. intros [e c|v|] f g H; simpl; auto. Qed.

(** ** Unfolding *)
Section EXEC.
Context (anchor : option V).
Notation ex := (exec W anode anchor).
Notation exb := (exec_block W anode anchor).

Lemma exec_fix : forall b env c,
  (fix block (b : list prog) (env : Env) (c : option V) : outcome W :=
    match b with [] => Next env c | q :: r => seq W (ex q env c) (block r) end) b env c = exb b env c.
Proof.
  induction b as [|q b IH]; intros env c; [reflexivity|]. cbn [exec_block]. apply seq_ext. exact IH.
Qed.

Lemma exec_app : forall a b env c, exb (a ++ b) env c = seq W (exb a env c) (exb b).
Proof.
  induction a as [|q a IH]; intros b env c; [reflexivity|]. cbn [app exec_block]. rewrite seq_assoc.
  apply seq_ext. intros. apply IH.
Qed.
Lemma exec_one : forall p env c, exb [p] env c = ex p env c.
Proof. intros. cbn [exec_block]. destruct (ex p env c); reflexivity. Qed.

Fixpoint exec_arms (cond : bool) (env : Env) (l : list (bool * list prog)) (c : option V) : outcome W :=
  match l with
  | [] => Next env c
  | (t, b) :: r =>
      if Bool.eqb t cond then seq W (exb b env c) (fun _ c => exec_arms cond env r c) else exec_arms cond env r c
  end.
Lemma exec_PIf : forall k arms env c, ex (PIf k arms) env c = exec_arms (truth (eval k env)) env arms c.
Proof.
  intros k arms env. cbn [exec]. induction arms as [|[t b] l IH]; intros c; [reflexivity|]. cbn [exec_arms].
  destruct (Bool.eqb t (truth (eval k env))); [|apply IH]. rewrite exec_fix. apply seq_ext. intros _ c'. apply IH.
Qed.

Fixpoint exec_alts (v : V) (env : Env) (df : option (list prog)) (c : option V) (l : list (pat * list prog)) : outcome W :=
  match l with
  | [] => match df with Some b => scope W env (exb b env c) | None => Failed end
  | (p, b) :: r =>
      match matchp p v env with
      | Some env' => scope W env (exb b env' c)
      | None => exec_alts v env df c r
      end
  end.
Lemma exec_PMatch : forall e alts df env c, ex (PMatch e alts df) env c = exec_alts (eval e env) env df c alts.
Proof.
  intros e alts df env c. cbn [exec]. induction alts as [|[p b] l IH]; cbn [exec_alts].
  - destruct df as [b|]; [rewrite exec_fix|]; reflexivity.
  - destruct (matchp p (eval e env) env); [rewrite exec_fix; reflexivity|apply IH].
Qed.

Fixpoint exec_loop (body : V -> option V -> outcome W) (env : Env) (l : list V) (c : option V) : outcome W :=
  match l with
  | [] => Next env c
  | v :: r => seq W (body v c) (fun _ c => exec_loop body env r c)
  end.
Lemma exec_PForIn : forall x e b env c,
  ex (PForIn x e b) env c = exec_loop (fun v c => exb b (setv x v env) c) env (elems (eval e env)) c.
Proof.
  intros x e b env c. cbn [exec]. revert c. induction (elems (eval e env)) as [|v l IH]; intros c; [reflexivity|].
  cbn [exec_loop]. rewrite exec_fix. apply seq_ext. intros _ c'. apply IH.
Qed.
Lemma exec_PNodes : forall t p b env c,
  ex (PNodes t p b) env c =
  exec_loop (fun n c => match matchp p n (set_anchor n env) with Some env' => exb b env' c | None => Next env c end)
    env (nodes t) c.
Proof.
  intros t p b env c. cbn [exec]. revert c. induction (nodes t) as [|v l IH]; intros c; [reflexivity|].
  cbn [exec_loop]. destruct (matchp p v (set_anchor v env)); [|apply IH]. rewrite exec_fix. apply seq_ext. intros _ c'. apply IH.
Qed.

Lemma loop_deliver : forall (body : V -> option V -> outcome W) (f : V -> list V) env l,
  (forall v, In v l -> exists e, forall c, body v c = deliver (f v) e c) ->
  forall c, exec_loop body env l c = deliver (flat_map f l) env c.
Proof.
  intros body f env l H c. revert c. induction l as [|v l IH]; intros c.
  - unfold deliver. destruct col; reflexivity.
  - cbn [exec_loop flat_map]. destruct (H v (or_introl eq_refl)) as (e & E). rewrite E.
    rewrite <- (deliver_seq _ _ e env). apply seq_ext. intros _ c'. apply IH. intros w I. apply H. right; exact I.
Qed.

(** ** The source *)
Definition after1 (env : Env) (s : stmt) : Env :=
  match s with SLocal x false (Some e) => setv x (eval e env) env | _ => env end.
Fixpoint after (env : Env) (b : list stmt) : Env :=
  match b with [] => env | s :: r => after (after1 env s) r end.

Definition vals (env : Env) (s : stmt) : list V := map (value_of W) (filter (assigns W d anode) (active W env s)).

Lemma assigned_cons : forall env s b,
  assigned_in W d anode env (s :: b) = vals env s ++ assigned_in W d anode (after1 env s) b.
Proof.
  intros env s b. unfold assigned_in, vals. rewrite <- map_app, <- filter_app. f_equal. f_equal.
  destruct s as [| | | | |x [|] [e|]|]; reflexivity.
Qed.
Lemma cases_cons : forall env s b,
  cases_ok_block W d env (s :: b) = cases_ok W d env s && cases_ok_block W d (after1 env s) b.
Proof. intros env s b. destruct s as [| | | | |x [|] [e|]|]; reflexivity. Qed.

Lemma active_fix : forall b env,
  (fix block (env : Env) (b : list stmt) : list (lhs * expr * Env) :=
    match b with
    | [] => []
    | SLocal x false (Some e) :: r => block (setv x (eval e env) env) r
    | s :: r => active W env s ++ block env r
    end) env b = active_block W env b.
Proof.
  induction b as [|s b IH]; intros env; [reflexivity|].
  destruct s as [| | | | |x [|] [e|]|]; cbn [active_block]; rewrite IH; reflexivity.
Qed.
Lemma cases_fix : forall b env,
  (fix block (env : Env) (b : list stmt) : bool :=
    match b with
    | [] => true
    | SLocal x false (Some e) :: r => block (setv x (eval e env) env) r
    | s :: r => cases_ok W d env s && block env r
    end) env b = cases_ok_block W d env b.
Proof.
  induction b as [|s b IH]; intros env; [reflexivity|].
  destruct s as [| | | | |x [|] [e|]|]; cbn [cases_ok_block]; rewrite IH; reflexivity.
Qed.

Definition branch_ok (s : stmt) (env : Env) (b : list stmt) : bool :=
  (negb (mentions d s) || mentions_in d b) && cases_ok_block W d env b.

(** which branch of a case statement is selected *)
Fixpoint select (v : V) (env : Env) (ms : list (pat * list stmt)) (df : list stmt) : Env * list stmt :=
  match ms with
  | [] => (env, df)
  | (p, b) :: r => match matchp p v env with Some env' => (env', b) | None => select v env r df end
  end.

Lemma vals_SIf : forall env c t f,
  vals env (SIf c t f) = assigned_in W d anode env (if truth (eval c env) then t else f).
Proof.
  intros. unfold vals, assigned_in. cbn [active]. destruct (truth (eval c env)); rewrite active_fix; reflexivity.
Qed.
Lemma vals_SCase : forall env e ms df,
  vals env (SCase e ms df) = let (env', b) := select (eval e env) env ms df in assigned_in W d anode env' b.
Proof.
  intros env e ms df. unfold vals, assigned_in. cbn [active].
  induction ms as [|[p b] ms IH]; cbn [select].
  - rewrite active_fix. reflexivity.
  - destruct (matchp p (eval e env) env); [rewrite active_fix; reflexivity|]. exact IH.
Qed.
Lemma vals_SForIn : forall env x e b,
  vals env (SForIn x e b) = flat_map (fun v => assigned_in W d anode (setv x v env) b) (elems (eval e env)).
Proof.
  intros env x e b. unfold vals, assigned_in. cbn [active]. induction (elems (eval e env)) as [|v l IH]; [reflexivity|].
  cbn [flat_map]. rewrite active_fix, filter_app, map_app, IH. reflexivity.
Qed.
Lemma cases_SIf : forall env c t f,
  cases_ok W d env (SIf c t f) = cases_ok_block W d env (if truth (eval c env) then t else f).
Proof. intros. cbn [cases_ok]. destruct (truth (eval c env)); rewrite cases_fix; reflexivity. Qed.
Lemma cases_SCase : forall env e ms df,
  cases_ok W d env (SCase e ms df) =
  let (env', b) := select (eval e env) env ms df in branch_ok (SCase e ms df) env' b.
Proof.
  intros env e ms df. unfold branch_ok. cbn [cases_ok].
  set (s := SCase e ms df). generalize (mentions d s). clear s. intros m.
  induction ms as [|[p b] ms IH]; cbn [select].
  - rewrite cases_fix. reflexivity.
  - destruct (matchp p (eval e env) env); [rewrite cases_fix; reflexivity|]. exact IH.
Qed.
Lemma cases_SForIn : forall env x e b,
  cases_ok W d env (SForIn x e b) = forallb (fun v => cases_ok_block W d (setv x v env) b) (elems (eval e env)).
Proof.
  intros env x e b. cbn [cases_ok]. induction (elems (eval e env)) as [|v l IH]; [reflexivity|].
  cbn [forallb]. rewrite cases_fix, IH. reflexivity.
Qed.

(** nothing is assigned where [d] is not mentioned *)
Lemma vals_none : forall s, supported s = true -> forall env, mentions d s = false ->
  vals env s = [] /\ after1 env s = env.
Proof.
  assert (BLK : forall b, Forall (fun s => supported s = true -> forall env, mentions d s = false ->
     vals env s = [] /\ after1 env s = env) b -> forallb supported b = true -> mentions_in d b = false ->
     forall env, assigned_in W d anode env b = []).
  { induction 1 as [|s b F _ IH]; intros S M env; [reflexivity|].
    cbn [forallb] in S. apply andb_true_iff in S. unfold mentions_in in M. cbn [existsb] in M. apply orb_false_iff in M.
    destruct (F (proj1 S) env (proj1 M)) as (A & B). rewrite assigned_cons, A, B. apply IH; tauto. }
  apply (stmt_ind2 (fun s => supported s = true -> forall env, mentions d s = false ->
     vals env s = [] /\ after1 env s = env)).
  - intros l r _ env M. split; [|reflexivity]. unfold vals. cbn [active filter]. unfold assigns.
    destruct l as [d'|d' n|]; cbn [mentions] in M; rewrite ?M; reflexivity.
  - intros c t f FT FF S env M. split; [|reflexivity]. cbn [supported mentions] in *.
    apply andb_true_iff in S. apply orb_false_iff in M. rewrite vals_SIf.
    destruct (truth (eval c env)); apply BLK; tauto.
  - intros e ms df FM FD S env M. split; [|reflexivity]. cbn [supported mentions] in *.
    apply andb_true_iff in S. apply orb_false_iff in M. rewrite vals_SCase.
    destruct S as (S1 & S2). destruct M as (M1 & M2).
    clear - BLK S1 S2 M1 M2 FM FD. induction ms as [|[p b] ms IH]; cbn [select].
    + apply BLK; assumption.
    + inversion FM as [|? ? F1 F2]; subst. cbn [forallb existsb snd] in *.
      apply andb_true_iff in S1. apply orb_false_iff in M1.
      destruct (matchp p (eval e env) env); [apply BLK; tauto|apply IH; tauto].
  - intros e ms _ S. discriminate.
  - intros x e b FB S env M. split; [|reflexivity]. cbn [supported mentions] in *. rewrite vals_SForIn.
    induction (elems (eval e env)) as [|v l IH]; [reflexivity|]. cbn [flat_map]. rewrite IH, BLK; auto.
  - intros x a i S env M. cbn [mentions] in M. destruct a; [|discriminate]. split; reflexivity.
  - intros S. discriminate.
Qed.
Lemma assigned_none : forall b, forallb supported b = true -> mentions_in d b = false ->
  forall env, assigned_in W d anode env b = [].
Proof.
  induction b as [|s b IH]; intros S M env; [reflexivity|].
  cbn [forallb] in S. apply andb_true_iff in S. unfold mentions_in in M. cbn [existsb] in M. apply orb_false_iff in M.
  destruct (vals_none s (proj1 S) env (proj1 M)) as (A & B). rewrite assigned_cons, A, B. apply IH; tauto.
Qed.

Lemma deliver_nil : forall env c, deliver [] env c = Next env c.
Proof. intros. unfold deliver. destruct col; reflexivity. Qed.

Definition run_ok (s : stmt) : Prop := supported s = true -> forall env c, cases_ok W d env s = true ->
  exb (comp d col s) env c = deliver (vals env s) (after1 env s) c.

Lemma block_run : forall b, Forall run_ok b -> forallb supported b = true -> forall env c,
  cases_ok_block W d env b = true ->
  exb (flat_map (comp d col) b) env c = deliver (assigned_in W d anode env b) (after env b) c.
Proof.
  induction 1 as [|s b F _ IH]; intros S env c K.
  - rewrite deliver_nil. reflexivity.
  - cbn [forallb] in S. apply andb_true_iff in S. destruct S as (S1 & S2).
    rewrite cases_cons in K. apply andb_true_iff in K. destruct K as (K1 & K2).
    cbn [flat_map]. rewrite exec_app, (F S1 env c K1), assigned_cons. cbn [after].
    rewrite <- (deliver_seq _ _ (after1 env s)).
    unfold deliver at 1 2. destruct col; cbn [seq]; [apply IH; assumption|].
    destruct (vals env s); cbn [seq]; [apply IH; assumption|reflexivity].
Qed.

(** alternatives: the branch that is selected is there *)
Lemma alts_run : forall e env c ms df, Forall (fun m => Forall run_ok (snd m)) ms -> Forall run_ok df ->
  forallb (fun m => forallb supported (snd m)) ms = true -> forallb supported df = true ->
  (let (env', b) := select (eval e env) env ms df in mentions_in d b = true /\ cases_ok_block W d env' b = true) ->
  exec_alts (eval e env) env (if mentions_in d df then Some (flat_map (comp d col) df) else None) c
    (flat_map (fun m => if mentions_in d (snd m) then [(fst m, flat_map (comp d col) (snd m))] else []) ms) =
  deliver (let (env', b) := select (eval e env) env ms df in assigned_in W d anode env' b) env c.
Proof.
  intros e env c ms df FM FD S1 S2. induction ms as [|[p b] ms IH]; cbn [select]; intros K.
  - destruct K as (M & K). rewrite M. cbn [flat_map exec_alts]. rewrite (block_run df FD S2 env c K). apply deliver_scope.
  - inversion FM as [|? ? F1 F2]; subst. cbn [forallb snd] in *. apply andb_true_iff in S1. destruct S1 as (S0 & S1).
    cbn [flat_map fst snd]. destruct (mentions_in d b) eqn:MB.
    + cbn [app exec_alts]. destruct (matchp p (eval e env) env) as [env'|].
      * destruct K as (_ & K). rewrite (block_run b F1 S0 env' c K). apply deliver_scope.
      * apply IH; assumption.
    + cbn [app]. destruct (matchp p (eval e env) env) as [env'|]; [destruct K as (K & _); congruence|]. apply IH; assumption.
Qed.

Theorem stmt_run : forall s, run_ok s.
Proof.
  apply stmt_ind2.
  - intros l r _ env c _. cbn [comp after1]. destruct l as [d'|d' n|]; cbn [mentions].
    + unfold vals. cbn [active filter assigns]. destruct (d' =? d); cbn [negb]; [|rewrite deliver_nil; reflexivity].
      rewrite exec_one. unfold deliver. destruct col; reflexivity.
    + unfold vals. cbn [active filter assigns]. destruct (d' =? d); cbn [negb andb]; [|rewrite deliver_nil; reflexivity].
      rewrite exec_one. unfold deliver. destruct col; cbn [exec guard_ok]; destruct (same anode (eval n env)); reflexivity.
    + unfold vals. cbn [active filter assigns]. rewrite deliver_nil. reflexivity.
  - intros k t f FT FF S env c K. cbn [supported] in S. apply andb_true_iff in S. destruct S as (S1 & S2).
    rewrite cases_SIf in K. rewrite vals_SIf. cbn [comp after1].
    destruct (mentions d (SIf k t f)) eqn:M; cbn [negb].
    + rewrite exec_one, exec_PIf. destruct (truth (eval k env)).
      * destruct (mentions_in d t) eqn:MT; cbn [app].
        -- cbn [exec_arms Bool.eqb]. rewrite (block_run t FT S1 env c K).
           rewrite <- (app_nil_r (assigned_in W d anode env t)) at 2. rewrite <- (deliver_seq _ _ (after env t) env).
           apply seq_ext. intros _ c'. rewrite deliver_nil. destruct (mentions_in d f); reflexivity.
        -- rewrite (assigned_none t S1 MT env), deliver_nil. destruct (mentions_in d f); reflexivity.
      * assert (E : exec_arms false env (if mentions_in d f then [(false, flat_map (comp d col) f)] else []) c =
          deliver (assigned_in W d anode env f) env c).
        { destruct (mentions_in d f) eqn:MF.
          - cbn [exec_arms Bool.eqb]. rewrite (block_run f FF S2 env c K).
            rewrite <- (app_nil_r (assigned_in W d anode env f)) at 2. rewrite <- (deliver_seq _ _ (after env f) env).
            apply seq_ext. intros _ c'. rewrite deliver_nil. reflexivity.
          - rewrite (assigned_none f S2 MF env), deliver_nil. reflexivity. }
        destruct (mentions_in d t); cbn [app exec_arms Bool.eqb]; exact E.
    + cbn [mentions] in M. apply orb_false_iff in M. rewrite (fun H => assigned_none _ H).
      * rewrite deliver_nil. reflexivity.
      * destruct (truth (eval k env)); tauto.
      * destruct (truth (eval k env)); unfold mentions_in; tauto.
  - intros e ms df FM FD S env c K.
    pose proof S as S0. cbn [supported] in S. apply andb_true_iff in S. destruct S as (S1 & S2).
    cbn [after1]. destruct (mentions d (SCase e ms df)) eqn:M.
    + rewrite cases_SCase in K. unfold branch_ok in K. rewrite M in K. cbn [negb orb] in K.
      cbn [comp]. rewrite M. cbn [negb]. rewrite exec_one, exec_PMatch, vals_SCase.
      apply (alts_run e env c ms df FM FD S1 S2).
      destruct (select (eval e env) env ms df) as (env', b). apply andb_true_iff in K. exact K.
    + destruct (vals_none _ S0 env M) as (A & _). rewrite A, (comp_none d col _ M), deliver_nil. reflexivity.
  - intros e ms _ S. discriminate.
  - intros x e b FB S env c K. pose proof S as S0. cbn [supported] in S. cbn [after1].
    destruct (mentions d (SForIn x e b)) eqn:M.
    + rewrite cases_SForIn in K. rewrite forallb_forall in K.
      cbn [comp]. rewrite M. cbn [negb]. rewrite exec_one, exec_PForIn, vals_SForIn.
      apply (loop_deliver _ (fun v => assigned_in W d anode (setv x v env) b)).
      intros v I. exists (after (setv x v env) b). intros c'. apply (block_run b FB S _ c' (K v I)).
    + destruct (vals_none _ S0 env M) as (A & _). rewrite A, (comp_none d col _ M), deliver_nil. reflexivity.
  - intros x a i S env c K. cbn [comp mentions]. destruct a; cbn [negb after1].
    + rewrite deliver_nil. reflexivity.
    + destruct i as [e|]; [|discriminate]. rewrite exec_one. unfold vals. cbn [active filter map]. rewrite deliver_nil. reflexivity.
  - intros S. discriminate.
Qed.

Corollary run_block : forall b, forallb supported b = true -> forall env c, cases_ok_block W d env b = true ->
  exb (comp_block d col b) env c = deliver (assigned_in W d anode env b) (after env b) c.
Proof. intros b. apply block_run. apply Forall_forall. intros; apply stmt_run. Qed.
End EXEC.
End RUN.
