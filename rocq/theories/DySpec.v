(** * DySpec: the generated programs, what they do, and what the APS program says.

    No code of /repo is modelled here.  Three things are defined, independently of
    each other:
    - [prog], [func]: functions of the subset of Scala that is generated, with
      their text ([text_func]) and what running them gives ([run_func]);
    - [assigned]: the assignments that an APS program makes at a node, with the
      values of their right hand sides;
    - [mentions], [depth], [supported]: notions about statements used in
      conditions. *)
From Verif Require Import Base DyModel.

(** ** Generated programs *)
Inductive prog :=
| PReturn (g : option expr) (r : expr)
| PCollect (g : option expr) (r : expr)
| PVar (x : var) (e : expr)
| PIf (c : expr) (arms : list (bool * list prog))   (* if (cond) ... if (!cond) ... *)
| PMatch (e : expr) (alts : list (pat * list prog)) (df : option (list prog))
| PForIn (x : var) (e : expr) (b : list prog)
| PNodes (t : ty) (p : pat) (b : list prog)         (* for all nodes of a type that match *)
| PIfType (t : ty) (p : pat) (b : list prog)        (* if the anchor has a type and matches *)
| PAnchor (p : pat) (b : list prog).                (* if the anchor matches *)

Fixpoint text (p : prog) : list token :=
  let block := fix block (b : list prog) : list token :=
    match b with [] => [] | q :: r => text q ++ block r end in
  match p with
  | PReturn g r => [KReturn g r]
  | PCollect g r => [KCollect g r]
  | PVar x e => [KVar x e]
  | PIf c arms =>
      KIf c ::
      (fix go (l : list (bool * list prog)) : list token :=
         match l with
         | [] => []
         | (t, b) :: r => (if t then KThen else KElse) :: block b ++ KClose :: go r
         end) arms ++ [KClose]
  | PMatch e alts df =>
      KMatch e ::
      (fix go (l : list (pat * list prog)) : list token :=
         match l with
         | [] => []
         | (p, b) :: r => KCase p :: block b ++ KClose :: go r
         end) alts ++
      match df with Some b => KDefault :: block b ++ [KClose] | None => [] end ++ [KClose]
  | PForIn x e b => KForIn x e :: block b ++ [KClose]
  | PNodes t p b => KNodes t :: KCase p :: block b ++ [KClose; KSkip; KClose]
  | PIfType t p b => KIfType t :: KCase p :: block b ++ [KClose; KSkip; KClose]
  | PAnchor p b => KAnchor :: KCase p :: block b ++ [KClose; KSkip; KClose]
  end.
Definition text_block (b : list prog) : list token := flat_map text b.

(** How a function starts and ends *)
Inductive start_kind :=
| Plain                    (* nothing *)
| Self                     (* val anchor = anode; *)
| Parent                   (* val anchor = anode.parent; if (anchor is not null) { body } *)
| Collect (e : expr).      (* var collection = e; *)
Inductive end_kind := RetColl | RetDefault (e : expr) | Throw.
Record func := { f_start : start_kind; f_body : list prog; f_end : end_kind }.

Definition text_end (e : end_kind) : token :=
  match e with RetColl => KRetColl | RetDefault e => KRetDefault e | Throw => KThrow end.

Definition text_func (f : func) : list token :=
  match f_start f with
  | Plain => KDef :: text_block (f_body f) ++ [text_end (f_end f); KClose]
  | Self => KDef :: KSelf :: text_block (f_body f) ++ [text_end (f_end f); KClose]
  | Parent => KDef :: KParent :: KIfParent :: text_block (f_body f) ++ [KClose; text_end (f_end f); KClose]
  | Collect e => KDef :: KColl e :: text_block (f_body f) ++ [text_end (f_end f); KClose]
  end.

(** The function of a local attribute, inside of the matches around it:
    anchor match { case p => { ... e match { case p => { [var collection = e;] body *)
Record lfunc := { l_pat : pat; l_path : list (expr * pat); l_init : option expr;
                  l_body : list prog; l_end : end_kind }.
Definition text_lfunc (f : lfunc) : list token :=
  KDef :: KAnchor :: KCase (l_pat f) :: flat_map (fun s => [KMatch (fst s); KCase (snd s)]) (l_path f) ++
  match l_init f with Some e => [KColl e] | None => [] end ++
  text_block (l_body f) ++ text_end (l_end f) ::
  flat_map (fun _ => [KClose; KClose]) (l_path f) ++ [KClose; KClose; KClose].

(** ** Meaning.  A world gives values to expressions in environments; what the
    demand of other attributes gives is fixed. *)
Record world := {
  W_env : Type;
  W_val : Type;
  eval : expr -> W_env -> W_val;
  truth : W_val -> bool;
  elems : W_val -> list W_val;                     (* the elements of a sequence *)
  matchp : pat -> W_val -> W_env -> option W_env;  (* with the variables of the pattern *)
  setv : var -> W_val -> W_env -> W_env;
  set_anchor : W_val -> W_env -> W_env;
  same : W_val -> W_val -> bool;                   (* the same node *)
  nodes : ty -> list W_val;                        (* the nodes of a phylum *)
  node_type : W_val -> ty;
  parent : W_val -> option W_val;
  combine : W_val -> W_val -> W_val
}.
Arguments eval {_} _ _. Arguments truth {_} _. Arguments elems {_} _. Arguments matchp {_} _ _ _.
Arguments setv {_} _ _ _. Arguments set_anchor {_} _ _. Arguments same {_} _ _.
Arguments nodes {_} _. Arguments node_type {_} _. Arguments parent {_} _. Arguments combine {_} _ _.

Section MEANING.
Context (W : world).
Notation Env := (W_env W).
Notation V := (W_val W).

(** ** Running a generated program.  [env]: the variables, [c]: the variable
    [collection], if there is one. *)
Inductive outcome := Next (env : Env) (c : option V) | Ret (v : V) | Failed. (* MatchError *)

Definition seq (o : outcome) (f : Env -> option V -> outcome) : outcome :=
  match o with Next e c => f e c | Ret v => Ret v | Failed => Failed end.
(** variables of a block are gone after it *)
Definition scope (env : Env) (o : outcome) : outcome := seq o (fun _ c => Next env c).

(** [if (anode eq g)] *)
Definition guard_ok (anode : V) (g : option expr) (env : Env) : bool :=
  match g with None => true | Some n => same anode (eval n env) end.
Definition collect (c : option V) (v : V) : option V := option_map (fun c => combine c v) c.

(** [anchor]: the variable of that name, if it is not one of a loop *)
Fixpoint exec (anode : V) (anchor : option V) (p : prog) (env : Env) (c : option V) {struct p} : outcome :=
  let block := fix block (b : list prog) (env : Env) (c : option V) : outcome :=
    match b with [] => Next env c | q :: r => seq (exec anode anchor q env c) (block r) end in
  match p with
  | PReturn g r => if guard_ok anode g env then Ret (eval r env) else Next env c
  | PCollect g r => Next env (if guard_ok anode g env then collect c (eval r env) else c)
  | PVar x e => Next (setv x (eval e env) env) c
  | PIf k arms =>
      let cond := truth (eval k env) in
      (fix go (l : list (bool * list prog)) (c : option V) : outcome :=
         match l with
         | [] => Next env c
         | (t, b) :: r =>
             if Bool.eqb t cond then seq (block b env c) (fun _ c => go r c) else go r c
         end) arms c
  | PMatch e alts df =>
      let v := eval e env in
      (fix go (l : list (pat * list prog)) : outcome :=
         match l with
         | [] => match df with Some b => scope env (block b env c) | None => Failed end
         | (p, b) :: r =>
             match matchp p v env with
             | Some env' => scope env (block b env' c)
             | None => go r
             end
         end) alts
  | PForIn x e b =>
      (fix go (l : list V) (c : option V) : outcome :=
         match l with
         | [] => Next env c
         | v :: r => seq (block b (setv x v env) c) (fun _ c => go r c)
         end) (elems (eval e env)) c
  | PNodes t p b =>
      (fix go (l : list V) (c : option V) : outcome :=
         match l with
         | [] => Next env c
         | n :: r =>
             match matchp p n (set_anchor n env) with
             | Some env' => seq (block b env' c) (fun _ c => go r c)
             | None => go r c
             end
         end) (nodes t) c
  | PIfType t p b =>
      match anchor with
      | Some n =>
          if node_type n =? t then
            match matchp p n env with
            | Some env' => scope env (block b env' c)
            | None => Next env c
            end
          else Next env c
      | None => Failed
      end
  | PAnchor p b =>
      match anchor with
      | Some n =>
          match matchp p n env with
          | Some env' => scope env (block b env' c)
          | None => Next env c
          end
      | None => Failed
      end
  end.
Fixpoint exec_block (anode : V) (anchor : option V) (b : list prog) (env : Env) (c : option V) : outcome :=
  match b with
  | [] => Next env c
  | q :: r => seq (exec anode anchor q env c) (exec_block anode anchor r)
  end.

(** What a call gives *)
Inductive result := Value (v : V) | Undefined | MatchError.

Definition finish (e : end_kind) (o : outcome) : result :=
  match o with
  | Ret v => Value v
  | Failed => MatchError
  | Next env c => match e with
                  | RetColl => match c with Some v => Value v | None => Undefined end
                  | RetDefault d => Value (eval d env)
                  | Throw => Undefined
                  end
  end.

(** [e match { case p => { ...] for each of [l] *)
Fixpoint enter (l : list (expr * pat)) (env : Env) : option Env :=
  match l with
  | [] => Some env
  | (e, p) :: r => match matchp p (eval e env) env with Some env' => enter r env' | None => None end
  end.

(** [env]: global variables and the formal parameters.  [anode]: the argument. *)
Definition run_func (f : func) (anode : V) (env : Env) : result :=
  match f_start f with
  | Plain => finish (f_end f) (exec_block anode None (f_body f) env None)
  | Self => finish (f_end f)
              (exec_block anode (Some anode) (f_body f) (set_anchor anode env) None)
  | Parent =>
      finish (f_end f)
        match parent anode with
        | Some n => scope env (exec_block anode (Some n) (f_body f) (set_anchor n env) None)
        | None => Next env None
        end
  | Collect e => finish (f_end f) (exec_block anode None (f_body f) env (Some (eval e env)))
  end.

Definition run_lfunc (f : lfunc) (anchor : V) (env : Env) : result :=
  match matchp (l_pat f) anchor (set_anchor anchor env) with
  | Some env' =>
      match enter (l_path f) env' with
      | Some env'' =>
          finish (l_end f)
            (exec_block anchor (Some anchor) (l_body f) env''
               match l_init f with Some e => Some (eval e env'') | None => None end)
      | None => MatchError
      end
  | None => MatchError
  end.

(** ** What an APS program assigns.  The assignments that are executed in a block,
    in the order of the program: the left hand side, the right hand side and the
    environment of each. *)
Fixpoint active (env : Env) (s : stmt) {struct s} : list (lhs * expr * Env) :=
  let block := fix block (env : Env) (b : list stmt) : list (lhs * expr * Env) :=
    match b with
    | [] => []
    | SLocal x false (Some e) :: r => block (setv x (eval e env) env) r
    | s :: r => active env s ++ block env r
    end in
  match s with
  | SAssign l r => [(l, r, env)]
  | SIf c t f => if truth (eval c env) then block env t else block env f
  | SCase e ms df =>
      (* the first match, or the default *)
      (fix go (ms : list (pat * list stmt)) :=
         match ms with
         | [] => block env df
         | (p, b) :: r => match matchp p (eval e env) env with
                          | Some env' => block env' b
                          | None => go r
                          end
         end) ms
  | SFor e ms =>
      (* every match *)
      (fix go (ms : list (pat * list stmt)) :=
         match ms with
         | [] => []
         | (p, b) :: r => match matchp p (eval e env) env with
                          | Some env' => block env' b
                          | None => []
                          end ++ go r
         end) ms
  | SForIn x e b => flat_map (fun v => block (setv x v env) b) (elems (eval e env))
  | SLocal _ _ _ | SOther => []
  end.
Fixpoint active_block (env : Env) (b : list stmt) : list (lhs * expr * Env) :=
  match b with
  | [] => []
  | SLocal x false (Some e) :: r => active_block (setv x (eval e env) env) r
  | s :: r => active env s ++ active_block env r
  end.

(** Does an assignment assign the attribute [d] of [anode] (or the variable [d])? *)
Definition assigns (d : decl) (anode : V) (a : lhs * expr * Env) : bool :=
  match a with
  | (LValue d', _, _) => d' =? d
  | (LAttr d' n, _, env) => (d' =? d) && same anode (eval n env)
  | (LOther, _, _) => false
  end.
Definition value_of (a : lhs * expr * Env) : V := match a with (_, r, env) => eval r env end.

(** the values assigned in a block *)
Definition assigned_in (d : decl) (anode : V) (env : Env) (b : list stmt) : list V :=
  map value_of (filter (assigns d anode) (active_block env b)).

(** the values assigned by a top-level match at a node *)
Definition assigned_at (d : decl) (anode : V) (env : Env) (m : tlm) (n : V) : list V :=
  match matchp (t_pat m) n (set_anchor n env) with
  | Some env' => assigned_in d anode env' (t_body m)
  | None => []
  end.

(** all values assigned: by every match at every node of its type *)
Definition assigned (d : decl) (anode : V) (env : Env) (ms : list tlm) : list V :=
  flat_map (fun m => flat_map (assigned_at d anode env m) (nodes (t_ty m))) ms.

(** The value: of a collection the combination of all values; otherwise the (first)
    value assigned, or the default. *)
Definition single_value (default : option expr) (env : Env) (vs : list V) : result :=
  match vs with
  | v :: _ => Value v
  | [] => match default with Some e => Value (eval e env) | None => Undefined end
  end.
Definition collected (init : expr) (env : Env) (vs : list V) : result :=
  Value (fold_left combine vs (eval init env)).
End MEANING.
Arguments Next {W} _ _. Arguments Ret {W} _. Arguments Failed {W}.
Arguments Value {W} _. Arguments Undefined {W}. Arguments MatchError {W}.

(** ** Conditions on statements *)

(** Some assignment to [d] (or a variable that is no local attribute) is in it. *)
Fixpoint mentions (d : decl) (s : stmt) : bool :=
  match s with
  | SAssign (LValue d') _ | SAssign (LAttr d' _) _ => d' =? d
  | SAssign LOther _ => false
  | SIf _ t f => existsb (mentions d) t || existsb (mentions d) f
  | SCase _ ms df => existsb (fun m => existsb (mentions d) (snd m)) ms || existsb (mentions d) df
  | SFor _ ms => existsb (fun m => existsb (mentions d) (snd m)) ms
  | SForIn _ _ b => existsb (mentions d) b
  | SLocal _ attr _ => negb attr
  | SOther => false
  end.
Definition mentions_in (d : decl) (b : list stmt) : bool := existsb (mentions d) b.

(** The kinds of statements that can be translated *)
Fixpoint supported (s : stmt) : bool :=
  match s with
  | SAssign _ _ => true
  | SIf _ t f => forallb supported t && forallb supported f
  | SCase _ ms df => forallb (fun m => forallb supported (snd m)) ms && forallb supported df
  | SFor _ _ => false
  | SForIn _ _ b => forallb supported b
  | SLocal _ attr init => attr || match init with Some _ => true | None => false end
  | SOther => false
  end.

(** How deep the statements are nested: an if or a case counts twice, as its
    branches do, too *)
Fixpoint depth (s : stmt) : nat :=
  let maxl := fix maxl (b : list stmt) : nat :=
    match b with [] => 0 | s :: r => Nat.max (depth s) (maxl r) end in
  match s with
  | SIf _ t f => 2 + Nat.max (maxl t) (maxl f)
  | SCase _ ms df =>
      2 + Nat.max ((fix go (ms : list (pat * list stmt)) : nat :=
                      match ms with [] => 0 | (_, b) :: r => Nat.max (maxl b) (go r) end) ms)
                  (maxl df)
  | SForIn _ _ b => 1 + maxl b
  | _ => 0
  end.
Fixpoint depth_block (b : list stmt) : nat :=
  match b with [] => 0 | s :: r => Nat.max (depth s) (depth_block r) end.

(** In every case statement that mentions [d], every branch does. *)
Fixpoint cases_full (d : decl) (s : stmt) : bool :=
  match s with
  | SIf _ t f => forallb (cases_full d) t && forallb (cases_full d) f
  | SCase _ ms df =>
      (negb (mentions d s) ||
       (forallb (fun m => mentions_in d (snd m)) ms && mentions_in d df)) &&
      forallb (fun m => forallb (cases_full d) (snd m)) ms && forallb (cases_full d) df
  | SForIn _ _ b => forallb (cases_full d) b
  | _ => true
  end.

(** The branch that is selected in a case statement that mentions [d] mentions [d]
    itself (in all case statements that are executed). *)
Section CASES.
Context (W : world) (d : decl).
Fixpoint cases_ok (env : W_env W) (s : stmt) {struct s} : bool :=
  let block := fix block (env : W_env W) (b : list stmt) : bool :=
    match b with
    | [] => true
    | SLocal x false (Some e) :: r => block (setv x (eval e env) env) r
    | s :: r => cases_ok env s && block env r
    end in
  let branch := fun env b => (negb (mentions d s) || mentions_in d b) && block env b in
  match s with
  | SIf c t f => if truth (eval c env) then block env t else block env f
  | SCase e ms df =>
      (fix go (ms : list (pat * list stmt)) :=
         match ms with
         | [] => branch env df
         | (p, b) :: r => match matchp p (eval e env) env with
                          | Some env' => branch env' b
                          | None => go r
                          end
         end) ms
  | SForIn x e b => forallb (fun v => block (setv x v env) b) (elems (eval e env))
  | _ => true
  end.
Fixpoint cases_ok_block (env : W_env W) (b : list stmt) : bool :=
  match b with
  | [] => true
  | SLocal x false (Some e) :: r => cases_ok_block (setv x (eval e env) env) r
  | s :: r => cases_ok env s && cases_ok_block env r
  end.
(** ... at a node *)
Definition cases_ok_at (env : W_env W) (m : tlm) (n : W_val W) : Prop :=
  forall env', matchp (t_pat m) n (set_anchor n env) = Some env' -> cases_ok_block env' (t_body m) = true.
End CASES.

(** ** Braces *)
Definition opens (t : token) : bool :=
  match t with
  | KIf _ | KThen | KElse | KMatch _ | KForStmt _ | KCase _ | KDefault | KForIn _ _ | KNodes _ | KIfType _ | KAnchor
  | KDef | KIfParent => true
  | _ => false
  end.
Definition closes (t : token) : bool := match t with KClose => true | _ => false end.
Definition count (f : token -> bool) (l : list token) : nat := length (filter f l).

(** ** The blocks within a block, with what the patterns on the way bind: branches of
    if and case statements.  [reaches W env b env' b']: from [b], with the variables
    [env], one gets to [b'], with the variables [env']. *)
Inductive reaches (W : world) (env : W_env W) (b : list stmt) : W_env W -> list stmt -> Prop :=
| reach_here : reaches W env b env b
| reach_then : forall c t f env' b', In (SIf c t f) b -> reaches W env t env' b' -> reaches W env b env' b'
| reach_else : forall c t f env' b', In (SIf c t f) b -> reaches W env f env' b' -> reaches W env b env' b'
| reach_match : forall e ms df p m env1 env' b', In (SCase e ms df) b -> In (p, m) ms ->
    matchp p (eval e env) env = Some env1 -> reaches W env1 m env' b' -> reaches W env b env' b'
| reach_default : forall e ms df env' b', In (SCase e ms df) b -> reaches W env df env' b' -> reaches W env b env' b'.
