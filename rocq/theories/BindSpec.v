(** * What it means for a name to be bound lexically. *)
From Verif Require Import BindModel.
From Coq Require Import List NArith.
Import ListNotations.

(** An entry: a declaration, and the polymorphic declarations (or the extended class)
    through which it is seen, innermost first. *)
Definition entry := (dinfo * list nat)%type.
Definition through (p : nat) (es : list entry) : list entry := map (fun e => (fst e, snd e ++ [p])) es.

(** The entries a program offers to the programs that import it, in textual order. *)
Fixpoint publics (n : node) : list entry :=
  match n with
  | Nil | Use_ _ _ _ | Import _ => []
  | Pair a b | Match_ a b => publics a ++ publics b
  | Decl d k => if d_decl d then if d_public d then [(d, [])] else [] else publics k
  | Block_ b => publics b
  | Class_ d _ _ _ _ | Module_ d _ _ _ _ _ _ _ | Fun_ d _ _ _ => if d_public d then [(d, [])] else []
  | Poly d _ b => if d_public d then (d, []) :: through (d_id d) (publics b) else []
  | ForIn _ x y z | Ctrl x y z => publics x ++ publics y ++ publics z
  end.

(** The entries that a sequence of declarations (a block, a list of formals, the units of a
    program), or a pattern, declares in the scope it belongs to, in textual order. *)
Fixpoint declares (n : node) : list entry :=
  match n with
  | Nil | Use_ _ _ _ => []
  | Pair a b | Match_ a b => declares a ++ declares b
  | Block_ b => declares b
  | Decl d _ | Class_ d _ _ _ _ | Module_ d _ _ _ _ _ _ _ | Fun_ d _ _ _ | ForIn d _ _ _ => [(d, [])]
  | Poly d _ b => (d, []) :: through (d_id d) (declares b)
  | Ctrl x y z => declares x ++ declares y ++ declares z
  | Import p => publics p
  end.
Definition extends (ext : nat * list dinfo) : list entry := map (fun d => (d, [fst ext])) (snd ext).

(** The scopes around a place in the program, innermost first. *)
Definition scopes := list (list entry).

(** [occurs first n around (u, name, ns) gs]: the use u of the name in the namespaces ns
    occurs in n; if [around] are the scopes around n then [gs] are those around u.  The
    formals of a function (and the type formals of a class) see less when they are read
    for the [first] time: the result is not in scope yet. *)
Definition use := (nat * nat * N)%type.
Inductive occurs (first : bool) : node -> scopes -> use -> scopes -> Prop :=
| o_use u name ns g : occurs first (Use_ u name ns) g (u, name, ns) g
| o_pair1 a b g u h : occurs first a g u h -> occurs first (Pair a b) g u h
| o_pair2 a b g u h : occurs first b g u h -> occurs first (Pair a b) g u h
| o_decl d k g u h : occurs first k g u h -> occurs first (Decl d k) g u h
| o_block b g u h : occurs first b (declares b :: g) u h -> occurs first (Block_ b) g u h
| o_match_pat p b g u h : occurs first p (declares p :: g) u h -> occurs first (Match_ p b) g u h
| o_match_body p b g u h : occurs first b (declares p :: g) u h -> occurs first (Match_ p b) g u h
| o_class_formals d f rd rk rest g u h :
    occurs first f (if first then declares f :: g else [(rd, [])] :: declares f :: g) u h ->
    occurs first (Class_ d f rd rk rest) g u h
| o_class_result d f rd rk rest g u h :
    occurs first rk ([(rd, [])] :: declares f :: g) u h -> occurs first (Class_ d f rd rk rest) g u h
| o_class_rest d f rd rk rest g u h :
    occurs first rest ([(rd, [])] :: declares f :: g) u h -> occurs first (Class_ d f rd rk rest) g u h
| o_module_formals d f par vf rd rk ext c g u h :
    occurs first f (declares f :: g) u h -> occurs first (Module_ d f par vf rd rk ext c) g u h
| o_module_parent d f par vf rd rk ext c g u h :
    occurs first par (declares f :: g) u h -> occurs first (Module_ d f par vf rd rk ext c) g u h
| o_module_values d f par vf rd rk ext c g u h :
    occurs first vf (declares vf :: declares f :: g) u h -> occurs first (Module_ d f par vf rd rk ext c) g u h
| o_module_result d f par vf rd rk ext c g u h :
    occurs first rk ([(rd, [])] :: declares vf :: declares f :: g) u h -> occurs first (Module_ d f par vf rd rk ext c) g u h
| o_module_contents d f par vf rd rk ext c g u h :
    occurs first c (extends ext :: [(rd, [])] :: declares vf :: declares f :: g) u h ->
    occurs first (Module_ d f par vf rd rk ext c) g u h
| o_fun_formals d f r rest g u h :
    occurs first f (if first then declares f :: g else declares r :: declares f :: g) u h ->
    occurs first (Fun_ d f r rest) g u h
| o_fun_returns d f r rest g u h : occurs first r (declares r :: declares f :: g) u h -> occurs first (Fun_ d f r rest) g u h
| o_fun_rest d f r rest g u h : occurs first rest (declares r :: declares f :: g) u h -> occurs first (Fun_ d f r rest) g u h
| o_poly_formals d f b g u h : occurs first f (declares f :: g) u h -> occurs first (Poly d f b) g u h
| o_poly_body d f b g u h : occurs first b (declares f :: g) u h -> occurs first (Poly d f b) g u h
| o_for_seq d x s b g u h : occurs first s g u h -> occurs first (ForIn d x s b) g u h
| o_for_formal d x s b g u h : occurs first x (declares x :: g) u h -> occurs first (ForIn d x s b) g u h
| o_for_body d x s b g u h : occurs first b (declares x :: g) u h -> occurs first (ForIn d x s b) g u h
| o_ctrl_set e x s g u h : occurs first s g u h -> occurs first (Ctrl e x s) g u h
| o_ctrl_formal e x s g u h : occurs first x (declares x :: g) u h -> occurs first (Ctrl e x s) g u h
| o_ctrl_expr e x s g u h : occurs first e (declares x :: g) u h -> occurs first (Ctrl e x s) g u h.

(** the uses of a program *)
Fixpoint uses (n : node) : list nat :=
  match n with
  | Nil | Import _ => []
  | Use_ u _ _ => [u]
  | Pair a b | Match_ a b => uses a ++ uses b
  | Decl _ k | Block_ k => uses k
  | Class_ _ f _ rk rest => uses f ++ uses rk ++ uses rest
  | Module_ _ f par vf _ rk _ c => uses f ++ uses par ++ uses vf ++ uses rk ++ uses c
  | Fun_ _ f r rest => uses f ++ uses r ++ uses rest
  | Poly _ f b => uses f ++ uses b
  | ForIn _ x y z | Ctrl x y z => uses x ++ uses y ++ uses z
  end.

(** An entry answers to a name in some namespaces. *)
Definition answers (name : nat) (ns : N) (e : entry) : Prop :=
  d_decl (fst e) = true /\ d_name (fst e) = Some name /\ N.land (d_ns (fst e)) ns <> 0%N.
Definition silent (name : nat) (ns : N) (es : list entry) : Prop := forall e, In e es -> ~ answers name ns e.

(** The name denotes the last declaration that answers to it in the innermost scope that
    has one. *)
Definition resolves (gs : scopes) (name : nat) (ns : N) (e : entry) : Prop :=
  exists inner g outer before after,
    gs = inner ++ g :: outer /\ Forall (silent name ns) inner /\
    g = before ++ e :: after /\ answers name ns e /\ silent name ns after.
Definition unresolved (gs : scopes) (name : nat) (ns : N) : Prop := Forall (silent name ns) gs.

(** [introduces n g es around]: somewhere in n (itself inside the scopes g) the declarations es are introduced
    together, in this order, in a scope inside the scopes [around]. *)
Inductive introduces : node -> scopes -> list entry -> scopes -> Prop :=
| n_pair1 a b g l h : introduces a g l h -> introduces (Pair a b) g l h
| n_pair2 a b g l h : introduces b g l h -> introduces (Pair a b) g l h
| n_decl d k g l h : introduces k g l h -> introduces (Decl d k) g l h
| n_block b g : introduces (Block_ b) g (declares b) g
| n_block' b g l h : introduces b (declares b :: g) l h -> introduces (Block_ b) g l h
| n_match p b g : introduces (Match_ p b) g (declares p) g
| n_match1 p b g l h : introduces p (declares p :: g) l h -> introduces (Match_ p b) g l h
| n_match2 p b g l h : introduces b (declares p :: g) l h -> introduces (Match_ p b) g l h
| n_class d f rd rk rest g : introduces (Class_ d f rd rk rest) g (declares f) g
| n_class0 d f rd rk rest g l h : introduces f (declares f :: g) l h -> introduces (Class_ d f rd rk rest) g l h
| n_class_result d f rd rk rest g : introduces (Class_ d f rd rk rest) g [(rd, [])] (declares f :: g)
| n_class1 d f rd rk rest g l h : introduces f ([(rd, [])] :: declares f :: g) l h -> introduces (Class_ d f rd rk rest) g l h
| n_class2 d f rd rk rest g l h : introduces rk ([(rd, [])] :: declares f :: g) l h -> introduces (Class_ d f rd rk rest) g l h
| n_class3 d f rd rk rest g l h : introduces rest ([(rd, [])] :: declares f :: g) l h -> introduces (Class_ d f rd rk rest) g l h
| n_module d f par vf rd rk ext c g : introduces (Module_ d f par vf rd rk ext c) g (declares f) g
| n_module_values d f par vf rd rk ext c g : introduces (Module_ d f par vf rd rk ext c) g (declares vf) (declares f :: g)
| n_module_result d f par vf rd rk ext c g :
    introduces (Module_ d f par vf rd rk ext c) g [(rd, [])] (declares vf :: declares f :: g)
| n_module_ext d f par vf rd rk ext c g :
    introduces (Module_ d f par vf rd rk ext c) g (extends ext) ([(rd, [])] :: declares vf :: declares f :: g)
| n_module1 d f par vf rd rk ext c g l h :
    introduces f (declares f :: g) l h -> introduces (Module_ d f par vf rd rk ext c) g l h
| n_module2 d f par vf rd rk ext c g l h :
    introduces par (declares f :: g) l h -> introduces (Module_ d f par vf rd rk ext c) g l h
| n_module3 d f par vf rd rk ext c g l h :
    introduces vf (declares vf :: declares f :: g) l h -> introduces (Module_ d f par vf rd rk ext c) g l h
| n_module4 d f par vf rd rk ext c g l h :
    introduces rk ([(rd, [])] :: declares vf :: declares f :: g) l h -> introduces (Module_ d f par vf rd rk ext c) g l h
| n_module5 d f par vf rd rk ext c g l h :
    introduces c (extends ext :: [(rd, [])] :: declares vf :: declares f :: g) l h ->
    introduces (Module_ d f par vf rd rk ext c) g l h
| n_fun d f r rest g : introduces (Fun_ d f r rest) g (declares f) g
| n_fun_returns d f r rest g : introduces (Fun_ d f r rest) g (declares r) (declares f :: g)
| n_fun0 d f r rest g l h : introduces f (declares f :: g) l h -> introduces (Fun_ d f r rest) g l h
| n_fun1 d f r rest g l h : introduces f (declares r :: declares f :: g) l h -> introduces (Fun_ d f r rest) g l h
| n_fun2 d f r rest g l h : introduces r (declares r :: declares f :: g) l h -> introduces (Fun_ d f r rest) g l h
| n_fun3 d f r rest g l h : introduces rest (declares r :: declares f :: g) l h -> introduces (Fun_ d f r rest) g l h
| n_poly d f b g : introduces (Poly d f b) g (declares f) g
| n_poly1 d f b g l h : introduces f (declares f :: g) l h -> introduces (Poly d f b) g l h
| n_poly2 d f b g l h : introduces b (declares f :: g) l h -> introduces (Poly d f b) g l h
| n_for d x s b g : introduces (ForIn d x s b) g (declares x) g
| n_for1 d x s b g l h : introduces s g l h -> introduces (ForIn d x s b) g l h
| n_for2 d x s b g l h : introduces x (declares x :: g) l h -> introduces (ForIn d x s b) g l h
| n_for3 d x s b g l h : introduces b (declares x :: g) l h -> introduces (ForIn d x s b) g l h
| n_ctrl e x s g : introduces (Ctrl e x s) g (declares x) g
| n_ctrl1 e x s g l h : introduces s g l h -> introduces (Ctrl e x s) g l h
| n_ctrl2 e x s g l h : introduces x (declares x :: g) l h -> introduces (Ctrl e x s) g l h
| n_ctrl3 e x s g l h : introduces e (declares x :: g) l h -> introduces (Ctrl e x s) g l h.

(** What is visible, innermost first, when [e] is declared after [before] in a scope inside
    [around]. *)
Definition visible (before : list entry) (around : scopes) : list entry := concat (map (@rev entry) (before :: around)).

(** Two declarations clash: one name, a namespace in common. *)
Definition clash (a b : dinfo) : Prop :=
  d_decl a = true /\ d_decl b = true /\ (exists name, d_name a = Some name /\ d_name b = Some name) /\ N.land (d_ns b) (d_ns a) <> 0%N.

(** The scope around a program: what the basic program offers, if there is one. *)
Definition outside (basic : option node) : scopes := match basic with Some b => [publics b] | None => [] end.

(** The groups of declarations that come into scope when a program is bound. *)
Inductive introduced (basic : option node) (p : node) : list entry -> scopes -> Prop :=
| in_basic b : basic = Some b -> introduced basic p (publics b) []
| in_units : introduced basic p (declares p) (outside basic)
| in_program es around : introduces p (declares p :: outside basic) es around -> introduced basic p es around.
