From Verif Require Import BindModel BindSpec BindProofs.
From Coq Require Import List NArith PeanoNat Bool Lia.
Import ListNotations.

(** ** Uses *)
Fixpoint nb (l : list err) : list nat :=
  match l with [] => [] | NoBinding u :: l => u :: nb l | Duplicate _ _ :: l => nb l end.
Lemma nb_app a b : nb (a ++ b) = nb a ++ nb b.
Proof. induction a as [|[x y|u] a IH]; simpl; [reflexivity|exact IH|rewrite IH; reflexivity]. Qed.
Lemma nb_in u l : In u (nb l) <-> In (NoBinding u) l.
Proof.
  induction l as [|[x y|v] l IH]; simpl; [tauto| |]; rewrite IH.
  - split; [auto|]. intros [H|H]; [discriminate H|exact H].
  - split; intros [H|H]; [left; rewrite H; reflexivity|right; exact H|left; injection H as ->; reflexivity|right; exact H].
Qed.
Definition binds := nat -> option entry.
Definition vstep (b : binds * list nat) (v : use * list entry) : binds * list nat :=
  let '(u, name, ns) := fst v in
  let b1 := match lookup name ns (snd v) with Some e => fun x => if Nat.eqb x u then Some e else fst b x | None => fst b end in
  (b1, match b1 u with None => snd b ++ [u] | Some _ => snd b end).
Fixpoint visits (l : list instr) : list (use * list entry) :=
  match l with [] => [] | IVisit u c :: l => (u, c) :: visits l | IAdd _ _ :: l => visits l end.
Lemma visits_app a b : visits (a ++ b) = visits a ++ visits b.
Proof. induction a as [|[es c|u c] a IH]; simpl; [reflexivity|exact IH|rewrite IH; reflexivity]. Qed.
Definition view (st : state) : binds * list nat := (s_use st, nb (s_errs st)).

Lemma check1_nb d name env old : forall er, nb (check1 d name env old er) = nb er.
Proof.
  induction old as [|i old IH]; intros er; [reflexivity|]. simpl. destruct (tenv_eqb _ _); [|reflexivity]. rewrite IH.
  destruct (_ && _); [|reflexivity]. rewrite nb_app. simpl. apply app_nil_r.
Qed.
Lemma run_nb L : forall r, nb (fst (run L r)) = nb (fst r).
Proof.
  induction L as [|[d env] L IH]; intros [er sc]; [reflexivity|]. simpl. rewrite IH. destruct (d_decl d); [|reflexivity].
  destruct (d_name d) as [x|]; [|reflexivity]. apply check1_nb.
Qed.
Lemma bind_lookup u name ns sc c st : ok sc c ->
  bind_Use_by_name u name ns sc st =
  match lookup name ns c with
  | Some e => mkS (s_next st) (fun v => if Nat.eqb v u then Some e else s_use st v) (s_errs st)
  | None => st end.
Proof.
  intros [K1 K2]. rewrite <- lookup_filter, <- K1. clear K1 c. induction K2 as [|i sc Hi K2 IH]; [reflexivity|].
  simpl. destruct Hi as (D & N & S). unfold matches. simpl. rewrite D, N, S. simpl.
  destruct (_ && _); [reflexivity|exact IH].
Qed.
Lemma visit_view u name ns sc c st : ok sc c -> view (visit_use u name ns sc st) = vstep (view st) (u, name, ns, c).
Proof.
  intros K. unfold visit_use. rewrite (bind_lookup _ _ _ _ _ _ K). unfold vstep, view. simpl.
  destruct (lookup name ns c) as [e|]; simpl.
  - rewrite Nat.eqb_refl. reflexivity.
  - destruct (s_use st u); [reflexivity|]. simpl. rewrite nb_app. reflexivity.
Qed.
Lemma exec_view l st st' : exec l st st' -> view st' = fold_left vstep (visits l) (view st).
Proof.
  induction 1 as [|i l st st1 st2 S E IH]; [reflexivity|]. destruct S as [es c L sc st st1 sc1 P K [A1 A2]|u name ns sc c st K]; simpl.
  - rewrite IH. f_equal. unfold view. rewrite A1. f_equal. pose proof (run_nb L (s_errs st, sc)) as R. rewrite A2 in R. exact R.
  - rewrite IH, (visit_view _ _ _ _ _ _ K). reflexivity.
Qed.

(** ** lookup is resolution *)
Lemma lookup_app name ns a b : lookup name ns (a ++ b) = match lookup name ns a with Some e => Some e | None => lookup name ns b end.
Proof. induction a as [|e a IH]; simpl; [reflexivity|]. destruct (matches name ns e); [reflexivity|exact IH]. Qed.
Lemma lookup_none name ns c : lookup name ns c = None <-> silent name ns c.
Proof.
  induction c as [|e c IH]; simpl.
  - split; [intros _ x []|reflexivity].
  - destruct (matches name ns e) eqn:M.
    + split; [discriminate|]. intros S. destruct (S e (or_introl eq_refl) (proj1 (matches_iff _ _ _) M)).
    + rewrite IH. split.
      * intros S x [->|H]; [|exact (S x H)]. intros A. apply matches_iff in A. congruence.
      * intros S x H. exact (S x (or_intror H)).
Qed.
Lemma silent_rev name ns c : silent name ns (rev c) <-> silent name ns c.
Proof. unfold silent. split; intros H e I; apply (H e); [apply -> in_rev|apply <- in_rev in I]; exact I. Qed.
Lemma lookup_rev name ns g e : lookup name ns (rev g) = Some e <->
  exists before after, g = before ++ e :: after /\ answers name ns e /\ silent name ns after.
Proof.
  split.
  - induction g as [|x g IH] using rev_ind; [discriminate|]. rewrite rev_app_distr. simpl. destruct (matches name ns x) eqn:M.
    + intros E. injection E as <-. exists g, []. split; [reflexivity|]. split; [apply matches_iff, M|intros ? []].
    + intros E. destruct (IH E) as (b & a & -> & A & S). exists b, (a ++ [x]). split; [rewrite <- app_assoc; reflexivity|]. split; [exact A|].
      intros y I. apply in_app_iff in I. destruct I as [I|[<-|[]]]; [exact (S y I)|]. intros Q. apply matches_iff in Q. congruence.
  - intros (b & a & -> & A & S). rewrite rev_app_distr. simpl. rewrite <- app_assoc. rewrite lookup_app.
    rewrite (proj2 (lookup_none _ _ _) (proj2 (silent_rev _ _ _) S)). simpl. rewrite (proj2 (matches_iff _ _ _) A). reflexivity.
Qed.
Lemma lookup_resolves name ns gs e : lookup name ns (flat gs) = Some e <-> resolves gs name ns e.
Proof.
  split.
  - induction gs as [|g gs IH]; [discriminate|]. rewrite flat_cons, lookup_app. destruct (lookup name ns (rev g)) as [e'|] eqn:L.
    + intros E. injection E as <-. apply lookup_rev in L. destruct L as (b & a & -> & A & S). exists [], (b ++ e' :: a), gs, b, a.
      split; [reflexivity|]. split; [constructor|]. split; [reflexivity|]. split; [exact A|exact S].
    + intros E. destruct (IH E) as (inn & g' & out & b & a & -> & F & Eg & A & S). exists (g :: inn), g', out, b, a.
      split; [reflexivity|]. split; [constructor; [apply silent_rev, lookup_none, L|exact F]|]. split; [exact Eg|]. split; [exact A|exact S].
  - intros (inn & g' & out & b & a & -> & F & Eg & A & S). induction F as [|g inn F1 F IH]; simpl.
    + rewrite flat_cons, lookup_app. assert (L : lookup name ns (rev g') = Some e) by (apply lookup_rev; exists b, a; auto). rewrite L. reflexivity.
    + rewrite flat_cons, lookup_app. rewrite (proj2 (lookup_none _ _ _) (proj2 (silent_rev _ _ _) F1)). exact IH.
Qed.
Lemma lookup_unresolved name ns gs : lookup name ns (flat gs) = None <-> unresolved gs name ns.
Proof.
  unfold unresolved. induction gs as [|g gs IH]; [split; [constructor|reflexivity]|]. rewrite flat_cons, lookup_app.
  destruct (lookup name ns (rev g)) as [e|] eqn:L.
  - split; [discriminate|]. intros F. inversion F as [|? ? F1 F2]; subst. apply (proj2 (silent_rev _ _ _)) in F1. apply lookup_none in F1. congruence.
  - rewrite IH. apply lookup_none in L. apply (proj1 (silent_rev _ _ _)) in L. split; [intros F; constructor; assumption|intros F; inversion F; assumption].
Qed.

(** ** Where a use is visited *)
Definition uid (v : use * list entry) : nat := fst (fst (fst v)).
Definition V (n : node) (c : list entry) := visits (script n c).
Ltac nf := unfold V in *; simpl; rewrite ?visits_app; simpl; rewrite ?visits_app; simpl; rewrite ?visits_app; simpl; rewrite ?visits_app; simpl; rewrite ?visits_app.
Lemma V_uses n : forall c v, In v (V n c) -> In (uid v) (uses n).
Proof.
  induction n as [| a IHa b IHb | u name ns | d k IHk | b IHb | a IHa b IHb | d f IHf rd rk IHrk rest IHr | d f IHf par IHp vf IHv rd rk IHrk ext cc IHc
    | d f IHf r IHr rest IHrest | d f IHf b IHb | d x IHx s IHs b IHb | e IHe x IHx s IHs | p IHp];
  intros c v; nf; rewrite ?in_app_iff; intros H;
  repeat (destruct H as [H|H]); subst; try (destruct H; fail); eauto 8.
Qed.
Lemma nodup_split (a b : list nat) : NoDup (a ++ b) -> NoDup a /\ NoDup b /\ (forall x, In x a -> In x b -> False).
Proof.
  induction a as [|x a IH]; simpl; intros H.
  - split; [constructor|]. split; [exact H|]. intros x [].
  - inversion H as [|? ? N H']; subst. destruct (IH H') as (A & B & C). split; [constructor; [|exact A]|split; [exact B|]].
    + intros I. apply N, in_or_app. left. exact I.
    + intros y [<-|I] J; [apply N, in_or_app; right; exact J|exact (C y I J)].
Qed.
Lemma occurs_uses b n g u h : occurs b n g u h -> In (fst (fst u)) (uses n).
Proof. induction 1; simpl; rewrite ?in_app_iff; auto 8. Qed.

Definition fresh (id : nat) (l : list (use * list entry)) : Prop := forall v, In v l -> uid v <> id.
Lemma fresh_app id a b : fresh id a -> fresh id b -> fresh id (a ++ b).
Proof. intros A B v I. apply in_app_iff in I. destruct I as [I|I]; [exact (A v I)|exact (B v I)]. Qed.
Lemma V_fresh id n c : ~ In id (uses n) -> fresh id (V n c).
Proof. intros H v I E. apply H. rewrite <- E. exact (V_uses n c v I). Qed.

(** the first visit *)
Definition First (l : list (use * list entry)) (u : use) (c : list entry) : Prop :=
  exists v1 v2, l = v1 ++ (u, c) :: v2 /\ fresh (fst (fst u)) v1.
Lemma First_l l1 l2 u c : First l1 u c -> First (l1 ++ l2) u c.
Proof. intros (v1 & v2 & -> & F). exists v1, (v2 ++ l2). split; [rewrite <- app_assoc; reflexivity|exact F]. Qed.
Lemma First_r l1 l2 u c : fresh (fst (fst u)) l1 -> First l2 u c -> First (l1 ++ l2) u c.
Proof. intros F1 (v1 & v2 & -> & F). exists (l1 ++ v1), v2. split; [rewrite <- app_assoc; reflexivity|apply fresh_app; assumption]. Qed.

(** the last visit: the visits before it saw no more *)
Definition less (u : use) (c : list entry) (l : list (use * list entry)) : Prop :=
  forall v, In v l -> uid v = fst (fst u) -> fst v = u /\ incl (snd v) c.
Definition Last (l : list (use * list entry)) (u : use) (c : list entry) : Prop :=
  exists v1 v2, l = v1 ++ (u, c) :: v2 /\ fresh (fst (fst u)) v2 /\ less u c v1.
Lemma less_app u c a b : less u c a -> less u c b -> less u c (a ++ b).
Proof. intros A B v I. apply in_app_iff in I. destruct I as [I|I]; [exact (A v I)|exact (B v I)]. Qed.
Lemma fresh_less u c l : fresh (fst (fst u)) l -> less u c l.
Proof. intros F v I E. destruct (F v I E). Qed.
Lemma Last_less l u c : Last l u c -> less u c l.
Proof.
  intros (v1 & v2 & -> & F & L). apply less_app; [exact L|]. intros v [<-|I] E; [split; [reflexivity|apply incl_refl]|destruct (F v I E)].
Qed.
Lemma Last_l l1 l2 u c : Last l1 u c -> fresh (fst (fst u)) l2 -> Last (l1 ++ l2) u c.
Proof. intros (v1 & v2 & -> & F & L) F2. exists v1, (v2 ++ l2). split; [rewrite <- app_assoc; reflexivity|]. split; [apply fresh_app; assumption|exact L]. Qed.
Lemma Last_r l1 l2 u c : less u c l1 -> Last l2 u c -> Last (l1 ++ l2) u c.
Proof. intros L1 (v1 & v2 & -> & F & L). exists (l1 ++ v1), v2. split; [rewrite <- app_assoc; reflexivity|]. split; [exact F|apply less_app; assumption]. Qed.
Lemma V_ext n : forall c c', incl c c' -> Forall2 (fun v v' => fst v = fst v' /\ incl (snd v) (snd v')) (V n c) (V n c').
Proof.
  induction n as [| a IHa b IHb | u name ns | d k IHk | b IHb | a IHa b IHb | d f IHf rd rk IHrk rest IHr | d f IHf par IHp vf IHv rd rk IHrk ext cc IHc
    | d f IHf r IHr rest IHrest | d f IHf b IHb | d x IHx s IHs b IHb | e IHe x IHx s IHs | p IHp];
  intros c c' I; nf;
  assert (I1 : forall l, incl (l ++ c) (l ++ c')) by (intros l; apply incl_app_app; [apply incl_refl|exact I]);
  assert (I2 : forall l m, incl (l ++ m ++ c) (l ++ m ++ c')) by (intros l m; apply incl_app_app; [apply incl_refl|apply I1]);
  assert (I3 : forall e m, incl (e :: m ++ c) (e :: m ++ c')) by (intros e0 m; exact (I2 [e0] m));
  assert (I4 : forall e l m, incl (e :: l ++ m ++ c) (e :: l ++ m ++ c')) by (intros e0 l m; apply (incl_app_app (incl_refl [e0]) (I2 l m)));
  assert (I5 : forall k e l m, incl (k ++ e :: l ++ m ++ c) (k ++ e :: l ++ m ++ c')) by (intros k0 e0 l m; apply incl_app_app; [apply incl_refl|apply I4]);
  repeat apply Forall2_app; try (constructor; fail); eauto.
Qed.
Lemma V_less n c c' u x : incl c c' -> Last (V n c') u x -> less u x (V n c).
Proof.
  intros I L. apply Last_less in L. pose proof (V_ext n c c' I) as F. revert L F. generalize (V n c') as l', (V n c) as l. clear.
  intros l' l L F. induction F as [|v v' l l' [E1 E2] F IH]; [intros ? []|]. intros w [<-|J] Ew.
  - destruct (L v' (or_introl eq_refl)) as [A B]; [unfold uid in *; rewrite <- E1; exact Ew|]. split; [congruence|].
    intros e He. apply B, E2, He.
  - apply IH; [|exact J|exact Ew]. intros y Iy. apply L. right. exact Iy.
Qed.

Ltac nd := repeat match goal with H : NoDup (_ ++ _) |- _ => apply nodup_split in H; destruct H as (? & ? & ?) end.
Ltac apart :=
  match goal with
  | |- ~ In _ (uses _) => intros ?J; match goal with D : forall x, In x _ -> In x _ -> False |- _ => eapply D; rewrite ?in_app_iff; eauto 8; fail end
  end.
Ltac fr := repeat apply fresh_app; apply V_fresh; apart.
Ltac first_tac IH := nf; repeat first [exact (IH ltac:(assumption)) | apply First_l; exact (IH ltac:(assumption)) | apply First_r; [fr|]].
Lemma occurs_first n g u h : NoDup (uses n) -> occurs true n g u h -> First (V n (flat g)) u (flat h).
Proof.
  intros ND H. revert ND. induction H; intros ND; simpl in ND; nd; try (match goal with H : occurs _ _ _ _ _ |- _ => pose proof (occurs_uses _ _ _ _ _ H) as IU end);
  try (match goal with IH : _ -> First _ _ _ |- _ => first_tac IH end).
  exists [], []. split; [reflexivity|]. intros ? [].
Qed.
Lemma incl_flat (l : list entry) g : incl g (l ++ g). Proof. apply incl_appr, incl_refl. Qed.
Ltac lt IH := repeat apply less_app; first [apply fresh_less; fr | refine (V_less _ _ _ _ _ _ IH); first [apply incl_refl | apply incl_flat | apply incl_tl, incl_refl]].
Ltac last_tac IH := nf; repeat first [exact IH | apply Last_l; [exact IH|fr] | apply Last_r; [lt IH|] ].
Lemma occurs_last n g u h : NoDup (uses n) -> occurs false n g u h -> Last (V n (flat g)) u (flat h).
Proof.
  intros ND H. revert ND. induction H; intros ND; simpl in ND; nd; try (match goal with H : occurs _ _ _ _ _ |- _ => pose proof (occurs_uses _ _ _ _ _ H) as IU end);
  try (match goal with IH : _ -> Last _ _ _ |- _ => specialize (IH ltac:(assumption)); last_tac IH end).
  exists [], []. split; [reflexivity|]. split; [intros ? []|intros ? []].
Qed.
Lemma occurs_total b n : forall g id, In id (uses n) -> exists u h, fst (fst u) = id /\ occurs b n g u h.
Proof.
  induction n as [| a IHa b' IHb | u name ns | d k IHk | b' IHb | a IHa b' IHb | d f IHf rd rk IHrk rest IHr | d f IHf par IHp vf IHv rd rk IHrk ext cc IHc
    | d f IHf r IHr rest IHrest | d f IHf b' IHb | d x IHx s IHs b' IHb | e IHe x IHx s IHs | p IHp];
  intros g id; simpl; rewrite ?in_app_iff; intros H; repeat (destruct H as [H|H]); try (destruct H; fail);
  try (exists (u, name, ns), g; split; [exact H|apply o_use]);
  match goal with
  | H : In ?i (uses ?k), IH : forall g id, In id (uses ?k) -> _ |- _ =>
    let sc := fresh "sc" in evar (sc : scopes); destruct (IH sc _ H) as (?u & ?h & ?E & O); subst sc; eexists _, _; split; [eassumption|]
  end; first
  [ eapply o_pair1; exact O | eapply o_pair2; exact O | eapply o_decl; exact O | eapply o_block; exact O | eapply o_match_pat; exact O | eapply o_match_body; exact O
  | eapply o_class_formals; exact O | eapply o_class_result; exact O | eapply o_class_rest; exact O | eapply o_module_formals; exact O
  | eapply o_module_parent; exact O | eapply o_module_values; exact O | eapply o_module_result; exact O | eapply o_module_contents; exact O
  | eapply o_fun_formals; exact O | eapply o_fun_returns; exact O | eapply o_fun_rest; exact O | eapply o_poly_formals; exact O | eapply o_poly_body; exact O
  | eapply o_for_seq; exact O | eapply o_for_formal; exact O | eapply o_for_body; exact O
  | eapply o_ctrl_set; exact O | eapply o_ctrl_formal; exact O | eapply o_ctrl_expr; exact O ].
Unshelve. all: exact g.
Qed.

(** ** The final bindings *)
Lemma fold_fresh id l : fresh id l -> forall b, fst (fold_left vstep l b) id = fst b id /\ (In id (snd (fold_left vstep l b)) <-> In id (snd b)).
Proof.
  induction l as [|[[[u name] ns] c] l IH]; intros F b; [split; reflexivity|]. simpl.
  assert (N : u <> id) by (exact (F _ (or_introl eq_refl))). assert (F' : fresh id l) by (intros v I; exact (F v (or_intror I))).
  destruct (IH F' (vstep b (u, name, ns, c))) as [A B]. refine (conj (eq_trans A _) (iff_trans B _)); clear A B; unfold vstep; simpl.
  - destruct (lookup name ns c); [|reflexivity]. destruct (Nat.eqb_spec id u); [congruence|reflexivity].
  - destruct (match lookup name ns c with Some e => _ | None => _ end u); [reflexivity|]. rewrite in_app_iff. simpl. split; [|auto]. intros [H|[H|[]]]; [exact H|congruence].
Qed.
Lemma vstep_keep b v id e : fst b id = Some e -> exists e', fst (vstep b v) id = Some e'.
Proof.
  destruct v as [[[u name] ns] c]. unfold vstep. simpl. intros H. destruct (lookup name ns c) as [x|]; [|eauto].
  destruct (Nat.eqb id u); eauto.
Qed.
Lemma vstep_quiet b v id e : fst b id = Some e -> In id (snd (vstep b v)) -> In id (snd b).
Proof.
  intros H. destruct (vstep_keep b v id e H) as [e' H']. revert H'. destruct v as [[[u name] ns] c]. unfold vstep. simpl.
  destruct (match lookup name ns c with Some e => _ | None => _ end u) eqn:E; intros H' I; [exact I|].
  apply in_app_iff in I. destruct I as [I|[->|[]]]; [exact I|congruence].
Qed.
Lemma fold_bound id l : forall b e, fst b id = Some e ->
  (exists e', fst (fold_left vstep l b) id = Some e') /\ (In id (snd (fold_left vstep l b)) -> In id (snd b)).
Proof.
  induction l as [|v l IH]; intros b e H; [split; [eauto|auto]|]. simpl. destruct (vstep_keep b v id e H) as [e1 H1].
  destruct (IH _ _ H1) as [A B]. split; [exact A|]. intros I. exact (vstep_quiet _ _ _ _ H (B I)).
Qed.
Lemma fold_mono id l : forall b, In id (snd b) -> In id (snd (fold_left vstep l b)).
Proof.
  induction l as [|[[[u name] ns] c] l IH]; intros b H; [exact H|]. simpl. apply IH. unfold vstep. simpl.
  destruct (match lookup name ns c with Some e => _ | None => _ end u); [exact H|apply in_or_app; left; exact H].
Qed.
Lemma fold_last u name ns c l b : Last l (u, name, ns) c -> fst b u = None -> fst (fold_left vstep l b) u = lookup name ns c.
Proof.
  intros (v1 & v2 & -> & F & L) B. rewrite fold_left_app. simpl. rewrite (proj1 (fold_fresh u v2 F _)). unfold vstep at 1. simpl.
  destruct (lookup name ns c) as [e|] eqn:E; [rewrite Nat.eqb_refl; reflexivity|].
  apply lookup_none in E. revert b B. induction v1 as [|[[[x m] k] d] v1 IH]; intros b B; [exact B|]. simpl. apply IH.
  - intros v I. exact (L v (or_intror I)).
  - unfold vstep. simpl. destruct (lookup m k d) as [y|] eqn:Y; [|exact B]. destruct (Nat.eqb_spec u x) as [<-|]; [|exact B].
    destruct (L _ (or_introl eq_refl) eq_refl) as [L1 L2]. simpl in L1, L2. injection L1 as -> ->.
    assert (Q : lookup name ns d = None) by (apply lookup_none; intros e I; apply E, L2, I). congruence.
Qed.
Lemma fold_first u name ns c l b : First l (u, name, ns) c -> fst b u = None -> ~ In u (snd b) ->
  (In u (snd (fold_left vstep l b)) <-> lookup name ns c = None).
Proof.
  intros (v1 & v2 & -> & F) B N. rewrite fold_left_app. simpl. destruct (fold_fresh u v1 F b) as [A1 A2].
  set (b1 := fold_left vstep v1 b) in *. destruct (lookup name ns c) as [e|] eqn:E.
  - split; [|discriminate]. intros I. exfalso. apply N, A2.
    assert (H : fst (vstep b1 (u, name, ns, c)) u = Some e) by (unfold vstep; simpl; rewrite E, Nat.eqb_refl; reflexivity).
    apply (fold_bound u v2 _ _ H) in I. revert I. unfold vstep. simpl. rewrite E, Nat.eqb_refl. auto.
  - split; [reflexivity|]. intros _. apply fold_mono. unfold vstep. simpl. rewrite E. assert (B1 : fst b1 u = None) by (exact (eq_trans A1 B)). rewrite B1. apply in_or_app. right. left. reflexivity.
Qed.

(** ** bind_Program *)
Definition program_script (basic : option node) (p : node) : list instr :=
  match basic with Some b => [IAdd (publics b) []] | None => [] end ++
  IAdd (declares p) (flat (outside basic)) :: script p (flat (declares p :: outside basic)).
Definition init := mkS 0 (fun _ => None) [].
Lemma program_exec basic p : filter named (flat (declares p :: outside basic)) <> [] -> exec (program_script basic p) init (bind_Program basic p).
Proof.
  intros NE. unfold bind_Program, program_script. fold init.
  assert (exists st sc, match basic with Some b => get_public_bindings b [] [] init | None => (init, []) end = (st, sc) /\
     exec (match basic with Some b => [IAdd (publics b) []] | None => [] end) init st /\ ok sc (flat (outside basic))) as (st & sc & -> & X & K).
  { destruct basic as [b|].
    - destruct (get_public_bindings b [] [] init) as [st sc] eqn:E. exists st, sc. split; [reflexivity|].
      destruct (public_adds b _ _ _ _ _ E) as (L & P & A). rewrite under_nil in P. assert (K0 : ok [] []) by (split; constructor). split.
      + exact (ex_cons _ _ _ _ _ (st_add _ _ L _ _ _ _ P K0 A) (ex_nil _)).
      + unfold flat. simpl. rewrite <- P. exact (adds_ok _ _ _ _ _ _ A K0).
    - exists init, []. split; [reflexivity|]. split; [constructor|split; constructor]. }
  apply (exec_app _ _ _ _ _ X). destruct (get_bindings p [] sc st) as [st1 sc1] eqn:E. destruct (bindings_step _ _ _ _ _ _ E K) as [S1 K1].
  refine (ex_cons _ _ _ _ _ S1 _). rewrite flat_cons in *. destruct sc1 as [|i sc1]; [|exact (do_bind_exec p _ _ _ K1)].
  exfalso. apply NE. symmetry. exact (proj1 K1).
Qed.
Lemma program_view basic p : filter named (flat (declares p :: outside basic)) <> [] ->
  view (bind_Program basic p) = fold_left vstep (V p (flat (declares p :: outside basic))) (view init).
Proof.
  intros NE. rewrite (exec_view _ _ _ (program_exec basic p NE)). unfold program_script, V. rewrite visits_app. destruct basic; reflexivity.
Qed.
