(** * Proofs about histories of CanonModel, and about the order of types and signatures *)
From Coq Require Import Permutation.
From Verif Require Import Base PrimeModel PrimeSpec PrimeProofs HashTableModel HashConsModel HashConsSpec HashConsProofs
  CanonModel CanonSpec CanonProofs.
Open Scope Z_scope.

Lemma add_app {A} (l : list A) x : exists l', add l x = l ++ l'.
Proof. destruct x as [a|]; simpl; [exists [a]|exists []; rewrite app_nil_r]; auto. Qed.
Lemma terms_app ops : forall d, (exists l, fst (fold_left terms_step ops d) = fst d ++ l) /\ (exists l, snd (fold_left terms_step ops d) = snd d ++ l).
Proof.
  induction ops as [|o ops IH]; intros d; simpl; [split; exists []; now rewrite app_nil_r|].
  destruct (IH (terms_step d o)) as [[l1 E1] [l2 E2]]. rewrite E1, E2. unfold terms_step; simpl.
  destruct (add_app (fst d) (term_of (fst d) o)) as [l3 ->]. destruct (add_app (snd d) (sig_of (fst d) o)) as [l4 ->]. split; eexists; rewrite <- app_assoc; reflexivity.
Qed.
Lemma canon_wf_cons n o ops : canon_wf n (o :: ops) -> op_wf n o /\ canon_wf (match o with OSig _ _ _ _ => n | _ => S n end) ops.
Proof. destruct o; simpl; tauto. Qed.
Lemma term_of_iff ts o : match o with OSig _ _ _ _ => term_of ts o = None | _ => exists t, term_of ts o = Some t end.
Proof. destruct o; simpl; eauto. Qed.
Lemma run_all ops : forall n s d, run_ok n s d -> canon_wf (length (fst d)) ops -> Z.of_nat (n + length ops) < 250000000 ->
  (forall t, In t (fst (fold_left terms_step ops d)) -> no_overflow (term_hash t)) ->
  (forall t, In t (snd (fold_left terms_step ops d)) -> no_overflow (csig_hash t)) ->
  exists s', foldM canon_step ops s = Ok s' /\ run_ok (n + length ops) s' (fold_left terms_step ops d).
Proof.
  induction ops as [|o ops IH]; intros n s d R Hw Hn Ht Hs; simpl in *.
  - exists s. rewrite Nat.add_0_r. auto.
  - apply canon_wf_cons in Hw. destruct Hw as [Hw1 Hw2].
    destruct (terms_app ops (terms_step d o)) as [[l1 E1] [l2 E2]].
    assert (Ho : op_hash (fst d) o).
    { split.
      - intros t E. apply Ht. rewrite E1. unfold terms_step; simpl. rewrite E. apply in_or_app. left. simpl. apply in_or_app. right. left. auto.
      - intros t E. apply Hs. rewrite E2. unfold terms_step; simpl. rewrite E. apply in_or_app. left. simpl. apply in_or_app. right. left. auto. }
    destruct (step_ok n s d o R) as (s1 & E & R1); auto; [lia|]. rewrite E. cbn [bind].
    destruct (IH (S n) s1 (terms_step d o)) as (s2 & E' & R2); auto; [| |exists s2; rewrite Nat.add_succ_r; auto].
    + replace (length (fst (terms_step d o))) with (match o with OSig _ _ _ _ => length (fst d) | _ => S (length (fst d)) end); auto.
      unfold terms_step; simpl. destruct o; simpl; rewrite ?app_length; simpl; lia.
    + lia.
Qed.

(** ** What is stored *)
Lemma den_unfolds o : heap_ok o -> forall n p, valid (length o) p -> (p <= n)%nat -> unfolds o p (dp (deeps o) p).
Proof.
  intros Ho. induction n as [|n IH]; intros p Hp Hn; [destruct Hp; lia|].
  destruct (deref_valid o p Hp) as (x & E & N). rewrite (dp_deref o p x Ho N). pose proof (Ho _ _ N) as Hx.
  assert (K : forall q, In q (ptrs x) -> unfolds o q (dp (deeps o) q)). { intros q Hq. specialize (Hx q Hq). unfold valid in *. apply IH; unfold valid; lia. }
  destruct x as [d|d s|ps r]; simpl.
  - apply U_use; auto.
  - eapply U_qual; eauto. apply K. simpl; auto.
  - eapply U_func; eauto; [|apply K; simpl; auto]. assert (K' : forall q, In q ps -> unfolds o q (dp (deeps o) q)) by (intros q Hq; apply K; simpl; auto).
    clear - K'. induction ps as [|q ps IH]; constructor; [apply K'; left; auto|apply IH; intros q' Hq; apply K'; right; auto].
Qed.
Lemma den_unfolds_all o ps : heap_ok o -> (forall p, In p ps -> valid (length o) p) -> Forall2 (unfolds o) ps (map (dp (deeps o)) ps).
Proof.
  intros Ho H. induction ps as [|p ps IH]; simpl; constructor.
  - eapply den_unfolds; eauto. apply H. left; auto.
  - apply IH. intros q Hq. apply H. right; auto.
Qed.
Lemma unfolds_dp o : heap_ok o -> forall t p, valid (length o) p -> unfolds o p t -> t = dp (deeps o) p.
Proof.
  intros Ho t. induction t as [d|t d IH|ts r IHts IHr] using ctype_ind'; intros p Hp U; destruct (deref_valid o p Hp) as (x & E & N);
    rewrite (dp_deref o p x Ho N); pose proof (Ho _ _ N) as Hx; assert (Hl : (p - 1 <= length o)%nat) by (unfold valid in Hp; lia);
    apply (shape_ok_le _ _ _ Hl) in Hx; inversion U; subst.
  - rewrite E in H1. inversion H1; subst. reflexivity.
  - rewrite E in H2. inversion H2; subst. simpl. rewrite <- (IH s); auto. apply Hx. simpl; auto.
  - match goal with U1 : Forall2 _ _ _ |- _ => rename U1 into UF end. rewrite E in H1. inversion H1; subst. simpl. rewrite <- (IHr r0); auto; [|apply Hx; simpl; auto]. f_equal.
    assert (Hv : forall q, In q ps -> valid (length o) q) by (intros q Hq; apply Hx; simpl; auto). clear - IHts UF Hv Ho.
    revert ps UF Hv. induction IHts as [|t ts Ht IHts IH]; intros ps UF Hv; inversion UF; subst; simpl; auto. rewrite <- (Ht x); auto.
    + f_equal. apply IH; auto. intros q Hq. apply Hv. right; auto.
    + apply Hv. left; auto.
Qed.

(** ** Order *)
Section Line.
Variable line : Z -> Z.
(** the comparison on terms *)
Fixpoint tcmp (a b : ctype) : Z :=
  match a, b with
  | TUse d, TUse d' => line d - line d'
  | TQual t d, TQual t' d' => if negb (line d =? line d') then line d - line d' else tcmp t t'
  | TFunc l r, TFunc l' r' =>
    if negb (Nat.eqb (length l) (length l')) then (if Nat.ltb (length l') (length l) then 1 else -1) else
    if negb (tcmp r r' =? 0) then tcmp r r' else
    (fix go c l l' := match l, l' with x :: l, y :: l' => go (if negb (c =? 0) then c else tcmp x y) l l' | _, _ => c end) 0 l l'
  | TUse _, TQual _ _ => -1 | TUse _, TFunc _ _ => 1
  | TQual _ _, TUse _ => 1 | TQual _ _, TFunc _ _ => 2
  | TFunc _ _, TUse _ => -1 | TFunc _ _, TQual _ _ => -2
  end.
Definition lcmp := fix go c l l' := match l, l' with x :: l, y :: l' => go (if negb (c =? 0) then c else tcmp x y) l l' | _, _ => c end.
Lemma foldM_lcmp (rec : nat -> nat -> res Z) (g : nat -> ctype) ps : forall ps' c, (forall p q, In p ps -> In q ps' -> rec p q = Ok (tcmp (g p) (g q))) ->
  foldM (fun c pq => if negb (c =? 0) then Ok c else rec (fst pq) (snd pq)) (combine ps ps') c = Ok (lcmp c (map g ps) (map g ps')).
Proof.
  induction ps as [|p ps IH]; intros [|q ps'] c H; simpl; auto.
  replace (if negb (c =? 0) then Ok c else rec p q) with (Ok (if negb (c =? 0) then c else tcmp (g p) (g q))).
  2:{ destruct (negb (c =? 0)); auto. rewrite H; auto; left; auto. }
  cbn [bind]. rewrite IH; auto. intros a b Ha Hb. apply H; right; auto.
Qed.
Lemma type_compare_term o : heap_ok o -> forall fuel p q, valid (length o) p -> valid (length o) q -> (p < fuel)%nat ->
  type_compare line fuel o p q = Ok (tcmp (dp (deeps o) p) (dp (deeps o) q)).
Proof.
  intros Ho. induction fuel as [|fuel IH]; intros p q Hp Hq Hf; [lia|]. cbn [type_compare].
  destruct (deref_valid o p Hp) as (x & E & N). destruct (deref_valid o q Hq) as (y & E' & N'). rewrite E, E'. cbn [bind].
  rewrite (dp_deref o _ x Ho N), (dp_deref o _ y Ho N'). pose proof (Ho _ _ N) as Sx. pose proof (Ho _ _ N') as Sy. unfold valid in Hp, Hq.
  assert (K : forall a b, In a (ptrs x) -> In b (ptrs y) -> type_compare line fuel o a b = Ok (tcmp (dp (deeps o) a) (dp (deeps o) b))).
  { intros a b Ha Hb. specialize (Sx a Ha). specialize (Sy b Hb). unfold valid in Sx, Sy. apply IH; unfold valid; lia. }
  destruct x as [d|d s|ps r], y as [d'|d' s'|ps' r']; unfold shape_compare; simpl; auto.
  - destruct (negb (line d =? line d')); auto. apply K; simpl; auto.
  - rewrite !map_length. destruct (negb (length ps =? length ps')%nat); [destruct (length ps' <? length ps)%nat; auto|].
    rewrite K by (simpl; auto). cbn [bind]. destruct (negb (tcmp (dp (deeps o) r) (dp (deeps o) r') =? 0)); auto.
    fold lcmp. apply foldM_lcmp. intros a b Ha Hb. apply K; simpl; auto.
Qed.

Definition code (t : ctype) : list Z := polish (at_lines line t).
Lemma lex_refl l : lex l l = 0.
Proof. induction l; simpl; auto. rewrite Z.ltb_irrefl. auto. Qed.
Lemma lex_cons x a b : lex (x :: a) (x :: b) = lex a b.
Proof. simpl. now rewrite Z.ltb_irrefl. Qed.
Definition then_ (c : Z) (d : Z) : Z := if c =? 0 then d else Z.sgn c.
Lemma lex_diff x y a b : lex (x :: a) (y :: b) = then_ (x - y) (lex a b).
Proof. simpl. unfold then_. destruct (Z.ltb_spec x y), (Z.ltb_spec y x), (Z.eqb_spec (x - y) 0); try lia. Qed.
Lemma lcmp_code l : Forall (fun a => forall b ra rb, lex (code a ++ ra) (code b ++ rb) = then_ (tcmp a b) (lex ra rb)) l ->
  forall l' c ra rb, length l = length l' ->
  then_ c (lex (concat (map code l) ++ ra) (concat (map code l') ++ rb)) = then_ (lcmp c l l') (lex ra rb).
Proof.
  intros HF. induction HF as [|a l Ha HF IH]; intros [|b l'] c ra rb Hl; simpl in Hl; try lia; [reflexivity|].
  cbn [map concat]. rewrite <- !app_assoc, Ha. cbn [lcmp]. rewrite <- (IH l') by lia.
  unfold then_ at 1 2. destruct (Z.eqb_spec c 0) as [-> |Hc]; cbn [negb]; auto.
  unfold then_. destruct (Z.eqb_spec c 0); [lia|auto].
Qed.
Lemma then_then c d e : then_ (then_ c d) e = then_ c (then_ d e).
Proof. unfold then_. destruct (Z.eqb_spec c 0); auto. destruct (Z.eqb_spec (Z.sgn c) 0); try lia. Qed.
Lemma code_func ts r : code (TFunc ts r) = 0 :: Z.of_nat (length ts) :: code r ++ concat (map code ts).
Proof. unfold code. simpl. now rewrite map_length, map_map. Qed.
Lemma tcmp_code a : forall b ra rb, lex (code a ++ ra) (code b ++ rb) = then_ (tcmp a b) (lex ra rb).
Proof.
  induction a as [d|t d IH|ts r IHts IHr] using ctype_ind'; intros b ra rb; destruct b as [d'|t' d'|ts' r']; try reflexivity.
  - change (lex (1 :: line d :: ra) (1 :: line d' :: rb) = then_ (line d - line d') (lex ra rb)). rewrite lex_cons, lex_diff. reflexivity.
  - change (lex (2 :: line d :: code t ++ ra) (2 :: line d' :: code t' ++ rb) = then_ (tcmp (TQual t d) (TQual t' d')) (lex ra rb)).
    rewrite lex_cons, lex_diff, IH. cbn [tcmp]. unfold then_.
    destruct (Z.eqb_spec (line d) (line d')) as [->|Hd]; cbn [negb].
    + rewrite Z.sub_diag. reflexivity.
    + destruct (Z.eqb_spec (line d - line d') 0); auto. lia.
  - rewrite !code_func. cbn [app tcmp]. rewrite lex_cons, lex_diff. fold lcmp. destruct (Nat.eqb_spec (length ts) (length ts')) as [El|El]; cbn [negb].
    + rewrite El, Z.sub_diag. unfold then_ at 1. cbn [Z.eqb]. rewrite <- !app_assoc, IHr.
      destruct (Z.eqb_spec (tcmp r r') 0) as [Er|Er]; cbn [negb].
      * rewrite Er. unfold then_ at 1. cbn [Z.eqb]. rewrite <- (lcmp_code ts IHts ts' 0 ra rb El). reflexivity.
      * unfold then_. destruct (Z.eqb_spec (tcmp r r') 0); auto. lia.
    + destruct (Nat.ltb_spec (length ts') (length ts)); unfold then_; cbn [Z.eqb]; destruct (Z.eqb_spec (Z.of_nat (length ts) - Z.of_nat (length ts')) 0); simpl; lia.
Qed.
Lemma lcmp_codes l l' c ra rb : length l = length l' ->
  then_ c (lex (concat (map code l) ++ ra) (concat (map code l') ++ rb)) = then_ (lcmp c l l') (lex ra rb).
Proof. apply lcmp_code. apply Forall_forall. intros a _. apply tcmp_code. Qed.
Lemma tcmp_lex a b : Z.sgn (tcmp a b) = lex (code a) (code b).
Proof. rewrite <- (app_nil_r (code a)), <- (app_nil_r (code b)), tcmp_code. unfold then_. simpl. destruct (Z.eqb_spec (tcmp a b) 0) as [->|]; auto. Qed.

Definition scode (s : csig) : list Z := sig_polish (sig_at_lines line s).
Lemma signature_compare_lex o a b : heap_ok o -> sig_ok (length o) a -> sig_ok (length o) b ->
  exists c, signature_compare line o a b = Ok c /\ Z.sgn c = lex (scode (deep_sig (deeps o) a)) (scode (deep_sig (deeps o) b)).
Proof.
  intros Ho Ha Hb. unfold signature_compare, scode, sig_polish, sig_at_lines, deep_sig; simpl t_input; simpl t_var; simpl t_class; simpl t_actuals.
  rewrite !lex_diff, !map_length, (map_map _ polish), (map_map _ polish). fold code. change (fun x => polish (at_lines line x)) with code.
  destruct (Bool.eqb (is_input a) (is_input b)) eqn:E1; cbn [negb].
  2:{ eexists; split; [reflexivity|]. unfold then_. destruct (is_input a), (is_input b); simpl in *; auto; discriminate E1. }
  apply Bool.eqb_prop in E1. rewrite E1, Z.sub_diag. unfold then_ at 1. cbn [Z.eqb].
  destruct (Bool.eqb (is_var a) (is_var b)) eqn:E2; cbn [negb].
  2:{ eexists; split; [reflexivity|]. unfold then_. destruct (is_var a), (is_var b); simpl in *; auto; discriminate E2. }
  apply Bool.eqb_prop in E2. rewrite E2, Z.sub_diag. unfold then_ at 1. cbn [Z.eqb].
  destruct (Z.eqb_spec (line (source_class a)) (line (source_class b))) as [E3|E3]; cbn [negb].
  2:{ eexists; split; [reflexivity|]. unfold then_. destruct (Z.eqb_spec (line (source_class a) - line (source_class b)) 0); auto. lia. }
  rewrite E3, Z.sub_diag. unfold then_ at 1. cbn [Z.eqb].
  destruct (Nat.eqb_spec (length (actuals a)) (length (actuals b))) as [E4|E4]; cbn [negb].
  2:{ eexists; split; [reflexivity|]. unfold then_. destruct (Z.eqb_spec (Z.of_nat (length (actuals a)) - Z.of_nat (length (actuals b))) 0); auto. lia. }
  rewrite E4, Z.sub_diag. unfold then_ at 1. cbn [Z.eqb].
  rewrite (foldM_lcmp _ (dp (deeps o))). 2:{ intros p q Hp Hq. specialize (Ha p Hp). specialize (Hb q Hq). apply type_compare_term; auto. unfold valid in Ha. lia. }
  eexists. split; [reflexivity|].
  pose proof (lcmp_codes (map (dp (deeps o)) (actuals a)) (map (dp (deeps o)) (actuals b)) 0 [] []) as L. rewrite !map_length in L. specialize (L E4).
  unfold then_ at 1 in L. cbn [Z.eqb] in L. rewrite !app_nil_r in L.
  rewrite L. unfold then_. simpl. match goal with |- context [Z.eqb ?x 0] => destruct (Z.eqb_spec x 0) as [-> |] end; auto.
Qed.
End Line.

(** ** The lexicographic order *)
Lemma lex_antisym a : forall b, lex b a = - lex a b.
Proof.
  induction a as [|x a IH]; intros [|y b]; simpl; auto. destruct (Z.ltb_spec x y), (Z.ltb_spec y x); auto; lia.
Qed.
Lemma lex_trans a : forall b c, lex a b <= 0 -> lex b c <= 0 -> lex a c <= 0.
Proof.
  induction a as [|x a IH]; intros [|y b] [|z c]; simpl; try lia.
  destruct (Z.ltb_spec x y), (Z.ltb_spec y z), (Z.ltb_spec x z), (Z.ltb_spec y x), (Z.ltb_spec z y), (Z.ltb_spec z x); try lia. apply IH.
Qed.
Lemma lex_eq a : forall b, lex a b = 0 -> a = b.
Proof.
  induction a as [|x a IH]; intros [|y b]; simpl; auto; try lia. destruct (Z.ltb_spec x y), (Z.ltb_spec y x); try lia. intros E. rewrite (IH b E). f_equal. lia.
Qed.
(** Polish notation can be read back. *)
Lemma polish_inj a : forall b ra rb, polish a ++ ra = polish b ++ rb -> a = b /\ ra = rb.
Proof.
  induction a as [d|t d IH|ts r IHts IHr] using ctype_ind'; intros b ra rb E; destruct b as [d'|t' d'|ts' r']; simpl in E; try (inversion E; fail).
  - inversion E; auto.
  - inversion E as [[E1 E2]]. destruct (IH _ _ _ E2) as [-> ->]. auto.
  - inversion E as [[E1 E2]]. rewrite <- !app_assoc in E2. destruct (IHr _ _ _ E2) as [-> E3]. apply Nat2Z.inj in E1.
    assert (K : ts = ts' /\ ra = rb); [|destruct K as [-> ->]; auto]. clear E E2. revert ts' E1 E3.
    induction IHts as [|t ts Ht IHts IH]; intros [|t' ts'] E1 E3; simpl in E1, E3; try lia; auto.
    rewrite <- !app_assoc in E3. destruct (Ht _ _ _ E3) as [-> E4]. destruct (IH ts') as [-> ->]; auto.
Qed.
Lemma sig_polish_inj a b : sig_polish a = sig_polish b -> a = b.
Proof.
  destruct a as [i v c l], b as [i' v' c' l']. unfold sig_polish; simpl. intros E. inversion E as [[E1 E2 E3 E4 E5]].
  assert (i = i') by (destruct i, i'; simpl in E1; auto; discriminate E1). assert (v = v') by (destruct v, v'; simpl in E2; auto; discriminate E2). subst.
  assert (l = l'); [|subst; auto]. apply Nat2Z.inj in E4. clear - E4 E5. revert l' E4 E5. induction l as [|a l IH]; intros [|b l'] E4 E5; simpl in *; try lia; auto.
  destruct (polish_inj _ _ _ _ E5) as [-> E6]. f_equal. apply IH; auto.
Qed.
