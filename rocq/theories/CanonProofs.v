(** * Proofs about CanonModel: canonical types and signatures are hash-consed *)
From Verif Require Import Base PrimeModel PrimeSpec PrimeProofs HashTableModel HashConsModel HashConsSpec HashConsProofs
  CanonModel CanonSpec.
Open Scope Z_scope.

(** ** hash_cons_get commutes with a change of representation of the objects *)
Definition hmap {A B} (f : A -> B) (h : hc A) : hc B :=
  {| hslots := hslots h; hsize := hsize h; hcap := hcap h; hinit := hinit h; objs := map f (objs h) |}.
Definition rmap {A B} (f : A -> B) (r : res A) : res B := a <- r ;; Ok (f a).
Section Map.
Context {A B : Type}.
Variable f : A -> B.
Variable ha : A -> Z.
Variable ea : A -> A -> bool.
Variable hb : B -> Z.
Variable eb : B -> B -> bool.
Definition agree (l : list A) : Prop := (forall x, In x l -> ha x = hb (f x)) /\ (forall x y, In x l -> In y l -> ea x y = eb (f x) (f y)).
Lemma deref_map (o : list A) p : deref (map f o) p = rmap f (deref o p).
Proof. destruct p as [|p]; simpl; auto. unfold rd. rewrite nth_error_map. destruct (nth_error o p); auto. Qed.
Lemma deref_in (o : list A) p x : deref o p = Ok x -> In x o.
Proof. destruct p as [|p]; simpl; [intros H; discriminate H|]. unfold rd. destruct (nth_error o p) eqn:E; intros H; inversion H; subst. eapply nth_error_In; eauto. Qed.
Lemma probe_map fuel : forall h x i s, agree (objs h ++ [x]) -> hc_probe eb fuel (hmap f h) (f x) i s = hc_probe ea fuel h x i s.
Proof.
  induction fuel as [|fuel IH]; intros h x i s Ha; simpl; auto.
  change (hslot (hmap f h) i) with (hslot h i). destruct (hslot h i) as [p| | |]; cbn [bind]; auto.
  assert (E : match p with O => Ok true | S _ => z <- deref (map f (objs h)) p ;; Ok (eb z (f x)) end
            = match p with O => Ok true | S _ => z <- deref (objs h) p ;; Ok (ea z x) end).
  { destruct p as [|p]; auto. rewrite deref_map. destruct (deref (objs h) (S p)) as [z| | |] eqn:D; unfold rmap; cbn [bind]; auto.
    f_equal. symmetry. apply Ha; apply in_or_app; [left; eapply deref_in; eauto|right; left; auto]. }
  rewrite E. destruct (match p with O => Ok true | S _ => z <- deref (objs h) p ;; Ok (ea z x) end) as [b| | |]; cbn [bind]; auto.
  destruct b; auto. destruct (int_add i s) as [v| | |]; cbn [bind]; auto.
Qed.
Lemma cand_map h x : agree (objs h ++ [x]) -> hc_candidate_index hb eb (hmap f h) (f x) = hc_candidate_index ha ea h x.
Proof.
  intros Ha. unfold hc_candidate_index. rewrite <- (proj1 Ha x) by (apply in_or_app; right; left; auto).
  change (hcap (hmap f h)) with (hcap h). cbv zeta. destruct ((hcap h =? 0) || (hcap h - 2 =? 0)); auto. apply probe_map; auto.
Qed.
Lemma insert_at_map h p i : hc_insert_at (hmap f h) p i = rmap (hmap f) (hc_insert_at h p i).
Proof. unfold hc_insert_at, rmap. destruct (i <? 0); auto. change (hslots (hmap f h)) with (hslots h). destruct (wr (hslots h) (Z.to_nat i) p); auto. Qed.
Lemma insert_at_objs (h h' : hc A) p i : hc_insert_at h p i = Ok h' -> objs h' = objs h.
Proof. unfold hc_insert_at. destruct (i <? 0); [intros H; discriminate H|]. destruct (wr (hslots h) (Z.to_nat i) p); cbn [bind]; intros H; inversion H; auto. Qed.
Lemma agree_in l x : agree l -> In x l -> agree (l ++ [x]).
Proof.
  intros [H1 H2] Hx. assert (K : forall y, In y (l ++ [x]) -> In y l). { intros y Hy. apply in_app_or in Hy. destruct Hy as [Hy|[<-|[]]]; auto. }
  split; auto.
Qed.
Lemma insert_map h p : agree (objs h) -> hc_insert hb eb (hmap f h) p = rmap (hmap f) (hc_insert ha ea h p).
Proof.
  intros Ha. unfold hc_insert. change (objs (hmap f h)) with (map f (objs h)). rewrite deref_map.
  destruct (deref (objs h) p) as [x| | |] eqn:D; unfold rmap at 1; cbn [bind]; auto.
  rewrite cand_map by (apply agree_in; auto; eapply deref_in; eauto).
  destruct (hc_candidate_index ha ea h x) as [i| | |]; cbn [bind]; auto. apply insert_at_map.
Qed.
Lemma insert_objs (h h' : hc A) p : hc_insert ha ea h p = Ok h' -> objs h' = objs h.
Proof.
  unfold hc_insert. destruct (deref (objs h) p) as [x| | |]; cbn [bind]; try (intros H; discriminate H).
  destruct (hc_candidate_index ha ea h x) as [i| | |]; cbn [bind]; try (intros H; discriminate H). apply insert_at_objs.
Qed.
Lemma reinsert_map l : forall h, agree (objs h) -> hc_reinsert hb eb l (hmap f h) = rmap (hmap f) (hc_reinsert ha ea l h).
Proof.
  induction l as [|p l IH]; intros h Ha; simpl; auto. destruct p as [|p]; cbn [bind]; auto.
  rewrite insert_map by auto. destruct (hc_insert ha ea h (S p)) as [h'| | |] eqn:E; unfold rmap at 1; cbn [bind]; auto.
  apply IH. rewrite (insert_objs _ _ _ E). auto.
Qed.
Lemma get_map st h x : agree (objs h ++ [x]) ->
  hash_cons_get hb eb st (hmap f h) (f x) = rmap (fun r => let '(st, h, p) := r in (st, hmap f h, p)) (hash_cons_get ha ea st h x).
Proof.
  intros Ha. unfold hash_cons_get. change (hinit (hmap f h)) with (hinit h).
  set (h1 := if hinit h then h else hc_initialize h HC_INITIAL_BASE_SIZE).
  replace (if hinit h then hmap f h else hc_initialize (hmap f h) HC_INITIAL_BASE_SIZE) with (hmap f h1) by (unfold h1; destruct (hinit h); auto).
  assert (Ho : objs h1 = objs h) by (unfold h1; destruct (hinit h); auto). rewrite <- Ho in Ha. clearbody h1. clear Ho h. rename h1 into h.
  cbv zeta. rewrite cand_map by auto. destruct (hc_candidate_index ha ea h x) as [i| | |]; auto. cbn [bind].
  change (hslot (hmap f h) i) with (hslot h i). destruct (hslot h i) as [p| | |]; auto. cbn [bind]. destruct p as [|p]; auto.
  change (objs (hmap f h)) with (map f (objs h)). rewrite map_length.
  set (h2 := {| hslots := hslots h; hsize := hsize h; hcap := hcap h; hinit := hinit h; objs := objs h ++ [x] |}).
  replace {| hslots := hslots (hmap f h); hsize := hsize (hmap f h); hcap := hcap (hmap f h); hinit := hinit (hmap f h); objs := map f (objs h) ++ [f x] |} with (hmap f h2)
    by (unfold hmap, h2; simpl; now rewrite map_app).
  rewrite insert_at_map. destruct (hc_insert_at h2 (S (length (objs h))) i) as [h3| | |] eqn:E; auto. unfold rmap at 1; cbn [bind].
  pose proof (insert_at_objs _ _ _ _ E) as Ho. change (objs h2) with (objs h ++ [x]) in Ho.
  change (hcap (hmap f h3)) with (hcap h3). change (hsize (hmap f h3)) with (hsize h3).
  destruct (hcap h3 <? 2 * hsize h3); auto. destruct (double_int (hcap h3)) as [c2| | |]; auto. cbn [bind].
  destruct (next_twin_prime st c2) as [[st2 c]| | |]; auto. cbn [bind].
  unfold hc_resize. change (hslots (hmap f h3)) with (hslots h3). change (hcap (hmap f h3)) with (hcap h3).
  change (hc_initialize (hmap f h3) c) with (hmap f (hc_initialize h3 c)).
  rewrite reinsert_map by (simpl; rewrite Ho; auto).
  destruct (hc_reinsert ha ea (firstn (Z.to_nat (hcap h3)) (hslots h3)) (hc_initialize h3 c)); auto.
Qed.
Lemma reinsert_objs l : forall (h h' : hc A), hc_reinsert ha ea l h = Ok h' -> objs h' = objs h.
Proof.
  induction l as [|p l IH]; intros h h' H; cbn [hc_reinsert] in H; [inversion H; auto|]. destruct p as [|p]; cbn [bind] in H; [auto|].
  destruct (hc_insert ha ea h (S p)) as [h2| | |] eqn:E; cbn [bind] in H; try discriminate H. rewrite (IH _ _ H). eapply insert_objs; eauto.
Qed.
Lemma get_objs st (h : hc A) x st' h' p : hash_cons_get ha ea st h x = Ok (st', h', p) -> objs h' = objs h \/ objs h' = objs h ++ [x].
Proof.
  unfold hash_cons_get. set (h1 := if hinit h then h else hc_initialize h HC_INITIAL_BASE_SIZE).
  assert (Ho : objs h1 = objs h) by (unfold h1; destruct (hinit h); auto). cbv zeta.
  destruct (hc_candidate_index ha ea h1 x) as [i| | |]; cbn [bind]; try (intros H; discriminate H).
  destruct (hslot h1 i) as [q| | |]; cbn [bind]; try (intros H; discriminate H).
  destruct q as [|q]. 2:{ intros H; inversion H; subst. auto. }
  match goal with |- context [hc_insert_at ?a ?b ?c] => destruct (hc_insert_at a b c) as [h3| | |] eqn:E end; cbn [bind]; try (intros H; discriminate H).
  apply insert_at_objs in E. simpl in E. rewrite Ho in E.
  destruct (hcap h3 <? 2 * hsize h3). 2:{ intros H; inversion H; subst. auto. }
  destruct (double_int (hcap h3)) as [c2| | |]; cbn [bind]; try (intros H; discriminate H).
  destruct (next_twin_prime st c2) as [[st2 c]| | |]; cbn [bind]; try (intros H; discriminate H).
  destruct (hc_resize ha ea h3 c) as [h4| | |] eqn:R; cbn [bind]; intros H; inversion H; subst.
  apply reinsert_objs in R. simpl in R. right. congruence.
Qed.
End Map.

(** ** Terms *)
Lemma ctype_ind' (P : ctype -> Prop) : (forall d, P (TUse d)) -> (forall t d, P t -> P (TQual t d)) ->
  (forall ts r, Forall P ts -> P r -> P (TFunc ts r)) -> forall t, P t.
Proof.
  intros H1 H2 H3. fix IH 1. intros [d|t d|ts r]; [apply H1|apply H2; apply IH|]. apply H3; [|apply IH]. induction ts as [|t ts IHts]; constructor; [apply IH|exact IHts].
Qed.
Fixpoint ctype_eqb (a b : ctype) : bool :=
  match a, b with
  | TUse d, TUse d' => d =? d'
  | TQual t d, TQual t' d' => (d =? d') && ctype_eqb t t'
  | TFunc l r, TFunc l' r' =>
    (fix go l l' := match l, l' with [], [] => true | x :: l, y :: l' => ctype_eqb x y && go l l' | _, _ => false end) l l' && ctype_eqb r r'
  | _, _ => false
  end.
Definition ctypes_eqb := fix go l l' := match l, l' with [], [] => true | x :: l, y :: l' => ctype_eqb x y && go l l' | _, _ => false end.
Lemma ctypes_eqb_eq l : Forall (fun a => forall b, ctype_eqb a b = true <-> a = b) l -> forall l', ctypes_eqb l l' = true <-> l = l'.
Proof.
  intros HF. induction HF as [|a l Ha HF IH]; intros [|b l']; simpl; try (split; intros H; discriminate H); [tauto|].
  rewrite andb_true_iff, Ha, IH. split; [intros [-> ->]|intros H; inversion H]; auto.
Qed.
Lemma ctype_eqb_eq a : forall b, ctype_eqb a b = true <-> a = b.
Proof.
  induction a as [d|t d IH|ts r IHts IHr] using ctype_ind'; intros [d'|t' d'|ts' r']; simpl; try (split; intros H; discriminate H).
  - rewrite Z.eqb_eq. split; congruence.
  - rewrite andb_true_iff, Z.eqb_eq, IH. split; [intros [-> ->]|intros H; inversion H]; auto.
  - change ((ctypes_eqb ts ts' && ctype_eqb r r')%bool = true <-> TFunc ts r = TFunc ts' r').
    rewrite andb_true_iff, (ctypes_eqb_eq ts IHts), IHr. split; [intros [-> ->]|intros H; inversion H]; auto.
Qed.
Lemma ctype_eqb_refl a : ctype_eqb a a = true. Proof. now apply ctype_eqb_eq. Qed.
Lemma types_eqb_eq l l' : ctypes_eqb l l' = true <-> l = l'.
Proof. apply ctypes_eqb_eq. apply Forall_forall. intros a _. apply ctype_eqb_eq. Qed.

(** ** What the objects of a heap stand for *)
Definition dp (ds : list ctype) (p : nat) : ctype := nth (p - 1) ds (TUse 0).
Definition deep_shape (ds : list ctype) (x : shape) : ctype :=
  match x with SUse d => TUse d | SQual d s => TQual (dp ds s) d | SFunc ps r => TFunc (map (dp ds) ps) (dp ds r) end.
Definition deeps (o : theap) : list ctype := fold_left (fun ds x => ds ++ [deep_shape ds x]) o [].
Definition ptrs (x : shape) : list nat := match x with SUse _ => [] | SQual _ s => [s] | SFunc ps r => r :: ps end.
Definition valid (n : nat) (p : nat) : Prop := (1 <= p <= n)%nat.
Definition shape_ok (n : nat) (x : shape) : Prop := forall p, In p (ptrs x) -> valid n p.
Definition heap_ok (o : theap) : Prop := forall i x, nth_error o i = Some x -> shape_ok i x.

Lemma deeps_snoc o x : deeps (o ++ [x]) = deeps o ++ [deep_shape (deeps o) x].
Proof. unfold deeps. now rewrite fold_left_app. Qed.
Lemma deeps_length o : length (deeps o) = length o.
Proof. induction o as [|x o IH] using rev_ind; auto. rewrite deeps_snoc, !app_length, IH. auto. Qed.
Lemma dp_ext ds l p : valid (length ds) p -> dp (ds ++ l) p = dp ds p.
Proof. intros H. unfold dp. apply app_nth1. unfold valid in H. lia. Qed.
Lemma deep_ext ds l x : shape_ok (length ds) x -> deep_shape (ds ++ l) x = deep_shape ds x.
Proof.
  intros H. destruct x as [d|d s|ps r]; simpl; auto.
  - rewrite dp_ext; auto. apply H. simpl; auto.
  - rewrite dp_ext by (apply H; simpl; auto). f_equal. apply map_ext_in. intros p Hp. apply dp_ext. apply H. simpl; auto.
Qed.
Lemma heap_ok_snoc o x : heap_ok (o ++ [x]) <-> heap_ok o /\ shape_ok (length o) x.
Proof.
  split.
  - intros H. split.
    + intros i y Hy. apply H. rewrite nth_error_app1; auto. apply nth_error_Some. congruence.
    + apply H. rewrite nth_error_app2 by lia. now rewrite Nat.sub_diag.
  - intros [H1 H2] i y Hy. destruct (Nat.lt_ge_cases i (length o)).
    + rewrite nth_error_app1 in Hy by auto. auto.
    + rewrite nth_error_app2 in Hy by auto. destruct (i - length o)%nat as [|k] eqn:E; simpl in Hy; [|destruct k; discriminate Hy].
      inversion Hy; subst. replace i with (length o) by lia. auto.
Qed.
Lemma shape_ok_le n m x : (n <= m)%nat -> shape_ok n x -> shape_ok m x.
Proof. intros H K p Hp. specialize (K p Hp). unfold valid in *. lia. Qed.
Lemma map_deep o : heap_ok o -> map (deep_shape (deeps o)) o = deeps o.
Proof.
  induction o as [|x o IH] using rev_ind; intros H; auto. apply heap_ok_snoc in H. destruct H as [H1 H2].
  rewrite deeps_snoc, map_app. cbn [map]. rewrite (deep_ext (deeps o)) by (rewrite deeps_length; auto). f_equal.
  transitivity (map (deep_shape (deeps o)) o); [|auto]. apply map_ext_in. intros y Hy. apply deep_ext. rewrite deeps_length.
  apply In_nth_error in Hy. destruct Hy as [i Hi]. assert (i < length o)%nat by (apply nth_error_Some; congruence).
  apply (shape_ok_le i); auto; lia.
Qed.
Lemma deref_valid (o : theap) p : valid (length o) p -> exists x, deref o p = Ok x /\ nth_error o (p - 1) = Some x.
Proof.
  intros [H1 H2]. destruct p as [|p]; [lia|]. simpl. rewrite Nat.sub_0_r. unfold rd.
  destruct (nth_error o p) as [x|] eqn:E; eauto. apply nth_error_None in E. lia.
Qed.
Lemma dp_deref o p x : heap_ok o -> nth_error o (p - 1) = Some x -> dp (deeps o) p = deep_shape (deeps o) x.
Proof. intros H E. unfold dp. rewrite <- (map_deep o H) at 1. rewrite (nth_indep _ (TUse 0) (deep_shape (deeps o) (SUse 0))).
  - rewrite map_nth. f_equal. now apply nth_error_nth.
  - rewrite map_length. apply nth_error_Some. congruence.
Qed.

(** ** The hash of an object is the hash of its term *)
Definition params_hash := fix params l h := match l with [] => Ok h | t :: l => v <- term_hash t ;; h' <- hash_mix h v ;; params l h' end.
Lemma params_hash_eq l : forall h, params_hash l h = foldM (fun h t => v <- term_hash t ;; hash_mix h v) l h.
Proof.
  induction l as [|t l IH]; intros h; simpl; auto. destruct (term_hash t) as [v| | |]; cbn [bind]; auto.
  destruct (hash_mix h v); cbn [bind]; auto.
Qed.
Lemma foldM_map {A B S} (g : A -> B) (f : S -> B -> res S) l : forall s, foldM f (map g l) s = foldM (fun s a => f s (g a)) l s.
Proof. induction l as [|a l IH]; intros s; simpl; auto. destruct (f s (g a)); cbn [bind]; auto. Qed.
Lemma foldM_ext_in {A S} (f g : S -> A -> res S) l : (forall a s, In a l -> f s a = g s a) -> forall s, foldM f l s = foldM g l s.
Proof.
  induction l as [|a l IH]; intros H s; simpl; auto. rewrite (H a) by (left; auto).
  destruct (g s a); cbn [bind]; auto. apply IH. intros b s' Hb. apply H. right; auto.
Qed.
Lemma shape_hash_deep rec ds x : (forall p, In p (ptrs x) -> rec p = term_hash (dp ds p)) -> shape_hash rec x = term_hash (deep_shape ds x).
Proof.
  destruct x as [d|d s|ps r]; intros H.
  - reflexivity.
  - simpl. rewrite H by (simpl; auto). reflexivity.
  - cbn [shape_hash deep_shape term_hash]. fold params_hash. rewrite map_length, params_hash_eq, foldM_map.
    rewrite (foldM_ext_in _ (fun h a => v <- term_hash (dp ds a) ;; hash_mix h v)) by (intros a s Ha; rewrite H by (simpl; auto); auto).
    destruct (foldM (fun h a => v <- term_hash (dp ds a) ;; hash_mix h v) ps 0); cbn [bind]; auto. rewrite H by (simpl; auto). reflexivity.
Qed.
Lemma type_hash_deep o : heap_ok o -> forall fuel p, valid (length o) p -> (p < fuel)%nat -> type_hash fuel o p = term_hash (dp (deeps o) p).
Proof.
  intros Ho. induction fuel as [|fuel IH]; intros p Hp Hf; [lia|]. cbn [type_hash].
  destruct p as [|p]; [destruct Hp; lia|]. destruct (deref_valid o (S p) Hp) as (x & E & N). rewrite E. cbn [bind].
  rewrite (dp_deref o _ x Ho N). apply shape_hash_deep. intros q Hq. specialize (Ho _ _ N q Hq). unfold valid in *. apply IH; unfold valid; lia.
Qed.
Lemma item_hash_deep o x : heap_ok o -> shape_ok (length o) x -> item_hash o x = term_hash (deep_shape (deeps o) x).
Proof.
  intros Ho Hx. unfold item_hash. apply shape_hash_deep. intros p Hp. specialize (Hx p Hp). apply type_hash_deep; auto. unfold valid in *. lia.
Qed.

(** ** Equality of objects is equality of terms *)
Lemma nodup_dp ds p q : NoDup ds -> valid (length ds) p -> valid (length ds) q -> dp ds p = dp ds q -> p = q.
Proof.
  intros Hn [H1 H2] [H3 H4] E. unfold dp in E. rewrite (NoDup_nth ds (TUse 0)) in Hn.
  specialize (Hn (p - 1)%nat (q - 1)%nat). assert (p - 1 = q - 1)%nat; [|lia]. apply Hn; auto; lia.
Qed.
Lemma bool_iff (a b : bool) : (a = true <-> b = true) -> a = b.
Proof. destruct a, b; intros [H1 H2]; auto. symmetry; auto. Qed.
Lemma ptr_eqb ds p q : NoDup ds -> valid (length ds) p -> valid (length ds) q -> Nat.eqb p q = ctype_eqb (dp ds p) (dp ds q).
Proof.
  intros Hn Hp Hq. apply bool_iff. rewrite Nat.eqb_eq, ctype_eqb_eq. split; [congruence|]. apply nodup_dp; auto.
Qed.
Lemma ptrs_eqb (rec : nat -> nat -> bool) ds ps : forall ps', (forall p q, In p ps -> In q ps' -> rec p q = ctype_eqb (dp ds p) (dp ds q)) ->
  Nat.eqb (length ps) (length ps') && forallb (fun pq => rec (fst pq) (snd pq)) (combine ps ps') = ctypes_eqb (map (dp ds) ps) (map (dp ds) ps').
Proof.
  induction ps as [|p ps IH]; intros [|q ps'] H; simpl; auto. rewrite <- IH by (intros; apply H; right; auto).
  rewrite (H p q) by (left; auto). destruct (Nat.eqb (length ps) (length ps')), (ctype_eqb (dp ds p) (dp ds q)); auto.
Qed.
Lemma shape_equal_deep rec ds x y : NoDup ds -> shape_ok (length ds) x -> shape_ok (length ds) y ->
  (forall p q, In p (ptrs x) -> In q (ptrs y) -> rec p q = ctype_eqb (dp ds p) (dp ds q)) ->
  shape_equal rec x y = ctype_eqb (deep_shape ds x) (deep_shape ds y).
Proof.
  intros Hn Hx Hy H. destruct x as [d|d s|ps r], y as [d'|d' s'|ps' r']; simpl; auto.
  - rewrite (ptr_eqb ds s s'); auto; [apply Hx|apply Hy]; simpl; auto.
  - rewrite (ptr_eqb ds r r' Hn) by (first [apply Hx; simpl; auto; fail|apply Hy; simpl; auto; fail]). f_equal. apply ptrs_eqb. intros p q Hp Hq. apply H; simpl; auto.
Qed.
Lemma type_equal_deep o : heap_ok o -> NoDup (deeps o) -> forall fuel p q, valid (length o) p -> valid (length o) q -> (p < fuel)%nat ->
  type_equal fuel o p q = ctype_eqb (dp (deeps o) p) (dp (deeps o) q).
Proof.
  intros Ho Hn. induction fuel as [|fuel IH]; intros p q Hp Hq Hf; [lia|]. cbn [type_equal].
  destruct p as [|p]; [destruct Hp; lia|]. destruct q as [|q]; [destruct Hq; lia|].
  destruct (deref_valid o (S p) Hp) as (x & E & N). destruct (deref_valid o (S q) Hq) as (y & E' & N'). rewrite E, E'.
  rewrite (dp_deref o _ x Ho N), (dp_deref o _ y Ho N'). pose proof (Ho _ _ N) as Sx. pose proof (Ho _ _ N') as Sy.
  unfold valid in Hp, Hq.
  apply shape_equal_deep; auto; try (rewrite deeps_length; eapply shape_ok_le; [|eassumption]; lia).
  intros a b Ha Hb. specialize (Sx a Ha). specialize (Sy b Hb). unfold valid in Sx, Sy. apply IH; unfold valid; lia.
Qed.
Lemma item_equal_deep o x y : heap_ok o -> NoDup (deeps o) -> shape_ok (length o) x -> shape_ok (length o) y ->
  item_equal o x y = ctype_eqb (deep_shape (deeps o) x) (deep_shape (deeps o) y).
Proof.
  intros Ho Hn Hx Hy. unfold item_equal. apply shape_equal_deep; auto; try (rewrite deeps_length; auto).
  intros p q Hp Hq. specialize (Hx p Hp). specialize (Hy q Hq). apply type_equal_deep; auto. unfold valid in Hx. lia.
Qed.

(** ** The table of types *)
Definition thash (t : ctype) : Z := value (term_hash t).
Lemma types_good : hc_good thash ctype_eqb.
Proof.
  constructor.
  - intros x. apply ctype_eqb_refl.
  - intros x y. rewrite !ctype_eqb_eq. auto.
  - intros x y z. rewrite !ctype_eqb_eq. congruence.
  - intros x y. rewrite ctype_eqb_eq. congruence.
Qed.

Definition deep_table (h : hc shape) : hc ctype := hmap (deep_shape (deeps (objs h))) h.
Lemma deep_objs h : heap_ok (objs h) -> objs (deep_table h) = deeps (objs h).
Proof. intros H. simpl. apply map_deep; auto. Qed.
Lemma uniq_nodup (o : list ctype) : uniq ctype_eqb o -> NoDup o.
Proof.
  intros H. apply NoDup_nth_error. intros i j Hi E. destruct (nth_error o i) as [a|] eqn:Ei; [|apply nth_error_None in Ei; lia].
  symmetry in E. apply (H i j a a); auto. apply ctype_eqb_refl.
Qed.
Record types_ok (h : hc shape) : Prop := { t_heap : heap_ok (objs h); t_state : hstate thash ctype_eqb (deep_table h) }.
Lemma types_nodup h : types_ok h -> NoDup (deeps (objs h)).
Proof. intros [H1 H2]. apply uniq_nodup. rewrite <- deep_objs by auto. eapply state_uniq; eauto. Qed.
Lemma new_type_ok st h x v : st_ok st -> types_ok h -> hsize h < 249999999 -> shape_ok (length (objs h)) x ->
  term_hash (deep_shape (deeps (objs h)) x) = Ok v ->
  exists st' h' p, new_type st h x = Ok (st', h', p) /\ st_ok st' /\ types_ok h' /\ hsize h' <= hsize h + 1 /\
    (exists l, objs h' = objs h ++ l) /\ valid (length (objs h')) p /\ dp (deeps (objs h')) p = deep_shape (deeps (objs h)) x.
Proof.
  intros Hst Ht Hs Hx Hv. pose proof (types_nodup h Ht) as Hn. destruct Ht as [Ho Hd].
  set (f := deep_shape (deeps (objs h))). unfold new_type. rewrite (item_hash_deep _ _ Ho Hx), Hv. cbn [bind].
  assert (Hok : forall y, In y (objs h ++ [x]) -> shape_ok (length (objs h)) y).
  { intros y Hy. apply in_app_or in Hy. destruct Hy as [Hy|[<-|[]]]; auto. apply In_nth_error in Hy. destruct Hy as [i Hi].
    assert (i < length (objs h))%nat by (apply nth_error_Some; congruence). apply (shape_ok_le i); auto; lia. }
  pose proof (get_map f (fun y => value (item_hash (objs h) y)) (item_equal (objs h)) thash ctype_eqb st h x) as M.
  destruct (get_ok thash ctype_eqb types_good st (hmap f h) (f x) Hst Hd) as (st' & h2 & p & E & A1 & A2 & A3); [simpl; lia|].
  rewrite M in E. 2:{ split.
    - intros y Hy. unfold thash, f. now rewrite (item_hash_deep _ _ Ho (Hok y Hy)).
    - intros y z Hy Hz. apply item_equal_deep; auto. }
  clear M. destruct (hash_cons_get (fun y => value (item_hash (objs h) y)) (item_equal (objs h)) st h x) as [[[st1 h1] p1]| | |] eqn:Eg; unfold rmap in E; cbn [bind] in E;
    inversion E; subst st1 h2 p1. clear E. exists st', h1, p. split; auto. split; auto.
  assert (Hm : forall o, map f (objs h) = o -> o = deeps (objs h)). { intros o <-. apply map_deep; auto. }
  apply get_objs in Eg.
  destruct A3 as [(q & y & -> & Hq & Ey & Eo & Es)|(-> & Hnew & Eo & Es)]; simpl in Es.
  - assert (Eo' : objs h1 = objs h).
    { destruct Eg as [Eg|Eg]; auto. apply (f_equal (@length _)) in Eo. simpl in Eo. rewrite !map_length, Eg, app_length in Eo. simpl in Eo. lia. }
    split. { constructor; rewrite ?Eo'; auto. right. unfold deep_table. rewrite Eo'. exact A2. }
    split; [lia|]. split; [exists []; now rewrite app_nil_r|]. rewrite Eo'. cbn [hmap objs] in Hq. rewrite (Hm _ eq_refl) in Hq.
    assert (q < length (objs h))%nat by (rewrite <- deeps_length; apply nth_error_Some; congruence).
    split; [unfold valid; lia|]. unfold dp. simpl. rewrite Nat.sub_0_r, (nth_error_nth _ _ _ Hq). now apply ctype_eqb_eq.
  - assert (Eo' : objs h1 = objs h ++ [x]).
    { destruct Eg as [Eg|Eg]; auto. apply (f_equal (@length _)) in Eo. simpl in Eo. rewrite app_length, !map_length, Eg in Eo. simpl in Eo. lia. }
    assert (Hh : heap_ok (objs h1)) by (rewrite Eo'; apply heap_ok_snoc; auto).
    split. { constructor; auto. right. unfold deep_table.
      replace (hmap (deep_shape (deeps (objs h1))) h1) with (hmap f h1); [exact A2|]. unfold hmap. f_equal. rewrite Eo at 1.
      change (map (deep_shape (deeps (objs h1))) (objs h1)) with (objs (deep_table h1)). rewrite deep_objs by auto. rewrite Eo', deeps_snoc.
      cbn [hmap objs]. rewrite (Hm _ eq_refl). reflexivity. }
    split; [lia|]. split; [exists [x]; auto|]. rewrite Eo', app_length. cbn [hmap objs length]. rewrite map_length. split; [unfold valid; simpl; lia|].
    rewrite deeps_snoc. unfold dp. replace (S (length (objs h)) - 1)%nat with (length (deeps (objs h))) by (rewrite deeps_length; lia).
    rewrite app_nth2, Nat.sub_diag by lia. reflexivity.
Qed.

(** ** The table of signatures *)
Definition deep_sig (ds : list ctype) (s : sig) : csig := mkCsig (is_input s) (is_var s) (source_class s) (map (dp ds) (actuals s)).
Definition csig_eqb (a b : csig) : bool :=
  Bool.eqb (t_input a) (t_input b) && Bool.eqb (t_var a) (t_var b) && (t_class a =? t_class b) && ctypes_eqb (t_actuals a) (t_actuals b).
Lemma csig_eqb_eq a b : csig_eqb a b = true <-> a = b.
Proof.
  destruct a as [i v c l], b as [i' v' c' l']. unfold csig_eqb; simpl. rewrite !andb_true_iff, !Bool.eqb_true_iff, Z.eqb_eq, types_eqb_eq.
  split; [intros [[[-> ->] ->] ->]; auto|intros H; inversion H; auto].
Qed.
Definition shash (s : csig) : Z := value (csig_hash s).
Lemma sigs_good : hc_good shash csig_eqb.
Proof.
  constructor.
  - intros x. now apply csig_eqb_eq.
  - intros x y. rewrite !csig_eqb_eq. auto.
  - intros x y z. rewrite !csig_eqb_eq. congruence.
  - intros x y. rewrite csig_eqb_eq. congruence.
Qed.
Definition sig_ok (n : nat) (s : sig) : Prop := forall p, In p (actuals s) -> valid n p.
Lemma signature_hash_deep o s : heap_ok o -> sig_ok (length o) s -> signature_hash o s = csig_hash (deep_sig (deeps o) s).
Proof.
  intros Ho Hs. unfold signature_hash, csig_hash, deep_sig; simpl. unfold hash_canonical_types. rewrite foldM_map.
  erewrite foldM_ext_in; [reflexivity|]. intros p h Hp. cbv beta. rewrite (type_hash_deep o Ho); auto. specialize (Hs p Hp). unfold valid in Hs. lia.
Qed.
Lemma signature_equal_deep ds a b : NoDup ds -> sig_ok (length ds) a -> sig_ok (length ds) b -> signature_equal a b = csig_eqb (deep_sig ds a) (deep_sig ds b).
Proof.
  intros Hn Ha Hb. unfold signature_equal, csig_eqb, deep_sig; simpl. rewrite (ptrs_eqb Nat.eqb ds) by (intros p q Hp Hq; apply ptr_eqb; auto).
  destruct (Bool.eqb (is_input a) (is_input b)), (Bool.eqb (is_var a) (is_var b)), (source_class a =? source_class b), (ctypes_eqb (map (dp ds) (actuals a)) (map (dp ds) (actuals b))); auto.
Qed.
Lemma deep_sig_ext ds l s : sig_ok (length ds) s -> deep_sig (ds ++ l) s = deep_sig ds s.
Proof. intros H. unfold deep_sig. f_equal. apply map_ext_in. intros p Hp. apply dp_ext. auto. Qed.
Record sigs_ok (o : theap) (h : hc sig) : Prop := {
  s_all : Forall (sig_ok (length o)) (objs h); s_state : hstate shash csig_eqb (hmap (deep_sig (deeps o)) h) }.
Lemma deeps_ext o l : heap_ok (o ++ l) -> exists l', deeps (o ++ l) = deeps o ++ l'.
Proof.
  induction l as [|x l IH] using rev_ind; intros H; [exists []; now rewrite !app_nil_r|]. rewrite app_assoc in *. apply heap_ok_snoc in H. destruct H as [H _].
  destruct (IH H) as [l' E]. exists (l' ++ [deep_shape (deeps (o ++ l)) x]). rewrite deeps_snoc, E, <- app_assoc. auto.
Qed.
Lemma sigs_ext o l h : heap_ok (o ++ l) -> sigs_ok o h -> sigs_ok (o ++ l) h.
Proof.
  intros Ho [H1 H2]. destruct (deeps_ext o l Ho) as [l' E]. rewrite Forall_forall in H1. constructor.
  - apply Forall_forall. intros s Hs p Hp. specialize (H1 s Hs p Hp). rewrite app_length. unfold valid in *. lia.
  - replace (hmap (deep_sig (deeps (o ++ l))) h) with (hmap (deep_sig (deeps o)) h); auto. unfold hmap. f_equal. apply map_ext_in. intros s Hs.
    rewrite E. symmetry. apply deep_sig_ext. rewrite deeps_length. auto.
Qed.
Lemma new_sig_ok st o h x v : st_ok st -> heap_ok o -> NoDup (deeps o) -> sigs_ok o h -> hsize h < 249999999 -> sig_ok (length o) x ->
  csig_hash (deep_sig (deeps o) x) = Ok v ->
  exists st' h' p, new_canonical_signature st o h x = Ok (st', h', p) /\ st_ok st' /\ sigs_ok o h' /\ hsize h' <= hsize h + 1 /\
    (exists l, objs h' = objs h ++ l) /\ exists y, deref (objs h') p = Ok y /\ deep_sig (deeps o) y = deep_sig (deeps o) x.
Proof.
  intros Hst Ho Hn [Hall Hd] Hs Hx Hv. set (f := deep_sig (deeps o)). unfold new_canonical_signature. rewrite (signature_hash_deep _ _ Ho Hx), Hv. cbn [bind].
  assert (Hok : forall y, In y (objs h ++ [x]) -> sig_ok (length o) y).
  { intros y Hy. apply in_app_or in Hy. rewrite Forall_forall in Hall. destruct Hy as [Hy|[<-|[]]]; auto. }
  pose proof (get_map f (fun y => value (signature_hash o y)) signature_equal shash csig_eqb st h x) as M.
  destruct (get_ok shash csig_eqb sigs_good st (hmap f h) (f x) Hst Hd) as (st' & h2 & p & E & A1 & A2 & A3); [simpl; lia|].
  rewrite M in E. 2:{ split.
    - intros y Hy. unfold shash, f. now rewrite (signature_hash_deep _ _ Ho (Hok y Hy)).
    - intros y z Hy Hz. apply signature_equal_deep; auto; rewrite deeps_length; auto. }
  clear M. destruct (hash_cons_get (fun y => value (signature_hash o y)) signature_equal st h x) as [[[st1 h1] p1]| | |] eqn:Eg; unfold rmap in E; cbn [bind] in E;
    inversion E; subst st1 h2 p1. clear E. exists st', h1, p. split; auto. split; auto.
  apply get_objs in Eg. apply (get_spec_ext shash csig_eqb sigs_good) in A3. destruct A3 as (_ & (q & y & -> & Hq & Ey) & Es). simpl in Es.
  split. { constructor; [|right; exact A2]. apply Forall_forall. intros z Hz. apply Hok. apply in_or_app. destruct Eg as [Eg|Eg]; rewrite Eg in Hz; auto. apply in_app_or in Hz. auto. }
  split; auto. split. { destruct Eg as [Eg|Eg]; [exists []; now rewrite app_nil_r|exists [x]; auto]. }
  cbn [hmap objs] in Hq. rewrite nth_error_map in Hq. destruct (nth_error (objs h1) q) as [z|] eqn:Ez; [|discriminate Hq].
  exists z. simpl. unfold rd. rewrite Ez. split; auto. inversion Hq; subst. now apply csig_eqb_eq.
Qed.

(** ** Histories *)
Definition sig_den (o : theap) (hs : list sig) (p : nat) (s : csig) : Prop := exists y, deref hs p = Ok y /\ deep_sig (deeps o) y = s.
Definition type_den (o : theap) (p : nat) (t : ctype) : Prop := valid (length o) p /\ dp (deeps o) p = t.
Record run_ok (n : nat) (s : cstate) (d : list ctype * list csig) : Prop := {
  r_st : st_ok (c_primes s);
  r_types : types_ok (c_types s);
  r_sigs : sigs_ok (objs (c_types s)) (c_sigs s);
  r_size : hsize (c_types s) <= Z.of_nat n /\ hsize (c_sigs s) <= Z.of_nat n;
  r_rt : Forall2 (type_den (objs (c_types s))) (c_rt s) (fst d);
  r_rs : Forall2 (sig_den (objs (c_types s)) (objs (c_sigs s))) (c_rs s) (snd d) }.
Lemma type_den_ext o l p t : heap_ok (o ++ l) -> type_den o p t -> type_den (o ++ l) p t.
Proof.
  intros Ho [H1 H2]. destruct (deeps_ext o l Ho) as [l' E]. split; [rewrite app_length; unfold valid in *; lia|].
  rewrite E, dp_ext; auto. rewrite deeps_length. auto.
Qed.
Lemma Forall2_impl {A B} (P Q : A -> B -> Prop) l l' : (forall a b, P a b -> Q a b) -> Forall2 P l l' -> Forall2 Q l l'.
Proof. intros H F. induction F; constructor; auto. Qed.
Lemma Forall2_nth_r {A B} (P : A -> B -> Prop) l l' i d : Forall2 P l l' -> (i < length l')%nat -> exists a, rd l i = Ok a /\ P a (nth i l' d).
Proof.
  intros F. revert i. induction F as [|a b l l' Hab F IH]; intros [|i] H; simpl in H; try lia.
  - exists a. split; auto.
  - destruct (IH i) as (x & E & Hx); [lia|]. exists x. split; auto.
Qed.
Lemma mapM_rd_ok o l ts is : Forall2 (type_den o) l ts -> (forall i, In i is -> (i < length ts)%nat) ->
  exists ps, mapM_rd l is = Ok ps /\ Forall2 (type_den o) ps (map (fun i => nth i ts (TUse 0)) is).
Proof.
  intros F H. unfold mapM_rd.
  assert (K : forall acc ds, Forall2 (type_den o) acc ds -> exists ps, foldM (fun a i => p <- rd l i ;; Ok (a ++ [p])) is acc = Ok ps /\
    Forall2 (type_den o) ps (ds ++ map (fun i => nth i ts (TUse 0)) is)).
  { induction is as [|i is IH]; intros acc ds Fa; simpl; [exists acc; rewrite app_nil_r; auto|].
    destruct (Forall2_nth_r _ _ _ i (TUse 0) F) as (p & E & Hp); [apply H; left; auto|]. rewrite E. cbn [bind].
    destruct (IH (fun j Hj => H j (or_intror Hj)) (acc ++ [p]) (ds ++ [nth i ts (TUse 0)])) as (ps & E1 & F1). { apply Forall2_app; auto. }
    exists ps. split; auto. rewrite <- app_assoc in F1. auto. }
  apply (K [] []). constructor.
Qed.
Lemma den_map o ps ts : Forall2 (type_den o) ps ts -> map (dp (deeps o)) ps = ts /\ forall p, In p ps -> valid (length o) p.
Proof.
  intros F. induction F as [|p t ps ts [H1 H2] F [IH1 IH2]]; simpl; [split; auto; intros p []|]. split; [congruence|].
  intros q [<-|Hq]; auto.
Qed.
Definition op_wf (n : nat) (o : canon_op) : Prop :=
  match o with
  | OUse _ => True
  | OQual i _ => (i < n)%nat
  | OFunc is r => (forall i, In i is -> (i < n)%nat) /\ (r < n)%nat
  | OSig _ _ _ is => forall i, In i is -> (i < n)%nat
  end.
Definition op_hash (ts : list ctype) (o : canon_op) : Prop :=
  (forall t, term_of ts o = Some t -> no_overflow (term_hash t)) /\ (forall t, sig_of ts o = Some t -> no_overflow (csig_hash t)).
Lemma type_step n s d x t : run_ok n s d -> Z.of_nat n < 249999999 -> shape_ok (length (objs (c_types s))) x ->
  deep_shape (deeps (objs (c_types s))) x = t -> no_overflow (term_hash t) ->
  exists s', ('(st, h, p) <- new_type (c_primes s) (c_types s) x ;; Ok (mkCst st h (c_sigs s) (c_rt s ++ [p]) (c_rs s))) = Ok s' /\
    run_ok (S n) s' (fst d ++ [t], snd d).
Proof.
  intros [H1 H2 H3 H4 H5 H6] Hn Hx Ht [v Hv]. rewrite <- Ht in Hv.
  destruct (new_type_ok _ _ _ _ H1 H2 ltac:(lia) Hx Hv) as (st' & h' & p & E & A1 & A2 & A3 & (l & A4) & A5 & A6).
  rewrite E. cbn [bind]. eexists. split; [reflexivity|]. pose proof (t_heap _ A2) as Hh. rewrite A4 in Hh.
  constructor; simpl; auto.
  - rewrite A4. apply sigs_ext; auto.
  - lia.
  - apply Forall2_app.
    + rewrite A4. eapply Forall2_impl; [|exact H5]. intros a b. apply type_den_ext; auto.
    + constructor; [|constructor]. split; auto. congruence.
  - rewrite A4. eapply Forall2_impl; [|exact H6]. intros a b (y & Ey & Dy). exists y. split; auto. rewrite <- Dy.
    destruct (deeps_ext _ _ Hh) as [l' ->]. apply deep_sig_ext. rewrite deeps_length. pose proof (s_all _ _ H3) as HA. rewrite Forall_forall in HA.
    apply HA. eapply deref_in; eauto.
Qed.
Lemma step_ok n s d o : run_ok n s d -> Z.of_nat n < 249999999 -> op_wf (length (fst d)) o -> op_hash (fst d) o ->
  exists s', canon_step s o = Ok s' /\ run_ok (S n) s' (terms_step d o).
Proof.
  intros R Hn Hw [Ht Hs]. pose proof R as [H1 H2 H3 H4 H5 H6]. destruct o as [dc|i dc|is r|inp var cls is].
  - apply type_step; auto. intros p [].
  - simpl in Hw. destruct (Forall2_nth_r _ _ _ i (TUse 0) H5 Hw) as (p & E & P1 & P2). unfold canon_step. rewrite E. cbn [bind].
    apply type_step; auto.
    + intros q [<-|[]]. auto.
    + simpl. rewrite P2. auto.
  - destruct Hw as [Hw1 Hw2]. destruct (Forall2_nth_r _ _ _ r (TUse 0) H5 Hw2) as (p & E & P1 & P2).
    destruct (mapM_rd_ok _ _ _ _ H5 Hw1) as (ps & E1 & F1). destruct (den_map _ _ _ F1) as [D1 D2].
    unfold canon_step. rewrite E1. cbn [bind]. rewrite E. cbn [bind]. apply type_step; auto.
    + intros q [<-|Hq]; auto.
    + simpl. now rewrite P2, D1.
  - destruct (mapM_rd_ok _ _ _ _ H5 Hw) as (ps & E1 & F1). destruct (den_map _ _ _ F1) as [D1 D2].
    unfold canon_step. rewrite E1. cbn [bind]. destruct (Hs _ eq_refl) as [v Hv].
    destruct (new_sig_ok (c_primes s) (objs (c_types s)) (c_sigs s) (mkSig inp var cls ps) v) as (st' & h' & p & E & A1 & A2 & A3 & (l & A4) & y & A5 & A6); auto.
    { apply H2. } { apply types_nodup; auto. } { lia. } { unfold deep_sig; simpl. now rewrite D1. }
    rewrite E. cbn [bind]. eexists. split; [reflexivity|]. constructor; simpl; auto.
    + lia.
    + apply Forall2_app.
      * eapply Forall2_impl; [|exact H6]. intros a b (z & Ez & Dz). exists z. split; auto. rewrite A4. clear - Ez.
        destruct a as [|a]; simpl in *; auto. unfold rd in *. destruct (nth_error (objs (c_sigs s)) a) eqn:N; [|discriminate Ez].
        rewrite nth_error_app1 by (apply nth_error_Some; congruence). now rewrite N.
      * constructor; [|constructor]. exists y. split; auto. rewrite A6. unfold deep_sig; simpl. now rewrite D1.
Qed.
Lemma init_ok_run st : st_ok st -> run_ok 0 (mkCst st hc_static hc_static [] []) ([], []).
Proof.
  intros H. constructor; simpl; auto; try lia; try constructor; simpl; auto; try (left; reflexivity). intros i x Hi. destruct i; discriminate Hi.
Qed.
