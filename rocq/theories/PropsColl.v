(** * PropsColl: C16-C22, C50-C52. *)
From Coq Require Import String Ascii.
From Verif Require Import Base CollModel CollSpec CollProofs.
Local Open Scope Z_scope.
Local Open Scope list_scope.

(** An example collection used below: ((1 . none) . (2 . (3 . none))) . (4 . 5) *)
Definition ex_coll : coll Z :=
  Append (Append (Append (Single 1) None_) (Append (Single 2) (Append (Single 3) None_))) (Append (Single 4) (Single 5)).
Example ex_coll_flat : flat ex_coll = [1; 2; 3; 4; 5].
Proof. reflexivity. Qed.

(** ** C16 *)
Theorem C16_reads_like_sequence : forall (A : Type) (eqb : A -> A -> bool) (l : coll A),
  length l = Z.of_nat (List.length (flat l)) /\
  (empty l = true <-> flat l = []) /\
  (forall i, nth i l = at_ (flat l) i) /\
  (forall i, nth_from_end i l = at_ (rev (flat l)) i) /\
  first l = at_ (flat l) 0 /\ last l = at_ (rev (flat l)) 0 /\
  (forall x, first_position eqb x (flat l) (position eqb x l)) /\
  (forall x, member eqb x l = true <-> exists y, In y (flat l) /\ eqb x y = true).
Proof.
  intros A eqb l. ands.
  - apply length_flat.
  - apply empty_flat.
  - intros i; apply nth_flat.
  - intros i; apply nth_from_end_flat.
  - apply nth_flat.
  - apply nth_from_end_flat.
  - intros x; apply position_spec.
  - intros x; apply member_spec.
Qed.
Print Assumptions C16_reads_like_sequence.

Example C16_case : length ex_coll = 5 /\ nth 2 ex_coll = Ok 3 /\ nth (-1) ex_coll = Exit /\ nth 5 ex_coll = Exit /\
  nth_from_end 0 ex_coll = Ok 5 /\ position Z.eqb 4 ex_coll = 3 /\ position Z.eqb 7 ex_coll = -1.
Proof. ands; reflexivity. Qed.

(** ** C17 *)
Theorem C17_subseq : forall (A : Type) (l : coll A) start finish, 0 <= start <= finish ->
  flat (subseq l start finish) = slice (flat l) start finish /\
  flat (butsubseq l start finish) = but_slice (flat l) start finish /\
  (finish <= length l -> rev (flat (butsubseq_from_end l start finish)) = but_slice (rev (flat l)) start finish).
Proof.
  intros A l s f H. ands.
  - now apply subseq_flat.
  - now apply butsubseq_flat.
  - intros; now apply butsubseq_from_end_flat.
Qed.
Print Assumptions C17_subseq.

Theorem C17_derived : forall (A : Type) (l : coll A) n, 0 <= n ->
  flat (firstn_ n l) = firstn (Z.to_nat n) (flat l) /\
  flat (butfirstn n l) = skipn (Z.to_nat n) (flat l) /\
  flat (butfirst l) = tl (flat l) /\
  (forall x, flat (cons x l) = x :: flat l) /\
  (flat l <> [] -> flat (butlast l) = removelast (flat l)) /\
  (n <= length l -> flat (butlastn n l) = firstn (List.length (flat l) - Z.to_nat n) (flat l)) /\
  (forall before x after, flat l = before ++ x :: after ->
     flat (butnth (Z.of_nat (List.length before)) l) = before ++ after /\
     flat (butnth_from_end (Z.of_nat (List.length after)) l) = before ++ after).
Proof.
  intros A l n Hn.
  assert (FE : forall s f, 0 <= s <= f -> f <= length l ->
    flat (butsubseq_from_end l s f) = firstn (List.length (flat l) - Z.to_nat f) (flat l) ++ skipn (List.length (flat l) - Z.to_nat s) (flat l)).
  { intros s f H1 H2. unfold butsubseq_from_end. rewrite length_flat in *. rewrite butsubseq_flat by lia. unfold but_slice.
    f_equal; f_equal; lia. }
  ands.
  - unfold firstn_. rewrite subseq_flat by lia. unfold slice. cbn [Z.to_nat skipn]. f_equal. lia.
  - unfold butfirstn. now rewrite butsubseq_flat by lia.
  - unfold butfirst. rewrite butsubseq_flat by lia. unfold but_slice. change (Z.to_nat 1) with 1%nat. cbn [Z.to_nat firstn app].
    destruct (flat l); auto.
  - auto.
  - intros N. unfold butlast. assert (length l <> 0). { rewrite length_flat. destruct (flat l); cbn [List.length]; try congruence; lia. }
    rewrite FE by (pose proof (length_flat l); lia). rewrite Nat.sub_0_r, skipn_all, app_nil_r.
    rewrite removelast_firstn_len. f_equal. change (Z.to_nat 1) with 1%nat. lia.
  - intros H. unfold butlastn. rewrite FE by lia. rewrite Nat.sub_0_r, skipn_all, app_nil_r. auto.
  - intros b x a E. pose proof (length_flat l) as L. rewrite E, app_length in L. cbn [List.length] in L. split.
    + unfold butnth. rewrite butsubseq_flat by lia. unfold but_slice. rewrite E.
      replace (Z.to_nat (Z.of_nat (List.length b) + 1)) with (S (List.length b)) by lia. rewrite Nat2Z.id.
      rewrite firstn_app, firstn_all, Nat.sub_diag. cbn [firstn]. rewrite app_nil_r. f_equal.
      replace (S (List.length b)) with (List.length (b ++ [x])) by (rewrite app_length; cbn; lia).
      replace (b ++ x :: a) with ((b ++ [x]) ++ a) by (now rewrite <- app_assoc). rewrite skipn_app, skipn_all, Nat.sub_diag. auto.
    + unfold butnth_from_end. rewrite FE by lia. rewrite E, app_length. cbn [List.length].
      replace (List.length b + S (List.length a) - Z.to_nat (Z.of_nat (List.length a) + 1))%nat with (List.length b) by lia.
      replace (List.length b + S (List.length a) - Z.to_nat (Z.of_nat (List.length a)))%nat with (List.length (b ++ [x])) by (rewrite app_length; cbn; lia).
      rewrite firstn_app, firstn_all, Nat.sub_diag. cbn [firstn]. rewrite app_nil_r. f_equal.
      replace (b ++ x :: a) with ((b ++ [x]) ++ a) by (now rewrite <- app_assoc). rewrite skipn_app, skipn_all, Nat.sub_diag. auto.
Qed.
Print Assumptions C17_derived.

(** finish > length: the mirrored range (everything) is not what is deleted. *)
Theorem C17_from_end_refuted : exists (l : coll Z) start finish, 0 <= start <= finish /\
  rev (flat (butsubseq_from_end l start finish)) <> but_slice (rev (flat l)) start finish.
Proof. exists (Append (Single 1) (Single 2)), 0, 3. split; [lia|]. vm_compute. discriminate. Qed.
Print Assumptions C17_from_end_refuted.

Example C17_case : flat (subseq ex_coll 1 4) = [2; 3; 4] /\ flat (butsubseq ex_coll 1 4) = [1; 5] /\
  flat (butsubseq_from_end ex_coll 1 3) = [1; 2; 5] /\ flat (subseq ex_coll 3 100) = [4; 5].
Proof. ands; reflexivity. Qed.

(** ** C18 *)
Theorem C18_equal : forall (A : Type) (eqb : A -> A -> bool) (l1 l2 : coll A),
  equal eqb l1 l2 = true <-> Forall2 (fun x y => eqb x y = true) (flat l1) (flat l2).
Proof. intros; apply equal_flat. Qed.
Print Assumptions C18_equal.

Corollary C18_shape_independent : forall (A : Type) (eqb : A -> A -> bool) (l1 l2 l1' l2' : coll A),
  flat l1 = flat l1' -> flat l2 = flat l2' -> equal eqb l1 l2 = equal eqb l1' l2'.
Proof. intros A eqb l1 l2 l1' l2' H1 H2. apply eq_true_iff_eq. now rewrite !equal_flat, H1, H2. Qed.
Print Assumptions C18_shape_independent.

Example C18_case : equal Z.eqb ex_coll (fold_right cons None_ [1; 2; 3; 4; 5]) = true /\
  equal Z.eqb ex_coll (fold_right cons None_ [1; 2; 3; 4]) = false /\
  equal Z.eqb (fold_right cons None_ [1; 2; 3; 4]) ex_coll = false.
Proof. ands; reflexivity. Qed.

(** ** C19 *)
Theorem C19_set_algebra : forall (A : Type) (eqb : A -> A -> bool), equivalence eqb -> forall s1 s2 : coll A,
  (forall x, bag_member eqb x s1 = true <-> inset eqb x (flat s1)) /\
  (forall x, bag_member eqb x (set_union eqb s1 s2) = bag_member eqb x s1 || bag_member eqb x s2) /\
  (forall x, bag_member eqb x (set_intersect eqb s1 s2) = bag_member eqb x s1 && bag_member eqb x s2) /\
  (forall x, bag_member eqb x (set_difference eqb s1 s2) = bag_member eqb x s1 && negb (bag_member eqb x s2)) /\
  (forall x y, bag_member eqb x (set_remove eqb s1 y) = bag_member eqb x s1 && negb (eqb x y)) /\
  (set_less_equal eqb s1 s2 = true <-> forall x, inset eqb x (flat s1) -> inset eqb x (flat s2)) /\
  (set_equal eqb s1 s2 = true <-> forall x, inset eqb x (flat s1) <-> inset eqb x (flat s2)) /\
  (set_less eqb s1 s2 = true <-> (forall x, inset eqb x (flat s1) -> inset eqb x (flat s2)) /\
                                 exists x, inset eqb x (flat s2) /\ ~ inset eqb x (flat s1)).
Proof.
  intros A eqb Heq s1 s2.
  assert (HM := @bag_member_flat A eqb Heq).
  assert (D : forall x s2, bag_member eqb x (set_difference eqb s1 s2) = bag_member eqb x s1 && negb (bag_member eqb x s2)).
  { intros x t. apply eq_true_iff_eq. rewrite andb_true_iff, negb_true_iff, <- not_true_iff_false, !HM. now apply difference_flat. }
  ands.
  - intros x; apply HM.
  - intros x. apply eq_true_iff_eq. rewrite orb_true_iff, !HM. now apply union_flat.
  - intros x. apply eq_true_iff_eq. rewrite andb_true_iff, !HM. now apply intersect_flat.
  - intros x. apply D.
  - intros x y. unfold set_remove. rewrite D. cbn [bag_member]. f_equal. f_equal.
    apply eq_true_iff_eq. split; apply (eq_sym_ _ Heq).
  - now apply less_equal_flat.
  - unfold set_equal. rewrite andb_true_iff, !less_equal_flat by auto. split; [intros [H1 H2] x; split; auto|intros H; split; intros x; apply H].
  - unfold set_less. rewrite andb_true_iff, negb_true_iff, less_equal_flat by auto. split.
    + intros [H1 H2]. split; auto.
      assert (G : forall s, set_less_equal eqb s s1 = false -> exists x, inset eqb x (flat s) /\ ~ inset eqb x (flat s1)).
      { induction s as [l1 IH1 l2 IH2|y|]; cbn [set_less_equal flat]; try discriminate.
        - intros [H|H]%andb_false_iff.
          + destruct (IH1 H) as (x & ? & ?). exists x. rewrite inset_app. auto.
          + destruct (IH2 H) as (x & ? & ?). exists x. rewrite inset_app. auto.
        - intros H. exists y. split; [apply inset_one, (eq_refl_ _ Heq)|]. rewrite <- HM, H. discriminate. }
      auto.
    + intros [H1 (x & Hx & Nx)]. split; auto. apply not_true_iff_false. rewrite less_equal_flat by auto. auto.
Qed.
Print Assumptions C19_set_algebra.

Example Zeqb_equivalence : equivalence Z.eqb.
Proof. constructor; intros *; rewrite ?Z.eqb_eq; intros; subst; auto using Z.eqb_refl. Qed.
Definition s123 : coll Z := set_union Z.eqb (Single 1) (set_union Z.eqb (Single 2) (Single 3)).
Definition s234 : coll Z := Append (Append (Single 2) (Single 3)) (Single 4).
Example C19_case : flat (set_union Z.eqb s123 s234) = [1; 2; 3; 4] /\ flat (set_intersect Z.eqb s123 s234) = [2; 3] /\
  flat (set_difference Z.eqb s123 s234) = [1] /\ set_less_equal Z.eqb s123 s234 = false /\
  set_less Z.eqb s123 (set_union Z.eqb s123 s234) = true /\ set_equal Z.eqb s123 (Append (Single 3) (Append (Single 2) (Single 1))) = true.
Proof. ands; reflexivity. Qed.

(** Without symmetry of element equality the claim fails: member is [v = e],
    i.e. the roles of the two arguments are exchanged. *)
Example C19_needs_symmetry : bag_member Z.leb 1 (Single 2) = false.
Proof. reflexivity. Qed.

(** ** C20 *)
Theorem C20_no_duplicates : forall (A : Type) (eqb : A -> A -> bool), equivalence eqb -> forall s1 s2 : coll A,
  (no_duplicates eqb (flat s2) -> no_duplicates eqb (flat (set_union eqb s1 s2))) /\
  (no_duplicates eqb (flat s1) -> no_duplicates eqb (flat (set_intersect eqb s1 s2))) /\
  (no_duplicates eqb (flat s1) -> no_duplicates eqb (flat (set_difference eqb s1 s2))) /\
  (* every set built from none, single, union, intersect and difference *)
  no_duplicates eqb (flat (@None_ A)) /\ (forall x, no_duplicates eqb (flat (Single x))).
Proof.
  intros A eqb Heq s1 s2. rewrite <- !nodup_spec by auto. ands.
  - now apply union_nodup.
  - now apply intersect_nodup.
  - now apply difference_nodup.
  - exact I.
  - intros x. rewrite <- nodup_spec by auto. cbn. split; auto. intros (y & [] & _).
Qed.
Print Assumptions C20_no_duplicates.

Example C20_case : no_duplicates Z.eqb (flat s234) /\ flat (set_union Z.eqb (Append (Single 2) (Append (Single 5) (Single 5))) s234) = [5; 2; 3; 4].
Proof. split; [|reflexivity]. apply nodup_spec; [apply Zeqb_equivalence|]. cbn. ands; auto; intros (y & H & E); cbn in H; repeat destruct H as [<-|H]; auto; discriminate. Qed.

(** ** C21: Integer$string.  [fuel] 11 suffices for every int. *)
Theorem C21_integer_string : forall fuel x, (11 <= fuel)%nat -> INT_MIN < x <= INT_MAX ->
  exists s, int_string fuel x = Ok s /\ numeral s x.
Proof.
  intros fuel x Hf Hx. unfold INT_MIN, INT_MAX in *. unfold int_string, numeral.
  destruct (Z.eqb_spec x 0) as [->|N].
  { exists ["0"%char]. split; auto. cbn. exists [O]. ands; auto. }
  destruct (Z.ltb_spec x 0) as [G|G].
  - assert (E : int_ok (- x) = true) by (apply int_ok_spec; unfold INT_MIN, INT_MAX; lia). rewrite E. cbn [negb].
    destruct (int_string_pos_spec fuel (- x)) as (s & Es & Hs); auto; [lia|]. rewrite Es. cbn. eexists; split; eauto.
  - destruct (int_string_pos_spec fuel x) as (s & Es & Hs); auto; [lia|]. rewrite Es. eauto.
Qed.
Print Assumptions C21_integer_string.

Corollary C21_injective : forall fuel x y s, (11 <= fuel)%nat -> INT_MIN < x <= INT_MAX -> INT_MIN < y <= INT_MAX ->
  int_string fuel x = Ok s -> int_string fuel y = Ok s -> x = y.
Proof.
  intros fuel x y s Hf Hx Hy Ex Ey. destruct (C21_integer_string fuel x Hf Hx) as (s1 & E1 & N1).
  destruct (C21_integer_string fuel y Hf Hy) as (s2 & E2 & N2). apply (numeral_det s); congruence.
Qed.
Print Assumptions C21_injective.

Theorem C21_INT_MIN : forall fuel, int_string fuel INT_MIN = UB.
Proof. reflexivity. Qed.
Print Assumptions C21_INT_MIN.

Example C21_case : int_string 11 (-2147483647) = Ok (list_ascii_of_string "-2147483647") /\
  int_string 11 1000 = Ok (list_ascii_of_string "1000") /\ int_string 11 0 = Ok (list_ascii_of_string "0").
Proof. ands; vm_compute; reflexivity. Qed.

(** ** C22: String$butsubseq agrees with the list version ... *)
Lemma size_t_small i : 0 <= i < 2 ^ 64 -> size_t i = i.
Proof. intros H. unfold size_t. now apply Z.mod_small. Qed.

Theorem C22_string_butsubseq_partial : forall (l : list ascii) start finish,
  Z.of_nat (List.length l) <= INT_MAX -> 0 <= start <= finish -> finish <= Z.of_nat (List.length l) ->
  string_butsubseq l start finish = Ok (but_slice l start finish).
Proof.
  intros l s f HL H Hf. unfold INT_MAX in *. unfold string_butsubseq, substr. rewrite !size_t_small by lia.
  assert (G0 : 0 >? Z.of_nat (List.length l) = false) by (rewrite Z.gtb_ltb; apply Z.ltb_ge; lia). rewrite G0. cbn [bind].
  assert (G1 : f >? Z.of_nat (List.length l) = false) by (rewrite Z.gtb_ltb; apply Z.ltb_ge; lia). rewrite G1. cbn [bind].
  unfold but_slice. do 2 f_equal.
  - cbn [Z.to_nat skipn]. f_equal. lia.
  - apply firstn_all2. rewrite skipn_length. lia.
Qed.
Print Assumptions C22_string_butsubseq_partial.

(** ... and the others do not: subseq takes [finish] as a count, and the
    from_end versions are off by one. *)
Theorem C22_string_subseq_refuted : let abcde := list_ascii_of_string "abcde" in
  string_subseq abcde 1 3 = Ok (list_ascii_of_string "bcd") /\ slice abcde 1 3 = list_ascii_of_string "bc" /\
  string_subseq_from_end abcde 0 2 = Ok (list_ascii_of_string "cde") /\ slice (rev abcde) 0 2 = list_ascii_of_string "ed" /\
  string_butsubseq_from_end abcde 0 2 = Ok (list_ascii_of_string "abe") /\ but_slice (rev abcde) 0 2 = list_ascii_of_string "cba" /\
  string_subseq_from_end abcde 0 5 = Exit /\ slice (rev abcde) 0 5 = list_ascii_of_string "edcba".
Proof. cbv zeta. ands; vm_compute; reflexivity. Qed.
Print Assumptions C22_string_subseq_refuted.

(** String$subseq is right exactly when it does not start in the middle. *)
Theorem C22_string_subseq_from_zero : forall (l : list ascii) finish,
  Z.of_nat (List.length l) <= INT_MAX -> 0 <= finish <= INT_MAX -> string_subseq l 0 finish = Ok (slice l 0 finish).
Proof.
  intros l f HL Hf. unfold INT_MAX in *. unfold string_subseq, substr. rewrite !size_t_small by lia.
  assert (G0 : 0 >? Z.of_nat (List.length l) = false) by (rewrite Z.gtb_ltb; apply Z.ltb_ge; lia). rewrite G0.
  unfold slice. cbn [Z.to_nat skipn]. rewrite Z.sub_0_r. f_equal.
  destruct (Z.le_gt_cases f (Z.of_nat (List.length l))).
  - f_equal. lia.
  - rewrite !firstn_all2 by lia. auto.
Qed.
Print Assumptions C22_string_subseq_from_zero.

(** ** C50: printing a collection *)
Theorem C50_to_string_partial : forall (A : Type) (show : A -> string) (l : coll A), exists dots fuel0,
  (length l < 5 -> dots = ""%string) /\ (5 < length l -> dots = "..."%string) /\ (dots = "" \/ dots = "...")%string /\
  forall fuel, (fuel0 <= fuel)%nat ->
    to_string show fuel l = Ok ("{" ++ String.concat "," (map show (firstn 5 (flat l))) ++ dots ++ "}")%string.
Proof.
  intros A show l.
  assert (SF : sflat [l] = flat l) by (unfold sflat; cbn; apply app_nil_r).
  assert (I : forall xs, items show true xs = String.concat "," (map show xs)).
  { intros xs. destruct xs; auto. rewrite items_concat by congruence. auto. }
  destruct (to_string_loop_spec show (S (S (weight l))) [l] 0 "{"%string) as (st & E & H1 & H2); [cbn; lia|lia|].
  rewrite SF in *. rewrite Z.sub_0_r in *. rewrite length_flat.
  exists (match st with [] => "" | _ => "..." end)%string, (S (S (weight l))). ands.
  - intros H. rewrite (H1 H). auto.
  - intros H. specialize (H2 H). destruct st; congruence.
  - destruct st; auto.
  - intros fuel Hf. 
    assert (M : forall f stk pr o r, to_string_loop show f stk pr o = Ok r -> forall f2, (f <= f2)%nat -> to_string_loop show f2 stk pr o = Ok r).
    { induction f as [|f IH]; intros stk pr o r He f2 L; [discriminate|]. destruct f2 as [|f2]; [lia|].
      cbn [to_string_loop] in *. destruct stk as [|x stk]; auto. destruct (pr <? max_print); auto.
      destruct x; apply (IH _ _ _ _ He); lia. }
    unfold to_string. rewrite (M _ _ _ _ _ E) by auto. cbn [bind].
    change (0 =? 0) with true. change (Z.to_nat 5) with 5%nat. rewrite I.
    f_equal. destruct st; rewrite !append_assoc; auto.
Qed.
Print Assumptions C50_to_string_partial.

(** With exactly five elements the dots may appear although nothing is left out. *)
Theorem C50_to_string_refuted : exists l : coll Z, length l = 5 /\
  to_string (fun _ => "x"%string) 100 l = Ok "{x,x,x,x,x...}"%string.
Proof. exists (fold_right cons None_ [1; 2; 3; 4; 5]). split; reflexivity. Qed.
Print Assumptions C50_to_string_refuted.

Example C50_case : to_string (fun _ => "x"%string) 100 (Append ex_coll (Single 1)) = Ok "{x,x,x,x,x...}"%string /\
  to_string (fun _ => "x"%string) 100 s123 = Ok "{x,x,x}"%string.
Proof. ands; reflexivity. Qed.

(** ** C51: integer ranges *)
Theorem C51_range_partial : forall x y, 0 <= x -> y <= 1073741824 -> exists fuel0 l,
  (forall fuel, (fuel0 <= fuel)%nat -> range fuel x y = Ok l) /\ flat l = interval x (Z.to_nat (y - x + 1)).
Proof.
  intros x y Hx Hy. assert (HE : forall fuel, (Z.to_nat (y - x + 2) + 1 <= fuel)%nat ->
    exists l, range fuel x y = Ok l /\ flat l = interval x (Z.to_nat (y - x + 1))).
  { intros fuel Hf. apply range_ok; unfold INT_MAX; lia. }
  set (f0 := (Z.to_nat (y - x + 2) + 1)%nat) in *. destruct (HE f0 (le_n _)) as (l & E & F).
  exists f0, l. split; auto. intros fuel Hf.
  assert (M : forall f a b r, range f a b = Ok r -> forall f2, (f <= f2)%nat -> range f2 a b = Ok r).
  { induction f as [|f IH]; intros a b r He f2 L; [discriminate|]. destruct f2 as [|f2]; [lia|].
    cbn [range] in *. destruct (a =? b); auto. destruct (a >? b); auto. destruct (negb (int_ok (a + b))); auto.
    apply bind_Ok in He. destruct He as (u & Eu & He). apply bind_Ok in He. destruct He as (v & Ev & He).
    rewrite (IH _ _ _ Eu) by lia. cbn [bind]. rewrite (IH _ _ _ Ev) by lia. auto. }
  eauto.
Qed.
Print Assumptions C51_range_partial.

(** For every negative x and y > x the recursion never ends: division truncates
    toward zero, so the left half x..(x+y)/2 never becomes a single number. *)
Theorem C51_range_refuted : forall fuel x y, -1073741824 <= x < 0 -> x < y <= INT_MAX -> range fuel x y = Fuel.
Proof. intros fuel x y Hx Hy. apply range_diverges; auto. Qed.
Print Assumptions C51_range_refuted.

Example C51_case : (l <- range 100 3 7 ;; Ok (flat l)) = Ok [3; 4; 5; 6; 7] /\ (l <- range 100 3 2 ;; Ok (flat l)) = Ok [] /\
  range 1000 (-2) (-1) = Fuel.
Proof. ands; vm_compute; reflexivity. Qed.

(** ** C52: positions counted from the end.  For lists, position_from_end
    reports the mirrored position of the FIRST occurrence; for strings it is
    the position, counted from the start, of the last one.  Strings do agree
    with lists on nth, position and member. *)
Lemma string_find_spec x : forall l i, 0 <= i -> 
  (string_find x l i = -1 /\ forall y, In y l -> Ascii.eqb x y = false) \/
  (exists before y after, l = before ++ y :: after /\ string_find x l i = i + Z.of_nat (List.length before) /\
     Ascii.eqb x y = true /\ forall z, In z before -> Ascii.eqb x z = false).
Proof.
  induction l as [|c l IH]; intros i Hi; cbn [string_find].
  - left. split; auto. intros y [].
  - destruct (Ascii.eqb c x) eqn:E.
    + right. exists [], c, l. ands; auto; [cbn; lia|rewrite Ascii.eqb_sym; auto|intros z []].
    + rewrite Ascii.eqb_sym in E. destruct (IH (i + 1)) as [[E1 H]|(b & y & a & E1 & P & Hy & Hb)]; [lia| |].
      * left. split; auto. intros y [<-|Hy]; auto.
      * right. exists (c :: b), y, a. ands; auto; [rewrite E1; auto|rewrite P; cbn [List.length]; lia|]. intros z [<-|Hz]; auto.
Qed.

Theorem C52_string_reads_like_sequence_partial : forall l : list ascii, Z.of_nat (List.length l) <= INT_MAX ->
  (forall x, first_position Ascii.eqb x l (string_position x l)) /\
  (forall x, string_member x l = true <-> In x l) /\
  (forall i, INT_MIN <= i <= INT_MAX -> string_nth i l = at_ l i) /\
  (forall i, 0 <= i <= INT_MAX -> string_nth_from_end i l = at_ (rev l) i).
Proof.
  intros l HL. unfold INT_MAX, INT_MIN in *.
  assert (AT : forall i, -2 ^ 32 <= i <= 2 ^ 32 -> string_at l i = at_ l i).
  { intros i Hi. unfold string_at, at_. destruct (Z.ltb_spec i 0) as [G|G].
    - unfold size_t. replace (i mod 2 ^ 64) with (i + 2 ^ 64).
      2:{ apply Z.mod_unique with (-1); lia. }
      destruct (Z.ltb_spec (i + 2 ^ 64) (Z.of_nat (List.length l))); auto. lia.
    - rewrite size_t_small by lia. destruct (Z.ltb_spec i (Z.of_nat (List.length l))) as [H|H].
      + unfold rd. destruct (nth_error l (Z.to_nat i)) eqn:E; auto. apply nth_error_None in E. lia.
      + assert (E : nth_error l (Z.to_nat i) = None) by (apply nth_error_None; lia). now rewrite E. }
  ands.
  - intros x. unfold string_position, first_position. destruct (string_find_spec x l 0 ltac:(lia)) as [?|(b & y & a & H)]; auto.
    right. exists b, y, a. rewrite Z.add_0_l in H. auto.
  - intros x. unfold string_member. destruct (string_find_spec x l 0 ltac:(lia)) as [[E H]|(b & y & a & E & P & Hy & Hb)].
    + rewrite E. split.
      * change (size_t (-1)) with (2 ^ 64 - 1). intros G%Z.ltb_lt. lia.
      * intros Hi. apply H in Hi. rewrite Ascii.eqb_refl in Hi. discriminate.
    + rewrite P. apply Ascii.eqb_eq in Hy. subst y. assert (L : List.length l = (List.length b + S (List.length a))%nat) by (rewrite E, app_length; auto).
      rewrite size_t_small by lia. split.
      * intros _. rewrite E. apply in_or_app. right; left; auto.
      * intros _. apply Z.ltb_lt. lia.
  - intros i Hi. unfold string_nth. apply AT. lia.
  - intros i Hi. unfold string_nth_from_end. rewrite AT by lia. unfold at_.
    destruct (Z.ltb_spec i 0); [lia|]. destruct (Z.ltb_spec (Z.of_nat (List.length l) - i - 1) 0) as [G|G].
    + assert (E : nth_error (rev l) (Z.to_nat i) = None) by (apply nth_error_None; rewrite rev_length; lia). now rewrite E.
    + assert (E : nth_error (rev l) (Z.to_nat i) = nth_error l (Z.to_nat (Z.of_nat (List.length l) - i - 1))); [|now rewrite E].
      destruct l as [|c l0]; [cbn in G; lia|]. set (l := c :: l0) in *.
      rewrite (nth_error_nth' (rev l) c) by (rewrite rev_length; lia). rewrite (nth_error_nth' l c) by lia.
      rewrite rev_nth by lia. do 2 f_equal. lia.
Qed.
Print Assumptions C52_string_reads_like_sequence_partial.

Theorem C52_position_from_end_refuted :
  (* the last 1 is at distance 0 from the end, but 2 is reported *)
  position_from_end Z.eqb 1 (fold_right cons None_ [1; 2; 1]) = 2 /\ first_position Z.eqb 1 (rev [1; 2; 1]) 0 /\
  (* for strings: 'a' is last at distance 1 from the end of "abab", but 2 is reported *)
  string_position_from_end "a"%char (list_ascii_of_string "abab") = 2 /\
  first_position Ascii.eqb "a"%char (rev (list_ascii_of_string "abab")) 1.
Proof.
  ands; try reflexivity.
  - right. exists [], 1, [2; 1]. ands; auto. intros z [].
  - right. exists ["b"%char], "a"%char, ["b"; "a"]%char. ands; auto. intros z [<-|[]]. reflexivity.
Qed.
Print Assumptions C52_position_from_end_refuted.

(** What position_from_end does compute on lists without repetition. *)
Theorem C52_position_from_end_partial : forall (A : Type) (eqb : A -> A -> bool) x (l : coll A),
  (forall i j y z, nth_error (flat l) i = Some y -> nth_error (flat l) j = Some z -> eqb x y = true -> eqb x z = true -> i = j) ->
  first_position eqb x (rev (flat l)) (position_from_end eqb x l).
Proof.
  intros A eqb x l U. unfold position_from_end. destruct (position_spec eqb x l) as [[E H]|(b & y & a & E & P & Hy & Hb)].
  - rewrite E. left. split; auto. intros z Hz. apply H. now apply in_rev.
  - rewrite P. destruct (Z.eqb_spec (Z.of_nat (List.length b)) (-1)); [lia|]. right.
    exists (rev a), y, (rev b). rewrite E, length_flat, E. rewrite rev_app_distr. cbn [rev]. rewrite <- app_assoc. cbn [app].
    rewrite rev_length, app_length. cbn [List.length]. ands; auto; try lia.
    intros z Hz. apply in_rev in Hz. apply In_nth_error in Hz. destruct Hz as (k & Hk).
    destruct (eqb x z) eqn:Ez; auto. exfalso.
    assert (F : List.length b = (List.length b + S k)%nat); [|lia].
    apply (U _ _ y z); auto; rewrite E; rewrite nth_error_app2 by lia.
    + rewrite Nat.sub_diag. auto.
    + replace (List.length b + S k - List.length b)%nat with (S k) by lia. auto.
Qed.
Print Assumptions C52_position_from_end_partial.
