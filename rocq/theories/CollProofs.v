(** * CollProofs: lemmas about collections. *)
From Coq Require Import String Ascii.
From Verif Require Import Base CollModel CollSpec.
Local Open Scope Z_scope.
Local Open Scope list_scope.

Section P.
Context {A : Type} (eqb : A -> A -> bool).

Lemma length_flat (l : coll A) : length l = Z.of_nat (List.length (flat l)).
Proof. induction l; simpl; rewrite ?app_length; lia. Qed.

Lemma empty_flat (l : coll A) : empty l = true <-> flat l = [].
Proof.
  induction l; simpl; try (split; congruence).
  rewrite andb_true_iff, IHl1, IHl2. split.
  - intros [-> ->]; auto.
  - apply app_eq_nil.
Qed.

Lemma at_app (s t : list A) i : at_ (s ++ t) i =
  if Z.of_nat (List.length s) >? i then at_ s i else at_ t (i - Z.of_nat (List.length s)).
Proof.
  unfold at_. rewrite Z.gtb_ltb. destruct (Z.ltb_spec i (Z.of_nat (List.length s))).
  - destruct (Z.ltb_spec i 0); auto. rewrite nth_error_app1 by lia. auto.
  - destruct (Z.ltb_spec i 0); try lia. destruct (Z.ltb_spec (i - Z.of_nat (List.length s)) 0); try lia.
    rewrite nth_error_app2 by lia. do 2 f_equal. replace (Z.to_nat (i - Z.of_nat (List.length s))) with (Z.to_nat i - List.length s)%nat by lia. auto.
Qed.

Lemma at_single (x : A) i : at_ [x] i = if i =? 0 then Ok x else Exit.
Proof.
  unfold at_. destruct (Z.ltb_spec i 0), (Z.eqb_spec i 0); subst; simpl; auto; try lia.
  destruct (Z.to_nat i) as [|[|k]] eqn:E; simpl; auto; lia.
Qed.

Lemma at_nil i : at_ ([] : list A) i = Exit.
Proof. unfold at_. destruct (i <? 0); auto. destruct (Z.to_nat i); auto. Qed.

Lemma nth_flat (l : coll A) i : nth i l = at_ (flat l) i.
Proof.
  revert i; induction l as [l1 IH1 l2 IH2|x|]; intros i; cbn [nth flat].
  - rewrite at_app, length_flat, IH1, IH2. auto.
  - now rewrite at_single.
  - now rewrite at_nil.
Qed.

Lemma nth_from_end_flat (l : coll A) i : nth_from_end i l = at_ (rev (flat l)) i.
Proof.
  revert i; induction l as [l1 IH1 l2 IH2|x|]; intros i; cbn [nth_from_end flat].
  - rewrite rev_app_distr, at_app, length_flat, IH1, IH2, rev_length. auto.
  - cbn. now rewrite at_single.
  - cbn. now rewrite at_nil.
Qed.

Lemma position_spec x (l : coll A) : first_position eqb x (flat l) (position eqb x l).
Proof.
  induction l as [l1 IH1 l2 IH2|y|]; cbn [position flat].
  - destruct IH1 as [[E1 H1]|(b & y & a & E & P & Hy & Hb)].
    + rewrite E1. cbn [Z.geb Z.compare]. destruct IH2 as [[E2 H2]|(b & y & a & E & P & Hy & Hb)].
      * rewrite E2. left. split; auto. intros y [?|?]%in_app_or; auto.
      * rewrite P. destruct (Z.of_nat (List.length b) >=? 0) eqn:G; [|rewrite Z.geb_leb, Z.leb_gt in G; lia].
        right. exists (flat l1 ++ b), y, a. rewrite E, app_assoc, app_length, length_flat. ands; auto; try lia.
        intros z [?|?]%in_app_or; auto.
    + rewrite P. destruct (Z.of_nat (List.length b) >=? 0) eqn:G; [|rewrite Z.geb_leb, Z.leb_gt in G; lia].
      right. exists b, y, (a ++ flat l2). rewrite E, <- app_assoc. ands; auto.
  - destruct (eqb x y) eqn:E.
    + right. exists [], y, []. ands; auto. intros z [].
    + left. split; auto. intros z [<-|[]]; auto.
  - left. split; auto. intros z [].
Qed.

Lemma member_spec x (l : coll A) : member eqb x l = true <-> exists y, In y (flat l) /\ eqb x y = true.
Proof.
  unfold member. destruct (position_spec x l) as [[E H]|(b & y & a & E & P & Hy & Hb)].
  - rewrite E. split; [discriminate|]. intros (y & Hi & Hy). rewrite H in Hy; auto; discriminate.
  - rewrite P. rewrite Z.geb_leb. split.
    + intros _. exists y. rewrite E. split; auto. apply in_or_app. right; left; auto.
    + intros _. apply Z.leb_le. lia.
Qed.

(** ** subseq *)
Lemma slice_refl (s : list A) i : slice s i i = [].
Proof. unfold slice. now rewrite Z.sub_diag. Qed.

Lemma skipn_all_le (s : list A) n : (List.length s <= n)%nat -> skipn n s = [].
Proof. apply skipn_all2. Qed.

Lemma sub_but_spec (l : coll A) : (forall s f, 0 <= s <= f -> flat (subseq l s f) = slice (flat l) s f) /\
  (forall s f, 0 <= s <= f -> flat (butsubseq l s f) = but_slice (flat l) s f).
Proof.
  induction l as [l1 [S1 B1] l2 [S2 B2]|x|].
  - split; intros s f H.
    + cbn [subseq]. destruct (Z.eqb_spec s f) as [->|N]; [now rewrite slice_refl|].
      rewrite length_flat, Z.geb_leb. set (n1 := List.length (flat l1)) in *. cbn [flat].
      destruct (Z.leb_spec (Z.of_nat n1) s) as [G|G].
      { rewrite S2 by lia. unfold slice. rewrite skipn_app, (skipn_all_le (flat l1)) by (fold n1; lia). cbn [app].
        f_equal; [lia|]. f_equal. fold n1. lia. }
      destruct (Z.leb_spec f (Z.of_nat n1)) as [G2|G2].
      { assert (E : slice (flat l1 ++ flat l2) s f = slice (flat l1) s f).
        { unfold slice. rewrite skipn_app, firstn_app. rewrite skipn_length. fold n1.
          replace (Z.to_nat (f - s) - (n1 - Z.to_nat s))%nat with O by lia. now rewrite firstn_O, app_nil_r. }
        rewrite E. destruct (Z.eqb_spec f (Z.of_nat n1)) as [E1|N1].
        - rewrite B1 by lia. unfold but_slice, slice. cbn [Z.to_nat firstn app].
          rewrite firstn_all2; auto. rewrite skipn_length. fold n1. lia.
        - rewrite S1 by lia. auto. }
      { cbn [flat]. rewrite B1, S2 by lia. unfold slice, but_slice. rewrite skipn_app, firstn_app, skipn_length. fold n1.
        cbn [Z.to_nat firstn app]. rewrite (firstn_all2 (skipn (Z.to_nat s) (flat l1))) by (rewrite skipn_length; fold n1; lia).
        f_equal. replace (Z.to_nat s - n1)%nat with O by lia. cbn [skipn].
        f_equal. lia. }
    + cbn [butsubseq]. rewrite Z.geb_leb. destruct (Z.leb_spec f s) as [E|E].
      { replace f with s by lia. unfold but_slice. now rewrite firstn_skipn. }
      rewrite length_flat, Z.geb_leb. set (n1 := List.length (flat l1)) in *. cbn [flat].
      destruct (Z.leb_spec (Z.of_nat n1) s) as [G|G].
      { cbn [flat]. rewrite B2 by lia. unfold but_slice. rewrite firstn_app, skipn_app, (firstn_all2 (flat l1)), (skipn_all_le (flat l1)) by (fold n1; lia).
        fold n1. cbn [app]. rewrite <- app_assoc. f_equal. f_equal; f_equal; lia. }
      destruct (Z.leb_spec f (Z.of_nat n1)) as [G2|G2].
      { destruct ((s =? 0) && (f =? Z.of_nat n1)) eqn:Q.
        - apply andb_true_iff in Q. destruct Q as [Q1 Q2]. apply Z.eqb_eq in Q1, Q2. subst s f. unfold but_slice.
          cbn [Z.to_nat firstn app]. rewrite Nat2Z.id, skipn_app. unfold n1. rewrite skipn_all, Nat.sub_diag. auto.
        - cbn [flat]. rewrite B1 by lia. unfold but_slice. rewrite firstn_app, skipn_app. fold n1.
          replace (Z.to_nat s - n1)%nat with O by lia. replace (Z.to_nat f - n1)%nat with O by lia.
          cbn [firstn skipn]. rewrite app_nil_r, <- app_assoc. auto. }
      { cbn [flat]. rewrite S1, B2 by lia. unfold slice, but_slice. rewrite firstn_app, skipn_app, (skipn_all_le (flat l1) (Z.to_nat f)) by (fold n1; lia).
        fold n1. cbn [Z.to_nat skipn firstn app]. replace (Z.to_nat s - n1)%nat with O by lia. cbn [firstn]. rewrite app_nil_r, Z.sub_0_r.
        f_equal. f_equal. lia. }
  - split; intros s f H.
    + cbn [subseq]. destruct (Z.eqb_spec s f) as [->|N]; [now rewrite slice_refl|]. unfold slice.
      destruct (Z.eqb_spec s 0) as [->|N0]; cbn [flat].
      * cbn [Z.to_nat skipn]. rewrite firstn_all2; auto. cbn. lia.
      * rewrite skipn_all2 by (cbn; lia). now rewrite firstn_nil.
    + cbn [butsubseq]. rewrite Z.geb_leb. unfold but_slice. destruct (Z.leb_spec f s) as [E|E].
      { replace f with s by lia. now rewrite firstn_skipn. }
      destruct (Z.eqb_spec s 0) as [->|N0]; cbn [flat].
      * rewrite skipn_all2 by (cbn; lia). auto.
      * rewrite skipn_all2, firstn_all2 by (cbn; lia). auto.
  - split; intros s f H.
    + cbn [subseq]. unfold slice. cbn [flat]. rewrite skipn_nil, firstn_nil. destruct (s =? f); auto. destruct (s =? 0); auto.
    + cbn [butsubseq]. unfold but_slice. cbn [flat]. rewrite skipn_nil, firstn_nil. destruct (s >=? f); auto.
Qed.

Lemma subseq_flat (l : coll A) s f : 0 <= s <= f -> flat (subseq l s f) = slice (flat l) s f.
Proof. apply sub_but_spec. Qed.
Lemma butsubseq_flat (l : coll A) s f : 0 <= s <= f -> flat (butsubseq l s f) = but_slice (flat l) s f.
Proof. apply sub_but_spec. Qed.

Lemma rev_but_slice (s : list A) a b : (a <= b <= List.length s)%nat ->
  rev (firstn (List.length s - b) s ++ skipn (List.length s - a) s) = firstn a (rev s) ++ skipn b (rev s).
Proof.
  intros H. rewrite rev_app_distr. rewrite firstn_rev, skipn_rev. auto.
Qed.

Lemma butsubseq_from_end_flat (l : coll A) s f : 0 <= s <= f -> f <= length l ->
  rev (flat (butsubseq_from_end l s f)) = but_slice (rev (flat l)) s f.
Proof.
  intros H Hf. unfold butsubseq_from_end. rewrite length_flat in *. rewrite butsubseq_flat by lia. unfold but_slice.
  rewrite <- rev_but_slice by lia. f_equal. f_equal; f_equal; lia.
Qed.

(** ** equal *)
Lemma equal_flat (l1 l2 : coll A) : equal eqb l1 l2 = true <-> Forall2 (fun x y => eqb x y = true) (flat l1) (flat l2).
Proof.
  revert l2; induction l1 as [l1 IH1 r1 IH2|x|]; intros l2; cbn [equal flat].
  - rewrite andb_true_iff, IH1, IH2. rewrite subseq_flat, butsubseq_flat by (rewrite length_flat; lia).
    rewrite length_flat. unfold slice, but_slice. cbn [Z.to_nat skipn firstn app]. rewrite Z.sub_0_r, Nat2Z.id. split.
    + intros [H1 H2]. rewrite <- (firstn_skipn (List.length (flat l1)) (flat l2)). now apply Forall2_app.
    + intros H. apply Forall2_app_inv_l in H. destruct H as (a & b & Ha & Hb & E). rewrite E.
      assert (L : List.length (flat l1) = List.length a) by (clear -Ha; induction Ha; simpl; auto). rewrite L.
      rewrite firstn_app, skipn_app, Nat.sub_diag, firstn_all, skipn_all. cbn [firstn skipn app]. rewrite app_nil_r. auto.
  - rewrite andb_true_iff, length_flat, nth_flat. rewrite Z.eqb_eq. split.
    + intros [L E]. destruct (flat l2) as [|y [|z t]]; cbn in L; try lia. cbn in E. repeat constructor; auto.
    + intros H. inversion H as [|? y ? t E T]; subst. inversion T; subst. cbn. auto.
  - rewrite length_flat, Z.eqb_eq. split.
    + intros H. destruct (flat l2); cbn in H; try lia. constructor.
    + intros H. inversion H; auto.
Qed.

(** ** to_string *)
Variable show : A -> string.
Fixpoint weight (l : coll A) : nat := match l with Append l1 l2 => S (weight l1 + weight l2) | _ => 1 end.
Definition sweight (st : list (coll A)) : nat := fold_right (fun l n => (weight l + n)%nat) O st.
Definition sflat (st : list (coll A)) : list A := List.concat (map flat st).

Fixpoint items (first : bool) (xs : list A) : string :=
  match xs with
  | [] => ""
  | x :: xs => ((if first then "" else ",") ++ show x ++ items false xs)%string
  end.

Lemma append_assoc (a b c : string) : ((a ++ b) ++ c = a ++ (b ++ c))%string.
Proof. induction a; simpl; congruence. Qed.
Lemma append_nil_r (a : string) : (a ++ "" = a)%string.
Proof. induction a; simpl; congruence. Qed.

Lemma to_string_loop_spec fuel : forall st printed out, (sweight st < fuel)%nat -> 0 <= printed <= 5 ->
  exists st', to_string_loop show fuel st printed out =
      Ok (st', (out ++ items (printed =? 0)%Z (firstn (Z.to_nat (5 - printed)) (sflat st)))%string) /\
    (Z.of_nat (List.length (sflat st)) < 5 - printed -> st' = []) /\
    (5 - printed < Z.of_nat (List.length (sflat st)) -> st' <> []).
Proof.
  induction fuel as [|fuel IH]; intros st printed out Hf Hp; [lia|]. cbn [to_string_loop].
  destruct st as [|l st].
  { exists []. cbn. rewrite firstn_nil. cbn. rewrite append_nil_r. ands; auto; try lia. }
  unfold max_print. destruct (Z.ltb_spec printed 5) as [G|G].
  2:{ exists (l :: st). replace printed with 5 by lia. cbn [Z.sub Z.to_nat Z.opp]. replace (Z.to_nat (5 - 5)) with O by lia.
      cbn [firstn items]. rewrite append_nil_r. ands; auto; try lia; discriminate. }
  destruct l as [l1 l2|x|].
  - destruct (IH (l1 :: l2 :: st) printed out) as (st' & E & H1 & H2); [cbn [sweight fold_right weight] in *; unfold sweight in *; lia|auto|].
    exists st'. rewrite E. unfold sflat in *. cbn [map List.concat flat] in *. rewrite <- app_assoc. auto.
  - cbn [sweight fold_right weight] in Hf.
    destruct (IH st (printed + 1) ((if negb (printed =? 0)%Z then (out ++ ",")%string else out) ++ show x)%string) as (st' & E & H1 & H2); [unfold sweight; lia|lia|].
    exists st'. rewrite E. unfold sflat in *. cbn [map List.concat flat app List.length] in *.
    replace (Z.to_nat (5 - printed)) with (S (Z.to_nat (5 - (printed + 1)))) by lia. cbn [firstn items].
    replace (printed + 1 =? 0) with false by (symmetry; apply Z.eqb_neq; lia). ands.
    + do 2 f_equal. destruct (printed =? 0); cbn [negb]; rewrite !append_assoc; auto.
    + intros; apply H1; lia.
    + intros; apply H2; lia.
  - destruct (IH st printed out) as (st' & E & H1 & H2); [cbn [sweight fold_right weight] in *; unfold sweight in *; lia|auto|].
    exists st'. rewrite E. auto.
Qed.

Lemma items_concat b xs : xs <> [] -> items b xs = ((if b then "" else ",") ++ String.concat "," (map show xs))%string.
Proof.
  revert b; induction xs as [|x xs IH]; intros b N; [congruence|]. cbn [items map].
  destruct xs as [|y xs]; [cbn; now rewrite append_nil_r|].
  rewrite IH by congruence. cbn [map]. change (String.concat "," (show x :: show y :: map show xs)) with
    (show x ++ "," ++ String.concat "," (show y :: map show xs))%string. auto.
Qed.

End P.

(** ** Sets *)
Section S.
Context {A : Type} (eqb : A -> A -> bool) (Heq : equivalence eqb).

Lemma bag_member_flat e (l : coll A) : bag_member eqb e l = true <-> inset eqb e (flat l).
Proof.
  unfold inset. induction l as [l1 IH1 l2 IH2|x|]; cbn [bag_member flat].
  - rewrite orb_true_iff, IH1, IH2. split.
    + intros [(y & ? & ?)|(y & ? & ?)]; exists y; split; auto; apply in_or_app; auto.
    + intros (y & [?|?]%in_app_or & ?); eauto.
  - split.
    + intros H. exists x. split; [left; auto|]. now apply (eq_sym_ _ Heq).
    + intros (y & [<-|[]] & H). now apply (eq_sym_ _ Heq).
  - split; [discriminate|]. intros (y & [] & _).
Qed.

Lemma inset_compat x y s : eqb x y = true -> inset eqb x s -> inset eqb y s.
Proof. intros E (z & Hi & Hz). exists z. split; auto. eapply (eq_trans_ _ Heq); eauto. now apply (eq_sym_ _ Heq). Qed.

Lemma inset_app x s t : inset eqb x (s ++ t) <-> inset eqb x s \/ inset eqb x t.
Proof.
  unfold inset. split.
  - intros (y & [?|?]%in_app_or & ?); eauto.
  - intros [(y & ? & ?)|(y & ? & ?)]; exists y; split; auto; apply in_or_app; auto.
Qed.
Lemma inset_one x y : inset eqb x [y] <-> eqb x y = true.
Proof. unfold inset. split; [intros (z & [<-|[]] & ?); auto|]. intros H. exists y. split; auto. left; auto. Qed.
Lemma inset_nil x : ~ inset eqb x [].
Proof. intros (y & [] & _). Qed.

Lemma less_equal_flat s1 s2 : set_less_equal eqb s1 s2 = true <-> forall x, inset eqb x (flat s1) -> inset eqb x (flat s2).
Proof.
  induction s1 as [l1 IH1 l2 IH2|y|]; cbn [set_less_equal flat].
  - rewrite andb_true_iff, IH1, IH2. split.
    + intros [H1 H2] x [?|?]%inset_app; auto.
    + intros H. split; intros x Hx; apply H; apply inset_app; auto.
  - rewrite bag_member_flat. split.
    + intros H x Hx%inset_one. eapply inset_compat; eauto. now apply (eq_sym_ _ Heq).
    + intros H. apply H, inset_one, (eq_refl_ _ Heq).
  - split; auto. intros _ x []%inset_nil.
Qed.

Lemma union_flat s1 : forall s2 x, inset eqb x (flat (set_union eqb s1 s2)) <-> inset eqb x (flat s1) \/ inset eqb x (flat s2).
Proof.
  induction s1 as [l1 IH1 l2 IH2|y|]; intros s2 x; cbn [set_union flat].
  - rewrite IH1, IH2, inset_app. tauto.
  - destruct (bag_member eqb y s2) eqn:E; cbn [flat].
    + apply bag_member_flat in E. rewrite inset_one. split; auto. intros [H|H]; auto. eapply inset_compat; eauto. now apply (eq_sym_ _ Heq).
    + now rewrite inset_app.
  - split; auto. intros [[]%inset_nil|H]; auto.
Qed.

Lemma intersect_flat s1 : forall s2 x, inset eqb x (flat (set_intersect eqb s1 s2)) <-> inset eqb x (flat s1) /\ inset eqb x (flat s2).
Proof.
  induction s1 as [l1 IH1 l2 IH2|y|]; intros s2 x; cbn [set_intersect flat].
  - rewrite !inset_app, IH1, IH2. tauto.
  - destruct (bag_member eqb y s2) eqn:E; cbn [flat].
    + apply bag_member_flat in E. rewrite inset_one. split; [|tauto]. intros H. split; auto. eapply inset_compat; eauto. now apply (eq_sym_ _ Heq).
    + rewrite inset_one. split; [intros []%inset_nil|]. intros [H1 H2]. exfalso.
      rewrite <- not_true_iff_false, bag_member_flat in E. apply E. eapply inset_compat; eauto.
  - split; [intros []%inset_nil|intros [H _]; auto].
Qed.

Lemma difference_flat s1 : forall s2 x, inset eqb x (flat (set_difference eqb s1 s2)) <-> inset eqb x (flat s1) /\ ~ inset eqb x (flat s2).
Proof.
  induction s1 as [l1 IH1 l2 IH2|y|]; intros s2 x; cbn [set_difference flat].
  - rewrite !inset_app, IH1, IH2. tauto.
  - destruct (bag_member eqb y s2) eqn:E; cbn [flat].
    + apply bag_member_flat in E. rewrite inset_one. split; [intros []%inset_nil|]. intros [H1 H2]. exfalso. apply H2. eapply inset_compat; eauto. now apply (eq_sym_ _ Heq).
    + rewrite inset_one. split; [|tauto]. intros H. split; auto. intros H2.
      rewrite <- not_true_iff_false, bag_member_flat in E. apply E. eapply inset_compat; eauto.
  - split; [intros []%inset_nil|intros [H _]; auto].
Qed.

(** No duplicates, as a predicate that goes through [++]. *)
Fixpoint nodup (s : list A) : Prop := match s with [] => True | x :: s => ~ inset eqb x s /\ nodup s end.

Lemma nodup_spec s : nodup s <-> no_duplicates eqb s.
Proof.
  induction s as [|a s IH]; cbn [nodup].
  - split; auto. intros _ [|i] j x y H; discriminate.
  - rewrite IH. split.
    + intros [Ha Hs] i j x y Hi Hj E. destruct i as [|i], j as [|j]; auto.
      * cbn in *. injection Hi as <-. exfalso. apply Ha. exists y. split; auto. eapply nth_error_In; eauto.
      * cbn in *. injection Hj as <-. exfalso. apply Ha. exists x. split; [eapply nth_error_In; eauto|]. now apply (eq_sym_ _ Heq).
      * f_equal. eapply Hs; eauto.
    + intros H. split.
      * intros (y & Hy & E). apply In_nth_error in Hy. destruct Hy as (j & Hj). specialize (H O (S j) a y eq_refl Hj E). discriminate.
      * intros i j x y Hi Hj E. specialize (H (S i) (S j) x y Hi Hj E). lia.
Qed.

Lemma nodup_app s t : nodup (s ++ t) <-> nodup s /\ nodup t /\ forall x, inset eqb x s -> inset eqb x t -> False.
Proof.
  induction s as [|a s IH]; cbn [nodup app].
  - split; [intros H; ands; auto; intros x []%inset_nil|tauto].
  - rewrite IH, inset_app. split.
    + intros (H1 & H2 & H3 & H4). ands; auto. intros x (z & [<-|Hz] & E) Ht.
      * apply H1. right. eapply inset_compat; [exact E|auto].
      * eapply H4; eauto. exists z; auto.
    + intros ((H1 & H2) & H3 & H4). ands; auto.
      * intros [H|H]; auto. apply (H4 a); auto. exists a. split; [left; auto|apply (eq_refl_ _ Heq)].
      * intros x (z & Hz & E). apply H4. exists z. split; auto. right; auto.
Qed.

Lemma union_nodup s1 : forall s2, nodup (flat s2) -> nodup (flat (set_union eqb s1 s2)).
Proof.
  induction s1 as [l1 IH1 l2 IH2|y|]; intros s2 H; cbn [set_union]; auto.
  destruct (bag_member eqb y s2) eqn:E; auto. cbn [flat app nodup]. split; auto.
  rewrite <- not_true_iff_false, bag_member_flat in E. auto.
Qed.

Lemma intersect_nodup s1 s2 : nodup (flat s1) -> nodup (flat (set_intersect eqb s1 s2)).
Proof.
  induction s1 as [l1 IH1 l2 IH2|y|]; cbn [set_intersect]; auto.
  - cbn [flat]. rewrite !nodup_app. intros (H1 & H2 & H3). ands; auto.
    intros x Hx Hy. apply intersect_flat in Hx, Hy. eapply H3; tauto || eauto. apply Hx. apply Hy.
  - intros H. destruct (bag_member eqb y s2); auto. cbn. auto.
Qed.

Lemma difference_nodup s1 s2 : nodup (flat s1) -> nodup (flat (set_difference eqb s1 s2)).
Proof.
  induction s1 as [l1 IH1 l2 IH2|y|]; cbn [set_difference]; auto.
  - cbn [flat]. rewrite !nodup_app. intros (H1 & H2 & H3). ands; auto.
    intros x Hx Hy. apply difference_flat in Hx, Hy. apply (H3 x); tauto.
  - intros H. destruct (bag_member eqb y s2); auto. cbn. auto.
Qed.
End S.

(** ** Ranges *)
Lemma interval_app x n m : interval x (n + m) = interval x n ++ interval (x + Z.of_nat n) m.
Proof.
  revert x; induction n as [|n IH]; intros x; cbn [interval Nat.add app].
  - f_equal. lia.
  - rewrite IH. do 2 f_equal. f_equal. lia.
Qed.

Lemma int_ok_spec x : int_ok x = true <-> INT_MIN <= x <= INT_MAX.
Proof. unfold int_ok. rewrite andb_true_iff, !Z.leb_le. tauto. Qed.

Lemma range_ok : forall fuel x y, 0 <= x -> y + y <= INT_MAX + 1 -> y - x < Z.of_nat fuel ->
  (0 < fuel)%nat -> exists l, range fuel x y = Ok l /\ flat l = interval x (Z.to_nat (y - x + 1)).
Proof.
  induction fuel as [|fuel IH]; intros x y Hx Hyy Hf Hp; [lia|]. cbn [range].
  destruct (Z.eqb_spec x y) as [->|N].
  { exists (Single y). split; auto. replace (Z.to_nat (y - y + 1)) with 1%nat by lia. auto. }
  rewrite Z.gtb_ltb. destruct (Z.ltb_spec y x) as [G|G].
  { exists None_. split; auto. replace (Z.to_nat (y - x + 1)) with 0%nat by lia. auto. }
  assert (E : int_ok (x + y) = true) by (apply int_ok_spec; unfold INT_MIN in *; lia). rewrite E. cbn [negb].
  rewrite Z.quot_div_nonneg by lia. set (mid := (x + y) / 2).
  assert (M : x <= mid < y) by (unfold mid; split; [apply Z.div_le_lower_bound|apply Z.div_lt_upper_bound]; lia).
  destruct (IH x mid) as (a & Ea & Fa); try lia.
  destruct (IH (mid + 1) y) as (b & Eb & Fb); try lia.
  rewrite Ea. cbn [bind]. rewrite Eb. cbn [bind]. eexists. split; [reflexivity|]. cbn [flat]. rewrite Fa, Fb.
  replace (Z.to_nat (y - x + 1)) with (Z.to_nat (mid - x + 1) + Z.to_nat (y - (mid + 1) + 1))%nat by lia.
  rewrite interval_app. do 2 f_equal. lia.
Qed.

Lemma range_diverges : forall fuel x y, INT_MIN / 2 <= x < 0 -> x < y <= INT_MAX -> range fuel x y = Fuel.
Proof.
  induction fuel as [|fuel IH]; intros x y Hx Hy; auto. cbn [range].
  destruct (Z.eqb_spec x y); [lia|]. rewrite Z.gtb_ltb. destruct (Z.ltb_spec y x); [lia|].
  assert (E : int_ok (x + y) = true). { apply int_ok_spec. unfold INT_MIN, INT_MAX in *. change (-2147483648 / 2) with (-1073741824) in *. lia. }
  rewrite E. cbn [negb]. rewrite IH; auto.
  pose proof (Z.quot_rem' (x + y) 2) as Q. 
  assert (R : -1 <= Z.rem (x + y) 2 <= 1).
  { pose proof (Z.rem_bound_abs (x + y) 2 ltac:(lia)). lia. }
  assert (R2 : x + y < 0 -> Z.rem (x + y) 2 <= 0) by (intros; apply Z.rem_nonpos; lia).
  assert (R3 : 0 <= x + y -> 0 <= Z.rem (x + y) 2) by (intros; apply Z.rem_nonneg; lia).
  destruct (Z.lt_ge_cases (x + y) 0); lia.
Qed.

(** ** Numerals *)
Lemma digit_char_spec d : 0 <= d < 10 -> nth_error digits (Z.to_nat d) = Some (digit_char d).
Proof.
  intros H. assert (C : d = 0 \/ d = 1 \/ d = 2 \/ d = 3 \/ d = 4 \/ d = 5 \/ d = 6 \/ d = 7 \/ d = 8 \/ d = 9) by lia.
  repeat (destruct C as [->|C]; [reflexivity|]). subst; reflexivity.
Qed.

Lemma value_snoc ds d : value (ds ++ [d]) = 10 * value ds + Z.of_nat d.
Proof. unfold value. now rewrite fold_left_app. Qed.

Definition is_num (s : list ascii) (x : Z) : Prop :=
  exists ds, Forall2 (fun d c => nth_error digits d = Some c) ds s /\ value ds = x /\
    match ds with d :: _ => d <> O | [] => x = 0 end.

Lemma int_rev_spec : forall fuel x acc, 0 <= x -> x < 10 ^ Z.of_nat fuel -> (0 < fuel)%nat ->
  exists s, int_rev (S fuel) x acc = Ok (acc ++ rev s) /\ is_num s x.
Proof.
  induction fuel as [|fuel IH]; intros x acc Hx Hf Hp; [lia|].
  cbn [int_rev]. destruct (Z.eqb_spec x 0) as [->|N].
  { exists []. cbn. rewrite app_nil_r. split; auto. exists []. ands; auto. }
  rewrite Z.quot_div_nonneg, Z.rem_mod_nonneg by lia.
  assert (M : 0 <= x mod 10 < 10) by (apply Z.mod_pos_bound; lia).
  assert (D : x = 10 * (x / 10) + x mod 10) by (apply Z.div_mod; lia).
  assert (Q : 0 <= x / 10) by (apply Z.div_pos; lia).
  destruct (Nat.eq_dec fuel 0) as [->|Nf].
  { change (10 ^ Z.of_nat 1) with 10 in Hf. rewrite Z.div_small, Z.mod_small by lia. cbn. exists [digit_char x]. split; auto.
    exists [Z.to_nat x]. ands.
    - repeat constructor. apply digit_char_spec; lia.
    - cbn. lia.
    - lia. }
  destruct (IH (x / 10) (acc ++ [digit_char (x mod 10)])) as (s & E & ds & F & V & L); try lia.
  { apply Z.div_lt_upper_bound; try lia. rewrite Nat2Z.inj_succ, Z.pow_succ_r in Hf by lia. lia. }
  cbn [int_rev] in E. rewrite E. exists (s ++ [digit_char (x mod 10)]). split.
  - rewrite rev_app_distr. cbn. now rewrite <- app_assoc.
  - exists (ds ++ [Z.to_nat (x mod 10)]). ands.
    + apply Forall2_app; auto. repeat constructor. apply digit_char_spec; lia.
    + rewrite value_snoc, V. lia.
    + destruct ds; cbn [app]; auto. lia.
Qed.

Lemma int_rev_more : forall fuel x acc r, int_rev fuel x acc = Ok r -> forall f2, (fuel <= f2)%nat -> int_rev f2 x acc = Ok r.
Proof.
  induction fuel as [|fuel IH]; intros x acc r H f2 L; [discriminate|]. destruct f2 as [|f2]; [lia|].
  cbn [int_rev] in *. destruct (x =? 0); auto. apply IH; auto. lia.
Qed.

Lemma int_string_pos_spec fuel x : 0 < x < 10 ^ 10 -> (11 <= fuel)%nat -> exists s, int_string_pos fuel x = Ok s /\ unsigned_numeral s x.
Proof.
  intros Hx Hf. destruct (int_rev_spec 10 x []) as (s & E & ds & F & V & L); try lia.
  unfold int_string_pos. rewrite (int_rev_more _ _ _ _ E) by auto. cbn. rewrite rev_involutive. eexists; split; auto.
  exists ds. ands; auto. destruct ds; [lia|auto].
Qed.

Lemma digits_inj d d' c : nth_error digits d = Some c -> nth_error digits d' = Some c -> d = d'.
Proof.
  intros H1 H2. assert (d < 10)%nat by (change 10%nat with (List.length digits); apply nth_error_Some; congruence).
  assert (d' < 10)%nat by (change 10%nat with (List.length digits); apply nth_error_Some; congruence).
  do 10 (destruct d as [|d]; [do 10 (destruct d' as [|d']; [first [reflexivity | exfalso; cbn in H1, H2; congruence] |]); lia |]). lia.
Qed.

Lemma unsigned_det s n m : unsigned_numeral s n -> unsigned_numeral s m -> n = m.
Proof.
  intros (d1 & F1 & V1 & _) (d2 & F2 & V2 & _). assert (d1 = d2); [|congruence].
  clear V1 V2. revert d2 F2; induction F1; intros d2 F2; inversion F2; subst; auto. f_equal; eauto using digits_inj.
Qed.
Lemma unsigned_no_sign s n : unsigned_numeral ("-"%char :: s) n -> False.
Proof.
  intros (ds & F & _). inversion F as [|d c ds' s' H]; subst.
  do 10 (destruct d as [|d]; [discriminate|]). cbn in H. destruct d; discriminate.
Qed.
Lemma numeral_det s n m : numeral s n -> numeral s m -> n = m.
Proof.
  unfold numeral. destruct (Z.ltb_spec n 0), (Z.ltb_spec m 0).
  - intros (t & -> & H1) (t' & E & H2). injection E as <-. pose proof (unsigned_det _ _ _ H1 H2). lia.
  - intros (t & -> & H1) H2. now apply unsigned_no_sign in H2.
  - intros H2 (t & -> & H1). now apply unsigned_no_sign in H2.
  - apply unsigned_det.
Qed.
