(** * GenText: a text is that of one program. *)
From Verif Require Import Base GenModel GenSpec.
Open Scope nat_scope.
Notation flat := (flat_map text).
Definition ends (u : list token) : Prop := match u with [] | TElse :: _ | TEndIf :: _ | TEndFor :: _ | TWhile _ :: _ => True | _ => False end.
Lemma starts s : exists x l, text s = x :: l /\ ~ ends [x].
Proof. destruct s; cbn; eexists; eexists; (split; [reflexivity|cbn; tauto]). Qed.
Lemma not_ends x l : ~ ends [x] -> ~ ends (x :: l).
Proof. destruct x; cbn; tauto. Qed.
Lemma text_unique_n : forall n a b u v, length (flat a) <= n -> flat a ++ u = flat b ++ v -> ends u -> ends v -> a = b /\ u = v.
Proof.
  induction n as [|n IH]; intros a b u v Hn E Hu Hv.
  - destruct a as [|s a]; [|destruct (starts s) as (x & l & Es & _); cbn in Hn; rewrite Es in Hn; cbn in Hn; lia]. destruct b as [|s b]; [auto|]. exfalso. destruct (starts s) as (x & l & Es & Hx). cbn [flat_map app] in E. rewrite Es in E. cbn [app] in E. subst u. exact (not_ends _ _ Hx Hu).
  - destruct a as [|s a], b as [|s' b]; [auto| | |].
    + exfalso. destruct (starts s') as (x & l & Es & Hx). cbn [flat_map app] in E. rewrite Es in E. cbn [app] in E. subst u. exact (not_ends _ _ Hx Hu).
    + exfalso. destruct (starts s) as (x & l & Es & Hx). cbn [flat_map app] in E. rewrite Es in E. cbn [app] in E. subst v. exact (not_ends _ _ Hx Hv).
    + cbn [flat_map] in E, Hn. rewrite app_length in Hn. rewrite <- !app_assoc in E.
      assert (REST : forall w, s = s' -> flat a ++ u = flat b ++ v -> length (text s) = S w -> s :: a = s' :: b /\ u = v) by (intros w -> E2 Hl; destruct (IH a b u v) as [-> ->]; auto; lia).
      destruct s as [|h|i e|c q|q|i x y|i x y|f x|id x], s' as [|h'|i' e'|c' q'|q'|i' x' y'|i' x' y'|f' x'|id' x']; cbn [text app] in E; try discriminate E.
      * apply (REST 0); [reflexivity| |reflexivity]. now injection E.
      * injection E as <- E. now apply (REST 0).
      * injection E as <- <- E. now apply (REST 0).
      * injection E as <- <- E. now apply (REST 0).
      * injection E as <- E. now apply (REST 0).
      * injection E as <- E. cbn [text length] in Hn. repeat rewrite app_length in Hn; cbn [length] in Hn; repeat rewrite app_length in Hn. rewrite <- !app_assoc in E. cbn [app] in E. destruct (IH x x' _ _ ltac:(lia) E I I) as [-> E2]. injection E2 as E2. rewrite <- !app_assoc in E2. cbn [app] in E2. destruct (IH y y' _ _ ltac:(lia) E2 I I) as [-> E3]. injection E3 as E3. now eapply REST.
      * injection E as <- E. cbn [text length] in Hn. repeat rewrite app_length in Hn; cbn [length] in Hn; repeat rewrite app_length in Hn. rewrite <- !app_assoc in E. cbn [app] in E. destruct (IH x x' _ _ ltac:(lia) E I I) as [-> E2]. injection E2 as E2. rewrite <- !app_assoc in E2. cbn [app] in E2. destruct (IH y y' _ _ ltac:(lia) E2 I I) as [-> E3]. injection E3 as E3. now eapply REST.
      * injection E as <- E. cbn [text length] in Hn. rewrite app_length in Hn. rewrite <- !app_assoc in E. cbn [app] in E. destruct (IH x x' _ _ ltac:(lia) E I I) as [-> E2]. injection E2 as E2. now eapply REST.
      * injection E as <- E. cbn [text length] in Hn. rewrite app_length in Hn. rewrite <- !app_assoc in E. cbn [app] in E. destruct (IH x x' _ _ ltac:(lia) E I I) as [-> E2]. injection E2 as E2. now eapply REST.
Qed.
Theorem text_unique a b : flat a = flat b -> a = b.
Proof. intros E. destruct (text_unique_n (length (flat a)) a b [] [] (le_n _)) as [H _]; auto; cbn; auto. now rewrite E. Qed.
