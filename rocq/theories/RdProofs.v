(** * Reading programs: proofs. *)

Require Import List Arith Lia Bool Ascii String.
Import ListNotations.
Require Import Verif.LxModel Verif.RdModel Verif.RdSpec.
Local Open Scope list_scope.

(** ** Strings *)
Lemma strchr_some : forall s c i, strchr s c = Some i ->
  s = firstn i s ++ c :: skipn (S i) s /\ ~ In c (firstn i s).
Proof.
  induction s as [|d s IH]; intros c i H; cbn [strchr] in H; [discriminate H|].
  destruct (Ascii.eqb d c) eqn:E.
  - injection H as <-. apply Ascii.eqb_eq in E. subst d. split; [reflexivity|intros []].
  - destruct (strchr s c) as [j|] eqn:Ej; [|discriminate H]. injection H as <-.
    destruct (IH c j Ej) as [H1 H2]. split.
    + cbn [firstn skipn app]. f_equal. exact H1.
    + cbn [firstn]. intros [X|X]; [|exact (H2 X)]. subst d. rewrite Ascii.eqb_refl in E. discriminate E.
Qed.

Lemma strchr_none : forall s c, strchr s c = None -> ~ In c s.
Proof.
  induction s as [|d s IH]; intros c H X; [exact X|]. cbn [strchr] in H.
  destruct (Ascii.eqb d c) eqn:E; [discriminate H|].
  destruct (strchr s c) as [j|] eqn:Ej; [discriminate H|].
  destruct X as [X|X]; [|exact (IH c Ej X)]. subst d. rewrite Ascii.eqb_refl in E. discriminate E.
Qed.

Lemma strrchr_none : forall s c, strrchr s c = None <-> ~ In c s.
Proof.
  induction s as [|d s IH]; intro c; cbn [strrchr]; [split; [intros _ []|reflexivity]|].
  specialize (IH c). destruct (strrchr s c) as [i|] eqn:E.
  - split; [discriminate|]. intro H. exfalso. apply H. right.
    destruct (in_dec ascii_dec c s) as [X|X]; [exact X|]. apply (proj2 IH) in X. discriminate X.
  - destruct (Ascii.eqb d c) eqn:Ec.
    + apply Ascii.eqb_eq in Ec. subst d. split; [discriminate|]. intro H. exfalso. apply H. left. reflexivity.
    + split; [|reflexivity]. intros _ [X|X].
      * subst d. rewrite Ascii.eqb_refl in Ec. discriminate Ec.
      * exact (proj1 IH eq_refl X).
Qed.

Lemma strrchr_at : forall a c b, ~ In c b -> strrchr (a ++ c :: b) c = Some (List.length a).
Proof.
  induction a as [|d a IH]; intros c b H; cbn [app strrchr].
  - rewrite (proj2 (strrchr_none b c) H), Ascii.eqb_refl. reflexivity.
  - rewrite (IH c b H). reflexivity.
Qed.

Lemma strrchr_some : forall s c i, strrchr s c = Some i ->
  s = firstn i s ++ c :: skipn (S i) s /\ ~ In c (skipn (S i) s).
Proof.
  induction s as [|d s IH]; intros c i H; cbn [strrchr] in H; [discriminate H|].
  destruct (strrchr s c) as [j|] eqn:E.
  - injection H as <-. destruct (IH c j E) as [H1 H2]. split; [|exact H2].
    cbn [firstn skipn app]. f_equal. exact H1.
  - destruct (Ascii.eqb d c) eqn:Ec; [|discriminate H]. injection H as <-.
    apply Ascii.eqb_eq in Ec. subst d. split; [reflexivity|]. apply strrchr_none. exact E.
Qed.

Lemma filebase_plain : forall n, plain n -> filebase (n ++ chars ".aps") = n.
Proof.
  intros n H. unfold filebase.
  assert (E : strrchr (n ++ chars ".aps") "/" = None).
  { apply strrchr_none. intro X. apply in_app_or in X. destruct X as [X|X]; [exact (H X)|].
    cbn in X. repeat (destruct X as [X|X]; [discriminate X|]). exact X. }
  rewrite E. change (chars ".aps") with ("."%char :: chars "aps"). rewrite strrchr_at.
  - rewrite firstn_app, firstn_all, Nat.sub_diag. cbn [firstn]. apply app_nil_r.
  - cbn. intro X. repeat (destruct X as [X|X]; [discriminate X|]). exact X.
Qed.

Lemma filebase_has_no_slash : forall f, plain (filebase f).
Proof.
  intros f H. unfold filebase in H.
  set (root := match strrchr f "/" with None => f | Some i => skipn (S i) f end) in H.
  assert (R : ~ In "/"%char root).
  { unfold root. destruct (strrchr f "/") as [i|] eqn:E.
    - exact (proj2 (strrchr_some _ _ _ E)).
    - exact (proj1 (strrchr_none _ _) E). }
  apply R. destruct (strrchr root ".") as [i|]; [|exact H].
  rewrite <- (firstn_skipn i root). apply in_or_app. left. exact H.
Qed.

Lemma same_text_iff : forall a b, same_text a b = true <-> a = b.
Proof.
  intros a b. unfold same_text. destruct (list_eq_dec ascii_dec a b) as [E|E]; split; auto; discriminate.
Qed.

(** ** The search path *)
Lemma cut_correct : forall n s, n = 1 + count_colons s ->
  exists ds, cut n (Some s) = Some ds /\ join ":" ds = s /\ (forall d, In d ds -> ~ In ":"%char d) /\ ds <> nil.
Proof.
  induction n as [|n IH]; intros s H; [discriminate H|]. cbn [cut].
  destruct (strchr s ":") as [i|] eqn:E.
  - destruct (strchr_some _ _ _ E) as [H1 H2].
    assert (C : forall a b, count_colons (a ++ b) = count_colons a + count_colons b).
    { induction a as [|c a IHa]; intro b; [reflexivity|]. cbn [app count_colons]. rewrite IHa. lia. }
    assert (Z : forall a, ~ In ":"%char a -> count_colons a = 0).
    { induction a as [|c a IHa]; intro X; [reflexivity|]. cbn [count_colons].
      rewrite IHa by (intro Y; apply X; right; exact Y).
      destruct (Ascii.eqb c ":") eqn:Ec; [|reflexivity]. apply Ascii.eqb_eq in Ec. exfalso. apply X. left. exact Ec. }
    destruct (IH (skipn (S i) s)) as [ds [D1 [D2 [D3 D4]]]].
    { rewrite H1 in H. rewrite C, (Z _ H2) in H. cbn [count_colons] in H. rewrite Ascii.eqb_refl in H. lia. }
    exists (firstn i s :: ds). split; [exact (f_equal (option_map (cons (firstn i s))) D1)|]. split; [|split].
    + destruct ds as [|d ds]; [congruence|]. cbn [join] in *. rewrite D2. symmetry. exact H1.
    + intros d [<-|Hd]; [exact H2|exact (D3 d Hd)].
    + discriminate.
  - assert (n = 0).
    { apply strchr_none in E. clear - H E.
      assert (Z : forall a, ~ In ":"%char a -> count_colons a = 0).
      { induction a as [|c a IHa]; intro X; [reflexivity|]. cbn [count_colons].
        rewrite IHa by (intro Y; apply X; right; exact Y).
        destruct (Ascii.eqb c ":") eqn:Ec; [|reflexivity]. apply Ascii.eqb_eq in Ec. exfalso. apply X. left. exact Ec. }
      rewrite (Z s E) in H. lia. }
    subst n. exists [s]. split; [reflexivity|]. split; [reflexivity|]. split; [|discriminate].
    intros d [<-|[]]. exact (strchr_none _ _ E).
Qed.

(** ** aps_open *)
Lemma open_from : forall e filename ds,
  match aps_open e ds filename with
  | Smashed => False
  | NotFound => forall d g, In d ds -> ~ is_file e d filename g
  | Opened path f => exists b d a, ds = b ++ d :: a /\ path = d ++ "/"%char :: filename /\
      is_file e d filename f /\ forall d' g, In d' b -> ~ is_file e d' filename g
  end.
Proof.
  intros e filename. induction ds as [|d ds IH]; cbn [aps_open]; [intros d g []|].
  destruct (Nat.leb_spec (e_max e) (List.length d + List.length filename)) as [L|L].
  - assert (N : forall g, ~ is_file e d filename g) by (intros g [X _]; lia).
    destruct (aps_open e ds filename) as [|path f|]; [| |exact IH].
    + intros d' g [<-|H]; [exact (N g)|exact (IH d' g H)].
    + destruct IH as [b [d1 [a [-> [H2 [H3 H4]]]]]]. exists (d :: b), d1, a.
      split; [reflexivity|]. split; [exact H2|]. split; [exact H3|].
      intros d' g [<-|H]; [exact (N g)|exact (H4 d' g H)].
  - assert (X : (e_max e + 1 <? List.length (d ++ "/"%char :: filename) + 1) = false).
    { apply Nat.ltb_ge. rewrite app_length. cbn [List.length]. lia. }
    rewrite X. destruct (e_fs e (d ++ "/"%char :: filename)) as [f|] eqn:F.
    + exists nil, d, ds. split; [reflexivity|]. split; [reflexivity|]. split; [split; assumption|].
      intros d' g [].
    + assert (N : forall g, ~ is_file e d filename g) by (intros g [_ Y]; rewrite F in Y; discriminate Y).
      destruct (aps_open e ds filename) as [|path f|]; [| |exact IH].
      * intros d' g [<-|H]; [exact (N g)|exact (IH d' g H)].
      * destruct IH as [b [d1 [a [-> [H2 [H3 H4]]]]]]. exists (d :: b), d1, a.
        split; [reflexivity|]. split; [exact H2|]. split; [exact H3|].
        intros d' g [<-|H]; [exact (N g)|exact (H4 d' g H)].
Qed.

Definition on_path (e : env) (filename : text) : Prop := exists path f, first_on_path e filename path f.

Lemma open_path : forall e filename,
  match aps_open e (e_path e) filename with
  | Smashed => False
  | NotFound => ~ on_path e filename
  | Opened path f => first_on_path e filename path f
  end.
Proof.
  intros e filename. pose proof (open_from e filename (e_path e)) as H.
  destruct (aps_open e (e_path e) filename) as [|path f|]; [| |exact H].
  - intros [path [f [b [d [a [E [_ [X _]]]]]]]]. apply (H d f); [|exact X].
    rewrite E. apply in_or_app. right. left. reflexivity.
  - destruct H as [b [d [a H]]]. exists b, d, a. exact H.
Qed.

Lemma first_unique : forall e filename path f path' f',
  first_on_path e filename path f -> first_on_path e filename path' f' -> path = path' /\ f = f'.
Proof.
  intros e fn path f path' f' [b [d [a [E [P [F N]]]]]] [b' [d' [a' [E' [P' [F' N']]]]]].
  rewrite E in E'. clear E.
  assert (X : b = b' /\ d = d').
  { revert b' E' N'. induction b as [|x b IH]; intros [|x' b'] E' N'; cbn [app] in E'.
    - injection E' as -> _. split; reflexivity.
    - injection E' as -> _. exfalso. apply (N' x' f (or_introl eq_refl)). exact F.
    - injection E' as -> _. exfalso. apply (N d' f' (or_introl eq_refl)). exact F'.
    - injection E' as -> E'. destruct (IH (fun d g H => N d g (or_intror H)) b' E'
        (fun d g H => N' d g (or_intror H))) as [-> ->]. split; reflexivity. }
  destruct X as [-> ->]. subst path path'. split; [reflexivity|].
  destruct F as [_ F], F' as [_ F']. rewrite F in F'. injection F' as <-. reflexivity.
Qed.

Lemma contents_unique : forall e n us us', contents e n us -> contents e n us' -> us = us'.
Proof.
  intros e n us us' [p H] [p' H']. destruct (first_unique _ _ _ _ _ _ H H') as [_ X].
  injection X as ->. reflexivity.
Qed.

(** ** Programs *)
Definition ids (st : rst) : list nat := map p_id (r_progs st).

(** Holds whatever names are asked for. *)
Record Inv (st : rst) : Prop := {
  i_ids : NoDup (ids st);
  i_fresh : forall p, In p (r_progs st) -> p_id p < r_trees st;
  i_max : List.length (r_progs st) <= max_programs;
  i_plain : forall p, In p (r_progs st) -> plain (p_name p)
}.

Lemma inv_fresh : Inv fresh.
Proof. constructor; [constructor|intros p []|cbn; lia|intros p []]. Qed.

Lemma ids_inj : forall st p q, Inv st -> In p (r_progs st) -> In q (r_progs st) -> p_id p = p_id q -> p = q.
Proof.
  intros st p q [H _ _ _]. unfold ids in H. induction (r_progs st) as [|x l IH]; [intros []|].
  cbn [map] in H. inversion H as [|? ? N1 N2]; subst.
  intros [<-|Hp] [<-|Hq] E; [reflexivity| | |exact (IH N2 Hp Hq E)].
  - exfalso. apply N1. rewrite E. apply in_map. exact Hq.
  - exfalso. apply N1. rewrite <- E. apply in_map. exact Hp.
Qed.

(** One call, whatever the name. *)
Lemma find_general : forall e st n, Inv st ->
  match find_program e st n with
  | Stop s => s <> Overflow
  | Ok p st' => Inv st' /\ In p (r_progs st') /\
      ((r_progs st' = r_progs st /\ p_name p = n) \/
       (r_progs st' = r_progs st ++ [p] /\ (forall q, In q (r_progs st) -> p_name q <> n) /\
        List.length (r_progs st) < max_programs /\
        p_name p = filebase (n ++ chars ".aps") /\
        exists path, first_on_path e (n ++ chars ".aps") path (File (p_units p))))
  end.
Proof.
  intros e st n HI. unfold find_program.
  assert (H0 : match initialize e st with Stop s => s <> Overflow
     | Ok _ st1 => r_progs st1 = r_progs st /\ r_trees st <= r_trees st1 end).
  { unfold initialize. destruct (r_init st); [split; [reflexivity|lia]|].
    pose proof (open_path e (chars "aps-builtin.aps")) as HO.
    destruct (aps_open e (e_path e) (chars "aps-builtin.aps")) as [|path [|us]|];
      [discriminate|discriminate|split; [reflexivity|cbn; lia]|destruct HO]. }
  destruct (initialize e st) as [[] st1|s]; [|exact H0].
  destruct H0 as [E0 L0].
  assert (HI1 : Inv st1).
  { destruct HI as [A B C D]. unfold ids in *. constructor; unfold ids; rewrite E0; try assumption.
    intros p Hp. specialize (B p Hp). lia. }
  destruct (find (fun p => same_text n (p_name p)) (r_progs st1)) as [p|] eqn:F.
  - apply find_some in F. destruct F as [F1 F2]. apply same_text_iff in F2.
    split; [exact HI1|]. split; [exact F1|]. left. split; [exact E0|symmetry; exact F2].
  - unfold read_program.
    destruct (Nat.eqb_spec (List.length (r_progs st1)) max_programs) as [M|M]; [discriminate|].
    pose proof (open_path e (n ++ chars ".aps")) as HO.
    destruct (aps_open e (e_path e) (n ++ chars ".aps")) as [|path [|us]|];
      [discriminate|discriminate| |destruct HO].
    set (p := {| p_id := r_trees st1; p_name := filebase (n ++ chars ".aps"); p_units := us |}).
    destruct HI1 as [A B C D].
    split; [constructor; cbn [r_progs r_trees]|].
    + unfold ids. cbn [r_progs]. rewrite map_app. cbn [map].
      apply NoDup_rev in A. rewrite <- (rev_involutive (map p_id (r_progs st1) ++ [p_id p])).
      apply NoDup_rev. rewrite rev_app_distr. cbn [rev app]. constructor; [|exact A].
      intro X. apply in_rev, in_map_iff in X. destruct X as [q [Eq Hq]]. specialize (B q Hq).
      cbn [p_id p] in Eq. lia.
    + intros q Hq. apply in_app_or in Hq. destruct Hq as [Hq|[<-|[]]]; [specialize (B q Hq); lia|cbn [p_id p]; lia].
    + rewrite app_length. cbn [List.length]. lia.
    + intros q Hq. apply in_app_or in Hq. destruct Hq as [Hq|[<-|[]]]; [exact (D q Hq)|apply filebase_has_no_slash].
    + cbn [r_progs]. split; [apply in_or_app; right; left; reflexivity|]. right.
      rewrite E0. split; [reflexivity|]. split; [|split; [|split]].
      * intros q Hq X. rewrite <- E0 in Hq. pose proof (find_none _ _ F q Hq) as Y. cbn beta in Y.
        assert (same_text n (p_name q) = true) by (apply same_text_iff; symmetry; exact X). congruence.
      * rewrite <- E0. lia.
      * reflexivity.
      * exists path. exact HO.
Qed.

(** With names without directories. *)
Record Good (e : env) (st : rst) : Prop := {
  g_inv : Inv st;
  g_names : NoDup (map p_name (r_progs st));
  g_units : forall p, In p (r_progs st) -> contents e (p_name p) (p_units p)
}.

Lemma good_fresh : forall e, Good e fresh.
Proof. intro e. constructor; [exact inv_fresh|constructor|intros p []]. Qed.

Lemma names_inj : forall e st p q, Good e st -> In p (r_progs st) -> In q (r_progs st) ->
  p_name p = p_name q -> p = q.
Proof.
  intros e st p q [_ H _]. induction (r_progs st) as [|x l IH]; [intros []|].
  cbn [map] in H. inversion H as [|? ? N1 N2]; subst.
  intros [<-|Hp] [<-|Hq] E; [reflexivity| | |exact (IH N2 Hp Hq E)].
  - exfalso. apply N1. rewrite E. apply in_map. exact Hq.
  - exfalso. apply N1. rewrite <- E. apply in_map. exact Hp.
Qed.

Lemma find_good : forall e st n p st', Good e st -> plain n -> find_program e st n = Ok p st' ->
  Good e st' /\ In p (r_progs st') /\ p_name p = n /\
  (r_progs st' = r_progs st \/ r_progs st' = r_progs st ++ [p]).
Proof.
  intros e st n p st' HG HP H. destruct HG as [HI HN HU].
  pose proof (find_general e st n HI) as X. rewrite H in X.
  destruct X as [HI' [Hin [[E En]|[E [NF [_ [En [path Hp]]]]]]]].
  - split; [|split; [exact Hin|split; [exact En|left; exact E]]].
    constructor; [exact HI'| |]; rewrite E; assumption.
  - rewrite (filebase_plain n HP) in En.
    split; [|split; [exact Hin|split; [exact En|right; exact E]]].
    constructor; [exact HI'| |]; rewrite E.
    + rewrite map_app. cbn [map]. rewrite <- (rev_involutive (map p_name (r_progs st) ++ [p_name p])).
      apply NoDup_rev. rewrite rev_app_distr. cbn [rev app]. constructor; [|apply NoDup_rev; exact HN].
      intro Y. apply in_rev, in_map_iff in Y. destruct Y as [q [Eq Hq]]. apply (NF q Hq). congruence.
    + intros q Hq. apply in_app_or in Hq. destruct Hq as [Hq|[<-|[]]]; [exact (HU q Hq)|].
      rewrite En. exists path. exact Hp.
Qed.
