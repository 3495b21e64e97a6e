(** * PropsRope: C34, C35 (parse/string.c). *)
From Verif Require Import Base RopeModel RopeSpec.
Open Scope Z_scope.

Lemma load_app h l p o : load h p = Ok o -> load (h ++ l) p = Ok o.
Proof.
  destruct p as [|i]; cbn; [discriminate|]. rewrite !rd_Ok. intros E. rewrite nth_error_app1; auto. apply nth_error_Some. congruence.
Qed.
Lemma load_new h o : load (h ++ [o]) (S (length h)) = Ok o.
Proof. cbn. apply rd_Ok. rewrite nth_error_app2, Nat.sub_diag; auto. Qed.
Lemma denotes_app h l p s : denotes h p s -> denotes (h ++ l) p s.
Proof. induction 1; [eapply den_raw|eapply den_constant|eapply den_conc]; eauto using load_app. Qed.
Lemma denotes_extends h h' p s : extends h h' -> denotes h p s -> denotes h' p s.
Proof. intros [l ->]. apply denotes_app. Qed.
Lemma extends_refl h : extends h h. Proof. exists []. now rewrite app_nil_r. Qed.
Lemma extends_trans a b c : extends a b -> extends b c -> extends a c.
Proof. intros [l ->] [l' ->]. exists (l ++ l'). now rewrite app_assoc. Qed.
Lemma load_extends h h' p o : extends h h' -> load h p = Ok o -> load h' p = Ok o.
Proof. intros [l ->]. apply load_app. Qed.

Lemma denotes_type h p s : denotes h p s -> exists t, type_of h p = Ok t /\
  ((t < 128 /\ load h p = Ok (Chars s)) \/ (t = CONSTANT_STRING /\ exists v, load h p = Ok (Constant v) /\ load h v = Ok (Chars s)) \/
   (t = CONC_STRING /\ exists a b s1 s2, load h p = Ok (Conc a b) /\ denotes h a s1 /\ denotes h b s2 /\ s = s1 ++ s2)).
Proof.
  intros D. unfold type_of. destruct D as [p s L T H|p v s L Lv T|p a b s t L Da Db]; rewrite L; cbn; eexists; (split; [reflexivity|]); eauto 12.
Qed.
Lemma denotes_audit h p s : denotes h p s -> audit h p = Ok true.
Proof.
  intros D. destruct (denotes_type h p s D) as (t & E & C). destruct p as [|i]; [cbn in E; discriminate|]. unfold audit. rewrite E. cbn [bind].
  destruct C as [[C _]|[[-> _]|[-> _]]]; auto. apply Z.ltb_lt in C. now rewrite C.
Qed.
Lemma denotes_det h p s : denotes h p s -> forall t, denotes h p t -> s = t.
Proof.
  induction 1 as [p s L T H|p v s L Lv T|p a b s t L Da IHa Db IHb]; intros u Du; inversion Du; subst; try congruence.
  rewrite L in H. injection H as <- <-. f_equal; auto.
Qed.

(** ** C34 *)
(** The strings given denote what they are given (with char signed, as here, for
    every text; see [C34_unsigned_char_refuted] otherwise). *)
Theorem C34_make_string : forall h s l, text l -> load h s = Ok (Chars l) ->
  exists h' p, make_string true h s = Ok (h', p) /\ extends h h' /\ denotes h' p l.
Proof.
  intros h s l T L. unfold make_string. destruct s as [|i]; [discriminate|]. cbn [Nat.eqb]. unfold chars. rewrite L. cbn [bind high].
  rewrite Z.geb_leb. destruct (Z.leb_spec 128 (hd 0 l)).
  - eexists _, _. split; [reflexivity|]. split; [eexists; reflexivity|]. eapply den_constant; [apply load_new| |auto]. cbn [Nat.eqb]. now apply load_app.
  - exists h, (S i). ands; auto using extends_refl. apply den_raw; auto.
Qed.
Theorem C34_make_saved_string : forall h s l, text l -> load h s = Ok (Chars l) ->
  exists h' p, make_saved_string true h s = Ok (h', p) /\ extends h h' /\ denotes h' p l.
Proof.
  intros h s l T L. unfold make_saved_string, chars. rewrite L. cbn [bind new].
  destruct (C34_make_string (h ++ [Chars l]) (S (length h)) l T (load_new _ _)) as (h' & p & E & X & D). exists h', p. ands; auto.
  eapply extends_trans; [|exact X]. eexists; reflexivity.
Qed.
Theorem C34_conc : forall h p q s t, denotes h p s -> denotes h q t ->
  exists h' r, conc_string h p q = Ok (h', r) /\ extends h h' /\ denotes h' r (s ++ t).
Proof.
  intros h p q s t D1 D2. unfold conc_string. rewrite (denotes_audit _ _ _ D1), (denotes_audit _ _ _ D2). cbn [bind negb].
  assert (EMP : forall x u, denotes h x u -> type_of h x = Ok 0 -> u = []).
  { intros x u D E. destruct D as [x u L T H|x v u L Lv T|x a b u u' L Da Db]; unfold type_of in E; rewrite L in E; cbn in E; try discriminate.
    destruct u as [|c u]; auto. injection E as ->. inversion T; subst. lia. }
  destruct (denotes_type h p s D1) as (t1 & E1 & _), (denotes_type h q t D2) as (t2 & E2 & _). rewrite E1, E2. cbn [bind].
  destruct (Z.eqb_spec t1 0) as [->|N1]; [|destruct (Z.eqb_spec t2 0) as [->|N2]].
  - exists h, q. rewrite (EMP p s D1 E1). ands; auto using extends_refl.
  - exists h, p. rewrite (EMP q t D2 E2), app_nil_r. ands; auto using extends_refl.
  - eexists _, _. split; [reflexivity|]. split; [eexists; reflexivity|]. eapply den_conc; [apply load_new| |]; now apply denotes_app.
Qed.
Print Assumptions C34_conc.

Lemma strlen_spec s : strlen s = if Z.of_nat (length s) <=? INT_MAX then Ok (Z.of_nat (length s)) else UB.
Proof.
  unfold strlen, add_int. rewrite Z.add_0_r, Z.gtb_ltb. destruct (Z.ltb_spec INT_MAX (Z.of_nat (length s))), (Z.leb_spec (Z.of_nat (length s)) INT_MAX); auto; lia.
Qed.
(** string_length is the number of bytes, when an int can hold it (a shared rope
    of 31 concatenations is already longer). *)
Theorem C34_length : forall h p s, denotes h p s -> exists depth, forall fuel, (depth <= fuel)%nat ->
  string_length fuel h p = if Z.of_nat (length s) <=? INT_MAX then Ok (Z.of_nat (length s)) else UB.
Proof.
  induction 1 as [p s L T H|p v s L Lv T|p a b s t L Da [da IHa] Db [db IHb]].
  - exists 1%nat. intros [|fuel] F; [lia|]. cbn [string_length]. rewrite (denotes_audit h p s) by (now apply den_raw). cbn [bind negb]. unfold type_of, chars. rewrite L. cbn [bind].
    destruct (Z.ltb_spec (hd 0 s) 128); [|lia]. apply strlen_spec.
  - exists 1%nat. intros [|fuel] F; [lia|]. cbn [string_length]. rewrite (denotes_audit h p s) by (eapply den_constant; eauto). cbn [bind negb]. unfold type_of, constant_value, chars. rewrite L. cbn. rewrite Lv. apply strlen_spec.
  - exists (S (da + db)). intros [|fuel] F; [lia|]. cbn [string_length]. rewrite (denotes_audit h p (s ++ t)) by (eapply den_conc; eauto). cbn [bind negb]. unfold type_of. rewrite L. cbn -[Z.leb].
    rewrite IHa, IHb by lia. rewrite app_length, Nat2Z.inj_add. unfold add_int.
    destruct (Z.leb_spec (Z.of_nat (length s)) INT_MAX), (Z.leb_spec (Z.of_nat (length t)) INT_MAX), (Z.leb_spec (Z.of_nat (length s) + Z.of_nat (length t)) INT_MAX); cbn [bind]; rewrite ?Z.gtb_ltb; try lia; auto;
    destruct (Z.ltb_spec INT_MAX (Z.of_nat (length s) + Z.of_nat (length t))); auto; lia.
Qed.
Print Assumptions C34_length.

Lemma store_spec l : forall b pos, (pos + length l <= length b)%nat -> exists b', store b pos l = Ok b' /\ length b' = length b /\
  forall i, nth_error b' i = if (i <? pos)%nat then nth_error b i else if (i <? pos + length l)%nat then nth_error l (i - pos) else nth_error b i.
Proof.
  induction l as [|c l IH]; intros b pos L; cbn [store length] in *.
  - exists b. ands; auto. intros i. destruct (Nat.ltb_spec i pos), (Nat.ltb_spec i (pos + 0)); auto; lia.
  - rewrite wr_Ok by lia. cbn [bind]. destruct (IH (upd b pos c) (S pos)) as (b' & E & Lb & N); [rewrite upd_length; lia|]. exists b'. rewrite upd_length in Lb. ands; auto.
    intros i. rewrite N, nth_error_upd.
    destruct (Nat.ltb_spec i (S pos)), (Nat.ltb_spec i pos), (Nat.ltb_spec i (S pos + length l)), (Nat.ltb_spec i (pos + S (length l))), (Nat.eqb_spec pos i), (Nat.ltb_spec i (length b)); try lia; auto.
    + replace (i - pos)%nat with 0%nat by lia. auto.
    + replace (i - pos)%nat with (S (i - S pos)) by lia. auto.
Qed.
Definition written (b b' : buffer) (pos : nat) (s : cstr) : Prop :=
  length b' = length b /\ forall i, nth_error b' i = if (i <? pos)%nat then nth_error b i else if (i <? pos + length s)%nat then nth_error s (i - pos)
    else if (i =? pos + length s)%nat then Some 0 else nth_error b i.
Lemma strcpy_spec b pos s : (pos + length s < length b)%nat -> exists b', strcpy b pos s = Ok b' /\ written b b' pos s.
Proof.
  intros L. unfold strcpy. destruct (store_spec (s ++ [0]) b pos) as (b' & E & Lb & N); [rewrite app_length; cbn; lia|]. exists b'. split; auto. split; auto. intros i. rewrite N, app_length. cbn [length].
  destruct (Nat.ltb_spec i pos); auto. destruct (Nat.ltb_spec i (pos + length s)), (Nat.ltb_spec i (pos + (length s + 1))), (Nat.eqb_spec i (pos + length s)); try lia; auto.
  - now rewrite nth_error_app1 by lia.
  - rewrite nth_error_app2 by lia. now replace (i - pos - length s)%nat with 0%nat by lia.
Qed.
Lemma realize_aux_spec h p s : denotes h p s -> exists depth, forall fuel, (depth <= fuel)%nat -> forall b pos, (pos + length s < length b)%nat ->
  exists b', realize_aux fuel h b pos p = Ok (b', (pos + length s)%nat) /\ written b b' pos s.
Proof.
  induction 1 as [p s L T H|p v s L Lv T|p a b s t L Da [da IHa] Db [db IHb]].
  - exists 1%nat. intros [|fuel] F bf pos Lb; [lia|]. cbn [realize_aux]. unfold type_of, chars. rewrite L. cbn [bind]. destruct (Z.ltb_spec (hd 0 s) 128); [|lia].
    destruct (strcpy_spec bf pos s Lb) as (b' & E & W). rewrite E. cbn [bind]. eauto.
  - exists 1%nat. intros [|fuel] F bf pos Lb; [lia|]. cbn [realize_aux]. unfold type_of, constant_value, chars. rewrite L. cbn -[strcpy]. rewrite Lv. cbn [bind].
    destruct (strcpy_spec bf pos s Lb) as (b' & E & W). rewrite E. cbn [bind]. eauto.
  - exists (S (da + db)). intros [|fuel] F bf pos Lb; [lia|]. cbn [realize_aux]. unfold type_of. rewrite L. cbn. rewrite app_length in *.
    destruct (IHa fuel ltac:(lia) bf pos ltac:(lia)) as (b1 & E1 & L1 & W1). rewrite E1. cbn [bind].
    destruct (IHb fuel ltac:(lia) b1 (pos + length s)%nat ltac:(lia)) as (b2 & E2 & L2 & W2). rewrite E2. exists b2. split; [do 2 f_equal; lia|]. split; [congruence|].
    intros i. rewrite W2, W1, app_length.
    destruct (Nat.ltb_spec i (pos + length s)), (Nat.ltb_spec i pos), (Nat.ltb_spec i (pos + length s + length t)), (Nat.ltb_spec i (pos + (length s + length t))), (Nat.eqb_spec i (pos + length s + length t)), (Nat.eqb_spec i (pos + (length s + length t))), (Nat.eqb_spec i (pos + length s)); try lia; auto.
    + now rewrite nth_error_app1 by lia.
    + rewrite nth_error_app2 by lia. f_equal. lia.
    + rewrite nth_error_app2 by lia. f_equal. lia.
Qed.
(** realize_string fills the first bytes of a large enough buffer with the text
    and a NUL and touches nothing after it. *)
Theorem C34_realize : forall h p s, denotes h p s -> exists depth, forall fuel, (depth <= fuel)%nat ->
  forall b, (length s < length b)%nat -> realize_string fuel h b p = Ok (s ++ 0 :: skipn (S (length s)) b).
Proof.
  intros h p s D. destruct (realize_aux_spec h p s D) as (d & R). exists d. intros fuel F b L. unfold realize_string. rewrite wr_Ok by lia. cbn [bind].
  rewrite (denotes_audit h p s D). cbn [bind negb]. destruct (R fuel F (upd b 0 0) 0%nat) as (b' & E & Lb & W); [rewrite upd_length; lia|]. rewrite E. cbn [bind]. rewrite upd_length in Lb.
  cbn [Nat.add] in *. rewrite wr_Ok by lia. f_equal. apply nth_error_ext. intros i. rewrite nth_error_upd, W, nth_error_upd. rewrite Nat.sub_0_r.
  assert (SK : nth_error (s ++ 0 :: skipn (S (length s)) b) i = if (i <? length s)%nat then nth_error s i else if (i =? length s)%nat then Some 0 else nth_error b i).
  { destruct (Nat.ltb_spec i (length s)); [now rewrite nth_error_app1|]. rewrite nth_error_app2 by auto. destruct (Nat.eqb_spec i (length s)) as [->|N]; [now rewrite Nat.sub_diag|].
    destruct (i - length s)%nat as [|k] eqn:Ek; [lia|]. cbn [nth_error]. rewrite <- (firstn_skipn (S (length s)) b) at 2. rewrite nth_error_app2; rewrite firstn_length; [|lia]. f_equal. lia. }
  rewrite SK. destruct (Nat.ltb_spec i 0); [lia|].
  destruct (Nat.eqb_spec (length s) i), (Nat.ltb_spec i (length s)), (Nat.eqb_spec i (length s)), (Nat.eqb_spec 0 i), (Nat.ltb_spec i (length b')), (Nat.ltb_spec i (length b)); try lia; auto.
Qed.
Print Assumptions C34_realize.

Theorem C34_print : forall h p s, denotes h p s -> exists depth, forall fuel, (depth <= fuel)%nat -> print_string fuel h p = Ok s.
Proof.
  intros h p s D. assert (P : exists depth, forall fuel, (depth <= fuel)%nat -> print_aux fuel h p = Ok s).
  { induction D as [p s L T H|p v s L Lv T|p a b s t L Da [da IHa] Db [db IHb]].
    - exists 1%nat. intros [|fuel] F; [lia|]. cbn [print_aux]. unfold type_of, chars. rewrite L. cbn [bind]. destruct (Z.ltb_spec (hd 0 s) 128); auto; lia.
    - exists 1%nat. intros [|fuel] F; [lia|]. cbn [print_aux]. unfold type_of, constant_value, chars. rewrite L. cbn. now rewrite Lv.
    - exists (S (da + db)). intros [|fuel] F; [lia|]. cbn [print_aux]. unfold type_of. rewrite L. cbn. rewrite IHa, IHb by lia. auto. }
  destruct P as [d P]. exists d. intros fuel F. unfold print_string. rewrite (denotes_audit h p s D). cbn [bind negb]. auto.
Qed.
Print Assumptions C34_print.

Lemma subst_total h stub u p s : denotes h p s -> exists r, substituted h stub u p r.
Proof.
  induction 1 as [p s L T H|p v s L Lv T|p a b s t L Da [ra IHa] Db [rb IHb]]; (destruct (Nat.eq_dec p stub) as [->|N]; [exists u; constructor|]).
  - exists s. apply sub_leaf; auto; [congruence|now apply den_raw].
  - exists s. apply sub_leaf; auto; [congruence|eapply den_constant; eauto].
  - exists (ra ++ rb). eapply sub_conc; eauto.
Qed.
Lemma load_inj h p o o' : load h p = Ok o -> load h p = Ok o' -> o = o'. Proof. congruence. Qed.
Lemma subst_spec h stub u p s : denotes h p s -> forall r, substituted h stub u p r -> exists depth, forall fuel, (depth <= fuel)%nat ->
  forall h1 sub, extends h h1 -> denotes h1 sub u -> exists h2 q, subst_string fuel h1 sub stub p = Ok (h2, q) /\ extends h1 h2 /\ denotes h2 q r.
Proof.
  intros D. induction D as [p s L T H|p v s L Lv T|p a b s t L Da IHa Db IHb]; intros r R.
  - exists 1%nat. intros [|fuel] F h1 sub X Ds; [lia|]. cbn [subst_string]. inversion R as [E1 E2|? ? N NC Dr E1 E2|? ? ? ? ? N Lc Ra Rb E1 E2]; subst.
    + rewrite Nat.eqb_refl. exists h1, sub. ands; auto using extends_refl.
    + destruct (Nat.eqb_spec p stub); [contradiction|]. unfold type_of. rewrite (load_extends _ _ _ _ X L). cbn [bind].
      destruct (Z.eqb_spec (hd 0 s) CONC_STRING) as [Q|Q]; [unfold CONC_STRING in Q; lia|]. exists h1, p. ands; auto using extends_refl. eapply denotes_extends; eauto.
    + rewrite L in Lc. discriminate.
  - exists 1%nat. intros [|fuel] F h1 sub X Ds; [lia|]. cbn [subst_string]. inversion R as [E1 E2|? ? N NC Dr E1 E2|? ? ? ? ? N Lc Ra Rb E1 E2]; subst.
    + rewrite Nat.eqb_refl. exists h1, sub. ands; auto using extends_refl.
    + destruct (Nat.eqb_spec p stub); [contradiction|]. unfold type_of. rewrite (load_extends _ _ _ _ X L). cbn.
      exists h1, p. ands; auto using extends_refl. eapply denotes_extends; eauto.
    + rewrite L in Lc. discriminate.
  - inversion R as [E1 E2|? ? N NC Dr E1 E2|? a' b' ra rb N Lc Ra Rb E1 E2]; subst.
    + exists 1%nat. intros [|fuel] F h1 sub X Ds; [lia|]. cbn [subst_string]. rewrite Nat.eqb_refl. exists h1, sub. ands; auto using extends_refl.
    + exfalso. eapply NC; eauto.
    + rewrite L in Lc. injection Lc as <- <-. destruct (IHa _ Ra) as [da Pa], (IHb _ Rb) as [db Pb]. exists (S (da + db)). intros [|fuel] F h1 sub X Ds; [lia|]. cbn [subst_string].
      destruct (Nat.eqb_spec p stub); [contradiction|]. unfold type_of. rewrite (load_extends _ _ _ _ X L). cbn.
      destruct (Pa fuel ltac:(lia) h1 sub X Ds) as (h2 & qa & E2 & X2 & D2). rewrite E2. cbn [bind].
      destruct (Pb fuel ltac:(lia) h2 sub (extends_trans _ _ _ X X2) (denotes_extends _ _ _ _ X2 Ds)) as (h3 & qb & E3 & X3 & D3). rewrite E3. cbn [bind].
      pose proof (extends_trans _ _ _ X2 X3) as X13. pose proof (denotes_extends _ _ _ _ X3 D2) as D2'.
      destruct (Nat.eqb_spec qa a) as [->|Na]; [destruct (Nat.eqb_spec qb b) as [->|Nb]|]; cbn [andb].
      * exists h3, p. ands; auto. eapply den_conc; eauto. eapply load_extends; [|exact L]. apply (extends_trans _ _ _ X X13).
      * destruct (C34_conc h3 _ _ _ _ D2' D3) as (h4 & q & E4 & X4 & D4). exists h4, q. ands; auto. apply (extends_trans _ _ _ X13 X4).
      * destruct (C34_conc h3 _ _ _ _ D2' D3) as (h4 & q & E4 & X4 & D4). exists h4, q. ands; auto. apply (extends_trans _ _ _ X13 X4).
Qed.
(** substitute_string replaces exactly the occurrences of the stub in the subject,
    leaving every existing string as it was. *)
Theorem C34_substitute : forall h sub stub p u w s, denotes h sub u -> denotes h stub w -> denotes h p s ->
  exists r depth, substituted h stub u p r /\ (forall r', substituted h stub u p r' -> r' = r) /\
  forall fuel, (depth <= fuel)%nat -> exists h' q, substitute_string fuel h sub stub p = Ok (h', q) /\ extends h h' /\ denotes h' q r.
Proof.
  intros h sub stub p u w s Du Dw Ds. destruct (subst_total h stub u p s Ds) as [r R]. destruct (subst_spec h stub u p s Ds r R) as [d P]. exists r, d. split; auto. split.
  - intros r' R'. destruct (subst_spec h stub u p s Ds r' R') as [d' P']. destruct (P (d + d')%nat ltac:(lia) h sub (extends_refl h) Du) as (h1 & q1 & E1 & _ & D1).
    destruct (P' (d + d')%nat ltac:(lia) h sub (extends_refl h) Du) as (h2 & q2 & E2 & _ & D2). rewrite E1 in E2. injection E2 as <- <-. eapply denotes_det; eauto.
  - intros fuel F. unfold substitute_string. rewrite (denotes_audit _ _ _ Du), (denotes_audit _ _ _ Dw), (denotes_audit _ _ _ Ds). cbn [bind negb]. apply P; auto using extends_refl.
Qed.
Print Assumptions C34_substitute.
(** Where char is unsigned a text whose first byte is 128 is not recognised. *)
Theorem C34_unsigned_char_refuted : exists h s l, text l /\ load h s = Ok (Chars l) /\
  exists h' p, make_string false h s = Ok (h', p) /\ forall fuel, (1 <= fuel)%nat -> string_length fuel h' p = Ok 0 /\ l <> [].
Proof.
  exists [Chars [128; 65]], 1%nat, [128; 65]. ands; auto; [repeat constructor; lia|]. eexists _, _. split; [reflexivity|]. intros [|fuel] F; [lia|]. split; [reflexivity|discriminate].
Qed.
Print Assumptions C34_unsigned_char_refuted.

(** A shared rope with a stub on both sides. *)
Example C34_case : exists h p q r, conc_string (heap0 ++ [Chars [97; 98]; Constant 6; Chars [200]; Constant 8]) 7 9 = Ok (h, p) /\ conc_string h p p = Ok (r, q) /\
  print_string 9 r q = Ok [97; 98; 200; 97; 98; 200] /\
  match substitute_string 9 r empty_string 9 q with Ok (h', q') => print_string 9 h' q' = Ok [97; 98; 97; 98] | _ => False end.
Proof. eexists _, _, _, _. split; [reflexivity|]. split; [reflexivity|]. split; vm_compute; reflexivity. Qed.

(** ** C35: no integer string can be read. *)
Theorem C35_integer_string_refuted : forall h n base h' p fuel b, 2 <= base <= 36 -> make_integer_string h n base = (h', p) -> (1 <= fuel)%nat -> b <> [] ->
  string_length fuel h' p = UB /\ realize_string fuel h' b p = UB /\ print_string fuel h' p = UB.
Proof.
  intros h n base h' p [|fuel] b HB E F Nb; [lia|]. unfold make_integer_string in E.
  destruct (Z.leb_spec 2 base), (Z.leb_spec base 36); try lia. cbn [andb] in E. injection E as <- <-.
  assert (TY : type_of (h ++ [IntObj CONSTANT_STRING base n]) (S (length h)) = Ok CONSTANT_STRING) by (unfold type_of; rewrite load_new; auto).
  assert (AU : audit (h ++ [IntObj CONSTANT_STRING base n]) (S (length h)) = Ok true) by (unfold audit; rewrite TY; auto).
  assert (CV : constant_value (h ++ [IntObj CONSTANT_STRING base n]) (S (length h)) = UB) by (unfold constant_value; rewrite load_new; auto).
  ands.
  - cbn [string_length]. rewrite AU. cbn [bind negb]. rewrite TY. cbn [bind]. cbn. now rewrite CV.
  - unfold realize_string. destruct b as [|c b]; [contradiction|]. cbn [wr length Nat.ltb Nat.leb bind]. rewrite AU. cbn [bind negb realize_aux]. rewrite TY. cbn. now rewrite CV.
  - unfold print_string. rewrite AU. cbn [bind negb print_aux]. rewrite TY. cbn. now rewrite CV.
Qed.
Print Assumptions C35_integer_string_refuted.

(** Even with the intended type byte the digits come out backwards, zero is
    empty, and digits above nine are ten letters too far. *)
Theorem C35_intended_tag_refuted :
  print_string 9 [IntObj INTEGER_STRING 10 120] 1 = Ok [48; 50; 49] /\
  print_string 9 [IntObj INTEGER_STRING 10 0] 1 = Ok [] /\
  print_string 9 [IntObj INTEGER_STRING 16 10] 1 = Ok [107].
Proof. vm_compute. ands; reflexivity. Qed.
Print Assumptions C35_intended_tag_refuted.

(** Bases outside 2..36 give the error string. *)
Theorem C35_bad_base : forall h n base, ~ 2 <= base <= 36 -> make_integer_string h n base = (h, error_string).
Proof. intros h n base H. unfold make_integer_string. destruct (Z.leb_spec 2 base), (Z.leb_spec base 36); auto; lia. Qed.
Print Assumptions C35_bad_base.
