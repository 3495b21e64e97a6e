(** * DyText: the generator writes texts of programs, and texts determine programs. *)
From Verif Require Import Base DyModel DySpec.
From Coq Require Import Lia.

(** ** Induction over statements *)
Lemma stmt_ind2 : forall P : stmt -> Prop,
  (forall l r, P (SAssign l r)) ->
  (forall c t f, Forall P t -> Forall P f -> P (SIf c t f)) ->
  (forall e ms df, Forall (fun m => Forall P (snd m)) ms -> Forall P df -> P (SCase e ms df)) ->
  (forall e ms, Forall (fun m => Forall P (snd m)) ms -> P (SFor e ms)) ->
  (forall x e b, Forall P b -> P (SForIn x e b)) ->
  (forall x a i, P (SLocal x a i)) -> P SOther -> forall s, P s.
Proof.
  intros P HA HI HC HF HN HL HO.
  fix IH 1. intros [l r|c t f|e ms df|e ms|x e b|x a i|]; [apply HA|apply HI|apply HC|apply HF|apply HN|apply HL|apply HO].
  - induction t; constructor; auto.
  - induction f; constructor; auto.
  - induction ms as [|[p b] ms IHm]; constructor; auto. simpl. induction b; constructor; auto.
  - induction df; constructor; auto.
  - induction ms as [|[p b] ms IHm]; constructor; auto. simpl. induction b; constructor; auto.
  - induction b; constructor; auto.
Qed.

Section GEN.
Context (d : decl) (col : bool).

(** What the generator makes of a statement *)
Fixpoint comp (s : stmt) : list prog :=
  if negb (mentions d s) then []
  else match s with
  | SAssign (LValue _) r => [if col then PCollect None r else PReturn None r]
  | SAssign (LAttr _ n) r => [if col then PCollect (Some n) r else PReturn (Some n) r]
  | SAssign LOther _ => []
  | SIf c t f =>
      [PIf c ((if mentions_in d t then [(true, flat_map comp t)] else []) ++
              (if mentions_in d f then [(false, flat_map comp f)] else []))]
  | SCase e ms df =>
      [PMatch e (flat_map (fun m => if mentions_in d (snd m) then [(fst m, flat_map comp (snd m))] else []) ms)
                (if mentions_in d df then Some (flat_map comp df) else None)]
  | SFor _ _ => []
  | SForIn x e b => [PForIn x e (flat_map comp b)]
  | SLocal x _ (Some e) => [PVar x e]
  | SLocal _ _ None => []
  | SOther => []
  end.
Definition comp_block (b : list stmt) : list prog := flat_map comp b.

Definition gen_ok (g g' : gst) (toks : list token) (rel : bool) : Prop :=
  if rel then g' = {| g_ctx := g_ctx g; g_started := length (g_ctx g);
                      g_out := g_out g ++ flat_map open_ctx (skipn (g_started g) (g_ctx g)) ++ toks |}
  else g' = g.

(** [attr_context] is not too long *)
Definition wf (g : gst) : Prop := g_started g <= length (g_ctx g) /\ length (g_ctx g) <= MAXDEPTH.

Definition good (o : res gst) (g : gst) (toks : list token) (rel : bool) (n : nat) : Prop :=
  match o with
  | Ok g' => gen_ok g g' toks rel /\ length (g_ctx g) + n <= MAXDEPTH
  | Exit => MAXDEPTH < length (g_ctx g) + n
  | _ => False
  end.

Lemma text_flat : forall b, (fix block (b : list prog) : list token :=
    match b with [] => [] | q :: r => text q ++ block r end) b = text_block b.
Proof. unfold text_block. induction b as [|q b IH]; simpl; [reflexivity|rewrite IH; reflexivity]. Qed.

Lemma pop_open : forall C c out,
  pop {| g_ctx := C ++ [c]; g_started := length (C ++ [c]); g_out := out |} =
  {| g_ctx := C; g_started := length C; g_out := out ++ close_ctx c |}.
Proof.
  intros C c out. unfold pop. cbn [g_ctx g_started g_out]. rewrite app_length. simpl.
  replace (length C + 1 - 1) with (length C) by lia.
  rewrite firstn_app, firstn_all, Nat.sub_diag. simpl. rewrite app_nil_r.
  rewrite (firstn_all2 (n := length C + 1)) by (rewrite app_length; simpl; lia).
  rewrite skipn_app, skipn_all, Nat.sub_diag. simpl. rewrite app_nil_r, Nat.min_r by lia. reflexivity.
Qed.

Lemma pop_closed : forall C c s out, s <= length C ->
  pop {| g_ctx := C ++ [c]; g_started := s; g_out := out |} =
  {| g_ctx := C; g_started := s; g_out := out |}.
Proof.
  intros C c s out H. unfold pop. cbn [g_ctx g_started g_out]. rewrite app_length. simpl.
  replace (length C + 1 - 1) with (length C) by lia.
  rewrite firstn_app, firstn_all, Nat.sub_diag. simpl. rewrite app_nil_r, Nat.min_l by lia.
  rewrite (skipn_all2 (n := length C)) by (rewrite firstn_length; lia). simpl. rewrite app_nil_r. reflexivity.
Qed.

Lemma activate_good : forall g t, wf g ->
  gen_ok g (put t (activate g)) [t] true.
Proof. intros g t H. unfold gen_ok, put, activate. cbn. rewrite <- app_assoc. reflexivity. Qed.

(** a piece of code within a context *)
Lemma in_context : forall (f : gst -> res gst) c toks rel n g,
  wf g ->
  (forall g, wf g -> good (f g) g toks rel n) ->
  good (g <- push c g ;; g <- f g ;; Ok (pop g)) g
    (if rel then open_ctx c ++ toks ++ close_ctx c else []) rel (1 + n).
Proof.
  intros f c toks rel n g (S & SL) F. unfold push.
  destruct (Nat.leb_spec MAXDEPTH (length (g_ctx g))); [simpl; lia|]. cbn [bind].
  set (g1 := {| g_ctx := g_ctx g ++ [c]; g_started := g_started g; g_out := g_out g |}).
  assert (S1 : wf g1) by (subst g1; unfold wf; cbn; rewrite app_length; simpl; lia).
  pose proof (F g1 S1) as G. unfold good in *. subst g1.
  match type of G with context[f ?x] => destruct (f x) as [g2| | |] eqn:E end; cbn [bind]; cbn [g_ctx] in G;
    try (rewrite app_length in G; simpl in G); try lia; try tauto.
  destruct G as (G & L). split; [|lia]. unfold gen_ok in *. destruct rel.
  - subst g2. cbn [g_ctx g_started g_out]. rewrite pop_open. f_equal.
    rewrite skipn_app. replace (g_started g - length (g_ctx g)) with 0 by lia. simpl.
    rewrite flat_map_app. simpl. rewrite app_nil_r, <- !app_assoc. reflexivity.
  - subst g2. rewrite pop_closed by exact S. destruct g; reflexivity.
Qed.

Lemma good_seq : forall o f g t1 t2 r1 r2 n1 n2,
  wf g ->
  good o g t1 r1 n1 ->
  (r1 = false -> t1 = []) -> (r2 = false -> t2 = []) ->
  (forall g, wf g -> good (f g) g t2 r2 n2) ->
  good (g <- o ;; f g) g (t1 ++ t2) (r1 || r2) (Nat.max n1 n2).
Proof.
  intros o f g t1 t2 r1 r2 n1 n2 (S & SL) G Z1 Z2 F. unfold good in *.
  destruct o as [g1| | |]; cbn [bind]; try tauto; [|lia].
  destruct G as (G & L).
  assert (C1 : g_ctx g1 = g_ctx g) by (unfold gen_ok in G; destruct r1; subst g1; reflexivity).
  assert (S1 : wf g1).
  { unfold wf. rewrite C1. unfold gen_ok in G; destruct r1; subst g1; cbn; lia. }
  specialize (F g1 S1). rewrite C1 in F.
  destruct (f g1) as [g2| | |]; try tauto; [|lia].
  destruct F as (F & L2). split; [|lia]. unfold gen_ok in *.
  destruct r1, r2; cbn [orb].
  - subst g2 g1. cbn [g_ctx g_started g_out]. rewrite skipn_all. simpl. rewrite <- !app_assoc. reflexivity.
  - rewrite (Z2 eq_refl), app_nil_r. congruence.
  - rewrite (Z1 eq_refl). subst g1. exact F.
  - congruence.
Qed.

Lemma good_ret : forall g, wf g -> good (Ok g) g [] false 0.
Proof. intros g (S & L). unfold good, gen_ok. split; [reflexivity|lia]. Qed.

Lemma good_eq : forall o g t t' r r' n n', good o g t r n -> t = t' -> r = r' -> n = n' -> good o g t' r' n'.
Proof. intros; subst; assumption. Qed.

Lemma comp_none : forall s, mentions d s = false -> comp s = [].
Proof. intros s H. destruct s; cbn [comp]; rewrite H; reflexivity. Qed.
Lemma comp_block_none : forall b, mentions_in d b = false -> flat_map comp b = [].
Proof.
  unfold mentions_in. induction b as [|s b IH]; simpl; [reflexivity|]. intros H. apply orb_false_iff in H.
  rewrite (comp_none s) by tauto. simpl. apply IH. tauto.
Qed.

Definition stmt_good (s : stmt) : Prop := supported s = true -> forall g, wf g ->
  good (dump_stmt d col s g) g (flat_map text (comp s)) (mentions d s) (depth s).

Lemma block_good : forall b, Forall stmt_good b -> forallb supported b = true -> forall g, wf g ->
  good (dump_Block d col b g) g (text_block (flat_map comp b)) (mentions_in d b) (depth_block b).
Proof.
  induction b as [|s b IH]; intros F SUP g WF; [apply good_ret; exact WF|].
  inversion F as [|? ? F1 F2]; subst. cbn [forallb] in SUP. apply andb_true_iff in SUP. destruct SUP as (S1 & S2).
  cbn [dump_Block depth_block]. unfold mentions_in. cbn [existsb flat_map].
  unfold text_block. rewrite flat_map_app.
  apply good_seq; [exact WF|apply F1; assumption| | |intros; apply IH; assumption].
  - intros H. rewrite (comp_none s H). reflexivity.
  - intros H. rewrite (comp_block_none b H). reflexivity.
Qed.

Lemma block_fix : forall b g,
  (fix dump_Block (b : list stmt) (g : gst) : res gst :=
    match b with
    | [] => Ok g
    | s :: r => g <- dump_stmt d col s g ;; dump_Block r g
    end) b g = dump_Block d col b g.
Proof.
  induction b as [|s b IH]; intros g; [reflexivity|]. cbn [dump_Block].
  destruct (dump_stmt d col s g); cbn [bind]; [apply IH| | |]; reflexivity.
Qed.
Lemma depth_fix : forall b,
  (fix maxl (b : list stmt) : nat := match b with [] => 0 | s :: r => Nat.max (depth s) (maxl r) end) b = depth_block b.
Proof. induction b as [|s b IH]; [reflexivity|]. cbn [depth_block]. rewrite <- IH. reflexivity. Qed.

Fixpoint dump_Matches (ms : list (pat * list stmt)) (g : gst) : res gst :=
  match ms with
  | [] => Ok g
  | (p, b) :: r =>
      g <- push (CMatch p) g ;;
      g <- dump_Block d col b g ;;
      dump_Matches r (pop g)
  end.
Fixpoint depth_matches (ms : list (pat * list stmt)) : nat :=
  match ms with [] => 0 | (_, b) :: r => Nat.max (1 + depth_block b) (depth_matches r) end.
Fixpoint text_alts (l : list (pat * list prog)) : list token :=
  match l with
  | [] => []
  | (p, b) :: r => KCase p :: text_block b ++ KClose :: text_alts r
  end.

Lemma matches_good : forall ms, Forall (fun m => Forall stmt_good (snd m)) ms ->
  forallb (fun m => forallb supported (snd m)) ms = true -> forall g, wf g ->
  good (dump_Matches ms g) g
    (text_alts (flat_map (fun m => if mentions_in d (snd m) then [(fst m, flat_map comp (snd m))] else []) ms))
    (existsb (fun m => mentions_in d (snd m)) ms) (depth_matches ms).
Proof.
  induction ms as [|[p b] ms IH]; intros F SUP g WF; [apply good_ret; exact WF|].
  inversion F as [|? ? F1 F2]; subst. cbn [forallb snd] in SUP, F1. apply andb_true_iff in SUP. destruct SUP as (S1 & S2).
  cbn [dump_Matches depth_matches existsb flat_map snd fst].
  assert (A : forall o f, (g <- o ;; g <- dump_Block d col b g ;; dump_Matches ms (f g)) =
     (g <- (g <- o ;; g <- dump_Block d col b g ;; Ok (f g)) ;; dump_Matches ms g)).
  { intros o f. destruct o as [g1| | |]; cbn [bind]; try reflexivity. destruct (dump_Block d col b g1); reflexivity. }
  rewrite A. clear A.
  eapply good_eq.
  - apply good_seq; [exact WF|
      apply (in_context (dump_Block d col b) (CMatch p) _ _ _ g WF (block_good b F1 S1))| |
      |intros g0 WF0; apply (IH F2 S2 g0 WF0)].
    + intros H. rewrite H. reflexivity.
    + intros H. clear -H. induction ms as [|[q c] ms IH]; [reflexivity|]. simpl in *.
      apply orb_false_iff in H. destruct H as (H1 & H2). rewrite H1. simpl. apply IH. exact H2.
  - destruct (mentions_in d b); simpl; [|reflexivity].
    rewrite <- app_assoc. reflexivity.
  - reflexivity.
  - reflexivity.
Qed.

Lemma matches_fix : forall ms g,
  (fix dump_Matches (ms : list (pat * list stmt)) (g : gst) : res gst :=
    match ms with
    | [] => Ok g
    | (p, b) :: r =>
        g <- push (CMatch p) g ;;
        g <- (fix dump_Block (b : list stmt) (g : gst) : res gst :=
                match b with
                | [] => Ok g
                | s :: r => g <- dump_stmt d col s g ;; dump_Block r g
                end) b g ;;
        dump_Matches r (pop g)
    end) ms g = dump_Matches ms g.
Proof.
  induction ms as [|[p b] ms IH]; intros g; [reflexivity|]. cbn [dump_Matches].
  destruct (push (CMatch p) g) as [g1| | |]; cbn [bind]; try reflexivity. rewrite block_fix.
  destruct (dump_Block d col b g1); cbn [bind]; try reflexivity. apply IH.
Qed.

Lemma alts_fix : forall l, (fix go (l : list (pat * list prog)) : list token :=
         match l with
         | [] => []
         | (p, b) :: r => KCase p :: (fix block (b : list prog) : list token :=
             match b with [] => [] | q :: r => text q ++ block r end) b ++ KClose :: go r
         end) l = text_alts l.
Proof. induction l as [|[p b] l IH]; [reflexivity|]. cbn [text_alts]. rewrite text_flat, <- IH. reflexivity. Qed.

Fixpoint text_arms (l : list (bool * list prog)) : list token :=
  match l with
  | [] => []
  | (t, b) :: r => (if t then KThen else KElse) :: text_block b ++ KClose :: text_arms r
  end.
Lemma arms_fix : forall l, (fix go (l : list (bool * list prog)) : list token :=
         match l with
         | [] => []
         | (t, b) :: r => (if t then KThen else KElse) :: (fix block (b : list prog) : list token :=
             match b with [] => [] | q :: r => text q ++ block r end) b ++ KClose :: go r
         end) l = text_arms l.
Proof. induction l as [|[p b] l IH]; [reflexivity|]. cbn [text_arms]. rewrite text_flat, <- IH. reflexivity. Qed.

Definition opt_alt (df : option (list prog)) : list token :=
  match df with Some b => KDefault :: text_block b ++ [KClose] | None => [] end.

(** the text of compound statements *)
Lemma text_PIf : forall c arms, text (PIf c arms) = KIf c :: text_arms arms ++ [KClose].
Proof. intros. cbn [text]. rewrite arms_fix. reflexivity. Qed.
Lemma text_PMatch : forall e alts df, text (PMatch e alts df) = KMatch e :: text_alts alts ++ opt_alt df ++ [KClose].
Proof.
  intros. cbn [text]. rewrite alts_fix. unfold opt_alt. destruct df; [|reflexivity]. rewrite text_flat. reflexivity.
Qed.
Lemma text_PForIn : forall x e b, text (PForIn x e b) = KForIn x e :: text_block b ++ [KClose].
Proof. intros. cbn [text]. rewrite text_flat. reflexivity. Qed.
Lemma text_PNodes : forall t p b, text (PNodes t p b) = KNodes t :: KCase p :: text_block b ++ [KClose; KSkip; KClose].
Proof. intros. cbn [text]. rewrite text_flat. reflexivity. Qed.
Lemma text_PIfType : forall t p b, text (PIfType t p b) = KIfType t :: KCase p :: text_block b ++ [KClose; KSkip; KClose].
Proof. intros. cbn [text]. rewrite text_flat. reflexivity. Qed.
Lemma text_PAnchor : forall p b, text (PAnchor p b) = KAnchor :: KCase p :: text_block b ++ [KClose; KSkip; KClose].
Proof. intros. cbn [text]. rewrite text_flat. reflexivity. Qed.

Lemma depth_SCase : forall e ms df, depth (SCase e ms df) = 1 + Nat.max (depth_matches ms) (1 + depth_block df).
Proof.
  intros e ms df. cbn [depth].
  assert (M : forall ms, S (Nat.max ((fix go (ms : list (pat * list stmt)) : nat :=
       match ms with [] => 0 | (_, b) :: r => Nat.max
          ((fix maxl (b : list stmt) : nat := match b with [] => 0 | s :: r => Nat.max (depth s) (maxl r) end) b) (go r) end) ms)
       (depth_block df)) = Nat.max (depth_matches ms) (S (depth_block df))).
  { clear ms. induction ms as [|[p b] ms IH]; [simpl; lia|]. cbn [depth_matches]. rewrite depth_fix in *. lia. }
  rewrite depth_fix. specialize (M ms). lia.
Qed.

Lemma bind_assoc : forall (A B C : Type) (o : res A) (f : A -> res B) (k : B -> res C),
  (x <- (y <- o ;; f y) ;; k x) = (y <- o ;; x <- f y ;; k x).
Proof. intros. destruct o; reflexivity. Qed.

Theorem stmt_gen : forall s, stmt_good s.
Proof.
  apply stmt_ind2.
  - intros l r _ g WF. cbn [dump_stmt]. unfold dump_attr_assign.
    destruct l as [d'|d' n|]; cbn [mentions comp depth].
    + destruct (d' =? d); cbn [negb]; [|apply good_ret; exact WF].
      unfold good. split; [|destruct WF; lia].
      destruct col; apply activate_good; exact WF.
    + destruct (d' =? d); cbn [negb]; [|apply good_ret; exact WF].
      unfold good. split; [|destruct WF; lia].
      destruct col; apply activate_good; exact WF.
    + apply good_ret; exact WF.
  - intros c t f FT FF SUP g WF. cbn [supported] in SUP. apply andb_true_iff in SUP. destruct SUP as (S1 & S2).
    assert (E : dump_stmt d col (SIf c t f) g =
      (g <- push (CIf c) g ;;
       g <- (fun g => g <- (g <- push CThen g ;; g <- dump_Block d col t g ;; Ok (pop g)) ;;
             (fun g => g <- push CElse g ;; g <- dump_Block d col f g ;; Ok (pop g)) g) g ;; Ok (pop g))).
    { cbn [dump_stmt]. destruct (push (CIf c) g) as [g1| | |]; cbn [bind]; try reflexivity.
      destruct (push CThen g1) as [g2| | |]; cbn [bind]; try reflexivity. rewrite block_fix.
      destruct (dump_Block d col t g2) as [g3| | |]; cbn [bind]; try reflexivity.
      destruct (push CElse (pop g3)) as [g4| | |]; cbn [bind]; try reflexivity. rewrite block_fix.
      destruct (dump_Block d col f g4); reflexivity. }
    rewrite E. clear E. eapply good_eq.
    + eapply (in_context (fun g => g <- (g <- push CThen g ;; g <- dump_Block d col t g ;; Ok (pop g)) ;;
             (fun g => g <- push CElse g ;; g <- dump_Block d col f g ;; Ok (pop g)) g) (CIf c) _ _ _ g WF). intros g1 WF1.
      eapply good_seq; [exact WF1|
        apply (in_context (dump_Block d col t) CThen _ _ _ g1 WF1 (block_good t FT S1))| | |
        intros g2 WF2; apply (in_context (dump_Block d col f) CElse _ _ _ g2 WF2 (block_good f FF S2))];
        intros H; rewrite H; reflexivity.
    + cbn [comp mentions]. fold (mentions_in d t). fold (mentions_in d f).
      destruct (mentions_in d t), (mentions_in d f); cbn [negb orb flat_map];
        try reflexivity; rewrite text_PIf; cbn [text_arms app open_ctx close_ctx];
        rewrite <- ?app_assoc, ?app_nil_r; cbn [app]; rewrite <- ?app_assoc; reflexivity.
    + reflexivity.
    + cbn [depth]. rewrite (depth_fix t), (depth_fix f). lia.
  - intros e ms df FM FD SUP g WF. cbn [supported] in SUP. apply andb_true_iff in SUP. destruct SUP as (S1 & S2).
    assert (E : dump_stmt d col (SCase e ms df) g =
      (g <- push (CCase e) g ;;
       g <- (fun g => g <- dump_Matches ms g ;;
             (fun g => g <- push CDefault g ;; g <- dump_Block d col df g ;; Ok (pop g)) g) g ;; Ok (pop g))).
    { cbn [dump_stmt]. destruct (push (CCase e) g) as [g1| | |]; cbn [bind]; try reflexivity. rewrite matches_fix.
      destruct (dump_Matches ms g1) as [g3| | |]; cbn [bind]; try reflexivity.
      destruct (push CDefault g3) as [g4| | |]; cbn [bind]; try reflexivity. rewrite block_fix.
      destruct (dump_Block d col df g4); reflexivity. }
    rewrite E. clear E. eapply good_eq.
    + eapply (in_context (fun g => g <- dump_Matches ms g ;;
             (fun g => g <- push CDefault g ;; g <- dump_Block d col df g ;; Ok (pop g)) g) (CCase e) _ _ _ g WF). intros g1 WF1.
      eapply good_seq; [exact WF1|apply (matches_good ms FM S1 g1 WF1)| | |
        intros g2 WF2; apply (in_context (dump_Block d col df) CDefault _ _ _ g2 WF2 (block_good df FD S2))].
      * intros H. clear -H. induction ms as [|[q c] ms IH]; [reflexivity|]. simpl in *.
        apply orb_false_iff in H. destruct H as (H1 & H2). rewrite H1. simpl. apply IH. exact H2.
      * intros H; rewrite H; reflexivity.
    + cbn [comp mentions]. fold (mentions_in d df).
      change (existsb (fun m => existsb (mentions d) (snd m)) ms) with (existsb (fun m => mentions_in d (snd m)) ms).
      destruct (existsb (fun m => mentions_in d (snd m)) ms), (mentions_in d df); cbn [negb orb flat_map]; try reflexivity;
        rewrite text_PMatch; cbn [opt_alt app open_ctx close_ctx];
        rewrite <- ?app_assoc, ?app_nil_r; cbn [app]; rewrite <- ?app_assoc; reflexivity.
    + reflexivity.
    + rewrite depth_SCase. reflexivity.
  - intros e ms _ SUP. discriminate.
  - intros x e b FB SUP g WF. cbn [supported] in SUP.
    assert (E : dump_stmt d col (SForIn x e b) g =
      (g <- push (CForIn x e) g ;; g <- dump_Block d col b g ;; Ok (pop g))).
    { cbn [dump_stmt]. destruct (push (CForIn x e) g) as [g1| | |]; cbn [bind]; try reflexivity. rewrite block_fix. reflexivity. }
    rewrite E. clear E. eapply good_eq.
    + apply (in_context (dump_Block d col b) (CForIn x e) _ _ _ g WF (block_good b FB SUP)).
    + cbn [comp mentions]. fold (mentions_in d b). destruct (mentions_in d b); cbn [negb flat_map]; [|reflexivity].
      rewrite text_PForIn, app_nil_r. cbn [app open_ctx close_ctx]. reflexivity.
    + reflexivity.
    + cbn [depth]. rewrite (depth_fix b). reflexivity.
  - intros x a i SUP g WF. cbn [dump_stmt comp mentions depth supported] in *. destruct a; cbn [negb orb] in *.
    + apply good_ret. exact WF.
    + destruct i as [e|]; [|discriminate]. cbn [dump_local_decl flat_map app text].
      unfold good. split; [|destruct WF; lia]. apply activate_good; exact WF.
  - intros SUP. discriminate.
Qed.

Corollary block_gen : forall b, forallb supported b = true -> forall g, wf g ->
  good (dump_Block d col b g) g (text_block (comp_block b)) (mentions_in d b) (depth_block b).
Proof. intros b S. apply block_good; [|exact S]. apply Forall_forall. intros; apply stmt_gen. Qed.
End GEN.

(** ** Texts determine programs *)
Lemma prog_ind2 : forall P : prog -> Prop,
  (forall g r, P (PReturn g r)) -> (forall g r, P (PCollect g r)) -> (forall x e, P (PVar x e)) ->
  (forall c arms, Forall (fun a => Forall P (snd a)) arms -> P (PIf c arms)) ->
  (forall e alts df, Forall (fun a => Forall P (snd a)) alts ->
     match df with Some b => Forall P b | None => True end -> P (PMatch e alts df)) ->
  (forall x e b, Forall P b -> P (PForIn x e b)) ->
  (forall t p b, Forall P b -> P (PNodes t p b)) ->
  (forall t p b, Forall P b -> P (PIfType t p b)) ->
  (forall p b, Forall P b -> P (PAnchor p b)) -> forall p, P p.
Proof.
  intros P H1 H2 H3 H4 H5 H6 H7 H8 H9. fix IH 1.
  intros [g r|g r|x e|c arms|e alts df|x e b|t p b|t p b|p b];
    [apply H1|apply H2|apply H3|apply H4|apply H5|apply H6|apply H7|apply H8|apply H9].
  - induction arms as [|[p b] ms IHm]; constructor; auto. simpl. induction b; constructor; auto.
  - induction alts as [|[p b] ms IHm]; constructor; auto. simpl. induction b; constructor; auto.
  - destruct df as [b|]; [|exact I]. induction b; constructor; auto.
  - induction b; constructor; auto.
  - induction b; constructor; auto.
  - induction b; constructor; auto.
  - induction b; constructor; auto.
Qed.

(** tokens that end a block *)
Definition stops (l : list token) : Prop :=
  match l with
  | KClose :: _ | KRetColl :: _ | KRetDefault _ :: _ | KThrow :: _ => True
  | _ => False
  end.

Lemma text_head : forall p, exists t l, text p = t :: l /\ forall r, ~ stops (t :: r).
Proof.
  intros p. destruct p as [g0 r0|g0 r0|x0 e0|c0 a0|e0 a0 d0|x0 e0 b0|t0 p0 b0|t0 p0 b0|p0 b0]; try rewrite text_PIf; try rewrite text_PMatch; try rewrite text_PForIn;
    try rewrite text_PNodes; try rewrite text_PIfType; try rewrite text_PAnchor;
    (eexists; eexists; split; [reflexivity|intros r H; exact H]).
Qed.

Definition inj (p : prog) : Prop := forall q r r', text p ++ r = text q ++ r' -> p = q /\ r = r'.

Lemma block_inj : forall b, Forall inj b -> forall b' r r', stops r -> stops r' ->
  text_block b ++ r = text_block b' ++ r' -> b = b' /\ r = r'.
Proof.
  induction b as [|p b IH]; intros F [|q b'] r r' S S' E.
  - auto.
  - exfalso. unfold text_block in E. cbn [flat_map app] in E. destruct (text_head q) as (t & l & T & N).
    rewrite T in E. rewrite <- app_assoc in E. cbn [app] in E. rewrite E in S. exact (N _ S).
  - exfalso. unfold text_block in E. cbn [flat_map app] in E. destruct (text_head p) as (t & l & T & N).
    rewrite T in E. rewrite <- app_assoc in E. cbn [app] in E. rewrite <- E in S'. exact (N _ S').
  - inversion F as [|? ? F1 F2]; subst. unfold text_block in E. cbn [flat_map] in E. rewrite <- !app_assoc in E.
    destruct (F1 _ _ _ E) as (-> & E2). destruct (IH F2 b' r r' S S' E2) as (-> & ->). auto.
Qed.

Lemma arms_inj : forall l, Forall (fun a => Forall inj (snd a)) l -> forall l' r r',
  text_arms l ++ KClose :: r = text_arms l' ++ KClose :: r' -> l = l' /\ r = r'.
Proof.
  induction l as [|[t b] l IH]; intros F [|[t' b'] l'] r r' E; cbn [text_arms app] in E.
  - injection E as ->. auto.
  - destruct t'; discriminate.
  - destruct t; discriminate.
  - inversion F as [|? ? F1 F2]; subst. cbn [snd] in F1.
    assert (T : t = t') by (destruct t, t'; try reflexivity; discriminate). subst t'.
    injection E as E. rewrite <- !app_assoc in E. cbn [app] in E.
    destruct (block_inj b F1 b' (KClose :: text_arms l ++ KClose :: r) (KClose :: text_arms l' ++ KClose :: r') I I E) as (-> & E2).
    injection E2 as E2. destruct (IH F2 l' r r' E2) as (-> & ->). auto.
Qed.

Lemma alts_inj : forall l, Forall (fun a => Forall inj (snd a)) l -> forall df,
  match df with Some b => Forall inj b | None => True end -> forall l' df' r r',
  text_alts l ++ opt_alt df ++ KClose :: r = text_alts l' ++ opt_alt df' ++ KClose :: r' ->
  l = l' /\ df = df' /\ r = r'.
Proof.
  induction l as [|[t b] l IH]; intros F df FD [|[t' b'] l'] df' r r' E; cbn [text_alts app] in E.
  - destruct df as [b|], df' as [b'|]; cbn [opt_alt app] in E; try discriminate.
    + injection E as E. rewrite <- !app_assoc in E. cbn [app] in E.
      destruct (block_inj b FD b' (KClose :: KClose :: r) (KClose :: KClose :: r') I I E) as (-> & E2).
      injection E2 as ->. auto.
    + injection E as ->. auto.
  - destruct df as [b|]; discriminate.
  - destruct df' as [b'|]; discriminate.
  - inversion F as [|? ? F1 F2]; subst. cbn [snd] in F1. injection E as <- E.
    rewrite <- !app_assoc in E. cbn [app] in E.
    destruct (block_inj b F1 b' (KClose :: text_alts l ++ opt_alt df ++ KClose :: r)
      (KClose :: text_alts l' ++ opt_alt df' ++ KClose :: r') I I E) as (-> & E2).
    injection E2 as E2. destruct (IH F2 df FD l' df' r r' E2) as (-> & -> & ->). auto.
Qed.

Ltac texts := rewrite ?text_PIf, ?text_PMatch, ?text_PForIn, ?text_PNodes, ?text_PIfType, ?text_PAnchor in *;
  cbn [text app] in *.

Theorem text_inj : forall p, inj p.
Proof.
  apply prog_ind2.
  - intros g r q s s' E. destruct q; texts; try discriminate. injection E as -> -> ->. auto.
  - intros g r q s s' E. destruct q; texts; try discriminate. injection E as -> -> ->. auto.
  - intros x e q s s' E. destruct q; texts; try discriminate. injection E as -> -> ->. auto.
  - intros c arms F q s s' E. destruct q; texts; try discriminate. injection E as <- E.
    rewrite <- !app_assoc in E. cbn [app] in E. destruct (arms_inj arms F _ _ _ E) as (-> & ->). auto.
  - intros e alts df F FD q s s' E. destruct q; texts; try discriminate. injection E as <- E.
    rewrite <- !app_assoc in E. cbn [app] in E. destruct (alts_inj alts F df FD _ _ _ _ E) as (-> & -> & ->). auto.
  - intros x e b F q s s' E. destruct q; texts; try discriminate. injection E as <- <- E.
    rewrite <- !app_assoc in E. cbn [app] in E.
    destruct (block_inj b F _ (KClose :: s) (KClose :: s') I I E) as (-> & E2). injection E2 as ->. auto.
  - intros t p b F q s s' E. destruct q; texts; try discriminate. injection E as <- <- E.
    rewrite <- !app_assoc in E. cbn [app] in E.
    destruct (block_inj b F _ (KClose :: KSkip :: KClose :: s) (KClose :: KSkip :: KClose :: s') I I E) as (-> & E2). injection E2 as ->. auto.
  - intros t p b F q s s' E. destruct q; texts; try discriminate. injection E as <- <- E.
    rewrite <- !app_assoc in E. cbn [app] in E.
    destruct (block_inj b F _ (KClose :: KSkip :: KClose :: s) (KClose :: KSkip :: KClose :: s') I I E) as (-> & E2). injection E2 as ->. auto.
  - intros p b F q s s' E. destruct q; texts; try discriminate. injection E as <- E.
    rewrite <- !app_assoc in E. cbn [app] in E.
    destruct (block_inj b F _ (KClose :: KSkip :: KClose :: s) (KClose :: KSkip :: KClose :: s') I I E) as (-> & E2). injection E2 as ->. auto.
Qed.

Lemma blocks_inj : forall b b' r r', stops r -> stops r' ->
  text_block b ++ r = text_block b' ++ r' -> b = b' /\ r = r'.
Proof. intros b. apply block_inj. apply Forall_forall. intros; apply text_inj. Qed.

Lemma stops_end : forall e r, stops (text_end e :: r).
Proof. intros [| |] r; exact I. Qed.
Lemma text_end_inj : forall e e', text_end e = text_end e' -> e = e'.
Proof. intros [|x|] [|y|] H; try discriminate; [reflexivity|injection H as ->; reflexivity|reflexivity]. Qed.

Theorem func_inj : forall f f', text_func f = text_func f' -> f = f'.
Proof.
  intros [s b e] [s' b' e'] E. unfold text_func in E. cbn [f_start f_body f_end] in *.
  assert (PLAIN : forall b e r, text_block b ++ [text_end e; KClose] = r ->
     match r with KSelf :: _ | KParent :: _ | KColl _ :: _ => False | _ => True end).
  { clear. intros b e r <-. destruct b as [|p b]; [destruct e; exact I|]. unfold text_block. cbn [flat_map].
    destruct p; texts; exact I. }
  assert (EQ : text_block b ++ [text_end e; KClose] = text_block b' ++ [text_end e'; KClose] -> b = b' /\ e = e').
  { intros Q. destruct (blocks_inj b b' _ _ (stops_end e _) (stops_end e' _) Q) as (-> & R).
    injection R as R. apply text_end_inj in R. auto. }
  destruct s as [| | |i]; destruct s' as [| | |i']; try discriminate; injection E as E;
    try (destruct (PLAIN _ _ _ E)); try (symmetry in E; destruct (PLAIN _ _ _ E)); try discriminate.
  - destruct (EQ E) as (-> & ->). reflexivity.
  - destruct (EQ E) as (-> & ->). reflexivity.
  - destruct (blocks_inj b b' (KClose :: [text_end e; KClose]) (KClose :: [text_end e'; KClose]) I I E) as (-> & R).
    injection R as R. apply text_end_inj in R. subst. reflexivity.
  - subst i'. match goal with H : _ = _ |- _ => destruct (EQ H) as (-> & ->) end. reflexivity.
Qed.

(** Local attributes: the number of closing braces after the end says how many
    matches there are. *)
Definition is_end (t : token) : bool :=
  match t with KRetColl | KRetDefault _ | KThrow => true | _ => false end.
Lemma no_end : forall p, existsb is_end (text p) = false.
Proof.
  assert (B : forall b, Forall (fun p => existsb is_end (text p) = false) b -> existsb is_end (text_block b) = false).
  { induction 1 as [|p b F _ IH]; [reflexivity|]. unfold text_block in *. cbn [flat_map]. rewrite existsb_app, F, IH. reflexivity. }
  apply prog_ind2; intros; texts; cbn [existsb is_end orb]; try reflexivity;
    rewrite ?existsb_app; rewrite ?B by assumption; try reflexivity.
  - cbn [existsb is_end orb]. rewrite orb_false_r.
    induction H as [|[t b] l F _ IH]; [reflexivity|]. cbn [text_arms]. destruct t; cbn [existsb is_end orb];
      rewrite existsb_app; cbn [existsb is_end orb snd] in *; rewrite (B b F), IH; reflexivity.
  - cbn [existsb is_end orb]. rewrite orb_false_r.
    assert (A : existsb is_end (text_alts alts) = false).
    { clear H0. induction H as [|[t b] l F _ IH]; [reflexivity|]. cbn [text_alts existsb is_end orb];
      rewrite existsb_app; cbn [existsb is_end orb snd] in *; rewrite (B b F), IH; reflexivity. }
    rewrite A. destruct df as [b|]; [|reflexivity]. cbn [opt_alt existsb is_end orb]. rewrite existsb_app, (B b H0). reflexivity.
Qed.
Lemma no_end_block : forall b, existsb is_end (text_block b) = false.
Proof. induction b as [|p b IH]; [reflexivity|]. unfold text_block in *. cbn [flat_map]. rewrite existsb_app, no_end, IH. reflexivity. Qed.

Lemma split_end : forall l l' t t' r r', existsb is_end l = false -> existsb is_end l' = false ->
  is_end t = true -> is_end t' = true -> l ++ t :: r = l' ++ t' :: r' -> l = l' /\ t = t' /\ r = r'.
Proof.
  induction l as [|x l IH]; intros [|y l'] t t' r r' N N' T T' E; cbn [app existsb] in *.
  - injection E as -> ->. auto.
  - injection E as -> E. rewrite T in N'. discriminate.
  - injection E as -> E. rewrite T' in N. discriminate.
  - injection E as -> E. apply orb_false_iff in N, N'.
    destruct (IH l' t t' r r' ltac:(tauto) ltac:(tauto) T T' E) as (-> & -> & ->). auto.
Qed.

Theorem lfunc_inj : forall f f', text_lfunc f = text_lfunc f' -> f = f'.
Proof.
  intros [p l i b e] [p' l' i' b' e'] E. unfold text_lfunc in E. cbn [l_pat l_path l_init l_body l_end] in E.
  injection E as <- E.
  assert (ET : forall e, is_end (text_end e) = true) by (intros [| |]; reflexivity).
  assert (NP : forall l, existsb is_end (flat_map (fun s : expr * pat => [KMatch (fst s); KCase (snd s)]) l) = false).
  { clear. induction l as [|[x y] l IH]; [reflexivity|]. cbn [flat_map app existsb is_end orb]. exact IH. }
  assert (NI : forall i, existsb is_end (match i with Some e => [KColl e] | None => [] end) = false) by (intros [|]; reflexivity).
  rewrite !app_assoc in E.
  apply split_end in E; [|rewrite !existsb_app, NP, NI, no_end_block; reflexivity|rewrite !existsb_app, NP, NI, no_end_block; reflexivity|apply ET|apply ET].
  destruct E as (E & EE & EC). apply text_end_inj in EE. subst e'.
  assert (LEN : forall l : list (expr * pat), length (flat_map (fun _ => [KClose; KClose]) l ++ [KClose; KClose; KClose]) = 2 * length l + 3).
  { clear. induction l as [|x l IH]; [reflexivity|]. cbn [flat_map app length] in *. lia. }
  assert (L : length l = length l').
  { apply (f_equal (@length token)) in EC. rewrite !LEN in EC. lia. }
  clear EC LEN. rewrite <- !app_assoc in E. revert l' L E. induction l as [|[x y] l IH]; intros [|[x' y'] l'] L E; try discriminate.
  - cbn [flat_map app] in E.
    assert (H : forall b b' : list prog, text_block b = text_block b' -> b = b').
    { clear. intros b b' Q. apply (f_equal (fun z => z ++ [KThrow])) in Q. apply (blocks_inj b b' [KThrow] [KThrow] I I Q). }
    assert (HC : forall x b r, KColl x :: r = text_block b -> False).
    { clear. intros x b r Q. destruct b as [|q b]; [discriminate|]. unfold text_block in Q. cbn [flat_map] in Q.
      destruct q; texts; discriminate. }
    destruct i as [x|], i' as [x'|]; cbn [app] in E.
    + injection E as <- E. apply H in E. subst b'. reflexivity.
    + destruct (HC _ _ _ E).
    + symmetry in E. destruct (HC _ _ _ E).
    + apply H in E. subst b'. reflexivity.
  - cbn [flat_map app fst snd] in E. injection E as <- <- E. injection L as L.
    specialize (IH l' L E). injection IH as -> -> ->. reflexivity.
Qed.
