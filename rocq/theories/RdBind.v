(** * Binding of programs: proofs. *)

Require Import List Arith Lia Bool Ascii String Permutation.
Import ListNotations.
Require Import Verif.LxModel Verif.RdModel Verif.RdSpec Verif.RdProofs.
Local Open Scope list_scope.

(** ** Scopes *)
Section DeclInd.
  Variable P : decl -> Prop.
  Hypothesis H : forall nm pb body, (forall d, In d body -> P d) -> P (Decl nm pb body).
  Fixpoint decl_ind' (d : decl) : P d :=
    let '(Decl nm pb body) := d in
    H nm pb body
      ((fix go (ds : list decl) : forall d, In d ds -> P d :=
          match ds with
          | nil => fun d X => match X with end
          | x :: xs => fun d X => match X with or_introl E => eq_ind x P (decl_ind' x) d E | or_intror Y => go xs d Y end
          end) body).
End DeclInd.

Lemma own_items : forall p d sc, own p d sc = rev (map (pair p) (all_names d)) ++ sc.
Proof.
  intros p d. induction d as [nm pb body IH] using decl_ind'. intro sc. cbn [own all_names].
  set (sc1 := match nm with Some k => (p, k) :: sc | None => sc end).
  assert (G : forall ds, (forall d, In d ds -> forall sc, own p d sc = rev (map (pair p) (all_names d)) ++ sc) ->
    forall sc, (fix owns (ds : list decl) (sc : scope) : scope :=
       match ds with nil => sc | x :: xs => owns xs (own p x sc) end) ds sc =
     rev (map (pair p) (flat_map all_names ds)) ++ sc).
  { induction ds as [|x xs IHx]; intros Hx sc0; [reflexivity|].
    rewrite IHx by (intros d Hd; apply Hx; right; exact Hd).
    rewrite (Hx x (or_introl eq_refl)). cbn [flat_map]. rewrite map_app, rev_app_distr, app_assoc. reflexivity. }
  rewrite (G body IH). rewrite map_app, rev_app_distr, <- app_assoc. f_equal.
  unfold sc1. destruct nm; reflexivity.
Qed.

Lemma pub_items : forall p d sc, pub p d sc = rev (map (pair p) (public_names d)) ++ sc.
Proof.
  intros p d. induction d as [nm pb body IH] using decl_ind'. intro sc. cbn [pub public_names].
  destruct pb; [|reflexivity].
  set (sc1 := match nm with Some k => (p, k) :: sc | None => sc end).
  assert (G : forall ds, (forall d, In d ds -> forall sc, pub p d sc = rev (map (pair p) (public_names d)) ++ sc) ->
    forall sc, (fix pubs (ds : list decl) (sc : scope) : scope :=
       match ds with nil => sc | x :: xs => pubs xs (pub p x sc) end) ds sc =
     rev (map (pair p) (flat_map public_names ds)) ++ sc).
  { induction ds as [|x xs IHx]; intros Hx sc0; [reflexivity|].
    rewrite IHx by (intros d Hd; apply Hx; right; exact Hd).
    rewrite (Hx x (or_introl eq_refl)). cbn [flat_map]. rewrite map_app, rev_app_distr, app_assoc. reflexivity. }
  rewrite (G body IH). rewrite map_app, rev_app_distr, <- app_assoc. f_equal.
  unfold sc1. destruct nm; reflexivity.
Qed.

Lemma public_items : forall p us sc, public_bindings p us sc = rev (map (pair p) (exported us)) ++ sc.
Proof.
  intros p us. unfold exported. induction us as [|[s|d] us IH]; intro sc; cbn [public_bindings flat_map]; [reflexivity| |].
  - exact (IH sc).
  - rewrite IH, pub_items, map_app, rev_app_distr, app_assoc. reflexivity.
Qed.

(** ** The states *)
Definition progs (st : bst) : list prog := r_progs (b_read st).
Definition pids (st : bst) : list nat := map p_id (progs st).

Record BInv (st : bst) : Prop := {
  v_read : Inv (b_read st);
  v_bound : incl (b_bound st) (pids st);
  v_once : NoDup (b_bound st);
  v_basic : b_bound st <> nil -> exists q, In q (progs st) /\ p_name q = chars "basic"
}.

Record Ext (st st' : bst) : Prop := {
  x_inv : BInv st';
  x_progs : exists np, progs st' = progs st ++ np;
  x_new : exists nb nd, b_bound st' = nb ++ b_bound st /\ b_done st' = nd ++ b_done st /\
            Permutation nb (map fst nd)
}.

(** All programs read in between are bound. *)
Definition all_bound (st st' : bst) : Prop :=
  forall q, In q (progs st') -> ~ In q (progs st) -> In (p_id q) (b_bound st').

Lemma ext_refl : forall st, BInv st -> Ext st st.
Proof.
  intros st H. constructor; [exact H|exists nil; rewrite app_nil_r; reflexivity|].
  exists nil, nil. split; [reflexivity|]. split; [reflexivity|constructor].
Qed.

Lemma ext_trans : forall a b c, Ext a b -> Ext b c -> Ext a c.
Proof.
  intros a b c [_ [n1 P1] [nb1 [nd1 [B1 [D1 M1]]]]] [HI [n2 P2] [nb2 [nd2 [B2 [D2 M2]]]]].
  constructor; [exact HI|exists (n1 ++ n2); rewrite P2, P1, app_assoc; reflexivity|].
  exists (nb2 ++ nb1), (nd2 ++ nd1).
  split; [rewrite B2, B1, app_assoc; reflexivity|]. split; [rewrite D2, D1, app_assoc; reflexivity|].
  rewrite map_app. apply Permutation_app; assumption.
Qed.

Lemma ext_in : forall a b q, Ext a b -> In q (progs a) -> In q (progs b).
Proof. intros a b q [_ [np E] _] H. rewrite E. apply in_or_app. left. exact H. Qed.

Lemma ext_bound : forall a b q, Ext a b -> In q (b_bound a) -> In q (b_bound b).
Proof. intros a b q [_ _ [nb [nd [E _]]]] H. rewrite E. apply in_or_app. right. exact H. Qed.

Lemma ext_size : forall a b, Ext a b -> List.length (b_bound a) <= List.length (b_bound b).
Proof. intros a b [_ _ [nb [nd [E _]]]]. rewrite E, app_length. lia. Qed.

Lemma prog_eq_dec : forall (st : bst) q, In q (progs st) \/ ~ In q (progs st).
Proof.
  intros st q.
  assert (D : forall a b : prog, {a = b} + {a <> b}).
  { assert (Dd : forall a b : decl, {a = b} + {a <> b}).
    { fix go 1. intros [n1 p1 b1] [n2 p2 b2].
      destruct (bool_dec p1 p2) as [<-|N]; [|right; congruence].
      assert (O : {n1 = n2} + {n1 <> n2}) by (decide equality; apply Nat.eq_dec).
      destruct O as [<-|N]; [|right; congruence].
      destruct (list_eq_dec go b1 b2) as [<-|N]; [left; reflexivity|right; congruence]. }
    assert (Du : forall a b : unit_, {a = b} + {a <> b}).
    { decide equality. apply (list_eq_dec ascii_dec). }
    decide equality; [apply (list_eq_dec Du)|apply (list_eq_dec ascii_dec)|apply Nat.eq_dec]. }
  destruct (in_dec D q (progs st)); [left|right]; assumption.
Qed.

Lemma all_bound_trans : forall a b c, Ext b c -> all_bound a b -> all_bound b c -> all_bound a c.
Proof.
  intros a b c X H1 H2 q Hq Hn. destruct (prog_eq_dec b q) as [Hb|Hb].
  - exact (ext_bound b c _ X (H1 q Hb Hn)).
  - exact (H2 q Hq Hb).
Qed.

(** Finding a program. *)
Lemma bfind_ext : forall e st n, BInv st ->
  match bfind e st n with
  | BFuel => False
  | BStop s => s <> Overflow
  | BOk q st' => Ext st st' /\ In q (progs st') /\ b_bound st' = b_bound st /\ b_done st' = b_done st /\
      (progs st' = progs st \/
       progs st' = progs st ++ [q] /\ forall p, In p (progs st) -> p_name p <> n)
  end.
Proof.
  intros e st n [A B C D]. unfold bfind. pose proof (find_general e (b_read st) n A) as H.
  destruct (find_program e (b_read st) n) as [q r|s]; [|exact H].
  destruct H as [HI [Hin HC]].
  assert (HP : r_progs r = progs st \/ r_progs r = progs st ++ [q] /\ forall p, In p (progs st) -> p_name p <> n).
  { destruct HC as [[E _]|[E [NF _]]]; [left; exact E|right; split; [exact E|exact NF]]. }
  assert (HS : forall x, In x (progs st) -> In x (r_progs r)).
  { intros x Hx. destruct HP as [E|[E _]]; rewrite E; [exact Hx|apply in_or_app; left; exact Hx]. }
  split; [|split; [exact Hin|split; [reflexivity|split; [reflexivity|exact HP]]]].
  constructor; [|destruct HP as [E|[E _]]; [exists nil|exists [q]]; unfold progs at 1; cbn [b_read]; rewrite E;
     [rewrite app_nil_r|]; reflexivity|exists nil, nil; split; [reflexivity|split; [reflexivity|constructor]]].
  constructor; cbn [b_read b_bound]; [exact HI| |exact C|].
  - intros x Hx. specialize (B x Hx). unfold pids, progs in *. cbn [b_read].
    apply in_map_iff in B. destruct B as [y [Ey Hy]]. apply in_map_iff. exists y. split; [exact Ey|exact (HS y Hy)].
  - intro N. destruct (D N) as [y [Hy Ey]]. exists y. split; [exact (HS y Hy)|exact Ey].
Qed.

(** ** Every program is bound once *)
Definition bind_ok (e : env) (bind : bst -> prog -> bres unit) (k : nat) : Prop :=
  forall st p, BInv st -> In p (progs st) ->
  match bind st p with
  | BFuel => k + List.length (b_bound st) <= max_programs
  | BStop s => s <> Overflow
  | BOk _ st' => Ext st st' /\ all_bound st st' /\ In (p_id p) (b_bound st')
  end.

Lemma bindings_ok : forall e bind k, bind_ok e bind k ->
  forall p us st sc, BInv st ->
  match bindings bind e p us st sc with
  | BFuel => k + List.length (b_bound st) <= max_programs
  | BStop s => s <> Overflow
  | BOk _ st' => Ext st st' /\ all_bound st st'
  end.
Proof.
  intros e bind k HB p us. induction us as [|[s|d] us IH]; intros st sc HV; cbn [bindings].
  - split; [exact (ext_refl st HV)|]. intros q Hq N. contradiction.
  - pose proof (bfind_ext e st (with_name s) HV) as HF.
    destruct (bfind e st (with_name s)) as [q st1|x|]; [|exact HF|destruct HF].
    destruct HF as [X1 [Hq [EB [_ HP]]]].
    pose proof (HB st1 q (x_inv _ _ X1) Hq) as HB1.
    destruct (bind st1 q) as [[] st2|x|]; [|exact HB1|rewrite EB in HB1; exact HB1].
    destruct HB1 as [X2 [A2 Bq]].
    specialize (IH st2 (public_bindings (p_id q) (p_units q) sc) (x_inv _ _ X2)).
    destruct (bindings bind e p us st2 (public_bindings (p_id q) (p_units q) sc)) as [sc' st3|x|]; [|exact IH|].
    + destruct IH as [X3 A3].
      pose proof (ext_trans _ _ _ X1 X2) as X12. split; [exact (ext_trans _ _ _ X12 X3)|].
      apply (all_bound_trans st st2 st3 X3); [|exact A3].
      intros r Hr N. destruct (prog_eq_dec st1 r) as [H1|H1]; [|exact (A2 r Hr H1)].
      destruct HP as [E|[E _]]; rewrite E in H1; [contradiction|].
      apply in_app_or in H1. destruct H1 as [H1|[<-|[]]]; [contradiction|exact Bq].
    + pose proof (ext_size _ _ (ext_trans _ _ _ X1 X2)). lia.
  - exact (IH st _ HV).
Qed.

Lemma bound_size : forall st p, BInv st -> In p (progs st) -> ~ In (p_id p) (b_bound st) ->
  List.length (b_bound st) < max_programs.
Proof.
  intros st p [A B C _] Hp N.
  assert (L : List.length (p_id p :: b_bound st) <= List.length (pids st)).
  { apply NoDup_incl_length; [constructor; assumption|]. intros x [<-|Hx]; [apply in_map; exact Hp|exact (B x Hx)]. }
  unfold pids in L. rewrite map_length in L. pose proof (i_max _ A). unfold progs in L. cbn [List.length] in L. lia.
Qed.

Lemma bind_program_ok : forall e f, bind_ok e (bind_program f e) f.
Proof.
  intro e. induction f as [|f IH]; intros st p HV Hp.
  - cbn [bind_program Nat.add].
    destruct HV as [A B C _].
    assert (L : List.length (b_bound st) <= List.length (pids st)) by (apply NoDup_incl_length; assumption).
    unfold pids in L. rewrite map_length in L. pose proof (i_max _ A). unfold progs in L. lia.
  - cbn [bind_program].
    pose proof (bfind_ext e st (chars "basic") HV) as HF.
    destruct (bfind e st (chars "basic")) as [basic st1|x|] eqn:EF; [|exact HF|destruct HF].
    destruct HF as [X1 [Hb [EB [ED HP]]]]. pose proof (x_inv _ _ X1) as HV1.
    pose proof (ext_in _ _ p X1 Hp) as Hp1.
    assert (Nb : p_name basic = chars "basic").
    { unfold bind_ok in IH. unfold bfind in EF. pose proof (find_general e (b_read st) (chars "basic") (v_read _ HV)) as G.
      destruct (find_program e (b_read st) (chars "basic")) as [q r|x]; [|discriminate EF].
      injection EF as -> _. destruct G as [_ [_ [[_ G]|[_ [_ [_ [G _]]]]]]]; [exact G|].
      rewrite G. apply filebase_plain. intro Y. cbn in Y.
      repeat (destruct Y as [Y|Y]; [discriminate Y|]). exact Y. }
    destruct (existsb (Nat.eqb (p_id p)) (b_bound st1)) eqn:EX.
    + apply existsb_exists in EX. destruct EX as [y [Hy Ey]]. apply Nat.eqb_eq in Ey. subst y.
      split; [exact X1|]. split; [|exact Hy].
      intros q Hq N. destruct HP as [E|[E NF]]; [rewrite E in Hq; contradiction|].
      exfalso. rewrite EB in Hy. destruct (v_basic _ HV) as [z [Hz Ez]]; [intro Z; rewrite Z in Hy; exact Hy|].
      exact (NF z Hz Ez).
    + assert (Np : ~ In (p_id p) (b_bound st1)).
      { intro Y. assert (existsb (Nat.eqb (p_id p)) (b_bound st1) = true); [|congruence].
        apply existsb_exists. exists (p_id p). split; [exact Y|apply Nat.eqb_refl]. }
      pose proof (bound_size st1 p HV1 Hp1 Np) as SZ. rewrite EB in SZ.
      cbv zeta.
      set (st2 := {| b_read := b_read st1; b_bound := p_id p :: b_bound st1; b_done := b_done st1 |}).
      assert (HV2 : BInv st2).
      { destruct HV1 as [A B C D]. constructor; cbn [st2 b_read b_bound]; [exact A| |constructor; assumption|].
        - intros x [<-|Hx]; [apply in_map; exact Hp1|exact (B x Hx)].
        - intros _. exists basic. split; [exact Hb|exact Nb]. }
      assert (FIN : forall st3, Ext st2 st3 -> all_bound st2 st3 ->
        (p_id basic = p_id p \/ In (p_id basic) (b_bound st3)) ->
        forall sc, match (match bindings (bind_program f e) e (p_id p) (p_units p) st3 sc with
              | BStop x => BStop x | BFuel => BFuel
              | BOk sc' st' =>
                  BOk tt {| b_read := b_read st'; b_bound := b_bound st'; b_done := (p_id p, sc') :: b_done st' |}
              end) with
        | BFuel => S f + List.length (b_bound st) <= max_programs
        | BStop s => s <> Overflow
        | BOk _ st' => Ext st st' /\ all_bound st st' /\ In (p_id p) (b_bound st')
        end).
      { intros st3 X3 A3 Hbb sc.
        pose proof (bindings_ok e (bind_program f e) f IH (p_id p) (p_units p) st3 sc (x_inv _ _ X3)) as HB.
        destruct (bindings (bind_program f e) e (p_id p) (p_units p) st3 sc) as [sc' st4|x|]; [|exact HB|].
        2:{ pose proof (ext_size _ _ X3) as Z. cbn [st2 b_bound List.length] in Z. rewrite EB in Z. lia. }
        destruct HB as [X4 A4]. pose proof (ext_trans _ _ _ X3 X4) as X24.
        split; [|split].
        - destruct X24 as [V4 [np P4] [nb [nd [B4 [D4 M4]]]]]. cbn [st2 b_bound b_done] in B4, D4.
          constructor; [destruct V4 as [A B C D]; constructor; assumption| |].
          + destruct HP as [E|[E _]].
            * exists np. change (progs st4 = progs st ++ np). rewrite P4. change (progs st2) with (progs st1). rewrite E. reflexivity.
            * exists (basic :: np). change (progs st4 = progs st ++ basic :: np). rewrite P4.
              change (progs st2) with (progs st1). rewrite E, <- app_assoc. reflexivity.
          + exists (nb ++ [p_id p]), ((p_id p, sc') :: nd). cbn [b_bound b_done].
            split; [rewrite B4, EB, <- app_assoc; reflexivity|].
            split; [rewrite D4, ED; reflexivity|]. cbn [map fst].
            apply Permutation_sym, Permutation_cons_app. rewrite app_nil_r. apply Permutation_sym. exact M4.
        - intros q Hq N. cbn [b_bound] in *. change (In q (progs st4)) in Hq.
          destruct (prog_eq_dec st2 q) as [H2|H2].
          + change (In q (progs st1)) in H2. destruct HP as [E|[E _]]; rewrite E in H2; [contradiction|].
            apply in_app_or in H2. destruct H2 as [H2|[<-|[]]]; [contradiction|].
            destruct Hbb as [Hbb|Hbb]; [|exact (ext_bound _ _ _ X4 Hbb)].
            rewrite Hbb. apply (ext_bound _ _ _ X24). left. reflexivity.
          + exact (all_bound_trans st2 st3 st4 X4 A3 A4 q Hq H2).
        - cbn [b_bound]. apply (ext_bound _ _ _ X24). left. reflexivity. }
      destruct (Nat.eqb_spec (p_id basic) (p_id p)) as [Ebp|Nbp].
      * apply (FIN st2 (ext_refl _ HV2)); [intros q Hq N; contradiction|left; exact Ebp].
      * pose proof (IH st2 basic HV2 Hb) as HB.
        destruct (bind_program f e st2 basic) as [[] st3|x|]; [|exact HB|].
        -- destruct HB as [X3 [A3 Bb]]. apply (FIN st3 X3 A3). right. exact Bb.
        -- cbn [st2 b_bound List.length] in HB. rewrite EB in HB. lia.
Qed.

(** ** Scopes, when names have no directories *)
Definition plain_env (e : env) : Prop :=
  forall path us s, e_fs e path = Some (File us) -> In (UWith s) us -> plain (with_name s).

(** The programs named by with are among [ps]. *)
Definition withs_in (ps : list prog) (us : list unit_) : Prop :=
  forall s, In (UWith s) us -> exists q, In q ps /\ p_name q = with_name s.

Definition scope_ok (e : env) (ps : list prog) (en : nat * scope) : Prop :=
  exists p items, In p ps /\ p_id p = fst en /\ in_scope e (p_name p) items /\
    Forall2 (entry ps) items (rev (snd en)) /\ withs_in ps (p_units p).

Record GInv (e : env) (n0 : text) (st : bst) : Prop := {
  w_inv : BInv st;
  w_good : Good e (b_read st);
  w_needed : forall q, In q (progs st) -> needed e n0 (p_name q);
  w_done : forall en, In en (b_done st) -> scope_ok e (progs st) en
}.

Lemma entry_mono : forall ps np its ens, Forall2 (entry ps) its ens -> Forall2 (entry (ps ++ np)) its ens.
Proof.
  intros ps np its ens H. induction H as [|it en its ens [E [q [Hq X]]] H IH]; constructor; [|exact IH].
  split; [exact E|]. exists q. split; [apply in_or_app; left; exact Hq|exact X].
Qed.

Lemma scope_ok_mono : forall e ps np en, scope_ok e ps en -> scope_ok e (ps ++ np) en.
Proof.
  intros e ps np en [p [items [H1 [H2 [H3 [H4 H5]]]]]]. exists p, items.
  split; [apply in_or_app; left; exact H1|]. split; [exact H2|]. split; [exact H3|].
  split; [apply entry_mono; exact H4|]. intros s Hs. destruct (H5 s Hs) as [q [Hq Eq]].
  exists q. split; [apply in_or_app; left; exact Hq|exact Eq].
Qed.

Lemma entries_of : forall ps q ks, In q ps ->
  Forall2 (entry ps) (map (pair (p_name q)) ks) (map (pair (p_id q)) ks).
Proof.
  intros ps q ks H. induction ks as [|k ks IH]; cbn [map]; constructor; [|exact IH].
  split; [reflexivity|]. exists q. split; [exact H|split; reflexivity].
Qed.

Lemma plain_with : forall e p s, plain_env e -> contents e (p_name p) (p_units p) -> In (UWith s) (p_units p) ->
  plain (with_name s).
Proof.
  intros e p s HE [path [b [d [a [_ [_ [[_ F] _]]]]]]] H. exact (HE _ _ _ F H).
Qed.

Lemma bfind_good : forall e n0 st n q st', GInv e n0 st -> plain n -> needed e n0 n ->
  bfind e st n = BOk q st' -> GInv e n0 st' /\ Ext st st' /\ In q (progs st') /\ p_name q = n /\
    b_bound st' = b_bound st /\ b_done st' = b_done st.
Proof.
  intros e n0 st n q st' [HV HG HN HD] HP Hn H.
  pose proof (bfind_ext e st n HV) as X. rewrite H in X. destruct X as [X [Hq [EB [ED HPr]]]].
  unfold bfind in H. destruct (find_program e (b_read st) n) as [q' r|s] eqn:F; [|discriminate H].
  injection H as <- <-.
  destruct (find_good e (b_read st) n q' r HG HP F) as [HG' [_ [En _]]].
  split; [|split; [exact X|split; [exact Hq|split; [exact En|split; reflexivity]]]].
  constructor; [exact (x_inv _ _ X)|exact HG'| |].
  - intros y Hy. destruct HPr as [E|[E _]]; rewrite E in Hy; [exact (HN y Hy)|].
    apply in_app_or in Hy. destruct Hy as [Hy|[<-|[]]]; [exact (HN y Hy)|rewrite En; exact Hn].
  - cbn [b_done]. intros en He. destruct (x_progs _ _ X) as [np E]. rewrite E. apply scope_ok_mono. exact (HD en He).
Qed.

Definition bind_good (e : env) (n0 : text) (bind : bst -> prog -> bres unit) : Prop :=
  forall st p st', GInv e n0 st -> In p (progs st) -> bind st p = BOk tt st' -> GInv e n0 st' /\ Ext st st'.

Lemma bindings_good : forall e n0 bind, plain_env e -> bind_good e n0 bind ->
  forall p us st sc sc' st', GInv e n0 st -> In p (progs st) ->
  (forall u, In u us -> In u (p_units p)) ->
  bindings bind e (p_id p) us st sc = BOk sc' st' ->
  GInv e n0 st' /\ Ext st st' /\
  exists bs ens, Forall2 (brings e (p_name p)) us bs /\ sc' = rev ens ++ sc /\
    Forall2 (entry (progs st')) (List.concat bs) ens /\ withs_in (progs st') us.
Proof.
  intros e n0 bind HE HB p us. induction us as [|u us IH]; intros st sc sc' st' HG Hp HU H; cbn [bindings] in H.
  - injection H as <- <-. split; [exact HG|]. split; [exact (ext_refl _ (w_inv _ _ _ HG))|].
    exists nil, nil. split; [constructor|]. split; [reflexivity|]. split; [constructor|intros s []].
  - assert (HU' : forall u', In u' us -> In u' (p_units p)) by (intros u' Hu; apply HU; right; exact Hu).
    pose proof (g_units _ _ (w_good _ _ _ HG) p Hp) as HC.
    destruct u as [s|d].
    + destruct (bfind e st (with_name s)) as [q st1|x|] eqn:F; [|discriminate H|discriminate H].
      assert (Hw : In (UWith s) (p_units p)) by (apply HU; left; reflexivity).
      destruct (bfind_good e n0 st (with_name s) q st1 HG (plain_with e p s HE HC Hw)
        (Needed_with e n0 (p_name p) (p_units p) s (w_needed _ _ _ HG p Hp) HC Hw) F) as [G1 [X1 [Hq [En _]]]].
      destruct (bind st1 q) as [[] st2|x|] eqn:B; [|discriminate H|discriminate H].
      destruct (HB st1 q st2 G1 Hq B) as [G2 X2]. pose proof (ext_trans _ _ _ X1 X2) as X12.
      destruct (IH st2 _ sc' st' G2 (ext_in _ _ p X12 Hp) HU' H) as [G3 [X3 [bs [ens [K1 [K2 [K3 K4]]]]]]].
      split; [exact G3|]. split; [exact (ext_trans _ _ _ X12 X3)|].
      pose proof (ext_in _ _ q X2 Hq) as Hq2.
      pose proof (g_units _ _ (w_good _ _ _ G2) q Hq2) as HCq. rewrite En in HCq.
      exists (map (pair (with_name s)) (exported (p_units q)) :: bs), (map (pair (p_id q)) (exported (p_units q)) ++ ens).
      split; [constructor; [constructor; exact HCq|exact K1]|]. split.
      * rewrite K2, public_items, rev_app_distr, app_assoc. reflexivity.
      * split.
        -- cbn [List.concat]. apply Forall2_app; [|exact K3]. rewrite <- En. apply entries_of.
           exact (ext_in _ _ q X3 Hq2).
        -- intros s' [Es|Hs]; [|exact (K4 s' Hs)]. injection Es as <-. exists q.
           split; [exact (ext_in _ _ q X3 Hq2)|exact En].
    + destruct (IH st _ sc' st' HG Hp HU' H) as [G3 [X3 [bs [ens [K1 [K2 [K3 K4]]]]]]].
      split; [exact G3|]. split; [exact X3|].
      exists (map (pair (p_name p)) (all_names d) :: bs), (map (pair (p_id p)) (all_names d) ++ ens).
      split; [constructor; [constructor|exact K1]|]. split.
      * rewrite K2, own_items, rev_app_distr, app_assoc. reflexivity.
      * split.
        -- cbn [List.concat]. apply Forall2_app; [|exact K3]. apply entries_of. exact (ext_in _ _ p X3 Hp).
        -- intros s' [Es|Hs]; [discriminate Es|exact (K4 s' Hs)].
Qed.

Lemma basic_plain : plain (chars "basic").
Proof. intro Y. cbn in Y. repeat (destruct Y as [Y|Y]; [discriminate Y|]). exact Y. Qed.

Lemma bind_program_good : forall e n0 f, plain_env e -> bind_good e n0 (bind_program f e).
Proof.
  intros e n0 f HE. induction f as [|f IH]; intros st p st' HG Hp H; [discriminate H|].
  assert (HX : Ext st st').
  { pose proof (bind_program_ok e (S f) st p (w_inv _ _ _ HG) Hp) as X. rewrite H in X. exact (proj1 X). }
  split; [|exact HX].
  cbn [bind_program] in H.
  destruct (bfind e st (chars "basic")) as [basic st1|x|] eqn:F; [|discriminate H|discriminate H].
  destruct (bfind_good e n0 st _ basic st1 HG basic_plain (Needed_basic e n0) F) as [G1 [X1 [Hb [En [EB ED]]]]].
  pose proof (ext_in _ _ p X1 Hp) as Hp1.
  destruct (existsb (Nat.eqb (p_id p)) (b_bound st1)) eqn:EX; [injection H as <-; exact G1|].
  cbv zeta in H.
  set (st2 := {| b_read := b_read st1; b_bound := p_id p :: b_bound st1; b_done := b_done st1 |}) in *.
  assert (Np : ~ In (p_id p) (b_bound st1)).
  { intro Y. assert (existsb (Nat.eqb (p_id p)) (b_bound st1) = true); [|congruence].
    apply existsb_exists. exists (p_id p). split; [exact Y|apply Nat.eqb_refl]. }
  assert (G2 : GInv e n0 st2).
  { destruct G1 as [[A B C D] HG1 HN HD]. constructor; [|exact HG1|exact HN|exact HD].
    constructor; cbn [st2 b_read b_bound]; [exact A| |constructor; assumption|].
    - intros y [<-|Hy]; [apply in_map; exact Hp1|exact (B y Hy)].
    - intros _. exists basic. split; [exact Hb|exact En]. }
  assert (FIN : forall st3 sc basics ens0, GInv e n0 st3 -> Ext st2 st3 ->
    (p_name p = chars "basic" /\ basics = nil \/
     p_name p <> chars "basic" /\ exists bus, contents e (chars "basic") bus /\
       basics = map (pair (chars "basic")) (exported bus)) ->
    sc = rev ens0 -> Forall2 (entry (progs st3)) basics ens0 ->
    match bindings (bind_program f e) e (p_id p) (p_units p) st3 sc with
              | BStop x => BStop x | BFuel => BFuel
              | BOk sc' st' =>
                  BOk tt {| b_read := b_read st'; b_bound := b_bound st'; b_done := (p_id p, sc') :: b_done st' |}
              end = BOk tt st' -> GInv e n0 st').
  { intros st3 sc basics ens0 G3 X3 HBs Esc Hens K.
    destruct (bindings (bind_program f e) e (p_id p) (p_units p) st3 sc) as [sc' st4|x|] eqn:EB4; [|discriminate K|discriminate K].
    injection K as <-.
    pose proof (ext_in _ _ p X3 Hp1) as Hp3.
    destruct (bindings_good e n0 _ HE IH p (p_units p) st3 sc sc' st4 G3 Hp3 (fun u Hu => Hu) EB4)
      as [G4 [X4 [bs [ens [K1 [K2 [K3 K4]]]]]]].
    destruct G4 as [V4 GG4 HN4 HD4]. constructor; [exact (x_inv _ _ HX)|exact GG4|exact HN4|].
    intros en [<-|Hen]; [|exact (HD4 en Hen)]. change (progs _) with (progs st4).
    pose proof (ext_in _ _ p X4 Hp3) as Hp4.
    exists p, (basics ++ List.concat bs). split; [exact Hp4|]. split; [reflexivity|]. split.
    - exists (p_units p), bs, basics. split; [exact (g_units _ _ GG4 p Hp4)|]. split; [exact K1|]. split; [exact HBs|reflexivity].
    - split; [|exact K4].
      cbn [snd]. rewrite K2, Esc, rev_app_distr, !rev_involutive. apply Forall2_app; [|exact K3].
      destruct (x_progs _ _ X4) as [np E4]. rewrite E4. apply entry_mono. exact Hens. }
  destruct (Nat.eqb_spec (p_id basic) (p_id p)) as [Ebp|Nbp].
  - pose proof (ids_inj (b_read st1) basic p (v_read _ (w_inv _ _ _ G1)) Hb Hp1 Ebp) as ->.
    apply (FIN st2 nil nil nil G2 (ext_refl _ (w_inv _ _ _ G2)));
      [left; split; [exact En|reflexivity]|reflexivity|constructor|exact H].
  - destruct (bind_program f e st2 basic) as [[] st3|x|] eqn:B3; [|discriminate H|discriminate H].
    destruct (IH st2 basic st3 G2 Hb B3) as [G3 X3].
    pose proof (ext_in _ _ basic X3 Hb) as Hb3.
    apply (FIN st3 (public_bindings (p_id basic) (p_units basic) nil) (map (pair (chars "basic")) (exported (p_units basic))) (map (pair (p_id basic)) (exported (p_units basic))) G3 X3);
      [right; split| | |exact H].
    + intro Y. apply Nbp. f_equal. apply (names_inj e (b_read st1) basic p (w_good _ _ _ G1) Hb Hp1). congruence.
    + exists (p_units basic). split; [|reflexivity]. rewrite <- En. exact (g_units _ _ (w_good _ _ _ G3) basic Hb3).
    + rewrite public_items. apply app_nil_r.
    + rewrite <- En. apply entries_of. exact Hb3.
Qed.
