(** * PropsSymbol: C33 (parse/symbol.c). *)
From Verif Require Import Base SymbolModel SymbolProofs.
Open Scope Z_scope.

(** ** C33: in every history of calls after init_symbols, with final table [t]. *)
Theorem C33_interned : forall symbols size ops t ans, 0 < symbols -> 0 < size ->
  srun symbols size symtab0 (Init :: ops) = Ok (t, 0 :: ans) ->
  let name := symbol_name symbols size t in
  length ans = length ops /\
  (** every nonzero answer is a symbol, with a number in range, that number and the symbol being inverse *)
  (forall i a, nth_error ans i = Some a -> a <> 0 ->
     (exists s, name a = Ok s) /\ 0 <= symbol_id symbols size a < 4000 /\ id_symbol symbols size (symbol_id symbols size a) = a) /\
  (** symbols are equal exactly when their names are *)
  (forall i j a b, nth_error ans i = Some a -> nth_error ans j = Some b -> a <> 0 -> b <> 0 -> (a = b <-> name a = name b)) /\
  (** intern returns a symbol with the given name *)
  (forall i s a, nth_error ops i = Some (Intern s) -> nth_error ans i = Some a -> a <> 0 /\ name a = Ok s) /\
  (** find returns the symbol of that name returned earlier, NULL if there is none *)
  (forall i s a, nth_error ops i = Some (Find s) -> nth_error ans i = Some a ->
     (a <> 0 /\ name a = Ok s /\ exists j, (j < i)%nat /\ nth_error ans j = Some a) \/
     (a = 0 /\ forall j b, (j < i)%nat -> nth_error ans j = Some b -> b <> 0 -> name b <> Ok s)) /\
  (** gensym returns a symbol never returned before *)
  (forall i a, nth_error ops i = Some Gensym -> nth_error ans i = Some a -> a <> 0 /\ forall j, (j < i)%nat -> nth_error ans j <> Some a).
Proof.
  intros symbols size ops t ans Hs Hz E name. cbn in E.
  pose proof (srun_inv symbols size Hs Hz ops (init_symbols symtab0) eq_refl eq_refl eq_refl) as S.
  destruct (srun symbols size (init_symbols symtab0) ops) as [[t' l]| | |]; cbn in E; try discriminate. injection E as -> ->.
  destruct S as [[I G Z A] L].
  assert (SY : forall a s, is_sym symbols size (names t) a s -> a <> 0 /\ name a = Ok s /\ 0 <= symbol_id symbols size a < 4000 /\ id_symbol symbols size (symbol_id symbols size a) = a).
  { intros a s (k & Ek & ->). pose proof (NUM_pos symbols size Hs Hz (Z.of_nat k)). unfold name. rewrite name_NUM, id_NUM by (auto; try lia; apply I).
    unfold rd. rewrite Ek. assert (k < length (names t))%nat by (apply nth_error_Some; congruence). pose proof (ti_len _ I). pose proof MAX_val. unfold id_symbol. ands; auto; lia. }
  assert (YS : forall i a, nth_error ans i = Some a -> a <> 0 -> exists s, is_sym symbols size (names t) a s).
  { intros i a Ei Na. destruct (Z i a Ei); [contradiction|auto]. }
  ands; auto.
  - intros i a Ei Na. destruct (YS i a Ei Na) as (s & Q). destruct (SY a s Q) as (_ & N & R & D). ands; eauto; apply R.
  - intros i j a b Ei Ej Na Nb. split; [intros ->; auto|]. destruct (YS i a Ei Na) as (s & Qa), (YS j b Ej Nb) as (u & Qb).
    rewrite (proj1 (proj2 (SY a s Qa))), (proj1 (proj2 (SY b u Qb))). intros [= <-]. destruct Qa as (k & Ek & ->), Qb as (k' & Ek' & ->). do 2 f_equal.
    pose proof (ti_nodup _ I) as ND. rewrite NoDup_nth_error in ND. apply ND; [apply nth_error_Some|]; congruence.
  - intros i s a Eo Ei. specialize (G i). unfold good_at in G. rewrite Eo, Ei in G. destruct (SY a s G) as (? & ? & _). auto.
  - intros i s a Eo Ei. specialize (G i). unfold good_at in G. rewrite Eo, Ei in G. destruct G as [(Q & J)|(-> & J)]; [left; destruct (SY a s Q) as (? & ? & _); auto|right].
    split; auto. intros j b Lj Ej Nb Eb. destruct (YS j b Ej Nb) as (u & Q). rewrite (proj1 (proj2 (SY b u Q))) in Eb. injection Eb as ->. eapply J; eauto.
  - intros i a Eo Ei. specialize (G i). unfold good_at in G. rewrite Eo, Ei in G. destruct G as (s & Q & J). destruct (SY a s Q). auto.
Qed.
Print Assumptions C33_interned.

(** The program is never undefined and never loops; it exits only when a 4001st
    symbol is needed. *)
Theorem C33_capacity : forall symbols size ops, 0 < symbols -> 0 < size ->
  match srun symbols size symtab0 (Init :: ops) with
  | Ok _ => True
  | Exit => exists ops1 ops2 o t ans, ops = ops1 ++ o :: ops2 /\ srun symbols size symtab0 (Init :: ops1) = Ok (t, ans) /\
      (forall i, 0 <= i < 4000 -> exists s, symbol_name symbols size t (id_symbol symbols size i) = Ok s) /\
      match o with
      | Intern s => forall i, 0 <= i < 4000 -> symbol_name symbols size t (id_symbol symbols size i) <> Ok s
      | Gensym => True
      | _ => False
      end
  | UB | Fuel => False
  end.
Proof.
  intros symbols size ops Hs Hz. cbn. pose proof (srun_inv symbols size Hs Hz ops (init_symbols symtab0) eq_refl eq_refl eq_refl) as S.
  destruct (srun symbols size (init_symbols symtab0) ops) as [[t' l]| | |]; cbn; auto.
  destruct S as (ops1 & o & ops2 & t & ans & s & E & R & H & L & N & D). exists ops1, ops2, o, t, (0 :: ans). rewrite R. cbn. pose proof MAX_val as MV.
  assert (NM : forall i, 0 <= i < 4000 -> exists u, symbol_name symbols size t (id_symbol symbols size i) = Ok u /\ In u (names t)).
  { intros i Hi. unfold id_symbol. rewrite <- (Z2Nat.id i) by lia. rewrite name_NUM; auto; [|apply (ti_init _ (hi_t _ _ _ _ _ H))].
    unfold rd. destruct (nth_error (names t) (Z.to_nat i)) eqn:Q; [eauto using nth_error_In|]. apply nth_error_None in Q. lia. }
  ands; auto.
  - intros i Hi. destruct (NM i Hi) as (u & Eu & _). eauto.
  - destruct D as [->| ->]; auto. intros i Hi Q. destruct (NM i Hi) as (u & Eu & Iu). rewrite Q in Eu. injection Eu as ->. contradiction.
Qed.
Print Assumptions C33_capacity.

(** Interning a generated name first: gensym skips it. *)
Example C33_case : match srun 1000 24 symtab0 [Init; Intern [97;98]%nat; Intern [71;48;48;48;48;48;49]%nat; Gensym; Intern [97;98]%nat; Find [99]%nat; Gensym] with
  | Ok (t, ans) => ans = [0; 1000; 1024; 1048; 1000; 0; 1072] /\ symbol_name 1000 24 t 1048 = Ok [71;48;48;48;48;48;50]%nat
  | _ => False end.
Proof. vm_compute. split; reflexivity. Qed.
