(** * RopeSpec: the text a rope stands for. *)
From Verif Require Import Base RopeModel.
Open Scope Z_scope.

(** Bytes of C strings. *)
Definition text (s : cstr) : Prop := Forall (fun c => 1 <= c <= 255) s.

(** The address [p] is a string standing for the bytes [s]. *)
Inductive denotes (h : heap) : nat -> cstr -> Prop :=
| den_raw p s : load h p = Ok (Chars s) -> text s -> hd 0 s < 128 -> denotes h p s
| den_constant p v s : load h p = Ok (Constant v) -> load h v = Ok (Chars s) -> text s -> denotes h p s
| den_conc p a b s t : load h p = Ok (Conc a b) -> denotes h a s -> denotes h b t -> denotes h p (s ++ t).

(** The text of [p] with every occurrence of the string [stub] standing for [u]. *)
Inductive substituted (h : heap) (stub : nat) (u : cstr) : nat -> cstr -> Prop :=
| sub_stub : substituted h stub u stub u
| sub_leaf p s : p <> stub -> (forall a b, load h p <> Ok (Conc a b)) -> denotes h p s -> substituted h stub u p s
| sub_conc p a b s t : p <> stub -> load h p = Ok (Conc a b) -> substituted h stub u a s -> substituted h stub u b t ->
    substituted h stub u p (s ++ t).

(** Nothing already built is changed. *)
Definition extends (h h' : heap) : Prop := exists l, h' = h ++ l.
