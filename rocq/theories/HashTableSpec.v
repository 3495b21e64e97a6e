(** * Specification: what a finite map built by a sequence of adds answers. *)
From Coq Require Import List ZArith Bool.
Import ListNotations.
Open Scope Z_scope.

Section Spec.
Variable equalf : Z -> Z -> bool.

(** [adds] is the history, oldest first.  The value of the latest add whose
    key equals [k]. *)
Fixpoint latest (adds : list (Z * Z)) (k : Z) : option Z :=
  match adds with
  | [] => None
  | (k', v) :: rest =>
    match latest rest k with
    | Some v' => Some v'
    | None => if equalf k' k then Some v else None
    end
  end.

(** Number of distinct keys (up to [equalf]). *)
Fixpoint distinct (adds : list (Z * Z)) : Z :=
  match adds with
  | [] => 0
  | (k, _) :: rest => distinct rest + (if existsb (fun e => equalf (fst e) k) rest then 0 else 1)
  end.

(** The client's obligations on its two functions. *)
Record good (hashf : Z -> Z) : Prop := {
  eq_refl_ : forall a, a <> 0 -> equalf a a = true;
  eq_sym_ : forall a b, a <> 0 -> b <> 0 -> equalf a b = true -> equalf b a = true;
  eq_trans_ : forall a b c, a <> 0 -> b <> 0 -> c <> 0 ->
     equalf a b = true -> equalf b c = true -> equalf a c = true;
  eq_hash_ : forall a b, a <> 0 -> b <> 0 -> equalf a b = true -> hashf a = hashf b;
  eq_null_ : forall a, a <> 0 -> equalf 0 a = false }.
End Spec.
