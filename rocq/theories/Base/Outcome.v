(** Outcomes of C++ calls, shared by all models.

    [Ok v]  : the call returned [v].
    [Throw] : the call left with a C++ exception.
    [UB]    : the call has undefined behaviour (out-of-range unchecked access, null
              dereference, read of uninitialised memory, ...).  A model never continues
              after [UB]. *)
From Coq Require Import List ZArith Lia.
Import ListNotations.

Inductive outcome (A : Type) : Type :=
| Ok (v : A)
| Throw
| UB.
Arguments Ok {A} v.
Arguments Throw {A}.
Arguments UB {A}.

Definition obind {A B} (o : outcome A) (f : A -> outcome B) : outcome B :=
  match o with
  | Ok v => f v
  | Throw => Throw
  | UB => UB
  end.

Definition omap {A B} (f : A -> B) (o : outcome A) : outcome B :=
  obind o (fun v => Ok (f v)).

Notation "'do' x <- a ;; b" := (obind a (fun x => b))
  (at level 200, x pattern, a at level 100, b at level 200).

(** [std::vector::at(i)] called with an [int] argument [i]: a negative [int] converts to a
    huge [size_t], hence bounds-checked access throws [std::out_of_range]. *)
Definition vec_at {A} (l : list A) (i : Z) : outcome A :=
  if (i <? 0)%Z then Throw
  else match nth_error l (Z.to_nat i) with
       | Some v => Ok v
       | None => Throw
       end.

(** [std::vector::operator[](i)]: unchecked, out of range is undefined behaviour. *)
Definition vec_get {A} (l : list A) (i : nat) : outcome A :=
  match nth_error l i with
  | Some v => Ok v
  | None => UB
  end.

(** [std::vector::front()], undefined on an empty vector. *)
Definition vec_front {A} (l : list A) : outcome A := vec_get l 0.

(** [std::vector::back()], undefined on an empty vector. *)
Definition vec_back {A} (l : list A) : outcome A :=
  match l with
  | [] => UB
  | _ => vec_get l (length l - 1)
  end.

(** [std::vector::operator[](i) = v]: unchecked write. *)
Fixpoint vec_set {A} (l : list A) (i : nat) (v : A) : outcome (list A) :=
  match l, i with
  | [], _ => UB
  | _ :: r, O => Ok (v :: r)
  | x :: r, S j => obind (vec_set r j v) (fun r' => Ok (x :: r'))
  end.

Definition is_ok {A} (o : outcome A) : Prop := exists v, o = Ok v.

Lemma Ok_inj {A} (a b : A) : Ok a = Ok b -> a = b.
Proof. intro H. injection H. auto. Qed.
