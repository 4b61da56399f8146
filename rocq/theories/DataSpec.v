(** Data that can be compared, and when they are the same. *)
From Coq Require Import String List ZArith Bool.
From Verif Require Import Base Mir HirType.
Import ListNotations.

(** [DRecord r o xs] is a value of the record [r] (with the display name [o]) with
    the fields [xs].  [DList e xs] is a list of the elements [xs] of type [e]. *)
Inductive data : Type :=
| DBool (b : bool)
| DNumber (z : Z)
| DString (s : string)
| DNone
| DRecord (r o : string) (xs : list data)
| DList (e : ty) (xs : list data).

(** The type of a datum *)
Definition type_of_data (x : data) : ty :=
  match x with
  | DBool _ => TBoolean
  | DNumber _ => TNumber
  | DString _ => TString
  | DNone => TNone
  | DRecord r o _ => TRecord r o
  | DList e _ => TList e
  end.

(** Numbers are compared as the machine does. *)
Fixpoint same (w : world) (x y : data) : bool :=
  let fix all (xs ys : list data) : bool :=
    match xs, ys with
    | [], [] => true
    | x :: xs, y :: ys => same w x y && all xs ys
    | _, _ => false
    end in
  match x, y with
  | DBool a, DBool b => Bool.eqb a b
  | DNumber a, DNumber b => w_compare w Equal a b
  | DString s, DString t => String.eqb s t
  | DNone, DNone => true
  | DRecord r _ xs, DRecord s _ ys => String.eqb r s && all xs ys
  | DList e xs, DList e' ys => match ty_compare e e' with Eq => all xs ys | _ => false end
  | _, _ => false
  end.
