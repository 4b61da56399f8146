(** Model of the packages' operations on lists, booleans, numbers and bits:
    packages/core.

    The elements of a list are functions without arguments: a list is modelled
    by what the calls of its elements give.  [Panic] is a crash of the
    program.  Simplification: elements do nothing else, such as printing. *)
From Coq Require Import String List ZArith Bool.
From Coq Require Import Floats.SpecFloat.
From Verif Require Import Base Float.
Import ListNotations.
Local Open Scope Z_scope.

Definition elements (A : Type) : Type := list (res A).

(** ** packages/core/Boolean.pen *)
(** 4-14 [Any] *)
Fixpoint any_of (bs : elements bool) : res bool :=
  match bs with
  | [] => Ok false
  | b :: bs => bind b (fun b => if b then Ok true else any_of bs)
  end.

(** 17-27 [All] *)
Fixpoint all_of (bs : elements bool) : res bool :=
  match bs with
  | [] => Ok true
  | b :: bs => bind b (fun b => if b then all_of bs else Ok false)
  end.

(** ** packages/core/List.pen *)
(** Values of the [any] type.  Simplification: types other than the ones the
    module asks for are one. *)
Inductive any_value : Type :=
| AnyNumber (x : number)
| AnyString (s : string)
| AnyBoolean (b : bool)
| AnyOther (n : nat).

(** 4-10 [First] *)
Definition first_of {A} (xs : elements A) (fallback : A) : res A :=
  match xs with
  | x :: _ => x
  | [] => Ok fallback
  end.

(** 21-27 [last] *)
Fixpoint last_after {A} (xs : elements A) (x : res A) : res A :=
  match xs with
  | x :: xs => last_after xs x
  | [] => x
  end.

(** 13-19 [Last] *)
Definition last_of {A} (xs : elements A) (fallback : A) : res A :=
  match xs with
  | x :: xs => last_after xs x
  | [] => Ok fallback
  end.

(** 30-40 [ToNumbers], gone through to the end *)
Fixpoint to_numbers (xs : elements any_value) : res (list number) :=
  match xs with
  | x :: xs =>
      bind x (fun x =>
        match x with
        | AnyNumber x => bind (to_numbers xs) (fun xs => Ok (x :: xs))
        | _ => to_numbers xs
        end)
  | [] => Ok []
  end.

(** 43-53 [ToStrings], gone through to the end *)
Fixpoint to_strings (xs : elements any_value) : res (list string) :=
  match xs with
  | x :: xs =>
      bind x (fun x =>
        match x with
        | AnyString x => bind (to_strings xs) (fun xs => Ok (x :: xs))
        | _ => to_strings xs
        end)
  | [] => Ok []
  end.

(** 56-66 [ToBooleans], gone through to the end *)
Fixpoint to_booleans (xs : elements any_value) : res (list bool) :=
  match xs with
  | x :: xs =>
      bind x (fun x =>
        match x with
        | AnyBoolean x => bind (to_booleans xs) (fun xs => Ok (x :: xs))
        | _ => to_booleans xs
        end)
  | [] => Ok []
  end.

(** ** packages/core/Number.pen *)
(** 58-67 [Maximum] *)
Definition maximum (x y : number) : number :=
  if is_nan x || is_nan y then S754_nan else if lt y x then x else y.

(** 95-101 [Range].  The rest of the list is computed when it is asked for:
    [OutOfFuel] says that the list has more elements than were asked for. *)
Fixpoint range (fuel : nat) (least greatest : number) : res (list number) :=
  if lt greatest least then Ok []
  else
    match fuel with
    | O => OutOfFuel
    | S fuel => bind (range fuel (add least (of_int 1)) greatest) (fun xs => Ok (least :: xs))
    end.

(** 114-116 [Sequence] *)
Definition sequence_to (fuel : nat) (greatest : number) : res (list number) := range fuel (of_int 1) greatest.

(** 133-139 [sumRecursive] *)
Fixpoint sum_from (xs : elements number) (sum : number) : res number :=
  match xs with
  | x :: xs => bind x (fun x => sum_from xs (add sum x))
  | [] => Ok sum
  end.

(** 129-131 [Sum] *)
Definition sum_of (xs : elements number) : res number := sum_from xs (of_int 0).

(** ** packages/core/Bit.pen, packages/core/ffi/src/bit.rs *)
(** 64-bit integers: the bits of a number of the language, which the functions
    of the module take as an integer. *)
Definition integer64 := Z.
Definition in_64_bits (x : integer64) : Prop := 0 <= x < 2 ^ 64.

(** bit.rs 3-21 *)
Definition bit_and (x y : integer64) : integer64 := Z.land x y.
Definition bit_or (x y : integer64) : integer64 := Z.lor x y.
Definition bit_xor (x y : integer64) : integer64 := Z.lxor x y.
Definition bit_not (x : integer64) : integer64 := Z.lxor x (2 ^ 64 - 1).

(** bit.rs 23-31.  The package is built in release mode, where Rust takes the
    count of a shift modulo the number of bits. *)
Definition shift_count (n : number) : Z := to_usize n mod 64.
Definition left_shift (x : integer64) (n : number) : integer64 := Z.shiftl x (shift_count n) mod 2 ^ 64.
Definition right_shift (x : integer64) (n : number) : integer64 := Z.shiftr x (shift_count n).

(** bit.rs 33-41 *)
Definition to_integer (x : number) : integer64 := to_usize x.
Definition from_integer (x : integer64) : number := of_int x.
