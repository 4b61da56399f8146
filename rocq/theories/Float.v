(** Numbers of the language: IEEE 754 binary64, from the standard library's
    specification of floating-point arithmetic (one NaN). *)
From Coq Require Import ZArith Bool.
From Coq Require Import Floats.SpecFloat.
Local Open Scope Z_scope.

Definition number := spec_float.
Definition add : number -> number -> number := SFadd 53 1024.
Definition sub : number -> number -> number := SFsub 53 1024.
Definition lt : number -> number -> bool := SFltb.
Definition equal : number -> number -> bool := SFeqb.
Definition infinity : number := S754_infinity false.
Definition is_nan (x : number) : bool := match x with S754_nan => true | _ => false end.

(** The number nearest to an integer: literals, and [as f64] *)
Definition of_int (z : Z) : number := binary_normalize 53 1024 z 0 false.

(** Rust's [as] from [f64] to an unsigned integer type with maximum [limit]: drop the
    fraction, clip to the range, and turn NaN into 0. *)
Definition truncate (m : positive) (e : Z) : Z := if 0 <=? e then Zpos m * 2 ^ e else Zpos m / 2 ^ (- e).
Definition cast (limit : Z) (x : number) : Z :=
  match x with
  | S754_finite false m e => Z.min (truncate m e) limit
  | S754_infinity false => limit
  | _ => 0
  end.
Definition usize_max : Z := 2 ^ 64 - 1.
Definition to_usize : number -> Z := cast usize_max.

(** Rust's [f64::min]: a NaN is ignored. *)
Definition rust_min (x y : number) : number :=
  if is_nan x then y else if is_nan y then x else if lt y x then y else x.

(** packages/core/Number.pen 71-80 [Minimum] *)
Definition minimum (x y : number) : number :=
  if is_nan x || is_nan y then S754_nan else if lt x y then x else y.
