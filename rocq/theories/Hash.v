(** Hash primitives of the prelude.
    Source: /repo/packages/prelude/ffi/src/lib.rs, and siphasher's SipHash-2-4
    with zero keys (the crate is not part of /repo; the algorithm is the
    published one).

    A Pen number is an [f64]; here it is the [N] below 2^64 of its bits. *)
From Coq Require Import NArith List Bool.
Import ListNotations.
Local Open Scope N_scope.

Definition u64_limit : N := N.shiftl 1 64.
Definition wrap (x : N) : N := x mod u64_limit.
Definition wadd (x y : N) : N := wrap (x + y).
Definition rotl (x : N) (k : N) : N := N.lor (wrap (N.shiftl x k)) (N.shiftr x (64 - k)).

Record sip := { v0 : N; v1 : N; v2 : N; v3 : N }.

Definition sip_round (s : sip) : sip :=
  let a := wadd (v0 s) (v1 s) in
  let b := N.lxor (rotl (v1 s) 13) a in
  let a := rotl a 32 in
  let c := wadd (v2 s) (v3 s) in
  let d := N.lxor (rotl (v3 s) 16) c in
  let a := wadd a d in
  let d := N.lxor (rotl d 21) a in
  let c := wadd c b in
  let b := N.lxor (rotl b 17) c in
  let c := rotl c 32 in
  {| v0 := a; v1 := b; v2 := c; v3 := d |}.

Definition sip_block (s : sip) (m : N) : sip :=
  let s := {| v0 := v0 s; v1 := v1 s; v2 := v2 s; v3 := N.lxor (v3 s) m |} in
  let s := sip_round (sip_round s) in
  {| v0 := N.lxor (v0 s) m; v1 := v1 s; v2 := v2 s; v3 := v3 s |}.

Definition sip_init : sip := {|
  v0 := 0x736f6d6570736575; v1 := 0x646f72616e646f6d;
  v2 := 0x6c7967656e657261; v3 := 0x7465646279746573 |}.

Definition sip_finish (s : sip) : N :=
  let s := {| v0 := v0 s; v1 := v1 s; v2 := N.lxor (v2 s) 0xff; v3 := v3 s |} in
  let s := sip_round (sip_round (sip_round (sip_round s))) in
  N.lxor (N.lxor (v0 s) (v1 s)) (N.lxor (v2 s) (v3 s)).

(** Little-endian value of up to eight bytes. *)
Fixpoint le_value (bytes : list N) : N :=
  match bytes with
  | [] => 0
  | b :: bs => b + N.shiftl (le_value bs) 8
  end.

(** SipHash-2-4 of a byte string. *)
Fixpoint sip_bytes (fuel : nat) (s : sip) (total : N) (bytes : list N) : N :=
  match fuel with
  | O => sip_finish s
  | S fuel =>
      match bytes with
      | b0 :: b1 :: b2 :: b3 :: b4 :: b5 :: b6 :: b7 :: rest =>
          sip_bytes fuel (sip_block s (le_value [b0; b1; b2; b3; b4; b5; b6; b7])) total rest
      | _ => sip_finish (sip_block s (N.lor (N.shiftl (total mod 256) 56) (le_value bytes)))
      end
  end.

Definition siphash (bytes : list N) : N :=
  sip_bytes (S (length bytes)) sip_init (N.of_nat (length bytes)) bytes.

Fixpoint bytes_le (count : nat) (x : N) : list N :=
  match count with
  | O => []
  | S count => x mod 256 :: bytes_le count (N.shiftr x 8)
  end.

(** lib.rs:70-76 [hash] of a [u64] *)
Definition hash_u64 (x : N) : N := siphash (bytes_le 8 x).

(** Bits of an [f64]: NaN has all exponent bits and a non-zero fraction. *)
Definition exponent_bits : N := 0x7ff0000000000000.
Definition fraction (x : N) : N := x mod (N.shiftl 1 52).
Definition magnitude (x : N) : N := x mod (N.shiftl 1 63).
Definition is_nan (x : N) : bool := N.eqb (N.land x exponent_bits) exponent_bits && negb (N.eqb (fraction x) 0).
Definition is_zero (x : N) : bool := N.eqb (magnitude x) 0.

(** IEEE equality of the numbers with these bits: [==] on [f64]. *)
Definition number_eqb (x y : N) : bool :=
  if is_nan x || is_nan y then false
  else if is_zero x && is_zero y then true
  else N.eqb x y.

(** lib.rs:32-47 [_pen_prelude_hash_number]; [f64::NAN] has bits
    0x7ff8000000000000 *)
Definition hash_number (x : N) : N :=
  hash_u64 (if is_zero x then 0 else if is_nan x then 0x7ff8000000000000 else x).

(** lib.rs:21-30 [_pen_prelude_combine_hashes] *)
Definition combine_hashes (one other : N) : N := wadd (wrap (one * 31)) other.

(** Bits of the [f64] of a small positive integer (2^e <= n < 2^(e+1)). *)
Definition number_of_nat (n : nat) : N :=
  match N.of_nat n with
  | 0 => 0
  | m => let e := N.log2 m in N.shiftl (e + 1023) 52 + N.shiftl (m - N.shiftl 1 e) (52 - e)
  end.

(** lib.rs:54-68 [_pen_prelude_hash_to_index], with the hash of the layer as an
    argument.  A shift by 64 or more keeps the low six bits of the amount, as in
    the release build that pen-ffi.sh makes.  [level] counts from one; the
    result is from 1 to 32. *)
Definition hash_to_index (hash layer_hash : N) (level : nat) : nat :=
  S (N.to_nat (N.land (N.shiftr (combine_hashes hash layer_hash) (N.of_nat (5 * (level - 1)) mod 64)) 31)).
