(** Model of the packages' string operations: packages/core.

    Strings are byte strings.  [Panic] is a crash of the program. *)
From Coq Require Import String List ZArith Bool.
From Verif Require Import Base Float.
Import ListNotations.
Local Open Scope string_scope.
Local Open Scope Z_scope.

Definition size (s : string) : Z := Z.of_nat (String.length s).

(** Rust's [s[a..b]] on slices *)
Definition range (s : string) (a b : Z) : res string :=
  if (a <=? b) && (b <=? size s) then Ok (substring (Z.to_nat a) (Z.to_nat (b - a)) s) else Panic.

(** Rust's [a - b] on [usize].  Simplification: with overflow checks switched off,
    the result wraps around; the code below then fails at the index. *)
Definition usize_sub (a b : Z) : res Z := if b <=? a then Ok (a - b) else Panic.

(** packages/core/ffi/src/string/byte.rs 1-4 *)
Definition byte_length (s : string) : number := of_int (size s).

(** packages/core/ffi/src/string/byte.rs 6-20 *)
Definition byte_slice (s : string) (start stop : number) : res string :=
  let a := to_usize start in
  let b := to_usize (rust_min stop (of_int (size s))) in
  if (b <? a) || (size s <? a) || (b =? 0) then Ok ""
  else bind (usize_sub a 1) (fun a => range s a b).

(** packages/core/ffi/src/string.rs 5-11 *)
Definition starts_with (s p : string) : bool :=
  if size p <=? size s then String.eqb (substring 0 (String.length p) s) p else false.

(** packages/core/String.pen 13-33 and ffi/src/string/builder.rs.  Simplification:
    the builder is not shared. *)
Definition join (ss : list string) (separator : string) : string := String.concat separator ss.
Definition concatenate (ss : list string) : string := join ss "".

(** packages/core/String/Byte/View.pen 10-15 *)
Record view := View { v_value : string; v_start : number; v_end : number }.

(** View.pen 17-24 [New] *)
Definition view_new (s : string) : view := View s (of_int 1) (byte_length s).

(** View.pen 41-44 [StartsWith], ffi/src/view.rs 1-13 *)
Definition view_starts_with (v : view) (p : string) : res bool :=
  bind (usize_sub (to_usize (v_start v)) 1) (fun a =>
  bind (range (v_value v) a (Z.min (a + size p) (to_usize (v_end v)))) (fun t =>
  Ok (String.eqb t p))).

(** View.pen 46-49 [Length] *)
Definition view_length (v : view) : number := add (sub (v_end v) (v_start v)) (of_int 1).

(** View.pen 56-65 [Slice] *)
Definition view_slice (v : view) (start stop : number) : view :=
  let e := minimum (sub (add (v_start v) stop) (of_int 1)) (v_end v) in
  View (v_value v) (minimum (sub (add (v_start v) start) (of_int 1)) (add e (of_int 1))) e.

(** View.pen 51-54 [Seek] *)
Definition view_seek (v : view) (n : number) : view := view_slice v (add n (of_int 1)) infinity.

(** View.pen 67-70 [ToString], ffi/src/view.rs 15-22 *)
Definition view_to_string (v : view) : res string :=
  bind (usize_sub (to_usize (v_start v)) 1) (fun a => range (v_value v) a (to_usize (v_end v))).
