(** Properties of the packages: C38 (flags), C39 (slices). *)
From Coq Require Import String List ZArith Bool Lia.
From Coq Require Import Floats.SpecFloat.
From Verif Require Import Base Float FloatProofs PkgBytes PkgBytesSpec PkgBytesProofs PkgFlag PkgFlagSpec PkgFlagProofs.
Import ListNotations.
Local Open Scope string_scope.
Local Open Scope Z_scope.

(** *** C39: slicing strings never crashes and returns the requested part *)
(** For bounds that are any numbers, if the first is at least 1 and the second is not
    NaN.  Missing: the other bounds, for which it is false. *)
Theorem byte_slice_selects_partial : forall s start stop, reasonable s -> a_number start -> a_number stop ->
  SFleb (of_int 1) start = true -> SFeqb stop stop = true ->
  byte_slice s start stop = Ok (bytes_at start stop s).
Proof.
  intros s start stop R A B L N. apply byte_slice_spec; try assumption. destruct stop as [|[]| |]; try reflexivity. discriminate.
Qed.
Print Assumptions byte_slice_selects_partial.

Example byte_slice_case : bytes_at (of_int 2) infinity "abc" = "bc" /\ bytes_at (of_int 2) (binary_normalize 53 1024 5 (-1) false) "abc" = "b".
Proof. split; vm_compute; reflexivity. Qed.

(** A slice from 0 crashes. *)
Theorem byte_slice_start_refuted : exists s start stop,
  reasonable s /\ a_number start /\ a_number stop /\ SFeqb start start = true /\ SFeqb stop stop = true /\ byte_slice s start stop = Panic.
Proof. exists "a", (of_int 0), (of_int 1). repeat split; vm_compute; reflexivity. Qed.
Print Assumptions byte_slice_start_refuted.

(** A slice to NaN is the whole string, although no position is at most NaN. *)
Theorem byte_slice_nan_refuted : exists s start,
  reasonable s /\ a_number start /\ SFleb (of_int 1) start = true /\
  bytes_at start S754_nan s = "" /\ byte_slice s start S754_nan = Ok "a".
Proof. exists "a", (of_int 1). repeat split; vm_compute; reflexivity. Qed.
Print Assumptions byte_slice_nan_refuted.

(** A view shows the part of the string that the program asked for, from first to
    last slice.  Missing: bounds that are not whole numbers, and negative ones, for
    which it is false. *)
Theorem view_shows_part_partial : forall v t, viewed v t ->
  view_to_string v = Ok t /\ view_length v = byte_length t /\ forall p, view_starts_with v p = Ok (prefix p t).
Proof.
  intros v t H. apply viewed_shows in H. split; [apply shows_string, H|]. split; [apply shows_length, H|]. intros p. apply shows_prefix, H.
Qed.
Print Assumptions view_shows_part_partial.

Example view_case : exists v, viewed v "cd" /\ v_value v = "abcdef".
Proof.
  exists (view_slice (view_seek (view_new "abcdef") (of_int 1)) (of_int 2) (of_int 3)). split; [|reflexivity].
  change "cd" with (bytes_at (of_int 2) (of_int 3) (select (fun i => SFltb (of_int 1) (of_int i)) 1 "abcdef")).
  apply viewed_slice; [apply viewed_seek; [apply viewed_new; vm_compute; reflexivity|]|..]; right; eexists; split; reflexivity || lia.
Qed.

(** A view to -1 crashes when it is used. *)
Theorem view_slice_negative_refuted : exists s start stop,
  reasonable s /\ bound 1 start /\ a_number stop /\ SFeqb stop stop = true /\
  bytes_at start stop s = "" /\ view_to_string (view_slice (view_new s) start stop) = Panic.
Proof.
  exists "a", (of_int 1), (of_int (-1)). split; [vm_compute; reflexivity|]. split; [right; exists 1; split; [reflexivity|lia]|].
  repeat split; vm_compute; reflexivity.
Qed.
Print Assumptions view_slice_negative_refuted.

(** *** C38: command-line flags parse as documented *)
(** Parsing succeeds exactly for arguments in the documented format, keeps all named
    flags (the last value counts if a key is repeated) and all positional flags in
    order.  The format leaves no choice. *)
Theorem flags_parse : forall ss, Forall reasonable ss ->
  (forall ns ps, flags ss ns ps -> exists s, parse ss = Ok s /\ positional s = ps /\ forall k, lookup (named s) k = value_of ns k) /\
  (forall ns ps ns' ps', flags ss ns ps -> flags ss ns' ps' -> ns = ns' /\ ps = ps') /\
  ((forall ns ps, ~ flags ss ns ps) -> parse ss = NotFound "flag value missing").
Proof.
  intros ss R. split; [|split].
  - intros ns ps F. eexists. split; [apply parse_flags_spec; eassumption|]. split; [reflexivity|]. intros k. cbn [named]. rewrite app_nil_r. apply lookup_value.
  - intros ns ps ns' ps' F F'. pose proof (parse_flags_spec _ _ _ F R []) as H. rewrite (parse_flags_spec _ _ _ F' R []) in H.
    injection H as H ->. rewrite !app_nil_r in H. apply (f_equal (@rev _)) in H. rewrite !rev_involutive in H. auto.
  - intros N. apply parse_flags_fails; assumption.
Qed.
Print Assumptions flags_parse.

Example flags_case : flags ["-foo"; "bar"; "-x"; "-y"; "-foo"; "baz"; "--"; "-z"] [("foo", "bar"); ("x", "-y"); ("foo", "baz")] ["-z"] /\
  value_of [("foo", "bar"); ("x", "-y"); ("foo", "baz")] "foo" = Some "baz" /\ (forall ns ps, ~ flags ["-x"] ns ps).
Proof.
  split; [|split; [reflexivity|]].
  - apply (flags_named "foo"); [discriminate|]. apply (flags_named "x"); [discriminate|]. apply (flags_named "foo"); [discriminate|]. apply flags_separator.
  - intros ns ps H. inversion H. discriminate.
Qed.
