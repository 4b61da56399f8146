(** Properties of operator expressions (C32), formatting (C43), string literals
    (C33) and file paths (C34).

    Notions from [SyntaxSpec]: a [tree] groups a chain of operands;
    [first_operand] and [operations] give the chain, [meaning] the expression,
    [grouped] says that operators bind by level and to the left.
    Notions from [LiteralSpec]: [value] of the [piece]s of a literal. *)
From Coq Require Import NArith Ascii String List Bool Arith.
From Verif Require Import Base Syntax SyntaxSpec SyntaxProofs Literal LiteralSpec LiteralProofs.
Import ListNotations.

(** *** C32 *)
Theorem operators_grouped : forall lhs pairs,
  exists t, reduce_operations (S (List.length pairs)) lhs pairs = Ok (meaning t) /\
    grouped t /\ first_operand t = lhs /\ operations t = pairs.
Proof. exact reduce_total. Qed.

Theorem grouping_unique : forall t u, grouped t -> grouped u ->
  first_operand t = first_operand u -> operations t = operations u -> t = u.
Proof. exact grouped_unique. Qed.

(** a + b * c - d < e & f *)
Example operators_grouped_example :
  reduce_operations 6 (EAtom 1) [(Add, EAtom 2); (Multiply, EAtom 3); (Subtract, EAtom 4); (LessThan, EAtom 5); (And, EAtom 6)] =
  Ok (EBin And (EBin LessThan (EBin Subtract (EBin Add (EAtom 1) (EBin Multiply (EAtom 2) (EAtom 3))) (EAtom 4)) (EAtom 5)) (EAtom 6)).
Proof. reflexivity. Qed.

(** *** C43: formatting keeps the meaning.
    Full statement: parsing the formatted text of any expression gives the
    expression back.  The formatter drops parentheses that matter
    ([format_refuted]); it is right for the expressions that [faithful]
    describes ([format_then_parse_partial]). *)
Theorem format_then_parse_partial : forall e blank, faithful e ->
  exists N, forall n, N <= n -> parse_expression n (format_expression e blank) = Ok (e, []).
Proof. exact format_parse. Qed.

(** (a - b) * !(c | d)? + f((a & b).x, -) ... *)
Example format_then_parse_example :
  let e := EBin Add (EBin Multiply (EBin Subtract (EAtom 1) (EAtom 2)) (ENot (ETry (EBin Or (EAtom 3) (EAtom 4)))))
                    (ECall (EField (EAtom 5) "x"%string) [EBin Equal (EAtom 6) (EBin Divide (EAtom 7) (EAtom 8)); EAtom 9]) in
  faithful e /\ parse_expression 40 (format_expression e false) = Ok (e, []).
Proof. split; [cbn; repeat split; discriminate|reflexivity]. Qed.

(** a - (b - c) is printed as a - b - c, a negation in parentheses before a
    question mark as the negation of the whole, and (a + b)(c) as a + b(c). *)
Theorem format_refuted :
  (exists e, parse_expression 40 (format_expression e false) = Ok (EBin Subtract (EBin Subtract (EAtom 1) (EAtom 2)) (EAtom 3), []) /\
             e = EBin Subtract (EAtom 1) (EBin Subtract (EAtom 2) (EAtom 3))) /\
  (exists e, parse_expression 40 (format_expression e false) = Ok (ENot (ETry (EAtom 1)), []) /\ e = ETry (ENot (EAtom 1))) /\
  (exists e, parse_expression 40 (format_expression e false) = Ok (EBin Add (EAtom 1) (ECall (EAtom 2) [EAtom 3]), []) /\
             e = ECall (EBin Add (EAtom 1) (EAtom 2)) [EAtom 3]).
Proof. repeat split; eexists; (split; [|reflexivity]); reflexivity. Qed.

(** *** C33.
    Full statement: a literal denotes the bytes its pieces stand for.  It fails
    when an escaped backslash stands before certain letters
    ([string_literal_refuted]), and holds otherwise. *)
Theorem string_literal_partial : forall l, Forall piece_ok l -> unambiguous l -> compile_string (source l) = value l.
Proof. exact compile_string_ok. Qed.

Example string_literal_example :
  let l := [PPlain "a"; PBackslash; PBackslash; PNewline; PBackslash; PByte "6" "e"; PQuote; PBackslash; PPlain "x"; PPlain "g"; PPlain "1"]%char in
  Forall piece_ok l /\ unambiguous l.
Proof. split; [repeat constructor; discriminate|cbn; auto]. Qed.

(** Every byte string can be written as byte escapes. *)
Theorem string_bytes_expressible : forall s, exists l, Forall piece_ok l /\ compile_string (source l) = s.
Proof.
  intros s. exists (map byte_piece s). split; [|apply compile_bytes].
  apply Forall_forall. intros p H. apply in_map_iff in H. destruct H as (c & <- & _). apply byte_piece_ok.
Qed.

(** The literal for a backslash and an n denotes a newline. *)
Theorem string_literal_refuted : exists l, Forall piece_ok l /\
  source l = [backslash; backslash; "n"]%char /\ value l = [backslash; "n"]%char /\ compile_string (source l) = [newline].
Proof. exists [PBackslash; PPlain "n"%char]. split; [repeat constructor; discriminate|auto]. Qed.

(** *** C34 *)
Theorem path_extension_set : forall directory name extension, has_newline name = false ->
  has_extension (with_extension (directory ++ [name]) extension) extension = true /\
  exists name', with_extension (directory ++ [name]) extension = directory ++ [name'].
Proof. exact extension_set. Qed.

Theorem path_extension_replaced : forall directory name e e', has_newline name = false -> has_newline e = false ->
  with_extension (with_extension (directory ++ [name]) e) e' = with_extension (directory ++ [name]) e'.
Proof. exact extension_twice. Qed.

Theorem path_join_monoid : (forall p q r, join p (join q r) = join (join p q) r) /\ (forall p, join [] p = p /\ join p [] = p).
Proof. split; [intros; apply app_assoc|intros; split; [reflexivity|apply app_nil_r]]. Qed.

Theorem path_relative_of_join : forall p q, relative_to (join q p) q = Some p.
Proof. exact relative_join. Qed.

(** A path relative to a directory, joined to it, is the path, if the path is not
    shorter than the directory. *)
Theorem path_join_of_relative_partial : forall p q r, relative_to p q = Some r -> List.length q <= List.length p -> join q r = p.
Proof. exact join_relative. Qed.

(** The path a is said to be the empty path relative to a/b. *)
Theorem path_join_of_relative_refuted : exists p q r, relative_to p q = Some r /\ join q r <> p.
Proof. exists [["a"%char]], [["a"%char]; ["b"%char]], []. split; [reflexivity|discriminate]. Qed.

Example path_example :
  with_extension [["d"]; ["a"; "."; "b"; "."; "c"]]%char ["p"]%char = [["d"]; ["a"; "."; "p"]]%char /\
  relative_to [["d"]; ["a"]]%char [["d"]]%char = Some [["a"]]%char /\ relative_to [["d"]; ["a"]]%char [["e"]]%char = None.
Proof. auto. Qed.

Print Assumptions operators_grouped.
Print Assumptions grouping_unique.
Print Assumptions format_then_parse_partial.
Print Assumptions format_refuted.
Print Assumptions string_literal_partial.
Print Assumptions string_bytes_expressible.
Print Assumptions string_literal_refuted.
Print Assumptions path_extension_set.
Print Assumptions path_extension_replaced.
Print Assumptions path_join_monoid.
Print Assumptions path_relative_of_join.
Print Assumptions path_join_of_relative_partial.
Print Assumptions path_join_of_relative_refuted.
