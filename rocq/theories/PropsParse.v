(** Properties C56 and C59: texts that the parser reads.
    [kept_module] (ParserKept.v) lists the places where the formatter drops
    parentheses that are needed, and nothing else. *)
From Coq Require Import String Ascii List Bool Arith Lia.
From Verif Require Import Base Syntax SyntaxSpec Ast Parser Printer ParserSpec ParserKept ParserModule ParserSound ParserSoundExpr ParserSoundModule ParserFuel PropsFormat.
Import ListNotations.
Local Open Scope string_scope.

(** C56, for every source text.  Partial: modules with parentheses that the
    formatter drops are excluded; the refutations in PropsFormat.v show why. *)
Theorem format_parsed_partial s m t :
  parse s = Some m -> kept_module m -> renders (module_document m) t -> exists m', parse t = Some m' /\ same_module m m'.
Proof. intros E K R. apply format_module_partial; [eapply parse_faithful; eassumption|exact R]. Qed.

(** C58, for every source text *)
Theorem format_parsed_again s m t m' :
  parse s = Some m -> kept_module m -> renders (module_document m) t -> parse t = Some m' -> module_document m' = module_document m.
Proof. intros E K R. apply format_again; [eapply parse_faithful; eassumption|exact R]. Qed.

(** Every name, number and string that the parser reads is written as the
    language says: [faithful_module] asks for nothing more than [kept_module]. *)
Theorem parsed_faithful s m : parse s = Some m -> kept_module m -> faithful_module m.
Proof. apply parse_faithful. Qed.

(** C59: the bounds on recursion that make the model's parsers total are never
    reached. The recursive parsers of the code satisfy their equations, with no
    bound in them. *)
Theorem type_parser_terminates s :
  type_ s = alt (function_type type_) (union_type type_) s /\ forall n, slen s < n -> ptype n s = type_ s.
Proof. split; [apply type_equation|]. intros n L. apply ptype_bound; lia. Qed.
Theorem expression_parser_terminates s :
  expression s = operation expression s /\ forall n, slen s < n -> pexpression n s = expression s.
Proof. split; [apply expression_equation|]. intros n L. apply pexpression_bound; lia. Qed.
Theorem operand_parser_terminates s :
  operand expression s = alt (fun s => do_ s <- sign "!" s; do e, s <- cut (operand expression s); POk (XNot e) s) (suffix_operation expression) s.
Proof. apply operand_equation. Qed.
(** A repetition of a parser that gives back a rest no longer than its text *)
Theorem repetition_terminates {A} (p : parser A) s :
  (forall x a r, p x = POk a r -> slen r <= slen x) ->
  many0 p s = match p s with
              | POk a r => if (slen r =? slen s)%nat then PErr else do l, r <- many0 p r; POk (a :: l) r
              | PErr => POk [] s
              | PFail => PFail
              end.
Proof. intros H. apply (many0_equation (fun _ => True)). intros x a r E. split; [exact I|eauto]. Qed.
Theorem operations_reduced e l : exists a, reduce (S (length l)) e l = Some a.
Proof. apply reduce_total. lia. Qed.
(** Types and expressions take at least one character. *)
Theorem expression_parser_advances s e r : expression s = POk e r -> slen r < slen s.
Proof. intros E. apply expression_sound in E. apply E. Qed.
Theorem type_parser_advances s t r : type_ s = POk t r -> slen r < slen s.
Proof. intros E. apply type_sound in E. apply E. Qed.

(** The sample of PropsFormat.v meets the hypotheses. *)
Example sample_kept : kept_module (sorted_module sample).
Proof.
  repeat match goal with
  | |- _ /\ _ => split
  | |- True => exact I
  | |- _ <> _ => discriminate
  | |- _ -> False => discriminate
  | |- _ => progress hnf
  end.
Qed.
Example sample_text : exists s m, parse s = Some m /\ kept_module m.
Proof. exists (plain (module_document sample)), (sorted_module sample). split; [|apply sample_kept]. apply module_ok; [apply sample_faithful|apply renders_plain]. Qed.
Example expression_text : expression "a + b * !(c)(1)? x" = POk (XBinary Add (XVariable "a") (XBinary Multiply (XVariable "b") (XNot (XTry (XCall (XVariable "c") [XNumber (NFloat "1")]))))) " x".
Proof. vm_compute. reflexivity. Qed.

Print Assumptions format_parsed_partial.
Print Assumptions format_parsed_again.
Print Assumptions parsed_faithful.
Print Assumptions type_parser_terminates.
Print Assumptions expression_parser_terminates.
Print Assumptions operand_parser_terminates.
Print Assumptions repetition_terminates.
Print Assumptions operations_reduced.
Print Assumptions expression_parser_advances.
Print Assumptions type_parser_advances.
