(** Properties C43, C56, C57, C58: formatting whole modules.
    [parse] (Parser.v) models the parser of modules character by character;
    [module_document] (Printer.v) the formatter's documents, and [renders] the
    texts they may be laid out as, with any comments and blanks at the places
    where the formatter may put them; [faithful_module] (ParserSpec.v) the
    syntax trees that the formatter keeps; [same_module] modules that differ in
    the order of imports and imported names only. *)
From Coq Require Import String Ascii List Bool Permutation.
From Verif Require Import Base Syntax SyntaxSpec Ast Parser Printer ParserSpec ParserModule.
Import ListNotations.
Local Open Scope string_scope.

(** C56.  Partial: modules that are not faithful are excluded, and the
    refutations below show why. *)
Theorem format_module_partial m s :
  faithful_module m -> renders (module_document m) s -> exists m', parse s = Some m' /\ same_module m m'.
Proof. intros F R. destruct (module_ok m s F R) as [H1 H2]. eauto. Qed.

(** C57: neither the layout nor the comments change what a text means. *)
Theorem layout_keeps_module m s t :
  faithful_module m -> renders (module_document m) s -> renders (module_document m) t -> parse s = parse t /\ parse s <> None.
Proof.
  intros F R Q. destruct (module_ok m s F R) as [-> _]. destruct (module_ok m t F Q) as [-> _]. split; [reflexivity|discriminate].
Qed.

(** C58: a formatted module is not changed by formatting it again. *)
Theorem format_again m s m' :
  faithful_module m -> renders (module_document m) s -> parse s = Some m' -> module_document m' = module_document m.
Proof. intros F R E. destruct (module_ok m s F R) as [H _]. rewrite H in E. injection E as <-. apply sorted_module_document. Qed.

(** Different modules are never formatted to the same text. *)
Theorem format_injective_partial m n s :
  faithful_module m -> faithful_module n -> renders (module_document m) s -> renders (module_document n) s ->
  exists k, same_module m k /\ same_module n k.
Proof.
  intros F G R Q. destruct (module_ok m s F R) as [H1 H2]. destruct (module_ok n s G Q) as [H3 H4].
  rewrite H1 in H3. injection H3 as H3. rewrite <- H3 in H4. eauto.
Qed.

(** Every document has a layout. *)
Theorem format_total m : exists s, renders (module_document m) s.
Proof. eexists. apply renders_plain. Qed.

(** *** A module with every kind of definition and many kinds of expressions *)
Example sample : amodule :=
  AModule
    [AImport (Internal ["Foo"; "Bar"]) (Some "b") []; AImport (External "Core" ["Number"]) None ["Show"; "Add"]]
    [AForeign "puts" CConvention (AFunction [AReference "string"] (AReference "none"))]
    [DRecord "person" [("name", AReference "string"); ("age", AUnion (AReference "number") (AReference "none"))];
     DAlias "callback" (AUnion (AFunction [AList (AReference "any")] (AReference "none")) (AReference "none"))]
    [ADefinition "main"
       (ALambda [("x", AMap (AReference "string") (AReference "Foo'Type"))] (AReference "number")
          (Block
             [(Some "y", XTry (XCall (XField (XVariable "x") "f") [XNumber (NHexadecimal "ff"); XString "a\n"]));
              (None, XComprehension (AReference "number") (XBinary Multiply (XBinary Add (XVariable "a") (XNumber (NFloat "1.5"))) (XVariable "b"))
                       [Branch ["a"; "b"] [XVariable "xs"; XVariable "ys"] (Some (XNot (XBinary Equal (XVariable "a") (XVariable "b"))))])]
             (XIf [(XBinary Or (XVariable "p") (XBinary And (XNot (XVariable "q")) (XVariable "r")),
                    Block [] (XRecord "person" (Some (XVariable "y")) [("age", XNumber (NBinary "101"))]));
                   (XVariable "s", Block [] (XMap (AReference "string") (AReference "number") [Entry (XString "k") (XNumber (NFloat "-1e3")); Spread (XVariable "m")]))]
                (Block [] (XIfType "z" (XVariable "y") [(AReference "number", Block [] (XVariable "z"))]
                  (Some (Block [] (XLambda [("c", AReference "error")] (AReference "none") (Block [] (XVariable "none"))))))))))
       (Some CConvention)].
Ltac isname := split; [eexists _, _; split; [reflexivity|first [left; reflexivity|right; reflexivity]]|split; [reflexivity|cbn; intuition discriminate]].
Ltac isnames := try (isname || (left; isname)).
Lemma qualified_sample : qualified_name "Foo'Type".
Proof. right. exists "Foo", "Type". split; [reflexivity|]. split; isname. Qed.
Lemma sample_faithful : faithful_module sample.
Proof.
  pose proof qualified_sample as Q.
  repeat match goal with
  | |- _ /\ _ => split
  | |- True => exact I
  | |- name _ => isname
  | |- qualified_name "Foo'Type" => exact Q
  | |- qualified_name _ => left; isname
  | |- _ <> _ => discriminate
  | |- NoDup _ => repeat constructor; cbn; intuition discriminate
  | |- digits _ _ => split; [discriminate|reflexivity]
  | |- float_text "1.5" => apply (a_float "" "1.5" ""); [left; reflexivity|apply (pointed "1" "5"); [split; [discriminate|reflexivity]|reflexivity]|constructor]
  | |- float_text "-1e3" => apply (a_float "-" "1" "e3"); [right; right; reflexivity|apply whole; split; [discriminate|reflexivity]|apply (an_exponent "e" "" "3"); [left; reflexivity|left; reflexivity|split; [discriminate|reflexivity]]]
  | |- string_text "k" => apply text_character; [discriminate|discriminate|constructor]
  | |- string_text "a\n" => apply text_character; [discriminate|discriminate|apply text_escape; [cbn; tauto|constructor]]
  | |- _ = true => reflexivity
  | |- name "Foo'Type" \/ _ => exact Q
  | |- name _ \/ _ => left; isname
  | |- exists _ _, _ => eexists _, _; split; [reflexivity|left; reflexivity]
  | |- In _ _ -> False => cbn; intuition discriminate
  | |- _ -> False => discriminate
  | |- _ => progress hnf
  end.
Qed.
(** The hypotheses of the theorems above hold of it, with a layout. *)
Example sample_layout : faithful_module sample /\ renders (module_document sample) (plain (module_document sample)).
Proof. split; [apply sample_faithful|apply renders_plain]. Qed.
Example sample_parsed : exists m, parse (plain (module_document sample)) = Some m /\ same_module sample m.
Proof. apply format_module_partial; [apply sample_faithful|apply renders_plain]. Qed.

(** *** Modules that formatting does not keep *)
Definition line : string := String newline "".
Definition indented : string := String newline "  ".
Definition indented2 : string := String newline "    ".
Ltac isblank := repeat (apply blank_space; [reflexivity|]); apply blank_end.
Ltac splits t := match goal with |- renders _ ?s => let r := eval vm_compute in (substring (String.length t) (String.length s) s) in change s with (t ++ r) end.
Ltac breaks t := splits t; apply (renders_line t); [isblank|discriminate|].
Ltac layout :=
  repeat first
  [ apply renders_nil
  | apply renders_flat
  | match goal with |- renders (Text ?t :: _) _ => splits t; apply renders_text end
  | match goal with |- renders (Line :: _) _ => first [breaks indented2 | breaks indented | breaks line | breaks " "] end
  | match goal with |- renders (Gap :: _) _ => splits ""; apply (renders_gap ""); [isblank|] end ].

(** A condition that begins with a list loses its parentheses, and the text is
    taken as a match of a list: a syntax error. *)
Theorem format_condition_refuted :
  exists s m t, parse s = Some m /\ renders (module_document m) t /\ parse t = None.
Proof.
  eexists "f = \(x [a]) a { if ([a 1] == x) { 1 } else { 2 } }", _,
    ("f = \(x [a]) a {" ++ indented ++ "if [a 1] == x {" ++ indented2 ++ "1" ++ indented ++ "} else {" ++ indented2 ++ "2" ++ indented ++ "}" ++ line ++ "}" ++ line).
  split; [vm_compute; reflexivity|]. split; [|vm_compute; reflexivity].
  vm_compute. layout.
Qed.
(** A function type that is the last member of a union loses its parentheses:
    a syntax error. *)
Theorem format_union_refuted :
  exists s m t, parse s = Some m /\ renders (module_document m) t /\ parse t = None.
Proof.
  eexists "type a = none | (\() none)", _, ("type a = none | \() none" ++ line).
  split; [vm_compute; reflexivity|]. split; [|vm_compute; reflexivity].
  vm_compute. layout.
Qed.
(** A statement that is a name, before a map: the two become one record. *)
Theorem format_statement_refuted :
  exists s m t n, parse s = Some m /\ renders (module_document m) t /\ parse t = Some n /\ ~ same_module m n.
Proof.
  eexists "f = \(x a) {b: c} { (x) {b: c} }", _, ("f = \(x a) {b: c} {" ++ indented ++ "x" ++ indented ++ "{b: c}" ++ line ++ "}" ++ line), _.
  split; [vm_compute; reflexivity|]. split; [vm_compute; layout|]. split; [vm_compute; reflexivity|]. intros (_ & _ & _ & H). discriminate.
Qed.
(** A statement before a negative number: the two become a subtraction. *)
Theorem format_sign_refuted :
  exists s m t n, parse s = Some m /\ renders (module_document m) t /\ parse t = Some n /\ ~ same_module m n.
Proof.
  eexists "f = \() a { g() (-1) }", _, ("f = \() a {" ++ indented ++ "g()" ++ indented ++ "-1" ++ line ++ "}" ++ line), _.
  split; [vm_compute; reflexivity|]. split; [vm_compute; layout|]. split; [vm_compute; reflexivity|]. intros (_ & _ & _ & H). discriminate.
Qed.

Print Assumptions format_module_partial.
Print Assumptions layout_keeps_module.
Print Assumptions format_again.
Print Assumptions format_injective_partial.
Print Assumptions format_total.
Print Assumptions format_condition_refuted.
Print Assumptions format_union_refuted.
Print Assumptions format_statement_refuted.
Print Assumptions format_sign_refuted.
