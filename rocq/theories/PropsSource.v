(** C54 and C55 for every source text, C60, C61 and C62: from the text of a module
    to the module with resolved names.
    [compile_text] (Desugar.v) parses a text, looks its imports up, translates it
    and resolves its names.  [module_means] (SourceMeans.v) is what the constructs
    of the language stand for, [imports_found], [clear_source], [unambiguous] and
    [agreeing] (SourceSpec.v) are about imports. *)
From Coq Require Import String Ascii List Bool ZArith NArith Lia Sorted.
From Verif Require Import Base HirType Hir HirSpec HirParts LowerTypeSpec Syntax SyntaxSpec Ast Parser Printer ParserSpec ParserKept ParserModule Resolve ResolveSpec PropsResolve.
From Verif Require Import Desugar DesugarSpec DesugarProofs ParserWords ParserWordsProofs DesugarWritten SourceSpec SourceProofs NumberLiteral SourceMeans DesugarMeans FormatOrder PropsParse.
Import ListNotations.
Local Open Scope string_scope.
Local Open Scope list_scope.

(** ** C54 and C55 for every source text *)

Lemma compiled rf prefix interfaces prelude s m' :
  compile_text rf prefix interfaces prelude s = Ok m' ->
  exists m is r, parse s = Some m /\ worded_module m /\ imports_found interfaces m is /\ desugar_module rf m = Ok r /\ written_module r /\ resolve_module r prefix is prelude = Ok m'.
Proof.
  unfold compile_text. destruct (parse s) as [m|] eqn:P; [|discriminate]. unfold front_end. intros H.
  apply bind_ok in H. destruct H as (is & Hi & H). apply bind_ok in H. destruct H as (r & Hr & H). pose proof (parse_worded s m P) as W.
  exists m, is, r. repeat (split; [first [assumption|apply (imports_ok interfaces m is); [apply W|exact Hi]|reflexivity]|]). split; [apply (module_written rf m r W Hr)|exact H].
Qed.

(** A text that is compiled becomes the code its constructs stand for, with every
    name replaced by what it refers to. *)
Theorem source_names_resolved rf prefix interfaces prelude s m' :
  compile_text rf prefix interfaces prelude s = Ok m' -> mangled prefix ->
  (forall m is, parse s = Some m -> imports_found interfaces m is -> clear_source m is prelude) ->
  exists m is r, parse s = Some m /\ imports_found interfaces m is /\ module_means (number_read rf) string_read m r /\
    Forall2 (function_resolved prefix r is) (rm_functions r) (rm_functions m') /\
    Forall2 (foreign_resolved prefix r is) (rm_foreign r) (rm_foreign m') /\
    (exists outer types, rm_types m' = outer ++ types /\ (forall d, In d outer -> rt_external d = true) /\ Forall2 (record_resolved prefix r is) (rm_types r) types) /\
    (exists outer aliases, rm_aliases m' = outer ++ aliases /\ (forall a, In a outer -> ra_external a = true) /\ Forall2 (alias_resolved prefix r is) (rm_aliases r) aliases).
Proof.
  intros H HP HC. destruct (compiled _ _ _ _ _ _ H) as (m & is & r & P & W & HI & HD & HW & HR). exists m, is, r. split; [exact P|]. split; [exact HI|]. split; [apply desugar_module_means, HD|].
  exact (names_resolved r prefix is prelude m' HR HW (clear_desugared rf m r is prelude HD (HC m is P HI)) HP).
Qed.
Print Assumptions source_names_resolved.

(** A variable is used in the code where, and in the scope in which, it is used in
    the source. *)
Theorem source_scopes_kept rf e h S U x : desugar rf e = Ok h -> source_uses S e U x <-> code_uses S h U x.
Proof. intros H. apply (desugar_uses rf e h S U x H). Qed.
Print Assumptions source_scopes_kept.

Lemma found_modules interfaces m is : imports_found interfaces m is -> (forall p i, interfaces p = Some i -> exists other, i = module_interface other) ->
  exists ms, Forall2 (fun i other => im_interface i = module_interface other) is ms /\
    (forall other, In other ms -> exists a, In a (m_imports m) /\ interfaces (i_path a) = Some (module_interface other)).
Proof.
  unfold imports_found. intros F C. induction F as [|a i l is (H1 & _) F IH]; [exists []; split; [constructor|intros o []]|].
  destruct IH as (ms & M1 & M2). destruct (C _ _ H1) as (o & Ho). exists (o :: ms). split; [constructor; assumption|]. intros o' [<-|I].
  - exists a. split; [left; reflexivity|]. rewrite H1, Ho. reflexivity.
  - destruct (M2 o' I) as (b & Ib & Hb). exists b. split; [right; exact Ib|exact Hb].
Qed.

(** Compiled code mentions functions of its text and public functions of the
    modules that the text imports, and so for types. *)
Theorem source_only_public_functions rf prefix interfaces prelude s m' d y :
  compile_text rf prefix interfaces prelude s = Ok m' -> mangled prefix ->
  (forall m is, parse s = Some m -> imports_found interfaces m is -> clear_source m is prelude) ->
  (forall p i, interfaces p = Some i -> exists other, i = module_interface other) ->
  In d (rm_functions m') -> occurs (HVariable y) (l_body (rd_lambda d)) -> mangled y ->
  exists m, parse s = Some m /\
    ((exists x, In x (map f_name (m_foreign m) ++ map fn_name (m_functions m)) /\ y = (prefix ++ x)%string) \/
     (exists i other, In i (m_imports m) /\ interfaces (i_path i) = Some (module_interface other) /\ offers_function other y)).
Proof.
  intros H HP HC HM Hd Ho My. destruct (compiled _ _ _ _ _ _ H) as (m & is & r & P & W & HI & HD & HW & HR). exists m. split; [exact P|].
  destruct (found_modules _ _ _ HI HM) as (ms & M1 & M2).
  destruct (only_public_functions r prefix is prelude m' ms d y HR HW (clear_desugared rf m r is prelude HD (HC m is P HI)) HP M1 Hd Ho My) as [(x & Hx & E)|(o & Io & Hf)].
  - left. exists x. split; [|exact E]. unfold own_function in Hx. apply desugar_module_means in HD. destruct HD as [F G _ _ _].
    assert (E1 : map rf_name (rm_foreign r) = map f_name (m_foreign m)) by (clear -G; induction G as [|a b l k (N & _) G IH]; cbn; congruence).
    assert (E2 : map rd_name (rm_functions r) = map fn_name (m_functions m)) by (clear -F; induction F as [|a b l k (N & _) G IH]; cbn; congruence).
    rewrite E1, E2 in Hx. exact Hx.
  - right. destruct (M2 o Io) as (a & Ia & Ha). exists a, o. auto.
Qed.
Print Assumptions source_only_public_functions.

Definition type_name (d : atypedef) : string := match d with DRecord x _ | DAlias x _ => x end.
Theorem source_only_public_types rf prefix interfaces prelude s m' t y :
  compile_text rf prefix interfaces prelude s = Ok m' -> mangled prefix ->
  (forall m is, parse s = Some m -> imports_found interfaces m is -> clear_source m is prelude) ->
  (forall p i, interfaces p = Some i -> exists other, i = module_interface other) ->
  mentioned m' t -> In y (references t) -> mangled y ->
  exists m, parse s = Some m /\
    ((exists x, In x (map type_name (m_types m)) /\ y = (prefix ++ x)%string) \/
     (exists i other, In i (m_imports m) /\ interfaces (i_path i) = Some (module_interface other) /\ offers_type other y)).
Proof.
  intros H HP HC HM Ht Hy My. destruct (compiled _ _ _ _ _ _ H) as (m & is & r & P & W & HI & HD & HW & HR). exists m. split; [exact P|].
  destruct (found_modules _ _ _ HI HM) as (ms & M1 & M2).
  destruct (only_public_types r prefix is prelude m' ms t y HR HW (clear_desugared rf m r is prelude HD (HC m is P HI)) HP M1 Ht Hy My) as [(x & Hx & E)|(o & Io & Hf)].
  - left. exists x. split; [|exact E]. unfold own_type in Hx. apply desugar_module_means in HD. destruct HD as [_ _ F G _].
    assert (E1 : forall z, In z (map rt_name (rm_types r)) -> In z (map type_name (m_types m))).
    { intros z Iz. apply in_map_iff in Iz. destruct Iz as (b & <- & Ib). destruct (Forall2_both _ _ _ F) as [_ B]. destruct (B b Ib) as (a & Ia & (x0 & l & -> & -> & _)). apply filter_In in Ia. apply in_map_iff. exists (DRecord x0 l). split; [reflexivity|apply Ia]. }
    assert (E2 : forall z, In z (map ra_name (rm_aliases r)) -> In z (map type_name (m_types m))).
    { intros z Iz. apply in_map_iff in Iz. destruct Iz as (b & <- & Ib). destruct (Forall2_both _ _ _ G) as [_ B]. destruct (B b Ib) as (a & Ia & (x0 & l & -> & -> & _)). apply filter_In in Ia. apply in_map_iff. exists (DAlias x0 l). split; [reflexivity|apply Ia]. }
    apply in_app_iff in Hx. destruct Hx; auto.
  - right. destruct (M2 o Io) as (a & Ia & Ha). exists a, o. auto.
Qed.
Print Assumptions source_only_public_types.

(** ** C60: integer literals *)

Lemma literal_bits v : (v < 2 ^ 64)%N -> (Z.of_N v <=? 2 ^ 64 - 1)%Z = true.
Proof. intros H. apply Z.leb_le. change (2 ^ 64)%Z with (Z.of_N (2 ^ 64)). lia. Qed.
Lemma literal_large v : (2 ^ 64 <= v)%N -> (Z.of_N v <=? 2 ^ 64 - 1)%Z = false.
Proof. intros H. apply Z.leb_gt. change (2 ^ 64)%Z with (Z.of_N (2 ^ 64)). lia. Qed.
Lemma literal_exact v : (v < 2 ^ 53)%N -> whole_bits (float_bits (Float.of_int (Z.of_N v))) (Z.of_N v).
Proof. intros H. apply small_bits. change (2 ^ 53)%Z with (Z.of_N (2 ^ 53)). lia. Qed.

(** A hexadecimal literal of fewer than 64 bits is a number, the one its digits
    denote if it is below 2^53; one of more is rejected. *)
Theorem hexadecimal_literal rf d k x :
  digits is_hex d -> not_next is_word k = true -> skip x = ("0x" ++ d ++ k)%string ->
  exists n v, number_literal x = POk n k /\ positional 16 d v /\
    ((v < 2 ^ 64)%N -> exists z, desugar_number rf n = Ok z /\ ((v < 2 ^ 53)%N -> whole_bits z (Z.of_N v))) /\
    ((2 ^ 64 <= v)%N -> desugar_number rf n = reject "ParseInteger").
Proof.
  intros D K E. destruct D as [D1 D2]. destruct (positional_exists 16 d D1 (all_chars_imp _ _ _ hex_digit D2)) as (v & V).
  exists (NHexadecimal (smap lower d)), v. split; [apply hexadecimal_read; [split; assumption|exact K|exact E]|]. split; [exact V|]. cbn [desugar_number]. rewrite (read_lower d v D2 V). split; intros L.
  - rewrite (literal_bits v L). eexists. split; [reflexivity|apply literal_exact].
  - rewrite (literal_large v L). reflexivity.
Qed.
Print Assumptions hexadecimal_literal.
Theorem binary_literal rf d k x :
  digits is_bit d -> not_next is_word k = true -> skip x = ("0b" ++ d ++ k)%string ->
  exists n v, number_literal x = POk n k /\ positional 2 d v /\
    ((v < 2 ^ 64)%N -> exists z, desugar_number rf n = Ok z /\ ((v < 2 ^ 53)%N -> whole_bits z (Z.of_N v))) /\
    ((2 ^ 64 <= v)%N -> desugar_number rf n = reject "ParseInteger").
Proof.
  intros D K E. destruct D as [D1 D2]. destruct (positional_exists 2 d D1 (all_chars_imp _ _ _ bit_digit D2)) as (v & V).
  exists (NBinary d), v. split; [apply binary_read; [split; assumption|exact K|exact E]|]. split; [exact V|]. cbn [desugar_number]. rewrite (read_digits 2 d v V). split; intros L.
  - rewrite (literal_bits v L). eexists. split; [reflexivity|apply literal_exact].
  - rewrite (literal_large v L). reflexivity.
Qed.
Print Assumptions binary_literal.
(** Digits denote one number, and its bits are those of one double. *)
Theorem literal_unique radix d v w : positional radix d v -> positional radix d w -> v = w.
Proof. apply positional_unique. Qed.
Print Assumptions literal_unique.

Example literal_example : exists z,
  number_literal " 0x1fF)" = POk (NHexadecimal "1ff") ")" /\ positional 16 "1fF" 511 /\
  desugar_number (fun _ => reject "") (NHexadecimal "1ff") = Ok z /\ whole_bits z 511.
Proof.
  assert (D : digits is_hex "1fF") by (split; [discriminate|reflexivity]).
  assert (E : positional 16 "1fF" 511).
  { apply (positional_more 16 "1" 1 "fF" 255); [reflexivity|reflexivity|]. apply (positional_more 16 "f" 15 "F" 15); [reflexivity|reflexivity|]. apply positional_one; reflexivity. }
  exists (float_bits (Float.of_int (Z.of_N 511))). split; [apply (hexadecimal_read "1fF" ")"); [exact D|reflexivity|reflexivity]|]. split; [exact E|]. split.
  - exact (read_lower "1fF" 511 (proj2 D) E).
  - apply (literal_exact 511). reflexivity.
Qed.

(** ** C61: formatting does not change the compiled module *)

(** Partial: modules with parentheses that the formatter drops are excluded (see
    PropsFormat.v), and so are imports that go by the same name, for the formatter
    puts imports in order. *)
Theorem format_keeps_program_partial rf prefix interfaces prelude s m t :
  parse s = Some m -> kept_module m -> renders (module_document m) t -> mangled prefix ->
  (forall is, imports_found interfaces m is -> clear_source m is prelude /\ unambiguous is /\ agreeing (map im_interface is ++ prelude)) ->
  same_result (compile_text rf prefix interfaces prelude s) (compile_text rf prefix interfaces prelude t).
Proof.
  intros P K R HP HC. pose proof (parsed_faithful s m P K) as F. destruct (module_ok m t F R) as [E S]. unfold compile_text. rewrite P, E.
  apply front_end_same; [exact HP|exact (parse_worded s m P)|exact S|exact HC].
Qed.
Print Assumptions format_keeps_program_partial.

(** ** C62: every text that parses is translated, unless a number is too large *)
Theorem parsed_translated rf s m :
  parse s = Some m -> (forall n, number_of n m -> exists z, desugar_number rf n = Ok z) -> exists r, desugar_module rf m = Ok r.
Proof. intros P G. exact (module_total rf m (parse_worded s m P) G). Qed.
Print Assumptions parsed_translated.

(** ** An example *)
Definition newline_ : string := String (ascii_of_nat 10) "".
Definition till_text : string :=
  ("import 'Shop { total }" ++ newline_ ++ "Count = \(x number, go Shop'item) number {" ++ newline_ ++
   "y = total(go)" ++ newline_ ++ "Shop'vat(x, y) }")%string.
Definition shops (p : apath) : option interface :=
  match p with Internal [x] => if String.eqb x "Shop" then Some (module_interface shop) else None | _ => None end.
Definition till_module : amodule :=
  AModule [AImport (Internal ["Shop"]) None ["total"]] [] []
    [ADefinition "Count" (ALambda [("x", AReference "number"); ("go", AReference "Shop'item")] (AReference "number")
       (Block [(Some "y", XCall (XVariable "total") [XVariable "go"])] (XCall (XVariable "Shop'vat") [XVariable "x"; XVariable "y"]))) None].
Lemma till_parsed : parse till_text = Some till_module.
Proof. vm_compute. reflexivity. Qed.
Lemma till_imports is : imports_found shops till_module is -> is = [shop_import].
Proof.
  intros F. inversion F as [|a i l k (H1 & H2 & H3) F']; subst. inversion F'; subst. cbn [i_path i_prefix i_names] in *. cbn in H1. injection H1; clear H1; intros H1.
  destruct H2 as (l & H2). destruct l as [|x l]; [|destruct l; discriminate]. injection H2; clear H2; intros H2. destruct i as [f p u]; cbn in *. subst. reflexivity.
Qed.
Example till_compiles : exists m',
  compile_text (fun _ => reject "") "/till.pen:" shops [] till_text = Ok m' /\ mangled "/till.pen:" /\
  (forall m is, parse till_text = Some m -> imports_found shops m is -> clear_source m is [] /\ unambiguous is /\ agreeing (map im_interface is ++ [])) /\
  (forall p i, shops p = Some i -> exists other, i = module_interface other) /\
  kept_module till_module /\ renders (module_document till_module) (Printer.plain (module_document till_module)) /\
  map rd_lambda (rm_functions m') =
  [Lambda [("x", TNumber); ("go", TReference "/shop.pen:item")] TNumber
     (HLet (Some "y") None (HCall None (HVariable "/shop.pen:total") [HVariable "go"]) (HCall None (HVariable "/shop.pen:vat") [HVariable "x"; HVariable "y"]))].
Proof.
  eexists. split; [unfold compile_text; rewrite till_parsed; vm_compute; reflexivity|]. split; [reflexivity|]. split.
  - intros m is P. rewrite till_parsed in P. injection P; clear P; intros <-. intros F. apply till_imports in F. subst is. split; [|split].
    + constructor.
      * intros i d [<-|[]] Hd. cbn in Hd. repeat destruct Hd as [<-|Hd]; try reflexivity. destruct Hd.
      * intros i [<-|[]]. split; intros d Hd; cbn in Hd; repeat destruct Hd as [<-|Hd]; try reflexivity; destruct Hd.
      * intros f y [].
    + split.
      * intros x y z (i & d & [<-|[]] & Hd & Gd & <-) (j & e & [<-|[]] & He & Ge & <-).
        cbn in Hd, He; repeat destruct Hd as [<-|Hd]; try destruct Hd; repeat destruct He as [<-|He]; try destruct He; try reflexivity;
          destruct Gd as [[U ->]|[U ->]], Ge as [[V W]|[V W]]; cbn in *; try discriminate; intuition discriminate.
      * intros x y z (i & o & [<-|[]] & Gd & [(d & Hd & Pd & <- & <-)|(d & [] & _)]) (j & p & [<-|[]] & Ge & [(e & He & Pe & <- & <-)|(e & [] & _)]).
        cbn in Hd, He; repeat destruct Hd as [<-|Hd]; try destruct Hd; repeat destruct He as [<-|He]; try destruct He; cbn in *; try discriminate; reflexivity.
    + constructor; intros i j a b [<-|[]] [<-|[]] Ha Hb; cbn in Ha, Hb; repeat destruct Ha as [<-|Ha]; try destruct Ha; repeat destruct Hb as [<-|Hb]; try destruct Hb; cbn; try discriminate; reflexivity.
  - split.
    + intros p i. unfold shops. destruct p as [|l]; [discriminate|]. destruct l as [|x l]; [discriminate|]. destruct l; [|discriminate]. destruct (String.eqb x "Shop"); [|discriminate]. intros [= <-]. exists shop. reflexivity.
    + split; [|split; [apply renders_plain|reflexivity]].
      repeat match goal with
      | |- _ /\ _ => split
      | |- True => exact I
      | |- _ <> _ => discriminate
      | |- _ = true => reflexivity
      | |- _ -> False => discriminate
      | |- _ => progress hnf
      end.
Qed.

(** ** What does not hold *)

(** Finding 47: two imports may go by the same name, and then the formatter, which
    sorts imports, changes which of them is used. *)
Definition clash_text : string := ("import 'C'B" ++ newline_ ++ "import 'A'B" ++ newline_ ++ "f = \() number { B'g() }")%string.
Definition clash_interfaces (p : apath) : option interface :=
  match p with Internal [x; _] => Some (Interface [] [] [IFunction (x ++ ":g") "g" (TFunction [] TNumber)]) | _ => None end.
Definition clash_module : amodule :=
  AModule [AImport (Internal ["C"; "B"]) None []; AImport (Internal ["A"; "B"]) None []] [] []
    [ADefinition "f" (ALambda [] (AReference "number") (Block [] (XCall (XVariable "B'g") []))) None].
Lemma clash_parsed : parse clash_text = Some clash_module.
Proof. vm_compute. reflexivity. Qed.
Theorem format_ambiguous_imports_refuted : exists interfaces s m t a b,
  parse s = Some m /\ kept_module m /\ renders (module_document m) t /\
  (forall is, imports_found interfaces m is -> clear_source m is [] /\ agreeing (map im_interface is ++ [])) /\
  compile_text (fun _ => reject "") "x:" interfaces [] s = Ok a /\ compile_text (fun _ => reject "") "x:" interfaces [] t = Ok b /\
  map (fun d => l_body (rd_lambda d)) (rm_functions a) = [HCall None (HVariable "A:g") []] /\
  map (fun d => l_body (rd_lambda d)) (rm_functions b) = [HCall None (HVariable "C:g") []].
Proof.
  exists clash_interfaces, clash_text, clash_module, (Printer.plain (module_document clash_module)). eexists. eexists.
  assert (K : kept_module clash_module).
  { repeat match goal with
    | |- _ /\ _ => split
    | |- True => exact I
    | |- _ <> _ => discriminate
    | |- _ = true => reflexivity
    | |- _ -> False => discriminate
    | |- _ => progress hnf
    end. }
  split; [exact clash_parsed|]. split; [exact K|]. split; [apply renders_plain|]. split.
  - intros is F. inversion F as [|a i l k (H1 & _) F']; subst. inversion F' as [|a' j l k' (H2 & _) F'']; subst. inversion F''; subst. cbn in H1, H2.
    injection H1; clear H1; intros H1. injection H2; clear H2; intros H2. cbn [map app]. rewrite <- H1, <- H2. split.
    + constructor; cbn [map app].
      * intros i' d [<-|[<-|[]]]; [rewrite <- H1|rewrite <- H2]; intros [<-|[]]; reflexivity.
      * rewrite <- H1, <- H2. intros i' [<-|[<-|[]]]; split; intros d [].
      * intros f y [].
    + constructor; intros i' j' a b [<-|[<-|[]]] [<-|[<-|[]]]; intros Ha Hb; cbn in Ha, Hb; intuition; subst; cbn in *; try discriminate; reflexivity.
  - split; [unfold compile_text; rewrite clash_parsed; vm_compute; reflexivity|]. split; [|split; [reflexivity|]].
    + unfold compile_text. destruct (module_ok clash_module _ (parsed_faithful _ _ clash_parsed K) (renders_plain _)) as [-> _]. vm_compute. reflexivity.
    + reflexivity.
Qed.
Print Assumptions format_ambiguous_imports_refuted.

(** ** C58: the imports of formatted modules are in order *)
Theorem format_sorts_imports s m t m' :
  parse s = Some m -> kept_module m -> renders (module_document m) t -> parse t = Some m' ->
  Sorted import_order (m_imports m') /\ (forall i, In i (m_imports m') -> Sorted string_order (i_names i)).
Proof.
  intros P K R E. destruct (module_ok m t (parsed_faithful s m P K) R) as [H _]. rewrite H in E. injection E; clear E; intros <-. apply imports_sorted.
Qed.
Print Assumptions format_sorts_imports.
Example clash_sorted : exists m', parse (Printer.plain (module_document clash_module)) = Some m' /\
  map i_path (m_imports m') = [Internal ["A"; "B"]; Internal ["C"; "B"]].
Proof. exists (sorted_module clash_module). split; [|reflexivity]. apply module_ok; [apply (parsed_faithful _ _ clash_parsed)|apply renders_plain].
  repeat match goal with
  | |- _ /\ _ => split
  | |- True => exact I
  | |- _ <> _ => discriminate
  | |- _ = true => reflexivity
  | |- _ -> False => discriminate
  | |- _ => progress hnf
  end.
Qed.
