(** C67, from source texts: the compiler does not crash on any text.

    A crash of the compiler (a Rust panic) is [Panic] in the model; rejecting a
    text is not.  [compile_text] parses a text, finds the interfaces of its
    imports and resolves its names; [module_program] of [CrashSourceSpec] is the
    resulting module as analysis takes it.  [open_interface] is a property of
    all interfaces that the compiler makes ([made_interfaces_open]). *)
From Coq Require Import String Ascii List ZArith.
From Verif Require Import Base HirType HirTypeModule HirTypeSpec Hir HirSpec HirValidate HirMir HirProgram LowerTypeSpec LowerProgramSpec MeaningProgramSpec LowerFits Ast Parser Resolve Desugar
  CrashSpec CrashBase CrashAnalysis CrashProgram CrashSourceSpec CrashSource PropsHir PropsLower PropsLowerType PropsMeaning.
Import ListNotations.
Local Open Scope string_scope.
Local Open Scope list_scope.

(** Whatever a text and the interfaces are, the front end makes a module or
    rejects the text, if reading decimal numbers ([read_float]) does not crash. *)
Theorem front_end_does_not_crash : forall read_float prefix interfaces prelude s,
  (forall x, read_float x <> Panic) ->
  compile_text read_float prefix interfaces prelude s <> Panic /\ compile_prelude_text read_float prefix s <> Panic.
Proof. intros rf prefix is prelude s H. split; [exact (calm_text rf H prefix is prelude s)|exact (calm_prelude rf H prefix s)]. Qed.
Print Assumptions front_end_does_not_crash.

(** The interfaces of modules made from texts say of records without fields that
    they have no private ones. *)
Theorem made_interfaces_open : forall read_float i, made_interface read_float i -> open_interface i.
Proof. exact made_open. Qed.
Print Assumptions made_interfaces_open.

(** The analysis of a module that is made from a text accepts or rejects it, if
    the interfaces of other modules are made from texts: analysis does not crash
    on any program that consists of texts. *)
Theorem source_analysis_does_not_crash : forall read_float n,
  (forall prefix s m, compile_prelude_text read_float prefix s = Ok m -> analyze_program n (module_program m) <> Panic) /\
  (forall prefix interfaces prelude s m,
     (forall p i, interfaces p = Some i -> made_interface read_float i) -> (forall i, In i prelude -> made_interface read_float i) ->
     compile_text read_float prefix interfaces prelude s = Ok m -> analyze_program n (module_program m) <> Panic).
Proof.
  intros rf n. split.
  - intros prefix s m H. apply calm_program, kept_program. exact (prelude_kept rf prefix s m H).
  - intros prefix is prelude s m H1 H2 H. apply calm_program, kept_program. eapply text_kept; [| |exact H].
    + intros p i Hi. exact (made_open rf i (H1 p i Hi)).
    + intros i Hi. exact (made_open rf i (H2 i Hi)).
Qed.
Print Assumptions source_analysis_does_not_crash.

(** What the parser makes has no annotations, conversions or thunks. *)
Theorem source_is_raw : forall read_float prefix interfaces prelude s m,
  (forall p i, interfaces p = Some i -> open_interface i) -> (forall i, In i prelude -> open_interface i) ->
  compile_text read_float prefix interfaces prelude s = Ok m -> raw_program (module_program m).
Proof. intros rf prefix is prelude s m H1 H2 H. apply kept_raw. exact (text_kept rf prefix is prelude s m H1 H2 H). Qed.
Print Assumptions source_is_raw.

(** No record literal or update of a text gives a field twice: the parser rejects
    such texts. *)
Theorem source_gives_fields_once : forall read_float prefix interfaces prelude s m,
  (forall p i, interfaces p = Some i -> open_interface i) -> (forall i, In i prelude -> open_interface i) ->
  compile_text read_float prefix interfaces prelude s = Ok m -> fields_once (module_program m).
Proof. intros rf prefix is prelude s m H1 H2 H. apply kept_once. exact (text_kept rf prefix is prelude s m H1 H2 H). Qed.
Print Assumptions source_gives_fields_once.

(** From texts to MIR.
    Missing for the full statement: programs that [program_fits] leaves out and
    the passes over MIR. *)
Theorem source_compilation_does_not_crash_partial : forall read_float prefix interfaces prelude s m f n k C,
  (forall p i, interfaces p = Some i -> open_interface i) -> (forall i, In i prelude -> open_interface i) ->
  compile_text read_float prefix interfaces prelude s = Ok m ->
  program_fits f C (module_program m) -> compile_program n k C (module_program m) <> Panic.
Proof.
  intros rf prefix is prelude s m f n k C H1 H2 H F. pose proof (text_kept rf prefix is prelude s m H1 H2 H) as K.
  exact (calm_compilation f n k C _ (kept_program m K) F (kept_raw m K)).
Qed.
Print Assumptions source_compilation_does_not_crash_partial.

(** A text: the functions of [calc], as a source module *)
Definition calc_lines : list string :=
  ["import foreign ask \(string) number";
   "type p { X number Y number | string }";
   "half = \(s string) number | error { if s == """" { error(s) } else { ask(s) } }";
   "twice = \(g \(number) number, a number) number { g(g(a)) }";
   "Main = \(s string) number | error {";
   "v = half(s)?";
   "r = p{X: v, Y: s}";
   "twice(\(b number) number { b + r.X }, v) }";
   "like = \(a p, s string) boolean { if y = a.Y as string { s == y } else { a == p{...a, Y: s} } }"].
Definition calc_text : string := String.concat (String (Ascii.ascii_of_nat 10) "") calc_lines.
(** The names without the module's *)
Definition original (x : string) : string := if prefix "/calc.pen:" x then substring 10 (String.length x) x else x.
Definition prelude_interface : interface :=
  Interface (map (fun d => IType (td_name (t_def d)) (td_original (t_def d)) (td_fields (t_def d)) (t_open d) false) (p_types (with_prelude [] [] []))) []
    (map (fun d => IFunction (fst d) (fst d) (snd d)) prelude_declarations).
Definition calc_compiled : res rmodule := compile_text (fun _ => reject "") "/calc.pen:" (fun _ => None) [prelude_interface] calc_text.

Definition calc_module : rmodule := Eval vm_compute in match calc_compiled with Ok m => m | _ => RModule [] [] [] [] [] end.
Lemma calc_source : calc_compiled = Ok calc_module.
Proof. vm_compute. reflexivity. Qed.

(** The text has a record type, a union, an update, a closure and [?]. *)
Example source_example :
  calc_compiled = Ok calc_module /\ (forall i, In i [prelude_interface] -> open_interface i) /\
  map rd_name (rm_functions calc_module) = ["/calc.pen:half"; "/calc.pen:twice"; "/calc.pen:Main"; "/calc.pen:like"] /\
  program_fits original word_config (module_program calc_module) /\ (exists M, compile_program 30 60 word_config (module_program calc_module) = Ok M).
Proof.
  split; [exact calc_source|].
  split; [intros i [<-|[]] d Hd; cbn in Hd; repeat (destruct Hd as [<-|Hd]; [intros Q; discriminate Q|]); destruct Hd|]. split; [reflexivity|].
  split; [apply (fits_as_ok original word_config _ 20 word_config_fits); vm_compute; reflexivity|].
  destruct (compiled_ok (fun _ => true) (module_program calc_module)) as (M & H & _); [vm_compute; reflexivity|]. exists M. exact H.
Qed.

(** A module of the prelude, a module with a record type without fields, and a
    module that imports that type, constructs it and has an error of types *)
Definition unit_text : string := "type Unit {} Get = \() Unit { Unit{} }".
Definition unit_compiled : res rmodule := compile_text (fun _ => reject "") "/unit.pen:" (fun _ => None) [] unit_text.
Definition unit_module : rmodule := Eval vm_compute in match unit_compiled with Ok m => m | _ => RModule [] [] [] [] [] end.
Lemma unit_source : unit_compiled = Ok unit_module.
Proof. vm_compute. reflexivity. Qed.
Definition unit_imported (p : apath) : option interface := match p with Internal [x] => if String.eqb x "Unit" then Some (module_interface unit_module) else None | _ => None end.
Definition use_compiled : res rmodule :=
  compile_text (fun _ => reject "") "/use.pen:" unit_imported [] "import 'Unit Main = \() number { Unit'Get() == Unit'Unit{} }".
Example made_example : exists m,
  (exists m0, compile_prelude_text (fun _ => reject "") "prelude:" "type List { node any } First = \(l List) any { l.node }" = Ok m0) /\
  (forall p i, unit_imported p = Some i -> made_interface (fun _ => reject "") i) /\ use_compiled = Ok m /\
  map rd_lambda (rm_functions m) = [Lambda [] TNumber
    (HBinary (BinEquality None HEqual) (HCall None (HVariable "/unit.pen:Get") []) (HRecord (TReference "/unit.pen:Unit") []))] /\
  analyze_program 30 (module_program m) = reject "TypesNotMatched".
Proof.
  eexists. split; [eexists; vm_compute; reflexivity|]. split; [|split; [vm_compute; reflexivity|split; [reflexivity|vm_compute; reflexivity]]].
  intros p i. unfold unit_imported. destruct p as [|l]; [discriminate|]. destruct l as [|x l]; [discriminate|]. destruct l; [|discriminate]. destruct (String.eqb x "Unit"); [|discriminate]. intros [= <-].
  apply (made_module _ "/unit.pen:" (fun _ => None) [] unit_text unit_module); [discriminate|intros i []|exact unit_source].
Qed.
