(** C45: private fields across source texts.

    A module that defines a record with a private field exports it closed
    ([private_record_exported_closed]), modules that import it pass it on closed
    ([private_record_passed_on_closed]), and those that are accepted neither
    construct it nor read or update its fields ([private_fields_across_texts_partial]). *)
From Coq Require Import String Ascii List ZArith Bool.
From Verif Require Import Base HirType HirTypeSpec HirTypeEq HirTypeSub HirTypeModule Hir HirSpec HirProgram HirMir LowerSpec LowerProgramSpec LowerTypeNames LowerSource LowerFits Syntax Ast Parser
  Resolve Desugar CrashSourceSpec PrivateSourceSpec PrivateSource PropsHir PropsLowerType  PropsLower PropsCrashSource.
Import ListNotations.
Local Open Scope string_scope.
Local Open Scope list_scope.

(** A text whose record [x] has a field that is not public makes an interface with
    [x] closed, if no module it is compiled with has a record of this name. *)
Theorem private_record_exported_closed : forall read_float prefix interfaces prelude s a m x,
  parse s = Some a -> compile_text read_float prefix interfaces prelude s = Ok m -> hides_field a x ->
  (forall i, reaches interfaces prelude i -> absent_in x i /\ absent_in (prefix ++ x) i) ->
  closed_in (prefix ++ x) (module_interface m).
Proof.
  intros rf prefix ints prel s a m x P H Hh Hi c Hc N. unfold module_interface in Hc. cbn [i_types] in Hc. apply in_map_iff in Hc. destruct Hc as (d & <- & Hd). cbn [it_name it_open] in *.
  destruct (text_types rf prefix ints prel s a m d P H Hd) as (y & Hy & [(X & i & c & Ri & Hc & Nc & O)|(X & Ny & l & Hl & O)]).
  - exfalso. destruct (Hi i Ri) as [A1 A2]. destruct Hy as [Q|[_ Q]].
    + apply (A2 c Hc). congruence.
    + apply (A1 c Hc). rewrite Nc. apply (append_left prefix). congruence.
  - rewrite N in Ny. apply append_left in Ny. subst y. destruct (Hh l Hl) as (z & Hz & Pz). rewrite O. apply in_map_iff in Hz. destruct Hz as (e & <- & He).
    destruct (forallb _ l) eqn:F; [|reflexivity]. rewrite forallb_forall in F. specialize (F e He). cbn in F. congruence.
Qed.
Print Assumptions private_record_exported_closed.

(** A text that does not define the record [name], compiled with interfaces that
    have it closed, makes an interface with it closed, and has no open record of
    this name for the analysis. *)
Theorem private_record_passed_on_closed : forall read_float prefix interfaces prelude s b m name,
  parse s = Some b -> compile_text read_float prefix interfaces prelude s = Ok m ->
  (forall y, defines_type b y -> (prefix ++ y)%string <> name) ->
  (forall i, reaches interfaces prelude i -> closed_in name i) ->
  closed_in name (module_interface m) /\ ~ In name (open_records (module_program m)).
Proof.
  intros rf prefix ints prel s b m name P H Hd Hi.
  assert (K : forall d, In d (rm_types m) -> rt_name d = name -> rt_open d = false /\ rt_external d = true).
  { intros d Id N. destruct (text_types rf prefix ints prel s b m d P H Id) as (y & Hy & [(X & i & c & Ri & Hc & Nc & O)|(X & Ny & l & Hl & O)]).
    - split; [|exact X]. rewrite O. destruct Hy as [Q|[D Q]]; [|exfalso; apply (Hd y D); congruence]. apply (Hi i Ri c Hc). congruence.
    - exfalso. apply (Hd y); [left; exists l; exact Hl|congruence]. }
  split.
  - intros c Hc N. unfold module_interface in Hc. cbn [i_types] in Hc. apply in_map_iff in Hc. destruct Hc as (d & <- & Id). exact (proj1 (K d Id N)).
  - unfold open_records, module_program. cbn [p_types]. rewrite in_map_iff. intros (t & N & Ht). apply filter_In in Ht. destruct Ht as [Ht O]. apply in_map_iff in Ht.
    destruct Ht as (d & <- & Id). cbn in N, O. destruct (K d Id N) as [O1 O2]. rewrite O1, O2 in O. discriminate O.
Qed.
Print Assumptions private_record_passed_on_closed.

(** An accepted text that does not define the record [name], compiled with
    interfaces that have it closed, does not construct this record and does not
    read or update its fields, outside the conditions of list comprehensions.
    Missing for the full statement: those conditions, where it is refuted (
    [private_fields_kept_refuted] in [PropsHir]); that the types of the program are
    defined is a hypothesis. *)
Theorem private_fields_across_texts_partial : forall f n read_float prefix interfaces prelude s b m q name,
  (forall i, reaches interfaces prelude i -> open_interface i) ->
  parse s = Some b -> compile_text read_float prefix interfaces prelude s = Ok m ->
  (forall y, defines_type b y -> (prefix ++ y)%string <> name) ->
  (forall i, reaches interfaces prelude i -> closed_in name i) ->
  context_ok f (program_env (module_program m)) (program_records (module_program m)) ->
  types_known f (program_env (module_program m)) (module_written (program_hir (module_program m))) ->
  analyze_program n (module_program m) = Ok q ->
  forall g l e t o, In (g, l) (p_defs q) -> outside_conditions (l_body l) e -> accessed e = Some (Some t) ->
    ~ teq (program_env q) t (TRecord name o).
Proof.
  intros f n rf prefix ints prel s b m q name Ho P H Hd Hi C K Hq g l e t o Hg He Ha Q.
  destruct (private_record_passed_on_closed rf prefix ints prel s b m name P H Hd Hi) as [_ No].
  assert (Raw : raw_program (module_program m)).
  { apply (source_is_raw rf prefix ints prel s m); [intros p i Hp; apply Ho; left; exists p; exact Hp|intros i Hp; apply Ho; right; exact Hp|exact H]. }
  unfold analyze_program in Hq. repeat (match type of Hq with (if ?c then _ else _) = _ => destruct c end; try discriminate Hq).
  apply bind_ok in Hq. destruct Hq as (m2 & Hm & [= <-]).
  pose proof (private_fields_kept_partial f _ _ n _ _ m2 C K (proj1 (raw_source _ Raw)) Hm) as A.
  change (program_env _) with (program_env (module_program m)) in Q. cbn [p_defs] in Hg.
  destruct (A g l Hg e (Some t) He Ha) as (s' & [= <-] & name' & o' & T & I). apply No.
  assert (W : wf f (program_env (module_program m))) by (apply C).
  replace name with name'; [exact I|].
  assert (S : teq (program_env (module_program m)) (TRecord name' o') (TRecord name o)).
  { eapply teq_trans; [apply teq_sym; exact T|exact Q]. }
  assert (E : TRecord name' o' = TRecord name o) by (eapply (teq_canon_eq f); [exact W|exact S|exists 1; reflexivity|exists 1; reflexivity]).
  injection E as E _. exact E.
Qed.
Print Assumptions private_fields_across_texts_partial.

(** ** An example *)

(** A shop exports items, which have a private field, and a module uses them. *)
Definition lines : list string -> string := String.concat (String (Ascii.ascii_of_nat 10) "").
Definition shop_text : string := lines
  ["type Item { name string";
   "Price number }";
   "New = \(s string, x number) Item { Item{name: s, Price: x} }";
   "Cost = \(i Item) number { i.Price }"].
Definition user_lines (body : string) : string := lines
  ["import 'Shop";
   "type basket { item Shop'Item }";
   "total = \(b basket) number { " ++ body ++ " }";
   "Main = \(s string, x number) number { total(basket{item: Shop'New(s, x)}) }"]%string.
Definition user_text : string := user_lines "Shop'Cost(b.item)".

Definition shop_ast : amodule := Eval vm_compute in match parse shop_text with Some a => a | None => AModule [] [] [] [] end.
Definition user_ast : amodule := Eval vm_compute in match parse user_text with Some a => a | None => AModule [] [] [] [] end.
Definition shop_module : rmodule := Eval vm_compute in
  match compile_text (fun _ => reject "") "/shop.pen:" (fun _ => None) [prelude_interface] shop_text with Ok m => m | _ => RModule [] [] [] [] [] end.
Definition shops (p : apath) : option interface := match p with Internal ["Shop"] => Some (module_interface shop_module) | _ => None end.
Definition compile_user (s : string) : res rmodule := compile_text (fun _ => reject "") "/user.pen:" shops [prelude_interface] s.
Definition user_module : rmodule := Eval vm_compute in match compile_user user_text with Ok m => m | _ => RModule [] [] [] [] [] end.

Definition user_original (x : string) : string :=
  if prefix "/user.pen:" x then substring 10 (String.length x) x else if prefix "/shop.pen:" x then substring 10 (String.length x) x else x.

Lemma shop_source : parse shop_text = Some shop_ast /\ compile_text (fun _ => reject "") "/shop.pen:" (fun _ => None) [prelude_interface] shop_text = Ok shop_module.
Proof. split; vm_compute; reflexivity. Qed.
Lemma user_source : parse user_text = Some user_ast /\ compile_user user_text = Ok user_module.
Proof. split; vm_compute; reflexivity. Qed.

(** The hypotheses of the three theorems *)
Example shop_exports :
  hides_field shop_ast "Item" /\ (forall i, reaches (fun _ => None) [prelude_interface] i -> absent_in "Item" i /\ absent_in "/shop.pen:Item" i) /\
  closed_in "/shop.pen:Item" (module_interface shop_module).
Proof.
  assert (H1 : hides_field shop_ast "Item").
  { intros l [[= <-]|[]]. exists "name". split; [left; reflexivity|reflexivity]. }
  assert (H2 : forall i, reaches (fun _ => None) [prelude_interface] i -> absent_in "Item" i /\ absent_in "/shop.pen:Item" i).
  { intros i [[p Hp]|[<-|[]]]; [discriminate Hp|]. split; intros d Hd; cbn in Hd; repeat (destruct Hd as [<-|Hd]; [intros Q; discriminate Q|]); destruct Hd. }
  split; [exact H1|]. split; [exact H2|]. destruct shop_source as [P H]. exact (private_record_exported_closed _ "/shop.pen:" _ _ _ _ _ "Item" P H H1 H2).
Qed.

Lemma shop_reached i : reaches shops [prelude_interface] i -> i = module_interface shop_module \/ i = prelude_interface.
Proof.
  intros [[p Hp]|[<-|[]]]; [left|right; reflexivity]. unfold shops in Hp. destruct p as [|[|x []]]; try discriminate Hp.
  all: repeat match type of Hp with context [match ?x with _ => _ end] => is_var x; destruct x; try discriminate Hp end; injection Hp as <-; reflexivity.
Qed.

Example user_meets :
  (forall i, reaches shops [prelude_interface] i -> open_interface i /\ closed_in "/shop.pen:Item" i) /\
  (forall y, defines_type user_ast y -> ("/user.pen:" ++ y)%string <> "/shop.pen:Item") /\
  In "/shop.pen:Item" (map rt_name (rm_types user_module)) /\
  program_fits user_original word_config (module_program user_module) /\
  (exists q, analyze_program 30 (module_program user_module) = Ok q) /\
  (** and reading the price there is rejected *)
  bind (compile_user (user_lines "b.item.Price")) (fun m => analyze_program 30 (module_program m)) = reject "RecordFieldPrivate".
Proof.
  split; [|split; [|split; [|split; [|split]]]].
  - intros i Hi. destruct (shop_reached i Hi) as [->| ->]; (split; [|try exact (proj2 (proj2 shop_exports))]).
    + intros d Hd. cbn in Hd. repeat (destruct Hd as [<-|Hd]; [intros Q; discriminate Q|]). destruct Hd.
    + intros d Hd. cbn in Hd. repeat (destruct Hd as [<-|Hd]; [intros Q; discriminate Q|]). destruct Hd.
    + intros d Hd. cbn in Hd. repeat (destruct Hd as [<-|Hd]; [intros Q; discriminate Q|]). destruct Hd.
  - intros y _ Q. cbn in Q. discriminate Q.
  - vm_compute. tauto.
  - apply (fits_as_ok user_original word_config _ 20 word_config_fits). vm_compute. reflexivity.
  - destruct (analyze_program 30 (module_program user_module)) as [q| | |] eqn:Q; [exists q; reflexivity|exfalso..]; revert Q; vm_compute; discriminate.
  - vm_compute. reflexivity.
Qed.
