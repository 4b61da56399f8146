(** How the values and states of [HirMeaning] look at run time, and what compiled
    code relies on. *)
From Coq Require Import String Ascii List ZArith Bool.
From Verif Require Import Base Mir HirType HirTypeSpec Hir HirSpec HirMir LowerSpec LowerTypeSpec RunSpec HirMeaning.
Import ListNotations.
Local Open Scope string_scope.

Section Represent.
  Variable f : string -> string.
  Variable n : nat.
  Variable E : tenv.
  Variable R : renv.
  Variable C : config.
  Variable T : ty -> Prop.
  Variable p : hmodule.
  Variable m : mmodule.

  (** The functions that comparisons call: the prelude's comparison of strings and
      the records' equality functions *)
  Definition compares (g : string) : Prop := g = string_equal C \/ exists r, lookup R r <> None /\ g = record_equal_name r.

  (** A name that a program may bind: not one of the compiler's variables, and not
      one of these functions. *)
  Definition own_name (x : string) : Prop := user_name x /\ ~ compares x.

  (** What the code of one expression relies on: the expression binds names of its
      own, its types are known, it gives no field of a record twice, and the
      module declares the records that carry its functions, lists and maps in
      variants. *)
  Definition node_ok (e : hexpr) : Prop :=
    (forall x, In x (bound e) -> own_name x) /\
    match e with
    | HVariable x => user_name x
    | HIfType _ _ bs els =>
        forall bt b, In (bt, b) (all_branches bs els) -> tidy_type f E bt /\ (has_alt E bt TAny \/ uses E T bt)
    | HTry (Some t) _ => tidy_type f E t /\ uses E T t
    | HCoerce s t _ =>
        tidy_type f E s /\ tidy_type f E t /\ ~ teq E s t /\ uses E T s /\
        (forall c v b, teq E s c -> boxed E C c v b -> carried m c b)
    | HBinary (BinEquality (Some t) _) _ _ => tidy_type f E t /\ uses E T t
    | HRecord t fs => NoDup (map fst fs)
    | HUpdate t _ fs => NoDup (map fst fs)
    | _ => True
    end.
  Definition fine (e : hexpr) : Prop := forall e', occurs e' e -> node_ok e'.

  (** [rep u v]: at run time, [u] is [v].  A record has its fields in the order of
      its type.  A value of a union or of [any] is in the box of its type.  A
      closure has the code compiled from its body, and the variables of its
      scope. *)
  Inductive rep : hvalue -> value -> Prop :=
  | rep_boolean : forall b, rep (UBoolean b) (VBool b)
  | rep_number : forall z, rep (UNumber z) (VNumber z)
  | rep_string : forall s, rep (UString s) (VBytes s)
  | rep_none : rep UNone VNone
  | rep_record : forall r fts fs vs, lookup R r = Some fts ->
      Forall2 (fun ft v => exists u, lookup fs (fst ft) = Some u /\ rep u v) fts vs ->
      rep (URecord r fs) (VRecord r vs)
  | rep_error : forall u v, rep u v -> rep (UError u) (VRecord error_record [v])
  | rep_tagged : forall a c u v b, teq E a c -> tidy_type f E c -> tags_among T c -> boxed E C c v b -> rep u v ->
      rep (UTagged a u) b
  | rep_closure : forall xs body rho k args r code c,
      map fst args = xs -> Forall own_name xs -> fine body -> compile n E R C k body = Ok code ->
      (forall g, compares g -> lookup rho g = None) ->
      (forall x u, user_name x -> lookup rho x = Some u -> exists v, lookup c x = Some v /\ rep u v) ->
      (forall x, user_name x -> lookup rho x = None -> lookup c x = None) ->
      rep (UClosure xs body rho) (VClosure (Fdef "$closure" [] args r code false) c)
  | rep_global : forall g, rep (UGlobal g) (VGlobal g).

  (** The variables in scope *)
  Definition env_rep (rho : henv) (c : env) : Prop :=
    (forall g, compares g -> lookup rho g = None) /\
    (forall x u, user_name x -> lookup rho x = Some u -> exists v, lookup c x = Some v /\ rep u v) /\
    (forall x, user_name x -> lookup rho x = None -> lookup c x = None).

  (** The calls of the outside, without those of the compiler's comparison of
      strings, and the values that are kept *)
  Definition visible (e : event) : bool :=
    match e with EvCall (FName g) _ => negb (String.eqb g (string_equal C)) | EvCall _ _ => true | EvResult _ => false end.
  Definition call_rep (c : string * list hvalue) (e : event) : Prop :=
    exists vs, e = EvCall (FName (fst c)) vs /\ Forall2 rep (snd c) vs.
  Definition state_rep (s : hstate) (st : state) : Prop :=
    Forall2 call_rep (calls s) (filter visible (s_log st)) /\
    (forall g u, lookup (kept s) g = Some u -> exists v, lookup (s_globals st) g = Some v /\ rep u v) /\
    (forall g, lookup (kept s) g = None -> lookup (s_globals st) g = None).

  (** The module [m] has the code of the functions of [p], the records of their
      types and the equality functions of the records [own]; functions of the
      outside answer as [outer] says. *)
  Record compiled_from (own : renv) (w : world) (outer : list (string * list hvalue) -> string -> list hvalue -> hvalue -> Prop) : Prop := CompiledFrom {
    cf_tidy : tidy f E C;
    cf_hashes : collision_free E C T;
    cf_compares : forall g, compares g -> user_name g;
    cf_lhs : global_type m "$lhs" = None;
    cf_rhs : global_type m "$rhs" = None;
    cf_string_known : global_type m (string_equal C) <> None;
    cf_string : forall s st a b, state_rep s st ->
      exists st', runs w m st (VGlobal (string_equal C)) [VBytes a; VBytes b] (VBool (String.eqb a b)) st' /\ state_rep s st';
    cf_records : forall r fts, lookup R r = Some fts ->
      NoDup (map fst fts) /\ exists ts, lookup (m_types m) r = Some ts /\ List.length ts = List.length fts;
    cf_own : forall r fts, lookup own r = Some fts -> lookup R r = Some fts;
    cf_equal : forall r o fts, lookup own r = Some fts -> tidy_type f E (TRecord r o) -> comparable n E R (TRecord r o) = Ok true ->
      (forall x t, In (x, t) fts -> tidy_type f E t /\ uses E T t) /\
      exists k d, compile_definition n E R C k (record_equal_definition r o fts) = Ok d /\
        find_def (m_defs m) (record_equal_name r) = Some d;
    cf_error : exists t, lookup (m_types m) error_record = Some [t];
    cf_defs : forall g l, lookup (h_defs p) g = Some l ->
      Forall own_name (map fst (l_arguments l)) /\ fine (l_body l) /\
      exists k d, compile_definition n E R C k (g, l) = Ok d /\ find_def (m_defs m) g = Some d;
    cf_declared : forall g, lookup (h_declared p) g <> None -> global_type m g <> None;
    cf_outer : forall s st g us v vs, state_rep s st ->
      lookup (h_defs p) g = None -> lookup (h_declared p) g <> None -> outer (calls s) g us v -> Forall2 rep us vs ->
      exists v' st', runs w m st (VGlobal g) vs v' st' /\ rep v v' /\ state_rep (add_call s g us) st'
  }.
End Represent.
