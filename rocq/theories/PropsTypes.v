(** Properties of HIR types (C01-C07) and of package ordering (C35).

    Notions from [HirTypeSpec]: [wf f E] (aliases resolve and are acyclic, one
    definition per record), [ok f E t] ([t] mentions known names only),
    [teq E] (types as sets of alternatives), [has_alt E t a] ([a] is one of the
    alternatives of [t]), [inhabited], [part], [incomparable]. *)
From Coq Require Import String List Bool Permutation Relations.
From Verif Require Import Base HirType HirTypeSpec HirTypeOrder HirTypeTermination HirTypeEq HirTypeSub
  HirTypeModule HirTypeModuleProofs HirTypeId Graph PackageSort PackageSortProofs.
Import ListNotations.
Local Open Scope string_scope.

(** *** An environment used by the examples *)
Definition demo_module : tmodule := {|
  tm_defs := [{| td_name := "point"; td_original := "point"; td_fields := [("x", TNumber); ("next", TUnion (TReference "point") TNone)] |};
              {| td_name := "node"; td_original := "node"; td_fields := [("f", TFunction [TNumber] TNone); ("points", TList (TReference "points"))] |}];
  tm_aliases := [("points", TUnion (TReference "point") (TReference "scalar")); ("scalar", TUnion TNumber (TUnion TString TNumber))] |}.
Definition demo := collect_env demo_module.
Definition demo_records := collect_records demo_module.

Lemma demo_nodup : NoDup (type_names demo_module).
Proof. apply (proj1 (no_duplicates_spec (type_names demo_module) [])). reflexivity. Qed.

Example demo_wf : wf (fun x => x) demo.
Proof.
  constructor.
  - apply types_exist_closed; [apply demo_nodup|reflexivity].
  - apply aliases_not_recursive_spec; [apply demo_nodup|reflexivity].
  - intros x t H. unfold demo, collect_env in H. cbn [demo_module tm_defs tm_aliases map rev app lookup td_name td_original] in H.
    repeat match type of H with (if ?b then _ else _) = _ => destruct b end;
      try discriminate; injection H as <-; repeat constructor.
    + exact (no_record (fun x => x) "node").
    + exact (no_record (fun x => x) "point").
Qed.

Ltac demo_ok := split; [intros x H; cbn in H; repeat (destruct H as [<-|H]; [discriminate|]); destruct H | repeat constructor].

(** *** C01: type equality *)
Theorem type_equality_correct : forall f E n s t b, wf f E -> ok f E s -> ok f E t ->
  equal_types n E s t = Ok b -> (b = true <-> teq E s t).
Proof. intros f E n s t b W [_ Hs] [_ Ht] H. exact (equal_types_correct f E W n s t b Hs Ht H). Qed.

Theorem type_equality_total : forall f E s t, wf f E -> ok f E s -> ok f E t ->
  exists n b, forall m, n <= m -> equal_types m E s t = Ok b.
Proof.
  intros f E s t W Hs Ht. destruct (equal_types_total f E W s t Hs Ht) as (n & b & H). exists n, b.
  intros m Hm. exact (equal_types_mono E n m s t b Hm H).
Qed.

(** Canonicalizing a canonical type changes nothing. *)
Theorem canonicalize_idempotent : forall f E n t c, wf f E ->
  canonicalize n E t = Ok c -> exists m, canonicalize m E c = Ok c.
Proof. intros f E n t c W H. exact (canon_idem f E W t c (ex_intro _ n H)). Qed.

Example type_equality_case : ok (fun x => x) demo (TUnion (TReference "points") TNone) /\
  ok (fun x => x) demo (TUnion TNone (TUnion TNumber (TUnion (TReference "scalar") (TReference "point")))) /\
  equal_types 20 demo (TUnion (TReference "points") TNone) (TUnion TNone (TUnion TNumber (TUnion (TReference "scalar") (TReference "point")))) = Ok true /\
  equal_types 20 demo (TReference "points") (TReference "scalar") = Ok false.
Proof. split; [demo_ok|]. split; [demo_ok|]. split; reflexivity. Qed.

(** *** C02: resolving types terminates on accepted modules *)
Theorem recursive_alias_check_correct : forall m, NoDup (type_names m) ->
  (aliases_not_recursive m = false <-> exists x, clos_trans string (alias_dep (collect_env m)) x x).
Proof.
  intros m H. pose proof (aliases_not_recursive_spec m H) as S. destruct (aliases_not_recursive m) eqn:A.
  - split; [discriminate|]. intros [x Hx]. exfalso. exact (proj1 S eq_refl x Hx).
  - split; [intros _|reflexivity]. exact (aliases_recursive_cycle m H A).
Qed.

Theorem canonicalize_terminates : forall m t, NoDup (type_names m) -> types_exist m = true ->
  aliases_not_recursive m = true -> exists_type m t = true ->
  exists n c, references c = [] /\ forall k, n <= k -> canonicalize k (collect_env m) t = Ok c.
Proof.
  intros m t Hn He Hr Ht.
  destruct (canon_total (collect_env m) t (types_exist_closed m Hn He) (proj1 (aliases_not_recursive_spec m Hn) Hr)
              (exists_type_defined m Hn t Ht)) as [[c Hc] _].
  pose proof (canon_references _ _ _ Hc) as Href. destruct Hc as [n Hc]. exists n, c. split; [exact Href|].
  intros k Hk. exact (canon_mono n k _ t c Hk Hc).
Qed.

Example canonicalize_case : no_duplicates [] (type_names demo_module) = true /\ types_exist demo_module = true /\
  aliases_not_recursive demo_module = true /\ exists_type demo_module (TReference "points") = true /\
  canonicalize 9 demo (TReference "points") = Ok (TUnion (TUnion TNumber (TRecord "point" "point")) TString) /\
  aliases_not_recursive {| tm_defs := []; tm_aliases := [("a", TList (TReference "b")); ("b", TUnion TNone (TReference "a"))] |} = false.
Proof. repeat split; reflexivity. Qed.

(** *** C03: subsumption *)
Theorem subsumption_is_inclusion : forall f E n s t b, wf f E -> ok f E s -> ok f E t ->
  subsumes n E s t = Ok b ->
  (b = true <-> has_alt E t TAny \/ forall a, defined E a -> has_alt E s a -> has_alt E t a).
Proof.
  intros f E n s t b W Hs Ht H. rewrite (subsumes_correct f E W n s t b Hs Ht H).
  exact (sub_alts f E W s t (proj1 Hs) (proj1 Ht)).
Qed.

Theorem subsumption_is_subtyping : forall f E n s t b, wf f E -> ok f E s -> ok f E t ->
  subsumes n E s t = Ok b -> (b = true <-> sub E s t).
Proof. intros f E n s t b W Hs Ht H. exact (subsumes_correct f E W n s t b Hs Ht H). Qed.

Theorem subsumption_total : forall f E s t, wf f E -> ok f E s -> ok f E t ->
  exists n b, forall m, n <= m -> subsumes m E s t = Ok b.
Proof.
  intros f E s t W Hs Ht. destruct (subsumes_total f E W s t Hs Ht) as (n & b & H). exists n, b.
  intros m Hm. exact (subsumes_mono E n m s t b Hm H).
Qed.

(** Mutual subsumption is equality. *)
Theorem subsumption_antisymmetric : forall f E s t, wf f E -> ok f E s -> ok f E t ->
  (sub E s t /\ sub E t s <-> teq E s t).
Proof. exact sub_antisym. Qed.

Example subsumption_case : ok (fun x => x) demo (TReference "points") /\
  subsumes 20 demo (TReference "scalar") (TReference "points") = Ok true /\
  subsumes 20 demo (TReference "points") (TReference "scalar") = Ok false /\
  subsumes 20 demo (TUnion (TReference "points") TError) TAny = Ok true.
Proof. split; [demo_ok|]. repeat split; reflexivity. Qed.

(** *** C04: type difference *)
Theorem difference_absent : forall f E n s t o, wf f E -> ok f E s -> ok f E t ->
  type_difference n E s t = Ok o -> (o = None <-> sub E s t).
Proof. intros f E n s t o W Hs Ht H. exact (difference_none f E W n s t o Hs Ht H). Qed.

Theorem difference_alternatives : forall f E n s t u a, wf f E -> ok f E s -> ok f E t -> defined E a ->
  ~ has_alt E s TAny -> type_difference n E s t = Ok (Some u) ->
  (has_alt E u a <-> has_alt E s a /\ ~ has_alt E t a).
Proof. intros f E n s t u a W Hs Ht Ha Hn H. exact (difference_alts f E W n s t u a Hs Ht Ha Hn H). Qed.

(** Removing alternatives from [any] leaves [any]. *)
Theorem difference_of_any : forall f E n s t u, wf f E -> ok f E s -> ok f E t -> has_alt E s TAny ->
  type_difference n E s t = Ok (Some u) -> u = TAny /\ ~ has_alt E t TAny.
Proof. intros f E n s t u W Hs Ht Hn H. exact (difference_any f E W n s t u Hs Ht Hn H). Qed.

Theorem difference_defined : forall f E s t, wf f E -> ok f E s -> ok f E t ->
  exists n o, type_difference n E s t = Ok o.
Proof. intros f E s t W Hs Ht. exact (difference_total f E W s t Hs Ht). Qed.

Example difference_case :
  type_difference 20 demo (TUnion TNone (TReference "points")) (TReference "scalar") = Ok (Some (TUnion TNone (TRecord "point" "point"))) /\
  type_difference 20 demo (TReference "scalar") (TReference "points") = Ok None.
Proof. split; reflexivity. Qed.

(** *** C05: type identifiers *)
Theorem type_id_injective : forall f E n m s t x y, wf f E ->
  (forall z u, lookup E z = Some u -> plain_names u) ->
  ok f E s -> ok f E t -> plain_names s -> plain_names t ->
  type_id_string n E s = Ok x -> type_id_string m E t = Ok y -> (x = y <-> teq E s t).
Proof. exact type_id_iff. Qed.

Theorem type_id_defined : forall f E t, wf f E -> defined E t -> exists n x, type_id_string n E t = Ok x.
Proof. exact type_id_total. Qed.

Example type_id_case : (forall z u, lookup demo z = Some u -> plain_names u) /\
  type_id_string 20 demo (TFunction [TReference "points"; TNone] (TList TNumber)) = Ok "(\(((number|record(point))|string),none)[number])".
Proof.
  split; [|reflexivity]. intros z u H. unfold demo, collect_env in H.
  cbn [demo_module tm_defs tm_aliases map rev app lookup td_name td_original] in H.
  repeat match type of H with (if ?b then _ else _) = _ => destruct b end; try discriminate; injection H as <-;
    intros r Hr; cbn in Hr; repeat (destruct Hr as [<-|Hr]; [reflexivity|]); destruct Hr.
Qed.

(** The restriction on record names is needed. *)
Theorem type_id_any_name_refuted : exists s t x, references s = [] /\ references t = [] /\
  type_id_string 9 [] s = Ok x /\ type_id_string 9 [] t = Ok x /\ ~ teq [] s t.
Proof. exact id_clash. Qed.

(** *** C06: impossible records *)
Theorem impossible_record_uninhabited : forall E R n name fields, lookup R name = Some fields ->
  possible_record n E R name fields = Ok false -> forall o, ~ inhabited E R (TRecord name o).
Proof. exact impossible_sound. Qed.

Theorem impossible_check_terminates : forall E R name fields, closed_env E -> acyclic E ->
  (forall x t, lookup E x = Some t -> named R t) ->
  (forall r fs fd, lookup R r = Some fs -> In fd fs -> defined E (snd fd) /\ named R (snd fd)) ->
  lookup R name = Some fields -> exists n b, possible_record n E R name fields = Ok b.
Proof. intros E R name fields H1 H2 H3 H4 H. exact (possible_total E R H1 H2 H3 H4 name fields H). Qed.

(** The converse fails: mutually recursive records through unions are accepted
    although no finite value exists. *)
Theorem impossible_record_complete_refuted : exists E R name fields,
  lookup R name = Some fields /\ (forall n, 5 <= n -> possible_record n E R name fields = Ok true) /\
  forall o, ~ inhabited E R (TRecord name o).
Proof. exact trap_accepted. Qed.

Example impossible_case :
  possible_record 9 [] [("a", [("x", TRecord "b" "b")]); ("b", [("y", TNumber); ("z", TRecord "a" "a")])] "a" [("x", TRecord "b" "b")] = Ok false /\
  possible_record 9 demo demo_records "point" [("x", TNumber); ("next", TUnion (TReference "point") TNone)] = Ok true.
Proof. split; reflexivity. Qed.

(** *** C07: comparability *)
Theorem comparable_correct : forall E R n t b, comparable n E R t = Ok b ->
  (b = true <-> forall u, part E R t u -> ~ incomparable u).
Proof.
  intros E R n t [] H.
  - split; [intros _ u Hu; exact (comparable_sound E R n t u H Hu)|reflexivity].
  - split; [discriminate|]. intros G. exfalso. destruct (comparable_complete E R n [] t H) as (u & Hu & Hi). exact (G u Hu Hi).
Qed.

Theorem comparable_terminates : forall E R t, closed_env E -> acyclic E ->
  (forall x t, lookup E x = Some t -> named R t) ->
  (forall r fs fd, lookup R r = Some fs -> In fd fs -> defined E (snd fd) /\ named R (snd fd)) ->
  defined E t -> named R t -> exists n b, comparable n E R t = Ok b.
Proof. intros E R t H1 H2 H3 H4 H5 H6. exact (comparable_total E R H1 H2 H3 H4 t H5 H6). Qed.

Example comparable_case :
  comparable 20 demo demo_records (TMap TString (TReference "points")) = Ok true /\
  comparable 20 demo demo_records (TList (TReference "node")) = Ok false.
Proof. split; reflexivity. Qed.

(** *** C35: package order *)
Theorem packages_sorted : forall c l, NoDup (map fst c) -> sort_packages c = Ok (Some l) ->
  Permutation l (map fst c) /\ (forall x y, depends c x y -> before l x y) /\ forall x, ~ clos_trans string (depends c) x x.
Proof. intros c l Hn H. pose proof (sort_packages_spec c Hn) as S. rewrite H in S. exact S. Qed.

Theorem packages_cycle_reported : forall c, NoDup (map fst c) -> (forall x y, depends c x y -> In y (map fst c)) ->
  (sort_packages c = Ok None <-> exists x, clos_trans string (depends c) x x).
Proof.
  intros c Hn Hc. pose proof (sort_packages_spec c Hn) as S. destruct (sort_packages c) as [[l|]| | |].
  - split; [discriminate|]. intros [x Hx]. exfalso. exact (proj2 (proj2 S) x Hx).
  - split; auto.
  - destruct S as (x & y & H1 & H2). exfalso. eauto.
  - destruct S as (x & y & H1 & H2). exfalso. eauto.
  - destruct S as (x & y & H1 & H2). exfalso. eauto.
Qed.

Example packages_case :
  sort_packages [("bar", ["baz"; "foo"]); ("baz", ["foo"]); ("foo", [])] = Ok (Some ["bar"; "baz"; "foo"]) /\
  sort_packages [("bar", ["foo"]); ("foo", ["bar"])] = Ok None.
Proof. split; reflexivity. Qed.

Print Assumptions type_equality_correct.
Print Assumptions canonicalize_terminates.
Print Assumptions recursive_alias_check_correct.
Print Assumptions subsumption_is_inclusion.
Print Assumptions subsumption_antisymmetric.
Print Assumptions difference_alternatives.
Print Assumptions type_id_injective.
Print Assumptions impossible_record_uninhabited.
Print Assumptions impossible_record_complete_refuted.
Print Assumptions comparable_correct.
Print Assumptions packages_sorted.
Print Assumptions packages_cycle_reported.
