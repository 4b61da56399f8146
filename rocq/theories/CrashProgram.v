(** The translation of programs does not crash. *)
From Coq Require Import String List Bool Lia Arith.
From Verif Require Import Base Mir HirType HirTypeOrder HirTypeSpec HirTypeTermination HirTypeEq HirTypeSub HirTypeModule Hir HirSpec HirValidate HirParts HirMain HirStrip HirModule
  HirMir HirProgram LowerTag LowerTypeSpec LowerProgramSpec LowerTypeBase LowerTypeNames LowerTypeFlow LowerSource CrashSpec CrashBase CrashAnalysis CrashLower CrashNodes.
Import ListNotations.
Local Open Scope string_scope.
Local Open Scope list_scope.

Section Translation.
  Variable f : string -> string.
  Variable C : config.
  Variable p : program.
  Hypothesis PF : program_fits f C p.
  Variables n k : nat.
  Let E := program_env p.
  Let R := program_records p.
  Let X : context_ok f E R := pf_context f C p PF.
  Let W : wf f E := ctx_types f E R X.
  Notation fine := (fine f n E R).
  Hypothesis Source : forall x l, In (x, l) (p_defs p) -> fine (l_body l).

  Lemma prelude x : In x [list_first_rest C; map_empty_type C; iterator_type C] -> exists r o, lookup E x = Some (TRecord r o).
  Proof.
    intros H. assert (In x (map record_name (p_types p))) as Hx by (apply (pf_prelude_types f C p PF); cbn in *; tauto).
    apply in_map_iff in Hx. destruct Hx as (d & <- & Hd). eexists. eexists. exact (record_type f C p PF d Hd).
  Qed.

  (** ** The steps do not crash *)
  Lemma calm_comparables q : calm (comparable_records n E R q).
  Proof.
    apply calm_bind; [|intros; apply calm_ok]. apply calm_mapM. intros d _. apply calm_bind; [apply calm_comparable|]. intros. apply calm_ok.
  Qed.
  Lemma calm_hash j : forall v t, calm (hash_calculation n E R C j v t).
  Proof.
    induction j as [|j IH]; [discriminate|]. intros v t. destruct t; cbn [hash_calculation]; try apply calm_ok; try apply calm_reject.
    - apply calm_bind; [apply calm_rmap, calm_type_id'|]. intros. apply calm_ok.
    - apply calm_bind; [apply calm_context|]. intros. apply calm_ok.
    - apply calm_bind; [apply calm_comparable|]. intros [] _; [apply calm_ok|apply calm_reject].
    - apply calm_bind; [apply calm_resolve|]. intros. apply IH.
    - apply calm_bind; [apply calm_members|]. intros ms _. apply calm_bind; [|intros; apply calm_ok]. apply calm_mapM. intros m _. apply calm_bind; [apply IH|]. intros. apply calm_ok.
  Qed.
  Lemma calm_hash_fields r fts h : calm (hash_fields n E R C k r fts h).
  Proof.
    induction fts as [|[x t] fts IH]; cbn [hash_fields]; [apply calm_ok|]. apply calm_bind; [exact IH|]. intros. apply calm_bind; [apply calm_hash|]. intros. apply calm_ok.
  Qed.
  Lemma calm_context_definition kt vt : calm (map_context_definition n E R C kt vt).
  Proof.
    unfold map_context_definition. repeat (apply calm_bind; [apply calm_rmap, calm_type_id'|intros]). apply calm_bind; [apply calm_comparable|]. intros b _.
    apply calm_bind; [|intros; apply calm_ok]. destruct b; [|apply calm_ok]. repeat (apply calm_bind; [apply calm_rmap, calm_type_id'|intros]). apply calm_ok.
  Qed.
  Lemma map_types_maps q ts : map_types n E q = Ok ts -> forall t, In t ts -> exists kt vt, t = TMap kt vt.
  Proof.
    intros H t Ht. unfold map_types in H. bok H cs Hcs. injection H as <-. apply (proj1 (type_set_In _ _)) in Ht. destruct (HirMain.mapM_in _ _ _ _ Hcs Ht) as (u & Hu & Hc).
    assert (exists kt vt, u = TMap kt vt) as (kt & vt & ->).
    { apply in_app_or in Hu. destruct Hu as [Hu|Hu]; [apply filter_In in Hu; destruct Hu as [_ Hu]; destruct u; try discriminate Hu; eauto|].
      apply in_flat_map in Hu. destruct Hu as (e & _ & Hu). destruct e; try (destruct Hu; fail); [destruct key_type, value_type; try (destruct Hu; fail)|]; destruct Hu as [<-|[]]; eauto. }
    clear - Hc. destruct n as [|j]; [discriminate Hc|]. cbn [canonicalize] in Hc. bok Hc a Ha. bok Hc b Hb. injection Hc as <-. eauto.
  Qed.
  Lemma calm_parameters q : calm (parameter_types n E R q).
  Proof.
    apply calm_bind; [|intros; apply calm_ok]. apply calm_mapM. intros t _. apply calm_bind; [apply calm_canon|]. intros. apply calm_bind; [apply calm_comparable|]. intros. apply calm_ok.
  Qed.
  Lemma calm_transform : calm (transform_program n k E R C p).
  Proof.
    unfold transform_program.
    apply calm_bind; [apply calm_bind; [apply calm_comparables|intros; apply calm_ok]|]. intros p1 H1.
    apply calm_bind.
    { apply calm_bind; [apply calm_comparables|]. intros ds _. apply calm_bind; [|intros; apply calm_ok]. apply calm_mapM. intros d _.
      apply calm_bind; [apply calm_hash_fields|]. intros. apply calm_ok. }
    intros p2 H2. apply calm_bind.
    { apply calm_bind; [apply calm_bind; [|intros; apply calm_ok]; apply calm_mapM; intros; apply calm_canon|]. intros ts Hts.
      apply calm_bind; [|intros; apply calm_ok]. apply calm_mapM. intros t Ht. destruct (map_types_maps _ _ Hts t Ht) as (kt & vt & ->). apply calm_context_definition. }
    intros p3 H3.
    assert (P3 : neat_program f p p3).
    { unfold add_record_equal in H1. bok H1 ds1 Hds1. injection H1 as <-. pose proof Hds1 as Hds. apply (comparable_known f C p PF n) in Hds; [|reflexivity].
      destruct Hds as (ds & Fd & Sd & Id & Nd). unfold add_record_hash in H2. bok H2 ds2 Hds2. bok H2 hs Hhs. injection H2 as <-.
      assert (ds2 = ds1) as ->.
      { unfold comparable_records in Hds1, Hds2. cbn [p_types add_defs add_declared] in Hds2. rewrite Hds1 in Hds2. injection Hds2 as ->. reflexivity. }
      unfold add_map_contexts in H3. bok H3 mts Hmts. bok H3 cs Hcs. injection H3 as <-.
      assert (Nb : neat f TBoolean) by (apply neat_basic; [repeat constructor|reflexivity]). assert (Nn : neat f TNumber) by (apply neat_basic; [repeat constructor|reflexivity]).
      repeat first [apply neat_defs|apply neat_declared]; [apply (neat_source f C p PF)|..].
      - intros x t Hx. apply in_map_iff in Hx. destruct Hx as (d & Q & Hd). injection Q as <- <-. rewrite Fd in Hd. apply filter_In in Hd.
        pose proof (record_neat f C p PF d (Id d (proj1 Hd))) as Nr. apply neat_function; [repeat (apply Forall_cons; [exact Nr|]); apply Forall_nil|exact Nb].
      - intros x l Hx. apply in_map_iff in Hx. destruct Hx as (d & Q & Hd). rewrite Sd in Hd. apply filter_In in Hd.
        pose proof (nl_record_equal f C p PF d (Id d (proj1 Hd))) as Nl. rewrite Q in Nl. exact Nl.
      - intros x t Hx. apply in_map_iff in Hx. destruct Hx as (d & Q & Hd). injection Q as <- <-. rewrite Fd in Hd. apply filter_In in Hd.
        pose proof (record_neat f C p PF d (Id d (proj1 Hd))) as Nr. apply neat_function; [repeat (apply Forall_cons; [exact Nr|]); apply Forall_nil|exact Nn].
      - intros x l Hx. destruct (HirMain.mapM_in _ _ _ _ Hhs Hx) as (d & Hd & Hg). rewrite Sd in Hd. apply filter_In in Hd.
        exact (proj2 (nl_record_hash f C p PF n k d (x, l) (Id d (proj1 Hd)) Hg)).
      - intros x l Hx. destruct (HirMain.mapM_in _ _ _ _ Hcs Hx) as (t & Ht & Hg). destruct (map_types_maps _ _ Hmts t Ht) as (kt & vt & ->).
        exact (proj2 (nl_context f C p n kt vt (x, l) Hg)). }
    apply calm_bind.
    { apply calm_bind; [apply calm_parameters|]. intros ts Hts. pose proof (parameter_types_tidy f C p PF n _ _ P3 Hts) as [_ T].
      apply calm_bind; [|intros; apply calm_ok]. apply calm_mapM. intros t Ht. apply calm_bind; [apply calm_rmap, calm_type_id'|]. intros.
      apply calm_bind; [|intros; apply calm_ok]. apply (calm_equal_operation f n E R C W). apply (T t Ht). }
    intros p4 _. apply calm_bind; [apply calm_parameters|]. intros ts _. apply calm_bind; [|intros; apply calm_ok]. apply calm_mapM. intros t Ht.
    apply calm_bind; [apply calm_rmap, calm_type_id'|]. intros. apply calm_bind; [apply calm_hash|]. intros. apply calm_ok.
  Qed.

  (** ** The generated functions *)
  Ltac each_of := let H := fresh in intros ? H; repeat (destruct H as [<-|H]); try (destruct H; fail).

  Lemma hash_head j v t e : hash_calculation n E R C j v t = Ok e -> references t = [] -> is_union t = false -> not_any n E t.
  Proof.
    intros H F U. apply head_not_any. destruct t; try reflexivity; try discriminate F; try discriminate U. destruct j; discriminate H.
  Qed.
  Lemma fine_hash j : forall v t e, hash_calculation n E R C j v t = Ok e -> fine v -> fine e.
  Proof.
    induction j as [|j IH]; [discriminate|]. intros v t e H Fv. destruct t; cbn [hash_calculation] in H; try discriminate H.
    - injection H as <-. apply fine_if; [exact Fv|apply fine_leaf; [reflexivity|exact I]..].
    - bok H g Hg. injection H as <-. apply fine_hcall. each_of; [apply fine_variable|exact Fv].
    - bok H g Hg. injection H as <-. apply fine_hcall. each_of; [eapply fine_context, Hg|exact Fv].
    - injection H as <-. apply fine_leaf; [reflexivity|exact I].
    - injection H as <-. apply fine_hcall. each_of. exact Fv.
    - bok H b Hb. destruct b; [|discriminate H]. injection H as <-. apply fine_hcall. each_of. exact Fv.
    - bok H u Hu. eapply IH; eassumption.
    - injection H as <-. apply fine_hcall. each_of. exact Fv.
    - bok H ms Hms. bok H bs Hbs. injection H as <-. apply fine_if_type; [exact Fv| |exact I]. intros b Hb. destruct (HirMain.mapM_in _ _ _ _ Hbs Hb) as (m & Hm & Q). cbv beta in Q.
      bok Q e He. injection Q as <-. cbn [fst snd]. split; [|eapply IH; [exact He|apply fine_variable]].
      unfold union_members in Hms. bok Hms c Hc. injection Hms as <-. apply (proj1 (type_set_In _ _)) in Hm.
      destruct (members_fixed f E W _ c (ex_intro _ n Hc) m Hm) as [Cm U]. eapply hash_head; [exact He|eapply canon_references, Cm|exact U].
  Qed.

  Lemma record_known d : n <> 0 -> In d (p_types p) -> record_fields n E R (def_record d) = Ok (td_fields (t_def d)).
  Proof.
    intros Hn Hd. pose proof (record_lookup f C p PF d Hd) as L. destruct n as [|j]; [contradiction Hn; reflexivity|].
    unfold record_fields, canonical_record, def_record. cbn [canonicalize bind]. unfold resolve_record. fold R in L. unfold record_name in L. rewrite L. reflexivity.
  Qed.
  Lemma fine_field d x e : n <> 0 -> In d (p_types p) -> In x (map fst (td_fields (t_def d))) -> fine e -> fine (HField (Some (def_record d)) e x).
  Proof.
    intros Hn Hd Hx Fe. apply fine_node; [cbn; eexists; split; [apply record_known; assumption|exact Hx]|]. intros q Hq. unfold parts in Hq. cbn in Hq.
    destruct Hq as [<-|[]]; exact Fe.
  Qed.
  Lemma fine_equal_function d : n <> 0 -> In d (p_types p) -> fine (l_body (snd (equal_function d))).
  Proof.
    intros Hn Hd. cbn [equal_function record_equal_definition snd l_body]. change (TRecord (td_name (t_def d)) (td_original (t_def d))) with (def_record d).
    assert (G : forall fts, incl fts (td_fields (t_def d)) -> fine (equal_fields (def_record d) fts)); [|apply G, incl_refl].
    induction fts as [|[x t] fts IH]; intros I; cbn [equal_fields]; [apply fine_boolean|].
    apply fine_if; [|apply IH; intros z Hz; apply I; right; exact Hz|apply fine_boolean].
    assert (Hx : In (x, t) (td_fields (t_def d))) by (apply I; left; reflexivity).
    apply fine_node; [exact (proj1 (field_neat f C p PF d x t Hd Hx))|]. intros q Hq. unfold parts in Hq. cbn in Hq. apply (in_map fst) in Hx.
    destruct Hq as [<-|[<-|[]]]; apply fine_field; try assumption; apply fine_variable.
  Qed.
  Lemma fine_hash_function d g : n <> 0 -> In d (p_types p) ->
    record_hash_definition n E R C k (td_name (t_def d)) (td_original (t_def d)) (td_fields (t_def d)) = Ok g -> fine (l_body (snd g)).
  Proof.
    intros Hn Hd H. unfold record_hash_definition in H. bok H e He. injection H as <-. cbn [snd l_body].
    change (TRecord (td_name (t_def d)) (td_original (t_def d))) with (def_record d) in He.
    assert (G : forall fts h e, incl fts (td_fields (t_def d)) -> fine h -> hash_fields n E R C k (def_record d) fts h = Ok e -> fine e).
    { clear He e. induction fts as [|[x t] fts IH]; intros h e I Hh H; cbn [hash_fields] in H; [injection H as <-; exact Hh|].
      bok H h' Hh'. bok H c Hc. injection H as <-. apply IH in Hh'; [|intros z Hz; apply I; right; exact Hz|exact Hh].
      apply fine_hash in Hc; [|apply fine_field; try assumption; [apply (in_map fst _ (x, t)), I; left; reflexivity|apply fine_variable]].
      apply fine_hcall. each_of; assumption. }
    eapply G; [apply incl_refl| |exact He]. apply fine_leaf; [reflexivity|exact I].
  Qed.
  Lemma fine_context_function kt vt g : map_context_definition n E R C kt vt = Ok g -> fine (l_body (snd g)).
  Proof.
    unfold map_context_definition. intros H. bok H name Hn. bok H ek Hek. bok H hk Hhk. bok H b Hb. bok H vs Hvs. injection H as <-. cbn [snd l_body].
    apply fine_hcall. intros e [<-|[<-|He]]; [apply fine_variable..|]. destruct b.
    - bok Hvs e1 He1. bok Hvs hv Hhv. injection Hvs as <-. destruct He as [<-|[<-|[]]]; apply fine_variable.
    - injection Hvs as <-. destruct He as [<-|[<-|[]]]; apply fine_lambda, fine_leaf; try reflexivity; exact I.
  Qed.
  Lemma fixed_not_any t : canon E t t -> t <> TAny -> not_any n E t.
  Proof. intros Ct N c Hc ->. apply N. eapply canon_fun; [exact Ct|exists n; exact Hc]. Qed.
  Lemma fine_equal_definition t g : names_ok f t -> canon E t t -> equal_definition n E R C k t = Ok g -> fine (l_body (snd g)).
  Proof.
    intros N Ct H. unfold equal_definition in H. bok H name Hn. bok H e He. injection H as <-. cbn [snd l_body].
    assert (Na : not_any n E t).
    { unfold equal_operation in He. bok He c Hc. apply fixed_not_any; [exact Ct|]. intros ->. rewrite <- (canon_fun _ _ _ _ Ct (ex_intro _ n Hc)) in He. destruct k; discriminate He. }
    pose proof (fine_equal_operation f n E R C W _ _ _ _ _ He N (fine_variable _ _ _ _ _) (fine_variable _ _ _ _ _)) as Fe.
    apply fine_if_type; [apply fine_variable| |exact I]. each_of. cbn [fst snd]. split; [exact Na|].
    apply fine_if_type; [apply fine_variable| |exact I]. each_of. cbn [fst snd]. split; [exact Na|exact Fe].
  Qed.
  Lemma fine_hash_definition t g : canon E t t -> hash_definition n E R C k t = Ok g -> fine (l_body (snd g)).
  Proof.
    intros Ct H. unfold hash_definition in H. bok H name Hn. bok H e He. injection H as <-. cbn [snd l_body].
    apply fine_if_type; [apply fine_variable| |exact I]. each_of. cbn [fst snd]. split; [|eapply fine_hash; [exact He|apply fine_variable]].
    apply fixed_not_any; [exact Ct|]. intros ->. destruct k; discriminate He.
  Qed.

  Lemma some_fuel q : transform_program n k E R C p = Ok q -> n <> 0.
  Proof.
    intros H. unfold transform_program in H. bok H p1 H1. clear H. unfold add_record_equal in H1. bok H1 ds Hds. clear H1. unfold comparable_records in Hds. bok Hds l Hl. clear Hds.
    assert (In (list_type C) (map record_name (p_types p))) as Hx by (apply (pf_prelude_types f C p PF); left; reflexivity).
    apply in_map_iff in Hx. destruct Hx as (d & _ & Hd). apply mapM_ok in Hl. destruct (Forall2_in_l _ _ _ _ Hl Hd) as (b & _ & Hb). intros ->. discriminate Hb.
  Qed.

  Lemma fine_all q : transform_program n k E R C p = Ok q -> forall x l, In (x, l) (p_defs q) -> fine (l_body l).
  Proof.
    intros H. pose proof (some_fuel q H) as Hn. destruct (transform_shape f C p PF n k q H) as (ds & hs & mts & cs & ets & es & hts & gs & Sh).
    intros x l Hd. rewrite (sh_defs _ _ _ _ _ _ _ _ _ _ _ _ _ _ Sh) in Hd. destruct (sh_records _ _ _ _ _ _ _ _ _ _ _ _ _ _ Sh) as [Id _].
    repeat (apply in_app_or in Hd; destruct Hd as [Hd|Hd]).
    - eapply Source, Hd.
    - apply in_map_iff in Hd. destruct Hd as (d & Q & Hd). apply filter_In in Hd. pose proof (fine_equal_function d Hn (Id d (proj1 Hd))) as F. rewrite Q in F. exact F.
    - destruct (Forall2_in_r _ _ _ _ (sh_hashes _ _ _ _ _ _ _ _ _ _ _ _ _ _ Sh) Hd) as (d & Hd' & Hg). apply filter_In in Hd'.
      exact (fine_hash_function d (x, l) Hn (Id d (proj1 Hd')) Hg).
    - destruct (Forall2_in_r _ _ _ _ (sh_contexts _ _ _ _ _ _ _ _ _ _ _ _ _ _ Sh) Hd) as (t & Ht & kt & vt & _ & Hg). exact (fine_context_function kt vt (x, l) Hg).
    - destruct (Forall2_in_r _ _ _ _ (sh_equal_functions _ _ _ _ _ _ _ _ _ _ _ _ _ _ Sh) Hd) as (t & Ht & Hg).
      destruct (proj2 (sh_equals _ _ _ _ _ _ _ _ _ _ _ _ _ _ Sh) t Ht) as [[Nt _] Ct]. exact (fine_equal_definition t (x, l) Nt Ct Hg).
    - destruct (Forall2_in_r _ _ _ _ (sh_hash_functions _ _ _ _ _ _ _ _ _ _ _ _ _ _ Sh) Hd) as (t & Ht & Hg).
      destruct (proj2 (sh_hashed _ _ _ _ _ _ _ _ _ _ _ _ _ _ Sh) t Ht) as [_ Ct]. exact (fine_hash_definition t (x, l) Ct Hg).
  Qed.

  (** ** The module *)
  Lemma calm_variants q : calm (variant_types n E q).
  Proof. apply calm_bind; [|intros; apply calm_ok]. apply calm_mapM. intros. apply calm_members. Qed.
  Lemma calm_information q : calm (information_types n E q).
  Proof. apply calm_bind; [apply calm_variants|]. intros. apply calm_bind; [|intros; apply calm_ok]. apply calm_mapM. intros. apply calm_canon. Qed.
  Lemma calm_name x t : calm (rmap (append x) (type_id n E C t)).
  Proof. apply calm_rmap, calm_type_id'. Qed.
  Lemma calm_unboxed e t : match t with TList _ | TMap _ _ => True | _ => False end -> calm (unboxed_value n E C e t).
  Proof.
    intros H. apply calm_bind; [apply calm_concrete; destruct t; try destruct H; reflexivity|]. intros m Hm. unfold compile_concrete in Hm. bok Hm c Hc.
    destruct n as [|j]; [discriminate Hc|].
    destruct t; try destruct H; cbn [canonicalize] in Hc; repeat (apply bind_ok in Hc; destruct Hc as (? & _ & Hc)); injection Hc as <-;
      cbn [concrete_name] in Hm; apply bind_ok in Hm; destruct Hm as (o & Ho & Hm); repeat (apply bind_ok in Ho; destruct Ho as (? & _ & Ho)); injection Ho as <-; injection Hm as <-; apply calm_ok.
  Qed.
  Lemma calm_variant_value e t : calm (variant_value n E C e t).
  Proof.
    unfold variant_value, compile_type, compile_concrete, concrete_value. pose proof (calm_canon n E t) as Cc. destruct (canonicalize n E t) as [c| | |] eqn:Hc; try discriminate.
    - cbn [bind]. pose proof (canon_flat _ _ _ _ Hc) as Fc. apply calm_bind; [apply calm_lower, Fc|]. intros m Hm.
      assert (V : match c with TAny | TReference _ | TUnion _ _ => m = TVariant | _ => True end) by (destruct c; try exact I; cbn in Hm; congruence).
      assert (D : m = TVariant \/ match c with TAny | TReference _ | TUnion _ _ => False | _ => True end) by (destruct c; auto).
      destruct D as [-> |D]; [apply calm_ok|]. destruct m; try apply calm_ok.
      all: destruct c; try destruct D; (apply calm_bind; [apply calm_bind; [apply calm_concrete_name|]; intros [] _; [apply calm_ok|apply calm_lower, Fc]|]; intros ? _;
        apply calm_bind; [apply calm_bind; [apply calm_concrete_name|]; intros [] _; apply calm_ok|]; intros ? _; apply calm_ok).
    - contradiction Cc. reflexivity.
  Qed.
  Lemma calm_debug_fields r fts : forall i, calm (debug_fields n E C r i fts).
  Proof. induction fts as [|[x t] fts IH]; intros i; cbn [debug_fields]; [apply calm_ok|]. apply calm_bind; [apply calm_variant_value|]. intros. apply calm_bind; [apply IH|]. intros. apply calm_ok. Qed.
  Lemma calm_equal_fields r fts : forall i e, calm (equal_field_results n E C r i fts e).
  Proof.
    induction fts as [|[x t] fts IH]; intros i e; cbn [equal_field_results]; [apply calm_ok|]. apply calm_bind; [apply calm_variant_value|]. intros.
    apply calm_bind; [apply calm_variant_value|]. intros. apply IH.
  Qed.
  Lemma calm_debug_body t : calm (debug_body n E R C t).
  Proof.
    destruct t; cbn [debug_body]; try apply calm_ok; try apply calm_reject.
    - apply calm_bind; [apply calm_unboxed; exact I|]. intros. apply calm_ok.
    - apply calm_bind; [apply calm_unboxed; exact I|]. intros. apply calm_ok.
    - apply calm_bind; [apply calm_resolve_record|]. intros. apply calm_bind; [apply calm_debug_fields|]. intros. apply calm_ok.
  Qed.
  Lemma calm_equal_body t : calm (equal_body n E R C t).
  Proof.
    destruct t; cbn [equal_body]; try apply calm_ok; try apply calm_reject.
    - repeat (apply calm_bind; [apply calm_unboxed; exact I|]; intros). apply calm_ok.
    - repeat (apply calm_bind; [apply calm_unboxed; exact I|]; intros). apply calm_ok.
    - apply calm_bind; [apply calm_resolve_record|]. intros. apply calm_equal_fields.
  Qed.
  Lemma information_head q ts t : information_types n E q = Ok ts -> In t ts -> may_be_any t = false /\ is_union t = false.
  Proof.
    intros H Ht. unfold information_types in H. bok H vs Hvs. bok H cs Hcs. injection H as <-. apply (proj1 (type_set_In _ _)) in Ht. apply filter_In in Ht. destruct Ht as [Ht N].
    destruct (HirMain.mapM_in _ _ _ _ Hcs Ht) as (u & _ & Hu). apply canon_flat in Hu. destruct t; try discriminate N; try discriminate Hu; split; reflexivity.
  Qed.
  Lemma calm_definitions t : may_be_any t = false -> is_union t = false -> calm (information_definitions n E R C t).
  Proof.
    intros M U. unfold information_definitions. apply calm_bind.
    - apply calm_bind; [apply calm_name|]. intros. apply calm_bind; [apply calm_debug_body|]. intros. apply calm_bind; [apply calm_concrete; assumption|]. intros. apply calm_ok.
    - intros. apply calm_bind.
      + apply calm_bind; [apply calm_name|]. intros. apply calm_bind; [apply calm_equal_body|]. intros. apply calm_bind; [apply calm_concrete; assumption|]. intros. apply calm_ok.
      + intros. repeat (apply calm_bind; [apply calm_name|]; intros). apply calm_ok.
  Qed.
  Lemma calm_declarations t : calm (information_declarations n E C t).
  Proof. unfold information_declarations. repeat (apply calm_bind; [apply calm_name|]; intros). apply calm_ok. Qed.
  Lemma calm_carriers q : neat_program f p q -> calm (carrier_definitions n E C q).
  Proof.
    intros N. apply calm_bind; [apply calm_variants|]. intros ts Hts. destruct (variant_types_tidy f C p PF n q ts N Hts) as [[_ T] U].
    apply calm_bind; [|intros; apply calm_ok]. apply calm_mapM. intros t Ht. destruct (T t Ht) as [_ Ct]. apply canon_references in Ct. pose proof (U t Ht) as Ut.
    destruct t; try discriminate Ct; try discriminate Ut; try apply calm_ok.
    all: apply calm_bind; [apply calm_concrete_name|]; intros [] _; [apply calm_bind; [apply calm_compile_type|]; intros; apply calm_ok|apply calm_ok].
  Qed.

  Theorem calm_translation : calm (bind (transform_program n k E R C p) (lower_program n k E R C)).
  Proof.
    apply calm_bind; [exact calm_transform|]. intros q Hq. pose proof (fine_all q Hq) as F. destruct (transform_shape f C p PF n k q Hq) as (ds & hs & mts & cs & ets & es & hts & gs & Sh).
    pose proof (sh_neat _ _ _ _ _ _ _ _ _ _ _ _ _ _ Sh) as N. unfold lower_program. apply calm_bind; [apply calm_information|]. intros its Hits.
    apply calm_bind; [apply calm_mapM; intros; apply calm_declarations|]. intros ? _.
    apply calm_bind; [apply calm_mapM; intros t Ht; apply filter_In in Ht; destruct (information_head _ _ t Hits (proj1 Ht)); apply calm_definitions; assumption|]. intros ? _.
    apply calm_bind; [apply calm_mapM; intros d _; apply calm_bind; [apply calm_mapM; intros; apply calm_compile_type|]; intros; apply calm_ok|]. intros ? _.
    apply calm_bind; [apply calm_carriers, N|]. intros ? _.
    do 2 (apply calm_bind; [apply calm_mapM; intros; apply calm_bind; [apply calm_signature|]; intros; apply calm_ok|]; intros ? _).
    apply calm_bind.
    { apply calm_mapM. intros [x l] Hd. apply calm_bind; [apply (calm_compile f n E R C W prelude); exact (F x l Hd)|]. intros. apply calm_bind; [apply calm_compile_type|]. intros.
      destruct (l_arguments _); [apply calm_ok|]. apply calm_bind; [|intros; apply calm_ok]. apply calm_mapM. intros. apply calm_bind; [apply calm_compile_type|]. intros. apply calm_ok. }
    intros ? _. apply calm_bind; [|intros; apply calm_ok]. apply calm_mapM. intros t Ht. destruct (information_head _ _ t Hits Ht).
    apply calm_bind; [apply calm_concrete; assumption|]. intros. apply calm_bind; [apply calm_name|]. intros. apply calm_ok.
  Qed.
End Translation.

Theorem calm_compilation f n k C p : shaped_program p -> program_fits f C p -> raw_program p -> calm (compile_program n k C p).
Proof.
  intros S PF Raw. unfold compile_program. apply calm_bind; [apply calm_program, S|]. intros q Hq.
  assert (PQ : program_fits f C q).
  { pose proof Hq as H. unfold analyze_program in H. repeat (match type of H with (if ?b then _ else _) = _ => destruct b; [discriminate H|] end).
    bok H m Hm. injection H as <-. exact (program_fits_q f C p PF Raw n m Hm). }
  apply (calm_translation f C q PQ). intros x l Hd. eapply analyzed_fine; [exact Hq|exact S| |exact Hd].
  intros y l0 e t Hd0 He Ht. destruct (np_defs _ _ _ (neat_source f C q PQ) y l0 Hd0) as (_ & _ & A). exact (proj1 (A e t He Ht)).
Qed.
