(** The compiler's search for types finds everything its code mentions. *)
From Coq Require Import String Ascii List ZArith Bool Lia.
From Verif Require Import Base Mir MirTypeCheck HirType HirTypeOrder HirTypeSpec HirTypeTermination HirTypeEq HirTypeSub HirTypeId HirTypeModule HirTypeModuleProofs
  Hir HirSpec HirValidate HirParts HirMain HirMir HirProgram LowerTag LowerTypeSpec LowerProgramSpec LowerCompleteSpec LowerTypeBase LowerTypeCode LowerTypeMore
  LowerTypeMain LowerTypeNames LowerTypeFlow LowerTypeModule LowerOrigin LowerNeeds LowerScope LowerCollect LowerStages LowerSource.
Import ListNotations.
Local Open Scope string_scope.
Local Open Scope list_scope.

Lemma outside_or_condition e x : occurs x e -> outside_conditions e x \/ in_condition e x.
Proof.
  induction e as [e IH] using parts_ind. intros H. destruct (occurs_cases x e H) as [->|(q & Hq & Hx)]; [left; apply out_self|].
  assert (D : In q (parts_outside e) \/ exists t el bs b, e = HComprehension t el bs /\ In b bs /\ b_condition b = Some q).
  { destruct e; try (left; exact Hq). unfold parts in Hq. cbn in Hq. rewrite app_nil_r in Hq. apply in_app_or in Hq. destruct Hq as [Hq|Hq].
    - apply in_flat_map in Hq. destruct Hq as (b & Hb & Hq). unfold branch_parts in Hq. apply in_app_or in Hq. destruct Hq as [Hq|Hq].
      + left. cbn. apply in_or_app. left. apply in_flat_map. eauto.
      + destruct (b_condition b) as [c|] eqn:Q; [|destruct Hq]. destruct Hq as [->|[]]. right. do 4 eexists. eauto.
    - left. cbn. apply in_or_app. right. exact Hq. }
  destruct D as [D|(t & el & bs & b & -> & Hb & Q)].
  - destruct (IH q Hq Hx) as [G|(t & el & bs & b & c & G & Hb & Q & Hc)].
    + left. eapply out_part; eassumption.
    + right. exists t, el, bs, b, c. split; [eapply occurs_in_part; eassumption|auto].
  - right. exists t, el, bs, b, q. split; [exists None, None; constructor|auto].
Qed.

Lemma comparable_record n E R r o b : comparable n E R (TRecord r o) = Ok b -> exists fts, lookup R r = Some fts.
Proof.
  destruct n as [|n]; intros H; [discriminate H|]. cbn in H. unfold resolve_record in H. destruct (lookup R r) as [fts|]; [eauto|discriminate H].
Qed.
Lemma canonical_record n E r o c : canonicalize n E (TRecord r o) = Ok c -> c = TRecord r o.
Proof. destruct n as [|n]; intros H; [discriminate H|]. injection H as <-. reflexivity. Qed.

Section Search.
  Variable f : string -> string.
  Variable C : config.
  Variable p : program.
  Hypothesis CF : config_fits C.
  Hypothesis PF : program_fits f C p.
  Variables n k : nat.

  Let E := program_env p.
  Let R := program_records p.
  Let X : context_ok f E R := pf_context f C p PF.
  Let W : wf f E := ctx_types f E R X.
  Let K : config_ok E R C := config_fine f C p CF PF.

  Notation source := (seen_type p).
  Notation from := (from p).
  Notation grounded := (grounded p).
  Notation between := (between p).
  Notation comparable_type := (comparable_type E R).

  Variable q : program.
  Variables mts ets hts : list ty.
  Hypothesis B : between q.
  Hypothesis F : found C p n k q mts ets hts.

  Variables (its : list ty) (ids : list (list (string * mtype))) (ifs : list (list fdef)) (tds cds : list (string * list mtype)) (fds dds : list (string * mtype))
    (defs : list fdef) (infos : list (mtype * string)).
  Hypothesis Hits : information_types n E q = Ok its.
  Hypothesis Hids : mapM (information_declarations n E C) (filter (external_type q) its) = Ok ids.
  Hypothesis Hifs : mapM (information_definitions n E R C) (filter (fun t => negb (external_type q t)) its) = Ok ifs.
  Hypothesis Htds : mapM (compile_type_def n E C) (p_types q) = Ok tds.
  Hypothesis Hcds : carrier_definitions n E C q = Ok cds.
  Hypothesis Hfds : mapM (compile_declaration n E C) (p_foreign q) = Ok fds.
  Hypothesis Hdds : mapM (compile_declaration n E C) (p_declared q) = Ok dds.
  Hypothesis Hdefs : mapM (compile_definition n E R C k) (p_defs q) = Ok defs.

  Let M : mmodule := MModule (tds ++ cds ++ internal_type_definitions) (fds ++ runtime_declarations C ++ dds ++ concat ids)
    (defs ++ concat ifs ++ default_definitions) infos information_default.

  Hypothesis SB : searchable C p M.
  Hypothesis XM : exact_module E R (program_hir p).

  Notation has_function := (has_function M).
  Notation has_record := (has_record M).
  Notation carried := (carried E C M).
  Notation contextual := (contextual E C M).
  Notation compares := (compares E C M).
  Notation members_carried := (members_carried E C M).
  Notation clear := (clear E R C M n).
  Notation served := (served E R C M).
  Notation all := (all E R C M).

  (** ** Functions and records that are there *)
  Lemma global_there x : In x (global_names q) -> has_function x.
  Proof.
    intros H. unfold LowerCompleteSpec.has_function, M. cbn [m_declared m_defs]. rewrite !map_app.
    rewrite (declaration_names C p n _ _ Hfds), (declaration_names C p n _ _ Hdds), (definition_names C p n k _ _ Hdefs).
    unfold global_names in H. rewrite !in_app_iff in *. tauto.
  Qed.
  Lemma grows_global x : In x (global_names p) -> In x (global_names q).
  Proof.
    destruct (bt_grows p q B) as (_ & _ & G3 & G4 & G5). unfold global_names. rewrite !in_app_iff, G3. intros [H|[H|H]]; [auto|right; left|right; right].
    - apply in_map_iff in H. destruct H as (d & <- & Hd). apply in_map, G4, Hd.
    - apply in_map_iff in H. destruct H as (d & <- & Hd). apply in_map, G5, Hd.
  Qed.
  Lemma source_there x : In x (global_names p) -> has_function x.
  Proof. intros H. apply global_there, grows_global, H. Qed.
  Lemma prelude_there x : In x (map fst (prelude_functions C)) -> has_function x.
  Proof. intros H. apply source_there, (sb_prelude C p M SB), H. Qed.
  Lemma runtime_there x : In x [debug_function; race_function; spawn_function] -> has_function x.
  Proof.
    intros H. unfold LowerCompleteSpec.has_function, M. cbn [m_declared m_defs]. rewrite !map_app, !in_app_iff. left. right. left. exact H.
  Qed.
  Lemma internal_there : has_record error_record /\ has_record information_record.
  Proof. unfold LowerCompleteSpec.has_record, M. cbn [m_types]. rewrite !map_app, !in_app_iff. split; right; right; cbn; auto. Qed.
  Lemma types_same : p_types q = p_types p.
  Proof. apply (bt_grows p q B). Qed.
  Lemma record_there d : In d (p_types p) -> has_record (record_name d).
  Proof.
    intros H. unfold LowerCompleteSpec.has_record, M. cbn [m_types]. rewrite map_app, in_app_iff. left. rewrite <- types_same in H. apply mapM_ok in Htds.
    destruct (Forall2_given _ _ _ _ Htds H) as (x & Hx & Q). unfold compile_type_def in Q. bok Q ms Hms. injection Q as <-. apply in_map_iff. eexists. split; [|exact Hx]. reflexivity.
  Qed.
  Lemma user_record_there r : lookup R r <> None -> has_record r.
  Proof.
    intros H. destruct (lookup R r) as [fts|] eqn:Q; [|congruence]. destruct (record_definition p r fts Q) as (d & Hd & -> & _). apply record_there, Hd.
  Qed.

  Lemma record_functions_there r o : comparable n E R (TRecord r o) = Ok true -> has_function (record_equal_name r) /\ has_function (record_hash_name r).
  Proof.
    intros H. assert (Q : comparable_type (TRecord r o)) by (intros u Hu; exact (comparable_sound E R n _ u H Hu)).
    assert (exists fts, lookup R r = Some fts) as [fts Hr].
    { exact (comparable_record n E R r o true H). }
    destruct (record_definition p r fts Hr) as (d & Hd & -> & _).
    assert (Q' : comparable_type (def_record d)).
    { intros u Hu Hi. unfold def_record in Hu. inversion Hu as [| | | | | | |? ? fields fd ? Hl Hf Hp]; subst.
      - unfold incomparable in Hi. destruct Hi as [G|[G|(? & ? & G)]]; discriminate G.
      - eapply Q; [|exact Hi]. eapply part_field; eassumption. }
    destruct (fo_records _ _ _ _ _ _ _ _ F d Hd Q') as [G1 G2]. split; apply global_there; assumption.
  Qed.
  Lemma compared_there r o : comparable n E R (TRecord r o) = Ok true -> has_function (record_equal_name r).
  Proof. intros H. apply (record_functions_there r o H). Qed.

  (** ** Identifiers *)
  Lemma identifier_same t u c i j : canon E t c -> canon E u c -> identifier E C t i -> identifier E C u j -> i = j.
  Proof.
    intros Ht Hu [a Hi] [b Hj]. apply identifier_canon in Hi. apply identifier_canon in Hj. destruct Hi as (c1 & s1 & C1 & S1 & ->). destruct Hj as (c2 & s2 & C2 & S2 & ->).
    pose proof (canon_fun _ _ _ _ C1 Ht). pose proof (canon_fun _ _ _ _ C2 Hu). subst c1 c2. congruence.
  Qed.
  Lemma identifier_canonical t i : identifier E C t i -> exists c, canon E t c.
  Proof. intros [a H]. apply identifier_canon in H. destruct H as (c & _ & H & _). eauto. Qed.

  Lemma prefixed (pre : string) t g i c u : rmap (append pre) (type_id n E C t) = Ok g -> canon E t c -> canon E u c -> identifier E C u i -> g = append pre i.
  Proof.
    intros H Ht Hu Hi. destruct (type_id n E C t) as [j| | |] eqn:Q; try discriminate. cbn in H. injection H as <-. f_equal.
    exact (identifier_same t u c j i Ht Hu (ex_intro _ n Q) Hi).
  Qed.

  Lemma definition_there g : In g (p_defs q) -> has_function (fst g).
  Proof. intros H. apply global_there. unfold global_names. rewrite !in_app_iff. right. right. apply in_map, H. Qed.

  Lemma equal_there u c i : canon E u c -> In c ets -> identifier E C u i -> has_function (append "hir:equal:" i).
  Proof.
    intros Hu Hc Hi. destruct (fo_equal_functions _ _ _ _ _ _ _ _ F c Hc) as (g & Hg & Q). rewrite <- (prefixed _ c (fst g) i c u Q (canon_idem f E W _ _ Hu) Hu Hi). apply definition_there, Hg.
  Qed.
  Lemma hash_there u c i : canon E u c -> In c hts -> identifier E C u i -> has_function (append "hir:hash:" i).
  Proof.
    intros Hu Hc Hi. destruct (fo_hash_functions _ _ _ _ _ _ _ _ F c Hc) as (g & Hg & Q). rewrite <- (prefixed _ c (fst g) i c u Q (canon_idem f E W _ _ Hu) Hu Hi). apply definition_there, Hg.
  Qed.
  Lemma context_there u c : canon E u c -> In c mts -> contextual u.
  Proof.
    intros Hu Hc i Hi. destruct (fo_contexts _ _ _ _ _ _ _ _ F c Hc) as (g & Hg & Q). rewrite <- (prefixed _ c (fst g) i c u Q (canon_idem f E W _ _ Hu) Hu Hi). apply definition_there, Hg.
  Qed.

  (** ** Types that are found *)
  Lemma candidate_found t0 t : In t0 (candidates p) -> canon E t0 t -> comparable_type t -> In t ets /\ In t hts.
  Proof. intros H Hc Q. split; [exact (proj2 (fo_equals _ _ _ _ _ _ _ _ F) t0 t H Hc Q)|exact (proj2 (fo_hashes _ _ _ _ _ _ _ _ F) t0 t H Hc Q)]. Qed.
  Lemma list_found e : canon E (TList e) (TList e) -> from source (TList e) -> comparable_type e -> In e ets /\ In e hts.
  Proof.
    intros Ce Fe Q. destruct (Fe (TList e) (TList e) (self_visit _) eq_refl Ce) as (b & Vb & Cb & Hb).
    assert (exists e0, b = TList e0 /\ canon E e0 e) as (e0 & -> & H0) by (apply (from_list E b e); [destruct b; discriminate || reflexivity|intros x ->; discriminate|exact Hb]).
    assert (Hc : In e0 (candidates p)) by (apply in_or_app; left; apply in_flat_map; exists (TList e0); split; [exact Vb|left; reflexivity]).
    exact (candidate_found e0 e Hc H0 Q).
  Qed.
  Lemma map_found kt vt : canon E (TMap kt vt) (TMap kt vt) -> from source (TMap kt vt) -> In (TMap kt vt) mts.
  Proof.
    intros Ce Fe. destruct (Fe (TMap kt vt) (TMap kt vt) (self_visit _) eq_refl Ce) as (b & Vb & Cb & Hb).
    assert (exists k0 v0, b = TMap k0 v0) as (k0 & v0 & ->).
    { destruct (from_map E b kt vt) as (k0 & v0 & -> & _); [destruct b; discriminate || reflexivity|intros x ->; discriminate|exact Hb|eauto]. }
    apply (fo_maps _ _ _ _ _ _ _ _ F). exists (TMap k0 v0). split; [|exact Hb]. apply in_or_app. left. apply filter_In. auto.
  Qed.
  Lemma starts_in t : starts p t -> type_in p t.
  Proof.
    intros [d x u Hd Hx|x u Hx|x u Hx|x u Hx|x l y u Hx Hy|x l Hx|e u He Hu N].
    - eapply ti_field; eassumption.
    - eapply ti_alias; eassumption.
    - eapply ti_foreign; eassumption.
    - eapply ti_declared; eassumption.
    - eapply ti_argument; eassumption.
    - eapply ti_result; eassumption.
    - apply in_flat_map in He. destruct He as ([x l] & Hx & He). eapply ti_expression; [exact Hx|apply visit_occurs, He|exact Hu].
  Qed.
  Lemma contexts_found kt vt : In (TMap kt vt) mts -> (In kt ets /\ In kt hts) /\ (comparable_type vt -> In vt ets /\ In vt hts).
  Proof.
    intros H. apply (fo_maps _ _ _ _ _ _ _ _ F) in H. destruct H as (t0 & H0 & Hc).
    assert (exists k0 v0, t0 = TMap k0 v0 /\ comparable_type k0 /\ In k0 (candidates p) /\ In v0 (candidates p)) as (k0 & v0 & -> & Qk & Ik & Iv).
    { apply in_app_or in H0. destruct H0 as [H0|H0].
      - apply filter_In in H0. destruct H0 as [H0 Hm]. destruct t0 as [| | | | |k0 v0| | | | | |]; try discriminate. exists k0, v0. split; [reflexivity|].
        split; [|split; apply in_or_app; left; apply in_flat_map; exists (TMap k0 v0); (split; [exact H0|cbn; auto])].
        apply seen_starts in H0. destruct H0 as (r & Hr & Hi). exact (sb_keys C p M SB r k0 v0 (starts_in r Hr) (visit_inside E r _ Hi)).
      - apply in_flat_map in H0. destruct H0 as (e & He & H0). pose proof He as He'. apply in_flat_map in He'. destruct He' as ([x l] & Hx & Hv).
        pose proof (sb_map_keys C p M SB x l e Hx (visit_occurs _ _ Hv)) as Qk. destruct e; try (destruct H0; fail).
        + destruct key_type as [k0|]; [|destruct H0]. destruct value_type as [v0|]; [|destruct H0]. destruct H0 as [<-|[]]. exists k0, v0. split; [reflexivity|]. split; [exact Qk|].
          split; apply in_or_app; right; apply in_flat_map; eexists; (split; [exact He|cbn; auto]).
        + destruct H0 as [<-|[]]. do 2 eexists. split; [reflexivity|]. split; [exact Qk|].
          split; apply in_or_app; right; apply in_flat_map; eexists; (split; [exact He|cbn; auto]). }
    apply canon_map in Hc. destruct Hc as (k1 & v1 & Ck & Cv & Q). injection Q as -> ->.
    pose proof (comparable_canonical E R _ _ Ck Qk) as Qk1.
    split; [exact (candidate_found k0 k1 Ik Ck Qk1)|intros Qv; exact (candidate_found v0 v1 Iv Cv Qv)].
  Qed.

  (** ** Carriers *)
  Lemma carrier_concrete c r : canon E c c -> carrier E C c r -> forall o, concrete_name n E C c = Ok o -> o = Some r.
  Proof.
    intros Cc H o Ho. inversion H as [a b i Hi|e i Hi|kt vt i j Hi Hj]; subst; cbn [concrete_name] in Ho.
    - bok Ho i' Hi'. injection Ho as <-. rewrite (identifier_same _ _ _ i' i Cc Cc (ex_intro _ n Hi') Hi). reflexivity.
    - bok Ho i' Hi'. injection Ho as <-. destruct (identifier_canonical _ _ Hi) as [d Hd]. rewrite (identifier_same _ _ _ i' i Hd Hd (ex_intro _ n Hi') Hi). reflexivity.
    - bok Ho i' Hi'. bok Ho j' Hj'. injection Ho as <-. destruct (identifier_canonical _ _ Hi) as [d Hd]. destruct (identifier_canonical _ _ Hj) as [d' Hd'].
      rewrite (identifier_same kt kt d i' i Hd Hd (ex_intro _ n Hi') Hi), (identifier_same vt vt d' j' j Hd' Hd' (ex_intro _ n Hj') Hj). reflexivity.
  Qed.

  Lemma variants_carried : exists vts, variant_types n E q = Ok vts /\ forall u, In u vts -> carried u.
  Proof.
    pose proof Hcds as H. unfold carrier_definitions in H. bok H vts Hv. bok H ds Hd. injection H as H. exists vts. split; [exact Hv|]. intros u Hu c r Hc Hr.
    assert (Cu : canon E u u).
    { unfold variant_types in Hv. bok Hv ms Hms. injection Hv as <-. apply (proj1 (type_set_In _ _)) in Hu. apply in_concat in Hu. destruct Hu as (l & Hl & Hu).
      apply mapM_ok in Hms. destruct (Forall2_other _ _ _ _ Hms Hl) as (t & _ & Q). unfold union_members in Q. bok Q d Hd'. injection Q as <-.
      apply (proj1 (type_set_In _ _)) in Hu. exact (proj1 (members_fixed f E W t d (ex_intro _ n Hd') u Hu)). }
    pose proof (canon_fun _ _ _ _ Hc Cu) as Q. subst c. apply mapM_ok in Hd. destruct (Forall2_given _ _ _ _ Hd Hu) as (l & Hl & Q).
    unfold LowerCompleteSpec.has_record, M. cbn [m_types]. rewrite !map_app, !in_app_iff. right. left. rewrite <- H.
    assert (G : bind (concrete_name n E C u) (fun o => match o with None => Ok [] | Some r => bind (compile_type n E C u) (fun m => Ok [(r, [m])]) end) = Ok l)
      by (inversion Hr; subst; exact Q). clear Q.
    bok G o Ho. rewrite (carrier_concrete u r Cu Hr o Ho) in G. bok G m Hm. injection G as <-. apply in_map_iff. exists (r, [m]). split; [reflexivity|]. apply in_concat.
    eexists. split; [exact Hl|left; reflexivity].
  Qed.

  Lemma collected_carried t : In t (flat_map lower_types (visit_expressions q) ++ flat_map (fun d => map snd (td_fields (t_def d))) (p_types q)) -> members_carried t.
  Proof.
    intros H c u Hc Hu. destruct variants_carried as (vts & Hv & Hcar). apply Hcar. unfold variant_types in Hv. bok Hv ms Hms. injection Hv as <-.
    apply mapM_ok in Hms. destruct (Forall2_given _ _ _ _ Hms H) as (l & Hl & Q). unfold union_members in Q. bok Q d Hd. injection Q as <-.
    pose proof (canon_fun _ _ _ _ (ex_intro _ n Hd) Hc) as Q. subst d. apply type_set_In. apply in_concat. eexists. split; [exact Hl|]. apply type_set_In, Hu.
  Qed.
  Lemma visited_carried e t : In e (visit_expressions q) -> In t (lower_types e) -> members_carried t.
  Proof. intros He Ht. apply collected_carried. apply in_or_app. left. apply in_flat_map. eauto. Qed.
  Lemma field_carried d x t : In d (p_types p) -> In (x, t) (td_fields (t_def d)) -> members_carried t.
  Proof.
    intros Hd Hx. apply collected_carried. apply in_or_app. right. apply in_flat_map. exists d. rewrite types_same. split; [exact Hd|]. apply in_map_iff. exists (x, t). auto.
  Qed.
  Lemma carried_of t : members_carried t -> carried t.
  Proof. apply (members_carried_self f E C M W). Qed.

  (** ** Comparison *)
  Lemma compares_found t : grounded source t -> comparable_type t -> members_carried t -> compares t.
  Proof.
    intros G Q Mc c u Hc Hu. split; [exact (Mc c u Hc Hu)|]. destruct (members_fixed f E W t c Hc u Hu) as [Cu Nu].
    assert (Fu : from source u) by (eapply from_sub; [exact (G c Hc)|apply members_visited, Hu]).
    assert (Qu : comparable_type u) by exact (comparable_member E R t c u Hc Hu Q). destruct u; try exact I.
    - intros i Hi. apply canon_list in Cu as Ce. destruct Ce as (e' & Ce & Q'). injection Q' as <-. eapply equal_there; [exact Ce| |exact Hi].
      apply list_found; [exact Cu|exact Fu|]. intros w Pw. apply Qu, part_list, Pw.
    - eapply context_there; [exact Cu|]. apply map_found; assumption.
  Qed.

  (** ** Generated code *)
  Definition seen (e : hexpr) : Prop := incl (visit e) (visit_expressions q).
  Lemma seen_self e : seen e -> In e (visit_expressions q).
  Proof. intros H. apply H. apply visit_outside, out_self. Qed.
  Lemma seen_part e x : seen e -> In x (parts_outside e) -> seen x.
  Proof. intros H Hx y Hy. apply H. apply visit_outside. eapply out_part; [exact Hx|]. apply visit_outside, Hy. Qed.
  Lemma seen_definition g : In g (p_defs q) -> seen (l_body (snd g)).
  Proof. intros H x Hx. apply in_flat_map. eauto. Qed.

  Lemma dollar_served x : prefix "$" x = true -> served (NName x).
  Proof. apply s_dollar, K. Qed.
  Lemma prelude_served x : In x (map fst (prelude_functions C)) -> served (NName x).
  Proof. apply s_prelude, prelude_there. Qed.

  Ltac pre := apply prelude_served; unfold prelude_functions; cbn [map fst In]; tauto.
  Ltac dollar := apply dollar_served; reflexivity.
  Ltac each := let e := fresh "e" in let H := fresh in intros e H; cbn in H; repeat (destruct H as [<-|H]; [try assumption; try (apply cl_variable; dollar)|]); try (destruct H).
  Ltac part := unfold parts_outside, parts; cbn; rewrite ?in_app_iff; cbn; tauto.

  Lemma comparable_alias x t : lookup E x = Some t -> comparable_type (TReference x) -> comparable_type t.
  Proof. intros Hx Q u Hu. apply Q. eapply part_alias; eassumption. Qed.

  Lemma map_contextual kt vt : grounded source (TMap kt vt) -> contextual (TMap kt vt).
  Proof.
    intros G i Hi. destruct (identifier_canonical _ _ Hi) as [c Hc]. refine (context_there _ c Hc _ i Hi). apply canon_map in Hc as Q. destruct Q as (k1 & v1 & Ck & Cv & ->).
    apply map_found; [exact (canon_idem f E W _ _ Hc)|exact (G _ Hc)].
  Qed.

  Lemma cl_hash j : forall v t e, hash_calculation n E R C j v t = Ok e -> grounded source t -> comparable_type t -> seen e -> clear v -> clear e.
  Proof.
    induction j as [|j IH]; intros v t e H G Q Se Hv; [discriminate|]. destruct t; cbn [hash_calculation] in H; try discriminate.
    - injection H as <-. apply cl_if; [assumption|apply cl_number..].
    - bok H g Hg. injection H as <-. apply cl_hcall; [pre|each]. apply cl_variable, s_has. unfold hash_name in Hg. destruct (type_id n E C t) as [i| | |] eqn:Qi; try discriminate.
      cbn in Hg. injection Hg as <-. destruct (identifier_canonical t i (ex_intro _ n Qi)) as [c Hc]. eapply hash_there; [exact Hc| |exists n; exact Qi].
      assert (Cl : canon E (TList t) (TList c)) by (apply canon_list; eauto).
      apply list_found; [exact (canon_idem f E W _ _ Cl)|exact (G _ Cl)|]. eapply (comparable_canonical E R); [exact Hc|]. intros w Pw. apply Q, part_list, Pw.
    - bok H g Hg. injection H as <-. pose proof (cl_context E R C M n _ _ (map_contextual _ _ G) Hg). apply cl_hcall; [pre|each].
    - injection H as <-. apply cl_number.
    - injection H as <-. apply cl_hcall; [pre|each].
    - bok H b Hb. destruct b; [|discriminate]. injection H as <-. apply cl_hcall; [apply s_has, (record_functions_there _ _ Hb)|each].
    - bok H u Hu. unfold resolve in Hu. destruct (lookup E name) as [u'|] eqn:Q'; [|discriminate]. injection Hu as ->.
      eapply IH; [exact H|eapply grounded_alias; eassumption|eapply comparable_alias; eassumption|exact Se|exact Hv].
    - injection H as <-. apply cl_hcall; [pre|each].
    - bok H ms Hms. bok H bs Hbs. injection H as <-. apply cl_switch; [dollar|assumption| |exact I]. apply mapM_ok in Hbs. intros t b Hb.
      destruct (Forall2_other _ _ _ _ Hbs Hb) as (m & Hm & Qm). bok Qm e He. injection Qm as -> <-. destruct (grounded_members f C p PF n source _ _ _ G Hms Hm) as [Fm Gm].
      split; [|eapply IH; [exact He|exact Gm| |eapply seen_part; [exact Se|]|apply cl_variable; dollar]].
      + apply carried_of. eapply visited_carried; [apply seen_self, Se|]. cbn. apply in_or_app. left. apply in_map_iff. exists (t, e). auto.
      + unfold union_members in Hms. bok Hms c Hc. injection Hms as <-. apply (proj1 (type_set_In _ _)) in Hm. eapply (comparable_member E R); [exists n; exact Hc|exact Hm|exact Q].
      + unfold parts_outside, parts. cbn. right. rewrite app_nil_r. apply in_or_app. left. apply in_map_iff. exists (t, e). auto.
  Qed.

  Lemma set_grounded t : canon E t t -> from source t -> grounded source t.
  Proof. intros Ct Ft c Hc. rewrite (canon_fun _ _ _ _ Hc Ct). exact Ft. Qed.
  Lemma field_grounded d x t : In d (p_types p) -> In (x, t) (td_fields (t_def d)) -> grounded source t.
  Proof. intros Hd Hx. eapply (between_grounded f C p PF p); [apply between_source|]. eapply starts_seen; [eapply st_field; eassumption|apply self_visit]. Qed.
  Lemma field_comparable d x t : In d (p_types p) -> In (x, t) (td_fields (t_def d)) -> comparable_type (def_record d) -> comparable_type t.
  Proof. intros Hd Hx Q u Hu. apply Q. eapply part_field; [apply (record_lookup f C p PF d Hd)|exact Hx|exact Hu]. Qed.

  Lemma cl_field d e x : In d (p_types p) -> clear e -> clear (HField (Some (def_record d)) e x).
  Proof.
    intros Hd He. apply cl_node; [split; exact I|split; [intros ? []|]|].
    - intros r Hr ts _. unfold compile_record_type in Hr. bok Hr m Hm. unfold compile_type in Hm. bok Hm c Hc.
      apply canonical_record in Hc. subst c. cbn in Hm. injection Hm as <-. injection Hr as <-. apply record_there, Hd.
    - intros y Hy. cbn in Hy. destruct Hy as [<-|[]]. exact He.
  Qed.

  Lemma generated_clear g : In g (p_defs q) -> generated C p n k mts ets hts g -> clear (l_body (snd g)).
  Proof.
    intros Hg H. pose proof (seen_definition g Hg) as Sg. destruct H as [d Hd Qd|d g Hd Qd H|kt vt g Hm H|t g Ht H|t g Ht H].
    - revert Sg. unfold equal_function, record_equal_definition. cbn [snd l_body].
      assert (G : forall fts, incl fts (td_fields (t_def d)) -> seen (equal_fields (TRecord (td_name (t_def d)) (td_original (t_def d))) fts) ->
        clear (equal_fields (TRecord (td_name (t_def d)) (td_original (t_def d))) fts)); [|apply G, incl_refl].
      induction fts as [|[x t] fts IH]; intros I Se; cbn [equal_fields] in *; [apply cl_boolean|].
      apply cl_if; [|apply IH; [intros z Hz; apply I; right; exact Hz|eapply seen_part; [exact Se|part]]|apply cl_boolean].
      assert (Hx : In (x, t) (td_fields (t_def d))) by (apply I; left; reflexivity).
      apply cl_equality; [|apply (cl_field d); [exact Hd|apply cl_variable; dollar]..].
      apply compares_found; [eapply field_grounded; eassumption|eapply field_comparable; eassumption|eapply field_carried; eassumption].
    - unfold record_hash_definition in H. bok H e He. injection H as <-. cbn [snd l_body] in *.
      assert (G : forall fts h e, incl fts (td_fields (t_def d)) -> clear h -> hash_fields n E R C k (TRecord (td_name (t_def d)) (td_original (t_def d))) fts h = Ok e ->
        seen e -> clear e); [|eapply G; [apply incl_refl|apply cl_number|exact He|exact Sg]].
      clear He Sg Hg e. induction fts as [|[x t] fts IH]; intros h e I Hh H Se; cbn [hash_fields] in H; [injection H as <-; exact Hh|].
      bok H h' Hh'. bok H c Hc. injection H as <-. apply IH in Hh'; [|intros z Hz; apply I; right; exact Hz|exact Hh|eapply seen_part; [exact Se|part]].
      assert (Hx : In (x, t) (td_fields (t_def d))) by (apply I; left; reflexivity).
      apply cl_hash in Hc; [|eapply field_grounded; eassumption|eapply field_comparable; eassumption|eapply seen_part; [exact Se|part]|apply (cl_field d); [exact Hd|apply cl_variable; dollar]].
      apply cl_hcall; [pre|each].
    - unfold map_context_definition in H. bok H name Hn. bok H ek Hek. bok H hk Hhk. bok H b Hb. bok H vs Hvs. injection H as <-. cbn [snd l_body] in *.
      destruct (contexts_found kt vt Hm) as [[Ke Kh] V].
      assert (Ne : forall t g, In t ets -> equal_name n E C t = Ok g -> clear (HVariable g)).
      { intros t g Ht Q. apply cl_variable, s_has. destruct (fo_equal_functions _ _ _ _ _ _ _ _ F t Ht) as (g' & Hg' & Q'). pose proof (eq_trans (eq_sym Q) Q') as Q''. injection Q'' as ->. apply definition_there, Hg'. }
      assert (Nh : forall t g, In t hts -> hash_name n E C t = Ok g -> clear (HVariable g)).
      { intros t g Ht Q. apply cl_variable, s_has. destruct (fo_hash_functions _ _ _ _ _ _ _ _ F t Ht) as (g' & Hg' & Q'). pose proof (eq_trans (eq_sym Q) Q') as Q''. injection Q'' as ->. apply definition_there, Hg'. }
      apply cl_hcall; [pre|]. intros e [<-|[<-|He]]; [exact (Ne kt ek Ke Hek)|exact (Nh kt hk Kh Hhk)|]. destruct b.
      + bok Hvs e1 He1. bok Hvs h1 Hh1. injection Hvs as <-. destruct V as [Ve Vh]; [intros u Hu; exact (comparable_sound E R n _ u Hb Hu)|].
        destruct He as [<-|[<-|[]]]; [exact (Ne vt e1 Ve He1)|exact (Nh vt h1 Vh Hh1)].
      + injection Hvs as <-. destruct He as [<-|[<-|[]]]; apply cl_lambda; try apply cl_boolean; try apply cl_number; intros x t Hx; cbn in Hx;
          repeat (destruct Hx as [Hx|Hx]; [injection Hx as <- <-; dollar|]); destruct Hx.
    - destruct (proj1 (fo_equals _ _ _ _ _ _ _ _ F) t Ht) as (Ct & Ft & Qt). unfold equal_definition in H. bok H name Hn. bok H e He. injection H as <-. cbn [snd l_body] in *.
      unfold equal_operation in He. bok He c Hc. rewrite (canon_fun _ _ _ _ (ex_intro _ n Hc) Ct) in He.
      assert (Mt : members_carried t) by (eapply visited_carried; [apply seen_self, Sg|left; reflexivity]).
      apply cl_switch; [dollar|apply cl_variable; dollar| |exact I]. intros u b [Q|[]]. injection Q as <- <-. split; [apply carried_of, Mt|].
      apply cl_switch; [dollar|apply cl_variable; dollar| |exact I]. intros u b [Q|[]]. injection Q as <- <-. split; [apply carried_of, Mt|].
      eapply (cl_equal f E R C M n W K prelude_there internal_there compared_there); [exact Ct| | | |exact He]; [|apply cl_variable; dollar..].
      apply compares_found; [apply set_grounded; assumption|exact Qt|exact Mt].
    - destruct (proj1 (fo_hashes _ _ _ _ _ _ _ _ F) t Ht) as (Ct & Ft & Qt). unfold hash_definition in H. bok H name Hn. bok H e He. injection H as <-. cbn [snd l_body] in *.
      assert (Mt : members_carried t) by (eapply visited_carried; [apply seen_self, Sg|left; reflexivity]).
      apply cl_switch; [dollar|apply cl_variable; dollar| |exact I]. intros u b [Q|[]]. injection Q as <- <-. split; [apply carried_of, Mt|].
      eapply cl_hash; [exact He|apply set_grounded; assumption|exact Qt|eapply seen_part; [exact Sg|part]|apply cl_variable; dollar].
  Qed.

  (** ** The source *)
  Lemma visited_asks x l e : In (x, l) (p_defs p) -> In e (visit (l_body l)) -> asks E C M e.
  Proof.
    intros Hx Hv. assert (He : In e (visit_expressions p)) by (apply in_flat_map; exists (x, l); auto).
    pose proof (grows_expression p q e (bt_grows p q B) He) as Hq. pose proof (visit_occurs _ _ Hv) as Ho. split; [exact (sb_hidden C p M SB x l e Hx Ho)|].
    assert (Cr : forall t, In t (lower_types e) -> carried t) by (intros t Ht; apply carried_of; eapply visited_carried; eassumption).
    assert (Ctx : forall kt vt, In (TMap kt vt) (map_candidates p) -> contextual (TMap kt vt)).
    { intros kt vt H i Hi. destruct (identifier_canonical _ _ Hi) as [c Hc]. refine (context_there _ c Hc _ i Hi). apply (fo_maps _ _ _ _ _ _ _ _ F). eauto. }
    assert (Gr : forall t, In t (node_types e) -> (forall o a, e <> HTry o a) -> grounded source t).
    { intros t Ht N. eapply (between_grounded f C p PF p); [apply between_source|]. eapply seen_node; eassumption. }
    destruct e; try exact I.
    - destruct function_type as [ft|]; [|exact I]. match goal with |- match ?g with HBuiltIn _ => _ | _ => _ end => destruct g as [|b| | | | | | | | | | | | | | | | | | | | | |] eqn:Qg; try exact I end.
      destruct b; try exact I.
      + intros ts kt vt Hs. assert (G : from source (TFunction ts (TMap kt vt))) by (apply (Gr ft); [left; reflexivity|discriminate|exact Hs]).
        assert (Hin : In (TMap kt vt) (visit_type (TFunction ts (TMap kt vt)))) by (cbn; right; left; reflexivity).
        assert (Cm : canon E (TMap kt vt) (TMap kt vt)) by (eapply (canonical_part_fixed f E W); [exact Hs|exact Hin|reflexivity]).
        eapply context_there; [exact Cm|]. apply map_found; [exact Cm|]. eapply from_sub; [exact G|exact Hin].
      + apply Cr. left. reflexivity.
    - destruct type as [t|]; [|exact I]. apply Cr. left. reflexivity.
    - destruct key_type as [kt|]; [|exact I]. destruct value_type as [vt|]; [|exact I]. split; [apply Cr; cbn; auto|]. split; [apply Cr; cbn; auto|]. apply Ctx.
      apply in_or_app. right. apply in_flat_map. eexists. split; [exact He|left; reflexivity].
    - split.
      + intros t Ht. apply Cr. cbn. apply in_or_app. auto.
      + intros t b ->. apply Cr. cbn. apply in_or_app. cbn. auto.
    - apply Cr. left. reflexivity.
    - split; [apply Cr; cbn; apply in_or_app; cbn; auto|]. intros b it Hb Hi. pose proof (sb_hidden C p M SB x l _ Hx Ho b it Hb Hi) as Hid.
      destruct (listed (fst it)) eqn:Ql; [|apply Hid; reflexivity]. destruct (fst it) as [[| | | |e0| | | | | | |]|] eqn:Qi; try discriminate.
      intros t' e' Qe Hs. injection Qe as <-. apply canon_list in Hs. destruct Hs as (e1 & Ce & Qe). injection Qe as <-. apply (carried_same f E C M W e0 e' Ce). apply Cr.
      cbn. apply in_or_app. left. apply in_flat_map. exists b. split; [exact Hb|]. apply in_flat_map. exists it. split; [exact Hi|]. rewrite Qi. left. reflexivity.
    - split; [apply Cr; cbn; auto|]. split; [apply Cr; cbn; auto|]. apply Ctx. apply in_or_app. right. apply in_flat_map. eexists. split; [exact He|left; reflexivity].
    - destruct o as [| | |[t|] o|]; try exact I. apply compares_found.
      + apply Gr; [left; reflexivity|discriminate].
      + exact (sb_operands C p M SB x l t o _ _ Hx Ho).
      + eapply visited_carried; [exact Hq|left; reflexivity].
    - destruct type as [t|]; [|exact I]. apply Cr. left. reflexivity.
    - apply Cr. left. reflexivity.
  Qed.

  Lemma free_served x : free_name E R C x -> served (NName x).
  Proof. intros [_ N] t Ht. destruct (N t Ht). Qed.

  Lemma record_served G e t y u v : exact E R G e t -> occurs y e -> accessed y = Some u -> u = Some v -> record_of E R C M n v.
  Proof.
    intros Xe Hy Ha Hu r Hr ts _. destruct (record_scope E R G e t y u Xe Hy Ha) as (v' & name & o & Q & Ht & Hl). rewrite Hu in Q. injection Q as <-.
    unfold compile_record_type in Hr. bok Hr m Hm. unfold compile_type in Hm. bok Hm c Hc.
    assert (c = TRecord name o) as ->.
    { apply (teq_canon_eq f E W v (TRecord name o)); [exact Ht|exists n; exact Hc|exists 1; reflexivity]. }
    cbn in Hm. injection Hm as <-. injection Hr as <-. apply user_record_there, Hl.
  Qed.

  Lemma source_clear x l : In (x, l) (p_defs p) -> clear (l_body l).
  Proof.
    intros Hx e He. destruct (pf_definitions f C p PF x l Hx) as (_ & Fa & T & _). pose proof (XM x l Hx) as Xl. unfold exact_lambda in Xl. split.
    - destruct (outside_or_condition _ _ He) as [H|H]; [eapply visited_asks; [exact Hx|apply visit_outside, H]|exact (sb_conditions C p M SB x l e Hx H)].
    - split.
      + intros y Hy. apply free_served. exact (proj1 T y e He Hy).
      + destruct e; try exact I.
        * eapply record_served; [exact Xl|exact He|reflexivity|reflexivity].
        * destruct type as [t|]; [|exact I]. eapply record_served; [exact Xl|exact He|reflexivity|reflexivity].
        * eapply record_served; [exact Xl|exact He|reflexivity|reflexivity].
        * destruct (variable_scope E R _ _ _ _ Xl He) as [H|(b & Hb & H)]; [|apply free_served; exact (proj1 T x0 b Hb H)].
          rewrite map_app, in_app_iff in H. destruct H as [H|H].
          -- rewrite map_rev, <- in_rev in H. apply in_map_iff in H. destruct H as ([y t] & <- & Hy). apply free_served. exact (Fa y t Hy).
          -- apply s_has, source_there. unfold module_env in H. rewrite map_rev, <- in_rev, map_app, in_app_iff, map_map in H. cbn [program_hir h_declared h_defs] in H.
             rewrite map_app, in_app_iff in H. unfold global_names. rewrite !in_app_iff. cbn [fst] in H. tauto.
  Qed.

  Lemma definitions_served d : In d defs -> all (f_body d).
  Proof.
    intros H. pose proof Hdefs as Hm. apply mapM_ok in Hm. destruct (Forall2_other _ _ _ _ Hm H) as (g & Hg & Q). unfold compile_definition in Q. bok Q c Hc. bok Q r Hr.
    assert (f_body d = c) as ->.
    { destruct (l_arguments (snd g)); [injection Q as <-; reflexivity|]. bok Q args Ha. injection Q as <-. reflexivity. }
    eapply (compiled_needs f E R C M n W K prelude_there runtime_there internal_there compared_there); [exact Hc|].
    destruct (fo_definitions _ _ _ _ _ _ _ _ F g Hg) as [Hs|Hs]; [|exact (generated_clear g Hg Hs)]. destruct g as [x l]. exact (source_clear x l Hs).
  Qed.

  (** ** Type information *)
  Lemma information_carried t : In t its -> canon E t t /\ carried t.
  Proof.
    intros Ht. pose proof Hits as H. unfold information_types in H. bok H vts Hv. bok H cs Hcs. injection H as <-. apply (proj1 (type_set_In _ _)) in Ht. apply filter_In in Ht.
    destruct Ht as [Ht _]. apply mapM_ok in Hcs. destruct (Forall2_other _ _ _ _ Hcs Ht) as (u & Hu & Hc). assert (Cu : canon E u t) by (exists n; exact Hc).
    split; [exact (canon_idem f E W _ _ Cu)|]. apply (carried_same f E C M W u t Cu). rewrite !in_app_iff in Hu. destruct Hu as [Hu|[Hu|Hu]].
    - cbn in Hu. repeat (destruct Hu as [<-|Hu]; [eapply carried_plain; [exists 1; reflexivity|intros r Hr; inversion Hr]|]). destruct Hu.
    - destruct variants_carried as (vts' & Hv' & Hcar). apply Hcar. assert (vts' = vts) as -> by congruence. exact Hu.
    - apply in_map_iff in Hu. destruct Hu as (d & <- & Hd). eapply carried_plain; [exists 1; reflexivity|intros r Hr; inversion Hr].
  Qed.

  Lemma local_served x : In x ["hir:debug:element"; "hir:equal:element"] -> served (NName x).
  Proof. intros H t Ht. destruct (k_locals E R C K x t H Ht). Qed.

  Ltac alls := repeat (apply Forall_cons; [try assumption|]); try apply Forall_nil.
  Ltac var := apply all_var; first [dollar|pre|apply local_served; cbn; tauto].

  Lemma debug_there e : all e -> all (debug_call e).
  Proof. apply all_debug, internal_there. Qed.
  Lemma equal_call_there l r : all l -> all r -> all (equal_call l r).
  Proof. apply all_equal_call, internal_there. Qed.
  Lemma source_error_there e : all e -> all (error_source e).
  Proof. apply all_source, internal_there. Qed.

  Lemma unboxed_there e t v : canon E t t -> carried t -> collection t = true -> all e -> unboxed_value n E C e t = Ok v -> all v.
  Proof.
    intros Ct Hc Cl He H. unfold unboxed_value in H. bok H m Hm. unfold compile_concrete in Hm. bok Hm c Hcc. pose proof (canon_fun _ _ _ _ (ex_intro _ n Hcc) Ct) as Q. subst c.
    assert (G : bind (concrete_name n E C t) (fun o => match o with Some r => Ok (Mir.TRecord r) | None => lower C t end) = Ok m) by (destruct t; discriminate Cl || exact Hm).
    bok G o Ho. assert (exists r, o = Some r) as [r ->].
    { destruct t; try discriminate Cl; cbn in Ho; [bok Ho i Hi|bok Ho i Hi; bok Ho j Hj]; injection Ho as <-; eauto. }
    injection G as <-. injection H as <-. apply (all_record _ _ _ _ _ r); [reflexivity|apply s_record; exact (carried_concrete E C M n t t r Hc Hcc Ho)|alls].
  Qed.

  Lemma variant_there e t v : carried t -> all e -> variant_value n E C e t = Ok v -> all v.
  Proof.
    intros Hc He H. unfold variant_value in H. bok H m Hm.
    assert (G : v = e \/ bind (compile_concrete n E C t) (fun c => bind (concrete_value n E C e t) (fun v => Ok (Op (OVariant c) [v]))) = Ok v)
      by (destruct m; first [right; exact H|left; injection H as <-; reflexivity]).
    destruct G as [->|G]; [exact He|]. bok G c Hcc. bok G w Hw. injection G as <-. apply all_plain; [reflexivity|]. alls. eapply all_value; eassumption.
  Qed.

  Lemma fields_there r fts : resolve_record R r = Ok fts -> has_record r /\ forall x t, In (x, t) fts -> carried t.
  Proof.
    unfold resolve_record. destruct (lookup R r) as [fts'|] eqn:Q; [|discriminate]. intros H. injection H as ->. destruct (record_definition p r fts Q) as (d & Hd & -> & ->).
    split; [apply record_there, Hd|]. intros x t Hx. apply carried_of. eapply field_carried; eassumption.
  Qed.
  Lemma field_there r i x : has_record r -> all (Var x) -> all (Op (OField r i) [Var x]).
  Proof. intros H G. apply (all_record _ _ _ _ _ r); [reflexivity|apply s_record, H|alls]. Qed.

  Lemma debug_fields_there r fts : has_record r -> (forall x t, In (x, t) fts -> carried t) -> forall i l, debug_fields n E C r i fts = Ok l -> Forall (Forall all) l.
  Proof.
    intros Hr. induction fts as [|[x t] fts IH]; intros Hf i l H; cbn [debug_fields] in H; [injection H as <-; constructor|].
    bok H v Hv. bok H l' Hl'. injection H as <-. constructor; [|eapply IH; [intros y u Hy; apply (Hf y u); right; exact Hy|exact Hl']].
    alls; [apply all_lit|]. apply debug_there. eapply variant_there; [eapply Hf; left; reflexivity| |exact Hv]. apply field_there; [exact Hr|var].
  Qed.
  Lemma separated_there s l : all s -> Forall (Forall all) l -> Forall all (separated s l).
  Proof.
    intros Hs H. induction H as [|x l Hx Hl IH]; [constructor|]. cbn. destruct l as [|y l]; [exact Hx|]. apply Forall_app. split; [exact Hx|]. constructor; [exact Hs|exact IH].
  Qed.

  Lemma debug_body_there t e : In t its -> debug_body n E R C t = Ok e -> all e.
  Proof.
    intros Ht H. destruct (information_carried t Ht) as [Ct Hc]. assert (V : all (Var "$x")) by var.
    assert (De : all (debug_element)) by (apply all_letrec; [apply debug_there, V|var]).
    destruct t; cbn [debug_body] in H; try discriminate.
    - injection H as <-. apply all_if; [exact V|apply all_lit..].
    - injection H as <-. apply all_plain; [reflexivity|]. alls; try apply all_lit. apply debug_there, source_error_there, V.
    - injection H as <-. apply all_lit.
    - bok H v Hv. injection H as <-. apply all_plain; [reflexivity|]. alls; [var|apply all_lit|]. eapply unboxed_there; [exact Ct|exact Hc|reflexivity|exact V|exact Hv].
    - bok H v Hv. injection H as <-. apply all_plain; [reflexivity|]. alls; [var|apply all_lit|apply all_lit|]. eapply unboxed_there; [exact Ct|exact Hc|reflexivity|exact V|exact Hv].
    - injection H as <-. apply all_lit.
    - injection H as <-. apply all_plain; [reflexivity|]. alls. var.
    - bok H fts Hfts. bok H l Hl. injection H as <-. destruct (fields_there _ _ Hfts) as [Hr Hf]. apply all_plain; [reflexivity|]. constructor; [apply all_lit|]. apply Forall_app.
      split; [|alls; apply all_lit]. apply separated_there; [apply all_lit|]. eapply debug_fields_there; eassumption.
    - injection H as <-. apply all_plain; [reflexivity|]. alls; apply all_lit.
  Qed.

  Lemma none_there : all none_variant.
  Proof. apply all_plain; [reflexivity|]. alls. apply all_lit. Qed.
  Lemma boolean_there e : all e -> all (boolean_variant e).
  Proof. intros H. apply all_plain; [reflexivity|]. alls. Qed.
  Lemma merged_there l r : all l -> all r -> all (merged_result l r).
  Proof.
    intros Hl Hr. apply all_case; [exact Hl| |intros x e Q; injection Q as <- <-; apply none_there]. constructor; [|constructor]. cbn [a_body].
    apply all_case; [exact Hr| |intros x e Q; injection Q as <- <-; apply none_there]. constructor; [|constructor]. cbn [a_body].
    apply boolean_there, all_if; [var|var|apply all_lit].
  Qed.
  Lemma equal_fields_there r fts : has_record r -> (forall x t, In (x, t) fts -> carried t) -> forall i e e', all e -> equal_field_results n E C r i fts e = Ok e' -> all e'.
  Proof.
    intros Hr. induction fts as [|[x t] fts IH]; intros Hf i e e' He H; cbn [equal_field_results] in H; [injection H as <-; exact He|].
    bok H v Hv. bok H w Hw. eapply IH; [intros y u Hy; apply (Hf y u); right; exact Hy| |exact H].
    apply merged_there; [exact He|]. apply equal_call_there; [eapply variant_there; [eapply Hf; left; reflexivity| |exact Hv]|eapply variant_there; [eapply Hf; left; reflexivity| |exact Hw]];
      (apply field_there; [exact Hr|var]).
  Qed.

  Lemma equal_body_there t e : In t its -> equal_body n E R C t = Ok e -> all e.
  Proof.
    intros Ht H. destruct (information_carried t Ht) as [Ct Hc]. assert (L : all (Var "$lhs")) by var. assert (Rr : all (Var "$rhs")) by var.
    assert (De : all (equal_element)) by (apply all_letrec; [apply equal_call_there; assumption|var]).
    destruct t; cbn [equal_body] in H; try discriminate.
    - injection H as <-. apply boolean_there. apply all_if; [assumption|assumption|]. apply all_if; [assumption|apply all_lit..].
    - injection H as <-. apply equal_call_there; apply source_error_there; assumption.
    - injection H as <-. apply none_there.
    - bok H v Hv. bok H w Hw. injection H as <-. apply all_plain; [reflexivity|]. alls; [var|eapply unboxed_there; [exact Ct|exact Hc|reflexivity| |eassumption]; assumption..].
    - bok H v Hv. bok H w Hw. injection H as <-. apply all_plain; [reflexivity|]. alls; [var|eapply unboxed_there; [exact Ct|exact Hc|reflexivity| |eassumption]; assumption..].
    - injection H as <-. apply boolean_there, all_lit.
    - injection H as <-. apply boolean_there, all_plain; [reflexivity|]. alls.
    - bok H fts Hfts. destruct (fields_there _ _ Hfts) as [Hr Hf]. eapply equal_fields_there; [exact Hr|exact Hf| |exact H]. apply boolean_there, all_lit.
    - injection H as <-. apply boolean_there, all_plain; [reflexivity|]. alls. var.
  Qed.

  Lemma information_function_there d : In d (concat ifs) -> has_function (f_name d).
  Proof. intros H. unfold LowerCompleteSpec.has_function, M. cbn [m_declared m_defs]. rewrite in_app_iff. right. apply in_map. rewrite !in_app_iff. auto. Qed.

  Lemma information_served d : In d (concat ifs) -> all (f_body d).
  Proof.
    intros H. apply in_concat in H. destruct H as (l & Hl & Hd). pose proof Hifs as Hi. apply mapM_ok in Hi. destruct (Forall2_other _ _ _ _ Hi Hl) as (t & Ht & Q).
    apply filter_In in Ht. destruct Ht as [Ht _]. assert (There : forall g, In g l -> has_function (f_name g)) by (intros g Hg; apply information_function_there, in_concat; eauto).
    unfold information_definitions in Q. bok Q d1 Hd1. bok Q d2 Hd2. bok Q name Hn. bok Q x Hx. bok Q y Hy. injection Q as <-.
    unfold debug_definition in Hd1. bok Hd1 x1 Hx1. bok Hd1 b1 Hb1. bok Hd1 m1 Hm1. injection Hd1 as <-.
    unfold reflect_equal_definition in Hd2. bok Hd2 y1 Hy1. bok Hd2 b2 Hb2. bok Hd2 m2 Hm2. injection Hd2 as <-.
    assert (x1 = x) as -> by congruence. assert (y1 = y) as -> by congruence.
    destruct Hd as [<-|[<-|[<-|[]]]]; cbn [f_body].
    - apply all_case; [var| |discriminate]. constructor; [|constructor]. cbn [a_body]. eapply debug_body_there; eassumption.
    - assert (Df : all (boolean_variant (Lit (LBool false)))) by (apply boolean_there, all_lit).
      apply all_case; [var| |intros z e Q; injection Q as <- <-; exact Df]. constructor; [|constructor]. cbn [a_body].
      apply all_case; [var| |intros z e Q; injection Q as <- <-; exact Df]. constructor; [|constructor]. cbn [a_body]. eapply equal_body_there; eassumption.
    - apply (all_record _ _ _ _ _ information_record); [reflexivity|apply s_record, internal_there|]. alls; apply all_var, s_has.
      + apply (There _ (or_introl eq_refl)).
      + apply (There _ (or_intror (or_introl eq_refl))).
  Qed.

  Lemma default_served d : In d default_definitions -> all (f_body d).
  Proof.
    intros H. assert (There : forall g, In g default_definitions -> has_function (f_name g)).
    { intros g Hg. unfold LowerCompleteSpec.has_function, M. cbn [m_declared m_defs]. rewrite in_app_iff. right. apply in_map. rewrite !in_app_iff. auto. }
    cbn in H. destruct H as [<-|[<-|[<-|[]]]]; cbn [f_body].
    - apply all_lit.
    - apply none_there.
    - apply (all_record _ _ _ _ _ information_record); [reflexivity|apply s_record, internal_there|]. alls; apply all_var, s_has.
      + apply (There _ (or_introl eq_refl)).
      + apply (There _ (or_intror (or_introl eq_refl))).
  Qed.

  Lemma search_complete : complete C p M.
  Proof.
    intros d Hd. assert (A : all (f_body d)).
    { unfold M in Hd. cbn [m_defs] in Hd. rewrite !in_app_iff in Hd. destruct Hd as [Hd|[Hd|Hd]]; [apply definitions_served|apply information_served|apply default_served]; exact Hd. }
    split.
    - intros x t Hx Hn. exact (A (NName x) Hx t Hn).
    - intros r ts Hr Hn. exact (A (NRecord r) Hr ts Hn).
  Qed.
End Search.

(** A compiled program that stays away from the findings has what its code
    mentions, and passes the later type check. *)
Theorem searched_program_complete f n k C p M : config_fits C -> program_fits f C p -> raw_program p -> apart_module (program_hir p) ->
  compile_program n k C p = Ok M -> (forall q, analyze_program n p = Ok q -> searchable C q M) -> complete C p M.
Proof.
  intros CF PF Raw A H Hs. unfold compile_program in H. bok H q Hq. specialize (Hs q Hq). bok H r Hr. unfold analyze_program in Hq.
  repeat match type of Hq with (if ?b then _ else _) = _ => destruct b; [discriminate|] end. bok Hq m Hm. injection Hq as <-.
  destruct (exact_q f C p PF Raw n m Hm A) as [X T]. pose proof (program_fits_q f C p PF Raw n m Hm) as PF'.
  destruct (transform_found f C _ PF' n k r Hr) as (mts & ets & hts & B & F).
  unfold lower_program in H. bok H its Hits. bok H ids Hids. bok H ifs Hifs. bok H tds Htds. bok H cds Hcds. bok H fds Hfds. bok H dds Hdds. bok H defs Hdefs. bok H infos Hinfos. injection H as <-.
  eapply (search_complete f C _ CF PF' n k r mts ets hts B F); eassumption.
Qed.

Theorem searched_program_checks f n k C p M : config_fits C -> program_fits f C p -> raw_program p -> apart_module (program_hir p) ->
  compile_program n k C p = Ok M -> (forall q, analyze_program n p = Ok q -> searchable C q M) -> type_check M = true.
Proof. intros CF PF Raw A H Hs. eapply compiled_program_checks; try eassumption. eapply searched_program_complete; eassumption. Qed.
