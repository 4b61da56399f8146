(** A compiled module passes the later type check. *)
From Coq Require Import String Ascii List ZArith Bool Lia.
From Verif Require Import Base Mir MirTypeCheck MirTypeProofs HirType HirTypeOrder HirTypeSpec HirTypeTermination HirTypeEq HirTypeSub HirTypeId
  HirTypeModule HirTypeModuleProofs Hir HirSpec HirValidate HirParts HirMain HirMir HirProgram LowerTag LowerTypeSpec LowerProgramSpec LowerTypeBase
  LowerTypeCode LowerTypeMore LowerTypeMain LowerTypeGen LowerTypeInfo LowerTypeNames LowerTypeFlow.
Import ListNotations.
Local Open Scope string_scope.
Local Open Scope list_scope.

Section Module.
  Variable f : string -> string.
  Variable C : config.
  Variable p : program.
  Hypothesis CF : config_fits C.
  Hypothesis PF : program_fits f C p.
  Variable n k : nat.

  Let E := program_env p.
  Let R := program_records p.
  Let X : context_ok f E R := pf_context f C p PF.
  Let W : wf f E := ctx_types f E R X.
  Let K : config_ok E R C := config_fine f C p CF PF.

  Notation neat := (neat f).
  Notation compiler_name := (compiler_name E R C).
  Notation compiler_record := (compiler_record E R C).
  Notation lowers := (lowers E C).
  Notation tidy_set := (tidy_set f p).

  (** ** Kinds of names *)
  Definition record_functions (g : string -> string) : list string := map (fun d => g (record_name d)) (p_types p).

  Definition tag (x : string) : nat :=
    if mem x (record_functions record_equal_name) then 8
    else if mem x (record_functions record_hash_name) then 9
    else if prefix "hir:type_information:" x then 1
    else if prefix "hir:reflect:debug:" x then 2
    else if prefix "hir:reflect:equal:" x then 3
    else if prefix "hir:equal:" x then 4
    else if prefix "hir:hash:" x then 5
    else if prefix "hir:map:context:" x then 6
    else if mem x ["__debug"; "__race"; "__spawn"] then 7
    else 0.

  Definition tags (g : nat) (l : list string) : Prop := forall x, In x l -> tag x = g.

  Lemma filter_tag g h l : tags h l -> filter (fun x => Nat.eqb (tag x) g) l = if Nat.eqb h g then l else [].
  Proof.
    intros T. destruct (Nat.eqb h g) eqn:Q; [apply filter_all|apply filter_none]; intros x Hx; rewrite (T x Hx); exact Q.
  Qed.

  Lemma mem_false_iff x l : mem x l = false <-> ~ In x l.
  Proof. destruct (mem x l) eqn:Q; [apply mem_In in Q; split; [discriminate|contradiction]|]. split; [|reflexivity]. intros _ H. apply mem_In in H. congruence. Qed.

  Lemma not_record_function g x : (forall d, In d (p_types p) -> x <> g (record_name d)) -> mem x (record_functions g) = false.
  Proof. intros H. apply mem_false_iff. intros Hx. apply in_map_iff in Hx. destruct Hx as (d & <- & Hd). exact (H d Hd eq_refl). Qed.

  Lemma prefix_part a b x : prefix a x = false -> prefix (append a b) x = false.
  Proof.
    intros H. destruct (prefix (append a b) x) eqn:Q; [|reflexivity]. apply prefix_split in Q. destruct Q as [c ->]. rewrite append_assoc, prefix_app in H. discriminate.
  Qed.

  Lemma tag_source x : source_name x -> (forall d, In d (p_types p) -> x <> record_equal_name (record_name d) /\ x <> record_hash_name (record_name d)) -> tag x = 0.
  Proof.
    intros (_ & H & P) N. unfold tag. rewrite !not_record_function by (intros d Hd; apply (N d Hd)).
    pose proof (prefix_part "hir:" "type_information:" x H) as P1. pose proof (prefix_part "hir:" "reflect:debug:" x H) as P2.
    pose proof (prefix_part "hir:" "reflect:equal:" x H) as P3. pose proof (prefix_part "hir:" "equal:" x H) as P4.
    pose proof (prefix_part "hir:" "hash:" x H) as P5. pose proof (prefix_part "hir:" "map:context:" x H) as P6.
    cbn [append] in P1, P2, P3, P4, P5, P6. rewrite P1, P2, P3, P4, P5, P6.
    rewrite (proj2 (mem_false_iff x ["__debug"; "__race"; "__spawn"]) P). reflexivity.
  Qed.

  Lemma hir_not_record x : prefix "hir:" x = true -> mem x (record_functions record_equal_name) = false /\ mem x (record_functions record_hash_name) = false.
  Proof.
    intros H. split; apply not_record_function; intros d Hd Q; rewrite (record_function_not_hir f C p PF d x Hd) in H; try discriminate; tauto.
  Qed.

  Ltac tagged := unfold tag; match goal with |- context [append ?a ?i] =>
    destruct (hir_not_record (append a i)) as [-> ->]; [reflexivity|] end; rewrite ?prefix_app; reflexivity.

  Lemma tag_information i : tag (append "hir:type_information:" i) = 1. Proof. tagged. Qed.
  Lemma tag_debug i : tag (append "hir:reflect:debug:" i) = 2. Proof. tagged. Qed.
  Lemma tag_reflect i : tag (append "hir:reflect:equal:" i) = 3. Proof. tagged. Qed.
  Lemma tag_equal i : tag (append "hir:equal:" i) = 4. Proof. tagged. Qed.
  Lemma tag_hash i : tag (append "hir:hash:" i) = 5. Proof. tagged. Qed.
  Lemma tag_context i : tag (append "hir:map:context:" i) = 6. Proof. tagged. Qed.

  Lemma tag_private : tags 7 ["__debug"; "__race"; "__spawn"].
  Proof.
    intros x Hx. unfold tag. assert (N : forall d, In d (p_types p) -> ~ (x = record_equal_name (record_name d) \/ x = record_hash_name (record_name d))).
    { intros d Hd H. apply record_function_last in H. cbn in Hx. destruct Hx as [<-|[<-|[<-|[]]]]; cbn in H; destruct H; discriminate. }
    rewrite !not_record_function by (intros d Hd Q; apply (N d Hd); tauto). cbn in Hx. destruct Hx as [<-|[<-|[<-|[]]]]; reflexivity.
  Qed.

  Lemma tag_record_equal d : In d (p_types p) -> tag (record_equal_name (record_name d)) = 8.
  Proof.
    intros Hd. unfold tag. assert (mem (record_equal_name (record_name d)) (record_functions record_equal_name) = true) as ->; [|reflexivity].
    apply mem_In. apply (in_map (fun d => record_equal_name (record_name d))), Hd.
  Qed.
  Lemma tag_record_hash d : In d (p_types p) -> tag (record_hash_name (record_name d)) = 9.
  Proof.
    intros Hd. unfold tag. rewrite not_record_function.
    - assert (mem (record_hash_name (record_name d)) (record_functions record_hash_name) = true) as ->; [|reflexivity].
      apply mem_In. apply (in_map (fun d => record_hash_name (record_name d))), Hd.
    - intros d' _ Q. apply (f_equal last_char) in Q. unfold record_equal_name, record_hash_name in Q. rewrite !last_append in Q. discriminate.
  Qed.

  (** ** Names made of identifiers *)
  Definition named (pre : string) : list ty -> list string -> Prop := Forall2 (fun t x => rmap (append pre) (type_id n E C t) = Ok x).

  Lemma named_one pre t x : rmap (append pre) (type_id n E C t) = Ok x -> exists i, type_id n E C t = Ok i /\ x = append pre i.
  Proof. destruct (type_id n E C t) as [i| | |]; try discriminate. cbn. intros H. injection H as <-. eauto. Qed.

  Lemma named_In pre ts xs x : named pre ts xs -> In x xs -> exists t i, In t ts /\ type_id n E C t = Ok i /\ x = append pre i.
  Proof.
    induction 1 as [|t y ts xs H _ IH]; intros Hx; [destruct Hx|]. destruct Hx as [<-|Hx].
    - apply named_one in H. destruct H as (i & Hi & ->). exists t, i. split; [left; reflexivity|auto].
    - destruct (IH Hx) as (u & i & Hu & H1 & H2). exists u, i. split; [right; exact Hu|auto].
  Qed.

  Lemma named_nodup pre ts xs : tidy_set ts -> named pre ts xs -> NoDup xs.
  Proof.
    intros [Nd T] H. induction H as [|t x ts xs Hx Hxs IH]; [constructor|]. inversion Nd as [|? ? Nt Nd']; subst. constructor.
    - intros Q. destruct (named_In _ _ _ _ Hxs Q) as (u & i & Hu & Hi & Q'). apply named_one in Hx. destruct Hx as (j & Hj & ->). apply append_left in Q'. subst j.
      apply Nt. destruct (T t (or_introl eq_refl)) as [N1 C1]. destruct (T u (or_intror Hu)) as [N2 C2].
      rewrite (identifier_inj f C p CF n n t u i N1 N2 C1 C2 Hj Hi). exact Hu.
    - apply IH; [exact Nd'|]. intros u Hu. apply T. right. exact Hu.
  Qed.

  Lemma named_tags pre ts xs g : (forall i, tag (append pre i) = g) -> named pre ts xs -> tags g xs.
  Proof. intros G H x Hx. destruct (named_In _ _ _ _ H Hx) as (t & i & _ & _ & ->). apply G. Qed.

  Lemma named_default pre ts xs : named pre ts xs -> ~ In (append pre "default") xs.
  Proof.
    intros H Hx. destruct (named_In _ _ _ _ H Hx) as (t & i & _ & Hi & Q). apply append_left in Q. subst i.
    destruct (identifier_word C p CF t "default") as (_ & N & _); [exists n; exact Hi|]. apply N. reflexivity.
  Qed.

  (** The names of the type information of several types *)
  Lemma triple_names {A} (name : A -> string) ts ls :
    Forall2 (fun t l => exists x y z, rmap (append "hir:reflect:debug:") (type_id n E C t) = Ok x /\ rmap (append "hir:reflect:equal:") (type_id n E C t) = Ok y /\
      rmap (append "hir:type_information:") (type_id n E C t) = Ok z /\ map name l = [x; y; z]) ts ls ->
    exists xs ys zs, named "hir:reflect:debug:" ts xs /\ named "hir:reflect:equal:" ts ys /\ named "hir:type_information:" ts zs /\
      forall g, filter (fun x => Nat.eqb (tag x) g) (map name (concat ls)) =
        if Nat.eqb 1 g then zs else if Nat.eqb 2 g then xs else if Nat.eqb 3 g then ys else [].
  Proof.
    induction 1 as [|t l ts ls (x & y & z & Hx & Hy & Hz & Hl) _ (xs & ys & zs & I1 & I2 & I3 & I4)].
    - exists [], [], []. split; [constructor|]. split; [constructor|]. split; [constructor|]. intros g. cbn [concat map filter].
      destruct (Nat.eqb 1 g); [reflexivity|]. destruct (Nat.eqb 2 g); [reflexivity|]. destruct (Nat.eqb 3 g); reflexivity.
    - exists (x :: xs), (y :: ys), (z :: zs). split; [constructor; assumption|]. split; [constructor; assumption|]. split; [constructor; assumption|].
      intros g. cbn [concat]. rewrite map_app, filter_app, I4, Hl. cbn [filter].
      apply named_one in Hx, Hy, Hz. destruct Hx as (i & _ & ->). destruct Hy as (j & _ & ->). destruct Hz as (h & _ & ->).
      rewrite tag_debug, tag_reflect, tag_information. destruct g as [|[|[|[|g]]]]; reflexivity.
  Qed.

  (** ** The functions of the compiled module *)
  Lemma Forall2_names {A B D} (P : A -> B -> Prop) (g : A -> D) (h : B -> D) l l' : Forall2 P l l' -> (forall a b, In a l -> P a b -> h b = g a) -> map h l' = map g l.
  Proof.
    induction 1 as [|a b l l' H _ IH]; intros G; [reflexivity|]. cbn. rewrite (G a b (or_introl eq_refl) H). f_equal. apply IH. intros c d Hc. apply G. right. exact Hc.
  Qed.
  Lemma Forall2_named {B} (P : ty -> B -> Prop) pre (h : B -> string) l l' : Forall2 P l l' ->
    (forall a b, In a l -> P a b -> rmap (append pre) (type_id n E C a) = Ok (h b)) -> named pre l (map h l').
  Proof.
    induction 1 as [|a b l l' H _ IH]; intros G; [constructor|]. cbn. constructor; [apply G; [left; reflexivity|exact H]|]. apply IH. intros c d Hc. apply G. right. exact Hc.
  Qed.
  Lemma Forall2_left {A B} (P : A -> B -> Prop) l l' a : Forall2 P l l' -> In a l -> exists b, In b l' /\ P a b.
  Proof.
    induction 1 as [|x y l l' H _ IH]; intros Ha; [destruct Ha|]. destruct Ha as [<-|Ha]; [exists y; split; [left; reflexivity|exact H]|].
    destruct (IH Ha) as (b & Hb & G). exists b. split; [right; exact Hb|exact G].
  Qed.
  Lemma Forall2_other {A B} (P : A -> B -> Prop) l l' b : Forall2 P l l' -> In b l' -> exists a, In a l /\ P a b.
  Proof.
    induction 1 as [|x y l l' H _ IH]; intros Ha; [destruct Ha|]. destruct Ha as [<-|Ha]; [exists x; split; [left; reflexivity|exact H]|].
    destruct (IH Ha) as (a & Hb & G). exists a. split; [right; exact Hb|exact G].
  Qed.

  Variable q : program.
  Variables (ds : list type_def) (hs : list (string * lambda)) (mts : list ty) (cs : list (string * lambda))
      (ets : list ty) (es : list (string * lambda)) (hts : list ty) (gs : list (string * lambda)).
  Hypothesis S : shape f C p n k q ds hs mts cs ets es hts gs.

  Let equal_names (l : list type_def) := map (fun d => record_equal_name (record_name d)) l.
  Let hash_names (l : list type_def) := map (fun d => record_hash_name (record_name d)) l.

  Lemma hs_names : map fst hs = hash_names (internal ds).
  Proof.
    eapply Forall2_names; [exact (sh_hashes _ _ _ _ _ _ _ _ _ _ _ _ _ _ S)|]. intros d g Hd Hg. eapply (nl_record_hash f C p PF n); [|exact Hg].
    apply filter_In in Hd. apply (sh_records _ _ _ _ _ _ _ _ _ _ _ _ _ _ S), Hd.
  Qed.
  Lemma cs_names : named "hir:map:context:" mts (map fst cs).
  Proof.
    eapply Forall2_named; [exact (sh_contexts _ _ _ _ _ _ _ _ _ _ _ _ _ _ S)|]. intros t g _ (kt & vt & -> & Hg). eapply (nl_context f C p n), Hg.
  Qed.
  Lemma es_names : named "hir:equal:" ets (map fst es).
  Proof.
    eapply Forall2_named; [exact (sh_equal_functions _ _ _ _ _ _ _ _ _ _ _ _ _ _ S)|]. intros t g Ht Hg. eapply (nl_equal f C p PF n); [|exact Hg].
    apply (sh_equals _ _ _ _ _ _ _ _ _ _ _ _ _ _ S), Ht.
  Qed.
  Lemma gs_names : named "hir:hash:" hts (map fst gs).
  Proof.
    eapply Forall2_named; [exact (sh_hash_functions _ _ _ _ _ _ _ _ _ _ _ _ _ _ S)|]. intros t g Ht Hg. eapply (nl_hash f C p PF n); [|exact Hg].
    apply (sh_hashed _ _ _ _ _ _ _ _ _ _ _ _ _ _ S), Ht.
  Qed.

  Lemma record_names_nodup (g : string -> string) : (forall a b, g a = g b -> a = b) ->
    NoDup (map (fun d => g (record_name d)) (external ds) ++ map (fun d => g (record_name d)) (internal ds))%list.
  Proof.
    intros I. apply (nodup_split (fun d => g (record_name d)) t_external). destruct (sh_records _ _ _ _ _ _ _ _ _ _ _ _ _ _ S) as [_ N].
    rewrite <- (map_map record_name g). apply FinFun.Injective_map_NoDup; [exact I|exact N].
  Qed.

  Variables (its : list ty) (ids : list (list (string * mtype))) (ifs : list (list fdef)) (tds cds : list (string * list mtype)) (fds dds : list (string * mtype))
    (defs : list fdef) (infos : list (mtype * string)).
  Hypothesis Hits : information_types n E q = Ok its.
  Hypothesis Hids : mapM (information_declarations n E C) (filter (external_type q) its) = Ok ids.
  Hypothesis Hifs : mapM (information_definitions n E R C) (filter (fun t => negb (external_type q t)) its) = Ok ifs.
  Hypothesis Htds : mapM (compile_type_def n E C) (p_types q) = Ok tds.
  Hypothesis Hcds : carrier_definitions n E C q = Ok cds.
  Hypothesis Hfds : mapM (compile_declaration n E C) (p_foreign q) = Ok fds.
  Hypothesis Hdds : mapM (compile_declaration n E C) (p_declared q) = Ok dds.
  Hypothesis Hdefs : mapM (compile_definition n E R C k) (p_defs q) = Ok defs.
  Hypothesis Hinfos : mapM (fun t => bind (compile_concrete n E C t) (fun m => bind (information_name n E C t) (fun x => Ok (m, x)))) its = Ok infos.

  Let M : mmodule := MModule (tds ++ cds ++ internal_type_definitions)%list (fds ++ runtime_declarations C ++ dds ++ concat ids)%list
    (defs ++ concat ifs ++ default_definitions)%list infos information_default.
  Let vars := module_variables M.

  Lemma declaration_names l l' : mapM (compile_declaration n E C) l = Ok l' -> map fst l' = map fst l.
  Proof.
    intros H. apply mapM_ok in H. eapply Forall2_names; [exact H|]. intros a b _ Q. unfold compile_declaration in Q. bok Q s Hs. injection Q as <-. reflexivity.
  Qed.
  Lemma definition_names l l' : mapM (compile_definition n E R C k) l = Ok l' -> @map fdef string (@f_name expr) l' = map fst l.
  Proof.
    intros H. apply mapM_ok in H. eapply Forall2_names; [exact H|]. intros a b _ Q. unfold compile_definition in Q. bok Q e He. bok Q r Hr.
    destruct (l_arguments (snd a)); [injection Q as <-; reflexivity|]. bok Q as0 Hl. injection Q as <-. reflexivity.
  Qed.

  Lemma its_tidy : tidy_set its.
  Proof. eapply (information_types_tidy f C p PF n); [exact (sh_neat _ _ _ _ _ _ _ _ _ _ _ _ _ _ S)|exact Hits]. Qed.

  Lemma split_tidy : tidy_set (filter (external_type q) its ++ filter (fun t => negb (external_type q t)) its)%list.
  Proof.
    destruct its_tidy as [N T]. split.
    - pose proof (nodup_split (fun t : ty => t) (external_type q) its) as H. rewrite !map_id in H. apply H, N.
    - intros t Ht. apply in_app_or in Ht. destruct Ht as [Ht|Ht]; apply filter_In in Ht; apply T, Ht.
  Qed.

  Lemma information_nodup pre xs ys : named pre (filter (external_type q) its) xs -> named pre (filter (fun t => negb (external_type q t)) its) ys ->
    NoDup (xs ++ ys ++ [append pre "default"])%list.
  Proof.
    intros Hx Hy. assert (H : named pre (filter (external_type q) its ++ filter (fun t => negb (external_type q t)) its) (xs ++ ys)) by (apply Forall2_app; assumption).
    rewrite app_assoc. apply nodup_middle; rewrite app_nil_r; [exact (named_default _ _ _ H)|exact (named_nodup _ _ _ split_tidy H)].
  Qed.

  Lemma function_names_nodup : NoDup (map fst (m_declared M) ++ map f_name (m_defs M))%list.
  Proof.
    unfold M. cbn [m_declared m_defs]. rewrite !map_app.
    rewrite (declaration_names _ _ Hfds), (declaration_names _ _ Hdds), (definition_names _ _ Hdefs).
    rewrite (sh_foreign _ _ _ _ _ _ _ _ _ _ _ _ _ _ S), (sh_declared _ _ _ _ _ _ _ _ _ _ _ _ _ _ S), (sh_defs _ _ _ _ _ _ _ _ _ _ _ _ _ _ S).
    rewrite !map_app, hs_names.
    assert (map fst (map equal_declaration (external ds)) = equal_names (external ds)) as -> by (rewrite map_map; reflexivity).
    assert (map fst (map hash_declaration (external ds)) = hash_names (external ds)) as -> by (rewrite map_map; reflexivity).
    assert (map fst (map equal_function (internal ds)) = equal_names (internal ds)) as -> by (rewrite map_map; reflexivity).
    apply mapM_ok in Hids. apply mapM_ok in Hifs.
    destruct (triple_names fst (filter (external_type q) its) ids) as (xs & ys & zs & Nx & Ny & Nz & F1).
    { eapply Forall2_impl_in; [|exact Hids]. intros t l _ Q. unfold information_declarations in Q. bok Q x Hx. bok Q y Hy. bok Q z Hz. injection Q as <-. exists x, y, z. auto. }
    destruct (triple_names (A := fdef) (@f_name expr) (filter (fun t => negb (external_type q t)) its) ifs) as (xs' & ys' & zs' & Nx' & Ny' & Nz' & F2).
    { eapply Forall2_impl_in; [|exact Hifs]. intros t l _ Q. unfold information_definitions in Q. bok Q d Hd. bok Q e He. bok Q z Hz. bok Q x Hx. bok Q y Hy. injection Q as <-.
      exists x, y, z. split; [exact Hx|]. split; [exact Hy|]. split; [exact Hz|]. cbn. unfold debug_definition in Hd. bok Hd x' Hx'. bok Hd b1 Hb1. bok Hd m1 Hm1. injection Hd as <-.
      unfold reflect_equal_definition in He. bok He y' Hy'. bok He b2 Hb2. bok He m2 Hm2. injection He as <-. cbn. congruence. }
    apply (nodup_tags tag). intros g. rewrite !filter_app, F1, F2.
    assert (G0 : forall l, incl l (global_names p) -> tags 0 l).
    { intros l I x Hx. apply I in Hx. apply tag_source; [apply (pf_globals f C p PF), Hx|]. intros d Hd. apply (pf_record_functions f C p PF); [apply in_or_app; auto|exact Hd]. }
    assert (I : incl ds (p_types p)) by apply (sh_records _ _ _ _ _ _ _ _ _ _ _ _ _ _ S).
    assert (G8 : forall b, tags 8 (equal_names (filter b ds))).
    { intros b x Hx. apply in_map_iff in Hx. destruct Hx as (d & <- & Hd). apply filter_In in Hd. apply tag_record_equal, I, Hd. }
    assert (G9 : forall b, tags 9 (hash_names (filter b ds))).
    { intros b x Hx. apply in_map_iff in Hx. destruct Hx as (d & <- & Hd). apply filter_In in Hd. apply tag_record_hash, I, Hd. }
    rewrite (filter_tag g 0 (map fst (p_foreign p))) by (apply G0; intros x Hx; unfold global_names; rewrite !in_app_iff; auto).
    rewrite (filter_tag g 0 (map fst (p_declared p))) by (apply G0; intros x Hx; unfold global_names; rewrite !in_app_iff; auto).
    rewrite (filter_tag g 0 (map fst (p_defs p))) by (apply G0; intros x Hx; unfold global_names; rewrite !in_app_iff; auto).
    rewrite (filter_tag g 7 (map fst (runtime_declarations C))) by exact tag_private.
    rewrite (filter_tag g 8 (equal_names (external ds))), (filter_tag g 8 (equal_names (internal ds))) by apply G8.
    rewrite (filter_tag g 9 (hash_names (external ds))), (filter_tag g 9 (hash_names (internal ds))) by apply G9.
    rewrite (filter_tag g 6 (map fst cs)) by (eapply named_tags; [apply tag_context|exact cs_names]).
    rewrite (filter_tag g 4 (map fst es)) by (eapply named_tags; [apply tag_equal|exact es_names]).
    rewrite (filter_tag g 5 (map fst gs)) by (eapply named_tags; [apply tag_hash|exact gs_names]).
    cbn [map default_definitions f_name filter].
    pose proof (tag_debug "default") as T2. pose proof (tag_reflect "default") as T3. pose proof (tag_information "default") as T1. cbn [append] in T1, T2, T3.
    unfold information_default. rewrite T1, T2, T3.
    destruct g as [|[|[|[|[|[|[|[|[|[|g]]]]]]]]]]; cbn [Nat.eqb app]; rewrite ?app_nil_r, <- ?app_assoc.
    - exact (pf_names f C p PF).
    - exact (information_nodup "hir:type_information:" zs zs' Nz Nz').
    - exact (information_nodup "hir:reflect:debug:" xs xs' Nx Nx').
    - exact (information_nodup "hir:reflect:equal:" ys ys' Ny Ny').
    - eapply named_nodup; [exact (sh_equals _ _ _ _ _ _ _ _ _ _ _ _ _ _ S)|exact es_names].
    - eapply named_nodup; [exact (sh_hashed _ _ _ _ _ _ _ _ _ _ _ _ _ _ S)|exact gs_names].
    - eapply named_nodup; [exact (sh_maps _ _ _ _ _ _ _ _ _ _ _ _ _ _ S)|exact cs_names].
    - exact private_nodup.
    - apply (record_names_nodup record_equal_name). intros a b. apply append_right.
    - apply (record_names_nodup record_hash_name). intros a b. apply append_right.
    - constructor.
  Qed.

  (** ** The types of the functions *)
  Lemma vars_entry x m : In (x, m) (m_declared M ++ map (fun d => (f_name d, f_type d)) (m_defs M))%list -> lookup vars x = Some m.
  Proof.
    intros H. unfold vars, module_variables. apply nodup_lookup_rev; [|exact H]. rewrite map_app, map_map. exact function_names_nodup.
  Qed.

  Definition sources : list (string * ty) := (p_foreign p ++ p_declared p ++ map (fun d => (fst d, lambda_type (snd d))) (p_defs p))%list.

  Lemma declaration_lowers x t m : compile_declaration n E C (x, t) = Ok m -> neat t -> fst m = x /\ lowers t (snd m).
  Proof.
    unfold compile_declaration. intros H Nt. bok H s Hs. injection H as <-. cbn [fst snd] in *. split; [reflexivity|].
    unfold compile_signature in Hs. bok Hs m Hm. destruct m as [| |a r| | | |]; try discriminate. injection Hs as <-. cbn [fst snd].
    eapply compiles; [exact Hm|]. unfold compile_type in Hm. bok Hm c Hc. eapply (neat_proper f C p PF); [exact Nt|exists n; exact Hc].
  Qed.

  Lemma compiled_type_proper t m : compile_type n E C t = Ok m -> neat t -> proper E t.
  Proof. unfold compile_type. intros H Nt. bok H c Hc. eapply (neat_proper f C p PF); [exact Nt|exists n; exact Hc]. Qed.

  Lemma compiled_proper k' d fd : compile_definition n E R C k' d = Ok fd -> neat_lambda f (snd d) ->
    (forall y t, In (y, t) (l_arguments (snd d)) -> proper E t) /\ proper E (l_result (snd d)).
  Proof.
    intros H (Na & Nr & _). unfold compile_definition in H. bok H e He. bok H r Hr. split; [|eapply compiled_type_proper; eassumption].
    destruct (l_arguments (snd d)) as [|a args]; [intros ? ? []|]. bok H bs Hb. apply mapM_ok in Hb. intros y t Hy. destruct (Forall2_left _ _ _ _ Hb Hy) as (b & _ & Q).
    bok Q m Hm. eapply compiled_type_proper; [exact Hm|exact (Na y t Hy)].
  Qed.

  Lemma definition_lowers k' d fd : compile_definition n E R C k' d = Ok fd -> neat_lambda f (snd d) ->
    f_name fd = fst d /\ lowers (lambda_type (snd d)) (f_type fd).
  Proof.
    intros H N. destruct (compiled_proper k' d fd H N) as [Pa Pr]. destruct d as [x l]. cbn [fst snd] in *.
    destruct (compiled_definition E R C n k' x l fd H Pa Pr) as (ms & m & e & F & L & _ & ->). split; [reflexivity|].
    unfold f_type. cbn [f_args f_result]. apply lowers_function. exists ms, m. split; [|split; [|exact L]].
    - f_equal. clear - F. revert F. generalize (l_arguments l). intros args F. induction F as [|a b args bs _ _ IH]; [reflexivity|]. cbn. f_equal. exact IH.
    - clear - F. revert F. generalize (l_arguments l). intros args F. induction F as [|a b args bs H _ IH]; constructor; assumption.
  Qed.

  Lemma generated_name t pre x m : In (pre, m) (generated_kinds C) -> rmap (append pre) (type_id n E C t) = Ok x -> compiler_name x m.
  Proof.
    intros H Hx. apply named_one in Hx. destruct Hx as (i & Hi & ->). assert (identifier E C t i) as I by (exists n; exact Hi). cbn in H.
    repeat (destruct H as [H|H]; [injection H as <- <-; econstructor; exact I|]). destruct H.
  Qed.

  Lemma record_lowers d : In d (p_types p) -> lowers (def_record d) (Mir.TRecord (record_name d)).
  Proof. intros Hd. apply lowers_record. apply (record_plain f C p PF d Hd). Qed.

  Lemma known_record d : In d (p_types p) -> lookup R (record_name d) <> None.
  Proof. intros Hd H. pose proof (record_lookup f C p PF d Hd) as G. fold R in G. congruence. Qed.

  (** A function the compiler adds has the type its callers expect and passes
      the check. *)
  Definition added (g : string * lambda) : Prop :=
    (forall m, lowers (lambda_type (snd g)) m -> compiler_name (fst g) m) /\ sound E R C M n vars g.

  Lemma lowers_is t m m' : lowers t m -> lowers t m' -> m' = m.
  Proof. intros H G. eapply lowers_fun; eassumption. Qed.

  Lemma function_is a r m ms mr : lowers (TFunction a r) m -> Forall2 lowers a ms -> lowers r mr -> m = Mir.TFunction ms mr.
  Proof. intros H Ha Hr. eapply lowers_fun; [exact H|]. apply lowers_function. eauto. Qed.

  Lemma added_record_equal d : In d (p_types p) -> added (equal_function d).
  Proof.
    intros Hd. split.
    - intros m L. cbn in L. apply (function_is _ _ _ [Mir.TRecord (record_name d); Mir.TRecord (record_name d)] Mir.TBoolean) in L.
      + subst m. cbn. apply cn_record_equal, (known_record d Hd).
      + repeat constructor; apply (record_lowers d Hd).
      + apply lowers_boolean.
    - apply (record_equal_sound f); [exact X|exact K|]. apply (record_lookup f C p PF d Hd).
  Qed.

  Lemma added_record_hash d g : In d (p_types p) ->
    record_hash_definition n E R C k (td_name (t_def d)) (td_original (t_def d)) (td_fields (t_def d)) = Ok g -> added g.
  Proof.
    intros Hd H. split.
    - intros m L. unfold record_hash_definition in H. bok H e He. injection H as <-. cbn in L.
      apply (function_is _ _ _ [Mir.TRecord (record_name d)] Mir.TNumber) in L.
      + subst m. cbn. apply cn_record_hash, (known_record d Hd).
      + repeat constructor; apply (record_lowers d Hd).
      + apply lowers_number.
    - eapply (record_hash_sound f); [exact X|exact K|apply (record_lookup f C p PF d Hd)| |exact H]. intros x t Hx. apply (pf_collapsed f C p PF d x t Hd Hx).
  Qed.

  Lemma added_context kt vt g : map_context_definition n E R C kt vt = Ok g -> added g.
  Proof.
    intros H. split.
    - intros m L. destruct (nl_context f C p n kt vt g H) as [Hn _]. assert (l_arguments (snd g) = [] /\ l_result (snd g) = context_reference C) as [Qa Qr].
      { unfold map_context_definition in H. bok H name Hn'. bok H ek Hek. bok H hk Hhk. bok H b Hb. bok H vs Hvs. injection H as <-. split; reflexivity. }
      unfold lambda_type in L. rewrite Qa, Qr in L. apply (function_is _ _ _ [] (Mir.TRecord (map_context C))) in L.
      + subst m. eapply generated_name; [|exact Hn]. cbn. tauto.
      + constructor.
      + apply (type_record E R C K). cbn. tauto.
    - eapply map_context_sound; [exact K|exact H].
  Qed.

  Lemma added_equal t g : neat t -> canon E t t -> equal_definition n E R C k t = Ok g -> added g.
  Proof.
    intros Nt Ct H. split.
    - intros m L. destruct (nl_equal f C p PF n k t g Nt H) as [Hn _].
      assert (lambda_type (snd g) = TFunction [TAny; TAny] TBoolean) as Q.
      { unfold equal_definition in H. bok H name Hn'. bok H e He. injection H as <-. reflexivity. }
      rewrite Q in L. apply (function_is _ _ _ [TVariant; TVariant] Mir.TBoolean) in L.
      + subst m. eapply generated_name; [|exact Hn]. cbn. tauto.
      + repeat constructor; apply lowers_any.
      + apply lowers_boolean.
    - eapply (equal_sound f); [exact X|exact K| |exact H]. eapply (neat_proper f C p PF); eassumption.
  Qed.

  Lemma added_hash t g : neat t -> canon E t t -> hash_definition n E R C k t = Ok g -> added g.
  Proof.
    intros Nt Ct H. split.
    - intros m L. destruct (nl_hash f C p PF n k t g Nt H) as [Hn _].
      assert (lambda_type (snd g) = TFunction [TAny] TNumber) as Q.
      { unfold hash_definition in H. bok H name Hn'. bok H e He. injection H as <-. reflexivity. }
      rewrite Q in L. apply (function_is _ _ _ [TVariant] Mir.TNumber) in L.
      + subst m. eapply generated_name; [|exact Hn]. cbn. tauto.
      + repeat constructor; apply lowers_any.
      + apply lowers_number.
    - eapply (hash_sound f); [exact X|exact K| |exact Ct|exact H]. eapply (neat_proper f C p PF); eassumption.
  Qed.

  Lemma definitions_kinds d : In d (p_defs q) -> In d (p_defs p) \/ added d.
  Proof.
    rewrite (sh_defs _ _ _ _ _ _ _ _ _ _ _ _ _ _ S). rewrite !in_app_iff.
    assert (I : incl ds (p_types p)) by apply (sh_records _ _ _ _ _ _ _ _ _ _ _ _ _ _ S).
    intros [H|[H|[H|[H|[H|H]]]]]; [left; exact H|..]; right.
    - apply in_map_iff in H. destruct H as (r & <- & Hr). apply filter_In in Hr. apply added_record_equal, I, Hr.
    - destruct (Forall2_other _ _ _ _ (sh_hashes _ _ _ _ _ _ _ _ _ _ _ _ _ _ S) H) as (r & Hr & G). apply filter_In in Hr. eapply added_record_hash; [apply I, Hr|exact G].
    - destruct (Forall2_other _ _ _ _ (sh_contexts _ _ _ _ _ _ _ _ _ _ _ _ _ _ S) H) as (t & _ & kt & vt & _ & G). eapply added_context, G.
    - destruct (Forall2_other _ _ _ _ (sh_equal_functions _ _ _ _ _ _ _ _ _ _ _ _ _ _ S) H) as (t & Ht & G).
      destruct (proj2 (sh_equals _ _ _ _ _ _ _ _ _ _ _ _ _ _ S) t Ht) as [N1 N2]. eapply added_equal; eassumption.
    - destruct (Forall2_other _ _ _ _ (sh_hash_functions _ _ _ _ _ _ _ _ _ _ _ _ _ _ S) H) as (t & Ht & G).
      destruct (proj2 (sh_hashed _ _ _ _ _ _ _ _ _ _ _ _ _ _ S) t Ht) as [N1 N2]. eapply added_hash; eassumption.
  Qed.

  Definition entry (x : string) (m : mtype) : Prop := (exists t, In (x, t) sources /\ lowers t m) \/ compiler_name x m \/
    exists a i, In (a, m) (generated_kinds C) /\ x = append a i.

  Lemma source_neat x t : In (x, t) (p_foreign p ++ p_declared p)%list -> neat t.
  Proof. intros H. apply (type_proper f C p PF). apply in_app_or in H. destruct H as [H|H]; [eapply ti_foreign, H|eapply ti_declared, H]. Qed.

  Lemma declarations_kinds d : In d (p_declared q) -> In d (p_declared p) \/ forall m, lowers (snd d) m -> compiler_name (fst d) m.
  Proof.
    rewrite (sh_declared _ _ _ _ _ _ _ _ _ _ _ _ _ _ S). rewrite !in_app_iff.
    assert (I : incl ds (p_types p)) by apply (sh_records _ _ _ _ _ _ _ _ _ _ _ _ _ _ S).
    intros [H|[H|H]]; [left; exact H|..]; right; apply in_map_iff in H; destruct H as (r & <- & Hr); apply filter_In in Hr; destruct Hr as [Hr _]; apply I in Hr; intros m L; cbn in L.
    - apply (function_is _ _ _ [Mir.TRecord (record_name r); Mir.TRecord (record_name r)] Mir.TBoolean) in L.
      + subst m. apply cn_record_equal, (known_record r Hr).
      + repeat constructor; apply (record_lowers r Hr).
      + apply lowers_boolean.
    - apply (function_is _ _ _ [Mir.TRecord (record_name r)] Mir.TNumber) in L.
      + subst m. apply cn_record_hash, (known_record r Hr).
      + repeat constructor; apply (record_lowers r Hr).
      + apply lowers_number.
  Qed.

  Lemma def_neat d : In d (p_defs q) -> neat_lambda f (snd d).
  Proof. destruct d as [x l]. apply (np_defs _ _ _ (sh_neat _ _ _ _ _ _ _ _ _ _ _ _ _ _ S)). Qed.

  Lemma definition_entry d fd : In d (p_defs q) -> compile_definition n E R C k d = Ok fd -> entry (f_name fd) (f_type fd).
  Proof.
    intros Hd H. destruct (definition_lowers k d fd H (def_neat d Hd)) as [-> L]. destruct (definitions_kinds d Hd) as [Hs|[Ha _]].
    - left. exists (lambda_type (snd d)). split; [|exact L]. unfold sources. rewrite !in_app_iff. right. right. apply (in_map (fun d => (fst d, lambda_type (snd d)))), Hs.
    - right. left. apply Ha, L.
  Qed.

  Lemma information_entries t l : information_definitions n E R C t = Ok l -> forall d, In d l -> compiler_name (f_name d) (f_type d).
  Proof.
    intros Q. unfold information_definitions in Q. bok Q d Hd. bok Q e He. bok Q z Hz. bok Q x Hx. bok Q y Hy. injection Q as <-.
    unfold debug_definition in Hd. bok Hd x' Hx'. bok Hd b1 Hb1. bok Hd m1 Hm1. injection Hd as <-.
    unfold reflect_equal_definition in He. bok He y' Hy'. bok He b2 Hb2. bok He m2 Hm2. injection He as <-.
    intros g [<-|[<-|[<-|[]]]]; (eapply generated_name; [|eassumption]; cbn; tauto).
  Qed.

  Lemma entries x m : In (x, m) (m_declared M ++ map (fun d => (f_name d, f_type d)) (m_defs M))%list -> entry x m.
  Proof.
    unfold M. cbn [m_declared m_defs]. rewrite !map_app, !in_app_iff. intros [[H|[H|[H|H]]]|[H|[H|H]]].
    - pose proof Hfds as Ffds. apply mapM_ok in Ffds. destruct (Forall2_other _ _ _ _ Ffds H) as ([y t] & Hy & G). rewrite (sh_foreign _ _ _ _ _ _ _ _ _ _ _ _ _ _ S) in Hy.
      apply declaration_lowers in G; [|eapply source_neat; apply in_or_app; left; exact Hy]. destruct G as [Q L]. cbn in Q, L. subst y. left. exists t. split; [|exact L].
      unfold sources. rewrite !in_app_iff. auto.
    - right. left. cbn in H. destruct H as [H|[H|[H|[]]]]; injection H as <- <-; constructor.
    - pose proof Hdds as Fdds. apply mapM_ok in Fdds. destruct (Forall2_other _ _ _ _ Fdds H) as ([y t] & Hy & G).
      apply declaration_lowers in G; [|eapply (np_declared _ _ _ (sh_neat _ _ _ _ _ _ _ _ _ _ _ _ _ _ S)), Hy]. destruct G as [Q L]. cbn in Q, L. subst y.
      destruct (declarations_kinds _ Hy) as [Hs|Ha]; [left; exists t; split; [|exact L]; unfold sources; rewrite !in_app_iff; auto|right; left; apply (Ha m L)].
    - right. left. apply in_concat in H. destruct H as (l & Hl & H). pose proof Hids as Fids. apply mapM_ok in Fids. destruct (Forall2_other _ _ _ _ Fids Hl) as (t & _ & Q).
      unfold information_declarations in Q. bok Q x' Hx. bok Q y Hy. bok Q z Hz. injection Q as <-.
      destruct H as [H|[H|[H|[]]]]; injection H as <- <-; (eapply generated_name; [|eassumption]; cbn; tauto).
    - apply in_map_iff in H. destruct H as (fd & Q & H). injection Q as <- <-. pose proof Hdefs as Fdefs. apply mapM_ok in Fdefs. destruct (Forall2_other _ _ _ _ Fdefs H) as (d & Hd & G).
      eapply definition_entry; eassumption.
    - right. left. apply in_map_iff in H. destruct H as (fd & Q & H). injection Q as <- <-. apply in_concat in H. destruct H as (l & Hl & H).
      pose proof Hifs as Fifs. apply mapM_ok in Fifs. destruct (Forall2_other _ _ _ _ Fifs Hl) as (t & _ & Q). eapply information_entries; eassumption.
    - right. right. cbn in H. destruct H as [H|[H|[H|[]]]]; injection H as <- <-.
      + exists "hir:reflect:debug:", "default". cbn. auto.
      + exists "hir:reflect:equal:", "default". cbn. auto.
      + exists "hir:type_information:", "default". cbn. auto.
  Qed.

  Lemma entry_type x m t : entry x m -> compiler_name x t -> m = t.
  Proof.
    intros [(u & Hu & L)|[H|(a & i & Ha & ->)]] Ht; [|exact (compiler_name_fun f C p CF PF x m t H Ht)|].
    - assert (Hx : In x (global_names p)).
      { unfold sources in Hu. unfold global_names. rewrite !in_app_iff in *. destruct Hu as [Hu|[Hu|Hu]]; [apply (in_map fst) in Hu; auto|apply (in_map fst) in Hu; auto|].
        apply in_map_iff in Hu. destruct Hu as (d & Q & Hd). injection Q as <- <-. right. right. apply in_map, Hd. }
      pose proof (pf_globals f C p PF x Hx) as (_ & Sh & Sp). apply (compiler_name_cases C p CF) in Ht.
      destruct Ht as [Ht|[Ht|[(a & i & Ha & -> & _)|(d & Hd & Q)]]].
      + unfold sources in Hu. rewrite app_assoc in Hu. apply in_app_or in Hu. destruct Hu as [Hu|Hu].
        * eapply lowers_fun; [exact L|]. eapply (pf_prelude f C p PF); eassumption.
        * exfalso. apply in_map_iff in Hu. destruct Hu as ([y l] & Q & Hd). injection Q as <- <-. apply (pf_definitions f C p PF y l Hd). apply (in_map fst) in Ht. exact Ht.
      + exfalso. apply Sp. eapply private_names, Ht.
      + exfalso. rewrite (kind_hir _ _ _ _ Ha) in Sh. discriminate.
      + exfalso. destruct (pf_record_functions f C p PF x d) as [N1 N2]; [apply in_or_app; auto|exact Hd|]. destruct Q as [[Q _]|[Q _]]; contradiction.
    - apply (compiler_name_cases C p CF) in Ht.
      pose proof (kind_hir C a m i Ha) as Kh. destruct Ht as [Ht|[Ht|[(b & j & Hb & Q & _)|(d & Hd & Q)]]].
      + exfalso. apply (prelude_source C CF) in Ht. destruct Ht as (_ & Sh & _). congruence.
      + exfalso. apply private_names in Ht. destruct Ht as [Q|[Q|[Q|[]]]]; rewrite <- Q in Kh; discriminate.
      + eapply kinds_apart; eassumption.
      + exfalso. rewrite (record_function_not_hir f C p PF d (append a i) Hd) in Kh; [discriminate|]. destruct Q as [[Q _]|[Q _]]; auto.
  Qed.

  Lemma names_entries x : In x (map fst (m_declared M) ++ map f_name (m_defs M))%list ->
    exists m, In (x, m) (m_declared M ++ map (fun d => (f_name d, f_type d)) (m_defs M))%list.
  Proof.
    intros H. apply in_app_or in H. destruct H as [H|H]; apply in_map_iff in H; destruct H as (d & <- & Hd).
    - exists (snd d). apply in_or_app. left. rewrite <- surjective_pairing. exact Hd.
    - exists (f_type d). apply in_or_app. right. apply (in_map (fun d : fdef => (f_name d, f_type d))), Hd.
  Qed.

  Lemma compiler_variable x t : In x (map fst (m_declared M) ++ map f_name (m_defs M))%list -> compiler_name x t -> lookup vars x = Some t.
  Proof.
    intros H Ht. destruct (names_entries x H) as [m Hm]. rewrite (vars_entry _ _ Hm). f_equal. eapply entry_type; [apply entries, Hm|exact Ht].
  Qed.

  Lemma source_variable x t : In (x, t) sources -> exists m, lowers t m /\ lookup vars x = Some m.
  Proof.
    intros H. unfold sources in H. rewrite !in_app_iff in H. destruct H as [H|[H|H]].
    - pose proof Hfds as Ffds. apply mapM_ok in Ffds. assert (H' : In (x, t) (p_foreign q)) by (rewrite (sh_foreign _ _ _ _ _ _ _ _ _ _ _ _ _ _ S); exact H).
      destruct (Forall2_left _ _ _ _ Ffds H') as ([y m] & Hm & G). apply declaration_lowers in G; [|eapply source_neat; apply in_or_app; left; exact H].
      destruct G as [Q L]. cbn in Q, L. subst y. exists m. split; [exact L|]. apply vars_entry. unfold M. cbn [m_declared]. rewrite !in_app_iff. auto.
    - pose proof Hdds as Fdds. apply mapM_ok in Fdds. assert (H' : In (x, t) (p_declared q)) by (rewrite (sh_declared _ _ _ _ _ _ _ _ _ _ _ _ _ _ S), !in_app_iff; auto).
      destruct (Forall2_left _ _ _ _ Fdds H') as ([y m] & Hm & G). apply declaration_lowers in G; [|eapply source_neat; apply in_or_app; right; exact H].
      destruct G as [Q L]. cbn in Q, L. subst y. exists m. split; [exact L|]. apply vars_entry. unfold M. cbn [m_declared]. rewrite !in_app_iff. auto.
    - apply in_map_iff in H. destruct H as (d & Q & Hd). injection Q as <- <-. pose proof Hdefs as Fdefs. apply mapM_ok in Fdefs.
      assert (H' : In d (p_defs q)) by (rewrite (sh_defs _ _ _ _ _ _ _ _ _ _ _ _ _ _ S), !in_app_iff; auto).
      destruct (Forall2_left _ _ _ _ Fdefs H') as (fd & Hf & G). destruct (definition_lowers k d fd G (def_neat d H')) as [Q L].
      exists (f_type fd). split; [exact L|]. apply vars_entry. apply in_or_app. right. rewrite <- Q. apply (in_map (fun d : fdef => (f_name d, f_type d))).
      unfold M. cbn [m_defs]. apply in_or_app. auto.
  Qed.

  (** ** The records *)
  Lemma user_records r ts : In (r, ts) tds -> exists d, In d (p_types p) /\ r = record_name d /\ Forall2 (fun ft m => lowers (snd ft) m) (td_fields (t_def d)) ts.
  Proof.
    intros H. pose proof Htds as Ftds. apply mapM_ok in Ftds. destruct (Forall2_other _ _ _ _ Ftds H) as (d & Hd & G). rewrite (sh_types _ _ _ _ _ _ _ _ _ _ _ _ _ _ S) in Hd.
    unfold compile_type_def in G. bok G ms Hms. injection G as <- <-. exists d. split; [exact Hd|]. split; [reflexivity|]. apply mapM_ok in Hms.
    eapply Forall2_impl_in; [|exact Hms]. intros [x t] m Hx Q. cbn [snd] in *. eapply compiles; [exact Q|]. apply (type_proper f C p PF). eapply ti_field; eassumption.
  Qed.

  Lemma carriers r ts : In (r, ts) cds -> exists t m, (neat t /\ canon E t t) /\ concrete_name n E C t = Ok (Some r) /\ ts = [m] /\ lowers t m.
  Proof.
    pose proof Hcds as Hc. unfold carrier_definitions in Hc. bok Hc vs Hvs. bok Hc l Hl. injection Hc as <-. intros H. apply in_concat in H. destruct H as (l' & Hl' & H).
    apply mapM_ok in Hl. destruct (Forall2_other _ _ _ _ Hl Hl') as (t & Ht & G).
    destruct (variant_types_tidy f C p PF n q vs (sh_neat _ _ _ _ _ _ _ _ _ _ _ _ _ _ S) Hvs) as [[_ T] _]. destruct (T t Ht) as [Nt Ct].
    assert (bind (concrete_name n E C t) (fun o => match o with None => Ok [] | Some r => bind (compile_type n E C t) (fun m => Ok [(r, [m])]) end) = Ok l') as G'
      by (destruct t; try discriminate; exact G).
    bok G' o Ho. destruct o as [r'|]; [|injection G' as <-; destruct H]. bok G' m Hm. injection G' as <-. destruct H as [H|[]]. injection H as <- <-.
    exists t, m. split; [auto|]. split; [exact Ho|]. split; [reflexivity|]. eapply compiles; [exact Hm|]. eapply (neat_proper f C p PF); eassumption.
  Qed.

  Lemma neat_entries kt vt : neat (TMap kt vt) -> neat kt /\ neat vt.
  Proof.
    intros N. split; apply (neat_visit f _ _ N); cbn [visit_type]; right; apply in_or_app; [left; destruct kt|right; destruct vt]; cbn; auto.
  Qed.

  Lemma concrete_inj t u r : neat t -> neat u -> canon E t t -> canon E u u -> concrete_name n E C t = Ok (Some r) -> concrete_name n E C u = Ok (Some r) -> t = u.
  Proof.
    intros Nt Nu Ct Cu Ht Hu.
    destruct t as [| | |a b|e|kt vt| | | | | |]; cbn [concrete_name] in Ht; try discriminate; destruct u as [| | |a' b'|e'|kt' vt'| | | | | |]; cbn [concrete_name] in Hu; try discriminate;
      bok Ht i Hi; bok Hu j Hj;
      try (bok Ht i' Hi'); try (bok Hu j' Hj'); injection Ht as <-; injection Hu as Q; try discriminate; try (symmetry in Q; discriminate Q).
    - subst j. eapply (identifier_inj f C p CF); eassumption.
    - subst j. apply canon_list in Ct, Cu. destruct Ct as (x & Cx & Q1). destruct Cu as (y & Cy & Q2). injection Q1 as <-. injection Q2 as <-.
      f_equal. eapply (identifier_inj f C p CF); [eapply neat_element, Nt|eapply neat_element, Nu|exact Cx|exact Cy|exact Hi|exact Hj].
    - assert (I1 : has_char ":"%char i = false) by (eapply (identifier_word C p CF); exists n; exact Hi).
      assert (I2 : has_char ":"%char j = false) by (eapply (identifier_word C p CF); exists n; exact Hj).
      apply colon_split in Q; [|exact I2|exact I1]. destruct Q as [-> ->].
      apply canon_map in Ct, Cu. destruct Ct as (x & y & Cx & Cy & Q1). destruct Cu as (x' & y' & Cx' & Cy' & Q2). injection Q1 as <- <-. injection Q2 as <- <-.
      apply neat_entries in Nt, Nu. destruct Nt as [N1 N2]. destruct Nu as [N3 N4]. f_equal; eapply (identifier_inj f C p CF); eassumption.
  Qed.

  Lemma carrier_nodup vs l : tidy_set vs -> Forall2 (fun t d => carrier_definition n E C t = Ok d) vs l ->
    NoDup (map fst (concat l)) /\ forall r, In r (map fst (concat l)) -> exists t, In t vs /\ concrete_name n E C t = Ok (Some r).
  Proof.
    intros [N T] H. induction H as [|t d vs l Hd _ IH]; [split; [constructor|intros ? []]|]. inversion N as [|? ? Nt Nv]; subst.
    destruct IH as [I1 I2]; [exact Nv|intros u Hu; apply T; right; exact Hu|]. cbn [concat]. rewrite map_app.
    assert (D : (d = [] \/ exists r ts, d = [(r, ts)] /\ concrete_name n E C t = Ok (Some r))).
    { assert (bind (concrete_name n E C t) (fun o => match o with None => Ok [] | Some r => bind (compile_type n E C t) (fun m => Ok [(r, [m])]) end) = Ok d) as G'
        by (destruct t; try discriminate; exact Hd).
      bok G' o Ho. destruct o as [r'|]; [|injection G' as <-; auto]. bok G' m Hm. injection G' as <-. right. eauto. }
    destruct D as [->|(r & ts & -> & Hr)]; cbn [map app fst].
    - split; [exact I1|]. intros r Hr. destruct (I2 r Hr) as (u & Hu & G). exists u. split; [right; exact Hu|exact G].
    - split.
      + constructor; [|exact I1]. intros Q. destruct (I2 r Q) as (u & Hu & G). apply Nt. destruct (T t (or_introl eq_refl)) as [N1 C1]. destruct (T u (or_intror Hu)) as [N2 C2].
        rewrite (concrete_inj t u r N1 N2 C1 C2 Hr G). exact Hu.
      + intros r' [<-|Hr']; [exists t; split; [left; reflexivity|exact Hr]|]. destruct (I2 r' Hr') as (u & Hu & G). exists u. split; [right; exact Hu|exact G].
  Qed.

  Lemma concrete_kind t r : concrete_name n E C t = Ok (Some r) -> prefix "hir:" r = true /\ r <> error_record /\ r <> information_record.
  Proof.
    destruct t; cbn [concrete_name]; try discriminate; intros H; bok H i Hi; try (bok H j Hj); injection H as <-; (split; [reflexivity|split; discriminate]).
  Qed.

  Lemma nodup_app_intro {A} (l r : list A) : NoDup l -> NoDup r -> (forall x, In x l -> ~ In x r) -> NoDup (l ++ r)%list.
  Proof.
    induction 1 as [|x l Hx _ IH]; intros Hr D; [exact Hr|]. cbn. constructor.
    - intros H. apply in_app_or in H. destruct H as [H|H]; [contradiction|]. exact (D x (or_introl eq_refl) H).
    - apply IH; [exact Hr|]. intros y Hy. apply D. right. exact Hy.
  Qed.

  Lemma record_names_distinct : NoDup (map fst (m_types M)).
  Proof.
    unfold M. cbn [m_types]. rewrite !map_app. pose proof Hcds as Hc. unfold carrier_definitions in Hc. bok Hc vs Hvs. bok Hc l Hl. injection Hc as <-.
    apply mapM_ok in Hl. destruct (variant_types_tidy f C p PF n q vs (sh_neat _ _ _ _ _ _ _ _ _ _ _ _ _ _ S) Hvs) as [T _].
    destruct (carrier_nodup vs l T Hl) as [N1 N2].
    assert (map fst tds = map record_name (p_types p)) as ->.
    { rewrite <- (sh_types _ _ _ _ _ _ _ _ _ _ _ _ _ _ S). pose proof Htds as F. apply mapM_ok in F. eapply Forall2_names; [exact F|]. intros d td _ G.
      unfold compile_type_def in G. bok G ms Hms. injection G as <-. reflexivity. }
    apply nodup_app_intro; [exact (records_nodup f C p PF)|apply nodup_app_intro; [exact N1|repeat constructor; cbn; intuition discriminate|]|].
    - intros r Hr H. destruct (N2 r Hr) as (t & _ & G). apply concrete_kind in G. cbn in H. destruct H as [H|[H|[]]]; destruct G as (_ & G1 & G2); auto.
    - intros r Hr H. apply in_map_iff in Hr. destruct Hr as (d & <- & Hd). destruct (pf_records f C p PF d Hd) as [Hh _]. apply in_app_or in H. destruct H as [H|H].
      + destruct (N2 _ H) as (t & _ & G). apply concrete_kind in G. destruct G as [G _]. congruence.
      + cbn in H. destruct H as [H|[H|[]]]; rewrite <- H in Hh; discriminate.
  Qed.

  Lemma module_record r ts : In (r, ts) (m_types M) -> compiler_record r ts.
  Proof.
    unfold M. cbn [m_types]. rewrite !in_app_iff. intros [H|[H|H]].
    - destruct (user_records r ts H) as (d & Hd & -> & F). eapply cr_user; [apply (record_lookup f C p PF d Hd)|exact F].
    - destruct (carriers r ts H) as (t & m & _ & Hn & -> & L). eapply concrete_record; eassumption.
    - cbn in H. destruct H as [H|[H|[]]]; injection H as <- <-; constructor.
  Qed.

  Lemma compiler_record_known r ts : In r (map fst (m_types M)) -> compiler_record r ts -> lookup (m_types M) r = Some ts.
  Proof.
    intros H Hr. apply in_map_iff in H. destruct H as ([r' us] & Q & H). cbn in Q. subst r'. rewrite (NoDup_lookup _ _ _ record_names_distinct H). f_equal.
    eapply (compiler_record_fun f C p CF PF); [apply module_record, H|exact Hr].
  Qed.

  (** ** The check *)
  Lemma default_names x : In x ["hir:reflect:debug:default"; "hir:reflect:equal:default"; information_default] -> In x (map fst (m_declared M) ++ map f_name (m_defs M))%list.
  Proof.
    intros H. apply in_or_app. right. unfold M. cbn [m_defs]. rewrite !map_app, !in_app_iff. right. right. exact H.
  Qed.

  Lemma information_known : lookup (m_types M) information_record = Some [debug_type; equal_type].
  Proof.
    apply NoDup_lookup; [exact record_names_distinct|]. unfold M. cbn [m_types]. rewrite !in_app_iff. right. right. cbn. auto.
  Qed.

  Hypothesis Hexact : exact_module E R (program_hir p).
  Hypothesis Htries : tries_allowed E (program_hir p).
  Hypothesis Hcomplete : complete C p M.

  Lemma provided d : In d (m_defs M) -> provides E R C M vars (f_body d).
  Proof.
    intros Hd. destruct (Hcomplete d Hd) as [H1 H2]. split; [|split; [|split]].
    - intros x t Hx Ht. apply compiler_variable; [exact (H1 x t Hx Ht)|exact Ht].
    - intros r ts Hr Ht. apply compiler_record_known; [exact (H2 r ts Hr Ht)|exact Ht].
    - reflexivity.
    - apply compiler_variable; [apply default_names; cbn; auto|constructor].
  Qed.

  Lemma source_checks d : In d (p_defs p) -> sound E R C M n vars d.
  Proof.
    destruct d as [x l]. intros Hd. destruct (pf_definitions f C p PF x l Hd) as (_ & Fa & T & Ft).
    apply sound_intro.
    - intros y t Hy. eapply private_free, (Fa y t Hy).
    - intros y t Hy. apply (type_proper f C p PF). eapply ti_argument; eassumption.
    - apply (type_proper f C p PF). eapply ti_result; eassumption.
    - intros ms m F L. pose proof (Hexact x l Hd) as He. unfold exact_lambda in He.
      eapply checks_of; [eapply (exact_typed f); [exact X|exact K|exact He]| |exact L].
      apply suits_binds with (l' := rev (combine (map fst (l_arguments l)) ms)).
      + apply Forall2_rev'. clear - F. revert F. generalize (l_arguments l). intros args F. induction F as [|a b args bs H _ IH]; constructor; [split; [reflexivity|exact H]|exact IH].
      + assert (Ft' : tries_fit E (Some (l_result l)) (l_body l)).
        { intros c t a Hc. destruct (Htries x l Hd c t a Hc) as (r & -> & Sr). exists r. split; [reflexivity|]. split; [exact Sr|exact (Ft _ t a Hc r eq_refl)]. }
        split; [exact T|]. split; [exact Ft'|]. split; [intros r Q; injection Q as <-; exact L|].
        intros y t _ Hy. apply source_variable. apply lookup_In in Hy. unfold module_env, program_hir in Hy. cbn [h_declared h_defs] in Hy. apply in_rev in Hy.
        unfold sources. rewrite !in_app_iff in *. tauto.
  Qed.

  Lemma definition_checks d fd : In d (p_defs q) -> compile_definition n E R C k d = Ok fd -> In fd (m_defs M) -> check_definition M vars fd = true.
  Proof.
    intros Hd H Hf. pose proof (provided fd Hf) as P. destruct (definitions_kinds d Hd) as [Hs|[_ Hs]]; [apply (source_checks d Hs k fd H P)|apply (Hs k fd H P)].
  Qed.

  Lemma information_checks t l : In t its -> information_definitions n E R C t = Ok l -> (forall d, In d l -> In d (m_defs M)) ->
    forall d, In d l -> check_definition M vars d = true.
  Proof.
    intros Ht Q I. destruct (proj2 its_tidy t Ht) as [Nt Ct]. assert (Pt : proper E t) by (eapply (neat_proper f C p PF); eassumption).
    pose proof (information_entries t l Q) as Es. unfold information_definitions in Q. bok Q d Hd. bok Q e He. bok Q z Hz. bok Q x Hx. bok Q y Hy. injection Q as <-.
    intros g [<-|[<-|[<-|[]]]].
    - eapply (debug_definition_checks f); [exact X|exact K|exact Pt|exact Ct|exact Hd|apply provided, I; cbn; auto].
    - eapply (reflect_equal_definition_checks f); [exact X|exact K|exact Pt|exact Ct|exact He|apply provided, I; cbn; auto].
    - apply information_thunk_checks; [| |exact information_known].
      + apply compiler_variable; [|eapply generated_name; [|exact Hx]; cbn; tauto].
        apply in_or_app. right. apply in_map_iff. exists d. split; [|apply I; cbn; auto].
        unfold debug_definition in Hd. bok Hd x' Hx'. bok Hd b1 Hb1. bok Hd m1 Hm1. injection Hd as <-. cbn. congruence.
      + apply compiler_variable; [|eapply generated_name; [|exact Hy]; cbn; tauto].
        apply in_or_app. right. apply in_map_iff. exists e. split; [|apply I; cbn; auto].
        unfold reflect_equal_definition in He. bok He y' Hy'. bok He b2 Hb2. bok He m2 Hm2. injection He as <-. cbn. congruence.
  Qed.

  Lemma default_checks d : In d default_definitions -> check_definition M vars d = true.
  Proof.
    intros H. cbn in H. destruct H as [<-|[<-|[<-|[]]]]; [reflexivity|reflexivity|].
    assert (V : forall a m, In (a, m) (map (fun d => (f_name d, f_type d)) default_definitions) -> lookup vars a = Some m).
    { intros a m Ha. apply vars_entry. apply in_or_app. right. unfold M. cbn [m_defs]. rewrite !map_app, !in_app_iff. right. right. exact Ha. }
    apply information_thunk_checks; [apply V; cbn; auto|apply V; cbn; auto|exact information_known].
  Qed.

  Lemma fallback_variable : lookup vars (m_fallback M) = Some information_type.
  Proof. apply compiler_variable; [apply default_names; cbn; auto|constructor]. Qed.

  Lemma info_checks m x : In (m, x) infos -> check_info M x = true.
  Proof.
    intros H. pose proof Hinfos as F. apply mapM_ok in F. destruct (Forall2_other _ _ _ _ F H) as (t & Ht & Q). bok Q m' Hm. bok Q x' Hx. injection Q as <- <-.
    unfold check_info. fold vars. rewrite fallback_variable. rewrite (compiler_variable x' information_type); [apply same_type_refl| |eapply generated_name; [|exact Hx]; cbn; tauto].
    destruct (external_type q t) eqn:Ex.
    - pose proof Hids as G. apply mapM_ok in G. destruct (Forall2_left _ _ _ t G) as (l & Hl & Q); [apply filter_In; auto|].
      unfold information_declarations in Q. bok Q a Ha. bok Q b Hb. bok Q c Hc. injection Q as <-. apply in_or_app. left. unfold M. cbn [m_declared].
      rewrite !map_app, !in_app_iff. right. right. right. apply in_map_iff. exists (c, information_type). split; [cbn; congruence|]. apply in_concat. eexists. split; [exact Hl|]. cbn. auto.
    - pose proof Hifs as G. apply mapM_ok in G. destruct (Forall2_left _ _ _ t G) as (l & Hl & Q); [apply filter_In; rewrite Ex; auto|].
      unfold information_definitions in Q. bok Q a Ha. bok Q b Hb. bok Q c Hc. bok Q a' Ha'. bok Q b' Hb'. injection Q as <-. apply in_or_app. right. unfold M. cbn [m_defs].
      rewrite !map_app, !in_app_iff. right. left. apply in_map_iff. eexists. split; [|apply in_concat; eexists; split; [exact Hl|right; right; left; reflexivity]]. cbn. congruence.
  Qed.

  Theorem module_checks : type_check M = true.
  Proof.
    unfold type_check. rewrite (distinct_names_intro _ record_names_distinct), (distinct_names_intro _ function_names_nodup). cbn [andb].
    rewrite !andb_true_iff. split; [split|].
    - apply forallb_forall. intros fd Hf. fold vars. pose proof Hf as Hf'. unfold M in Hf'. cbn [m_defs] in Hf'. rewrite !in_app_iff in Hf'. destruct Hf' as [H|[H|H]].
      + pose proof Hdefs as F. apply mapM_ok in F. destruct (Forall2_other _ _ _ _ F H) as (d & Hd & G). eapply definition_checks; eassumption.
      + apply in_concat in H. destruct H as (l & Hl & H). pose proof Hifs as F. apply mapM_ok in F. destruct (Forall2_other _ _ _ _ F Hl) as (t & Ht & Q).
        apply filter_In in Ht. eapply information_checks; [apply Ht|exact Q| |exact H]. intros d Hd. unfold M. cbn [m_defs]. rewrite !in_app_iff. right. left. apply in_concat. eauto.
      + apply default_checks, H.
    - apply forallb_forall. intros [m x] H. eapply info_checks, H.
    - unfold check_info. fold vars. rewrite fallback_variable. apply same_type_refl.
  Qed.
End Module.

(** A module compiled from a program of exactly typed functions passes the check. *)
Theorem compiled_module_checks f C p n k q M : config_fits C -> program_fits f C p ->
  transform_program n k (program_env p) (program_records p) C p = Ok q ->
  lower_program n k (program_env p) (program_records p) C q = Ok M ->
  exact_module (program_env p) (program_records p) (program_hir p) -> tries_allowed (program_env p) (program_hir p) ->
  complete C p M -> type_check M = true.
Proof.
  intros CF PF Ht Hl He Hr Hc. destruct (transform_shape f C p PF n k q Ht) as (ds & hs & mts & cs & ets & es & hts & gs & S).
  unfold lower_program in Hl. bok Hl its Hits. bok Hl ids Hids. bok Hl ifs Hifs. bok Hl tds Htds. bok Hl cds Hcds. bok Hl fds Hfds. bok Hl dds Hdds.
  bok Hl defs Hdefs. bok Hl infos Hinfos. injection Hl as <-. eapply module_checks; eassumption.
Qed.
