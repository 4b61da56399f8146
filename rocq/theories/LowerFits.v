(** Deciding the conditions of [LowerProgramSpec] for concrete programs.  Used
    only to show that programs meet them. *)
From Coq Require Import String Ascii List ZArith Bool Lia.
From Verif Require Import Base Mir MirTypeCheck HirType HirTypeOrder HirTypeSpec HirTypeTermination HirTypeEq HirTypeSub HirTypeId HirTypeModule HirTypeModuleProofs
  Hir HirValidate HirSpec HirParts HirMir HirProgram LowerTypeSpec LowerProgramSpec LowerTypeBase LowerSource PropsHir.
Import ListNotations.
Local Open Scope string_scope.
Local Open Scope list_scope.

Section Decide.
  (** the original names of records *)
  Variable f : string -> string.
  Variable C : config.
  Variable p : program.
  Let E := program_env p.
  Let R := program_records p.
  (** recursion depth *)
  Variable n : nat.

  Fixpoint names_same (t : ty) : bool :=
    match t with
    | TFunction a r => forallb names_same a && names_same r
    | TList e => names_same e
    | TMap k v | TUnion k v => names_same k && names_same v
    | TRecord r o => String.eqb o (f r)
    | _ => true
    end.

  Lemma names_same_ok t : names_same t = true -> names_ok f t.
  Proof.
    induction t as [| | |a r Ha IHr|e IHe|k v IHk IHv| | |r o|x| |l r IHl IHr] using ty_ind'; cbn; intros H; try constructor.
    - apply andb_true_iff in H. destruct H as [H _]. rewrite forallb_forall in H. rewrite Forall_forall in *. auto.
    - apply andb_true_iff in H. apply IHr, H.
    - auto.
    - apply andb_true_iff in H. apply IHk, H.
    - apply andb_true_iff in H. apply IHv, H.
    - apply String.eqb_eq in H. subst. exact (no_record f r).
    - apply andb_true_iff in H. apply IHl, H.
    - apply andb_true_iff in H. apply IHr, H.
  Qed.

  Definition plain_same (t : ty) : bool := forallb (fun r => negb (has_char ")" r)) (record_names t).
  Lemma plain_same_ok t : plain_same t = true -> plain_names t.
  Proof. unfold plain_same. rewrite forallb_forall. intros H r Hr. apply H in Hr. destruct (has_char ")" r); [discriminate|reflexivity]. Qed.

  Definition good_type (t : ty) : bool :=
    names_same t && plain_same t && forallb (fun x => match lookup E x with Some _ => true | None => false end) (references t).
  Lemma good_type_ok t : good_type t = true -> ok f E t /\ plain_names t.
  Proof.
    unfold good_type. rewrite !andb_true_iff, forallb_forall. intros [[H1 H2] H3]. split; [|apply plain_same_ok, H2].
    split; [|apply names_same_ok, H1]. intros x Hx Q. apply H3 in Hx. rewrite Q in Hx. discriminate.
  Qed.

  Definition program_types : list ty :=
    flat_map (fun d => map snd (td_fields (t_def d))) (p_types p) ++ map def_record (p_types p) ++ map snd (p_aliases p) ++
    map snd (p_foreign p) ++ map snd (p_declared p) ++ flat_map (fun d => lambda_written (snd d)) (p_defs p).

  Lemma program_types_ok t : type_in p t -> In t program_types.
  Proof.
    unfold program_types. intros H. rewrite !in_app_iff. destruct H.
    - left. apply in_flat_map. exists d. split; [assumption|]. apply in_map_iff. exists (x, t). auto.
    - right. left. apply in_map. assumption.
    - do 2 right. left. apply in_map_iff. exists (x, t). auto.
    - do 3 right. left. apply in_map_iff. exists (x, t). auto.
    - do 4 right. left. apply in_map_iff. exists (x, t). auto.
    - do 5 right. apply in_flat_map. exists (x, l). split; [assumption|]. unfold lambda_written. apply in_or_app. left. apply in_map_iff. exists (y, t). auto.
    - do 5 right. apply in_flat_map. exists (x, l). split; [assumption|]. unfold lambda_written. apply in_or_app. right. left. reflexivity.
    - do 5 right. apply in_flat_map. exists (x, l). split; [assumption|]. unfold lambda_written. apply in_or_app. right. right. cbn [snd]. eapply occurs_written; eassumption.
  Qed.

  (** A union with alternatives that differ *)
  Definition spread (t : ty) : bool :=
    match t with
    | TUnion _ _ => match canonicalize n E t with Ok (TUnion _ _) => true | _ => false end
    | TReference x => match lookup E x with Some (TRecord _ _) => true | _ => false end
    | _ => true
    end.

  Lemma spread_ok t : closed_env E -> acyclic E -> spread t = true -> ~ collapsed E t.
  Proof.
    intros Hc Ha H Q. destruct Q as [l r a Sa Q|x t Hx Q].
    - cbn [spread] in H. destruct (canonicalize n E (TUnion l r)) as [c| | |] eqn:Hk; try discriminate. assert (K : canon E (TUnion l r) c) by (exists n; exact Hk).
      apply (teq_canon E _ _ Hc Ha Q) in K. apply canon_atom_nonunion in K; [destruct c; discriminate|]. destruct a; try destruct Sa; split; reflexivity.
    - cbn [spread] in H. rewrite Hx in H. destruct t; try discriminate. inversion Q.
  Qed.

  Definition free (x : string) : bool :=
    negb (String.eqb x "") && negb (prefix "$" x) && negb (prefix "hir:" x) && negb (mem x ["__debug"; "__race"; "__spawn"]).

  Definition compiler_word (x : string) : bool :=
    mem x (map fst (prelude_functions C)) || prefix "hir:" x && negb (mem x ["hir:debug:element"; "hir:equal:element"]) ||
    mem x ["__debug"; "__race"; "__spawn"] ||
    existsb (fun d => String.eqb x (record_equal_name (record_name d)) || String.eqb x (record_hash_name (record_name d))) (p_types p).

  Lemma prefix_plus a i : prefix a (a ++ i)%string = true.
  Proof. induction a as [|c a IH]; [destruct i; reflexivity|]. cbn. destruct (ascii_dec c c); [exact IH|contradiction]. Qed.

  Hypothesis CF : config_fits C.

  Lemma identifier_word t i : identifier E C t i -> i <> "element".
  Proof.
    intros [k H] ->. unfold type_id in H. bok H x Hx. injection H as H. apply (proj2 (cf_words C CF x)). rewrite H. cbn. auto.
  Qed.

  Lemma compiler_word_ok x t : compiler_name E R C x t -> compiler_word x = true.
  Proof.
    intros H. unfold compiler_word. rewrite !orb_true_iff.
    assert (P : forall u, In (x, u) (prelude_functions C) -> mem x (map fst (prelude_functions C)) = true).
    { intros u Hu. apply mem_In. apply (in_map fst) in Hu. exact Hu. }
    assert (D : forall r, lookup R r <> None -> x = record_equal_name r \/ x = record_hash_name r ->
      existsb (fun d => String.eqb x (record_equal_name (record_name d)) || String.eqb x (record_hash_name (record_name d))) (p_types p) = true).
    { intros r Hr Q. destruct (lookup R r) as [fts|] eqn:Hl; [|contradiction]. apply lookup_In in Hl. apply in_rev in Hl. cbn in Hl. rewrite map_map in Hl.
      apply in_map_iff in Hl. destruct Hl as (d & Q' & Hd). injection Q' as <- <-. apply existsb_exists. exists d. split; [exact Hd|].
      apply orb_true_iff. rewrite !String.eqb_eq. exact Q. }
    assert (G : forall a i, x = (a ++ i)%string -> i <> "element" -> In a ["hir:type_information:"; "hir:reflect:debug:"; "hir:reflect:equal:"; "hir:equal:"; "hir:hash:"; "hir:map:context:"] ->
      prefix "hir:" x && negb (mem x ["hir:debug:element"; "hir:equal:element"]) = true).
    { intros a i -> Ni Ha. apply andb_true_iff. split; [cbn in Ha; repeat (destruct Ha as [<-|Ha]; [reflexivity|]); destruct Ha|].
      apply negb_true_iff. apply not_true_is_false. intros M. apply mem_In in M. cbn in Ha, M.
      repeat (destruct Ha as [<-|Ha]; [destruct M as [M|[M|[]]]; cbn in M; try discriminate; injection M as M; congruence|]). destruct Ha. }
    assert (Hc : forall y u, compiler_name E R C y u -> In (y, u) (prelude_functions C) \/ In y ["__debug"; "__race"; "__spawn"] \/
      (exists a i, y = (a ++ i)%string /\ i <> "element" /\ In a ["hir:type_information:"; "hir:reflect:debug:"; "hir:reflect:equal:"; "hir:equal:"; "hir:hash:"; "hir:map:context:"]) \/
      (exists r, lookup R r <> None /\ (y = record_equal_name r \/ y = record_hash_name r))).
    { clear - CF. intros y u H. destruct H; try (left; unfold prelude_functions; cbn; tauto); right; try (left; cbn; tauto); right;
        try (right; exists r; unfold record_equal_name, record_hash_name; auto; fail); left.
      1: exists "hir:type_information:", "default"; split; [reflexivity|split; [discriminate|cbn; tauto]].
      all: match goal with H : identifier _ _ _ ?i |- exists _ _, (?a ++ ?i)%string = _ /\ _ => exists a, i end; split; [reflexivity|split; [eapply identifier_word; eassumption|cbn; tauto]]. }
    apply Hc in H. destruct H as [H|[H|[(a & i & Q & Ni & Ha)|(r & Hr & Q)]]].
    - left. left. left. eapply P, H.
    - left. right. apply mem_In, H.
    - left. left. right. eapply G; eassumption.
    - right. eapply D; eassumption.
  Qed.

  Definition free_ok x : free x && negb (compiler_word x) = true -> free_name E R C x.
  Proof.
    rewrite andb_true_iff, negb_true_iff. intros [H1 H2]. unfold free in H1. rewrite !andb_true_iff, !negb_true_iff in H1. destruct H1 as [[[H1 H3] _] _].
    split; [split; [intros ->; discriminate|exact H3]|]. intros t Ht. apply compiler_word_ok in Ht. congruence.
  Qed.

  Lemma source_ok x : free x = true -> source_name x.
  Proof.
    unfold free. rewrite !andb_true_iff, !negb_true_iff. intros [[[H1 H2] H3] H4]. split; [split; [intros ->; discriminate|exact H2]|].
    split; [exact H3|]. intros Q. apply mem_In in Q. congruence.
  Qed.

  (** An expression that is tame by itself; no [?] in arguments at all *)
  Definition is_variable (x : string) (e : hexpr) : bool := match e with HVariable y => String.eqb x y | _ => false end.
  Definition is_try (e : hexpr) : bool := match e with HTry _ _ => true | _ => false end.
  Definition wild (e : hexpr) : bool :=
    negb (forallb (fun x => free x && negb (compiler_word x)) (bound e)) ||
    match e with
    | HVariable x => String.eqb x "" || prefix "$" x
    | HIfMap _ _ x _ _ _ b => negb (nowhere n (is_variable x) b)
    | HCall _ (HBuiltIn b) args => match b with BKeys | BRace | BValues => negb (forallb (nowhere n is_try) args) | _ => false end
    | _ => false
    end.

  Definition lambda_fits (l : lambda) : bool :=
    forallb (fun a => free (fst a) && negb (compiler_word (fst a))) (l_arguments l) && nowhere n wild (l_body l) &&
    (nowhere n is_try (l_body l) || forallb (fun t => match equal_types n E t TError with Ok b => negb b | _ => false end) (l_result l :: written (l_body l))).

  Definition declares_prelude (d : string * ty) : bool :=
    forallb (fun m => negb (String.eqb (fst m) (fst d)) ||
      match canonicalize n E (snd d) with
      | Ok c => plain_same c && match lower C c with Ok m' => mtype_eqb m' (snd m) | _ => false end
      | _ => false
      end) (prelude_functions C).

  Definition fits_as : bool :=
    no_duplicates [] (type_names (program_module p)) && types_exist (program_module p) && aliases_not_recursive (program_module p) &&
    forallb good_type program_types &&
    forallb (fun x => mem x (map record_name (p_types p))) (prelude_types C) &&
    forallb (fun d => negb (prefix "hir:" (record_name d)) && negb (prefix "$" (record_name d)) &&
                      no_duplicates [] (map fst (td_fields (t_def d))) && forallb (fun ft => spread (snd ft)) (td_fields (t_def d))) (p_types p) &&
    no_duplicates [] (global_names p) && forallb free (global_names p) &&
    forallb (fun x => forallb (fun d => negb (String.eqb x (record_equal_name (record_name d))) && negb (String.eqb x (record_hash_name (record_name d)))) (p_types p))
      (global_names p ++ map fst (prelude_functions C)) &&
    forallb declares_prelude (p_foreign p ++ p_declared p) &&
    forallb (fun d => negb (mem (fst d) (map fst (prelude_functions C))) && lambda_fits (snd d)) (p_defs p).

  Lemma no_duplicates_ok l : no_duplicates [] l = true -> NoDup l.
  Proof. intros H. apply no_duplicates_spec in H. apply H. Qed.

  Theorem fits_as_ok : fits_as = true -> program_fits f C p.
  Proof.
    unfold fits_as. rewrite !andb_true_iff, !forallb_forall. intros [[[[[[[[[[H1 H2] H3] H4] H5] H6] H7] H8] H9] H10] H11].
    apply no_duplicates_ok in H1, H7.
    assert (T : forall t, type_in p t -> ok f E t /\ plain_names t) by (intros t Ht; apply good_type_ok, H4, program_types_ok, Ht).
    assert (K1 : closed_env E) by (apply types_exist_closed; assumption).
    assert (K2 : acyclic E) by (apply aliases_not_recursive_spec; assumption).
    assert (W : wf f E).
    { split; [exact K1|exact K2|]. intros x t Hx. apply T. eapply env_type_in, Hx. }
    split.
    - split; [exact W|]. intros r fts x t Hr Hx. apply T. eapply record_type_in; eassumption.
    - exact T.
    - intros x Hx. apply mem_In, H5, Hx.
    - intros d Hd. apply H6 in Hd. rewrite !andb_true_iff, !negb_true_iff in Hd. tauto.
    - exact H1.
    - intros d Hd. apply H6 in Hd. rewrite !andb_true_iff in Hd. apply no_duplicates_ok, Hd.
    - intros d x t Hd Hx. apply H6 in Hd. rewrite !andb_true_iff, forallb_forall in Hd. apply spread_ok; [exact K1|exact K2|]. apply (proj2 Hd (x, t) Hx).
    - exact H7.
    - intros x Hx. apply source_ok, H8, Hx.
    - intros x d Hx Hd. apply H9 in Hx. rewrite forallb_forall in Hx. apply Hx in Hd. rewrite andb_true_iff, !negb_true_iff, !String.eqb_neq in Hd. exact Hd.
    - intros x t m Hx Hm. apply H10 in Hx. unfold declares_prelude in Hx. rewrite forallb_forall in Hx. apply Hx in Hm. cbn [fst snd] in Hm.
      rewrite String.eqb_refl in Hm. cbn [negb orb] in Hm. destruct (canonicalize n E t) as [c| | |] eqn:Hc; try discriminate. apply andb_true_iff in Hm. destruct Hm as [Hp Hm].
      destruct (lower C c) as [m'| | |] eqn:Hl; try discriminate. apply mtype_eqb_eq in Hm. subst m'. exists c. split; [exists n; exact Hc|]. split; [exact Hl|apply plain_same_ok, Hp].
    - intros x l Hd. pose proof Hd as Hd'. apply H11 in Hd. cbn [fst snd] in Hd. unfold lambda_fits in Hd. rewrite !andb_true_iff, !negb_true_iff, forallb_forall in Hd.
      destruct Hd as [Hp [[Ha Hb] Ht]]. split; [intros Q; apply mem_In in Q; congruence|]. split; [|split].
      + intros y t Hy. apply free_ok, (Ha (y, t) Hy).
      + assert (B : forall e, occurs e (l_body l) -> wild e = false) by (intros e He; eapply nowhere_ok; eassumption).
        assert (B1 : forall e, occurs e (l_body l) -> forall y, In y (bound e) -> free_name E R C y).
        { intros e He y Hy. apply B in He. unfold wild in He. apply orb_false_iff in He. destruct He as [He _]. apply negb_false_iff in He. rewrite forallb_forall in He. apply free_ok, He, Hy. }
        split; [intros y e He Hy; eapply B1; eassumption|]. split; [|split; [|split]].
        * intros y Hy. apply B in Hy. cbn in Hy. apply orb_false_iff in Hy. destruct Hy as [Q1 Q2]. split; [intros ->; discriminate|exact Q2].
        * intros kt vt y e k a b He Hy. apply B in He. unfold wild in He. apply orb_false_iff in He. destruct He as [_ He]. apply negb_false_iff in He.
          apply (nowhere_ok _ _ _ _ He) in Hy. cbn in Hy. rewrite String.eqb_refl in Hy. discriminate.
        * intros e t He Hi. assert (ti : type_in p t) by (eapply ti_expression; eassumption). destruct (T t ti) as [[D N] P].
          destruct (canon_ex _ E W t D) as [c Hc]. exists c. split; [exact Hc|]. destruct Hc as [k Hc]. eapply (plain_canon_n E k); [|exact Hc|exact P].
          intros z u Hz. apply T. eapply env_type_in, Hz.
        * intros ft b args a t e He Hb' Hi Hw. apply B in He. unfold wild in He. apply orb_false_iff in He. destruct He as [_ He].
          assert (X : forallb (nowhere n is_try) args = true) by (cbn in Hb'; destruct Hb' as [<-|[<-|[<-|[]]]]; apply negb_false_iff in He; exact He).
          rewrite forallb_forall in X. apply X in Hi. assert (O : occurs (HTry t e) a) by (exists None, None; exact Hw).
          apply (nowhere_ok _ _ _ _ Hi) in O. discriminate.
      + intros c t a Hw r -> Q. apply orb_true_iff in Ht. destruct Ht as [Ht|Ht].
        * assert (O : occurs (HTry t a) (l_body l)) by (eexists _, _; exact Hw). apply (nowhere_ok _ _ _ _ Ht) in O. discriminate.
        * assert (I : In r (l_result l :: written (l_body l))).
          { apply within_written in Hw. destruct Hw as [Hw|Hw]; [injection Hw as ->; left; reflexivity|right; exact Hw]. }
          rewrite forallb_forall in Ht. pose proof (Ht r I) as X. destruct (equal_types n E r TError) as [b| | |] eqn:Q'; try discriminate.
          assert (N : names_ok f r).
          { apply good_type_ok, H4. unfold program_types. rewrite !in_app_iff. do 5 right. apply in_flat_map. exists (x, l). split; [exact Hd'|].
            unfold lambda_written. apply in_or_app. right. exact I. }
          apply (equal_types_correct _ E W) in Q'; [|exact N|constructor]. apply Q' in Q. subst b. discriminate.
  Qed.

  (** ** A module that has what its code mentions *)
  Definition completes (M : mmodule) : bool :=
    let names := map fst (m_declared M) ++ @map fdef string (@f_name expr) (m_defs M) in
    let records := map fst (m_types M) in
    forallb (fun d => forallb (fun x => match x with
      | NName x => mem x names || negb (compiler_word x)
      | NRecord r => mem r records
      end) (needs (f_body d))) (m_defs M).

  Theorem completes_ok M : completes M = true -> complete C p M.
  Proof.
    intros H d Hd. unfold completes in H. rewrite forallb_forall in H. apply H in Hd. rewrite forallb_forall in Hd. split.
    - intros x t Hx Ht. apply Hd in Hx. apply orb_true_iff in Hx. apply compiler_word_ok in Ht. destruct Hx as [Hx|Hx]; [apply mem_In, Hx|]. rewrite Ht in Hx. discriminate.
    - intros r ts Hr _. apply Hd in Hr. apply mem_In, Hr.
  Qed.
End Decide.

(** Records that keep their names *)
Definition fits : config -> program -> nat -> bool := fits_as (fun x => x).
Theorem fits_ok C p n : config_fits C -> fits C p n = true -> program_fits (fun x => x) C p.
Proof. exact (fits_as_ok (fun x => x) C p n). Qed.
