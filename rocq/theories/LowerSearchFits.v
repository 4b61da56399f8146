(** Deciding the conditions of [LowerCompleteSpec] for concrete programs.  Used
    only to show that programs meet them. *)
From Coq Require Import String Ascii List ZArith Bool Lia.
From Verif Require Import Base Mir MirTypeCheck HirType HirTypeOrder HirTypeSpec HirTypeTermination HirTypeEq HirTypeSub HirTypeId HirTypeModule HirTypeModuleProofs
  Hir HirValidate HirSpec HirParts HirMir HirProgram LowerTypeSpec LowerProgramSpec LowerTypeBase LowerTypeNames LowerSource LowerFits LowerCompleteSpec LowerOrigin LowerSearch PropsHir.
Import ListNotations.
Local Open Scope string_scope.
Local Open Scope list_scope.

Lemma inside_visit E t u : inside E t u -> In u (visit_type t) \/ exists x t', lookup E x = Some t' /\ In u (visit_type t').
Proof.
  intros H. induction H as [t|a r t u Ht H IH|a r u H IH|e u H IH|k v u H IH|k v u H IH|l r u H IH|l r u H IH|x t u Hx H IH];
    [|destruct IH as [IH|IH]; [left|right; exact IH]..|].
  - left. destruct t; left; reflexivity.
  - cbn. right. rewrite in_app_iff. right. apply in_flat_map. eauto.
  - cbn. right. rewrite in_app_iff. left. exact IH.
  - cbn. right. exact IH.
  - cbn. right. rewrite in_app_iff. left. exact IH.
  - cbn. right. rewrite in_app_iff. right. exact IH.
  - cbn. right. rewrite in_app_iff. left. exact IH.
  - cbn. right. rewrite in_app_iff. right. exact IH.
  - destruct IH as [IH|IH]; right; eauto.
Qed.

Section Decide.
  Variable C : config.
  Variable p : program.
  Variable M : mmodule.
  Let E := program_env p.
  Let R := program_records p.
  (** recursion depth *)
  Variable n : nat.

  Definition comparables (t : ty) : bool := match comparable n E R t with Ok b => b | _ => false end.
  Lemma comparables_ok t : comparables t = true -> comparable_type E R t.
  Proof.
    unfold comparables. destruct (comparable n E R t) as [b| | |] eqn:H; try discriminate. intros ->. intros u Hu. exact (comparable_sound E R n t u H Hu).
  Qed.

  Definition carries (t : ty) : bool :=
    match canonicalize n E t with
    | Ok (TFunction a r) => match type_id n E C (TFunction a r) with Ok i => mem ("hir:function:" ++ i)%string (map fst (m_types M)) | _ => false end
    | Ok (TList e) => match type_id n E C e with Ok i => mem ("hir:list:" ++ i)%string (map fst (m_types M)) | _ => false end
    | Ok (TMap k v) => match type_id n E C k, type_id n E C v with Ok i, Ok j => mem ("hir:map:" ++ i ++ ":" ++ j)%string (map fst (m_types M)) | _, _ => false end
    | Ok _ => true
    | _ => false
    end.
  Lemma same_identifier t i j : type_id n E C t = Ok i -> identifier E C t j -> i = j.
  Proof.
    intros Hi [a Hj]. apply identifier_canon in Hi. apply identifier_canon in Hj. destruct Hi as (c1 & s1 & C1 & S1 & ->). destruct Hj as (c2 & s2 & C2 & S2 & ->).
    pose proof (canon_fun _ _ _ _ C1 C2). congruence.
  Qed.
  Lemma carries_ok t : carries t = true -> carried E C M t.
  Proof.
    unfold carries. destruct (canonicalize n E t) as [c| | |] eqn:Hc; try discriminate. intros H d r Hd Hr. rewrite (canon_fun _ _ _ _ Hd (ex_intro _ n Hc)) in Hr.
    destruct Hr as [a b i Hi|e i Hi|k v i j Hi Hj]; unfold has_record.
    - destruct (type_id n E C (TFunction a b)) as [i'| | |] eqn:Q; try discriminate. rewrite <- (same_identifier _ _ _ Q Hi). apply mem_In, H.
    - destruct (type_id n E C e) as [i'| | |] eqn:Q; try discriminate. rewrite <- (same_identifier _ _ _ Q Hi). apply mem_In, H.
    - destruct (type_id n E C k) as [i'| | |] eqn:Q; try discriminate. destruct (type_id n E C v) as [j'| | |] eqn:Q'; try discriminate.
      rewrite <- (same_identifier _ _ _ Q Hi), <- (same_identifier _ _ _ Q' Hj). apply mem_In, H.
  Qed.

  (** The conversions of an expression, but for the elements of lists and maps *)
  Definition shown (e : hexpr) : bool :=
    match e with
    | HCall (Some ft) (HBuiltIn b) _ =>
        match b with
        | BDelete | BKeys | BValues | BRace | BSpawn =>
            match canonicalize n E ft with
            | Ok (TFunction ts r) =>
                match b, ts with
                | BDelete, _ :: k :: _ => carries k
                | BKeys, TMap k _ :: _ => carries k
                | BValues, TMap _ v :: _ => carries v
                | BRace, _ => match r with TList _ => carries r | _ => true end
                | BSpawn, TFunction _ t :: _ => carries t
                | _, _ => true
                end
            | _ => false
            end
        | _ => true
        end
    | HComprehension _ _ bs => forallb (fun b => forallb (fun it => listed (fst it) ||
        match fst it with
        | Some t => match canonicalize n E t with Ok (TList e) => carries e | Ok _ => true | _ => false end
        | None => true
        end) (b_iteratees b)) bs
    | _ => true
    end.
  Lemma shown_ok e : shown e = true -> hidden E C M e.
  Proof.
    intros H. destruct e; try exact I.
    - destruct function_type as [ft|]; [|exact I]. destruct e; try exact I. cbn [shown] in H. intros ts r Hs.
      assert (G : match f with BDelete | BKeys | BValues | BRace | BSpawn => canonicalize n E ft = Ok (TFunction ts r) | _ => True end).
      { destruct f; try exact I; destruct (canonicalize n E ft) as [c| | |] eqn:Hc; try discriminate; rewrite (canon_fun _ _ _ _ (ex_intro _ n Hc) Hs); reflexivity. }
      destruct f; try exact I; rewrite G in H.
      + intros m k l ->. apply carries_ok, H.
      + intros k v l ->. apply carries_ok, H.
      + intros t ->. apply carries_ok, H.
      + intros a t l ->. apply carries_ok, H.
      + intros k v l ->. apply carries_ok, H.
    - cbn [shown hidden] in *. intros b it Hb Hi Hl t' e' Q Hs. rewrite forallb_forall in H. apply H in Hb. rewrite forallb_forall in Hb. apply Hb in Hi. rewrite Hl in Hi. cbn [orb] in Hi.
      rewrite Q in Hi. destruct (canonicalize n E t') as [c| | |] eqn:Hc; try discriminate. rewrite (canon_fun _ _ _ _ (ex_intro _ n Hc) Hs) in Hi. apply carries_ok, Hi.
  Qed.

  (** An expression that asks for nothing *)
  Definition modest (e : hexpr) : bool :=
    match e with
    | HBoolean _ | HBuiltIn _ | HIf _ _ _ | HLambda _ _ _ | HLet _ _ _ _ | HNone | HNumber _ | HNot _ | HRecord _ _ | HField _ _ _ | HUpdate _ _ _
    | HString _ | HThunk _ _ | HVariable _ => true
    | HCall _ (HVariable _) _ => true
    | HBinary (BinEquality (Some t) _) _ _ => match t with TNumber | TString | TBoolean | TNone => true | _ => false end
    | HBinary _ _ _ => true
    | _ => false
    end.
  Lemma modest_ok e : modest e = true -> asks E C M e.
  Proof.
    intros H. destruct e; try discriminate; try (split; exact I).
    - destruct e; try discriminate. split; destruct function_type; exact I.
    - split; [exact I|]. destruct o as [| | |[t|] o|]; try exact I. cbn in H. intros c u [k Hc] Hu. destruct k; [discriminate|].
      assert (c = t) as -> by (destruct t; try discriminate; cbn in Hc; congruence).
      assert (u = t) as -> by (destruct t; try discriminate; cbn in Hu; destruct Hu as [Hu|[]]; congruence).
      split; [|destruct t; try discriminate; exact I]. intros d r Hd Hr.
      rewrite (canon_fun _ _ _ _ Hd (ex_intro _ (S k) Hc)) in Hr. destruct t; try discriminate; inversion Hr.
  Qed.

  Definition unsearched (e : hexpr) : bool :=
    negb (shown e) ||
    match e with
    | HIfMap (Some k) _ _ _ _ _ _ | HMap k _ _ => negb (comparables k)
    | HBinary (BinEquality (Some t) _) _ _ => negb (comparables t)
    | HComprehension _ _ bs => negb (forallb (fun b => match b_condition b with Some c => nowhere n (fun e => negb (modest e)) c | None => true end) bs)
    | _ => false
    end.

  Definition searches : bool :=
    forallb (fun x => mem x (global_names p)) (map fst (prelude_functions C)) &&
    forallb (fun t => forallb (fun u => match u with TMap k _ => comparables k | _ => true end) (visit_type t)) (program_types p) &&
    forallb (fun d => nowhere n unsearched (l_body (snd d))) (p_defs p).

  Theorem searches_ok : searches = true -> searchable C p M.
  Proof.
    unfold searches. rewrite !andb_true_iff, !forallb_forall. intros [[H1 H2] H3].
    assert (B : forall x l e, In (x, l) (p_defs p) -> occurs e (l_body l) -> unsearched e = false).
    { intros x l e Hx He. eapply nowhere_ok; [exact (H3 (x, l) Hx)|exact He]. }
    assert (T : forall t u, In t (program_types p) -> In u (visit_type t) -> forall k v, u = TMap k v -> comparable_type E R k).
    { intros t u Ht Hu k v ->. apply H2 in Ht. rewrite forallb_forall in Ht. apply Ht in Hu. apply comparables_ok, Hu. }
    split.
    - intros x Hx. apply mem_In, H1, Hx.
    - intros t k v Ht Hi. destruct (inside_visit _ _ _ Hi) as [Hu|(x & t' & Hx & Hu)].
      + eapply T; [apply program_types_ok, Ht|exact Hu|reflexivity].
      + eapply T; [apply program_types_ok; eapply env_type_in; exact Hx|exact Hu|reflexivity].
    - intros x l e Hx He. specialize (B x l e Hx He). apply orb_false_iff in B. destruct B as [_ B]. destruct e; try exact I.
      + destruct key_type; [|exact I]. apply negb_false_iff in B. apply comparables_ok, B.
      + apply negb_false_iff in B. apply comparables_ok, B.
    - intros x l t o a b Hx He. specialize (B x l _ Hx He). apply orb_false_iff in B. destruct B as [_ B]. apply negb_false_iff in B. apply comparables_ok, B.
    - intros x l e Hx He. specialize (B x l e Hx He). apply orb_false_iff in B. destruct B as [B _]. apply negb_false_iff in B. apply shown_ok, B.
    - intros x l e Hx (t & el & bs & b & c & Ho & Hb & Hc & He). specialize (B x l _ Hx Ho). apply orb_false_iff in B. destruct B as [_ B]. apply negb_false_iff in B.
      rewrite forallb_forall in B. apply B in Hb. rewrite Hc in Hb. apply (nowhere_ok _ _ _ _ Hb) in He. apply negb_false_iff in He. apply modest_ok, He.
  Qed.
End Decide.
