From Coq Require Import String List Arith Lia Bool Relations Permutation.
From Verif Require Import Base HirType HirTypeSpec HirTypeOrder HirTypeTermination HirTypeModule Graph GraphProofs.
Import ListNotations.

Lemma no_duplicates_spec names : forall seen,
  no_duplicates seen names = true <-> NoDup names /\ forall x, In x names -> ~ In x seen.
Proof.
  induction names as [|x xs IH]; intros seen; cbn.
  - split; [split; [constructor|intros x []]|reflexivity].
  - destruct (mem x seen) eqn:Hm.
    + apply mem_In in Hm. split; [discriminate|]. intros [_ H]. exfalso. apply (H x); [left; reflexivity|exact Hm].
    + apply mem_not_In in Hm. rewrite IH. split.
      * intros [H1 H2]. split.
        -- constructor; [|exact H1]. intros H. apply (H2 x H). left. reflexivity.
        -- intros y [<-|Hy]; [exact Hm|]. intros Hy'. apply (H2 y Hy). right. exact Hy'.
      * intros [H1 H2]. inversion H1; subst. split; [assumption|]. intros y Hy [<-|Hs]; [contradiction|].
        apply (H2 y); [right; exact Hy|exact Hs].
Qed.

Section Env.
  Variable m : tmodule.
  Hypothesis Hnd : NoDup (type_names m).

  Lemma NoDup_lookup {A} (l : list (string * A)) x a :
    NoDup (map fst l) -> In (x, a) l -> lookup l x = Some a.
  Proof.
    induction l as [|[y b] l IH]; cbn; intros Hn Hin; [destruct Hin|].
    inversion Hn as [|? ? Hy Hn']; subst. destruct Hin as [E|Hin].
    - injection E as -> ->. rewrite String.eqb_refl. reflexivity.
    - destruct (String.eqb_spec x y) as [->|_]; [|auto]. exfalso. apply Hy. apply (in_map fst) in Hin. exact Hin.
  Qed.

  Let entries := map (fun d => (td_name d, TRecord (td_name d) (td_original d))) (tm_defs m) ++ tm_aliases m.

  Lemma entries_names : map fst entries = type_names m.
  Proof. unfold entries, type_names. rewrite map_app, map_map. reflexivity. Qed.

  Lemma env_lookup x t : lookup (collect_env m) x = Some t <-> In (x, t) entries.
  Proof.
    unfold collect_env. fold entries. split.
    - intros H. apply lookup_In in H. apply in_rev in H. exact H.
    - intros H. apply NoDup_lookup; [|apply in_rev; rewrite rev_involutive; exact H].
      rewrite map_rev, entries_names. apply NoDup_rev, Hnd.
  Qed.

  Lemma env_alias x t : In (x, t) (tm_aliases m) -> lookup (collect_env m) x = Some t.
  Proof. intros H. apply env_lookup. unfold entries. apply in_or_app. auto. Qed.

  Lemma env_defined x : lookup (collect_env m) x <> None <-> In x (type_names m).
  Proof.
    rewrite <- entries_names. split.
    - intros H. destruct (lookup (collect_env m) x) eqn:E; [|congruence]. apply env_lookup in E. apply (in_map fst) in E. exact E.
    - intros H. apply in_map_iff in H. destruct H as ([y t] & E & H). cbn in E. subst. apply env_lookup in H. congruence.
  Qed.

  Lemma alias_edges_spec x y :
    In (x, y) (alias_edges (tm_aliases m)) <->
    exists t, In (x, t) (tm_aliases m) /\ In y (references t) /\ In y (map fst (tm_aliases m)).
  Proof.
    unfold alias_edges. rewrite in_flat_map. split.
    - intros ([a t] & Ha & H). apply in_map_iff in H. destruct H as (z & E & H). cbn in E. injection E as -> ->.
      apply filter_In in H. rewrite mem_In in H. exists t. tauto.
    - intros (t & Ha & H1 & H2). exists (x, t). split; [exact Ha|]. apply in_map_iff. exists y. split; [reflexivity|].
      apply filter_In. rewrite mem_In. auto.
  Qed.

  Lemma dep_alias x y : alias_dep (collect_env m) x y -> exists t, In (x, t) (tm_aliases m) /\ In y (references t).
  Proof.
    intros (t & Ht & Hy). apply env_lookup in Ht. unfold entries in Ht. apply in_app_or in Ht. destruct Ht as [Ht|Ht]; [|eauto].
    apply in_map_iff in Ht. destruct Ht as (d & E & _). injection E as <- <-. destruct Hy.
  Qed.

  Lemma edge_dep x y : In (x, y) (alias_edges (tm_aliases m)) -> alias_dep (collect_env m) x y.
  Proof. intros H. apply alias_edges_spec in H. destruct H as (t & H1 & H2 & _). exists t. split; [apply env_alias, H1|exact H2]. Qed.

  Lemma cycle_iff x : clos_trans string (alias_dep (collect_env m)) x x <-> reaches (alias_edges (tm_aliases m)) x x.
  Proof.
    split.
    - intros H.
      assert (Hsrc : forall a b, clos_trans string (alias_dep (collect_env m)) a b -> In a (map fst (tm_aliases m))).
      { intros a b Hab. induction Hab as [a b Hab|a b c _ IH _ _]; [|exact IH].
        apply dep_alias in Hab. destruct Hab as (t & Ht & _). apply (in_map fst) in Ht. exact Ht. }
      assert (Hgen : forall a b, clos_trans string (alias_dep (collect_env m)) a b -> In b (map fst (tm_aliases m)) ->
                reaches (alias_edges (tm_aliases m)) a b).
      { intros a b Hab. apply clos_trans_t1n in Hab. induction Hab as [a b Hab|a b c Hab Hbc IH]; intros Hb.
        - apply dep_alias in Hab. destruct Hab as (t & Ht & Hin). apply t_step. apply alias_edges_spec. eauto.
        - apply t_trans with b; [|apply IH, Hb]. apply dep_alias in Hab. destruct Hab as (t & Ht & Hin).
          apply t_step. apply alias_edges_spec. exists t. split; [exact Ht|]. split; [exact Hin|].
          eapply Hsrc. apply clos_t1n_trans, Hbc. }
      apply Hgen; [exact H|]. eapply Hsrc, H.
    - intros H. unfold reaches in H. revert H. generalize x at 2 4. intros y H.
      induction H as [a b H|a b c _ IH1 _ IH2]; [apply t_step, edge_dep, H|eapply t_trans; eassumption].
  Qed.

  Lemma aliases_not_recursive_spec : aliases_not_recursive m = true <-> acyclic (collect_env m).
  Proof.
    assert (Hn : NoDup (map fst (tm_aliases m))).
    { unfold type_names in Hnd. clear - Hnd. induction (map td_name (tm_defs m)) as [|x xs IH]; [exact Hnd|].
      apply IH. inversion Hnd; assumption. }
    assert (Hin : inside (map fst (tm_aliases m)) (alias_edges (tm_aliases m))).
    { intros x y H. apply alias_edges_spec in H. destruct H as (t & H1 & H2 & H3). split; [apply (in_map fst) in H1; exact H1|exact H3]. }
    pose proof (toposort_spec _ _ Hn Hin) as H. unfold aliases_not_recursive.
    destruct (toposort (map fst (tm_aliases m)) (alias_edges (tm_aliases m))).
    - destruct H as [H _]. split; [intros _ x Hx|reflexivity]. apply H. exists x. apply cycle_iff, Hx.
    - split; [discriminate|]. intros Ha. destruct H as [x Hx]. exfalso. apply (Ha x). apply cycle_iff, Hx.
  Qed.

  Lemma aliases_recursive_cycle : aliases_not_recursive m = false -> exists x, clos_trans string (alias_dep (collect_env m)) x x.
  Proof.
    assert (Hn : NoDup (map fst (tm_aliases m))).
    { unfold type_names in Hnd. clear - Hnd. induction (map td_name (tm_defs m)) as [|x xs IH]; [exact Hnd|].
      apply IH. inversion Hnd; assumption. }
    assert (Hin : inside (map fst (tm_aliases m)) (alias_edges (tm_aliases m))).
    { intros x y H. apply alias_edges_spec in H. destruct H as (t & H1 & H2 & H3). split; [apply (in_map fst) in H1; exact H1|exact H3]. }
    pose proof (toposort_spec _ _ Hn Hin) as H. unfold aliases_not_recursive.
    destruct (toposort (map fst (tm_aliases m)) (alias_edges (tm_aliases m))); [discriminate|]. intros _.
    destruct H as [x Hx]. exists x. apply cycle_iff, Hx.
  Qed.

  Lemma exists_type_defined t : exists_type m t = true -> defined (collect_env m) t.
  Proof.
    unfold exists_type. rewrite andb_true_iff, forallb_forall. intros [H _] x Hx. apply env_defined, mem_In, H, Hx.
  Qed.

  Lemma types_exist_closed : types_exist m = true -> closed_env (collect_env m).
  Proof.
    unfold types_exist. rewrite andb_true_iff, !forallb_forall. intros [_ H] x t Hl.
    apply env_lookup in Hl. unfold entries in Hl. apply in_app_or in Hl. destruct Hl as [Hl|Hl].
    - apply in_map_iff in Hl. destruct Hl as (d & E & _). injection E as <- <-. intros y [].
    - apply exists_type_defined. apply (H (x, t) Hl).
  Qed.
End Env.

(** ** Comparability *)
Lemma andr_true a b : andr a b = Ok true <-> a = Ok true /\ b = Ok true.
Proof. destruct a as [[]| | |]; cbn; intuition congruence. Qed.

Lemma all_of_true g l : all_of g l = Ok true <-> Forall (fun t => g t = Ok true) l.
Proof.
  unfold all_of. induction l as [|x xs IH]; cbn [mapM bind].
  - split; [constructor|reflexivity].
  - destruct (g x) as [b| | |] eqn:Hx; cbn [bind]; try (split; [discriminate|intros F; inversion F; congruence]).
    destruct (mapM g xs) as [bs| | |]; cbn [bind] in *;
      try (split; [discriminate|intros F; inversion F; subst; apply IH in H2; discriminate]).
    cbn [forallb]. split.
    + intros H. injection H as H. apply andb_true_iff in H. destruct H as [-> H]. constructor; [exact Hx|]. apply IH. congruence.
    + intros F. inversion F; subst. rewrite Hx in H1. injection H1 as ->. apply IH in H2. injection H2 as ->. reflexivity.
Qed.

Section Comparable.
  Variable E : tenv.
  Variable R : renv.

  (** The set of record names explored when the check succeeds is closed. *)
  Inductive clean (S : list string) : ty -> Prop :=
  | clean_boolean : clean S TBoolean
  | clean_none : clean S TNone
  | clean_number : clean S TNumber
  | clean_string : clean S TString
  | clean_list : forall e, clean S e -> clean S (TList e)
  | clean_map : forall k v, clean S k -> clean S v -> clean S (TMap k v)
  | clean_union : forall l r, clean S l -> clean S r -> clean S (TUnion l r)
  | clean_alias : forall x t, lookup E x = Some t -> clean S t -> clean S (TReference x)
  | clean_record : forall n o, In n S -> clean S (TRecord n o).

  Lemma clean_incl S S' t : incl S S' -> clean S t -> clean S' t.
  Proof. intros Hi H. induction H; econstructor; eauto. Qed.

  Definition expanded (S : list string) (n : string) : Prop :=
    exists fields, lookup R n = Some fields /\ Forall (fun f => clean S (snd f)) fields.

  (** A success explores a set [S] of records, closed except for the cached ones. *)
  Lemma comparable_explores n : forall cache t,
    comparable_cached n E R cache t = Ok true ->
    exists S, clean (S ++ cache) t /\ forall r, In r S -> expanded (S ++ cache) r.
  Proof.
    induction n as [|n IH]; [discriminate|]. intros cache t H.
    assert (Hmerge : forall t1 t2 S1 S2,
      clean (S1 ++ cache) t1 -> (forall r, In r S1 -> expanded (S1 ++ cache) r) ->
      clean (S2 ++ cache) t2 -> (forall r, In r S2 -> expanded (S2 ++ cache) r) ->
      exists S, clean (S ++ cache) t1 /\ clean (S ++ cache) t2 /\ forall r, In r S -> expanded (S ++ cache) r).
    { intros t1 t2 S1 S2 C1 X1 C2 X2. exists (S1 ++ S2).
      assert (I1 : incl (S1 ++ cache) ((S1 ++ S2) ++ cache)).
      { intros x Hx. apply in_app_or in Hx. apply in_or_app. destruct Hx; [left; apply in_or_app|]; auto. }
      assert (I2 : incl (S2 ++ cache) ((S1 ++ S2) ++ cache)).
      { intros x Hx. apply in_app_or in Hx. apply in_or_app. destruct Hx; [left; apply in_or_app|]; auto. }
      split; [eapply clean_incl; [exact I1|exact C1]|]. split; [eapply clean_incl; [exact I2|exact C2]|].
      intros r Hr. apply in_app_or in Hr. destruct Hr as [Hr|Hr]; [destruct (X1 r Hr) as (fs & Hf & F)|destruct (X2 r Hr) as (fs & Hf & F)];
        exists fs; (split; [exact Hf|]); eapply Forall_impl; try exact F; intros f Hc; (eapply clean_incl; [|exact Hc]; assumption). }
    destruct t; cbn [comparable_cached] in H; try discriminate;
      try (exists []; split; [constructor|intros r []]; fail).
    - destruct (IH _ _ H) as (S & C & X). exists S. split; [constructor; exact C|exact X].
    - apply andr_true in H. destruct H as [H1 H2].
      destruct (IH _ _ H1) as (S1 & C1 & X1). destruct (IH _ _ H2) as (S2 & C2 & X2).
      destruct (Hmerge _ _ _ _ C1 X1 C2 X2) as (S & D1 & D2 & X). exists S. split; [constructor; assumption|exact X].
    - destruct (mem name cache) eqn:Hm.
      + exists []. split; [constructor; cbn; apply mem_In, Hm|intros r []].
      + apply bind_ok in H. destruct H as (fields & Hf & H).
        assert (Hl : lookup R name = Some fields) by (unfold resolve_record in Hf; destruct (lookup R name); congruence).
        apply all_of_true in H.
        assert (Hall : exists S, (forall f, In f fields -> clean (S ++ name :: cache) (snd f)) /\
                   forall r, In r S -> expanded (S ++ name :: cache) r).
        { clear Hf Hl. induction fields as [|f fs IHf].
          - exists []. split; [intros f []|intros r []].
          - cbn in H. inversion H as [|? ? H1 H2]; subst. destruct (IHf H2) as (S1 & C1 & X1). destruct (IH _ _ H1) as (S2 & C2 & X2).
            exists (S1 ++ S2).
            assert (I1 : incl (S1 ++ name :: cache) ((S1 ++ S2) ++ name :: cache)).
            { intros x Hx. apply in_app_or in Hx. apply in_or_app. destruct Hx; [left; apply in_or_app|]; auto. }
            assert (I2 : incl (S2 ++ name :: cache) ((S1 ++ S2) ++ name :: cache)).
            { intros x Hx. apply in_app_or in Hx. apply in_or_app. destruct Hx; [left; apply in_or_app|]; auto. }
            split.
            + intros g [<-|Hg]; [eapply clean_incl; [exact I2|exact C2]|]. eapply clean_incl; [exact I1|]. apply C1, Hg.
            + intros r Hr. apply in_app_or in Hr. destruct Hr as [Hr|Hr]; [destruct (X1 r Hr) as (gs & Hf & F)|destruct (X2 r Hr) as (gs & Hf & F)];
                exists gs; (split; [exact Hf|]); eapply Forall_impl; try exact F; intros g Hc; (eapply clean_incl; [|exact Hc]; assumption). }
        destruct Hall as (S & C & X). exists (name :: S).
        assert (Hi : incl (S ++ name :: cache) ((name :: S) ++ cache)).
        { intros x Hx. apply in_app_or in Hx. cbn. destruct Hx as [Hx|[->|Hx]]; [right; apply in_or_app|left|right; apply in_or_app]; auto. }
        split; [constructor; left; reflexivity|]. intros r [<-|Hr].
        * exists fields. split; [exact Hl|]. apply Forall_forall. intros f Hf'. eapply clean_incl; [exact Hi|]. apply C, Hf'.
        * destruct (X r Hr) as (gs & Hg & F). exists gs. split; [exact Hg|]. eapply Forall_impl; try exact F. intros g Hc. eapply clean_incl; [|exact Hc]; assumption.
    - apply bind_ok in H. destruct H as (t' & Ht & H). destruct (IH _ _ H) as (S & C & X). exists S. split; [|exact X].
      econstructor; [|exact C]. unfold resolve in Ht. destruct (lookup E name); congruence.
    - apply andr_true in H. destruct H as [H1 H2].
      destruct (IH _ _ H1) as (S1 & C1 & X1). destruct (IH _ _ H2) as (S2 & C2 & X2).
      destruct (Hmerge _ _ _ _ C1 X1 C2 X2) as (S & D1 & D2 & X). exists S. split; [constructor; assumption|exact X].
  Qed.

  Lemma comparable_sound n t u : comparable n E R t = Ok true -> part E R t u -> ~ incomparable u.
  Proof.
    intros H Hp. apply comparable_explores in H. destruct H as (S & C & X). rewrite app_nil_r in *.
    assert (Hc : clean S u).
    { revert C. induction Hp as [t|e u _ IH|k v u _ IH|k v u _ IH|l r u _ IH|l r u _ IH|x t u Hl _ IH|n' o fields f u Hl Hf _ IH]; intros C;
        try exact C; inversion C; subst; auto.
      - apply IH. congruence.
      - match goal with G : In n' S |- _ => apply X in G; destruct G as (fs & Hfs & F) end.
        rewrite ?app_nil_r in F. rewrite Hl in Hfs. injection Hfs as <-. apply IH. rewrite Forall_forall in F. apply F, Hf. }
    intros [->|[->|(a & r & ->)]]; inversion Hc.
  Qed.

  (** Conversely, a negative answer comes from an incomparable component. *)
  Lemma all_of_false g l : all_of g l = Ok false -> exists t, In t l /\ g t = Ok false.
  Proof.
    unfold all_of. intros H. apply bind_ok in H. destruct H as (bs & Hbs & H). injection H as H.
    apply mapM_ok in Hbs. induction Hbs as [|x y xs ys Hxy _ IH]; [discriminate|]. cbn in H.
    destruct y; [destruct (IH H) as (t & Ht & G); exists t; split; [right; exact Ht|exact G]|].
    exists x. split; [left; reflexivity|exact Hxy].
  Qed.

  Lemma comparable_complete n : forall cache t,
    comparable_cached n E R cache t = Ok false -> exists u, part E R t u /\ incomparable u.
  Proof.
    induction n as [|n IH]; [discriminate|]. intros cache t H.
    destruct t; cbn [comparable_cached] in H; try discriminate.
    - exists TAny. split; [constructor|left; reflexivity].
    - exists TError. split; [constructor|right; left; reflexivity].
    - eexists. split; [constructor|right; right; eauto].
    - destruct (IH _ _ H) as (u & Hp & Hu). exists u. split; [constructor; exact Hp|exact Hu].
    - unfold andr in H. apply bind_ok in H. destruct H as ([] & H1 & H).
      + destruct (IH _ _ H) as (u & Hp & Hu). exists u. split; [apply part_value, Hp|exact Hu].
      + destruct (IH _ _ H1) as (u & Hp & Hu). exists u. split; [apply part_key, Hp|exact Hu].
    - destruct (mem name cache); [discriminate|]. apply bind_ok in H. destruct H as (fields & Hf & H).
      apply all_of_false in H. destruct H as (t & Ht & H). apply in_map_iff in Ht. destruct Ht as (fd & <- & Hfd).
      destruct (IH _ _ H) as (u & Hp & Hu). exists u. split; [|exact Hu].
      eapply part_field; [|exact Hfd|exact Hp]. unfold resolve_record in Hf. destruct (lookup R name); congruence.
    - apply bind_ok in H. destruct H as (t' & Ht & H). destruct (IH _ _ H) as (u & Hp & Hu). exists u. split; [|exact Hu].
      eapply part_alias; [|exact Hp]. unfold resolve in Ht. destruct (lookup E name); congruence.
    - unfold andr in H. apply bind_ok in H. destruct H as ([] & H1 & H).
      + destruct (IH _ _ H) as (u & Hp & Hu). exists u. split; [apply part_right, Hp|exact Hu].
      + destruct (IH _ _ H1) as (u & Hp & Hu). exists u. split; [apply part_left, Hp|exact Hu].
  Qed.

  (** ** Impossible records *)
  Lemma any_of_true g l : any_of g l = Ok true -> exists t, In t l /\ g t = Ok true.
  Proof.
    unfold any_of. intros H. apply bind_ok in H. destruct H as (bs & Hbs & H). injection H as H.
    apply mapM_ok in Hbs. induction Hbs as [|x y xs ys Hxy _ IH]; [discriminate|]. cbn in H.
    destruct y; [exists x; split; [left; reflexivity|exact Hxy]|].
    destruct (IH H) as (t & Ht & G). exists t. split; [right; exact Ht|exact G].
  Qed.

  (** A value of the type, of bounded height. *)
  Inductive inh_n : nat -> ty -> Prop :=
  | in_leaf : forall n t, match t with TRecord _ _ | TReference _ | TUnion _ _ => False | _ => True end -> inh_n n t
  | in_record : forall n r o fields, lookup R r = Some fields -> Forall (fun f => inh_n n (snd f)) fields -> inh_n (S n) (TRecord r o)
  | in_alias : forall n x t, lookup E x = Some t -> inh_n n t -> inh_n n (TReference x)
  | in_left : forall n l r, inh_n n l -> inh_n n (TUnion l r)
  | in_right : forall n l r, inh_n n r -> inh_n n (TUnion l r).

  Lemma inh_n_mono n t : inh_n n t -> forall m, n <= m -> inh_n m t.
  Proof.
    revert t. induction n as [n IHn] using lt_wf_ind. intros t H. induction H as [n t Ht|n r o fields Hl F|n x t Hl H IH|n l r H IH|n l r H IH]; intros m Hm.
    - constructor; exact Ht.
    - destruct m as [|m]; [lia|]. econstructor; [exact Hl|]. eapply Forall_impl; [|exact F]. intros f Hf. eapply IHn; [|exact Hf|]; lia.
    - econstructor; [exact Hl|]. apply IH; assumption.
    - apply in_left. apply IH; assumption.
    - apply in_right. apply IH; assumption.
  Qed.

  Section InhInd.
    Variable P : ty -> Prop.
    Hypothesis Hleaf : forall t, match t with TRecord _ _ | TReference _ | TUnion _ _ => False | _ => True end -> P t.
    Hypothesis Hrec : forall n o fields, lookup R n = Some fields -> Forall (fun f => P (snd f)) fields -> P (TRecord n o).
    Hypothesis Halias : forall x t, lookup E x = Some t -> P t -> P (TReference x).
    Hypothesis Hleft : forall l r, P l -> P (TUnion l r).
    Hypothesis Hright : forall l r, P r -> P (TUnion l r).
    Fixpoint inhabited_ind' t (H : inhabited E R t) {struct H} : P t :=
      match H with
      | inh_any _ _ => Hleaf TAny I
      | inh_boolean _ _ => Hleaf TBoolean I
      | inh_error _ _ => Hleaf TError I
      | inh_function _ _ a r => Hleaf (TFunction a r) I
      | inh_list _ _ e => Hleaf (TList e) I
      | inh_map _ _ k v => Hleaf (TMap k v) I
      | inh_none _ _ => Hleaf TNone I
      | inh_number _ _ => Hleaf TNumber I
      | inh_string _ _ => Hleaf TString I
      | inh_record _ _ n o fields Hl F =>
          Hrec n o fields Hl
            ((fix go l (F : Forall (fun f => inhabited E R (snd f)) l) {struct F} : Forall (fun f => P (snd f)) l :=
                match F with
                | Forall_nil _ => Forall_nil _
                | Forall_cons _ h f => Forall_cons _ (inhabited_ind' _ h) (go _ f)
                end) fields F)
      | inh_alias _ _ x t Hl G => Halias x t Hl (inhabited_ind' _ G)
      | inh_left _ _ l r G => Hleft l r (inhabited_ind' _ G)
      | inh_right _ _ l r G => Hright l r (inhabited_ind' _ G)
      end.
  End InhInd.

  Lemma inhabited_height t : inhabited E R t -> exists n, inh_n n t.
  Proof.
    intros H. refine (inhabited_ind' (fun t => exists n, inh_n n t) _ _ _ _ _ t H); clear t H;
      [intros t Ht|intros n o fields Hl F|intros x t Hl IH|intros l r IH|intros l r IH].
    - exists 0. constructor. exact Ht.
    - assert (exists n, Forall (fun f => inh_n n (snd f)) fields) as [k Hk].
      { clear Hl. induction F as [|f fs [k1 H1] _ [k2 IH]]; [exists 0; constructor|].
        exists (k1 + k2). constructor; [eapply inh_n_mono; [exact H1|lia]|].
        eapply Forall_impl; [|exact IH]. intros g Hg. eapply inh_n_mono; [exact Hg|lia]. }
      exists (S k). econstructor; eassumption.
    - destruct IH as [n IH]. exists n. econstructor; eassumption.
    - destruct IH as [n IH]. exists n. apply in_left, IH.
    - destruct IH as [n IH]. exists n. apply in_right, IH.
  Qed.

  (** If a value of [t] exists and [t] is "recursive in [name]", the value contains a
      value of record [name] that is not higher. *)
  Lemma recursive_contains n : forall name cache t k,
    type_recursive n E R name cache t = Ok true -> inh_n k t -> exists o, inh_n k (TRecord name o).
  Proof.
    induction n as [|n IH]; [discriminate|]. intros name cache t k H Hk.
    destruct t; cbn [type_recursive] in H; try discriminate.
    - destruct (mem name0 cache); [discriminate|].
      destruct (String.eqb_spec name name0) as [<-|Hne]; [eauto|].
      apply bind_ok in H. destruct H as (fields & Hf & H). apply any_of_true in H. destruct H as (t & Ht & H).
      apply in_map_iff in Ht. destruct Ht as (fd & <- & Hfd).
      inversion Hk as [? ? Hx|k' r o' fields' Hl F| | |]; subst; [destruct Hx|].
      assert (fields' = fields) as -> by (unfold resolve_record in Hf; rewrite Hl in Hf; congruence).
      rewrite Forall_forall in F. destruct (IH _ _ _ _ H (F fd Hfd)) as [o Ho]. exists o. eapply inh_n_mono; [exact Ho|lia].
    - apply bind_ok in H. destruct H as (t' & Ht & H). inversion Hk as [? ? Hx| |? x t'' Hl Hk'| |]; subst; [destruct Hx|].
      assert (t'' = t') as -> by (unfold resolve in Ht; rewrite Hl in Ht; congruence). eapply IH; eassumption.
    - apply all_of_true in H. inversion H as [|? ? H1 H']; subst. inversion H' as [|? ? H2 _]; subst.
      inversion Hk as [? ? Hx| | |? ? ? G|? ? ? G]; subst; [destruct Hx| |].
      + eapply IH; [exact H1|exact G].
      + eapply IH; [exact H2|exact G].
  Qed.

  Lemma impossible_sound n name fields :
    lookup R name = Some fields -> possible_record n E R name fields = Ok false ->
    forall o, ~ inhabited E R (TRecord name o).
  Proof.
    intros Hl H o Hi. unfold possible_record in H. apply bind_ok in H. destruct H as (b & H & Hb).
    injection Hb as Hb. apply negb_false_iff in Hb. subst. apply any_of_true in H. destruct H as (t & Ht & H).
    apply in_map_iff in Ht. destruct Ht as (fd & <- & Hfd).
    apply inhabited_height in Hi. destruct Hi as [k Hk]. revert o Hk.
    induction k as [|k IH]; intros o Hk; inversion Hk as [? ? Hx|k' r o' fields' Hl' F| | |]; subst; try destruct Hx.
    rewrite Hl in Hl'. injection Hl' as <-. rewrite Forall_forall in F.
    destruct (recursive_contains n name [] (snd fd) k H (F fd Hfd)) as [o' Ho]. exact (IH o' Ho).
  Qed.

  (** ** Termination of both checks on modules whose names resolve *)
  Local Notation named := (HirTypeSpec.named R).

  Hypothesis Hcl : closed_env E.
  Hypothesis Hac : acyclic E.
  Hypothesis HEn : forall x t, lookup E x = Some t -> named t.
  Hypothesis HRd : forall r fields f, lookup R r = Some fields -> In f fields -> defined E (snd f) /\ named (snd f).

  Lemma in_app_incl {A} (P : A -> Prop) l l' : (forall x, In x (l ++ l') -> P x) -> (forall x, In x l -> P x) /\ (forall x, In x l' -> P x).
  Proof. intros H. split; intros x Hx; apply H, in_or_app; auto. Qed.

  Definition remaining (cache : list string) : nat :=
    length (filter (fun r => negb (mem r cache)) (nodup string_dec (map fst R))).

  Lemma remaining_cons r cache : lookup R r <> None -> mem r cache = false -> remaining (r :: cache) < remaining cache.
  Proof.
    intros Hr Hm. unfold remaining.
    assert (Hin : In r (nodup string_dec (map fst R))).
    { apply nodup_In. destruct (lookup R r) eqn:El; [|congruence]. eapply lookup_fst, El. }
    induction (nodup string_dec (map fst R)) as [|y ys IH]; [destruct Hin|].
    cbn [filter mem].
    assert (Hle : forall l, length (filter (fun x => negb (String.eqb x r || mem x cache)) l) <= length (filter (fun x => negb (mem x cache)) l)).
    { induction l as [|z zs IHz]; [auto|]. cbn. destruct (String.eqb z r); cbn; [destruct (mem z cache); cbn; lia|destruct (mem z cache); cbn; lia]. }
    destruct Hin as [->|Hin].
    - rewrite String.eqb_refl, Hm. cbn. apply Nat.lt_succ_r. apply Hle.
    - specialize (IH Hin). cbn [mem] in IH. destruct (String.eqb y r); cbn; destruct (mem y cache); cbn; lia.
  Qed.

  Section Total.
    (** One checker, seen as a fuelled function on types and caches. *)
    Variable check : nat -> list string -> ty -> res bool.
    Hypothesis mono : forall n m cache t b, n <= m -> check n cache t = Ok b -> check m cache t = Ok b.
    Definition answers cache t := exists n b, check n cache t = Ok b.
    Hypothesis step_leaf : forall cache t,
      match t with TList _ | TMap _ _ | TRecord _ _ | TReference _ | TUnion _ _ => False | _ => True end -> answers cache t.
    Hypothesis step_list : forall cache e, answers cache e -> answers cache (TList e).
    Hypothesis step_map : forall cache k v, answers cache k -> answers cache v -> answers cache (TMap k v).
    Hypothesis step_union : forall cache k v, answers cache k -> answers cache v -> answers cache (TUnion k v).
    Hypothesis step_alias : forall cache x t, lookup E x = Some t -> answers cache t -> answers cache (TReference x).
    Hypothesis step_cached : forall cache r o, mem r cache = true -> answers cache (TRecord r o).
    Hypothesis step_record : forall cache r o fields, mem r cache = false -> lookup R r = Some fields ->
      (forall f, In f fields -> answers (r :: cache) (snd f)) -> answers cache (TRecord r o).

    Lemma answers_all k : forall cache, remaining cache <= k -> forall t, defined E t -> named t -> answers cache t.
    Proof.
      induction k as [k IHk] using lt_wf_ind. intros cache Hk.
      assert (Hrec : forall r o, lookup R r <> None -> answers cache (TRecord r o)).
      { intros r o Hr. destruct (mem r cache) eqn:Hm; [apply step_cached, Hm|].
        destruct (lookup R r) as [fields|] eqn:El; [|congruence].
        eapply step_record; [exact Hm|exact El|]. intros f Hf. destruct (HRd r fields f El Hf) as [Hd Hn].
        apply (IHk (remaining (r :: cache))); [|lia|exact Hd|exact Hn].
        pose proof (remaining_cons r cache) as G. rewrite El in G. specialize (G ltac:(discriminate) Hm). lia. }
      assert (Hstruct : forall t, (forall x, In x (references t) -> answers cache (TReference x)) -> named t -> answers cache t).
      { induction t as [| | |a r _ _|e IHe|k' v IHk' IHv| | |n o|x| |l r IHl IHr] using ty_ind'; intros Href Hn;
          try (apply step_leaf; exact I).
        - apply step_list, IHe; assumption.
        - cbn in Href. apply in_app_incl in Href. unfold HirTypeSpec.named in Hn. cbn in Hn. apply in_app_incl in Hn. destruct Href, Hn.
          apply step_map; [apply IHk'|apply IHv]; assumption.
        - apply Hrec, Hn. left. reflexivity.
        - apply Href. left. reflexivity.
        - cbn in Href. apply in_app_incl in Href. unfold HirTypeSpec.named in Hn. cbn in Hn. apply in_app_incl in Hn. destruct Href, Hn.
          apply step_union; [apply IHl|apply IHr]; assumption. }
      assert (Halias : forall x, lookup E x <> None -> answers cache (TReference x)).
      { intros x. induction (alias_acc E Hac x) as [x _ IHx]. intros Hx.
        destruct (lookup E x) as [t|] eqn:El; [|congruence]. eapply step_alias; [exact El|].
        apply Hstruct; [|eapply HEn, El]. intros y Hy. apply IHx; [exists t; auto|]. apply (Hcl x t El y Hy). }
      intros t Hd Hn. apply Hstruct; [|exact Hn]. intros x Hx. apply Halias, Hd, Hx.
    Qed.
  End Total.

  Lemma mapM_mono {A} (g h : A -> res bool) l bs :
    (forall x b, In x l -> g x = Ok b -> h x = Ok b) -> mapM g l = Ok bs -> mapM h l = Ok bs.
  Proof.
    intros H G. apply mapM_ok in G. apply mapM_ok. revert H. induction G as [|x y xs ys Hxy _ IH]; intros H; constructor.
    - apply H; [left; reflexivity|exact Hxy].
    - apply IH. intros z b Hz. apply H. right. exact Hz.
  Qed.

  Lemma andr_mono a b a' b' x : (forall y, a = Ok y -> a' = Ok y) -> (forall y, b = Ok y -> b' = Ok y) ->
    andr a b = Ok x -> andr a' b' = Ok x.
  Proof.
    intros Ha Hb H. unfold andr in *. apply bind_ok in H. destruct H as (y & Hy & H). rewrite (Ha _ Hy). cbn.
    destruct y; [apply Hb, H|exact H].
  Qed.

  Lemma comparable_mono1 n : forall cache t b,
    comparable_cached n E R cache t = Ok b -> comparable_cached (S n) E R cache t = Ok b.
  Proof.
    induction n as [|n IH]; [discriminate|]. intros cache t b H.
    destruct t; try exact H.
    - exact (IH _ _ _ H).
    - change (andr (comparable_cached (S n) E R cache t1) (comparable_cached (S n) E R cache t2) = Ok b).
      eapply andr_mono; [apply IH|apply IH|exact H].
    - change ((if mem name cache then Ok true else bind (resolve_record R name) (fun fields =>
         all_of (comparable_cached (S n) E R (name :: cache)) (map snd fields))) = Ok b).
      cbn [comparable_cached] in H. destruct (mem name cache); [exact H|].
      apply bind_ok in H. destruct H as (fields & Hf & H). apply bind_ok. exists fields. split; [exact Hf|].
      unfold all_of in *. apply bind_ok in H. destruct H as (bs & Hbs & H). apply bind_ok. exists bs. split; [|exact H].
      revert Hbs. apply mapM_mono. intros; apply IH; assumption.
    - change (bind (resolve E name) (comparable_cached (S n) E R cache) = Ok b).
      cbn [comparable_cached] in H. apply bind_ok in H. destruct H as (t' & Ht & H). apply bind_ok. eauto.
    - change (andr (comparable_cached (S n) E R cache t1) (comparable_cached (S n) E R cache t2) = Ok b).
      eapply andr_mono; [apply IH|apply IH|exact H].
  Qed.

  Lemma comparable_mono n m cache t b : n <= m ->
    comparable_cached n E R cache t = Ok b -> comparable_cached m E R cache t = Ok b.
  Proof. induction 1 as [|m _ IH]; [auto|]. intros H. apply comparable_mono1. auto. Qed.

  Lemma mapM_total {A} (g : nat -> A -> res bool) l :
    (forall n m x b, n <= m -> g n x = Ok b -> g m x = Ok b) ->
    (forall x, In x l -> exists n b, g n x = Ok b) -> exists n bs, mapM (g n) l = Ok bs.
  Proof.
    intros Hm. induction l as [|x xs IH]; intros H; [exists 0, []; reflexivity|].
    destruct IH as (n1 & bs & H1); [intros; apply H; right; assumption|].
    destruct (H x (or_introl eq_refl)) as (n2 & b & H2). exists (n1 + n2), (b :: bs). cbn [mapM].
    rewrite (Hm n2 (n1 + n2) x b ltac:(lia) H2). cbn [bind].
    rewrite (mapM_mono (g n1) (g (n1 + n2)) xs bs); [reflexivity| |exact H1]. intros y c _. apply Hm. lia.
  Qed.

  Lemma andr_total (g : nat -> ty -> res bool) t1 t2 :
    (forall n m x b, n <= m -> g n x = Ok b -> g m x = Ok b) ->
    (exists n b, g n t1 = Ok b) -> (exists n b, g n t2 = Ok b) -> exists n b, andr (g n t1) (g n t2) = Ok b.
  Proof.
    intros Hm (n1 & b1 & H1) (n2 & b2 & H2). exists (n1 + n2).
    rewrite (Hm n1 (n1 + n2) t1 b1 ltac:(lia) H1), (Hm n2 (n1 + n2) t2 b2 ltac:(lia) H2). destruct b1; cbn; eauto.
  Qed.

  Lemma comparable_total t : defined E t -> named t -> exists n b, comparable n E R t = Ok b.
  Proof.
    intros Hd Hn.
    apply (answers_all (fun n cache t => comparable_cached n E R cache t)) with (k := remaining []) (cache := []); auto; unfold answers.
    - intros cache u Hu. exists 1. destruct u; try contradiction; eexists; reflexivity.
    - intros cache e (n & b & H). exists (S n), b. exact H.
    - intros cache k v H1 H2. destruct (andr_total (fun n t => comparable_cached n E R cache t) k v) as (n & b & H); auto.
      { intros; eapply comparable_mono; eassumption. } exists (S n), b. exact H.
    - intros cache k v H1 H2. destruct (andr_total (fun n t => comparable_cached n E R cache t) k v) as (n & b & H); auto.
      { intros; eapply comparable_mono; eassumption. } exists (S n), b. exact H.
    - intros cache x u Hl (n & b & H). exists (S n), b. cbn [comparable_cached]. unfold resolve. rewrite Hl. exact H.
    - intros cache r o Hm. exists 1, true. cbn. rewrite Hm. reflexivity.
    - intros cache r o fields Hm Hl H.
      destruct (mapM_total (fun n => comparable_cached n E R (r :: cache)) (map snd fields)) as (n & bs & Hb).
      { intros; eapply comparable_mono; eassumption. }
      { intros x Hx. apply in_map_iff in Hx. destruct Hx as (fd & <- & Hf). apply H, Hf. }
      exists (S n). eexists. cbn [comparable_cached]. rewrite Hm. unfold resolve_record. rewrite Hl. cbn [bind].
      unfold all_of. rewrite Hb. reflexivity.
  Qed.

  Lemma recursive_mono1 name n : forall cache t b,
    type_recursive n E R name cache t = Ok b -> type_recursive (S n) E R name cache t = Ok b.
  Proof.
    induction n as [|n IH]; [discriminate|]. intros cache t b H.
    destruct t; try exact H.
    - change ((if mem name0 cache then Ok false else if String.eqb name name0 then Ok true else bind (resolve_record R name0) (fun fields =>
         any_of (type_recursive (S n) E R name (name0 :: cache)) (map snd fields))) = Ok b).
      cbn [type_recursive] in H. destruct (mem name0 cache); [exact H|]. destruct (String.eqb name name0); [exact H|].
      apply bind_ok in H. destruct H as (fields & Hf & H). apply bind_ok. exists fields. split; [exact Hf|].
      unfold any_of in *. apply bind_ok in H. destruct H as (bs & Hbs & H). apply bind_ok. exists bs. split; [|exact H].
      revert Hbs. apply mapM_mono. intros; apply IH; assumption.
    - change (bind (resolve E name0) (type_recursive (S n) E R name cache) = Ok b).
      cbn [type_recursive] in H. apply bind_ok in H. destruct H as (t' & Ht & H). apply bind_ok. eauto.
    - change (all_of (type_recursive (S n) E R name cache) [t1; t2] = Ok b). cbn [type_recursive] in H.
      unfold all_of in *. apply bind_ok in H. destruct H as (bs & Hbs & H). apply bind_ok. exists bs. split; [|exact H].
      revert Hbs. apply mapM_mono. intros; apply IH; assumption.
  Qed.

  Lemma recursive_mono name n m cache t b : n <= m ->
    type_recursive n E R name cache t = Ok b -> type_recursive m E R name cache t = Ok b.
  Proof. induction 1 as [|m _ IH]; [auto|]. intros H. apply recursive_mono1. auto. Qed.

  Lemma recursive_total name t : defined E t -> named t -> exists n b, type_recursive n E R name [] t = Ok b.
  Proof.
    intros Hd Hn.
    apply (answers_all (fun n cache t => type_recursive n E R name cache t)) with (k := remaining []) (cache := []); auto; unfold answers.
    - intros cache u Hu. exists 1. destruct u; try contradiction; eexists; reflexivity.
    - intros cache e _. exists 1, false. reflexivity.
    - intros cache k v _ _. exists 1, false. reflexivity.
    - intros cache k v H1 H2. destruct (mapM_total (fun n => type_recursive n E R name cache) [k; v]) as (n & bs & H).
      { intros; eapply recursive_mono; eassumption. }
      { intros x [<-|[<-|[]]]; assumption. }
      exists (S n). eexists. cbn [type_recursive]. unfold all_of. rewrite H. reflexivity.
    - intros cache x u Hl (n & b & H). exists (S n), b. cbn [type_recursive]. unfold resolve. rewrite Hl. exact H.
    - intros cache r o Hm. exists 1, false. cbn. rewrite Hm. reflexivity.
    - intros cache r o fields Hm Hl H.
      destruct (mapM_total (fun n => type_recursive n E R name (r :: cache)) (map snd fields)) as (n & bs & Hb).
      { intros; eapply recursive_mono; eassumption. }
      { intros x Hx. apply in_map_iff in Hx. destruct Hx as (fd & <- & Hf). apply H, Hf. }
      exists (S n). cbn [type_recursive]. rewrite Hm. destruct (String.eqb name r); [eauto|]. unfold resolve_record. rewrite Hl. cbn [bind].
      unfold any_of. rewrite Hb. eexists. reflexivity.
  Qed.

  Lemma possible_total name fields : lookup R name = Some fields -> exists n b, possible_record n E R name fields = Ok b.
  Proof.
    intros Hl. destruct (mapM_total (fun n => type_recursive n E R name []) (map snd fields)) as (n & bs & Hb).
    { intros; eapply recursive_mono; eassumption. }
    { intros x Hx. apply in_map_iff in Hx. destruct Hx as (fd & <- & Hf). destruct (HRd name fields fd Hl Hf). apply recursive_total; assumption. }
    exists n. unfold possible_record, any_of. rewrite Hb. eexists. reflexivity.
  Qed.
End Comparable.

(** ** The converse of [impossible_sound] fails *)
Definition trap_union := TUnion (TRecord "a" "a") (TRecord "b" "b").
Definition trap : renv := [("a"%string, [("x"%string, trap_union)]); ("b"%string, [("y"%string, trap_union)])].

Fixpoint trapped (t : ty) : bool :=
  match t with
  | TRecord n _ => String.eqb "a" n || String.eqb "b" n
  | TUnion l r => trapped l && trapped r
  | _ => false
  end.

Lemma trap_uninhabited t : inhabited [] trap t -> trapped t = false.
Proof.
  intros H. refine (inhabited_ind' [] trap (fun t => trapped t = false) _ _ _ _ _ t H); clear t H.
  - intros t Ht. destruct t; try destruct Ht; reflexivity.
  - intros n o fields Hl F. cbn [trapped]. unfold trap in Hl. cbn [lookup] in Hl.
    destruct (String.eqb_spec "a" n) as [<-|Ha]; [|destruct (String.eqb_spec "b" n) as [<-|Hb]; [|reflexivity]].
    + cbn in Hl. injection Hl as <-. inversion F as [|? ? G]; subst. discriminate G.
    + cbn in Hl. injection Hl as <-. inversion F as [|? ? G]; subst. discriminate G.
  - intros x t Hl. discriminate Hl.
  - intros l r H. cbn. rewrite H. reflexivity.
  - intros l r H. cbn. rewrite H. apply andb_false_r.
Qed.

Lemma trap_accepted : exists E R name fields,
  lookup R name = Some fields /\ (forall n, 5 <= n -> possible_record n E R name fields = Ok true) /\
  forall o, ~ inhabited E R (TRecord name o).
Proof.
  exists [], trap, "a"%string, [("x"%string, trap_union)]. split; [reflexivity|]. split.
  - intros n Hn. do 5 (destruct n as [|n]; [lia|]). reflexivity.
  - intros o H. apply trap_uninhabited in H. discriminate H.
Qed.
