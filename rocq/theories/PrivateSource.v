(** The record types of a module that is made from a source text. *)
From Coq Require Import String List Bool.
From Verif Require Import Base HirType Hir HirProgram Ast Parser Resolve ResolveProofs Desugar Parser CrashSourceSpec PrivateSourceSpec LowerTypeNames.
Import ListNotations.
Local Open Scope list_scope.

Definition like (d d0 : rtype) : Prop := rt_open d = rt_open d0 /\ rt_external d = rt_external d0.

Lemma transform_types_like g m d : In d (rm_types (transform_types g m)) -> exists d0, In d0 (rm_types m) /\ like d d0 /\ rt_name d = rt_name d0.
Proof.
  cbn [transform_types rm_types]. rewrite in_map_iff. intros (d0 & <- & H). exists d0. split; [exact H|]. unfold like. destruct (rt_external d0) eqn:X; cbn; auto.
Qed.

Lemma transform_aliases_like g m a : In a (rm_aliases (transform_types g m)) -> exists a0, In a0 (rm_aliases m) /\ ra_name a = ra_name a0 /\ ra_external a = ra_external a0.
Proof.
  cbn [transform_types rm_aliases]. rewrite in_map_iff. intros (d0 & <- & H). exists d0. split; [exact H|]. destruct (ra_external d0) eqn:X; cbn; auto.
Qed.

Definition own_type (m : rmodule) (x : string) : Prop :=
  (exists d, In d (rm_types m) /\ rt_external d = false /\ rt_name d = x) \/ (exists a, In a (rm_aliases m) /\ ra_external a = false /\ ra_name a = x).

Lemma qualified_like m prefix d : In d (rm_types (transform_module m prefix)) -> exists d0, In d0 (rm_types m) /\ like d d0 /\
  ((own_type m (rt_name d0) /\ rt_name d = (prefix ++ rt_name d0)%string) \/ (rt_external d0 = true /\ rt_name d = rt_name d0)).
Proof.
  unfold transform_module, transform_built_in_variables. change (rm_types (transform_variables ?f ?m)) with (rm_types m). intros H.
  unfold transform_built_in_types in H. apply transform_types_like in H. destruct H as (d1 & H & L1 & N1).
  unfold qualify_types in H. apply transform_types_like in H. destruct H as (d2 & H & L2 & N2).
  cbn [rm_types] in H. apply in_map_iff in H. destruct H as (d0 & <- & H). exists d0.
  change (rm_types (qualify_functions m prefix)) with (rm_types m) in *. change (rm_aliases (qualify_functions m prefix)) with (rm_aliases m) in *.
  cbn [rt_name rt_open rt_external] in *. unfold like in *. cbn [rt_name rt_open rt_external] in *. split; [exact H|]. split; [destruct L1, L2; split; congruence|].
  rewrite N1, N2. destruct (get _ (rt_name d0)) as [y|] eqn:G.
  - left. apply get_In in G. rewrite in_app_iff, !in_map_iff in G. destruct G as [(e & Q & He)|(e & Q & He)]; apply filter_In in He; destruct He as [He X]; injection Q as Q1 Q2; rewrite <- Q2, Q1; (split; [|reflexivity]).
    + left. exists e. apply negb_true_iff in X. auto.
    + right. exists e. apply negb_true_iff in X. auto.
  - right. split; [|reflexivity]. destruct (rt_external d0) eqn:X; [reflexivity|]. exfalso. apply (proj1 (get_none _ _) G (prefix ++ rt_name d0)%string).
    apply in_app_iff. left. apply in_map_iff. exists d0. split; [reflexivity|]. apply filter_In. rewrite X. auto.
Qed.

Lemma imported_like m is prelude d : In d (rm_types (compile_import m is prelude)) ->
  (rt_external d = true /\ exists i c, In i (map im_interface is ++ prelude) /\ In c (i_types i) /\ rt_name d = it_name c /\ rt_open d = it_open c) \/
  (exists d0, In d0 (rm_types m) /\ like d d0 /\ rt_name d = rt_name d0).
Proof.
  unfold compile_import. cbn [compile_imports rm_types]. rewrite in_app_iff. intros [H|H].
  - left. apply unique_incl, public_first_incl in H. apply in_flat_map in H. destruct H as (i & Hi & H). apply in_map_iff in H. destruct H as (c & <- & Hc). split; [reflexivity|]. exists i, c. auto.
  - right. apply transform_types_like in H. exact H.
Qed.

Lemma imported_alias m is prelude a : In a (rm_aliases (compile_import m is prelude)) -> ra_external a = false ->
  exists a0, In a0 (rm_aliases m) /\ ra_name a = ra_name a0.
Proof.
  unfold compile_import. cbn [compile_imports rm_aliases]. rewrite in_app_iff. intros [H|H] X.
  - apply unique_incl, public_first_incl in H. apply in_flat_map in H. destruct H as (i & Hi & H). apply in_map_iff in H. destruct H as (c & <- & Hc). discriminate X.
  - apply transform_aliases_like in H. destruct H as (a0 & H0 & N & _). exists a0. auto.
Qed.

Section Text.
  Variable rf : string -> res BinNums.Z.

  Lemma desugared_types a r d : desugar_module rf a = Ok r -> In d (rm_types r) ->
    exists l, In (DRecord (rt_name d) l) (m_types a) /\ rt_open d = forallb (fun p => public_name (fst p)) l /\ rt_external d = false.
  Proof.
    intros H Hd. apply bind_ok in H. destruct H as (fs & _ & [= <-]). cbn [rm_types] in Hd. apply in_flat_map in Hd. destruct Hd as ([x l|x t] & Hx & Hd); [|destruct Hd].
    destruct Hd as [<-|[]]. exists l. auto.
  Qed.
  Lemma desugared_aliases a r d : desugar_module rf a = Ok r -> In d (rm_aliases r) -> exists t, In (DAlias (ra_name d) t) (m_types a).
  Proof.
    intros H Hd. apply bind_ok in H. destruct H as (fs & _ & [= <-]). cbn [rm_aliases] in Hd. apply in_flat_map in Hd. destruct Hd as ([x l|x t] & Hx & Hd); [destruct Hd|].
    destruct Hd as [<-|[]]. exists t. auto.
  Qed.

  (** A record type of the module is an imported one, or one of its own. *)
  Lemma text_types prefix interfaces prelude s a m d : parse s = Some a -> compile_text rf prefix interfaces prelude s = Ok m -> In d (rm_types m) ->
    exists x, (rt_name d = x \/ defines_type a x /\ rt_name d = (prefix ++ x)%string) /\
      ((rt_external d = true /\ exists i c, reaches interfaces prelude i /\ In c (i_types i) /\ it_name c = x /\ rt_open d = it_open c) \/
       (rt_external d = false /\ rt_name d = (prefix ++ x)%string /\ exists l, In (DRecord x l) (m_types a) /\ rt_open d = forallb (fun p => public_name (fst p)) l)).
  Proof.
    intros P H Hd. unfold compile_text in H. rewrite P in H. unfold front_end in H. apply bind_ok in H. destruct H as (is & His & H). apply bind_ok in H. destruct H as (r & Hr & H).
    unfold resolve_module in H. destruct (forallb validate is); [|discriminate H]. injection H as <-.
    assert (Hi : forall i, In i (map im_interface is ++ prelude) -> reaches interfaces prelude i).
    { intros i Hi. apply in_app_iff in Hi. destruct Hi as [Hi|Hi]; [left|right; exact Hi]. apply in_map_iff in Hi. destruct Hi as (j & <- & Hj).
      apply mapM_ok in His. clear - His Hj. induction His as [|b j' bs js H _ IH]; [destruct Hj|]. destruct Hj as [<-|Hj]; [|exact (IH Hj)].
      unfold find_import in H. destruct (interfaces (i_path b)) as [f|] eqn:F; [|discriminate H]. apply bind_ok in H. destruct H as (x & _ & [= <-]). exists (i_path b). exact F. }
    assert (Own : forall x, own_type (compile_import r is prelude) x -> defines_type a x).
    { intros x [(e & He & X & <-)|(e & He & X & <-)].
      - left. apply imported_like in He. destruct He as [[X' _]|(e0 & He0 & _ & ->)]; [congruence|]. destruct (desugared_types a r e0 Hr He0) as (l & Hl & _). exists l. exact Hl.
      - right. destruct (imported_alias _ _ _ _ He X) as (e0 & He0 & ->). exact (desugared_aliases a r e0 Hr He0). }
    destruct (qualified_like _ _ _ Hd) as (d0 & H0 & [L1 L2] & Hn). exists (rt_name d0). split.
    - destruct Hn as [[O N]|[_ N]]; [right; split; [exact (Own _ O)|exact N]|left; exact N].
    - rewrite L1, L2. apply imported_like in H0. destruct H0 as [(X & i & c & H1 & Hc & N & O)|(d1 & H1 & [O1 O2] & N)].
      + left. split; [exact X|]. exists i, c. auto.
      + right. destruct (desugared_types a r d1 Hr H1) as (l & Hl & O & X). split; [congruence|]. split; [|exists l; rewrite N; split; [exact Hl|congruence]].
        destruct Hn as [[_ Hn]|[X' _]]; [exact Hn|congruence].
  Qed.
End Text.
