(** A check of the conditions of the middle end on modules made by the front
    end, whose names have colons. *)
From Coq Require Import String List ZArith Bool Ascii.
From Verif Require Import Base Names Mir MirSpec MirScopeSpec MirNormSpec MirLiftSpec MirPipelineSpec
  MirExamples MirLiftExamples MirLoose MirEnv MirEnvProofs.
Import ListNotations.
Local Open Scope string_scope.

Lemma prefix_append s t : String.prefix s (s ++ t) = true.
Proof.
  induction s as [|c s IH]; cbn; [destruct t; reflexivity|].
  destruct (ascii_dec c c) as [_|H]; [assumption|congruence].
Qed.

Definition reservedb (x : string) : bool :=
  String.prefix "anf:v" x || String.prefix "fv:" x || String.prefix "mir:lift" x.

Lemma not_reserved x : reservedb x = false -> ~ reserved x.
Proof.
  intros H (s & E). unfold reservedb in H. apply orb_false_iff in H as [H H3]. apply orb_false_iff in H as [H1 H2].
  destruct E as [->|[->| ->]]; rewrite prefix_append in *; discriminate.
Qed.

Lemma append_assoc (a b c : string) : a ++ (b ++ c) = (a ++ b) ++ c.
Proof. induction a as [|x a IH]; cbn; congruence. Qed.

Lemma not_made b n : String.prefix (b ++ ":") n = false -> ~ made_from b n.
Proof.
  intros H (k & _ & ->). unfold numbered in H. rewrite append_assoc, prefix_append in H. discriminate.
Qed.

Definition global_names (m : mmodule) : list string := map f_name (m_defs m) ++ map fst (m_declared m).

Definition infosb (m : mmodule) : bool :=
  forallb (fun p => match global_type m (snd p) with Some _ => true | None => false end) (m_infos m) &&
  match global_type m (m_fallback m) with Some _ => true | None => false end.

Definition hygienicb (m : mmodule) : bool :=
  forallb (fun d => forallb (fun b => forallb (fun n => negb (String.prefix (b ++ ":") n))
    (binders (f_body d) ++ fv (f_body d) ++ global_names m)) (binders (f_body d))) (m_defs m).

Definition reserved_namesb (m : mmodule) : bool :=
  forallb (fun x => negb (reservedb x)) (global_names m) &&
  forallb (fun d => forallb (fun x => negb (reservedb x)) (map fst (f_args d) ++ fv (f_body d) ++ binders (f_body d))) (m_defs m).

Definition arityb (m : mmodule) (o : operation) (k : nat) : bool :=
  match o with
  | OArith _ | OCompare _ => k =? 2
  | OConcat => true
  | ORecord name => match lookup (m_types m) name with Some ts => k =? length ts | None => false end
  | OField _ _ | OVariant _ | OTypeInfo | OSync _ => k =? 1
  | OUpdate _ indices => k =? S (length indices)
  | OCall ts _ => k =? S (length ts)
  end%nat.

Definition shapedb (m : mmodule) : bool :=
  forallb (fun d => forallb (fun p => arityb m (fst p) (snd p)) (operations (f_body d))) (m_defs m).

Definition argumentsb (m : mmodule) : bool :=
  forallb (fun g => forallb (fun d => nodupb (map fst (f_args d))) (local_defs (f_body g))) (m_defs m).

Definition reusedb (m : mmodule) : bool :=
  forallb (fun d => forallb (fun x => negb (mem x (binders (f_body d))) ||
    negb (mem x (lets (f_body d))) && negb (mem x (copies (f_body d)))) (fv (f_body d))) (m_defs m).

Definition proper_sourceb (m : mmodule) : bool :=
  infosb m && hygienicb m && argumentsb m && shapedb m && reserved_namesb m && reusedb m.

Lemma infosb_ok m : infosb m = true -> infos_ok m.
Proof.
  intros H. apply andb_true_iff in H as [H1 H2]. split.
  - intros t g Hl. rewrite forallb_forall in H1.
    assert (Hin : exists t', In (t', g) (m_infos m)).
    { clear H1. induction (m_infos m) as [|[t' g'] l IH]; [discriminate|]. cbn in Hl.
      destruct (mtype_eqb t t').
      - injection Hl as ->. exists t'. left. reflexivity.
      - destruct (IH Hl) as (t2 & H). exists t2. right. assumption. }
    destruct Hin as (t' & Hin). specialize (H1 _ Hin). cbn in H1. destruct (global_type m g); congruence.
  - destruct (global_type m (m_fallback m)); congruence.
Qed.

Lemma shapedb_ok m : shapedb m = true -> shaped m.
Proof.
  intros H. apply operations_shaped. intros o k Hin. apply in_flat_map in Hin as (d & Hd & Hin).
  unfold shapedb in H. rewrite forallb_forall in H. specialize (H d Hd). rewrite forallb_forall in H.
  specialize (H _ Hin). cbn in H. destruct o; cbn in *; try (apply Nat.eqb_eq in H; assumption); auto.
  destruct (lookup (m_types m) _) as [ts|]; [|discriminate]. exists ts. apply Nat.eqb_eq in H. auto.
Qed.

Lemma reusedb_ok m : reusedb m = true -> arguments_not_reused m.
Proof.
  intros H d x Hd Hf Hb _. unfold reusedb in H. rewrite forallb_forall in H. specialize (H d Hd).
  rewrite forallb_forall in H. apply fv_free in Hf. specialize (H x Hf). apply mem_In in Hb. rewrite Hb in H.
  cbn in H. apply andb_true_iff in H as [H1 H2]. apply negb_true_iff in H1, H2.
  split; intros Hin; [|apply in_copies in Hin]; apply mem_In in Hin; congruence.
Qed.

Lemma proper_sourceb_ok m : proper_sourceb m = true -> proper_source m.
Proof.
  intros H. unfold proper_sourceb in H. rewrite !andb_true_iff in H. destruct H as [[[[[H1 H2] H3] H4] H5] H6].
  constructor.
  - apply infosb_ok. assumption.
  - intros d Hd b n Hb Hn. apply not_made. unfold hygienicb in H2. rewrite forallb_forall in H2.
    specialize (H2 d Hd). rewrite forallb_forall in H2. specialize (H2 b Hb). rewrite forallb_forall in H2.
    apply negb_true_iff, H2. rewrite !in_app_iff, fv_free. destruct Hn as [Hn|[Hn|Hn]]; auto.
    right. right. apply global_type_in. assumption.
  - apply distinct_arguments_check. assumption.
  - apply shapedb_ok. assumption.
  - unfold reserved_namesb in H5. apply andb_true_iff in H5 as [H7 H8]. rewrite forallb_forall in H7, H8. split.
    + intros g Hg. apply not_reserved, negb_true_iff, H7, global_type_in, Hg.
    + intros d x Hd Hx. specialize (H8 d Hd). rewrite forallb_forall in H8. apply not_reserved, negb_true_iff, H8.
      rewrite !in_app_iff, fv_free. tauto.
  - apply reusedb_ok. assumption.
Qed.
