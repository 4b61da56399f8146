(** What each stage of the compilation adds to a program. *)
From Coq Require Import String Ascii List ZArith Bool Lia.
From Verif Require Import Base Mir HirType HirTypeOrder HirTypeSpec HirTypeTermination HirTypeEq HirTypeSub HirTypeId HirTypeModule HirTypeModuleProofs
  Hir HirSpec HirValidate HirParts HirMain HirMir HirProgram LowerTag LowerTypeSpec LowerProgramSpec LowerCompleteSpec LowerTypeBase LowerTypeCode LowerTypeMore
  LowerTypeMain LowerTypeNames LowerTypeFlow LowerOrigin LowerNeeds LowerCollect.
Import ListNotations.
Local Open Scope string_scope.
Local Open Scope list_scope.

Lemma Forall2_given {A B} (P : A -> B -> Prop) l l' a : Forall2 P l l' -> In a l -> exists b, In b l' /\ P a b.
Proof.
  induction 1 as [|x y l l' H _ IH]; intros Ha; [destruct Ha|]. destruct Ha as [<-|Ha]; [exists y; split; [left; reflexivity|exact H]|].
  destruct (IH Ha) as (b & Hb & G). exists b. split; [right; exact Hb|exact G].
Qed.

Section Stages.
  Variable f : string -> string.
  Variable C : config.
  Variable p : program.
  Hypothesis PF : program_fits f C p.
  Variables n k : nat.

  Let E := program_env p.
  Let R := program_records p.
  Let X : context_ok f E R := pf_context f C p PF.
  Let W : wf f E := ctx_types f E R X.

  Notation source := (seen_type p).
  Notation from := (from p).
  Notation grounded := (grounded p).
  Notation between := (between p).
  Notation comparable_type := (comparable_type E R).

  (** A definition of the transformed program *)
  Inductive generated (mts ets hts : list ty) : string * lambda -> Prop :=
  | gen_record_equal : forall d, In d (p_types p) -> comparable_type (def_record d) -> generated mts ets hts (equal_function d)
  | gen_record_hash : forall d g, In d (p_types p) -> comparable_type (def_record d) ->
      record_hash_definition n E R C k (td_name (t_def d)) (td_original (t_def d)) (td_fields (t_def d)) = Ok g -> generated mts ets hts g
  | gen_context : forall kt vt g, In (TMap kt vt) mts -> map_context_definition n E R C kt vt = Ok g -> generated mts ets hts g
  | gen_equal : forall t g, In t ets -> equal_definition n E R C k t = Ok g -> generated mts ets hts g
  | gen_hash : forall t g, In t hts -> hash_definition n E R C k t = Ok g -> generated mts ets hts g.

  Definition covers (ts : list ty) : Prop :=
    (forall t, In t ts -> canon E t t /\ from source t /\ comparable_type t) /\
    (forall t0 t, In t0 (candidates p) -> canon E t0 t -> comparable_type t -> In t ts).

  Record found (q : program) (mts ets hts : list ty) : Prop := Found {
    fo_grows : grows p q;
    fo_definitions : forall g, In g (p_defs q) -> In g (p_defs p) \/ generated mts ets hts g;
    fo_maps : forall t, In t mts <-> exists t0, In t0 (map_candidates p) /\ canon E t0 t;
    fo_equals : covers ets;
    fo_hashes : covers hts;
    fo_records : forall d, In d (p_types p) -> comparable_type (def_record d) ->
      In (record_equal_name (record_name d)) (global_names q) /\ In (record_hash_name (record_name d)) (global_names q);
    fo_contexts : forall t, In t mts -> exists g, In g (p_defs q) /\ context_name n E C t = Ok (fst g);
    fo_equal_functions : forall t, In t ets -> exists g, In g (p_defs q) /\ equal_name n E C t = Ok (fst g);
    fo_hash_functions : forall t, In t hts -> exists g, In g (p_defs q) /\ hash_name n E C t = Ok (fst g)
  }.

  Lemma comparable_In P ds : p_types P = p_types p -> comparable_records n E R P = Ok ds ->
    (forall d, In d (fst ds) \/ In d (snd ds) -> In d (p_types p) /\ comparable_type (def_record d)) /\
    (forall d, In d (p_types p) -> comparable_type (def_record d) -> In d (fst ds) \/ In d (snd ds)).
  Proof.
    intros T H. unfold comparable_records in H. bok H l Hl. injection H as <-. rewrite T in Hl. apply mapM_ok in Hl. cbn [fst snd].
    assert (G : forall d, In d (concat l) -> In d (p_types p) /\ comparable_type (def_record d)).
    { intros d Hd. apply in_concat in Hd. destruct Hd as (x & Hx & Hd). destruct (Forall2_other _ _ _ _ Hl Hx) as (d' & H' & Q). bok Q b Hb. injection Q as <-.
      destruct b; [|destruct Hd]. destruct Hd as [<-|[]]. split; [exact H'|]. intros u Hu. exact (comparable_sound E R n _ u Hb Hu). }
    split.
    - intros d [Hd|Hd]; apply filter_In in Hd; apply G, Hd.
    - intros d Hd Hc. destruct (Forall2_given _ _ _ _ Hl Hd) as (x & Hx & Q). bok Q b Hb. injection Q as <-.
      assert (In d (concat l)).
      { apply in_concat. eexists. split; [exact Hx|]. destruct b; [left; reflexivity|]. exfalso. destruct (comparable_complete E R n [] _ Hb) as (u & Hu & Hi). exact (Hc u Hu Hi). }
      destruct (t_external d) eqn:Q; [left|right]; apply filter_In; (split; [assumption|rewrite Q; reflexivity]).
  Qed.

  Lemma covers_parameters P ts : between P -> parameter_types n E R P = Ok ts -> covers ts.
  Proof.
    intros B H. apply parameter_In in H. destruct H as [H1 H2]. split.
    - intros t Ht. destruct (H1 t Ht) as (t0 & Hc & Ht0 & Hq). split; [exact (canon_idem f E W _ _ Ht0)|]. split; [|exact Hq].
      eapply (between_grounded f C p PF P t0); [exact B|apply candidate_seen, Hc|exact Ht0].
    - intros t0 t Hc. apply H2. eapply grows_candidate; [apply (bt_grows p P B)|exact Hc].
  Qed.

  Lemma covers_maps P ts : between P -> map_types n E P = Ok ts -> forall t, In t ts <-> exists t0, In t0 (map_candidates p) /\ canon E t0 t.
  Proof.
    intros B H. apply map_types_In in H. destruct H as [H1 H2]. intros t. split.
    - intros Ht. destruct (H1 t Ht) as (t0 & Hc & Ht0). apply in_app_or in Hc. destruct Hc as [Hc|Hc].
      + apply filter_In in Hc. destruct Hc as [Hc Hm]. destruct t0 as [| | | | |kt vt| | | | | |]; try discriminate.
        destruct (between_from p P (TMap kt vt) B Hc (TMap kt vt) t (self_visit _) eq_refl Ht0) as (b & Vb & Cb & Hb). exists b. split; [|exact Hb].
        apply in_or_app. left. apply filter_In. split; [exact Vb|]. destruct b; try discriminate; [|reflexivity].
        exfalso. apply canon_list in Hb. apply canon_map in Ht0. destruct Hb as (? & _ & ->). destruct Ht0 as (? & ? & _ & _ & Q). discriminate.
      + exists t0. split; [|exact Ht0]. apply in_or_app. right. apply in_flat_map in Hc. destruct Hc as (e & He & Hc). apply in_flat_map. exists e. split; [|exact Hc].
        destruct (visited_source p P e B He) as [Hs|[Hs _]]; [exact Hs|]. exfalso. destruct e; try discriminate; destruct Hc.
    - intros (t0 & Hc & Ht0). eapply H2; [|exact Ht0]. eapply grows_map_candidate; [apply (bt_grows p P B)|exact Hc].
  Qed.

  Lemma from_record d : from source (def_record d).
  Proof. apply from_leaf; reflexivity. Qed.

  Lemma transform_found q : transform_program n k E R C p = Ok q -> exists mts ets hts, between q /\ found q mts ets hts.
  Proof.
    intros H. unfold transform_program in H. bok H p1 H1. bok H p2 H2. bok H p3 H3. bok H p4 H4.
    unfold add_record_equal in H1. bok H1 ds Hds. injection H1 as <-. pose proof Hds as Hc. apply comparable_In in Hc; [|reflexivity]. destruct Hc as [Dk Da].
    set (q1 := add_defs (add_declared p (map equal_declaration (fst ds))) (map equal_function (snd ds))).
    change (add_defs _ _) with q1 in H2.
    assert (Fs : forall d x t, In d (p_types p) -> In (x, t) (td_fields (t_def d)) -> source t)
      by (intros d x t Hd Hx; eapply starts_seen; [eapply st_field; eassumption|apply self_visit]).
    assert (B1 : between q1).
    { apply between_adds; [apply between_declares; [apply between_source|]|].
      - intros x t Hx. apply in_map_iff in Hx. destruct Hx as (d & Q & Hd). injection Q as <- <-. apply from_function; [repeat constructor; apply from_record|apply from_leaf; reflexivity].
      - intros g Hg. apply in_map_iff in Hg. destruct Hg as (d & <- & Hd). apply fl_record_equal. intros x t Hx. apply from_seen. eapply Fs; [|exact Hx]. apply Dk. auto. }
    unfold add_record_hash in H2. bok H2 ds2 Hds2. bok H2 hs Hhs. injection H2 as <-.
    assert (ds2 = ds) as ->.
    { unfold comparable_records in Hds, Hds2. cbn [p_types q1 add_defs add_declared] in Hds2. rewrite Hds in Hds2. injection Hds2 as ->. reflexivity. }
    apply mapM_ok in Hhs. set (q2 := add_defs (add_declared q1 (map hash_declaration (fst ds))) hs).
    change (add_defs _ hs) with q2 in H3.
    assert (B2 : between q2).
    { apply between_adds; [apply between_declares; [exact B1|]|].
      - intros x t Hx. apply in_map_iff in Hx. destruct Hx as (d & Q & Hd). injection Q as <- <-. apply from_function; [repeat constructor; apply from_record|apply from_leaf; reflexivity].
      - intros g Hg. destruct (Forall2_other _ _ _ _ Hhs Hg) as (d & Hd & Q). eapply (fl_record_hash f C p PF n source k d g); [|exact Q].
        intros x t Hx. eapply (between_grounded f C p PF p); [apply between_source|eapply Fs; [|exact Hx]; apply Dk; auto]. }
    unfold add_map_contexts in H3. bok H3 mts Hmts. bok H3 cs Hcs. injection H3 as <-. apply mapM_ok in Hcs.
    assert (Hcs' : Forall2 (fun t g => exists kt vt, t = TMap kt vt /\ map_context_definition n E R C kt vt = Ok g) mts cs).
    { clear - Hcs. induction Hcs as [|t g l l' H _ IH]; constructor; [|exact IH]. destruct t; try discriminate. eauto. }
    set (q3 := add_defs q2 cs) in *.
    assert (B3 : between q3).
    { apply between_adds; [exact B2|]. intros g Hg. destruct (Forall2_other _ _ _ _ Hcs' Hg) as (t & Ht & kt & vt & _ & Q). eapply fl_context, Q. }
    unfold add_equal in H4. bok H4 ets Hets. bok H4 es Hes. injection H4 as <-. apply mapM_ok in Hes. set (q4 := add_defs q3 es) in *.
    pose proof (covers_parameters q3 ets B3 Hets) as Ce.
    assert (B4 : between q4).
    { apply between_adds; [exact B3|]. intros g Hg. destruct (Forall2_other _ _ _ _ Hes Hg) as (t & Ht & Q). destruct (proj1 Ce t Ht) as (Ct & Ft & _). eapply (fl_equal f C p PF); eassumption. }
    unfold add_hash in H. bok H hts Hhts. bok H gs Hgs. injection H as <-. apply mapM_ok in Hgs.
    pose proof (covers_parameters q4 hts B4 Hhts) as Ch.
    assert (B5 : between (add_defs q4 gs)).
    { apply between_adds; [exact B4|]. intros g Hg. destruct (Forall2_other _ _ _ _ Hgs Hg) as (t & Ht & Q). destruct (proj1 Ch t Ht) as (Ct & Ft & _). eapply (fl_hash f C p PF); eassumption. }
    exists mts, ets, hts. split; [exact B5|].
    assert (D : p_defs (add_defs q4 gs) = ((((p_defs p ++ map equal_function (snd ds)) ++ hs) ++ cs) ++ es) ++ gs) by reflexivity.
    assert (D' : p_declared (add_defs q4 gs) = (p_declared p ++ map equal_declaration (fst ds)) ++ map hash_declaration (fst ds)) by reflexivity.
    split.
    - apply B5.
    - rewrite D. intros g Hg. rewrite !in_app_iff in Hg. destruct Hg as [[[[[Hg|Hg]|Hg]|Hg]|Hg]|Hg]; [left; exact Hg|right..].
      + apply in_map_iff in Hg. destruct Hg as (d & <- & Hd). apply gen_record_equal; apply Dk; auto.
      + destruct (Forall2_other _ _ _ _ Hhs Hg) as (d & Hd & Q). eapply gen_record_hash; [apply (Dk d); auto..|exact Q].
      + destruct (Forall2_other _ _ _ _ Hcs' Hg) as (t & Ht & kt & vt & -> & Q). eapply gen_context; eassumption.
      + destruct (Forall2_other _ _ _ _ Hes Hg) as (t & Ht & Q). eapply gen_equal; eassumption.
      + destruct (Forall2_other _ _ _ _ Hgs Hg) as (t & Ht & Q). eapply gen_hash; eassumption.
    - exact (covers_maps q2 mts B2 Hmts).
    - exact Ce.
    - exact Ch.
    - intros d Hd Hq. unfold global_names. rewrite D, D', !map_app, !in_app_iff. destruct (Da d Hd Hq) as [H|H].
      + split; right; left; [left; right|right]; rewrite map_map; [apply (in_map (fun d => fst (equal_declaration d)) _ d)|apply (in_map (fun d => fst (hash_declaration d)) _ d)]; exact H.
      + split; right; right; left; left; left; [left; right; rewrite map_map; exact (in_map (fun d => fst (equal_function d)) _ d H)|right].
        destruct (Forall2_given _ _ _ _ Hhs H) as (g & Hg & Q). unfold record_hash_definition in Q. bok Q e He. injection Q as <-. apply in_map_iff. eexists. split; [|exact Hg]. reflexivity.
    - intros t Ht. destruct (Forall2_given _ _ _ _ Hcs' Ht) as (g & Hg & kt & vt & -> & Q). exists g. split; [rewrite D, !in_app_iff; auto|]. unfold map_context_definition in Q.
      bok Q name Hn. bok Q ek Hek. bok Q hk Hhk. bok Q b Hb. bok Q vs Hvs. injection Q as <-. exact Hn.
    - intros t Ht. destruct (Forall2_given _ _ _ _ Hes Ht) as (g & Hg & Q). exists g. split; [rewrite D, !in_app_iff; auto|]. unfold equal_definition in Q.
      bok Q name Hn. bok Q e He. injection Q as <-. exact Hn.
    - intros t Ht. destruct (Forall2_given _ _ _ _ Hgs Ht) as (g & Hg & Q). exists g. split; [rewrite D, !in_app_iff; auto|]. unfold hash_definition in Q.
      bok Q name Hn. bok Q e He. injection Q as <-. exact Hn.
  Qed.
End Stages.
