(** The analysis of a program does not crash. *)
From Coq Require Import String List Bool Lia.
From Verif Require Import Base HirType HirTypeSpec HirTypeModule HirTypeTermination HirTypeEq Hir HirSpec HirInfer HirCheck HirCoerce HirValidate HirParts HirMain HirStrip HirModule HirProgram
  CrashSpec CrashBase.
Import ListNotations.

(** ** Expressions without annotations and conversions *)
Definition is_coerce (e : hexpr) : bool := match e with HCoerce _ _ _ => true | _ => false end.

Lemma occurs_cons x p e : In p (parts e) -> occurs x p -> occurs x e.
Proof. apply occurs_in_part. Qed.
Lemma occurs_inv x e : occurs x e -> x = e \/ exists p, In p (parts e) /\ occurs x p.
Proof.
  intros (c & c' & H). apply within_part in H. destruct H as [H|(p & d & Hp & H)]; [left; exact H|]. right. exists p. split; [exact Hp|]. exists d, c'. exact H.
Qed.
Lemma occurs_here e : occurs e e.
Proof. exists None, None. apply within_self. Qed.

Lemma parts_stripped e : is_coerce e = false -> forall p, In p (parts (strip e)) <-> In p (map strip (parts e)).
Proof.
  intros Nc p. destruct e; try discriminate Nc.
  all: try (unfold parts; rewrite !map_app, map_map, !in_app_iff; rewrite eager_strip, lazy_strip, bodies_strip by congruence; rewrite map_map; reflexivity).
  destruct type; reflexivity.
Qed.

Lemma occurs_strip x e : occurs x e -> occurs (strip x) (strip e).
Proof.
  revert x. induction e as [e IH] using parts_ind. intros x H. apply occurs_inv in H. destruct H as [->|(p & Hp & H)]; [apply occurs_here|].
  apply (IH p Hp) in H. destruct (is_coerce e) eqn:Nc.
  - destruct e; try discriminate Nc. cbn [strip]. unfold parts in Hp. cbn in Hp. destruct Hp as [<-|[]]. exact H.
  - eapply occurs_cons; [|exact H]. apply parts_stripped; [exact Nc|]. apply in_map, Hp.
Qed.

Lemma occurs_unstrip e : forall x, occurs x (strip e) -> exists y, occurs y e /\ is_coerce y = false /\ strip y = x.
Proof.
  induction e as [e IH] using parts_ind. intros x H. destruct (is_coerce e) eqn:Nc.
  - destruct e; try discriminate Nc. cbn [strip] in H. assert (Hp : In e (parts (HCoerce from to e))) by (left; reflexivity).
    destruct (IH e Hp x H) as (y & Hy & X). exists y. split; [eapply occurs_cons; eassumption|exact X].
  - apply occurs_inv in H. destruct H as [->|(p & Hp & H)].
    + exists e. split; [apply occurs_here|auto].
    + apply (parts_stripped e Nc) in Hp. apply in_map_iff in Hp. destruct Hp as (q & <- & Hq). destruct (IH q Hq x H) as (y & Hy & X).
      exists y. split; [eapply occurs_cons; eassumption|exact X].
Qed.

Section Shape.
  Variable E : tenv.
  Variable open : list string.
  Definition all_shaped (e : hexpr) : Prop := forall x, occurs x e -> shaped x.

  Lemma all_shaped_part e p : In p (parts e) -> all_shaped e -> all_shaped p.
  Proof. intros Hp H x Hx. apply H. eapply occurs_cons; eassumption. Qed.
  Lemma all_shaped_here e : all_shaped e -> shaped e.
  Proof. intros H. apply H, occurs_here. Qed.

  Lemma shaped_strip e : is_coerce e = false -> shaped (strip e) <-> shaped e.
  Proof.
    intros Nc. destruct e; try discriminate Nc; cbn [strip shaped]; try reflexivity.
    - destruct branches; cbn [map]; split; intros H; try discriminate; contradiction.
    - destruct branches; cbn [map]; split; intros H; try discriminate; contradiction.
    - destruct fields; cbn [map]; split; intros H; try discriminate; contradiction.
  Qed.

  Lemma all_shaped_same e e' : strip e' = strip e -> all_shaped e -> all_shaped e'.
  Proof.
    intros S H x Hx. destruct (is_coerce x) eqn:Nc; [destruct x; try discriminate Nc; exact I|].
    apply occurs_strip in Hx. rewrite S in Hx. apply occurs_unstrip in Hx. destruct Hx as (y & Hy & Ny & Sy). apply (shaped_strip x Nc). rewrite <- Sy.
    apply (shaped_strip y Ny). apply H, Hy.
  Qed.

  Variable n : nat.
  Variable R : renv.

  Ltac calm1 :=
    first
      [ assumption | apply calm_ok | apply calm_reject | apply calm_annotated | apply calm_canon | apply calm_equal | apply calm_subsumes | apply calm_difference
      | apply calm_function | apply calm_list | apply calm_map | apply calm_record | apply calm_record_fields | apply calm_field
      | match goal with
        | |- calm (bind _ _) => apply calm_bind; [|intros]
        | |- calm (rmap _ _) => apply calm_rmap
        | |- calm (mapM _ _) => apply calm_mapM; intros
        | |- calm (each _ _) => apply calm_each; intros
        | |- calm (match lookup ?a ?b with _ => _ end) => destruct (lookup a b)
        | |- calm (if ?b then _ else _) => destruct b
        end ].
  Ltac calms := repeat calm1.

  Lemma mapM_nonempty {A B} (g : A -> res B) l l' : mapM g l = Ok l' -> l <> [] -> l' <> [].
  Proof. intros H N. apply mapM_ok in H. destruct H; [contradiction|discriminate]. Qed.

  Lemma calm_extract e : all_shaped e -> forall G, calm (extract n E R G e).
  Proof.
    induction e as [e IH] using parts_ind. intros S G.
    assert (IH' : forall G p, In p (parts e) -> calm (extract n E R G p)) by (intros G' p Hp; apply IH; [exact Hp|eapply all_shaped_part; eassumption]).
    apply all_shaped_here in S. clear IH. destruct e; cbn [extract]; calms; try (apply IH'; spart; fail).
    - apply IH'. apply if_type_branch_part. assumption.
    - destruct else_ as [[t b]|]; calms. apply IH', if_type_else_part.
    - cbn [shaped] in S. match goal with X : mapM _ _ = Ok ?l |- _ => apply mapM_nonempty in X; [destruct l; [contradiction|]|exact S] end. cbn. apply calm_ok.
    - destruct name; calms; apply IH'; spart.
    - destruct o; calms.
  Qed.

  Lemma calm_builtin b ts : calm (builtin_type n E b ts).
  Proof. unfold builtin_type. destruct b; calms; destruct ts as [|? [|? ?]]; calms. Qed.

  Lemma calm_iteratees names its : calm (iteratee_types n E names its).
  Proof. revert its. induction names as [|x names IH]; intros [|[t e] its]; cbn [iteratee_types]; calms. apply IH. Qed.

  Lemma calm_infer_branches F bs : (forall G p, In p (flat_map branch_parts bs) -> calm (F G p)) ->
    (forall G p a, In p (flat_map branch_parts bs) -> F G p = Ok a -> all_shaped a) ->
    forall G, calm (infer_branches n E R F G bs).
  Proof.
    induction bs as [|[names its cond] bs IH]; intros HF HS G; cbn [infer_branches]; calms.
    - unfold infer_iteratee. assert (Hp : In (snd a) (flat_map branch_parts (CompBranch names its cond :: bs))).
      { cbn [flat_map]. apply in_or_app. left. unfold branch_parts. apply in_or_app. left. apply in_map. assumption. }
      calms; [apply HF, Hp|]. apply calm_extract. eapply HS; eassumption.
    - apply calm_iteratees.
    - destruct cond as [c|]; calms. apply HF. cbn [flat_map]. apply in_or_app. left. unfold branch_parts. apply in_or_app. right. left. reflexivity.
    - apply IH.
      + intros G' p Hp. apply HF. cbn [flat_map]. apply in_or_app. right. exact Hp.
      + intros G' p b Hp. apply HS. cbn [flat_map]. apply in_or_app. right. exact Hp.
  Qed.

  Lemma calm_infer e : all_shaped e -> forall G, calm (infer n E R G e).
  Proof.
    induction e as [e IH] using parts_ind. intros S G.
    assert (IH' : forall G p, In p (parts e) -> calm (infer n E R G p)) by (intros G' p Hp; apply IH; [exact Hp|eapply all_shaped_part; eassumption]).
    assert (IS : forall G p a, In p (parts e) -> infer n E R G p = Ok a -> all_shaped a).
    { intros G' p a Hp Ha. eapply all_shaped_same; [eapply infer_strip, Ha|]. eapply all_shaped_part; eassumption. }
    assert (IX : forall G p a G', In p (parts e) -> infer n E R G p = Ok a -> calm (extract n E R G' a)) by (intros; apply calm_extract; eapply IS; eassumption).
    assert (SE := fun G => fun p (Hp : In p (parts e)) => calm_extract p (all_shaped_part e p Hp S) G).
    apply all_shaped_here in S. clear IH. destruct e; cbn [infer]; calms; try (apply IH'; spart; fail); try (eapply IX; [|eassumption]; spart; fail).
    - destruct e; calms; try (apply IH'; spart; fail); try (eapply IX; [|eassumption]; spart; fail); try (apply IH', argument_part; assumption).
      + match goal with X : mapM _ _ = Ok ?l, Y : In ?a ?l |- _ => apply mapM_ok in X; destruct (Forall2_in_r _ _ _ _ X Y) as (z & Hz & Z) end.
        eapply IX; [|exact Z]. apply argument_part, Hz.
      + apply calm_builtin.
    - apply IH', if_type_branch_part. assumption.
    - destruct else_ as [[t b]|]; calms; [eapply IX; [|eassumption]; spart|]. cbn [shaped] in S. destruct branches as [|[t0 b0] bs]; [contradiction|]. cbn [map create_union].
      calms. match goal with |- calm (match ?o with _ => _ end) => destruct o end; calms. apply IH', if_type_else_part.
    - unfold infer_element. destruct a; calms; apply IH'; [eapply single_part|eapply multiple_part]; eassumption.
    - apply calm_infer_branches.
      + intros G' p Hp. apply IH'. apply lazy_part. cbn [lazy_parts]. apply in_or_app. left. exact Hp.
      + intros G' p a Hp. apply IS. apply lazy_part. cbn [lazy_parts]. apply in_or_app. left. exact Hp.
    - unfold infer_map_element. destruct a as [a b|m]; calms.
      + apply IH'. match goal with X : In (Entry _ _) _ |- _ => apply (entry_parts key_type value_type _ _ _ X) end.
      + apply IH'. match goal with X : In (Entry _ _) _ |- _ => apply (entry_parts key_type value_type _ _ _ X) end.
      + apply IH', spread_part. assumption.
    - destruct o; calms; try (apply IH'; spart; fail); try (eapply IX; [|eassumption]; spart; fail).
    - match goal with |- calm (match ?o with _ => _ end) => destruct o end; calms.
    - unfold infer_field. calms. apply IH', record_part. assumption.
    - unfold infer_field. calms. apply IH', update_part. assumption.
    - apply SE, thunk_part.
  Qed.
  Lemma calm_sub s t : calm (check_sub n E s t).
  Proof. unfold check_sub. calms. Qed.

  Section Lists.
    Variable F : venv -> hexpr -> res ty.
    Lemma calm_check_arguments G es : (forall a, In a es -> calm (F G a)) -> forall ts, calm (check_arguments n E F G es ts).
    Proof.
      induction es as [|a es IH]; intros H [|t ts]; cbn [check_arguments]; calms; [apply H; left; reflexivity|apply calm_sub|].
      apply IH. intros x Hx. apply H. right. exact Hx.
    Qed.
    Lemma calm_check_branches G x u bs : (forall G b, In b bs -> calm (F G (snd b))) -> calm (check_branches n E F G x u bs).
    Proof.
      induction bs as [|[t e] bs IH]; intros H; cbn [check_branches]; calms; [apply calm_sub|apply (H _ (t, e)); left; reflexivity|].
      apply IH. intros G' b Hb. apply H. right. exact Hb.
    Qed.
    Lemma calm_check_elements G t es : (forall a, In a (flat_map element_parts es) -> calm (F G a)) -> calm (check_elements n E F G t es).
    Proof.
      induction es as [|[e|e] es IH]; intros H; cbn [check_elements]; calms; try apply calm_sub.
      all: first [apply H; left; reflexivity|apply IH; intros x Hx; apply H; right; exact Hx].
    Qed.
    Lemma calm_check_iteratees its : (forall G it, In it its -> calm (F G (snd it))) -> forall names G, calm (check_iteratees n E F G names its).
    Proof.
      induction its as [|[t e] its IH]; intros H [|x names] G; cbn [check_iteratees]; calms; [apply (H _ (t, e)); left; reflexivity|apply calm_sub|].
      apply IH. intros G' it Hi. apply H. right. exact Hi.
    Qed.
    Lemma calm_check_comp bs : (forall G p, In p (flat_map branch_parts bs) -> calm (F G p)) -> forall G, calm (check_comp_branches n E F G bs).
    Proof.
      induction bs as [|[names its cond] bs IH]; intros H G; cbn [check_comp_branches]; calms.
      - apply calm_check_iteratees. intros G' it Hi. apply H. cbn [flat_map]. apply in_or_app. left. unfold branch_parts. apply in_or_app. left. apply in_map, Hi.
      - destruct cond as [c|]; calms; [|apply calm_sub]. apply H. cbn [flat_map]. apply in_or_app. left. unfold branch_parts. apply in_or_app. right. left. reflexivity.
      - apply IH. intros G' p Hp. apply H. cbn [flat_map]. apply in_or_app. right. exact Hp.
    Qed.
    Lemma calm_check_map G k v es : (forall a, In a (flat_map map_parts es) -> calm (F G a)) -> calm (check_map_elements n E F G k v es).
    Proof.
      induction es as [|[a b|m] es IH]; intros H; cbn [check_map_elements]; calms; try apply calm_sub.
      all: first [apply H; left; reflexivity|apply H; right; left; reflexivity|apply IH; intros x Hx; apply H; cbn [flat_map]; apply in_or_app; right; exact Hx].
    Qed.
    Lemma calm_check_fields G fts fs : (forall b, In b fs -> calm (F G (snd b))) -> calm (check_fields n E F G fts fs).
    Proof.
      induction fs as [|[x e] fs IH]; intros H; cbn [check_fields]; calms; [apply (H (x, e)); left; reflexivity|apply calm_sub|].
      apply IH. intros b Hb. apply H. right. exact Hb.
    Qed.
  End Lists.

  Lemma calm_complete fts given : calm (check_complete fts given).
  Proof. induction fts as [|[x t] fts IH]; cbn [check_complete]; calms. Qed.
  Lemma calm_check_builtin b ts r : calm (check_builtin n E b ts r).
  Proof.
    unfold check_builtin. destruct b; calms; destruct ts as [|t [|t' [|]]]; calms; try apply calm_sub.
    - destruct t; calms.
  Qed.

  Lemma calm_check e : all_shaped e -> forall G, calm (check n E R G e).
  Proof.
    induction e as [e IH] using parts_ind. intros S G.
    assert (IH' : forall G p, In p (parts e) -> calm (check n E R G p)) by (intros G' p Hp; apply IH; [exact Hp|eapply all_shaped_part; eassumption]).
    assert (SE := calm_extract e S). assert (SP := fun G p (Hp : In p (parts e)) => calm_extract p (all_shaped_part e p Hp S) G). apply all_shaped_here in S. clear IH.
    destruct e; cbn [check]; calms; try apply calm_sub; try (apply IH'; spart; fail); try (apply SE; fail).
    - apply calm_check_arguments. intros arg Ha. apply IH', argument_part, Ha.
    - destruct e; calms; try apply calm_sub; try (apply IH'; spart; fail). apply calm_check_builtin.
    - apply calm_check_branches. intros G' b Hb. apply IH', if_type_branch_part, Hb.
    - destruct else_ as [[t b]|]; calms; [apply IH', if_type_else_part|]. cbn [shaped] in S. destruct branches as [|[t0 b0] bs]; [contradiction|]. cbn [map create_union]. calms.
    - apply calm_check_elements. intros a Ha. apply IH', lazy_part, Ha.
    - apply calm_check_comp. intros G' p Hp. apply IH', lazy_part. cbn [lazy_parts]. apply in_or_app. left. exact Hp.
    - apply calm_check_map. intros a Ha. apply IH', eager_part, Ha.
    - assert (SL : forall G, calm (check n E R G e1)) by (intros; apply IH'; spart). assert (SR : forall G, calm (check n E R G e2)) by (intros; apply IH'; spart).
      destruct o; calms; try apply calm_sub; try apply SL; try apply SR; apply SP; spart.
    - apply calm_check_fields. intros b Hb. apply IH', record_part, Hb.
    - apply calm_complete.
    - apply calm_check_fields. intros b Hb. apply IH', update_part, Hb.
    - match goal with |- calm (match ?c with _ => _ end) => destruct c end; calms; apply calm_sub.
  Qed.

  (** ** Conversions *)
  Lemma calm_coerce_to G e t : all_shaped e -> calm (coerce_to n E R G e t).
  Proof. intros S. unfold coerce_to. calms. apply calm_extract, S. Qed.

  Lemma calm_coerce_branches F bs : (forall G p, In p (flat_map branch_parts bs) -> calm (F G p)) -> forall G, calm (coerce_branches n E F G bs).
  Proof.
    induction bs as [|[names its cond] bs IH]; intros HF G; cbn [coerce_branches]; calms.
    - apply HF. cbn [flat_map]. apply in_or_app. left. unfold branch_parts. apply in_or_app. left. apply in_map. assumption.
    - apply calm_iteratees.
    - destruct cond as [c|]; calms. apply HF. cbn [flat_map]. apply in_or_app. left. unfold branch_parts. apply in_or_app. right. left. reflexivity.
    - apply IH. intros G' p Hp. apply HF. cbn [flat_map]. apply in_or_app. right. exact Hp.
  Qed.

  Lemma calm_coerce_arguments F G es : (forall t a, In a es -> calm (coerce_into n E R F G t a)) -> forall ts, calm (coerce_arguments n E R F G es ts).
  Proof.
    induction es as [|a es IH]; intros H [|t ts]; cbn [coerce_arguments]; calms; [apply H; left; reflexivity|].
    apply IH. intros u x Hx. apply H. right. exact Hx.
  Qed.

  Lemma calm_coerce e : full_calls n E e -> all_shaped e -> forall G, calm (coerce n E R G e).
  Proof.
    induction e as [e IH] using parts_ind. intros FC S G.
    assert (IH' : forall G p, In p (parts e) -> calm (coerce n E R G p)).
    { intros G' p Hp. apply IH; [exact Hp|eapply full_calls_part; eassumption|eapply all_shaped_part; eassumption]. }
    assert (IT : forall G p a G' t, In p (parts e) -> coerce n E R G p = Ok a -> calm (coerce_to n E R G' a t)).
    { intros G' p a G'' t Hp Ha. apply calm_coerce_to. eapply all_shaped_same; [eapply coerce_strip; [eapply full_calls_part; eassumption|exact Ha]|]. eapply all_shaped_part; eassumption. }
    assert (II : forall G t p, In p (parts e) -> calm (coerce_into n E R (coerce n E R) G t p)).
    { intros G' t p Hp. unfold coerce_into. calms; [apply IH', Hp|]. eapply IT; eassumption. }
    assert (SE := calm_extract e S). clear IH FC S.
    destruct e; cbn [coerce]; calms; try (apply IH'; spart; fail); try (apply II; spart; fail); try (apply SE; fail).
    - apply calm_coerce_arguments. intros t arg Ha. apply II, argument_part, Ha.
    - apply II, if_type_branch_part. assumption.
    - destruct else_ as [[t b]|]; calms. apply II, if_type_else_part.
    - destruct name; calms; apply IH'; spart.
    - unfold coerce_element. destruct a; calms; apply II; [eapply single_part|eapply multiple_part]; eassumption.
    - apply calm_coerce_branches. intros G' p Hp. apply IH'. apply lazy_part. cbn [lazy_parts]. apply in_or_app. left. exact Hp.
    - unfold coerce_map_element. destruct a as [a b|m]; calms.
      + apply II. match goal with X : In (Entry _ _) _ |- _ => apply (entry_parts key_type value_type _ _ _ X) end.
      + apply II. match goal with X : In (Entry _ _) _ |- _ => apply (entry_parts key_type value_type _ _ _ X) end.
      + apply II, spread_part. assumption.
    - destruct o; calms; try (apply IH'; spart; fail); try (apply II; spart; fail).
    - unfold coerce_field. calms; [apply IH', record_part; assumption|]. eapply IT; [|eassumption]. apply record_part. assumption.
    - unfold coerce_field. calms; [apply IH', update_part; assumption|]. eapply IT; [|eassumption]. apply update_part. assumption.
  Qed.

  (** ** The validators *)
  Lemma calm_try e : forall r, calm (validate_try n E r e).
  Proof.
    induction e as [e IH] using parts_ind. intros r. destruct e; cbn [validate_try]; calms; try (apply IH; spart; fail).
    - apply IH. apply if_type_branch_part. assumption.
    - destruct else_ as [[t b]|]; calms. apply IH. apply if_type_else_part.
    - destruct a; apply IH; [eapply single_part|eapply multiple_part]; eassumption.
    - destruct a as [names its cond]. assert (HP : forall p, In p (branch_parts (CompBranch names its cond)) -> In p (parts (HComprehension type e branches))).
      { intros p Hp. apply lazy_part. cbn [lazy_parts]. apply in_or_app. left. apply in_flat_map. eexists. split; [eassumption|exact Hp]. }
      calms.
      + apply IH, HP. unfold branch_parts. apply in_or_app. left. apply in_map. assumption.
      + destruct cond as [c|]; calms. apply IH, HP. unfold branch_parts. apply in_or_app. right. left. reflexivity.
    - destruct a as [a b|m]; calms.
      + apply IH. match goal with X : In (Entry _ _) _ |- _ => apply (entry_parts key_type value_type _ _ _ X) end.
      + apply IH. match goal with X : In (Entry _ _) _ |- _ => apply (entry_parts key_type value_type _ _ _ X) end.
      + apply IH. apply spread_part. assumption.
    - destruct r; calms.
    - apply IH. apply record_part. assumption.
    - apply IH. apply update_part. assumption.
  Qed.

  Lemma calm_unused e : calm (validate_unused n E e).
  Proof. destruct e; cbn [validate_unused]; calms. Qed.

  Lemma occurs_checked e : forall x, occurs x e -> checked n E R e -> checked n E R x.
  Proof.
    induction e as [e IH] using parts_ind. intros x O K. apply occurs_inv in O. destruct O as [->|(p & Hp & O)]; [exact K|].
    destruct K as [(b & ->)|(G & s & K)]; [destruct Hp|]. eapply IH; [exact Hp|exact O|]. eapply check_parts; eassumption.
  Qed.

  Hypothesis Closed : forall r, lookup R r = Some [] -> In r open.
  Lemma calm_private e : shaped e -> checked n E R e -> calm (validate_record n E open e).
  Proof.
    intros S K. destruct e; cbn [validate_record]; try apply calm_ok.
    - apply calm_bind; [apply calm_record|]. intros r Hr. destruct (mem r open) eqn:M; [apply calm_ok|]. destruct fields; [|apply calm_reject].
      destruct K as [(b & K)|(G & s & K)]; [discriminate K|]. cbn [check] in K. apply bind_ok in K. destruct K as (fts & Hf & K). apply bind_ok in K. destruct K as (? & _ & K).
      apply bind_ok in K. destruct K as (? & K & _). unfold record_fields in Hf. rewrite Hr in Hf. cbn [bind] in Hf. unfold resolve_record in Hf.
      destruct (lookup R r) as [l|] eqn:L; [|discriminate Hf]. injection Hf as <-. destruct l as [|[y t0] l]; [|cbn in K; discriminate K].
      apply Closed, mem_In in L. rewrite L in M. discriminate M.
    - calms.
    - apply calm_bind; [apply calm_record|]. intros r Hr. destruct (mem r open) eqn:M; [apply calm_ok|]. destruct fields; [contradiction|apply calm_reject].
  Qed.

  Lemma visit_occurs e : forall x, In x (visit e) -> occurs x e.
  Proof.
    intros x H. apply visit_outside in H. induction H as [e|e p x Hp _ IH]; [apply occurs_here|]. eapply occurs_cons; [apply outside_part, Hp|exact IH].
  Qed.

  (** ** Modules *)
  Definition module_shaped (m : hmodule) : Prop := forall d, In d (h_defs m) -> all_shaped (l_body (snd d)).

  Lemma calm_infer_module m : module_shaped m -> calm (infer_module n E R m).
  Proof. intros S. unfold infer_module, infer_lambda. calms. apply calm_infer, S. assumption. Qed.
  Lemma calm_check_module m : module_shaped m -> calm (check_module n E R m).
  Proof. intros S. unfold check_module, check_lambda. calms; [apply calm_check, S; assumption|apply calm_sub]. Qed.

  Lemma infer_shaped m m1 : module_shaped m -> infer_module n E R m = Ok m1 -> module_shaped m1.
  Proof.
    intros S H d' Hd'. apply infer_module_defs in H. destruct H as [_ F]. destruct (Forall2_in_r _ _ _ _ F Hd') as (d & Hd & _ & _ & _ & X).
    eapply all_shaped_same; [eapply infer_strip, X|apply S, Hd].
  Qed.
  Lemma checked_body m : check_module n E R m = Ok tt -> forall d, In d (h_defs m) -> checked n E R (l_body (snd d)).
  Proof.
    intros H d Hd. apply check_module_defs with (d := d) in H; [|exact Hd]. unfold check_lambda in H. apply bind_ok in H. destruct H as (s & Hs & _). right. eauto.
  Qed.
  Lemma checked_calls m : check_module n E R m = Ok tt -> forall d, In d (h_defs m) -> full_calls n E (l_body (snd d)).
  Proof.
    intros H d Hd. apply check_module_defs with (d := d) in H; [|exact Hd]. unfold check_lambda in H. apply bind_ok in H. destruct H as (s & Hs & _).
    apply check_full_calls with (R := R). right. eauto.
  Qed.
  Lemma coerce_shaped m m1 : module_shaped m -> check_module n E R m = Ok tt -> coerce_module n E R m = Ok m1 -> module_shaped m1.
  Proof.
    intros S C H d' Hd'. apply coerce_module_defs in H. destruct H as [_ F]. destruct (Forall2_in_r _ _ _ _ F Hd') as (d & Hd & _ & _ & _ & X).
    unfold coerce_into in X. apply bind_ok in X. destruct X as (b & Hb & X). eapply all_shaped_same; [|apply S, Hd].
    rewrite (coerce_to_strip _ _ _ _ _ _ _ X). eapply coerce_strip; [|exact Hb]. eapply checked_calls; eassumption.
  Qed.
  Lemma calm_coerce_module m : module_shaped m -> check_module n E R m = Ok tt -> calm (coerce_module n E R m).
  Proof.
    intros S C. unfold coerce_module, coerce_lambda, coerce_into. calms; [apply calm_coerce; [eapply checked_calls; eassumption|apply S; assumption]|].
    apply calm_coerce_to. eapply all_shaped_same; [eapply coerce_strip; [eapply checked_calls; eassumption|eassumption]|apply S; assumption].
  Qed.

  Lemma calm_analyze m : module_shaped m -> calm (analyze n E R open m).
  Proof.
    intros S. unfold analyze. calms.
    - apply calm_infer_module, S.
    - apply calm_check_module. eapply infer_shaped; eassumption.
    - unfold validate_try_module. calms. apply calm_try.
    - unfold validate_record_module, visit_module. calms. enough (shaped a2 /\ checked n E R a2) by (apply calm_private; tauto). assert (X : In a2 (flat_map (fun d => visit (l_body (snd d))) (h_defs a))) by assumption.
      apply in_flat_map in X. destruct X as (d & Hd & X). apply visit_occurs in X. split; [eapply infer_shaped; eassumption|].
      destruct a0. eapply occurs_checked; [exact X|]. eapply checked_body; eassumption.
    - unfold validate_unused_module. calms. apply calm_unused.
    - apply calm_coerce_module; [eapply infer_shaped; eassumption|]. destruct a0. assumption.
    - apply calm_check_module. eapply coerce_shaped; [eapply infer_shaped; eassumption| |eassumption]. destruct a0. assumption.
  Qed.
End Shape.

Theorem calm_program n p : shaped_program p -> calm (analyze_program n p).
Proof.
  intros [S1 S2]. unfold analyze_program. repeat (match goal with |- calm (if ?b then _ else _) => destruct b; [apply calm_reject|] end).
  apply calm_bind; [|intros; apply calm_ok]. apply calm_analyze.
  - intros r H. apply lookup_In in H. apply in_rev in H. cbn in H. rewrite map_map in H. apply in_map_iff in H. destruct H as (d & H & Hd). injection H as <- Hf.
    apply in_map_iff. exists d. split; [reflexivity|]. apply filter_In. split; [exact Hd|]. rewrite (S1 d Hd Hf). apply orb_true_r.
  - intros [x l] Hd e He. eapply S2; [exact Hd|exact He].
Qed.
