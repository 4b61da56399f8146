(** From a source program to the program the analyses return. *)
From Coq Require Import String Ascii List ZArith Bool Lia.
From Verif Require Import Base Mir MirTypeCheck HirType HirTypeOrder HirTypeSpec HirTypeTermination HirTypeEq HirTypeSub HirTypeId HirTypeModule
  Hir HirCheck HirCoerce HirInfer HirValidate HirSpec HirParts HirStrip HirTyping HirExact HirSound HirMain HirModule
  HirMir HirProgram LowerTypeSpec LowerProgramSpec LowerTypeBase LowerTypeMain LowerTypeNames LowerTypeModule.
Import ListNotations.
Local Open Scope string_scope.
Local Open Scope list_scope.

Definition converts (e : hexpr) : Prop := exists s t a, e = HCoerce s t a.

Lemma strip_within c e c' x : within c e c' x -> no_thunks e -> ~ converts x -> within c (strip e) c' (strip x).
Proof.
  induction 1 as [c e|c e p c' x Hp _ IH|c e p c' x Hp _ IH|c e s p c' x Hp _ IH]; intros N V.
  - apply within_self.
  - specialize (IH (no_thunks_part _ _ (eager_part _ _ Hp) N) V).
    destruct e; try (eapply within_eager; [|exact IH]; rewrite eager_strip by congruence; apply in_map, Hp).
    cbn [eager_parts] in Hp. destruct Hp as [<-|[]]. exact IH.
  - specialize (IH (no_thunks_part _ _ (lazy_part _ _ Hp) N) V). eapply within_lazy; [|exact IH].
    rewrite lazy_strip; [apply in_map, Hp|intros; apply no_thunks_self, N|]. intros s1 t1 a1 ->. destruct Hp.
  - specialize (IH (no_thunks_part _ _ (body_part _ _ _ Hp) N) V). eapply within_body; [|exact IH].
    rewrite bodies_strip; [apply in_map_iff; exists (s, p); auto|intros; apply no_thunks_self, N|]. intros s1 t1 a1 ->. destruct Hp.
Qed.

Lemma strip_occurs x e : occurs x e -> no_thunks e -> ~ converts x -> occurs (strip x) (strip e).
Proof. intros (c & c' & H) N V. exists c, c'. apply strip_within; assumption. Qed.

Lemma bound_strip e : ~ converts e -> bound (strip e) = bound e.
Proof.
  destruct e; intros V; try reflexivity; try (exfalso; apply V; unfold converts; eauto; fail).
  clear V. cbn [strip bound]. induction branches as [|[names its cond] bs IH]; [reflexivity|]. cbn [map flat_map b_names]. rewrite IH. reflexivity.
Qed.

Lemma no_thunks_within c e c' x : within c e c' x -> no_thunks e -> no_thunks x.
Proof.
  induction 1 as [c e|c e p c' x Hp _ IH|c e p c' x Hp _ IH|c e s p c' x Hp _ IH]; intros N; [exact N|..]; apply IH.
  - eapply no_thunks_part; [apply eager_part, Hp|exact N].
  - eapply no_thunks_part; [apply lazy_part, Hp|exact N].
  - eapply no_thunks_part; [eapply body_part, Hp|exact N].
Qed.

Lemma no_thunks_inside p x e : occurs x e -> In p (parts x) -> no_thunks e -> no_thunks p.
Proof. intros (c & c' & H) Hp N. eapply no_thunks_part; [exact Hp|]. eapply no_thunks_within; eassumption. Qed.

Lemma strip_source e : no_thunks e -> source_form (strip e).
Proof.
  induction e as [e IH] using parts_ind. intros N s t a H.
  destruct (match e with HCoerce _ _ b => Some b | _ => None end) as [b|] eqn:Ec.
  - destruct e; try discriminate. cbn [strip] in H. eapply (IH e); [spart|eapply no_thunks_part; [|exact N]; spart|exact H].
  - assert (Nc : forall s u x, e <> HCoerce s u x) by (intros s' u x ->; discriminate).
    assert (Nt : forall u x, e <> HThunk u x) by (intros u x; apply no_thunks_self, N).
    destruct (occurs_cases _ _ H) as [Q|(p & Hp & Hq)]; [destruct e; try discriminate; exact (Nc _ _ _ eq_refl)|].
    unfold parts in Hp. rewrite eager_strip, lazy_strip, bodies_strip in Hp by assumption. rewrite !in_app_iff, map_map in Hp.
    assert (exists q, In q (parts e) /\ p = strip q) as (q & Hq' & ->).
    { destruct Hp as [Hp|[Hp|Hp]]; apply in_map_iff in Hp; destruct Hp as (q & <- & Hq').
      - exists q. split; [apply eager_part, Hq'|reflexivity].
      - exists q. split; [apply lazy_part, Hq'|reflexivity].
      - exists (snd q). split; [destruct q; eapply body_part, Hq'|reflexivity]. }
    eapply (IH q Hq'); [eapply no_thunks_part; eassumption|exact Hq].
Qed.

(** ** Types written in an expression *)
Lemma occurs_written x e t : occurs x e -> In t (node_types x) -> In t (written e).
Proof.
  revert x. induction e as [e IH] using parts_ind. intros x H Ht. destruct (occurs_cases _ _ H) as [->|(p & Hp & Hq)].
  - clear H IH. destruct e; cbn [node_types written] in *; try (destruct Ht; fail); rewrite ?in_app_iff in *; cbn [In] in *; try tauto.
    + destruct Ht as [Ht|Ht].
      * right. left. apply in_map_iff in Ht. destruct Ht as (b & <- & Hb). apply in_flat_map. exists b. split; [exact Hb|left; reflexivity].
      * right. right. destruct else_ as [[o b]|]; [|destruct Ht]. apply in_or_app. auto.
    + destruct Ht as [Ht|Ht]; [auto|]. right. apply in_or_app. right. apply in_flat_map in Ht. destruct Ht as ([names its cond] & Hb & Ht). apply in_flat_map.
      eexists. split; [exact Hb|]. apply in_or_app. left. apply in_flat_map in Ht. destruct Ht as (it & Hi & Ht). apply in_flat_map. exists it.
      split; [exact Hi|apply in_or_app; auto].
  - eapply part_written; [exact Hp|]. eapply IH; eassumption.
Qed.

Lemma written_occurs e t : In t (written e) -> exists x, occurs x e /\ In t (node_types x).
Proof.
  induction e as [e IH] using parts_ind. intros Ht.
  assert (G : In t (node_types e) \/ exists p, In p (parts e) /\ In t (written p)).
  { clear IH. unfold parts. destruct e; cbn [written node_types eager_parts lazy_parts bodies map snd app] in *; try (destruct Ht; fail); rewrite ?app_nil_r.
    all: try (rewrite ?in_app_iff in *; cbn [In] in *; intuition eauto 8; fail).
    all: rewrite ?in_app_iff in Ht; cbn [In] in Ht; try setoid_rewrite in_app_iff; cbn [In].
    - destruct Ht as [Ht|[Ht|Ht]]; [auto|right; eauto|]. apply in_flat_map in Ht. destruct Ht as (p & Hp & Ht). right. eauto.
    - destruct Ht as [Ht|[Ht|Ht]]; [right; eauto| |].
      + apply in_flat_map in Ht. destruct Ht as (b & Hb & [<-|Ht]); [left; left; apply in_map, Hb|]. right. exists (snd b).
        split; [right; apply in_or_app; left; apply in_map, Hb|exact Ht].
      + destruct else_ as [[o b]|]; [|destruct Ht]. apply in_app_or in Ht. destruct Ht as [Ht|Ht]; [auto|]. right. exists b.
        split; [right; apply in_or_app; right; left; reflexivity|exact Ht].
    - destruct Ht as [Ht|Ht]; [auto|]. apply in_flat_map in Ht. destruct Ht as (b & Hb & Ht). right. destruct b as [a|a]; exists a.
      all: split; [apply in_flat_map; eexists; split; [exact Hb|left; reflexivity]|exact Ht].
    - destruct Ht as [Ht|Ht]; [auto|]. apply in_app_or in Ht. destruct Ht as [Ht|Ht]; [right; eauto|]. apply in_flat_map in Ht.
      destruct Ht as ([names its cond] & Hb & Ht). apply in_app_or in Ht. destruct Ht as [Ht|Ht].
      + apply in_flat_map in Ht. destruct Ht as (it & Hi & Ht). apply in_app_or in Ht. destruct Ht as [Ht|Ht].
        * left. right. apply in_flat_map. eexists. split; [exact Hb|]. apply in_flat_map. eauto.
        * right. exists (snd it). split; [|exact Ht]. left. apply in_flat_map. eexists. split; [exact Hb|]. unfold branch_parts. apply in_or_app. left. apply in_map, Hi.
      + destruct cond as [c|]; [|destruct Ht]. right. exists c. split; [|exact Ht]. left. apply in_flat_map. eexists. split; [exact Hb|].
        unfold branch_parts. apply in_or_app. right. left. reflexivity.
    - destruct Ht as [Ht|[Ht|Ht]]; [auto|auto|]. apply in_flat_map in Ht. destruct Ht as (b & Hb & Ht). right. destruct b as [a b|a].
      + apply in_app_or in Ht. destruct Ht as [Ht|Ht]; [exists a|exists b]; (split; [apply in_flat_map; eexists; split; [exact Hb|cbn; auto]|exact Ht]).
      + exists a. split; [apply in_flat_map; eexists; split; [exact Hb|cbn; auto]|exact Ht].
    - destruct Ht as [Ht|Ht]; [auto|]. apply in_flat_map in Ht. destruct Ht as (b & Hb & Ht). right. exists (snd b). split; [apply in_map, Hb|exact Ht].
    - destruct Ht as [Ht|Ht]; [auto|]. apply in_app_or in Ht. destruct Ht as [Ht|Ht]; [right; eauto|]. apply in_flat_map in Ht. destruct Ht as (b & Hb & Ht).
      right. exists (snd b). split; [right; apply in_map, Hb|exact Ht].
    - destruct Ht as [Ht|Ht]; [auto|]. right. exists e. split; [|exact Ht]. destruct type; cbn; auto. }
  destruct G as [G|(p & Hp & G)]; [exists e; split; [exists None, None; apply within_self|exact G]|].
  destruct (IH p Hp G) as (x & Hx & Hn). exists x. split; [eapply occurs_in_part; eassumption|exact Hn].
Qed.

(** ** The types of the analyzed program are known *)
Lemma coerce_module_known f E R n m m1 : context_ok f E R -> types_known f E (module_written m) ->
  coerce_module n E R m = Ok m1 -> types_known f E (module_written m1).
Proof.
  intros C K H. destruct (coerce_module_defs _ _ _ _ _ H) as [D F]. pose proof (module_env_ok f E m K) as HG.
  assert (KD := fun d => module_def_ok f E m d K). unfold types_known, module_written in *. rewrite D. apply Forall_app in K. destruct K as [K1 _].
  apply Forall_app. split; [exact K1|]. rewrite Forall_forall. intros t Ht. apply in_flat_map in Ht. destruct Ht as (d' & Hd' & Ht).
  destruct (Forall2_in_r _ _ _ _ F Hd') as (d & Hd & _ & H2 & H3 & H4). destruct (KD d Hd) as (O1 & O2 & O3).
  unfold lambda_written in Ht. rewrite H2, H3 in Ht. apply in_app_or in Ht. destruct Ht as [Ht|[<-|Ht]]; [|exact O2|].
  - rewrite Forall_forall in O1. apply O1, Ht.
  - assert (HA : HirTyping.env_ok f E (args_env (l_arguments (snd d)) (module_env m))) by (apply env_args; assumption).
    assert (X : types_known f E (written (l_body (snd d')))).
    { unfold coerce_into in H4. bok H4 b Hb. eapply coerce_to_known; [exact C|exact HA|exact O2| |exact H4]. eapply coerce_ok; eassumption. }
    unfold types_known in X. rewrite Forall_forall in X. apply X, Ht.
Qed.

Lemma analyze_known f E R n open m m2 : context_ok f E R -> types_known f E (module_written m) ->
  analyze n E R open m = Ok m2 -> types_known f E (module_written m2).
Proof.
  intros C K H. apply analyze_steps in H. destruct H as (m1 & H1 & _ & _ & _ & _ & H6 & _).
  eapply coerce_module_known; [exact C| |exact H6]. eapply infer_module_known; eassumption.
Qed.

(** ** Plain names

    Types that are known for two assignments of original names that differ on
    the names with closing parentheses have no record with such a name. *)
Definition mark (f : string -> string) (r : string) : string := if has_char ")" r then (f r ++ "!")%string else f r.

Lemma mark_differs f r : has_char ")" r = true -> mark f r <> f r.
Proof.
  unfold mark. intros ->. generalize (f r). induction s as [|c s IH]; [discriminate|]. cbn. intros H. injection H as H. exact (IH H).
Qed.

Lemma names_mark f t : plain_names t -> names_ok f t -> names_ok (mark f) t.
Proof.
  induction t as [| | |a r Ha IHr|e IHe|k v IHk IHv| | |r o|x| |l r IHl IHr] using ty_ind'; intros P N; try constructor.
  - apply names_fix in N. destruct N as [Na _]. rewrite Forall_forall in *. intros t Ht. apply (Ha t Ht); [|apply Na, Ht].
    intros x Hx. apply P. cbn. apply in_or_app. left. apply in_flat_map. eauto.
  - apply names_fix in N. apply IHr; [|apply N]. intros x Hx. apply P. cbn. apply in_or_app. auto.
  - apply names_fix in N. apply IHe; [exact P|exact N].
  - apply names_fix in N. apply IHk; [|apply N]. intros x Hx. apply P. cbn. apply in_or_app. auto.
  - apply names_fix in N. apply IHv; [|apply N]. intros x Hx. apply P. cbn. apply in_or_app. auto.
  - inversion N. subst. assert (Q : mark f r = f r) by (unfold mark; rewrite (P r); [reflexivity|left; reflexivity]). rewrite <- Q. constructor.
  - apply names_fix in N. apply IHl; [|apply N]. intros x Hx. apply P. cbn. apply in_or_app. auto.
  - apply names_fix in N. apply IHr; [|apply N]. intros x Hx. apply P. cbn. apply in_or_app. auto.
Qed.

Lemma marked_plain f t : names_ok f t -> names_ok (mark f) t -> plain_names t.
Proof.
  induction t as [| | |a r Ha IHr|e IHe|k v IHk IHv| | |r o|x| |l r IHl IHr] using ty_ind'; intros N M y Hy; cbn in Hy; try (destruct Hy; fail).
  - apply names_fix in N, M. apply in_app_or in Hy. destruct Hy as [Hy|Hy]; [|apply IHr; tauto]. apply in_flat_map in Hy. destruct Hy as (t & Ht & Hy).
    destruct N as [N _], M as [M _]. rewrite Forall_forall in *. apply (Ha t Ht); auto.
  - apply names_fix in N, M. apply IHe; assumption.
  - apply names_fix in N, M. apply in_app_or in Hy. destruct Hy as [Hy|Hy]; [apply IHk|apply IHv]; tauto.
  - destruct Hy as [<-|[]]. inversion N. inversion M. subst. destruct (has_char ")" r) eqn:Q; [|reflexivity]. apply (mark_differs f) in Q. congruence.
  - apply names_fix in N, M. apply in_app_or in Hy. destruct Hy as [Hy|Hy]; [apply IHl|apply IHr]; tauto.
Qed.

(** ** A program and its analysis *)
Lemma env_type_in p x t : lookup (program_env p) x = Some t -> type_in p t.
Proof.
  intros H. apply lookup_In in H. apply in_rev in H. apply in_app_or in H. destruct H as [H|H]; [|eapply ti_alias, H].
  cbn in H. rewrite map_map in H. apply in_map_iff in H. destruct H as (d & Q & Hd). injection Q as <- <-. apply (ti_record p d), Hd.
Qed.

Lemma record_type_in p r fts x t : lookup (program_records p) r = Some fts -> lookup fts x = Some t -> type_in p t.
Proof.
  intros H Hx. apply lookup_In in H, Hx. apply in_rev in H. cbn in H. rewrite map_map in H. apply in_map_iff in H.
  destruct H as (d & Q & Hd). injection Q as <- <-. eapply ti_field; eassumption.
Qed.

Lemma written_type_in p t : In t (module_written (program_hir p)) -> type_in p t.
Proof.
  intros H. unfold module_written, program_hir in H. cbn [h_declared h_defs] in H. apply in_app_or in H. destruct H as [H|H].
  - apply in_map_iff in H. destruct H as ([x u] & <- & H). apply in_app_or in H. destruct H as [H|H]; [eapply ti_declared|eapply ti_foreign]; exact H.
  - apply in_flat_map in H. destruct H as ([x l] & Hd & H). unfold lambda_written in H. cbn [snd] in H. apply in_app_or in H. destruct H as [H|[<-|H]].
    + apply in_map_iff in H. destruct H as ([y u] & <- & H). eapply ti_argument; eassumption.
    + eapply ti_result, Hd.
    + apply written_occurs in H. destruct H as (e & He & H). eapply ti_expression; eassumption.
Qed.

Section Transfer.
  Variable f : string -> string.
  Variable C : config.
  Variable p : program.
  Hypothesis PF : program_fits f C p.
  Hypothesis Raw : raw_program p.
  Variable n : nat.
  Variable m : hmodule.
  Let E := program_env p.
  Let R := program_records p.
  Hypothesis Ha : analyze n E R (open_records p) (program_hir p) = Ok m.
  Let q := Program (p_types p) (p_aliases p) (p_foreign p) (p_declared p) (h_defs m).

  Lemma raw_source : source_module (program_hir p) /\ no_thunks_module (program_hir p).
  Proof.
    split; intros x l Hd; destruct (Raw x l Hd) as [S N]; [|exact N]. rewrite <- S. apply strip_source, N.
  Qed.

  Lemma known_f : types_known f E (module_written (program_hir p)).
  Proof. apply Forall_forall. intros t Ht. apply (pf_types f C p PF), written_type_in, Ht. Qed.

  Lemma ok_mark t : type_in p t -> ok (mark f) E t.
  Proof. intros H. destruct (pf_types f C p PF t H) as [[D N] P]. split; [exact D|]. apply names_mark; assumption. Qed.

  Lemma context_mark : context_ok (mark f) E R.
  Proof.
    pose proof (pf_context f C p PF) as K. destruct K as [[K1 K2 K3] K4]. split; [split; [exact K1|exact K2|]|].
    - intros x t H. apply ok_mark. eapply env_type_in, H.
    - intros r fts x t H Hx. apply ok_mark. eapply record_type_in; eassumption.
  Qed.

  Lemma known_q t : In t (module_written m) -> ok f E t /\ plain_names t.
  Proof.
    intros H. pose proof (analyze_known f E R n _ _ _ (pf_context f C p PF) known_f Ha) as K1.
    assert (K : types_known (mark f) E (module_written (program_hir p))) by (apply Forall_forall; intros u Hu; apply ok_mark, written_type_in, Hu).
    pose proof (analyze_known (mark f) E R n _ _ _ context_mark K Ha) as K2. unfold types_known in K1, K2. rewrite Forall_forall in K1, K2.
    split; [apply K1, H|]. eapply marked_plain; [apply K1, H|apply K2, H].
  Qed.

  Lemma analyzed : source_module (program_hir p) -> strip_module m = strip_module (program_hir p).
  Proof. intros S. eapply analyze_sound; [apply (pf_context f C p PF)|exact known_f|exact S|exact Ha]. Qed.

  (** A definition of the analyzed program comes from one of the source. *)
  Lemma definition_source x l' : In (x, l') (h_defs m) -> exists l, In (x, l) (p_defs p) /\ l_arguments l' = l_arguments l /\
    l_result l' = l_result l /\ strip (l_body l') = l_body l /\ no_thunks (l_body l').
  Proof.
    intros H. pose proof (analyzed (proj1 raw_source)) as S. unfold strip_module in S. injection S as _ S. cbn [program_hir h_defs] in S.
    apply (in_map (fun d => (fst d, Lambda (l_arguments (snd d)) (l_result (snd d)) (strip (l_body (snd d)))))) in H. rewrite S in H.
    apply in_map_iff in H. destruct H as ([y l] & Q & Hd). cbn [fst snd] in Q. injection Q as -> Q1 Q2 Q3. exists l. destruct (Raw x l Hd) as [S' N].
    split; [exact Hd|]. split; [congruence|]. split; [congruence|]. split; [congruence|]. eapply no_thunks_same; [|exact N]. congruence.
  Qed.

  Lemma names_q : map fst (h_defs m) = map fst (p_defs p).
  Proof.
    pose proof (analyzed (proj1 raw_source)) as S. unfold strip_module in S. injection S as _ S. cbn [program_hir h_defs] in S.
    apply (f_equal (map fst)) in S. rewrite !map_map in S. exact S.
  Qed.

  Lemma type_in_q t : type_in q t -> ok f E t /\ plain_names t.
  Proof.
    intros H. inversion H; subst; cbn [q p_types p_aliases p_foreign p_declared p_defs] in *; [..|apply known_q]; try (apply (pf_types f C p PF)).
    - eapply ti_field; eassumption.
    - apply (ti_record p d), H0.
    - eapply ti_alias; eassumption.
    - eapply ti_foreign; eassumption.
    - eapply ti_declared; eassumption.
    - destruct (definition_source _ _ H0) as (l0 & Hd & Q & _). rewrite Q in H1. eapply ti_argument; eassumption.
    - destruct (definition_source _ _ H0) as (l0 & Hd & _ & Q & _). rewrite Q. eapply ti_result; eassumption.
    - unfold module_written. apply in_or_app. right. apply in_flat_map. exists (x, l). split; [exact H0|].
      unfold lambda_written. apply in_or_app. right. right. cbn [snd]. eapply occurs_written; eassumption.
  Qed.

  Lemma proper_q t : type_in q t -> proper E t.
  Proof.
    intros H. destruct (type_in_q t H) as [[D N] P]. destruct (canon_ex f E (ctx_types _ _ _ (pf_context f C p PF)) t D) as [c Hc].
    eapply (neat_proper f C p PF); [split; eassumption|exact Hc].
  Qed.

  Lemma tame_q x l' : In (x, l') (h_defs m) -> tame E R C (l_body l').
  Proof.
    intros H. destruct (definition_source x l' H) as (l & Hd & _ & _ & S & N). destruct (pf_definitions f C p PF x l Hd) as (_ & _ & T & _).
    rewrite <- S in T. destruct T as (T1 & T2 & T3 & _ & T5). split; [|split; [|split; [|split]]].
    - intros y e He Hy. assert (V : ~ converts e) by (intros (s & t & a & ->); destruct Hy). eapply (T1 y (strip e)).
      + apply strip_occurs; assumption.
      + rewrite bound_strip; assumption.
    - intros y Hy. apply T2. apply (strip_occurs _ _ Hy N). intros (s & t & a & Q). discriminate.
    - intros kt vt y e k a b He Hy. apply (strip_occurs _ _ He) in N as He'; [|intros (s & t & u & Q); discriminate]. cbn [strip] in He'.
      apply (T3 _ _ _ _ _ _ _ He'). apply (strip_occurs (HVariable y)); [exact Hy| |intros (s & t & u & Q); discriminate].
      eapply no_thunks_inside; [exact He| |exact N]. spart.
    - intros e t He Ht. apply proper_q. eapply ti_expression; [exact H|exact He|exact Ht].
    - intros ft b args a t e He Hb Hi Hw. apply (strip_occurs _ _ He) in N as He'; [|intros (s & u & v & Q); discriminate]. cbn [strip] in He'.
      eapply (T5 _ _ _ (strip a) None (strip e) He' Hb); [apply in_map, Hi|]. apply (strip_within _ _ _ _ Hw); [|intros (s & u & v & Q); discriminate].
      eapply no_thunks_inside; [exact He| |exact N]. unfold parts. cbn. right. apply in_or_app. left. exact Hi.
  Qed.

  Lemma program_fits_q : program_fits f C q.
  Proof.
    pose proof PF as [K1 K2 K3 K4 K5 K6 K7 K8 K9 K10 K11 K12]. split; try assumption.
    - exact type_in_q.
    - unfold global_names. cbn [q p_foreign p_declared p_defs]. rewrite names_q. exact K8.
    - unfold global_names. cbn [q p_foreign p_declared p_defs]. rewrite names_q. exact K9.
    - unfold global_names. cbn [q p_foreign p_declared p_defs p_types]. rewrite names_q. exact K10.
    - cbn [q p_defs]. intros x l' H. destruct (definition_source x l' H) as (l & Hd & Q1 & Q2 & S & N). destruct (K12 x l Hd) as (F1 & F2 & _ & F4).
      split; [exact F1|]. split; [rewrite Q1; exact F2|]. split; [exact (tame_q x l' H)|]. intros c t a Hw r ->. rewrite Q2 in Hw.
      apply (strip_within _ _ _ _ Hw) in N as Hw'; [|intros (s & u & v & Q); discriminate]. rewrite S in Hw'. cbn [strip] in Hw'. eapply F4; [exact Hw'|reflexivity].
  Qed.

  Hypothesis Apart : apart_module (program_hir p).

  Lemma exact_q : exact_module E R (program_hir q) /\ tries_allowed E (program_hir q).
  Proof.
    destruct raw_source as [S N]. destruct (analyze_sound f E R n _ _ _ (pf_context f C p PF) known_f S Ha) as (X & Y & Z & _).
    assert (Q : program_hir q = m).
    { unfold strip_module in Y. injection Y as Y _. cbn [program_hir h_declared] in Y. destruct m as [d ds]. cbn in Y. subst d. reflexivity. }
    rewrite Q. split; [exact (X Apart)|]. apply (tries_allowed_strip E (program_hir p) m Y N), Z, N.
  Qed.
End Transfer.

Theorem compiled_program_checks f n k C p M : config_fits C -> program_fits f C p -> raw_program p -> apart_module (program_hir p) ->
  compile_program n k C p = Ok M -> complete C p M -> type_check M = true.
Proof.
  intros CF PF Raw A H Hc. unfold compile_program in H. bok H q Hq. bok H r Hr. unfold analyze_program in Hq.
  repeat match type of Hq with (if ?b then _ else _) = _ => destruct b; [discriminate|] end. bok Hq m Hm. injection Hq as <-.
  destruct (exact_q f C p PF Raw n m Hm A) as [X T].
  eapply compiled_module_checks; [exact CF|exact (program_fits_q f C p PF Raw n m Hm)|exact Hr|exact H|exact X|exact T|exact Hc].
Qed.

