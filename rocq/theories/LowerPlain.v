(** Lowering counts no references and makes only try operations that return
    the error they bind. *)
From Coq Require Import String List ZArith Bool Lia.
From Verif Require Import Base Mir MirNormSpec MirRcSpec MirReady HirType HirTypeModule Hir HirValidate HirMir HirProgram.
Import ListNotations.
Local Open Scope string_scope.
Local Open Scope list_scope.

Definition plain_code (e : expr) : Prop := every (plain_node false) e.
Arguments plain_code e : simpl never.

Lemma plain_lit l : plain_code (Lit l).
Proof. exact (conj I I). Qed.
Lemma plain_var x : plain_code (Var x).
Proof. exact (conj I I). Qed.
Lemma plain_op o es : Forall plain_code es -> plain_code (Op o es).
Proof. intros H. split; [exact I|]. apply all_in. rewrite Forall_forall in H. exact H. Qed.
Lemma plain_if c t e : plain_code c -> plain_code t -> plain_code e -> plain_code (If c t e).
Proof. intros. split; [exact I|]. auto. Qed.
Lemma plain_let x t b e : plain_code b -> plain_code e -> plain_code (Let x t b e).
Proof. intros. split; [exact I|]. auto. Qed.
Lemma plain_letrec d e : plain_code (f_body d) -> plain_code e -> plain_code (LetRec d e).
Proof. intros. split; [exact I|]. auto. Qed.
Lemma plain_case a alts de : plain_code a -> Forall (fun al => plain_code (a_body al)) alts ->
  match de with Some (_, e) => plain_code e | None => True end -> plain_code (Case a alts de).
Proof.
  intros H1 H2 H3. split; [destruct alts as [|? ?]; [destruct de|]; exact I || reflexivity|]. split; [exact H1|]. split; [|exact H3].
  apply all_in. rewrite Forall_forall in H2. exact H2.
Qed.
Lemma plain_try e x t t' : plain_code e -> plain_code (Try e x t (Op (OVariant t') [Var x])).
Proof. intros. split; [cbn; eauto|]. split; [assumption|]. apply plain_op. repeat constructor. Qed.

Lemma mapM_plain {A B} (f : A -> res B) (P : B -> Prop) l l' : mapM f l = Ok l' -> (forall a b, f a = Ok b -> P b) -> Forall P l'.
Proof.
  intros H K. revert l' H. induction l as [|a l IH]; cbn; intros l' H; [injection H as <-; constructor|].
  apply bind_ok in H as (b & Hb & H). apply bind_ok in H as (bs & Hbs & H). injection H as <-. constructor; eauto.
Qed.

Ltac bfree H :=
  lazymatch type of H with
  | bind _ _ = _ => let x := fresh "v" in let Hx := fresh "Hv" in apply bind_ok in H; destruct H as (x & Hx & H)
  end.
Ltac bfrees H := repeat (bfree H).

Ltac plain_step :=
  first
    [ assumption
    | lazymatch goal with
      | |- plain_code (Lit _) => apply plain_lit
      | |- plain_code (Var _) => apply plain_var
      | |- plain_code (Op _ _) => apply plain_op
      | |- plain_code (If _ _ _) => apply plain_if
      | |- plain_code (Let _ _ _ _) => apply plain_let
      | |- plain_code (LetRec _ _) => apply plain_letrec; cbn [f_body]
      | |- plain_code (Case _ _ _) => apply plain_case
      | |- plain_code (a_body _) => progress cbn [a_body]
      | |- plain_code (f_body _) => progress cbn [f_body]
      | |- match Some _ with _ => _ end => cbn
      | |- match None with _ => _ end => exact I
      | |- Forall _ [] => constructor
      | |- Forall _ (_ :: _) => constructor
      | |- Forall _ (_ ++ _) => apply Forall_app; split
      | |- True => exact I
      end ].
Ltac plain_tac := repeat plain_step.

Section Lower.
  Variable n : nat.
  Variable E : tenv.
  Variable R : renv.
  Variable C : config.

  Lemma make_error_plain e : plain_code e -> plain_code (make_error e).
  Proof. intros H. unfold make_error. plain_tac. Qed.
  Lemma debug_call_plain e : plain_code e -> plain_code (debug_call e).
  Proof. intros H. unfold debug_call, information_function. plain_tac. Qed.
  Lemma equal_call_plain l r : plain_code l -> plain_code r -> plain_code (equal_call l r).
  Proof. intros H H1. unfold equal_call, information_function. plain_tac. Qed.
  Lemma error_source_plain e : plain_code e -> plain_code (error_source e).
  Proof. intros H. unfold error_source. plain_tac. Qed.

  Lemma alternative_plain x t e al : compile_alternative n E C x t e = Ok al -> plain_code e -> plain_code (a_body al).
  Proof.
    unfold compile_alternative. intros H He. bfree H. bfree H. destruct v0.
    - bfree H. injection H as <-. plain_tac.
    - bfree H. bfree H. injection H as <-. plain_tac.
  Qed.

  Lemma field_lets_plain fts fs e : Forall (fun f => plain_code (snd f)) fs -> plain_code e ->
    forall e', field_lets n E C fts fs e = Ok e' -> plain_code e'.
  Proof.
    intros H He. induction H as [|f fs Hf _ IH]; cbn [field_lets]; intros e' H; [injection H as <-; exact He|].
    bfree H. bfree H. injection H as <-. apply plain_let; [exact Hf|]. eauto.
  Qed.

  Lemma lazy_loop_plain d ts es : plain_code (f_body d) -> Forall plain_code es -> plain_code (lazy_loop C d ts es).
  Proof. intros H1 H2. unfold lazy_loop. plain_tac. Qed.

  Lemma concrete_value_plain e t e' : plain_code e -> concrete_value n E C e t = Ok e' -> plain_code e'.
  Proof.
    unfold concrete_value. intros He H. bfree H.
    destruct v; try discriminate H; bfree H; match type of H with match ?o with _ => _ end = _ => destruct o end;
      injection H as <-; plain_tac.
  Qed.

  Lemma arg_in {A} i (l : list A) a : match nth_error l i with Some a => Ok a | None => Panic end = Ok a -> In a l.
  Proof. destruct (nth_error l i) eqn:En; [|discriminate]. intros H. injection H as <-. eapply nth_error_In. exact En. Qed.

  Section Expression.
    Variable compile : hexpr -> res expr.
    Hypothesis Hc : forall e e', compile e = Ok e' -> plain_code e'.

    Lemma compile_all es es' : mapM compile es = Ok es' -> Forall plain_code es'.
    Proof. intros H. eapply mapM_plain; [exact H|]. exact Hc. Qed.

    Lemma iteration_plain f m t e : map_iteration n E C compile f m t = Ok e -> plain_code e.
    Proof.
      unfold map_iteration. intros H. bfree H. bfree H. bfree H. injection H as <-.
      apply lazy_loop_plain; [cbn; eauto|]. apply Hc in Hv1. plain_tac.
    Qed.

    Lemma built_in_plain f ft args e : compile_built_in n E C compile f ft args = Ok e -> plain_code e.
    Proof.
      unfold compile_built_in. intros H. bfree H. bfree H. bfree H. apply compile_all in Hv1.
      assert (Ha : forall i a, match nth_error v1 i with Some a => Ok a | None => Panic end = Ok a -> plain_code a).
      { intros i a Hi. apply arg_in in Hi. rewrite Forall_forall in Hv1. auto. }
      destruct f; bfrees H;
        try (injection H as <-;
             repeat match goal with
               | K : match nth_error v1 _ with _ => _ end = Ok _ |- _ => apply Ha in K
               | K : compile _ = Ok _ |- _ => apply Hc in K
               end;
             first [apply make_error_plain; assumption|apply debug_call_plain; assumption
                   |apply equal_call_plain; assumption|apply error_source_plain; assumption
                   |plain_tac; try (apply debug_call_plain; assumption)]);
        try (eapply iteration_plain; exact H).
    Qed.

    Lemma comprehension_plain t el bs e : comprehension n E C compile t el bs = Ok e -> plain_code e.
    Proof.
      unfold comprehension. destruct bs as [|b bs]; [discriminate|]. intros H. bfree H. bfree H. bfree H. injection H as <-.
      apply lazy_loop_plain; [cbn; eauto|]. eapply mapM_plain; [exact Hv1|]. intros a e. apply Hc.
    Qed.

    Lemma branch_plain x b al : compile_branch n E C compile x b = Ok al -> plain_code (a_body al).
    Proof. unfold compile_branch. intros H. bfree H. eapply alternative_plain; eauto. Qed.

    Lemma binary_plain k o l r e : compile_binary n E R C compile k o l r = Ok e -> plain_code e.
    Proof.
      unfold compile_binary. intros H.
      assert (Hb : forall f, bind (compile l) (fun l => bind (compile r) (fun r => Ok (f l r))) = Ok e ->
                 (forall a b, plain_code a -> plain_code b -> plain_code (f a b)) -> plain_code e).
      { intros f Hf K. bfree Hf. bfree Hf. injection Hf as <-. eauto. }
      destruct o as [t|o|o|t [|]|o].
      - bfree H. destruct v; try discriminate H; (eapply Hb; [exact H|]); intros; cbv beta; plain_tac.
      - eapply Hb; [exact H|]. intros; cbv beta; plain_tac.
      - eauto.
      - bfree H. bfree H. destruct v0; try (bfree H; eauto; fail); (eapply Hb; [exact H|]); intros; cbv beta; plain_tac.
      - eauto.
      - eapply Hb; [exact H|]. intros; cbv beta; plain_tac.
    Qed.

    Lemma else_plain x els r : compile_else n E C compile x els = Ok r ->
      Forall (fun al => plain_code (a_body al)) (fst r) /\ match snd r with Some (_, e) => plain_code e | None => True end.
    Proof.
      unfold compile_else. destruct els as [[[t|] e]|]; intros H; [|discriminate|injection H as <-; split; [constructor|exact I]].
      bfree H. destruct v; bfree H; injection H as <-.
      - split; [constructor|]. cbn. eauto.
      - split; [|exact I]. constructor; [|constructor]. eapply branch_plain; eauto.
    Qed.

    Lemma coercion_plain from to e e' : compile_coercion n E C compile from to e = Ok e' -> plain_code e'.
    Proof.
      unfold compile_coercion. intros H. bfree H. bfree H. bfree H. apply Hc in Hv1.
      assert (Hw : bind (concrete_name n E C v) (fun o =>
                match o with
                | Some r => bind (concrete_value n E C v1 v) (fun v => Ok (Op (OVariant (Mir.TRecord r)) [v]))
                | None => Panic
                end) = Ok e' -> plain_code e').
      { intros K. bfree K. destruct v2; [|discriminate]. bfree K. injection K as <-.
        pose proof (concrete_value_plain _ _ _ Hv1 Hv3) as Hp. plain_tac. }
      destruct v; try (bfree H; injection H as <-; plain_tac; fail); try (injection H as <-; assumption); try discriminate H;
        try (apply Hw; exact H); destruct v0; try (injection H as <-; assumption); apply Hw; exact H.
    Qed.
  End Expression.

  Theorem compile_plain k : forall e e', compile n E R C k e = Ok e' -> plain_code e'.
  Proof.
    induction k as [|k IH]; [discriminate|]. intros e e' H. cbn [compile] in H.
    destruct e; try discriminate H; try (injection H as <-; plain_tac; fail).
    - destruct e; try (bfree H; bfree H; bfree H; bfree H; injection H as <-; apply plain_op; constructor; [eauto|eapply compile_all; eassumption]).
      eapply built_in_plain; [exact IH|exact H].
    - bfrees H. injection H as <-. apply plain_if; eauto.
    - bfree H. eauto.
    - bfree H. eauto.
    - bfree H. bfree H. bfree H. injection H as <-. destruct (else_plain _ IH _ _ _ Hv1) as [K1 K2].
      apply plain_case; [eauto| |exact K2]. apply Forall_app. split; [|exact K1].
      eapply mapM_plain; [exact Hv0|]. intros b al. apply branch_plain. exact IH.
    - bfrees H. injection H as <-. apply plain_letrec; cbn; eauto. apply plain_var.
    - bfrees H. injection H as <-. apply plain_let; eauto.
    - eauto.
    - eapply comprehension_plain; [exact IH|exact H].
    - bfree H. eauto.
    - eapply binary_plain; [exact IH|exact H].
    - bfree H. injection H as <-. apply plain_if; eauto; apply plain_lit.
    - bfree H. bfree H. bfree H. injection H as <-. apply plain_case; [apply plain_try; eauto| |exact I].
      constructor; [|constructor]. eapply alternative_plain; [exact Hv1|apply plain_var].
    - bfree H. bfree H. bfree H. bfree H. eapply field_lets_plain; [| |exact H].
      + eapply mapM_plain; [exact Hv1|]. intros f p Hf. cbv beta in Hf. bfree Hf. injection Hf as <-. cbn. eauto.
      + apply plain_op. eapply mapM_plain; [exact Hv2|]. intros f p Hf. cbv beta in Hf. destruct (mem _ _); [|discriminate].
        injection Hf as <-. apply plain_var.
    - destruct type as [t|]; [|discriminate]. bfrees H. injection H as <-. apply plain_op. constructor; [eauto|constructor].
    - bfree H. bfree H. bfree H. injection H as <-. apply plain_op. constructor; [eauto|]. apply Forall_map.
      eapply mapM_plain; [exact Hv1|]. intros f p Hf. cbv beta in Hf. bfrees Hf. injection Hf as <-. cbn. eauto.
    - bfrees H. injection H as <-. apply plain_letrec; cbn; eauto. apply plain_var.
    - eapply coercion_plain; [exact IH|exact H].
  Qed.

  Lemma definition_plain k d g : compile_definition n E R C k d = Ok g -> plain_code (f_body g).
  Proof.
    unfold compile_definition. intros H. bfree H. bfree H. apply compile_plain in Hv. destruct (l_arguments (snd d)).
    - injection H as <-. exact Hv.
    - bfree H. injection H as <-. exact Hv.
  Qed.

  (** ** Type information *)
  Lemma variant_value_plain e t e' : plain_code e -> variant_value n E C e t = Ok e' -> plain_code e'.
  Proof.
    unfold variant_value. intros He H. bfree H.
    destruct v; try (injection H as <-; exact He); bfree H; bfree H; injection H as <-; apply plain_op;
      (constructor; [eapply concrete_value_plain; eassumption|constructor]).
  Qed.
  Lemma unboxed_value_plain e t e' : plain_code e -> unboxed_value n E C e t = Ok e' -> plain_code e'.
  Proof.
    unfold unboxed_value. intros He H. bfree H. destruct v; try discriminate H. injection H as <-. plain_tac.
  Qed.
  Lemma debug_element_plain : plain_code debug_element.
  Proof. apply plain_letrec; [apply debug_call_plain|]; apply plain_var. Qed.
  Lemma equal_element_plain : plain_code equal_element.
  Proof. apply plain_letrec; [apply equal_call_plain|]; apply plain_var. Qed.

  Lemma separated_all {A} (P : A -> Prop) s l : P s -> Forall (Forall P) l -> Forall P (separated s l).
  Proof.
    intros Hs. induction 1 as [|x l Hx Hl IH]; [constructor|]. cbn [separated]. destruct l; [exact Hx|].
    apply Forall_app. split; [exact Hx|]. constructor; [exact Hs|exact IH].
  Qed.

  Lemma debug_fields_plain r fts : forall i l, debug_fields n E C r i fts = Ok l -> Forall (Forall plain_code) l.
  Proof.
    induction fts as [|[x t] fts IH]; intros i l H; cbn [debug_fields] in H; [injection H as <-; constructor|].
    bfree H. bfree H. injection H as <-. constructor; [|eauto]. constructor; [apply plain_lit|]. constructor; [|constructor].
    apply debug_call_plain. eapply variant_value_plain; [|exact Hv]. plain_tac.
  Qed.

  Lemma debug_body_plain t e : debug_body n E R C t = Ok e -> plain_code e.
  Proof.
    unfold debug_body. intros H. destruct t; try discriminate H; try (injection H as <-; unfold text; plain_tac; fail).
    - injection H as <-. unfold text. plain_tac. apply debug_call_plain, error_source_plain, plain_var.
    - bfree H. injection H as <-. apply unboxed_value_plain in Hv; [|apply plain_var]. unfold text. plain_tac; apply debug_element_plain.
    - bfree H. injection H as <-. apply unboxed_value_plain in Hv; [|apply plain_var]. unfold text. plain_tac; apply debug_element_plain.
    - bfree H. bfree H. injection H as <-. apply plain_op. constructor; [apply plain_lit|]. apply Forall_app.
      split; [|repeat constructor]. apply separated_all; [apply plain_lit|]. eapply debug_fields_plain. exact Hv0.
  Qed.

  Lemma merged_plain l r : plain_code l -> plain_code r -> plain_code (merged_result l r).
  Proof. intros H H1. unfold merged_result, boolean_variant, none_variant. plain_tac. Qed.

  Lemma field_results_plain r fts : forall i e e', plain_code e -> equal_field_results n E C r i fts e = Ok e' -> plain_code e'.
  Proof.
    induction fts as [|[x t] fts IH]; intros i e e' He H; cbn [equal_field_results] in H; [injection H as <-; exact He|].
    bfree H. bfree H. apply variant_value_plain in Hv; [|plain_tac]. apply variant_value_plain in Hv0; [|plain_tac].
    eapply IH; [|exact H]. apply merged_plain; [exact He|]. apply equal_call_plain; assumption.
  Qed.

  Lemma equal_body_plain t e : equal_body n E R C t = Ok e -> plain_code e.
  Proof.
    unfold equal_body. intros H. destruct t; try discriminate H;
      try (injection H as <-; unfold boolean_variant, none_variant; plain_tac; fail).
    - injection H as <-. apply equal_call_plain; apply error_source_plain, plain_var.
    - bfree H. bfree H. injection H as <-. apply unboxed_value_plain in Hv; [|apply plain_var].
      apply unboxed_value_plain in Hv0; [|apply plain_var]. plain_tac; apply equal_element_plain.
    - bfree H. bfree H. injection H as <-. apply unboxed_value_plain in Hv; [|apply plain_var].
      apply unboxed_value_plain in Hv0; [|apply plain_var]. plain_tac; apply equal_element_plain.
    - bfree H. eapply field_results_plain; [|exact H]. unfold boolean_variant. plain_tac.
  Qed.

  Lemma information_plain t ds : information_definitions n E R C t = Ok ds -> Forall (fun d => plain_code (f_body d)) ds.
  Proof.
    unfold information_definitions. intros H. bfree H. bfree H. bfree H. bfree H. bfree H. injection H as <-.
    unfold debug_definition in Hv. bfree Hv. bfree Hv. bfree Hv. injection Hv as <-.
    unfold reflect_equal_definition in Hv0. bfree Hv0. bfree Hv0. bfree Hv0. injection Hv0 as <-.
    repeat match goal with K : debug_body _ _ _ _ _ = Ok _ |- _ => apply debug_body_plain in K | K : equal_body _ _ _ _ _ = Ok _ |- _ => apply equal_body_plain in K end.
    unfold boolean_variant. constructor; [|constructor; [|constructor; [|constructor]]]; cbn [f_body]; plain_tac.
  Qed.

  Theorem lower_plain k p M : lower_program n k E R C p = Ok M -> plain_module false M.
  Proof.
    unfold lower_program. intros H. bfree H. bfree H. bfree H. bfree H. bfree H. bfree H. bfree H. bfree H. bfree H.
    injection H as <-. intros d Hd. cbn [m_defs] in Hd. revert d Hd. apply Forall_forall.
    apply Forall_app. split; [|apply Forall_app; split].
    - eapply mapM_plain; [exact Hv6|]. intros a b. apply definition_plain.
    - apply Forall_concat. eapply mapM_plain; [exact Hv1|]. intros a b. apply information_plain.
    - unfold default_definitions, text, none_variant. constructor; [|constructor; [|constructor; [|constructor]]]; cbn [f_body]; change (every (plain_node false)) with plain_code; plain_tac.
  Qed.
End Lower.

Theorem compile_program_plain n k C p M : compile_program n k C p = Ok M -> plain_module false M.
Proof. unfold compile_program. intros H. bfree H. bfree H. eapply lower_plain. exact H. Qed.
