(** Modules that the examples about lambda lifting use, and ways to check their
    conditions by computation. *)
From Coq Require Import String List ZArith Bool.
From Verif Require Import Base Names Mir MirSpec MirScopeSpec MirNormSpec MirLiftSpec MirSim MirEnv MirEnvProofs
  MirExamples.
Import ListNotations.
Local Open Scope string_scope.

Lemma within_local_defs d e1 e : within (LetRec d e1) e -> In d (local_defs e).
Proof.
  intros H. remember (LetRec d e1) as r eqn:E.
  induction H; subst; cbn [local_defs In]; rewrite ?in_app_iff, ?in_flat_map; eauto 8.
Qed.

Lemma within_var x e : within (Var x) e -> In x (fv e) \/ In x (binders e).
Proof.
  intros H. remember (Var x) as r eqn:E. rewrite !fv_free.
  induction H; subst; try specialize (IHwithin eq_refl); cbn [binders In]; rewrite ?in_app_iff, ?in_flat_map;
    try (destruct IHwithin as [Hw|Hw]; [|solve [eauto 10]]).
  - left. constructor.
  - left. econstructor; eassumption.
  - left. constructor; assumption.
  - left. apply free_if_2; assumption.
  - left. apply free_if_3; assumption.
  - left. apply free_case_argument; assumption.
  - destruct IHwithin as [Hw|Hw].
    + destruct (string_dec x (a_name al)) as [->|Hx].
      * right. right. left. exists al. split; [assumption|left; reflexivity].
      * left. eapply free_case_alternative; eassumption.
    + right. right. left. exists al. split; [assumption|right; assumption].
  - destruct IHwithin as [Hw|Hw]; [|right; right; right; right; assumption].
    destruct (string_dec x x0) as [->|Hx].
    + right. right. right. left. reflexivity.
    + left. apply free_case_default; assumption.
  - left. apply free_let_bound; assumption.
  - destruct (string_dec x x0) as [->|Hx]; [right; left; reflexivity|].
    left. apply free_let_body; assumption.
  - destruct (string_dec x (f_name d)) as [->|Hx]; [right; left; reflexivity|].
    destruct (in_dec string_dec x (map fst (f_args d))) as [Hi|Hi]; [right; auto|].
    left. apply free_letrec_definition; assumption.
  - destruct (string_dec x (f_name d)) as [->|Hx]; [right; left; reflexivity|].
    left. apply free_letrec_body; assumption.
  - left. apply free_try_operand; assumption.
  - destruct (string_dec x x0) as [->|Hx]; [right; left; reflexivity|].
    left. apply free_try_body; assumption.
  - left. apply free_clone; assumption.
  - left. apply free_drop; assumption.
Qed.

Lemma plain_not_lifted x : has_colon x = false -> ~ lifted_name x.
Proof.
  intros H [(y & i & ->)|(s & ->)].
  - unfold numbered in H. rewrite has_colon_app in H. apply orb_false_iff in H as [_ H]. discriminate.
  - discriminate.
Qed.

Definition plain_names (d : fdef) : bool :=
  forallb (fun x => negb (has_colon x))
    (map fst (f_args d) ++ binders (f_body d) ++ fv (f_body d) ++
     flat_map (fun d => map fst (f_env d)) (local_defs (f_body d))).

Lemma plain_no_lifted m : plain_globals m = true -> forallb plain_names (m_defs m) = true -> no_lifted_names m.
Proof.
  intros H1 H2. split.
  - intros g Hg. apply plain_not_lifted. apply global_type_in in Hg. unfold plain_globals in H1.
    rewrite forallb_forall in H1. apply negb_true_iff, H1, Hg.
  - intros d x Hd Hx. apply plain_not_lifted. rewrite forallb_forall in H2. specialize (H2 d Hd).
    unfold plain_names in H2. rewrite forallb_forall in H2. apply negb_true_iff, H2.
    rewrite !in_app_iff. destruct Hx as [Hx|[Hx|[Hx|(l & e & Hl & Hx)]]]; auto.
    + apply within_var in Hx. tauto.
    + apply within_local_defs in Hl. right. right. right. apply in_flat_map. eauto.
Qed.

Lemma bound_once_check m : forallb (fun d => nodupb (binders (f_body d))) (m_defs m) = true -> bound_once m.
Proof. intros H d Hd. rewrite forallb_forall in H. apply nodupb_nodup, H, Hd. Qed.

Lemma proper_environments_check m :
  forallb (fun g => forallb (fun d => nodupb (f_name d :: map fst (f_args d) ++ map fst (f_env d)))
                            (local_defs (f_body g))) (m_defs m) = true -> proper_environments m.
Proof.
  intros H g d e Hg Hw. apply within_local_defs in Hw. rewrite forallb_forall in H. specialize (H g Hg).
  rewrite forallb_forall in H. apply nodupb_nodup, H, Hw.
Qed.

Lemma no_closed_thunks_check m :
  forallb (fun g => forallb (fun d => negb (f_thunk d && match f_env d with [] => true | _ => false end))
                            (local_defs (f_body g))) (m_defs m) = true -> no_closed_thunks m.
Proof.
  intros H g d e Hg Hw Ht E. apply within_local_defs in Hw. rewrite forallb_forall in H. specialize (H g Hg).
  rewrite forallb_forall in H. specialize (H d Hw). rewrite Ht, E in H. discriminate.
Qed.

(** ** A module

    [g] captures variables and is only called, [h] captures nothing, [b] is
    passed to an outside function, [t] is a thunk. *)
Definition lift_body : expr :=
  Let "x" TNumber (Op (OArith Add) [Var "n"; num 1])
   (LetRec (Fdef "g" [("x", TNumber); ("n", TNumber)] [("k", TNumber)] TNumber
              (If (Op (OCompare LessThan) [Var "k"; num 1])
                  (Op (OArith Multiply) [Var "x"; Var "n"])
                  (call1 TNumber TNumber (Var "g") (Op (OArith Subtract) [Var "k"; num 1]))) false)
    (LetRec (Fdef "h" [] [("l", TNumber)] TNumber (Op (OArith Add) [Var "l"; num 1]) false)
     (LetRec (Fdef "b" [("x", TNumber)] [("y", TNumber)] TNumber (Op (OArith Multiply) [Var "x"; Var "y"]) false)
      (LetRec (Fdef "t" [("x", TNumber)] [] TNumber
                (Let "v" TNone (call1 TByteString TNone (Var "print") (str "t")) (Var "x")) true)
       (Let "u" TNone (call1 number_to_number TNone (Var "apply") (Var "b"))
         (Op (OArith Add)
            [call1 TNumber TNumber (Var "g") (call1 TNumber TNumber (Var "h") (num 2));
             Op (OArith Add) [Op (OCall [] TNumber) [Var "t"]; Op (OCall [] TNumber) [Var "t"]]])))))).

Definition debug_function : fdef := Fdef "debug" [] [("v", TVariant)] TByteString (str "?") false.

Definition lift_example : mmodule :=
  MModule [] [("print", print_type); ("apply", TFunction [number_to_number] TNone)]
    [Fdef "f" [] [("n", TNumber)] TNumber lift_body false; debug_function] [] "debug".

(** The outside calls the function it receives. *)
Definition caller : world :=
  World (w_arith integers) (w_compare integers)
        (fun seen => if Nat.eqb (length seen) 1 then [(ByKnown 0, [TmNumber 3])] else []) (fun _ => TmNone).

(** [b 3] = 18, then 6 * 5 + (6 + 6). *)
Definition lift_log : list observed_event :=
  [ObCall (FName "apply") [ObFunction]; ObResult (ObNumber 18); ObCall (FName "print") [ObBytes "t"];
   ObResult (ObNumber 42)].

(** A thunk that captures nothing. *)
Definition closed_thunk : mmodule :=
  MModule [] [("print", print_type)]
    [Fdef "f" [] [] TNone
       (LetRec (Fdef "t" [] [] TNone (call1 TByteString TNone (Var "print") (str "t")) true)
          (Op (OCall [] TNone) [Var "t"])) false; debug_function] [] "debug".
