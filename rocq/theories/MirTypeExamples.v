(** Examples for the type checker of the middle end. *)
From Coq Require Import String List ZArith Bool.
From Verif Require Import Base Mir MirSpec MirScopeSpec MirNormSpec MirEnv MirEnvProofs MirSim MirTypeCheck MirTypeSpec
  MirExamples MirLiftExamples MirRcExamples.
Import ListNotations.
Local Open Scope string_scope.

(** ** Checks *)
Definition built_part (e : expr) : bool :=
  match e with
  | LetRec d _ => negb (f_thunk d) || match f_args d with [] => true | _ => false end
  | Case _ _ None => false
  | _ => true
  end.

Definition built (m : mmodule) : bool :=
  forallb (fun p => match snd p with TFunction _ _ => true | _ => false end) (m_declared m) &&
  forallb (fun d => match f_env d with [] => true | _ => false end &&
                    (negb (f_thunk d) || match f_args d with [] => true | _ => false end)) (m_defs m) &&
  all_parts built_part m &&
  forallb (fun d => negb (mem (m_fallback m) (map fst (f_args d))) && negb (mem (m_fallback m) (binders (f_body d))))
    (m_defs m).

Lemma built_spec m : built m = true -> well_built m /\ cases_have_default m /\ fallback_not_hidden m.
Proof.
  unfold built. rewrite !andb_true_iff, !forallb_forall. intros [[[H1 H2] H3] H4]. split; [split; [|split]|split].
  - intros g t Hg. specialize (H1 _ Hg). cbn in H1. destruct t; try discriminate. eauto.
  - intros d Hd. specialize (H2 d Hd). apply andb_true_iff in H2 as [E1 E2].
    destruct (f_env d); [|discriminate]. split; [reflexivity|]. intros Ht. rewrite Ht in E2.
    destruct (f_args d); [reflexivity|discriminate].
  - intros g d e Hg Hw Ht. pose proof (all_parts_spec _ _ H3 _ _ Hg Hw) as Hp. cbn in Hp. rewrite Ht in Hp.
    destruct (f_args d); [reflexivity|discriminate].
  - intros g a alts Hg Hw. pose proof (all_parts_spec _ _ H3 _ _ Hg Hw) as Hp. discriminate Hp.
  - intros g Hg. specialize (H4 g Hg). apply andb_true_iff in H4 as [E1 E2].
    apply negb_true_iff in E1, E2. apply mem_false in E1, E2. auto.
Qed.

Definition bare_part (e : expr) : bool :=
  match e with
  | LetRec d _ => match f_env d with [] => true | _ => false end
  | _ => true
  end.

Lemma local_within vars e scope d : local vars e scope d -> exists e', within (LetRec d e') e.
Proof.
  induction 1; try (destruct IHlocal as (e' & W); exists e'; econstructor; eassumption).
  - exists e. constructor.
Qed.

(** Before inference environments are empty. *)
Lemma bare_right m : all_parts bare_part m = true -> environments_right Lexical m.
Proof.
  intros H scope d (g & Hg & Hl) x t Hx. apply local_within in Hl as (e & Hl).
  pose proof (all_parts_spec _ _ H _ _ Hg Hl) as Hp. cbn in Hp. destruct (f_env d); [destruct Hx|discriminate].
Qed.

(** After inference they are exact. *)
Lemma inferred_right m : environments_right Declared (infer_module m).
Proof. intros scope d Hl. apply infer_exact in Hl as [_ Hl]. exact Hl. Qed.

(** ** A module

    [f n] keeps a pair, a thunk that logs and a function that captures both:
    [p = pair{n, "a"}; t = \\() { print(p.second); p.first };
     g = \(k) { if k < 1 { t() } else { g(k - 1) } };
     v = read(n)?; if x = v as number { g(x) } else if as string or none { t() }
     else { _ = apply(g); (p with first = 1).first }]. *)
Definition typed_body : expr :=
  Let "p" (TRecord "pair") (Op (ORecord "pair") [Var "n"; str "a"])
  (LetRec (Fdef "t" [] [] TNumber
             (Let "_" TNone (call1 TByteString TNone (Var "print") (Op (OField "pair" 1) [Var "p"]))
                (Op (OField "pair" 0) [Var "p"])) true)
  (LetRec (Fdef "g" [] [("k", TNumber)] TNumber
             (If (Op (OCompare LessThan) [Var "k"; num 1])
                 (Op (OCall [] TNumber) [Var "t"])
                 (call1 TNumber TNumber (Var "g") (Op (OArith Subtract) [Var "k"; num 1]))) false)
  (Let "v" TVariant
     (Try (call1 TNumber TVariant (Var "read") (Var "n")) "e" (TRecord "pair") (Op (OVariant TNumber) [Op (OField "pair" 0) [Var "e"]]))
  (Op (OVariant TNumber)
    [Case (Var "v")
       [Alt [TNumber] "x" (call1 TNumber TNumber (Var "g") (Var "x"));
        Alt [TByteString; TNone] "y"
          (Let "i" TByteString (call1 TVariant TByteString (Op OTypeInfo [Var "y"]) (Var "y"))
             (Op (OCall [] TNumber) [Var "t"]))]
       (Some ("z", Let "_" TNone (call1 number_to_number TNone (Var "apply") (Var "g"))
                     (Op (OField "pair" 0) [Op (OUpdate "pair" [0]) [Var "p"; num 1]])))])))).

Definition typed_example : mmodule :=
  MModule [("pair", [TNumber; TByteString])]
    [("print", print_type); ("read", TFunction [TNumber] TVariant); ("apply", TFunction [number_to_number] TNone);
     ("describe", TFunction [TVariant] TByteString)]
    [Fdef "f" [] [("n", TNumber)] TVariant typed_body false; debug_function]
    [(TByteString, "describe")] "debug".

(** [read] answers with [v]; then the outside runs [sc] at its next call and
    answers with [u]. *)
Definition reader (v u : term) (sc : script) : world :=
  World (w_arith integers) (w_compare integers)
        (fun seen => if Nat.eqb (length seen) 2 then sc else [])
        (fun seen => if Nat.eqb (length seen) 1 then v else u).

(** ** What the checker does not see *)
Definition one (types : list (string * list mtype)) (declared : list (string * mtype)) (r : mtype) (e : expr) : mmodule :=
  MModule types declared [Fdef "f" [] [("x", TVariant)] r e false; debug_function] [] "debug".

(** A case expression without an alternative for numbers. *)
Definition missing_alternative : mmodule :=
  one [] [] TNumber (Case (Var "x") [Alt [TNone] "y" (num 1)] None).

(** A local function whose environment lacks, or lies about, a variable. *)
Definition missing_environment : mmodule :=
  one [] [] TVariant (LetRec (Fdef "g" [] [] TVariant (Var "x") false) (Op (OCall [] TVariant) [Var "g"])).

Definition wrong_environment : mmodule :=
  one [] [] TNumber
    (LetRec (Fdef "g" [("x", TNumber)] [] TNumber (Op (OArith Add) [Var "x"; num 1]) false)
       (Op (OCall [] TNumber) [Var "g"])).

(** A local variable with the name of the fallback function. *)
Definition hidden_fallback : mmodule :=
  one [] [] TNumber
    (Let "debug" TNumber (num 1) (Op (OArith Add) [Op OTypeInfo [Var "x"]; num 1])).

Definition bool_script : script := [(ByName "f", [TmVariant TBoolean (TmBool true)])].

Definition is_wrong (r : out unit) : bool := match r with Wrong => true | _ => false end.
