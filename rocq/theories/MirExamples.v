(** Modules that the examples beside the theorems use, and ways to check their
    conditions by computation. *)
From Coq Require Import String List ZArith Bool.
From Verif Require Import Base Names Mir MirSpec MirScopeSpec MirNormSpec MirEnv MirEnvProofs MirSim.
Import ListNotations.
Local Open Scope string_scope.

(** ** Checks *)
(** A name a user can write has no colon. *)
Lemma plain_not_made b n : has_colon n = false -> ~ made_from b n.
Proof.
  intros H (k & _ & ->). unfold numbered in H. rewrite has_colon_app in H.
  apply orb_false_iff in H as [_ H]. discriminate.
Qed.

Definition plain_def (d : fdef) : bool :=
  forallb (fun x => negb (has_colon x)) (binders (f_body d) ++ fv (f_body d)).

Definition plain_globals (m : mmodule) : bool :=
  forallb (fun x => negb (has_colon x)) (map f_name (m_defs m) ++ map fst (m_declared m)).

Lemma global_type_in m g : global_type m g <> None ->
  In g (map f_name (m_defs m) ++ map fst (m_declared m)).
Proof.
  unfold global_type. intros H. rewrite in_app_iff.
  destruct (find_def (m_defs m) g) as [d|] eqn:E.
  - left. apply find_some in E as [E1 E2]. apply String.eqb_eq in E2. subst. apply in_map. assumption.
  - right. destruct (lookup (m_declared m) g) as [t|] eqn:El; [|congruence].
    apply lookup_In in El. apply in_map_iff. exists (g, t). auto.
Qed.

Lemma plain_hygienic m :
  forallb plain_def (m_defs m) = true -> plain_globals m = true -> hygienic m.
Proof.
  intros H1 H2 d Hd b n Hb Hn. apply plain_not_made.
  rewrite forallb_forall in H1. specialize (H1 d Hd). unfold plain_def in H1.
  unfold plain_globals in H2. rewrite forallb_forall in H1, H2.
  apply negb_true_iff. destruct Hn as [Hn|[Hn|Hn]].
  - apply H1, in_app_iff. auto.
  - apply H1, in_app_iff. right. apply fv_free. assumption.
  - apply H2, global_type_in. assumption.
Qed.

Lemma plain_no_normal m : forallb plain_def (m_defs m) = true -> no_normal_names m.
Proof.
  intros H d k Hd. rewrite forallb_forall in H. specialize (H d Hd). unfold plain_def in H.
  rewrite forallb_forall in H.
  assert (Hc : has_colon (numbered "anf:v" k) = true) by reflexivity.
  split; intros Hx.
  - specialize (H (numbered "anf:v" k)). rewrite in_app_iff, Hc in H. apply fv_free in Hx.
    discriminate (H (or_intror Hx)).
  - specialize (H (numbered "anf:v" k)). rewrite in_app_iff, Hc in H. discriminate (H (or_introl Hx)).
Qed.

(** All operations of an expression with the numbers of their operands. *)
Fixpoint operations (e : expr) : list (operation * nat) :=
  match e with
  | Lit _ | Var _ => []
  | Op o es => (o, length es) :: flat_map operations es
  | If c t e => operations c ++ operations t ++ operations e
  | Case a alts de =>
      operations a ++ flat_map (fun al => operations (a_body al)) alts ++
      match de with Some (_, e) => operations e | None => [] end
  | Let _ _ b e => operations b ++ operations e
  | LetRec d e => operations (f_body d) ++ operations e
  | Try o _ _ e => operations o ++ operations e
  | CloneVars _ e | DropVars _ e => operations e
  end.

Lemma within_operations o es e : within (Op o es) e -> In (o, length es) (operations e).
Proof.
  intros H. remember (Op o es) as e' eqn:E.
  induction H; subst; cbn [operations]; rewrite ?in_app_iff, ?in_flat_map; auto.
  - left. reflexivity.
  - right. apply in_flat_map. eauto.
  - right. left. eauto.
Qed.

Lemma operations_shaped m :
  (forall o k, In (o, k) (flat_map (fun d => operations (f_body d)) (m_defs m)) -> arity m o k) -> shaped m.
Proof.
  intros H d o es Hd Hw. apply H. apply in_flat_map. exists d. split; [assumption|].
  apply within_operations. assumption.
Qed.

(** Distinct binders. *)
Fixpoint nodupb (l : list string) : bool :=
  match l with
  | [] => true
  | x :: l' => negb (mem x l') && nodupb l'
  end.

Lemma nodupb_nodup l : nodupb l = true -> NoDup l.
Proof.
  induction l as [|x l IH]; cbn; [constructor|]. intros H. apply andb_true_iff in H as [H1 H2].
  constructor; [|auto]. intros Hi. apply mem_In in Hi. rewrite Hi in H1. discriminate.
Qed.

Definition distinct_def (d : fdef) : bool :=
  nodupb (binders (f_body d)) && forallb (fun x => negb (mem x (binders (f_body d)))) (fv (f_body d)).

Lemma distinct_binders_check m : forallb distinct_def (m_defs m) = true -> distinct_binders m.
Proof.
  intros H d Hd. rewrite forallb_forall in H. specialize (H d Hd). unfold distinct_def in H.
  apply andb_true_iff in H as [H1 H2]. split; [apply nodupb_nodup; assumption|].
  intros x Hx Hb. apply fv_free in Hx. rewrite forallb_forall in H2. specialize (H2 x Hx).
  apply mem_In in Hb. rewrite Hb in H2. discriminate.
Qed.

(** All local functions. *)
Fixpoint local_defs (e : expr) : list fdef :=
  match e with
  | Lit _ | Var _ => []
  | Op o es => flat_map local_defs es
  | If c t e => local_defs c ++ local_defs t ++ local_defs e
  | Case a alts de =>
      local_defs a ++ flat_map (fun al => local_defs (a_body al)) alts ++
      match de with Some (_, e) => local_defs e | None => [] end
  | Let _ _ b e => local_defs b ++ local_defs e
  | LetRec d e => d :: local_defs (f_body d) ++ local_defs e
  | Try o _ _ e => local_defs o ++ local_defs e
  | CloneVars _ e | DropVars _ e => local_defs e
  end.

Lemma local_local_defs vars e scope d : local vars e scope d -> In d (local_defs e).
Proof.
  induction 1; cbn [local_defs In]; rewrite ?in_app_iff, ?in_flat_map; eauto.
Qed.

Lemma distinct_arguments_check m :
  forallb (fun g => forallb (fun d => nodupb (map fst (f_args d))) (local_defs (f_body g))) (m_defs m) = true ->
  distinct_arguments m.
Proof.
  intros H scope d (g & Hg & Hl). apply local_local_defs in Hl.
  rewrite forallb_forall in H. specialize (H g Hg). rewrite forallb_forall in H.
  apply nodupb_nodup, H, Hl.
Qed.

(** ** A module *)
Definition number_to_number : mtype := TFunction [TNumber] TNumber.
Definition print_type : mtype := TFunction [TByteString] TNone.

Definition call1 (t r : mtype) (f e : expr) : expr := Op (OCall [t] r) [f; e].
Definition num (n : Z) : expr := Lit (LNumber n).
Definition str (s : string) : expr := Lit (LBytes s).

(** [f n] shadows [x], prints nested concatenations, and calls a closure that
    captures variables, inside operands. *)
Definition example_body : expr :=
  Let "x" TNumber (Op (OArith Add) [Var "n"; num 1])
   (Let "u" TNone
     (call1 TByteString TNone (Var "print") (Op OConcat [str "a"; Op OConcat [str "b"; str "c"]]))
     (LetRec (Fdef "g" [] [("k", TNumber)] TNumber
                (Let "x" TNumber (Op (OArith Multiply) [Var "k"; Var "x"])
                   (Let "z" TNone (call1 TByteString TNone (Var "print") (str "g"))
                      (Op (OArith Add) [Var "x"; Var "n"]))) false)
        (Op (OArith Subtract)
           [call1 TNumber TNumber (Var "g")
              (If (Op (OCompare LessThan) [Var "x"; num 3]) (num 7)
                 (Let "x" TNumber (num 10) (Op (OArith Add) [Var "x"; Var "x"])));
            Let "y" TNumber (Var "x") (Op (OArith Multiply) [Var "y"; Var "y"])]))).

Definition example : mmodule :=
  MModule [] [("print", print_type)]
    [Fdef "f" [] [("n", TNumber)] TNumber example_body false;
     Fdef "debug" [] [("v", TVariant)] TByteString (str "?") false]
    [] "debug".

(** The same with all binders distinct. *)
Definition renamed_body : expr :=
  Let "x" TNumber (Op (OArith Add) [Var "n"; num 1])
   (Let "u" TNone
     (call1 TByteString TNone (Var "print") (Op OConcat [str "a"; Op OConcat [str "b"; str "c"]]))
     (LetRec (Fdef "g" [] [("k", TNumber)] TNumber
                (Let "x1" TNumber (Op (OArith Multiply) [Var "k"; Var "x"])
                   (Let "z" TNone (call1 TByteString TNone (Var "print") (str "g"))
                      (Op (OArith Add) [Var "x1"; Var "n"]))) false)
        (Op (OArith Subtract)
           [call1 TNumber TNumber (Var "g")
              (If (Op (OCompare LessThan) [Var "x"; num 3]) (num 7)
                 (Let "x2" TNumber (num 10) (Op (OArith Add) [Var "x2"; Var "x2"])));
            Let "y" TNumber (Var "x") (Op (OArith Multiply) [Var "y"; Var "y"])]))).

Definition example_renamed : mmodule :=
  set_defs example
    [Fdef "f" [] [("n", TNumber)] TNumber renamed_body false;
     Fdef "debug" [] [("v", TVariant)] TByteString (str "?") false].

Definition integers : world :=
  World (fun o a b => match o with
                      | Add => a + b | Subtract => a - b | Multiply => a * b | Divide => a / b
                      end)%Z
        (fun o a b => match o with
                      | LessThan => Z.ltb a b | _ => Z.eqb a b
                      end)
        (fun _ => []) (fun _ => TmNone).

(** Outside calls [f 5]. *)
Definition example_script : script := [(ByName "f", [TmNumber 5])].

(** [g 20] = 20 * 6 + 5, minus 36. *)
Definition example_log : list observed_event :=
  [ObCall (FName "print") [ObBytes "abc"]; ObCall (FName "print") [ObBytes "g"]; ObResult (ObNumber 89)].

Definition shown (r : out unit) : option (list observed_event) :=
  match r with
  | Done _ st => Some (observe_log st)
  | _ => None
  end.

Lemma example_infos : infos_ok example.
Proof. split; [intros t g; discriminate|]. discriminate. Qed.

Lemma example_renamed_infos : infos_ok example_renamed.
Proof. split; [intros t g; discriminate|]. discriminate. Qed.
