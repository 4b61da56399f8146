(** Examples of reference counting, and ways to check its conditions by
    computation. *)
From Coq Require Import String List ZArith Bool Lia.
From Verif Require Import Base Names Mir MirSpec MirScopeSpec MirNormSpec MirEnv MirEnvProofs MirSim MirRc MirRcSpec
  MirRcProofs MirRcHiding MirRcValidSpec MirRcComplete MirRcAccept MirExamples MirLiftExamples MirPipeline.
Import ListNotations.
Local Open Scope string_scope.
Local Open Scope list_scope.

(** ** Checks *)
(** All parts of an expression. *)
Fixpoint parts (e : expr) : list expr :=
  e :: match e with
       | Lit _ | Var _ => []
       | Op o es => flat_map parts es
       | If c t e => parts c ++ parts t ++ parts e
       | Case a alts de =>
           parts a ++ flat_map (fun al => parts (a_body al)) alts ++
           match de with Some (_, e) => parts e | None => [] end
       | Let _ _ b e => parts b ++ parts e
       | LetRec d e => parts (f_body d) ++ parts e
       | Try o _ _ e => parts o ++ parts e
       | CloneVars _ e | DropVars _ e => parts e
       end.

Lemma within_parts a e : within a e -> In a (parts e).
Proof.
  induction 1; try (right; cbn; rewrite ?in_app_iff, ?in_flat_map; eauto; fail).
  destruct e; left; reflexivity.
Qed.

Definition all_parts (p : expr -> bool) (m : mmodule) : bool :=
  forallb (fun g => forallb p (parts (f_body g))) (m_defs m).

Lemma all_parts_spec p m : all_parts p m = true -> forall g a, In g (m_defs m) -> within a (f_body g) -> p a = true.
Proof.
  unfold all_parts. rewrite forallb_forall. intros H g a Hg Ha. specialize (H g Hg). rewrite forallb_forall in H.
  apply H, within_parts, Ha.
Qed.

Definition simpleb (e : expr) : bool := match e with Lit _ | Var _ => true | _ => false end.

Definition normal_part (e : expr) : bool :=
  match e with
  | Op o es => negb (counted o) || Nat.leb (length es) 1 || forallb simpleb es
  | _ => true
  end.

Lemma normal_check m : all_parts normal_part m = true -> normal m.
Proof.
  intros H g o es Hg Hw Hc Hl. pose proof (all_parts_spec _ _ H _ _ Hg Hw) as Hp. cbn in Hp. rewrite Hc in Hp.
  cbn in Hp. apply orb_true_iff in Hp as [Hp|Hp]; [apply PeanoNat.Nat.leb_le in Hp; lia|].
  apply Forall_forall. intros e He. rewrite forallb_forall in Hp. specialize (Hp e He). destruct e; try discriminate; exact I.
Qed.

Definition try_part (e : expr) : bool :=
  match e with
  | Try _ x _ (Op (OVariant _) [Var y]) => String.eqb x y
  | Try _ _ _ _ => false
  | _ => true
  end.

Lemma plain_tries_check m : all_parts try_part m = true -> plain_tries m.
Proof.
  intros H g o x t e Hg Hw. pose proof (all_parts_spec _ _ H _ _ Hg Hw) as Hp. cbn in Hp.
  destruct e as [|?|o1 es|?|?|?|?|?|?|?]; try discriminate. destruct o1; try discriminate.
  destruct es as [|e es]; try discriminate. destruct e; try discriminate. destruct es; try discriminate.
  apply String.eqb_eq in Hp. subst. eauto.
Qed.

Definition scope_part (e : expr) : bool :=
  match e with
  | LetRec d _ =>
      nodupb (f_name d :: map fst (f_args d) ++ map fst (f_env d)) &&
      forallb (fun x => mem x (fv (f_body d))) (map fst (f_env d))
  | _ => true
  end.

Lemma exact_scopes_check m :
  forallb (fun g => match f_env g with [] => nodupb (map fst (f_args g)) | _ => false end) (m_defs m) = true ->
  all_parts scope_part m = true -> exact_scopes m.
Proof.
  intros H1 H2 g Hg. rewrite forallb_forall in H1. specialize (H1 g Hg).
  destruct (f_env g); [|discriminate]. split; [reflexivity|]. split; [apply nodupb_nodup; exact H1|].
  intros d e Hw. pose proof (all_parts_spec _ _ H2 _ _ Hg Hw) as Hp. cbn [scope_part] in Hp.
  apply andb_true_iff in Hp as [Hp1 Hp2]. split; [apply nodupb_nodup; exact Hp1|].
  intros x Hx. rewrite forallb_forall in Hp2. apply fv_free. apply mem_In. auto.
Qed.

Definition count_part (e : expr) : bool := match e with CloneVars _ _ | DropVars _ _ => false | _ => true end.

Lemma not_counted_check m : all_parts count_part m = true -> not_counted m.
Proof.
  intros H g Hg xs e. split; intros Hw; pose proof (all_parts_spec _ _ H _ _ Hg Hw) as Hp; discriminate Hp.
Qed.

Definition case_part (e : expr) : bool := match e with Case _ [] None => false | _ => true end.

Lemma no_empty_case_check m : all_parts case_part m = true -> no_empty_case m.
Proof. intros H g a Hg Hw. pose proof (all_parts_spec _ _ H _ _ Hg Hw) as Hp. discriminate Hp. Qed.

Definition no_shadowing_check (m : mmodule) : bool :=
  forallb (fun g => nodupb (parameters false g ++ own_binders (f_body g)) &&
                    forallb (fun e => match e with
                                      | LetRec d _ => nodupb (parameters true d ++ own_binders (f_body d))
                                      | _ => true
                                      end) (parts (f_body g))) (m_defs m).

Lemma no_shadowing_checked m : no_shadowing_check m = true -> no_shadowing m.
Proof.
  unfold no_shadowing_check. rewrite forallb_forall. intros H [|] d Hd; cbn [function_of] in Hd.
  - destruct Hd as (g & e & Hg & Hw). specialize (H g Hg). apply andb_true_iff in H as [_ H].
    rewrite forallb_forall in H. specialize (H _ (within_parts _ _ Hw)). apply nodupb_nodup. exact H.
  - specialize (H d Hd). apply andb_true_iff in H as [H _]. apply nodupb_nodup. exact H.
Qed.

(** [hides_none] for variables given by a list *)
Fixpoint hides_noneb (l : list string) (e : expr) {struct e} : bool :=
  match e with
  | Lit _ | Var _ => true
  | Op _ es =>
      (fix go es :=
         match es with
         | [] => true
         | e :: es' => hides_noneb (flat_map fv es' ++ l) e && go es'
         end) es
  | If c t e => hides_noneb (fv t ++ fv e ++ l) c && hides_noneb l t && hides_noneb l e
  | Case a alts de =>
      let b := flat_map (fun al => except (a_name al) (fv (a_body al))) alts ++
               match de with Some (y, e) => except y (fv e) | None => [] end ++ l in
      hides_noneb b a &&
      forallb (fun al => negb (mem (a_name al) b) && hides_noneb l (a_body al)) alts &&
      match de with
      | Some (y, e) => negb (mem y b) && hides_noneb l e
      | None => true
      end
  | Let x _ b e => negb (mem x l) && hides_noneb (except x (fv e) ++ l) b && hides_noneb l e
  | LetRec d e => negb (mem (f_name d) l) && hides_noneb l e
  | Try o x _ e => negb (mem x l) && hides_noneb l o
  | CloneVars _ e | DropVars _ e => hides_noneb l e
  end.

Lemma hides_noneb_ok e : forall l (L : string -> Prop), hides_noneb l e = true -> (forall x, L x -> In x l) -> hides_none L e.
Proof.
  induction e as [v|y|op es IH|c t e IHc IHt IHe|a alts de IHa IHalts IHde|y t b e IHb IHe
                  |d e IHd IHe|a y t e IHo IHe|xs e IHe|xs e IHe] using expr_ind'; intros l L H HL;
    cbn [hides_noneb hides_none] in *.
  - exact I.
  - exact I.
  - induction IH as [|e es He _ IH]; [exact I|]. apply andb_true_iff in H as [H1 H2]. split; [|auto].
    eapply He; [exact H1|]. intros x [Hx|(e' & He' & Hx)]; apply in_app_iff; [auto|left].
    apply in_flat_map. exists e'. split; [assumption|apply fv_free; assumption].
  - rewrite !andb_true_iff in H. destruct H as [[H1 H2] H3]. split; [|eauto]. eapply IHc; [exact H1|].
    intros x [Hx|[Hx|Hx]]; rewrite !in_app_iff, ?fv_free; auto.
  - set (B := fun x => (exists al, In al alts /\ x <> a_name al /\ free x (a_body al)) \/
                       match de with Some (y, e) => x <> y /\ free x e | None => False end) in *.
    set (b := flat_map _ alts ++ _) in H. rewrite !andb_true_iff in H. destruct H as [[H1 H2] H3].
    assert (HB : forall x, L x \/ B x -> In x b).
    { intros x Hx. unfold b. rewrite !in_app_iff. destruct Hx as [Hx|[(al & I1 & I2 & I3)|Hx]]; [auto|left|right; left].
      - apply in_flat_map. exists al. split; [assumption|]. apply in_except. rewrite fv_free. auto.
      - destruct de as [[y e]|]; [|destruct Hx]. apply in_except. rewrite fv_free. destruct Hx. auto. }
    assert (Hn : forall x, negb (mem x b) = true -> ~ L x /\ ~ B x).
    { intros x Hx. apply negb_true_iff, mem_false in Hx. split; intros Hy; apply Hx, HB; auto. }
    split; [eapply IHa; eassumption|]. split.
    + apply branches_distinct. intros al Hal. rewrite forallb_forall in H2. specialize (H2 al Hal).
      apply andb_true_iff in H2 as [H2 H4]. destruct (Hn _ H2). split; [assumption|]. split; [assumption|].
      rewrite Forall_forall in IHalts. eapply (IHalts al Hal); eassumption.
    + destruct de as [[y e]|]; [|exact I]. apply andb_true_iff in H3 as [H3 H4]. destruct (Hn _ H3).
      split; [assumption|]. split; [assumption|]. eapply (IHde _ _ eq_refl); eassumption.
  - rewrite !andb_true_iff in H. destruct H as [[H1 H2] H3]. apply negb_true_iff, mem_false in H1.
    split; [auto|]. split; [|eauto]. eapply IHb; [exact H2|]. intros x [Hx|[Hne Hx]]; rewrite in_app_iff, in_except, fv_free; auto.
  - rewrite !andb_true_iff in H. destruct H as [H1 H2]. apply negb_true_iff, mem_false in H1. split; [auto|eauto].
  - rewrite !andb_true_iff in H. destruct H as [H1 H2]. apply negb_true_iff, mem_false in H1. split; [auto|eauto].
  - eauto.
  - eauto.
Qed.

Definition hides_nothing_check (m : mmodule) : bool :=
  forallb (fun g => hides_noneb [] (f_body g)) (m_defs m) &&
  all_parts (fun e => match e with LetRec d _ => hides_noneb [] (f_body d) | _ => true end) m.

Lemma hides_nothing_checked m : hides_nothing_check m = true -> hides_nothing m.
Proof.
  unfold hides_nothing_check. rewrite andb_true_iff, forallb_forall. intros [H1 H2] g Hg. split.
  - eapply hides_noneb_ok; [apply H1; assumption|]. intros x [].
  - intros d e Hw. eapply hides_noneb_ok; [apply (all_parts_spec _ _ H2 _ _ Hg Hw)|]. intros x [].
Qed.

Definition shows_globals (local : bool) (d : fdef) : bool :=
  forallb (fun x => mem x (parameters local d) || negb (mem x (own_binders (f_body d)))) (uses (f_body d)).

Definition globals_check (m : mmodule) : bool :=
  forallb (shows_globals false) (m_defs m) &&
  all_parts (fun e => match e with LetRec d _ => shows_globals true d | _ => true end) m.

Lemma globals_checked m : not_counted m -> globals_check m = true -> globals_not_hidden m.
Proof.
  unfold globals_check. rewrite andb_true_iff, forallb_forall. intros Hc [H1 H2] local d x Hf Hm Hp Hb.
  assert (H : shows_globals local d = true /\ plain (f_body d)).
  { destruct local; cbn [function_of] in Hf.
    - destruct Hf as (g & e & Hg & Hw). split; [exact (all_parts_spec _ _ H2 _ _ Hg Hw)|].
      eapply plain_within; [|exact (Hc g Hg)]. eapply within_trans; [|exact Hw]. apply within_letrec_definition. constructor.
    - split; [auto|]. exact (Hc d Hf). }
  destruct H as [H P]. unfold shows_globals in H. rewrite forallb_forall in H.
  specialize (H x (mentioned_uses _ _ P Hm)). apply orb_true_iff in H as [H|H].
  - apply mem_In in H. contradiction.
  - apply negb_true_iff, mem_false in H. contradiction.
Qed.

Definition ready (m : mmodule) : bool :=
  all_parts count_part m && all_parts normal_part m && all_parts try_part m &&
  forallb (fun g => match f_env g with [] => nodupb (map fst (f_args g)) | _ => false end) (m_defs m) &&
  all_parts scope_part m && hides_nothing_check m && globals_check m && all_parts case_part m.

Lemma ready_spec m : ready m = true ->
  not_counted m /\ normal m /\ plain_tries m /\ exact_scopes m /\ hides_nothing m /\ globals_not_hidden m /\ no_empty_case m.
Proof.
  unfold ready. rewrite !andb_true_iff. intros [[[[[[[H1 H2] H3] H4] H5] H6] H7] H8].
  apply not_counted_check in H1.
  split; [assumption|]. split; [apply normal_check; assumption|].
  split; [apply plain_tries_check; assumption|]. split; [apply exact_scopes_check; assumption|].
  split; [apply hides_nothing_checked; assumption|]. split; [apply globals_checked; assumption|].
  apply no_empty_case_check; assumption.
Qed.

(** ** A module *)
(** [f s n] makes a closure that captures [s] and [n], calls it on the success
    of a try operation, and uses its arguments a different number of times on
    each path:
    [k = \() string { s + s }; x = read(s)?;
     if x = e as number { print(k()); n } else { 0 }]. *)
Definition counted_body : expr :=
  LetRec (Fdef "k" [("s", TByteString)] [] TByteString (Op OConcat [Var "s"; Var "s"]) false)
    (Let "r" TVariant
       (Case (Try (Op (OCall [TByteString] TVariant) [Var "read"; Var "s"]) "e" (TRecord "error")
                (Op (OVariant (TRecord "error")) [Var "e"]))
             [Alt [TNumber] "x"
                (Let "w" TByteString (Op (OCall [] TByteString) [Var "k"])
                   (Let "u" TNone (Op (OCall [TByteString] TNone) [Var "print"; Var "w"])
                      (Op (OVariant TNumber) [Op (OArith Add) [Var "x"; Var "n"]])))]
             (Some ("y", Var "y")))
       (Var "r")).

Definition counted_example : mmodule :=
  MModule [("error", [TVariant])] [("print", print_type); ("read", TFunction [TByteString] TVariant)]
    [Fdef "f" [] [("s", TByteString); ("n", TNumber)] TVariant counted_body false;
     Fdef "debug" [] [("v", TVariant)] TByteString (str "?") false]
    [] "debug".

(** ** Modules that are not ready *)
Definition one_function (args : arguments) (e : expr) : mmodule :=
  MModule [("error", [TVariant])]
    [("g", TFunction [TByteString] TByteString); ("read", TFunction [TByteString] TVariant);
     ("debug", TFunction [TVariant] TByteString)]
    [Fdef "f" [] args TByteString e false] [] "debug".

Definition call_g (e : expr) : expr := Op (OCall [TByteString] TByteString) [Var "g"; e].

(** [g(x) + x], not in A-normal form. *)
Definition not_normal : mmodule :=
  one_function [("x", TByteString)] (Op OConcat [call_g (Var "x"); Var "x"]).

(** A try operation that returns something else than the error. *)
Definition other_try : mmodule :=
  one_function [("x", TByteString); ("y", TByteString)]
    (Let "r" TVariant
       (Try (Op (OCall [TByteString] TVariant) [Var "read"; Var "x"]) "e" (TRecord "error")
          (Let "d" TVariant (Op (OVariant (TRecord "error")) [Var "e"]) (Var "y")))
       (Var "r")).

(** A variable cloned after its only reference has been given away. *)
Definition late_clone : mmodule :=
  one_function [("x", TByteString)]
    (Let "y" TByteString (call_g (Var "x"))
       (DropVars [("y", TByteString)] (CloneVars [("x", TByteString)] (call_g (Var "x"))))).

(** The early return leaks the outer [x]. *)
Definition shadowed_return : mmodule :=
  one_function [("x", TByteString)]
    (Let "r" TVariant
       (Let "x" TByteString (str "a")
          (Try (Op (OCall [TByteString] TVariant) [Var "read"; Var "x"]) "e" (TRecord "error")
             (Op (OVariant (TRecord "error")) [Var "e"])))
       (DropVars [("x", TByteString)] (Var "r"))).

(** The same function before counting. *)
Definition hidden_variable : mmodule :=
  one_function [("x", TByteString)]
    (Let "r" TVariant
       (Let "x" TByteString (str "a")
          (Try (Op (OCall [TByteString] TVariant) [Var "read"; Var "x"]) "e" (TRecord "error")
             (Op (OVariant (TRecord "error")) [Var "e"])))
       (Let "y" TByteString (call_g (Var "x")) (Var "r"))).

(** No path through a function is faulty: computed. *)
Definition balanced_check (local : bool) (d : fdef) : bool :=
  forallb (fun r => match r with Value o _ => nothing_owned o | Early => true | Fault => false end)
    (paths [] (f_body d) (at_entry local d)).

Lemma balanced_checked local d : balanced local d -> balanced_check local d = true.
Proof.
  intros H. apply forallb_forall. intros r Hr. specialize (H r Hr). destruct r; [assumption|reflexivity|destruct H].
Qed.
