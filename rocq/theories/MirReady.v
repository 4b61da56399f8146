(** The middle end makes modules that reference counting can deal with. *)
From Coq Require Import String List Bool Arith Lia.
From Verif Require Import Base Names Mir MirSim MirScopeSpec MirNormSpec MirLiftSpec MirConcat MirAlpha MirNorm MirEnv MirEnvProofs MirUniq
  MirAliasProofs MirLift MirLiftProofs MirPipeline MirPipelineSpec MirPipelineProofs MirRcSpec MirRcValidSpec MirReadySpec.
Import ListNotations.
Local Open Scope list_scope.

Section All.
  Context {A : Type}.
  Variable P : A -> Prop.
  Fixpoint all (l : list A) : Prop :=
    match l with
    | [] => True
    | a :: l' => P a /\ all l'
    end.
End All.

Lemma all_in {A} (P : A -> Prop) l : all P l <-> forall a, In a l -> P a.
Proof.
  induction l as [|a l IH]; cbn [all In].
  - split; [intros _ a []|auto].
  - rewrite IH. split.
    + intros [H1 H2] b [<-|Hb]; auto.
    + intros H. split; [apply H; auto|]. intros b Hb. apply H. auto.
Qed.

(** Every part of an expression satisfies [N]. *)
Fixpoint every (N : expr -> Prop) (e : expr) {struct e} : Prop :=
  N e /\
  match e with
  | Lit _ | Var _ => True
  | Op _ es => all (every N) es
  | If c t e => every N c /\ every N t /\ every N e
  | Case a alts de =>
      every N a /\ all (fun al => every N (a_body al)) alts /\
      match de with Some (_, e) => every N e | None => True end
  | Let _ _ b e => every N b /\ every N e
  | LetRec d e => every N (f_body d) /\ every N e
  | Try o _ _ e => every N o /\ every N e
  | CloneVars _ e | DropVars _ e => every N e
  end.

Lemma every_here (N : expr -> Prop) e : every N e -> N e.
Proof. destruct e; intros [H _]; exact H. Qed.

Lemma every_within (N : expr -> Prop) e : every N e -> forall a, within a e -> N a.
Proof.
  intros H a Hw. induction Hw; try (apply every_here; assumption);
    cbn [every] in H; apply IHHw; destruct H as [_ H]; try tauto.
  - rewrite all_in in H. auto.
  - destruct H as (_ & H & _). rewrite all_in in H. apply (H al). assumption.
Qed.

Lemma within_every (N : expr -> Prop) e : (forall a, within a e -> N a) -> every N e.
Proof.
  induction e as [v|y|op es IH|c t e IHc IHt IHe|a alts de IHa IHalts IHde|y t b e IHb IHe
                  |d e IHd IHe|a y t e IHo IHe|xs e IHe|xs e IHe] using expr_ind'; intros H;
    (split; [apply H; constructor|]).
  - exact I.
  - exact I.
  - apply all_in. rewrite Forall_forall in IH. intros e He. apply IH; [assumption|]. intros a Ha. apply H. econstructor; eassumption.
  - split; [|split]; [apply IHc|apply IHt|apply IHe]; intros a Ha; apply H; [apply within_if_1|apply within_if_2|apply within_if_3]; assumption.
  - split; [apply IHa; intros b Hb; apply H; apply within_case_argument; assumption|]. split.
    + apply all_in. rewrite Forall_forall in IHalts. intros al Hal. apply IHalts; [assumption|]. intros b Hb. apply H.
      eapply within_case_alternative; eassumption.
    + destruct de as [[x e]|]; [|exact I]. apply (IHde _ _ eq_refl). intros b Hb. apply H. apply within_case_default. assumption.
  - split; [apply IHb|apply IHe]; intros a Ha; apply H; [apply within_let_bound|apply within_let_body]; assumption.
  - split; [apply IHd|apply IHe]; intros a Ha; apply H; [apply within_letrec_definition|apply within_letrec_body]; assumption.
  - split; [apply IHo|apply IHe]; intros b Hb; apply H; [apply within_try_operand|apply within_try_body]; assumption.
  - apply IHe. intros a Ha. apply H. apply within_clone. assumption.
  - apply IHe. intros a Ha. apply H. apply within_drop. assumption.
Qed.

(** ** Conditions on parts *)
(** No references are counted, try operations return the error, and, if [c] is
    set, every case expression has a branch. *)
Definition plain_node (c : bool) (e : expr) : Prop :=
  match e with
  | CloneVars _ _ | DropVars _ _ => False
  | Try _ x _ b => exists t, b = Op (OVariant t) [Var x]
  | Case _ [] None => c = false
  | _ => True
  end.

Definition normal_node (e : expr) : Prop :=
  match e with
  | Op o es => counted o = true -> 2 <= length es -> Forall simple es
  | _ => True
  end.

Definition distinct_node (e : expr) : Prop :=
  match e with
  | LetRec d _ => NoDup (f_name d :: map fst (f_args d) ++ map fst (f_env d))
  | _ => True
  end.

Definition scope_node (e : expr) : Prop :=
  match e with
  | LetRec d _ => NoDup (f_name d :: map fst (f_args d) ++ map fst (f_env d)) /\
                  forall x, In x (map fst (f_env d)) -> In x (fv (f_body d))
  | _ => True
  end.

Definition normal_plain c e := plain_node c e /\ normal_node e.
Definition lifted_node c e := (plain_node c e /\ normal_node e) /\ scope_node e.

Lemma case_plain c (a a' : expr) alts alts' de de' : length alts' = length alts -> (de' = None <-> de = None) ->
  plain_node c (Case a alts de) -> plain_node c (Case a' alts' de').
Proof.
  destruct alts as [|al alts], alts' as [|al' alts']; try discriminate; cbn; [|auto].
  intros _ H. destruct de, de'; try auto. destruct H as [H _]. discriminate (H eq_refl).
Qed.

(** ** Concatenation *)
Lemma concat_every c e : every (plain_node c) e -> every (plain_node c) (concat_expr e).
Proof.
  induction e as [v|y|op es IH|b t e IHc IHt IHe|a alts de IHa IHalts IHde|y t b e IHb IHe
                  |d e IHd IHe|a y t e IHo IHe|xs e IHe|xs e IHe] using expr_ind'; intros [H0 H];
    cbn [concat_expr concat_convert].
  - exact (conj I I).
  - exact (conj I I).
  - assert (Ha : all (every (plain_node c)) (map concat_expr es)).
    { apply all_in. intros x Hx. apply in_map_iff in Hx as (e & <- & He). rewrite Forall_forall in IH.
      rewrite all_in in H. auto. }
    destruct op; cbn [concat_convert]; try (split; [exact I|exact Ha]).
    split; [exact I|]. apply all_in. intros x Hx. apply in_flat_map in Hx as (e & He & Hx). rewrite all_in in Ha.
    specialize (Ha e He). unfold concat_operand in Hx.
    destruct e as [| |op es1| | | | | | |]; try (destruct Hx as [<-|[]]; exact Ha).
    destruct op; try (destruct Hx as [<-|[]]; exact Ha).
    destruct Ha as [_ Ha]. rewrite all_in in Ha. auto.
  - split; [exact I|]. destruct H as (H1 & H2 & H3). auto.
  - destruct H as (H1 & H2 & H3). split.
    + eapply case_plain; [| |exact H0]; [apply map_length|]. destruct de as [[? ?]|]; split; congruence.
    + split; [auto|]. split.
      * apply all_in. intros al Hal. apply in_map_iff in Hal as (al0 & <- & Hal). cbn [a_body].
        rewrite Forall_forall in IHalts. rewrite all_in in H2. apply IHalts; [assumption|]. apply (H2 al0 Hal).
      * destruct de as [[x e]|]; [|exact I]. apply (IHde _ _ eq_refl). exact H3.
  - split; [exact I|]. destruct H. auto.
  - split; [exact I|]. destruct H. auto.
  - destruct H as [H1 H2]. destruct H0 as [t' ->]. split; [cbn; eauto|]. split; [auto|]. apply IHe. assumption.
  - destruct H0.
  - destruct H0.
Qed.

(** ** Renaming *)
Lemma map_state_all {A B S} (f : A -> S -> B * S) (P : B -> Prop) l : forall s,
  (forall a s, In a l -> P (fst (f a s))) -> all P (fst (map_state f l s)) /\ length (fst (map_state f l s)) = length l.
Proof.
  induction l as [|a l IH]; intros s H; [split; [exact I|reflexivity]|]. cbn [map_state].
  pose proof (H a s (or_introl eq_refl)) as Ha. destruct (f a s) as [b s1]. cbn [fst] in Ha.
  destruct (IH s1) as [H1 H2]; [intros a1 s2 Ha1; apply H; right; assumption|].
  destruct (map_state f l s1) as [bs s2]. cbn [fst all length] in *. auto.
Qed.

Lemma alpha_every c e : every (plain_node c) e -> forall vars cs, every (plain_node c) (fst (alpha vars e cs)).
Proof.
  induction e as [v|y|op es IH|b t e IHc IHt IHe|a alts de IHa IHalts IHde|y t b e IHb IHe
                  |d e IHd IHe|a y t e IHo IHe|xs e IHe|xs e IHe] using expr_ind'; intros [H0 H] vars cs;
    cbn [alpha].
  - exact (conj I I).
  - exact (conj I I).
  - destruct (map_state_all (alpha vars) (every (plain_node c)) es cs) as [Ha _].
    { intros e s He. rewrite Forall_forall in IH. rewrite all_in in H. apply IH; auto. }
    destruct (map_state (alpha vars) es cs). exact (conj I Ha).
  - destruct H as (H1 & H2 & H3). pose proof (IHc H1 vars cs) as K1. destruct (alpha vars b cs) as [b' cs1].
    pose proof (IHt H2 vars cs1) as K2. destruct (alpha vars t cs1) as [t' cs2].
    pose proof (IHe H3 vars cs2) as K3. destruct (alpha vars e cs2) as [e' cs3]. split; [exact I|]. auto.
  - destruct H as (H1 & H2 & H3). pose proof (IHa H1 vars cs) as K1. destruct (alpha vars a cs) as [a' cs1].
    match goal with |- context [map_state ?f alts cs1] =>
      destruct (map_state_all f (fun al => every (plain_node c) (a_body al)) alts cs1) as [K2 L2];
      [|destruct (map_state f alts cs1) as [alts' cs2]] end.
    { intros al s Hal. destruct (rename (a_name al) s) as [y s1]. rewrite Forall_forall in IHalts. rewrite all_in in H2.
      pose proof (IHalts al Hal (H2 al Hal) ((a_name al, y) :: vars) s1) as K.
      destruct (alpha ((a_name al, y) :: vars) (a_body al) s1). exact K. }
    cbn [fst] in *. destruct de as [[x e]|].
    + destruct (rename x cs2) as [y cs3]. pose proof (IHde _ _ eq_refl H3 ((x, y) :: vars) cs3) as K3.
      destruct (alpha ((x, y) :: vars) e cs3) as [e' cs4]. split; [|auto].
      eapply case_plain; [exact L2| |exact H0]. split; discriminate.
    + split; [|auto]. eapply case_plain; [exact L2| |exact H0]. split; reflexivity.
  - destruct H as (H1 & H2). destruct (rename y cs) as [z cs1]. pose proof (IHb H1 vars cs1) as K1.
    destruct (alpha vars b cs1) as [b' cs2]. pose proof (IHe H2 ((y, z) :: vars) cs2) as K2.
    destruct (alpha ((y, z) :: vars) e cs2). split; [exact I|]. auto.
  - destruct H as (H1 & H2). destruct (rename (f_name d) cs) as [f cs1].
    destruct (rename_args (map fst (f_args d)) ((f_name d, f) :: vars) cs1) as [inner cs2].
    pose proof (IHd H1 inner cs2) as K1. destruct (alpha inner (f_body d) cs2) as [b' cs3].
    pose proof (IHe H2 ((f_name d, f) :: vars) cs3) as K2. destruct (alpha ((f_name d, f) :: vars) e cs3).
    split; [exact I|]. auto.
  - destruct H as (H1 & H2). destruct H0 as [t' ->]. destruct (rename y cs) as [z cs1]. pose proof (IHo H1 vars cs1) as K1.
    destruct (alpha vars a cs1) as [a' cs2]. cbn [alpha map_state]. cbn [fst] in *. unfold subst. cbn [lookup].
    rewrite String.eqb_refl. split; [cbn; eauto|]. split; [assumption|]. cbn. auto.
  - destruct H0.
  - destruct H0.
Qed.

(** ** Alias removal *)
Lemma alias_simple e vars : simple e -> simple (alias vars e).
Proof. destruct e; cbn [simple]; intros []; exact I. Qed.

Lemma alias_every c e : every (normal_plain c) e -> forall vars, every (normal_plain c) (alias vars e).
Proof.
  induction e as [v|y|op es IH|b t e IHc IHt IHe|a alts de IHa IHalts IHde|y t b e IHb IHe
                  |d e IHd IHe|a y t e IHo IHe|xs e IHe|xs e IHe] using expr_ind'; intros [[H0 H9] H] vars;
    cbn [alias].
  - exact (conj (conj I I) I).
  - exact (conj (conj I I) I).
  - split; [split; [exact I|]|].
    + cbn. rewrite map_length. intros Hc Hl. specialize (H9 Hc Hl). apply Forall_map. eapply Forall_impl; [|exact H9].
      intros e. apply alias_simple.
    + apply all_in. intros x Hx. apply in_map_iff in Hx as (e & <- & He). rewrite Forall_forall in IH. rewrite all_in in H. auto.
  - destruct H as (H1 & H2 & H3). split; [split; exact I|]. auto.
  - destruct H as (H1 & H2 & H3). split; [split; [|exact I]|].
    + eapply case_plain; [| |exact H0]; [apply map_length|]. destruct de as [[? ?]|]; split; congruence.
    + split; [auto|]. split.
      * apply all_in. intros al Hal. apply in_map_iff in Hal as (al0 & <- & Hal). cbn [a_body].
        rewrite Forall_forall in IHalts. rewrite all_in in H2. apply IHalts; [assumption|]. apply (H2 al0 Hal).
      * destruct de as [[x e]|]; [|exact I]. apply (IHde _ _ eq_refl). exact H3.
  - destruct H as (H1 & H2). pose proof (IHb H1 vars) as K1.
    destruct (alias vars b); try (split; [split; exact I|]; split; [exact K1|auto]); auto.
  - destruct H as (H1 & H2). split; [split; exact I|]. cbn [f_body]. auto.
  - destruct H as (H1 & H2). destruct H0 as [t' ->]. split; [split; [|exact I]|].
    + cbn. unfold subst. rewrite lookup_forget, String.eqb_refl. eauto.
    + split; [auto|]. apply IHe. exact H2.
  - destruct H0.
  - destruct H0.
Qed.

(** ** Normalization *)
Definition keeps c (k : cont) : Prop := forall e n, every (normal_plain c) e -> every (normal_plain c) (fst (k e n)).

Lemma keeps_ret c : keeps c ret.
Proof. intros e n H. exact H. Qed.

Section NormEvery.
  Variable m : mmodule.
  Variable c : bool.
  Let norm_ := norm m (alias []).

  (** The operands that are bound to variables are variables or literals. *)
  Lemma operands_every es :
    Forall (fun e => every (plain_node c) e -> forall k n, keeps c k -> every (normal_plain c) (fst (norm_ e k n))) es ->
    all (every (plain_node c)) es -> forall ts acc k n,
    all (every (normal_plain c)) acc ->
    (forall es' n, all (every (normal_plain c)) es' -> length es' <= length acc + length ts ->
       (forall a, In a es' -> In a acc \/ simple a \/ In None ts) ->
       every (normal_plain c) (fst (k es' n))) ->
    every (normal_plain c) (fst (norm_operands norm_ es ts acc k n)).
  Proof.
    induction 1 as [|e es He _ IH]; intros Ha ts acc k n Hacc Hk; cbn [norm_operands].
    - apply Hk; auto. lia.
    - destruct ts as [|t ts]; [apply Hk; auto; lia|]. destruct Ha as [Ha1 Ha2].
      assert (Step : forall a1 n1, every (normal_plain c) a1 -> simple a1 \/ t = None ->
                every (normal_plain c) (fst (norm_operands norm_ es ts (acc ++ [a1]) k n1))).
      { intros a1 n1 H1 H2. apply IH; [assumption| |].
        - apply all_in. intros a Hi. apply in_app_iff in Hi as [Hi|[<-|[]]]; [rewrite all_in in Hacc; auto|assumption].
        - intros es' n2 H3 H4 H5. apply Hk; [assumption| |].
          + rewrite app_length in H4. cbn in *. lia.
          + intros a Hi. destruct (H5 a Hi) as [H6|[H6|H6]]; [|auto|cbn; auto].
            apply in_app_iff in H6 as [H6|[<-|[]]]; [auto|]. destruct H2 as [H2| ->]; [auto|]. right. right. left. reflexivity. }
      destruct t as [t|]; cbn [norm_operand].
      + unfold norm_bound. apply He; [assumption|]. intros e' n' He'.
        destruct (is_atom e') eqn:Ea.
        * apply Step; [assumption|]. left. destruct e'; try discriminate Ea; exact I.
        * pose proof (Step (Var (anf n')) (S n') (conj (conj I I) I) (or_introl I)) as K.
          destruct (norm_operands norm_ es ts (acc ++ [Var (anf n')]) k (S n')). cbn [fst] in *.
          split; [split; exact I|]. auto.
      + apply He; [assumption|]. intros e' n' He'. apply Step; auto.
  Qed.

  Lemma operand_kinds o k : In None (operand_types m o k) -> counted o = false \/ operand_types m o k = [None].
  Proof.
    destruct o; cbn; auto.
    - intros H. apply repeat_spec in H. discriminate.
    - intros H. apply in_map_iff in H as (? & H & _). discriminate.
    - intros [H|H]; [discriminate|]. apply in_map_iff in H as (? & H & _). discriminate.
    - intros [H|H]; [discriminate|]. apply in_map_iff in H as (? & H & _). discriminate.
  Qed.

  Lemma norm_every e : every (plain_node c) e -> forall k n, keeps c k -> every (normal_plain c) (fst (norm_ e k n)).
  Proof.
    unfold norm_.
    induction e as [v|y|op es IH|b t e IHc IHt IHe|a alts de IHa IHalts IHde|y t b e IHb IHe
                    |d e IHd IHe|a y t e IHo IHe|xs e IHe|xs e IHe] using expr_ind'; intros [H0 H] k n Hk;
      cbn [norm].
    - apply Hk. exact (conj (conj I I) I).
    - apply Hk. exact (conj (conj I I) I).
    - apply operands_every; [exact IH|exact H|exact I|]. intros es' n1 H1 H2 H3. apply Hk.
      split; [split; [exact I|]|exact H1]. cbn. intros Hc Hl. apply Forall_forall. intros a Hi.
      destruct (H3 a Hi) as [[]|[H4|H4]]; [assumption|]. apply operand_kinds in H4 as [H4|H4]; [congruence|].
      rewrite H4 in H2. cbn in H2. lia.
    - destruct H as (H1 & H2 & H3). apply IHc; [assumption|]. intros b' n1 Hb.
      pose proof (IHt H2 ret n1 (keeps_ret c)) as K2. destruct (norm m (alias []) t ret n1) as [t' n2].
      pose proof (IHe H3 ret n2 (keeps_ret c)) as K3. destruct (norm m (alias []) e ret n2) as [e' n3].
      apply Hk. split; [split; exact I|]. auto.
    - destruct H as (H1 & H2 & H3). apply IHa; [assumption|]. intros a' n1 Ha'.
      match goal with |- context [map_state ?f alts n1] =>
        destruct (map_state_all f (fun al => every (normal_plain c) (a_body al)) alts n1) as [K2 L2];
        [|destruct (map_state f alts n1) as [alts' n2]] end.
      { intros al s Hal. rewrite Forall_forall in IHalts. rewrite all_in in H2.
        pose proof (IHalts al Hal (H2 al Hal) ret s (keeps_ret c)) as K. destruct (norm m (alias []) (a_body al) ret s). exact K. }
      cbn [fst] in *. destruct de as [[x e]|].
      + pose proof (IHde _ _ eq_refl H3 ret n2 (keeps_ret c)) as K3. destruct (norm m (alias []) e ret n2) as [e' n3].
        apply Hk. split; [split; [|exact I]|auto]. eapply case_plain; [exact L2| |exact H0]. split; discriminate.
      + apply Hk. split; [split; [|exact I]|auto]. eapply case_plain; [exact L2| |exact H0]. split; reflexivity.
    - destruct H as (H1 & H2). apply IHb; [assumption|]. intros b' n1 Hb.
      pose proof (IHe H2 k n1 Hk) as K2. destruct (norm m (alias []) e k n1). split; [split; exact I|]. auto.
    - destruct H as (H1 & H2). pose proof (IHd H1 ret n (keeps_ret c)) as K1.
      destruct (norm m (alias []) (f_body d) ret n) as [b' n1].
      pose proof (IHe H2 k n1 Hk) as K2. destruct (norm m (alias []) e k n1). split; [split; exact I|].
      split; [|assumption]. cbn [f_body]. apply alias_every. assumption.
    - destruct H as (H1 & H2). destruct H0 as [t' ->]. apply IHo; [assumption|]. intros a' n1 Ha'.
      cbn. apply Hk. split; [split; [cbn; eauto|exact I]|]. split; [assumption|].
      split; [split; [exact I|]|]; cbn; [intros _ Hl; lia|]. split; [exact (conj (conj I I) I)|exact I].
    - destruct H0.
    - destruct H0.
  Qed.
End NormEvery.

(** ** Environment inference *)
Lemma infer_simple e vars : simple e -> simple (infer vars e).
Proof. destruct e; cbn [simple]; intros []; exact I. Qed.

Lemma infer_every c e : every (normal_plain c) e -> forall vars, every (normal_plain c) (infer vars e).
Proof.
  induction e as [v|y|op es IH|b t e IHc IHt IHe|a alts de IHa IHalts IHde|y t b e IHb IHe
                  |d e IHd IHe|a y t e IHo IHe|xs e IHe|xs e IHe] using expr_ind'; intros [[H0 H9] H] vars;
    cbn [infer].
  - exact (conj (conj I I) I).
  - exact (conj (conj I I) I).
  - split; [split; [exact I|]|].
    + cbn. rewrite map_length. intros Hc Hl. specialize (H9 Hc Hl). apply Forall_map. eapply Forall_impl; [|exact H9].
      intros e. apply infer_simple.
    + apply all_in. intros x Hx. apply in_map_iff in Hx as (e & <- & He). rewrite Forall_forall in IH. rewrite all_in in H. auto.
  - destruct H as (H1 & H2 & H3). split; [split; exact I|]. auto.
  - destruct H as (H1 & H2 & H3). split; [split; [|exact I]|].
    + eapply case_plain; [| |exact H0]; [apply map_length|]. destruct de as [[? ?]|]; split; congruence.
    + split; [auto|]. split.
      * apply all_in. intros al Hal. apply in_map_iff in Hal as (al0 & <- & Hal). cbn [a_body].
        rewrite Forall_forall in IHalts. rewrite all_in in H2. apply IHalts; [assumption|]. apply (H2 al0 Hal).
      * destruct de as [[x e]|]; [|exact I]. apply (IHde _ _ eq_refl). exact H3.
  - destruct H as (H1 & H2). split; [split; exact I|]. auto.
  - destruct H as (H1 & H2). split; [split; exact I|]. cbn [f_body]. auto.
  - destruct H as (H1 & H2). destruct H0 as [t' ->]. split; [split; [|exact I]|].
    + cbn. eauto.
    + split; [auto|]. apply IHe. exact H2.
  - destruct H0.
  - destruct H0.
Qed.

(** ** Lambda lifting *)
Lemma add_simple f zs e : simple e -> simple (add_arguments f zs e).
Proof. destruct e; cbn [simple]; intros []; exact I. Qed.

Lemma add_every c f zs e : every (lifted_node c) e -> every (lifted_node c) (add_arguments f zs e).
Proof.
  induction e as [v|y|op es IH|b t e IHc IHt IHe|a alts de IHa IHalts IHde|y t b e IHb IHe
                  |d e IHd IHe|a y t e IHo IHe|xs e IHe|xs e IHe] using expr_ind'; intros [[[H0 H9] H8] H];
    cbn [add_arguments].
  - exact (conj (conj (conj I I) I) I).
  - exact (conj (conj (conj I I) I) I).
  - assert (Ha : all (every (lifted_node c)) (map (add_arguments f zs) es)).
    { apply all_in. intros x Hx. apply in_map_iff in Hx as (e & <- & He). rewrite Forall_forall in IH. rewrite all_in in H. auto. }
    assert (Hn : every (lifted_node c) (Op op (map (add_arguments f zs) es))).
    { split; [split; [split; [exact I|]|exact I]|exact Ha]. cbn. rewrite map_length. intros Hc Hl. specialize (H9 Hc Hl).
      apply Forall_map. eapply Forall_impl; [|exact H9]. intros e. apply add_simple. }
    destruct op; try exact Hn. destruct es as [|[| | | | | | | | |] es]; try exact Hn.
    destruct (String.eqb x f); [|exact Hn].
    split; [split; [split; [exact I|]|exact I]|].
    + cbn [counted normal_node]. intros _ Hl. constructor; [exact I|]. apply Forall_app. split.
      * destruct es as [|e es]; [constructor|]. specialize (H9 eq_refl). cbn in H9. apply Forall_map.
        assert (Hs : Forall simple (Var x :: e :: es)) by (apply H9; lia). inversion Hs as [|? ? _ Hs']; subst.
        eapply Forall_impl; [|exact Hs']. intros e1. apply add_simple.
      * apply Forall_map, Forall_forall. intros z _. exact I.
    + cbn [map all] in Ha. destruct Ha as [Ha1 Ha2]. split; [exact (conj (conj (conj I I) I) I)|].
      apply all_in. intros a Hi. apply in_app_iff in Hi as [Hi|Hi]; [rewrite all_in in Ha2; auto|].
      apply in_map_iff in Hi as (z & <- & _). exact (conj (conj (conj I I) I) I).
  - destruct H as (H1 & H2 & H3). split; [split; [split; exact I|exact I]|]. auto.
  - destruct H as (H1 & H2 & H3). split; [split; [split; [|exact I]|exact I]|].
    + eapply case_plain; [| |exact H0]; [apply map_length|]. destruct de as [[? ?]|]; split; congruence.
    + split; [auto|]. split.
      * apply all_in. intros al Hal. apply in_map_iff in Hal as (al0 & <- & Hal). cbn [a_body].
        rewrite Forall_forall in IHalts. rewrite all_in in H2. specialize (H2 al0 Hal). destruct (String.eqb _ _); [exact H2|].
        apply IHalts; assumption.
      * destruct de as [[x e]|]; [|exact I]. destruct (String.eqb x f); [exact H3|]. apply (IHde _ _ eq_refl). exact H3.
  - destruct H as (H1 & H2). split; [split; [split; exact I|exact I]|]. split; [auto|]. destruct (String.eqb _ _); auto.
  - destruct H as (H1 & H2). split; [split; [split; exact I|exact H8]|]. split; [auto|]. destruct (String.eqb _ _); auto.
  - destruct H as (H1 & H2). destruct H0 as [t' ->]. split; [split; [split; [|exact I]|exact I]|].
    + cbn. destruct (String.eqb y f); eauto.
    + split; [auto|]. destruct (String.eqb y f); auto.
  - destruct H0.
  - destruct H0.
Qed.

Lemma save_every c env : forall zs e, every (lifted_node c) e -> every (lifted_node c) (save_variables env zs e).
Proof.
  induction env as [|[x t] env IH]; intros zs e H; cbn [save_variables]; [exact H|]. destruct zs as [|[z t'] zs]; [exact H|].
  split; [split; [split; exact I|exact I]|]. split; [exact (conj (conj (conj I I) I) I)|]. auto.
Qed.

(** Variables stay free. *)
Lemma add_fv f zs e x : In x (fv e) -> In x (fv (add_arguments f zs e)).
Proof.
  induction e as [v|y|op es IH|b t e IHc IHt IHe|a alts de IHa IHalts IHde|y t b e IHb IHe
                  |d e IHd IHe|a y t e IHo IHe|xs e IHe|xs e IHe] using expr_ind'; intros H; cbn [add_arguments].
  - exact H.
  - exact H.
  - assert (Hm : forall l, (forall e, In e l -> In e es) -> In x (flat_map fv l) -> In x (flat_map fv (map (add_arguments f zs) l))).
    { intros l Hl Hx. apply in_flat_map in Hx as (e & He & Hx). apply in_flat_map. exists (add_arguments f zs e).
      split; [apply in_map; assumption|]. rewrite Forall_forall in IH. apply IH; auto. }
    assert (Hn : In x (fv (Op op (map (add_arguments f zs) es)))) by (cbn [fv] in *; apply Hm; auto).
    destruct op; try exact Hn. destruct es as [|[| | | | | | | | |] es]; try exact Hn.
    destruct (String.eqb_spec x0 f) as [->|]; [|exact Hn].
    cbn [fv flat_map map] in *. apply in_app_iff in Hn as [Hn|Hn]; apply in_app_iff; [auto|right].
    rewrite flat_map_app. apply in_app_iff. auto.
  - cbn [fv] in *. rewrite !in_app_iff in *. tauto.
  - cbn [fv] in *. rewrite !in_app_iff in *. destruct H as [H|[H|H]]; [auto|right; left|right; right].
    + apply in_flat_map in H as (al & Hal & H). rewrite flat_map_concat_map, map_map, <- flat_map_concat_map.
      apply in_flat_map. exists al. split; [assumption|]. cbn [a_name a_body]. apply in_except in H as [H1 H2]. apply in_except.
      split; [|assumption]. destruct (String.eqb _ _); [assumption|]. rewrite Forall_forall in IHalts. apply IHalts; assumption.
    + destruct de as [[y e]|]; [|exact H]. apply in_except in H as [H1 H2]. apply in_except. split; [|assumption].
      destruct (String.eqb y f); [assumption|]. apply (IHde _ _ eq_refl). assumption.
  - cbn [fv] in *. rewrite !in_app_iff, !in_except in *. destruct H as [H|[H1 H2]]; [auto|right]. split; [|assumption].
    destruct (String.eqb y f); auto.
  - rewrite in_fv_letrec in *. destruct (String.eqb (f_name d) f); tauto.
  - cbn [fv] in *. rewrite !in_app_iff, !in_except in *. destruct H as [H|[H1 H2]]; [auto|right]. split; [|assumption].
    destruct (String.eqb y f); auto.
  - cbn [fv] in *. auto.
  - cbn [fv] in *. auto.
Qed.

Lemma save_fv env : forall zs e x, length zs = length env -> ~ In x (map fst zs) ->
  In x (map fst env) \/ In x (fv e) -> In x (fv (save_variables env zs e)).
Proof.
  induction env as [|[y t] env IH]; intros zs e x Hl Hz Hx; cbn [save_variables].
  - destruct Hx as [[]|Hx]. exact Hx.
  - destruct zs as [|[z t'] zs]; [discriminate|]. cbn in *. destruct Hx as [[->|Hx]|Hx]; [auto|right..].
    + apply in_except. split; [|intros E; apply Hz; left; congruence]. apply IH; auto.
    + apply in_except. split; [|intros E; apply Hz; left; congruence]. apply IH; auto.
Qed.

(** Capturing. *)
Lemma lookup_app_some {A} (l l' : list (string * A)) x : lookup l' x <> None -> lookup (l ++ l') x <> None.
Proof.
  induction l as [|[y a] l IH]; cbn [lookup app]; [auto|]. intros H. destruct (String.eqb x y); [discriminate|auto].
Qed.

Lemma lookup_cons_some {A} y (a : A) l x : lookup l x <> None -> lookup ((y, a) :: l) x <> None.
Proof. cbn [lookup]. destruct (String.eqb x y); [discriminate|auto]. Qed.

Lemma map_state_some {A B S} (f : A -> S -> B * S) (P : B -> Prop) l a : forall s,
  In a l -> (forall s, P (fst (f a s))) -> exists b, In b (fst (map_state f l s)) /\ P b.
Proof.
  induction l as [|a0 l IH]; intros s Ha H; [destruct Ha|destruct Ha as [<-|Ha]]; cbn [map_state].
  - specialize (H s). destruct (f a0 s) as [b s1]. destruct (map_state f l s1). exists b. split; [left; reflexivity|exact H].
  - destruct (f a0 s) as [b s1]. destruct (IH s1 Ha H) as (b' & Hb & Hp). destruct (map_state f l s1). exists b'.
    split; [right; assumption|assumption].
Qed.

Lemma saved_not_ordinary env i x : ~ lifted_name x -> ~ In x (map fst (saved_variables env i)).
Proof. intros H Hi. apply saved_bounds in Hi as (y & j & -> & _). apply H. left. exists y, j. reflexivity. Qed.

Lemma lift_letrec_fv d e cx x : ~ lifted_name x -> x <> f_name d ->
  In x (map fst (f_env d)) /\ In x (fv (f_body d)) /\ ~ In x (map fst (f_args d)) \/ In x (fv e) ->
  In x (fv (fst (lift_letrec d e cx))).
Proof.
  intros Hl Hf Hx. unfold lift_letrec. destruct (f_env d) as [|p env] eqn:Ee; rewrite ?Ee in Hx.
  - cbn. destruct Hx as [[[] _]|Hx]. right. apply in_except. auto.
  - destruct (_ && _).
    + cbn [fst add_function fv]. apply in_app_iff. right. apply in_except. split; [|exact Hf].
      apply save_fv; [apply saved_length|apply saved_not_ordinary; exact Hl|].
      destruct Hx as [[Hx _]|Hx]; [auto|]. right. apply add_fv. exact Hx.
    + cbn [fst]. apply in_fv_letrec. tauto.
Qed.

Lemma lift_free e : forall vars cx x, lookup vars x <> None -> ~ lifted_name x -> In x (fv e) ->
  In x (fv (fst (lift (infer vars e) cx))).
Proof.
  induction e as [v|y|op es IH|b t e IHc IHt IHe|a alts de IHa IHalts IHde|y t b e IHb IHe
                  |d e IHd IHe|a y t e IHo IHe|xs e IHe|xs e IHe] using expr_ind'; intros vars cx x Hv Hl Hx;
    cbn [infer lift].
  - exact Hx.
  - exact Hx.
  - cbn [fv] in Hx. apply in_flat_map in Hx as (e & He & Hx). rewrite Forall_forall in IH.
    destruct (map_state_some lift (fun b => In x (fv b)) (map (infer vars) es) (infer vars e) cx) as (b & Hb & Hp).
    + apply in_map. assumption.
    + intros s. apply IH; assumption.
    + destruct (map_state lift (map (infer vars) es) cx). cbn [fst fv] in *. apply in_flat_map. eauto.
  - cbn [fv] in Hx. rewrite !in_app_iff in Hx.
    pose proof (IHc vars cx x Hv Hl) as K1. destruct (lift (infer vars b) cx) as [b' cx1].
    pose proof (IHt vars cx1 x Hv Hl) as K2. destruct (lift (infer vars t) cx1) as [t' cx2].
    pose proof (IHe vars cx2 x Hv Hl) as K3. destruct (lift (infer vars e) cx2) as [e' cx3].
    cbn [fst fv] in *. rewrite !in_app_iff. tauto.
  - cbn [fv] in Hx. rewrite !in_app_iff in Hx.
    pose proof (IHa vars cx x Hv Hl) as K1. destruct (lift (infer vars a) cx) as [a' cx1]. cbn [fst] in K1.
    set (F := fun (al : alt) (cx : lift_context) => let '(b, cx0) := lift (a_body al) cx in (Alt (a_types al) (a_name al) b, cx0)).
    set (L := map (fun al => Alt (a_types al) (a_name al) (infer ((a_name al, alt_type (a_types al)) :: vars) (a_body al))) alts).
    assert (K2 : In x (flat_map (fun al => except (a_name al) (fv (a_body al))) alts) ->
                 In x (flat_map (fun al => except (a_name al) (fv (a_body al))) (fst (map_state F L cx1)))).
    { intros H. apply in_flat_map in H as (al & Hal & H). apply in_except in H as [H1 H2].
      destruct (map_state_some F (fun b => In x (except (a_name b) (fv (a_body b)))) L
                  (Alt (a_types al) (a_name al) (infer ((a_name al, alt_type (a_types al)) :: vars) (a_body al))) cx1) as (b & Hb & Hp).
      - unfold L. apply in_map_iff. exists al. auto.
      - intros s. unfold F. cbn [a_body a_types a_name]. rewrite Forall_forall in IHalts.
        pose proof (IHalts al Hal ((a_name al, alt_type (a_types al)) :: vars) s x (lookup_cons_some _ _ _ _ Hv) Hl H1) as K.
        destruct (lift (infer ((a_name al, alt_type (a_types al)) :: vars) (a_body al)) s) as [b s1]. cbn [fst a_name a_body] in *.
        apply in_except. auto.
      - apply in_flat_map. eauto. }
    change (In x (fv (fst (let '(alts0, cx2) := map_state F L cx1 in
              match match de with Some (x0, e) => Some (x0, infer ((x0, TVariant) :: vars) e) | None => None end with
              | Some (x0, e) => let '(e0, cx3) := lift e cx2 in (Case a' alts0 (Some (x0, e0)), cx3)
              | None => (Case a' alts0 None, cx2)
              end)))).
    destruct (map_state F L cx1) as [alts' cx2]. cbn [fst] in K2. destruct de as [[y e]|].
    + pose proof (IHde _ _ eq_refl ((y, TVariant) :: vars) cx2 x (lookup_cons_some _ _ _ _ Hv) Hl) as K3.
      destruct (lift (infer ((y, TVariant) :: vars) e) cx2) as [e' cx3]. cbn [fst fv] in *. rewrite !in_app_iff.
      destruct Hx as [Hx|[Hx|Hx]]; [tauto|tauto|]. right. right. apply in_except in Hx as [H1 H2]. apply in_except. auto.
    + cbn [fst fv]. rewrite !in_app_iff. tauto.
  - cbn [fv] in Hx. rewrite in_app_iff, in_except in Hx.
    pose proof (IHb vars cx x Hv Hl) as K1. destruct (lift (infer vars b) cx) as [b' cx1].
    pose proof (IHe ((y, t) :: vars) cx1 x (lookup_cons_some _ _ _ _ Hv) Hl) as K2.
    destruct (lift (infer ((y, t) :: vars) e) cx1) as [e' cx2].
    cbn [fst fv] in *. rewrite !in_app_iff, in_except. tauto.
  - apply in_fv_letrec in Hx as [Hf Hx]. cbn [f_body f_name f_args f_env f_result f_thunk].
    set (vars' := (f_name d, f_type d) :: vars).
    assert (Hv' : lookup vars' x <> None) by (apply lookup_cons_some; exact Hv).
    assert (Hv2 : lookup (add_args (f_args d) vars') x <> None) by (apply lookup_app_some; exact Hv').
    pose proof (IHd (add_args (f_args d) vars') cx x Hv2 Hl) as K1.
    destruct (lift (infer (add_args (f_args d) vars') (f_body d)) cx) as [b' cx1].
    pose proof (IHe vars' cx1 x Hv' Hl) as K2. destruct (lift (infer vars' e) cx1) as [e' cx2]. cbn [fst] in *.
    apply lift_letrec_fv; [assumption|assumption|]. cbn [f_env f_body f_args].
    destruct Hx as [[H1 H2]|H]; [left|right; auto]. split; [|auto]. apply in_infer_env_names. auto.
  - cbn [fv] in Hx. rewrite in_app_iff, in_except in Hx.
    pose proof (IHo vars cx x Hv Hl) as K1. destruct (lift (infer vars a) cx) as [a' cx1].
    pose proof (IHe ((y, t) :: vars) cx1 x (lookup_cons_some _ _ _ _ Hv) Hl) as K2.
    destruct (lift (infer ((y, t) :: vars) e) cx1) as [e' cx2].
    cbn [fst fv] in *. rewrite !in_app_iff, in_except. tauto.
  - pose proof (IHe vars cx x Hv Hl Hx) as K. destruct (lift (infer vars e) cx). exact K.
  - pose proof (IHe vars cx x Hv Hl Hx) as K. destruct (lift (infer vars e) cx). exact K.
Qed.

(** A global function that captures nothing, with a body that meets the
    conditions. *)
Definition good_global c (d : fdef) : Prop :=
  f_env d = [] /\ NoDup (map fst (f_args d)) /\ every (lifted_node c) (f_body d).

Definition good_result c (r : expr * lift_context) : Prop :=
  every (lifted_node c) (fst r) /\ Forall (good_global c) (l_defs (snd r)).

(** What is known of the environments before lambda lifting. *)
Definition environment_node (e : expr) : Prop :=
  match e with
  | LetRec d _ => NoDup (f_name d :: map fst (f_args d) ++ map fst (f_env d)) /\
                  forall x, In x (map fst (f_env d)) -> ~ lifted_name x
  | _ => True
  end.

Lemma map_state_kept {A B S} (f : A -> S -> B * S) (P : B -> Prop) (K : S -> Prop) l : forall s, K s ->
  (forall a s, In a l -> K s -> P (fst (f a s)) /\ K (snd (f a s))) ->
  (all P (fst (map_state f l s)) /\ length (fst (map_state f l s)) = length l) /\ K (snd (map_state f l s)).
Proof.
  induction l as [|a l IH]; intros s Hs H; [split; [split; [exact I|reflexivity]|exact Hs]|]. cbn [map_state].
  destruct (H a s (or_introl eq_refl) Hs) as [Ha H1]. destruct (f a s) as [b s1]. cbn [fst snd] in Ha, H1.
  destruct (IH s1 H1) as [[H2 H3] H4]; [intros a1 s2 Ha1; apply H; right; assumption|].
  destruct (map_state f l s1) as [bs s2]. cbn [fst snd all length] in *. auto.
Qed.

Lemma lift_letrec_good c d e cx :
  NoDup (f_name d :: map fst (f_args d) ++ map fst (f_env d)) ->
  (forall x, In x (map fst (f_env d)) -> In x (fv (f_body d))) ->
  every (lifted_node c) (f_body d) -> every (lifted_node c) e -> Forall (good_global c) (l_defs cx) ->
  good_result c (lift_letrec d e cx).
Proof.
  intros Hn Hfv Hb He Hcx.
  assert (Hlet : forall x t y e, every (lifted_node c) e -> every (lifted_node c) (Let x t (Var y) e)).
  { intros x t y e0 H. split; [split; [split; exact I|exact I]|]. split; [exact (conj (conj (conj I I) I) I)|exact H]. }
  unfold lift_letrec. destruct (f_env d) as [|p env] eqn:Ee.
  - split; cbn [fst snd add_function l_defs]; [apply Hlet; exact He|]. apply Forall_app. split; [exact Hcx|].
    constructor; [|constructor]. split; [exact Ee|]. cbn [f_args f_body]. split; [|apply Hlet; exact Hb].
    inversion Hn as [|? ? _ Hn']. apply nodup_app_iff in Hn'. apply Hn'.
  - destruct (_ && _).
    + split; cbn [fst snd add_function l_defs].
      * apply Hlet, save_every, add_every. exact He.
      * apply Forall_app. split; [exact Hcx|]. constructor; [|constructor]. split; [reflexivity|]. cbn [f_args f_body f_name].
        split; [|apply Hlet, save_every, add_every; exact Hb].
        inversion Hn as [|? ? _ Hn']. rewrite map_app. exact Hn'.
    + split; [|exact Hcx]. cbn [fst]. split; [split; [split; exact I|]|split; [exact Hb|exact He]].
      cbn [scope_node]. rewrite Ee. split; [exact Hn|]. exact Hfv.
Qed.

Lemma lift_infer_simple e vars cx : simple e -> simple (fst (lift (infer vars e) cx)).
Proof. destruct e; cbn [simple]; intros []; exact I. Qed.

Lemma lift_every c e : every (normal_plain c) e -> forall vars cx, every environment_node (infer vars e) ->
  Forall (good_global c) (l_defs cx) -> good_result c (lift (infer vars e) cx).
Proof.
  induction e as [v|y|op es IH|b t e IHc IHt IHe|a alts de IHa IHalts IHde|y t b e IHb IHe
                  |d e IHd IHe|a y t e IHo IHe|xs e IHe|xs e IHe] using expr_ind'; intros [[H0 H9] H] vars cx Hv Hcx;
    cbn [infer lift] in *.
  - split; [exact (conj (conj (conj I I) I) I)|exact Hcx].
  - split; [exact (conj (conj (conj I I) I) I)|exact Hcx].
  - destruct Hv as [_ Hv]. rewrite all_in in Hv, H. rewrite Forall_forall in IH.
    destruct (map_state_kept lift (every (lifted_node c)) (fun cx => Forall (good_global c) (l_defs cx)) (map (infer vars) es) cx Hcx)
      as [[K1 K2] K3].
    { intros a s Ha Hs. apply in_map_iff in Ha as (e & <- & He). apply IH; auto. apply Hv, in_map. assumption. }
    assert (K4 : counted op = true -> 2 <= length es -> Forall simple (fst (map_state lift (map (infer vars) es) cx))).
    { intros Hc Hl. specialize (H9 Hc Hl). rewrite Forall_forall in H9. apply Forall_forall.
      destruct (map_state_all lift simple (map (infer vars) es) cx) as [K _]; [|rewrite all_in in K; exact K].
      intros a s Ha. apply in_map_iff in Ha as (e & <- & He). apply lift_infer_simple. auto. }
    destruct (map_state lift (map (infer vars) es) cx) as [es' cx1]. cbn [fst snd] in *. rewrite map_length in K2.
    split; [|exact K3]. split; [split; [split; [exact I|]|exact I]|exact K1]. cbn. rewrite K2. exact K4.
  - destruct H as (H1 & H2 & H3). destruct Hv as (_ & V1 & V2 & V3).
    destruct (IHc H1 vars cx V1 Hcx) as [K1 C1]. destruct (lift (infer vars b) cx) as [b' cx1].
    destruct (IHt H2 vars cx1 V2 C1) as [K2 C2]. destruct (lift (infer vars t) cx1) as [t' cx2].
    destruct (IHe H3 vars cx2 V3 C2) as [K3 C3]. destruct (lift (infer vars e) cx2) as [e' cx3].
    split; [|exact C3]. split; [split; [split; exact I|exact I]|]. auto.
  - destruct H as (H1 & H2 & H3). destruct Hv as (_ & V1 & V2 & V3).
    destruct (IHa H1 vars cx V1 Hcx) as [K1 C1]. destruct (lift (infer vars a) cx) as [a' cx1]. cbn [fst snd] in *.
    match goal with |- context [map_state ?f ?l cx1] =>
      destruct (map_state_kept f (fun al => every (lifted_node c) (a_body al)) (fun cx => Forall (good_global c) (l_defs cx)) l cx1 C1)
        as [[K2 L2] C2]; [|destruct (map_state f l cx1) as [alts' cx2]] end.
    { intros al s Ha Hs. rewrite all_in in V2. specialize (V2 al Ha). apply in_map_iff in Ha as (al0 & <- & Hal).
      cbn [a_body a_types a_name] in *. rewrite Forall_forall in IHalts. rewrite all_in in H2.
      destruct (IHalts al0 Hal (H2 al0 Hal) _ s V2 Hs) as [Ka Ca].
      destruct (lift (infer ((a_name al0, alt_type (a_types al0)) :: vars) (a_body al0)) s). auto. }
    cbn [fst snd] in *. rewrite map_length in L2. destruct de as [[x e]|].
    + destruct (IHde _ _ eq_refl H3 _ cx2 V3 C2) as [K3 C3].
      destruct (lift (infer ((x, TVariant) :: vars) e) cx2) as [e' cx3]. split; [|exact C3].
      split; [split; [split; [|exact I]|exact I]|auto]. eapply case_plain; [exact L2| |exact H0]. split; discriminate.
    + split; [|exact C2]. split; [split; [split; [|exact I]|exact I]|auto].
      eapply case_plain; [exact L2| |exact H0]. split; reflexivity.
  - destruct H as (H1 & H2). destruct Hv as (_ & V1 & V2).
    destruct (IHb H1 vars cx V1 Hcx) as [K1 C1]. destruct (lift (infer vars b) cx) as [b' cx1].
    destruct (IHe H2 _ cx1 V2 C1) as [K2 C2]. destruct (lift (infer ((y, t) :: vars) e) cx1) as [e' cx2].
    split; [|exact C2]. split; [split; [split; exact I|exact I]|]. auto.
  - destruct H as (H1 & H2). destruct Hv as ([N1 N2] & V1 & V2). cbn [f_body f_name f_args f_env f_result f_thunk] in *.
    destruct (IHd H1 _ cx V1 Hcx) as [K1 C1].
    assert (F1 : forall x, In x (map fst (infer_env vars d)) ->
               In x (fv (fst (lift (infer (add_args (f_args d) ((f_name d, f_type d) :: vars)) (f_body d)) cx)))).
    { intros x Hx. pose proof (N2 x Hx) as Hl. apply in_infer_env_names in Hx as (X1 & X2 & _).
      apply lift_free; [|exact Hl|exact X2]. apply lookup_app_some, lookup_cons_some. exact X1. }
    destruct (lift (infer (add_args (f_args d) ((f_name d, f_type d) :: vars)) (f_body d)) cx) as [b' cx1].
    destruct (IHe H2 _ cx1 V2 C1) as [K2 C2]. destruct (lift (infer ((f_name d, f_type d) :: vars) e) cx1) as [e' cx2].
    cbn [fst snd] in *. apply lift_letrec_good; cbn [f_body f_name f_args f_env]; assumption.
  - destruct H as (H1 & H2). destruct H0 as [t' ->]. destruct Hv as (_ & V1 & V2).
    destruct (IHo H1 vars cx V1 Hcx) as [K1 C1]. destruct (lift (infer vars a) cx) as [a' cx1].
    cbn. cbn [fst snd] in *. split; [|exact C1]. split; [split; [split; [cbn; eauto|exact I]|exact I]|].
    split; [exact K1|]. split; [split; [split; [exact I|]|exact I]|]; cbn; [intros _ Hl; lia|].
    split; [exact (conj (conj (conj I I) I) I)|exact I].
  - destruct H0.
  - destruct H0.
Qed.

(** ** Modules *)
Definition plain_module c (m : mmodule) : Prop := forall d, In d (m_defs m) -> every (plain_node c) (f_body d).

Theorem middle_end_globals c m : proper_source m -> distinct_global_arguments m ->
  plain_module c m -> forall g, In g (m_defs (middle_end m)) -> good_global c g.
Proof.
  intros Hs Ha Hp.
  set (m0 := concat_module m). pose proof (concat_source m Hs) as Hs0. fold m0 in Hs0.
  set (m1 := alpha_module m0). set (m2 := norm_module m1). set (m3 := infer_module m2).
  assert (P0 : forall d, In d (m_defs m0) -> NoDup (map fst (f_args d)) /\ every (plain_node c) (f_body d)).
  { intros d Hd. apply in_map_iff in Hd as (d0 & <- & Hd). split; [exact (Ha d0 Hd)|]. cbn. apply concat_every, Hp, Hd. }
  assert (P1 : forall d, In d (m_defs m1) -> NoDup (map fst (f_args d)) /\ every (plain_node c) (f_body d)).
  { intros d Hd. apply alpha_defs in Hd as (d0 & Hd & ->). destruct (P0 d0 Hd) as [Q1 Q2]. split; [exact Q1|].
    cbn. apply alpha_every. exact Q2. }
  assert (P2 : forall d, In d (m_defs m2) -> NoDup (map fst (f_args d)) /\ every (normal_plain c) (f_body d)).
  { intros d Hd. cbn in Hd. apply map_state_in_result in Hd as (d0 & n & Hd & ->). destruct (P1 d0 Hd) as [Q1 Q2].
    unfold norm_def. pose proof (norm_every m1 c _ Q2 ret n (keeps_ret c)) as K.
    destruct (norm m1 (alias []) (f_body d0) ret n) as [b n']. split; [exact Q1|]. cbn [fst set_body f_body] in *.
    apply alias_every. exact K. }
  pose proof (stage_environments m0 Hs0) as E3. pose proof (stage_names3 m0 Hs0) as [_ N3].
  change (infer_module (norm_module (alpha_module m0))) with m3 in E3, N3.
  assert (P3 : forall d0, In d0 (m_defs m2) -> every environment_node (f_body (infer_global d0))).
  { intros d0 Hd0. apply within_every. intros a Hw. destruct a; try exact I.
    assert (Hd : In (infer_global d0) (m_defs m3)) by (apply in_map; exact Hd0).
    split; [exact (E3 _ _ _ Hd Hw)|]. intros x Hx. apply (N3 _ x Hd). right. right. right. eauto. }
  unfold middle_end, closure_passes. fold m0 m1 m2 m3. unfold lift_module.
  destruct (map_state_kept lift_global (good_global c) (fun cx => Forall (good_global c) (l_defs cx)) (m_defs m3) (Lifted [] 0))
    as [[K1 _] K2]; [constructor| |].
  { intros d s Hd Hc. apply in_map_iff in Hd as (d0 & <- & Hd0). destruct (P2 d0 Hd0) as [Q1 Q2].
    destruct (lift_every c _ Q2 _ s (P3 d0 Hd0) Hc) as [R1 R2].
    unfold lift_global. cbn [infer_global f_body].
    destruct (lift (infer (add_args (f_args d0) []) (f_body d0)) s) as [b cx]. cbn [fst snd] in *. split; [|exact R2].
    split; [reflexivity|]. split; [exact Q1|exact R1]. }
  destruct (map_state lift_global (m_defs m3) (Lifted [] 0)) as [ds cx]. cbn [fst snd set_defs m_defs] in *.
  intros g Hg. apply in_app_iff in Hg as [Hg|Hg].
  - rewrite all_in in K1. auto.
  - rewrite Forall_forall in K2. auto.
Qed.

Lemma module_plain m : not_counted m -> plain_tries m -> plain_module false m.
Proof.
  intros H1 H2 d Hd. apply within_every. intros a Hw. destruct a as [| | | |a alts de| | |o x t e|xs e|xs e]; try exact I.
  - destruct alts; [destruct de|]; exact I || reflexivity.
  - exact (H2 _ _ _ _ _ Hd Hw).
  - exact (proj1 (H1 _ Hd _ _) Hw).
  - exact (proj2 (H1 _ Hd _ _) Hw).
Qed.

Lemma module_plain_cases m : not_counted m -> plain_tries m -> no_empty_case m -> plain_module true m.
Proof.
  intros H1 H2 H3 d Hd. apply within_every. intros a Hw. destruct a as [| | | |a alts de| | |o x t e|xs e|xs e]; try exact I.
  - destruct alts; [destruct de|]; try exact I. destruct (H3 _ _ Hd Hw).
  - exact (H2 _ _ _ _ _ Hd Hw).
  - exact (proj1 (H1 _ Hd _ _) Hw).
  - exact (proj2 (H1 _ Hd _ _) Hw).
Qed.

Lemma globals_ready c m : (forall g, In g (m_defs m) -> good_global c g) ->
  not_counted m /\ normal m /\ plain_tries m /\ exact_scopes m /\ (c = true -> no_empty_case m).
Proof.
  intros H. assert (W : forall g a, In g (m_defs m) -> within a (f_body g) -> lifted_node c a).
  { intros g a Hg. apply every_within. apply H. exact Hg. }
  split; [|split; [|split; [|split]]].
  - intros g Hg xs e. split; intros Hw; destruct (W _ _ Hg Hw) as [[Hp _] _]; exact Hp.
  - intros g o es Hg Hw. destruct (W _ _ Hg Hw) as [[_ Hn] _]. exact Hn.
  - intros g o x t e Hg Hw. destruct (W _ _ Hg Hw) as [[Hp _] _]. exact Hp.
  - intros g Hg. destruct (H g Hg) as (H1 & H2 & _). split; [exact H1|]. split; [exact H2|]. intros d e Hw.
    destruct (W _ _ Hg Hw) as [_ [S1 S2]]. split; [exact S1|]. intros x Hx. apply fv_free. auto.
  - intros -> g a Hg Hw. destruct (W _ _ Hg Hw) as [[Hp _] _]. discriminate Hp.
Qed.

(** The middle end makes modules that reference counting can deal with, but for
    names that are bound again. *)
Theorem middle_end_ready m : proper_source m -> distinct_global_arguments m ->
  not_counted m -> plain_tries m ->
  not_counted (middle_end m) /\ normal (middle_end m) /\ plain_tries (middle_end m) /\ exact_scopes (middle_end m) /\
  (no_empty_case m -> no_empty_case (middle_end m)).
Proof.
  intros Hs Ha Hc Ht.
  destruct (globals_ready false (middle_end m)) as (H1 & H2 & H3 & H4 & _).
  { apply middle_end_globals; [assumption|assumption|apply module_plain; assumption]. }
  do 4 (split; [assumption|]). intros He.
  destruct (globals_ready true (middle_end m)) as (_ & _ & _ & _ & H5); [|exact (H5 eq_refl)].
  apply middle_end_globals; [assumption|assumption|apply module_plain_cases; assumption].
Qed.
