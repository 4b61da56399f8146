(** The list functions of the prelude. *)
From Coq Require Import String List ZArith Bool Lia.
From Verif Require Import Base Mir RunSpec RunProofs ListSpec PreludeList.
Import ListNotations.
Local Open Scope string_scope.

Lemma list_code_ok : list_code = Ok list_defs.
Proof. vm_compute. reflexivity. Qed.

Section Prelude.
  Variable w : world.
  Variable m : mmodule.
  Hypothesis L : links m list_defs.
  Hypothesis D : declares m list_records_mir.
  Notation evals := (evals w m).
  Notation runs := (runs w m).
  Notation nodes := (nodes w m).

  Lemma found g d : List.find (fun d => String.eqb g (f_name d)) list_defs = Some d -> find_def (m_defs m) g = Some d.
  Proof.
    intros H. apply List.find_some in H as [I Eq]. apply String.eqb_eq in Eq. subst g. apply L, I.
  Qed.

  Lemma known_global g d : List.find (fun d => String.eqb g (f_name d)) list_defs = Some d ->
    global_type m g = Some (f_type d).
  Proof. intros H. unfold global_type. rewrite (found _ _ H). reflexivity. Qed.

  Lemma record_op call st r vs ts :
    lookup list_records_mir r = Some ts -> length vs = length ts ->
    apply_op w m call (ORecord r) vs st = Done (VRecord r vs) st.
  Proof.
    intros H Hl. cbn. rewrite (D r ts). { rewrite Hl, PeanoNat.Nat.eqb_refl. reflexivity. }
    clear -H. induction list_records_mir as [|[r' t'] l IH]; cbn in *; [discriminate|].
    destruct (String.eqb r r') eqn:Eq; [|auto]. apply String.eqb_eq in Eq. injection H as ->. subst. auto.
  Qed.

  Ltac op := intros; first [eapply record_op; reflexivity | reflexivity].
  Ltac step :=
    cbn [f_name f_args f_body a_body a_name a_types alt_type downcast map fst bind_args];
    lazymatch goal with
    | |- RunSpec.evals _ _ _ _ (Lit _) _ _ => apply evals_lit
    | |- RunSpec.evals _ _ _ _ (Var _) _ _ =>
        first [eapply evals_var; reflexivity
              |eapply evals_global; [reflexivity|eapply known_global; reflexivity]]
    | |- RunSpec.evals _ _ _ _ (Op (OCall _ _) _) _ _ => eapply evals_call
    | |- RunSpec.evals _ _ _ _ (Op _ _) _ _ => eapply evals_op
    | |- RunSpec.evals _ _ _ _ (Let _ _ _ _) _ _ => eapply evals_let
    | |- RunSpec.evals _ _ _ _ (LetRec _ _) _ _ => eapply evals_closure; [reflexivity|]
    | |- RunSpec.evals _ _ _ _ (If _ _ _) _ _ => eapply evals_if
    | |- RunSpec.evals _ _ _ _ (Case _ _ _) _ _ => eapply evals_case
    | |- forall _, apply_op _ _ _ _ _ _ = Done _ _ => op
    | |- length _ = length _ => reflexivity
    | |- pick _ _ = _ => reflexivity
    | |- evals_list _ _ _ _ [] _ _ => apply evals_nil
    | |- evals_list _ _ _ _ (_ :: _) _ _ => eapply evals_cons
    | |- RunSpec.runs _ _ _ (VGlobal _) _ _ _ =>
        first [eassumption | eapply runs_global; [eapply found; reflexivity|reflexivity|reflexivity|]; cbn [f_args f_body map fst bind_args]]
    | |- RunSpec.runs _ _ _ (VClosure _ _) _ _ _ =>
        eapply runs_closure; [reflexivity|]; cbn [f_args f_body map fst bind_args]
    | |- RunSpec.runs _ _ _ _ _ _ _ => eassumption
    end.
  Ltac steps := repeat step.

  (** *** Nodes *)
  Lemma nodes_fun st n fs st1 : nodes st n fs st1 -> forall gs st2, nodes st n gs st2 -> fs = gs /\ st1 = st2.
  Proof.
    induction 1 as [st n st1 H|st n f r st0 fs st1 H _ IH]; intros gs st2 H2; inversion H2; subst;
      match goal with A : RunSpec.runs _ _ st n [] _ _, B : RunSpec.runs _ _ st n [] _ _ |- _ =>
        destruct (runs_fun _ _ _ _ _ _ _ _ _ A B) as [Ev Es]; try discriminate Ev end; subst.
    - auto.
    - injection Ev as <- <-. match goal with A : ListSpec.nodes _ _ _ r _ _ |- _ => destruct (IH _ _ A) as [<- <-]; auto end.
  Qed.

  Definition empty_node : value :=
    VClosure (Fdef "$closure" [] [] TVariant (Op (OVariant TNone) [Lit LNone]) false) [].

  Lemma empty_node_runs st : runs st empty_node [] the_end st.
  Proof. unfold empty_node. steps. Qed.

  Lemma empty_list_runs st :
    lookup (s_globals st) "prelude:EmptyList" = None ->
    runs st (VGlobal "prelude:EmptyList") [] (the_list empty_node)
      (set_global st "prelude:EmptyList" (the_list empty_node)).
  Proof.
    intros H. eapply runs_global_thunk; [eapply found; reflexivity|reflexivity|reflexivity|exact H|].
    cbn [f_body]. steps.
  Qed.

  Lemma prepend_runs st x n :
    exists n', runs st (VGlobal "prelude:PrependToList") [x; the_list n] (the_list n') st /\
      forall st, runs st n' [] (the_node x n) st.
  Proof.
    eexists. split.
    - steps.
    - intros st'. unfold the_node. steps.
  Qed.

  Lemma lazy_runs st x :
    exists n', runs st (VGlobal "prelude:LazyList") [x] (the_list n') st /\
      forall st n st1 v st2, runs st x [] (the_list n) st1 -> runs st1 n [] v st2 -> runs st n' [] v st2.
  Proof.
    eexists. split.
    - steps.
    - intros st' n st1 v st2 H1 H2. steps.
  Qed.

  Lemma concatenate_nodes_runs st x y :
    exists n', runs st (VGlobal "prelude:concatenateNodes") [x; y] n' st /\
      (forall st st1 v st2, runs st x [] the_end st1 -> runs st1 y [] v st2 -> runs st n' [] v st2) /\
      (forall st st1 f r, runs st x [] (the_node f r) st1 ->
         exists n'', runs st n' [] (the_node f n'') st1 /\ runs st1 (VGlobal "prelude:concatenateNodes") [r; y] n'' st1).
  Proof.
    eexists. split; [|split].
    - steps.
    - intros st' st1 v st2 H1 H2. unfold the_end in *. steps.
    - intros st' st1 f r H. unfold the_node in *. eexists. split; steps.
  Qed.

  Lemma concatenate_runs st x y :
    exists n', runs st (VGlobal "prelude:ConcatenateLists") [x; the_list y] (the_list n') st /\
      (forall st st0 n st1 v st2, runs st x [] (the_list n) st0 -> runs st0 n [] the_end st1 ->
         runs st1 y [] v st2 -> runs st n' [] v st2) /\
      (forall st st0 n st1 f r, runs st x [] (the_list n) st0 -> runs st0 n [] (the_node f r) st1 ->
         exists n'', runs st n' [] (the_node f n'') st1 /\ runs st1 (VGlobal "prelude:concatenateNodes") [r; y] n'' st1).
  Proof.
    eexists. split; [|split].
    - steps.
    - intros st' st0 n st1 v st2 H0 H1 H2. unfold the_end in *. steps.
    - intros st' st0 n st1 f r H0 H. unfold the_node in *. eexists. split; steps.
  Qed.

  Lemma first_rest_end st n st' :
    runs st n [] the_end st' ->
    runs st (VGlobal "prelude:FirstRest") [the_list n] the_end st'.
  Proof. intros H. unfold the_end in *. steps. Qed.

  Lemma first_rest_more st n f r st' :
    runs st n [] (the_node f r) st' ->
    runs st (VGlobal "prelude:FirstRest") [the_list n]
      (VVariant (TRecord "prelude:FirstRest") (VRecord "prelude:FirstRest" [f; the_list r])) st'.
  Proof. intros H. unfold the_node in *. steps. Qed.

  Lemma first_runs st f r : runs st (VGlobal "prelude:First") [VRecord "prelude:FirstRest" [f; r]] f st.
  Proof. steps. Qed.
  Lemma rest_runs st f r : runs st (VGlobal "prelude:Rest") [VRecord "prelude:FirstRest" [f; r]] r st.
  Proof. steps. Qed.

  (** *** Sequences *)
  Lemma nodes_nil_inv st n st' : nodes st n [] st' -> runs st n [] the_end st'.
  Proof. inversion 1; assumption. Qed.
  Lemma nodes_cons_inv st n f fs st' : nodes st n (f :: fs) st' ->
    exists r st1, runs st n [] (the_node f r) st1 /\ nodes st1 r fs st'.
  Proof. inversion 1; subst; eauto. Qed.

  Lemma concatenate_nodes_sequence x y : forall fs st st1 gs st2 n' st0,
    nodes st x fs st1 -> nodes st1 y gs st2 ->
    runs st0 (VGlobal "prelude:concatenateNodes") [x; y] n' st0 -> nodes st n' (fs ++ gs) st2.
  Proof.
    intros fs. revert x. induction fs as [|f fs IH]; intros x st st1 gs st2 n' st0 Hx Hy Hn;
      destruct (concatenate_nodes_runs st0 x y) as (k & Hk & K1 & K2);
      destruct (runs_fun _ _ _ _ _ _ _ _ _ Hn Hk) as [-> _].
    - apply nodes_nil_inv in Hx. cbn. inversion Hy; subst; econstructor; eauto.
    - apply nodes_cons_inv in Hx as (r & st3 & H1 & H2). cbn. destruct (K2 _ _ _ _ H1) as (k' & Hk' & Hc). econstructor; eauto.
  Qed.

  Lemma concatenate_sequence st x y :
    exists n', runs st (VGlobal "prelude:ConcatenateLists") [x; the_list y] (the_list n') st /\
      forall st n st0 fs st1 gs st2,
        runs st x [] (the_list n) st0 -> nodes st0 n fs st1 -> nodes st1 y gs st2 -> nodes st n' (fs ++ gs) st2.
  Proof.
    destruct (concatenate_runs st x y) as (n' & Hn' & K1 & K2). exists n'. split; [exact Hn'|].
    intros st' n st0 fs st1 gs st2 Hx Hn Hy. destruct fs as [|f fs].
    - apply nodes_nil_inv in Hn. cbn. inversion Hy; subst; econstructor; eauto.
    - apply nodes_cons_inv in Hn as (r & st3 & H1 & H2). cbn. destruct (K2 _ _ _ _ _ _ Hx H1) as (k & Hk & Hc). econstructor; [exact Hk|].
      eapply concatenate_nodes_sequence; eauto.
  Qed.

  Lemma lazy_sequence st x :
    exists n', runs st (VGlobal "prelude:LazyList") [x] (the_list n') st /\
      forall st n st0 fs st1, runs st x [] (the_list n) st0 -> nodes st0 n fs st1 -> nodes st n' fs st1.
  Proof.
    destruct (lazy_runs st x) as (n' & Hn' & K). exists n'. split; [exact Hn'|].
    intros st' n st0 fs st1 Hx Hn. inversion Hn; subst; econstructor; eauto.
  Qed.

  Lemma prepend_sequence st x n :
    exists n', runs st (VGlobal "prelude:PrependToList") [x; the_list n] (the_list n') st /\
      forall st fs st1, nodes st n fs st1 -> nodes st n' (x :: fs) st1.
  Proof.
    destruct (prepend_runs st x n) as (n' & Hn' & K). exists n'. split; [exact Hn'|].
    intros st' fs st1 H. econstructor; eauto.
  Qed.

  (** *** Size *)
  Fixpoint counted (k : nat) (s : Z) : Z :=
    match k with
    | O => s
    | S k => counted k (w_arith w Add s 4607182418800017408)
    end.

  Lemma node_size_runs fs : forall st n st' s,
    nodes st n fs st' ->
    exists v st1, runs st n [] v st1 /\ runs st1 (VGlobal "prelude:nodeSize") [v; VNumber s] (VNumber (counted (length fs) s)) st'.
  Proof.
    induction fs as [|f fs IH]; intros st n st' s H.
    - apply nodes_nil_inv in H. exists the_end, st'. split; [assumption|]. unfold the_end. steps.
    - apply nodes_cons_inv in H as (r & st1 & H1 & H2). destruct (IH _ _ _ (w_arith w Add s 4607182418800017408) H2) as (v & st2 & Hv & Hr).
      exists (the_node f r), st1. split; [assumption|]. unfold the_node. cbn [length counted].
      steps.
  Qed.

  Lemma list_size_runs fs st n st' :
    nodes st n fs st' ->
    runs st (VGlobal "prelude:ListSize") [the_list n] (VNumber (counted (length fs) 0)) st'.
  Proof.
    intros H. destruct (node_size_runs fs st n st' 0%Z H) as (v & st1 & Hv & Hr).
    steps.
  Qed.

  (** *** Lists that are the same in all states *)
  Section Stable.
    Variable Inv : state -> Prop.
    Context {A : Type}.
    Variable P : A -> value -> Prop.
    Notation stable_nodes := (stable_nodes w m Inv P).

    Lemma prepend_stable st x f n xs : P x f -> stable_nodes n xs ->
      exists n', runs st (VGlobal "prelude:PrependToList") [f; the_list n] (the_list n') st /\ stable_nodes n' (x :: xs).
    Proof.
      intros Hp Hn. destruct (prepend_runs st f n) as (n' & H & K). exists n'. split; [exact H|].
      intros st' I. exists f, n, st'. auto.
    Qed.

    Lemma lazy_stable st f xs :
      (forall st, Inv st -> exists n st', runs st f [] (the_list n) st' /\ Inv st' /\ stable_nodes n xs) ->
      exists n', runs st (VGlobal "prelude:LazyList") [f] (the_list n') st /\ stable_nodes n' xs.
    Proof.
      intros Hf. destruct (lazy_runs st f) as (n' & H & K). exists n'. split; [exact H|].
      destruct xs as [|x xs]; intros st' I; destruct (Hf st' I) as (n & st1 & H1 & I1 & Hn).
      - destruct (Hn st1 I1) as (st2 & H2 & I2). exists st2. eauto.
      - destruct (Hn st1 I1) as (g & r & st2 & H2 & I2 & Hp & Hr). exists g, r, st2. eauto.
    Qed.

    Lemma concatenate_nodes_stable y ys : stable_nodes y ys -> forall xs x n' st0,
      stable_nodes x xs -> runs st0 (VGlobal "prelude:concatenateNodes") [x; y] n' st0 -> stable_nodes n' (xs ++ ys).
    Proof.
      intros Hy. induction xs as [|a xs IH]; intros x n' st0 Hx Hn;
        destruct (concatenate_nodes_runs st0 x y) as (k & Hk & K1 & K2);
        destruct (runs_fun _ _ _ _ _ _ _ _ _ Hn Hk) as [-> _]; cbn [app].
      - destruct ys as [|b ys]; intros st I; destruct (Hx st I) as (st1 & H1 & I1).
        + destruct (Hy st1 I1) as (st2 & H2 & I2). exists st2. eauto.
        + destruct (Hy st1 I1) as (g & r & st2 & H2 & I2 & Hp & Hr). exists g, r, st2. eauto.
      - intros st I. destruct (Hx st I) as (g & r & st1 & H1 & I1 & Hp & Hr).
        destruct (K2 _ _ _ _ H1) as (n'' & H2 & H3). exists g, n'', st1. split; [exact H2|]. split; [exact I1|]. split; [exact Hp|].
        eapply IH; eauto.
    Qed.

    Lemma concatenate_stable st f xs y ys :
      (forall st, Inv st -> exists n st', runs st f [] (the_list n) st' /\ Inv st' /\ stable_nodes n xs) ->
      stable_nodes y ys ->
      exists n', runs st (VGlobal "prelude:ConcatenateLists") [f; the_list y] (the_list n') st /\ stable_nodes n' (xs ++ ys).
    Proof.
      intros Hf Hy. destruct (concatenate_runs st f y) as (n' & H & K1 & K2). exists n'. split; [exact H|].
      destruct xs as [|x xs]; cbn [app].
      - destruct ys as [|b ys]; intros st' I; destruct (Hf st' I) as (n & st0 & H0 & I0 & Hn); destruct (Hn st0 I0) as (st1 & H1 & I1).
        + destruct (Hy st1 I1) as (st2 & H2 & I2). exists st2. eauto.
        + destruct (Hy st1 I1) as (g & r & st2 & H2 & I2 & Hp & Hr). exists g, r, st2. eauto 8.
      - intros st' I. destruct (Hf st' I) as (n & st0 & H0 & I0 & Hn).
        destruct (Hn st0 I0) as (g & r & st1 & H1 & I1 & Hp & Hr).
        destruct (K2 _ _ _ _ _ _ H0 H1) as (n'' & H2 & H3). exists g, n'', st1. split; [exact H2|]. split; [exact I1|]. split; [exact Hp|].
        eapply concatenate_nodes_stable; eauto.
    Qed.
  End Stable.

  (** *** Equality *)
  Section Equality.
    Variable Inv : state -> Prop.
    Context {A : Type}.
    Variable Q : A -> value -> Prop.
    Notation stable_nodes := (stable_nodes w m Inv (gives w m Inv Q)).

    Lemma equal_nodes_runs eq f : forall xs ys x y,
      stable_nodes x xs -> stable_nodes y ys ->
      (forall a b, In a xs -> In b ys -> compares w m Inv Q maybe eq f a b) ->
      forall st, Inv st -> exists u st1 v st2 st3,
        runs st x [] u st1 /\ runs st1 y [] v st2 /\
        runs st2 (VGlobal "prelude:equalNodes") [f; u; v] (maybe (compare_with eq xs ys)) st3 /\ Inv st3.
    Proof.
      induction xs as [|a xs IH]; intros [|b ys] x y Hx Hy Hf st I; cbn [ListSpec.stable_nodes] in Hx, Hy.
      - destruct (Hx _ I) as (st1 & H1 & I1). destruct (Hy _ I1) as (st2 & H2 & I2).
        exists the_end, st1, the_end, st2, st2. repeat split; auto. unfold the_end. cbn [compare_with maybe]. steps.
      - destruct (Hx _ I) as (st1 & H1 & I1). destruct (Hy _ I1) as (g & r & st2 & H2 & I2 & _).
        exists the_end, st1, (the_node g r), st2, st2. repeat split; auto.
        unfold the_end, the_node. cbn [compare_with maybe]. steps.
      - destruct (Hx _ I) as (g & r & st1 & H1 & I1 & _). destruct (Hy _ I1) as (st2 & H2 & I2).
        exists (the_node g r), st1, the_end, st2, st2. repeat split; auto.
        unfold the_end, the_node. cbn [compare_with maybe]. steps.
      - destruct (Hx _ I) as (g & r & st1 & H1 & I1 & G1 & R1). destruct (Hy _ I1) as (g' & r' & st2 & H2 & I2 & G2 & R2).
        destruct (G1 _ I2) as (u & st3 & H3 & I3 & Q3). destruct (G2 _ I3) as (v & st4 & H4 & I4 & Q4).
        destruct (Hf a b (or_introl eq_refl) (or_introl eq_refl) _ _ _ I4 Q3 Q4) as (st5 & H5 & I5).
        cbn [compare_with]. destruct (eq a b) as [[|]|].
        + destruct (IH ys r r' R1 R2 (fun a b Ha Hb => Hf a b (or_intror Ha) (or_intror Hb)) _ I5)
            as (u' & st6 & v' & st7 & st8 & H6 & H7 & H8 & I8).
          exists (the_node g r), st1, (the_node g' r'), st2, st8. repeat split; auto.
          unfold the_node, maybe in *. steps.
        + exists (the_node g r), st1, (the_node g' r'), st2, st5. repeat split; auto.
          unfold the_node, maybe in *. steps.
        + exists (the_node g r), st1, (the_node g' r'), st2, st5. repeat split; auto.
          unfold the_node, maybe in *. steps.
    Qed.

    Lemma maybe_equal_runs eq f xs ys x y st :
      stable w m Inv (gives w m Inv Q) x xs -> stable w m Inv (gives w m Inv Q) y ys ->
      (forall a b, In a xs -> In b ys -> compares w m Inv Q maybe eq f a b) -> Inv st ->
      exists st', runs st (VGlobal "prelude:MaybeEqualLists") [f; x; y] (maybe (compare_with eq xs ys)) st' /\ Inv st'.
    Proof.
      intros (n & -> & Hx) (n' & -> & Hy) Hf I.
      destruct (equal_nodes_runs eq f xs ys n n' Hx Hy Hf st I) as (u & st1 & v & st2 & st3 & H1 & H2 & H3 & I3).
      exists st3. split; [|exact I3]. steps.
    Qed.

    Lemma compare_equal (eq : A -> A -> bool) xs : forall ys,
      compare_with (fun a b => Some (eq a b)) xs ys = Some (equal_with eq xs ys).
    Proof.
      induction xs as [|x xs IH]; intros [|y ys]; cbn; [reflexivity..|].
      destruct (eq x y); cbn; [apply IH|reflexivity].
    Qed.

    Lemma equal_runs (eq : A -> A -> bool) f xs ys x y st :
      stable w m Inv (gives w m Inv Q) x xs -> stable w m Inv (gives w m Inv Q) y ys ->
      (forall a b, In a xs -> In b ys -> compares w m Inv Q VBool eq f a b) -> Inv st ->
      exists st', runs st (VGlobal "prelude:EqualLists") [f; x; y] (VBool (equal_with eq xs ys)) st' /\ Inv st'.
    Proof.
      intros (n & -> & Hx) (n' & -> & Hy) Hf I.
      destruct (equal_nodes_runs (fun a b => Some (eq a b))
        (VClosure
           {| f_name := "$closure"; f_env := []; f_args := [("x", TVariant); ("y", TVariant)]; f_result := TVariant;
              f_body := Op (OVariant TBoolean) [Op (OCall [TVariant; TVariant] TBoolean) [Var "f"; Var "x"; Var "y"]];
              f_thunk := false |} [("y", the_list n'); ("x", the_list n); ("f", f)])
        xs ys n n' Hx Hy) with (st := st) as (u & st1 & v & st2 & st3 & H1 & H2 & H3 & I3); [|exact I|].
      - intros a b Ha Hb st' u v I' Qa Qb. destruct (Hf a b Ha Hb st' u v I' Qa Qb) as (st'' & H & I'').
        exists st''. split; [|exact I'']. unfold maybe. steps.
      - rewrite compare_equal in H3. cbn [maybe] in H3. exists st3. split; [|exact I3]. steps.
    Qed.
  End Equality.
End Prelude.
