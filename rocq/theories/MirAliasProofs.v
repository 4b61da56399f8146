(** Alias removal preserves behaviour and is idempotent. *)
From Coq Require Import String List ZArith Bool Lia.
From Verif Require Import Base Mir MirSpec MirScopeSpec MirSim MirConcatProofs MirEnv MirEnvProofs
     MirAlpha MirAlphaProofs MirUniq MirLoose MirNorm.
Import ListNotations.

Lemma lookup_forget x vars z :
  lookup (forget x vars) z = if String.eqb z x then None else lookup vars z.
Proof.
  unfold forget. induction vars as [|[k y] vars IH]; cbn.
  - destruct (String.eqb z x); reflexivity.
  - destruct (String.eqb k x) eqn:Hk; cbn; rewrite IH.
    + apply String.eqb_eq in Hk. subst k. destruct (String.eqb z x); reflexivity.
    + destruct (String.eqb z x) eqn:Hx; [|reflexivity].
      apply String.eqb_eq in Hx. subst z. rewrite String.eqb_sym, Hk. reflexivity.
Qed.

Lemma subst_forget_same x vars : subst (forget x vars) x = x.
Proof. unfold subst. rewrite lookup_forget, String.eqb_refl. reflexivity. Qed.

Lemma subst_forget_other x vars z : z <> x -> subst (forget x vars) z = subst vars z.
Proof.
  intros H. unfold subst. rewrite lookup_forget. apply String.eqb_neq in H. rewrite H. reflexivity.
Qed.

Lemma subst_cons x y vars z :
  subst ((x, y) :: vars) z = if String.eqb z x then y else subst vars z.
Proof. unfold subst. cbn. destruct (String.eqb z x); reflexivity. Qed.

Lemma lookup_forget_all xs : forall vars z,
  lookup (forget_all xs vars) z = if mem z xs then None else lookup vars z.
Proof.
  induction xs as [|x xs IH]; intros vars z; cbn; [reflexivity|].
  unfold forget_all in IH. rewrite IH, lookup_forget.
  destruct (mem z xs), (String.eqb z x); reflexivity.
Qed.

(** No target of the renaming is bound in the expression. *)
Definition clear (vars : renaming) (bs : list string) : Prop :=
  forall x y, lookup vars x = Some y -> ~ In y bs.

Lemma clear_sub vars bs bs' : clear vars bs -> (forall x, In x bs' -> In x bs) -> clear vars bs'.
Proof. intros H Hs x y E Hy. apply (H x y E). auto. Qed.

Lemma clear_forget vars bs x : clear vars bs -> clear (forget x vars) bs.
Proof.
  intros H z y. rewrite lookup_forget. destruct (String.eqb z x); [discriminate|]. apply H.
Qed.

Lemma clear_forget_all vars bs xs : clear vars bs -> clear (forget_all xs vars) bs.
Proof.
  intros H z y. rewrite lookup_forget_all. destruct (mem z xs); [discriminate|]. apply H.
Qed.

Lemma clear_subst vars bs x : clear vars bs -> ~ In x bs -> ~ In (subst vars x) bs.
Proof.
  intros H Hx. unfold subst. destruct (lookup vars x) as [y|] eqn:E; [|assumption].
  eapply H. eassumption.
Qed.

Lemma clear_cons vars bs x y : clear vars bs -> ~ In y bs -> clear ((x, y) :: vars) bs.
Proof.
  intros H Hy z u. cbn. destruct (String.eqb z x); [intros [= <-]; assumption|apply H].
Qed.

(** Whether the result is a variable does not depend on the renaming. *)
Lemma alias_var_shape e : forall s t x, alias s e = Var x -> exists y, alias t e = Var y.
Proof.
  induction e as [l|x|o es IH|c t e IHc IHt IHe|a alts de IHa IHalts IHde|x t b e IHb IHe
                  |d e IHd IHe|o x t e IHo IHe|xs e IHe|xs e IHe] using expr_ind';
    intros s r z; cbn [alias]; try discriminate; [eauto|].
  destruct (alias s b) eqn:Eb; try discriminate.
  destruct (IHb s r _ Eb) as [y Ey]. rewrite Ey. apply IHe.
Qed.

(** The variable that results, up to the renaming. *)
Lemma alias_var_free e : forall s x, alias s e = Var x -> exists z, In z (results e) /\ x = subst s z.
Proof.
  induction e as [l|x|o es IH|c t e IHc IHt IHe|a alts de IHa IHalts IHde|x t b e IHb IHe
                  |d e IHd IHe|o x t e IHo IHe|xs e IHe|xs e IHe] using expr_ind';
    intros s z; cbn [alias]; try discriminate.
  - intros [= <-]. exists x. split; [left; reflexivity|reflexivity].
  - destruct (alias s b) eqn:Eb; try discriminate. intros E.
    destruct (IHb _ _ Eb) as (u & Hu & ->). destruct (IHe _ _ E) as (v & Hv & ->).
    cbn [results]. unfold subst at 1. cbn. destruct (String.eqb_spec v x) as [->|Hne].
    + exists u. rewrite in_app_iff. auto.
    + exists v. split; [|reflexivity]. rewrite in_app_iff, in_except. auto.
Qed.

Definition var_of (e : expr) : option string :=
  match e with
  | Var x => Some x
  | _ => None
  end.

Lemma alias_let_var s x t b e y :
  alias s b = Var y -> alias s (Let x t b e) = alias ((x, y) :: s) e.
Proof. intros H. cbn [alias]. rewrite H. reflexivity. Qed.

Lemma alias_let_other s x t b e :
  var_of (alias s b) = None ->
  alias s (Let x t b e) = Let x t (alias s b) (alias (forget x s) e).
Proof. intros H. cbn [alias]. destruct (alias s b); try reflexivity. discriminate. Qed.

Lemma var_of_some e x : var_of e = Some x -> e = Var x.
Proof. destruct e; try discriminate. intros [= ->]. reflexivity. Qed.

(** *** Composition *)
Lemma alias_compose e : forall s t r,
  loose e -> clear t (binders e) ->
  (forall x, subst r x = subst s (subst t x)) ->
  alias s (alias t e) = alias r e.
Proof.
  assert (Hstep : forall s t r x bs, clear t bs -> In x bs ->
             (forall x, subst r x = subst s (subst t x)) ->
             forall z, subst (forget x r) z = subst (forget x s) (subst (forget x t) z)).
  { intros s t r x bs Hc Hx H z. destruct (string_dec z x) as [->|Hne].
    - rewrite !subst_forget_same. reflexivity.
    - rewrite !(subst_forget_other x _ z) by assumption. rewrite subst_forget_other; [apply H|].
      intros E. unfold subst in E. destruct (lookup t z) as [y|] eqn:El; [|congruence].
      apply (Hc z y El). subst y. assumption. }
  induction e as [l|x|o es IH|c tt e IHc IHt IHe|a alts de IHa IHalts IHde|x ty b e IHb IHe
                  |d e IHd IHe|o x ty e IHo IHe|xs e IHe|xs e IHe] using expr_ind';
    intros s t r Hu Hc H;
    match goal with |- alias _ (alias _ (Let _ _ _ _)) = _ => idtac | _ => cbn [alias] end.
  - reflexivity.
  - rewrite H. reflexivity.
  - f_equal. rewrite map_map. apply map_ext_in. intros e He.
    rewrite Forall_forall in IH. apply IH; auto.
    + eapply loose_op; eassumption.
    + eapply clear_sub; [eassumption|]. intros x Hx. cbn. apply in_flat_map. eauto.
  - destruct (loose_if _ _ _ Hu) as (H1 & H2 & H3 & _). cbn [binders] in Hc.
    f_equal; [apply IHc|apply IHt|apply IHe]; auto;
      (eapply clear_sub; [exact Hc|]; intros x Hx; rewrite !in_app_iff; auto).
  - pose proof (loose_case_argument _ _ _ Hu) as H1. cbn [binders] in Hc. f_equal.
    + apply IHa; auto. eapply clear_sub; [exact Hc|]. intros x Hx. rewrite !in_app_iff. auto.
    + rewrite map_map. apply map_ext_in. intros al Hal. cbn.
      destruct (loose_case_alternative _ _ _ _ Hu Hal) as (H2 & _).
      rewrite Forall_forall in IHalts. f_equal. apply IHalts; auto.
      * apply clear_forget. eapply clear_sub; [exact Hc|]. intros x Hx.
        rewrite !in_app_iff, in_flat_map. right. left. exists al. split; [assumption|right; assumption].
      * eapply Hstep; [exact Hc| |exact H]. rewrite !in_app_iff, in_flat_map. right. left.
        exists al. split; [assumption|left; reflexivity].
    + destruct de as [[x e]|]; [|reflexivity]. f_equal. f_equal.
      destruct (loose_case_default _ _ _ _ Hu) as (H2 & _).
      eapply IHde; [reflexivity|assumption| |].
      * apply clear_forget. eapply clear_sub; [exact Hc|]. intros y Hy. rewrite !in_app_iff.
        right. right. right. assumption.
      * eapply Hstep; [exact Hc| |exact H]. rewrite !in_app_iff. right. right. left. reflexivity.
  - destruct (loose_let _ _ _ _ Hu) as (H1 & H2 & _ & H7). cbn [binders] in Hc.
    assert (Eb : alias s (alias t b) = alias r b).
    { apply IHb; auto. eapply clear_sub; [exact Hc|]. intros y Hy. right. rewrite in_app_iff. auto. }
    assert (Hcb : clear t (binders e)).
    { eapply clear_sub; [exact Hc|]. intros y Hy. right. rewrite in_app_iff. auto. }
    assert (Hkeep : alias (forget x s) (alias (forget x t) e) = alias (forget x r) e).
    { apply IHe; auto.
      - apply clear_forget. assumption.
      - eapply Hstep; [exact Hc|left; reflexivity|exact H]. }
    destruct (var_of (alias t b)) as [y|] eqn:Et.
    2: { rewrite (alias_let_other t) by assumption. rewrite alias_let_other, alias_let_other;
           rewrite ?Eb, ?Hkeep; [reflexivity|..];
         (destruct (var_of (alias r b)) as [u|] eqn:Er; [|reflexivity]; apply var_of_some in Er;
          destruct (alias_var_shape _ _ t _ Er) as [q Eq]; rewrite Eq in Et; discriminate). }
    apply var_of_some in Et. rewrite (alias_let_var t _ _ _ _ _ Et).
    rewrite Et in Eb. cbn [alias] in Eb. symmetry in Eb. rewrite (alias_let_var r _ _ _ _ _ Eb).
    apply IHe; auto.
    + destruct (alias_var_free _ _ _ Et) as (z & Hz & ->). apply clear_cons; [assumption|].
      apply clear_subst; [assumption|]. intros Hz'. apply (H7 z Hz). right. assumption.
    + intros z. rewrite !subst_cons. destruct (String.eqb z x); [reflexivity|apply H].
  - destruct (loose_letrec _ _ Hu) as (H1 & H4). cbn [binders] in Hc. f_equal.
    + cbn [f_name f_env f_args f_result f_body f_thunk]. f_equal.
      * unfold subst_args. rewrite map_map. apply map_ext. intros [y ty]. cbn. rewrite H. reflexivity.
      * apply IHd; auto.
        -- apply clear_forget_all, clear_forget. eapply clear_sub; [exact Hc|]. intros y Hy.
           right. rewrite !in_app_iff. auto.
        -- assert (Hstep2 : forall xs s t r,
                     (forall x, In x xs -> In x (f_name d :: map fst (f_args d) ++ binders (f_body d) ++ binders e)) ->
                     clear t (f_name d :: map fst (f_args d) ++ binders (f_body d) ++ binders e) ->
                     (forall x, subst r x = subst s (subst t x)) ->
                     forall z, subst (forget_all xs r) z = subst (forget_all xs s) (subst (forget_all xs t) z)).
           { intros xs. induction xs as [|x xs IHx]; intros s0 t0 r0 Hxs Hc0 H0; cbn; [assumption|].
             apply IHx.
             - intros y Hy. apply Hxs. right. assumption.
             - apply clear_forget. assumption.
             - eapply Hstep; [exact Hc0| |exact H0]. apply Hxs. left. reflexivity. }
           apply Hstep2.
           ++ intros y Hy. right. rewrite in_app_iff. auto.
           ++ apply clear_forget. assumption.
           ++ eapply Hstep; [exact Hc|left; reflexivity|exact H].
    + apply IHe; auto.
      * apply clear_forget. eapply clear_sub; [exact Hc|]. intros y Hy. right. rewrite !in_app_iff. auto.
      * eapply Hstep; [exact Hc|left; reflexivity|exact H].
  - destruct (loose_try _ _ _ _ Hu) as (H1 & H2 & _). cbn [binders] in Hc. f_equal.
    + apply IHo; auto. eapply clear_sub; [exact Hc|]. intros y Hy. right. rewrite in_app_iff. auto.
    + apply IHe; auto.
      * apply clear_forget. eapply clear_sub; [exact Hc|]. intros y Hy. right. rewrite in_app_iff. auto.
      * eapply Hstep; [exact Hc|left; reflexivity|exact H].
  - f_equal. apply IHe; auto.
  - f_equal. apply IHe; auto.
Qed.

Lemma alias_idempotent e s : loose e -> alias s (alias [] e) = alias s e.
Proof.
  intros Hu. apply alias_compose; [assumption| |reflexivity]. intros x y. discriminate.
Qed.

(** *** Behaviour *)
Definition alias_module (m : mmodule) : mmodule :=
  set_defs m (map (fun d => set_body d (alias [] (f_body d))) (m_defs m)).

Section AliasSim.
  Variable m : mmodule.
  Let m' := alias_module m.
  Variable w : world.

  Definition alias_def (vars : renaming) (d : fdef) : fdef :=
    Fdef (f_name d) (subst_args vars (f_env d)) (f_args d) (f_result d)
         (alias (forget_all (map fst (f_args d)) (forget (f_name d) vars)) (f_body d)) (f_thunk d).

  Definition alias_crel (d d' : fdef) (_ : list string * list string) (ps : string -> string -> Prop) : Prop :=
    exists vars, d' = alias_def vars d /\ loose (f_body d) /\
      clear vars (f_name d :: map fst (f_args d) ++ binders (f_body d)) /\
      ps = (fun x y => y = subst vars x /\ In x (def_fv d)).

  Let lrel := fun (_ : fdef) (_ : string) => False.

  Notation vr := (vrel m alias_crel lrel).

  Hypothesis Hinfos : infos_ok m.

  Lemma alias_agree : agree m m' alias_crel lrel.
  Proof.
    apply (agree_map m (fun d => set_body d (alias [] (f_body d)))); try reflexivity; try assumption.
    intros d d' xs ps (vars & -> & _). reflexivity.
  Qed.

  Section Body.
    Variables call call' : state -> value -> list value -> out value.
    Hypothesis Hcall : callrel m alias_crel lrel call call'.
    Notation at_ := (evrel_at m m' Lexical Lexical w alias_crel lrel call call').

    Definition aliased (S : list string) (vars : renaming) (rho rho' : env) : Prop :=
      forall x, In x S -> entry m vr rho rho' x (subst vars x).

    Lemma aliased_sub S T vars rho rho' :
      (forall x, In x T -> In x S) -> aliased S vars rho rho' -> aliased T vars rho rho'.
    Proof. intros H Hr x Hx. apply Hr, H, Hx. Qed.

    Lemma aliased_cons S vars rho rho' x v v' bs :
      clear vars bs -> In x bs -> vr v v' -> aliased (except x S) vars rho rho' ->
      aliased S (forget x vars) ((x, v) :: rho) ((x, v') :: rho').
    Proof.
      intros Hc Hx Hv H z Hz. destruct (string_dec z x) as [->|Hne].
      - rewrite subst_forget_same. apply entry_cons_here. assumption.
      - rewrite subst_forget_other by assumption. apply entry_cons_there; auto.
        + intros E. unfold subst in E. destruct (lookup vars z) as [y|] eqn:El; [|congruence].
          apply (Hc z y El). subst y. assumption.
        + apply H. apply in_except. auto.
    Qed.

    Lemma alias_eval e : forall vars rho rho',
      loose e -> clear vars (binders e) -> aliased (fv e) vars rho rho' ->
      at_ rho rho' e (alias vars e).
    Proof.
      induction e as [l|x|o es IH|c t e IHc IHt IHe|a alts de IHa IHalts IHde|x t b e IHb IHe
                      |d e IHd IHe|o x t e IHo IHe|xs e IHe|xs e IHe] using expr_ind';
        intros vars rho rho' Hu Hc Hr.
      - apply lit_at.
      - apply var_at; [apply alias_agree|]. apply Hr. left. reflexivity.
      - cbn [alias]. apply op_at; [apply alias_agree|assumption|].
        rewrite Forall_forall in IH.
        assert (Hes : forall e, In e es -> at_ rho rho' e (alias vars e)).
        { intros e He. apply IH; auto.
          - eapply loose_op; eassumption.
          - eapply clear_sub; [exact Hc|]. intros x Hx. cbn. apply in_flat_map. eauto.
          - eapply aliased_sub; [|exact Hr]. intros x Hx. cbn. apply in_flat_map. eauto. }
        clear -Hes. induction es as [|e es IHes]; cbn; constructor.
        + apply Hes. left. reflexivity.
        + apply IHes. intros e' He'. apply Hes. right. assumption.
      - destruct (loose_if _ _ _ Hu) as (H1 & H2 & H3 & _). cbn [binders] in Hc. cbn [fv] in Hr.
        cbn [alias]. apply if_at; [apply IHc|apply IHt|apply IHe]; auto;
          try (eapply clear_sub; [exact Hc|]; intros x Hx; rewrite !in_app_iff; auto);
          (eapply aliased_sub; [|exact Hr]; intros x Hx; rewrite !in_app_iff; auto).
      - pose proof (loose_case_argument _ _ _ Hu) as H1. cbn [binders] in Hc. cbn [fv] in Hr.
        cbn [alias]. apply case_at.
        + apply IHa; auto.
          * eapply clear_sub; [exact Hc|]. intros x Hx. rewrite !in_app_iff. auto.
          * eapply aliased_sub; [|exact Hr]. intros x Hx. rewrite !in_app_iff. auto.
        + assert (Hal : forall al, In al alts ->
                   alt_at m m' Lexical Lexical w alias_crel lrel call call' rho rho' al
                     (Alt (a_types al) (a_name al) (alias (forget (a_name al) vars) (a_body al)))).
          { intros al Hal. split; [reflexivity|]. intros v v' Hv. cbn.
            destruct (loose_case_alternative _ _ _ _ Hu Hal) as (H2 & _).
            rewrite Forall_forall in IHalts. apply IHalts; auto.
            - apply clear_forget. eapply clear_sub; [exact Hc|]. intros x Hx.
              rewrite !in_app_iff, in_flat_map. right. left. exists al. split; [assumption|right; assumption].
            - eapply aliased_cons; [exact Hc| |assumption|].
              + rewrite !in_app_iff, in_flat_map. right. left. exists al.
                split; [assumption|left; reflexivity].
              + eapply aliased_sub; [|exact Hr]. intros x Hx. rewrite !in_app_iff, in_flat_map.
                right. left. eauto. }
          clear -Hal. induction alts as [|al alts IH]; cbn; constructor.
          * apply Hal. left. reflexivity.
          * apply IH. intros al' H'. apply Hal. right. assumption.
        + destruct de as [[x e]|]; constructor. intros v v' Hv.
          destruct (loose_case_default _ _ _ _ Hu) as (H2 & _).
          eapply IHde; [reflexivity|assumption| |].
          * apply clear_forget. eapply clear_sub; [exact Hc|]. intros y Hy. rewrite !in_app_iff.
            right. right. right. assumption.
          * eapply aliased_cons; [exact Hc| |assumption|].
            -- rewrite !in_app_iff. right. right. left. reflexivity.
            -- eapply aliased_sub; [|exact Hr]. intros y Hy. rewrite !in_app_iff. auto.
      - destruct (loose_let _ _ _ _ Hu) as (H1 & H2 & _ & H7).
        cbn [binders] in Hc. cbn [fv] in Hr.
        assert (Hb : at_ rho rho' b (alias vars b)).
        { apply IHb; auto.
          - eapply clear_sub; [exact Hc|]. intros y Hy. right. rewrite in_app_iff. auto.
          - eapply aliased_sub; [|exact Hr]. intros y Hy. rewrite in_app_iff. auto. }
        assert (Hcb : clear vars (binders e)).
        { eapply clear_sub; [exact Hc|]. intros y Hy. right. rewrite in_app_iff. auto. }
        destruct (var_of (alias vars b)) as [y|] eqn:Ev.
        + apply var_of_some in Ev. rewrite (alias_let_var _ _ _ _ _ _ Ev). rewrite Ev in Hb.
          assert (Hy : ~ In y (x :: binders e)).
          { destruct (alias_var_free _ _ _ Ev) as (z & Hz & ->). intros [E|E].
            - unfold subst in E. destruct (lookup vars z) as [u|] eqn:El.
              + apply (Hc z u El). left. assumption.
              + subst z. apply (H7 x Hz). left. reflexivity.
            - revert E. apply clear_subst; [assumption|]. intros E. apply (H7 z Hz). right. assumption. }
          intros st st' Hs. cbn [eval].
          specialize (Hb st st' Hs). cbn [eval] in Hb. unfold eval_var in Hb.
          assert (Hgo : forall v st1, srel m alias_crel lrel st1 st' -> entry m vr ((x, v) :: rho) rho' x y ->
                    orel m alias_crel lrel vr
                      (obind (Done v st1) (fun v st => eval Lexical w m call ((x, v) :: rho) st e))
                      (eval Lexical w m' call' rho' st' (alias ((x, y) :: vars) e))).
          { intros v st1 Hs1 Hent. cbn [obind]. apply IHe; auto.
            - apply clear_cons; [assumption|]. intros Hi. apply Hy. right. assumption.
            - intros z Hz. rewrite subst_cons. destruct (String.eqb_spec z x) as [->|Hne]; [exact Hent|].
              assert (Hold : entry m vr rho rho' z (subst vars z)).
              { apply Hr. rewrite in_app_iff, in_except. auto. }
              apply String.eqb_neq in Hne.
              destruct Hold as [u u' E1 E2 Hu'|E1 E2|E0 E1 E2 E3].
              + econstructor; [cbn; rewrite Hne; exact E1|exact E2|exact Hu'].
              + apply entry_none; [cbn; rewrite Hne; exact E1|exact E2].
              + apply entry_global; [exact E0|cbn; rewrite Hne; exact E1|exact E2|exact E3]. }
          destruct (lookup rho' y) as [v'|] eqn:Ey.
          * inversion Hb as [v a' st1 st2 Hv Hs1 E1 E2| | |st1 r E1 E2|r E1 E2]; subst; try (cbn [obind]; constructor; fail).
            apply (Hgo v st1); [assumption|].
            econstructor; [cbn; rewrite String.eqb_refl; reflexivity|exact Ey|exact Hv].
          * destruct (global_type m' y) as [ty|] eqn:Eg.
            -- inversion Hb as [v a' st1 st2 Hv Hs1 E1 E2| | |st1 r E1 E2|r E1 E2]; subst; try (cbn [obind]; constructor; fail).
               apply (Hgo v st1); [assumption|].
               inversion Hv; subst; [contradiction|].
               apply entry_global; auto.
               ++ intros ->. apply Hy. left. reflexivity.
               ++ cbn. rewrite String.eqb_refl. reflexivity.
            -- inversion Hb; subst; cbn [obind]; constructor.
        + rewrite alias_let_other by assumption. apply let_at; [assumption|].
          intros v v' Hv. apply IHe; auto.
          * apply clear_forget. assumption.
          * eapply aliased_cons; [exact Hc|left; reflexivity|assumption|].
            eapply aliased_sub; [|exact Hr]. intros z Hz. rewrite in_app_iff. auto.
      - destruct (loose_letrec _ _ Hu) as (H1 & H2). cbn [binders] in Hc.
        change (alias vars (LetRec d e)) with (LetRec (alias_def vars d) (alias (forget (f_name d) vars) e)).
        apply letrec_at; [reflexivity| |].
        + intros c E. cbn [capture] in E |- *. injection E as <-.
          exists rho', (fun x y => y = subst vars x /\ In x (def_fv d)). split; [reflexivity|]. split.
          * exists vars. split; [reflexivity|]. split; [assumption|]. split; [|reflexivity].
            eapply clear_sub; [exact Hc|]. intros x [Hx|Hx]; [left; assumption|].
            right. rewrite !in_app_iff in *. tauto.
          * intros x y [-> Hx]. apply Hr. apply in_def_fv in Hx as (E1 & E2 & E3).
            apply in_fv_letrec. auto.
        + intros v v' Hv. cbn [f_name alias_def]. apply IHe; auto.
          * apply clear_forget. eapply clear_sub; [exact Hc|]. intros y Hy. right. rewrite !in_app_iff. auto.
          * eapply aliased_cons; [exact Hc|left; reflexivity|assumption|].
            eapply aliased_sub; [|exact Hr]. intros z Hz. apply in_except in Hz as [Hz Hne].
            apply in_fv_letrec. auto.
      - destruct (loose_try _ _ _ _ Hu) as (H1 & H2 & _). cbn [binders] in Hc. cbn [fv] in Hr.
        cbn [alias]. apply try_at.
        + apply IHo; auto.
          * eapply clear_sub; [exact Hc|]. intros y Hy. right. rewrite in_app_iff. auto.
          * eapply aliased_sub; [|exact Hr]. intros y Hy. rewrite in_app_iff. auto.
        + intros v v' Hv. apply IHe; auto.
          * apply clear_forget. eapply clear_sub; [exact Hc|]. intros y Hy. right. rewrite in_app_iff. auto.
          * eapply aliased_cons; [exact Hc|left; reflexivity|assumption|].
            eapply aliased_sub; [|exact Hr]. intros z Hz. rewrite in_app_iff. auto.
      - cbn [alias]. apply clone_at. apply IHe; auto.
      - cbn [alias]. apply drop_at. apply IHe; auto.
    Qed.
  End Body.
End AliasSim.

Theorem alias_refines m :
  infos_ok m -> (forall d, In d (m_defs m) -> loose (f_body d)) ->
  refines Lexical m Lexical (alias_module m).
Proof.
  intros Hi Hloose. apply sim_refines with (crel := alias_crel) (lrel := fun _ _ => False).
  - apply alias_agree. assumption.
  - intros w call call' d d' c c' ps f f' vs vs' st st' Hcall
           (vars & -> & Hu & Hc & ->) Hent Hf Hk Hvs Hlen Hs.
    cbn [alias_def f_args f_name f_body]. apply alias_eval; auto.
    + apply clear_forget_all, clear_forget. eapply clear_sub; [exact Hc|].
      intros x Hx. right. rewrite in_app_iff. auto.
    + intros z Hz. destruct (in_dec string_dec z (map fst (f_args d))) as [Ha|Ha].
      * replace (subst (forget_all (map fst (f_args d)) (forget (f_name d) vars)) z) with z.
        -- apply entry_bind_args_one; [assumption|rewrite map_length; assumption|]. contradiction.
        -- unfold subst. rewrite lookup_forget_all. apply mem_In in Ha. rewrite Ha. reflexivity.
      * assert (Es : subst (forget_all (map fst (f_args d)) (forget (f_name d) vars)) z =
                     subst (forget (f_name d) vars) z).
        { unfold subst. rewrite lookup_forget_all. apply mem_false in Ha. rewrite Ha. reflexivity. }
        rewrite Es.
        assert (Hsz : ~ In (subst (forget (f_name d) vars) z) (map fst (f_args d))).
        { apply clear_subst; [|assumption]. apply clear_forget. eapply clear_sub; [exact Hc|].
          intros x Hx. right. rewrite in_app_iff. auto. }
        assert (Hbase : entry m (vrel m alias_crel (fun _ _ => False)) ((f_name d, f) :: c)
                          ((f_name d, f') :: c') z (subst (forget (f_name d) vars) z)).
        { destruct (string_dec z (f_name d)) as [->|Hne].
          - rewrite subst_forget_same. apply entry_cons_here. assumption.
          - rewrite subst_forget_other by assumption. apply entry_cons_there; auto.
            + intros E. unfold subst in E. destruct (lookup vars z) as [y|] eqn:El; [|congruence].
              apply (Hc z y El). left. congruence.
            + apply Hent. split; [reflexivity|]. apply in_def_fv. auto. }
        destruct Hbase as [u u' E1 E2 Hu'|E1 E2|E0 E1 E2 E3].
        -- econstructor; [rewrite bind_args_skip by assumption; exact E1|
                          rewrite bind_args_skip by assumption; exact E2|exact Hu'].
        -- apply entry_none; [rewrite bind_args_skip by assumption; exact E1|].
           rewrite bind_args_skip by assumption. exact E2.
        -- apply entry_global; [exact E0|rewrite bind_args_skip by assumption; exact E1|
                                rewrite bind_args_skip by assumption; exact E2|exact E3].
  - intros w call call' d g vs vs' st st' Hcall [].
  - intros w call call' g d d' vs vs' st st' Hcall Hd Hd' Hvs Hlen Hs.
    cbn [alias_module set_defs m_defs] in Hd'.
    rewrite find_def_map, Hd in Hd' by reflexivity. injection Hd' as <-.
    apply find_def_in in Hd as [Hd _].
    cbn [f_args f_name f_body set_body]. apply alias_eval; auto.
    + intros x y. discriminate.
    + intros x Hx. cbn. apply entry_bind_args_one; [assumption|rewrite map_length; assumption|].
      intros _. apply entry_nil.
Qed.
