(** Flattening string concatenations preserves behaviour. *)
From Coq Require Import String List ZArith Bool Lia.
From Verif Require Import Base Mir MirSpec MirSim MirConcat.
Import ListNotations.

Lemma find_def_map (f : fdef -> fdef) defs g :
  (forall d, f_name (f d) = f_name d) ->
  find_def (map f defs) g = option_map f (find_def defs g).
Proof.
  intros Hf. unfold find_def. induction defs as [|d defs IH]; cbn; [reflexivity|].
  rewrite Hf. destruct (String.eqb g (f_name d)); [reflexivity|exact IH].
Qed.

(** Agreement of a module with the result of a pass that maps definitions one
    by one and keeps their names and types. *)
Lemma agree_map m f (crel : fdef -> fdef -> list string * list string -> (string -> string -> Prop) -> Prop) :
  infos_ok m ->
  (forall d, f_name (f d) = f_name d) ->
  (forall d, f_type (f d) = f_type d) ->
  (forall d, f_thunk (f d) = f_thunk d) ->
  (forall d d' xs ps, crel d d' xs ps -> f_type d' = f_type d) ->
  agree m (set_defs m (map f (m_defs m))) crel (fun _ _ => False).
Proof.
  intros [Hi Hfb] Hn Ht Hth Hc. split; cbn [set_defs m_types m_declared m_infos m_fallback m_defs]; auto.
  - intros g d Hd. rewrite find_def_map, Hd by assumption. cbn [option_map]. eauto.
  - intros g Hd _. rewrite find_def_map, Hd by assumption. reflexivity.
  - intros d g [].
Qed.

Section Concat.
  Variable m : mmodule.
  Let m' := concat_module m.
  Variable md : mode.
  Variable w : world.

  Definition concat_def (d : fdef) : fdef := set_body d (concat_expr (f_body d)).

  Definition concat_crel (d d' : fdef) (_ : list string * list string) (ps : string -> string -> Prop) : Prop :=
    d' = concat_def d /\ ps = eq.

  Let lrel := fun (_ : fdef) (_ : string) => False.

  Notation vr := (vrel m concat_crel lrel).
  Notation orl := (orel m concat_crel lrel).
  Notation sr := (srel m concat_crel lrel).

  Hypothesis Hinfos : infos_ok m.

  Lemma concat_agree : agree m m' concat_crel lrel.
  Proof.
    apply (agree_map m concat_def); try reflexivity; try assumption.
    intros d d' xs ps [-> _]. reflexivity.
  Qed.

  Lemma capture_same d d' rho rho' c :
    f_env d' = f_env d -> (forall x, entry m vr rho rho' x x) ->
    capture md d rho = Some c ->
    exists c', capture md d' rho' = Some c' /\ forall x, entry m vr c c' x x.
  Proof.
    intros He Hr. unfold capture. destruct md.
    - intros E. injection E as <-. eauto.
    - rewrite He. generalize (map fst (f_env d)). clear He. intros xs. revert c.
      induction xs as [|k xs IH]; cbn; intros c E.
      + injection E as <-. exists []. split; [reflexivity|]. intros x. apply entry_nil.
      + destruct (lookup rho k) as [v|] eqn:Hk; [|discriminate].
        destruct (capture_vars xs rho) as [c1|]; [|discriminate]. injection E as <-.
        destruct (IH _ eq_refl) as (c1' & -> & Hc1).
        destruct (Hr k) as [u u' H1 H2 Hu|H1 H2|[]]; [|congruence|reflexivity].
        assert (u = v) by congruence. subst u. rewrite H2.
        eexists. split; [reflexivity|]. intros x. apply entry_cons_same; [assumption|apply Hc1].
  Qed.

  Lemma concat_bytes_app a b :
    concat_bytes (a ++ b) =
    match concat_bytes a, concat_bytes b with
    | Some s, Some t => Some (String.append s t)
    | _, _ => None
    end.
  Proof.
    induction a as [|v a IH]; cbn.
    - destruct (concat_bytes b); reflexivity.
    - destruct v; try reflexivity. rewrite IH.
      destruct (concat_bytes a), (concat_bytes b); cbn; try reflexivity.
      f_equal. clear. induction s; cbn; [reflexivity|]. congruence.
  Qed.

  (** Lists that concatenate to the same bytes. *)
  Definition crel_list (vs vs' : list value) : Prop :=
    forall s, concat_bytes vs = Some s -> concat_bytes vs' = Some s.

  Lemma eval_list_app ev rho a : forall st b,
    eval_list ev rho st (a ++ b) =
    obind (eval_list ev rho st a) (fun vs st => obind (eval_list ev rho st b) (fun us st => Done (vs ++ us) st)).
  Proof.
    induction a as [|e a IH]; intros st b; cbn [eval_list app obind].
    - destruct (eval_list ev rho st b); reflexivity.
    - destruct (ev rho st e); cbn [obind]; try reflexivity.
      rewrite IH. destruct (eval_list ev rho st0 a); cbn [obind]; try reflexivity.
      destruct (eval_list ev rho st1 b); reflexivity.
  Qed.

  Section Body.
    Variables call call' : state -> value -> list value -> out value.
    Hypothesis Hcall : callrel m concat_crel lrel call call'.
    Notation at_ := (evrel_at m m' md md w concat_crel lrel call call').

    (** One operand, seen as the list of its parts. *)
    Lemma operand_sim rho rho' e e' : at_ rho rho' e e' ->
      forall st st', sr st st' ->
        orl crel_list
            (eval_list (eval md w m call) rho st [e])
            (eval_list (eval md w m' call') rho' st' (concat_operand e')).
    Proof.
      intros H st st' Hs. specialize (H _ _ Hs).
      assert (Hplain : orl crel_list (eval_list (eval md w m call) rho st [e])
                           (eval_list (eval md w m' call') rho' st' [e'])).
      { cbn [eval_list]. eapply orel_bind; [exact H|].
        intros v v' st1 st1' Hv Hs1. constructor; [|assumption].
        intros s. destruct Hv; cbn; try discriminate. intros E. exact E. }
      destruct e' as [| |o es' | | | | | | |]; try exact Hplain.
      destruct o; try exact Hplain. clear Hplain.
      cbn [concat_operand]. cbn [eval] in H. cbn [eval_list].
      destruct (eval_list (eval md w m' call') rho' st' es') as [vs' st1'|v' st1'|st1'|st1'|];
        cbn [obind] in H.
      - unfold apply_op in H. destruct (concat_bytes vs') as [s|] eqn:Es.
        + inversion H as [v a' st1 st2 Hv Hs1 E1 E2| | | st1 r E1 E2| r E1 E2]; subst; cbn [obind]; try constructor; [|assumption].
          inversion Hv; subst. intros s0. cbn.
          rewrite Es. intros E0. injection E0 as <-. f_equal.
          clear. induction s; cbn; [reflexivity|]. congruence.
        + inversion H; subst; cbn [obind]; constructor.
      - inversion H; subst; cbn [obind]; constructor; assumption.
      - inversion H; subst; cbn [obind]; constructor; assumption.
      - inversion H; subst; cbn [obind]; constructor.
      - inversion H; subst; cbn [obind]; constructor.
    Qed.

    Lemma operands_sim rho rho' es es' : Forall2 (at_ rho rho') es es' ->
      forall st st', sr st st' ->
        orl crel_list
            (eval_list (eval md w m call) rho st es)
            (eval_list (eval md w m' call') rho' st' (flat_map concat_operand es')).
    Proof.
      induction 1 as [|e e' es es' He _ IH]; intros st st' Hs.
      - cbn. constructor; [|assumption]. intros s E. exact E.
      - change (e :: es) with ([e] ++ es). cbn [flat_map]. rewrite !eval_list_app.
        eapply orel_bind; [apply operand_sim; eassumption|].
        intros vs vs' st1 st1' Hv Hs1. eapply orel_bind; [apply IH; assumption|].
        intros us us' st2 st2' Hu Hs2. constructor; [|assumption].
        intros s. rewrite !concat_bytes_app.
        destruct (concat_bytes vs) as [a|] eqn:Ea; [|discriminate].
        destruct (concat_bytes us) as [b|] eqn:Eb; [|discriminate].
        rewrite (Hv _ Ea), (Hu _ Eb). auto.
    Qed.

    Lemma concat_eval e : forall rho rho',
      (forall x, entry m vr rho rho' x x) -> at_ rho rho' e (concat_expr e).
    Proof.
      induction e as [l|x|o es IH|c t e IHc IHt IHe|a alts de IHa IHalts IHde|x t b e IHb IHe
                      |d e IHd IHe|o x t e IHo IHe|xs e IHe|xs e IHe] using expr_ind';
        intros rho rho' Hr;
        try (assert (Hcons : forall k v v', vr v v' -> forall x, entry m vr ((k, v) :: rho) ((k, v') :: rho') x x)
              by (intros; apply entry_cons_same; auto)).
      - apply lit_at.
      - apply var_at; [apply concat_agree|apply Hr].
      - assert (Hes : Forall2 (at_ rho rho') es (map concat_expr es)).
        { clear -IH Hr. induction IH as [|e es He _ IHes]; cbn; constructor; auto. }
        destruct o; try (apply op_at; [apply concat_agree|assumption|exact Hes]).
        intros st st' Hs. cbn [concat_expr concat_convert eval].
        eapply orel_bind; [apply operands_sim; eassumption|].
        intros vs vs' st1 st1' Hv Hs1. unfold apply_op.
        destruct (concat_bytes vs) as [s|] eqn:Es; [|constructor].
        rewrite (Hv _ Es). constructor; [constructor|assumption].
      - apply if_at; auto.
      - apply case_at; auto.
        + clear -IHalts Hr. induction IHalts as [|al alts Hal _ IH]; cbn; constructor; auto.
          split; [reflexivity|]. intros v v' Hv. cbn. apply Hal. intros x.
          apply entry_cons_same; auto.
        + destruct de as [[x e]|]; constructor. intros v v' Hv. eapply IHde; [reflexivity|]. auto.
      - apply let_at; auto. intros v v' Hv. apply IHe. auto.
      - cbn [concat_expr concat_convert].
        apply letrec_at; try reflexivity.
        + intros c Hc. destruct (capture_same d (concat_def d) rho rho' c eq_refl Hr Hc) as (c' & Hc' & Hps).
          exists c', eq. split; [exact Hc'|]. split; [split; reflexivity|]. intros x y <-. apply Hps.
        + intros v v' Hv. apply IHe. auto.
      - apply try_at; auto. intros v v' Hv. apply IHe. auto.
      - apply clone_at. auto.
      - apply drop_at. auto.
    Qed.
  End Body.
End Concat.

Theorem concat_refines md m : infos_ok m -> refines md m md (concat_module m).
Proof.
  intros Hi. apply sim_refines with (crel := concat_crel) (lrel := fun _ _ => False).
  - apply concat_agree. assumption.
  - intros w call call' d d' c c' ps f f' vs vs' st st' Hcall [-> ->] Hc Hf Hk Hvs Hlen Hs.
    cbn [f_args f_name f_body set_body concat_def]. apply concat_eval; auto.
    apply entry_bind_args_same; [assumption|]. intros x. apply entry_cons_same; auto.
  - intros w call call' d g vs vs' st st' Hcall [].
  - intros w call call' g d d' vs vs' st st' Hcall Hd Hd' Hvs Hlen Hs.
    cbn [concat_module set_defs m_defs] in Hd'.
    rewrite find_def_map, Hd in Hd' by reflexivity. injection Hd' as <-.
    cbn [f_args f_name f_body set_body concat_def]. apply concat_eval; auto.
    apply entry_bind_args_same; [assumption|]. intros x. apply entry_nil.
Qed.
