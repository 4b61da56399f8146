(** Reference counting preserves behaviour. *)
From Coq Require Import String List Bool.
From Verif Require Import Base Mir MirSpec MirSim MirConcatProofs MirEnv MirRc MirRcProofs MirRcFunction.
Import ListNotations.

(** An expression without the clones and drops. *)
Fixpoint erase (e : expr) : expr :=
  match e with
  | Lit _ | Var _ => e
  | Op o es => Op o (map erase es)
  | If c t e => If (erase c) (erase t) (erase e)
  | Case a alts de =>
      Case (erase a) (map (fun al => Alt (a_types al) (a_name al) (erase (a_body al))) alts)
        (match de with Some (x, e) => Some (x, erase e) | None => None end)
  | Let x t b e => Let x t (erase b) (erase e)
  | LetRec d e =>
      LetRec (Fdef (f_name d) (f_env d) (f_args d) (f_result d) (erase (f_body d)) (f_thunk d)) (erase e)
  | Try o x t e => Try (erase o) x t (erase e)
  | CloneVars _ e => erase e
  | DropVars _ e => erase e
  end.

Definition erase_def (d : fdef) : fdef :=
  Fdef (f_name d) (f_env d) (f_args d) (f_result d) (erase (f_body d)) (f_thunk d).

Lemma erase_drop e xs owned : erase (drop_variables e xs owned) = erase e.
Proof. destruct xs; reflexivity. Qed.

Lemma erase_clone e xs owned : erase (clone_variables e xs owned) = erase e.
Proof. destruct xs; reflexivity. Qed.

Lemma backward_erase f es : Forall (fun e => forall mv e' mv', f e mv = Some (e', mv') -> erase e' = e) es ->
  forall mv es' mv', rc_backward f es mv = Some (es', mv') -> map erase es' = es.
Proof.
  induction 1 as [|e es He _ IH]; intros mv es' mv' H; cbn [rc_backward] in H.
  - osome H. reflexivity.
  - obind H. obind H. osome H. cbn [map]. f_equal; eauto.
Qed.

Lemma forward_erase f es : Forall (fun e => forall mv e' mv', f e mv = Some (e', mv') -> erase e' = e) es ->
  forall mv es' mv', rc_forward f es mv = Some (es', mv') -> map erase es' = es.
Proof.
  induction 1 as [|e es He _ IH]; intros mv es' mv' H; cbn [rc_forward] in H.
  - osome H. reflexivity.
  - obind H. obind H. osome H. cbn [map]. f_equal; eauto.
Qed.

Lemma alt_eta (al : alt) : Alt (a_types al) (a_name al) (a_body al) = al.
Proof. destruct al; reflexivity. Qed.

Lemma fdef_eta (d : fdef) : Fdef (f_name d) (f_env d) (f_args d) (f_result d) (f_body d) (f_thunk d) = d.
Proof. destruct d; reflexivity. Qed.

Lemma rc_erase e : forall owned mv e' mv', rc owned mv e = Some (e', mv') -> erase e' = e.
Proof.
  induction e as [l|y|op es IH|c t e IHc IHt IHe|a alts de IHa IHalts IHde|y t b e IHb IHe
                  |d e IHd IHe|a y t e IHo IHe|xs e IHe|xs e IHe] using expr_ind';
    intros owned mv e' mv' H; cbn [rc] in H.
  - osome H. reflexivity.
  - destruct (should_clone y owned mv); osome H; reflexivity.
  - obind H. osome H. cbn [erase]. f_equal.
    assert (Hm : Forall (fun e => forall mv e' mv', rc owned mv e = Some (e', mv') -> erase e' = e) es).
    { eapply Forall_impl; [|exact IH]. intros e9 He. apply He. }
    destruct (forward_operation op).
    + eapply (forward_erase (fun e mv => rc owned mv e)); eassumption.
    + eapply (backward_erase (fun e mv => rc owned mv e)); eassumption.
  - obind H. obind H. obind H. osome H. cbn [erase]. rewrite !erase_drop. f_equal; eauto.
  - obind H. destruct (rc_alternatives _ owned mv alts) as [tuples|] eqn:Et; [|discriminate H]. cbn [opt_bind] in H.
    obind H. osome H. cbn [erase]. f_equal; [eauto| |].
    + set (am := match o with Some (x, _) => except x n | None => n end ++
                 flat_map (fun '(al, mv) => except (a_name al) mv) tuples) in *. clearbody am. clear E0.
      apply alternatives_forall2 in Et. revert IHalts. induction Et as [|al [al2 bm] alts tuples (T1 & T2 & T3) _ IH];
        intros IHalts; [reflexivity|]. apply Forall_cons_iff in IHalts as [IH1 IHalts]. cbn [map fst snd a_types a_name a_body] in *.
      rewrite IH by assumption. rewrite erase_drop, T1, T2, (IH1 _ _ _ _ T3), alt_eta. reflexivity.
    + destruct de as [[x9 e9]|].
      * obind E. osome E. rewrite erase_drop, (IHde _ _ eq_refl _ _ _ _ E1). reflexivity.
      * osome E. reflexivity.
  - obind H. obind H. osome H. cbn [erase]. rewrite drop_unless, erase_drop. f_equal; eauto.
  - obind H. obind H. osome H. rewrite erase_clone. cbn [erase f_name f_env f_args f_result f_body f_thunk].
    rewrite drop_unless, erase_drop. unfold close_function. rewrite erase_drop, (IHd _ _ _ _ E0), fdef_eta. f_equal; eauto.
  - obind H. obind H. osome H. rewrite erase_drop. cbn [erase]. rewrite erase_drop. f_equal; eauto.
  - discriminate.
  - discriminate.
Qed.

Lemma function_erase global d d' : rc_function global d = Some d' -> d = erase_def d'.
Proof.
  intros H. unfold rc_function in H. obind H. injection H as <-. unfold erase_def. cbn.
  unfold close_function. rewrite erase_drop, (rc_erase _ _ _ _ _ E). symmetry. apply fdef_eta.
Qed.

Section Erase.
  Variables m m' : mmodule.
  Variable md : mode.
  Variable w : world.
  Hypothesis Hm : m = set_defs m' (map erase_def (m_defs m')).

  Definition erase_crel (d d' : fdef) (_ : list string * list string) (ps : string -> string -> Prop) : Prop :=
    d = erase_def d' /\ ps = eq.

  Let lrel := fun (_ : fdef) (_ : string) => False.

  Notation vr := (vrel m erase_crel lrel).
  Notation orl := (orel m erase_crel lrel).
  Notation sr := (srel m erase_crel lrel).

  Hypothesis Hinfos : infos_ok m.

  Lemma erase_agree : agree m m' erase_crel lrel.
  Proof.
    destruct Hinfos as [Hi Hfb]. split; auto; try (rewrite Hm; reflexivity).
    - intros g d Hd. rewrite Hm in Hd. cbn [set_defs m_defs] in Hd. rewrite find_def_map in Hd by reflexivity.
      destruct (find_def (m_defs m') g) as [d'|]; [|discriminate]. cbn in Hd. injection Hd as <-. eauto.
    - intros g Hd _. rewrite Hm in Hd. cbn [set_defs m_defs] in Hd. rewrite find_def_map in Hd by reflexivity.
      destruct (find_def (m_defs m') g) as [d'|]; [discriminate|]. reflexivity.
    - intros d d' xs ps [-> _]. reflexivity.
    - intros d g [].
  Qed.

  Lemma erase_capture_same d d' rho rho' c :
    f_env d' = f_env d -> (forall x, entry m vr rho rho' x x) ->
    capture md d rho = Some c ->
    exists c', capture md d' rho' = Some c' /\ forall x, entry m vr c c' x x.
  Proof.
    intros He Hr. unfold capture. destruct md.
    - intros E. injection E as <-. eauto.
    - rewrite He. generalize (map fst (f_env d)). clear He. intros xs. revert c.
      induction xs as [|k xs IH]; cbn; intros c E.
      + injection E as <-. exists []. split; [reflexivity|]. intros x. apply entry_nil.
      + destruct (lookup rho k) as [v|] eqn:Hk; [|discriminate].
        destruct (capture_vars xs rho) as [c1|]; [|discriminate]. injection E as <-.
        destruct (IH _ eq_refl) as (c1' & -> & Hc1).
        destruct (Hr k) as [u u' H1 H2 Hu|H1 H2|[]]; [|congruence|reflexivity].
        assert (u = v) by congruence. subst u. rewrite H2.
        eexists. split; [reflexivity|]. intros x. apply entry_cons_same; [assumption|apply Hc1].
  Qed.

  Section Body.
    Variables call call' : state -> value -> list value -> out value.
    Hypothesis Hcall : callrel m erase_crel lrel call call'.
    Notation at_ := (evrel_at m m' md md w erase_crel lrel call call').

    Lemma erase_eval e : forall rho rho',
      (forall x, entry m vr rho rho' x x) -> at_ rho rho' (erase e) e.
    Proof.
      induction e as [l|x|o es IH|c t e IHc IHt IHe|a alts de IHa IHalts IHde|x t b e IHb IHe
                      |d e IHd IHe|o x t e IHo IHe|xs e IHe|xs e IHe] using expr_ind';
        intros rho rho' Hr;
        try (assert (Hcons : forall k v v', vr v v' -> forall x, entry m vr ((k, v) :: rho) ((k, v') :: rho') x x)
              by (intros; apply entry_cons_same; auto)); cbn [erase].
      - apply lit_at.
      - apply var_at; [apply erase_agree|apply Hr].
      - apply op_at; [apply erase_agree|assumption|].
        clear -IH Hr. induction IH as [|e es He _ IHes]; cbn; constructor; auto.
      - apply if_at; auto.
      - apply case_at; auto.
        + clear -IHalts Hr. induction IHalts as [|al alts Hal _ IH]; cbn; constructor; auto.
          split; [reflexivity|]. intros v v' Hv. cbn. apply Hal. intros x.
          apply entry_cons_same; auto.
        + destruct de as [[x e]|]; constructor. intros v v' Hv. eapply IHde; [reflexivity|]. auto.
      - apply let_at; auto. intros v v' Hv. apply IHe. auto.
      - change (at_ rho rho' (LetRec (erase_def d) (erase e)) (LetRec d e)). apply letrec_at; try reflexivity.
        + intros c Hc. destruct (erase_capture_same (erase_def d) d rho rho' c eq_refl Hr Hc) as (c' & Hc' & Hps).
          exists c', eq. split; [exact Hc'|]. split; [split; reflexivity|]. intros x y <-. apply Hps.
        + intros v v' Hv. apply IHe. auto.
      - apply try_at; auto. intros v v' Hv. apply IHe. auto.
      - intros st st' Hs. cbn [eval]. apply IHe; assumption.
      - intros st st' Hs. cbn [eval]. apply IHe; assumption.
    Qed.
  End Body.
End Erase.

Lemma erase_refines md m m' : m = set_defs m' (map erase_def (m_defs m')) -> infos_ok m -> refines md m md m'.
Proof.
  intros Hm Hi. apply sim_refines with (crel := erase_crel) (lrel := fun _ _ => False).
  - apply erase_agree; assumption.
  - intros w call call' d d' c c' ps f f' vs vs' st st' Hcall [-> ->] Hc Hf Hk Hvs Hlen Hs.
    cbn [f_args f_name f_body erase_def]. apply erase_eval; auto.
    apply entry_bind_args_same; [assumption|]. intros x. apply entry_cons_same; auto.
  - intros w call call' d g vs vs' st st' Hcall [].
  - intros w call call' g d d' vs vs' st st' Hcall Hd Hd' Hvs Hlen Hs.
    rewrite Hm in Hd. cbn [set_defs m_defs] in Hd.
    rewrite find_def_map, Hd' in Hd by reflexivity. injection Hd as <-.
    cbn [f_args f_name f_body erase_def]. apply erase_eval; auto.
    apply entry_bind_args_same; [assumption|]. intros x. apply entry_nil.
Qed.

Theorem rc_refines md m m' : rc_module m = Some m' -> infos_ok m -> refines md m md m'.
Proof.
  intros H Hi. apply erase_refines; [|assumption]. unfold rc_module in H.
  destruct (opt_map (rc_function true) (m_defs m)) as [defs|] eqn:Eo; [|discriminate].
  cbn in H. injection H as <-. apply opt_map_forall2 in Eo. cbn [set_defs m_defs].
  assert (E : map erase_def defs = m_defs m).
  { induction Eo as [|d d' l l' Hd _ IH]; [reflexivity|]. cbn. rewrite IH. f_equal. symmetry.
    eapply function_erase; eassumption. }
  rewrite E. destruct m; reflexivity.
Qed.
