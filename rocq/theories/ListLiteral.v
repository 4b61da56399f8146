(** List literals, and the state of the empty list. *)
From Coq Require Import String List ZArith Bool Lia.
From Verif Require Import Base HirType Hir HirMir Mir RunSpec RunProofs RunInvariant ListSpec PreludeList ListProofs.
Import ListNotations.
Local Open Scope string_scope.

Lemma Forall2_len {A B} (P : A -> B -> Prop) xs ys : Forall2 P xs ys -> List.length xs = List.length ys.
Proof. induction 1; cbn; congruence. Qed.
Arguments Forall2_len {A B P xs ys}.

Section Prelude.
  Variable w : world.
  Variable m : mmodule.
  Hypothesis L : links m list_defs.
  Hypothesis D : declares m list_records_mir.

  Notation fair := (fair w m).

  (** *** The thunk of the empty list *)
  Lemma fair_initial : fair initial.
  Proof. intros v H. discriminate. Qed.

  Lemma call_fair n st f vs : fair st -> ends fair (call Lexical w m n st f vs).
  Proof.
    apply (call_ends Lexical w m fair).
    - intros st' ev H. exact H.
    - intros st' H. exact H.
    - intros st0 st' i v _ _ H. exact H.
    - clear st f vs. intros k st g d v st' F T _ _ Ev H. unfold ListSpec.fair, set_global. cbn [s_globals lookup].
      destruct (String.eqb "prelude:EmptyList" g) eqn:Eq; [|exact H]. intros u [= <-].
      apply String.eqb_eq in Eq. subst g.
      erewrite (found m L) in F by reflexivity. injection F as <-. cbn in Ev.
      rewrite (D "prelude:List" [TFunction [] TVariant]) in Ev by (left; reflexivity). cbn in Ev.
      injection Ev as <- <-. exists empty_node. split; [reflexivity|]. intros st1. constructor. apply empty_node_runs; assumption.
  Qed.

  Lemma runs_fair st f vs v st' : runs w m st f vs v st' -> fair st -> fair st'.
  Proof. intros (n & H) F. pose proof (call_fair n st f vs F) as C. rewrite H in C by lia. exact C. Qed.

  Lemma nodes_fair st n fs st' : nodes w m st n fs st' -> fair st -> fair st'.
  Proof. induction 1; intros F; [eapply runs_fair; eauto|]. apply IHnodes. eapply runs_fair; eauto. Qed.

  Lemma empty_runs st : fair st -> exists n st', runs w m st (VGlobal "prelude:EmptyList") [] (the_list n) st' /\
    s_log st' = s_log st /\ s_cells st' = s_cells st /\ fair st' /\ forall st1, nodes w m st1 n [] st1.
  Proof.
    intros F. destruct (lookup (s_globals st) "prelude:EmptyList") as [v|] eqn:H.
    - destruct (F v H) as (n & -> & K). exists n, st.
      split; [eapply runs_known_global; [eapply (found m L); reflexivity|reflexivity|reflexivity|exact H]|]. auto.
    - exists empty_node. eexists. split; [apply (empty_list_runs w m L D _ H)|]. split; [reflexivity|]. split; [reflexivity|].
      assert (K : forall st1, nodes w m st1 empty_node [] st1) by (intros st1; constructor; apply empty_node_runs; assumption).
      split; [|exact K]. intros v Hv. unfold set_global in Hv. cbn in Hv. injection Hv as <-. eauto.
  Qed.

  (** *** List literals *)
  Section Literal.
    Variable n : nat.
    Variable E : tenv.
    Variable R : renv.
    Variable C : config.
    Hypothesis N : list_names C.
    Notation compile := (compile n E R C).


    Hypothesis HE : imports_lists E.

    Lemma compile_any t : compile_type n E C TAny = Ok t -> t = TVariant.
    Proof. unfold compile_type. intros H. apply bind_ok in H as (c & Hc & H). destruct n; [discriminate|]. injection Hc as <-. injection H as <-. reflexivity. Qed.

    Lemma compile_list_type t : compile_type n E C (list_reference C) = Ok t -> t = TRecord "prelude:List".
    Proof.
      unfold compile_type, list_reference. rewrite (ln_type C N). intros H. apply bind_ok in H as (c & Hc & H).
      destruct n as [|[|n']]; [discriminate| |]; cbn in Hc; unfold HirType.resolve in Hc; rewrite HE in Hc; [discriminate|].
      injection Hc as <-. injection H as <-. reflexivity.
    Qed.

    Lemma compile_hcall k g ts t es e :
      compile k (hcall g ts t es) = Ok e ->
      exists k' a r es', k = S (S k') /\ Forall2 (fun x y => compile (S k') x = Ok y) es es' /\ List.length a = List.length ts /\
        e = Op (OCall a r) (Var g :: es').
    Proof.
      destruct k as [|k]; [discriminate|]. cbn [HirMir.compile hcall annotated bind]. intros H.
      apply bind_ok in H as ([a r] & Hs & H). apply bind_ok in H as (e1 & Hf & H).
      apply bind_ok in H as (es' & Hes & H). destruct k as [|k]; [discriminate|]. cbn in Hf. injection Hf as <-.
      apply mapM_ok in Hes. injection H as <-. exists k, a, r, es'. split; [reflexivity|]. split; [exact Hes|]. split; [|reflexivity].
      unfold compile_signature, compile_type in Hs. apply bind_ok in Hs as (mt & Hm & Hs).
      apply bind_ok in Hm as (c & Hc & Hl). destruct n as [|n']; [discriminate|]. cbn [canonicalize] in Hc.
      apply bind_ok in Hc as (a' & Ha & Hc). apply bind_ok in Hc as (r' & _ & Hc). injection Hc as <-.
      cbn [lower] in Hl. apply bind_ok in Hl as (a'' & Ha' & Hl). apply bind_ok in Hl as (r'' & _ & Hl).
      injection Hl as <-. injection Hs as <- <-. apply mapM_ok in Ha, Ha'.
      rewrite <- (Forall2_len Ha'), <- (Forall2_len Ha). reflexivity.
    Qed.

    Lemma compile_thunk k t e x : compile k (HThunk (Some t) e) = Ok x ->
      exists k' mt e', k = S k' /\ compile k' e = Ok e' /\ compile_type n E C t = Ok mt /\
        x = LetRec (thunk mt e') (Var "$thunk").
    Proof.
      destruct k as [|k]; [discriminate|]. cbn [HirMir.compile annotated bind]. intros H.
      apply bind_ok in H as (mt & Ht & H). apply bind_ok in H as (e' & He & H). injection H as <-.
      exists k, mt, e'. repeat split; auto.
    Qed.

    Definition with_cell (st : state) : state := State (s_log st) (s_cells st ++ [None]) (s_globals st).

    Lemma thunk_evals rho st t e :
      evals w m rho st (LetRec (thunk t e) (Var "$thunk")) (VThunk (List.length (s_cells st)) (thunk t e) rho) (with_cell st).
    Proof. apply evals_thunk; [reflexivity|]. apply evals_var. reflexivity. Qed.

    Lemma global_evals rho st g d : sees_globals m rho ->
      List.find (fun d => String.eqb g (f_name d)) list_defs = Some d -> evals w m rho st (Var g) (VGlobal g) st.
    Proof.
      intros S H. eapply evals_global; [eapply S, (found m L), H|eapply (known_global m L), H].
    Qed.

    (** what the theorem says about the code [e] of a literal *)
    Definition literal_runs (cs : list code) (e : expr) : Prop :=
      forall rho st, sees_globals m rho -> fair st ->
      exists nd st', evals w m rho st e (the_list nd) st' /\
        s_log st' = s_log st /\ s_cells st' = (s_cells st ++ repeat None (List.length cs))%list /\ fair st' /\
        forall st1 fs st2, elements w m rho (List.length (s_cells st)) cs st1 fs st2 -> nodes w m st1 nd fs st2.

    Lemma repeat_app_one {A} (l : list A) a k : ((l ++ [a]) ++ repeat a k = l ++ repeat a (S k))%list.
    Proof. rewrite <- app_assoc. reflexivity. Qed.

    Lemma lazy_literal e a r :
      List.length a = 1 ->
      literal_runs [ManyElements e]
        (Op (OCall a r) [Var (list_lazy C); LetRec (thunk (TRecord "prelude:List") e) (Var "$thunk")]).
    Proof.
      intros Ha rho st S F.
      destruct (lazy_sequence w m L D (with_cell st) (VThunk (List.length (s_cells st)) (thunk (TRecord "prelude:List") e) rho))
        as (nd & Hn & K).
      exists nd, (with_cell st). split; [|split; [reflexivity|split; [reflexivity|split; [exact F|]]]].
      - refine (evals_call _ _ _ _ _ _ _ _ _ _ _ _ _ _ Hn); [|rewrite Ha; reflexivity].
        eapply evals_cons; [rewrite (ln_lazy C N); eapply global_evals; [exact S|reflexivity]|].
        eapply evals_cons; [apply thunk_evals|apply evals_nil].
      - intros st1 fs st2 He. inversion He as [| |? ? ? ? n0 st3 fs0 st4 gs st5 Hr Hnd Hel]; subst.
        inversion Hel; subst. rewrite app_nil_r. eapply K; eauto.
    Qed.

    Lemma many_literal e a r cs e2 :
      List.length a = 2 -> literal_runs cs e2 ->
      literal_runs (ManyElements e :: cs)
        (Op (OCall a r) [Var (list_concatenate C); LetRec (thunk (TRecord "prelude:List") e) (Var "$thunk"); e2]).
    Proof.
      intros Ha H2 rho st S F.
      destruct (H2 rho (with_cell st) S F) as (nd2 & st2 & Ev & Hl & Hc & F2 & K2).
      destruct (concatenate_sequence w m L D st2 (VThunk (List.length (s_cells st)) (thunk (TRecord "prelude:List") e) rho) nd2)
        as (nd & Hn & K).
      exists nd, st2. split; [|split; [exact Hl|split; [rewrite Hc; apply repeat_app_one|split; [exact F2|]]]].
      - refine (evals_call _ _ _ _ _ _ _ _ _ _ _ _ _ _ Hn); [|rewrite Ha; reflexivity].
        eapply evals_cons; [rewrite (ln_concatenate C N); eapply global_evals; [exact S|reflexivity]|].
        eapply evals_cons; [apply thunk_evals|]. eapply evals_cons; [exact Ev|apply evals_nil].
      - intros st1 fs st3 He. inversion He as [| |? ? ? ? n0 st4 fs0 st5 gs st6 Hr Hnd Hel]; subst.
        eapply K; [exact Hr|exact Hnd|]. apply K2. unfold with_cell. cbn [s_cells]. rewrite app_length, PeanoNat.Nat.add_comm. exact Hel.
    Qed.

    Lemma one_literal e a r cs e2 :
      List.length a = 2 -> literal_runs cs e2 ->
      literal_runs (OneElement e :: cs)
        (Op (OCall a r) [Var (list_prepend C); LetRec (thunk TVariant e) (Var "$thunk"); e2]).
    Proof.
      intros Ha H2 rho st S F.
      destruct (H2 rho (with_cell st) S F) as (nd2 & st2 & Ev & Hl & Hc & F2 & K2).
      destruct (prepend_sequence w m L D st2 (VThunk (List.length (s_cells st)) (thunk TVariant e) rho) nd2)
        as (nd & Hn & K).
      exists nd, st2. split; [|split; [exact Hl|split; [rewrite Hc; apply repeat_app_one|split; [exact F2|]]]].
      - refine (evals_call _ _ _ _ _ _ _ _ _ _ _ _ _ _ Hn); [|rewrite Ha; reflexivity].
        eapply evals_cons; [rewrite (ln_prepend C N); eapply global_evals; [exact S|reflexivity]|].
        eapply evals_cons; [apply thunk_evals|]. eapply evals_cons; [exact Ev|apply evals_nil].
      - intros st1 fs st3 He. inversion He as [|? ? ? ? fs0 ? Hel|]; subst.
        apply K, K2. unfold with_cell. cbn [s_cells]. rewrite app_length, PeanoNat.Nat.add_comm. exact Hel.
    Qed.

    Lemma literal_compiled t : forall es k e,
      compile k (list_literal C t es) = Ok e ->
      exists cs, Forall2 (coded n E R C t) es cs /\ literal_runs cs e.
    Proof.
      induction es as [|el es IH]; intros k e H.
      - cbn [list_literal] in H. apply compile_hcall in H as (k' & a & r & es' & -> & Hes & Ha & ->). inversion Hes; subst.
        exists []. split; [constructor|]. intros rho st S F.
        destruct (empty_runs st F) as (nd & st' & Hr & H1 & H2 & H3 & K). exists nd, st'.
        rewrite (ln_empty C N). split; [|split; [exact H1|split; [cbn; rewrite H2, app_nil_r; reflexivity|split; [exact H3|]]]].
        + refine (evals_call _ _ _ _ _ _ _ _ _ _ _ _ _ _ Hr); [|rewrite Ha; reflexivity]. eapply evals_cons; [|apply evals_nil].
          eapply global_evals; [exact S|reflexivity].
        + intros st1 fs st2 He. inversion He; subst. apply K.
      - destruct el as [e1|e1].
        + cbn [list_literal] in H. apply compile_hcall in H as (k' & a & r & es1 & -> & Hes & Ha & ->).
          inversion Hes as [|? y ? ys Hy Hys]; subst. inversion Hys as [|? z ? zs Hz Hzs]; subst. inversion Hzs; subst.
          apply compile_thunk in Hy as (k0 & mt & e' & [= ->] & He' & Ht & ->). apply compile_any in Ht. subst mt.
          destruct (IH _ _ Hz) as (cs & Hcs & HR).
          exists (OneElement e' :: cs). split; [constructor; [exists k0; exact He'|exact Hcs]|]. apply one_literal; assumption.
        + destruct es as [|el' es'].
          * cbn [list_literal] in H. apply compile_hcall in H as (k' & a & r & es' & -> & Hes & Ha & ->).
            inversion Hes as [|? y ? ys Hy Hys]; subst. inversion Hys; subst.
            apply compile_thunk in Hy as (k0 & mt & e' & [= ->] & He' & Ht & ->). apply compile_list_type in Ht. subst mt.
            exists [ManyElements e']. split; [constructor; [exists k0; exact He'|constructor]|]. apply lazy_literal, Ha.
          * remember (el' :: es') as es eqn:Ees.
            assert (H' : compile k (hcall (list_concatenate C) [HirType.TFunction [] (list_reference C); list_reference C] (list_reference C)
                          [HThunk (Some (list_reference C)) e1; list_literal C t es]) = Ok e) by (subst es; exact H).
            apply compile_hcall in H' as (k' & a & r & es1 & -> & Hes & Ha & ->).
            inversion Hes as [|? y ? ys Hy Hys]; subst. inversion Hys as [|? z ? zs Hz Hzs]; subst. inversion Hzs; subst.
            apply compile_thunk in Hy as (k0 & mt & e' & [= ->] & He' & Ht & ->). apply compile_list_type in Ht. subst mt.
            destruct (IH _ _ Hz) as (cs & Hcs & HR).
            exists (ManyElements e' :: cs). split; [constructor; [exists k0; exact He'|exact Hcs]|]. apply many_literal; assumption.
    Qed.
  End Literal.
End Prelude.
