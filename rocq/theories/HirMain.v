(** Accepted expressions are exactly typed after coercion. *)
From Coq Require Import String List ZArith Bool Lia.
From Verif Require Import Base HirType HirTypeOrder HirTypeSpec HirTypeTermination HirTypeEq HirTypeSub
  Hir HirCheck HirCoerce HirInfer HirValidate HirSpec HirParts HirStrip HirTyping HirExact HirSound.
Import ListNotations.

Lemma occurs_in_part x p e : In p (parts e) -> occurs x p -> occurs x e.
Proof.
  intros Hp (c & c' & H). unfold parts in Hp. rewrite !in_app_iff in Hp. destruct Hp as [Hp|[Hp|Hp]].
  - exists c, c'. eapply within_eager; eassumption.
  - destruct (within_any _ _ _ _ H None) as [d' X]. exists None, d'. eapply within_lazy; eassumption.
  - apply in_map_iff in Hp. destruct Hp as ([t b] & <- & Hb). cbn [snd] in H. destruct (within_any _ _ _ _ H (Some t)) as [d' X].
    exists None, d'. eapply within_body; eassumption.
Qed.

(** No conversion is written in the source: conversions are not in the syntax. *)

Lemma source_part p e : In p (parts e) -> source_form e -> source_form p.
Proof. intros Hp H s t a X. eapply H, occurs_in_part; eassumption. Qed.
Lemma apart_part p e : In p (parts e) -> apart e -> apart p.
Proof. intros Hp H t el bs b X. eapply H, occurs_in_part; eassumption. Qed.

Lemma check_call n E R G t fn args s : check n E R G (HCall (Some t) fn args) = Ok s ->
  exists ar, canonical_function n E t = Ok ar /\ List.length args = List.length (fst ar) /\
    check_arguments n E (check n E R) G args (fst ar) = Ok tt /\ s = snd ar /\
    ((exists b, fn = HBuiltIn b /\ check_builtin n E b (fst ar) (snd ar) = Ok tt) \/
     ((forall b, fn <> HBuiltIn b) /\ exists s', check n E R G fn = Ok s' /\ check_sub n E s' t = Ok tt)).
Proof.
  cbn [check annotated bind]. intros H. apply bind_ok in H. destruct H as (ar & Har & H).
  destruct (Nat.eqb (List.length args) (List.length (fst ar))) eqn:L; [|discriminate]. apply Nat.eqb_eq in L.
  apply bind_ok in H. destruct H as ([] & Ha & H). apply bind_ok in H. destruct H as ([] & Hf & H). apply ok_inj in H. subst s.
  exists ar. repeat (split; [assumption||reflexivity|]).
  destruct fn; try (right; split; [congruence|]; apply bind_ok in Hf; destruct Hf as (s' & Hs & Hf); exists s'; auto; fail).
  left. eauto.
Qed.

Lemma combine_map_in {A B} (l : list A) (l' : list B) a b : In (a, b) (combine l l') -> In a l /\ In b l'.
Proof. intros H. split; [eapply in_combine_l, H|eapply in_combine_r, H]. Qed.

Lemma mapM_in {A B} (g : A -> res B) l l' y : mapM g l = Ok l' -> In y l' -> exists x, In x l /\ g x = Ok y.
Proof.
  intros H. apply mapM_ok in H. induction H as [|x y' l l' H _ IH]; intros [].
  - subst. exists x. split; [left; reflexivity|exact H].
  - destruct (IH H0) as (x' & Hx & X). exists x'. split; [right; exact Hx|exact X].
Qed.

Lemma mapM_len {A B} (g : A -> res B) l l' : mapM g l = Ok l' -> List.length l' = List.length l.
Proof. intros H. apply mapM_ok in H. induction H; cbn; congruence. Qed.

Lemma Forall2_len {A B} (P : A -> B -> Prop) l l' : Forall2 P l l' -> List.length l = List.length l'.
Proof. induction 1; cbn; congruence. Qed.

Ltac bok H x Hx := apply bind_ok in H; destruct H as (x & Hx & H).

Section Main.
  Variable f : string -> string.
  Variable E : tenv.
  Variable R : renv.
  Hypothesis C : context_ok f E R.
  Let W := ctx_types f E R C.
  Let ok := HirTypeSpec.ok f E.
  Let env_ok := HirTyping.env_ok f E.
  Variable n : nat.

  Definition main (p : hexpr) : Prop := forall G e s e', env_ok G ->
    infer n E R G p = Ok e -> check n E R G e = Ok s -> coerce n E R G e = Ok e' -> exact E R G e' s.

  (** A part of the source: its types are known, and the result is exact. *)
  Definition good (p : hexpr) : Prop := types_known f E (written p) /\ main p.

  Lemma good_infer p G e : good p -> env_ok G -> infer n E R G p = Ok e -> types_known f E (written e).
  Proof. intros [K _] HG H. eapply infer_ok; eassumption. Qed.

  Lemma good_ok p G e s : good p -> env_ok G -> infer n E R G p = Ok e -> check n E R G e = Ok s -> ok s.
  Proof. intros P HG Hi Hc. eapply extract_ok; [exact C|exact HG| |apply check_extract, Hc]. eapply good_infer; eassumption. Qed.

  Lemma good_extract p G e t : good p -> env_ok G -> infer n E R G p = Ok e -> extract n E R G e = Ok t -> ok t.
  Proof. intros P HG Hi Hc. eapply extract_ok; [exact C|exact HG| |exact Hc]. eapply good_infer; eassumption. Qed.

  Lemma into_exact p G e s t e' : good p -> env_ok G -> ok t ->
    infer n E R G p = Ok e -> check n E R G e = Ok s -> widens E s t ->
    coerce_into n E R (coerce n E R) G t e = Ok e' -> exact E R G e' t.
  Proof.
    intros P HG Ht Hi Hc Hw H. unfold coerce_into in H. apply bind_ok in H. destruct H as (e1 & H1 & H2).
    eapply coerce_to_exact; [exact C|exact HG| | |exact Ht| |exact Hw|exact H2].
    - eapply coerce_ok; [exact C| |exact HG|exact H1]. eapply good_infer; eassumption.
    - eapply good_ok; eassumption.
    - eapply P; eassumption.
  Qed.

  Lemma into_sub p G e s t u e' : good p -> env_ok G -> ok t ->
    infer n E R G p = Ok e -> check n E R G e = Ok s -> check_sub n E s t = Ok u ->
    coerce_into n E R (coerce n E R) G t e = Ok e' -> exact E R G e' t.
  Proof.
    intros P HG Ht Hi Hc Hs H. eapply into_exact; [exact P|exact HG|exact Ht|exact Hi|exact Hc| |exact H].
    apply widens_sub. eapply check_sub_sound; [exact C|exact Hs|eapply good_ok; eassumption|exact Ht].
  Qed.

  Lemma atom_exact p G e s t u d e' : good p -> env_ok G -> ok t ->
    infer n E R G p = Ok e -> check n E R G e = Ok s -> check_sub n E s t = Ok u ->
    canon E t d -> is_union d = false -> d <> TAny ->
    coerce n E R G e = Ok e' -> exact E R G e' t.
  Proof.
    intros P HG Ht Hi Hc Hs Hd Hu Ha H. eapply X_same; [eapply P; eassumption|].
    eapply check_sub_atom; [exact C|exact Hs|eapply good_ok; eassumption|exact Ht|exact Hd|exact Hu|exact Ha].
  Qed.

  Lemma arguments_exact G : env_ok G -> forall es0 es ts es', Forall good es0 -> Forall ok ts ->
    mapM (infer n E R G) es0 = Ok es -> check_arguments n E (check n E R) G es ts = Ok tt ->
    coerce_arguments n E R (coerce n E R) G es ts = Ok es' ->
    forall a t, In (a, t) (combine es' ts) -> exact E R G a t.
  Proof.
    intros HG. induction es0 as [|e0 es0 IH]; intros es ts es' P Ot Hi Hc Hco a t Hin.
    - cbn in Hi. apply ok_inj in Hi. subst. cbn in Hco. apply ok_inj in Hco. subst. destruct Hin.
    - apply mapM_ok in Hi. inversion Hi as [|? e ? es1 He Hes]; subst. apply mapM_ok in Hes.
      destruct ts as [|t0 ts]; [destruct es'; destruct Hin|]. cbn [check_arguments] in Hc. cbn [coerce_arguments] in Hco.
      apply bind_ok in Hc. destruct Hc as (s & Hs & Hc). apply bind_ok in Hc. destruct Hc as (u & Hu & Hc).
      apply bind_ok in Hco. destruct Hco as (e' & He' & Hco). apply bind_ok in Hco. destruct Hco as (r & Hr & Hco). apply ok_inj in Hco. subst es'.
      inversion P; subst. inversion Ot; subst. destruct Hin as [Z|Hin].
      + injection Z as <- <-. eapply into_sub; eassumption.
      + eapply IH; eassumption.
  Qed.

  Lemma arguments_length G : forall es ts es', coerce_arguments n E R (coerce n E R) G es ts = Ok es' ->
    List.length es = List.length ts -> List.length es' = List.length ts.
  Proof.
    induction es as [|e es IH]; intros ts es' H L; cbn [coerce_arguments] in H; destruct ts as [|t ts]; try discriminate.
    - apply ok_inj in H. subst. reflexivity.
    - inv_ok. cbn. f_equal. eapply IH; [eassumption|]. cbn in L. congruence.
  Qed.

  (** ** Comprehensions *)
  Lemma iteratees_exact G names0 : env_ok G -> forall its0, Forall (fun it => good (snd it)) its0 ->
    (forall it x, In it its0 -> In x names0 -> mentions x (snd it) = false) ->
    forall names l its ns G2 its', incl names names0 -> incl (map fst l) names0 ->
    mapM (infer_iteratee n E R (infer n E R) G) its0 = Ok its ->
    iteratee_types n E names its = Ok ns ->
    List.length names = List.length its ->
    check_iteratees n E (check n E R) (l ++ G)%list names its = Ok G2 ->
    mapM (fun it => rmap (fun e' => (fst it, e')) (coerce n E R G (snd it))) its = Ok its' ->
    G2 = (rev ns ++ l ++ G)%list /\
    exists ets, List.length ets = List.length its' /\ ns = combine names (map (TFunction []) ets) /\
      (forall t e et, In ((t, e), et) (combine its' ets) -> exists t', t = Some t' /\ teq E t' (TList et)) /\
      (forall t e et, In ((t, e), et) (combine its' ets) -> exact E R G e (TList et)).
  Proof.
    intros HG. induction its0 as [|[t0 e0] its0 IH]; intros P M names l its ns G2 its' In1 In2 Hi Hns L Hc Hco.
    - cbn in Hi. apply ok_inj in Hi. subst. destruct names; [|discriminate]. cbn in Hns, Hc, Hco. apply ok_inj in Hns, Hc, Hco. subst.
      split; [reflexivity|]. exists []. repeat split; intros ? ? ? [].
    - apply mapM_ok in Hi. inversion Hi as [|? it ? its1 Hit Hits]; subst. apply mapM_ok in Hits.
      unfold infer_iteratee in Hit. cbn [snd] in Hit. apply bind_ok in Hit. destruct Hit as (e & He & Hit). apply bind_ok in Hit. destruct Hit as (t & Ht & Hit).
      apply ok_inj in Hit. subst it. destruct names as [|x names]; [discriminate|].
      cbn [iteratee_types annotated bind] in Hns. apply bind_ok in Hns. destruct Hns as (et & Het & Hns). apply bind_ok in Hns. destruct Hns as (ns1 & Hns1 & Hns).
      apply ok_inj in Hns. subst ns. cbn [check_iteratees annotated bind] in Hc. apply bind_ok in Hc. destruct Hc as (s & Hs & Hc).
      apply bind_ok in Hc. destruct Hc as (u & Hu & Hc). rewrite Het in Hc. cbn [bind] in Hc.
      apply mapM_ok in Hco. inversion Hco as [|? it' ? its1' Hit' Hits']; subst. apply mapM_ok in Hits'. cbn [fst snd] in Hit'.
      unfold rmap in Hit'. apply bind_ok in Hit'. destruct Hit' as (e' & He' & Hit'). apply ok_inj in Hit'. subst it'.
      inversion P as [|? ? P0 P1]; subst. cbn [snd] in P0.
      assert (Hs' : check n E R G e = Ok s).
      { rewrite <- Hs. symmetry. apply check_agree. intros y Hy. rewrite (infer_mentions _ _ _ _ _ _ y He) in Hy. rewrite lookup_app'.
        destruct (lookup l y) as [v|] eqn:Lk; [|reflexivity]. exfalso. apply lookup_In in Lk. apply (in_map fst) in Lk. apply In2 in Lk.
        pose proof (M (t0, e0) y (or_introl eq_refl) Lk) as X. cbn [snd] in X. congruence. }
      assert (X : exact E R G e' s) by (eapply P0; eassumption).
      assert (Ts : s = t). { apply check_extract in Hs'. congruence. } subst t.
      apply canonical_list_canon in Het.
      destruct (IH P1 (fun it y Hit => M it y (or_intror Hit)) names ((x, TFunction [] et) :: l) its1 ns1 G2 its1') as [HG2 (ets & L1 & -> & X1 & X2)];
        try assumption.
      { intros y Hy. apply In1. right. exact Hy. }
      { intros y [<-|Hy]; [apply In1; left; reflexivity|apply In2, Hy]. }
      { cbn in L. congruence. }
      split; [rewrite HG2; cbn [rev]; rewrite <- !app_assoc; reflexivity|].
      exists (et :: ets). split; [cbn; congruence|]. split; [reflexivity|]. split.
      + intros t e1 et1 [Z|Hin]; [|eapply X1, Hin]. injection Z as <- <- <-. exists s. split; [reflexivity|apply canon_sound, Het].
      + intros t e1 et1 [Z|Hin]; [|eapply X2, Hin]. injection Z as <- <- <-. eapply X_same; [exact X|apply canon_sound, Het].
  Qed.

  Lemma branches_exact : forall bs0, (forall p, In p (flat_map branch_parts bs0) -> good p) ->
    (forall b, In b bs0 -> branch_apart b) ->
    forall G r G2 r', env_ok G -> infer_branches n E R (infer n E R) G bs0 = Ok r ->
    check_comp_branches n E (check n E R) G (snd r) = Ok G2 ->
    coerce_branches n E (coerce n E R) G (snd r) = Ok r' ->
    G2 = fst r /\ fst r' = fst r /\ env_ok (fst r) /\ exact_branches E R G (snd r') (fst r).
  Proof.
    induction bs0 as [|[names its0 cond0] bs0 IH]; intros P A G r G2 r' HG Hi Hc Hco.
    - cbn in Hi. apply ok_inj in Hi. subst. cbn in Hc, Hco. apply ok_inj in Hc, Hco. subst. repeat split; [exact HG|constructor].
    - cbn [infer_branches] in Hi.
      apply bind_ok in Hi. destruct Hi as (its & Hits & Hi). apply bind_ok in Hi. destruct Hi as (ns & Hns & Hi).
      cbv zeta in Hi. apply bind_ok in Hi. destruct Hi as (cond & Hcond & Hi). apply bind_ok in Hi. destruct Hi as (r1 & Hr1 & Hi). apply ok_inj in Hi. subst r.
      cbn [fst snd] in *. cbn [check_comp_branches] in Hc. destruct (Nat.eqb _ _) eqn:L; [|discriminate]. apply Nat.eqb_eq in L.
      apply bind_ok in Hc. destruct Hc as (Gi & HGi & Hc). apply bind_ok in Hc. destruct Hc as (u & Hu & Hc).
      cbn [coerce_branches] in Hco. apply bind_ok in Hco. destruct Hco as (its' & Hits' & Hco). apply bind_ok in Hco. destruct Hco as (ns' & Hns' & Hco).
      rewrite Hns in Hns'. apply ok_inj in Hns'. subst ns'. cbv zeta in Hco. apply bind_ok in Hco. destruct Hco as (cond' & Hcond' & Hco).
      apply bind_ok in Hco. destruct Hco as (r1' & Hr1' & Hco). apply ok_inj in Hco. subst r'. cbn [fst snd].
      assert (Pi : Forall (fun it => good (snd it)) its0).
      { rewrite Forall_forall. intros it Hit. apply P. cbn [flat_map]. apply in_or_app. left. unfold branch_parts. apply in_or_app. left. apply in_map, Hit. }
      destruct (iteratees_exact G names HG its0 Pi) with (names := names) (l := @nil (string * ty)) (its := its) (ns := ns) (G2 := Gi) (its' := its')
        as [HG2 (ets & L1 & Hets & X1 & X2)]; try assumption.
      { intros [t e] x Hit Hx. apply (A (CompBranch names its0 cond0) (or_introl eq_refl) t e x Hit Hx). }
      { apply incl_refl. }
      { intros x []. }
      cbn [app] in HG2. fold (args_env ns G) in HG2. subst Gi.
      assert (HG' : env_ok (args_env ns G)).
      { apply env_args; [|exact HG]. eapply iteratee_types_ok; [exact C| |exact Hns].
        eapply known_flat; [exact Hits|]. intros it it' Hit X. unfold infer_iteratee in X. inv_ok. cbn [fst opt_types]. constructor; [|constructor].
        rewrite Forall_forall in Pi. eapply good_extract; [apply Pi, Hit|exact HG|eassumption|eassumption]. }
      destruct (IH (fun p Hp => P p (in_or_app _ _ _ (or_intror Hp))) (fun b Hb => A b (or_intror Hb)) (args_env ns G) r1 G2 r1' HG' Hr1 Hc Hr1') as (E1 & E2 & E3 & E4).
      split; [exact E1|]. split; [exact E2|]. split; [exact E3|].
      assert (L' : List.length its' = List.length its) by (eapply mapM_len, Hits').
      subst ns. apply XB_cons with (ets := ets); try assumption; [congruence|].
      intros c Hc'. subst cond'. destruct cond0 as [c0|]; inv_ok; [|discriminate].
      unfold rmap in Hcond'. inv_ok.
      match goal with Z : Some _ = Some _ |- _ => injection Z as <- end || idtac.
      match goal with X : coerce n E R _ ?e = Ok ?v |- exact _ _ _ ?v _ => idtac end.
      eapply atom_exact; [|exact HG'|apply ok_boolean|eassumption| |eassumption|exists 1; reflexivity|reflexivity|discriminate|eassumption].
      + apply P. cbn [flat_map]. apply in_or_app. left. unfold branch_parts. apply in_or_app. right. left. reflexivity.
      + eassumption.
  Qed.

  Lemma widens_union_left s t : widens E s (TUnion s t).
  Proof. apply widens_sub, sub_left. Qed.
  Lemma widens_union_right s t : widens E t (TUnion s t).
  Proof. apply widens_sub, sub_right. Qed.

  Lemma fields_exact G fts : env_ok G -> (forall x t, lookup fts x = Some t -> ok t) ->
    forall fs0 fs fs', Forall (fun b => good (snd b)) fs0 ->
    mapM (infer_field (infer n E R) G) fs0 = Ok fs -> check_fields n E (check n E R) G fts fs = Ok tt ->
    mapM (coerce_field n E R (coerce n E R) G fts) fs = Ok fs' ->
    map fst fs' = map fst fs /\
    (forall x e, In (x, e) fs' -> lookup fts x <> None) /\
    (forall x e ft, In (x, e) fs' -> lookup fts x = Some ft -> exact E R G e ft).
  Proof.
    intros HG Of. induction fs0 as [|[x e0] fs0 IH]; intros fs fs' P Hi Hc Hco.
    - cbn in Hi. apply ok_inj in Hi. subst. cbn in Hco. apply ok_inj in Hco. subst. repeat split; intros; contradiction.
    - apply mapM_ok in Hi. inversion Hi as [|? [x' e] ? fs1 He Hfs]; subst. apply mapM_ok in Hfs. unfold infer_field in He. unfold rmap in He.
      apply bind_ok in He. destruct He as (e1 & He & Z). apply ok_inj in Z. injection Z as <- <-. cbn [fst snd] in *.
      cbn [check_fields] in Hc. apply bind_ok in Hc. destruct Hc as (t & Ht & Hc). apply bind_ok in Hc. destruct Hc as (s & Hs & Hc). apply bind_ok in Hc. destruct Hc as (u & Hu & Hc).
      apply mapM_ok in Hco. inversion Hco as [|? [x' e'] ? fs1' He' Hfs']; subst. apply mapM_ok in Hfs'. unfold coerce_field in He'. cbn [fst snd] in He'.
      apply bind_ok in He'. destruct He' as (e2 & He2 & He'). rewrite Ht in He'. cbn [bind] in He'. unfold rmap in He'. apply bind_ok in He'. destruct He' as (e3 & He3 & Z).
      apply ok_inj in Z. injection Z as <- <-. inversion P as [|? ? P0 P1]; subst. cbn [snd] in P0. apply field_type_lookup in Ht.
      destruct (IH fs1 fs1' P1 Hfs Hc Hfs') as (I1 & I2 & I3). split; [cbn; congruence|]. split.
      + intros y a [Z|Hin]; [injection Z as <- <-; congruence|eapply I2, Hin].
      + intros y a ft [Z|Hin]; [injection Z as <- <-|eapply I3, Hin]. intros L. rewrite Ht in L. injection L as <-.
        eapply into_sub; [exact P0|exact HG|apply (Of x), Ht|exact He|exact Hs|exact Hu|]. unfold coerce_into. rewrite He2. exact He3.
  Qed.

  Lemma complete_fields fts given : check_complete fts given = Ok tt -> forall x, lookup fts x <> None -> In x given.
  Proof.
    induction fts as [|[y t] fts IH]; cbn; intros H x L; [congruence|]. destruct (mem y given) eqn:M; [|discriminate].
    destruct (String.eqb x y) eqn:Eq; [|apply IH; assumption]. apply String.eqb_eq in Eq. subst. apply mem_In, M.
  Qed.

  Lemma good_parts e0 : types_known f E (written e0) -> source_form e0 -> apart e0 ->
    (forall p, In p (parts e0) -> types_known f E (written p) -> source_form p -> apart p -> main p) ->
    forall p, In p (parts e0) -> good p.
  Proof.
    intros K S A IH p Hp. assert (Kp : types_known f E (written p)) by (eapply known_part; eassumption).
    split; [exact Kp|]. apply IH; [exact Hp|exact Kp|eapply source_part; eassumption|eapply apart_part; eassumption].
  Qed.

  Lemma branch_types_ok x a bs els b : types_known f E (written (HIfType x a bs els)) -> In b bs -> ok (fst b).
  Proof.
    unfold types_known. cbn [written]. intros K Hb. rewrite Forall_forall in K. apply K. apply in_or_app. right. apply in_or_app. left.
    apply in_flat_map. exists b. split; [exact Hb|left; reflexivity].
  Qed.

  Lemma infer_branch_types (x : string) G bs0 bs :
    mapM (fun b => rmap (fun e' => (fst b, e')) (infer n E R ((x, fst b) :: G) (snd b))) bs0 = Ok bs -> map fst bs = map fst bs0.
  Proof.
    intros H. apply mapM_ok in H. induction H as [|b b' l l' H _ IH]; [reflexivity|]. cbn. rewrite IH. f_equal. unfold rmap in H. inv_ok. reflexivity.
  Qed.

  Lemma check_branches_exact (x : string) G u t : env_ok G -> ok u -> ok t -> forall bs0 bs bs',
    Forall (fun b => good (snd b) /\ ok (fst b)) bs0 ->
    mapM (fun b => rmap (fun e' => (fst b, e')) (infer n E R ((x, fst b) :: G) (snd b))) bs0 = Ok bs ->
    check_branches n E (check n E R) G x u bs = Ok tt ->
    (forall b v, In b bs -> extract n E R ((x, fst b) :: G) (snd b) = Ok v -> widens E v t) ->
    mapM (fun b => rmap (fun e' => (fst b, e')) (coerce_into n E R (coerce n E R) ((x, fst b) :: G) t (snd b))) bs = Ok bs' ->
    map fst bs' = map fst bs /\
    (forall bt b, In (bt, b) bs' -> sub E bt u /\ ~ has_alt E bt TAny) /\
    (forall bt b, In (bt, b) bs' -> exact E R ((x, bt) :: G) b t).
  Proof.
    intros HG Ou Ot. induction bs0 as [|[bt e0] bs0 IH]; intros bs bs' P Hi Hc Hw Hco.
    - cbn in Hi. apply ok_inj in Hi. subst. cbn in Hco. apply ok_inj in Hco. subst. repeat split; intros; contradiction.
    - apply mapM_ok in Hi. inversion Hi as [|? [bt' e] ? bs1 He Hbs]; subst. apply mapM_ok in Hbs. cbn [fst snd] in He. unfold rmap in He.
      apply bind_ok in He. destruct He as (e1 & He & Z). apply ok_inj in Z. injection Z as <- <-.
      cbn [check_branches] in Hc. apply bind_ok in Hc. destruct Hc as (u0 & Hu & Hc). apply bind_ok in Hc. destruct Hc as (s & Hs & Hc). apply bind_ok in Hc. destruct Hc as (c & Hcan & Hc).
      destruct (is_any c) eqn:Ec; [discriminate|].
      apply mapM_ok in Hco. inversion Hco as [|? [bt' e'] ? bs1' He' Hbs']; subst. apply mapM_ok in Hbs'. cbn [fst snd] in He'. unfold rmap in He'.
      apply bind_ok in He'. destruct He' as (e2 & He2 & Z). apply ok_inj in Z. injection Z as <- <-.
      inversion P as [|? ? P0 P1]; subst. cbn [fst snd] in P0. destruct P0 as [P0 Obt].
      destruct (IH bs1 bs1' P1 Hbs Hc (fun b v Hb => Hw b v (or_intror Hb)) Hbs') as (I1 & I2 & I3). split; [cbn; congruence|].
      assert (HGx : env_ok ((x, bt) :: G)) by (constructor; assumption).
      split.
      + intros bt1 b [Z|Hin]; [injection Z as <- <-|eapply I2, Hin]. split; [eapply check_sub_sound; [exact C|exact Hu|exact Obt|exact Ou]|].
        intros X. apply (has_alt_any f E W bt c (proj1 Obt)) in X; [subst; discriminate|]. exists n. exact Hcan.
      + intros bt1 b [Z|Hin]; [injection Z as <- <-|eapply I3, Hin]. eapply into_exact; [exact P0|exact HGx|exact Ot|exact He|exact Hs| |exact He2].
        eapply (Hw (bt, e1)); [left; reflexivity|]. apply check_extract, Hs.
  Qed.

  Lemma create_union_in ts u t : create_union ts = Some u -> Forall ok ts -> In t ts -> sub E t u.
  Proof.
    destruct ts as [|v ts]; [discriminate|]. cbn [create_union]. intros X O H. injection X as <-.
    inversion O as [|? ? Ov Ots]; subst. clear O. revert v Ov t H.
    induction Ots as [|w ts Ow _ IH]; intros v Ov t H; cbn [fold_left].
    - destruct H as [<-|[]]. apply sub_eq, teq_refl.
    - assert (Ou : ok (TUnion v w)) by (apply ok_union; auto). destruct H as [<-|[<-|H]].
      + eapply sub_trans; [apply Ou|apply sub_left|]. apply IH; [exact Ou|left; reflexivity].
      + eapply sub_trans; [apply Ou|apply sub_right|]. apply IH; [exact Ou|left; reflexivity].
      + apply IH; [exact Ou|right; exact H].
  Qed.

  Theorem main_ok e0 : types_known f E (written e0) -> source_form e0 -> apart e0 -> main e0.
  Proof.
    induction e0 as [e0 IH] using parts_ind. intros K S A G e s e' HG Hi Hc Hco.
    pose proof (good_parts e0 K S A IH) as P. clear IH.
    assert (Ke : types_known f E (written e)) by (eapply infer_ok; eassumption).
    assert (Os : ok s). { eapply extract_ok; [exact C|exact HG|exact Ke|apply check_extract, Hc]. }
    destruct e0.
    - cbn [infer] in Hi. inv_ok. cbn in Hc, Hco. inv_ok. apply X_boolean.
    - cbn [infer] in Hi. inv_ok. cbn in Hc. discriminate.
    - (* call *)
      apply (infer_call n E R G function_type e0 arguments) in Hi.
      assert (Pa : Forall good arguments). { rewrite Forall_forall. intros a Ha. apply P, argument_part, Ha. }
      destruct Hi as [(b & args & ts0 & t & -> & Ha & Ht & Hb & ->)|(Hnb & fn & t & args & Hf & Ht & Ha & ->)];
        apply check_call in Hc; destruct Hc as (ar & Har & L & Hargs & -> & Hfn);
        cbn [coerce annotated bind] in Hco; rewrite Har in Hco; cbn [bind] in Hco; first [bok Hco fn' Hfn'; bok Hco args' Hargs' | bok Hco args' Hargs']; apply ok_inj in Hco; subst e';
        unfold types_known in Ke; cbn [written opt_types app] in Ke; inversion Ke as [|? ? Ot _]; subst;
        pose proof (canonical_function_canon _ _ _ _ Har) as Hcan;
        pose proof (ok_canon f E R C _ _ Ot Hcan) as Oar; apply ok_function in Oar; destruct Oar as [Oa Or];
        pose proof (arguments_exact G HG _ _ _ _ Pa Oa Ha Hargs Hargs') as Xa;
        pose proof (arguments_length G _ _ _ Hargs' L) as La.
      + destruct Hfn as [(b' & Z & Hck)|(Z & _)]; [|exfalso; eapply Z; reflexivity]. injection Z as <-.
        assert (O0 : Forall ok ts0).
        { eapply mapM_forall; [exact Ht|]. intros a' v Ha' Hv. destruct (mapM_in _ _ _ _ Ha Ha') as (a0 & Ha0 & Hi0).
          rewrite Forall_forall in Pa. eapply good_extract; [apply Pa, Ha0|exact HG|exact Hi0|exact Hv]. }
        destruct (builtin_signature f E R C n b ts0 t ar O0 Hb Har Hck) as (ts & r & Sg & Ta & Tr).
        eapply X_same; [|apply teq_sym, Tr]. eapply X_builtin; [exact Sg| | |].
        * eapply teq_trans; [apply canon_sound, Hcan|]. apply teq_function; assumption.
        * rewrite La. eapply Forall2_len, Ta.
        * clear - Xa Ta. revert Xa Ta. generalize (fst ar). intros l Xa Ta. intros a t' Hin.
          assert (X : exists t0, In (a, t0) (combine args' l) /\ teq E t0 t').
          { clear Xa. revert ts Ta Hin. revert l. induction args' as [|z zs IHz]; intros l ts Ta Hin; [destruct Hin|].
            inversion Ta as [|u v ul vl Huv Hl]; subst; [destruct Hin|]. destruct Hin as [Z|Hin].
            - injection Z as <- <-. exists u. split; [left; reflexivity|exact Huv].
            - destruct (IHz _ _ Hl Hin) as (t0 & H1 & H2). exists t0. split; [right; exact H1|exact H2]. }
          destruct X as (t0 & Hin0 & T). eapply X_same; [apply Xa, Hin0|exact T].
      + destruct Hfn as [(b' & -> & _)|(_ & s' & Hs' & Hsub)]; [discriminate|].
        pose proof (P e0 (function_part function_type e0 arguments)) as Pf.
        assert (Tf : teq E s' t).
        { eapply check_sub_atom; [exact C|exact Hsub|eapply good_ok; eassumption|exact Ot|exact Hcan|reflexivity|discriminate]. }
        eapply X_call; [apply canon_sound, Hcan| |exact La|exact Xa].
        eapply X_same; [eapply Pf; eassumption|]. eapply teq_trans; [exact Tf|apply canon_sound, Hcan].
    - (* if *)
      cbn [infer] in Hi. bok Hi a Ha. bok Hi b Hb. bok Hi c Hcnd. apply ok_inj in Hi. subst e.
      cbn [check] in Hc. bok Hc sc Hsc. bok Hc u Hu. bok Hc sa Hsa. bok Hc sb Hsb.
      assert (Hx := Hc). cbn [extract] in Hc. rewrite (check_extract _ _ _ _ _ _ Hsa), (check_extract _ _ _ _ _ _ Hsb) in Hc. cbn [bind] in Hc. apply ok_inj in Hc. subst s.
      cbn [coerce] in Hco. bok Hco t Ht. rewrite Hx in Ht. apply ok_inj in Ht. subst t. bok Hco c' Hc'. bok Hco a' Ha'. bok Hco b' Hb'. apply ok_inj in Hco. subst e'.
      apply X_if.
      + eapply atom_exact; [apply (P e0_1); spart|exact HG|apply ok_boolean|exact Hcnd|exact Hsc|exact Hu|apply canon_boolean|reflexivity|discriminate|exact Hc'].
      + eapply into_exact; [apply (P e0_2); spart|exact HG|exact Os|exact Ha|exact Hsa|apply widens_union_left|exact Ha'].
      + eapply into_exact; [apply (P e0_3); spart|exact HG|exact Os|exact Hb|exact Hsb|apply widens_union_right|exact Hb'].
    - (* if-list *)
      cbn [infer] in Hi. bok Hi l Hl. bok Hi lty Hlt. bok Hi et Het. bok Hi a Ha. bok Hi b Hb. apply ok_inj in Hi. subst e.
      cbn [check annotated bind] in Hc. bok Hc sl Hsl. bok Hc u Hu. bok Hc sa Hsa. bok Hc sb Hsb.
      assert (sl = lty) as -> by (apply check_extract in Hsl; congruence).
      assert (Hx := Hc). cbn [extract] in Hc. rewrite Hlt in Hc. cbn [bind] in Hc. rewrite Het in Hc. cbn [bind] in Hc.
      rewrite (check_extract _ _ _ _ _ _ Hsa), (check_extract _ _ _ _ _ _ Hsb) in Hc. cbn [bind] in Hc. apply ok_inj in Hc. subst s.
      cbn [coerce annotated bind] in Hco. bok Hco t Ht. rewrite Hx in Ht. apply ok_inj in Ht. subst t. bok Hco l' Hl'. bok Hco a' Ha'. bok Hco b' Hb'. apply ok_inj in Hco. subst e'.
      apply canonical_list_canon in Het.
      assert (Pl : good e0_1) by (apply P; spart).
      assert (Oet : ok et). { eapply (ok_list f E), (ok_canon f E R C); [|exact Het]. eapply good_ok; eassumption. }
      apply X_if_list.
      + eapply X_same; [eapply Pl; eassumption|apply canon_sound, Het].
      + eapply into_exact; [apply (P e0_2); spart|apply env_list; [exact Oet|exact HG]|exact Os|exact Ha|exact Hsa|apply widens_union_left|exact Ha'].
      + eapply into_exact; [apply (P e0_3); spart|exact HG|exact Os|exact Hb|exact Hsb|apply widens_union_right|exact Hb'].
    - (* if-map *)
      cbn [infer] in Hi. bok Hi m Hm. bok Hi k Hk. bok Hi mt Hmt. bok Hi kv Hkv. bok Hi a Ha. bok Hi b Hb. apply ok_inj in Hi. subst e.
      cbn [check annotated bind] in Hc. bok Hc sk Hsk. bok Hc u Hu. bok Hc sm Hsm. bok Hc u' Hu'. bok Hc sa Hsa. bok Hc sb Hsb.
      assert (sm = mt) as -> by (apply check_extract in Hsm; congruence).
      assert (Hx := Hc). cbn [extract] in Hc. rewrite Hmt in Hc. cbn [bind] in Hc. rewrite Hkv in Hc. cbn [bind] in Hc.
      rewrite (check_extract _ _ _ _ _ _ Hsa), (check_extract _ _ _ _ _ _ Hsb) in Hc. cbn [bind] in Hc. apply ok_inj in Hc. subst s.
      cbn [coerce annotated bind] in Hco. bok Hco t Ht. rewrite Hx in Ht. apply ok_inj in Ht. subst t. bok Hco m' Hm'. bok Hco k' Hk'. bok Hco a' Ha'. bok Hco b' Hb'. apply ok_inj in Hco. subst e'.
      apply canonical_map_canon in Hkv.
      assert (Pm : good e0_1) by (apply P; spart).
      assert (Okv : ok (fst kv) /\ ok (snd kv)). { apply (ok_map f E), (ok_canon f E R C _ _ ltac:(eapply good_ok; eassumption) Hkv). }
      apply X_if_map.
      + eapply X_same; [eapply Pm; eassumption|apply canon_sound, Hkv].
      + eapply into_sub; [apply (P e0_2); spart|exact HG|apply Okv|exact Hk|exact Hsk|exact Hu|exact Hk'].
      + eapply into_exact; [apply (P e0_3); spart|constructor; [apply Okv|exact HG]|exact Os|exact Ha|exact Hsa|apply widens_union_left|exact Ha'].
      + eapply into_exact; [apply (P e0_4); spart|exact HG|exact Os|exact Hb|exact Hsb|apply widens_union_right|exact Hb'].
    - (* if-type *)
      cbn [infer] in Hi. bok Hi a Ha. bok Hi bs Hbs. bok Hi els Hels. apply ok_inj in Hi. subst e.
      cbn [check] in Hc. bok Hc sa Hsa. bok Hc u Hu. destruct (is_variant u) eqn:Ev; [|discriminate]. bok Hc u1 Hu1. destruct u1. bok Hc u2 Hu2.
      cbn [coerce] in Hco. bok Hco t Ht. rewrite Hc in Ht. apply ok_inj in Ht. subst t. bok Hco a' Ha'. bok Hco bs' Hbs'. bok Hco els' Hels'. apply ok_inj in Hco. subst e'.
      assert (Pa : good e0) by (apply P; spart).
      assert (Osa : ok sa) by (eapply good_ok; eassumption).
      assert (Cu : canon E sa u) by (exists n; exact Hu).
      assert (Ou : ok u) by (eapply ok_canon; eassumption).
      assert (Vu : varies E u).
      { eapply varies_canon; [exact C|eapply (canon_idem f E W); exact Cu|]. destruct u; try discriminate Ev; intros []. }
      assert (Xa : exact E R G a' u) by (eapply X_same; [eapply Pa; eassumption|apply canon_sound, Cu]).
      assert (Pb : Forall (fun b => good (snd b) /\ ok (fst b)) branches).
      { rewrite Forall_forall. intros b Hb. split; [apply P, if_type_branch_part, Hb|]. exact (branch_types_ok name e0 branches else_ b K Hb). }
      assert (Tb := infer_branch_types _ _ _ _ Hbs).
      assert (Ob : Forall ok (map fst branches)).
      { rewrite Forall_forall in *. intros t Ht. apply in_map_iff in Ht. destruct Ht as (b & <- & Hb). apply Pb, Hb. }
      cbn [extract] in Hc. bok Hc ts Hts. bok Hc us Hus. destruct (create_union (ts ++ us)) as [v|] eqn:Hv; [|discriminate]. apply ok_inj in Hc. subst v.
      assert (Otu : Forall ok (ts ++ us)).
      { apply Forall_app. split.
        - eapply mapM_forall; [exact Hts|]. intros b v Hb Hv'. destruct (mapM_in _ _ _ _ Hbs Hb) as (b0 & Hb0 & Z). unfold rmap in Z. bok Z e1 He1. apply ok_inj in Z. subst b. cbn [fst snd] in Hv'.
          rewrite Forall_forall in Pb. destruct (Pb _ Hb0) as [Pb1 Pb2]. eapply good_extract; [exact Pb1| |exact He1|exact Hv']. constructor; assumption.
        - destruct els as [[[et|] b]|]; cbn [annotated bind] in Hus; [|discriminate|apply ok_inj in Hus; subst; constructor].
          unfold rmap in Hus. bok Hus v Hvx. apply ok_inj in Hus. subst us. constructor; [|constructor].
          unfold types_known in Ke. cbn [written opt_types app] in Ke. apply Forall_app in Ke. destruct Ke as [_ Ke]. apply Forall_app in Ke. destruct Ke as [_ Ke]. inversion Ke as [|? ? Oet Kb]; subst.
          eapply extract_ok; [exact C| |exact Kb|exact Hvx]. constructor; assumption. }
      destruct (check_branches_exact name G u s HG Ou Os branches bs bs' Pb Hbs Hu1) as (T1 & T2 & T3).
      { intros b v Hb Hvx. apply widens_sub. eapply create_union_in; [exact Hv|exact Otu|]. apply in_or_app. left.
        clear - Hts Hb Hvx. apply mapM_ok in Hts. induction Hts as [|b0 v0 l l' H _ IH]; [destruct Hb|].
        destruct Hb as [->|Hb]; [left; cbv beta in H; congruence|right; apply IH, Hb]. }
      { exact Hbs'. }
      assert (Tc : map fst bs' = map fst branches) by congruence.
      assert (Nb : bs' <> []).
      { intros ->. cbn in Tc. destruct els as [[et b]|].
        - destruct else_ as [[o b0]|]; [|apply ok_inj in Hels; discriminate]. bok Hels ua Hua. rewrite <- Tc in Hels. discriminate.
        - rewrite Tb, <- Tc in Hu2. discriminate. }
      destruct else_ as [[o b0]|].
      + bok Hels ua Hua. destruct (create_union (map fst branches)) as [v|] eqn:Hcv; [|discriminate]. bok Hels d Hd. destruct d as [et|]; [|discriminate].
        unfold rmap in Hels. bok Hels b Hb. apply ok_inj in Hels. subst els.
        cbn [annotated bind] in Hu2, Hels', Hus. bok Hu2 sb Hsb. unfold rmap in Hels', Hus. bok Hels' b' Hb'. apply ok_inj in Hels'. subst els'.
        bok Hus v' Hvx. apply ok_inj in Hus. subst us.
        assert (ua = sa) as -> by (apply check_extract in Hsa; congruence).
        assert (Ov : ok v) by (eapply ok_create; [exact Ob|exact Hcv]).
        assert (Oet : ok et) by (eapply ok_difference; [exact C|exact Osa|exact Hd]).
        eapply X_if_type_else; [exact Xa|exact Vu|exact Nb|exact T2|exact T3| |].
        * rewrite Tc. eapply covers_teq; [exact C|exact Osa|exact Ou|apply teq_sym, canon_sound, Cu|]. eapply covers_rest; [exact C|exact Osa|exact Ov|exact Hcv|exact Hd].
        * eapply into_exact; [apply (P b0), if_type_else_part|constructor; [exact Oet|exact HG]|exact Os|exact Hb|exact Hsb| |exact Hb'].
          apply widens_sub. eapply create_union_in; [exact Hv|exact Otu|]. apply in_or_app. right. left. apply check_extract in Hsb. congruence.
      + apply ok_inj in Hels. subst els. apply ok_inj in Hels'. subst els'.
        destruct (create_union (map fst bs)) as [v|] eqn:Hcv; [|discriminate]. bok Hu2 same Hsame. destruct same; [|discriminate].
        rewrite Tb in Hcv. assert (Ov : ok v) by (eapply ok_create; [exact Ob|exact Hcv]).
        eapply X_if_type; [exact Xa|exact Vu|exact Nb|exact T2|exact T3|]. rewrite Tc. eapply covers_all; [exact C|exact Ou|exact Ov|exact Hcv|].
        apply sub_eq. apply (equal_types_correct f E W n u v true); [apply Ou|apply Ov|exact Hsame|reflexivity].
    - (* lambda *)
      cbn [infer] in Hi. bok Hi b Hb. apply ok_inj in Hi. subst e. cbn [check] in Hc. bok Hc sb Hsb. bok Hc u Hu. apply ok_inj in Hc. subst s.
      cbn [coerce] in Hco. bok Hco b' Hb'. apply ok_inj in Hco. subst e'.
      apply ok_function in Os. destruct Os as [Oa Or]. apply X_lambda.
      eapply into_sub; [apply (P e0); spart|apply env_args; [exact Oa|exact HG]|exact Or|exact Hb|exact Hsb|exact Hu|exact Hb'].
    - (* let *)
      cbn [infer] in Hi. bok Hi b Hb. bok Hi t Ht. bok Hi e1 He1. apply ok_inj in Hi. subst e.
      cbn [check annotated bind] in Hc. bok Hc sb Hsb. bok Hc u Hu. cbn [coerce annotated bind] in Hco. bok Hco b' Hb'.
      assert (sb = t) as -> by (apply check_extract in Hsb; congruence).
      assert (Pb : good e0_1) by (apply P; spart). assert (Pe : good e0_2) by (apply P; spart).
      assert (Ot : ok t) by (eapply good_ok; [exact Pb|exact HG|exact Hb|exact Hsb]).
      destruct name as [x|]; cbn [let_env] in *; bok Hco e2 He2; apply ok_inj in Hco; subst e'.
      + apply X_let; [eapply Pb; eassumption|]. eapply Pe; [|exact He1|exact Hc|exact He2]. constructor; assumption.
      + apply X_statement; [eapply Pb; eassumption|]. eapply Pe; eassumption.
    - (* list *)
      cbn [infer] in Hi. bok Hi es Hes. apply ok_inj in Hi. subst e. cbn [check] in Hc. bok Hc u Hu. destruct u. apply ok_inj in Hc. subst s.
      cbn [coerce] in Hco. bok Hco es' Hes'. apply ok_inj in Hco. subst e'. apply (proj1 (ok_list f E _)) in Os.
      assert (X : forall l0 l l', incl l0 elements -> mapM (infer_element (infer n E R) G) l0 = Ok l -> check_elements n E (check n E R) G type l = Ok tt ->
        mapM (coerce_element n E R (coerce n E R) G type) l = Ok l' ->
        (forall e, In (Single e) l' -> exact E R G e type) /\ (forall e, In (Multiple e) l' -> exact E R G e (TList type))).
      { clear Hes Hes' Hu. induction l0 as [|el0 l0 IHl]; intros l l' I Hi Hc Hco.
        - cbn in Hi. apply ok_inj in Hi. subst. cbn in Hco. apply ok_inj in Hco. subst. split; intros ? [].
        - apply mapM_ok in Hi. inversion Hi as [|? el ? l1 Hel Hl]; subst. apply mapM_ok in Hl.
          apply mapM_ok in Hco. inversion Hco as [|? el' ? l1' Hel' Hl']; subst. apply mapM_ok in Hl'.
          assert (In0 : In el0 elements) by (apply I; left; reflexivity).
          assert (I' : incl l0 elements) by (intros z Hz; apply I; right; exact Hz).
          destruct el0 as [a0|a0]; cbn [infer_element] in Hel; unfold rmap in Hel; bok Hel a Ha; apply ok_inj in Hel; subst el;
            cbn [coerce_element] in Hel'; unfold rmap in Hel'; bok Hel' a' Ha'; apply ok_inj in Hel'; subst el'; cbn [check_elements] in Hc; bok Hc sa Hsa.
          + bok Hc u Hu. destruct (IHl _ _ I' Hl Hc Hl') as [I1 I2]. split; [|intros z [Z|Hz]; [discriminate|apply I2, Hz]].
            intros z [Z|Hz]; [injection Z as <-|apply I1, Hz]. eapply into_sub; [apply (P a0), single_part, In0|exact HG|exact Os|exact Ha|exact Hsa|exact Hu|exact Ha'].
          + bok Hc et Het. bok Hc u Hu. destruct (IHl _ _ I' Hl Hc Hl') as [I1 I2]. split; [intros z [Z|Hz]; [discriminate|apply I1, Hz]|].
            intros z [Z|Hz]; [injection Z as <-|apply I2, Hz]. apply canonical_list_canon in Het.
            assert (Pm : good a0) by (apply (P a0), multiple_part, In0).
            assert (Oet : ok et). { eapply (ok_list f E), (ok_canon f E R C); [|exact Het]. eapply good_ok; eassumption. }
            eapply into_exact; [exact Pm|exact HG|apply (proj2 (ok_list f E _)), Os|exact Ha|exact Hsa| |exact Ha'].
            eapply widens_list; [apply canon_sound, Het|apply teq_refl|]. eapply check_sub_sound; [exact C|exact Hu|exact Oet|exact Os]. }
      destruct (X elements es es' (incl_refl _) Hes Hu Hes') as [X1 X2]. apply X_list; assumption.
    - (* comprehension *)
      cbn [infer] in Hi. bok Hi r Hr. bok Hi el Hel. apply ok_inj in Hi. subst e. cbn [check] in Hc. bok Hc G2 HG2. bok Hc sel Hsel. bok Hc u Hu. apply ok_inj in Hc. subst s.
      cbn [coerce] in Hco. bok Hco r' Hr'. bok Hco el' Hel'. apply ok_inj in Hco. subst e'. apply (proj1 (ok_list f E _)) in Os.
      destruct (branches_exact branches) with (G := G) (r := r) (G2 := G2) (r' := r') as (-> & E2 & E3 & E4); try assumption.
      { intros p Hp. apply P, lazy_part. cbn [lazy_parts]. apply in_or_app. left. exact Hp. }
      { intros b Hb. eapply A; [|exact Hb]. exists None, None. apply within_self. }
      rewrite E2 in Hel'. eapply X_comprehension; [exact E4|].
      eapply into_sub; [apply (P e0); spart|exact E3|exact Os|exact Hel|exact Hsel|exact Hu|exact Hel'].
    - (* map *)
      cbn [infer] in Hi. bok Hi es Hes. apply ok_inj in Hi. subst e. cbn [check] in Hc. bok Hc u Hu. destruct u. apply ok_inj in Hc. subst s.
      cbn [coerce] in Hco. bok Hco es' Hes'. apply ok_inj in Hco. subst e'. assert (Okv := proj1 (ok_map f E _ _) Os). destruct Okv as [Okt Ovt].
      assert (X : forall l0 l l', incl l0 elements -> mapM (infer_map_element (infer n E R) G) l0 = Ok l -> check_map_elements n E (check n E R) G key_type value_type l = Ok tt ->
        mapM (coerce_map_element n E R (coerce n E R) G key_type value_type) l = Ok l' ->
        (forall a b, In (Entry a b) l' -> exact E R G a key_type) /\ (forall a b, In (Entry a b) l' -> exact E R G b value_type) /\
        (forall m, In (Spread m) l' -> exact E R G m (TMap key_type value_type))).
      { clear Hes Hes' Hu. induction l0 as [|el0 l0 IHl]; intros l l' I Hi Hc Hco.
        - cbn in Hi. apply ok_inj in Hi. subst. cbn in Hco. apply ok_inj in Hco. subst. repeat split; intros; contradiction.
        - apply mapM_ok in Hi. inversion Hi as [|? el ? l1 Hel Hl]; subst. apply mapM_ok in Hl.
          apply mapM_ok in Hco. inversion Hco as [|? el' ? l1' Hel' Hl']; subst. apply mapM_ok in Hl'.
          assert (In0 : In el0 elements) by (apply I; left; reflexivity).
          assert (I' : incl l0 elements) by (intros z Hz; apply I; right; exact Hz).
          destruct el0 as [a0 b0|m0]; cbn [infer_map_element] in Hel.
          + bok Hel a Ha. bok Hel b Hb. apply ok_inj in Hel. subst el. cbn [coerce_map_element] in Hel'. bok Hel' a' Ha'. bok Hel' b' Hb'. apply ok_inj in Hel'. subst el'.
            cbn [check_map_elements] in Hc. bok Hc sa Hsa. bok Hc u Hu. bok Hc sb Hsb. bok Hc u' Hu'.
            destruct (IHl _ _ I' Hl Hc Hl') as (I1 & I2 & I3). destruct (entry_parts key_type value_type _ _ _ In0) as [Pa Pb].
            repeat split.
            * intros y z [Z|Hz]; [injection Z as <- <-|eapply I1, Hz]. eapply into_sub; [exact (P _ Pa)|exact HG|exact Okt|exact Ha|exact Hsa|exact Hu|exact Ha'].
            * intros y z [Z|Hz]; [injection Z as <- <-|eapply I2, Hz]. eapply into_sub; [exact (P _ Pb)|exact HG|exact Ovt|exact Hb|exact Hsb|exact Hu'|exact Hb'].
            * intros z [Z|Hz]; [discriminate|eapply I3, Hz].
          + unfold rmap in Hel. bok Hel m Hm. apply ok_inj in Hel. subst el. cbn [coerce_map_element] in Hel'. unfold rmap in Hel'. bok Hel' m' Hm'. apply ok_inj in Hel'. subst el'.
            cbn [check_map_elements] in Hc. bok Hc sm Hsm. bok Hc kv Hkv. bok Hc u Hu. bok Hc u' Hu'.
            destruct (IHl _ _ I' Hl Hc Hl') as (I1 & I2 & I3). apply canonical_map_canon in Hkv.
            assert (Pm : good m0) by (apply (P m0), spread_part, In0).
            assert (Oskv : ok (fst kv) /\ ok (snd kv)). { apply (ok_map f E), (ok_canon f E R C _ _ ltac:(eapply good_ok; eassumption) Hkv). }
            repeat split.
            * intros y z [Z|Hz]; [discriminate|eapply I1, Hz].
            * intros y z [Z|Hz]; [discriminate|eapply I2, Hz].
            * intros z [Z|Hz]; [injection Z as <-|eapply I3, Hz]. eapply into_exact; [exact Pm|exact HG|exact Os|exact Hm|exact Hsm| |exact Hm'].
              eapply widens_map; [apply canon_sound, Hkv|apply teq_refl| |]; (eapply check_sub_sound; [exact C|eassumption|apply Oskv|assumption]). }
      destruct (X elements es es' (incl_refl _) Hes Hu Hes') as (X1 & X2 & X3). apply X_map; assumption.
    - cbn [infer] in Hi. inv_ok. cbn in Hc, Hco. inv_ok. apply X_none.
    - cbn [infer] in Hi. inv_ok. cbn in Hc, Hco. inv_ok. apply X_number.
    - (* binary operations *)
      assert (Pl : good e0_1) by (apply P; spart). assert (Pr : good e0_2) by (apply P; spart).
      destruct o; cbn [infer] in Hi.
      + bok Hi l Hl. bok Hi t Ht. bok Hi c Hcan. bok Hi r Hr. apply ok_inj in Hi. subst e.
        cbn [check annotated bind] in Hc. bok Hc sl Hsl. bok Hc sr Hsr. bok Hc b Hb.
        cbn [coerce] in Hco. bok Hco l' Hl'. bok Hco r' Hr'. apply ok_inj in Hco. subst e'.
        assert (Oc : ok c). { eapply ok_canon; [exact C| |exists n; exact Hcan]. eapply good_extract; [exact Pl|exact HG|exact Hl|exact Ht]. }
        assert (Fix : canon E c c) by (apply (canon_idem f E W t c); exists n; exact Hcan).
        destruct b.
        * bok Hc u Hu. bok Hc u' Hu'. apply ok_inj in Hc. subst s.
          apply (equal_types_correct f E W n c TNumber true) in Hb; [|apply Oc|constructor]. assert (T := proj1 Hb eq_refl).
          assert (c = TNumber) as ->. { eapply canon_fun; [|apply canon_number]. eapply teq_canonical; [exact C|exact T|exact Fix]. }
          apply X_add; [auto| |].
          -- eapply atom_exact; [exact Pl|exact HG|apply ok_number|exact Hl|exact Hsl|exact Hu|apply canon_number|reflexivity|discriminate|exact Hl'].
          -- eapply atom_exact; [exact Pr|exact HG|apply ok_number|exact Hr|exact Hsr|exact Hu'|apply canon_number|reflexivity|discriminate|exact Hr'].
        * bok Hc b Hb2. destruct b; [|discriminate]. bok Hc u Hu. bok Hc u' Hu'. apply ok_inj in Hc. subst s.
          apply (equal_types_correct f E W n c TString true) in Hb2; [|apply Oc|constructor]. assert (T := proj1 Hb2 eq_refl).
          assert (c = TString) as ->. { eapply canon_fun; [|apply canon_string]. eapply teq_canonical; [exact C|exact T|exact Fix]. }
          apply X_add; [auto| |].
          -- eapply atom_exact; [exact Pl|exact HG|apply ok_string|exact Hl|exact Hsl|exact Hu|apply canon_string|reflexivity|discriminate|exact Hl'].
          -- eapply atom_exact; [exact Pr|exact HG|apply ok_string|exact Hr|exact Hsr|exact Hu'|apply canon_string|reflexivity|discriminate|exact Hr'].
      + bok Hi l Hl. bok Hi r Hr. apply ok_inj in Hi. subst e. cbn [check] in Hc. bok Hc sl Hsl. bok Hc u Hu. bok Hc sr Hsr. bok Hc u' Hu'. apply ok_inj in Hc. subst s.
        cbn [coerce] in Hco. bok Hco l' Hl'. bok Hco r' Hr'. apply ok_inj in Hco. subst e'. apply X_arithmetic.
        * eapply atom_exact; [exact Pl|exact HG|apply ok_number|exact Hl|exact Hsl|exact Hu|apply canon_number|reflexivity|discriminate|exact Hl'].
        * eapply atom_exact; [exact Pr|exact HG|apply ok_number|exact Hr|exact Hsr|exact Hu'|apply canon_number|reflexivity|discriminate|exact Hr'].
      + bok Hi l Hl. bok Hi r Hr. apply ok_inj in Hi. subst e. cbn [check] in Hc. bok Hc sl Hsl. bok Hc u Hu. bok Hc sr Hsr. bok Hc u' Hu'. apply ok_inj in Hc. subst s.
        cbn [coerce] in Hco. bok Hco l' Hl'. bok Hco r' Hr'. apply ok_inj in Hco. subst e'. apply X_and_or.
        * eapply atom_exact; [exact Pl|exact HG|apply ok_boolean|exact Hl|exact Hsl|exact Hu|apply canon_boolean|reflexivity|discriminate|exact Hl'].
        * eapply atom_exact; [exact Pr|exact HG|apply ok_boolean|exact Hr|exact Hsr|exact Hu'|apply canon_boolean|reflexivity|discriminate|exact Hr'].
      + bok Hi l Hl. bok Hi r Hr. bok Hi t Ht. bok Hi t' Ht'. apply ok_inj in Hi. subst e. cbn [check annotated bind] in Hc.
        bok Hc sl Hsl. bok Hc u Hu. bok Hc sr Hsr. bok Hc u' Hu'.
        assert (s = TBoolean) as ->.
        { rewrite Ht, Ht' in Hc. cbn [bind] in Hc. bok Hc b Hb. destruct b; [congruence|]. bok Hc b Hb2. destruct b; [congruence|discriminate]. }
        cbn [coerce annotated bind] in Hco. bok Hco l' Hl'. bok Hco r' Hr'. apply ok_inj in Hco. subst e'.
        assert (Ou : ok (TUnion t t')).
        { apply ok_union. split; [eapply good_extract; [exact Pl|exact HG|exact Hl|exact Ht]|eapply good_extract; [exact Pr|exact HG|exact Hr|exact Ht']]. }
        apply X_equality.
        * eapply into_sub; [exact Pl|exact HG|exact Ou|exact Hl|exact Hsl|exact Hu|exact Hl'].
        * eapply into_sub; [exact Pr|exact HG|exact Ou|exact Hr|exact Hsr|exact Hu'|exact Hr'].
      + bok Hi l Hl. bok Hi r Hr. apply ok_inj in Hi. subst e. cbn [check] in Hc. bok Hc sl Hsl. bok Hc u Hu. bok Hc sr Hsr. bok Hc u' Hu'. apply ok_inj in Hc. subst s.
        cbn [coerce] in Hco. bok Hco l' Hl'. bok Hco r' Hr'. apply ok_inj in Hco. subst e'. apply X_order.
        * eapply atom_exact; [exact Pl|exact HG|apply ok_number|exact Hl|exact Hsl|exact Hu|apply canon_number|reflexivity|discriminate|exact Hl'].
        * eapply atom_exact; [exact Pr|exact HG|apply ok_number|exact Hr|exact Hsr|exact Hu'|apply canon_number|reflexivity|discriminate|exact Hr'].
    - (* not *)
      cbn [infer] in Hi. unfold rmap in Hi. bok Hi a Ha. apply ok_inj in Hi. subst e. cbn [check] in Hc. bok Hc sa Hsa. bok Hc u Hu. apply ok_inj in Hc. subst s.
      cbn [coerce] in Hco. unfold rmap in Hco. bok Hco a' Ha'. apply ok_inj in Hco. subst e'. apply X_not.
      eapply atom_exact; [apply (P e0); spart|exact HG|apply ok_boolean|exact Ha|exact Hsa|exact Hu|apply canon_boolean|reflexivity|discriminate|exact Ha'].
    - (* try *)
      cbn [infer] in Hi. bok Hi a Ha. bok Hi t Ht. bok Hi d Hd. destruct d as [v|]; [|discriminate]. destruct (is_any v) eqn:Av; [discriminate|]. apply ok_inj in Hi. subst e.
      cbn [check annotated bind] in Hc. bok Hc sa Hsa. bok Hc u1 Hu1. bok Hc u2 Hu2. bok Hc u3 Hu3. apply ok_inj in Hc. subst s.
      cbn [coerce] in Hco. unfold rmap in Hco. bok Hco a' Ha'. apply ok_inj in Hco. subst e'.
      assert (Pa : good e0) by (apply P; spart). assert (Osa : ok sa) by (eapply good_ok; eassumption).
      assert (Ou : ok (TUnion v TError)) by (apply ok_union; split; [exact Os|apply ok_error]).
      assert (t = sa) as -> by (apply check_extract in Hsa; congruence).
      apply X_try; [|eapply varies_difference; [exact C|exact Osa|exact Hd|exact Os|intros ->; discriminate]]. eapply X_same; [eapply Pa; eassumption|]. apply (sub_antisym f E _ _ W Osa Ou). split.
      + eapply check_sub_sound; [exact C|exact Hu3|exact Osa|exact Ou].
      + apply sub_least; [eapply check_sub_sound; [exact C|exact Hu2|exact Os|exact Osa]|eapply check_sub_sound; [exact C|exact Hu1|apply ok_error|exact Osa]].
    - (* record *)
      cbn [infer] in Hi. bok Hi fs Hfs. apply ok_inj in Hi. subst e. cbn [check] in Hc. bok Hc fts Hfts. bok Hc u Hu. destruct u. bok Hc u Hu'. destruct u. apply ok_inj in Hc. subst s.
      cbn [coerce] in Hco. rewrite Hfts in Hco. cbn [bind] in Hco. bok Hco fs' Hfs'. apply ok_inj in Hco. subst e'.
      apply record_fields_canon in Hfts. destruct Hfts as (r & o & Hcan & Lr).
      destruct (fields_exact G fts HG (fun x t Lx => ctx_fields f E R C r fts x t Lr Lx) fields fs fs') as (F1 & F2 & F3); try assumption.
      { rewrite Forall_forall. intros b Hb. apply P, record_part, Hb. }
      eapply X_record; [apply canon_sound, Hcan|exact Lr|exact F2|exact F3|]. rewrite F1. apply complete_fields, Hu'.
    - (* field *)
      cbn [infer] in Hi. bok Hi r Hr. bok Hi t Ht. apply ok_inj in Hi. subst e. cbn [check annotated bind] in Hc. bok Hc sr Hsr. bok Hc u Hu. bok Hc fts Hfts.
      cbn [coerce] in Hco. bok Hco r' Hr'. apply ok_inj in Hco. subst e'.
      assert (sr = t) as -> by (apply check_extract in Hsr; congruence).
      apply record_fields_canon in Hfts. destruct Hfts as (rn & o & Hcan & Lr). apply field_type_lookup in Hc.
      assert (Pr : good e0) by (apply P; spart).
      eapply X_field; [apply canon_sound, Hcan|exact Lr|exact Hc|]. eapply Pr; eassumption.
    - (* update *)
      cbn [infer] in Hi. bok Hi r Hr. bok Hi fs Hfs. apply ok_inj in Hi. subst e.
      cbn [check] in Hc. bok Hc sr Hsr. bok Hc u0 Hu0. bok Hc fts Hfts. bok Hc u Hu. destruct u. apply ok_inj in Hc. subst s.
      cbn [coerce] in Hco. bok Hco r' Hr'. rewrite Hfts in Hco. cbn [bind] in Hco. bok Hco fs' Hfs'. apply ok_inj in Hco. subst e'.
      apply record_fields_canon in Hfts. destruct Hfts as (rn & o & Hcan & Lr).
      destruct (fields_exact G fts HG (fun x t Lx => ctx_fields f E R C rn fts x t Lr Lx) fields fs fs') as (F1 & F2 & F3); try assumption.
      { rewrite Forall_forall. intros b Hb. apply P, update_part, Hb. }
      eapply X_update; [apply canon_sound, Hcan|exact Lr| |exact F2|exact F3].
      eapply atom_exact; [apply (P e0); spart|exact HG|exact Os|exact Hr|exact Hsr|exact Hu0|exact Hcan|reflexivity|discriminate|exact Hr'].
    - cbn [infer] in Hi. inv_ok. cbn in Hc, Hco. inv_ok. apply X_string.
    - (* thunk *)
      cbn [infer] in Hi. bok Hi t Ht. bok Hi a Ha. apply ok_inj in Hi. subst e. cbn [check annotated bind] in Hc. bok Hc sa Hsa. bok Hc u Hu.
      cbn [extract annotated bind] in Hc. apply ok_inj in Hc. subst s.
      cbn [coerce annotated bind] in Hco. bok Hco a' Ha'. apply ok_inj in Hco. subst e'. apply ok_function in Os. destruct Os as [_ Ot].
      apply X_thunk. eapply into_sub; [apply (P e0), thunk_part|exact HG|exact Ot|exact Ha|exact Hsa|exact Hu|exact Ha'].
    - exfalso. eapply S. exists None, None. apply within_self.
    - cbn [infer] in Hi. inv_ok. cbn [check] in Hc. cbn [coerce] in Hco. inv_ok. destruct (lookup G x) as [t|] eqn:Lx; [|discriminate]. inv_ok. apply X_variable, Lx.
  Qed.
End Main.
