(** The lowered code of an exactly typed expression passes the MIR check. *)
From Coq Require Import String Ascii List ZArith Bool Lia.
From Verif Require Import Base Mir MirTypeCheck MirTypeProofs HirType HirTypeOrder HirTypeSpec HirTypeTermination HirTypeEq HirTypeSub
  Hir HirSpec HirParts HirTyping HirExact HirMain HirMir LowerTag LowerSwitch LowerTypeSpec LowerTypeBase LowerTypeCode LowerTypeMore
  LowerTypeLoop LowerTypeBuiltin.
Import ListNotations.
Local Open Scope string_scope.

Lemma Forall2_rev' {A B} (P : A -> B -> Prop) l l' : Forall2 P l l' -> Forall2 P (rev l) (rev l').
Proof. induction 1; cbn; [constructor|]. apply Forall2_app; [assumption|constructor; [assumption|constructor]]. Qed.

Section Main.
  Variable f : string -> string.
  Variable E : tenv.
  Variable R : renv.
  Variable C : config.
  Variable M : mmodule.
  Variable n : nat.
  Hypothesis X : context_ok f E R.
  Hypothesis K : config_ok E R C.

  Let W : wf f E := ctx_types f E R X.

  Notation lowers := (lowers E C).
  Notation provides := (provides E R C M).
  Notation compile := (compile n E R C).
  Notation private := (private E R C).
  Notation yields := (yields E R C M n).
  Notation checks := (checks E R C M n).
  Notation good := (good E R C M n).
  Notation LT := (Mir.TRecord (list_type C)).
  Notation MT := (Mir.TRecord (map_type C)).
  Notation CT := (Mir.TRecord (map_context C)).
  Notation FT := (Mir.TRecord (list_first_rest C)).
  Notation fn := Mir.TFunction.
  Notation tame := (tame E R C).
  Notation tries_fit := (tries_fit E).

  (** ** Scopes *)
  Definition suits (c : option ty) (res : mtype) (G : venv) (vars : variables) (e : hexpr) : Prop :=
    tame e /\ tries_fit c e /\ (forall r, c = Some r -> lowers r res) /\
    (forall x t, occurs (HVariable x) e -> lookup G x = Some t -> exists m, lowers t m /\ lookup vars x = Some m).

  Lemma tame_part p e : In p (parts e) -> tame e -> tame p.
  Proof.
    intros Hp (A & B & D & F & G). assert (O : forall q, occurs q p -> occurs q e) by (intros q; apply occurs_in_part, Hp).
    split; [|split; [|split; [|split]]].
    - intros x q Hq. apply A, O, Hq.
    - intros x Hx. apply B, O, Hx.
    - intros kt vt x m k a b Hq. eapply D, O, Hq.
    - intros q t Hq. apply F, O, Hq.
    - intros ft b args a t x Hq. eapply G, O, Hq.
  Qed.

  Lemma occurs_self e : occurs e e. Proof. exists None, None. constructor. Qed.

  Lemma suits_eager c res G vars e p : In p (eager_parts e) -> suits c res G vars e -> suits c res G vars p.
  Proof.
    intros Hp (A & B & D & F). pose proof (eager_part e p Hp) as Hp'. split; [eapply tame_part; eassumption|]. split; [|split; [exact D|]].
    - intros c' t a Hw. eapply B, within_eager; eassumption.
    - intros x t Hx. apply F. eapply occurs_in_part; eassumption.
  Qed.
  Lemma suits_lazy c res res' G vars e p : In p (lazy_parts e) -> suits c res G vars e -> suits None res' G vars p.
  Proof.
    intros Hp (A & B & D & F). pose proof (lazy_part e p Hp) as Hp'. split; [eapply tame_part; eassumption|]. split; [|split; [discriminate|]].
    - intros c' t a Hw. eapply B, within_lazy; eassumption.
    - intros x t Hx. apply F. eapply occurs_in_part; eassumption.
  Qed.
  Lemma suits_body c res t m G vars e p : In (t, p) (bodies e) -> lowers t m -> suits c res G vars e -> suits (Some t) m G vars p.
  Proof.
    intros Hp L (A & B & D & F). pose proof (body_part e t p Hp) as Hp'. split; [eapply tame_part; eassumption|]. split; [|split].
    - intros c' t' a Hw. eapply B, within_body; eassumption.
    - intros r Q. injection Q as <-. exact L.
    - intros x t' Hx. apply F. eapply occurs_in_part; eassumption.
  Qed.
  Lemma suits_over c res G vars vars' e : over vars vars' -> suits c res G vars e -> suits c res G vars' e.
  Proof.
    intros O (A & B & D & F). split; [exact A|]. split; [exact B|]. split; [exact D|].
    intros x t Hx Ht. destruct (F x t Hx Ht) as (m & Lm & Hm). exists m. split; [exact Lm|]. rewrite O; [exact Hm|].
    destruct A as (_ & A & _). destruct (A x Hx) as [N1 N2]. unfold visible. rewrite N2. destruct (String.eqb_spec x ""); [contradiction|reflexivity].
  Qed.
  Lemma suits_bind c res G vars x t m e : lowers t m -> suits c res G vars e -> suits c res ((x, t) :: G) ((x, m) :: vars) e.
  Proof.
    intros L (A & B & D & F). split; [exact A|]. split; [exact B|]. split; [exact D|].
    intros y u Hy Hu. cbn in Hu |- *. destruct (String.eqb y x); [injection Hu as <-; eauto|]. exact (F y u Hy Hu).
  Qed.
  Lemma suits_unused c res G vars x m e : ~ occurs (HVariable x) e -> suits c res G vars e -> suits c res G ((x, m) :: vars) e.
  Proof.
    intros N (A & B & D & F). split; [exact A|]. split; [exact B|]. split; [exact D|].
    intros y u Hy Hu. cbn. destruct (String.eqb_spec y x) as [->|_]; [contradiction|]. exact (F y u Hy Hu).
  Qed.
  Lemma suits_binds c res G vars e : forall l l', Forall2 (fun a b => fst a = fst b /\ lowers (snd a) (snd b)) l l' ->
    suits c res G vars e -> suits c res (l ++ G)%list (l' ++ vars)%list e.
  Proof.
    intros l l' F H. induction F as [|[x t] [y m] l l' [Q L] _ IH]; [exact H|]. cbn in Q, L. subst y. cbn. apply suits_bind; assumption.
  Qed.

  Lemma suits_inside c res G vars vars' names ets mes e : Forall2 lowers ets mes -> List.length names = List.length ets ->
    inside names mes vars vars' -> suits c res G vars e -> suits c res (rev (combine names (map (TFunction []) ets)) ++ G)%list vars' e.
  Proof.
    intros F L I H. eapply suits_over with (vars := (rev (combine names (map (fn []) mes)) ++ vars)%list).
    - intros x Hx. apply I. left. exact Hx.
    - apply suits_binds; [|exact H]. apply Forall2_rev'. clear - F L. revert names L. induction F as [|t m ets mes Hm _ IH]; intros [|x names] L; try discriminate; [constructor|].
      cbn. constructor; [split; [reflexivity|]|apply IH; injection L as L; exact L]. apply l_function; [constructor|exact Hm].
  Qed.

  Lemma user_private c res G vars e x : suits c res G vars e -> In x (bound e) -> private x /\ prefix "$" x = false /\ x <> "".
  Proof.
    intros (A & _) Hx. destruct (proj1 A x e (occurs_self e) Hx) as [[N1 N2] N3]. auto.
  Qed.

  Lemma suits_proper c res G vars e t : suits c res G vars e -> In t (node_types e) -> proper E t.
  Proof. intros ((_ & _ & _ & S & _) & _) Ht. eapply S; [apply occurs_self|exact Ht]. Qed.
  Lemma suits_lowers c res G vars e t : suits c res G vars e -> In t (node_types e) -> exists m, lowers t m.
  Proof. intros S Ht. apply proper_lowers. eapply suits_proper; eassumption. Qed.

  (** ** Types of compiled expressions *)
  Definition has (e : hexpr) (t : ty) : Prop := forall k e', compile k e = Ok e' -> exists m, lowers t m.

  Definition typed (G : venv) (e : hexpr) (t : ty) : Prop :=
    forall c res vars, suits c res G vars e -> has e t /\ good res vars e t.

  Lemma good_pre res vars e t : (forall k e', compile k e = Ok e' -> good res vars e t) -> good res vars e t.
  Proof. apply yields_pre. Qed.

  Ltac start := intros c res vars S; split.
  Ltac eager S := eapply suits_eager; [|exact S]; cbn; tauto.
  Ltac own S := first [eapply suits_proper | eapply suits_lowers]; [exact S|cbn; tauto].
  Ltac open k H := let e' := fresh "e" in intros k e' H; destruct k as [|k]; [discriminate|]; cbn [HirMir.compile] in H.

  Lemma good_at res vars G c e t : typed G e t -> suits c res G vars e -> good res vars e t.
  Proof. intros H S. apply (H c res vars S). Qed.
  Lemma has_at res vars G c e t : typed G e t -> suits c res G vars e -> has e t.
  Proof. intros H S. apply (H c res vars S). Qed.
  Lemma checks_of res vars G c e t m : typed G e t -> suits c res G vars e -> lowers t m -> checks res vars e m.
  Proof. intros H S L. eapply good_checks; [eapply good_at; eassumption|exact L]. Qed.

  Lemma never_builtin G e t : exact E R G e t -> forall b, e <> HBuiltIn b.
  Proof. induction 1; try discriminate. assumption. Qed.

  Lemma lowered_of_signature ft ts r s : compile_signature n E C ft = Ok s -> teq E ft (TFunction ts r) ->
    proper E ft -> Forall2 lowers ts (fst s) /\ lowers r (snd s) /\ lowers ft (fn (fst s) (snd s)).
  Proof.
    unfold compile_signature. intros H T Pf. bok H m Hm. destruct m as [| |ms0 m0| | | |]; try discriminate. injection H as <-. cbn [fst snd].
    assert (L : lowers ft (fn ms0 m0)) by (eapply compiles; eassumption). split; [|split; [|exact L]];
      (assert (L' := lowers_teq f E C W _ _ _ T L); apply lowers_function in L'; destruct L' as (ms' & m' & Q & L1 & L2); injection Q as <- <-; assumption).
  Qed.

  Lemma forall2_checks res vars G c args ts ms : Forall2 lowers ts ms -> List.length args = List.length ts ->
    (forall a t, In (a, t) (combine args ts) -> typed G a t) -> (forall a, In a args -> suits c res G vars a) -> Forall2 (checks res vars) args ms.
  Proof.
    intros F. revert args. induction F as [|t m ts ms L _ IH]; intros [|a args] Len H S; try discriminate; constructor.
    - eapply checks_of; [apply H; left; reflexivity|apply S; left; reflexivity|exact L].
    - apply IH; [injection Len as Len; exact Len|intros; apply H; right; assumption|intros; apply S; right; assumption].
  Qed.

  Lemma typed_intro G e t :
    (forall c res vars, suits c res G vars e -> forall k e', compile (S k) e = Ok e' -> exists m, lowers t m /\ checks res vars e m) -> typed G e t.
  Proof.
    intros H c res vars S. split.
    - intros [|k] e' He; [discriminate|]. destruct (H c res vars S k e' He) as (m & L & _). eauto.
    - apply yields_pre. intros [|k] e' He; [discriminate|]. destruct (H c res vars S k e' He) as (m & L & Hm). eapply checks_good; eassumption.
  Qed.

  Lemma compile_call k ft fe args : (forall b, fe <> HBuiltIn b) -> compile (S k) (HCall ft fe args) =
    bind (annotated ft) (fun t => bind (compile_signature n E C t) (fun s => bind (compile k fe) (fun f =>
    bind (mapM (compile k) args) (fun es => Ok (Op (OCall (fst s) (snd s)) (f :: es)))))).
  Proof. intros N. destruct fe; try reflexivity. exfalso. exact (N _ eq_refl). Qed.

  Lemma tries_fit_any c e : tries_fit c e -> tries_fit (Some TAny) e.
  Proof.
    intros H c' t a Hw. assert (G : c' = Some TAny \/ forall d, within d e c' (HTry t a)).
    { clear H. remember (Some TAny) as d eqn:Qd. induction Hw as [d e|d e p c' e' Hp Hw IH|d e p c' e' Hp Hw IH|d e s p c' e' Hp Hw IH].
      - left. reflexivity.
      - destruct (IH Qd) as [Q|Q]; [left; exact Q|right]. intros z. eapply within_eager; [exact Hp|apply Q].
      - right. intros d'. eapply within_lazy; eassumption.
      - right. intros d'. eapply within_body; eassumption. }
    destruct G as [->|G].
    - exists TAny. split; [reflexivity|]. split; [apply sub_top|]. intros Q. apply (lowers_teq f E C W TAny TError TVariant) in Q; [|apply lowers_any].
      pose proof (lowers_fun _ _ _ _ _ Q (lowers_error E C)). discriminate.
    - eapply H, G.
  Qed.
  Lemma tries_fit_none c e : (forall t x, ~ within None e None (HTry t x)) -> tries_fit c e -> tries_fit None e.
  Proof.
    intros N H c' t a Hw. assert (G : c' = None \/ forall d, within d e c' (HTry t a)).
    { clear H N. remember None as d eqn:Qd. induction Hw as [d e|d e p c' e' Hp Hw IH|d e p c' e' Hp Hw IH|d e s p c' e' Hp Hw IH].
      - left. reflexivity.
      - destruct (IH Qd) as [Q|Q]; [left; exact Q|right]. intros z. eapply within_eager; [exact Hp|apply Q].
      - right. intros d'. eapply within_lazy; eassumption.
      - right. intros d'. eapply within_body; eassumption. }
    destruct G as [->|G]; [exfalso; eapply N, Hw|eapply H, G].
  Qed.

  Lemma branch_lowers G c res vars x bs t alts k : bs <> [] -> (forall bt b, In (bt, b) bs -> proper E bt) -> mapM (compile_branch n E C (compile k) x) bs = Ok alts ->
    (forall bt b, In (bt, b) bs -> typed ((x, bt) :: G) b t) ->
    (forall bt b mb, In (bt, b) bs -> lowers bt mb -> suits c res ((x, bt) :: G) ((x, mb) :: vars) b) -> exists r, lowers t r.
  Proof.
    intros Ne Pb H T S. destruct bs as [|[bt b] bs]; [contradiction|]. cbn [mapM] in H. bok H al Hal. unfold compile_branch in Hal. bok Hal b' Hb'. cbn [fst snd] in *.
    destruct (proper_lowers E C bt) as [mb Lb]; [eapply Pb; left; reflexivity|].
    eapply (has_at res ((x, mb) :: vars) ((x, bt) :: G) c b t); [apply T; left; reflexivity|apply S; [left; reflexivity|exact Lb]|exact Hb'].
  Qed.

  Lemma widened s t cs ct ms mt : widens E s t -> ~ teq E s t -> canon E s cs -> canon E t ct -> lowers s ms -> lowers t mt ->
    (single cs -> single ct -> ms = mt /\ ((exists a b, cs = TList a /\ ct = TList b) \/ (exists a b c d, cs = TMap a b /\ ct = TMap c d))) /\
    (~ single cs -> ~ single ct).
  Proof.
    intros Wd N Cs Ct Ls Lt. destruct Wd as [s t S|s t a b Ta Tb S|s t a b a' b' Ta Tb S S'].
    - assert (Q : single ct -> False).
      { intros Sc. apply N. pose proof (sub_to_single f E W _ _ _ _ S Cs Ct Sc). subst. eapply teq_trans; [apply canon_sound, Cs|apply teq_sym, canon_sound, Ct]. }
      split; [intros _ Sc; destruct (Q Sc)|intros _; exact Q].
    - assert (D : defined E a /\ defined E b).
      { split; [eapply lowers_defined with (t := TList a)|eapply lowers_defined with (t := TList b)]; eapply lowers_teq; eassumption. }
      destruct D as [Da Db]. destruct (canon_ex f E W a Da) as [ca Ca]. destruct (canon_ex f E W b Db) as [cb Cb].
      assert (Q1 : cs = TList ca) by (eapply (teq_canon_eq f E W); [exact Ta|exact Cs|apply canon_list; eauto]).
      assert (Q2 : ct = TList cb) by (eapply (teq_canon_eq f E W); [exact Tb|exact Ct|apply canon_list; eauto]).
      subst. split; [|intros Q; exfalso; apply Q; exact I]. intros _ _. split; [|left; eauto].
      rewrite (lowers_list _ _ _ _ (lowers_teq f E C W _ _ _ Ta Ls)), (lowers_list _ _ _ _ (lowers_teq f E C W _ _ _ Tb Lt)). reflexivity.
    - assert (D : defined E (TMap a b) /\ defined E (TMap a' b')).
      { split; [eapply lowers_defined with (t := TMap a b)|eapply lowers_defined with (t := TMap a' b')]; eapply lowers_teq; eassumption. }
      destruct D as [D D']. destruct (canon_ex f E W _ D) as [ca Ca]. destruct (canon_ex f E W _ D') as [cb Cb].
      assert (Q1 : cs = ca) by (eapply (teq_canon_eq f E W); [exact Ta|exact Cs|exact Ca]).
      assert (Q2 : ct = cb) by (eapply (teq_canon_eq f E W); [exact Tb|exact Ct|exact Cb]).
      apply canon_map in Ca. destruct Ca as (k1 & v1 & _ & _ & ->). apply canon_map in Cb. destruct Cb as (k2 & v2 & _ & _ & ->).
      subst. split; [|intros Q; exfalso; apply Q; exact I]. intros _ _. split; [|right; eauto 8].
      rewrite (lowers_map _ _ _ _ _ (lowers_teq f E C W _ _ _ Ta Ls)), (lowers_map _ _ _ _ _ (lowers_teq f E C W _ _ _ Tb Lt)). reflexivity.
  Qed.

  Lemma in_combine_ex {A B} (l : list A) (l' : list B) x : In x l -> List.length l' = List.length l -> exists y, In (x, y) (combine l l').
  Proof.
    revert l'. induction l as [|a l IH]; intros [|b l'] H Q; try discriminate; [destruct H|]. destruct H as [->|H].
    - exists b. left. reflexivity.
    - injection Q as Q. destruct (IH l' H Q) as [y Hy]. exists y. right. exact Hy.
  Qed.

  Lemma elements_lower its : forall ets ets', List.length ets = List.length its ->
    (forall t e et, In ((t, e), et) (combine its ets) -> exists t', t = Some t' /\ teq E t' (TList et)) ->
    (forall t e, In (Some t, e) its -> proper E t) -> iteratee_elements n E its = Ok ets' -> exists mes, Forall2 lowers ets mes.
  Proof.
    induction its as [|[t e] its IH]; intros [|et ets] ets' Hl H Pi Q; try discriminate; [exists []; constructor|].
    cbn in Q. destruct (H t e et (or_introl eq_refl)) as (t' & -> & T). cbn in Q. bok Q c Hc. bok Q r Hr. clear Q.
    destruct (IH ets r) as [mes F]; [injection Hl as Hl; exact Hl|intros t e0 et0 Hin; apply (H t e0 et0); right; exact Hin|intros t e0 Hin; eapply Pi; right; exact Hin|exact Hr|].
    assert (D : proper E (TList et)) by (eapply proper_teq; [exact W|exact T|eapply Pi; left; reflexivity]).
    destruct (proper_lowers E C et (proper_element _ _ D)) as [me Le]. exists (me :: mes). constructor; assumption.
  Qed.

  Lemma occurs_cases q e : occurs q e -> q = e \/ exists p, In p (parts e) /\ occurs q p.
  Proof.
    intros (c & c' & H). inversion H as [c0 e0|c0 e0 p c1 e1 Hp Hw|c0 e0 p c1 e1 Hp Hw|c0 e0 s p c1 e1 Hp Hw]; subst; [left; reflexivity|right..]; exists p;
      (split; [first [apply eager_part, Hp|apply lazy_part, Hp|eapply body_part, Hp]|eexists; eexists; exact Hw]).
  Qed.

  Lemma suits_tail c res res' G vars t el b bs : suits c res G vars (HComprehension t el (b :: bs)) -> suits None res' G vars (HComprehension t el bs).
  Proof.
    intros (A & B & D & F).
    assert (P : forall p, In p (lazy_parts (HComprehension t el bs)) -> In p (lazy_parts (HComprehension t el (b :: bs)))).
    { intros p Hp. cbn in *. rewrite !in_app_iff in *. tauto. }
    assert (O : forall q, occurs q (HComprehension t el bs) -> q = HComprehension t el bs \/ occurs q (HComprehension t el (b :: bs))).
    { intros q Hq. destruct (occurs_cases _ _ Hq) as [->|(p & Hp & Hq')]; [left; reflexivity|right]. eapply occurs_in_part; [|exact Hq'].
      unfold parts in Hp |- *. cbn [eager_parts bodies map app] in *. rewrite app_nil_r in *. apply P, Hp. }
    split; [|split; [|split; [discriminate|]]].
    - destruct A as (A1 & A2 & A3 & A4 & A5). split; [|split; [|split; [|split]]].
      + intros x q Hq Hx. destruct (O q Hq) as [->|Hq']; [|eapply A1; eassumption].
        apply (A1 x (HComprehension t el (b :: bs)) (occurs_self _)). cbn in *. apply in_or_app. right. exact Hx.
      + intros x Hq. destruct (O _ Hq) as [Q|Hq']; [discriminate|]. eapply A2, Hq'.
      + intros kt vt x m k a b' Hq. destruct (O _ Hq) as [Q|Hq']; [discriminate|]. eapply A3, Hq'.
      + intros q u Hq Hu. destruct (O q Hq) as [->|Hq']; [|eapply A4; eassumption]. eapply (A4 _ u (occurs_self _)). cbn in Hu |- *. destruct Hu as [Hu|Hu]; [left; exact Hu|right; apply in_or_app; right; exact Hu].
      + intros ft g args a u x Hq. destruct (O _ Hq) as [Q|Hq']; [discriminate|]. eapply A5, Hq'.
    - intros c' u a Hw. inversion Hw as [c0 e0|c0 e0 p c1 e1 Hp Hw'|c0 e0 p c1 e1 Hp Hw'|c0 e0 s p c1 e1 Hp Hw']; subst; try (destruct Hp; fail).
      eapply B, within_lazy; [apply P, Hp|exact Hw'].
    - intros x u Hx. destruct (O _ Hx) as [Q|Hx']; [discriminate|]. apply F, Hx'.
  Qed.

  Theorem exact_typed G e t : exact E R G e t -> typed G e t.
  Proof.
    intros H. apply (exact_min E R typed (fun G bs G' => (bs = [] -> G' = G) /\ forall t el, typed G' el t -> typed G (HComprehension t el bs) (TList t)));
      [..|exact H]; clear G e t H.
    - (* equal types *)
      intros G e s t _ IH T c res vars S. destruct (IH c res vars S) as [I1 I2]. split.
      + intros k e' He. destruct (I1 k e' He) as [m Lm]. exists m. eapply lowers_teq; eassumption.
      + eapply good_teq; eassumption.
    - intros G b. apply typed_intro. intros c res vars S k e' _. eexists. split; [apply lowers_boolean|apply y_boolean].
    - intros G. apply typed_intro. intros c res vars S k e' _. eexists. split; [apply lowers_none|apply y_none].
    - intros G z. apply typed_intro. intros c res vars S k e' _. eexists. split; [apply lowers_number|apply y_number].
    - intros G z. apply typed_intro. intros c res vars S k e' _. eexists. split; [apply lowers_string|apply y_string].
    - intros G x t Hx. apply typed_intro. intros c res vars S k e' _. destruct S as (_ & _ & _ & S). destruct (S x t (occurs_self _) Hx) as (m & Lm & Hm).
      exists m. split; [exact Lm|apply y_var, Hm].
    - (* calls *)
      intros G ft fe args ts r T Hf IHf Len Hargs IHargs. apply typed_intro. intros c res vars S k e' He.
      pose proof (never_builtin _ _ _ Hf) as N. rewrite compile_call in He by exact N.
      bok He ft' Hft. injection Hft as <-. bok He s Hs. destruct (lowered_of_signature _ _ _ _ Hs T) as (L1 & L2 & L3); [own S|].
      exists (snd s). split; [exact L2|]. eapply y_call; [exact N|exact L3| |].
      + eapply checks_of; [exact IHf|eager S|]. apply l_function; assumption.
      + eapply forall2_checks; [exact L1|exact Len|exact IHargs|]. intros a Ha. eapply suits_eager; [|exact S]. right. exact Ha.
    - (* built-in functions *)
      intros G ft b args ts r Sg T Len Hargs IHargs. apply typed_intro. intros c res vars S k e' He.
      cbn [HirMir.compile] in He. unfold compile_built_in in He. bok He ft' Hft. injection Hft as <-. bok He ar Har. clear He. apply canonical_function_canon in Har.
      assert (Lf : exists mf, lowers ft mf) by own S. destruct Lf as (mf & Lf). assert (Lf' := lowers_teq f E C W _ _ _ T Lf). apply lowers_function in Lf'.
      destruct Lf' as (ms & m & -> & L1 & L2). exists m. split; [exact L2|].
      eapply y_builtin; [exact X|exact K|exact Sg|exact T|exact L1|exact L2|exact Len|].
      intros a ma res' vars' Hin Ov Hr.
      assert (Ha : In a args) by (eapply in_combine_l, Hin).
      assert (Sa : suits c res G vars a) by (eapply suits_eager; [|exact S]; right; exact Ha).
      assert (Sa' : exists c', suits c' res' G vars' a).
      { destruct Hr as [->|[D|[-> ->]]].
        - exists c. eapply suits_over; eassumption.
        - exists None. apply (suits_over None res' G vars vars' a Ov). destruct Sa as (A1 & A2 & A3 & A4). split; [exact A1|]. split; [|split; [discriminate|exact A4]].
          eapply tries_fit_none; [|exact A2]. intros t x. destruct S as ((_ & _ & _ & _ & S) & _).
          eapply (S (Some ft) b args a t x (occurs_self _)); [|exact Ha]. destruct b; try discriminate; cbn; tauto.
        - exists (Some TAny). apply (suits_over (Some TAny) TVariant G vars vars' a Ov). destruct Sa as (A1 & A2 & A3 & A4). split; [exact A1|]. split; [|split; [|exact A4]].
          + eapply tries_fit_any, A2.
          + intros r0 Q. injection Q as <-. apply lowers_any. }
      destruct Sa' as [c' Sa'].
      assert (Ht : exists t, In (a, t) (combine args ts) /\ lowers t ma).
      { clear - L1 Hin Len. revert args Len Hin. induction L1 as [|t m' ts ms Lt _ IH]; intros [|a' args] Len Hin; try discriminate; [destruct Hin|].
        destruct Hin as [Q|Hin].
        - injection Q as -> ->. exists t. split; [left; reflexivity|exact Lt].
        - injection Len as Len. destruct (IH args Len Hin) as (t' & H1 & H2). exists t'. split; [right; exact H1|exact H2]. }
      destruct Ht as (t & Hin' & Lt). eapply checks_of; [apply IHargs, Hin'|exact Sa'|exact Lt].
    - (* if *)
      intros G cnd a b t _ IHc _ IHa _ IHb. apply typed_intro. intros c res vars S k e' He. cbn [HirMir.compile] in He. bok He x1 H1. bok He x2 H2.
      destruct (has_at res vars G c a t IHa) with (k := k) (e' := x2) as [m Lm]; [eager S|exact H2|]. exists m. split; [exact Lm|].
      apply y_if; [eapply checks_of; [exact IHc|eager S|apply lowers_boolean]|eapply checks_of; [exact IHa|eager S|exact Lm]|eapply checks_of; [exact IHb|eager S|exact Lm]].
    - (* if on lists *)
      intros G et l first rest a b t _ IHl _ IHa _ IHb. apply typed_intro. intros c res vars S k e' He. cbn [HirMir.compile] in He. bok He d Hd.
      unfold if_list in Hd. bok Hd et' Het. injection Het as <-. bok Hd same Hsame. bok Hd bd Hbd. injection Hd as <-.
      assert (Let : exists me, lowers et me) by own S. destruct Let as [me Let].
      destruct k as [|k]; [discriminate|]. cbn [HirMir.compile] in He. bok He a' Ha'. bok He alts Halts.
      destruct (user_private _ _ _ _ _ first S (or_introl eq_refl)) as (N1 & N2 & N3).
      destruct (user_private _ _ _ _ _ rest S (or_intror (or_introl eq_refl))) as (N4 & N5 & N6).
      assert (Sb : suits c res G vars b) by eager S.
      assert (Lt : exists m, lowers t m).
      { cbn [mapM] in Halts. bok Halts al1 Hal1. bok Halts als Hals. bok Hals al2 Hal2. unfold compile_branch in Hal2. bok Hal2 b' Hb'. cbn [snd] in Hb'.
        eapply (has_at res vars G c b t IHb Sb); exact Hb'. }
      destruct Lt as [m Lm]. exists m. split; [exact Lm|].
      assert (Ll : lowers (TList et) LT) by (eapply lowered_list; [exact Let]).
      eapply y_iflist; [exact X|exact K|exact Let| |exact N1|exact N4| | | | ].
      + eapply checks_of; [exact IHl|eager S|exact Ll].
      + intros ->. discriminate.
      + intros ->. discriminate.
      + eapply checks_of; [exact IHa| |exact Lm]. apply suits_bind; [exact Ll|]. apply suits_bind; [apply l_function; [constructor|exact Let]|].
        eapply suits_over; [apply over_hide; [reflexivity|apply over_refl]|]. eager S.
      + eapply checks_of; [exact IHb| |exact Lm]. eapply suits_over; [apply over_hide; [reflexivity|apply over_refl]|exact Sb].
    - (* if on maps *)
      intros G kt vt x m key a b t _ IHm _ IHk _ IHa _ IHb. apply typed_intro. intros c res vars S k e' He. cbn [HirMir.compile] in He. bok He d Hd.
      unfold if_map in Hd. bok Hd kt' Hkt. injection Hkt as <-. bok Hd vt' Hvt. injection Hvt as <-. bok Hd ctx Hctx. bok Hd dc Hdc. injection Hd as <-.
      assert (Lkv : (exists mk, lowers kt mk) /\ (exists mv, lowers vt mv)).
      { split; own S. }
      destruct Lkv as [[mk Lk] [mv Lv]].
      destruct k as [|k]; [discriminate|]. cbn [HirMir.compile] in He. bok He a' Ha'. bok He alts Halts.
      destruct (user_private _ _ _ _ _ x S (or_introl eq_refl)) as (N1 & N2 & N3).
      assert (Sb : suits c res G vars b) by eager S.
      assert (Lt : exists r, lowers t r).
      { cbn [mapM] in Halts. bok Halts al1 Hal1. unfold compile_branch in Hal1. bok Hal1 b' Hb'. cbn [snd] in Hb'.
        eapply (has_at res vars G c b t IHb Sb); exact Hb'. }
      destruct Lt as [r Lr]. exists r. split; [exact Lr|].
      eapply y_ifmap; [exact X|exact K|exact Lk|exact Lv|exact N1| | | | ].
      + eapply checks_of; [exact IHm|eager S|eapply lowered_map; [exact Lk|exact Lv]].
      + eapply checks_of; [exact IHk|eager S|exact Lk].
      + eapply checks_of; [exact IHa| |exact Lr]. apply suits_bind; [exact Lv|]. eager S.
      + eapply checks_of; [exact IHb| |exact Lr]. apply suits_unused; [|exact Sb].
        destruct S as ((_ & _ & S & _) & _). eapply S, occurs_self.
    - (* if on types *)
      intros G x a u bs t _ IHa V Ne Hsub _ IHbs _. apply typed_intro. intros c res vars S k e' He. cbn [HirMir.compile] in He. bok He a' Ha'. bok He alts Halts. clear He.
      destruct (has_at res vars G c a u IHa) with (k := k) (e' := a') as [mu Lu]; [eager S|exact Ha'|].
      assert (mu = TVariant) as -> by (eapply lowers_varies; eassumption).
      destruct (user_private _ _ _ _ _ x S (or_introl eq_refl)) as (N1 & N2 & N3).
      assert (Sbs : forall bt b mb, In (bt, b) bs -> lowers bt mb -> suits c res ((x, bt) :: G) ((x, mb) :: vars) b).
      { intros bt b mb Hb Lb. apply suits_bind; [exact Lb|]. eapply suits_eager; [|exact S]. cbn. right. apply in_or_app. left. apply (in_map snd) in Hb. exact Hb. }
      assert (Pb : forall bt b, In (bt, b) bs -> proper E bt).
      { intros bt b0 Hb. eapply suits_proper; [exact S|]. cbn. apply in_or_app. left. apply (in_map fst) in Hb. exact Hb. }
      assert (Lt : exists r, lowers t r) by (eapply branch_lowers; eassumption).
      destruct Lt as [r Lr]. exists r. split; [exact Lr|].
      eapply y_iftype; [exact W|exact N1|eapply checks_of; [exact IHa|eager S|exact Lu]|intros _; exact Ne|exact Pb|discriminate| |discriminate].
      intros bt b mb Hb Lb. eapply checks_of; [apply (IHbs bt b Hb)|apply Sbs; assumption|exact Lr].
    - (* if on types with an else branch *)
      intros G x a u bs et b' t _ IHa V Ne Hsub _ IHbs _ _ IHe. apply typed_intro. intros c res vars S k e' He. cbn [HirMir.compile] in He. bok He a' Ha'. bok He alts Halts. clear He.
      destruct (has_at res vars G c a u IHa) with (k := k) (e' := a') as [mu Lu]; [eager S|exact Ha'|].
      assert (mu = TVariant) as -> by (eapply lowers_varies; eassumption).
      destruct (user_private _ _ _ _ _ x S (or_introl eq_refl)) as (N1 & N2 & N3).
      assert (Sbs : forall bt b mb, In (bt, b) bs -> lowers bt mb -> suits c res ((x, bt) :: G) ((x, mb) :: vars) b).
      { intros bt b mb Hb Lb. apply suits_bind; [exact Lb|]. eapply suits_eager; [|exact S]. cbn. right. apply in_or_app. left. apply (in_map snd) in Hb. exact Hb. }
      assert (Pb : forall bt b, In (bt, b) bs -> proper E bt).
      { intros bt b0 Hb. eapply suits_proper; [exact S|]. cbn. apply in_or_app. left. apply (in_map fst) in Hb. exact Hb. }
      assert (Lt : exists r, lowers t r) by (eapply branch_lowers; eassumption).
      destruct Lt as [r Lr]. exists r. split; [exact Lr|].
      eapply y_iftype; [exact W|exact N1|eapply checks_of; [exact IHa|eager S|exact Lu]|discriminate|exact Pb| | |].
      + intros et' b Q. injection Q as <- <-. eapply suits_proper; [exact S|]. cbn. apply in_or_app. right. left. reflexivity.
      + intros bt b mb Hb Lb. eapply checks_of; [apply (IHbs bt b Hb)|apply Sbs; assumption|exact Lr].
      + intros et' b mb Q Lb. injection Q as <- <-. eapply checks_of; [exact IHe| |exact Lr]. apply suits_bind; [exact Lb|].
        eapply suits_eager; [|exact S]. cbn. right. apply in_or_app. right. left. reflexivity.
    - (* functions *)
      intros G args r b _ IHb. apply typed_intro. intros c res vars S k e' He. cbn [HirMir.compile] in He. bok He args' Hargs. bok He r' Hr. clear He.
      assert (Pn : forall t, In t (map snd args ++ [r])%list -> proper E t) by (intros t Ht; eapply suits_proper; [exact S|exact Ht]).
      assert (Lr : lowers r r') by (eapply compiles; [exact Hr|apply Pn, in_or_app; right; left; reflexivity]).
      assert (La : exists ms, Forall2 lowers (map snd args) ms).
      { clear - Pn Hargs. apply mapM_ok in Hargs. induction Hargs as [|a a' l l' Ha _ IH]; [exists []; constructor|]. destruct IH as [ms IH]; [intros t Ht; apply Pn; right; exact Ht|]. bok Ha t Ht.
        exists (t :: ms). constructor; [eapply compiles; [exact Ht|apply Pn; left; reflexivity]|exact IH]. }
      destruct La as [ms La]. exists (fn ms r'). split; [apply l_function; assumption|].
      eapply y_lambda; [exact K|exact La|exact Lr| |].
      + intros x t Hx. apply (in_map fst) in Hx. apply (user_private _ _ _ _ _ x S Hx).
      + eapply checks_of; [exact IHb| |exact Lr]. eapply suits_binds.
        * apply Forall2_rev'. clear - La. revert ms La. induction args as [|[x t] args IH]; intros ms La; inversion La; subst; cbn; [constructor|].
          constructor; [split; [reflexivity|assumption]|apply IH; assumption].
        * eapply suits_over; [apply over_hide; [reflexivity|apply over_refl]|]. eapply suits_body; [|exact Lr|exact S]. left. reflexivity.
    - (* statements *)
      intros G s b e t _ IHb _ IHe. apply typed_intro. intros c res vars S k e' He. cbn [HirMir.compile annotated bind] in He. bok He ms Hms. bok He b' Hb'. bok He e1 He1. clear He.
      destruct (has_at res vars G c e t IHe) with (k := k) (e' := e1) as [m Lm]; [eager S|exact He1|]. exists m. split; [exact Lm|].
      assert (Ls : lowers s ms) by (eapply compiles; [exact Hms|own S]).
      eapply y_let; [exact Ls|eapply private_empty, K|eapply checks_of; [exact IHb|eager S|exact Ls]|].
      eapply checks_of; [exact IHe| |exact Lm]. eapply suits_over; [apply over_hide; [reflexivity|apply over_refl]|]. eager S.
    - (* lets *)
      intros G x s b e t _ IHb _ IHe. apply typed_intro. intros c res vars S k e' He. cbn [HirMir.compile annotated bind] in He. bok He ms Hms. bok He b' Hb'. bok He e1 He1. clear He.
      assert (Ls : lowers s ms) by (eapply compiles; [exact Hms|own S]).
      assert (Se : suits c res ((x, s) :: G) ((x, ms) :: vars) e) by (apply suits_bind; [exact Ls|]; eager S).
      destruct (has_at res _ _ c e t IHe Se) with (k := k) (e' := e1) as [m Lm]; [exact He1|]. exists m. split; [exact Lm|].
      eapply y_let; [exact Ls|apply (user_private _ _ _ _ _ x S (or_introl eq_refl))|eapply checks_of; [exact IHb|eager S|exact Ls]|].
      eapply checks_of; [exact IHe|exact Se|exact Lm].
    - (* lists *)
      intros G t es _ IH1 _ IH2. apply typed_intro. intros c res vars S k e' _.
      assert (Lm : exists m, lowers t m) by own S. destruct Lm as [m Lm].
      assert (Ll : lowers (TList t) LT) by (eapply lowered_list; [exact Lm]). exists LT. split; [exact Ll|].
      eapply y_list; [exact X|exact K|exact Lm| |].
      + intros e He. eapply checks_of; [apply IH1, He| |exact Lm]. eapply suits_over; [apply over_hide; [reflexivity|apply over_refl]|].
        eapply (suits_lazy c res TVariant); [|exact S]. cbn. apply in_flat_map. exists (Single e). split; [exact He|left; reflexivity].
      + intros e He. eapply checks_of; [apply IH2, He| |exact Ll]. eapply suits_over; [apply over_hide; [reflexivity|apply over_refl]|].
        eapply (suits_lazy c res LT); [|exact S]. cbn. apply in_flat_map. exists (Multiple e). split; [exact He|left; reflexivity].
    - (* comprehensions *)
      intros G t el bs G' _ [_ IH] _ IHel. apply IH, IHel.
    - (* maps *)
      intros G k0 v es _ IH1 _ IH2 _ IH3. apply typed_intro. intros c res vars S k e' _.
      assert (Lk : exists m, lowers k0 m) by own S. destruct Lk as [mk Lk].
      assert (Lv : exists m, lowers v m) by own S. destruct Lv as [mv Lv].
      assert (Ll : lowers (TMap k0 v) MT) by (eapply lowered_map; [exact Lk|exact Lv]). exists MT. split; [exact Ll|].
      assert (Se : forall el p, In el es -> In p (map_parts el) -> suits c res G (("$ctx", CT) :: vars) p).
      { intros el p Hel Hp. eapply suits_over; [apply over_hide; [reflexivity|apply over_refl]|]. eapply suits_eager; [|exact S]. cbn. apply in_flat_map. eauto. }
      eapply y_map; [exact X|exact K|exact Lk|exact Lv| |].
      + intros a b Hab. split.
        * eapply checks_of; [eapply IH1, Hab|eapply Se; [exact Hab|left; reflexivity]|exact Lk].
        * eapply checks_of; [eapply IH2, Hab|eapply Se; [exact Hab|right; left; reflexivity]|exact Lv].
      + intros m Hm. eapply checks_of; [apply IH3, Hm|eapply Se; [exact Hm|left; reflexivity]|exact Ll].
    - (* addition *)
      intros G t l r Ht _ IHl _ IHr. apply typed_intro. intros c res vars S k e' _.
      assert (Lm : exists m, lowers t m /\ (t = TNumber /\ m = Mir.TNumber \/ t = TString /\ m = TByteString)).
      { destruct Ht as [->| ->]; eexists; (split; [first [apply lowers_number|apply lowers_string]|auto]). }
      destruct Lm as (m & Lm & Q). exists m. split; [exact Lm|]. apply y_add; [exact Q|eapply checks_of; [exact IHl|eager S|exact Lm]|eapply checks_of; [exact IHr|eager S|exact Lm]].
    - intros G o l r _ IHl _ IHr. apply typed_intro. intros c res vars S k e' _. eexists. split; [apply lowers_number|].
      apply y_arithmetic; (eapply checks_of; [eassumption|eager S|apply lowers_number]).
    - intros G o l r _ IHl _ IHr. apply typed_intro. intros c res vars S k e' _. eexists. split; [apply lowers_boolean|].
      apply y_and_or; (eapply checks_of; [eassumption|eager S|apply lowers_boolean]).
    - (* equality *)
      intros G o t l r _ IHl _ IHr. apply typed_intro. intros c res vars S k e' He. eexists. split; [apply lowers_boolean|].
      assert (Lt : exists m, lowers t m).
      { own S. }
      destruct Lt as [m Lm]. eapply y_equality; [exact X|exact K|exact Lm|eapply checks_of; [exact IHl|eager S|exact Lm]|eapply checks_of; [exact IHr|eager S|exact Lm]|].
      intros ml. eapply checks_of; [exact IHr| |exact Lm]. eapply suits_over; [apply over_hide; [reflexivity|apply over_refl]|]. eager S.
    - intros G o l r _ IHl _ IHr. apply typed_intro. intros c res vars S k e' _. eexists. split; [apply lowers_boolean|].
      apply y_order; (eapply checks_of; [eassumption|eager S|apply lowers_number]).
    - intros G e _ IHe. apply typed_intro. intros c res vars S k e' _. eexists. split; [apply lowers_boolean|].
      apply y_not; (eapply checks_of; [eassumption|eager S|apply lowers_boolean]).
    - (* ? *)
      intros G t e _ IHe V. apply typed_intro. intros c res vars S k e' He. cbn [HirMir.compile annotated bind] in He. bok He e1 He1. bok He al Hal. clear He.
      destruct (has_at res vars G c e (TUnion t TError) IHe) with (k := k) (e' := e1) as [mu Lu]; [eager S|exact He1|].
      assert (mu = TVariant) as -> by (eapply lowers_varies; eassumption).
      assert (Lt : exists m, lowers t m) by own S.
      destruct Lt as [m Lm]. exists m. split; [exact Lm|]. eapply y_try; [exact X|exact K| |exact Lm|eapply checks_of; [exact IHe|eager S|exact Lu]].
      destruct S as (_ & S1 & S2 & _). destruct (S1 c (Some t) e (within_self _ _)) as (r & -> & Sr & Nr).
      eapply lowers_failing; [exact W|exact Sr|exact Nr|apply S2; reflexivity].
    - (* records *)
      intros G t name o fts fs T Lk Hk _ IH _. apply typed_intro. intros c res vars S k e' _.
      exists (Mir.TRecord name). split; [eapply lowers_teq; [exact W|apply teq_sym, T|eapply record_lowers; [exact K|exact Lk]]|].
      eapply y_record; [exact X|exact K|exact T|exact Lk|]. intros x a vars' Hx Ov. destruct (lookup fts x) as [ft|] eqn:Hft; [|exfalso; eapply Hk; eassumption].
      exists ft. split; [reflexivity|]. eapply good_at; [eapply IH; eassumption|]. eapply suits_over; [exact Ov|]. eapply suits_eager; [|exact S].
      cbn. apply (in_map snd) in Hx. exact Hx.
    - (* fields *)
      intros G t name o fts r x ft T Lk Lf _ IH. intros c res vars S. split.
      + intros k e' _. destruct (fields_lower E R C K name fts Lk) as [ms Fm].
        clear - Fm Lf. induction Fm as [|[y u] m fts ms Hm _ IHF]; [discriminate|]. cbn in Lf. destruct (String.eqb x y); [injection Lf as <-; eauto|exact (IHF Lf)].
      + eapply y_field; [exact X|exact K|exact T|exact Lk|exact Lf|]. eapply checks_of; [exact IH|eager S|].
        eapply lowers_teq; [exact W|apply teq_sym, T|eapply record_lowers; [exact K|exact Lk]].
    - (* updates *)
      intros G t name o fts r fs T Lk _ IHr Hk _ IH. apply typed_intro. intros c res vars S k e' _.
      assert (Lt : lowers t (Mir.TRecord name)) by (eapply lowers_teq; [exact W|apply teq_sym, T|eapply record_lowers; [exact K|exact Lk]]).
      exists (Mir.TRecord name). split; [exact Lt|].
      eapply y_update; [exact X|exact K|exact T|exact Lk|eapply checks_of; [exact IHr|eager S|exact Lt]|]. intros x a Hx.
      destruct (lookup fts x) as [ft|] eqn:Hft; [|exfalso; eapply Hk; eassumption].
      exists ft. split; [reflexivity|]. eapply good_at; [eapply IH; eassumption|]. eapply suits_eager; [|exact S].
      cbn. right. apply (in_map snd) in Hx. exact Hx.
    - (* thunks *)
      intros G t e _ IH. apply typed_intro. intros c res vars S k e' He. cbn [HirMir.compile annotated bind] in He. bok He m Hm.
      assert (Lm : lowers t m) by (eapply compiles; [exact Hm|own S]). exists (fn [] m). split; [apply l_function; [constructor|exact Lm]|].
      eapply y_thunk; [exact K|exact Lm|]. eapply checks_of; [exact IH| |exact Lm]. eapply suits_over; [apply over_hide; [reflexivity|apply over_refl]|].
      eapply suits_body; [|exact Lm|exact S]. left. reflexivity.
    - (* conversions *)
      intros G s t e _ IH Wd N. apply typed_intro. intros c res vars S k e' He. cbn [HirMir.compile] in He. unfold compile_coercion in He. bok He cs Hcs. bok He ct Hct.
      assert (Cs : canon E s cs) by (exists n; exact Hcs). assert (Ct : canon E t ct) by (exists n; exact Hct).
      assert (Ls : exists m, lowers s m) by own S. destruct Ls as [ms Ls]. assert (Lt : exists m, lowers t m) by own S. destruct Lt as [mt Lt]. exists mt. split; [exact Lt|].
      eapply y_coerce; [exact W|exact Ls|exact Lt|eapply checks_of; [exact IH|eager S|exact Ls]|exact Cs|exact Ct| |]; eapply widened; eassumption.
    - intros G. split; [reflexivity|]. intros t el _ c res vars S. split; intros [|k] e' He; discriminate.
    - (* branches *)
      intros G names its cond ets bs G' Ln Le Ht _ IHi _ IHc _ [IHn IH]. split; [discriminate|]. intros t el IHel. apply typed_intro. intros c res vars S k e' He.
      assert (Lm : exists m, lowers t m) by own S. destruct Lm as [m Lm]. assert (Ll : lowers (TList t) LT) by (eapply lowered_list; [exact Lm]). exists LT. split; [exact Ll|].
      assert (Lets : exists mes, Forall2 lowers ets mes).
      { cbn [HirMir.compile] in He. unfold comprehension in He. bok He bd Hbd. clear He. unfold loop_body in Hbd. bok Hbd ets' Hets. clear Hbd. cbn [b_iteratees] in Hets.
        eapply elements_lower; [exact Le|exact Ht| |exact Hets]. intros t' e0 Hin. eapply suits_proper; [exact S|]. cbn. right. apply in_or_app. left.
        apply in_flat_map. exists (Some t', e0). split; [exact Hin|left; reflexivity]. }
      destruct Lets as [mes Lets].
      assert (Lne : List.length names = List.length ets) by congruence.
      eapply y_comp with (ets := ets) (mes := mes); [exact X|exact K|exact Lm| |exact Ln|exact Le|exact Ht|exact Lets| | | | ].
      + apply Forall_forall. intros x Hx. destruct (user_private _ _ _ _ _ x S) as (N1 & N2 & N3); [cbn; apply in_or_app; left; exact Hx|].
        split; [exact N1|]. repeat split; try (intros ->; discriminate). intros i ->. unfold iteratee_name in N2. cbn in N2. destruct (decimal (Datatypes.S i) i); discriminate.
      + intros t0 e0 Hin vars' Ov. destruct (in_combine_ex _ ets _ Hin Le) as [et Het].
        assert (Lel : lowers (TList et) LT).
        { apply list_lowers. assert (Hin' : In et ets) by (eapply in_combine_r, Het). clear - Lets Hin'. induction Lets as [|a b l l' L _ IH]; [destruct Hin'|].
          destruct Hin' as [->|Hin']; [eapply lowers_proper, L|exact (IH Hin')]. }
        eapply checks_of; [eapply IHi, Het| |exact Lel]. eapply suits_over; [exact Ov|]. eapply (suits_lazy c res LT); [|exact S].
        cbn. apply in_or_app. left. apply in_or_app. left. apply in_or_app. left. apply (in_map snd) in Hin. exact Hin.
      + intros cd Hcd vars' Ins. cbn [b_condition] in Hcd. eapply checks_of; [eapply IHc, Hcd| |apply lowers_boolean].
        eapply suits_inside; [exact Lets|exact Lne|exact Ins|]. eapply (suits_lazy c res LT); [|exact S].
        cbn. apply in_or_app. left. apply in_or_app. left. apply in_or_app. right. rewrite Hcd. left. reflexivity.
      + intros Q vars' Ins. rewrite (IHn Q) in IHel. eapply checks_of; [exact IHel| |exact Lm].
        eapply suits_inside; [exact Lets|exact Lne|exact Ins|]. eapply (suits_lazy c res TVariant); [|exact S].
        cbn. apply in_or_app. right. left. reflexivity.
      + intros Q vars' Ins. eapply checks_of; [apply IH, IHel| |exact Ll].
        eapply suits_inside; [exact Lets|exact Lne|exact Ins|]. eapply suits_tail, S.
  Qed.
End Main.
