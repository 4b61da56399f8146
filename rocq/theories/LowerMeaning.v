(** Compiled code does what the program means. *)
From Coq Require Import String Ascii List ZArith Bool Lia.
From Verif Require Import Base Mir MirSim HirType HirTypeSpec HirTypeTermination HirTypeEq HirTypeSub HirTypeId Hir HirSpec HirMain HirTyping HirMir
  LowerSpec LowerTag LowerSwitch LowerTypeSpec RunSpec RunProofs ListLiteral EqualSpec EqualProofs HirMeaning MeaningSpec MeaningRun.
Import ListNotations.
Local Open Scope string_scope.

Scheme ev_min := Minimality for ev Sort Prop
  with evs_min := Minimality for evs Sort Prop
  with applies_min := Minimality for applies Sort Prop.
Combined Scheme ev_mutual from ev_min, evs_min, applies_min.

Lemma first_taking_fun E a bs b b' : first_taking E a bs b -> first_taking E a bs b' -> b = b'.
Proof.
  intros (l & r & -> & Q & N) (l' & r' & H & Q' & N'). revert l' H N'.
  induction l as [|x l IH]; intros [|x' l'] H N'; cbn in H; injection H as H1 H2.
  - exact H1.
  - subst x'. destruct (N' b (or_introl eq_refl) Q).
  - subst x. destruct (N b' (or_introl eq_refl) Q').
  - subst x'. apply (IH (fun y Hy => N y (or_intror Hy)) l' H2 (fun y Hy => N' y (or_intror Hy))).
Qed.

Lemma takes_teq E bt a b : takes E bt a -> teq E a b -> takes E bt b.
Proof. intros [H|H] Q; [left; eapply has_alt_teq; eassumption|right; exact H]. Qed.

Lemma first_taking_teq E a b bs br : first_taking E a bs br -> teq E a b -> first_taking E b bs br.
Proof.
  intros (l & r & H & Q & N) T. exists l, r. split; [exact H|]. split; [eapply takes_teq; eassumption|].
  intros b' Hb Tb. apply (N b' Hb). eapply takes_teq; [exact Tb|apply teq_sym, T].
Qed.

Scheme read_min := Minimality for read Sort Prop
  with read_fields_min := Minimality for read_fields Sort Prop.
Combined Scheme read_mutual from read_min, read_fields_min.

Lemma teq_defined E s t : closed_env E -> teq E s t -> (defined E s <-> defined E t).
Proof.
  intros Cl H. assert (App : forall a b, (forall x, In x (a ++ b)%list -> lookup E x <> None) <-> (forall x, In x a -> lookup E x <> None) /\ (forall x, In x b -> lookup E x <> None)).
  { intros a b. split; [intros K; split; intros x Hx; apply K, in_or_app; auto|]. intros (K1 & K2) x Hx. apply in_app_or in Hx as [Hx|Hx]; auto. }
  unfold defined in *. induction H as [t|s t IH|s t u IH1 IH2|x t H|a a' r r' H IHr|e e' IH|k k' v v' IH1 IH2|l l' r r' IH1 IH2|l r|l m r|t|t H]
    using teq_ind'; cbn [references]; rewrite ?App.
  - tauto.
  - symmetry. exact IH.
  - rewrite IH1. exact IH2.
  - split; [intros _; exact (Cl x t H)|]. intros _ y [<-|[]]. congruence.
  - rewrite IHr. assert (F : (forall x, In x (flat_map references a) -> lookup E x <> None) <-> (forall x, In x (flat_map references a') -> lookup E x <> None)); [|tauto].
    clear - H App. induction H as [|x y xs ys Hxy _ IH]; cbn [flat_map]; [tauto|]. rewrite !App, Hxy, IH. tauto.
  - exact IH.
  - rewrite IH1, IH2. tauto.
  - rewrite IH1, IH2. tauto.
  - tauto.
  - tauto.
  - tauto.
  - split; [intros _ x []|]. intros _. split; [intros x []|exact H].
Qed.

Section Lower.
  Variable f : string -> string.
  Variable n : nat.
  Variable E : tenv.
  Variable R : renv.
  Variable C : config.
  Variable T : ty -> Prop.
  Variable p : hmodule.
  Variable m : mmodule.
  Variable w : world.
  Variable outer : list (string * list hvalue) -> string -> list hvalue -> hvalue -> Prop.
  Variable own : renv.
  Hypothesis HC : compiled_from f n E R C T p m own w outer.

  Notation rep := (rep f n E R C T m).
  Notation env_rep := (env_rep f n E R C T m).
  Notation state_rep := (state_rep f n E R C T m).
  Notation fine := (fine f E R C T m).
  Notation own_name := (own_name R C).
  Notation compares := (compares R C).
  Notation compile := (compile n E R C).
  Notation evalo := (evalo w m).
  Notation evalos := (evalos w m).
  Let Ht := cf_tidy _ _ _ _ _ _ _ _ _ _ _ HC.
  Let HT := cf_hashes _ _ _ _ _ _ _ _ _ _ _ HC.
  Let W : wf f E := tidy_wf _ _ _ Ht.

  (** *** Names *)
  Lemma dollar_hidden x : ~ user_name ("$" ++ x).
  Proof. intros (_ & H). destruct x; discriminate. Qed.
  Lemma empty_hidden : ~ user_name "".
  Proof. intros (H & _). apply H. reflexivity. Qed.

  Lemma env_bind rho c x u v : env_rep rho c -> own_name x -> rep u v -> env_rep ((x, u) :: rho) ((x, v) :: c).
  Proof.
    intros (A1 & A2 & A3) (Ux & Nx) H. split; [|split].
    - intros g Hg. cbn. destruct (String.eqb_spec g x) as [Q|Q]; [subst g; contradiction|exact (A1 g Hg)].
    - intros y t Uy. cbn. destruct (String.eqb y x); [intros Q; injection Q as <-; eauto|apply A2, Uy].
    - intros y Uy. cbn. destruct (String.eqb y x); [discriminate|apply A3, Uy].
  Qed.
  Lemma env_hide rho c x v : env_rep rho c -> ~ user_name x -> env_rep rho ((x, v) :: c).
  Proof.
    intros (A1 & A2 & A3) Nx. split; [exact A1|].
    assert (forall y, user_name y -> lookup ((x, v) :: c) y = lookup c y) as S.
    { intros y Uy. cbn. destruct (String.eqb_spec y x) as [->|_]; [contradiction|reflexivity]. }
    split; intros y; [intros u Uy; rewrite (S y Uy); apply A2, Uy|intros Uy; rewrite (S y Uy); apply A3, Uy].
  Qed.
  Lemma env_binds rho c c' x u v : env_rep rho c -> binds c' c x v -> own_name x -> rep u v -> env_rep ((x, u) :: rho) c'.
  Proof.
    intros Er (B1 & B2) Ox H. destruct (env_bind rho c x u v Er Ox H) as (A1 & A2 & A3).
    assert (S : forall y, lookup c' y = lookup ((x, v) :: c) y).
    { intros y. cbn. destruct (String.eqb_spec y x) as [->|Ny]; [exact B1|apply B2, Ny]. }
    split; [exact A1|]. split; intros y; rewrite S; [apply A2|apply A3].
  Qed.
  Lemma env_args xs : Forall own_name xs -> forall us vs rho c, Forall2 rep us vs -> env_rep rho c ->
    env_rep (bound_to xs us rho) (rev (combine xs vs) ++ c)%list.
  Proof.
    intros O. induction O as [|x xs Ox O IH]; intros us vs rho c F Er; [exact Er|].
    destruct F as [|u v us vs Huv F]; [exact Er|]. unfold bound_to. cbn [combine rev]. rewrite <- !app_assoc. cbn [app].
    apply (IH us vs ((x, u) :: rho) ((x, v) :: c) F). apply env_bind; assumption.
  Qed.

  Lemma fine_part e q : fine e -> In q (parts e) -> fine q.
  Proof. intros H Q x Hx. apply H. eapply occurs_in_part; eassumption. Qed.
  Lemma fine_node e : fine e -> node_ok f E R C T m e.
  Proof. intros H. apply H. exists None, None. constructor. Qed.

  (** *** Outcomes *)
  Definition out_rep (o : outcome) (o' : mout) : Prop :=
    match o, o' with Gives u, MGives v | Returns u, MReturns v => rep u v | _, _ => False end.
  Lemma out_result o o' : out_rep o o' -> rep (result o) (mresult o').
  Proof. destruct o, o'; cbn; try contradiction; auto. Qed.

  (** the code of an expression is right *)
  Definition sound (rho : henv) (s : hstate) (e : hexpr) (o : outcome) (s' : hstate) : Prop :=
    forall k me c st, compile k e = Ok me -> fine e -> env_rep rho c -> state_rep s st ->
      exists o' st', evalo c st me o' st' /\ out_rep o o' /\ state_rep s' st'.

  Fixpoint steps (rho : henv) (s : hstate) (es : list hexpr) (r : list hvalue + hvalue) (s' : hstate) : Prop :=
    match es, r with
    | [], inl [] => s = s'
    | e :: es, inl (u :: us) => exists s1, sound rho s e (Gives u) s1 /\ steps rho s1 es (inl us) s'
    | e :: es, inr u => sound rho s e (Returns u) s' \/ exists v s1, sound rho s e (Gives v) s1 /\ steps rho s1 es (inr u) s'
    | _, _ => False
    end.

  Definition calls_right (s : hstate) (g : hvalue) (us : list hvalue) (v : hvalue) (s' : hstate) : Prop :=
    forall g' vs st, rep g g' -> Forall2 rep us vs -> state_rep s st ->
      exists v' st', runs w m st g' vs v' st' /\ rep v v' /\ state_rep s' st'.

  Definition list_rep (r : list hvalue + hvalue) (r' : list value + value) : Prop :=
    match r, r' with inl us, inl vs => Forall2 rep us vs | inr u, inr v => rep u v | _, _ => False end.

  (** operands in one environment *)
  Lemma steps_list rho es : forall s r s', steps rho s es r s' ->
    forall k mes c st, Forall2 (fun e me => compile k e = Ok me) es mes -> (forall e, In e es -> fine e) -> env_rep rho c -> state_rep s st ->
      exists r' st', evalos c st mes r' st' /\ list_rep r r' /\ state_rep s' st'.
  Proof.
    induction es as [|e es IH]; intros s r s' H k mes c st F Fi Er Sr; inversion F as [|? me ? mes' H1 F']; subst.
    - destruct r as [[|]|]; try contradiction. cbn in H. subst s'. exists (inl []), st. split; [apply evalos_nil|]. split; [constructor|exact Sr].
    - destruct r as [[|u us]|u]; cbn in H; try contradiction.
      + destruct H as (s1 & Hs & H). destruct (Hs k me c st H1 (Fi e (or_introl eq_refl)) Er Sr) as ([v|v] & st1 & G1 & G2 & G3); [|contradiction].
        destruct (IH s1 (inl us) s' H k mes' c st1 F' (fun x Hx => Fi x (or_intror Hx)) Er G3) as ([vs|] & st2 & G4 & G5 & G6); [|contradiction].
        exists (inl (v :: vs)), st2. split; [eapply evalos_cons; eassumption|]. split; [constructor; assumption|exact G6].
      + destruct H as [Hs|(v0 & s1 & Hs & H)].
        * destruct (Hs k me c st H1 (Fi e (or_introl eq_refl)) Er Sr) as ([v|v] & st1 & G1 & G2 & G3); [contradiction|].
          exists (inr v), st1. split; [apply evalos_returns, G1|]. split; assumption.
        * destruct (Hs k me c st H1 (Fi e (or_introl eq_refl)) Er Sr) as ([v|v] & st1 & G1 & G2 & G3); [|contradiction].
          destruct (IH s1 (inr u) s' H k mes' c st1 F' (fun x Hx => Fi x (or_intror Hx)) Er G3) as ([|v'] & st2 & G4 & G5 & G6); [contradiction|].
          exists (inr v'), st2. split; [eapply evalos_later; eassumption|]. split; assumption.
  Qed.

  (** one operand *)
  Lemma steps_one rho s e u s' : steps rho s [e] (inl [u]) s' -> sound rho s e (Gives u) s'.
  Proof. intros (s1 & H & <-). exact H. Qed.
  Lemma steps_one_early rho s e u s' : steps rho s [e] (inr u) s' -> sound rho s e (Returns u) s'.
  Proof. intros [H|(v & s1 & _ & [])]. exact H. Qed.
  Lemma sound_gives rho s e u s' k me c st : sound rho s e (Gives u) s' -> compile k e = Ok me -> fine e -> env_rep rho c -> state_rep s st ->
    exists v st', evalo c st me (MGives v) st' /\ rep u v /\ state_rep s' st'.
  Proof. intros H H1 H2 H3 H4. destruct (H k me c st H1 H2 H3 H4) as ([v|v] & st' & A & B & D); [|contradiction]. exists v, st'. auto. Qed.
  Lemma sound_returns rho s e u s' k me c st : sound rho s e (Returns u) s' -> compile k e = Ok me -> fine e -> env_rep rho c -> state_rep s st ->
    exists v st', evalo c st me (MReturns v) st' /\ rep u v /\ state_rep s' st'.
  Proof. intros H H1 H2 H3 H4. destruct (H k me c st H1 H2 H3 H4) as ([v|v] & st' & A & B & D); [contradiction|]. exists v, st'. auto. Qed.

  Lemma sound_value rho s e u : (forall k me c st, compile (S k) e = Ok me -> fine e -> env_rep rho c -> state_rep s st ->
    exists v, evalo c st me (MGives v) st /\ rep u v) -> sound rho s e (Gives u) s.
  Proof.
    intros H [|k] me c st Hc Fi Er Sr; [discriminate|]. destruct (H k me c st Hc Fi Er Sr) as (v & H1 & H2).
    exists (MGives v), st. auto.
  Qed.

  (** *** Types *)
  Lemma record_type t r o c : teq E t (TRecord r o) -> canonicalize n E t = Ok c -> c = TRecord r o.
  Proof. intros Q Hc. eapply (teq_canon_eq f E W); [exact Q|exists n; exact Hc|exists 1; reflexivity]. Qed.
  Lemma compile_record t r o r' : teq E t (TRecord r o) -> compile_record_type n E C t = Ok r' -> r' = r.
  Proof.
    intros Q H. unfold compile_record_type, compile_type in H. apply bind_ok in H as (mt & H & H'). apply bind_ok in H as (c & Hc & H).
    rewrite (record_type _ _ _ _ Q Hc) in H. cbn in H. injection H as <-. cbn in H'. injection H' as <-. reflexivity.
  Qed.
  Lemma fields_of t r o fts : teq E t (TRecord r o) -> record_fields n E R t = Ok fts -> lookup R r = Some fts.
  Proof.
    intros Q H. unfold record_fields, canonical_record in H. apply bind_ok in H as (r' & H & H'). apply bind_ok in H as (c & Hc & H).
    rewrite (record_type _ _ _ _ Q Hc) in H. injection H as <-. unfold resolve_record in H'. destruct (lookup R r); [injection H' as <-; reflexivity|discriminate].
  Qed.
  Lemma compile_call k ft g args : (forall b, g <> HBuiltIn b) -> compile (S k) (HCall ft g args) =
    bind (annotated ft) (fun t => bind (compile_signature n E C t) (fun s => bind (compile k g) (fun g =>
    bind (mapM (compile k) args) (fun es => Ok (Op (OCall (fst s) (snd s)) (g :: es)))))).
  Proof. intros N. destruct g; try reflexivity. destruct (N f0). reflexivity. Qed.

  Lemma mapM_length {A B} (h : A -> res B) l l' : mapM h l = Ok l' -> List.length l' = List.length l.
  Proof. intros H. apply mapM_ok in H. induction H; cbn; congruence. Qed.

  Lemma signature_length t ts r s : teq E t (TFunction ts r) -> compile_signature n E C t = Ok s -> List.length (fst s) = List.length ts.
  Proof.
    intros Q H. unfold compile_signature, compile_type in H. apply bind_ok in H as (mt & H & H'). apply bind_ok in H as (c & Hc & H).
    assert (G : canon E (TFunction ts r) c) by (apply (teq_canon E t _ (wf_closed _ _ W) (wf_acyclic _ _ W) Q); exists n; exact Hc).
    apply canon_function in G as (ts' & r' & F & _ & ->). cbn [lower] in H. apply bind_ok in H as (ms & Hms & H). apply bind_ok in H as (mr & _ & H).
    injection H as <-. injection H' as <-. cbn. rewrite (mapM_length _ _ _ Hms). symmetry. clear - F. induction F; cbn; congruence.
  Qed.

  Lemma call_parts ft g args : (forall b, g <> HBuiltIn b) -> forall e, In e (g :: args) -> In e (parts (HCall ft g args)).
  Proof. intros _ e H. apply in_or_app. left. exact H. Qed.

  Lemma code_list k g args mg mes : compile k g = Ok mg -> mapM (compile k) args = Ok mes ->
    Forall2 (fun e me => compile k e = Ok me) (g :: args) (mg :: mes).
  Proof. intros H1 H2. constructor; [exact H1|]. apply mapM_ok, H2. Qed.

  Lemma sound_call rho s ft ts r g args u us s1 v s2 : (forall b, g <> HBuiltIn b) ->
    teq E ft (TFunction ts r) -> List.length args = List.length ts ->
    steps rho s (g :: args) (inl (u :: us)) s1 -> calls_right s1 u us v s2 -> sound rho s (HCall (Some ft) g args) (Gives v) s2.
  Proof.
    intros N Q L St Ap [|k] me c st H Fi Er Sr; [discriminate|]. rewrite compile_call in H by exact N.
    apply bind_ok in H as (t & Hann & H). injection Hann as <-. apply bind_ok in H as (sg & Hsg & H). apply bind_ok in H as (mg & Hg & H). apply bind_ok in H as (mes & Hes & H).
    injection H as <-.
    destruct (steps_list rho (g :: args) s _ s1 St k (mg :: mes) c st) as ([vs|] & st1 & G1 & G2 & G3); [|intros e He; eapply fine_part; [exact Fi|apply call_parts; assumption]|exact Er|exact Sr| |contradiction].
    { apply code_list; assumption. }
    inversion G2 as [|? v0 ? vs' Hv Hvs]; subst. destruct (Ap v0 vs' st1 Hv Hvs G3) as (v' & st2 & A1 & A2 & A3).
    exists (MGives v'), st2. split; [|split; assumption]. eapply evalo_call; [exact G1| |exact A1].
    rewrite (signature_length _ _ _ _ Q Hsg), <- L. apply mapM_length in Hes.
    destruct G1 as (n1 & G1). specialize (G1 n1 (le_n _)).
    assert (Forall2 rep us vs' -> List.length us = List.length vs') as Q2 by (clear; induction 1; cbn; congruence). rewrite <- (Q2 Hvs).
    clear - St. revert St. revert s u us. cbn [steps]. intros s u us (s' & _ & St). revert s' us St. induction args as [|a args IH]; intros s' [|x us] St; cbn in St; try contradiction; [reflexivity|].
    destruct St as (s2 & _ & St). cbn. f_equal. eapply IH, St.
  Qed.

  Lemma sound_call_early rho s ft g args u s1 : (forall b, g <> HBuiltIn b) ->
    steps rho s (g :: args) (inr u) s1 -> sound rho s (HCall ft g args) (Returns u) s1.
  Proof.
    intros N St [|k] me c st H Fi Er Sr; [discriminate|]. rewrite compile_call in H by exact N.
    apply bind_ok in H as (t & Hann & H). apply bind_ok in H as (sg & Hsg & H). apply bind_ok in H as (mg & Hg & H). apply bind_ok in H as (mes & Hes & H).
    injection H as <-.
    destruct (steps_list rho (g :: args) s _ s1 St k (mg :: mes) c st) as ([vs|v] & st1 & G1 & G2 & G3); [|intros e He; eapply fine_part; [exact Fi|apply call_parts; assumption]|exact Er|exact Sr|contradiction|].
    { apply code_list; assumption. }
    exists (MReturns v), st1. split; [apply evalo_op_returns, G1|]. split; assumption.
  Qed.

  (** *** Operations on all operands *)
  Lemma two_list rho s l r res s1 : steps rho s [l; r] res s1 -> forall k ml mr c st, compile k l = Ok ml -> compile k r = Ok mr -> fine l -> fine r -> env_rep rho c -> state_rep s st ->
    exists r' st', evalos c st [ml; mr] r' st' /\ list_rep res r' /\ state_rep s1 st'.
  Proof.
    intros St k ml mr c st Hl Hr Fl Fr Er Sr. eapply steps_list; [exact St| | |exact Er|exact Sr].
    - constructor; [exact Hl|]. constructor; [exact Hr|constructor].
    - intros e [<-|[<-|[]]]; assumption.
  Qed.

  Lemma sound_binary rho s op l r a b u s1 : steps rho s [l; r] (inl [a; b]) s1 -> binary w op a b u -> sound rho s (HBinary op l r) (Gives u) s1.
  Proof.
    intros St B [|k] me c st H Fi Er Sr; [discriminate|]. cbn [HirMir.compile] in H.
    assert (Fl : fine l) by (eapply fine_part; [exact Fi|left; reflexivity]).
    assert (Fr : fine r) by (eapply fine_part; [exact Fi|right; left; reflexivity]).
    assert (K : exists ml mr o v, compile k l = Ok ml /\ compile k r = Ok mr /\ me = Op o [ml; mr] /\ rep u v /\
       forall v1 v2 call st, rep a v1 -> rep b v2 -> apply_op w m call o [v1; v2] st = Done v st).
    { inversion B; subst; cbn [compile_binary annotated bind] in H; apply bind_ok in H as (ml & Hl & H); apply bind_ok in H as (mr & Hr & H); injection H as <-;
        (eexists ml, mr, _, _; split; [exact Hl|split; [exact Hr|split; [reflexivity|split; [constructor|]]]]);
        intros v1 v2 call0 st0 H1 H2; inversion H1; subst; inversion H2; subst; cbn; try reflexivity.
      assert (b0 ++ "" = b0) as -> by (clear; induction b0; cbn; congruence). reflexivity. }
    destruct K as (ml & mr & o & v & Hl & Hr & -> & Ru & K).
    destruct (two_list _ _ _ _ _ _ St k ml mr c st Hl Hr Fl Fr Er Sr) as ([vs|] & st1 & G1 & G2 & G3); [|contradiction].
    inversion G2 as [|? v1 ? vs1 R1 G2']; subst. inversion G2' as [|? v2 ? vs2 R2 G2'']; subst. inversion G2''; subst.
    exists (MGives v), st1. split; [|split; [exact Ru|exact G3]]. eapply evalo_op; [exact G1|]. intros cl. apply K; assumption.
  Qed.

  Lemma sound_binary_early rho s op l r u s1 : steps rho s [l; r] (inr u) s1 -> (forall o, op <> BinBoolean o) -> (forall t o, op <> BinEquality t o) ->
    sound rho s (HBinary op l r) (Returns u) s1.
  Proof.
    intros St N1 N2 [|k] me c st H Fi Er Sr; [discriminate|]. cbn [HirMir.compile] in H.
    assert (Fl : fine l) by (eapply fine_part; [exact Fi|left; reflexivity]).
    assert (Fr : fine r) by (eapply fine_part; [exact Fi|right; left; reflexivity]).
    assert (K : exists ml mr o, compile k l = Ok ml /\ compile k r = Ok mr /\ me = Op o [ml; mr]).
    { destruct op as [t|o|o|t o|o]; cbn [compile_binary] in H; try (destruct (N1 o eq_refl)); try (destruct (N2 t o eq_refl)).
      - apply bind_ok in H as (t' & _ & H). destruct t'; try discriminate; apply bind_ok in H as (ml & Hl & H); apply bind_ok in H as (mr & Hr & H); injection H as <-; eauto 7.
      - apply bind_ok in H as (ml & Hl & H); apply bind_ok in H as (mr & Hr & H); injection H as <-; eauto 7.
      - apply bind_ok in H as (ml & Hl & H); apply bind_ok in H as (mr & Hr & H); injection H as <-; eauto 7. }
    destruct K as (ml & mr & o & Hl & Hr & ->).
    destruct (two_list _ _ _ _ _ _ St k ml mr c st Hl Hr Fl Fr Er Sr) as ([vs|v] & st1 & G1 & G2 & G3); [contradiction|].
    exists (MReturns v), st1. split; [apply evalo_op_returns, G1|split; assumption].
  Qed.

  (** *** Conditions *)
  Lemma sound_if rho s c a b x s1 o s2 : sound rho s c (Gives (UBoolean x)) s1 -> sound rho s1 (if x then a else b) o s2 -> sound rho s (HIf c a b) o s2.
  Proof.
    intros Sc So [|k] me rc st H Fi Er Sr; [discriminate|]. cbn [HirMir.compile] in H.
    apply bind_ok in H as (mc & Hc & H). apply bind_ok in H as (ma & Ha & H). apply bind_ok in H as (mb & Hb & H). injection H as <-.
    destruct (sound_gives _ _ _ _ _ k mc rc st Sc Hc) as (v & st1 & G1 & G2 & G3); [eapply fine_part; [exact Fi|left; reflexivity]|exact Er|exact Sr|].
    inversion G2; subst.
    destruct (So k (if x then ma else mb) rc st1) as (o' & st2 & K1 & K2 & K3); [destruct x; assumption| |exact Er|exact G3|].
    - eapply fine_part; [exact Fi|]. destruct x; [right; left; reflexivity|right; right; left; reflexivity].
    - exists o', st2. split; [|split; assumption]. eapply evalo_if; [exact G1|]. destruct x; exact K1.
  Qed.
  Lemma sound_if_early rho s c a b u s1 : sound rho s c (Returns u) s1 -> sound rho s (HIf c a b) (Returns u) s1.
  Proof.
    intros Sc [|k] me rc st H Fi Er Sr; [discriminate|]. cbn [HirMir.compile] in H.
    apply bind_ok in H as (mc & Hc & H). apply bind_ok in H as (ma & Ha & H). apply bind_ok in H as (mb & Hb & H). injection H as <-.
    destruct (sound_returns _ _ _ _ _ k mc rc st Sc Hc) as (v & st1 & G1 & G2 & G3); [eapply fine_part; [exact Fi|left; reflexivity]|exact Er|exact Sr|].
    exists (MReturns v), st1. split; [apply evalo_if_returns, G1|split; assumption].
  Qed.

  (** soundness carries over to an expression with the same code *)
  Lemma sound_other rho s e e' o s' : (forall k me, compile (S k) e = Ok me -> compile k e' = Ok me) -> (fine e -> fine e') ->
    sound rho s e' o s' -> sound rho s e o s'.
  Proof. intros Hc Hf H [|k] me c st Hk Fi Er Sr; [discriminate|]. apply (H k me c st); auto. Qed.

  Lemma fine_literal b : fine (HBoolean b).
  Proof. intros e' (c & c' & H). inversion H; subst; try contradiction. split; [intros x []|exact I]. Qed.
  Lemma sound_literal rho s b : sound rho s (HBoolean b) (Gives (UBoolean b)) s.
  Proof. apply sound_value. intros k me c st H _ _ _. cbn in H. injection H as <-. exists (VBool b). split; [apply gives, evals_lit|constructor]. Qed.
  Lemma occurs_cases q e : occurs q e -> q = e \/ exists p, In p (parts e) /\ occurs q p.
  Proof. intros (c & c' & H). apply HirStrip.within_part in H as [->|(x & d & H1 & H2)]; [left; reflexivity|right]. exists x. split; [exact H1|exists d, c'; exact H2]. Qed.
  Lemma fine_if c a b : fine c -> fine a -> fine b -> fine (HIf c a b).
  Proof.
    intros Hc Ha Hb q Hq. apply occurs_cases in Hq as [->|(x & [<-|[<-|[<-|[]]]] & Hx)]; auto.
    split; [intros y []|exact I].
  Qed.

  Lemma sound_and rho s l r x s1 o s2 : sound rho s l (Gives (UBoolean x)) s1 -> sound rho s1 (if x then r else HBoolean false) o s2 ->
    sound rho s (HBinary (BinBoolean HAnd) l r) o s2.
  Proof.
    intros Sl So. apply (sound_other _ _ _ (HIf l r (HBoolean false))); [intros k me H; exact H| |eapply sound_if; eassumption].
    intros Fi. apply fine_if; [eapply fine_part; [exact Fi|left; reflexivity]|eapply fine_part; [exact Fi|right; left; reflexivity]|apply fine_literal].
  Qed.
  Lemma sound_or rho s l r x s1 o s2 : sound rho s l (Gives (UBoolean x)) s1 -> sound rho s1 (if x then HBoolean true else r) o s2 ->
    sound rho s (HBinary (BinBoolean HOr) l r) o s2.
  Proof.
    intros Sl So. apply (sound_other _ _ _ (HIf l (HBoolean true) r)); [intros k me H; exact H| |eapply sound_if; eassumption].
    intros Fi. apply fine_if; [eapply fine_part; [exact Fi|left; reflexivity]|apply fine_literal|eapply fine_part; [exact Fi|right; left; reflexivity]].
  Qed.
  Lemma sound_and_or_early rho s op l r u s1 : sound rho s l (Returns u) s1 -> sound rho s (HBinary (BinBoolean op) l r) (Returns u) s1.
  Proof.
    intros Sl. apply (sound_other _ _ _ (boolean_operation op l r)); [intros k me H; exact H| |destruct op; apply sound_if_early, Sl].
    intros Fi. assert (fine l) by (eapply fine_part; [exact Fi|left; reflexivity]). assert (fine r) by (eapply fine_part; [exact Fi|right; left; reflexivity]).
    destruct op; apply fine_if; auto using fine_literal.
  Qed.
  Lemma sound_not rho s a x s1 : sound rho s a (Gives (UBoolean x)) s1 -> sound rho s (HNot a) (Gives (UBoolean (negb x))) s1.
  Proof.
    intros Sa [|k] me c st H Fi Er Sr; [discriminate|]. cbn [HirMir.compile] in H. apply bind_ok in H as (ma & Ha & H). injection H as <-.
    destruct (sound_gives _ _ _ _ _ k ma c st Sa Ha) as (v & st1 & G1 & G2 & G3); [eapply fine_part; [exact Fi|left; reflexivity]|exact Er|exact Sr|].
    inversion G2; subst. exists (MGives (VBool (negb x))), st1. split; [|split; [constructor|exact G3]].
    eapply evalo_if; [exact G1|]. destruct x; apply gives, evals_lit.
  Qed.

  (** *** Equality *)
  Lemma basic_canon t b c : teq E t b -> canon E b b -> canonicalize n E t = Ok c -> c = b.
  Proof. intros Q B Hc. eapply (teq_canon_eq f E W); [exact Q|exists n; exact Hc|exact B]. Qed.
  Lemma boolean_canon : canon E TBoolean TBoolean. Proof. exists 1. reflexivity. Qed.
  Lemma number_canon : canon E TNumber TNumber. Proof. exists 1. reflexivity. Qed.
  Lemma string_canon : canon E TString TString. Proof. exists 1. reflexivity. Qed.
  Lemma record_canon r o : canon E (TRecord r o) (TRecord r o). Proof. exists 1. reflexivity. Qed.

  Definition defines (r : string) : Prop := lookup own r <> None.
  Lemma defines_known r : defines r -> lookup R r <> None.
  Proof.
    unfold defines. destruct (lookup own r) as [fts|] eqn:Q; [|congruence]. intros _.
    rewrite (cf_own _ _ _ _ _ _ _ _ _ _ _ HC r fts Q). discriminate.
  Qed.
  Lemma code_of_records s : record_code f n E R C T w m (state_rep s) defines.
  Proof.
    constructor.
    - exact Ht.
    - exact HT.
    - exact (cf_lhs _ _ _ _ _ _ _ _ _ _ _ HC).
    - exact (cf_rhs _ _ _ _ _ _ _ _ _ _ _ HC).
    - exact (cf_string_known _ _ _ _ _ _ _ _ _ _ _ HC).
    - intros st a b Sr. exact (cf_string _ _ _ _ _ _ _ _ _ _ _ HC s st a b Sr).
    - intros r o fts G Tr Co Hr. unfold defines in G. destruct (lookup own r) as [fts'|] eqn:Q; [|congruence].
      pose proof (cf_own _ _ _ _ _ _ _ _ _ _ _ HC r fts' Q) as Q'. rewrite Hr in Q'. injection Q' as <-.
      split; [apply (cf_records _ _ _ _ _ _ _ _ _ _ _ HC r fts Hr)|]. exact (cf_equal _ _ _ _ _ _ _ _ _ _ _ HC r o fts Q Tr Co).
  Qed.
  Lemma no_lists : False -> list_code f n E R C T m. Proof. intros []. Qed.

  Lemma compare_variable rho c st g : env_rep rho c -> compares g -> global_type m g <> None -> evalo c st (Var g) (MGives (VGlobal g)) st.
  Proof.
    intros (A1 & _ & A3) Cg G. apply gives. destruct (global_type m g) as [t|] eqn:Q; [|congruence].
    eapply evals_global; [|exact Q]. apply A3; [exact (cf_compares _ _ _ _ _ _ _ _ _ _ _ HC g Cg)|apply A1, Cg].
  Qed.
  Lemma string_variable rho c st : env_rep rho c -> evalo c st (Var (string_equal C)) (MGives (VGlobal (string_equal C))) st.
  Proof. intros Er. eapply compare_variable; [exact Er|left; reflexivity|exact (cf_string_known _ _ _ _ _ _ _ _ _ _ _ HC)]. Qed.
  Lemma env_clear rho c : env_rep rho c -> clear_of_equality n E C m defines False c.
  Proof.
    intros (A1 & _ & A3) g Hg _.
    assert (Cg : compares g) by (destruct Hg as [|r Hr|[]|e g []]; [left; reflexivity|right; exists r; split; [apply defines_known, Hr|reflexivity]]).
    apply A3; [exact (cf_compares _ _ _ _ _ _ _ _ _ _ _ HC g Cg)|apply A1, Cg].
  Qed.
  Lemma env_same_but rho c c' : env_rep rho c -> same_but "$lhs" c' c -> env_rep rho c'.
  Proof.
    intros (A1 & A2 & A3) S. split; [exact A1|].
    assert (N : forall x, user_name x -> lookup c' x = lookup c x) by (intros x Ux; apply S; intros ->; exact (dollar_hidden "lhs" Ux)).
    split; intros x; [intros u Ux|intros Ux]; rewrite (N x Ux); [apply A2, Ux|apply A3, Ux].
  Qed.

  (** data at run time *)
  Lemma read_value Inv :
    (forall t u x, read E own t u x -> forall v, rep u v -> value_at E R C w m Inv t x v /\ handled defines False x) /\
    (forall fts fs xs, read_fields E own fts fs xs -> forall vs, Forall2 (fun ft v => exists u, lookup fs (fst ft) = Some u /\ rep u v) fts vs ->
      fields_at E R C w m Inv xs fts vs /\ (fix all (xs : list data) : Prop := match xs with [] => True | x :: xs => handled defines False x /\ all xs end) xs).
  Proof.
    assert (At : forall t x v b, teq E t (type_of_data x) -> canon E (type_of_data x) (type_of_data x) -> boxed E C (type_of_data x) v b ->
      value_of E R C w m Inv x v -> value_at E R C w m Inv t x v).
    { intros t x v b Q Ca Hb Hv. split; [split; [|exact Ca]|].
      - assert (Ct : canon E t (type_of_data x)) by (apply (teq_canon E t (type_of_data x) (wf_closed _ _ W) (wf_acyclic _ _ W) Q), Ca).
        assert (D : defined E (type_of_data x)) by (eapply canon_defined, Ca).
        apply (has_alt_canon f E W t (type_of_data x)); [apply (teq_defined E _ _ (wf_closed _ _ W) Q), D|exact D|exact Ct|destruct x; discriminate|].
        exists (type_of_data x). split; [exact Ca|]. destruct x; left; reflexivity.
      - exists v, b. split; [exact Hv|]. split; [exact Hb|]. left. split; [exact Q|reflexivity]. }
    apply (read_mutual E own
      (fun t u x => forall v, rep u v -> value_at E R C w m Inv t x v /\ handled defines False x)
      (fun fts fs xs => forall vs, Forall2 (fun ft v => exists u, lookup fs (fst ft) = Some u /\ rep u v) fts vs ->
        fields_at E R C w m Inv xs fts vs /\ (fix all (xs : list data) : Prop := match xs with [] => True | x :: xs => handled defines False x /\ all xs end) xs)).
    - intros t b Q v Rv. inversion Rv; subst. split; [|exact I]. eapply At; [exact Q|apply boolean_canon|constructor|reflexivity].
    - intros t z Q v Rv. inversion Rv; subst. split; [|exact I]. eapply At; [exact Q|apply number_canon|constructor|reflexivity].
    - intros t s Q v Rv. inversion Rv; subst. split; [|exact I]. eapply At; [exact Q|apply string_canon|constructor|reflexivity].
    - intros t Q v Rv. inversion Rv; subst. split; [|exact I]. eapply At; [exact Q|exists 1; reflexivity|constructor|reflexivity].
    - intros t r o fts fs xs Q Ho _ IH v Rv. inversion Rv as [| | | |r' fts' fs' vs Hr Hf| | | |]; subst.
      pose proof (cf_own _ _ _ _ _ _ _ _ _ _ _ HC r fts Ho) as Hr'. rewrite Hr in Hr'. injection Hr' as ->.
      destruct (IH vs Hf) as (A1 & A2). split; [|split; [unfold defines; rewrite Ho; discriminate|exact A2]].
      eapply At; [exact Q|apply record_canon|constructor|]. exists fts, vs. split; [exact Hr|]. split; [reflexivity|exact A1].
    - intros t a u x Nt Al _ IH b Rv. inversion Rv as [| | | | | |a' c u' v b' Qa Tc Tg Bx Ru| |]; subst.
      destruct (IH v Ru) as (((Ba & Ca) & v0 & b0 & Hv & _ & Sn) & Hh). split; [|exact Hh].
      pose proof (boxed_head _ _ _ _ _ Bx) as Pc. pose proof (proj1 (proj1 Tc)) as Dc.
      destruct (canon_total E c (wf_closed _ _ W) (wf_acyclic _ _ W) Dc) as ((cc & Cc) & _).
      pose proof (boxed_canon f E C Ht c cc v b Dc Cc Bx) as Bcc. pose proof (boxed_head _ _ _ _ _ Bcc) as Pcc.
      assert (Cac : canon E a cc) by (apply (teq_canon E a c (wf_closed _ _ W) (wf_acyclic _ _ W) Qa), Cc).
      assert (Da : defined E a) by (apply (teq_defined E _ _ (wf_closed _ _ W) Qa), Dc).
      assert (Ec : type_of_data x = cc).
      { apply (has_alt_canon f E W a cc) in Ba as (y & Hy & Iy); [|exact Da|destruct Ca as (j & Ca); eapply canon_defined; exists j; exact Ca|exact Cac|intros ->; exact Pcc].
        assert (y = cc) as -> by (clear - Pcc Iy; destruct cc; try contradiction; destruct Iy as [Q|[]]; auto).
        eapply canon_fun; [|exact Hy]. destruct Ca as (j & Ca). exists j. exact Ca. }
      assert (Qx : teq E a (type_of_data x)) by (rewrite Ec; apply canon_sound, Cac).
      destruct Sn as [(_ & <-)|(N & _)]; [|contradiction].
      split; [split; [eapply has_alt_teq; eassumption|exact Ca]|]. exists v, b. split; [exact Hv|]. rewrite Ec. split; [exact Bcc|].
      right. split; [|reflexivity]. intros Q. apply Nt. eapply teq_trans; [exact Q|]. apply teq_sym. rewrite <- Ec. exact Qx.
    - intros fs vs Hf. inversion Hf; subst. split; exact I.
    - intros y t fts fs u x xs Hy _ IH1 _ IH2 vs Hf. inversion Hf as [|? v ? vs' (u' & Hu & Ru) Hf']; subst. cbn [fst] in Hu.
      rewrite Hy in Hu. injection Hu as <-. destruct (IH1 v Ru) as (A1 & A2). destruct (IH2 vs' Hf') as (B1 & B2). split; split; assumption.
  Qed.

  Lemma equal_cases k t l r me : in_order E own t -> compile (S k) (HBinary (BinEquality (Some t) HEqual) l r) = Ok me ->
    (teq E t TBoolean /\ compile k (HIf l r (HIf r (HBoolean false) (HBoolean true))) = Ok me) \/
    (exists k' o pre ml mr, k' <= k /\ me = Op o (pre ++ [ml; mr])%list /\ compile k' l = Ok ml /\ compile k' r = Ok mr /\
       (teq E t TNumber /\ pre = [] /\ o = OCompare Equal \/
        teq E t TString /\ pre = [Var (string_equal C)] /\ o = OCall [TByteString; TByteString] Mir.TBoolean \/
        exists g d, canon E t (TRecord g d) /\ defines g /\ comparable n E R (TRecord g d) = Ok true /\ pre = [Var (record_equal_name g)] /\
          exists a rt, o = OCall a rt /\ List.length a = 2)) \/
    (exists lt rt j h, canon E t (TUnion lt rt) /\ equal_code n E R C j (TUnion lt rt) l r = Ok h /\ compile k h = Ok me).
  Proof.
    intros B H. cbn [HirMir.compile compile_binary annotated bind] in H. apply bind_ok in H as (c & Hc & H).
    destruct B as [Q|[Q|[Q|[(g & d & Q & G)|V]]]].
    - rewrite (basic_canon t _ c Q boolean_canon Hc) in H. left. split; [exact Q|]. apply bind_ok in H as (h & Hh & H).
      unfold equal_operation in Hh. rewrite Hc in Hh. rewrite (basic_canon t _ c Q boolean_canon Hc) in Hh. cbn in Hh. destruct k; [discriminate|]. cbn in Hh. injection Hh as <-. exact H.
    - rewrite (basic_canon t _ c Q number_canon Hc) in H. right; left. apply bind_ok in H as (ml & Hl & H). apply bind_ok in H as (mr & Hr & H). injection H as <-.
      exists k, (OCompare Equal), [], ml, mr. auto 9.
    - rewrite (basic_canon t _ c Q string_canon Hc) in H. right; left. apply bind_ok in H as (ml & Hl & H). apply bind_ok in H as (mr & Hr & H). injection H as <-.
      eexists k, _, [_], ml, mr. split; [lia|]. split; [reflexivity|]. auto 9.
    - pose proof (basic_canon t _ c Q (record_canon g d) Hc) as Qc. subst c. right; left. apply bind_ok in H as (h & Hh & H).
      unfold equal_operation in Hh. rewrite Hc in Hh. cbn [bind] in Hh. destruct k as [|k]; [discriminate|]. cbn [equal_code] in Hh.
      apply bind_ok in Hh as (b & Hb & Hh). destruct b; [|discriminate]. injection Hh as <-.
      apply compile_hcall in H as (k' & a & rt & es' & Qk & F & La & ->).
      inversion F as [|? l' ? ? Hl' F3]; subst. inversion F3 as [|? r' ? ? Hr' F4]; subst. inversion F4; subst.
      exists (S k'), (OCall a rt), [Var (record_equal_name g)], l', r'. split; [lia|]. split; [reflexivity|]. split; [exact Hl'|]. split; [exact Hr'|].
      right; right. exists g, d. split; [exists n; exact Hc|]. split; [exact G|]. split; [exact Hb|]. split; [reflexivity|]. eauto.
    - pose proof (canon_sound _ _ _ (ex_intro _ n Hc : canon E t c)) as Q.
      assert (Fc : canon E c c) by (eapply (canon_idem f E W); exists n; exact Hc).
      assert (U : exists lt rt, c = TUnion lt rt \/ c = TAny).
      { destruct c as [| | | | | | | | | | |lt rt]; try (exfalso; refine (V _ _ Q); exact I); [exists TAny, TAny; auto| |exists lt, rt; auto].
        pose proof (canon_references _ _ _ Fc) as Z. discriminate Z. }
      destruct U as (lt & rt & [->| ->]).
      + right; right. apply bind_ok in H as (h & Hh & H). unfold equal_operation in Hh. rewrite Hc in Hh. cbn [bind] in Hh.
        exists lt, rt, k, h. split; [exists n; exact Hc|]. auto.
      + apply bind_ok in H as (h & Hh & H). unfold equal_operation in Hh. rewrite Hc in Hh. cbn [bind] in Hh. destruct k; discriminate.
  Qed.

  Lemma equality_global g d : defines g -> tidy_type f E (TRecord g d) -> comparable n E R (TRecord g d) = Ok true -> global_type m (record_equal_name g) <> None.
  Proof.
    intros G Tg Co. unfold defines in G. destruct (lookup own g) as [fts|] eqn:Q; [|congruence].
    destruct (cf_equal _ _ _ _ _ _ _ _ _ _ _ HC g d fts Q Tg Co) as (_ & k & def & _ & Hf). eapply def_known, Hf.
  Qed.
  Lemma tidy_record t g d : tidy_type f E t -> canon E t (TRecord g d) -> tidy_type f E (TRecord g d).
  Proof. intros Tt Hc. apply (tidy_type_member f E C Ht t (TRecord g d) _ Tt Hc). left. reflexivity. Qed.

  Lemma read_boolean_only t a x : tidy_type f E t -> teq E t TBoolean -> read E own t a x -> exists b, a = UBoolean b /\ x = DBool b.
  Proof.
    intros Tt Q Ra.
    assert (Hc : canon E t TBoolean) by (apply (teq_canon E t TBoolean (wf_closed _ _ W) (wf_acyclic _ _ W) Q), boolean_canon).
    assert (No : forall u, teq E t u -> canon E u u -> u = TBoolean).
    { intros u Q' Cu. apply (teq_canon_eq f E W u TBoolean); [eapply teq_trans; [apply teq_sym, Q'|exact Q]|exact Cu|exact boolean_canon]. }
    inversion Ra as [? b|? z Q'|? s Q'|? Q'|? r o fts fs xs Q'|? a' u y Na Al Ru]; subst; [eauto|..];
      try (discriminate (No _ Q' (ex_intro _ 1 eq_refl))).
    exfalso. apply Na. destruct Al as (d & Ad & Qd). pose proof (alt_defined f E W t d (proj1 (proj1 Tt)) Ad) as Dd.
    assert (Hd : has_alt E t d) by (exists d; split; [exact Ad|apply teq_refl]).
    apply (has_alt_canon f E W t TBoolean d (proj1 (proj1 Tt)) Dd Hc) in Hd as (z & Cz & [Hz|[]]); [subst z|discriminate].
    eapply teq_trans; [exact Q|]. eapply teq_trans; [|exact Qd]. apply teq_sym, canon_sound, Cz.
  Qed.

  Lemma sound_equal rho s t l r a b x y s1 : steps rho s [l; r] (inl [a; b]) s1 -> in_order E own t -> read E own t a x -> read E own t b y ->
    sound rho s (HBinary (BinEquality (Some t) HEqual) l r) (Gives (UBoolean (same w x y))) s1.
  Proof.
    intros St B Ra Rb [|k] me c st H Fi Er Sr; [discriminate|].
    assert (Fl : fine l) by (eapply fine_part; [exact Fi|left; reflexivity]).
    assert (Fr : fine r) by (eapply fine_part; [exact Fi|right; left; reflexivity]).
    destruct (fine_node _ Fi) as (_ & Tt & Ut). pose proof (code_of_records s1) as HR.
    assert (Va : forall v, rep a v -> value_at E R C w m (state_rep s1) t x v /\ handled defines False x) by (apply read_value; exact Ra).
    assert (Vb : forall v, rep b v -> value_at E R C w m (state_rep s1) t y v /\ handled defines False y) by (apply read_value; exact Rb).
    destruct (equal_cases k t l r me B H) as [(Q & H')|[(k' & o & pre & ml & mr & _ & -> & Hl & Hr & K)|(lt & rt & j & h & Hc & Hh & H')]].
    - destruct (read_boolean_only t a x Tt Q Ra) as (a0 & -> & ->). destruct (read_boolean_only t b y Tt Q Rb) as (b0 & -> & ->).
      destruct St as (s0 & Sl & s2 & S2 & Qs). cbn in Qs. subst s2.
      assert (So : sound rho s (HIf l r (HIf r (HBoolean false) (HBoolean true))) (Gives (UBoolean (Bool.eqb a0 b0))) s1).
      { eapply sound_if; [exact Sl|]. destruct a0; cbn [Bool.eqb]; [destruct b0; exact S2|]. eapply sound_if; [exact S2|]. destruct b0; apply sound_literal. }
      apply (So k me c st H'); auto. apply fine_if; auto. apply fine_if; auto using fine_literal.
    - destruct (two_list _ _ _ _ _ _ St k' ml mr c st Hl Hr Fl Fr Er Sr) as ([vs|] & st1 & G1 & G2 & G3); [|contradiction].
      inversion G2 as [|? v1 ? vs1 R1 G2']; subst. inversion G2' as [|? v2 ? vs2 R2 G2'']; subst. inversion G2''; subst.
      destruct (Va v1 R1) as (V1 & Hx). destruct (Vb v2 R2) as (V2 & Hy).
      destruct K as [(Q & -> & ->)|[(Q & -> & ->)|(g & d & Hc & G & Co & -> & a0 & rt & -> & La)]].
      + assert (Hc : canon E t TNumber) by (apply (teq_canon E t TNumber (wf_closed _ _ W) (wf_acyclic _ _ W) Q), number_canon).
        destruct (at_plain f n E R C T w m (state_rep s1) defines HR t TNumber x v1 Tt Ut Hc I V1) as (Tx & Hv1).
        destruct (at_plain f n E R C T w m (state_rep s1) defines HR t TNumber y v2 Tt Ut Hc I V2) as (Ty & Hv2).
        destruct x; try discriminate Tx. destruct y; try discriminate Ty. cbn in Hv1, Hv2. subst.
        eexists (MGives _), st1. split; [eapply evalo_op; [exact G1|reflexivity]|]. split; [constructor|exact G3].
      + assert (Hc : canon E t TString) by (apply (teq_canon E t TString (wf_closed _ _ W) (wf_acyclic _ _ W) Q), string_canon).
        destruct (at_plain f n E R C T w m (state_rep s1) defines HR t TString x v1 Tt Ut Hc I V1) as (Tx & Hv1).
        destruct (at_plain f n E R C T w m (state_rep s1) defines HR t TString y v2 Tt Ut Hc I V2) as (Ty & Hv2).
        destruct x as [| |s0| | |]; try discriminate Tx. destruct y as [| |s0'| | |]; try discriminate Ty. cbn in Hv1, Hv2. subst.
        destruct (cf_string _ _ _ _ _ _ _ _ _ _ _ HC s1 st1 s0 s0' G3) as (st2 & A1 & A2).
        eexists (MGives _), st2. split; [|split; [constructor|exact A2]]. eapply evalo_call; [eapply evalos_cons; [eapply string_variable; eassumption|exact G1]|reflexivity|exact A1].
      + destruct (at_plain f n E R C T w m (state_rep s1) defines HR t _ x v1 Tt Ut Hc I V1) as (Tx & Hv1).
        destruct (at_plain f n E R C T w m (state_rep s1) defines HR t _ y v2 Tt Ut Hc I V2) as (Ty & Hv2).
        destruct x as [| | | |gx dx xs|]; try discriminate Tx. destruct y as [| | | |gy dy ys|]; try discriminate Ty.
        cbn in Tx, Ty. injection Tx as -> ->. injection Ty as -> ->. pose proof (tidy_record t g d Tt Hc) as Tg.
        destruct (record_runs f n E R C T w m (state_rep s1) defines False HR g d xs ys v1 v2 st1) as (st2 & A1 & A2); try assumption.
        { destruct Hx as (_ & Hx). clear - Hx HR HC. induction xs as [|x xs IH]; constructor; [apply compared_all; [exact HR|exact no_lists|apply Hx]|apply IH, Hx]. }
        eexists (MGives _), st2. split; [|split; [rewrite same_record, String.eqb_refl; constructor|exact A2]].
        eapply evalo_call; [eapply evalos_cons; [eapply compare_variable; [exact Er| |eapply equality_global; eassumption]|exact G1]|rewrite La; reflexivity|exact A1].
        right. exists g. split; [apply defines_known, G|reflexivity].
    - destruct (union_switch f n E R C T w m (state_rep s1) defines False HR t lt rt j k l r h me Tt Ut Hc Hh H') as (k1 & l' & alts & de & -> & Hl & -> & Sw).
      destruct St as (s0 & Sl & s2 & S2 & Qs). cbn in Qs. subst s2.
      destruct (sound_gives _ _ _ _ _ k1 l' c st Sl Hl Fl Er Sr) as (v1 & st1 & G1 & R1 & Sr1). destruct (Va v1 R1) as (V1 & Hx).
      destruct (Sw x v1 c (plain_all f n E R C T w m (state_rep s1) defines False HR no_lists x Hx) V1) as (c1 & k2 & r' & alts' & de' & -> & Hr & Sb & Ev1 & Sw2).
      destruct (sound_gives _ _ _ _ _ k2 r' c1 st1 S2 Hr Fr (env_same_but _ _ _ Er Sb) Sr1) as (v2 & st2 & G2 & R2 & Sr2). destruct (Vb v2 R2) as (V2 & Hy).
      destruct (Sw2 y v2 V2) as (c2 & body & Ev2 & Fin). destruct (Fin (env_clear _ _ Er) st2 Sr2) as (st3 & A1 & A2).
      exists (MGives (VBool (same w x y))), st3. split; [|split; [constructor|exact A2]].
      eapply evalo_as; [exact G1|intros cl Hcl; apply Ev1, Hcl|]. eapply evalo_as; [exact G2|intros cl Hcl; apply Ev2, Hcl|]. apply gives, A1.
  Qed.

  Lemma sound_equal_early rho s t l r u s2 : in_order E own t ->
    (sound rho s l (Returns u) s2 \/ exists a x s1, sound rho s l (Gives a) s1 /\ read E own t a x /\ sound rho s1 r (Returns u) s2) ->
    sound rho s (HBinary (BinEquality (Some t) HEqual) l r) (Returns u) s2.
  Proof.
    intros B D [|k] me c st H Fi Er Sr; [discriminate|].
    assert (Fl : fine l) by (eapply fine_part; [exact Fi|left; reflexivity]).
    assert (Fr : fine r) by (eapply fine_part; [exact Fi|right; left; reflexivity]).
    destruct (fine_node _ Fi) as (_ & Tt & Ut). pose proof (code_of_records s2) as HR.
    destruct (equal_cases k t l r me B H) as [(Q & H')|[(k' & o & pre & ml & mr & _ & -> & Hl & Hr & K)|(lt & rt & j & h & Hc & Hh & H')]].
    - assert (So : sound rho s (HIf l r (HIf r (HBoolean false) (HBoolean true))) (Returns u) s2).
      { destruct D as [D|(a & x & s1 & D1 & D2 & D3)]; [apply sound_if_early, D|].
        destruct (read_boolean_only t a x Tt Q D2) as (a0 & -> & ->). eapply sound_if; [exact D1|].
        destruct a0; [exact D3|apply sound_if_early, D3]. }
      apply (So k me c st H'); auto. apply fine_if; auto. apply fine_if; auto using fine_literal.
    - assert (St : steps rho s [l; r] (inr u) s2).
      { destruct D as [D|(a & x & s1 & D1 & D2 & D3)]; [left; exact D|]. right. exists a, s1. split; [exact D1|]. left. exact D3. }
      destruct (two_list _ _ _ _ _ _ St k' ml mr c st Hl Hr Fl Fr Er Sr) as ([vs|v] & st1 & G1 & G2 & G3); [contradiction|].
      exists (MReturns v), st1. split; [|split; assumption]. apply evalo_op_returns.
      destruct K as [(_ & -> & _)|[(_ & -> & _)|(g & d & Hc & G & Co & -> & _)]]; [exact G1| |].
      + eapply evalos_later; [eapply string_variable; eassumption|exact G1].
      + eapply evalos_later; [|exact G1]. eapply compare_variable; [exact Er| |eapply equality_global; [exact G|eapply tidy_record; eassumption|exact Co]].
        right. exists g. split; [apply defines_known, G|reflexivity].
    - destruct (union_switch f n E R C T w m (state_rep s2) defines False HR t lt rt j k l r h me Tt Ut Hc Hh H') as (k1 & l' & alts & de & -> & Hl & -> & Sw).
      destruct D as [D|(a & x & s1 & D1 & D2 & D3)].
      + destruct (sound_returns _ _ _ _ _ k1 l' c st D Hl Fl Er Sr) as (v1 & st1 & G1 & R1 & Sr1).
        exists (MReturns v1), st1. split; [apply evalo_case_returns, G1|]. split; assumption.
      + destruct (sound_gives _ _ _ _ _ k1 l' c st D1 Hl Fl Er Sr) as (v1 & st1 & G1 & R1 & Sr1).
        destruct (proj1 (read_value (state_rep s2)) t a x D2 v1 R1) as (V1 & Hx).
        destruct (Sw x v1 c (plain_all f n E R C T w m (state_rep s2) defines False HR no_lists x Hx) V1) as (c1 & k2 & r' & alts' & de' & -> & Hr & Sb & Ev1 & _).
        destruct (sound_returns _ _ _ _ _ k2 r' c1 st1 D3 Hr Fr (env_same_but _ _ _ Er Sb) Sr1) as (v2 & st2 & G2 & R2 & Sr2).
        exists (MReturns v2), st2. split; [|split; assumption].
        eapply evalo_as; [exact G1|intros cl Hcl; apply Ev1, Hcl|]. apply evalo_case_returns, G2.
  Qed.
  Lemma fine_equal t op l r : fine (HBinary (BinEquality (Some t) op) l r) -> fine (HBinary (BinEquality (Some t) HEqual) l r).
  Proof.
    intros Fi q Hq. apply occurs_cases in Hq as [->|(x & Hx & Hq)]; [split; [intros y []|exact (proj2 (fine_node _ Fi))]|].
    apply Fi. eapply occurs_in_part; [|exact Hq]. exact Hx.
  Qed.
  Lemma not_equal_sound rho s t l r o s1 o' : sound rho s (HBinary (BinEquality (Some t) HEqual) l r) o s1 ->
    (forall x, o = Gives (UBoolean x) -> o' = Gives (UBoolean (negb x))) -> (forall u, o = Returns u -> o' = Returns u) ->
    (exists x, o = Gives (UBoolean x)) \/ (exists u, o = Returns u) ->
    sound rho s (HBinary (BinEquality (Some t) HNotEqual) l r) o' s1.
  Proof.
    intros S O1 O2 [(x & ->)|(u & ->)].
    - rewrite (O1 x eq_refl). apply (sound_other _ _ _ (not_equal (Some t) l r)); [intros k me H; exact H| |].
      + intros Fi. apply fine_if; auto using fine_literal. eapply fine_equal; eassumption.
      + eapply sound_if; [exact S|]. destruct x; apply sound_literal.
    - rewrite (O2 u eq_refl). apply (sound_other _ _ _ (not_equal (Some t) l r)); [intros k me H; exact H| |apply sound_if_early, S].
      intros Fi. apply fine_if; auto using fine_literal. eapply fine_equal; eassumption.
  Qed.
  Lemma sound_equality rho s t op l r a b x y s1 : steps rho s [l; r] (inl [a; b]) s1 -> in_order E own t -> read E own t a x -> read E own t b y ->
    sound rho s (HBinary (BinEquality (Some t) op) l r) (Gives (UBoolean (is_equal op (same w x y)))) s1.
  Proof.
    intros St B Ra Rb. pose proof (sound_equal _ _ _ _ _ _ _ _ _ _ St B Ra Rb) as S. destruct op; [exact S|].
    eapply not_equal_sound; [exact S| | |eauto]; [intros z Q; injection Q as <-; reflexivity|discriminate].
  Qed.
  Lemma sound_equality_early rho s t op l r u s2 : in_order E own t ->
    (sound rho s l (Returns u) s2 \/ exists a x s1, sound rho s l (Gives a) s1 /\ read E own t a x /\ sound rho s1 r (Returns u) s2) ->
    sound rho s (HBinary (BinEquality (Some t) op) l r) (Returns u) s2.
  Proof.
    intros Ba D. pose proof (sound_equal_early _ _ _ _ _ _ _ Ba D) as S. destruct op; [exact S|].
    eapply not_equal_sound; [exact S| | |eauto]; [discriminate|intros y Q; injection Q as <-; reflexivity].
  Qed.

  Lemma sound_not_early rho s a u s1 : sound rho s a (Returns u) s1 -> sound rho s (HNot a) (Returns u) s1.
  Proof.
    intros S [|k] me c st H Fi Er Sr; [discriminate|]. cbn [HirMir.compile] in H. apply bind_ok in H as (e' & He & H). injection H as <-.
    destruct (sound_returns _ _ _ _ _ k e' c st S He) as (v & st1 & G1 & G2 & G3); [eapply fine_part; [exact Fi|left; reflexivity]|exact Er|exact Sr|].
    exists (MReturns v), st1. split; [apply evalo_if_returns, G1|]. split; assumption.
  Qed.

  (** *** Variables *)
  Lemma sound_let rho s x t b e u s1 o s2 : sound rho s b (Gives u) s1 ->
    sound (match x with Some x => (x, u) :: rho | None => rho end) s1 e o s2 -> sound rho s (HLet x t b e) o s2.
  Proof.
    intros S1 S2 [|k] me c st H Fi Er Sr; [discriminate|]. cbn [HirMir.compile] in H.
    apply bind_ok in H as (t' & _ & H). apply bind_ok in H as (mt & _ & H). apply bind_ok in H as (b' & Hb & H). apply bind_ok in H as (e' & He & H). injection H as <-.
    destruct (sound_gives _ _ _ _ _ k b' c st S1 Hb) as (v & st1 & G1 & G2 & G3); [eapply fine_part; [exact Fi|left; reflexivity]|exact Er|exact Sr|].
    destruct (S2 k e' ((match x with Some x => x | None => "" end, v) :: c) st1 He) as (o' & st2 & A1 & A2 & A3);
      [eapply fine_part; [exact Fi|right; left; reflexivity]| |exact G3|].
    - destruct x as [x|]; [|apply env_hide; [exact Er|apply empty_hidden]]. apply env_bind; [exact Er| |exact G2].
      apply (proj1 (fine_node _ Fi)). left. reflexivity.
    - exists o', st2. split; [eapply evalo_let; eassumption|]. split; assumption.
  Qed.
  Lemma sound_let_early rho s x t b e u s1 : sound rho s b (Returns u) s1 -> sound rho s (HLet x t b e) (Returns u) s1.
  Proof.
    intros S1 [|k] me c st H Fi Er Sr; [discriminate|]. cbn [HirMir.compile] in H.
    apply bind_ok in H as (t' & _ & H). apply bind_ok in H as (mt & _ & H). apply bind_ok in H as (b' & Hb & H). apply bind_ok in H as (e' & He & H). injection H as <-.
    destruct (sound_returns _ _ _ _ _ k b' c st S1 Hb) as (v & st1 & G1 & G2 & G3); [eapply fine_part; [exact Fi|left; reflexivity]|exact Er|exact Sr|].
    exists (MReturns v), st1. split; [apply evalo_let_returns, G1|]. split; assumption.
  Qed.

  (** *** Variants *)
  Lemma seen_rep bt a c u v b u' x : rep (UTagged a u) b -> rep u v -> teq E a c -> seen E bt c v b x -> opened E bt a u u' -> rep u' x.
  Proof.
    intros Rb Rv Q [(Q1 & ->)|(Q1 & ->)] [(Q2 & ->)|(Q2 & ->)]; try assumption; exfalso.
    - apply Q2. eapply teq_trans; [exact Q1|apply teq_sym, Q].
    - apply Q1. eapply teq_trans; [exact Q2|exact Q].
  Qed.
  Lemma error_tag c v b : tidy_type f E c -> boxed E C c v b -> teq E c TError -> b = VVariant (Mir.TRecord error_record) v.
  Proof.
    intros Tc B Q.
    assert (G : canon E c TError).
    { destruct (canon_ex f E W c (proj1 (proj1 Tc))) as (x & Hx).
      assert (x = TError) as <- by (eapply (teq_canon_eq f E W); [exact Q|exact Hx|exists 1; reflexivity]). exact Hx. }
    pose proof (boxed_canon f E C Ht c TError v b (proj1 (proj1 Tc)) G B) as B'. inversion B'. reflexivity.
  Qed.
  Lemma tag_error c v tag q : tidy_type f E c -> boxed E C c v (VVariant tag q) -> tag = Mir.TRecord error_record -> teq E c TError.
  Proof.
    intros (_ & Tc) B Q. subst tag. inversion B; subst; try apply teq_refl.
    destruct (Tc error_record (or_introl eq_refl)) as (_ & X). discriminate.
  Qed.

  Lemma sound_if_type rho s x a bs els t u s1 bt body v o s2 :
    sound rho s a (Gives (UTagged t u)) s1 -> first_taking E t (all_branches bs els) (bt, body) ->
    opened E bt t u v -> sound ((x, v) :: rho) s1 body o s2 -> sound rho s (HIfType x a bs els) o s2.
  Proof.
    intros S1 Ft Op S2 [|k] me c st H Fi Er Sr; [discriminate|].
    destruct (fine_node _ Fi) as (Bx & Kn). cbn in Kn.
    destruct (switch_runs f E R C T Ht HT n k x a bs els me H) as (a' & Ha & K); [intros [bt' b'] Hb; apply (Kn bt' b' Hb)|].
    destruct (sound_gives _ _ _ _ _ k a' c st S1 Ha) as (b & st1 & G1 & G2 & G3); [eapply fine_part; [exact Fi|left; reflexivity]|exact Er|exact Sr|].
    inversion G2 as [| | | | | |a0 al u0 v0 b0 Qa Tal Ual Bx' Ru| |]; subst.
    pose proof (first_taking_teq _ _ _ _ _ Ft Qa) as Ft'.
    destruct (K al v0 b c Tal Ual Bx') as (br & code & y & c' & F1 & F2 & F3 & F4 & F5).
    { destruct Ft' as (l & r & -> & Tk & _). exists (bt, body). split; [apply in_or_app; right; left; reflexivity|exact Tk]. }
    assert (br = (bt, body)) as -> by (eapply first_taking_fun; [exact F1|exact Ft']). cbn [fst snd] in *.
    destruct (S2 k code c' st1 F2) as (o' & st2 & A1 & A2 & A3).
    - eapply fine_part; [exact Fi|]. right. destruct Ft as (l & r & Q & _). clear - Q.
      assert (I : In (bt, body) (all_branches bs els)) by (rewrite Q; apply in_or_app; right; left; reflexivity).
      unfold all_branches in I. apply in_or_app; left. apply in_app_or in I as [I|I]; apply in_or_app; [left; apply in_map_iff; exists (bt, body); auto|right].
      destruct els as [[[t|] e]|]; cbn in I; try contradiction. destruct I as [I|[]]. injection I as <- <-. left. reflexivity.
    - eapply env_binds; [exact Er|exact F4| |eapply seen_rep; eassumption]. apply Bx. left. reflexivity.
    - exact G3.
    - exists o', st2. split; [|split; assumption]. eapply evalo_as; [exact G1|intros cl Hcl; apply F5, Hcl|exact A1].
  Qed.
  Lemma sound_if_type_early rho s x a bs els u s1 : sound rho s a (Returns u) s1 -> sound rho s (HIfType x a bs els) (Returns u) s1.
  Proof.
    intros S1 [|k] me c st H Fi Er Sr; [discriminate|]. cbn [HirMir.compile] in H.
    apply bind_ok in H as (a' & Ha & H). apply bind_ok in H as (alts & _ & H). apply bind_ok in H as (de & _ & H). injection H as <-.
    destruct (sound_returns _ _ _ _ _ k a' c st S1 Ha) as (v & st1 & G1 & G2 & G3); [eapply fine_part; [exact Fi|left; reflexivity]|exact Er|exact Sr|].
    exists (MReturns v), st1. split; [apply evalo_case_returns, G1|]. split; assumption.
  Qed.

  (** *** Errors *)
  Lemma compile_try k t a me : compile (S k) (HTry (Some t) a) = Ok me -> exists a' al, compile k a = Ok a' /\ compile_alternative n E C "$success" t (Var "$success") = Ok al /\
    me = Case (Try a' "$error" (Mir.TRecord error_record) (Op (OVariant (Mir.TRecord error_record)) [Var "$error"])) [al] None.
  Proof.
    intros H. cbn [HirMir.compile annotated bind] in H. apply bind_ok in H as (a' & Ha & H). apply bind_ok in H as (al & Hal & H). injection H as <-. eauto.
  Qed.
  Lemma sound_try_error rho s t a t' u s1 : sound rho s a (Gives (UTagged t' u)) s1 -> teq E t' TError ->
    sound rho s (HTry (Some t) a) (Returns (UTagged t' u)) s1.
  Proof.
    intros S1 Q [|k] me c st H Fi Er Sr; [discriminate|]. apply compile_try in H as (a' & al & Ha & Hal & ->).
    destruct (sound_gives _ _ _ _ _ k a' c st S1 Ha) as (b & st1 & G1 & G2 & G3); [eapply fine_part; [exact Fi|left; reflexivity]|exact Er|exact Sr|].
    inversion G2 as [| | | | | |a0 c0 u0 v0 b0 Qa Tal Ual Bx Ru| |]; subst.
    assert (b = VVariant (Mir.TRecord error_record) v0) as -> by (eapply error_tag; [exact Tal|exact Bx|eapply teq_trans; [apply teq_sym, Qa|exact Q]]).
    exists (MReturns (VVariant (Mir.TRecord error_record) v0)), st1. split; [|split; assumption].
    apply evalo_case_returns. destruct G1 as (n1 & G1). exists n1. intros n2 Hn. cbn [eval]. rewrite (G1 n2 Hn). reflexivity.
  Qed.
  Lemma sound_try rho s t a t' u v s1 : sound rho s a (Gives (UTagged t' u)) s1 -> ~ teq E t' TError -> has_alt E t t' -> opened E t t' u v ->
    sound rho s (HTry (Some t) a) (Gives v) s1.
  Proof.
    intros S1 NQ Al Op [|k] me c st H Fi Er Sr; [discriminate|]. apply compile_try in H as (a' & al & Ha & Hal & ->).
    destruct (fine_node _ Fi) as (_ & Tt & Ut). 
    destruct (sound_gives _ _ _ _ _ k a' c st S1 Ha) as (b & st1 & G1 & G2 & G3); [eapply fine_part; [exact Fi|left; reflexivity]|exact Er|exact Sr|].
    inversion G2 as [| | | | | |a0 c0 u0 v0 b0 Qa Tal Ual Bx Ru| |]; subst.
    destruct (boxed_variant _ _ _ _ _ Bx) as (tag & q & ->).
    destruct (alternative_spec f E C T Ht HT n _ _ _ _ Tt Ut Hal) as (_ & Nm & K).
    destruct (K c0 v0 tag q Tal Ual Bx) as (K1 & K2). assert (Al' : has_alt E t c0) by (eapply has_alt_teq; eassumption).
    destruct (K2 Al' c) as (x & c' & F1 & F2 & F3).
    exists (MGives x), st1. split; [|split; [eapply (seen_rep t t' c0); eassumption|exact G3]].
    destruct G1 as (n1 & G1). exists n1. intros n2 Hn. cbn [eval]. rewrite (G1 n2 Hn). cbn [out_of obind].
    destruct (mtype_eqb tag (Mir.TRecord error_record)) eqn:Qe.
    - exfalso. apply NQ. eapply teq_trans; [exact Qa|]. eapply tag_error; [exact Tal|exact Bx|]. apply mtype_eqb_eq, Qe.
    - cbn [obind eval_alts]. rewrite (proj2 (existsb_mtype tag (a_types al)) (proj2 K1 Al')). rewrite Nm, F3. cbn [eval]. unfold eval_var. rewrite (proj1 F2). reflexivity.
  Qed.
  Lemma sound_try_early rho s t a u s1 : sound rho s a (Returns u) s1 -> sound rho s (HTry t a) (Returns u) s1.
  Proof.
    intros S1 [|k] me c st H Fi Er Sr; [discriminate|]. destruct t as [t|]; [|cbn in H; destruct (compile k a); discriminate]. apply compile_try in H as (a' & al & Ha & Hal & ->).
    destruct (sound_returns _ _ _ _ _ k a' c st S1 Ha) as (v & st1 & G1 & G2 & G3); [eapply fine_part; [exact Fi|left; reflexivity]|exact Er|exact Sr|].
    exists (MReturns v), st1. split; [apply evalo_case_returns, evalo_try_returns, G1|]. split; assumption.
  Qed.

  Lemma compile_error k ft a me : compile (S k) (HCall ft (HBuiltIn BError) [a]) = Ok me -> exists a', compile k a = Ok a' /\ me = make_error a'.
  Proof.
    intros H. cbn [HirMir.compile] in H. unfold compile_built_in in H. apply bind_ok in H as (t & _ & H). apply bind_ok in H as (ar & _ & H). apply bind_ok in H as (es & He & H).
    cbn in He. apply bind_ok in He as (a' & Ha & He). injection He as <-. cbn in H. injection H as <-. eauto.
  Qed.
  Lemma compile_source k ft a me : compile (S k) (HCall ft (HBuiltIn BSource) [a]) = Ok me -> exists a', compile k a = Ok a' /\ me = error_source a'.
  Proof.
    intros H. cbn [HirMir.compile] in H. unfold compile_built_in in H. apply bind_ok in H as (t & _ & H). apply bind_ok in H as (ar & _ & H). apply bind_ok in H as (es & He & H).
    cbn in He. apply bind_ok in He as (a' & Ha & He). injection He as <-. cbn in H. injection H as <-. eauto.
  Qed.
  Lemma sound_error_of_error rho s ft a t u s1 : sound rho s a (Gives (UTagged t u)) s1 -> teq E t TError ->
    sound rho s (HCall ft (HBuiltIn BError) [a]) (Gives u) s1.
  Proof.
    intros S1 Q [|k] me c st H Fi Er Sr; [discriminate|]. apply compile_error in H as (a' & Ha & ->).
    destruct (sound_gives _ _ _ _ _ k a' c st S1 Ha) as (b & st1 & G1 & G2 & G3); [eapply fine_part; [exact Fi|right; left; reflexivity]|exact Er|exact Sr|].
    inversion G2 as [| | | | | |a0 c0 u0 v0 b0 Qa Tal Ual Bx Ru| |]; subst.
    assert (b = VVariant (Mir.TRecord error_record) v0) as -> by (eapply error_tag; [exact Tal|exact Bx|eapply teq_trans; [apply teq_sym, Qa|exact Q]]).
    exists (MGives v0), st1. split; [|split; assumption]. unfold make_error. eapply evalo_let; [exact G1|]. exists 0. reflexivity.
  Qed.
  Lemma sound_error rho s ft a t u s1 : sound rho s a (Gives (UTagged t u)) s1 -> ~ teq E t TError ->
    sound rho s (HCall ft (HBuiltIn BError) [a]) (Gives (UError (UTagged t u))) s1.
  Proof.
    intros S1 NQ [|k] me c st H Fi Er Sr; [discriminate|]. apply compile_error in H as (a' & Ha & ->).
    destruct (sound_gives _ _ _ _ _ k a' c st S1 Ha) as (b & st1 & G1 & G2 & G3); [eapply fine_part; [exact Fi|right; left; reflexivity]|exact Er|exact Sr|].
    inversion G2 as [| | | | | |a0 c0 u0 v0 b0 Qa Tal Ual Bx Ru| |]; subst.
    destruct (boxed_variant _ _ _ _ _ Bx) as (tag & q & ->).
    exists (MGives (VRecord error_record [VVariant tag q])), st1. split; [|split; [apply rep_error; exact G2|exact G3]].
    unfold make_error. eapply evalo_let; [exact G1|]. exists 0. intros n2 _. cbn [eval]. unfold eval_var. cbn [lookup String.eqb Ascii.eqb Bool.eqb obind eval_alts a_types existsb].
    destruct (mtype_eqb tag (Mir.TRecord error_record)) eqn:Qe.
    - exfalso. apply NQ. eapply teq_trans; [exact Qa|]. eapply tag_error; [exact Tal|exact Bx|]. apply mtype_eqb_eq, Qe.
    - destruct (cf_error _ _ _ _ _ _ _ _ _ _ _ HC) as (ty & Hty). cbn. rewrite Hty. reflexivity.
  Qed.
  Lemma sound_source rho s ft a u s1 : sound rho s a (Gives (UError u)) s1 -> sound rho s (HCall ft (HBuiltIn BSource) [a]) (Gives u) s1.
  Proof.
    intros S1 [|k] me c st H Fi Er Sr; [discriminate|]. apply compile_source in H as (a' & Ha & ->).
    destruct (sound_gives _ _ _ _ _ k a' c st S1 Ha) as (b & st1 & G1 & G2 & G3); [eapply fine_part; [exact Fi|right; left; reflexivity]|exact Er|exact Sr|].
    inversion G2 as [| | | | |u0 v0 Ru| | |]; subst.
    exists (MGives v0), st1. split; [|split; assumption]. eapply evalo_op; [eapply evalos_cons; [exact G1|apply evalos_nil]|]. reflexivity.
  Qed.
  Lemma sound_error_early rho s ft a u s1 : sound rho s a (Returns u) s1 -> sound rho s (HCall ft (HBuiltIn BError) [a]) (Returns u) s1.
  Proof.
    intros S1 [|k] me c st H Fi Er Sr; [discriminate|]. apply compile_error in H as (a' & Ha & ->).
    destruct (sound_returns _ _ _ _ _ k a' c st S1 Ha) as (b & st1 & G1 & G2 & G3); [eapply fine_part; [exact Fi|right; left; reflexivity]|exact Er|exact Sr|].
    exists (MReturns b), st1. split; [|split; assumption]. apply evalo_let_returns, G1.
  Qed.
  Lemma sound_source_early rho s ft a u s1 : sound rho s a (Returns u) s1 -> sound rho s (HCall ft (HBuiltIn BSource) [a]) (Returns u) s1.
  Proof.
    intros S1 [|k] me c st H Fi Er Sr; [discriminate|]. apply compile_source in H as (a' & Ha & ->).
    destruct (sound_returns _ _ _ _ _ k a' c st S1 Ha) as (b & st1 & G1 & G2 & G3); [eapply fine_part; [exact Fi|right; left; reflexivity]|exact Er|exact Sr|].
    exists (MReturns b), st1. split; [|split; assumption]. apply evalo_op_returns, evalos_returns, G1.
  Qed.

  (** *** Records *)
  Definition held (D : list (string * hvalue)) (ft : string * ty) (v : value) : Prop := exists u, lookup D (fst ft) = Some u /\ rep u v.

  Lemma held_index D fts vs x i u : Forall2 (held D) fts vs -> field_index fts x = Ok i -> lookup D x = Some u ->
    exists v, nth_error vs i = Some v /\ rep u v.
  Proof.
    intros F. revert i. induction F as [|[y t] v fts vs (u' & Hu & Rv) F IH]; intros i Hi Hu'; [discriminate|]. cbn [field_index fst] in *.
    destruct (String.eqb_spec x y) as [->|N].
    - injection Hi as <-. exists v. split; [reflexivity|]. congruence.
    - destruct (field_index fts x) as [j| | |]; try discriminate. injection Hi as <-. apply (IH j eq_refl Hu').
  Qed.
  Lemma compile_field k t a x me : compile (S k) (HField (Some t) a x) = Ok me -> exists r fts i a', compile_record_type n E C t = Ok r /\ record_fields n E R t = Ok fts /\
    field_index fts x = Ok i /\ compile k a = Ok a' /\ me = Op (OField r i) [a'].
  Proof.
    intros H. cbn [HirMir.compile] in H. apply bind_ok in H as (r & Hr & H). apply bind_ok in H as (fts & Hf & H). apply bind_ok in H as (i & Hi & H). apply bind_ok in H as (a' & Ha & H).
    injection H as <-. exists r, fts, i, a'. auto.
  Qed.
  Lemma sound_field rho s t r o a fs x u s1 : teq E t (TRecord r o) -> sound rho s a (Gives (URecord r fs)) s1 -> lookup fs x = Some u ->
    sound rho s (HField (Some t) a x) (Gives u) s1.
  Proof.
    intros Q S1 L [|k] me c st H Fi Er Sr; [discriminate|]. apply compile_field in H as (r' & fts & i & a' & Hr & Hf & Hi & Ha & ->).
    rewrite (compile_record _ _ _ _ Q Hr). apply (fields_of _ _ _ _ Q) in Hf.
    destruct (sound_gives _ _ _ _ _ k a' c st S1 Ha) as (b & st1 & G1 & G2 & G3); [eapply fine_part; [exact Fi|left; reflexivity]|exact Er|exact Sr|].
    inversion G2 as [| | | |r0 fts0 fs0 vs0 Hf0 F| | | |]; subst. rewrite Hf in Hf0. injection Hf0 as <-.
    destruct (held_index fs fts vs0 x i u F Hi L) as (v & Hv & Rv).
    exists (MGives v), st1. split; [|split; assumption]. eapply evalo_op; [eapply evalos_cons; [exact G1|apply evalos_nil]|].
    intros cl. cbn. rewrite String.eqb_refl, Hv. reflexivity.
  Qed.
  Lemma sound_field_early rho s t a x u s1 : sound rho s a (Returns u) s1 -> sound rho s (HField t a x) (Returns u) s1.
  Proof.
    intros S1 [|k] me c st H Fi Er Sr; [discriminate|]. destruct t as [t|]; [|discriminate]. apply compile_field in H as (r' & fts & i & a' & Hr & Hf & Hi & Ha & ->).
    destruct (sound_returns _ _ _ _ _ k a' c st S1 Ha) as (b & st1 & G1 & G2 & G3); [eapply fine_part; [exact Fi|left; reflexivity]|exact Er|exact Sr|].
    exists (MReturns b), st1. split; [|split; assumption]. apply evalo_op_returns, evalos_returns, G1.
  Qed.

  Lemma held_set D fts : NoDup (map fst fts) -> forall vs x i u v, Forall2 (held D) fts vs -> field_index fts x = Ok i -> rep u v ->
    (exists v', nth_error vs i = Some v') /\ Forall2 (held ((x, u) :: D)) fts (nth_set i v vs).
  Proof.
    induction fts as [|[y t] fts IH]; intros Nd vs x i u v F Hi Rv; [discriminate|]. inversion F as [|? v1 ? vs1 (u1 & Hu1 & Rv1) F1]; subst.
    cbn [map fst] in Nd. inversion Nd as [|? ? N1 N2]; subst. cbn [field_index fst] in *.
    destruct (String.eqb_spec x y) as [->|N].
    - injection Hi as <-. split; [exists v1; reflexivity|]. cbn. constructor; [exists u; cbn; rewrite String.eqb_refl; auto|].
      clear - F1 N1. induction F1 as [|[z t] v1 fts vs (u1 & H1 & R1) F IH]; constructor.
      + exists u1. cbn in *. destruct (String.eqb_spec z y) as [->|_]; [destruct N1; left; reflexivity|auto].
      + apply IH. intros I. apply N1. right. exact I.
    - destruct (field_index fts x) as [j| | |] eqn:Hj; try discriminate. injection Hi as <-.
      destruct (IH N2 vs1 x j u v F1 Hj Rv) as (H1 & H2). split; [exact H1|]. cbn. constructor; [|exact H2].
      exists u1. cbn in *. destruct (String.eqb_spec y x) as [->|_]; [destruct (N eq_refl)|auto].
  Qed.

  Lemma lookup_skip {A} (l : list (string * A)) D x u y : ~ In x (map fst l) -> lookup (l ++ (x, u) :: D)%list y = lookup ((x, u) :: l ++ D)%list y.
  Proof.
    intros N. induction l as [|[z a] l IH]; [reflexivity|]. cbn [app lookup] in *. destruct (String.eqb_spec y z) as [->|Nz].
    - destruct (String.eqb_spec z x) as [->|_]; [destruct N; left; reflexivity|reflexivity].
    - rewrite IH by (intros I; apply N; right; exact I). cbn. destruct (String.eqb y x); reflexivity.
  Qed.
  Lemma held_ext D D' fts vs : (forall x, lookup D x = lookup D' x) -> Forall2 (held D) fts vs -> Forall2 (held D') fts vs.
  Proof. intros Q F. induction F as [|ft v fts vs (u & H & Rv) F IH]; constructor; [|exact IH]. exists u. rewrite <- Q. auto. Qed.

  Lemma held_updates fts : NoDup (map fst fts) -> forall names is us ws D vs, NoDup names -> Forall2 (fun x i => field_index fts x = Ok i) names is ->
    Forall2 rep us ws -> List.length us = List.length names -> Forall2 (held D) fts vs ->
    exists vs', update_fields is ws vs = Some vs' /\ Forall2 (held (combine names us ++ D)%list) fts vs'.
  Proof.
    intros Nf. induction names as [|x names IH]; intros is us ws D vs Nd Fi Fr L F; inversion Fi as [|? i ? is' Hi Fi']; subst.
    - destruct us; [|discriminate]. inversion Fr; subst. exists vs. auto.
    - destruct us as [|u us]; [discriminate|]. inversion Fr as [|? v ? ws' Rv Fr']; subst. inversion Nd as [|? ? N1 N2]; subst.
      destruct (held_set D fts Nf vs x i u v F Hi Rv) as ((v' & Hv') & F').
      destruct (IH is' us ws' ((x, u) :: D) (nth_set i v vs) N2 Fi' Fr' ltac:(cbn in L; lia) F') as (vs' & U & F'').
      exists vs'. cbn [update_fields]. rewrite Hv'. split; [exact U|]. eapply held_ext; [|exact F''].
      intros y. apply lookup_skip. intros I. apply N1. clear - I. revert us I. induction names as [|z names IH]; intros [|a us] I; cbn in *; try contradiction.
      destruct I as [<-|I]; [left; reflexivity|right; eapply IH, I].
  Qed.

  Lemma steps_length rho es : forall s us s', steps rho s es (inl us) s' -> List.length us = List.length es.
  Proof.
    induction es as [|e es IH]; intros s [|u us] s' H; cbn in H; try contradiction; [reflexivity|]. destruct H as (s1 & _ & H). cbn. f_equal. eapply IH, H.
  Qed.

  Lemma compile_update k t a fs me : compile (S k) (HUpdate t a fs) = Ok me -> exists r a' is es, compile_record_type n E C t = Ok r /\ compile k a = Ok a' /\
    Forall2 (fun e me => compile k e = Ok me) (map snd fs) es /\
    (forall fts, record_fields n E R t = Ok fts -> Forall2 (fun x i => field_index fts x = Ok i) (map fst fs) is) /\
    (fs <> [] -> exists fts, record_fields n E R t = Ok fts) /\
    me = Op (OUpdate r is) (a' :: es).
  Proof.
    intros H. cbn [HirMir.compile] in H. apply bind_ok in H as (r & Hr & H). apply bind_ok in H as (a' & Ha & H). apply bind_ok in H as (ies & Hi & H). injection H as <-.
    exists r, a', (map fst ies), (map snd ies). split; [exact Hr|]. split; [exact Ha|]. apply mapM_ok in Hi.
    split; [|split; [|split; [|reflexivity]]].
    - induction Hi as [|[x e] [i e'] fs ies H Hi IH]; constructor; [|exact IH]. cbn [fst snd] in *.
      apply bind_ok in H as (fts & _ & H). apply bind_ok in H as (j & _ & H). apply bind_ok in H as (e0 & He & H). injection H as <- <-. exact He.
    - intros fts Hf. induction Hi as [|[x e] [i e'] fs ies H Hi IH]; constructor; [|exact IH]. cbn [fst snd] in *.
      rewrite Hf in H. cbn [bind] in H. apply bind_ok in H as (j & Hj & H). apply bind_ok in H as (e0 & He & H). injection H as <- <-. exact Hj.
    - intros N. destruct Hi as [|x y fs ies H Hi]; [destruct (N eq_refl)|]. apply bind_ok in H as (fts & Hf & _). eauto.
  Qed.
  Lemma sound_update rho s t r o a old fs us s1 : teq E t (TRecord r o) -> steps rho s (a :: map snd fs) (inl (URecord r old :: us)) s1 ->
    sound rho s (HUpdate t a fs) (Gives (URecord r (combine (map fst fs) us ++ old)%list)) s1.
  Proof.
    intros Q St [|k] me c st H Fi Er Sr; [discriminate|]. apply compile_update in H as (r' & a' & is & es & Hr & Ha & Hes & His & Hfs & ->).
    rewrite (compile_record _ _ _ _ Q Hr).
    destruct (steps_list _ _ _ _ _ St k (a' :: es) c st) as ([vs|] & st1 & G1 & G2 & G3);
      [constructor; assumption|intros e He; eapply fine_part; [exact Fi|apply in_or_app; left; exact He]|exact Er|exact Sr| |contradiction].
    inversion G2 as [|? b ? ws R1 Rs]; subst. inversion R1 as [| | | |r0 fts fs0 vs0 Hf F| | | |]; subst.
    destruct (cf_records _ _ _ _ _ _ _ _ _ _ _ HC r fts Hf) as (Nf & _). destruct (fine_node _ Fi) as (_ & Nd). cbn in Nd.
    assert (K : Forall2 (fun x i => field_index fts x = Ok i) (map fst fs) is).
    { destruct fs as [|f0 fs]; [|destruct (Hfs ltac:(discriminate)) as (fts' & Hfts'); pose proof (His fts' Hfts') as G; apply (fields_of _ _ _ _ Q) in Hfts'; rewrite Hf in Hfts'; injection Hfts' as <-; exact G].
      inversion Hes; subst. destruct (record_fields n E R t) as [fts'| | |] eqn:X; [pose proof (His fts' eq_refl) as G; inversion G; subst; constructor|..];
      unfold record_fields, canonical_record in X; unfold compile_record_type, compile_type in Hr; destruct (canonicalize n E t) as [cc| | |] eqn:Y; try discriminate Hr;
      rewrite (record_type _ _ _ _ Q Y) in X; cbn in X; unfold resolve_record in X; rewrite Hf in X; discriminate. }
    destruct (held_updates fts Nf (map fst fs) is us ws old vs0 Nd K Rs) as (vs' & U & F').
    { cbn [steps] in St. destruct St as (s2 & _ & St). rewrite (steps_length _ _ _ _ _ St), !map_length. reflexivity. }
    { exact F. }
    exists (MGives (VRecord r vs')), st1. split; [|split; [eapply rep_record; eassumption|exact G3]].
    eapply evalo_op; [exact G1|]. intros cl. cbn. rewrite String.eqb_refl, U. reflexivity.
  Qed.
  Lemma sound_update_early rho s t a fs u s1 : steps rho s (a :: map snd fs) (inr u) s1 -> sound rho s (HUpdate t a fs) (Returns u) s1.
  Proof.
    intros St [|k] me c st H Fi Er Sr; [discriminate|]. apply compile_update in H as (r' & a' & is & es & Hr & Ha & Hes & His & Hfs & ->).
    destruct (steps_list _ _ _ _ _ St k (a' :: es) c st) as ([vs|v] & st1 & G1 & G2 & G3);
      [constructor; assumption|intros e He; eapply fine_part; [exact Fi|apply in_or_app; left; exact He]|exact Er|exact Sr|contradiction|].
    exists (MReturns v), st1. split; [|split; assumption]. apply evalo_op_returns, G1.
  Qed.

  Definition hidden (xs : list string) : list string := map (fun x => "$" ++ x) xs.
  Lemma hidden_env xs : forall vs rho c, env_rep rho c -> env_rep rho (bind_args (hidden xs) vs c).
  Proof.
    induction xs as [|x xs IH]; intros [|v vs] rho c Er; cbn; try exact Er. apply IH. apply env_hide; [exact Er|apply dollar_hidden].
  Qed.
  Lemma lets_run fts rho : forall fs es s r s' k code body, steps rho s (map snd fs) r s' ->
    Forall2 (fun f e => compile k (snd f) = Ok (snd e) /\ fst e = fst f) fs es -> field_lets n E C fts es body = Ok code ->
    (forall e, In e (map snd fs) -> fine e) -> forall c st, env_rep rho c -> state_rep s st ->
    match r with
    | inr u => exists v st', evalo c st code (MReturns v) st' /\ rep u v /\ state_rep s' st'
    | inl us => exists vs st', Forall2 rep us vs /\ state_rep s' st' /\
        forall o st2, evalo (bind_args (hidden (map fst fs)) vs c) st' body o st2 -> evalo c st code o st2
    end.
  Proof.
    induction fs as [|[x e] fs IH]; intros es s r s' k code body St F H Fi c st Er Sr; inversion F as [|? [x' e'] ? es' (H1 & H2) F']; subst; cbn [field_lets map fst snd] in *.
    - injection H as <-. destruct r as [[|]|]; try contradiction. cbn in St. subst s'. exists [], st. split; [constructor|]. split; [exact Sr|]. intros o st2 G. exact G.
    - subst x'. apply bind_ok in H as (t & _ & H). apply bind_ok in H as (rest & Hrest & H). injection H as <-.
      destruct r as [[|u us]|u]; cbn [steps] in St; try contradiction.
      + destruct St as (s1 & S1 & St). destruct (sound_gives _ _ _ _ _ k e' c st S1 H1 (Fi e (or_introl eq_refl)) Er Sr) as (v & st1 & G1 & G2 & G3).
        destruct (IH es' s1 (inl us) s' k rest body St F' Hrest (fun y Hy => Fi y (or_intror Hy)) (("$" ++ x, v) :: c) st1) as (vs & st2 & A1 & A2 & A3);
          [apply env_hide; [exact Er|apply dollar_hidden]|exact G3|].
        exists (v :: vs), st2. split; [constructor; assumption|]. split; [exact A2|]. intros o st3 G. eapply evalo_let; [exact G1|]. apply A3, G.
      + destruct St as [S1|(v0 & s1 & S1 & St)].
        * destruct (sound_returns _ _ _ _ _ k e' c st S1 H1 (Fi e (or_introl eq_refl)) Er Sr) as (v & st1 & G1 & G2 & G3).
          exists v, st1. split; [apply evalo_let_returns, G1|]. split; assumption.
        * destruct (sound_gives _ _ _ _ _ k e' c st S1 H1 (Fi e (or_introl eq_refl)) Er Sr) as (v & st1 & G1 & G2 & G3).
          destruct (IH es' s1 (inr u) s' k rest body St F' Hrest (fun y Hy => Fi y (or_intror Hy)) (("$" ++ x, v) :: c) st1) as (v' & st2 & A1 & A2 & A3);
            [apply env_hide; [exact Er|apply dollar_hidden]|exact G3|].
          exists v', st2. split; [eapply evalo_let; [exact G1|exact A1]|]. split; assumption.
  Qed.

  Lemma hidden_other xs : forall vs c x, ~ In x xs -> lookup (bind_args (hidden xs) vs c) ("$" ++ x) = lookup c ("$" ++ x).
  Proof.
    induction xs as [|y xs IH]; intros [|v vs] c x N; cbn [hidden map bind_args]; try reflexivity.
    fold (hidden xs). rewrite IH by (intros I; apply N; right; exact I). cbn [lookup].
    destruct (String.eqb_spec ("$" ++ x) ("$" ++ y)) as [Q|_]; [|reflexivity]. injection Q as <-. destruct N. left. reflexivity.
  Qed.
  Lemma hidden_lookup xs : NoDup xs -> forall us vs c x, List.length us = List.length xs -> Forall2 rep us vs -> In x xs ->
    exists u v, lookup (combine xs us) x = Some u /\ lookup (bind_args (hidden xs) vs c) ("$" ++ x) = Some v /\ rep u v.
  Proof.
    induction 1 as [|y xs N Nd IH]; intros us vs c x L F I; [contradiction|]. destruct us as [|u us]; [discriminate|]. inversion F as [|? v ? vs' Rv F']; subst.
    cbn [combine lookup hidden map bind_args]. fold (hidden xs). destruct (String.eqb_spec x y) as [->|Nx].
    - exists u, v. split; [reflexivity|]. split; [|exact Rv]. rewrite hidden_other by exact N. cbn [lookup]. rewrite String.eqb_refl. reflexivity.
    - destruct I as [<-|I]; [destruct (Nx eq_refl)|]. apply (IH us vs' _ x ltac:(cbn in L; lia) F' I).
  Qed.

  Lemma compile_fields k t fs me : compile (S k) (HRecord t fs) = Ok me -> exists fts r es, record_fields n E R t = Ok fts /\ compile_record_type n E C t = Ok r /\
    Forall2 (fun f e => compile k (snd f) = Ok (snd e) /\ fst e = fst f) fs es /\ (forall ft, In ft fts -> In (fst ft) (map fst fs)) /\
    field_lets n E C fts es (Op (ORecord r) (map (fun ft => Var ("$" ++ fst ft)) fts)) = Ok me.
  Proof.
    intros H. cbn [HirMir.compile] in H. apply bind_ok in H as (fts & Hf & H). apply bind_ok in H as (r & Hr & H). apply bind_ok in H as (es & He & H). apply bind_ok in H as (vs & Hv & H).
    assert (K : vs = map (fun ft => Var ("$" ++ fst ft)) fts /\ forall ft, In ft fts -> In (fst ft) (map fst fs)).
    { apply mapM_ok in Hv. clear - Hv. induction Hv as [|ft v fts vs Hft Hv (IH1 & IH2)]; [split; [reflexivity|intros _ []]|].
      destruct (mem (fst ft) (map fst fs)) eqn:M; [|discriminate]. injection Hft as <-. split; [cbn [map]; rewrite <- IH1; reflexivity|]. intros ft' [<-|I]; [apply mem_In, M|apply IH2, I]. }
    destruct K as (-> & K). exists fts, r, es. split; [exact Hf|]. split; [exact Hr|]. split; [|split; [exact K|exact H]].
    apply mapM_ok in He. clear - He. induction He as [|f0 e fs es H He IH]; constructor; [|exact IH]. apply bind_ok in H as (e' & He' & H). injection H as <-. auto.
  Qed.
  Lemma sound_record rho s t r o fs us s1 : teq E t (TRecord r o) -> steps rho s (map snd fs) (inl us) s1 ->
    sound rho s (HRecord t fs) (Gives (URecord r (combine (map fst fs) us))) s1.
  Proof.
    intros Q St [|k] me c st H Fi Er Sr; [discriminate|]. apply compile_fields in H as (fts & r' & es & Hf & Hr & F & All & H).
    rewrite (compile_record _ _ _ _ Q Hr) in H. apply (fields_of _ _ _ _ Q) in Hf. destruct (fine_node _ Fi) as (_ & Nd). cbn in Nd.
    destruct (lets_run fts rho fs es s (inl us) s1 k me _ St F H) with (c := c) (st := st) as (vs & st1 & A1 & A2 & A3);
      [intros e He; eapply fine_part; [exact Fi|apply in_or_app; left; exact He]|exact Er|exact Sr|].
    pose proof (steps_length _ _ _ _ _ St) as L. rewrite map_length in L. rewrite <- (map_length fst) in L.
    assert (K : exists ws, Forall2 (held (combine (map fst fs) us)) fts ws /\
      forall st, evalos (bind_args (hidden (map fst fs)) vs c) st (map (fun ft => Var ("$" ++ fst ft)) fts) (inl ws) st).
    { clear - A1 All Nd L. induction fts as [|ft fts IH]; [exists []; split; [constructor|intros st; apply evalos_nil]|].
      destruct IH as (ws & F & G); [intros ft' I; apply All; right; exact I|].
      destruct (hidden_lookup (map fst fs) Nd us vs c (fst ft) L A1 (All ft (or_introl eq_refl))) as (u & v & H1 & H2 & H3).
      exists (v :: ws). split; [constructor; [exists u; auto|exact F]|]. intros st. eapply evalos_cons; [apply gives, evals_var, H2|apply G]. }
    destruct K as (ws & F' & G). exists (MGives (VRecord r ws)), st1. split; [|split; [eapply rep_record; eassumption|exact A2]].
    apply A3. eapply evalo_op; [apply G|]. intros cl. destruct (cf_records _ _ _ _ _ _ _ _ _ _ _ HC r fts Hf) as (_ & ts & Hts & Lts).
    cbn. rewrite Hts, Lts. assert (List.length ws = List.length fts) as -> by (clear - F'; induction F'; cbn; congruence).
    rewrite PeanoNat.Nat.eqb_refl. reflexivity.
  Qed.
  Lemma sound_record_early rho s t fs u s1 : steps rho s (map snd fs) (inr u) s1 -> sound rho s (HRecord t fs) (Returns u) s1.
  Proof.
    intros St [|k] me c st H Fi Er Sr; [discriminate|]. apply compile_fields in H as (fts & r' & es & Hf & Hr & F & All & H).
    destruct (lets_run fts rho fs es s (inr u) s1 k me _ St F H) with (c := c) (st := st) as (v & st1 & A1 & A2 & A3);
      [intros e He; eapply fine_part; [exact Fi|apply in_or_app; left; exact He]|exact Er|exact Sr|].
    exists (MReturns v), st1. auto.
  Qed.

  (** *** Conversions *)
  Lemma boxed_total c v : defined E c -> single c -> exists b, boxed E C c v b.
  Proof.
    assert (I : forall t, defined E t -> exists i, identified E C t i).
    { intros t D. destruct (type_id_total f E t W D) as (q & x & H). exists (c_hash C x), q, x. auto. }
    intros D Sc. destruct c; try contradiction; try (eexists; constructor; fail).
    - destruct (I _ D) as (i & Hi). eexists. apply boxed_function, Hi.
    - destruct (I c D) as (i & Hi). eexists. apply boxed_list, Hi.
    - destruct (I c1) as (i & Hi); [intros z Hz; apply D; cbn; apply in_or_app; auto|]. destruct (I c2) as (j & Hj); [intros z Hz; apply D; cbn; apply in_or_app; auto|].
      eexists. apply boxed_map; eassumption.
  Qed.
  Lemma sound_box rho s t t' a b u s1 : sub E t t' -> single b -> teq E t b -> sound rho s a (Gives u) s1 ->
    sound rho s (HCoerce t t' a) (Gives (UTagged b u)) s1.
  Proof.
    intros Sb Sg Q S1 [|k] me c st H Fi Er Sr; [discriminate|]. destruct (fine_node _ Fi) as (_ & Ts & Tt & Nst & Us & Ca).
    assert (Ha : exists e', compile k a = Ok e').
    { cbn [HirMir.compile] in H. unfold compile_coercion in H. apply bind_ok in H as (? & _ & H). apply bind_ok in H as (? & _ & H). apply bind_ok in H as (e' & He & _). eauto. }
    destruct Ha as (e' & He).
    destruct (sound_gives _ _ _ _ _ k e' c st S1 He) as (v & st1 & G1 & G2 & G3); [eapply fine_part; [exact Fi|left; reflexivity]|exact Er|exact Sr|].
    destruct (canon_ex f E W t (proj1 (proj1 Ts))) as (x & Hx). pose proof (tidy_type_canon f E C Ht t x Ts Hx) as Tx. pose proof (canon_sound _ _ _ Hx) as Qx.
    pose proof (proj1 (teq_canon E t b (wf_closed _ _ W) (wf_acyclic _ _ W) Q x) Hx) as Hbx.
    pose proof (canon_single _ _ _ Sg Hbx) as Sx.
    destruct (boxed_total x v (proj1 (proj1 Tx)) Sx) as (bx & Bx).
    exists (MGives bx), st1. split; [|split; [|exact G3]].
    - eapply evalo_as_done; [exact G1|]. intros cl Hcl.
      destruct (conversion_runs f E R C Ht Lexical w m cl n k t t' a me Ts Tt Nst H) as (e2 & He2 & K). rewrite He in He2. injection He2 as <-.
      apply (proj1 (K c st) x v bx st1); auto. eapply Ca; eassumption.
    - eapply rep_tagged; [eapply teq_trans; [apply teq_sym, Q|exact Qx]|exact Tx| |exact Bx|exact G2].
      apply Us. apply (has_alt_canon f E W t x x); [apply (proj1 Ts)|apply (proj1 Tx)|exact Hx|intros ->; contradiction|].
      exists x. split; [eapply (canon_idem f E W), Hx|]. destruct x; try contradiction; left; reflexivity.
  Qed.
  Lemma sound_boxed rho s t t' a u s1 : varies E t \/ widens E t t' /\ ~ sub E t t' -> sound rho s a (Gives u) s1 -> sound rho s (HCoerce t t' a) (Gives u) s1.
  Proof.
    intros V S1 [|k] me c st H Fi Er Sr; [discriminate|]. destruct (fine_node _ Fi) as (_ & Ts & Tt & Nst & Us & Ca).
    assert (Ha : exists e', compile k a = Ok e').
    { cbn [HirMir.compile] in H. unfold compile_coercion in H. apply bind_ok in H as (? & _ & H). apply bind_ok in H as (? & _ & H). apply bind_ok in H as (e' & He & _). eauto. }
    destruct Ha as (e' & He).
    destruct (sound_gives _ _ _ _ _ k e' c st S1 He) as (v & st1 & G1 & G2 & G3); [eapply fine_part; [exact Fi|left; reflexivity]|exact Er|exact Sr|].
    exists (MGives v), st1. split; [|split; assumption]. eapply evalo_same; [exact G1|]. intros cl.
    destruct (conversion_runs f E R C Ht Lexical w m cl n k t t' a me Ts Tt Nst H) as (e2 & He2 & K). rewrite He in He2. injection He2 as <-.
    apply (proj2 (K c st)). destruct V as [V|V]; [left|right; exact V]. intros y Qy Py. apply (V y Py Qy).
  Qed.
  (** the code of a conversion evaluates its operand first *)
  Lemma sound_coerce_early rho s t t' a u s1 : sound rho s a (Returns u) s1 -> sound rho s (HCoerce t t' a) (Returns u) s1.
  Proof.
    intros S1 [|k] me c st H Fi Er Sr; [discriminate|]. cbn [HirMir.compile] in H. unfold compile_coercion in H.
    apply bind_ok in H as (x & _ & H). apply bind_ok in H as (y & _ & H). apply bind_ok in H as (e' & He & H).
    destruct (sound_returns _ _ _ _ _ k e' c st S1 He) as (v & st1 & G1 & G2 & G3); [eapply fine_part; [exact Fi|left; reflexivity]|exact Er|exact Sr|].
    exists (MReturns v), st1. split; [|split; assumption].
    assert (Wr : bind (concrete_name n E C x) (fun o => match o with Some r => bind (concrete_value n E C e' x) (fun v => Ok (Op (OVariant (Mir.TRecord r)) [v])) | None => Panic end) = Ok me -> evalo c st me (MReturns v) st1).
    { intros Hw. apply bind_ok in Hw as ([r|] & _ & Hw); [|discriminate]. apply bind_ok in Hw as (cv & Hcv & Hw). injection Hw as <-.
      apply evalo_op_returns, evalos_returns. unfold concrete_value in Hcv. apply bind_ok in Hcv as (z & _ & Hcv).
      destruct z; try discriminate; apply bind_ok in Hcv as (o & _ & Hcv); destruct o as [r'|]; injection Hcv as <-; try exact G1; apply evalo_op_returns, evalos_returns, G1. }
    destruct x; try discriminate; try (apply bind_ok in H as (mt & _ & H); injection H as <-; apply evalo_op_returns, evalos_returns, G1);
      try (injection H as <-; exact G1); try (apply Wr, H); destruct y; try (apply Wr, H); injection H as <-; exact G1.
  Qed.

  (** *** Variables and functions *)
  Lemma sound_variable rho s x u : lookup rho x = Some u -> sound rho s (HVariable x) (Gives u) s.
  Proof.
    intros L. apply sound_value. intros k me c st H Fi (_ & A2 & _) Sr. cbn in H. injection H as <-. destruct (fine_node _ Fi) as (_ & Ux).
    destruct (A2 x u Ux L) as (v & Hv & Rv). exists v. split; [apply gives, evals_var, Hv|exact Rv].
  Qed.
  Lemma sound_function rho s x : lookup rho x = None -> lookup (h_defs p) x <> None \/ lookup (h_declared p) x <> None ->
    sound rho s (HVariable x) (Gives (UGlobal x)) s.
  Proof.
    intros L D. apply sound_value. intros k me c st H Fi (_ & _ & A3) Sr. cbn in H. injection H as <-. destruct (fine_node _ Fi) as (_ & Ux).
    assert (G : global_type m x <> None).
    { destruct D as [D|D]; [|apply (cf_declared _ _ _ _ _ _ _ _ _ _ _ HC x D)]. destruct (lookup (h_defs p) x) as [l|] eqn:Hl; [|destruct (D eq_refl)].
      destruct (cf_defs _ _ _ _ _ _ _ _ _ _ _ HC x l Hl) as (_ & _ & k' & d & _ & Hd). unfold global_type. rewrite Hd. discriminate. }
    destruct (global_type m x) as [t|] eqn:Hg; [|destruct (G eq_refl)]. exists (VGlobal x). split; [|constructor].
    apply gives. eapply evals_global; [apply A3; assumption|exact Hg].
  Qed.
  Lemma arguments_names (args : list (string * ty)) margs : mapM (fun a => bind (compile_type n E C (snd a)) (fun t => Ok (fst a, t))) args = Ok margs -> map fst margs = map fst args.
  Proof.
    intros H. apply mapM_ok in H. induction H as [|a a' args margs H _ IH]; [reflexivity|]. apply bind_ok in H as (t & _ & H). injection H as <-. cbn. rewrite IH. reflexivity.
  Qed.
  Lemma sound_lambda rho s args r body : sound rho s (HLambda args r body) (Gives (UClosure (map fst args) body rho)) s.
  Proof.
    apply sound_value. intros k me c st H Fi (A1 & A2 & A3) Sr. cbn [HirMir.compile] in H.
    apply bind_ok in H as (margs & Hm & H). apply bind_ok in H as (mr & _ & H). apply bind_ok in H as (code & Hc & H). injection H as <-.
    eexists. split; [apply gives; apply evals_closure; [reflexivity|]; apply evals_var; reflexivity|].
    eapply rep_closure; [eapply arguments_names, Hm| | |exact Hc|exact A1|exact A2|exact A3].
    - apply Forall_forall. intros x Hx. apply (proj1 (fine_node _ Fi)). exact Hx.
    - eapply fine_part; [exact Fi|]. left. reflexivity.
  Qed.

  Lemma rep_length us vs : Forall2 rep us vs -> List.length vs = List.length us.
  Proof. induction 1; cbn; congruence. Qed.

  Lemma closure_calls s xs body rho us o s' : List.length us = List.length xs -> sound (bound_to xs us rho) s body o s' ->
    calls_right s (UClosure xs body rho) us (result o) s'.
  Proof.
    intros L S g' vs st Rg Rs Sr. inversion Rg as [| | | | | | |xs0 body0 rho0 k args r code c H1 H2 H3 H4 H5 H6 H7|]; subst.
    destruct (S k code (rev (combine (map fst args) vs) ++ ("$closure", VClosure (Fdef "$closure" [] args r code false) c) :: c)%list st H4 H3) as (o' & st' & G1 & G2 & G3).
    - apply env_args; [exact H2|exact Rs|]. apply env_hide; [split; [exact H5|split; assumption]|]. apply (dollar_hidden "closure").
    - exact Sr.
    - exists (mresult o'), st'. split; [|split; [apply out_result, G2|exact G3]]. pose proof (rep_length _ _ Rs) as Lr. rewrite L in Lr.
      apply runs_closure_o; cbn [f_args f_name f_body]; [rewrite map_length in Lr; exact Lr|]. rewrite bind_args_rev by exact Lr. exact G1.
  Qed.

  Lemma definition_code k g l d : compile_definition n E R C k (g, l) = Ok d -> exists code, compile k (l_body l) = Ok code /\ f_body d = code /\
    map fst (f_args d) = map fst (l_arguments l) /\ f_thunk d = match l_arguments l with [] => true | _ => false end.
  Proof.
    intros H. unfold compile_definition in H. cbn [fst snd] in H. apply bind_ok in H as (code & Hc & H). apply bind_ok in H as (r & _ & H). exists code. split; [exact Hc|].
    destruct (l_arguments l) as [|a args] eqn:Q; [injection H as <-; auto|]. apply bind_ok in H as (margs & Hm & H). injection H as <-. split; [reflexivity|]. split; [|reflexivity].
    apply arguments_names, Hm.
  Qed.
  Lemma function_calls s g l us o s' : lookup (h_defs p) g = Some l -> l_arguments l <> [] -> List.length us = List.length (l_arguments l) ->
    sound (bound_to (map fst (l_arguments l)) us []) s (l_body l) o s' -> calls_right s (UGlobal g) us (result o) s'.
  Proof.
    intros Hl N L S g' vs st Rg Rs Sr. inversion Rg; subst. destruct (cf_defs _ _ _ _ _ _ _ _ _ _ _ HC g l Hl) as (On & Fi & k & d & Hd & Hf).
    apply definition_code in Hd as (code & Hc & <- & Ha & Ht').
    destruct (S k (f_body d) (rev (combine (map fst (l_arguments l)) vs) ++ [])%list st Hc Fi) as (o' & st' & G1 & G2 & G3).
    - apply env_args; [exact On|exact Rs|]. split; [reflexivity|]. split; [discriminate|reflexivity].
    - exact Sr.
    - exists (mresult o'), st'. split; [|split; [apply out_result, G2|exact G3]]. pose proof (rep_length _ _ Rs) as Lr. rewrite L in Lr.
      eapply runs_global_o; [exact Hf|rewrite Ht'; destruct (l_arguments l); [destruct (N eq_refl)|reflexivity]| |].
      + rewrite <- (map_length fst), Ha, map_length. exact Lr.
      + rewrite Ha. rewrite bind_args_rev by (rewrite map_length; exact Lr). exact G1.
  Qed.
  Lemma kept_calls s g l u : lookup (h_defs p) g = Some l -> l_arguments l = [] -> lookup (kept s) g = Some u -> calls_right s (UGlobal g) [] u s.
  Proof.
    intros Hl N K g' vs st Rg Rs Sr. inversion Rg; subst. inversion Rs; subst. destruct (cf_defs _ _ _ _ _ _ _ _ _ _ _ HC g l Hl) as (On & Fi & k & d & Hd & Hf).
    apply definition_code in Hd as (code & Hc & <- & Ha & Ht'). rewrite N in Ha, Ht'. pose proof Sr as (_ & S2 & _). destruct (S2 g u K) as (v & Hv & Rv).
    exists v, st. split; [|split; assumption]. eapply runs_known_global; [exact Hf|exact Ht'|destruct (f_args d); [reflexivity|discriminate]|exact Hv].
  Qed.
  Lemma empty_env : env_rep [] [].
  Proof. split; [reflexivity|]. split; [discriminate|reflexivity]. Qed.
  Lemma state_set s st g u v : state_rep s st -> rep u v -> state_rep (add_kept s g u) (set_global st g v).
  Proof.
    intros (S1 & S2 & S3) Rv. split; [exact S1|]. cbn [add_kept kept set_global s_globals].
    split; intros g'; cbn [lookup]; destruct (String.eqb g' g); try discriminate; [intros u' Q; injection Q as <-; eauto|apply S2|apply S3].
  Qed.
  Lemma once_calls s g l u s' : lookup (h_defs p) g = Some l -> l_arguments l = [] -> lookup (kept s) g = None ->
    sound [] s (l_body l) (Gives u) s' -> calls_right s (UGlobal g) [] u (add_kept s' g u).
  Proof.
    intros Hl N K S g' vs st Rg Rs Sr. inversion Rg; subst. inversion Rs; subst. destruct (cf_defs _ _ _ _ _ _ _ _ _ _ _ HC g l Hl) as (On & Fi & k & d & Hd & Hf).
    apply definition_code in Hd as (code & Hc & <- & Ha & Ht'). rewrite N in Ha, Ht'. pose proof Sr as (_ & _ & S3).
    destruct (sound_gives _ _ _ _ _ k _ [] st S Hc Fi empty_env Sr) as (v & st' & G1 & G2 & G3).
    exists v, (set_global st' g v). split; [|split; [exact G2|apply state_set; assumption]].
    eapply runs_global_thunk; [exact Hf|exact Ht'|destruct (f_args d); [reflexivity|discriminate]|apply S3, K|exact G1].
  Qed.
  Lemma again_calls s g l u s' : lookup (h_defs p) g = Some l -> l_arguments l = [] -> lookup (kept s) g = None ->
    sound [] s (l_body l) (Returns u) s' -> calls_right s (UGlobal g) [] u s'.
  Proof.
    intros Hl N K S g' vs st Rg Rs Sr. inversion Rg; subst. inversion Rs; subst. destruct (cf_defs _ _ _ _ _ _ _ _ _ _ _ HC g l Hl) as (On & Fi & k & d & Hd & Hf).
    apply definition_code in Hd as (code & Hc & <- & Ha & Ht'). rewrite N in Ha, Ht'. pose proof Sr as (_ & _ & S3).
    destruct (sound_returns _ _ _ _ _ k _ [] st S Hc Fi empty_env Sr) as (v & st' & G1 & G2 & G3).
    exists v, st'. split; [|split; assumption].
    eapply runs_global_again; [exact Hf|exact Ht'|destruct (f_args d); [reflexivity|discriminate]|apply S3, K|exact G1].
  Qed.
  Lemma outer_calls s g us v : lookup (h_defs p) g = None -> lookup (h_declared p) g <> None -> outer (calls s) g us v ->
    calls_right s (UGlobal g) us v (add_call s g us).
  Proof.
    intros Hd Hc Ho g' vs st Rg Rs Sr. inversion Rg; subst. apply (cf_outer _ _ _ _ _ _ _ _ _ _ _ HC s st g us v vs Sr Hd Hc Ho Rs).
  Qed.

  (** *** All expressions *)
  Lemma sound_early rho s e u s' : steps rho s (operands e) (inr u) s' -> sound rho s e (Returns u) s'.
  Proof.
    intros St. destruct e as [| |ft g args| | | | | | | | | | | | | | | | | | | | |]; cbn [operands] in St; try contradiction.
    - destruct g; try (apply sound_call_early; [discriminate|exact St]).
      destruct f0; try contradiction; destruct args as [|a [|a' l]]; try contradiction; apply steps_one_early in St; [apply sound_error_early|apply sound_source_early]; exact St.
    - apply sound_if_early, steps_one_early, St.
    - apply sound_if_type_early, steps_one_early, St.
    - apply sound_let_early, steps_one_early, St.
    - destruct o; try contradiction; try (apply sound_binary_early; [exact St|discriminate|discriminate]).
      apply sound_and_or_early, steps_one_early, St.
    - apply sound_not_early, steps_one_early, St.
    - apply sound_try_early, steps_one_early, St.
    - apply sound_record_early, St.
    - apply sound_field_early, steps_one_early, St.
    - apply sound_update_early, St.
    - apply sound_coerce_early, steps_one_early, St.
  Qed.

  Theorem meaning_kept :
    (forall s rho e o s', ev E own p w outer s rho e o s' -> sound rho s e o s') /\
    (forall s rho es r s', evs E own p w outer s rho es r s' -> steps rho s es r s') /\
    (forall s g us v s', applies E own p w outer s g us v s' -> calls_right s g us v s').
  Proof.
    apply (ev_mutual E own p w outer (fun s rho e o s' => sound rho s e o s') (fun s rho es r s' => steps rho s es r s') (fun s g us v s' => calls_right s g us v s'));
      intros;
      repeat match goal with
      | H : steps _ _ [_] (inl [_]) _ |- _ => apply steps_one in H
      | H : steps _ _ [_] (inr _) _ |- _ => apply steps_one_early in H
      end.
    - apply sound_literal.
    - apply sound_value. intros k me c st H Fi Er Sr. cbn in H. injection H as <-. exists VNone. split; [exists 0; reflexivity|constructor].
    - apply sound_value. intros k me c st H Fi Er Sr. cbn in H. injection H as <-. eexists. split; [exists 0; reflexivity|constructor].
    - apply sound_value. intros k me c st H Fi Er Sr. cbn in H. injection H as <-. eexists. split; [exists 0; reflexivity|constructor].
    - apply sound_variable; assumption.
    - apply sound_function; assumption.
    - apply sound_lambda.
    - apply sound_early; assumption.
    - eapply sound_call; eassumption.
    - eapply sound_error_of_error; eassumption.
    - eapply sound_error; eassumption.
    - eapply sound_source; eassumption.
    - eapply sound_if; eassumption.
    - eapply sound_if_type; eassumption.
    - eapply (sound_let rho s (Some x)); eassumption.
    - eapply (sound_let rho s None); eassumption.
    - eapply sound_and; eassumption.
    - eapply sound_or; eassumption.
    - eapply sound_binary; eassumption.
    - eapply sound_equality; eassumption.
    - eapply sound_equality_early; eauto.
    - eapply sound_equality_early; [assumption|]. right. eauto 9.
    - eapply sound_not; eassumption.
    - eapply sound_try_error; eassumption.
    - eapply sound_try; eassumption.
    - eapply sound_record; eassumption.
    - eapply sound_field; eassumption.
    - eapply sound_update; eassumption.
    - eapply sound_box; eassumption.
    - eapply sound_boxed; eassumption.
    - reflexivity.
    - exists s1. auto.
    - left. assumption.
    - right. eauto.
    - eapply closure_calls; eassumption.
    - eapply function_calls; eassumption.
    - eapply kept_calls; eassumption.
    - eapply once_calls; eassumption.
    - eapply again_calls; eassumption.
    - eapply outer_calls; eassumption.
  Qed.
End Lower.
