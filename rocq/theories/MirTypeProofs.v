(** Soundness of the type checker of the middle end. *)
From Coq Require Import String List Bool Arith Lia.
From Verif Require Import Base Mir MirScopeSpec MirNormSpec MirSim MirTypeCheck MirTypeSpec.
Import ListNotations.

(** ** Lookups *)
Lemma lookup_app {A} (l l' : list (string * A)) x :
  lookup (l ++ l') x = match lookup l x with Some a => Some a | None => lookup l' x end.
Proof.
  induction l as [|[k a] l IH]; cbn; [reflexivity|]. destruct (String.eqb x k); [reflexivity|apply IH].
Qed.

Lemma lookup_some_in {A} (l : list (string * A)) x a : lookup l x = Some a -> In (x, a) l.
Proof.
  induction l as [|[k b] l IH]; cbn; [discriminate|].
  destruct (String.eqb_spec x k) as [->|]; [injection 1 as ->; auto|auto].
Qed.

Lemma lookup_none_in {A} (l : list (string * A)) x : lookup l x = None <-> ~ In x (map fst l).
Proof.
  induction l as [|[k b] l IH]; cbn; [tauto|].
  destruct (String.eqb_spec x k) as [->|Hne]; [split; [discriminate|tauto]|].
  rewrite IH. split; [intros H [E|E]; [congruence|tauto]|tauto].
Qed.

Lemma lookup_nodup {A} (l : list (string * A)) x a :
  NoDup (map fst l) -> In (x, a) l -> lookup l x = Some a.
Proof.
  induction l as [|[k b] l IH]; cbn; [tauto|]. intros N [E|E]; inversion N; subst.
  - injection E as -> ->. rewrite String.eqb_refl. reflexivity.
  - destruct (String.eqb_spec x k) as [->|]; [|auto].
    exfalso. apply H1. apply (in_map fst) in E. exact E.
Qed.

Lemma lookup_rev {A} (l : list (string * A)) x : NoDup (map fst l) -> lookup (rev l) x = lookup l x.
Proof.
  intros N. destruct (lookup l x) eqn:E.
  - apply lookup_nodup; [rewrite map_rev; apply NoDup_rev; exact N|]. apply in_rev. rewrite rev_involutive.
    apply lookup_some_in. exact E.
  - apply lookup_none_in. apply lookup_none_in in E. rewrite map_rev. intros H. apply in_rev in H. auto.
Qed.

Lemma distinct_names_nodup l : distinct_names l = true -> NoDup l.
Proof.
  induction l as [|x l IH]; cbn; [constructor|]. intros H. apply andb_true_iff in H as [H1 H2].
  constructor; [|auto]. apply negb_true_iff in H1. apply mem_false in H1. exact H1.
Qed.

Lemma find_def_lookup (defs : list fdef) g :
  lookup (map (fun d => (f_name d, f_type d)) defs) g = option_map f_type (find_def defs g).
Proof.
  unfold find_def. induction defs as [|d defs IH]; cbn; [reflexivity|].
  destruct (String.eqb g (f_name d)); [reflexivity|exact IH].
Qed.

Lemma find_def_in (defs : list fdef) g d : find_def defs g = Some d -> In d defs /\ f_name d = g.
Proof.
  unfold find_def. intros H. apply find_some in H as [H1 H2]. apply String.eqb_eq in H2. auto.
Qed.

Lemma module_variables_lookup m x :
  NoDup (map fst (m_declared m) ++ map f_name (m_defs m)) ->
  lookup (module_variables m) x = global_type m x.
Proof.
  intros N. unfold module_variables, global_type. rewrite lookup_rev.
  - rewrite lookup_app, find_def_lookup. destruct (lookup (m_declared m) x) eqn:E.
    + destruct (find_def (m_defs m) x) as [d|] eqn:F; [|reflexivity]. exfalso.
      apply find_def_in in F as [F1 F2]. apply lookup_some_in in E.
      apply (in_map fst) in E. apply (in_map f_name) in F1. cbn in E. rewrite F2 in F1.
      clear F2. induction (map fst (m_declared m)) as [|k l IH]; [destruct E|].
      cbn in N. inversion N; subst. destruct E as [->|E]; [|auto]. apply H1. apply in_or_app. auto.
    + destruct (find_def (m_defs m) x); reflexivity.
  - rewrite map_app, map_map. exact N.
Qed.

(** ** The checker depends on lookups only *)
Lemma check_all_ext (check check' : variables -> expr -> option mtype) vars vars' es :
  Forall (fun e => check vars e = check' vars' e) es ->
  forall ts, check_all check vars es ts = check_all check' vars' es ts.
Proof.
  induction 1 as [|e es H _ IH]; intros [|t ts]; cbn; try reflexivity. rewrite H.
  destruct (check' vars' e); [|reflexivity]. rewrite IH. reflexivity.
Qed.

Definition alike (vars vars' : variables) : Prop := forall x, lookup vars x = lookup vars' x.

Lemma alike_cons vars vars' x t : alike vars vars' -> alike ((x, t) :: vars) ((x, t) :: vars').
Proof. intros H y. cbn. destruct (String.eqb y x); [reflexivity|apply H]. Qed.

Lemma alike_app vars vars' l : alike vars vars' -> alike (l ++ vars) (l ++ vars').
Proof. intros H y. rewrite !lookup_app. destruct (lookup l y); [reflexivity|apply H]. Qed.

Lemma forallb_ext {A} (f g : A -> bool) l : (forall a, f a = g a) -> forallb f l = forallb g l.
Proof. intros H. induction l as [|a l IH]; cbn; [reflexivity|]. rewrite H, IH. reflexivity. Qed.

Lemma check_ext m e : forall r vars vars', alike vars vars' -> check_expr m r vars e = check_expr m r vars' e.
Proof.
  induction e as [l|x|o es IH|c t e IHc IHt IHe|a alts de IHa IHalts IHde|x t b e IHb IHe
                  |d e IHd IHe|o x t e IHo IHe|xs e IHe|xs e IHe] using expr_ind';
    intros r vars vars' A; cbn [check_expr].
  - reflexivity.
  - apply A.
  - destruct (operand_types m o (length es)) as [ts|]; [|reflexivity].
    rewrite (check_all_ext _ (check_expr m r) vars vars' es).
    + destruct (check_all _ vars' es ts); [|reflexivity].
      destruct o; cbn; try reflexivity. apply A.
    + eapply Forall_impl; [|exact IH]. cbn. auto.
  - rewrite (IHc r vars vars' A), (IHt r vars vars' A), (IHe r vars vars' A). reflexivity.
  - rewrite (IHa r vars vars' A). destruct (check_expr m r vars' a) as [ta|]; [|reflexivity].
    destruct (same_type ta TVariant); [|reflexivity].
    assert (E : forall sofar, check_alternatives (check_expr m r) vars alts sofar =
                              check_alternatives (check_expr m r) vars' alts sofar).
    { induction IHalts as [|al alts H _ IH]; intros sofar; cbn [check_alternatives]; [reflexivity|].
      destruct (existsb _ (a_types al)); [reflexivity|]. destruct (a_types al); [reflexivity|].
      rewrite (H r _ ((a_name al, alt_type (m0 :: l)) :: vars')) by (apply alike_cons; exact A).
      destruct (check_expr m r _ (a_body al)); [|reflexivity]. destruct sofar; [|apply IH].
      destruct (same_type _ _); [apply IH|reflexivity]. }
    rewrite E. destruct (check_alternatives _ vars' alts None) as [sofar|]; [|reflexivity].
    destruct de as [[x e]|]; [|reflexivity].
    rewrite (IHde x e eq_refl r _ ((x, TVariant) :: vars')) by (apply alike_cons; exact A). reflexivity.
  - rewrite (IHb r vars vars' A). destruct (check_expr m r vars' b) as [t'|]; [|reflexivity].
    destruct (same_type t' t); [|reflexivity]. apply IHe. apply alike_cons. exact A.
  - rewrite (IHd (f_result d) _ (rev (f_env d ++ f_args d) ++ (f_name d, f_type d) :: vars'))
      by (apply alike_app, alike_cons; exact A).
    destruct (check_expr m _ _ (f_body d)) as [t|]; [|reflexivity].
    destruct (same_type t (f_result d)); [|reflexivity]. apply IHe. apply alike_cons. exact A.
  - rewrite (IHe r _ ((x, t) :: vars')) by (apply alike_cons; exact A). rewrite (IHo r vars vars' A). reflexivity.
  - rewrite (IHe r vars vars' A). rewrite (forallb_ext _ (fun p => match lookup vars' (fst p) with Some t => same_type t (snd p) | None => false end));
      [reflexivity|]. intros p. rewrite A. reflexivity.
  - rewrite (IHe r vars vars' A). rewrite (forallb_ext _ (fun p => match lookup vars' (fst p) with Some t => same_type t (snd p) | None => false end));
      [reflexivity|]. intros p. rewrite A. reflexivity.
Qed.

Lemma check_all_forall check vars es ts :
  check_all check vars es ts = true -> Forall2 (fun e t => check vars e = Some t) es ts.
Proof.
  revert ts. induction es as [|e es IH]; intros [|t ts]; cbn; try discriminate; [constructor|].
  destruct (check vars e) as [t'|] eqn:E; [|discriminate]. intros H. apply andb_true_iff in H as [H1 H2].
  apply mtype_eqb_eq in H1. subst. constructor; auto.
Qed.

Lemma check_alternatives_in check vars alts sofar r :
  check_alternatives check vars alts sofar = Some r ->
  (forall t, sofar = Some t -> r = Some t) /\
  forall al, In al alts ->
    ~ In TVariant (a_types al) /\
    exists t, r = Some t /\ check ((a_name al, alt_type (a_types al)) :: vars) (a_body al) = Some t.
Proof.
  revert sofar. induction alts as [|al alts IH]; intros sofar; cbn [check_alternatives].
  - injection 1 as ->. split; [auto|intros al []].
  - destruct (existsb _ (a_types al)) eqn:Ev; [discriminate|].
    destruct (a_types al) as [|t0 ts0] eqn:Et; [discriminate|]. rewrite <- Et in *.
    destruct (check _ (a_body al)) as [t|] eqn:Ec; [|discriminate].
    assert (NV : ~ In TVariant (a_types al)).
    { intros H. enough (existsb (mtype_eqb TVariant) (a_types al) = true) by congruence.
      apply existsb_exists. exists TVariant. auto. }
    destruct sofar as [t'|].
    + destruct (same_type t t') eqn:Es; [|discriminate]. apply mtype_eqb_eq in Es. subst t'.
      intros H. apply IH in H as [H1 H2]. split; [exact H1|].
      intros al' [<-|Hal]; [|auto]. split; [exact NV|]. exists t. split; [auto|exact Ec].
    + intros H. apply IH in H as [H1 H2]. split; [discriminate|].
      intros al' [<-|Hal]; [|auto]. split; [exact NV|]. exists t. split; [auto|exact Ec].
Qed.

(** ** Types of values, with the types of the cells *)
Definition cells := list mtype.
Definition extends (S S' : cells) : Prop := exists l, S' = S ++ l.

Lemma extends_refl S : extends S S.
Proof. exists []. rewrite app_nil_r. reflexivity. Qed.
Lemma extends_trans S1 S2 S3 : extends S1 S2 -> extends S2 S3 -> extends S1 S3.
Proof. intros [l ->] [l' ->]. exists (l ++ l'). rewrite app_assoc. reflexivity. Qed.
Lemma extends_nth S S' i t : extends S S' -> nth_error S i = Some t -> nth_error S' i = Some t.
Proof.
  intros [l ->] H. rewrite nth_error_app1; [exact H|]. apply nth_error_Some. congruence.
Qed.

Definition good (e : expr) : Prop :=
  forall e', within e' e ->
    match e' with
    | Case _ _ None => False
    | LetRec d _ => f_thunk d = true -> f_args d = []
    | _ => True
    end.

Definition environment_right (md : mode) (scope : arguments) (d : fdef) : Prop :=
  match md with
  | Lexical => forall x t, In (x, t) (f_env d) -> x <> f_name d /\ lookup scope x = Some t
  | Declared =>
      forall x t, In (x, t) (f_env d) <->
        lookup scope x = Some t /\ free x (f_body d) /\ x <> f_name d /\ ~ In x (map fst (f_args d))
  end.

(** What the proof needs of an expression in a scope. *)
Definition fit (md : mode) (m : mmodule) (scope : arguments) (e : expr) : Prop :=
  good e /\ (forall s l, local scope e s l -> environment_right md s l) /\
  lookup scope (m_fallback m) = None /\ ~ In (m_fallback m) (binders e).

Definition scope_in (scope : arguments) (d : fdef) : arguments :=
  rev (f_args d) ++ (f_name d, f_type d) :: scope.

Section Sound.
  Variable md : mode.
  Variable w : world.
  Variable m : mmodule.
  Let globals := module_variables m.

  (** The body of a function has its result type. *)
  Definition body_fits (scope : arguments) (d : fdef) : Prop :=
    check_expr m (f_result d) (scope ++ globals) (f_body d) = Some (f_result d) /\
    fit md m scope (f_body d).

  Inductive vtyped (S : cells) : value -> mtype -> Prop :=
  | vt_bool b : vtyped S (VBool b) TBoolean
  | vt_bytes s : vtyped S (VBytes s) TByteString
  | vt_none : vtyped S VNone TNone
  | vt_number n : vtyped S (VNumber n) TNumber
  | vt_record n ts vs :
      lookup (m_types m) n = Some ts -> length vs = length ts ->
      (forall i v t, nth_error vs i = Some v -> nth_error ts i = Some t -> vtyped S v t) ->
      vtyped S (VRecord n vs) (TRecord n)
  | vt_variant t v : vtyped S v t -> t <> TVariant -> vtyped S (VVariant t v) TVariant
  | vt_closure d c scope :
      body_fits (scope_in scope d) d ->
      (forall x, free x (LetRec d (Lit LNone)) -> lookup c x = None <-> lookup scope x = None) ->
      (forall x v t, free x (LetRec d (Lit LNone)) -> lookup c x = Some v -> lookup scope x = Some t ->
         vtyped S v t) ->
      vtyped S (VClosure d c) (TFunction (map snd (f_args d)) (f_result d))
  | vt_thunk i d c scope :
      body_fits (scope_in scope d) d ->
      (forall x, free x (LetRec d (Lit LNone)) -> lookup c x = None <-> lookup scope x = None) ->
      (forall x v t, free x (LetRec d (Lit LNone)) -> lookup c x = Some v -> lookup scope x = Some t ->
         vtyped S v t) ->
      f_args d = [] -> nth_error S i = Some (f_result d) ->
      vtyped S (VThunk i d c) (TFunction (map snd (f_args d)) (f_result d))
  | vt_global g ts t : global_type m g = Some (TFunction ts t) -> vtyped S (VGlobal g) (TFunction ts t)
  | vt_outside i ts t : vtyped S (VOutside i (TFunction ts t)) (TFunction ts t).

  Lemma vtyped_extends S S' v t : extends S S' -> vtyped S v t -> vtyped S' v t.
  Proof.
    intros E. induction 1; try (econstructor; eauto; fail).
    eapply vt_thunk; eauto. eapply extends_nth; eauto.
  Qed.

  Lemma vtyped_type_of S v t : vtyped S v t -> type_of m v = Some t.
  Proof. induction 1; cbn; try reflexivity; assumption. Qed.

  Lemma vtyped_fun S v t t' : vtyped S v t -> vtyped S v t' -> t = t'.
  Proof. intros H H'. apply vtyped_type_of in H, H'. congruence. Qed.

  Definition all_typed (S : cells) := Forall2 (vtyped S).

  Lemma all_typed_nth S vs ts :
    all_typed S vs ts <->
    length vs = length ts /\
    forall i v t, nth_error vs i = Some v -> nth_error ts i = Some t -> vtyped S v t.
  Proof.
    split.
    - induction 1; (split; [cbn; lia || reflexivity|]); intros i v u.
      + destruct i; discriminate.
      + destruct IHForall2 as [_ IH]. destruct i; cbn; [congruence|apply IH].
    - revert ts. induction vs as [|v vs IH]; intros [|t ts] [L H]; try discriminate; constructor.
      + apply (H 0); reflexivity.
      + apply IH. split; [cbn in L; lia|]. intros i; apply (H (Datatypes.S i)).
  Qed.

  Lemma all_typed_extends S S' vs ts : extends S S' -> all_typed S vs ts -> all_typed S' vs ts.
  Proof. intros E. induction 1; constructor; eauto using vtyped_extends. Qed.

  Lemma record_typed S n ts vs :
    lookup (m_types m) n = Some ts -> all_typed S vs ts -> vtyped S (VRecord n vs) (TRecord n).
  Proof. intros L H. apply all_typed_nth in H as [H1 H2]. econstructor; eauto. Qed.

  Lemma vtyped_has S v t : vtyped S v t -> has_type m v t.
  Proof.
    revert t. induction v as [| | | |n vs IH|ty v IH|d c _|i d c _|g|i ty] using value_ind';
      intros t H; inversion H; subst; try (constructor; auto; fail).
    - econstructor; [eassumption|]. assert (A : all_typed S vs ts) by (apply all_typed_nth; auto).
      clear - A IH. induction A; constructor; inversion IH; subst; auto.
  Qed.

  (** *** States *)
  Definition event_typed (S : cells) (ev : event) : Prop :=
    match ev with
    | EvCall (FName g) vs =>
        exists ts t, lookup (m_declared m) g = Some (TFunction ts t) /\ all_typed S vs ts
    | EvCall (FHandle _) vs => exists ts, all_typed S vs ts
    | EvResult v => exists t, vtyped S v t
    end.

  Record state_typed (S : cells) (st : state) : Prop := StateTyped {
    st_log : Forall (event_typed S) (s_log st);
    st_length : length (s_cells st) = length S;
    st_cells : forall i v t, nth_error (s_cells st) i = Some (Some v) -> nth_error S i = Some t -> vtyped S v t;
    st_globals : forall g v, lookup (s_globals st) g = Some v ->
      exists d, find_def (m_defs m) g = Some d /\ vtyped S v (f_result d)
  }.

  Lemma event_extends S S' ev : extends S S' -> event_typed S ev -> event_typed S' ev.
  Proof.
    intros E. destruct ev as [[g|i] vs|v]; cbn.
    - intros (ts & t & H1 & H2). eauto 6 using all_typed_extends.
    - intros (ts & H). eauto using all_typed_extends.
    - intros (t & H). eauto using vtyped_extends.
  Qed.

  Lemma state_new_cell S st t :
    state_typed S st ->
    state_typed (S ++ [t]) (State (s_log st) (s_cells st ++ [None]) (s_globals st)).
  Proof.
    assert (E : extends S (S ++ [t])) by (exists [t]; reflexivity).
    intros [H1 H2 H3 H4]. split; cbn.
    - eapply Forall_impl; [|exact H1]. intros ev. apply event_extends. exact E.
    - rewrite !app_length, H2. reflexivity.
    - intros i v u Hv Hu. destruct (Nat.lt_ge_cases i (length (s_cells st))) as [L|L].
      + rewrite nth_error_app1 in Hv by exact L. rewrite nth_error_app1 in Hu by lia.
        eapply vtyped_extends; [exact E|eauto].
      + rewrite nth_error_app2 in Hv by exact L. destruct (i - length (s_cells st)) as [|k]; cbn in Hv;
          [discriminate|destruct k; discriminate].
    - intros g v Hg. destruct (H4 g v Hg) as (d & F & T). exists d. split; [exact F|].
      eapply vtyped_extends; eauto.
  Qed.

  Lemma nth_set_length {A} (l : list A) i a : length (nth_set i a l) = length l.
  Proof. revert i. induction l as [|b l IH]; intros [|i]; cbn; auto. Qed.

  Lemma nth_set_nth {A} (l : list A) i j a b :
    nth_error (nth_set i a l) j = Some b -> (i = j /\ b = a) \/ nth_error l j = Some b.
  Proof.
    revert i j. induction l as [|c l IH]; intros [|i] [|j]; cbn; auto.
    - injection 1; auto.
    - intros H. apply IH in H as [[-> ->]|H]; auto.
  Qed.

  Lemma state_set_cell S st i v t :
    state_typed S st -> nth_error S i = Some t -> vtyped S v t -> state_typed S (set_cell st i v).
  Proof.
    intros [H1 H2 H3 H4] N V. split; cbn; auto.
    - rewrite nth_set_length. exact H2.
    - intros j u ty Hu Ht. apply nth_set_nth in Hu as [[-> E]|Hu]; [|eauto].
      injection E as ->. congruence.
  Qed.

  Lemma state_set_global S st g v d :
    state_typed S st -> find_def (m_defs m) g = Some d -> vtyped S v (f_result d) ->
    state_typed S (set_global st g v).
  Proof.
    intros [H1 H2 H3 H4] F V. split; cbn; auto.
    intros h u. destruct (String.eqb_spec h g) as [->|]; [injection 1 as <-; eauto|apply H4].
  Qed.

  Lemma state_log S st ev : state_typed S st -> event_typed S ev -> state_typed S (log_event st ev).
  Proof.
    intros [H1 H2 H3 H4] E. split; cbn; auto. apply Forall_app. auto.
  Qed.

  (** *** Outcomes *)
  Definition safe {A} (R : option mtype) (S : cells) (P : cells -> A -> Prop) (o : out A) : Prop :=
    match o with
    | Done a st => exists S', extends S S' /\ state_typed S' st /\ P S' a
    | Return v st => exists S' r, extends S S' /\ state_typed S' st /\ R = Some r /\ vtyped S' v r
    | Timeout st | Bad st => exists S', state_typed S' st
    | Wrong => False
    end.

  Lemma safe_bind {A B} R S (P : cells -> A -> Prop) (Q : cells -> B -> Prop) o f :
    safe R S P o ->
    (forall a st S', extends S S' -> state_typed S' st -> P S' a -> safe R S' Q (f a st)) ->
    safe R S Q (obind o f).
  Proof.
    destruct o as [a st|v st|st|st|]; cbn; auto. intros (S' & E & T & H) K.
    specialize (K a st S' E T H). unfold safe in *. destruct (f a st) as [b st'|v st'|st'|st'|]; auto.
    - destruct K as (S'' & E' & T' & H'). eauto 6 using extends_trans.
    - destruct K as (S'' & r & E' & T' & H'). eauto 8 using extends_trans.
  Qed.

  Lemma safe_shrink {A} R S S' (P : cells -> A -> Prop) o : extends S S' -> safe R S' P o -> safe R S P o.
  Proof.
    intros X. destruct o as [a st|v st|st|st|]; cbn; auto.
    - intros (S1 & E & H). eauto 6 using extends_trans.
    - intros (S1 & r & E & H). eauto 6 using extends_trans.
  Qed.

  Lemma safe_done {A} R S (P : cells -> A -> Prop) a st :
    state_typed S st -> P S a -> safe R S P (Done a st).
  Proof. intros T H. exists S. auto using extends_refl. Qed.

  Definition call_safe (call : state -> value -> list value -> out value) : Prop :=
    forall S st f vs ts t,
      state_typed S st -> vtyped S f (TFunction ts t) -> all_typed S vs ts ->
      safe None S (fun S' v => vtyped S' v t) (call st f vs).

  Lemma safe_weaken {A} R S (P Q : cells -> A -> Prop) o :
    safe R S P o -> (forall S' a, P S' a -> Q S' a) -> safe R S Q o.
  Proof.
    destruct o as [a st|v st|st|st|]; cbn; auto. intros (S' & E & T & H) K. eauto 6.
  Qed.

  Lemma safe_none {A} R S (P : cells -> A -> Prop) o : safe None S P o -> safe R S P o.
  Proof. destruct o; cbn; auto. intros (S' & r & _ & _ & E & _). discriminate. Qed.

  (** *** Expressions *)
  Definition env_typed (S : cells) (scope : arguments) (rho : env) (e : expr) : Prop :=
    (forall x, free x e -> lookup rho x = None <-> lookup scope x = None) /\
    (forall x v t, free x e -> lookup rho x = Some v -> lookup scope x = Some t -> vtyped S v t).

  Lemma env_extends S S' scope rho e : extends S S' -> env_typed S scope rho e -> env_typed S' scope rho e.
  Proof. intros E [H1 H2]. split; eauto using vtyped_extends. Qed.

  Lemma env_sub S scope rho e e1 :
    (forall x, free x e1 -> free x e) -> env_typed S scope rho e -> env_typed S scope rho e1.
  Proof. intros F [H1 H2]. split; eauto. Qed.

  Lemma env_bind S scope rho e e1 x v t :
    (forall y, free y e1 -> y <> x -> free y e) -> env_typed S scope rho e -> vtyped S v t ->
    env_typed S ((x, t) :: scope) ((x, v) :: rho) e1.
  Proof.
    intros F [H1 H2] V. split; intros y; cbn.
    - intros Fy. destruct (String.eqb_spec y x); [split; discriminate|auto].
    - intros u ty Fy. destruct (String.eqb_spec y x); [congruence|eauto].
  Qed.

  Lemma fit_sub scope e scope1 e1 :
    fit md m scope e ->
    (forall e', within e' e1 -> within e' e) ->
    (forall s l, local scope1 e1 s l -> local scope e s l) ->
    lookup scope1 (m_fallback m) = None ->
    incl (binders e1) (binders e) -> fit md m scope1 e1.
  Proof.
    intros (F1 & F2 & F3 & F4) W L N I. split; [|split; [|split]]; auto.
    intros e' He'. apply F1. auto.
  Qed.

  Lemma fit_bind scope e x t e1 :
    fit md m scope e ->
    (forall e', within e' e1 -> within e' e) ->
    (forall s l, local ((x, t) :: scope) e1 s l -> local scope e s l) ->
    In x (binders e) ->
    incl (binders e1) (binders e) -> fit md m ((x, t) :: scope) e1.
  Proof.
    intros F W L N I. apply (fit_sub scope e); auto. destruct F as (_ & _ & F3 & F4). cbn.
    destruct (String.eqb_spec (m_fallback m) x) as [E|]; [|exact F3]. rewrite E in F4. contradiction.
  Qed.

  Hypothesis globals_type : forall x, lookup globals x = global_type m x.
  Hypothesis infos_typed : forall t g, lookup_type (m_infos m) t = Some g ->
    global_type m g = global_type m (m_fallback m).

  Hypothesis globals_functions : forall g t, global_type m g = Some t -> exists ts r, t = TFunction ts r.

  Variable call : state -> value -> list value -> out value.
  Hypothesis call_sound : call_safe call.

  Lemma eval_list_safe r scope rho es :
    Forall (fun e => forall S st t,
      state_typed S st -> env_typed S scope rho e ->
      check_expr m r (scope ++ globals) e = Some t ->
      safe (Some r) S (fun S' v => vtyped S' v t) (eval md w m call rho st e)) es ->
    forall S st ts, state_typed S st -> (forall e, In e es -> env_typed S scope rho e) ->
    Forall2 (fun e t => check_expr m r (scope ++ globals) e = Some t) es ts ->
    safe (Some r) S (fun S' vs => all_typed S' vs ts) (eval_list (eval md w m call) rho st es).
  Proof.
    induction 1 as [|e es H _ IH]; intros S st ts T V C; inversion C; subst; cbn [eval_list].
    - apply safe_done; [exact T|constructor].
    - eapply safe_bind; [apply H; eauto; apply V; left; reflexivity|]. intros v st1 S1 E1 T1 V1.
      eapply safe_bind; [apply IH; eauto; intros e' He'; eapply env_extends; [exact E1|apply V; right; exact He']|].
      intros vs st2 S2 E2 T2 V2. apply safe_done; [exact T2|]. constructor; [|exact V2].
      eapply vtyped_extends; eauto.
  Qed.

  Lemma concat_typed S vs n : all_typed S vs (repeat TByteString n) -> concat_bytes vs <> None.
  Proof.
    revert vs. induction n as [|n IH]; intros vs H; cbn in H; inversion H as [|v t vs' ts V Vs]; subst; cbn;
      [discriminate|].
    inversion V; subst; cbn. specialize (IH _ Vs). destruct (concat_bytes vs'); cbn; [discriminate|contradiction].
  Qed.

  Lemma nth_set_same {A} (l : list A) i a : i < length l -> nth_error (nth_set i a l) i = Some a.
  Proof. revert i. induction l as [|b l IH]; intros [|i]; cbn; try lia; auto. intros. apply IH. lia. Qed.

  Lemma update_typed S indices : forall fields vs fs uts,
    all_typed S fs fields -> field_types indices fields = Some uts -> all_typed S vs uts ->
    exists fs', update_fields indices vs fs = Some fs' /\ all_typed S fs' fields.
  Proof.
    induction indices as [|i indices IH]; intros fields vs fs uts Hf E Hv; cbn in E.
    - injection E as <-. inversion Hv; subst. cbn. eauto.
    - destruct (nth_error fields i) as [t|] eqn:Et; [|discriminate].
      destruct (field_types indices fields) as [uts'|] eqn:Eu; [|discriminate]. injection E as <-.
      inversion Hv as [|v t' vs' ts' V Vs]; subst. cbn [update_fields].
      apply all_typed_nth in Hf as [L Hf].
      destruct (nth_error fs i) eqn:Ei.
      2:{ apply nth_error_None in Ei. assert (i < length fields) by (apply nth_error_Some; congruence). lia. }
      eapply IH; [|exact Eu|exact Vs].
      apply all_typed_nth. split; [rewrite nth_set_length; exact L|].
      intros j u ty Hu Hty. apply nth_set_nth in Hu as [[-> ->]|Hu]; [congruence|eauto].
  Qed.

  Lemma apply_op_safe r scope o ts t S st vs n :
    state_typed S st -> operand_types m o n = Some ts -> all_typed S vs ts ->
    lookup scope (m_fallback m) = None ->
    operation_type m (scope ++ globals) o = Some t ->
    safe (Some r) S (fun S' v => vtyped S' v t) (apply_op w m call o vs st).
  Proof.
    intros T Ht V Hfb Eo. destruct o as [o|o| |name|name i|name indices|ty| |ty|args res];
      cbn in Ht, Eo; cbn [apply_op].
    - injection Ht as <-. injection Eo as <-. inversion V as [|v1 t1 vs1 ts1 V1 W1]; subst.
      inversion W1 as [|v2 t2 vs2 ts2 V2 W2]; subst. inversion W2; subst. inversion V1; subst. inversion V2; subst.
      apply safe_done; [exact T|constructor].
    - injection Ht as <-. injection Eo as <-. inversion V as [|v1 t1 vs1 ts1 V1 W1]; subst.
      inversion W1 as [|v2 t2 vs2 ts2 V2 W2]; subst. inversion W2; subst. inversion V1; subst. inversion V2; subst.
      apply safe_done; [exact T|constructor].
    - injection Ht as <-. injection Eo as <-. apply concat_typed in V.
      destruct (concat_bytes vs); [|contradiction]. apply safe_done; [exact T|constructor].
    - injection Eo as <-. rewrite Ht. rewrite (Forall2_length V), Nat.eqb_refl.
      apply safe_done; [exact T|]. eapply record_typed; eauto.
    - injection Ht as <-. inversion V as [|v1 t1 vs1 ts1 V1 W1]; subst. inversion W1; subst.
      inversion V1 as [| | | |n' fs us Hl Hlen Hfs| | | | |]; subst. rewrite String.eqb_refl.
      rewrite Hl in Eo. destruct (nth_error us i) as [v|] eqn:Ev.
      + apply safe_done; [exact T|eauto].
      + exfalso. apply nth_error_None in Ev. assert (i < length fs) by (apply nth_error_Some; congruence). lia.
    - injection Eo as <-. destruct (lookup (m_types m) name) as [fields|] eqn:El; [|discriminate].
      destruct (field_types indices fields) as [uts|] eqn:Eu; [|discriminate]. injection Ht as <-.
      inversion V as [|v1 t1 vs1 ts1 V1 W1]; subst.
      inversion V1 as [| | | |n' fs us Hl Hlen Hfs| | | | |]; subst. rewrite String.eqb_refl.
      assert (fs = fields) by congruence. subst fs.
      destruct (update_typed S indices fields vs1 us uts) as (fs' & -> & H); auto.
      { apply all_typed_nth. auto. }
      apply safe_done; [exact T|]. eapply record_typed; eauto.
    - injection Eo as <-.
      assert (E : ts = [ty] /\ ty <> TVariant) by (destruct ty; cbn in Ht; try discriminate; injection Ht as <-; split; congruence).
      destruct E as [-> NV]. inversion V as [|v1 t1 vs1 ts1 V1 W1]; subst. inversion W1; subst.
      apply safe_done; [exact T|]. constructor; assumption.
    - injection Ht as <-. inversion V as [|v1 t1 vs1 ts1 V1 W1]; subst. inversion W1; subst.
      inversion V1; subst. rewrite lookup_app, Hfb, globals_type in Eo.
      destruct (globals_functions _ _ Eo) as (us & u & ->).
      apply safe_done; [exact T|]. destruct (lookup_type (m_infos m) t0) as [g|] eqn:Eg; constructor; [|exact Eo].
      rewrite (infos_typed _ _ Eg). exact Eo.
    - injection Ht as <-. injection Eo as <-. inversion V as [|v1 t1 vs1 ts1 V1 W1]; subst. inversion W1; subst.
      apply safe_done; assumption.
    - injection Ht as <-. injection Eo as <-. inversion V as [|v1 t1 vs1 ts1 V1 W1]; subst.
      rewrite (Forall2_length W1), Nat.eqb_refl. apply safe_none. eapply call_sound; eauto.
  Qed.

  Lemma eval_alts_safe r rho S st tag p alts other P :
    (forall al, In al alts -> existsb (mtype_eqb tag) (a_types al) = true ->
       safe r S P (eval md w m call ((a_name al, downcast (alt_type (a_types al)) tag p) :: rho) st (a_body al))) ->
    safe r S P other -> safe r S P (eval_alts (eval md w m call) rho st tag p alts other).
  Proof.
    intros H O. induction alts as [|al alts IH]; cbn [eval_alts]; [exact O|].
    destruct (existsb _ (a_types al)) eqn:E; [apply H; [left; reflexivity|exact E]|].
    apply IH. intros al' Hal. apply H. right. exact Hal.
  Qed.

  Lemma existsb_tag tag ts : existsb (mtype_eqb tag) ts = true -> In tag ts.
  Proof. intros H. apply existsb_exists in H as (t & H1 & H2). apply mtype_eqb_eq in H2. congruence. Qed.

  (** The variable of an alternative. *)
  Lemma downcast_typed S ts tag p :
    vtyped S p tag -> tag <> TVariant -> In tag ts -> ~ In TVariant ts ->
    vtyped S (downcast (alt_type ts) tag p) (alt_type ts).
  Proof.
    intros V N I NV. destruct ts as [|t [|t' ts]]; cbn; [constructor; assumption| |constructor; assumption].
    destruct I as [->|[]]. destruct tag; try exact V. contradiction.
  Qed.

  Lemma free_definition x d l :
    free x (LetRec d (Lit l)) -> x <> f_name d /\ ~ In x (map fst (f_args d)) /\ free x (f_body d).
  Proof.
    intros F. inversion F; subst; [auto|]. match goal with H : free _ (Lit _) |- _ => inversion H end.
  Qed.

  (** The environment a closure keeps. *)
  Lemma capture_typed S scope rho d e :
    env_typed S scope rho (LetRec d e) -> environment_right md scope d ->
    exists c, capture md d rho = Some c /\ env_typed S scope c (LetRec d (Lit LNone)).
  Proof.
    intros V R. unfold capture. destruct md.
    - exists rho. split; [reflexivity|]. eapply env_sub; [|exact V]. intros x Fx.
      apply free_definition in Fx as (? & ? & ?). apply free_letrec_definition; assumption.
    - cbn in R.
      assert (W : forall x, free x (LetRec d (Lit LNone)) -> free x (LetRec d e)).
      { intros x Fx. apply free_definition in Fx as (? & ? & ?). apply free_letrec_definition; assumption. }
      destruct V as [V1 V2].
      assert (K : forall x, In x (map fst (f_env d)) -> exists t, lookup scope x = Some t /\ free x (LetRec d e)).
      { intros x Hx. apply in_map_iff in Hx as ([y t] & <- & Hx). apply R in Hx as (H1 & H2 & H3 & H4).
        exists t. split; [exact H1|]. apply free_letrec_definition; assumption. }
      destruct (capture_vars_some (map fst (f_env d)) rho) as (c & Hc).
      { intros x Hx E. destruct (K x Hx) as (t & Ht & F). apply V1 in E; [congruence|exact F]. }
      exists c. split; [exact Hc|].
      assert (L : forall x, free x (LetRec d (Lit LNone)) -> lookup c x = lookup rho x).
      { intros x Fx. rewrite (capture_vars_lookup _ _ _ x Hc). destruct (mem x (map fst (f_env d))) eqn:Em; [reflexivity|].
        apply mem_false in Em. symmetry. apply (V1 x (W x Fx)).
        destruct (lookup scope x) as [t|] eqn:Es; [|reflexivity]. exfalso. apply Em.
        apply free_definition in Fx as (? & ? & ?).
        change x with (fst (x, t)). apply in_map. apply R. auto. }
      split.
      + intros x Fx. rewrite (L x Fx). apply V1. auto.
      + intros x v t Fx. rewrite (L x Fx). apply V2. auto.
  Qed.

  (** The context in which the body of a local function is checked. *)
  Lemma body_alike scope d :
    environment_right md scope d ->
    alike (rev (f_env d ++ f_args d) ++ (f_name d, f_type d) :: scope ++ globals) (scope_in scope d ++ globals).
  Proof.
    intros R x. unfold scope_in. rewrite rev_app_distr, <- !app_assoc, !lookup_app.
    destruct (lookup (rev (f_args d)) x); [reflexivity|]. cbn. rewrite !lookup_app.
    destruct (lookup (rev (f_env d)) x) as [t|] eqn:E; [|destruct (String.eqb x (f_name d)); reflexivity].
    apply lookup_some_in in E. apply in_rev in E.
    assert (H : x <> f_name d /\ lookup scope x = Some t).
    { destruct md; cbn in R; [auto|]. apply R in E as (H1 & _ & H2 & _). auto. }
    destruct H as [H1 H2]. apply String.eqb_neq in H1. rewrite H1, H2. reflexivity.
  Qed.

  Ltac subset :=
    let y := fresh "y" in intros y; cbn [binders In]; rewrite ?in_app_iff; cbn [In]; rewrite ?in_app_iff; tauto.

  Lemma eval_safe e : forall r scope rho S st t,
    state_typed S st -> env_typed S scope rho e -> fit md m scope e ->
    check_expr m r (scope ++ globals) e = Some t ->
    safe (Some r) S (fun S' v => vtyped S' v t) (eval md w m call rho st e).
  Proof.
    induction e as [l|x|o es IH|c t e IHc IHt IHe|a alts de IHa IHalts IHde|x t b e IHb IHe
                    |d e IHd IHe|o x t e IHo IHe|xs e IHe|xs e IHe] using expr_ind';
      intros r scope rho S st ty T V F C; cbn [check_expr] in C; cbn [eval].
    - destruct l; cbn in C; injection C as <-; apply safe_done; try exact T; constructor.
    - unfold eval_var. destruct V as [V1 V2]. rewrite lookup_app in C.
      destruct (lookup rho x) as [v|] eqn:Ex.
      + destruct (lookup scope x) as [t|] eqn:Es.
        * injection C as ->. apply safe_done; [exact T|]. eapply V2; eauto. constructor.
        * apply V1 in Es; [congruence|constructor].
      + assert (Es : lookup scope x = None) by (apply V1; [constructor|exact Ex]).
        rewrite Es, globals_type in C. rewrite C. destruct (globals_functions _ _ C) as (ts & u & ->).
        apply safe_done; [exact T|]. constructor. exact C.
    - destruct (operand_types m o (length es)) as [ts|] eqn:Eo; [|discriminate].
      destruct (check_all _ _ es ts) eqn:Ec; [|discriminate]. apply check_all_forall in Ec.
      eapply safe_bind.
      + eapply eval_list_safe; [|exact T| |exact Ec].
        * rewrite Forall_forall in IH |- *. intros e He S' st' t' T' V' C'. eapply IH; eauto.
          apply (fit_sub scope (Op o es)); auto.
          -- intros. eapply within_op; eauto.
          -- intros. eapply local_op; eauto.
          -- apply F.
          -- intros y Hy. cbn [binders]. apply in_flat_map. eauto.
        * intros e He. eapply env_sub; [|exact V]. intros. eapply free_op; eauto.
      + intros vs st1 S1 E1 T1 V1. eapply apply_op_safe; eauto. apply F.
    - destruct (check_expr m r _ c) as [tc|] eqn:Ec; [|discriminate].
      destruct (check_expr m r _ t) as [t1|] eqn:E1; [|discriminate].
      destruct (check_expr m r _ e) as [t2|] eqn:E2; [|discriminate].
      destruct (same_type tc TBoolean) eqn:Q1; [|discriminate]. destruct (same_type t1 t2) eqn:Q2; [|discriminate].
      apply mtype_eqb_eq in Q1, Q2. subst tc t2. injection C as <-.
      eapply safe_bind; [eapply IHc; eauto|].
      + eapply env_sub; [|exact V]. intros; apply free_if_1; assumption.
      + apply (fit_sub scope (If c t e)); auto; [intros; apply within_if_1; assumption|intros; apply local_if_1; assumption|apply F|subset].
      + intros v st1 S1 X1 T1 V1. inversion V1; subst.
        apply (env_extends _ _ _ _ _ X1) in V. destruct b.
        * eapply IHt; eauto.
          -- eapply env_sub; [|exact V]. intros; apply free_if_2; assumption.
          -- apply (fit_sub scope (If c t e)); auto; [intros; apply within_if_2; assumption|intros; apply local_if_2; assumption|apply F|subset].
        * eapply IHe; eauto.
          -- eapply env_sub; [|exact V]. intros; apply free_if_3; assumption.
          -- apply (fit_sub scope (If c t e)); auto; [intros; apply within_if_3; assumption|intros; apply local_if_3; assumption|apply F|subset].
    - destruct (check_expr m r _ a) as [ta|] eqn:Ea; [|discriminate].
      destruct (same_type ta TVariant) eqn:Q1; [|discriminate]. apply mtype_eqb_eq in Q1. subst ta.
      destruct (check_alternatives _ _ alts None) as [sofar|] eqn:Ealts; [|discriminate].
      apply check_alternatives_in in Ealts as [_ Ealts].
      destruct de as [[x e]|].
      2:{ exfalso. destruct F as (F & _). exact (F _ (within_here _)). }
      destruct (check_expr m r ((x, TVariant) :: _) e) as [t|] eqn:Ee; [|discriminate].
      assert (K : t = ty /\ (forall t', sofar = Some t' -> t' = ty)).
      { destruct sofar as [t'|].
        - destruct (same_type t t') eqn:Q; [|discriminate]. apply mtype_eqb_eq in Q. injection C as <-.
          split; [reflexivity|]. intros. congruence.
        - injection C as <-. split; [reflexivity|discriminate]. }
      destruct K as [-> K]. clear C.
      eapply safe_bind; [eapply IHa; eauto|].
      + eapply env_sub; [|exact V]. intros; apply free_case_argument; assumption.
      + apply (fit_sub scope (Case a alts (Some (x, e)))); auto;
          [intros; apply within_case_argument; assumption|intros; apply local_case_argument; assumption|apply F|subset].
      + intros v st1 S1 X1 T1 V1. inversion V1 as [| | | | |tag p Vp Np| | | |]; subst.
        apply (env_extends _ _ _ _ _ X1) in V. apply eval_alts_safe.
        * intros al Hal Etag. apply existsb_tag in Etag. destruct (Ealts al Hal) as (NV & t' & Et' & Ec).
          apply K in Et'. subst t'. rewrite Forall_forall in IHalts.
          eapply (IHalts al Hal r ((a_name al, alt_type (a_types al)) :: scope)); [exact T1| | |exact Ec].
          -- eapply env_bind; [|exact V|apply downcast_typed; assumption].
             intros. eapply free_case_alternative; eauto.
          -- apply (fit_bind scope (Case a alts (Some (x, e)))); auto;
               [intros; eapply within_case_alternative; eauto|intros; eapply local_case_alternative; eauto| |].
             ++ cbn [binders]. rewrite !in_app_iff, in_flat_map. right. left. exists al. split; [exact Hal|left; reflexivity].
             ++ intros y Hy. cbn [binders]. rewrite !in_app_iff, in_flat_map. right. left. exists al. split; [exact Hal|right; exact Hy].
        * eapply (IHde x e eq_refl r ((x, TVariant) :: scope)); [exact T1| | |exact Ee].
          -- eapply env_bind; [|exact V|exact V1]. intros. apply free_case_default; assumption.
          -- apply (fit_bind scope (Case a alts (Some (x, e)))); auto;
               [intros; apply within_case_default; assumption|intros; apply local_case_default; assumption|cbn [binders]; rewrite !in_app_iff; cbn [In]; tauto|subset].
    - destruct (check_expr m r _ b) as [tb|] eqn:Eb; [|discriminate].
      destruct (same_type tb t) eqn:Q1; [|discriminate]. apply mtype_eqb_eq in Q1. subst tb.
      eapply safe_bind; [eapply IHb; eauto|].
      + eapply env_sub; [|exact V]. intros; apply free_let_bound; assumption.
      + apply (fit_sub scope (Let x t b e)); auto; [intros; apply within_let_bound; assumption|intros; apply local_let_bound; assumption|apply F|subset].
      + intros v st1 S1 X1 T1 V1. apply (env_extends _ _ _ _ _ X1) in V.
        eapply (IHe r ((x, t) :: scope)); [exact T1| | |exact C].
        * eapply env_bind; [|exact V|exact V1]. intros; apply free_let_body; assumption.
        * apply (fit_bind scope (Let x t b e)); auto; [intros; apply within_let_body; assumption|intros; apply local_let_body; assumption|left; reflexivity|subset].
    - destruct (check_expr m (f_result d) _ (f_body d)) as [tb|] eqn:Eb; [|discriminate].
      destruct (same_type tb (f_result d)) eqn:Q1; [|discriminate]. apply mtype_eqb_eq in Q1. subst tb.
      assert (R : environment_right md scope d) by (apply F; apply local_here).
      rewrite (check_ext _ _ _ _ _ (body_alike scope d R)) in Eb.
      destruct (capture_typed S scope rho d e V R) as (c & -> & Vc).
      assert (B : body_fits (scope_in scope d) d).
      { split; [exact Eb|]. unfold scope_in. apply (fit_sub scope (LetRec d e)); auto.
        - intros; apply within_letrec_definition; assumption.
        - intros; apply local_definition; assumption.
        - destruct F as (_ & _ & F3 & F4). cbn [binders In] in F4. rewrite lookup_app.
          destruct (lookup (rev (f_args d)) (m_fallback m)) as [t|] eqn:El.
          + exfalso. apply F4. right. apply in_or_app. left. apply lookup_some_in in El.
            apply in_rev in El. apply (in_map fst) in El. exact El.
          + cbn. destruct (String.eqb_spec (m_fallback m) (f_name d)) as [En|]; [|exact F3].
            exfalso. apply F4. left. congruence.
        - subset. }
      destruct Vc as [Vc1 Vc2].
      assert (Fe : fit md m ((f_name d, f_type d) :: scope) e).
      { apply (fit_bind scope (LetRec d e)); auto; [intros; apply within_letrec_body; assumption|intros; apply local_letrec_body; assumption|left; reflexivity|subset]. }
      destruct (f_thunk d) eqn:Eth.
      + assert (Ea : f_args d = []) by (destruct F as (F & _); exact (F _ (within_here _) Eth)).
        set (S' := S ++ [f_result d]).
        assert (X : extends S S') by (exists [f_result d]; reflexivity).
        assert (H : safe (Some r) S' (fun S' v => vtyped S' v ty)
                      (eval md w m call ((f_name d, VThunk (length (s_cells st)) d c) :: rho)
                         (State (s_log st) (s_cells st ++ [None]) (s_globals st)) e)).
        { eapply (IHe r ((f_name d, f_type d) :: scope)); [apply state_new_cell; exact T| |exact Fe|exact C].
          eapply env_bind; [|eapply env_extends; [exact X|exact V]|].
          - intros; apply free_letrec_body; assumption.
          - eapply vt_thunk; [exact B|exact Vc1| |exact Ea|].
            + intros. eapply vtyped_extends; [exact X|eauto].
            + unfold S'. rewrite (st_length _ _ T), nth_error_app2 by lia. rewrite Nat.sub_diag. reflexivity. }
        exact (safe_shrink _ _ _ _ _ X H).
      + eapply (IHe r ((f_name d, f_type d) :: scope)); [exact T| |exact Fe|exact C].
        eapply env_bind; [|exact V|].
        * intros; apply free_letrec_body; assumption.
        * eapply vt_closure; eauto.
    - destruct (check_expr m r ((x, t) :: _) e) as [te|] eqn:Ee; [|discriminate].
      destruct (check_expr m r _ o) as [to|] eqn:Eo; [|discriminate].
      destruct (same_type te r) eqn:Q1; [|discriminate]. destruct (same_type to TVariant) eqn:Q2; [|discriminate].
      apply mtype_eqb_eq in Q1, Q2. subst te to. injection C as <-.
      eapply safe_bind; [eapply IHo; eauto|].
      + eapply env_sub; [|exact V]. intros; apply free_try_operand; assumption.
      + apply (fit_sub scope (Try o x t e)); auto; [intros; apply within_try_operand; assumption|intros; apply local_try_operand; assumption|apply F|subset].
      + intros v st1 S1 X1 T1 V1. inversion V1 as [| | | | |tag p Vp Np| | | |]; subst.
        destruct (mtype_eqb tag t) eqn:Et; [|apply safe_done; assumption].
        apply mtype_eqb_eq in Et. subst tag. apply (env_extends _ _ _ _ _ X1) in V.
        assert (H : safe (Some r) S1 (fun S' v => vtyped S' v r)
                      (eval md w m call ((x, downcast t t p) :: rho) st1 e)).
        { eapply (IHe r ((x, t) :: scope)); [exact T1| | |exact Ee].
          - eapply env_bind; [|exact V|]; [intros; apply free_try_body; assumption|].
            destruct t; try exact Vp. contradiction.
          - apply (fit_bind scope (Try o x t e)); auto; [intros; apply within_try_body; assumption|intros; apply local_try_body; assumption|left; reflexivity|subset]. }
        destruct (eval md w m call _ st1 e) as [u st2|u st2|st2|st2|]; cbn [escape safe] in H |- *; auto.
        destruct H as (S2 & X2 & T2 & V2). eauto 8.
    - destruct (forallb _ xs); [|discriminate]. eapply IHe; eauto.
      + eapply env_sub; [|exact V]. intros; apply free_clone; assumption.
      + apply (fit_sub scope (CloneVars xs e)); auto; [intros; apply within_clone; assumption|intros; apply local_clone; assumption|apply F|subset].
    - destruct (forallb _ xs); [|discriminate]. eapply IHe; eauto.
      + eapply env_sub; [|exact V]. intros; apply free_drop; assumption.
      + apply (fit_sub scope (DropVars xs e)); auto; [intros; apply within_drop; assumption|intros; apply local_drop; assumption|apply F|subset].
  Qed.
End Sound.

(** ** Modules *)
Section Calls.
  Variable md : mode.
  Variable w : world.
  Variable m : mmodule.

  Hypothesis globals_type : forall x, lookup (module_variables m) x = global_type m x.
  Hypothesis infos_typed : forall t g, lookup_type (m_infos m) t = Some g ->
    global_type m g = global_type m (m_fallback m).
  Hypothesis globals_functions : forall g t, global_type m g = Some t -> exists ts r, t = TFunction ts r.
  Hypothesis bodies : forall d, In d (m_defs m) ->
    body_fits md m (rev (f_args d)) d /\ (f_thunk d = true -> f_args d = []).

  Notation vtyped := (vtyped md m).
  Notation all_typed := (all_typed md m).
  Notation state_typed := (state_typed md m).
  Notation safe := (safe md m).

  (** *** The outside *)
  Definition all_known (S : cells) (kn : list value) : Prop := Forall (fun v => exists t, vtyped S v t) kn.

  Lemma known_typed S st : state_typed S st -> all_known S (known st).
  Proof.
    intros [H _ _ _]. unfold known, all_known. induction H as [|ev l H _ IH]; cbn; [constructor|].
    apply Forall_app. split; [|exact IH].
    assert (G : forall vs ts, all_typed S vs ts -> Forall (fun v => exists t, vtyped S v t) vs).
    { induction 1; constructor; eauto. }
    destruct ev as [[g|i] vs|v]; cbn in H |- *.
    - destruct H as (ts & t & _ & H). eauto.
    - destruct H as (ts & H). eauto.
    - constructor; [exact H|constructor].
  Qed.

  Lemma same_types_typed S vs ts :
    Forall (fun v => exists t, vtyped S v t) vs -> same_types m vs ts = true -> all_typed S vs ts.
  Proof.
    intros H. revert ts. induction H as [|v vs [t V] _ IH]; intros [|u ts]; cbn; intros E; try discriminate; [constructor|].
    rewrite (vtyped_type_of _ _ _ _ _ V) in E. apply andb_true_iff in E as [E1 E2].
    apply mtype_eqb_eq in E1. subst u. constructor; [exact V|apply IH; exact E2].
  Qed.

  Lemma resolve_typed S kn t : all_known S kn -> forall v, resolve m kn t = Some v -> exists ty, vtyped S v ty.
  Proof.
    intros K. induction t as [b|s| |n|n ts IH|ty t IH|i|i ty] using term_ind'; intros v E.
    - injection E as <-. eexists. constructor.
    - injection E as <-. eexists. constructor.
    - injection E as <-. eexists. constructor.
    - injection E as <-. eexists. constructor.
    - rewrite resolve_record in E. destruct (resolve_list m kn ts) as [vs|] eqn:El; [|discriminate].
      destruct (lookup (m_types m) n) as [types|] eqn:En; [|discriminate].
      destruct (same_types m vs types) eqn:Es; [|discriminate]. injection E as <-.
      exists (TRecord n). eapply record_typed; [exact En|]. apply same_types_typed; [|exact Es].
      clear - IH El. revert vs El. induction IH as [|t ts H _ IH]; intros vs El; cbn in El.
      + injection El as <-. constructor.
      + destruct (resolve m kn t) as [v|] eqn:Ev; [|discriminate].
        destruct (resolve_list m kn ts) as [vs'|]; [|discriminate]. injection El as <-. constructor; auto.
    - cbn [resolve] in E. destruct (resolve m kn t) as [u|]; [|discriminate].
      destruct (IH u eq_refl) as (tu & V). rewrite (vtyped_type_of _ _ _ _ _ V) in E.
      assert (G : tu <> TVariant /\ mtype_eqb tu ty = true /\ VVariant ty u = v).
      { destruct tu; try discriminate;
          (destruct (mtype_eqb _ ty) eqn:Q; [|discriminate]); injection E as <-; repeat split; discriminate. }
      destruct G as (N & Q & <-). apply mtype_eqb_eq in Q. subst ty. exists TVariant. constructor; assumption.
    - cbn in E. apply nth_error_In in E. unfold all_known in K. rewrite Forall_forall in K. auto.
    - destruct ty; cbn in E; try discriminate. injection E as <-. eexists. constructor.
  Qed.

  Lemma resolve_args_typed S kn ts : all_known S kn -> forall types vs,
    resolve_args m kn ts types = Some vs -> all_typed S vs types.
  Proof.
    intros K. induction ts as [|t ts IH]; intros [|ty types] vs; cbn; try discriminate.
    - injection 1 as <-. constructor.
    - destruct (resolve m kn t) as [v|] eqn:Ev; [|discriminate].
      destruct (resolve_typed S kn t K v Ev) as (tv & V). rewrite (vtyped_type_of _ _ _ _ _ V).
      destruct (mtype_eqb tv ty) eqn:Q; [|discriminate]. apply mtype_eqb_eq in Q. subst tv.
      destruct (resolve_args m kn ts types) as [vs'|] eqn:Er; [|discriminate]. injection 1 as <-.
      constructor; [exact V|apply IH; exact Er].
  Qed.

  Lemma resolve_callee_typed S kn c f :
    all_known S kn -> resolve_callee m kn c = Some f -> exists t, vtyped S f t.
  Proof.
    intros K. destruct c as [g|i]; cbn.
    - destruct (find_def (m_defs m) g) as [d|] eqn:E; [|discriminate]. injection 1 as <-.
      exists (f_type d). constructor. unfold global_type. rewrite E. reflexivity.
    - intros E. apply nth_error_In in E. unfold all_known in K. rewrite Forall_forall in K. auto.
  Qed.

  Section Call.
    Variable call : state -> value -> list value -> out value.
    Hypothesis call_sound : call_safe md m call.

    Lemma run_script_safe sc : forall S st, state_typed S st ->
      safe None S (fun _ _ => True) (run_script m call sc st).
    Proof.
      induction sc as [|[c ts] sc IH]; intros S st T; cbn [run_script].
      - apply safe_done; auto.
      - destruct (resolve_callee m (known st) c) as [f|] eqn:Ef; [|exists S; exact T].
        destruct (resolve_callee_typed S _ _ _ (known_typed _ _ T) Ef) as (t & V).
        rewrite (vtyped_type_of _ _ _ _ _ V). destruct t as [| |types res| | | |]; try (exists S; exact T).
        destruct (resolve_args m (known st) ts types) as [vs|] eqn:Er; [|exists S; exact T].
        eapply safe_bind; [eapply call_sound; eauto|].
        + eapply resolve_args_typed; [|exact Er]. apply known_typed. exact T.
        + intros v st' S' E' T' V'. apply IH. apply state_log; [exact T'|]. exists res. exact V'.
    Qed.

    Lemma outside_safe S st f vs ts res :
      state_typed S st -> all_typed S vs ts ->
      (forall g, f = FName g -> lookup (m_declared m) g = Some (TFunction ts res)) ->
      safe None S (fun S' v => vtyped S' v res) (outside w m call st f vs res).
    Proof.
      intros T V D. unfold outside.
      eapply safe_bind; [apply run_script_safe; apply state_log; [exact T|]|].
      - destruct f as [g|i]; cbn; [|eauto]. exists ts, res. auto.
      - cbn beta. intros _ st' S' E' T' _. destruct (resolve m (known st') _) as [v|] eqn:Er; [|exists S'; exact T'].
        destruct (resolve_typed S' _ _ (known_typed _ _ T') v Er) as (tv & Vv).
        rewrite (vtyped_type_of _ _ _ _ _ Vv). destruct (mtype_eqb tv res) eqn:Q; [|exists S'; exact T'].
        apply mtype_eqb_eq in Q. subst tv. apply safe_done; assumption.
    Qed.
  End Call.

  (** *** Calls *)
  Lemma bind_args_typed S args : forall scope rho vs,
    all_typed S vs (map snd args) ->
    forall x,
      (lookup (bind_args (map fst args) vs rho) x = lookup rho x /\
       lookup (rev args ++ scope) x = lookup scope x /\ ~ In x (map fst args)) \/
      (exists v t, lookup (bind_args (map fst args) vs rho) x = Some v /\
                   lookup (rev args ++ scope) x = Some t /\ vtyped S v t).
  Proof.
    induction args as [|[y t] args IH]; intros scope rho vs V x; cbn in V; inversion V as [|v u vs' us V1 W]; subst.
    - left. cbn. auto.
    - cbn [map fst bind_args rev]. rewrite <- app_assoc. cbn [app].
      destruct (IH ((y, t) :: scope) ((y, v) :: rho) vs' W x) as [(H1 & H2 & H3)|(u & ty & H1 & H2 & H3)].
      + rewrite H1, H2. cbn. destruct (String.eqb_spec x y) as [->|N].
        * right. eauto.
        * left. split; [reflexivity|]. split; [reflexivity|]. intros [E|E]; [congruence|contradiction].
      + right. eauto.
  Qed.


  (** The variables in the body of a function. *)
  Lemma body_env S args scope rho vs e :
    all_typed S vs (map snd args) ->
    (forall x, free x e -> ~ In x (map fst args) -> lookup rho x = None <-> lookup scope x = None) ->
    (forall x v t, free x e -> ~ In x (map fst args) -> lookup rho x = Some v -> lookup scope x = Some t ->
       vtyped S v t) ->
    env_typed md m S (rev args ++ scope) (bind_args (map fst args) vs rho) e.
  Proof.
    intros V H1 H2. split.
    - intros x Fx. destruct (bind_args_typed S args scope rho vs V x) as [(E1 & E2 & N)|(v & t & E1 & E2 & _)];
        rewrite E1, E2; [auto|]. split; discriminate.
    - intros x u t Fx. destruct (bind_args_typed S args scope rho vs V x) as [(E1 & E2 & N)|(v & ty & E1 & E2 & W)];
        rewrite E1, E2; [eauto|]. congruence.
  Qed.

  Lemma closure_env S d c scope f vs :
    all_typed S vs (map snd (f_args d)) -> vtyped S f (f_type d) ->
    (forall x, free x (LetRec d (Lit LNone)) -> lookup c x = None <-> lookup scope x = None) ->
    (forall x v t, free x (LetRec d (Lit LNone)) -> lookup c x = Some v -> lookup scope x = Some t -> vtyped S v t) ->
    env_typed md m S (scope_in scope d) (bind_args (map fst (f_args d)) vs ((f_name d, f) :: c)) (f_body d).
  Proof.
    intros V Vf H1 H2. unfold scope_in. apply body_env; [exact V| |].
    - intros x Fx N. cbn. destruct (String.eqb_spec x (f_name d)); [split; discriminate|].
      apply H1. apply free_letrec_definition; assumption.
    - intros x v t Fx N. cbn. destruct (String.eqb_spec x (f_name d)); [congruence|].
      apply H2. apply free_letrec_definition; assumption.
  Qed.

  Lemma safe_finish r S o :
    safe (Some r) S (fun S' v => vtyped S' v r) o -> safe None S (fun S' v => vtyped S' v r) (finish o).
  Proof.
    destruct o as [a st|v st|st|st|]; cbn; auto. intros (S' & r' & E & T & Er & V). injection Er as <-. eauto 6.
  Qed.

  Lemma safe_keep r S o store :
    (forall S' st v, extends S S' -> state_typed S' st -> vtyped S' v r -> state_typed S' (store v st)) ->
    safe (Some r) S (fun S' v => vtyped S' v r) o -> safe None S (fun S' v => vtyped S' v r) (keep store o).
  Proof.
    intros K. destruct o as [a st|v st|st|st|]; cbn; auto.
    - intros (S' & E & T & V). exists S'. auto.
    - intros (S' & r' & E & T & Er & V). injection Er as <-. eauto 6.
  Qed.

  Lemma call_is_safe n : call_safe md m (call md w m n).
  Proof.
    induction n as [|n IH]; intros S st f vs ts t T Vf V; cbn [call]; [exists S; exact T|].
    inversion Vf as [| | | | | |d c scope B H1 H2|i d c scope B H1 H2 Ea Ei|g ts' t' G|i ts' t']; subst.
    - pose proof (Forall2_length V) as L. rewrite map_length in L. rewrite L, Nat.eqb_refl.
      apply safe_finish. destruct B as [B F].
      eapply (eval_safe md w m globals_type infos_typed globals_functions _ IH); [exact T| |exact F|exact B].
      apply closure_env; assumption.
    - rewrite Ea in V |- *. cbn in V. inversion V; subst.
      destruct (nth_error (s_cells st) i) as [[v|]|] eqn:Ec.
      + apply safe_done; [exact T|]. eapply st_cells; eauto.
      + apply safe_keep.
        * intros S' st' v X T' V'. eapply state_set_cell; eauto. eapply extends_nth; eauto.
        * destruct B as [B F].
          eapply (eval_safe md w m globals_type infos_typed globals_functions _ IH); [exact T| |exact F|exact B].
          pose proof (closure_env S d c scope (VThunk i d c) []) as K. rewrite Ea in K. cbn [map bind_args] in K.
          apply K; assumption.
      + apply nth_error_None in Ec. rewrite (st_length _ _ _ _ T) in Ec.
        assert (i < length S) by (apply nth_error_Some; congruence). lia.
    - unfold global_type in G. destruct (find_def (m_defs m) g) as [d|] eqn:Ed.
      + injection G as <- <-. destruct (find_def_in _ _ _ Ed) as [Hd _]. destruct (bodies d Hd) as [[B F] Th].
        assert (K : forall vs, all_typed S vs (map snd (f_args d)) ->
                  env_typed md m S (rev (f_args d)) (bind_args (map fst (f_args d)) vs []) (f_body d)).
        { intros us U. pose proof (body_env S (f_args d) [] [] us (f_body d) U) as K. rewrite app_nil_r in K.
          apply K; cbn; [tauto|discriminate]. }
        destruct (f_thunk d).
        * rewrite (Th eq_refl) in V, K |- *. cbn in V. inversion V; subst.
          destruct (lookup (s_globals st) g) as [v|] eqn:Eg.
          -- destruct (st_globals _ _ _ _ T _ _ Eg) as (d' & Ed' & V'). rewrite Ed in Ed'. injection Ed' as <-.
             apply safe_done; assumption.
          -- apply safe_keep; [intros; eapply state_set_global; eauto|].
             eapply (eval_safe md w m globals_type infos_typed globals_functions _ IH); [exact T| |exact F|exact B].
             rewrite (Th eq_refl). apply (K []). constructor.
        * pose proof (Forall2_length V) as L. rewrite map_length in L. rewrite L, Nat.eqb_refl. apply safe_finish.
          eapply (eval_safe md w m globals_type infos_typed globals_functions _ IH); [exact T|auto|exact F|exact B].
      + rewrite G. rewrite (Forall2_length V), Nat.eqb_refl. eapply outside_safe; eauto.
        intros h E. injection E as ->. exact G.
    - rewrite (Forall2_length V), Nat.eqb_refl. eapply outside_safe; eauto. discriminate.
  Qed.

  Lemma initial_typed : state_typed [] initial.
  Proof.
    split; cbn; [constructor|reflexivity| |discriminate]. intros i v t E. destruct i; discriminate.
  Qed.

  Lemma event_typed_fits S ev : event_typed md m S ev -> event_fits m ev.
  Proof.
    assert (K : forall vs ts, all_typed S vs ts -> Forall2 (has_type m) vs ts).
    { induction 1; constructor; auto. eapply vtyped_has; eauto. }
    destruct ev as [[g|i] vs|v]; cbn.
    - intros (ts & t & H1 & H2). eauto 6.
    - intros (ts & H). eauto.
    - intros (t & H). eauto using vtyped_has.
  Qed.

  Lemma state_fits S st : state_typed S st -> Forall (event_fits m) (s_log st).
  Proof. intros [H _ _ _]. eapply Forall_impl; [|exact H]. apply event_typed_fits. Qed.

  Lemma run_fits n sc :
    match run md w m n sc with
    | Done _ st | Timeout st | Bad st => Forall (event_fits m) (s_log st)
    | Return _ _ | Wrong => False
    end.
  Proof.
    pose proof (run_script_safe (call md w m n) (call_is_safe n) sc [] initial initial_typed) as H.
    unfold run. destruct (run_script m (call md w m n) sc initial) as [a st|v st|st|st|]; cbn in H.
    - destruct H as (S & _ & T & _). eapply state_fits; eauto.
    - destruct H as (S & r & _ & _ & E & _). discriminate.
    - destruct H as (S & T). eapply state_fits; eauto.
    - destruct H as (S & T). eapply state_fits; eauto.
    - exact H.
  Qed.

  Lemma run_script_last (c : state -> value -> list value -> out value) sc sc' st :
    run_script m c (sc ++ sc') st = obind (run_script m c sc st) (fun _ st => run_script m c sc' st).
  Proof.
    revert st. induction sc as [|[f ts] sc IH]; intros st; cbn [run_script app]; [reflexivity|].
    destruct (resolve_callee m (known st) f); [|reflexivity]. destruct (type_of m v) as [[]|]; try reflexivity.
    destruct (resolve_args m (known st) ts arguments); [|reflexivity].
    destruct (c st v l); cbn; try reflexivity. apply IH.
  Qed.

  Lemma run_result n sc g d args st :
    find_def (m_defs m) g = Some d ->
    run md w m n (sc ++ [(ByName g, args)]) = Done tt st ->
    exists log v, s_log st = log ++ [EvResult v] /\ has_type m v (f_result d).
  Proof.
    intros Ed. unfold run. rewrite run_script_last.
    pose proof (run_script_safe (call md w m n) (call_is_safe n) sc [] initial initial_typed) as H.
    destruct (run_script m (call md w m n) sc initial) as [a st1|v st1|st1|st1|]; cbn [obind]; try discriminate.
    cbn in H. destruct H as (S & _ & T & _). cbn [run_script resolve_callee]. rewrite Ed. cbn [type_of].
    unfold global_type. rewrite Ed. cbn [f_type].
    destruct (resolve_args m (known st1) args _) as [vs|] eqn:Er; [|discriminate].
    assert (C : safe None S (fun S' v => vtyped S' v (f_result d)) (call md w m n st1 (VGlobal g) vs)).
    { eapply call_is_safe; [exact T| |].
      - constructor. unfold global_type. rewrite Ed. reflexivity.
      - eapply resolve_args_typed; [apply known_typed; exact T|exact Er]. }
    destruct (call md w m n st1 (VGlobal g) vs) as [v st2|v st2|st2|st2|]; cbn [obind]; try discriminate.
    intros E. injection E as <-. destruct C as (S' & _ & _ & V). exists (s_log st2), v. split; [reflexivity|].
    eapply vtyped_has; eauto.
  Qed.
End Calls.

(** ** The checker *)
Lemma type_check_facts md m :
  well_built m -> environments_right md m -> cases_have_default m -> fallback_not_hidden m -> type_check m = true ->
  (forall x, lookup (module_variables m) x = global_type m x) /\
  (forall t g, lookup_type (m_infos m) t = Some g -> global_type m g = global_type m (m_fallback m)) /\
  (forall g t, global_type m g = Some t -> exists ts r, t = TFunction ts r) /\
  (forall d, In d (m_defs m) -> body_fits md m (rev (f_args d)) d /\ (f_thunk d = true -> f_args d = [])).
Proof.
  intros (B1 & B2 & B3) Er Ed Ef H. unfold type_check in H.
  apply andb_true_iff in H as [H H5]. apply andb_true_iff in H as [H H4].
  apply andb_true_iff in H as [H H3]. apply andb_true_iff in H as [H1 H2].
  apply distinct_names_nodup in H2.
  assert (G : forall x, lookup (module_variables m) x = global_type m x) by (intros; apply module_variables_lookup; exact H2).
  split; [exact G|]. split; [|split].
  - intros t g E. rewrite forallb_forall in H4.
    assert (I : In (t, g) (m_infos m)).
    { clear - E. induction (m_infos m) as [|[u h] l IH]; cbn in E; [discriminate|].
      destruct (mtype_eqb t u) eqn:Q; [|right; auto]. apply mtype_eqb_eq in Q. injection E as ->. left. congruence. }
    apply H4 in I. cbn in I. unfold check_info in I. rewrite !G in I.
    destruct (global_type m g); [|discriminate]. destruct (global_type m (m_fallback m)); [|discriminate].
    apply mtype_eqb_eq in I. congruence.
  - intros g t. unfold global_type. destruct (find_def (m_defs m) g) as [d|].
    + injection 1 as <-. unfold f_type. eauto.
    + intros E. apply lookup_some_in in E. eauto.
  - intros d Hd. destruct (B2 d Hd) as [Ee Th]. split; [|exact Th].
    rewrite forallb_forall in H3. apply H3 in Hd as C. unfold check_definition in C. rewrite Ee in C. cbn [app] in C.
    destruct (check_expr m (f_result d) _ (f_body d)) as [t|] eqn:Ec; [|discriminate]. apply mtype_eqb_eq in C. subst t.
    split; [exact Ec|]. split; [|split; [|split]].
    + intros e' We. destruct e' as [| | | |a alts [|]| |l e| | |]; auto.
      * exact (Ed _ _ _ Hd We).
      * intros Et. eapply B3; eauto.
    + intros s l Hl. apply Er. exists d. auto.
    + apply lookup_none_in. rewrite map_rev. intros I. apply in_rev in I. destruct (Ef d Hd) as [N _]. auto.
    + apply (Ef d Hd).
Qed.

Theorem type_check_sound md w m n sc :
  well_built m -> environments_right md m -> cases_have_default m -> fallback_not_hidden m -> type_check m = true ->
  match run md w m n sc with
  | Done _ st | Timeout st | Bad st => Forall (event_fits m) (s_log st)
  | Return _ _ | Wrong => False
  end.
Proof.
  intros H1 H2 H3 H4 H5. destruct (type_check_facts md m H1 H2 H3 H4 H5) as (G1 & G2 & G3 & G4).
  apply run_fits; assumption.
Qed.

Theorem type_check_result md w m n sc g d args st :
  well_built m -> environments_right md m -> cases_have_default m -> fallback_not_hidden m -> type_check m = true ->
  find_def (m_defs m) g = Some d ->
  run md w m n (sc ++ [(ByName g, args)]) = Done tt st ->
  exists log v, s_log st = log ++ [EvResult v] /\ has_type m v (f_result d).
Proof.
  intros H1 H2 H3 H4 H5. destruct (type_check_facts md m H1 H2 H3 H4 H5) as (G1 & G2 & G3 & G4).
  apply run_result; assumption.
Qed.
