(** What compiled code mentions is what its expressions ask for. *)
From Coq Require Import String Ascii List ZArith Bool Lia.
From Verif Require Import Base Mir HirType HirTypeOrder HirTypeSpec HirTypeTermination HirTypeEq HirTypeSub Hir HirSpec HirParts HirMain
  HirMir HirProgram LowerTypeSpec LowerProgramSpec LowerCompleteSpec LowerTypeBase LowerTypeCode LowerTypeMain LowerTypeNames.
Import ListNotations.
Local Open Scope string_scope.

Lemma Forall2_other {A B} (P : A -> B -> Prop) l l' b : Forall2 P l l' -> In b l' -> exists a, In a l /\ P a b.
Proof. induction 1; intros H1; [destruct H1|]. destruct H1 as [<-|H1]; [eauto using in_eq|]. destruct (IHForall2 H1) as (a & Ha & Q). eauto using in_cons. Qed.

Section Needs.
  Variable f : string -> string.
  Variable E : tenv.
  Variable R : renv.
  Variable C : config.
  Variable M : mmodule.
  Variable n : nat.
  Hypothesis W : wf f E.
  Hypothesis K : config_ok E R C.

  Notation compile := (compile n E R C).
  Notation carried := (carried E C M).
  Notation contextual := (contextual E C M).
  Notation asks := (asks E C M).
  Notation hidden := (hidden E C M).
  Notation has_function := (has_function M).
  Notation has_record := (has_record M).

  Definition served (d : need) : Prop :=
    match d with
    | NName x => forall t, compiler_name E R C x t -> has_function x
    | NRecord r => forall ts, compiler_record E R C r ts -> has_record r
    end.

  Hypothesis Prelude : forall x, In x (map fst (prelude_functions C)) -> has_function x.
  Hypothesis Runtime : forall x, In x [debug_function; race_function; spawn_function] -> has_function x.
  Hypothesis Internal : has_record error_record /\ has_record information_record.
  Hypothesis Compared : forall r o, comparable n E R (TRecord r o) = Ok true -> has_function (record_equal_name r).

  (** ** Names that are always there *)
  Lemma s_dollar x : prefix "$" x = true -> served (NName x).
  Proof. intros H t Ht. exfalso. eapply private_dollar; eassumption. Qed.
  Lemma s_prelude x : In x (map fst (prelude_functions C)) -> served (NName x).
  Proof. intros H t _. apply Prelude, H. Qed.
  Lemma s_has x : has_function x -> served (NName x). Proof. intros H t _. exact H. Qed.
  Lemma s_record r : has_record r -> served (NRecord r). Proof. intros H t _. exact H. Qed.

  Definition all (c : expr) : Prop := forall d, In d (needs c) -> served d.

  Lemma all_var x : served (NName x) -> all (Var x). Proof. intros H d [<-|[]]. exact H. Qed.
  Lemma all_lit l : all (Lit l). Proof. intros d []. Qed.
  Lemma all_op o es : (forall d, In d (operation_needs o) -> served d) -> Forall all es -> all (Op o es).
  Proof.
    intros H1 H2 d Hd. cbn [needs] in Hd. apply in_app_or in Hd. destruct Hd as [Hd|Hd]; [apply H1, Hd|]. apply in_flat_map in Hd. destruct Hd as (e & He & Hd).
    rewrite Forall_forall in H2. exact (H2 e He d Hd).
  Qed.
  Lemma all_plain o es : operation_needs o = [] -> Forall all es -> all (Op o es).
  Proof. intros H. apply all_op. rewrite H. intros d []. Qed.
  Lemma all_record o r es : operation_needs o = [NRecord r] -> served (NRecord r) -> Forall all es -> all (Op o es).
  Proof. intros H G. apply all_op. rewrite H. intros d [<-|[]]. exact G. Qed.
  Lemma all_if c a b : all c -> all a -> all b -> all (If c a b).
  Proof. intros H1 H2 H3 d Hd. cbn [needs] in Hd. rewrite !in_app_iff in Hd. destruct Hd as [Hd|[Hd|Hd]]; auto. Qed.
  Lemma all_let x t b e : all b -> all e -> all (Let x t b e).
  Proof. intros H1 H2 d Hd. cbn [needs] in Hd. rewrite !in_app_iff in Hd. destruct Hd as [Hd|Hd]; auto. Qed.
  Lemma all_letrec g e : all (f_body g) -> all e -> all (LetRec g e).
  Proof. intros H1 H2 d Hd. cbn [needs] in Hd. rewrite !in_app_iff in Hd. destruct Hd as [Hd|Hd]; auto. Qed.
  Lemma all_try a x t e : all a -> all e -> all (Try a x t e).
  Proof. intros H1 H2 d Hd. cbn [needs] in Hd. rewrite !in_app_iff in Hd. destruct Hd as [Hd|Hd]; auto. Qed.
  Lemma all_case a alts de : all a -> Forall (fun al => all (a_body al)) alts -> (forall x e, de = Some (x, e) -> all e) -> all (Case a alts de).
  Proof.
    intros H1 H2 H3 d Hd. cbn [needs] in Hd. rewrite !in_app_iff in Hd. destruct Hd as [Hd|[Hd|Hd]]; [auto| |].
    - apply in_flat_map in Hd. destruct Hd as (al & Hal & Hd). rewrite Forall_forall in H2. exact (H2 al Hal d Hd).
    - destruct de as [[x e]|]; [exact (H3 x e eq_refl d Hd)|destruct Hd].
  Qed.

  (** ** What expressions ask for *)
  Definition record_of (t : ty) : Prop := forall r, compile_record_type n E C t = Ok r -> served (NRecord r).
  Definition named (e : hexpr) : Prop :=
    (forall x, In x (bound e) -> served (NName x)) /\
    match e with
    | HVariable x => served (NName x)
    | HRecord t _ | HUpdate t _ _ => record_of t
    | HField (Some t) _ _ => record_of t
    | _ => True
    end.
  Definition clear (e : hexpr) : Prop := forall x, occurs x e -> asks x /\ named x.

  Lemma cl_node e : asks e -> named e -> (forall q, In q (parts e) -> clear q) -> clear e.
  Proof.
    intros H1 H2 H3 x Hx. destruct (occurs_cases x e Hx) as [->|(q & Hq & Hx')]; [auto|]. exact (H3 q Hq x Hx').
  Qed.
  Lemma cl_part e q : clear e -> In q (parts e) -> clear q.
  Proof. intros H Hq x Hx. apply H. eapply occurs_in_part; eassumption. Qed.
  Lemma cl_self e : clear e -> asks e /\ named e.
  Proof. intros H. apply H. exists None, None. constructor. Qed.

  Ltac noask := split; exact I.
  Ltac nobound := split; [intros ? []|exact I].
  Ltac inparts := unfold parts; cbn; rewrite ?in_app_iff; cbn; tauto.

  Lemma cl_variable x : served (NName x) -> clear (HVariable x).
  Proof. intros H. apply cl_node; [noask|split; [intros ? []|exact H]|intros q []]. Qed.
  Lemma cl_boolean b : clear (HBoolean b).
  Proof. apply cl_node; [noask|nobound|intros q []]. Qed.
  Lemma cl_number b : clear (HNumber b).
  Proof. apply cl_node; [noask|nobound|intros q []]. Qed.
  Lemma cl_call t g es : match g with HBuiltIn _ => False | _ => True end -> clear g -> (forall e, In e es -> clear e) -> clear (HCall t g es).
  Proof.
    intros N Hg H. apply cl_node; [destruct t; destruct g; try destruct N; noask|nobound|]. intros q Hq. unfold parts in Hq. cbn in Hq. rewrite app_nil_r in Hq.
    destruct Hq as [<-|Hq]; [exact Hg|apply H, Hq].
  Qed.
  Lemma cl_hcall g a r es : served (NName g) -> (forall e, In e es -> clear e) -> clear (hcall g a r es).
  Proof. intros Hg H. apply cl_call; [exact I|apply cl_variable, Hg|exact H]. Qed.
  Lemma cl_if c a b : clear c -> clear a -> clear b -> clear (HIf c a b).
  Proof. intros Hc Ha Hb. apply cl_node; [noask|nobound|]. intros q Hq. cbn in Hq. destruct Hq as [<-|[<-|[<-|[]]]]; assumption. Qed.
  Lemma cl_let x t b e : served (NName x) -> clear b -> clear e -> clear (HLet (Some x) t b e).
  Proof. intros Hx Hb He. apply cl_node; [noask|split; [intros y [<-|[]]; exact Hx|exact I]|]. intros q Hq. cbn in Hq. destruct Hq as [<-|[<-|[]]]; assumption. Qed.
  Lemma cl_thunk t e : clear e -> clear (HThunk t e).
  Proof. intros H. apply cl_node; [noask|nobound|]. intros q Hq. unfold parts in Hq. cbn in Hq. destruct t; cbn in Hq; destruct Hq as [<-|[]]; exact H. Qed.
  Lemma cl_lambda args r b : (forall x t, In (x, t) args -> served (NName x)) -> clear b -> clear (HLambda args r b).
  Proof.
    intros Ha H. apply cl_node; [noask|split; [|exact I]|].
    - intros x Hx. cbn in Hx. apply in_map_iff in Hx. destruct Hx as ([y t] & <- & Hy). exact (Ha y t Hy).
    - intros q Hq. cbn in Hq. destruct Hq as [<-|[]]; exact H.
  Qed.
  Lemma cl_coerce s t e : carried s -> clear e -> clear (HCoerce s t e).
  Proof. intros Hs He. apply cl_node; [split; [exact I|exact Hs]|nobound|]. intros q Hq. cbn in Hq. destruct Hq as [<-|[]]; assumption. Qed.
  Lemma cl_switch x a bs els : served (NName x) -> clear a -> (forall t b, In (t, b) bs -> carried t /\ clear b) ->
    match els with None => True | Some (None, b) => clear b | Some (Some t, b) => carried t /\ clear b end -> clear (HIfType x a bs els).
  Proof.
    intros Hx Ha Hb He. apply cl_node; [split; [exact I|split]|split; [intros y [<-|[]]; exact Hx|exact I]|].
    - intros t Ht. apply in_map_iff in Ht. destruct Ht as ([t' b] & <- & Hi). apply (Hb t' b Hi).
    - intros t b ->. apply He.
    - intros q Hq. unfold parts in Hq. cbn in Hq. rewrite app_nil_r, in_app_iff in Hq. destruct Hq as [<-|[Hq|Hq]]; [exact Ha| |].
      + apply in_map_iff in Hq. destruct Hq as ([t b] & <- & Hi). apply (Hb t b Hi).
      + destruct els as [[[t|] b]|]; [|destruct Hq as [<-|[]]; exact He|destruct Hq]. destruct Hq as [<-|[]]. apply He.
  Qed.
  Lemma cl_equality t o l r : compares E C M t -> clear l -> clear r -> clear (HBinary (BinEquality (Some t) o) l r).
  Proof. intros H Hl Hr. apply cl_node; [split; [exact I|exact H]|nobound|]. intros q Hq. cbn in Hq. destruct Hq as [<-|[<-|[]]]; assumption. Qed.
  Lemma cl_list t es : carried t -> (forall e, In (Single e) es \/ In (Multiple e) es -> clear e) -> clear (HList t es).
  Proof.
    intros Ht H. apply cl_node; [split; [exact I|exact Ht]|nobound|]. intros q Hq. unfold parts in Hq. cbn in Hq. rewrite ?app_nil_r, ?in_app_iff in Hq.
    apply in_flat_map in Hq. destruct Hq as (el & Hel & G). destruct el; cbn in G; destruct G as [<-|[]]; auto.
  Qed.
  Lemma list_elements t es e : In (Single e) es \/ In (Multiple e) es -> In e (parts (HList t es)).
  Proof.
    intros H. unfold parts. cbn. rewrite app_nil_r. apply in_flat_map. destruct H as [H|H]; (eexists; split; [exact H|left; reflexivity]).
  Qed.
  Lemma map_elements kt vt es e a b : In e [a; b] /\ In (Entry a b) es \/ In (Spread e) es -> In e (parts (HMap kt vt es)).
  Proof.
    intros H. unfold parts. cbn. rewrite app_nil_r. apply in_flat_map. destruct H as [[H G]|H]; (eexists; split; [eassumption|]; cbn in *; tauto).
  Qed.

  (** ** Types that need nothing *)
  Lemma concrete_carrier c r : concrete_name n E C c = Ok (Some r) -> carrier E C c r.
  Proof.
    destruct c; cbn [concrete_name]; try discriminate; intros H; bok H i Hi; try (bok H j Hj); injection H as <-; constructor; exists n; assumption.
  Qed.
  Lemma carried_concrete t c r : carried t -> canonicalize n E t = Ok c -> concrete_name n E C c = Ok (Some r) -> has_record r.
  Proof. intros H Hc Hr. apply (H c r); [exists n; exact Hc|apply concrete_carrier, Hr]. Qed.
  Lemma carried_same t c : canon E t c -> carried t -> carried c.
  Proof. intros Hc H d r Hd Hr. apply (H d r); [|exact Hr]. rewrite (canon_fun _ _ _ _ Hd (canon_idem f E W _ _ Hc)). exact Hc. Qed.
  Lemma carried_back t c : canon E t c -> carried c -> carried t.
  Proof. intros Hc H d r Hd Hr. apply (H d r); [|exact Hr]. rewrite (canon_fun _ _ _ _ Hd Hc). exact (canon_idem f E W _ _ Hc). Qed.
  Lemma carried_plain t c : canon E t c -> (forall r, ~ carrier E C c r) -> carried t.
  Proof. intros Hc H d r Hd Hr. rewrite (canon_fun _ _ _ _ Hd Hc) in Hr. destruct (H r Hr). Qed.
  Lemma carried_none : carried TNone.
  Proof. apply (carried_plain _ TNone); [exists 1; reflexivity|intros r H; inversion H]. Qed.
  Lemma carried_any : carried TAny.
  Proof. apply (carried_plain _ TAny); [exists 1; reflexivity|intros r H; inversion H]. Qed.
  Lemma carried_reference x : In x (prelude_types C) -> carried (TReference x).
  Proof.
    intros Hx. destruct (k_types _ _ _ K x Hx) as [[o Ho] _]. apply (carried_plain _ (TRecord x o)); [|intros r H; inversion H].
    exists 2. cbn. unfold resolve. rewrite Ho. reflexivity.
  Qed.
  Lemma context_serves t g : contextual t -> context_name n E C t = Ok g -> served (NName g).
  Proof. unfold context_name. intros H Hg. bok Hg i Hi. injection Hg as <-. apply s_has, H. exists n. exact Hi. Qed.

  Ltac pre := apply s_prelude; unfold prelude_functions; cbn [map fst In]; tauto.
  Ltac dollar := first [apply s_dollar; reflexivity|pre].
  Ltac each := let e := fresh "e" in let H := fresh in intros e H; cbn in H; repeat (destruct H as [<-|H]; [try assumption; try (apply cl_variable; dollar)|]); try (destruct H).

  Lemma cl_context t e : contextual t -> map_context_call n E C t = Ok e -> clear e.
  Proof. unfold map_context_call. intros H He. bok He g Hg. injection He as <-. apply cl_hcall; [eapply context_serves; eassumption|intros ? []]. Qed.

  Lemma cl_downcast s t e d : carried t -> clear e -> downcast_code n E s t e = Ok d -> clear d.
  Proof.
    intros Ht He H. unfold downcast_code in H. bok H c Hc. destruct (negb _); [discriminate|]. bok H b Hb. destruct (negb b); [discriminate|]. bok H same Hs. injection H as <-.
    destruct same; [exact He|]. apply cl_switch; [dollar|exact He| |exact I]. intros u b' [Q|[]]. injection Q as <- <-. split; [exact Ht|]. apply cl_variable. dollar.
  Qed.

  Lemma cl_if_list t l x y a b e : carried t -> served (NName x) -> served (NName y) -> clear l -> clear a -> clear b ->
    if_list n E C (Some t) l x y a b = Ok e -> clear e.
  Proof.
    intros Ht Hx Hy Hl Ha Hb H. unfold if_list in H. bok H t' Q. injection Q as <-. bok H same Hs. bok H fst1 Hbd. injection H as <-.
    assert (F : clear (hcall (list_first C) [TReference (list_first_rest C)] any_thunk [HVariable "$firstRest"])) by (apply cl_hcall; [pre|each]).
    apply cl_switch; [dollar|apply cl_hcall; [pre|each]| |exact I]. intros u b' [Q|[Q|[]]]; injection Q as <- <-.
    - split; [apply carried_reference; cbn; tauto|]. apply cl_let; [exact Hx| |apply cl_let; [exact Hy|apply cl_hcall; [pre|each]|exact Ha]].
      destruct same; [injection Hbd as <-; exact F|]. bok Hbd d Hd. injection Hbd as <-. apply cl_let; [exact Hx|exact F|]. apply cl_lambda; [intros ? ? []|].
      eapply cl_downcast; [exact Ht| |exact Hd]. apply cl_call; [exact I|apply cl_variable, Hx|intros ? []].
    - split; [apply carried_none|exact Hb].
  Qed.

  Lemma cl_if_map kt vt x m key a b e : carried kt -> carried vt -> contextual (TMap kt vt) -> served (NName x) -> clear m -> clear key -> clear a -> clear b ->
    if_map n E C (Some kt) (Some vt) x m key a b = Ok e -> clear e.
  Proof.
    intros Hk Hv Hc Hx Hm Hkey Ha Hb H. unfold if_map in H. bok H kt' Q. injection Q as <-. bok H vt' Q. injection Q as <-. bok H ctx Hctx. bok H d Hd. injection H as <-.
    pose proof (cl_context _ _ Hc Hctx) as Cc. apply cl_switch; [exact Hx| | |].
    - apply cl_hcall; [pre|each]. apply cl_coerce; assumption.
    - intros u b' [Q|[]]. injection Q as <- <-. split; [apply carried_reference; cbn; tauto|exact Hb].
    - split; [apply carried_any|]. apply cl_let; [exact Hx| |exact Ha]. eapply cl_downcast; [exact Hv| |exact Hd]. apply cl_variable, Hx.
  Qed.

  Lemma cl_literal t es : carried t -> (forall e, In (Single e) es \/ In (Multiple e) es -> clear e) -> clear (list_literal C t es).
  Proof.
    intros Ht. induction es as [|el es IH]; intros H; [apply cl_hcall; [pre|intros ? []]|].
    assert (T : clear (list_literal C t es)) by (apply IH; intros e [He|He]; apply H; cbn; auto).
    destruct el as [e|e]; cbn [list_literal].
    - apply cl_hcall; [pre|each]. apply cl_thunk, cl_coerce; [exact Ht|apply H; cbn; auto].
    - destruct es as [|el' es']; (apply cl_hcall; [pre|each]); apply cl_thunk, H; cbn; auto.
  Qed.

  Lemma cl_entries kt vt es : carried kt -> carried vt -> (forall e a b, In e [a; b] /\ In (Entry a b) es \/ In (Spread e) es -> clear e) -> clear (map_entries C kt vt es).
  Proof.
    intros Hk Hv. induction es as [|el es IH]; intros H; [apply cl_hcall; [pre|intros ? []]|].
    assert (T : clear (map_entries C kt vt es)) by (apply IH; intros e a b [[He G]|He]; apply (H e a b); cbn; auto).
    destruct el as [a b|m]; cbn [map_entries].
    - apply cl_hcall; [pre|each]; (apply cl_coerce; [assumption|]); apply (H _ a b); cbn; auto.
    - assert (Hm : clear m) by (apply (H m m m); cbn; auto). destruct es as [|el' es']; [exact Hm|]. apply cl_hcall; [pre|each].
  Qed.

  Lemma cl_map kt vt es e : carried kt -> carried vt -> contextual (TMap kt vt) -> (forall e a b, In e [a; b] /\ In (Entry a b) es \/ In (Spread e) es -> clear e) ->
    map_literal n E C kt vt es = Ok e -> clear e.
  Proof.
    intros Hk Hv Hc H He. unfold map_literal in He. bok He ctx Hctx. injection He as <-. apply cl_let; [dollar|eapply cl_context; eassumption|].
    apply cl_entries; [assumption..|]. intros e a b [[G1 G2]|G]; apply (H e a b); [left; split; [exact G1|apply in_rev, G2]|right; apply in_rev, G].
  Qed.

  (** ** Comparison *)
  Lemma compares_member t c u : compares E C M t -> canon E t c -> In u (members_canonical c) -> compares E C M u.
  Proof.
    intros H Hc Hu d v Hd Hv. destruct (members_fixed f E W t c Hc u Hu) as [Cu Nu]. rewrite (canon_fun _ _ _ _ Hd Cu) in Hv. rewrite (members_nonunion u Nu) in Hv.
    destruct Hv as [<-|[]]. exact (H c u Hc Hu).
  Qed.

  Lemma others_incl ms m others : other_types n E ms m = Ok others -> incl others ms.
  Proof.
    revert others. induction ms as [|u ms IH]; intros others H; cbn [other_types] in H; [injection H as <-; intros x []|].
    bok H same Hs. bok H r Hr. injection H as <-. apply IH in Hr. destruct same; intros x Hx; [right; apply Hr, Hx|]. destruct Hx as [<-|Hx]; [left; reflexivity|right; apply Hr, Hx].
  Qed.

  Definition members_carried (t : ty) : Prop := forall c u, canon E t c -> In u (members_canonical c) -> carried u.
  Lemma members_carried_self t : members_carried t -> carried t.
  Proof.
    intros H c r Hc Hr. apply (H c c Hc) with (c := c); [|exact (canon_idem f E W _ _ Hc)|exact Hr].
    rewrite members_nonunion; [left; reflexivity|inversion Hr; reflexivity].
  Qed.
  Lemma members_carried_union l r : members_carried l -> members_carried r -> members_carried (TUnion l r).
  Proof.
    intros Hl Hr c u Hc Hu. apply canon_union_members in Hc. destruct Hc as (cl & cr & Cl & Cr & _ & Q). rewrite Q in Hu. apply norm_In in Hu.
    destruct Hu as [[_ ->]|[_ Hu]]; [apply carried_any|]. apply sunion_In in Hu. destruct Hu as [Hu|Hu]; [exact (Hl cl u Cl Hu)|exact (Hr cr u Cr Hu)].
  Qed.
  Lemma create_carried ts u : create_union ts = Some u -> (forall t, In t ts -> members_carried t) -> carried u.
  Proof.
    intros H Ht. apply members_carried_self. destruct ts as [|t ts]; [discriminate|]. cbn in H. injection H as <-.
    assert (Q : members_carried t) by (apply Ht; left; reflexivity). assert (Qs : forall t, In t ts -> members_carried t) by (intros; apply Ht; right; assumption). clear Ht.
    revert t Q. induction ts as [|s ts IH]; intros t Q; [exact Q|]. cbn. apply IH; [intros; apply Qs; right; assumption|].
    apply members_carried_union; [exact Q|apply Qs; left; reflexivity].
  Qed.

  Lemma compares_basic t : canon E t t -> is_union t = false -> (forall r, ~ carrier E C t r) -> match t with TList _ | TMap _ _ => False | _ => True end -> compares E C M t.
  Proof.
    intros Ct Nt H N c u Hc Hu. rewrite (canon_fun _ _ _ _ Hc Ct), (members_nonunion _ Nt) in Hu. destruct Hu as [<-|[]]. split; [exact (carried_plain t t Ct H)|].
    destruct t; exact I || destruct N.
  Qed.

  Lemma cl_equal k : forall t l r e, canon E t t -> compares E C M t -> clear l -> clear r -> equal_code n E R C k t l r = Ok e -> clear e.
  Proof.
    induction k as [|k IH]; intros t l r e Ct Ht Hl Hr He; [discriminate|]. cbn [equal_code] in He.
    destruct t; try discriminate.
    - injection He as <-. apply cl_if; [exact Hl|exact Hr|]. apply cl_if; [exact Hr|apply cl_boolean..].
    - (* list *) bok He g Hg. injection He as <-. apply cl_hcall; [pre|each]. apply cl_variable. unfold equal_name in Hg. bok Hg i Hi. injection Hg as <-. apply s_has.
      destruct (Ht _ (TList t) Ct) as [_ G]; [rewrite members_nonunion by reflexivity; left; reflexivity|]. apply G. exists n. exact Hi.
    - bok He g Hg. injection He as <-. destruct (Ht _ (TMap t1 t2) Ct) as [_ G]; [rewrite members_nonunion by reflexivity; left; reflexivity|].
      pose proof (cl_context _ _ G Hg). apply cl_hcall; [pre|each].
    - injection He as <-. apply cl_boolean.
    - injection He as <-. apply cl_equality; assumption.
    - bok He b Hb. destruct b; [|discriminate]. injection He as <-. apply cl_hcall; [apply s_has; eapply Compared, Hb|each].
    - exfalso. pose proof (canon_references _ _ _ Ct) as Q. discriminate Q.
    - injection He as <-. apply cl_equality; assumption.
    - bok He ms Hms. bok He bs Hbs. injection He as <-.
      assert (Q : forall m, In m ms -> In m (members_canonical (TUnion t1 t2))).
      { intros m Hm. unfold union_members in Hms. bok Hms c Hc. injection Hms as <-. rewrite (canon_fun _ _ _ _ (ex_intro _ n Hc) Ct) in Hm. rewrite <- type_set_In. exact Hm. }
      apply cl_switch; [dollar|exact Hl| |exact I]. intros m b Hb. apply mapM_ok in Hbs. destruct (Forall2_other _ _ _ _ Hbs Hb) as (m' & Hm & Qb). bok Qb e' He'. bok Qb others Ho.
      destruct (create_union others) as [u|] eqn:Hu; [|discriminate]. injection Qb as -> <-.
      destruct (members_fixed f E W _ _ Ct m (Q m Hm)) as [Cm Nm].
      assert (Cr : forall m, In m ms -> members_carried m).
      { intros v Hv. destruct (members_fixed f E W _ _ Ct v (Q v Hv)) as [Cv Nv]. intros c w Hc Hw. rewrite (canon_fun _ _ _ _ Hc Cv), (members_nonunion _ Nv) in Hw. destruct Hw as [<-|[]].
        exact (proj1 (Ht _ v Ct (Q v Hv))). }
      split; [exact (proj1 (Ht _ m Ct (Q m Hm)))|]. apply cl_switch; [dollar|exact Hr| |].
      + intros t b [X|[]]. injection X as <- <-. split; [exact (proj1 (Ht _ m Ct (Q m Hm)))|].
        eapply (IH m); [exact Cm|eapply compares_member; [exact Ht|exact Ct|exact (Q m Hm)]| | |exact He']; apply cl_variable; dollar.
      + split; [|apply cl_boolean]. eapply create_carried; [exact Hu|]. intros v Hv. apply Cr. eapply others_incl; eassumption.
  Qed.

  (** ** Compiled code *)
  Lemma all_information e i : all e -> all (information_function e i).
  Proof.
    intros H. apply (all_record _ information_record); [reflexivity|apply s_record, Internal|]. constructor; [|constructor].
    apply all_plain; [reflexivity|]. constructor; [|constructor]. apply all_plain; [reflexivity|]. constructor; [exact H|constructor].
  Qed.
  Lemma all_debug e : all e -> all (debug_call e).
  Proof. intros H. apply all_plain; [reflexivity|]. constructor; [apply all_information, H|]. constructor; [exact H|constructor]. Qed.
  Lemma all_equal_call l r : all l -> all r -> all (equal_call l r).
  Proof. intros H G. apply all_plain; [reflexivity|]. constructor; [apply all_information, H|]. repeat (constructor; [assumption|]). constructor. Qed.
  Lemma all_error e : all e -> all (make_error e).
  Proof.
    intros H. apply all_let; [exact H|]. assert (V : all (Var "$source")) by (apply all_var; dollar). apply all_case; [exact V| |].
    - constructor; [exact V|constructor].
    - intros x e' Q. injection Q as <- <-. apply (all_record _ error_record); [reflexivity|apply s_record, Internal|]. constructor; [exact V|constructor].
  Qed.
  Lemma all_source e : all e -> all (error_source e).
  Proof. intros H. apply (all_record _ error_record); [reflexivity|apply s_record, Internal|]. constructor; [exact H|constructor]. Qed.

  Lemma all_alternative x t e al : served (NName x) -> carried t -> all e -> compile_alternative n E C x t e = Ok al -> all (a_body al).
  Proof.
    intros Hx Ht He H. unfold compile_alternative in H. bok H c Hc. bok H o Ho. destruct o as [r|].
    - bok H m Hm. injection H as <-. apply all_let; [|exact He]. apply (all_record _ r); [reflexivity|apply s_record; exact (carried_concrete _ _ _ Ht Hc Ho)|].
      constructor; [apply all_var, Hx|constructor].
    - bok H ms Hms. bok H ts Hts. injection H as <-. exact He.
  Qed.

  Lemma all_value e t v : carried t -> all e -> concrete_value n E C e t = Ok v -> all v.
  Proof.
    intros Ht He H. unfold concrete_value in H. bok H c Hc.
    assert (G : bind (concrete_name n E C c) (fun o => match o with Some r => Ok (Op (ORecord r) [e]) | None => Ok e end) = Ok v) by (destruct c; (discriminate H || exact H)).
    clear H. bok G o Ho. destruct o as [r|]; injection G as <-; [|exact He].
    apply (all_record _ r); [reflexivity|apply s_record; exact (carried_concrete _ _ _ Ht Hc Ho)|]. constructor; [exact He|constructor].
  Qed.

  Lemma all_lets fts es e c : all e -> Forall (fun fe => all (snd fe)) es -> field_lets n E C fts es e = Ok c -> all c.
  Proof.
    intros He H. revert c. induction H as [|fe es Hf _ IH]; intros c Hc; cbn [field_lets] in Hc; [injection Hc as <-; exact He|].
    bok Hc t Ht. bok Hc e' He'. injection Hc as <-. apply all_let; [exact Hf|apply IH, He'].
  Qed.

  Lemma all_loop d ts es : all (f_body d) -> Forall all es -> all (lazy_loop C d ts es).
  Proof.
    intros Hd He. apply all_plain; [reflexivity|]. assert (V : all (Var "$loop")) by (apply all_var; dollar).
    constructor; [apply all_var; pre|]. constructor; [|constructor]. apply all_letrec; [|exact V]. apply all_letrec; [exact Hd|]. apply all_plain; [reflexivity|]. constructor; [exact V|exact He].
  Qed.

  Lemma parts_comprehension t el bs q : In q (parts (HComprehension t el bs)) <-> q = el \/ exists b, In b bs /\ In q (branch_parts b).
  Proof.
    unfold parts. cbn. rewrite app_nil_r, in_app_iff, in_flat_map. cbn. split; [intros [(b & H)|[H|[]]]; [right; exists b; exact H|auto]|intros [->|H]; auto].
  Qed.
  Lemma visit_el t el bs : In el (parts (HComprehension t el bs)).
  Proof. apply parts_comprehension. auto. Qed.
  Lemma more_branches t el b bs q : In q (parts (HComprehension t el bs)) -> In q (parts (HComprehension t el (b :: bs))).
  Proof. rewrite !parts_comprehension. intros [->|(b' & Hb & H)]; [auto|right; exists b'; split; [right; exact Hb|exact H]]. Qed.
  Lemma condition_part t el b bs c : In b bs -> b_condition b = Some c -> In c (parts (HComprehension t el bs)).
  Proof. intros Hb Hc. apply parts_comprehension. right. exists b. split; [exact Hb|]. unfold branch_parts. rewrite Hc. apply in_or_app. cbn. auto. Qed.
  Lemma iteratee_part t el b bs it : In b bs -> In it (b_iteratees b) -> In (snd it) (parts (HComprehension t el bs)).
  Proof. intros Hb Hi. apply parts_comprehension. right. exists b. split; [exact Hb|]. unfold branch_parts. apply in_or_app. left. apply in_map, Hi. Qed.

  Section Compiled.
    Variable comp : hexpr -> res expr.
    Hypothesis IH : forall e c, comp e = Ok c -> clear e -> all c.

    Lemma all_mapM es cs : mapM comp es = Ok cs -> (forall e, In e es -> clear e) -> Forall all cs.
    Proof.
      intros H Q. apply mapM_ok in H. induction H as [|e c es cs He _ IHl]; constructor; [eapply IH; [exact He|apply Q; left; reflexivity]|apply IHl; intros; apply Q; right; assumption].
    Qed.

    Lemma all_branch x b al : served (NName x) -> carried (fst b) -> clear (snd b) -> compile_branch n E C comp x b = Ok al -> all (a_body al).
    Proof. intros Hx Ht He H. unfold compile_branch in H. bok H e Hc. eapply all_alternative; [exact Hx|exact Ht|eapply IH; eassumption|exact H]. Qed.

    Lemma all_else x els de : served (NName x) ->
      match els with None => True | Some (None, b) => clear b | Some (Some t, b) => carried t /\ clear b end ->
      compile_else n E C comp x els = Ok de -> Forall (fun al => all (a_body al)) (fst de) /\ (forall y e, snd de = Some (y, e) -> all e).
    Proof.
      intros Hx H He. destruct els as [[[t|] e]|]; cbn [compile_else] in He; [|discriminate|injection He as <-; split; [constructor|discriminate]].
      destruct H as [Ht Hc]. bok He any Ha. destruct any.
      - bok He c Hcc. injection He as <-. split; [constructor|]. intros y e' Q. injection Q as <- <-. eapply IH; eassumption.
      - bok He al Hal. injection He as <-. split; [|discriminate]. constructor; [|constructor]. eapply (all_branch x (t, e)); eassumption.
    Qed.

    Lemma all_coercion from to e c : carried from -> clear e -> compile_coercion n E C comp from to e = Ok c -> all c.
    Proof.
      intros Hf He H. unfold compile_coercion in H. bok H cf Hcf. bok H ct Hct. bok H ce Hce. assert (A : all ce) by (eapply IH; eassumption).
      assert (Wr : bind (concrete_name n E C cf) (fun o => match o with Some r => bind (concrete_value n E C ce cf) (fun v => Ok (Op (OVariant (Mir.TRecord r)) [v])) | None => Panic end) = Ok c -> all c).
      { intros Q. bok Q o Ho. destruct o as [r|]; [|discriminate]. bok Q v Hv. injection Q as <-. apply all_plain; [reflexivity|]. constructor; [|constructor].
        eapply all_value; [|exact A|exact Hv]. eapply carried_same; [exists n; exact Hcf|exact Hf]. }
      destruct cf; try discriminate H; try (injection H as <-; exact A); try exact (Wr H);
        try (bok H t Ht; injection H as <-; apply all_plain; [reflexivity|]; constructor; [exact A|constructor]);
        (destruct ct; try exact (Wr H); injection H as <-; exact A).
    Qed.

    Lemma all_iteration g m t c : served (NName g) -> carried t -> clear m -> map_iteration n E C comp g m t = Ok c -> all c.
    Proof.
      intros Hg Ht Hm H. unfold map_iteration in H. bok H b Hb. bok H cb Hcb. bok H cm Hcm. injection H as <-. apply all_loop.
      - cbn. eapply IH; [exact Hcb|]. unfold iteration_body in Hb. bok Hb d Hd. injection Hb as <-.
        apply cl_switch; [dollar|apply cl_variable; dollar| |].
        + intros u b [Q|[]]. injection Q as <- <-. split; [apply carried_reference; cbn; tauto|]. apply cl_list; [exact Ht|]. intros e [[Q|[Q|[]]]|[Q|[Q|[]]]]; try discriminate; injection Q as <-.
          * eapply cl_downcast; [exact Ht| |exact Hd]. apply cl_hcall; [exact Hg|each].
          * apply cl_call; [exact I|apply cl_variable; dollar|each]. apply cl_hcall; [pre|each].
        + split; [apply carried_none|]. apply cl_list; [exact Ht|]. intros e [[]|[]].
      - constructor; [|constructor]. apply all_plain; [reflexivity|]. constructor; [apply all_var; pre|]. constructor; [eapply IH; eassumption|constructor].
    Qed.

    Lemma cl_loops t body : carried t -> clear body -> forall vars,
      (forall x l et, In (x, l, et) vars -> served (NName x) /\ served (NName l) /\ carried et) -> clear (loop_lists t vars body).
    Proof.
      intros Ht Hb. induction vars as [|[[x l] et] vars IHv]; intros H; [exact Hb|]. cbn [loop_lists]. destruct (H x l et (or_introl eq_refl)) as (Hx & Hl & He).
      apply cl_node; [split; [exact I|exact He]|split; [|exact I]|].
      - intros y [<-|[<-|[]]]; assumption.
      - intros q Hq. unfold parts in Hq. cbn in Hq. rewrite ?in_app_iff in Hq. cbn in Hq.
        assert (Q : q = HVariable l \/ q = loop_lists t vars body \/ q = HList t []) by (clear - Hq; intuition (subst; auto)).
        destruct Q as [Q|[Q|Q]]; subst q; [apply cl_variable, Hl| |].
        + apply IHv. intros. apply H. right. assumption.
        + apply cl_list; [exact Ht|]. intros e [[]|[]].
    Qed.

    Lemma iteratee_elements_from its ets et : iteratee_elements n E its = Ok ets -> In et ets -> exists it t, In it its /\ fst it = Some t /\ canon E t (TList et).
    Proof.
      revert ets. induction its as [|it its IHi]; intros ets H Hin; cbn [iteratee_elements] in H; [injection H as <-; destruct Hin|].
      bok H t Ht. bok H c Hc. bok H r Hr. injection H as <-.
      assert (Q : c = TList et \/ In et r) by (destruct c; auto; destruct Hin as [->|Hin]; auto).
      destruct Q as [->|Q]; [exists it, t|].
      - split; [left; reflexivity|]. split; [destruct (fst it); [injection Ht as ->; reflexivity|discriminate]|exists n; exact Hc].
      - destruct (IHi r Hr Q) as (it' & t' & Hi & X). exists it', t'. split; [right; exact Hi|exact X].
    Qed.

    Lemma all_comprehension t el bs c : clear (HComprehension t el bs) -> comprehension n E C comp t el bs = Ok c -> all c.
    Proof.
      intros Hc H. destruct (cl_self _ Hc) as [[Hh [Ht He]] [Hn _]]. destruct bs as [|b bs]; [discriminate|]. cbn [comprehension] in H.
      bok H body Hb. bok H cb Hcb. bok H cs Hcs. injection H as <-. apply all_loop.
      - cbn. eapply IH; [exact Hcb|]. unfold loop_body in Hb. bok Hb ets Hets. injection Hb as <-.
        assert (Rest : clear (loop_rest t (map TList ets) (map iteratee_name (seq 0 (List.length (b_iteratees b)))))).
        { apply cl_call; [exact I|apply cl_variable; dollar|]. intros e Hi. apply in_map_iff in Hi. destruct Hi as (x & <- & Hx). apply in_map_iff in Hx. destruct Hx as (i & <- & _).
          apply cl_variable. dollar. }
        assert (L : clear (HList t [match bs with [] => Single el | _ => Multiple (HComprehension t el bs) end; Multiple (loop_rest t (map TList ets) (map iteratee_name (seq 0 (List.length (b_iteratees b)))))])).
        { apply cl_list; [exact Ht|]. intros e He'. assert (Q : e = el /\ bs = [] \/ e = HComprehension t el bs \/ e = loop_rest t (map TList ets) (map iteratee_name (seq 0 (List.length (b_iteratees b))))).
          { destruct bs; destruct He' as [[Q|[Q|[]]]|[Q|[Q|[]]]]; try discriminate Q; injection Q as <-; auto. }
          destruct Q as [[Q _]|[Q|Q]]; subst e; [| |exact Rest].
          - eapply cl_part; [exact Hc|]. apply visit_el.
          - apply cl_node; [split; [intros b' it Hb' Hit _; eapply He; [right; exact Hb'|exact Hit]|split; [exact Ht|intros b' it Hb' Hit; eapply He; [right; exact Hb'|exact Hit]]]|split; [|exact I]|].
            + intros x Hx. apply Hn. cbn. apply in_or_app. right. exact Hx.
            + intros q Hq. eapply cl_part; [exact Hc|]. apply more_branches, Hq. }
        apply cl_loops; [exact Ht| |].
        + destruct (b_condition b) as [cond|] eqn:Hcond; [|exact L]. apply cl_if; [|exact L|exact Rest]. eapply cl_part; [exact Hc|]. eapply condition_part; [left; reflexivity|exact Hcond].
        + intros x l et Hi. apply in_combine_l in Hi as Hxl. apply in_combine_r in Hi. split; [|split].
          * apply Hn. cbn. apply in_or_app. left. eapply in_combine_l, Hxl.
          * apply in_combine_r in Hxl. apply in_map_iff in Hxl. destruct Hxl as (i & <- & _). dollar.
          * destruct (iteratee_elements_from _ _ _ Hets Hi) as (it & t' & Hit & Q & Ce). exact (He b it (or_introl eq_refl) Hit t' et Q Ce).
      - assert (Q : forall l, (forall it, In it l -> In it (b_iteratees b)) -> forall cs, mapM (fun it => comp (snd it)) l = Ok cs -> Forall all cs).
        { intros l. induction l as [|it l IHl]; intros Hl cs' Hm; apply mapM_ok in Hm; inversion Hm; subst; constructor.
          - eapply IH; [eassumption|]. eapply cl_part; [exact Hc|]. eapply iteratee_part; [left; reflexivity|apply Hl; left; reflexivity].
          - apply IHl; [intros; apply Hl; right; assumption|apply mapM_ok; assumption]. }
        eapply Q; [|exact Hcs]. auto.
    Qed.

    Hypothesis NB : forall b c, comp (HBuiltIn b) <> Ok c.

    Lemma arg_in {A} (l : list A) i x : match nth_error l i with Some a => Ok a | None => Panic end = Ok x -> In x l.
    Proof. destruct (nth_error l i) as [y|] eqn:Q; [|discriminate]. intros X. injection X as <-. eapply nth_error_In, Q. Qed.
    Lemma arg_nth {A} (l : list A) i x : match nth_error l i with Some a => Ok a | None => Panic end = Ok x -> nth_error l i = Some x.
    Proof. destruct (nth_error l i) as [y|] eqn:Q; [|discriminate]. intros X. injection X as <-. reflexivity. Qed.

    Lemma function_canonical ft ar : canonical_function n E ft = Ok ar -> canon E ft (TFunction (fst ar) (snd ar)).
    Proof. unfold canonical_function. intros H. bok H c Hc. destruct c; try discriminate. injection H as <-. exists n. exact Hc. Qed.
    Lemma function_canonical_result t a r : canon E t (TFunction a r) -> canon E r r.
    Proof. intros H. apply (canon_idem f E W) in H. apply canon_function in H. destruct H as (a' & r' & _ & Hr & Q). injection Q as <- <-. exact Hr. Qed.
    Lemma function_canonical_argument t a r u : canon E t (TFunction a r) -> In u a -> canon E u u.
    Proof.
      intros H Hu. apply (canon_idem f E W) in H. apply canon_function in H. destruct H as (a' & r' & Ha & _ & Q). injection Q as <- <-.
      assert (G : forall l l', Forall2 (canon E) l l' -> l = l' -> In u l -> canon E u u).
      { induction 1 as [|x y l l' Hx _ IHl]; intros Q Hi; [destruct Hi|]. injection Q as <- <-. destruct Hi as [<-|Hi]; [exact Hx|apply IHl; auto]. }
      exact (G _ _ Ha eq_refl Hu).
    Qed.
    Lemma map_canonical t kv : canonical_map n E t = Ok kv -> canon E t (TMap (fst kv) (snd kv)).
    Proof. unfold canonical_map. intros H. bok H c Hc. destruct c; try discriminate. injection H as <-. exists n. exact Hc. Qed.
    Lemma list_canonical t e : canonical_list n E t = Ok e -> canon E t (TList e).
    Proof. unfold canonical_list. intros H. bok H c Hc. destruct c; try discriminate. injection H as <-. exists n. exact Hc. Qed.

    Lemma all_built_in b ft args c : clear (HCall ft (HBuiltIn b) args) -> compile_built_in n E C comp b ft args = Ok c -> all c.
    Proof.
      intros Hc H. destruct (cl_self _ Hc) as [[Hh Ha] _].
      assert (P : forall e, In e args -> clear e) by (intros e He; eapply cl_part; [exact Hc|]; unfold parts; cbn; right; rewrite app_nil_r; exact He).
      unfold compile_built_in in H. bok H ft' Hft. destruct ft as [ft|]; [|discriminate]. injection Hft as <-. bok H ar Har. apply function_canonical in Har. destruct ar as [ts r]. cbn [fst snd] in *.
      bok H es Hes. assert (A : Forall all es) by (eapply all_mapM; eassumption). rewrite Forall_forall in A.
      destruct b.
      - (* debug *) bok H e He. injection H as <-. apply arg_in in He. apply all_plain; [reflexivity|]. constructor; [apply all_var, s_has, Runtime; cbn; auto|]. constructor; [apply all_debug, A, He|constructor].
      - (* delete *) bok H kv Hkv. apply map_canonical in Hkv. bok H ctx Hctx. bok H cctx Hcctx. bok H m Hm. bok H kt Hkt. bok H k Hk. bok H ck Hck. injection H as <-.
        apply all_plain; [reflexivity|]. constructor; [apply all_var; pre|]. constructor; [eapply IH; [exact Hcctx|]; eapply cl_context; [|exact Hctx]|].
        + eapply Ha. rewrite (canon_fun _ _ _ _ (function_canonical_result _ _ _ Har) Hkv) in Har. exact Har.
        + constructor; [apply A; eapply arg_in, Hm|]. constructor; [|constructor]. eapply IH; [exact Hck|]. apply cl_coerce; [|apply P; eapply arg_in, Hk].
          specialize (Hh _ _ Har). cbn in Hh. apply arg_nth in Hkt. destruct ts as [|t0 [|t1 ts]]; try discriminate. injection Hkt as <-. eapply Hh. reflexivity.
      - (* error *) bok H e He. injection H as <-. apply all_error, A. eapply arg_in, He.
      - (* keys *) bok H t Ht. bok H m Hm. bok H kv Hkv. apply map_canonical in Hkv. eapply (all_iteration (iterator_key C)); [pre| |apply P; eapply arg_in, Hm|exact H].
        specialize (Hh _ _ Har). cbn in Hh. pose proof (function_canonical_argument _ _ _ _ Har (arg_in _ _ _ Ht)) as Ct. rewrite (canon_fun _ _ _ _ Ct Hkv) in Ht. apply arg_nth in Ht.
        destruct ts as [|t0 ts]; [discriminate|]. injection Ht as ->. eapply Hh. reflexivity.
      - (* race *) bok H et Het. apply list_canonical in Het. bok H a Hargs. bok H l Hl. bok H s Hs. injection H as <-.
        apply all_plain; [reflexivity|]. constructor; [apply all_var, s_has, Runtime; cbn; auto|]. constructor; [|constructor]. eapply IH; [exact Hl|].
        pose proof (function_canonical_result _ _ _ Har) as Cr. rewrite (canon_fun _ _ _ _ Cr Het) in Har. specialize (Hh _ _ Har et eq_refl).
        assert (Q : elements_carried E C M (Some (TList (TList et)))).
        { intros t' e X Y. injection X as <-. apply canon_list in Y. destruct Y as (e' & Y & X). injection X as <-. eapply carried_same; [exact Y|exact Hh]. }
        apply cl_node; [split; [|split; [exact Ha|]]|split; [|exact I]|].
        + intros b it [<-|[]] [<-|[]] _. exact Q.
        + intros b it [<-|[]] [<-|[]]. exact Q.
        + intros x [<-|[]]. dollar.
        + intros q Hq. apply parts_comprehension in Hq. destruct Hq as [->|(b & [<-|[]] & [<-|[]])]; [|apply P; eapply arg_in, Hargs].
          apply cl_call; [exact I|apply cl_variable; dollar|intros ? []].
      - (* debug *) bok H e He. injection H as <-. apply all_debug, A. eapply arg_in, He.
      - (* equal *) bok H a He. bok H b Hb. injection H as <-. apply all_equal_call; apply A; eapply arg_in; eassumption.
      - (* size *) bok H s Hs. bok H t Ht. bok H g Hg. injection H as <-. apply all_plain; [reflexivity|]. constructor; [|apply Forall_forall, A].
        apply all_var. destruct t; try discriminate; injection Hg as <-; pre.
      - (* source *) bok H e He. injection H as <-. apply all_source, A. eapply arg_in, He.
      - (* spawn *) bok H ft' Hft. bok H ar Har'. bok H a Hargs. bok H body Hbody. bok H rm Hrm. bok H d Hd. bok H cd Hcd. injection H as <-.
        pose proof (function_canonical_argument _ _ _ _ Har (arg_in _ _ _ Hft)) as Ct. apply function_canonical in Har'. rewrite (canon_fun _ _ _ _ Ct Har') in Hft. destruct ar as [ts' r']. cbn [fst snd] in *.
        assert (Cr : carried r').
        { specialize (Hh _ _ Har). cbn in Hh. apply arg_nth in Hft. destruct ts as [|t0 ts]; [discriminate|]. injection Hft as ->. eapply Hh. reflexivity. }
        assert (Nb : match a with HBuiltIn _ => False | _ => True end).
        { destruct a; try exact I. assert (G : In (HBuiltIn f0) args) by (eapply arg_in, Hargs). apply mapM_ok in Hes. clear - Hes G NB. induction Hes as [|x y l l' Hx _ IHl]; [destruct G|].
          destruct G as [->|G]; [exact (NB _ _ Hx)|auto]. }
        assert (V : forall x, prefix "$" x = true -> all (Var x)) by (intros; apply all_var, s_dollar; assumption).
        apply all_let; [|apply all_letrec; [|apply V; reflexivity]].
        + apply all_plain; [reflexivity|]. constructor; [apply all_var, s_has, Runtime; cbn; auto|]. constructor; [|constructor]. apply all_letrec.
          * cbn. eapply IH; [exact Hbody|]. apply cl_coerce; [exact Cr|]. apply cl_call; [exact Nb|apply P; eapply arg_in, Hargs|intros ? []].
          * apply all_plain; [reflexivity|]. constructor; [apply V; reflexivity|constructor].
        + cbn. eapply IH; [exact Hcd|]. eapply cl_downcast; [exact Cr| |exact Hd]. apply cl_call; [exact I|apply cl_variable; dollar|intros ? []].
      - (* values *) bok H t Ht. bok H m Hm. bok H kv Hkv. apply map_canonical in Hkv. eapply (all_iteration (iterator_value C)); [pre| |apply P; eapply arg_in, Hm|exact H].
        specialize (Hh _ _ Har). cbn in Hh. pose proof (function_canonical_argument _ _ _ _ Har (arg_in _ _ _ Ht)) as Ct. rewrite (canon_fun _ _ _ _ Ct Hkv) in Ht. apply arg_nth in Ht.
        destruct ts as [|t0 ts]; [discriminate|]. injection Ht as ->. eapply Hh. reflexivity.
    Qed.

    Lemma all_binary k o l r c : clear (HBinary o l r) -> compile_binary n E R C comp k o l r = Ok c -> all c.
    Proof.
      intros Hc H. destruct (cl_self _ Hc) as [[_ Ha] _].
      assert (Hl : clear l) by (eapply cl_part; [exact Hc|unfold parts; cbn; auto]).
      assert (Hr : clear r) by (eapply cl_part; [exact Hc|unfold parts; cbn; auto]).
      assert (B : forall g, (forall a b, all a -> all b -> all (g a b)) -> bind (comp l) (fun l => bind (comp r) (fun r => Ok (g l r))) = Ok c -> all c).
      { intros g Hg Q. bok Q cl Hcl. bok Q cr Hcr. injection Q as <-. apply Hg; eapply IH; eassumption. }
      assert (O : forall op a b, operation_needs op = [] -> all a -> all b -> all (Op op [a; b])).
      { intros op a b N A1 A2. apply all_plain; [exact N|]. constructor; [exact A1|]. constructor; [exact A2|constructor]. }
      destruct o as [t|o|o|t [|]|o]; cbn [compile_binary] in H.
      - bok H t' Ht. destruct t'; try discriminate H; eapply B; [|exact H| |exact H]; intros; apply O; auto.
      - eapply B; [|exact H]. intros. apply O; auto.
      - eapply IH; [exact H|]. unfold boolean_operation. destruct o; apply cl_if; try assumption; apply cl_boolean.
      - bok H t' Ht. destruct t as [t|]; [|discriminate]. injection Ht as <-. bok H ct Hct.
        assert (G : bind (equal_operation n E R C k t l r) comp = Ok c -> all c).
        { intros Q. bok Q e He. eapply IH; [exact Q|]. unfold equal_operation in He. bok He ct' Hct'. rewrite Hct in Hct'. injection Hct' as <-.
          assert (Cc : canon E t ct) by (exists n; exact Hct).
          eapply cl_equal; [exact (canon_idem f E W _ _ Cc)| |exact Hl|exact Hr|exact He].
          intros d u Hd Hu. rewrite (canon_fun _ _ _ _ Hd (canon_idem f E W _ _ Cc)) in Hu. exact (Ha ct u Cc Hu). }
        destruct ct; try exact (G H); (eapply B; [|exact H]).
        + intros. apply O; auto.
        + intros a b A1 A2. apply all_plain; [reflexivity|]. constructor; [apply all_var; pre|]. constructor; [exact A1|]. constructor; [exact A2|constructor].
      - eapply IH; [exact H|]. unfold not_equal. apply cl_if; [|apply cl_boolean..]. apply cl_node; [split; [exact I|exact Ha]|nobound|]. intros q Hq. unfold parts in Hq. cbn in Hq. destruct Hq as [<-|[<-|[]]]; assumption.
      - eapply B; [|exact H]. intros. apply O; auto.
    Qed.
  End Compiled.

  (** ** Expressions *)
  Theorem compiled_needs k : forall e c, compile k e = Ok c -> clear e -> all c.
  Proof.
    induction k as [|k IH]; intros e c H Hc; [discriminate|].
    assert (P : forall q, In q (parts e) -> clear q) by (intros q; apply cl_part, Hc).
    destruct (cl_self _ Hc) as [[Hh Ha] [Hb Hn]].
    assert (NB : forall b c, compile k (HBuiltIn b) <> Ok c) by (destruct k; discriminate).
    assert (PI : forall q, In q (eager_parts e) \/ In q (lazy_parts e) \/ In q (map snd (bodies e)) -> clear q) by (intros q Hq; apply P; unfold parts; rewrite !in_app_iff; exact Hq).
    assert (V : forall x, prefix "$" x = true -> all (Var x)) by (intros; apply all_var, s_dollar; assumption).
    destruct e as [b|b|ft g args|e1 e2 e3|t l x y e1 e2|kt vt x m key e1 e2|x a bs els|args r body|x t b e|t es|t el bs|kt vt es| |z|o l r|e|t e|t fs|t e x|t e fs|str|t e|from to e|x];
      cbn [HirMir.compile] in H.
    - injection H as <-. apply all_lit.
    - discriminate.
    - assert (G : match g with HBuiltIn _ => True | _ => bind (annotated ft) (fun t => bind (compile_signature n E C t) (fun s => bind (compile k g) (fun f => bind (mapM (compile k) args) (fun es => Ok (Op (OCall (fst s) (snd s)) (f :: es)))))) = Ok c end) by (destruct g; exact I || exact H).
      destruct g; try (clear H; rename G into H; bok H t_ Ht_; bok H s_ Hs_; bok H cf Hcf; bok H cs Hes; injection H as <-; apply all_plain; [reflexivity|]; constructor;
        [eapply IH; [exact Hcf|apply PI; cbn; auto]
        |eapply all_mapM; [exact IH|exact Hes|intros q Hq; apply PI; cbn; auto]]).
      eapply all_built_in; [exact IH|exact NB|exact Hc|exact H].
    - bok H c1 H1. bok H c2 H2. bok H c3 H3. injection H as <-. apply all_if; (eapply IH; [eassumption|apply PI; cbn; auto]).
    - bok H d Hd. eapply IH; [exact H|]. destruct t as [t|]; [|discriminate]. apply (cl_if_list t l x y e1 e2); [exact Ha|apply Hb; cbn; auto|apply Hb; cbn; auto| | | |exact Hd]; apply PI; cbn; auto.
    - bok H d Hd. eapply IH; [exact H|]. destruct kt as [kt|]; [|discriminate]. destruct vt as [vt|]; [|discriminate]. destruct Ha as (Hk & Hv & Hx).
      apply (cl_if_map kt vt x m key e1 e2); [exact Hk|exact Hv|exact Hx|apply Hb; cbn; auto| | | | |exact Hd]; apply PI; cbn; auto 6.
    - bok H ca Hca. bok H alts Halts. bok H de Hde. injection H as <-. destruct Ha as [Hbs Hels]. assert (Hx : served (NName x)) by (apply Hb; cbn; auto).
      destruct (all_else (compile k) IH x els de Hx) as [D1 D2]; [|exact Hde|].
      + destruct els as [[[t|] e]|]; [|apply PI; cbn; rewrite in_app_iff; cbn; auto|exact I]. split; [eapply Hels; reflexivity|apply PI; cbn; rewrite in_app_iff; cbn; auto].
      + apply all_case; [eapply IH; [exact Hca|apply PI; cbn; auto]| |exact D2]. apply Forall_app. split; [|exact D1].
        apply Forall_forall. intros al Hal. apply mapM_ok in Halts. destruct (Forall2_other _ _ _ _ Halts Hal) as (br & Hbr & Q). eapply all_branch; [exact IH|exact Hx| | |exact Q].
        * apply Hbs. apply in_map, Hbr.
        * apply PI. cbn. rewrite in_app_iff. left. right. left. apply in_map, Hbr.
    - bok H args' Hargs. bok H r' Hr. bok H body' Hbody. injection H as <-. apply all_letrec; [|apply V; reflexivity]. cbn. eapply IH; [exact Hbody|apply PI; cbn; auto].
    - bok H t' Ht. bok H m Hm. bok H b' Hb'. bok H e' He'. injection H as <-. apply all_let; (eapply IH; [eassumption|apply PI; cbn; auto]).
    - eapply IH; [exact H|]. apply cl_literal; [exact Ha|]. intros e He. apply P. apply list_elements, He.
    - eapply all_comprehension; [exact IH|exact Hc|exact H].
    - bok H d Hd. eapply IH; [exact H|]. destruct Ha as (Hk & Hv & Hx). eapply cl_map; [exact Hk|exact Hv|exact Hx| |exact Hd]. intros e a b He. apply P. eapply map_elements, He.
    - injection H as <-. apply all_lit.
    - injection H as <-. apply all_lit.
    - eapply all_binary; [exact IH|exact Hc|exact H].
    - bok H e' He. injection H as <-. apply all_if; [eapply IH; [exact He|apply PI; cbn; auto]|apply all_lit..].
    - bok H e' He. bok H t' Ht. destruct t as [t|]; [|discriminate]. injection Ht as <-. bok H al Hal. injection H as <-. apply all_case; [|constructor; [|constructor]|discriminate].
      + apply all_try; [eapply IH; [exact He|apply PI; cbn; auto]|]. apply all_plain; [reflexivity|]. constructor; [apply V; reflexivity|constructor].
      + eapply all_alternative; [|exact Ha| |exact Hal]; [dollar|apply V; reflexivity].
    - bok H fts Hfts. bok H r Hr. bok H es Hes. bok H vs Hvs. eapply all_lets; [| |exact H].
      + apply (all_record _ r); [reflexivity|apply Hn, Hr|]. apply mapM_ok in Hvs. apply Forall_forall. intros v Hv. destruct (Forall2_other _ _ _ _ Hvs Hv) as (ft & _ & Q).
        destruct (mem _ _); [|discriminate]. injection Q as <-. apply V. cbn. destruct (fst ft); reflexivity.
      + apply mapM_ok in Hes. apply Forall_forall. intros fe Hfe. destruct (Forall2_other _ _ _ _ Hes Hfe) as (ft & Hft & Q). bok Q e He. injection Q as <-. cbn. eapply IH; [exact He|].
        apply PI. cbn. left. apply in_map, Hft.
    - destruct t as [t|]; [|discriminate]. bok H r Hr. bok H fts Hfts. bok H i Hi. bok H e' He. injection H as <-. apply (all_record _ r); [reflexivity|apply Hn, Hr|].
      constructor; [eapply IH; [exact He|apply PI; cbn; auto]|constructor].
    - bok H r Hr. bok H e' He. bok H fs' Hfs. injection H as <-. apply (all_record _ r); [reflexivity|apply Hn, Hr|].
      constructor; [eapply IH; [exact He|apply PI; cbn; auto]|]. apply mapM_ok in Hfs. apply Forall_forall. intros v Hv. apply in_map_iff in Hv. destruct Hv as (iv & <- & Hv).
      destruct (Forall2_other _ _ _ _ Hfs Hv) as (ft & Hft & Q). bok Q fts Hfts. bok Q i Hi. bok Q e'' He''. injection Q as <-. cbn. eapply IH; [exact He''|].
      apply PI. cbn. left. right. apply in_map, Hft.
    - injection H as <-. apply all_lit.
    - bok H t' Ht. bok H m Hm. bok H e' He'. injection H as <-. apply all_letrec; [|apply V; reflexivity]. cbn. eapply IH; [exact He'|]. apply PI. destruct t; cbn; auto.
    - eapply all_coercion; [exact IH|exact Ha| |exact H]. apply PI. cbn. auto.
    - injection H as <-. apply all_var, Hn.
  Qed.
End Needs.
