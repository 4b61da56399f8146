(** The translation of expressions does not crash. *)
From Coq Require Import String List Bool Lia Arith.
From Verif Require Import Base Mir HirType HirTypeOrder HirTypeSpec HirTypeTermination HirTypeEq HirTypeSub Hir HirSpec HirParts HirMain HirStrip HirModule HirMir HirProgram LowerTag LowerTypeNames
  CrashBase CrashAnalysis.
Import ListNotations.
Local Open Scope string_scope.
Local Open Scope list_scope.

Section Lower.
  Variable f : string -> string.
  Variable n : nat.
  Variable E : tenv.
  Variable R : renv.
  Variable C : config.
  Hypothesis W : wf f E.
  Hypothesis Prelude : forall x, In x [list_first_rest C; map_empty_type C; iterator_type C] -> exists r o, lookup E x = Some (TRecord r o).

  Definition not_any (t : ty) : Prop := forall c, canonicalize n E t = Ok c -> c <> TAny.

  (** What the translation relies on at an expression *)
  Definition enough (b : builtin) (ats : list ty) : Prop :=
    match b with
    | BDelete | BReflectEqual => match ats with _ :: _ :: _ => True | _ => False end
    | BSize => match ats with TList _ :: _ | TMap _ _ :: _ => True | _ => False end
    | _ => ats <> []
    end.

  Definition node_ok (e : hexpr) : Prop :=
    match e with
    | HCall (Some ft) (HBuiltIn b) args => forall ar, canonical_function n E ft = Ok ar -> length args = length (fst ar) /\ enough b (fst ar)
    | HIfType _ _ bs els => (forall b, In b bs -> not_any (fst b)) /\ match els with Some (None, _) => False | _ => True end
    | HTry (Some t) _ => not_any t
    | HBinary (BinEquality (Some t) _) _ _ => names_ok f t
    | HRecord t fs => forall fts, record_fields n E R t = Ok fts -> forall x, In x (map fst fts) -> In x (map fst fs)
    | HField None _ _ => False
    | HField (Some t) _ x => exists fts, record_fields n E R t = Ok fts /\ In x (map fst fts)
    | HUpdate t _ fs => exists fts, record_fields n E R t = Ok fts /\ forall x, In x (map fst fs) -> In x (map fst fts)
    | HComprehension _ _ bs => bs <> []
    | _ => True
    end.

  Definition fine (e : hexpr) : Prop := forall x, occurs x e -> node_ok x.

  Lemma fine_here e : fine e -> node_ok e.
  Proof. intros H. apply H, occurs_here. Qed.
  Lemma fine_part e p : In p (parts e) -> fine e -> fine p.
  Proof. intros Hp H x Hx. apply H. eapply occurs_cons; eassumption. Qed.
  Lemma fine_node e : node_ok e -> (forall p, In p (parts e) -> fine p) -> fine e.
  Proof. intros H1 H2 x Hx. apply occurs_inv in Hx. destruct Hx as [->|(p & Hp & Hx)]; [exact H1|]. exact (H2 p Hp x Hx). Qed.

  (** ** Types *)
  Lemma calm_lower t : references t = [] -> calm (lower C t).
  Proof.
    revert t. fix IH 1. intros t H. destruct t; try (cbn in H; discriminate H); try (cbn; discriminate). cbn [lower]. cbn [references] in H. apply app_eq_nil in H. destruct H as [Ha Hr].
    apply calm_bind; [|intros; apply calm_bind; [apply IH, Hr|intros; apply calm_ok]].
    induction arguments as [|a l IHl]; cbn [mapM]; [apply calm_ok|]. cbn [flat_map] in Ha. apply app_eq_nil in Ha. apply calm_bind; [apply IH; tauto|].
    intros. apply calm_bind; [apply IHl; tauto|]. intros. apply calm_ok.
  Qed.
  Lemma calm_compile_type t : calm (compile_type n E C t).
  Proof. apply calm_bind; [apply calm_canon|]. intros c Hc. apply calm_lower. eapply canon_flat, Hc. Qed.
  Lemma calm_signature t : calm (compile_signature n E C t).
  Proof. apply calm_bind; [apply calm_compile_type|]. intros [] _; try apply calm_reject; apply calm_ok. Qed.
  Lemma calm_type_id' t : calm (type_id n E C t).
  Proof. apply calm_rmap, calm_type_id. Qed.
  Lemma calm_concrete_name t : calm (concrete_name n E C t).
  Proof. destruct t; cbn [concrete_name]; try apply calm_ok; repeat (apply calm_bind; [apply calm_type_id'|intros]); apply calm_ok. Qed.

  Lemma record_type_calm t fts : record_fields n E R t = Ok fts -> calm (compile_record_type n E C t).
  Proof.
    unfold record_fields, canonical_record, compile_record_type, compile_type. intros H. apply bind_ok in H. destruct H as (r & H & _). apply bind_ok in H.
    destruct H as (c & Hc & H). destruct c; try discriminate H. rewrite Hc. apply calm_ok.
  Qed.
  Lemma calm_field_index fts x : In x (map fst fts) -> calm (field_index fts x).
  Proof.
    induction fts as [|[y t] fts IH]; intros H; [destruct H|]. cbn [field_index fst]. destruct (String.eqb x y) eqn:Q; [apply calm_ok|]. apply calm_rmap, IH.
    destruct H as [<-|H]; [cbn in Q; rewrite String.eqb_refl in Q; discriminate Q|exact H].
  Qed.

  (** the members of a canonical type that is not [any] *)
  Lemma may_be_any_members t : references t = [] -> may_be_any t = true -> In TAny (members_canonical t).
  Proof.
    induction t; cbn; intros H M; try discriminate M; try discriminate H; [auto|]. apply app_eq_nil in H. apply in_or_app.
    apply orb_true_iff in M. destruct M; [left|right]; tauto.
  Qed.
  Lemma canonical_not_any t c : canonicalize n E t = Ok c -> c <> TAny -> may_be_any c = false.
  Proof.
    intros H N. destruct (may_be_any c) eqn:M; [|reflexivity]. exfalso. apply N. apply may_be_any_members in M; [|eapply canon_flat, H].
    destruct (canon_cform E t c) as [(_ & _ & A & _) B]; [exists n; exact H|]. rewrite (A M) in B. cbn in B. congruence.
  Qed.
  Lemma member_head t m : may_be_any t = false -> In m (members_canonical t) -> may_be_any m = false /\ is_union m = false.
  Proof.
    induction t; cbn; intros M H; try discriminate M; try (destruct H as [<-|[]]; auto; fail).
    apply orb_false_elim in M. apply in_app_or in H. destruct H; [apply IHt1|apply IHt2]; tauto.
  Qed.
  Lemma members_heads t ms m : not_any t -> union_members n E t = Ok ms -> In m ms -> may_be_any m = false /\ is_union m = false.
  Proof.
    intros N H Hm. unfold union_members in H. apply bind_ok in H. destruct H as (c & Hc & H). injection H as <-. apply (proj1 (type_set_In _ _)) in Hm.
    eapply member_head; [|exact Hm]. eapply canonical_not_any; [exact Hc|apply N, Hc].
  Qed.

  Lemma calm_concrete t : may_be_any t = false -> is_union t = false -> calm (compile_concrete n E C t).
  Proof.
    intros M U. apply calm_bind; [apply calm_canon|]. intros c Hc. pose proof (canon_flat _ _ _ _ Hc) as Fc.
    assert (Nu : is_union c = false). { eapply canon_atom_nonunion; [|exists n; exact Hc]. split; [|exact U]. destruct t; try reflexivity. discriminate M. }
    assert (Na : c <> TAny) by (eapply (proj1 (not_any_canonical E n)); eassumption).
    destruct c; try (contradiction Na; reflexivity); try discriminate Nu; try discriminate Fc; try (cbn; discriminate).
    all: apply calm_bind; [apply calm_concrete_name|]; intros [r|] _; [apply calm_ok|apply calm_lower; exact Fc].
  Qed.

  Lemma calm_alternative x t e : not_any t -> calm (compile_alternative n E C x t e).
  Proof.
    intros N. apply calm_bind; [apply calm_canon|]. intros c Hc. apply calm_bind; [apply calm_concrete_name|]. intros [r|] _.
    - apply calm_bind; [apply calm_compile_type|]. intros. apply calm_ok.
    - apply calm_bind; [apply calm_members|]. intros ms Hms. apply calm_bind; [|intros; apply calm_ok]. apply calm_mapM. intros m Hm.
      assert (N' : not_any c). { intros d Hd. eapply (proj1 (not_any_canonical E n)); [|exact Hd]. eapply canonical_not_any; [exact Hc|apply N, Hc]. }
      destruct (members_heads c ms m N' Hms Hm). apply calm_concrete; assumption.
  Qed.

  Lemma reference_not_any x : In x [list_first_rest C; map_empty_type C; iterator_type C] -> not_any (TReference x).
  Proof.
    intros H c Hc. destruct (Prelude x H) as (r & o & L). destruct n as [|k]; [discriminate Hc|]. cbn [canonicalize] in Hc. unfold resolve in Hc. rewrite L in Hc. cbn [bind] in Hc.
    destruct k; [discriminate Hc|]. cbn in Hc. injection Hc as <-. discriminate.
  Qed.
  Lemma head_not_any t : may_be_any t = false -> not_any t.
  Proof. intros M c Hc. eapply (proj1 (not_any_canonical E n)); eassumption. Qed.
  Lemma equal_not_any t : equal_types n E TAny t = Ok false \/ equal_types n E t TAny = Ok false -> not_any t.
  Proof.
    intros H c Hc ->. unfold equal_types in H. rewrite Hc in H. destruct n as [|k]; [discriminate Hc|]. cbn in H. destruct H as [H|H]; discriminate H.
  Qed.

  (** ** Generated expressions *)
  Ltac parts_of := intros ? ?; repeat match goal with
    | H : In _ (parts _) |- _ => unfold parts in H; rewrite !in_app_iff in H; cbn [eager_parts lazy_parts bodies map snd In app] in H
    | H : _ \/ _ |- _ => destruct H
    | H : False |- _ => destruct H
    end; subst.

  Lemma fine_leaf e : parts e = [] -> node_ok e -> fine e.
  Proof. intros P N. apply fine_node; [exact N|]. rewrite P. intros p []. Qed.
  Lemma fine_variable x : fine (HVariable x).
  Proof. apply fine_leaf; [reflexivity|exact I]. Qed.
  Lemma fine_call t g es : (forall b, g <> HBuiltIn b) -> fine g -> (forall e, In e es -> fine e) -> fine (HCall t g es).
  Proof.
    intros Ng Fg Fe. apply fine_node; [cbn; destruct t, g; try exact I; exfalso; eapply Ng; reflexivity|].
    parts_of; [exact Fg|]. apply Fe. assumption.
  Qed.
  Lemma fine_hcall x a r es : (forall e, In e es -> fine e) -> fine (hcall x a r es).
  Proof. intros H. apply fine_call; [discriminate|apply fine_variable|exact H]. Qed.
  Lemma fine_if c a b : fine c -> fine a -> fine b -> fine (HIf c a b).
  Proof. intros. apply fine_node; [exact I|]. parts_of; assumption. Qed.
  Lemma fine_boolean b : fine (HBoolean b).
  Proof. apply fine_leaf; [reflexivity|exact I]. Qed.
  Lemma fine_let x t b e : fine b -> fine e -> fine (HLet x t b e).
  Proof. intros. apply fine_node; [exact I|]. parts_of; assumption. Qed.
  Lemma fine_lambda args r b : fine b -> fine (HLambda args r b).
  Proof. intros. apply fine_node; [exact I|]. parts_of; assumption. Qed.
  Lemma fine_thunk t e : fine e -> fine (HThunk t e).
  Proof. intros. apply fine_node; [exact I|]. destruct t; parts_of; assumption. Qed.
  Lemma fine_coerce s t e : fine e -> fine (HCoerce s t e).
  Proof. intros. apply fine_node; [exact I|]. parts_of; assumption. Qed.
  Lemma fine_if_type x a bs els : fine a -> (forall b, In b bs -> not_any (fst b) /\ fine (snd b)) ->
    match els with None => True | Some (t, e) => t <> None /\ fine e end -> fine (HIfType x a bs els).
  Proof.
    intros Fa Fb Fe. apply fine_node; [split; [intros b Hb; apply Fb, Hb|]; destruct els as [[[t|] e]|]; auto; apply (proj1 Fe); reflexivity|].
    parts_of; try assumption. apply in_app_or in H. destruct H as [H|H].
    - apply in_map_iff in H. destruct H as (b & <- & Hb). apply Fb, Hb.
    - destruct els as [[t e]|]; [|destruct H]. destruct H as [<-|[]]. apply Fe.
  Qed.
  Lemma fine_if_list t l x y a b : fine l -> fine a -> fine b -> fine (HIfList t l x y a b).
  Proof. intros. apply fine_node; [exact I|]. parts_of; assumption. Qed.
  Lemma fine_list t es : (forall e, In e (flat_map element_parts es) -> fine e) -> fine (HList t es).
  Proof. intros H. apply fine_node; [exact I|]. parts_of. apply H. assumption. Qed.
  Lemma fine_comprehension t el bs : bs <> [] -> fine el -> (forall e, In e (flat_map branch_parts bs) -> fine e) -> fine (HComprehension t el bs).
  Proof. intros N H1 H2. apply fine_node; [exact N|]. parts_of. apply in_app_or in H. destruct H as [H|[<-|[]]]; [apply H2, H|exact H1]. Qed.

  Lemma calm_downcast s t e : calm (downcast_code n E s t e).
  Proof.
    unfold downcast_code. apply calm_bind; [apply calm_canon|]. intros c _. destruct (negb _); [apply calm_reject|]. apply calm_bind; [apply calm_subsumes|]. intros b _.
    destruct (negb b); [apply calm_reject|]. apply calm_bind; [apply calm_equal|]. intros. apply calm_ok.
  Qed.
  Lemma fine_downcast t e d : downcast_code n E TAny t e = Ok d -> fine e -> fine d.
  Proof.
    unfold downcast_code. intros H Fe. apply bind_ok in H. destruct H as (c & Hc & H).
    assert (c = TAny) as -> by (destruct n as [|k]; [discriminate Hc|]; cbn in Hc; congruence). cbn [negb] in H.
    apply bind_ok in H. destruct H as (b & _ & H). destruct (negb b); [discriminate H|]. apply bind_ok in H. destruct H as (same & Hs & H). injection H as <-.
    destruct same; [exact Fe|]. apply fine_if_type; [exact Fe| |exact I]. intros b0 [<-|[]]. split; [apply equal_not_any; left; exact Hs|apply fine_variable].
  Qed.

  Lemma calm_context t : calm (map_context_call n E C t).
  Proof. apply calm_bind; [apply calm_rmap, calm_type_id'|]. intros. apply calm_ok. Qed.
  Lemma fine_context t e : map_context_call n E C t = Ok e -> fine e.
  Proof. intros H. apply bind_ok in H. destruct H as (g & _ & H). injection H as <-. apply fine_hcall. intros e []. Qed.

  Lemma calm_if_list t l x y a b : calm (if_list n E C t l x y a b).
  Proof.
    apply calm_bind; [apply calm_annotated|]. intros u _. cbv zeta. apply calm_bind; [apply calm_equal|]. intros same _. apply calm_bind; [|intros; apply calm_ok].
    destruct same; [apply calm_ok|]. apply calm_bind; [apply calm_downcast|]. intros. apply calm_ok.
  Qed.
  Ltac each_of := let e := fresh "e" in let H := fresh "H" in intros e H; cbn [In] in H; repeat (destruct H as [<-|H]); try (destruct H).
  Lemma fine_if_list' t l x y a b e : if_list n E C t l x y a b = Ok e -> fine l -> fine a -> fine b -> fine e.
  Proof.
    intros H Fl Fa Fb. unfold if_list in H. apply bind_ok in H. destruct H as (u & _ & H). cbv zeta in H. apply bind_ok in H. destruct H as (same & _ & H).
    apply bind_ok in H. destruct H as (bound & Hb & H). injection H as <-.
    assert (Fbound : fine bound).
    { destruct same; [injection Hb as <-; apply fine_hcall; each_of; apply fine_variable|]. apply bind_ok in Hb. destruct Hb as (d & Hd & Hb). injection Hb as <-.
      apply fine_let; [apply fine_hcall; each_of; apply fine_variable|]. apply fine_lambda. eapply fine_downcast; [exact Hd|].
      apply fine_call; [discriminate|apply fine_variable|intros e []]. }
    apply fine_if_type; [apply fine_hcall; each_of; exact Fl| |exact I]. each_of; cbn [fst snd].
    - split; [apply reference_not_any; left; reflexivity|]. apply fine_let; [exact Fbound|]. apply fine_let; [apply fine_hcall; each_of; apply fine_variable|exact Fa].
    - split; [apply head_not_any; reflexivity|exact Fb].
  Qed.

  Lemma calm_if_map kt vt x m k a b : calm (if_map n E C kt vt x m k a b).
  Proof.
    repeat (apply calm_bind; [apply calm_annotated|intros]). apply calm_bind; [apply calm_context|]. intros. apply calm_bind; [apply calm_downcast|]. intros. apply calm_ok.
  Qed.
  Lemma fine_if_map kt vt x m k a b e : if_map n E C kt vt x m k a b = Ok e -> fine m -> fine k -> fine a -> fine b -> fine e.
  Proof.
    intros H Fm Fk Fa Fb. unfold if_map in H. apply bind_ok in H. destruct H as (kt' & _ & H). apply bind_ok in H. destruct H as (vt' & _ & H).
    apply bind_ok in H. destruct H as (ctx & Hc & H). apply bind_ok in H. destruct H as (d & Hd & H). injection H as <-.
    apply fine_if_type.
    - apply fine_hcall. each_of; [eapply fine_context, Hc|exact Fm|apply fine_coerce, Fk].
    - each_of. cbn [fst snd]. split; [apply reference_not_any; right; left; reflexivity|exact Fb].
    - split; [discriminate|]. apply fine_let; [|exact Fa]. eapply fine_downcast; [exact Hd|apply fine_variable].
  Qed.

  Lemma fine_list_literal t es : (forall e, In e (flat_map element_parts es) -> fine e) -> fine (list_literal C t es).
  Proof.
    induction es as [|el es IH]; intros H; [apply fine_hcall; intros e []|].
    assert (IH' : fine (list_literal C t es)) by (apply IH; intros e He; apply H; cbn [flat_map]; apply in_or_app; right; exact He).
    destruct el as [e|e].
    - assert (Fe : fine e) by (apply H; left; reflexivity). destruct es; cbn [list_literal]; apply fine_hcall; each_of; first [exact IH' | apply fine_thunk, fine_coerce, Fe | apply fine_thunk, Fe].
    - assert (Fe : fine e) by (apply H; left; reflexivity). destruct es; cbn [list_literal]; apply fine_hcall; each_of; first [exact IH' | apply fine_thunk, fine_coerce, Fe | apply fine_thunk, Fe].
  Qed.

  Lemma fine_map_entries kt vt es : (forall e, In e (flat_map map_parts es) -> fine e) -> fine (map_entries C kt vt es).
  Proof.
    induction es as [|el es IH]; intros H; [apply fine_hcall; intros e []|].
    assert (IH' : fine (map_entries C kt vt es)) by (apply IH; intros e He; apply H; cbn [flat_map]; apply in_or_app; right; exact He).
    destruct el as [a b|m].
    - cbn [map_entries]. apply fine_hcall; each_of; [apply fine_variable|exact IH'|apply fine_coerce, H; left; reflexivity|apply fine_coerce, H; right; left; reflexivity].
    - assert (Fm : fine m) by (apply H; left; reflexivity). cbn [map_entries]. destruct es; [exact Fm|]. apply fine_hcall; each_of; [apply fine_variable|exact Fm|exact IH'].
  Qed.
  Lemma calm_map_literal kt vt es : calm (map_literal n E C kt vt es).
  Proof. apply calm_bind; [apply calm_context|]. intros. apply calm_ok. Qed.
  Lemma fine_map_literal kt vt es e : map_literal n E C kt vt es = Ok e -> (forall a, In a (flat_map map_parts es) -> fine a) -> fine e.
  Proof.
    intros H Fe. apply bind_ok in H. destruct H as (ctx & Hc & H). injection H as <-. apply fine_let; [eapply fine_context, Hc|]. apply fine_map_entries.
    intros a Ha. apply Fe. apply in_flat_map in Ha. destruct Ha as (el & Hel & Ha). apply in_flat_map. exists el. split; [apply in_rev; exact Hel|exact Ha].
  Qed.

  (** ** Comparison *)
  Lemma names_of_member t m : names_ok f t -> In m (members_canonical t) -> names_ok f m.
  Proof.
    induction t; cbn; intros N H; try (destruct H as [<-|[]]; exact N). inversion N; subst. apply in_app_or in H. destruct H; auto.
  Qed.

  Lemma calm_others ts t : calm (other_types n E ts t).
  Proof. induction ts as [|u ts IH]; cbn [other_types]; [apply calm_ok|]. apply calm_bind; [apply calm_equal|]. intros. apply calm_bind; [exact IH|]. intros. apply calm_ok. Qed.
  Lemma others_none t ts : other_types n E ts t = Ok [] -> forall u, In u ts -> equal_types n E u t = Ok true.
  Proof.
    induction ts as [|v ts IH]; intros H u Hu; [destruct Hu|]. cbn [other_types] in H. apply bind_ok in H. destruct H as (same & Hs & H). apply bind_ok in H. destruct H as (r & Hr & H).
    destruct same; [|discriminate H]. injection H as ->. destruct Hu as [<-|Hu]; auto.
  Qed.

  Lemma others_exist l r ms m : canon E (TUnion l r) (TUnion l r) -> names_ok f (TUnion l r) -> union_members n E (TUnion l r) = Ok ms -> In m ms ->
    other_types n E ms m <> Ok [].
  Proof.
    intros Ct N H Hm X. destruct (union_members_spec E n _ ms Ct H) as (S1 & S2 & _).
    assert (All : forall u, In u ms -> u = m).
    { intros u Hu. pose proof (others_none _ _ X u Hu) as Q. apply S1 in Hu, Hm.
      apply (equal_fixed f E W n u m true); [apply (members_fixed f E W _ _ Ct u Hu)|apply (members_fixed f E W _ _ Ct m Hm)| | |exact Q|reflexivity]; eapply names_of_member; eassumption. }
    assert (D : NoDup ms). { unfold union_members in H. apply bind_ok in H. destruct H as (c & _ & H). injection H as <-. apply type_set_nodup. }
    destruct ms as [|a [|b ms]]; [destruct Hm| |].
    - pose proof (S2 a eq_refl) as Q. destruct (members_fixed f E W _ _ Ct a) as [_ U]; [apply S1; left; reflexivity|]. rewrite <- Q in U. discriminate U.
    - inversion D; subst. apply H2. rewrite (All a), (All b) by (cbn; auto). left. reflexivity.
  Qed.

  Lemma member_not_any t ms m : canon E t t -> union_members n E t = Ok ms -> is_any t = false -> In m ms -> not_any m.
  Proof.
    intros Ct H Na Hm. apply head_not_any. refine (proj1 (members_heads t ms m _ H Hm)). intros c Hc ->. rewrite (canon_fun _ _ _ _ Ct (ex_intro _ n Hc)) in Na. discriminate Na.
  Qed.

  Lemma equal_code_calm k : forall t l r, canon E t t -> names_ok f t -> calm (equal_code n E R C k t l r).
  Proof.
    induction k as [|k IH]; [discriminate|]. intros t l r Ct N. destruct t; cbn [equal_code]; try apply calm_ok; try apply calm_reject.
    - apply calm_bind; [apply calm_rmap, calm_type_id'|]. intros. apply calm_ok.
    - apply calm_bind; [apply calm_context|]. intros. apply calm_ok.
    - apply calm_bind; [apply calm_comparable|]. intros [] _; [apply calm_ok|apply calm_reject].
    - pose proof (canon_references _ _ _ Ct) as Q. discriminate Q.
    - apply calm_bind; [apply calm_members|]. intros ms Hms. apply calm_bind; [|intros; apply calm_ok]. apply calm_mapM. intros m Hm.
      destruct (union_members_spec E n _ ms Ct Hms) as (S1 & _ & _).
      apply calm_bind; [apply IH; [eapply (members_fixed f E W _ _ Ct); apply S1, Hm|eapply names_of_member; [exact N|apply S1, Hm]]|]. intros e _.
      apply calm_bind; [apply calm_others|]. intros others Ho. destruct others as [|u us]; [|cbn; apply calm_ok]. exfalso. eapply others_exist; eassumption.
  Qed.
  Lemma equal_code_fine k : forall t l r e, equal_code n E R C k t l r = Ok e -> canon E t t -> names_ok f t -> fine l -> fine r -> fine e.
  Proof.
    induction k as [|k IH]; [discriminate|]. intros t l r e H Ct N Fl Fr. destruct t; cbn [equal_code] in H; try discriminate H.
    - injection H as <-. apply fine_if; [exact Fl|exact Fr|]. apply fine_if; [exact Fr|apply fine_boolean|apply fine_boolean].
    - apply bind_ok in H. destruct H as (g & _ & H). injection H as <-. apply fine_hcall. each_of; [apply fine_variable|exact Fl|exact Fr].
    - apply bind_ok in H. destruct H as (g & Hg & H). injection H as <-. apply fine_hcall. each_of; [eapply fine_context, Hg|exact Fl|exact Fr].
    - injection H as <-. apply fine_boolean.
    - injection H as <-. apply fine_node; [exact N|]. parts_of; assumption.
    - apply bind_ok in H. destruct H as ([] & _ & H); [|discriminate H]. injection H as <-. apply fine_hcall. each_of; [exact Fl|exact Fr].
    - pose proof (canon_references _ _ _ Ct) as Q. discriminate Q.
    - injection H as <-. apply fine_node; [exact N|]. parts_of; assumption.
    - apply bind_ok in H. destruct H as (ms & Hms & H). apply bind_ok in H. destruct H as (bs & Hbs & H). injection H as <-.
      destruct (union_members_spec E n _ ms Ct Hms) as (S1 & _ & _).
      apply fine_if_type; [exact Fl| |exact I]. intros b Hb. destruct (HirMain.mapM_in _ _ _ _ Hbs Hb) as (m & Hm & Q). cbv beta in Q.
      apply bind_ok in Q. destruct Q as (e & He & Q). apply bind_ok in Q. destruct Q as (others & _ & Q). destruct (create_union others) as [u|]; [|discriminate Q]. injection Q as <-.
      assert (Nm : not_any m) by (eapply member_not_any; [exact Ct|exact Hms|reflexivity|exact Hm]). cbn [fst snd]. split; [exact Nm|].
      apply fine_if_type; [exact Fr| |split; [discriminate|apply fine_boolean]]. each_of. cbn [fst snd]. split; [exact Nm|].
      eapply IH; [exact He|eapply (members_fixed f E W _ _ Ct); apply S1, Hm|eapply names_of_member; [exact N|apply S1, Hm]|apply fine_variable|apply fine_variable].
  Qed.

  Lemma calm_equal_operation k t l r : names_ok f t -> calm (equal_operation n E R C k t l r).
  Proof.
    intros N. apply calm_bind; [apply calm_canon|]. intros c Hc. assert (Ct : canon E t c) by (exists n; exact Hc). apply equal_code_calm; [eapply canon_idem; eassumption|].
    eapply names_canon; [apply W|exact N|exact Ct].
  Qed.
  Lemma fine_equal_operation k t l r e : equal_operation n E R C k t l r = Ok e -> names_ok f t -> fine l -> fine r -> fine e.
  Proof.
    intros H N Fl Fr. apply bind_ok in H. destruct H as (c & Hc & H). assert (Ct : canon E t c) by (exists n; exact Hc).
    eapply equal_code_fine; [exact H|eapply canon_idem; eassumption|eapply names_canon; [apply W|exact N|exact Ct]|exact Fl|exact Fr].
  Qed.

  (** ** Loops *)
  Lemma calm_iteratees its : calm (iteratee_elements n E its).
  Proof.
    induction its as [|it its IH]; cbn [iteratee_elements]; [apply calm_ok|]. apply calm_bind; [apply calm_annotated|]. intros. apply calm_bind; [apply calm_canon|]. intros.
    apply calm_bind; [exact IH|]. intros. apply calm_ok.
  Qed.
  Lemma calm_loop_body t el b : calm (loop_body n E t el b).
  Proof. apply calm_bind; [apply calm_iteratees|]. intros. apply calm_ok. Qed.
  Lemma fine_loop_lists t vars body : fine body -> fine (loop_lists t vars body).
  Proof.
    intros Fb. induction vars as [|[[x l] et] vars IH]; cbn [loop_lists]; [exact Fb|]. apply fine_if_list; [apply fine_variable|exact IH|]. apply fine_list. intros e [].
  Qed.
  Lemma fine_loop_body t el b e : loop_body n E t el b = Ok e -> (forall p, In p (element_parts el) -> fine p) -> (forall p, In p (branch_parts b) -> fine p) -> fine e.
  Proof.
    intros H Fe Fb. apply bind_ok in H. destruct H as (ets & _ & H). injection H as <-. apply fine_loop_lists.
    assert (Fr : forall its names, fine (loop_rest t its names)).
    { intros its names. apply fine_call; [discriminate|apply fine_variable|]. intros e He. apply in_map_iff in He. destruct He as (y & <- & _). apply fine_variable. }
    assert (Fl : forall its names, fine (HList t [el; Multiple (loop_rest t its names)])).
    { intros its names. apply fine_list. intros e He. cbn [flat_map] in He. apply in_app_or in He. destruct He as [He|He]; [apply Fe, He|].
      destruct He as [<-|He]; [apply Fr|destruct He]. }
    destruct (b_condition b) as [c|] eqn:Q; [|apply Fl]. apply fine_if; [|apply Fl|apply Fr]. apply Fb. unfold branch_parts. rewrite Q. rewrite ?in_app_iff. cbn. tauto.
  Qed.

  Lemma calm_iteration_body g t : calm (iteration_body n E C g t).
  Proof. apply calm_bind; [apply calm_downcast|]. intros. apply calm_ok. Qed.
  Lemma fine_iteration_body g t e : iteration_body n E C g t = Ok e -> fine e.
  Proof.
    intros H. apply bind_ok in H. destruct H as (d & Hd & H). injection H as <-. apply fine_if_type; [apply fine_variable| |split; [discriminate|apply fine_list; intros e []]].
    each_of. cbn [fst snd]. split; [apply reference_not_any; cbn; auto|]. apply fine_list. cbn [flat_map element_parts app]. each_of.
    - eapply fine_downcast; [exact Hd|]. apply fine_hcall. each_of. apply fine_variable.
    - apply fine_call; [discriminate|apply fine_variable|]. each_of. apply fine_hcall. each_of. apply fine_variable.
  Qed.

  Lemma calm_concrete_value e t : may_be_any t = false -> is_union t = false -> calm (concrete_value n E C e t).
  Proof.
    intros M U. apply calm_bind; [apply calm_canon|]. intros c Hc. pose proof (canon_flat _ _ _ _ Hc) as Fc.
    assert (Nu : is_union c = false). { eapply canon_atom_nonunion; [|exists n; exact Hc]. split; [|exact U]. destruct t; try reflexivity. discriminate M. }
    assert (Na : c <> TAny) by (eapply (proj1 (not_any_canonical E n)); eassumption).
    destruct c; try (contradiction Na; reflexivity); try discriminate Nu; try discriminate Fc; try (cbn; discriminate).
    all: apply calm_bind; [apply calm_concrete_name|]; intros [r|] _; apply calm_ok.
  Qed.

  Lemma calm_field_lets fts fs e : calm (field_lets n E C fts fs e).
  Proof.
    induction fs as [|g fs IH]; cbn [field_lets]; [apply calm_ok|]. apply calm_bind; [destruct (lookup _ _); [apply calm_compile_type|apply calm_reject]|]. intros.
    apply calm_bind; [exact IH|]. intros. apply calm_ok.
  Qed.

  Lemma arg_calm {A} i (l : list A) : i < length l -> calm (match nth_error l i with Some a => Ok a | None => Panic end).
  Proof. intros H. destruct (nth_error l i) eqn:Q; [apply calm_ok|]. apply nth_error_None in Q. lia. Qed.

  (** ** Expressions *)
  Section Step.
    Variable F : hexpr -> res expr.
    Hypothesis HF : forall e, fine e -> calm (F e).
    Hypothesis FB : forall b, exists s, F (HBuiltIn b) = reject s \/ F (HBuiltIn b) = OutOfFuel.

    Lemma calm_map_iteration g m t : fine m -> calm (map_iteration n E C F g m t).
    Proof.
      intros Fm. apply calm_bind; [apply calm_iteration_body|]. intros b Hb. apply calm_bind; [apply HF; eapply fine_iteration_body, Hb|]. intros.
      apply calm_bind; [apply HF, Fm|]. intros. apply calm_ok.
    Qed.

    Lemma calm_comprehension t el bs : fine (HComprehension t el bs) -> calm (comprehension n E C F t el bs).
    Proof.
      intros Fc. pose proof (fine_here _ Fc) as N. cbn in N. destruct bs as [|b bs]; [contradiction|]. cbn [comprehension].
      assert (Fp : forall p, In p (flat_map branch_parts (b :: bs)) \/ p = el -> fine p).
      { intros p Hp. eapply fine_part; [|exact Fc]. unfold parts. cbn [eager_parts lazy_parts]. rewrite !in_app_iff. cbn. destruct Hp as [Hp|<-]; auto. }
      apply calm_bind; [apply calm_loop_body|]. intros body Hb. apply calm_bind; [apply HF; eapply fine_loop_body; [exact Hb| |]|].
      - intros p Hp. destruct bs as [|b' bs].
        + destruct Hp as [<-|[]]. apply Fp. auto.
        + destruct Hp as [<-|[]]. apply fine_comprehension; [discriminate|apply Fp; auto|]. intros e He. apply Fp. left. cbn [flat_map]. apply in_or_app. right. exact He.
      - intros p Hp. apply Fp. left. cbn [flat_map]. apply in_or_app. left. exact Hp.
      - intros. apply calm_bind; [|intros; apply calm_ok]. apply calm_mapM. intros it Hit. apply HF, Fp. left. cbn [flat_map]. apply in_or_app. left. unfold branch_parts.
        rewrite ?in_app_iff. left. apply in_map, Hit.
    Qed.

    Lemma calm_branch x b : not_any (fst b) -> fine (snd b) -> calm (compile_branch n E C F x b).
    Proof. intros N Fb. apply calm_bind; [apply HF, Fb|]. intros. apply calm_alternative, N. Qed.
    Lemma calm_else x els : match els with None => True | Some (t, e) => t <> None /\ fine e end -> calm (compile_else n E C F x els).
    Proof.
      destruct els as [[[t|] e]|]; intros H; [|destruct H; contradiction|apply calm_ok]. cbn [compile_else]. apply calm_bind; [apply calm_equal|]. intros any Ha.
      destruct any; [apply calm_bind; [apply HF, H|intros; apply calm_ok]|]. apply calm_bind; [apply calm_branch; [apply equal_not_any; right; exact Ha|apply H]|intros; apply calm_ok].
    Qed.

    Lemma calm_coercion s t e : fine e -> calm (compile_coercion n E C F s t e).
    Proof.
      intros Fe. apply calm_bind; [apply calm_canon|]. intros c Hc. apply calm_bind; [apply calm_canon|]. intros d _. apply calm_bind; [apply HF, Fe|]. intros x _. cbv zeta.
      pose proof (canon_flat _ _ _ _ Hc) as Fc. destruct c; try discriminate Fc; try apply calm_ok; try (apply calm_bind; [apply calm_compile_type|intros; apply calm_ok]).
      all: try (destruct d; try apply calm_ok).
      all: apply calm_bind; [apply calm_concrete_name|]; intros o Ho; cbn [concrete_name] in Ho;
        repeat (apply bind_ok in Ho; destruct Ho as (? & _ & Ho)); injection Ho as <-; apply calm_bind; [apply calm_concrete_value; reflexivity|intros; apply calm_ok].
    Qed.

    Lemma calm_binary k o l r : fine (HBinary o l r) -> calm (compile_binary n E R C F k o l r).
    Proof.
      intros Fb. assert (Fl : fine l) by (eapply fine_part; [|exact Fb]; unfold parts; cbn; destruct o as [|?|[]|? ?|?]; cbn; auto).
      assert (Fr : fine r) by (eapply fine_part; [|exact Fb]; unfold parts; cbn; destruct o as [|?|[]|? ?|?]; cbn; auto).
      apply fine_here in Fb.
      assert (Both : forall g : expr -> expr -> expr, calm (bind (F l) (fun l => bind (F r) (fun r => Ok (g l r))))).
      { intros g. apply calm_bind; [apply HF, Fl|]. intros. apply calm_bind; [apply HF, Fr|]. intros. apply calm_ok. }
      destruct o as [t|o|o|t [] |o]; cbn [compile_binary]; try apply Both.
      - apply calm_bind; [apply calm_annotated|]. intros u _. destruct u; try apply calm_reject; apply Both.
      - apply HF. destruct o; apply fine_if; auto using fine_boolean.
      - destruct t as [t|]; [|apply calm_reject]. cbn [annotated bind]. cbn in Fb. apply calm_bind; [apply calm_canon|]. intros c Hc.
        destruct c; try apply Both; (apply calm_bind; [apply calm_equal_operation, Fb|]; intros e He; apply HF; eapply fine_equal_operation; eassumption).
      - apply HF. apply fine_if; auto using fine_boolean. apply fine_node; [exact Fb|]. parts_of; assumption.
    Qed.

    Lemma calm_built_in b ft args : fine (HCall ft (HBuiltIn b) args) -> calm (compile_built_in n E C F b ft args).
    Proof.
      intros Fc. assert (Fa : forall a, In a args -> fine a) by (intros a Ha; eapply fine_part; [apply argument_part, Ha|exact Fc]). apply fine_here in Fc.
      destruct ft as [ft|]; [|apply calm_reject]. unfold compile_built_in. cbn [annotated bind]. apply calm_bind; [apply calm_function|]. intros ar Har. cbn in Fc.
      destruct (Fc ar Har) as [L N]. apply calm_bind; [apply calm_mapM; intros a Ha; apply HF, Fa, Ha|]. intros es Hes. cbv zeta.
      pose proof (proj1 (mapM_ok _ _ _) Hes) as Q. assert (Les : length args = length es) by (clear - Q; induction Q; cbn; congruence).
      destruct ar as [ats r]. cbn [fst snd] in *.
      assert (Nb : forall a b, In a args -> a <> HBuiltIn b).
      { intros a b0 Ha ->. destruct (Forall2_in_l _ _ _ _ Q Ha) as (e & _ & He). destruct (FB b0) as (s & [X|X]); rewrite X in He; discriminate He. }
      destruct b; cbn [enough] in N;
        (destruct ats as [|t0 ats]; [contradiction|]); (destruct args as [|a0 args]; [discriminate L|]); (destruct es as [|e0 es]; [discriminate Les|]); cbn [nth_error bind]; try apply calm_ok.
      - destruct ats as [|t1 ats]; [contradiction|]. destruct args as [|a1 args]; [discriminate L|]. cbn [nth_error bind]. apply calm_bind; [apply calm_map|]. intros.
        apply calm_bind; [apply calm_context|]. intros ctx Hc. apply calm_bind; [apply HF; eapply fine_context, Hc|]. intros. apply calm_bind; [apply HF, fine_coerce, Fa; cbn; auto|].
        intros. apply calm_ok.
      - apply calm_bind; [apply calm_map|]. intros. apply calm_map_iteration, Fa. left. reflexivity.
      - apply calm_bind; [apply calm_list|]. intros et _. apply calm_bind.
        + apply HF. apply fine_comprehension; [discriminate|apply fine_call; [discriminate|apply fine_variable|intros e []]|]. cbn. each_of. apply Fa. left. reflexivity.
        + intros. apply calm_bind; [apply calm_signature|]. intros. apply calm_ok.
      - destruct ats as [|t1 ats]; [contradiction|]. destruct args as [|a1 args]; [discriminate L|]. destruct es as [|e1 es]; [discriminate Les|]. apply calm_ok.
      - apply calm_bind; [apply calm_signature|]. intros. destruct t0; try contradiction; apply calm_ok.
      - apply calm_bind; [apply calm_function|]. intros ar2 _. apply calm_bind.
        + apply HF, fine_coerce, fine_call; [intros b; apply Nb; left; reflexivity|apply Fa; left; reflexivity|intros e []].
        + intros. apply calm_bind; [apply calm_compile_type|]. intros. apply calm_bind; [apply calm_downcast|]. intros d Hd. apply calm_bind; [|intros; apply calm_ok].
          apply HF. eapply fine_downcast; [exact Hd|]. apply fine_call; [discriminate|apply fine_variable|intros e []].
      - apply calm_bind; [apply calm_map|]. intros. apply calm_map_iteration, Fa. left. reflexivity.
    Qed.
  End Step.

  Lemma built_in_rejected k b : exists s, compile n E R C k (HBuiltIn b) = reject s \/ compile n E R C k (HBuiltIn b) = OutOfFuel.
  Proof. destruct k; cbn; eexists; [right|left]; reflexivity. Unshelve. exact "". Qed.

  Ltac fpart H := eapply fine_part; [|exact H]; spart.
  Theorem calm_compile k : forall e, fine e -> calm (compile n E R C k e).
  Proof.
    induction k as [|k IH]; [discriminate|]. intros e Fe. pose proof (fine_here _ Fe) as Ne. pose proof (fun p (Hp : In p (parts e)) => IH p (fine_part e p Hp Fe)) as IP.
    assert (IX : forall p, In p (parts e) -> fine p) by (intros p Hp; eapply fine_part; eassumption).
    assert (Sub : forall p A (g : expr -> res A), In p (parts e) -> (forall x, calm (g x)) -> calm (bind (compile n E R C k p) g)).
    { intros p A g Hp Hg. apply calm_bind; [apply IP, Hp|intros; apply Hg]. }
    destruct e; cbn [compile]; try apply calm_ok; try apply calm_reject.
    - (* HCall *)
      assert (G : calm (bind (annotated function_type) (fun t => bind (compile_signature n E C t) (fun s => bind (compile n E R C k e) (fun f0 =>
        bind (mapM (compile n E R C k) arguments) (fun es => Ok (Op (OCall (fst s) (snd s)) (f0 :: es)))))))).
      { apply calm_bind; [apply calm_annotated|]. intros. apply calm_bind; [apply calm_signature|]. intros. apply Sub; [apply function_part|]. intros.
        apply calm_bind; [|intros; apply calm_ok]. apply calm_mapM. intros arg Harg. apply IP. apply argument_part, Harg. }
      destruct e; try exact G. apply calm_built_in; [exact IH|apply built_in_rejected|exact Fe].
    - repeat (apply Sub; [spart|intros]). apply calm_ok.
    - apply calm_bind; [apply calm_if_list|]. intros x Hx. apply IH. eapply fine_if_list'; [exact Hx| | |]; apply IX; spart.
    - apply calm_bind; [apply calm_if_map|]. intros x Hx. apply IH. eapply fine_if_map; [exact Hx| | | |]; apply IX; spart.
    - apply Sub; [spart|]. intros. destruct Ne as [N1 N2]. apply calm_bind.
      + apply calm_mapM. intros b Hb. apply calm_branch; [exact IH|apply N1, Hb|]. apply IX. apply if_type_branch_part, Hb.
      + intros. apply calm_bind; [|intros; apply calm_ok]. apply calm_else; [exact IH|]. destruct else_ as [[[t|] b]|]; try exact I; [|contradiction]. split; [discriminate|]. apply IX, if_type_else_part.
    - apply calm_bind; [apply calm_mapM; intros; apply calm_bind; [apply calm_compile_type|intros; apply calm_ok]|]. intros. apply calm_bind; [apply calm_compile_type|]. intros.
      apply Sub; [apply lambda_part|]. intros. apply calm_ok.
    - apply calm_bind; [apply calm_annotated|]. intros. apply calm_bind; [apply calm_compile_type|]. intros. repeat (apply Sub; [spart|intros]). apply calm_ok.
    - apply IH, fine_list_literal. intros p Hp. apply IX. unfold parts. cbn [eager_parts lazy_parts bodies map]. rewrite !in_app_iff. tauto.
    - apply calm_comprehension; [exact IH|exact Fe].
    - apply calm_bind; [apply calm_map_literal|]. intros x Hx. apply IH. eapply fine_map_literal; [exact Hx|]. intros p Hp. apply IX. unfold parts. cbn [eager_parts lazy_parts bodies map]. rewrite !in_app_iff. tauto.
    - apply calm_binary; [exact IH|exact Fe].
    - apply Sub; [spart|]. intros. apply calm_ok.
    - apply Sub; [spart|]. intros. destruct type as [t|]; [|apply calm_reject]. cbn [annotated bind]. apply calm_bind; [apply calm_alternative, Ne|intros; apply calm_ok].
    - apply calm_bind; [apply calm_record_fields|]. intros fts Hf. apply calm_bind; [eapply record_type_calm, Hf|]. intros. apply calm_bind.
      + apply calm_mapM. intros g Hg. apply Sub; [apply record_part, Hg|]. intros. apply calm_ok.
      + intros. apply calm_bind; [|intros; apply calm_field_lets]. apply calm_mapM. intros ft Hft. cbn in Ne. pose proof (Ne fts Hf _ (in_map fst _ _ Hft)) as M. apply mem_In in M. rewrite M. apply calm_ok.
    - destruct type as [t|]; [|contradiction]. destruct Ne as (fts & Hf & Hx). apply calm_bind; [eapply record_type_calm, Hf|]. intros. rewrite Hf. cbn [bind].
      apply calm_bind; [apply calm_field_index, Hx|]. intros. apply Sub; [spart|]. intros. apply calm_ok.
    - destruct Ne as (fts & Hf & Hx). apply calm_bind; [eapply record_type_calm, Hf|]. intros. apply Sub; [spart|]. intros. apply calm_bind; [|intros; apply calm_ok].
      apply calm_mapM. intros g Hg. rewrite Hf. cbn [bind]. apply calm_bind; [apply calm_field_index, Hx, in_map, Hg|]. intros. apply Sub; [apply update_part, Hg|]. intros. apply calm_ok.
    - apply calm_bind; [apply calm_annotated|]. intros. apply calm_bind; [apply calm_compile_type|]. intros. apply Sub; [spart|]. intros. apply calm_ok.
    - apply calm_coercion; [exact IH|]. apply IX. spart.
  Qed.
End Lower.
