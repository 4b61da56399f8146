(** The types in the functions generated for a program come from the program. *)
From Coq Require Import String Ascii List ZArith Bool Lia.
From Verif Require Import Base Mir HirType HirTypeOrder HirTypeSpec HirTypeTermination HirTypeEq HirTypeSub HirTypeId
  HirTypeModule Hir HirSpec HirValidate HirParts HirMain HirMir HirProgram LowerTag LowerTypeSpec LowerProgramSpec LowerTypeBase LowerTypeCode LowerTypeMore
  LowerTypeMain LowerTypeNames.
Import ListNotations.
Local Open Scope string_scope.

Section Flow.
  Variable f : string -> string.
  Variable C : config.
  Variable p : program.
  Hypothesis PF : program_fits f C p.
  Variable n : nat.

  Let E := program_env p.
  Let R := program_records p.
  Let X : context_ok f E R := pf_context f C p PF.
  Let W : wf f E := ctx_types f E R X.

  Notation neat := (neat f).

  Lemma neat_canonical t c : neat t -> canonicalize n E t = Ok c -> neat c.
  Proof. intros N H. eapply (neat_canon f C p PF); [exact N|exists n; exact H]. Qed.

  Lemma neat_env x t : lookup E x = Some t -> neat t.
  Proof. intros H. split; [eapply (wf_names f E W), H|eapply (env_plain f C p PF), H]. Qed.

  Lemma neat_members t ms u : neat t -> union_members n E t = Ok ms -> In u ms -> neat u.
  Proof.
    intros N H Hu. unfold union_members in H. bok H c Hc. injection H as <-. apply (proj1 (type_set_In _ _)) in Hu.
    eapply (neat_member f C p PF); [exact N|exists n; exact Hc|exact Hu].
  Qed.

  Lemma neat_function a r : Forall neat a -> neat r -> neat (TFunction a r).
  Proof.
    intros Fa [Nr Pr]. split.
    - constructor; [|exact Nr]. eapply Forall_impl; [|exact Fa]. intros t H. apply H.
    - apply plain_function. split; [|exact Pr]. eapply Forall_impl; [|exact Fa]. intros t H. apply H.
  Qed.
  Lemma neat_union l r : neat l -> neat r -> neat (TUnion l r).
  Proof.
    intros [Nl Pl] [Nr Pr]. split; [constructor; assumption|]. intros x Hx. cbn in Hx. apply in_app_or in Hx. destruct Hx; auto.
  Qed.
  Lemma neat_create ts u : create_union ts = Some u -> (forall t, In t ts -> neat t) -> neat u.
  Proof.
    destruct ts as [|t ts]; [discriminate|]. cbn. intros H. injection H as <-. revert t. induction ts as [|s ts IH]; intros t H; [apply H; left; reflexivity|].
    cbn. apply IH. intros x [<-|Hx]; [apply neat_union; apply H; cbn; auto|apply H; cbn; auto].
  Qed.
  Lemma neat_basic t : names_ok f t -> record_names t = [] -> neat t.
  Proof. intros N H. split; [exact N|]. intros r Hr. rewrite H in Hr. destruct Hr. Qed.
  Ltac basic := apply neat_basic; [repeat constructor|reflexivity].

  Definition all_neat (e : hexpr) : Prop := forall q t, occurs q e -> In t (node_types q) -> neat t.
  Definition neat_lambda (l : lambda) : Prop :=
    (forall y t, In (y, t) (l_arguments l) -> neat t) /\ neat (l_result l) /\ all_neat (l_body l).

  Lemma at_node e : (forall t, In t (node_types e) -> neat t) -> (forall q, In q (parts e) -> all_neat q) -> all_neat e.
  Proof.
    intros H1 H2 q t Hq Ht. destruct (occurs_cases q e Hq) as [->|(x & Hx & Hq')]; [apply H1, Ht|]. exact (H2 x Hx q t Hq' Ht).
  Qed.

  Lemma an_leaf e : node_types e = [] -> parts e = [] -> all_neat e.
  Proof. intros H1 H2. apply at_node; [rewrite H1; intros t []|rewrite H2; intros q []]. Qed.
  Ltac leaf := apply an_leaf; reflexivity.

  Lemma an_call t g es : neat t -> all_neat g -> (forall e, In e es -> all_neat e) -> all_neat (HCall (Some t) g es).
  Proof.
    intros Nt Hg Hes. apply at_node; [intros u [<-|[]]; exact Nt|]. intros q Hq. unfold parts in Hq. cbn in Hq. rewrite app_nil_r in Hq.
    destruct Hq as [<-|Hq]; [exact Hg|apply Hes, Hq].
  Qed.
  Lemma an_hcall g a r es : Forall neat a -> neat r -> (forall e, In e es -> all_neat e) -> all_neat (hcall g a r es).
  Proof. intros Ha Hr Hes. apply an_call; [apply neat_function; assumption|leaf|exact Hes]. Qed.
  Lemma an_if c a b : all_neat c -> all_neat a -> all_neat b -> all_neat (HIf c a b).
  Proof. intros Hc Ha Hb. apply at_node; [intros t []|]. intros q Hq. cbn in Hq. destruct Hq as [<-|[<-|[<-|[]]]]; assumption. Qed.
  Lemma an_equality t o l r : neat t -> all_neat l -> all_neat r -> all_neat (HBinary (BinEquality (Some t) o) l r).
  Proof. intros Nt Hl Hr. apply at_node; [intros u [<-|[]]; exact Nt|]. intros q Hq. cbn in Hq. destruct Hq as [<-|[<-|[]]]; assumption. Qed.
  Lemma an_field t r x : neat t -> all_neat r -> all_neat (HField (Some t) r x).
  Proof. intros Nt Hr. apply at_node; [intros u [<-|[]]; exact Nt|]. intros q Hq. cbn in Hq. destruct Hq as [<-|[]]; assumption. Qed.
  Lemma an_lambda args r b : (forall y t, In (y, t) args -> neat t) -> neat r -> all_neat b -> all_neat (HLambda args r b).
  Proof.
    intros Ha Hr Hb. apply at_node; [|intros q Hq; cbn in Hq; destruct Hq as [<-|[]]; exact Hb]. intros u Hu. cbn in Hu. apply in_app_or in Hu.
    destruct Hu as [Hu|[<-|[]]]; [|exact Hr]. apply in_map_iff in Hu. destruct Hu as ([y t] & <- & Hy). exact (Ha y t Hy).
  Qed.
  Lemma an_switch x a bs els : all_neat a -> (forall t b, In (t, b) bs -> neat t /\ all_neat b) ->
    (forall t b, els = Some (t, b) -> (forall u, t = Some u -> neat u) /\ all_neat b) -> all_neat (HIfType x a bs els).
  Proof.
    intros Ha Hbs Hels. apply at_node.
    - intros t Ht. cbn in Ht. apply in_app_or in Ht. destruct Ht as [Ht|Ht].
      + apply in_map_iff in Ht. destruct Ht as ([u b] & <- & Hb). exact (proj1 (Hbs u b Hb)).
      + destruct els as [[[u|] b]|]; [|destruct Ht..]. destruct Ht as [<-|[]]. exact (proj1 (Hels _ _ eq_refl) u eq_refl).
    - intros q Hq. unfold parts in Hq. cbn in Hq. rewrite app_nil_r in Hq. destruct Hq as [<-|Hq]; [exact Ha|]. apply in_app_or in Hq. destruct Hq as [Hq|Hq].
      + apply in_map_iff in Hq. destruct Hq as ([u b] & <- & Hb). exact (proj2 (Hbs u b Hb)).
      + destruct els as [[u b]|]; [|destruct Hq]. destruct Hq as [<-|[]]. exact (proj2 (Hels _ _ eq_refl)).
  Qed.

  Ltac neats := repeat (constructor; [first [assumption|basic]|]); constructor.
  Ltac each := let e := fresh in let H := fresh in intros e H; cbn in H; repeat (destruct H as [<-|H]; [first [assumption|leaf]|]); destruct H.

  Lemma neat_element e : neat (TList e) -> neat e.
  Proof. intros [N P]. apply names_fix in N. split; assumption. Qed.

  Lemma an_context t e : map_context_call n E C t = Ok e -> all_neat e.
  Proof. unfold map_context_call. intros H. bok H g Hg. injection H as <-. apply an_hcall; [constructor|basic|intros ? []]. Qed.

  Lemma an_equal_code k : forall t l r e, equal_code n E R C k t l r = Ok e -> neat t -> all_neat l -> all_neat r -> all_neat e.
  Proof.
    induction k as [|k IH]; intros t l r e H Nt Hl Hr; [discriminate|]. destruct t; cbn [equal_code] in H; try discriminate.
    - injection H as <-. apply an_if; [assumption..|]. apply an_if; [assumption|leaf|leaf].
    - bok H g Hg. injection H as <-. apply an_hcall; [neats|basic|each].
    - bok H g Hg. injection H as <-. apply an_context in Hg. apply an_hcall; [neats|basic|each].
    - injection H as <-. leaf.
    - injection H as <-. apply an_equality; [basic|assumption..].
    - bok H b Hb. destruct b; [|discriminate]. injection H as <-. apply an_hcall; [neats|basic|each].
    - bok H u Hu. unfold resolve in Hu. destruct (lookup E name) as [u'|] eqn:Q; [|discriminate]. injection Hu as ->. eapply IH; [exact H|eapply neat_env, Q|assumption..].
    - injection H as <-. apply an_equality; [basic|assumption..].
    - bok H ms Hms. bok H bs Hbs. injection H as <-. apply an_switch; [assumption| |discriminate]. apply mapM_ok in Hbs.
      assert (G : forall ms', incl ms' ms -> forall bs, Forall2 (fun x y => bind (equal_code n E R C k x (HVariable "$lhs") (HVariable "$rhs")) (fun e => bind (other_types n E ms x) (fun others => match create_union others with None => Panic | Some u => Ok (x, HIfType "$rhs" r [(x, e)] (Some (Some u, HBoolean false))) end)) = Ok y) ms' bs ->
        forall t b, In (t, b) bs -> neat t /\ all_neat b).
      { intros ms' I bs' F. induction F as [|x y l' l'' Hx _ IHF]; intros t b Hb; [destruct Hb|].
        assert (Nx : neat x) by (eapply neat_members; [exact Nt|exact Hms|apply I; left; reflexivity]).
        destruct Hb as [->|Hb]; [|eapply IHF; [intros z Hz; apply I; right; exact Hz|exact Hb]].
        bok Hx e He. bok Hx os Hos. destruct (create_union os) as [u|] eqn:Q; [|discriminate]. injection Hx as <- <-. split; [exact Nx|].
        apply an_switch; [assumption| |].
        - intros t b [S|[]]. injection S as <- <-. split; [exact Nx|]. eapply IH; [exact He|exact Nx|leaf|leaf].
        - intros t b S. injection S as <- <-. split; [|leaf]. intros v S. injection S as <-. eapply neat_create; [exact Q|].
          intros z Hz. eapply neat_members; [exact Nt|exact Hms|]. eapply other_incl; eassumption. }
      eapply G; [apply incl_refl|exact Hbs].
  Qed.

  Lemma an_hash k : forall v t e, hash_calculation n E R C k v t = Ok e -> neat t -> all_neat v -> all_neat e.
  Proof.
    induction k as [|k IH]; intros v t e H Nt Hv; [discriminate|]. destruct t; cbn [hash_calculation] in H; try discriminate.
    - injection H as <-. apply an_if; [assumption|leaf|leaf].
    - bok H g Hg. injection H as <-. apply an_hcall; [neats|basic|each].
    - bok H g Hg. injection H as <-. apply an_context in Hg. apply an_hcall; [neats|basic|each].
    - injection H as <-. leaf.
    - injection H as <-. apply an_hcall; [neats|basic|each].
    - bok H b Hb. destruct b; [|discriminate]. injection H as <-. apply an_hcall; [neats|basic|each].
    - bok H u Hu. unfold resolve in Hu. destruct (lookup E name) as [u'|] eqn:Q; [|discriminate]. injection Hu as ->. eapply IH; [exact H|eapply neat_env, Q|assumption].
    - injection H as <-. apply an_hcall; [neats|basic|each].
    - bok H ms Hms. bok H bs Hbs. injection H as <-. apply an_switch; [assumption| |discriminate]. apply mapM_ok in Hbs.
      assert (Nm : forall x, In x ms -> neat x) by (intros x Hx; eapply neat_members; eassumption). clear Hms.
      induction Hbs as [|x y l' l'' Hx _ IHF]; intros t b Hb; [destruct Hb|].
      destruct Hb as [->|Hb]; [|eapply IHF; [intros z Hz; apply Nm; right; exact Hz|exact Hb]].
      bok Hx e He. injection Hx as <- <-. assert (Nx : neat x) by (apply Nm; left; reflexivity). split; [exact Nx|]. eapply IH; [exact He|exact Nx|leaf].
  Qed.

  (** ** Generated functions *)
  Lemma record_neat d : In d (p_types p) -> neat (def_record d).
  Proof. intros H. apply (type_proper f C p PF), ti_record, H. Qed.
  Lemma field_neat d x t : In d (p_types p) -> In (x, t) (td_fields (t_def d)) -> neat t.
  Proof. intros H1 H2. apply (type_proper f C p PF). eapply ti_field; eassumption. Qed.

  Ltac args := let y := fresh in let t := fresh in let H := fresh in intros y t H; cbn in H; repeat (destruct H as [H|H]; [injection H as <- <-; first [assumption|basic]|]); destruct H.

  Lemma nl_record_equal d : In d (p_types p) -> neat_lambda (snd (record_equal_definition (td_name (t_def d)) (td_original (t_def d)) (td_fields (t_def d)))).
  Proof.
    intros Hd. pose proof (record_neat d Hd) as Nr. change (TRecord (td_name (t_def d)) (td_original (t_def d))) with (def_record d). unfold record_equal_definition, def_record in *.
    split; [|split]; cbn [snd l_arguments l_result l_body]; [args|basic|].
    assert (G : forall fts, incl fts (td_fields (t_def d)) -> all_neat (equal_fields (TRecord (td_name (t_def d)) (td_original (t_def d))) fts)); [|apply G, incl_refl].
    induction fts as [|[x t] fts IH]; intros I; cbn [equal_fields]; [leaf|].
    apply an_if; [|apply IH; intros z Hz; apply I; right; exact Hz|leaf]. apply an_equality; [eapply field_neat; [exact Hd|apply I; left; reflexivity]| |]; apply an_field; try assumption; leaf.
  Qed.

  Lemma nl_record_hash k d g : In d (p_types p) -> record_hash_definition n E R C k (td_name (t_def d)) (td_original (t_def d)) (td_fields (t_def d)) = Ok g ->
    fst g = record_hash_name (record_name d) /\ neat_lambda (snd g).
  Proof.
    intros Hd H. pose proof (record_neat d Hd) as Nr. unfold record_hash_definition in H. bok H e He. injection H as <-. cbn [fst snd]. split; [reflexivity|].
    unfold def_record in *. split; [|split]; cbn [snd l_arguments l_result l_body]; [args|basic|].
    assert (G : forall fts h e, incl fts (td_fields (t_def d)) -> all_neat h -> hash_fields n E R C k (TRecord (td_name (t_def d)) (td_original (t_def d))) fts h = Ok e -> all_neat e).
    { clear He e. induction fts as [|[x t] fts IH]; intros h e I Hh H; cbn [hash_fields] in H; [injection H as <-; exact Hh|].
      bok H h' Hh'. bok H c Hc. injection H as <-. apply IH in Hh'; [|intros z Hz; apply I; right; exact Hz|exact Hh].
      apply an_hash in Hc; [|eapply field_neat; [exact Hd|apply I; left; reflexivity]|apply an_field; [exact Nr|leaf]].
      apply an_hcall; [neats|basic|each]. }
    eapply G; [apply incl_refl| |exact He]. leaf.
  Qed.

  Lemma nl_context kt vt g : map_context_definition n E R C kt vt = Ok g -> context_name n E C (TMap kt vt) = Ok (fst g) /\ neat_lambda (snd g).
  Proof.
    unfold map_context_definition. intros H. bok H name Hn. bok H ek Hek. bok H hk Hhk. bok H b Hb. bok H vs Hvs. injection H as <-. cbn [fst snd]. split; [exact Hn|].
    split; [|split]; cbn [snd l_arguments l_result l_body]; [intros ? ? []|basic|]. apply an_hcall; [neats|basic|].
    assert (V : forall e, In e vs -> all_neat e).
    { destruct b.
      - bok Hvs e1 He1. bok Hvs hv Hhv. injection Hvs as <-. each.
      - injection Hvs as <-. intros e [<-|[<-|[]]]; apply an_lambda; try leaf; try basic; args. }
    intros e [<-|[<-|He]]; [leaf|leaf|apply V, He].
  Qed.

  Lemma nl_equal k t g : neat t -> equal_definition n E R C k t = Ok g -> equal_name n E C t = Ok (fst g) /\ neat_lambda (snd g).
  Proof.
    unfold equal_definition. intros Nt H. bok H name Hn. bok H e He. injection H as <-. cbn [fst snd]. split; [exact Hn|].
    unfold equal_operation in He. bok He c Hc. apply an_equal_code in He; [|eapply neat_canonical; eassumption|leaf|leaf].
    split; [|split]; cbn [snd l_arguments l_result l_body]; [args|basic|].
    apply an_switch; [leaf| |discriminate]. intros u b [Q|[]]. injection Q as <- <-. split; [exact Nt|].
    apply an_switch; [leaf| |discriminate]. intros u b [Q|[]]. injection Q as <- <-. split; [exact Nt|exact He].
  Qed.

  Lemma nl_hash k t g : neat t -> hash_definition n E R C k t = Ok g -> hash_name n E C t = Ok (fst g) /\ neat_lambda (snd g).
  Proof.
    unfold hash_definition. intros Nt H. bok H name Hn. bok H e He. injection H as <-. cbn [fst snd]. split; [exact Hn|].
    apply an_hash in He; [|exact Nt|leaf]. split; [|split]; cbn [snd l_arguments l_result l_body]; [args|basic|].
    apply an_switch; [leaf| |discriminate]. intros u b [Q|[]]. injection Q as <- <-. split; [exact Nt|exact He].
  Qed.

  (** ** Whole programs *)
  Record neat_program (q : program) : Prop := NeatProgram {
    np_types : p_types q = p_types p;
    np_aliases : p_aliases q = p_aliases p;
    np_foreign : p_foreign q = p_foreign p;
    np_declared : forall x t, In (x, t) (p_declared q) -> neat t;
    np_defs : forall x l, In (x, l) (p_defs q) -> neat_lambda l
  }.

  Lemma neat_source : neat_program p.
  Proof.
    constructor; try reflexivity.
    - intros x t H. apply (type_proper f C p PF). eapply ti_declared, H.
    - intros x l H. split; [|split].
      + intros y t Hy. apply (type_proper f C p PF). eapply ti_argument; eassumption.
      + apply (type_proper f C p PF). eapply ti_result; eassumption.
      + intros q t Hq Ht. apply (type_proper f C p PF). eapply ti_expression; eassumption.
  Qed.

  Lemma neat_defs q ds : neat_program q -> (forall x l, In (x, l) ds -> neat_lambda l) -> neat_program (add_defs q ds).
  Proof.
    intros [A1 A2 A3 A4 A5] H. constructor; cbn; try assumption. intros x l Hx. apply in_app_or in Hx. destruct Hx as [Hx|Hx]; [eapply A5, Hx|eapply H, Hx].
  Qed.
  Lemma neat_declared q ds : neat_program q -> (forall x t, In (x, t) ds -> neat t) -> neat_program (add_declared q ds).
  Proof.
    intros [A1 A2 A3 A4 A5] H. constructor; cbn; try assumption. intros x l Hx. apply in_app_or in Hx. destruct Hx as [Hx|Hx]; [eapply A4, Hx|eapply H, Hx].
  Qed.

  Lemma visit_occurs e : forall x, In x (visit e) -> occurs x e.
  Proof.
    assert (G : forall e x, outside_conditions e x -> occurs x e).
    { intros e' x H. induction H as [e'|e' q x Hq _ IH]; [exists None, None; constructor|]. eapply occurs_in_part; [apply outside_part, Hq|exact IH]. }
    intros x H. apply G. apply visit_outside, H.
  Qed.

  Lemma written_node e t : In t (written_types e) -> exists u, In u (node_types e) /\ In t (visit_type u).
  Proof.
    assert (O : forall o : option ty, In t (visit_option o) -> exists u, In u (opt_types o) /\ In t (visit_type u)).
    { intros [u|] H; [exists u; split; [left; reflexivity|exact H]|destruct H]. }
    assert (A : forall (l l' : list ty), In t (flat_map visit_type l) -> incl l l' -> exists u, In u l' /\ In t (visit_type u)).
    { intros l l' H I. apply in_flat_map in H. destruct H as (u & Hu & H). exists u. split; [apply I, Hu|exact H]. }
    destruct e; cbn [written_types node_types]; try (intros []; fail); try (apply O; fail); intros H.
    - apply in_app_or in H. destruct H as [H|H]; apply O in H; destruct H as (u & Hu & H); exists u; (split; [apply in_or_app; tauto|exact H]).
    - apply in_app_or in H. destruct H as [H|H].
      + apply in_flat_map in H. destruct H as (b & Hb & H). exists (fst b). split; [apply in_or_app; left; apply in_map, Hb|exact H].
      + destruct else_ as [[o b]|]; [|destruct H]. apply O in H. destruct H as (u & Hu & H). exists u. split; [apply in_or_app; right; exact Hu|exact H].
    - apply in_app_or in H. destruct H as [H|H].
      + apply in_flat_map in H. destruct H as (b & Hb & H). exists (snd b). split; [apply in_or_app; left; apply in_map, Hb|exact H].
      + eexists. split; [apply in_or_app; right; left; reflexivity|exact H].
    - eexists. split; [left; reflexivity|exact H].
    - apply in_app_or in H. destruct H as [H|H]; [eexists; split; [left; reflexivity|exact H]|].
      apply in_flat_map in H. destruct H as (b & Hb & H). apply in_flat_map in H. destruct H as (it & Hi & H). apply O in H. destruct H as (u & Hu & H).
      exists u. split; [|exact H]. right. apply in_flat_map. exists b. split; [exact Hb|]. apply in_flat_map. exists it. auto.
    - apply in_app_or in H. destruct H as [H|H]; eexists; (split; [|exact H]); cbn; auto.
    - destruct o; try destruct H; apply O; assumption.
    - eexists. split; [left; reflexivity|exact H].
    - eexists. split; [left; reflexivity|exact H].
    - apply in_app_or in H. destruct H as [H|H]; eexists; (split; [|exact H]); cbn; auto.
  Qed.

  Lemma self_visit t : In t (visit_type t).
  Proof. destruct t; left; reflexivity. Qed.

  Lemma np_visit q : neat_program q -> forall t, In t (visit_types q) -> neat t.
  Proof.
    intros N t H. unfold visit_types in H. rewrite !in_app_iff in H. rewrite (np_types q N), (np_aliases q N), (np_foreign q N) in H.
    assert (V : forall (A : Type) (g : A -> ty) l, In t (flat_map (fun a => visit_type (g a)) l) -> (forall a, In a l -> neat (g a)) -> neat t).
    { intros A g l Hl Ha. apply in_flat_map in Hl. destruct Hl as (a & Ha' & Hl). eapply neat_visit; [apply Ha, Ha'|exact Hl]. }
    destruct H as [H|[H|[H|[H|H]]]].
    - apply in_flat_map in H. destruct H as (d & Hd & H). eapply V; [exact H|]. intros [x u] Hx. eapply field_neat; eassumption.
    - eapply V; [exact H|]. intros [x u] Hx. apply (type_proper f C p PF). eapply ti_alias, Hx.
    - eapply V; [exact H|]. intros [x u] Hx. apply (type_proper f C p PF). eapply ti_foreign, Hx.
    - eapply V; [exact H|]. intros [x u] Hx. eapply (np_declared q N), Hx.
    - apply in_flat_map in H. destruct H as ([x l] & Hd & H). destruct (np_defs q N x l Hd) as (La & Lr & Lb). unfold visit_lambda in H. rewrite !in_app_iff in H. cbn [snd] in H.
      destruct H as [H|[H|H]].
      + eapply V; [exact H|]. intros [y u] Hy. eapply La, Hy.
      + eapply neat_visit; eassumption.
      + apply in_flat_map in H. destruct H as (e & He & H). apply written_node in H. destruct H as (u & Hu & H). eapply neat_visit; [|exact H].
        eapply Lb; [apply visit_occurs, He|exact Hu].
  Qed.

  Lemma np_expression q e t : neat_program q -> In e (visit_expressions q) -> In t (node_types e) -> neat t.
  Proof.
    intros N He Ht. unfold visit_expressions in He. apply in_flat_map in He. destruct He as ([x l] & Hd & He).
    destruct (np_defs q N x l Hd) as (_ & _ & Lb). eapply Lb; [apply visit_occurs, He|exact Ht].
  Qed.

  (** Sets of canonical types of the program *)
  Definition tidy_set (ts : list ty) : Prop := NoDup ts /\ forall t, In t ts -> neat t /\ canon E t t.

  Lemma canonical_set ts cs : mapM (canonicalize n E) ts = Ok cs -> (forall t, In t ts -> neat t) -> tidy_set (type_set cs).
  Proof.
    intros H N. split; [apply type_set_nodup|]. intros t Ht. apply (proj1 (type_set_In _ _)) in Ht. apply mapM_ok in H.
    induction H as [|x y l l' Hx _ IH]; [destruct Ht|]. destruct Ht as [<-|Ht]; [|apply IH; [intros z Hz; apply N; right; exact Hz|exact Ht]].
    split; [eapply neat_canonical; [apply N; left; reflexivity|exact Hx]|]. eapply (canon_idem f E W). exists n. exact Hx.
  Qed.

  Lemma neat_map kt vt : neat kt -> neat vt -> neat (TMap kt vt).
  Proof.
    intros [Nk Pk] [Nv Pv]. split; [constructor; assumption|]. intros x Hx. cbn in Hx. apply in_app_or in Hx. destruct Hx; auto.
  Qed.

  Lemma map_types_tidy q ts : neat_program q -> map_types n E q = Ok ts -> tidy_set ts.
  Proof.
    intros N H. unfold map_types in H. bok H cs Hcs. injection H as <-. eapply canonical_set; [exact Hcs|]. intros t Ht. apply in_app_or in Ht. destruct Ht as [Ht|Ht].
    - apply filter_In in Ht. eapply np_visit; [exact N|apply Ht].
    - apply in_flat_map in Ht. destruct Ht as (e & He & Ht). destruct e; try (destruct Ht; fail).
      + destruct key_type as [kt|]; [|destruct Ht]. destruct value_type as [vt|]; [|destruct Ht]. destruct Ht as [<-|[]].
        apply neat_map; (eapply np_expression; [exact N|exact He|]); cbn; auto.
      + destruct Ht as [<-|[]]. apply neat_map; (eapply np_expression; [exact N|exact He|]); cbn; auto.
  Qed.

  Lemma parameter_types_tidy q ts : neat_program q -> parameter_types n E R q = Ok ts -> tidy_set ts.
  Proof.
    intros N H. unfold parameter_types in H. bok H cs Hcs. injection H as <-. split; [apply type_set_nodup|]. intros t Ht. apply (proj1 (type_set_In _ _)) in Ht. apply in_concat in Ht.
    destruct Ht as (l & Hl & Ht). apply mapM_ok in Hcs.
    assert (exists u, In u (flat_map (fun t => match t with TList e => [e] | TMap kt vt => [kt; vt] | _ => [] end) (visit_types q) ++
             flat_map (fun e => match e with
                                | HIfList t _ _ _ _ _ => option_list t
                                | HIfMap kt vt _ _ _ _ _ => option_list kt ++ option_list vt
                                | HList t _ | HComprehension t _ _ => [t]
                                | HMap kt vt _ => [kt; vt]
                                | _ => []
                                end) (visit_expressions q))%list /\ canonicalize n E u = Ok t) as (u & Hu & Hc).
    { clear - Hcs Hl Ht. induction Hcs as [|x y xs ys Hx _ IH]; [destruct Hl|]. destruct Hl as [->|Hl].
      - exists x. split; [left; reflexivity|]. bok Hx c Hc. bok Hx b Hb. injection Hx as <-. destruct b; [|destruct Ht]. destruct Ht as [<-|[]]. exact Hc.
      - destruct (IH Hl) as (u & Hu & Hc). exists u. split; [right; exact Hu|exact Hc]. }
    split; [|eapply (canon_idem f E W); exists n; exact Hc]. eapply neat_canonical; [|exact Hc]. apply in_app_or in Hu. destruct Hu as [Hu|Hu].
    - apply in_flat_map in Hu. destruct Hu as (w & Hw & Hu). apply np_visit in Hw; [|exact N]. destruct w; try (destruct Hu; fail).
      + destruct Hu as [<-|[]]. eapply neat_visit; [exact Hw|]. cbn. right. apply self_visit.
      + destruct Hu as [<-|[<-|[]]]; (eapply neat_visit; [exact Hw|]); cbn; right; apply in_or_app; [left|right]; apply self_visit.
    - apply in_flat_map in Hu. destruct Hu as (e & He & Hu). eapply np_expression; [exact N|exact He|].
      destruct e; try (destruct Hu; fail); cbn [node_types]; try (cbn in Hu |- *; tauto).
  Qed.

  (** ** The steps *)
  Lemma comparable_known q ds : p_types q = p_types p -> comparable_records n E R q = Ok ds -> exists ds',
    fst ds = filter t_external ds' /\ snd ds = filter (fun d => negb (t_external d)) ds' /\ incl ds' (p_types p) /\ NoDup (map record_name ds').
  Proof.
    intros T H. unfold comparable_records in H. bok H l Hl. injection H as <-. exists (concat l). split; [reflexivity|]. split; [reflexivity|].
    rewrite T in Hl. apply mapM_ok in Hl. pose proof (records_nodup f C p PF) as Nd. clear T. revert Hl Nd. generalize (p_types p). intros ts Hl Nd.
    assert (I : forall ts l, Forall2 (fun d y => bind (comparable n E R (def_record d)) (fun b => Ok (if b then [d] else [])) = Ok y) ts l -> incl (concat l) ts).
    { clear. intros ts l Hl. induction Hl as [|x y xs ys Hx _ IH]; [intros z []|]. cbn [concat]. bok Hx b Hb. injection Hx as <-. intros z Hz. apply in_app_or in Hz.
      destruct Hz as [Hz|Hz]; [|right; apply IH, Hz]. destruct b; [|destruct Hz]. destruct Hz as [<-|[]]. left. reflexivity. }
    split; [apply I, Hl|]. induction Hl as [|x y xs ys Hx Hl IH]; [constructor|]. cbn in Nd. inversion Nd as [|? ? Nx Nd']; subst. bok Hx b Hb. injection Hx as <-.
    cbn [concat]. destruct b; [|apply IH, Nd']. cbn. constructor; [|apply IH, Nd']. intros Q. apply Nx.
    apply in_map_iff in Q. destruct Q as (d & Q & Hd). rewrite <- Q. apply in_map. eapply I; eassumption.
  Qed.

  (** The transformed program *)
  Definition equal_declaration (d : type_def) : string * ty := (record_equal_name (td_name (t_def d)), TFunction [def_record d; def_record d] TBoolean).
  Definition hash_declaration (d : type_def) : string * ty := (record_hash_name (td_name (t_def d)), TFunction [def_record d] TNumber).
  Definition equal_function (d : type_def) : string * lambda :=
    record_equal_definition (td_name (t_def d)) (td_original (t_def d)) (td_fields (t_def d)).
  Definition external := filter t_external.
  Definition internal := filter (fun d => negb (t_external d)).

  Record shape (k : nat) (q : program) (ds : list type_def) (hs : list (string * lambda)) (mts : list ty) (cs : list (string * lambda))
      (ets : list ty) (es : list (string * lambda)) (hts : list ty) (gs : list (string * lambda)) : Prop := Shape {
    sh_types : p_types q = p_types p;
    sh_foreign : p_foreign q = p_foreign p;
    sh_declared : p_declared q = (p_declared p ++ map equal_declaration (external ds) ++ map hash_declaration (external ds))%list;
    sh_defs : p_defs q = (p_defs p ++ map equal_function (internal ds) ++ hs ++ cs ++ es ++ gs)%list;
    sh_records : incl ds (p_types p) /\ NoDup (map record_name ds);
    sh_hashes : Forall2 (fun d g => record_hash_definition n E R C k (td_name (t_def d)) (td_original (t_def d)) (td_fields (t_def d)) = Ok g) (internal ds) hs;
    sh_maps : tidy_set mts;
    sh_contexts : Forall2 (fun t g => exists kt vt, t = TMap kt vt /\ map_context_definition n E R C kt vt = Ok g) mts cs;
    sh_equals : tidy_set ets;
    sh_equal_functions : Forall2 (fun t g => equal_definition n E R C k t = Ok g) ets es;
    sh_hashed : tidy_set hts;
    sh_hash_functions : Forall2 (fun t g => hash_definition n E R C k t = Ok g) hts gs;
    sh_neat : neat_program q
  }.

  Lemma Forall2_right {A B} (P : A -> B -> Prop) (Q : B -> Prop) l l' : Forall2 P l l' -> (forall a b, In a l -> P a b -> Q b) -> forall b, In b l' -> Q b.
  Proof.
    induction 1 as [|a b l l' H _ IH]; intros G x Hx; [destruct Hx|]. destruct Hx as [<-|Hx]; [apply (G a); [left; reflexivity|exact H]|].
    apply IH; [|exact Hx]. intros c d Hc. apply G. right. exact Hc.
  Qed.

  Lemma neat_right {A} (P : A -> string * lambda -> Prop) l l' : Forall2 P l l' -> (forall a g, In a l -> P a g -> neat_lambda (snd g)) ->
    forall x d, In (x, d) l' -> neat_lambda d.
  Proof. intros F G x d Hd. exact (Forall2_right P (fun g => neat_lambda (snd g)) l l' F G (x, d) Hd). Qed.

  Lemma transform_shape k q : transform_program n k E R C p = Ok q -> exists ds hs mts cs ets es hts gs, shape k q ds hs mts cs ets es hts gs.
  Proof.
    intros H. unfold transform_program in H. bok H p1 H1. bok H p2 H2. bok H p3 H3. bok H p4 H4.
    unfold add_record_equal in H1. bok H1 ds1 Hds1. injection H1 as <-. pose proof Hds1 as Hds. apply comparable_known in Hds; [|reflexivity].
    destruct Hds as (ds & Fd & Sd & Id & Nd).
    assert (P1 : neat_program (add_defs (add_declared p (map equal_declaration (fst ds1))) (map equal_function (snd ds1)))).
    { apply neat_defs; [apply neat_declared; [apply neat_source|]|].
      - intros x t Hx. apply in_map_iff in Hx. destruct Hx as (d & Q & Hd). injection Q as <- <-. rewrite Fd in Hd. apply filter_In in Hd.
        pose proof (record_neat d (Id d (proj1 Hd))) as Nr. apply neat_function; [neats|basic].
      - intros x l Hx. apply in_map_iff in Hx. destruct Hx as (d & Q & Hd). rewrite Sd in Hd. apply filter_In in Hd.
        pose proof (nl_record_equal d (Id d (proj1 Hd))) as Nl. unfold equal_function in Q. rewrite Q in Nl. exact Nl. }
    change (add_defs _ _) with (add_defs (add_declared p (map equal_declaration (fst ds1))) (map equal_function (snd ds1))) in H2.
    unfold add_record_hash in H2. bok H2 ds2 Hds2. bok H2 hs Hhs. injection H2 as <-.
    assert (ds2 = ds1) as ->.
    { unfold comparable_records in Hds1, Hds2. cbn [p_types add_defs add_declared] in Hds2. rewrite Hds1 in Hds2. injection Hds2 as ->. reflexivity. }
    apply mapM_ok in Hhs. rewrite Sd in Hhs.
    set (q1 := add_defs (add_declared p (map equal_declaration (fst ds1))) (map equal_function (snd ds1))) in *.
    assert (P2 : neat_program (add_defs (add_declared q1 (map hash_declaration (fst ds1))) hs)).
    { apply neat_defs; [apply neat_declared; [exact P1|]|].
      - intros x t Hx. apply in_map_iff in Hx. destruct Hx as (d & Q & Hd). injection Q as <- <-. rewrite Fd in Hd. apply filter_In in Hd.
        pose proof (record_neat d (Id d (proj1 Hd))) as Nr. apply neat_function; [neats|basic].
      - apply (neat_right _ _ _ Hhs).
        intros d g Hd Hg. apply filter_In in Hd. eapply nl_record_hash; [exact (Id d (proj1 Hd))|exact Hg]. }
    change (add_defs _ hs) with (add_defs (add_declared q1 (map hash_declaration (fst ds1))) hs) in H3.
    set (q2 := add_defs (add_declared q1 (map hash_declaration (fst ds1))) hs) in *.
    unfold add_map_contexts in H3. bok H3 mts Hmts. bok H3 cs Hcs. injection H3 as <-. apply mapM_ok in Hcs. pose proof (map_types_tidy _ _ P2 Hmts) as Tm.
    assert (Hcs' : Forall2 (fun t g => exists kt vt, t = TMap kt vt /\ map_context_definition n E R C kt vt = Ok g) mts cs).
    { clear - Hcs. induction Hcs as [|t g l l' H _ IH]; constructor; [|exact IH]. destruct t; try discriminate. eauto. }
    assert (P3 : neat_program (add_defs q2 cs)).
    { apply neat_defs; [exact P2|]. apply (neat_right _ _ _ Hcs'). intros t g _ (kt & vt & _ & Hg). eapply nl_context, Hg. }
    unfold add_equal in H4. bok H4 ets Hets. bok H4 es Hes. injection H4 as <-. apply mapM_ok in Hes. pose proof (parameter_types_tidy _ _ P3 Hets) as Te.
    assert (P4 : neat_program (add_defs (add_defs q2 cs) es)).
    { apply neat_defs; [exact P3|]. apply (neat_right _ _ _ Hes). intros t g Ht Hg. eapply nl_equal; [apply Te, Ht|exact Hg]. }
    unfold add_hash in H. bok H hts Hhts. bok H gs Hgs. injection H as <-. apply mapM_ok in Hgs. pose proof (parameter_types_tidy _ _ P4 Hhts) as Th.
    assert (P5 : neat_program (add_defs (add_defs (add_defs q2 cs) es) gs)).
    { apply neat_defs; [exact P4|]. apply (neat_right _ _ _ Hgs). intros t g Ht Hg. eapply nl_hash; [apply Th, Ht|exact Hg]. }
    exists ds, hs, mts, cs, ets, es, hts, gs. constructor; try assumption; try reflexivity.
    - cbn. rewrite Fd. rewrite <- app_assoc. reflexivity.
    - cbn. rewrite Sd. rewrite <- !app_assoc. reflexivity.
    - split; assumption.
  Qed.

  (** ** Types in variants *)
  Lemma lower_type_neat q e t : neat_program q -> In e (visit_expressions q) -> In t (lower_types e) -> neat t.
  Proof.
    intros N He Ht. assert (G : forall u, In u (node_types e) -> neat u) by (intros u Hu; eapply np_expression; eassumption).
    destruct e; cbn [lower_types] in Ht; try (destruct Ht; fail).
    - destruct e; try (destruct Ht; fail). destruct f0; try (destruct Ht; fail). destruct Ht as [<-|[]]. basic.
    - apply G. destruct type; exact Ht.
    - apply G. cbn. destruct key_type, value_type; exact Ht.
    - apply G. cbn. apply in_app_or in Ht. apply in_or_app. destruct Ht as [Ht|Ht]; [left; exact Ht|right]. destruct else_ as [[[u|] b]|]; exact Ht.
    - apply G. cbn. cbn in Ht. tauto.
    - apply in_app_or in Ht. destruct Ht as [Ht|[<-|[]]]; [|apply G; left; reflexivity]. apply in_flat_map in Ht. destruct Ht as (b & Hb & Ht).
      apply in_flat_map in Ht. destruct Ht as (it & Hi & Ht). destruct it as [[u|] a]; cbn in Ht; [|destruct Ht]. destruct u; try (destruct Ht; fail). destruct Ht as [<-|[]].
      apply neat_element. apply G. cbn. right. apply in_flat_map. exists b. split; [exact Hb|]. apply in_flat_map. eexists. split; [exact Hi|left; reflexivity].
    - apply G. exact Ht.
    - apply G. cbn. destruct o; try (destruct Ht; fail). destruct type; exact Ht.
    - apply G. cbn. destruct type; exact Ht.
    - apply G. cbn. cbn in Ht. tauto.
  Qed.

  Lemma variant_types_tidy q ts : neat_program q -> variant_types n E q = Ok ts -> tidy_set ts /\ forall t, In t ts -> is_union t = false.
  Proof.
    intros N H. unfold variant_types in H. bok H ms Hms. injection H as <-.
    assert (G : forall t, In t (concat ms) -> (neat t /\ canon E t t) /\ is_union t = false).
    { intros t Ht. apply in_concat in Ht. destruct Ht as (l & Hl & Ht). apply mapM_ok in Hms.
      assert (exists u, neat u /\ union_members n E u = Ok l) as (u & Nu & Hu).
      { revert l Hl Ht. assert (A : forall l, In l ms -> exists u, neat u /\ union_members n E u = Ok l); [|intros l Hl _; exact (A l Hl)].
        apply (Forall2_right _ (fun l => exists u, neat u /\ union_members n E u = Ok l) _ _ Hms). intros u l Hu Hl. exists u. split; [|exact Hl].
        apply in_app_or in Hu. destruct Hu as [Hu|Hu].
        - apply in_flat_map in Hu. destruct Hu as (e & He & Hu). eapply lower_type_neat; eassumption.
        - apply in_flat_map in Hu. destruct Hu as (d & Hd & Hu). apply in_map_iff in Hu. destruct Hu as ([x v] & <- & Hv). rewrite (np_types q N) in Hd. eapply field_neat; eassumption. }
      split; [split; [eapply neat_members; eassumption|]|].
      - unfold union_members in Hu. bok Hu c Hc. injection Hu as <-. apply (proj1 (type_set_In _ _)) in Ht. eapply (members_fixed f E W); [exists n; exact Hc|exact Ht].
      - unfold union_members in Hu. bok Hu c Hc. injection Hu as <-. apply (proj1 (type_set_In _ _)) in Ht. eapply (members_fixed f E W u); [exists n; exact Hc|exact Ht]. }
    split; [split; [apply type_set_nodup|]|]; intros t Ht; apply (proj1 (type_set_In _ _)) in Ht; apply G, Ht.
  Qed.

  Lemma information_types_tidy q ts : neat_program q -> information_types n E q = Ok ts -> tidy_set ts.
  Proof.
    intros N H. unfold information_types in H. bok H vs Hvs. bok H cs Hcs. injection H as <-. destruct (variant_types_tidy q vs N Hvs) as [[_ Tv] _].
    assert (G : tidy_set (type_set cs)).
    { eapply canonical_set; [exact Hcs|]. intros t Ht. apply in_app_or in Ht. destruct Ht as [Ht|Ht].
      - cbn in Ht. repeat (destruct Ht as [<-|Ht]; [basic|]). destruct Ht.
      - apply in_app_or in Ht. destruct Ht as [Ht|Ht]; [apply Tv, Ht|]. apply in_map_iff in Ht. destruct Ht as (d & <- & Hd). rewrite (np_types q N) in Hd. apply record_neat, Hd. }
    split; [apply type_set_nodup|]. intros t Ht. apply (proj1 (type_set_In _ _)) in Ht. apply filter_In in Ht. apply G. apply type_set_In, Ht.
  Qed.
End Flow.
