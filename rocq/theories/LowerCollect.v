(** The types for which code is generated: every list and map type in the
    generated functions is one of the source program's. *)
From Coq Require Import String Ascii List ZArith Bool Lia.
From Verif Require Import Base Mir HirType HirTypeOrder HirTypeSpec HirTypeTermination HirTypeEq HirTypeSub HirTypeId HirTypeModule HirTypeModuleProofs
  Hir HirSpec HirValidate HirParts HirMain HirMir HirProgram LowerTag LowerTypeSpec LowerProgramSpec LowerCompleteSpec LowerTypeBase LowerTypeCode LowerTypeMore
  LowerTypeMain LowerTypeNames LowerTypeFlow LowerOrigin LowerNeeds.
Import ListNotations.
Local Open Scope string_scope.
Local Open Scope list_scope.

Section Collect.
  Variable f : string -> string.
  Variable C : config.
  Variable p : program.
  Hypothesis PF : program_fits f C p.
  Variable n : nat.

  Let E := program_env p.
  Let R := program_records p.
  Let X : context_ok f E R := pf_context f C p PF.
  Let W : wf f E := ctx_types f E R X.

  (** ** Visited types *)
  Definition seen_type (P : program) (t : ty) : Prop := In t (visit_types P).

  (** The types that a visit starts with *)
  Inductive starts (P : program) : ty -> Prop :=
  | st_field : forall d x t, In d (p_types P) -> In (x, t) (td_fields (t_def d)) -> starts P t
  | st_alias : forall x t, In (x, t) (p_aliases P) -> starts P t
  | st_foreign : forall x t, In (x, t) (p_foreign P) -> starts P t
  | st_declared : forall x t, In (x, t) (p_declared P) -> starts P t
  | st_argument : forall x l y t, In (x, l) (p_defs P) -> In (y, t) (l_arguments l) -> starts P t
  | st_result : forall x l, In (x, l) (p_defs P) -> starts P (l_result l)
  | st_node : forall e t, In e (visit_expressions P) -> In t (node_types e) -> (forall o a, e <> HTry o a) -> starts P t.

  Lemma node_written e u : In u (node_types e) -> (forall o a, e <> HTry o a) -> incl (visit_type u) (written_types e).
  Proof.
    intros Hu N t Ht.
    assert (O : forall o : option ty, In u (opt_types o) -> In t (visit_option o)) by (intros [v|] H; [destruct H as [->|[]]; exact Ht|destruct H]).
    destruct e; cbn [written_types node_types] in *; try (destruct Hu; fail); try (apply O, Hu).
    - apply in_app_or in Hu. apply in_or_app. destruct Hu as [Hu|Hu]; auto.
    - apply in_app_or in Hu. apply in_or_app. destruct Hu as [Hu|Hu]; [left|right].
      + apply in_map_iff in Hu. destruct Hu as (b & <- & Hb). apply in_flat_map. eauto.
      + destruct else_ as [[o b]|]; [apply O, Hu|destruct Hu].
    - apply in_app_or in Hu. apply in_or_app. destruct Hu as [Hu|[->|[]]]; [left|right; exact Ht].
      apply in_map_iff in Hu. destruct Hu as (b & <- & Hb). apply in_flat_map. eauto.
    - destruct Hu as [->|[]]. exact Ht.
    - apply in_or_app. destruct Hu as [->|Hu]; [left; exact Ht|right]. apply in_flat_map in Hu. destruct Hu as (b & Hb & Hu). apply in_flat_map in Hu.
      destruct Hu as (it & Hi & Hu). apply in_flat_map. exists b. split; [exact Hb|]. apply in_flat_map. exists it. split; [exact Hi|apply O, Hu].
    - apply in_or_app. destruct Hu as [->|[->|[]]]; auto.
    - destruct o; try (destruct Hu; fail); apply O, Hu.
    - exfalso. eapply N. reflexivity.
    - destruct Hu as [->|[]]. exact Ht.
    - destruct Hu as [->|[]]. exact Ht.
    - apply in_or_app. destruct Hu as [->|[->|[]]]; auto.
  Qed.

  Lemma written_not_try e t : In t (written_types e) -> forall o a, e <> HTry o a.
  Proof. intros H o a ->. destruct H. Qed.

  Lemma seen_starts P t : seen_type P t -> exists r, starts P r /\ In t (visit_type r).
  Proof.
    unfold seen_type, visit_types. rewrite !in_app_iff. intros [H|[H|[H|[H|H]]]]; apply in_flat_map in H.
    - destruct H as (d & Hd & H). apply in_flat_map in H. destruct H as ([x u] & Hx & H). exists u. split; [eapply st_field; eassumption|exact H].
    - destruct H as ([x u] & Hx & H). exists u. split; [eapply st_alias; eassumption|exact H].
    - destruct H as ([x u] & Hx & H). exists u. split; [eapply st_foreign; eassumption|exact H].
    - destruct H as ([x u] & Hx & H). exists u. split; [eapply st_declared; eassumption|exact H].
    - destruct H as ([x l] & Hx & H). unfold visit_lambda in H. rewrite !in_app_iff in H. cbn [snd] in H. destruct H as [H|[H|H]].
      + apply in_flat_map in H. destruct H as ([y u] & Hy & H). exists u. split; [eapply st_argument; eassumption|exact H].
      + exists (l_result l). split; [eapply st_result; eassumption|exact H].
      + apply in_flat_map in H. destruct H as (e & He & H). pose proof (written_not_try e t H) as N. apply written_node in H. destruct H as (u & Hu & H). exists u.
        split; [|exact H]. apply (st_node P e); [|exact Hu|exact N]. apply in_flat_map. exists (x, l). auto.
  Qed.
  Lemma starts_seen P r t : starts P r -> In t (visit_type r) -> seen_type P t.
  Proof.
    unfold seen_type, visit_types. rewrite !in_app_iff. intros [d x u Hd Hx|x u Hx|x u Hx|x u Hx|x l y u Hx Hy|x l Hx|e u He Hu N] H.
    - left. apply in_flat_map. exists d. split; [exact Hd|]. apply in_flat_map. exists (x, u). auto.
    - right. left. apply in_flat_map. exists (x, u). auto.
    - do 2 right. left. apply in_flat_map. exists (x, u). auto.
    - do 3 right. left. apply in_flat_map. exists (x, u). auto.
    - do 4 right. apply in_flat_map. exists (x, l). split; [exact Hx|]. unfold visit_lambda. rewrite !in_app_iff. left. apply in_flat_map. exists (y, u). auto.
    - do 4 right. apply in_flat_map. exists (x, l). split; [exact Hx|]. unfold visit_lambda. rewrite !in_app_iff. auto.
    - do 4 right. apply in_flat_map in He. destruct He as ([x l] & Hx & He). apply in_flat_map. exists (x, l). split; [exact Hx|]. unfold visit_lambda. rewrite !in_app_iff.
      do 2 right. apply in_flat_map. exists e. split; [exact He|]. exact (node_written e u Hu N t H).
  Qed.
  Lemma seen_sub P t u : seen_type P t -> In u (visit_type t) -> seen_type P u.
  Proof. intros H Hu. apply seen_starts in H. destruct H as (r & Hr & H). eapply starts_seen; [exact Hr|]. eapply visit_trans; eassumption. Qed.
  Lemma seen_node P e t : In e (visit_expressions P) -> In t (node_types e) -> (forall o a, e <> HTry o a) -> seen_type P t.
  Proof. intros He Ht N. eapply starts_seen; [eapply st_node; eassumption|apply self_visit]. Qed.

  Definition same_names (P : program) : Prop := p_types P = p_types p /\ p_aliases P = p_aliases p.

  Lemma seen_inside P t u : same_names P -> seen_type P t -> inside E t u -> seen_type P u \/ exists r o, u = TRecord r o.
  Proof.
    intros S H I. induction I as [t|a r t u Ht _ IH|a r u _ IH|e u _ IH|k v u _ IH|k v u _ IH|l r u _ IH|l r u _ IH|x t u Hl I IH]; [left; exact H|..];
      try (apply IH; eapply seen_sub; [exact H|]; cbn; rewrite ?in_app_iff; right; first [apply self_visit|left; apply self_visit|right; apply self_visit]).
    - apply IH. eapply seen_sub; [exact H|]. cbn. rewrite in_app_iff. right. right. apply in_flat_map. exists t. split; [exact Ht|apply self_visit].
    - apply lookup_In in Hl. apply in_rev in Hl. apply in_app_or in Hl. destruct Hl as [Hl|Hl].
      + right. cbn in Hl. rewrite map_map in Hl. apply in_map_iff in Hl. destruct Hl as (d & Q & _). injection Q as _ <-. inversion I; subst. eauto.
      + apply IH. eapply starts_seen; [eapply st_alias; rewrite (proj2 S); exact Hl|apply self_visit].
  Qed.

  (** ** List and map types that stand for those of a set *)
  Definition from (V : ty -> Prop) (t : ty) : Prop :=
    forall s c, In s (visit_type t) -> collection s = true -> canon E s c -> exists b, V b /\ collection b = true /\ canon E b c.

  Lemma from_seen P t : seen_type P t -> from (seen_type P) t.
  Proof. intros H s c Hs Cs Hc. exists s. split; [eapply seen_sub; eassumption|auto]. Qed.
  Lemma from_more (V V' : ty -> Prop) t : from V t -> (forall x, V x -> from V' x) -> from V' t.
  Proof.
    intros H I s c Hs Cs Hc. destruct (H s c Hs Cs Hc) as (b & Vb & Cb & Hb). exact (I b Vb b c (self_visit b) Cb Hb).
  Qed.
  Lemma from_sub V t u : from V t -> In u (visit_type t) -> from V u.
  Proof. intros H Hu s c Hs. apply H. eapply visit_trans; eassumption. Qed.
  Lemma from_canonical P t c : same_names P -> seen_type P t -> canon E t c -> from (seen_type P) c.
  Proof.
    intros S H Hc s d Hs Cs Hd. assert (N : is_union s = false) by (destruct s; discriminate || reflexivity).
    rewrite (canon_fun _ _ _ _ Hd (canonical_part_fixed f E W t c s Hc Hs N)).
    destruct (canonical_parts E t c s Hc Hs N) as (b & Ib & Cb & Ub & Nb). exists b. destruct (seen_inside P t b S H Ib) as [Vb|(r & o & ->)].
    - split; [exact Vb|]. split; [|exact Cb]. destruct s; try discriminate.
      + destruct (from_list E b s Ub Nb Cb) as (? & -> & _). reflexivity.
      + destruct (from_map E b s1 s2 Ub Nb Cb) as (? & ? & -> & _). reflexivity.
    - exfalso. destruct Cb as [[|j] Cb]; [discriminate|]. cbn in Cb. injection Cb as <-. discriminate.
  Qed.

  Lemma from_leaf V t : visit_type t = [t] -> collection t = false -> from V t.
  Proof. intros H Q s c Hs. rewrite H in Hs. destruct Hs as [<-|[]]. congruence. Qed.
  Lemma from_function V a r : Forall (from V) a -> from V r -> from V (TFunction a r).
  Proof.
    intros Fa Fr s c Hs. cbn in Hs. destruct Hs as [<-|Hs]; [discriminate|]. apply in_app_or in Hs. destruct Hs as [Hs|Hs]; [apply Fr, Hs|].
    apply in_flat_map in Hs. destruct Hs as (u & Hu & Hs). rewrite Forall_forall in Fa. apply (Fa u Hu), Hs.
  Qed.
  Lemma from_union V l r : from V l -> from V r -> from V (TUnion l r).
  Proof. intros Fl Fr s c Hs. cbn in Hs. destruct Hs as [<-|Hs]; [discriminate|]. apply in_app_or in Hs. destruct Hs as [Hs|Hs]; [apply Fl, Hs|apply Fr, Hs]. Qed.
  Lemma from_create V ts u : create_union ts = Some u -> (forall t, In t ts -> from V t) -> from V u.
  Proof.
    destruct ts as [|t ts]; [discriminate|]. cbn. intros H. injection H as <-. revert t. induction ts as [|s ts IH]; intros t H; [apply H; left; reflexivity|].
    cbn. apply IH. intros x [<-|Hx]; [apply from_union; apply H; cbn; auto|apply H; cbn; auto].
  Qed.

  Lemma members_visited c m : In m (members_canonical c) -> In m (visit_type c).
  Proof.
    induction c as [| | |a r _ _|e _|kk v' _ _| | |m' o|x| |l r IHl IHr] using ty_ind'; intros H; try (destruct H as [<-|[]]; left; reflexivity).
    cbn in H |- *. right. apply in_app_or in H. apply in_or_app. destruct H as [H|H]; [left|right]; auto.
  Qed.

  (** The canonical form has no other list and map types. *)
  Definition grounded V (t : ty) : Prop := forall c, canon E t c -> from V c.

  Lemma grounded_member V t c m : grounded V t -> canon E t c -> In m (members_canonical c) -> from V m /\ grounded V m.
  Proof.
    intros G Hc Hm. assert (F : from V m) by (eapply from_sub; [exact (G c Hc)|apply members_visited, Hm]). split; [exact F|].
    intros d Hd. destruct (members_fixed f E W t c Hc m Hm) as [Cm _]. rewrite (canon_fun _ _ _ _ Hd Cm). exact F.
  Qed.
  Lemma grounded_members V t ms u : grounded V t -> union_members n E t = Ok ms -> In u ms -> from V u /\ grounded V u.
  Proof.
    intros G H Hu. unfold union_members in H. bok H c Hc. injection H as <-. apply (proj1 (type_set_In _ _)) in Hu.
    eapply grounded_member; [exact G|exists n; exact Hc|exact Hu].
  Qed.

  (** ** Generated code *)
  Definition plain_node (e : hexpr) : bool := match e with HIfList _ _ _ _ _ _ | HIfMap _ _ _ _ _ _ _ | HList _ _ | HComprehension _ _ _ | HMap _ _ _ => false | _ => true end.

  Section Code.
    Variable V : ty -> Prop.

    Definition all_from (e : hexpr) : Prop := forall x, occurs x e -> plain_node x = true /\ forall t, In t (node_types x) -> from V t.
    Definition from_lambda (l : lambda) : Prop :=
      (forall y t, In (y, t) (l_arguments l) -> from V t) /\ from V (l_result l) /\ all_from (l_body l).

    Lemma af_node e : plain_node e = true -> (forall t, In t (node_types e) -> from V t) -> (forall x, In x (parts e) -> all_from x) -> all_from e.
    Proof.
      intros H0 H1 H2 x Hx. destruct (occurs_cases x e Hx) as [->|(y & Hy & Hx')]; [auto|]. exact (H2 y Hy x Hx').
    Qed.
    Lemma af_leaf e : plain_node e = true -> node_types e = [] -> parts e = [] -> all_from e.
    Proof. intros H0 H1 H2. apply af_node; [exact H0|rewrite H1; intros t []|rewrite H2; intros q []]. Qed.
    Ltac leaf := apply af_leaf; reflexivity.
    Ltac basic := first [apply from_leaf; reflexivity|apply from_function; [repeat constructor; apply from_leaf; reflexivity|apply from_leaf; reflexivity]].

    Lemma af_call t g es : from V t -> all_from g -> (forall e, In e es -> all_from e) -> all_from (HCall (Some t) g es).
    Proof.
      intros Nt Hg Hes. apply af_node; [reflexivity|intros u [<-|[]]; exact Nt|]. intros x Hx. unfold parts in Hx. cbn in Hx. rewrite app_nil_r in Hx.
      destruct Hx as [<-|Hx]; [exact Hg|apply Hes, Hx].
    Qed.
    Lemma af_hcall g a r es : Forall (from V) a -> from V r -> (forall e, In e es -> all_from e) -> all_from (hcall g a r es).
    Proof. intros Ha Hr Hes. apply af_call; [apply from_function; assumption|leaf|exact Hes]. Qed.
    Lemma af_if c a b : all_from c -> all_from a -> all_from b -> all_from (HIf c a b).
    Proof. intros Hc Ha Hb. apply af_node; [reflexivity|intros t []|]. intros x Hx. cbn in Hx. destruct Hx as [<-|[<-|[<-|[]]]]; assumption. Qed.
    Lemma af_equality t o l r : from V t -> all_from l -> all_from r -> all_from (HBinary (BinEquality (Some t) o) l r).
    Proof. intros Nt Hl Hr. apply af_node; [reflexivity|intros u [<-|[]]; exact Nt|]. intros x Hx. cbn in Hx. destruct Hx as [<-|[<-|[]]]; assumption. Qed.
    Lemma af_field t r y : from V t -> all_from r -> all_from (HField (Some t) r y).
    Proof. intros Nt Hr. apply af_node; [reflexivity|intros u [<-|[]]; exact Nt|]. intros x Hx. cbn in Hx. destruct Hx as [<-|[]]; assumption. Qed.
    Lemma af_lambda args r b : (forall y t, In (y, t) args -> from V t) -> from V r -> all_from b -> all_from (HLambda args r b).
    Proof.
      intros Ha Hr Hb. apply af_node; [reflexivity| |intros q Hq; cbn in Hq; destruct Hq as [<-|[]]; exact Hb]. intros u Hu. cbn in Hu. apply in_app_or in Hu.
      destruct Hu as [Hu|[<-|[]]]; [|exact Hr]. apply in_map_iff in Hu. destruct Hu as ([y t] & <- & Hy). exact (Ha y t Hy).
    Qed.
    Lemma af_switch x a bs els : all_from a -> (forall t b, In (t, b) bs -> from V t /\ all_from b) ->
      (forall t b, els = Some (t, b) -> (forall u, t = Some u -> from V u) /\ all_from b) -> all_from (HIfType x a bs els).
    Proof.
      intros Ha Hbs Hels. apply af_node; [reflexivity| |].
      - intros t Ht. cbn in Ht. apply in_app_or in Ht. destruct Ht as [Ht|Ht].
        + apply in_map_iff in Ht. destruct Ht as ([u b] & <- & Hb). exact (proj1 (Hbs u b Hb)).
        + destruct els as [[[u|] b]|]; [|destruct Ht..]. destruct Ht as [<-|[]]. exact (proj1 (Hels _ _ eq_refl) u eq_refl).
      - intros q Hq. unfold parts in Hq. cbn in Hq. rewrite app_nil_r in Hq. destruct Hq as [<-|Hq]; [exact Ha|]. apply in_app_or in Hq. destruct Hq as [Hq|Hq].
        + apply in_map_iff in Hq. destruct Hq as ([u b] & <- & Hb). exact (proj2 (Hbs u b Hb)).
        + destruct els as [[u b]|]; [|destruct Hq]. destruct Hq as [<-|[]]. exact (proj2 (Hels _ _ eq_refl)).
    Qed.

    Ltac froms := repeat (constructor; [first [assumption|basic]|]); constructor.
    Ltac each := let e := fresh in let H := fresh in intros e H; cbn in H; repeat (destruct H as [<-|H]; [first [assumption|leaf]|]); destruct H.

    Lemma af_context t e : map_context_call n E C t = Ok e -> all_from e.
    Proof. unfold map_context_call. intros H. bok H g Hg. injection H as <-. apply af_hcall; [constructor|basic|intros ? []]. Qed.

    Lemma grounded_alias x t : lookup E x = Some t -> grounded V (TReference x) -> grounded V t.
    Proof. intros Hx G c Hc. apply G. apply canon_alias. eauto. Qed.

    Lemma af_equal_code k : forall t l r e, equal_code n E R C k t l r = Ok e -> grounded V t -> all_from l -> all_from r -> all_from e.
    Proof.
      induction k as [|k IH]; intros t l r e H Nt Hl Hr; [discriminate|]. destruct t; cbn [equal_code] in H; try discriminate.
      - injection H as <-. apply af_if; [assumption|assumption|]. apply af_if; [assumption|leaf|leaf].
      - bok H g Hg. injection H as <-. apply af_hcall; [froms|basic|each].
      - bok H g Hg. injection H as <-. apply af_context in Hg. apply af_hcall; [froms|basic|each].
      - injection H as <-. leaf.
      - injection H as <-. apply af_equality; [basic|assumption..].
      - bok H b Hb. destruct b; [|discriminate]. injection H as <-. apply af_hcall; [froms|basic|each].
      - bok H u Hu. unfold resolve in Hu. destruct (lookup E name) as [u'|] eqn:Q; [|discriminate]. injection Hu as ->. eapply IH; [exact H|eapply grounded_alias; eassumption|assumption..].
      - injection H as <-. apply af_equality; [basic|assumption..].
      - bok H ms Hms. bok H bs Hbs. injection H as <-. apply af_switch; [assumption| |discriminate]. apply mapM_ok in Hbs. intros t b Hb.
        destruct (Forall2_other _ _ _ _ Hbs Hb) as (m & Hm & Qm). bok Qm e He. bok Qm os Hos. destruct (create_union os) as [u|] eqn:Q; [|discriminate]. injection Qm as -> <-.
        destruct (grounded_members V _ _ _ Nt Hms Hm) as [Fm Gm]. split; [exact Fm|]. apply af_switch; [assumption| |].
        + intros t' b [S|[]]. injection S as <- <-. split; [exact Fm|]. eapply IH; [exact He|exact Gm|leaf|leaf].
        + intros t' b S. injection S as <- <-. split; [|leaf]. intros v S. injection S as <-. eapply from_create; [exact Q|].
          intros z Hz. refine (proj1 (grounded_members V _ _ z Nt Hms _)). eapply other_incl; eassumption.
    Qed.

    Lemma af_hash k : forall v t e, hash_calculation n E R C k v t = Ok e -> grounded V t -> all_from v -> all_from e.
    Proof.
      induction k as [|k IH]; intros v t e H Nt Hv; [discriminate|]. destruct t; cbn [hash_calculation] in H; try discriminate.
      - injection H as <-. apply af_if; [assumption|leaf|leaf].
      - bok H g Hg. injection H as <-. apply af_hcall; [froms|basic|each].
      - bok H g Hg. injection H as <-. apply af_context in Hg. apply af_hcall; [froms|basic|each].
      - injection H as <-. leaf.
      - injection H as <-. apply af_hcall; [froms|basic|each].
      - bok H b Hb. destruct b; [|discriminate]. injection H as <-. apply af_hcall; [froms|basic|each].
      - bok H u Hu. unfold resolve in Hu. destruct (lookup E name) as [u'|] eqn:Q; [|discriminate]. injection Hu as ->. eapply IH; [exact H|eapply grounded_alias; eassumption|assumption].
      - injection H as <-. apply af_hcall; [froms|basic|each].
      - bok H ms Hms. bok H bs Hbs. injection H as <-. apply af_switch; [assumption| |discriminate]. apply mapM_ok in Hbs. intros t b Hb.
        destruct (Forall2_other _ _ _ _ Hbs Hb) as (m & Hm & Qm). bok Qm e He. injection Qm as -> <-. destruct (grounded_members V _ _ _ Nt Hms Hm) as [Fm Gm].
        split; [exact Fm|]. eapply IH; [exact He|exact Gm|leaf].
    Qed.

    Ltac args := let y := fresh in let t := fresh in let H := fresh in intros y t H; cbn in H; repeat (destruct H as [H|H]; [injection H as <- <-; first [assumption|basic]|]); destruct H.

    Lemma fl_record_equal d : (forall x t, In (x, t) (td_fields (t_def d)) -> from V t) -> from_lambda (snd (equal_function d)).
    Proof.
      intros Hd. unfold equal_function, record_equal_definition.
      split; [|split]; cbn [snd l_arguments l_result l_body]; [args|basic|].
      assert (G : forall fts, incl fts (td_fields (t_def d)) -> all_from (equal_fields (TRecord (td_name (t_def d)) (td_original (t_def d))) fts)); [|apply G, incl_refl].
      induction fts as [|[x t] fts IH]; intros I; cbn [equal_fields]; [leaf|].
      apply af_if; [|apply IH; intros z Hz; apply I; right; exact Hz|leaf]. apply af_equality; [eapply Hd; apply I; left; reflexivity| |]; apply af_field; first [basic|leaf].
    Qed.

    Lemma fl_record_hash k d g : (forall x t, In (x, t) (td_fields (t_def d)) -> grounded V t) ->
      record_hash_definition n E R C k (td_name (t_def d)) (td_original (t_def d)) (td_fields (t_def d)) = Ok g -> from_lambda (snd g).
    Proof.
      intros Hd H. unfold record_hash_definition in H. bok H e He. injection H as <-.
      split; [|split]; cbn [snd l_arguments l_result l_body]; [args|basic|].
      assert (G : forall fts h e, incl fts (td_fields (t_def d)) -> all_from h -> hash_fields n E R C k (TRecord (td_name (t_def d)) (td_original (t_def d))) fts h = Ok e -> all_from e).
      { clear He e. induction fts as [|[x t] fts IH]; intros h e I Hh H; cbn [hash_fields] in H; [injection H as <-; exact Hh|].
        bok H h' Hh'. bok H c Hc. injection H as <-. apply IH in Hh'; [|intros z Hz; apply I; right; exact Hz|exact Hh].
        apply af_hash in Hc; [|eapply Hd; apply I; left; reflexivity|apply af_field; [basic|leaf]].
        apply af_hcall; [froms|basic|each]. }
      eapply G; [apply incl_refl| |exact He]. leaf.
    Qed.

    Lemma fl_context kt vt g : map_context_definition n E R C kt vt = Ok g -> from_lambda (snd g).
    Proof.
      unfold map_context_definition. intros H. bok H name Hn. bok H ek Hek. bok H hk Hhk. bok H b Hb. bok H vs Hvs. injection H as <-. cbn [snd].
      split; [|split]; cbn [snd l_arguments l_result l_body]; [intros ? ? []|basic|]. apply af_hcall; [froms|basic|].
      assert (Q : forall e, In e vs -> all_from e).
      { destruct b.
        - bok Hvs e1 He1. bok Hvs hv Hhv. injection Hvs as <-. each.
        - injection Hvs as <-. intros e [<-|[<-|[]]]; apply af_lambda; try leaf; try basic; args. }
      intros e [<-|[<-|He]]; [leaf|leaf|apply Q, He].
    Qed.

    Lemma fl_equal k t g : canon E t t -> from V t -> equal_definition n E R C k t = Ok g -> from_lambda (snd g).
    Proof.
      unfold equal_definition. intros Ct Nt H. assert (G : grounded V t) by (intros c Hc; rewrite (canon_fun _ _ _ _ Hc Ct); exact Nt). bok H name Hn. bok H e He. injection H as <-. cbn [snd].
      unfold equal_operation in He. bok He c Hc. rewrite (canon_fun _ _ _ _ (ex_intro _ n Hc) Ct) in He. apply af_equal_code in He; [|exact G|leaf|leaf].
      split; [|split]; cbn [snd l_arguments l_result l_body]; [args|basic|].
      apply af_switch; [leaf| |discriminate]. intros u b [Q|[]]. injection Q as <- <-. split; [exact Nt|].
      apply af_switch; [leaf| |discriminate]. intros u b [Q|[]]. injection Q as <- <-. split; [exact Nt|exact He].
    Qed.

    Lemma fl_hash k t g : canon E t t -> from V t -> hash_definition n E R C k t = Ok g -> from_lambda (snd g).
    Proof.
      unfold hash_definition. intros Ct Nt H. assert (G : grounded V t) by (intros c Hc; rewrite (canon_fun _ _ _ _ Hc Ct); exact Nt). bok H name Hn. bok H e He. injection H as <-. cbn [snd].
      apply af_hash in He; [|exact G|leaf]. split; [|split]; cbn [snd l_arguments l_result l_body]; [args|basic|].
      apply af_switch; [leaf| |discriminate]. intros u b [Q|[]]. injection Q as <- <-. split; [exact Nt|exact He].
    Qed.
  End Code.

  (** ** The collected sets *)
  Definition candidates (P : program) : list ty :=
    flat_map (fun t => match t with TList e => [e] | TMap kt vt => [kt; vt] | _ => [] end) (visit_types P) ++
    flat_map (fun e => match e with
                       | HIfList t _ _ _ _ _ => option_list t
                       | HIfMap kt vt _ _ _ _ _ => option_list kt ++ option_list vt
                       | HList t _ | HComprehension t _ _ => [t]
                       | HMap kt vt _ => [kt; vt]
                       | _ => []
                       end) (visit_expressions P).

  Lemma candidate_seen P t : In t (candidates P) -> seen_type P t.
  Proof.
    intros H. apply in_app_or in H. destruct H as [H|H]; apply in_flat_map in H.
    - destruct H as (u & Hu & H). eapply seen_sub; [exact Hu|]. destruct u; try (destruct H; fail); cbn in H |- *.
      + destruct H as [->|[]]. right. apply self_visit.
      + rewrite in_app_iff. destruct H as [->|[->|[]]]; right; [left|right]; apply self_visit.
    - destruct H as (e & He & H). eapply seen_node; [exact He| |].
      + destruct e; try (destruct H; fail); cbn [node_types] in *; try (cbn in *; tauto).
      + intros o a ->. destruct H.
  Qed.

  Lemma parameter_In P ts : parameter_types n E R P = Ok ts ->
    (forall t, In t ts -> exists t0, In t0 (candidates P) /\ canon E t0 t /\ comparable_type E R t) /\
    (forall t0 t, In t0 (candidates P) -> canon E t0 t -> comparable_type E R t -> In t ts).
  Proof.
    unfold parameter_types. fold (candidates P). intros H. bok H l Hl. injection H as <-. apply mapM_ok in Hl. split.
    - intros t Ht. apply (proj1 (type_set_In _ _)) in Ht. apply in_concat in Ht. destruct Ht as (x & Hx & Ht). destruct (Forall2_other _ _ _ _ Hl Hx) as (t0 & H0 & Q).
      bok Q c Hc. bok Q b Hb. injection Q as <-. destruct b; [|destruct Ht]. destruct Ht as [<-|[]]. exists t0. split; [exact H0|]. split; [exists n; exact Hc|].
      intros u Hu. exact (comparable_sound E R n c u Hb Hu).
    - intros t0 t H0 Ht Hq. apply type_set_In. apply in_concat.
      assert (exists x, In x l /\ bind (canonicalize n E t0) (fun c => bind (comparable n E R c) (fun b => Ok (if b then [c] else []))) = Ok x) as (x & Hx & Q).
      { clear - Hl H0. induction Hl as [|a b l l' H _ IH]; [destruct H0|]. destruct H0 as [->|H0]; [eauto using in_eq|]. destruct (IH H0) as (x & Hx & Q). eauto using in_cons. }
      exists x. split; [exact Hx|]. bok Q c Hc. bok Q b Hb. injection Q as <-. rewrite (canon_fun _ _ _ _ (ex_intro _ n Hc) Ht) in *.
      destruct b; [left; reflexivity|]. exfalso. destruct (comparable_complete E R n [] t Hb) as (u & Hu & Hi). exact (Hq u Hu Hi).
  Qed.

  Definition map_candidates (P : program) : list ty :=
    filter (fun t => match t with TMap _ _ => true | _ => false end) (visit_types P) ++
    flat_map (fun e => match e with
                       | HIfMap (Some kt) (Some vt) _ _ _ _ _ | HMap kt vt _ => [TMap kt vt]
                       | _ => []
                       end) (visit_expressions P).

  Lemma map_types_In P ts : map_types n E P = Ok ts ->
    (forall t, In t ts -> exists t0, In t0 (map_candidates P) /\ canon E t0 t) /\ (forall t0 t, In t0 (map_candidates P) -> canon E t0 t -> In t ts).
  Proof.
    unfold map_types. fold (map_candidates P). intros H. bok H l Hl. injection H as <-. apply mapM_ok in Hl. split.
    - intros t Ht. apply (proj1 (type_set_In _ _)) in Ht. destruct (Forall2_other _ _ _ _ Hl Ht) as (t0 & H0 & Q). exists t0. split; [exact H0|exists n; exact Q].
    - intros t0 t H0 Ht. apply type_set_In. clear - Hl H0 Ht. induction Hl as [|a b l l' H _ IH]; [destruct H0|].
      destruct H0 as [->|H0]; [left; exact (canon_fun _ _ _ _ (ex_intro _ n H) Ht)|right; apply IH, H0].
  Qed.

  (** ** Stages of the compilation *)
  Definition grows (P Q : program) : Prop :=
    p_types Q = p_types P /\ p_aliases Q = p_aliases P /\ p_foreign Q = p_foreign P /\ incl (p_declared P) (p_declared Q) /\ incl (p_defs P) (p_defs Q).

  Lemma grows_refl P : grows P P.
  Proof. repeat split; try reflexivity; apply incl_refl. Qed.
  Lemma grows_trans P Q S : grows P Q -> grows Q S -> grows P S.
  Proof. intros (A1 & A2 & A3 & A4 & A5) (B1 & B2 & B3 & B4 & B5). repeat split; try congruence; intros x Hx; auto. Qed.
  Lemma grows_defs P ds : grows P (add_defs P ds).
  Proof. repeat split; try apply incl_refl. intros x Hx. cbn. apply in_or_app. auto. Qed.
  Lemma grows_declared P ds : grows P (add_declared P ds).
  Proof. repeat split; try apply incl_refl. intros x Hx. cbn. apply in_or_app. auto. Qed.

  Lemma grows_expression P Q e : grows P Q -> In e (visit_expressions P) -> In e (visit_expressions Q).
  Proof. intros (_ & _ & _ & _ & G) H. apply in_flat_map in H. destruct H as (d & Hd & H). apply in_flat_map. exists d. split; [apply G, Hd|exact H]. Qed.
  Lemma grows_starts P Q t : grows P Q -> starts P t -> starts Q t.
  Proof.
    intros G. pose proof G as (G1 & G2 & G3 & G4 & G5). intros [d x u Hd Hx|x u Hx|x u Hx|x u Hx|x l y u Hx Hy|x l Hx|e u He Hu N].
    - eapply st_field; [rewrite G1; exact Hd|exact Hx].
    - eapply st_alias. rewrite G2. exact Hx.
    - eapply st_foreign. rewrite G3. exact Hx.
    - eapply st_declared. apply G4, Hx.
    - eapply st_argument; [apply G5, Hx|exact Hy].
    - eapply st_result. apply G5, Hx.
    - eapply st_node; [eapply grows_expression; eassumption|exact Hu|exact N].
  Qed.
  Lemma grows_seen P Q t : grows P Q -> seen_type P t -> seen_type Q t.
  Proof. intros G H. apply seen_starts in H. destruct H as (r & Hr & H). eapply starts_seen; [eapply grows_starts; eassumption|exact H]. Qed.
  Lemma grows_candidate P Q t : grows P Q -> In t (candidates P) -> In t (candidates Q).
  Proof.
    intros G H. apply in_app_or in H. apply in_or_app. destruct H as [H|H]; [left|right]; apply in_flat_map in H; destruct H as (u & Hu & H); apply in_flat_map; exists u; (split; [|exact H]).
    - eapply grows_seen; [exact G|exact Hu].
    - eapply grows_expression; eassumption.
  Qed.
  Lemma grows_map_candidate P Q t : grows P Q -> In t (map_candidates P) -> In t (map_candidates Q).
  Proof.
    intros G H. apply in_app_or in H. apply in_or_app. destruct H as [H|H]; [left|right].
    - apply filter_In in H. apply filter_In. split; [|apply H]. eapply grows_seen; [exact G|apply H].
    - apply in_flat_map in H; destruct H as (u & Hu & H); apply in_flat_map; exists u; (split; [|exact H]). eapply grows_expression; eassumption.
  Qed.

  Notation source := (seen_type p).

  (** A program between the source and the compiled module *)
  Record between (P : program) : Prop := Between {
    bt_grows : grows p P;
    bt_declared : forall x t, In (x, t) (p_declared P) -> from source t;
    bt_defs : forall d, In d (p_defs P) -> In d (p_defs p) \/ from_lambda source (snd d)
  }.

  Lemma between_names P : between P -> same_names P.
  Proof. intros B. destruct (bt_grows P B) as (A1 & A2 & _). split; assumption. Qed.

  Lemma between_source : between p.
  Proof.
    constructor; [apply grows_refl| |auto]. intros x t H. apply from_seen. eapply starts_seen; [eapply st_declared, H|apply self_visit].
  Qed.
  Lemma between_adds P ds : between P -> (forall d, In d ds -> from_lambda source (snd d)) -> between (add_defs P ds).
  Proof.
    intros [A1 A2 A3] H. constructor; [eapply grows_trans; [exact A1|apply grows_defs]|exact A2|]. intros d Hd. cbn in Hd. apply in_app_or in Hd. destruct Hd; auto.
  Qed.
  Lemma between_declares P ds : between P -> (forall x t, In (x, t) ds -> from source t) -> between (add_declared P ds).
  Proof.
    intros [A1 A2 A3] H. constructor; [eapply grows_trans; [exact A1|apply grows_declared]| |exact A3]. intros x t Hd. cbn in Hd. apply in_app_or in Hd. destruct Hd as [Hd|Hd]; eauto.
  Qed.

  Lemma visited_source P e : between P -> In e (visit_expressions P) -> In e (visit_expressions p) \/ (plain_node e = true /\ forall t, In t (node_types e) -> from source t).
  Proof.
    intros B H. apply in_flat_map in H. destruct H as (d & Hd & H). destruct (bt_defs P B d Hd) as [Hs|(_ & _ & F)].
    - left. apply in_flat_map. eauto.
    - right. apply F. apply visit_occurs, H.
  Qed.

  Lemma between_from P t : between P -> seen_type P t -> from source t.
  Proof.
    intros B H. apply seen_starts in H. destruct H as (r & Hr & H). apply (from_sub source r t); [|exact H]. clear H. pose proof (bt_grows P B) as (G1 & G2 & G3 & _).
    assert (S : forall u, starts p u -> from source u) by (intros u Hu; apply from_seen; eapply starts_seen; [exact Hu|apply self_visit]).
    destruct Hr as [d x u Hd Hx|x u Hx|x u Hx|x u Hx|x l y u Hx Hy|x l Hx|e u He Hu N].
    - apply S. eapply st_field; [rewrite <- G1; exact Hd|exact Hx].
    - apply S. eapply st_alias. rewrite <- G2. exact Hx.
    - apply S. eapply st_foreign. rewrite <- G3. exact Hx.
    - eapply (bt_declared P B), Hx.
    - destruct (bt_defs P B _ Hx) as [Hs|(F & _)]; [apply S; eapply st_argument; eassumption|eapply F, Hy].
    - destruct (bt_defs P B _ Hx) as [Hs|(_ & F & _)]; [apply S; eapply st_result; eassumption|exact F].
    - destruct (visited_source P e B He) as [Hs|[_ F]]; [apply S; eapply st_node; eassumption|apply F, Hu].
  Qed.
  Lemma between_grounded P t : between P -> seen_type P t -> grounded source t.
  Proof.
    intros B H c Hc. eapply from_more; [eapply from_canonical; [apply between_names, B|exact H|exact Hc]|]. intros x Hx. eapply between_from; eassumption.
  Qed.
End Collect.
