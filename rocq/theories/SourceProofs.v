(** Modules given as texts: imports, and what formatting keeps. *)
From Coq Require Import String Ascii List Bool Arith ZArith Lia Permutation.
From Verif Require Import Base HirType HirTypeSpec Hir HirSpec LowerTypeSpec Syntax SyntaxSpec Ast Parser ParserSpec ParserKept ParserWords ParserWordsProofs Resolve ResolveSpec ResolveProofs ResolveUse ResolveUnique.
From Verif Require Import Desugar DesugarSpec DesugarProofs DesugarWritten SourceSpec.
Import ListNotations.
Local Open Scope list_scope.

(** *** Imports *)
Definition import_found (interfaces : apath -> option interface) (a : aimport) (i : import) : Prop :=
  interfaces (i_path a) = Some (im_interface i) /\ called a (im_prefix i) /\ im_unqualified i = i_names a.
Lemma called_prefix a x : faithful_import a -> called a x <-> module_prefix a = Ok x.
Proof.
  intros (P & _). unfold called, module_prefix, path_components. destruct (i_prefix a); [split; [intros ->; reflexivity|intros [= ->]; reflexivity]|].
  assert (N : match i_path a with External _ p | Internal p => p end <> []) by (destruct (i_path a); cbn in P; tauto).
  destruct (exists_last N) as (l & y & ->). rewrite rev_app_distr. cbn [rev app]. split.
  - intros (l' & E). apply app_inj_tail in E. destruct E as [_ ->]. reflexivity.
  - intros [= ->]. exists l. reflexivity.
Qed.
Lemma find_found interfaces a i : faithful_import a -> find_import interfaces a = Ok i <-> import_found interfaces a i.
Proof.
  intros F. unfold find_import, import_found. rewrite (called_prefix a _ F). destruct i as [f p u]. cbn [im_interface im_prefix im_unqualified]. destruct (interfaces (i_path a)) as [f'|]; split; try discriminate.
  - intros H. apply bind_ok in H. destruct H as (y & Hy & [= -> -> <-]). auto.
  - intros ([= ->] & -> & ->). reflexivity.
  - intros ([=] & _).
Qed.
Lemma imports_ok interfaces m is : every faithful_import (m_imports m) -> mapM (find_import interfaces) (m_imports m) = Ok is <-> imports_found interfaces m is.
Proof.
  unfold imports_found. rewrite mapM_ok. intros F. split; intros H.
  - eapply Forall2_mono; [exact H|]. intros a i Ia E. apply (find_found interfaces a i (every_in _ _ _ F Ia)) in E. exact E.
  - eapply Forall2_mono; [exact H|]. intros a i Ia E. apply (find_found interfaces a i (every_in _ _ _ F Ia)). exact E.
Qed.

(** *** Permutations of imports *)
Definition alike (i j : import) : Prop := im_interface i = im_interface j /\ im_prefix i = im_prefix j /\ forall x, In x (im_unqualified i) <-> In x (im_unqualified j).
Definition same_imports (is js : list import) : Prop := (forall i, In i is -> exists j, In j js /\ alike i j) /\ (forall j, In j js -> exists i, In i is /\ alike i j).
Lemma alike_sym i j : alike i j -> alike j i.
Proof. intros (H1 & H2 & H3). repeat split; try congruence; apply H3. Qed.
Lemma same_imports_sym is js : same_imports is js -> same_imports js is.
Proof. intros [H1 H2]. split; intros i I; [destruct (H2 i I) as (j & J & A)|destruct (H1 i I) as (j & J & A)]; exists j; auto using alike_sym. Qed.
Lemma goes_by_alike i j o x : alike i j -> goes_by i o x -> goes_by j o x.
Proof. intros (_ & H2 & H3) [[I E]|[N E]]; [left|right]; rewrite <- ?H2; (split; [|exact E]); [apply H3, I|intros I; apply N, H3, I]. Qed.
Lemma imported_function_same is js x y : same_imports is js -> imported_function is x y -> imported_function js x y.
Proof. intros [H _] (i & d & I & D & G & N). destruct (H i I) as (j & J & A). exists j, d. repeat split; auto; [destruct A as [<- _]; exact D|exact (goes_by_alike _ _ _ _ A G)]. Qed.
Lemma imported_type_same is js x y : same_imports is js -> imported_type is x y -> imported_type js x y.
Proof. intros [H _] (i & o & I & G & D). destruct (H i I) as (j & J & A). exists j, o. repeat split; auto; [exact (goes_by_alike _ _ _ _ A G)|destruct A as [<- _]; exact D]. Qed.
Lemma validate_same is js : same_imports is js -> forallb validate is = true -> forallb validate js = true.
Proof.
  intros [_ H]. rewrite !forallb_forall. intros V j J. destruct (H j J) as (i & I & (A1 & _ & A3)). specialize (V i I). unfold validate in *. rewrite <- A1. rewrite forallb_forall in *. intros x X. apply V, A3, X.
Qed.
Lemma interfaces_same is js prelude i : same_imports is js -> In i (map im_interface is ++ prelude) -> In i (map im_interface js ++ prelude).
Proof. intros [H _]. rewrite !in_app_iff, !in_map_iff. intros [(k & <- & I)|I]; [left|right; exact I]. destruct (H k I) as (j & J & (A & _)). exists j. auto. Qed.
Lemma refers_same prefix m is js S x e : same_imports is js -> refers prefix m is S x e -> refers prefix m js S x e.
Proof.
  intros H R. pose proof (same_imports_sym _ _ H) as H'. destruct R; [apply refers_local|apply refers_own|eapply refers_imported|apply refers_built_in|apply refers_unknown]; try eassumption; eauto using imported_function_same; intros y Y; match goal with N : forall y, ~ _ |- _ => eapply N, imported_function_same; eassumption end.
Qed.
Lemma type_refers_same prefix m is js x t : same_imports is js -> type_refers prefix m is x t -> type_refers prefix m js x t.
Proof.
  intros H R. pose proof (same_imports_sym _ _ H) as H'. destruct R; [apply type_refers_own|eapply type_refers_imported|apply type_refers_built_in|apply type_refers_unknown]; try eassumption; eauto using imported_type_same; intros y Y; match goal with N : forall y, ~ _ |- _ => eapply N, imported_type_same; eassumption end.
Qed.
Lemma clear_same m is js prelude : same_imports is js -> clear_imports m is prelude -> clear_imports m js prelude.
Proof.
  intros H [C1 C2 C3]. pose proof (same_imports_sym _ _ H) as H'. split.
  - intros j d J D. destruct H as [_ H]. destruct (H j J) as (i & I & (A & _)). apply (C1 i d I). rewrite A. exact D.
  - intros i I. apply C2. eapply interfaces_same; eassumption.
  - intros d y D Y. eapply C3; [exact D|]. eapply imported_function_same; eassumption.
Qed.

(** *** Definitions of other modules *)
Section Unique.
  Context {A : Type} (name : A -> string).
  Lemma unique_app l k : forall seen a, In a (unique name seen (l ++ k)) <-> In a (unique name seen l) \/ In a (unique name (map name l ++ seen) k).
  Proof.
    assert (E : forall k seen seen', (forall x, In x seen <-> In x seen') -> unique name seen k = unique name seen' k).
    { induction k0 as [|b k0 IH]; intros s s' H; [reflexivity|]. cbn [unique]. assert (M : mem (name b) s = mem (name b) s').
      { destruct (mem (name b) s) eqn:M1, (mem (name b) s') eqn:M2; try reflexivity; [apply mem_In, H, mem_In in M1|apply mem_In, H, mem_In in M2]; congruence. }
      rewrite M. destruct (mem (name b) s'); [apply IH, H|]. f_equal. apply IH. intros x. cbn [In]. rewrite H. reflexivity. }
    induction l as [|b l IH]; intros seen a; cbn [app unique map].
    - cbn [In]. tauto.
    - destruct (mem (name b) seen) eqn:M.
      + rewrite IH. rewrite (E k (name b :: map name l ++ seen) (map name l ++ seen)); [reflexivity|]. intros x. cbn [In]. split; [intros [<-|I]; [apply in_or_app; right; apply mem_In, M|exact I]|auto].
      + cbn [In]. rewrite IH. rewrite (E k (map name l ++ name b :: seen) (name b :: map name l ++ seen)); [tauto|]. intros x. rewrite in_app_iff. cbn [In]. rewrite in_app_iff. tauto.
  Qed.
  Lemma unique_in l : forall seen a, (forall a b, In a l -> In b l -> name a = name b -> a = b) -> In a (unique name seen l) <-> In a l /\ ~ In (name a) seen.
  Proof.
    induction l as [|b l IH]; intros seen a U; cbn [unique]; [cbn [In]; tauto|]. assert (U' : forall a b, In a l -> In b l -> name a = name b -> a = b) by (intros x y X Y; apply U; right; assumption).
    destruct (mem (name b) seen) eqn:M; cbn [In]; rewrite (IH _ _ U'); cbn [In].
    - apply mem_In in M. split; [tauto|]. intros [[<-|I] N]; [tauto|auto].
    - apply mem_not_In in M. split.
      + intros [<-|[I N]]; [auto|tauto].
      + intros [[<-|I] N]; [auto|]. destruct (string_dec (name b) (name a)) as [E|E]; [left; apply U; [left; reflexivity|right; exact I|exact E]|]. right. split; [exact I|]. intros [X|X]; [exact (E X)|exact (N X)].
  Qed.
  Variable public : A -> bool.
  Lemma chosen l a : (forall a b, In a l -> In b l -> name a = name b -> public a = public b -> a = b) ->
    In a (unique name [] (public_first public l)) <-> In a l /\ (public a = true \/ forall b, In b l -> name b = name a -> public b = false).
  Proof.
    intros U. unfold public_first. rewrite unique_app, !unique_in.
    - rewrite app_nil_r, !filter_In, negb_true_iff. split.
      + intros [[[I P] _]|[[I P] N]]; [auto|]. split; [exact I|]. right. intros b B E. destruct (public b) eqn:Pb; [|reflexivity]. exfalso. apply N. rewrite <- E. apply in_map, filter_In. auto.
      + intros [I [P|P]]; [left; repeat split; auto; intros []|]. destruct (public a) eqn:Pa; [left; repeat split; auto; intros []|]. right. repeat split; auto. intros X. apply in_map_iff in X. destruct X as (b & E & B). apply filter_In in B. destruct B as [B Pb]. rewrite (P b B E) in Pb. discriminate.
    - intros x y X Y. apply filter_In in X, Y. destruct X as [X Px], Y as [Y Py]. intros E. apply U; auto. rewrite negb_true_iff in *. congruence.
    - intros x y X Y. apply filter_In in X, Y. destruct X as [X Px], Y as [Y Py]. intros E. apply U; auto. congruence.
  Qed.
  Lemma chosen_same l k a : (forall a b, In a l -> In b l -> name a = name b -> public a = public b -> a = b) -> (forall a, In a l <-> In a k) ->
    In a (unique name [] (public_first public l)) <-> In a (unique name [] (public_first public k)).
  Proof.
    intros U H. rewrite !chosen; [|intros x y X Y; apply H in X, Y; apply U; assumption|exact U]. rewrite H. split; intros [I [P|P]]; split; auto; right; intros b B; apply P; apply H; exact B.
  Qed.
End Unique.

(** *** Resolution depends on the imports, not on their order. *)
Section Order.
  Variables (prefix : string) (m : rmodule) (prelude : list interface) (is js : list import).
  Hypothesis HW : written_module m.
  Hypothesis HI : clear_imports m is prelude.
  Hypothesis HP : mangled prefix.
  Hypothesis HU : unambiguous is.
  Hypothesis HA : agreeing (map im_interface is ++ prelude).
  Hypothesis HS : same_imports is js.

  Lemma refers_unique S x e e' : refers prefix m is S x e -> refers prefix m js S x e' -> e = e'.
  Proof.
    intros H H'. apply (refers_same _ _ _ _ _ _ _ (same_imports_sym _ _ HS)) in H'. destruct HU as [U _].
    destruct H, H'; try reflexivity; try contradiction; try congruence; try (f_equal; eauto; fail); exfalso; match goal with X : forall y, ~ _, Y : _ |- _ => exact (X _ Y) end.
  Qed.
  Lemma type_refers_unique x e e' : type_refers prefix m is x e -> type_refers prefix m js x e' -> e = e'.
  Proof.
    intros H H'. apply (type_refers_same _ _ _ _ _ _ (same_imports_sym _ _ HS)) in H'. destruct HU as [_ U].
    destruct H, H'; try reflexivity; try contradiction; try congruence; try (f_equal; eauto; fail); exfalso; match goal with X : forall y, ~ _, Y : _ |- _ => exact (X _ Y) end.
  Qed.
  Lemma interfaces_iff i : In i (map im_interface is ++ prelude) <-> In i (map im_interface js ++ prelude).
  Proof. split; apply interfaces_same; auto using same_imports_sym. Qed.
  Lemma flat_iff {A B} (f : interface -> list A) (g : A -> B) d :
    In d (flat_map (fun i => map g (f i)) (map im_interface is ++ prelude)) <-> In d (flat_map (fun i => map g (f i)) (map im_interface js ++ prelude)).
  Proof. rewrite !in_flat_map. split; intros (i & I & D); exists i; (split; [apply interfaces_iff, I|exact D]). Qed.
  Lemma outer_types_same d : In d (outer_types is prelude) <-> In d (outer_types js prelude).
  Proof.
    apply chosen_same.
    - intros a b Ha Hb. apply in_flat_map in Ha, Hb. destruct Ha as (i & I & Ha), Hb as (j & J & Hb). apply in_map_iff in Ha, Hb. destruct Ha as (a' & <- & Ha), Hb as (b' & <- & Hb). cbn. intros E P.
      rewrite (ag_types _ HA i j a' b' I J Ha Hb E P). reflexivity.
    - intros a. apply flat_iff.
  Qed.
  Lemma outer_aliases_same d : In d (outer_aliases is prelude) <-> In d (outer_aliases js prelude).
  Proof.
    apply chosen_same.
    - intros a b Ha Hb. apply in_flat_map in Ha, Hb. destruct Ha as (i & I & Ha), Hb as (j & J & Hb). apply in_map_iff in Ha, Hb. destruct Ha as (a' & <- & Ha), Hb as (b' & <- & Hb). cbn. intros E P.
      rewrite (ag_aliases _ HA i j a' b' I J Ha Hb E P). reflexivity.
    - intros a. apply flat_iff.
  Qed.
  Lemma declared_is ks : rm_declared (ResolveProofs.m' prefix m ks prelude) =
    unique fst [] (flat_map (fun i => map (fun d => (if_name d, if_type d)) (i_functions i)) (map im_interface ks ++ prelude)) ++ rm_declared m.
  Proof. reflexivity. Qed.
  Lemma declared_same d : In d (rm_declared (ResolveProofs.m' prefix m is prelude)) <-> In d (rm_declared (ResolveProofs.m' prefix m js prelude)).
  Proof.
    assert (U : forall a b, In a (flat_map (fun i => map (fun d => (if_name d, if_type d)) (i_functions i)) (map im_interface is ++ prelude)) ->
      In b (flat_map (fun i => map (fun d => (if_name d, if_type d)) (i_functions i)) (map im_interface is ++ prelude)) -> fst a = fst b -> a = b).
    { intros a b Ha Hb. apply in_flat_map in Ha, Hb. destruct Ha as (i & I & Ha), Hb as (j & J & Hb). apply in_map_iff in Ha, Hb. destruct Ha as (a' & <- & Ha), Hb as (b' & <- & Hb). cbn. intros E.
      rewrite E, (ag_functions _ HA i j a' b' I J Ha Hb E). reflexivity. }
    pose proof (fun d => flat_iff i_functions (fun d => (if_name d, if_type d)) d) as X. rewrite !declared_is, !in_app_iff. rewrite (unique_in fst _ [] d U), unique_in.
    - rewrite X. reflexivity.
    - intros a b Ha Hb. apply U; apply X; assumption.
  Qed.
  Theorem order_does_not_matter : same_result (resolve_module m prefix is prelude) (resolve_module m prefix js prelude).
  Proof.
    unfold resolve_module. pose proof (validate_same _ _ HS) as V1. pose proof (validate_same _ _ (same_imports_sym _ _ HS)) as V2.
    destruct (forallb validate is) eqn:Vi; [rewrite (V1 eq_refl)|destruct (forallb validate js); [discriminate (V2 eq_refl)|reflexivity]]. cbn [same_result].
    change (same_program (ResolveProofs.m' prefix m is prelude) (ResolveProofs.m' prefix m js prelude)).
    pose proof (clear_same _ _ _ _ HS HI) as HJ.
    destruct (module_resolved prefix m is prelude HW HI HP) as (F & G & (ts & T1 & T2) & (als & A1 & A2)). destruct (module_resolved prefix m js prelude HW HJ HP) as (F' & G' & (ts' & T1' & T2') & (als' & A1' & A2')).
    split; [exact (functions_unique _ _ _ _ refers_unique type_refers_unique _ _ F F')|]. split; [exact (foreign_unique _ _ _ _ type_refers_unique _ _ G G')|].
    split; [|split].
    - intros d. rewrite T1, T1', (records_unique _ _ _ _ type_refers_unique _ _ T2 T2'), !in_app_iff, outer_types_same. reflexivity.
    - intros d. rewrite A1, A1', (aliases_unique _ _ _ _ type_refers_unique _ _ A2 A2'), !in_app_iff, outer_aliases_same. reflexivity.
    - exact declared_same.
  Qed.
End Order.

(** *** Texts *)
Lemma clear_desugared read_float m r is prelude : desugar_module read_float m = Ok r -> clear_source m is prelude -> clear_imports r is prelude.
Proof.
  intros H [C1 C2 C3]. unfold desugar_module in H. apply bind_ok in H. destruct H as (fs & _ & H). injection H as <-. split; [exact C1|exact C2|]. cbn [rm_foreign]. intros d y I. apply in_map_iff in I. destruct I as (f & <- & I). apply C3. exact I.
Qed.
Lemma find_cases interfaces a : path_components (i_path a) <> [] -> (exists i, find_import interfaces a = Ok i) \/ find_import interfaces a = reject "ModuleNotFound".
Proof.
  intros N. unfold find_import, module_prefix. destruct (interfaces (i_path a)); [|auto]. left. destruct (i_prefix a); [cbn [bind]; eauto|].
  destruct (exists_last N) as (l & y & ->). rewrite rev_app_distr. cbn. eauto.
Qed.
Lemma finds_cases interfaces l : (forall a, In a l -> path_components (i_path a) <> []) ->
  (exists is, mapM (find_import interfaces) l = Ok is) \/ mapM (find_import interfaces) l = reject "ModuleNotFound".
Proof.
  induction l as [|a l IHl]; intros N; cbn [mapM]; [eauto|]. destruct (IHl (fun b B => N b (or_intror B))) as [[is IH]|IH]; destruct (find_cases interfaces a (N a (or_introl eq_refl))) as [[i ->]| ->]; cbn [bind]; try rewrite IH; cbn [bind]; eauto.
Qed.
Lemma same_find interfaces a b i : same_import a b -> find_import interfaces a = Ok i -> exists j, find_import interfaces b = Ok j /\ alike i j.
Proof.
  intros (P & Q & N). unfold find_import, module_prefix, path_components. rewrite <- P, <- Q. destruct (interfaces (i_path a)) as [f|]; [|discriminate]. intros H. apply bind_ok in H. destruct H as (x & -> & [= <-]). cbn [bind].
  eexists. split; [reflexivity|]. repeat split; cbn; intros I; [eapply Permutation_in; [exact N|exact I]|].
  eapply Permutation_in; [apply Permutation_sym, N|exact I].
Qed.
Lemma same_import_sym a b : same_import a b -> same_import b a.
Proof. intros (P & Q & N). repeat split; try congruence. apply Permutation_sym, N. Qed.
Definition imports_alike (m n : amodule) : Prop :=
  (forall a, In a (m_imports m) -> exists b, In b (m_imports n) /\ same_import a b) /\ (forall b, In b (m_imports n) -> exists a, In a (m_imports m) /\ same_import a b).
Lemma Forall2_both {A B} (P : A -> B -> Prop) l k : Forall2 P l k -> (forall a, In a l -> exists b, In b k /\ P a b) /\ (forall b, In b k -> exists a, In a l /\ P a b).
Proof.
  induction 1 as [|a b l k H F [I1 I2]]; split; try (intros ? []; fail).
  - intros x [<-|X]; [exists b; split; [left; reflexivity|exact H]|]. destruct (I1 x X) as (y & Y & Z). exists y. split; [right; exact Y|exact Z].
  - intros x [<-|X]; [exists a; split; [left; reflexivity|exact H]|]. destruct (I2 x X) as (y & Y & Z). exists y. split; [right; exact Y|exact Z].
Qed.
Lemma same_alike m n : same_module m n -> imports_alike m n.
Proof.
  intros ((l & P & F) & _). apply Forall2_both in F. destruct F as [F1 F2]. split.
  - intros a I. apply F1. eapply Permutation_in; eassumption.
  - intros b I. destruct (F2 b I) as (a & A & S). exists a. split; [|exact S]. eapply Permutation_in; [apply Permutation_sym, P|exact A].
Qed.
Lemma finds_same interfaces m n is : imports_alike m n -> mapM (find_import interfaces) (m_imports m) = Ok is -> exists js, mapM (find_import interfaces) (m_imports n) = Ok js /\ same_imports is js.
Proof.
  intros [A1 A2] H. apply mapM_ok, Forall2_both in H. destruct H as [H1 H2].
  assert (X : exists js, mapM (find_import interfaces) (m_imports n) = Ok js).
  { assert (Q : forall b, In b (m_imports n) -> exists j, find_import interfaces b = Ok j).
    { intros b B. destruct (A2 b B) as (a & Ia & S). destruct (H1 a Ia) as (i & _ & Ei). destruct (same_find _ _ _ _ S Ei) as (j & Ej & _). eauto. }
    clear A1 A2. induction (m_imports n) as [|b l IH]; [cbn; eauto|]. cbn [mapM]. destruct (Q b (or_introl eq_refl)) as (j & ->). cbn [bind]. destruct IH as (js & ->); [intros c C; apply Q; right; exact C|]. cbn [bind]. eauto. }
  destruct X as [js J].
  - exists js. split; [exact J|]. apply mapM_ok, Forall2_both in J. destruct J as [J1 J2]. split.
    + intros i I. destruct (H2 i I) as (a & Ia & E). destruct (A1 a Ia) as (b & B & S). destruct (same_find _ _ _ _ S E) as (j & Ej & Al). destruct (J1 b B) as (j' & Ij & Ej'). exists j. split; [congruence|exact Al].
    + intros j I. destruct (J2 j I) as (b & Ib & E). destruct (A2 b Ib) as (a & Ia & S). destruct (H1 a Ia) as (i & Ii & Ei). destruct (same_find _ _ _ _ S Ei) as (j' & Ej & Al). exists i. split; [exact Ii|congruence].
Qed.
Lemma same_result_refl a : same_result a a.
Proof. destruct a; cbn; auto. repeat split; auto. Qed.
Section Texts.
  Variable read_float : string -> res Z.
  Variables (prefix : string) (interfaces : apath -> option interface) (prelude : list interface).
  Hypothesis HP : mangled prefix.
  Lemma front_end_same m n : worded_module m -> same_module m n ->
    (forall is, imports_found interfaces m is -> clear_source m is prelude /\ unambiguous is /\ agreeing (map im_interface is ++ prelude)) ->
    same_result (front_end read_float prefix interfaces prelude m) (front_end read_float prefix interfaces prelude n).
  Proof.
    intros W SM HC. pose proof (same_alike _ _ SM) as AL. destruct SM as (_ & E1 & E2 & E3). unfold front_end.
    assert (D : desugar_module read_float n = desugar_module read_float m) by (unfold desugar_module; rewrite E1, E2, E3; reflexivity).
    assert (Nm : forall a, In a (m_imports m) -> path_components (i_path a) <> []).
    { intros a Ia. destruct W as (Wi & _). apply (every_in _ _ _ Wi) in Ia. destruct Ia as [P _]. unfold path_components. destruct (i_path a); cbn in P; tauto. }
    assert (Nn : forall b, In b (m_imports n) -> path_components (i_path b) <> []).
    { intros b Ib. destruct (proj2 AL b Ib) as (a & Ia & P & _). rewrite <- P. apply Nm, Ia. }
    destruct (finds_cases interfaces (m_imports m) Nm) as [[is Hi]|Hi].
    - destruct (finds_same interfaces m n is AL Hi) as (js & Hj & SI). rewrite Hi, Hj. cbn [bind]. rewrite D. destruct (desugar_module read_float m) as [r| | |] eqn:Dm; cbn [bind]; [|apply same_result_refl..].
      pose proof W as (Wi & _). apply (imports_ok interfaces m is Wi) in Hi. destruct (HC is Hi) as (CS & U & AG). destruct (module_written read_float m r W Dm) as [WM _].
      exact (order_does_not_matter prefix r prelude is js WM (clear_desugared _ _ _ _ _ Dm CS) HP U AG SI).
    - destruct (finds_cases interfaces (m_imports n) Nn) as [[js Hj]|Hj]; [|rewrite Hi, Hj; apply same_result_refl].
      exfalso. assert (AL' : imports_alike n m) by (destruct AL as [A1 A2]; split; intros a I; [destruct (A2 a I) as (b & B & S)|destruct (A1 a I) as (b & B & S)]; exists b; auto using same_import_sym).
      destruct (finds_same interfaces n m js AL' Hj) as (is & X & _). rewrite X in Hi. discriminate.
  Qed.
End Texts.

(** *** Every module is translated unless a number is not. *)
Section Total.
  Variable read_float : string -> res Z.
  Notation D := (desugar read_float).
  Notation DB := (desugar_block (desugar read_float)).
  Definition good (n : anumber) : Prop := exists z, desugar_number read_float n = Ok z.
  Definition numbers_good (e : aexpr) : Prop := forall n, number_in n e -> good n.
  Lemma part_good e T p : In (T, p) (source_parts e) -> numbers_good e -> numbers_good p.
  Proof. intros I H n N. apply H. eapply number_part; eassumption. Qed.
  Lemma mapM_total {A B} (f : A -> res B) l : (forall a, In a l -> exists b, f a = Ok b) -> exists k, mapM f l = Ok k.
  Proof.
    induction l as [|a l IH]; intros H; [cbn; eauto|]. cbn [mapM]. destruct (H a (or_introl eq_refl)) as (b & ->). cbn [bind]. destruct IH as (k & ->); [intros c C; apply H; right; exact C|]. cbn [bind]. eauto.
  Qed.
  Lemma statements_total l : forall xs e, (forall T p, In (T, p) (statement_parts xs l e) -> exists h, D p = Ok h) -> exists h, desugar_statements D e l = Ok h.
  Proof.
    induction l as [|[x e1] l IH]; intros xs e H; cbn [desugar_statements statement_parts] in *; [apply (H xs); left; reflexivity|].
    destruct (IH _ e (fun T p I => H T p (or_intror I))) as (k & ->). cbn [bind]. destruct (H xs e1 (or_introl eq_refl)) as (h & ->). cbn [bind]. eauto.
  Qed.
  Lemma block_total xs b : (forall T p, In (T, p) (block_parts xs b) -> exists h, D p = Ok h) -> exists h, DB b = Ok h.
  Proof. destruct b as [l e]. apply statements_total. Qed.
  Lemma if_total b l : l <> [] -> (forall T p, In (T, p) (flat_map (fun p => ([], fst p) :: block_parts [] (snd p)) l ++ block_parts [] b) -> exists h, D p = Ok h) -> exists h, desugar_if D b l = Ok h.
  Proof.
    induction l as [|[c a] l IH]; intros N H; [contradiction|]. cbn [desugar_if flat_map fst snd] in *.
    destruct (H [] c) as (hc & ->); [left; reflexivity|]. cbn [bind]. destruct (block_total [] a) as (ha & ->); [intros T p I; apply (H T); cbn; right; rewrite !in_app_iff; auto|]. cbn [bind].
    assert (R : exists h, match l with [] => DB b | _ :: _ => desugar_if D b l end = Ok h).
    { destruct l as [|q l]; [apply (block_total []); intros T p I; apply (H T); cbn; right; rewrite !in_app_iff; auto|]. apply IH; [discriminate|]. intros T p I. apply (H T). cbn in *. rewrite !in_app_iff in *. cbn in *. rewrite in_app_iff in *. tauto. }
    destruct R as (h & R). change (exists h0, bind match l with [] => DB b | _ :: _ => desugar_if D b l end (fun e => Ok (HIf hc ha e)) = Ok h0). rewrite R. cbn [bind]. eauto.
  Qed.
  (** Parts of what the parser makes *)
  Lemma statements_worded l : forall xs e T p, worded_block worded (Block l e) -> In (T, p) (statement_parts xs l e) -> worded p.
  Proof.
    induction l as [|[x e1] l IH]; intros xs e T p [W1 W2] I; cbn [statement_parts In] in I.
    - destruct I as [[= <- <-]|[]]. exact W2.
    - destruct W1 as [[_ W0] W1]. destruct I as [[= <- <-]|I]; [exact W0|]. eapply (IH _ e); [split; eassumption|exact I].
  Qed.
  Lemma block_worded xs b T p : worded_block worded b -> In (T, p) (block_parts xs b) -> worded p.
  Proof. destruct b as [l e]. apply statements_worded. Qed.
  Lemma for_worded l : forall T p, every (fun b => match b with Branch xs es c =>
        xs <> [] /\ every name xs /\ es <> [] /\ every worded es /\ match c with Some e => worded e | None => True end end) l -> In (T, p) (for_parts l) -> worded p.
  Proof.
    induction l as [|[xs es c] l IH]; intros T p W I; cbn [for_parts] in I; [destruct I|]. destruct W as [(_ & _ & _ & We & Wc) W]. cbn [br_iteratees br_condition br_names] in I. rewrite !in_app_iff in I. destruct I as [I|[I|I]]; [| |eauto].
    - apply in_map_iff in I. destruct I as (q & [= <- <-] & I). exact (every_in _ _ _ We I).
    - destruct c; [|destruct I]. destruct I as [[= <- <-]|[]]. exact Wc.
  Qed.
  Lemma part_worded e T p : worded e -> In (T, p) (source_parts e) -> worded p.
  Proof.
    destruct e; cbn [worded source_parts]; intros W I;
      repeat (rewrite in_app_iff in I || cbn [In] in I);
      repeat match goal with
      | H : _ /\ _ |- _ => destruct H
      | H : _ \/ _ |- _ => destruct H as [H|H]
      | H : False |- _ => destruct H
      | H : (_, _) = (_, _) |- _ => injection H as ? ?; subst
      end; try assumption; try match goal with I : In _ (block_parts _ ?b), W : worded_block _ ?b |- _ => exact (block_worded _ _ _ _ W I) end.
    - apply in_map_iff in I. destruct I as (q & [= <- <-] & I). eapply every_in; eassumption.
    - apply in_flat_map in I. destruct I as ([c b] & I & Ib). match goal with W : every _ _ |- _ => apply (every_in _ _ _ W) in I end. destruct I as [I1 I2]. cbn [fst snd] in Ib. destruct Ib as [[= <- <-]|Ib]; [exact I1|eapply block_worded; eassumption].
    - apply in_flat_map in I. destruct I as ([c b] & I & Ib). match goal with W : every _ _ |- _ => apply (every_in _ _ _ W) in I end. destruct I as [I1 I2]. eapply block_worded; eassumption.
    - destruct els; [|destruct I]. eapply block_worded; eassumption.
    - apply in_map_iff in I. destruct I as (q & Eq & I). match goal with W : every _ _ |- _ => apply (every_in _ _ _ W) in I end. destruct q; injection Eq as <- <-; exact I.
    - eapply for_worded; eassumption.
    - apply in_flat_map in I. destruct I as (q & I & Iq). match goal with W : every _ _ |- _ => apply (every_in _ _ _ W) in I end. destruct q; cbn [In] in Iq; intuition; match goal with H : (_, _) = (_, _) |- _ => injection H as <- <- end; assumption.
    - destruct record as [r|]; [|destruct I]. destruct I as [[= <- <-]|[]]. match goal with W : worded r /\ _ |- _ => apply W end.
    - apply in_map_iff in I. destruct I as ([x q] & [= <- <-] & I). match goal with W : every _ _ |- _ => apply (every_in _ _ _ W) in I end. apply I.
  Qed.
  Lemma branch_total l : (forall T p, In (T, p) (for_parts l) -> exists h, D p = Ok h) -> forall b, In b l -> exists h, desugar_branch read_float b = Ok h.
  Proof.
    induction l as [|b l IH]; intros H c I; [destruct I|]. cbn [for_parts] in H. destruct I as [<-|I].
    - destruct b as [xs es c]. cbn [desugar_branch br_iteratees br_condition br_names] in *.
      destruct (mapM_total (fun e => bind (D e) (fun h => Ok (@None ty, h))) es) as (k & ->).
      { intros a Ia. destruct (H (for_scope l) a) as (h & ->); [|cbn; eauto]. rewrite !in_app_iff. left. apply in_map, Ia. }
      cbn [bind]. destruct c as [c|]; [|cbn; eauto]. destruct (H ((xs ++ for_scope l)) c) as (h & ->); [|cbn; eauto]. rewrite !in_app_iff. right. left. left. reflexivity.
    - apply IH; [|exact I]. intros T p J. apply (H T). rewrite !in_app_iff. auto.
  Qed.
  Lemma desugar_total e : worded e -> numbers_good e -> exists h, D e = Ok h.
  Proof.
    induction e as [e IH] using aexpr_parts_ind. intros W G.
    assert (H : forall T p, In (T, p) (source_parts e) -> exists h, D p = Ok h) by (intros T p I; apply (IH T p I); [exact (part_worded e T p W I)|exact (part_good e T p I G)]). clear IH.
    assert (X : forall p, In ([], p) (source_parts e) -> exists h, D p = Ok h) by (intros p; apply H).
    assert (Y : forall xs b, (forall q, In q (block_parts xs b) -> In q (source_parts e)) -> exists h, DB b = Ok h) by (intros xs b Q; apply (block_total xs); intros T p I; apply (H T), Q, I).
    destruct e; cbn [desugar]; cbn [source_parts] in X, Y.
    - destruct (X e1) as (h1 & ->); [left; reflexivity|]. destruct (X e2) as (h2 & ->); [right; left; reflexivity|]. cbn. eauto.
    - destruct (X e) as (h1 & ->); [left; reflexivity|]. cbn [bind]. destruct (mapM_total D arguments) as (k & ->); [|cbn; eauto]. intros a Ia. apply X. right. apply in_map, Ia.
    - apply if_total; [apply W|exact H].
    - destruct (X e) as (h1 & ->); [left; reflexivity|]. cbn [bind]. destruct (Y [first; rest] thn) as (h2 & ->); [intros q I; right; apply in_or_app; left; exact I|]. cbn [bind]. destruct (Y [] els) as (h3 & ->); [intros q I; right; apply in_or_app; right; exact I|]. cbn. eauto.
    - destruct (X e1) as (h1 & ->); [left; reflexivity|]. cbn [bind]. destruct (X e2) as (h2 & ->); [right; left; reflexivity|]. cbn [bind].
      destruct (Y [name] thn) as (h3 & ->); [intros q I; right; right; apply in_or_app; left; exact I|]. cbn [bind]. destruct (Y [] els) as (h4 & ->); [intros q I; right; right; apply in_or_app; right; exact I|]. cbn. eauto.
    - destruct (X e) as (h1 & ->); [left; reflexivity|]. cbn [bind].
      destruct (mapM_total (fun p => match p with (t, b) => bind (DB b) (fun h => Ok (desugar_type t, h)) end) branches) as (k & ->).
      { intros [t b] I. destruct (Y [name] b) as (h2 & ->); [|cbn; eauto]. intros q J. right. apply in_or_app. left. apply in_flat_map. exists (t, b). auto. }
      cbn [bind]. destruct els as [b|]; [|cbn; eauto]. destruct (Y [name] b) as (h3 & ->); [intros q I; right; apply in_or_app; right; exact I|]. cbn. eauto.
    - destruct (Y (map fst arguments) body) as (h1 & ->); [auto|]. cbn. eauto.
    - destruct (mapM_total (fun x => match x with Ast.Single e => bind (D e) (fun h => Ok (Hir.Single h)) | Ast.Multiple e => bind (D e) (fun h => Ok (Hir.Multiple h)) end) elements) as (k & ->); [|cbn; eauto].
      intros q I. apply (in_map (fun x => match x with Ast.Single e | Ast.Multiple e => (@nil string, e) end)) in I. destruct q as [q|q]; destruct (X q I) as (h & ->); cbn; eauto.
    - destruct (H (for_scope branches) e) as (h1 & ->); [left; reflexivity|]. cbn [bind].
      destruct (mapM_total (desugar_branch read_float) branches) as (k & K).
      { apply branch_total. intros T p I. apply (H T). right. exact I. }
      change (exists h, bind (mapM (desugar_branch read_float) branches) (fun l => Ok (HComprehension (desugar_type type) h1 (rev l))) = Ok h). rewrite K. cbn. eauto.
    - destruct (mapM_total (fun x => match x with
                             | Ast.Entry a b => bind (D a) (fun a => bind (D b) (fun b => Ok (Hir.Entry a b)))
                             | Ast.Spread e => bind (D e) (fun h => Ok (Hir.Spread h))
                             end) elements) as (k & ->); [|cbn; eauto].
      intros q I. assert (Z : forall r, In r match q with Ast.Entry a b => [([], a); ([], b)] | Ast.Spread e => [([], e)] end -> In r (flat_map (fun x => match x with Ast.Entry a b => [(@nil string, a); ([], b)] | Ast.Spread e => [([], e)] end) elements)) by (intros r J; apply in_flat_map; exists q; auto).
      destruct q as [a b|q].
      + destruct (X a) as (h1 & ->); [apply Z; left; reflexivity|]. cbn [bind]. destruct (X b) as (h2 & ->); [apply Z; right; left; reflexivity|]. cbn. eauto.
      + destruct (X q) as (h & ->); [apply Z; left; reflexivity|]. cbn. eauto.
    - destruct (G n (number_here n)) as (z & ->). cbn. eauto.
    - destruct (mapM_total (fun p => match p with (x, e) => bind (D e) (fun h => Ok (x, h)) end) fields) as (k & ->).
      { intros [x p] I. destruct (X p) as (h & ->); [|cbn; eauto]. apply in_or_app. right. apply (in_map (fun p => (@nil string, snd p)) _ _ I). }
      cbn [bind]. destruct record as [r|]; [|eauto]. destruct (X r) as (h & ->); [left; reflexivity|]. cbn. eauto.
    - destruct (X e) as (h1 & ->); [left; reflexivity|]. cbn. eauto.
    - eauto.
    - destruct (X e) as (h1 & ->); [left; reflexivity|]. cbn. eauto.
    - destruct (X e) as (h1 & ->); [left; reflexivity|]. cbn. eauto.
    - eauto.
  Qed.
  Lemma module_total m : worded_module m -> (forall n, number_of n m -> good n) -> exists r, desugar_module read_float m = Ok r.
  Proof.
    intros (_ & _ & _ & W) G. unfold desugar_module. destruct (mapM_total (desugar_function read_float) (m_functions m)) as (k & ->); [|cbn; eauto].
    intros f I. pose proof (every_in _ _ _ W I) as (_ & _ & _ & Wb). unfold desugar_function, desugar_lambda. destruct (block_total [] (la_body (fn_lambda f))) as (h & ->); [|cbn; eauto].
    intros T p J. apply desugar_total; [exact (block_worded _ _ _ _ Wb J)|]. intros n N. apply G. exists f, T, p. auto.
  Qed.
End Total.
