(** Analysis leaves what the translation of expressions relies on. *)
From Coq Require Import String List Bool Lia Arith.
From Verif Require Import Base Mir HirType HirTypeOrder HirTypeSpec HirTypeTermination HirTypeEq HirTypeSub Hir HirSpec HirInfer HirCheck HirCoerce HirValidate HirParts HirMain
  HirStrip HirModule HirMir HirProgram LowerTag LowerTypeSpec CrashSpec CrashBase CrashAnalysis CrashLower.
Import ListNotations.

(** ** Expressions without conversions *)
Lemma parts_plain e : is_coerce e = false -> parts (plain e) = map plain (parts e).
Proof.
  intros N. unfold parts. rewrite !map_app, map_map. destruct e; try discriminate N; cbn [plain eager_parts lazy_parts bodies map app snd]; try reflexivity.
  - destruct else_ as [[o b]|]; rewrite ?map_app, !map_map; cbn [snd map]; rewrite ?app_nil_r; reflexivity.
  - rewrite !app_nil_r. clear; induction elements as [|el es IH]; [reflexivity|]. cbn [map flat_map]. rewrite map_app, IH. destruct el; reflexivity.
  - rewrite !app_nil_r, map_app. cbn [map]. apply (f_equal (fun l => l ++ [plain e])%list).
    clear; induction branches as [|[names its cond] bs IH]; [reflexivity|]. cbn [map flat_map]. rewrite map_app, IH.
    unfold branch_parts. cbn [b_iteratees b_condition]. rewrite map_app, !map_map. cbn [snd]. destruct cond; reflexivity.
  - rewrite !app_nil_r. clear; induction elements as [|el es IH]; [reflexivity|]. cbn [map flat_map]. rewrite map_app, IH. destruct el; reflexivity.
  - rewrite !map_map. reflexivity.
  - rewrite !map_map. reflexivity.
  - destruct type; reflexivity.
Qed.

Lemma occurs_plain x e : occurs x e -> occurs (plain x) (plain e).
Proof.
  revert x. induction e as [e IH] using parts_ind. intros x H. apply occurs_inv in H. destruct H as [->|(p & Hp & H)]; [apply occurs_here|].
  apply (IH p Hp) in H. destruct (is_coerce e) eqn:Nc.
  - destruct e; try discriminate Nc. cbn [plain]. unfold parts in Hp. cbn in Hp. destruct Hp as [<-|[]]. exact H.
  - eapply occurs_cons; [|exact H]. rewrite parts_plain by exact Nc. apply in_map, Hp.
Qed.

Lemma occurs_unplain e : forall x, occurs x (plain e) -> exists y, occurs y e /\ is_coerce y = false /\ plain y = x.
Proof.
  induction e as [e IH] using parts_ind. intros x H. destruct (is_coerce e) eqn:Nc.
  - destruct e; try discriminate Nc. cbn [plain] in H. assert (Hp : In e (parts (HCoerce from to e))) by (left; reflexivity).
    destruct (IH e Hp x H) as (y & Hy & X). exists y. split; [eapply occurs_cons; eassumption|exact X].
  - apply occurs_inv in H. destruct H as [->|(p & Hp & H)].
    + exists e. split; [apply occurs_here|auto].
    + rewrite (parts_plain e Nc) in Hp. apply in_map_iff in Hp. destruct Hp as (q & <- & Hq). destruct (IH q Hq x H) as (y & Hy & X).
      exists y. split; [eapply occurs_cons; eassumption|exact X].
Qed.

Section Nodes.
  Variable n : nat.
  Variable E : tenv.
  Variable R : renv.

  (** ** What inference leaves *)
  Definition marked (e : hexpr) : Prop :=
    match e with
    | HCall t (HBuiltIn b) _ => exists ts u, t = Some u /\ builtin_type n E b ts = Ok u
    | HTry t _ => exists u, t = Some u /\ not_any n E u
    | HIfType _ _ _ (Some (t, _)) => t <> None
    | _ => True
    end.
  Definition all_marked (e : hexpr) : Prop := forall x, occurs x e -> marked x.
  Lemma marked_node e : marked e -> (forall p, In p (parts e) -> all_marked p) -> all_marked e.
  Proof. intros H1 H2 x Hx. apply occurs_inv in Hx. destruct Hx as [->|(p & Hp & Hx)]; [exact H1|]. exact (H2 p Hp x Hx). Qed.
  Lemma marked_leaf e : marked e -> parts e = [] -> all_marked e.
  Proof. intros H P. apply marked_node; [exact H|]. rewrite P. intros p []. Qed.

  Lemma difference_not_any t d : type_difference n E t TError = Ok (Some d) -> is_any d = false -> not_any n E d.
  Proof.
    intros H Na. unfold type_difference in H. apply bind_ok in H. destruct H as (c & Hc & H). apply bind_ok in H. destruct H as (c' & _ & H).
    destruct (is_any c'); [discriminate H|]. destruct (is_any c) eqn:Qc; [injection H as <-; congruence|]. apply bind_ok in H. destruct H as (ms & Hms & H).
    apply bind_ok in H. destruct H as (ms' & _ & H). injection H as H. apply head_not_any.
    assert (Nc : not_any n E c). { apply head_not_any. eapply canonical_not_any; [exact Hc|]. intros ->. discriminate Qc. }
    assert (G : forall l u, create_union l = Some u -> (forall m, In m l -> may_be_any m = false) -> may_be_any u = false).
    { clear. intros [|a l] u H; [discriminate H|]. cbn in H. injection H as <-. revert a. induction l as [|b l IH]; intros a H; [apply H; left; reflexivity|]. cbn. apply IH.
      intros m [<-|Hm]; [cbn; rewrite (H a), (H b) by (cbn; auto); reflexivity|apply H; cbn; auto]. }
    eapply G; [exact H|]. intros m Hm. apply filter_In in Hm. eapply members_heads; [exact Nc|exact Hms|apply Hm].
  Qed.

  Lemma infer_branches_marked F bs : (forall G p a, In p (flat_map branch_parts bs) -> F G p = Ok a -> all_marked a) ->
    forall G r, infer_branches n E R F G bs = Ok r -> forall p, In p (flat_map branch_parts (snd r)) -> all_marked p.
  Proof.
    induction bs as [|[names its cond] bs IH]; intros HF G r H; cbn [infer_branches] in H; inv_ok; [intros p []|]. cbn [snd flat_map]. intros p Hp. apply in_app_or in Hp. destruct Hp as [Hp|Hp].
    - unfold branch_parts in Hp. cbn [b_iteratees b_condition] in Hp. apply in_app_or in Hp. destruct Hp as [Hp|Hp].
      + apply in_map_iff in Hp. destruct Hp as (it & <- & Hit). destruct (mapM_in _ _ _ _ Hy Hit) as (it0 & Hit0 & X). unfold infer_iteratee in X. inv_ok. cbn [snd].
        eapply HF; [|eassumption]. cbn [flat_map]. apply in_or_app. left. unfold branch_parts. apply in_or_app. left. apply in_map, Hit0.
      + destruct cond as [c|]; inv_ok; [|destruct Hp]. destruct Hp as [<-|[]]. eapply HF; [|eassumption].
        cbn [flat_map]. apply in_or_app. left. unfold branch_parts. apply in_or_app. right. left. reflexivity.
    - eapply IH; [|eassumption|exact Hp]. intros G' q a Hq. apply HF. cbn [flat_map]. apply in_or_app. right. exact Hq.
  Qed.

  Ltac pparts := intros ? ?; repeat match goal with
    | H : In _ (parts _) |- _ => unfold parts in H; rewrite !in_app_iff in H; cbn [eager_parts lazy_parts bodies map snd In app] in H
    | H : _ \/ _ |- _ => destruct H
    | H : False |- _ => destruct H
    end; subst.

  Ltac unbind H := repeat (apply bind_ok in H; destruct H as (? & _ & H)); try discriminate H; try (injection H as <-; reflexivity).
  Lemma infer_builtin G e0 b : infer n E R G e0 = Ok (HBuiltIn b) -> e0 = HBuiltIn b.
  Proof.
    intros H. destruct e0; cbn [infer] in H; unfold rmap in H; unbind H.
    - destruct e0; unbind H.
    - destruct o; unbind H.
    - match type of H with match ?d with Some _ => _ | None => _ end = Ok _ => destruct d as [u|]; [|discriminate H] end. destruct (is_any u); discriminate H.
  Qed.
  Lemma called_marked G e0 e t args : infer n E R G e0 = Ok e -> (forall b, e0 <> HBuiltIn b) -> marked (HCall t e args).
  Proof. intros H N. destruct e; try exact I. exfalso. eapply N, infer_builtin, H. Qed.

  Lemma infer_marked e0 : forall G e, infer n E R G e0 = Ok e -> all_marked e.
  Proof.
    induction e0 as [e0 IH'] using parts_ind. intros G e H.
    assert (IH : forall G' p a, In p (parts e0) -> infer n E R G' p = Ok a -> all_marked a).
    { intros G' p a Hp. apply IH', Hp. }
    clear IH'. destruct e0; cbn [infer] in H; inv_ok; try (apply marked_leaf; [exact I|reflexivity]);
      try (apply marked_node; [exact I|pparts; (eapply IH; [|eassumption]; spart); fail]).
    - destruct e0; inv_ok;
      (apply marked_node; [|pparts; [first [apply marked_leaf; [exact I|reflexivity] | eapply IH; [|eassumption]; spart]|
         match goal with X : mapM (infer _ _ _ _) _ = Ok ?l, Y : In ?a ?l |- _ => destruct (mapM_in _ _ _ _ X Y) as (z & Hz & Z) end; eapply IH; [|exact Z]; apply argument_part, Hz]]).
      all: try (eapply called_marked; [eassumption|discriminate]).
      cbn. eauto.
    - apply marked_node.
      + destruct else_ as [[t b]|]; inv_ok; [|exact I]. destruct (create_union _); [|discriminate]. inv_ok.
        match goal with X : match ?d with Some _ => _ | None => _ end = Ok _ |- _ => destruct d as [u|]; [|discriminate X] end. inv_ok. cbn. discriminate.
      + intros p Hp. unfold parts in Hp. cbn [eager_parts lazy_parts bodies map] in Hp. rewrite !app_nil_r in Hp. destruct Hp as [<-|Hp]; [eapply IH; [|eassumption]; spart|].
        apply in_app_or in Hp. destruct Hp as [Hp|Hp].
        * apply in_map_iff in Hp. destruct Hp as (b' & <- & Hb').
          match goal with X : mapM _ branches = Ok ?l, Y : In ?a ?l |- _ => destruct (mapM_in _ _ _ _ X Y) as (z & Hz & Z) end. cbv beta in Z. inv_ok. cbn [snd].
          eapply IH; [|eassumption]. apply if_type_branch_part, Hz.
        * destruct else_ as [[t b]|]; inv_ok; [|destruct Hp]. destruct (create_union _); [|discriminate]. inv_ok.
          match goal with X : match ?d with Some _ => _ | None => _ end = Ok _ |- _ => destruct d as [u|]; [|discriminate X] end. inv_ok. destruct Hp as [<-|[]].
          eapply IH; [|eassumption]. apply if_type_else_part.
    - apply marked_node; [exact I|]. intros p Hp. unfold parts in Hp. cbn [eager_parts lazy_parts bodies map app] in Hp. rewrite !app_nil_r in Hp. apply in_flat_map in Hp. destruct Hp as (el & Hel & Hp).
      match goal with X : mapM _ elements = Ok ?l, Y : In ?a ?l |- _ => destruct (mapM_in _ _ _ _ X Y) as (z & Hz & Z) end. unfold infer_element in Z.
      destruct z; inv_ok; (destruct Hp as [<-|[]]; eapply IH; [|eassumption]); first [eapply single_part, Hz | eapply multiple_part, Hz].
    - apply marked_node; [exact I|]. intros p Hp. unfold parts in Hp. cbn [eager_parts lazy_parts bodies map app] in Hp. rewrite !app_nil_r in Hp. apply in_app_or in Hp. destruct Hp as [Hp|[<-|[]]].
      + eapply infer_branches_marked; [|eassumption|exact Hp]. intros G' q a Hq. apply IH. apply lazy_part. cbn [lazy_parts]. apply in_or_app. left. exact Hq.
      + eapply IH; [|eassumption]. spart.
    - apply marked_node; [exact I|]. intros p Hp. unfold parts in Hp. cbn [eager_parts lazy_parts bodies map app] in Hp. rewrite !app_nil_r in Hp. apply in_flat_map in Hp. destruct Hp as (el & Hel & Hp).
      match goal with X : mapM _ elements = Ok ?l, Y : In ?a ?l |- _ => destruct (mapM_in _ _ _ _ X Y) as (z & Hz & Z) end. unfold infer_map_element in Z.
      destruct z as [a b|m]; inv_ok.
      + destruct (entry_parts key_type value_type _ _ _ Hz). destruct Hp as [<-|[<-|[]]]; (eapply IH; [|eassumption]; assumption).
      + destruct Hp as [<-|[]]. eapply IH; [|eassumption]. apply spread_part, Hz.
    - destruct o; inv_ok; (apply marked_node; [exact I|pparts; (eapply IH; [|eassumption]; spart)]).
    - match goal with X : match ?d with Some _ => _ | None => _ end = Ok _ |- _ => destruct d as [u|]; [|discriminate X] end. destruct (is_any u) eqn:Q; [discriminate|]. inv_ok.
      apply marked_node; [|pparts; (eapply IH; [|eassumption]; spart)]. cbn. eexists. split; [reflexivity|]. eapply difference_not_any; eassumption.
    - apply marked_node; [exact I|]. intros p Hp. unfold parts in Hp. cbn [eager_parts lazy_parts bodies map app] in Hp. rewrite !app_nil_r in Hp.
      apply in_map_iff in Hp. destruct Hp as (g & <- & Hg).
      match goal with X : mapM _ fields = Ok ?l, Y : In ?a ?l |- _ => destruct (mapM_in _ _ _ _ X Y) as (z & Hz & Z) end. unfold infer_field in Z. inv_ok. cbn [snd].
      eapply IH; [|eassumption]. apply record_part, Hz.
    - apply marked_node; [exact I|]. intros p Hp. unfold parts in Hp. cbn [eager_parts lazy_parts bodies map app] in Hp. rewrite !app_nil_r in Hp.
      destruct Hp as [<-|Hp]; [eapply IH; [|eassumption]; spart|]. apply in_map_iff in Hp. destruct Hp as (g & <- & Hg).
      match goal with X : mapM _ fields = Ok ?l, Y : In ?a ?l |- _ => destruct (mapM_in _ _ _ _ X Y) as (z & Hz & Z) end. unfold infer_field in Z. inv_ok. cbn [snd].
      eapply IH; [|eassumption]. apply update_part, Hz.
  Qed.

  (** ** What coercion keeps *)
  Lemma checked_not_builtin b e : forall G s, check n E R G e = Ok s -> plain e <> HBuiltIn b.
  Proof.
    induction e as [e IH] using parts_ind. intros G s H P. destruct e; try discriminate P; [discriminate H|]. cbn [plain] in P. cbn [check] in H.
    apply bind_ok in H. destruct H as (u & Hu & _). eapply IH; [left; reflexivity|exact Hu|exact P].
  Qed.

  Lemma marked_same e1 e2 : plain e2 = plain e1 -> all_marked e1 -> checked n E R e1 -> all_marked e2.
  Proof.
    intros P M K x Hx. apply occurs_plain in Hx as Hp. rewrite P in Hp. apply occurs_unplain in Hp. destruct Hp as (y & Hy & Ny & Py).
    pose proof (occurs_checked E n R e1 y Hy K) as Ky. apply M in Hy. destruct x; try exact I.
    - destruct x; try exact I. destruct y; try discriminate Py; try discriminate Ny. cbn [plain] in Py. injection Py as -> Pf _.
      assert (y = HBuiltIn f) as ->; [|exact Hy].
      destruct Ky as [(b & Ky)|(G & s & Ky)]; [discriminate Ky|]. destruct (check_parts _ _ _ _ _ _ Ky y (function_part _ _ _)) as [(b & ->)|(G' & s' & X)]; [exact Pf|].
      exfalso. eapply checked_not_builtin; eassumption.
    - destruct y; try discriminate Py; try discriminate Ny. cbn [plain] in Py. injection Py as -> _ _ Q. destruct else_0 as [[t0 b0]|], else_ as [[t b]|]; try discriminate Q; try exact I.
      injection Q as -> _. exact Hy.
    - destruct y; try discriminate Py; try discriminate Ny. cbn [plain] in Py. injection Py as -> _. exact Hy.
  Qed.

  (** ** What the translation relies on *)
  Lemma function_length a r ar : canonical_function n E (TFunction a r) = Ok ar -> length (fst ar) = length a.
  Proof.
    unfold canonical_function. intros H. apply bind_ok in H. destruct H as (c & Hc & H). destruct n as [|k]; [discriminate Hc|]. cbn [canonicalize] in Hc.
    apply bind_ok in Hc. destruct Hc as (a' & Ha & Hc). apply bind_ok in Hc. destruct Hc as (r' & Hr & Hc). injection Hc as <-. injection H as <-. cbn [fst].
    apply mapM_ok in Ha. clear - Ha. induction Ha; cbn; congruence.
  Qed.

  Lemma branches_not_any F x u bs : forall G, check_branches n E F G x u bs = Ok tt -> forall b, In b bs -> not_any n E (fst b).
  Proof.
    induction bs as [|[t e] bs IH]; intros G H b Hb; [destruct Hb|]. cbn [check_branches] in H. apply bind_ok in H. destruct H as (? & _ & H). apply bind_ok in H.
    destruct H as (? & _ & H). apply bind_ok in H. destruct H as (c & Hc & H). destruct (is_any c) eqn:Q; [discriminate H|].
    destruct Hb as [<-|Hb]; [|eapply IH; eassumption]. cbn [fst]. intros d Hd. rewrite Hc in Hd. injection Hd as <-. intros ->. discriminate Q.
  Qed.
  Lemma fields_known F G fts fs : check_fields n E F G fts fs = Ok tt -> forall x, In x (map fst fs) -> In x (map fst fts).
  Proof.
    induction fs as [|[y e] fs IH]; intros H x Hx; [destruct Hx|]. cbn [check_fields] in H. apply bind_ok in H. destruct H as (t & Ht & H). apply bind_ok in H.
    destruct H as (? & _ & H). apply bind_ok in H. destruct H as (? & _ & H). destruct Hx as [<-|Hx]; [|apply IH; assumption]. cbn [fst].
    unfold field_type in Ht. destruct (lookup fts y) as [v|] eqn:L; [|discriminate Ht]. apply lookup_In in L. apply (in_map fst) in L. exact L.
  Qed.
  Lemma complete_given fts given : check_complete fts given = Ok tt -> forall x, In x (map fst fts) -> In x given.
  Proof.
    induction fts as [|[y t] fts IH]; intros H x Hx; [destruct Hx|]. cbn [check_complete] in H. destruct (mem y given) eqn:M; [|discriminate H].
    destruct Hx as [<-|Hx]; [apply mem_In, M|apply IH; assumption].
  Qed.

  Variable f : string -> string.
  Lemma node_made x : checked n E R x -> marked x -> shaped x -> (forall t, In t (node_types x) -> names_ok f t) -> node_ok f n E R x.
  Proof.
    intros K M S N. destruct K as [(b & ->)|(G & s & K)]; [exact I|]. destruct x; try exact I.
    - destruct function_type as [ft|]; [|destruct x; try exact I; destruct M as (? & ? & X & _); discriminate X]. destruct x; try exact I. intros ar Har. cbn [check annotated bind] in K.
      rewrite Har in K. cbn [bind] in K. destruct (Nat.eqb _ _) eqn:L; [|discriminate K]. apply Nat.eqb_eq in L. split; [exact L|].
      apply bind_ok in K. destruct K as (? & _ & K). apply bind_ok in K. destruct K as (u & K & _). destruct M as (ts & u' & Q & M). injection Q as <-.
      assert (One : forall t r, ft = TFunction [t] r -> fst ar <> []).
      { intros t r ->. apply function_length in Har. intros X. rewrite X in Har. discriminate Har. }
      destruct ar as [ats r]. cbn [fst snd] in *.
      destruct f0; cbn [enough]; cbn [check_builtin] in K; cbn [builtin_type] in M.
      all: try (injection M as <-; eapply One; reflexivity).
      all: try (destruct ts as [|t0 [|t1 ts]]; try discriminate M; apply bind_ok in M; destruct M as (kv & _ & M); injection M as <-; eapply One; reflexivity).
      + destruct ats as [|? [|? ?]]; try discriminate K. exact I.
      + injection M as <-. apply function_length in Har. cbn in Har. destruct ats as [|? [|? ?]]; try discriminate Har. exact I.
      + destruct ats as [|t0 [|? ?]]; try discriminate K. destruct t0; try discriminate K; exact I.
      + destruct ats as [|? [|? ?]]; try discriminate K. discriminate.
    - cbn [check] in K. apply bind_ok in K. destruct K as (u & _ & K). apply bind_ok in K. destruct K as (c & _ & K). destruct (is_variant c); [|discriminate K].
      apply bind_ok in K. destruct K as ([] & K1 & K). split; [eapply branches_not_any, K1|]. destruct else_ as [[[t|] b]|]; try exact I. apply M. reflexivity.
    - exact S.
    - destruct o; try exact I. destruct type as [t|]; [|exact I]. apply N. cbn. auto.
    - destruct type as [t|]; [|exact I]. destruct M as (u & Q & M). injection Q as <-. exact M.
    - cbn [check] in K. intros fts Hf. rewrite Hf in K. cbn [bind] in K. apply bind_ok in K. destruct K as (? & _ & K). apply bind_ok in K. destruct K as ([] & K & _). eapply complete_given, K.
    - destruct type as [t|]; [|discriminate K]. cbn [check annotated bind] in K. apply bind_ok in K. destruct K as (? & _ & K). apply bind_ok in K. destruct K as (? & _ & K).
      apply bind_ok in K. destruct K as (fts & Hf & K). exists fts. split; [exact Hf|]. unfold field_type in K. destruct (lookup fts field) as [v|] eqn:L; [|discriminate K].
      apply lookup_In in L. apply (in_map fst) in L. exact L.
    - cbn [check] in K. apply bind_ok in K. destruct K as (? & _ & K). apply bind_ok in K. destruct K as (? & _ & K). apply bind_ok in K. destruct K as (fts & Hf & K).
      apply bind_ok in K. destruct K as ([] & K & _). exists fts. split; [exact Hf|]. eapply fields_known, K.
  Qed.
End Nodes.

(** ** Analyzed programs *)
Section Analyzed.
  Variables (n : nat) (p q : program).
  Hypothesis Hq : analyze_program n p = Ok q.
  Hypothesis S : shaped_program p.
  Variable f : string -> string.
  Hypothesis Names : forall x l e t, In (x, l) (p_defs q) -> occurs e (l_body l) -> In t (node_types e) -> names_ok f t.

  Lemma analyzed_fine x l : In (x, l) (p_defs q) -> fine f n (program_env q) (program_records q) (l_body l).
  Proof.
    intros Hd e He. pose proof Names as N. specialize (N x l). revert Hd He N. unfold analyze_program in Hq.
    repeat (match type of Hq with (if ?b then _ else _) = _ => destruct b; [discriminate Hq|] end). apply bind_ok in Hq. destruct Hq as (m2 & H & Q). injection Q as <-.
    change (program_env (Program _ _ _ _ _)) with (program_env p). change (program_records (Program _ _ _ _ _)) with (program_records p). cbn [p_defs]. intros Hd He N.
    apply analyze_steps in H. destruct H as (m1 & Hi & H2 & _ & _ & _ & H6 & H7).
    assert (S0 : module_shaped (program_hir p)) by (intros [y l0] Hd0 e0 He0; eapply (proj2 S); eassumption).
    pose proof (infer_shaped _ _ _ _ _ S0 Hi) as S1. pose proof (coerce_shaped _ _ _ _ _ S1 H2 H6) as S2.
    apply node_made.
    - eapply occurs_checked; [exact He|]. exact (checked_body _ _ _ m2 H7 (x, l) Hd).
    - destruct (coerce_module_defs _ _ _ _ _ H6) as [_ F2]. destruct (Forall2_in_r _ _ _ _ F2 Hd) as ([x1 l1] & Hd1 & _ & _ & _ & Hco). cbn [fst snd] in Hco.
      destruct (infer_module_defs _ _ _ _ _ Hi) as [_ F1]. destruct (Forall2_in_r _ _ _ _ F1 Hd1) as ([x0 l0] & Hd0 & _ & _ & _ & Hin). cbn [fst snd] in Hin.
      pose proof (checked_body _ _ _ m1 H2 (x1, l1) Hd1) as K1. cbn [snd] in K1.
      eapply marked_same; [|eapply infer_marked, Hin|exact K1|exact He].
      eapply coerce_into_plain; [|exact Hco]. intros G b. apply coerce_plain. exact (checked_calls _ _ _ m1 H2 (x1, l1) Hd1).
    - exact (S2 (x, l) Hd e He).
    - intros t Ht. eapply N; eassumption.
  Qed.
End Analyzed.
