(** Compiled programs are what the meaning of compiled code relies on. *)
From Coq Require Import String Ascii List ZArith Bool Lia.
From Verif Require Import Base Mir MirTypeCheck HirType HirTypeOrder HirTypeSpec HirTypeTermination HirTypeEq HirTypeSub HirTypeId HirTypeModule
  Hir HirCheck HirCoerce HirInfer HirValidate HirSpec HirParts HirStrip HirTyping HirExact HirSound HirMain HirModule HirTypeModuleProofs
  HirMir HirProgram LowerSpec LowerTag LowerTypeSpec LowerProgramSpec LowerTypeBase LowerTypeMain LowerTypeNames LowerTypeFlow LowerTypeModule
  LowerCompleteSpec LowerScope LowerCollect LowerOrigin LowerStages LowerSource LowerSearch RunSpec HirMeaning MeaningSpec MeaningProgramSpec.
Import ListNotations.
Local Open Scope string_scope.
Local Open Scope list_scope.

(** ** The names of records in the types of the analyzed program *)
Definition mark_own (f : string -> string) (r : string) : string := if prefix "hir:" r then (f r ++ "!")%string else f r.
Definition own_records (t : ty) : Prop := forall r, In r (record_names t) -> prefix "hir:" r = false.

Lemma mark_own_differs f r : prefix "hir:" r = true -> mark_own f r <> f r.
Proof.
  unfold mark_own. intros ->. generalize (f r). induction s as [|c s IH]; [discriminate|]. cbn. intros H. injection H as H. exact (IH H).
Qed.

Lemma names_mark_own f t : own_records t -> names_ok f t -> names_ok (mark_own f) t.
Proof.
  induction t as [| | |a r Ha IHr|e IHe|k v IHk IHv| | |r o|x| |l r IHl IHr] using ty_ind'; intros P N; try constructor.
  - apply names_fix in N. destruct N as [Na _]. rewrite Forall_forall in *. intros t Ht. apply (Ha t Ht); [|apply Na, Ht].
    intros x Hx. apply P. cbn. apply in_or_app. left. apply in_flat_map. eauto.
  - apply names_fix in N. apply IHr; [|apply N]. intros x Hx. apply P. cbn. apply in_or_app. auto.
  - apply names_fix in N. apply IHe; [exact P|exact N].
  - apply names_fix in N. apply IHk; [|apply N]. intros x Hx. apply P. cbn. apply in_or_app. auto.
  - apply names_fix in N. apply IHv; [|apply N]. intros x Hx. apply P. cbn. apply in_or_app. auto.
  - inversion N. subst. assert (Q : mark_own f r = f r) by (unfold mark_own; rewrite (P r); [reflexivity|left; reflexivity]). rewrite <- Q. constructor.
  - apply names_fix in N. apply IHl; [|apply N]. intros x Hx. apply P. cbn. apply in_or_app. auto.
  - apply names_fix in N. apply IHr; [|apply N]. intros x Hx. apply P. cbn. apply in_or_app. auto.
Qed.

Lemma marked_own f t : names_ok f t -> names_ok (mark_own f) t -> own_records t.
Proof.
  induction t as [| | |a r Ha IHr|e IHe|k v IHk IHv| | |r o|x| |l r IHl IHr] using ty_ind'; intros N M y Hy; cbn in Hy; try (destruct Hy; fail).
  - apply names_fix in N, M. apply in_app_or in Hy. destruct Hy as [Hy|Hy]; [|apply IHr; tauto]. apply in_flat_map in Hy. destruct Hy as (t & Ht & Hy).
    destruct N as [N _], M as [M _]. rewrite Forall_forall in *. apply (Ha t Ht); auto.
  - apply names_fix in N, M. apply IHe; assumption.
  - apply names_fix in N, M. apply in_app_or in Hy. destruct Hy as [Hy|Hy]; [apply IHk|apply IHv]; tauto.
  - destruct Hy as [<-|[]]. inversion N. inversion M. subst. destruct (prefix "hir:" r) eqn:Q; [|reflexivity]. apply (mark_own_differs f) in Q. congruence.
  - apply names_fix in N, M. apply in_app_or in Hy. destruct Hy as [Hy|Hy]; [apply IHl|apply IHr]; tauto.
Qed.

Section Transfer.
  Variable f : string -> string.
  Variable C : config.
  Variable p : program.
  Hypothesis PF : program_fits f C p.
  Hypothesis Raw : raw_program p.
  Hypothesis Own : forall t, type_in p t -> own_records t.
  Variable n : nat.
  Variable m : hmodule.
  Let E := program_env p.
  Let R := program_records p.
  Hypothesis Ha : analyze n E R (open_records p) (program_hir p) = Ok m.
  Let q := Program (p_types p) (p_aliases p) (p_foreign p) (p_declared p) (h_defs m).

  Lemma ok_own t : type_in p t -> ok (mark_own f) E t.
  Proof. intros H. destruct (pf_types f C p PF t H) as [[D N] _]. split; [exact D|]. apply names_mark_own; [apply Own, H|exact N]. Qed.

  Lemma context_own : context_ok (mark_own f) E R.
  Proof.
    pose proof (pf_context f C p PF) as K. destruct K as [[K1 K2 K3] K4]. split; [split; [exact K1|exact K2|]|].
    - intros x t H. apply ok_own. eapply env_type_in, H.
    - intros r fts x t H Hx. apply ok_own. eapply record_type_in; eassumption.
  Qed.

  Lemma written_own t : In t (module_written m) -> own_records t.
  Proof.
    intros H. pose proof (analyze_known f E R n _ _ _ (pf_context f C p PF) (known_f f C p PF) Ha) as K1.
    assert (K : types_known (mark_own f) E (module_written (program_hir p))) by (apply Forall_forall; intros u Hu; apply ok_own, written_type_in, Hu).
    pose proof (analyze_known (mark_own f) E R n _ _ _ context_own K Ha) as K2. unfold types_known in K1, K2. rewrite Forall_forall in K1, K2.
    eapply marked_own; [apply K1, H|apply K2, H].
  Qed.

  Lemma own_q t : type_in q t -> own_records t.
  Proof.
    intros H. inversion H; subst; cbn [q p_types p_aliases p_foreign p_declared p_defs] in *; [..|apply written_own]; try (apply Own).
    - eapply ti_field; eassumption.
    - apply (ti_record p d), H0.
    - eapply ti_alias; eassumption.
    - eapply ti_foreign; eassumption.
    - eapply ti_declared; eassumption.
    - destruct (definition_source f C p PF Raw n m Ha _ _ H0) as (l0 & Hd & Q & _). rewrite Q in H1. eapply ti_argument; eassumption.
    - destruct (definition_source f C p PF Raw n m Ha _ _ H0) as (l0 & Hd & _ & Q & _). rewrite Q. eapply ti_result; eassumption.
    - unfold module_written. apply in_or_app. right. apply in_flat_map. exists (x, l). split; [exact H0|].
      unfold lambda_written. apply in_or_app. right. right. cbn [snd]. eapply occurs_written; eassumption.
  Qed.

  Lemma fields_q : fields_once p -> fields_once q.
  Proof.
    intros D x l e Hd He. cbn [q p_defs] in Hd. destruct (definition_source f C p PF Raw n m Ha _ _ Hd) as (l0 & Hd0 & _ & _ & S & N).
    destruct e; try exact I.
    - apply (strip_occurs _ _ He) in N as He'; [|intros (s & t & u & Q); discriminate]. rewrite S in He'. specialize (D x l0 _ Hd0 He').
      cbn [strip] in D. rewrite map_map in D. cbn [fst] in D. exact D.
    - apply (strip_occurs _ _ He) in N as He'; [|intros (s & t & u & Q); discriminate]. rewrite S in He'. specialize (D x l0 _ Hd0 He').
      cbn [strip] in D. rewrite map_map in D. cbn [fst] in D. exact D.
  Qed.
End Transfer.

(** ** Small facts *)
Lemma exact_coerce E R G e t : exact E R G e t -> forall s u a, e = HCoerce s u a -> ~ teq E s u.
Proof. induction 1; intros s0 u0 a0 Q; try discriminate; eauto. injection Q as <- <- <-. assumption. Qed.

Lemma find_def_found ds d : NoDup (map f_name ds) -> In d ds -> find_def ds (f_name d) = Some d.
Proof.
  unfold find_def. induction ds as [|d0 ds IH]; intros N H; [destruct H|]. inversion_clear N as [|? ? N1 N2]. cbn [List.find]. destruct H as [<-|H].
  - rewrite String.eqb_refl. reflexivity.
  - destruct (String.eqb (f_name d) (f_name d0)) eqn:Q; [|apply IH; assumption]. apply String.eqb_eq in Q. exfalso. apply N1. rewrite <- Q. apply in_map, H.
Qed.

Lemma find_def_some ds x : In x (map f_name ds) -> find_def ds x <> None.
Proof.
  unfold find_def. induction ds as [|d ds IH]; intros H; [destruct H|]. cbn [List.find]. destruct (String.eqb x (f_name d)) eqn:Q; [discriminate|].
  destruct H as [H|H]; [|apply IH, H]. apply String.eqb_neq in Q. congruence.
Qed.

Lemma global_known M x : has_function M x -> global_type M x <> None.
Proof.
  unfold has_function, global_type. intros H. destruct (find_def (m_defs M) x) eqn:Q; [discriminate|]. apply in_app_or in H. destruct H as [H|H].
  - intros L. apply lookup_none in L. exact (L H).
  - apply find_def_some in H. congruence.
Qed.

Lemma nodup_right {A} (l r : list A) : NoDup (l ++ r) -> NoDup r.
Proof. induction l as [|x l IH]; [auto|]. intros H. inversion_clear H. auto. Qed.

Lemma identified_identifier E C t i : identified E C t i -> identifier E C t i.
Proof. intros (n & s & H & ->). exists n. unfold type_id. rewrite H. reflexivity. Qed.

Lemma hir_user x : prefix "hir:" x = true -> user_name x.
Proof.
  destruct x as [|c z]; [discriminate|]. change (prefix "hir:" (String c z)) with (if ascii_dec "h" c then prefix "ir:" z else false).
  destruct (ascii_dec "h" c) as [<-|]; [|discriminate]. intros _. split; [discriminate|reflexivity].
Qed.

(** ** The compiled module *)
Section Compiled.
  Variable f : string -> string.
  Variable C : config.
  Variable p : program.
  Hypothesis CF : config_fits C.
  Hypothesis PF : program_fits f C p.
  Variables n k : nat.
  Let E := program_env p.
  Let R := program_records p.
  Let W : wf f E := ctx_types f E R (pf_context f C p PF).
  Let K : config_ok E R C := config_fine f C p CF PF.

  Variable q : program.
  Variable M : mmodule.
  Hypothesis Ht : transform_program n k E R C p = Ok q.
  Hypothesis Hl : lower_program n k E R C q = Ok M.
  Hypothesis SB : searchable C p M.
  Hypothesis XM : exact_module E R (program_hir p).
  Hypothesis Own : own_types p.
  Hypothesis Once : fields_once p.

  Lemma tidy_in t : type_in p t -> tidy_type f E t.
  Proof. intros H. destruct (pf_types f C p PF t H) as [O P]. split; [exact O|]. intros r Hr. split; [exact (P r Hr)|exact (Own t r H Hr)]. Qed.

  Lemma tidy_all : tidy f E C.
  Proof.
    constructor; [exact W| |].
    - intros x t H. apply tidy_in, env_type_in with x, H.
    - intros s. apply (cf_words C CF).
  Qed.

  Lemma hashes_free : collision_free E C (fun _ => True).
  Proof. intros s t i j x y _ _ _ _ H. exact (cf_hash C CF _ _ H). Qed.

  Lemma string_equal_prelude : In (string_equal C) (map fst (prelude_functions C)).
  Proof. unfold prelude_functions. cbn [map fst In]. tauto. Qed.

  Lemma compares_name g : compares R C g -> exists t, compiler_name E R C g t.
  Proof. intros [->|(r & Hr & ->)]; [eexists; apply cn_string_equal|eexists; apply cn_record_equal, Hr]. Qed.

  Lemma free_own x : free_name E R C x -> own_name R C x.
  Proof. intros [U N]. split; [exact U|]. intros G. apply compares_name in G. destruct G as [t G]. exact (N _ G). Qed.

  (** what is in the module *)
  Record inside_module : Prop := InsideModule {
    im_functions : forall x, In x (global_names p) -> has_function M x;
    im_records : forall r, lookup R r <> None -> has_record M r;
    im_error : has_record M error_record;
    im_kinds : forall r ts, In (r, ts) (m_types M) -> compiler_record E R C r ts;
    im_lookup : forall r ts, In (r, ts) (m_types M) -> lookup (m_types M) r = Some ts;
    im_clear : forall x l e, In (x, l) (p_defs p) -> occurs e (l_body l) -> asks E C M e;
    im_names : NoDup (map f_name (m_defs M));
    im_code : forall d, In d (p_defs p) -> exists fd, compile_definition n E R C k d = Ok fd /\ In fd (m_defs M) /\ f_name fd = fst d;
    im_user : forall x, has_function M x -> user_name x;
    im_equal : forall d, In d (p_types p) -> t_external d = false -> comparable_type E R (def_record d) ->
      exists fd, compile_definition n E R C k (equal_function d) = Ok fd /\ In fd (m_defs M) /\ f_name fd = record_equal_name (td_name (t_def d))
  }.

  Lemma equal_there d : In d (p_types p) -> t_external d = false -> comparable_type E R (def_record d) -> In (equal_function d) (p_defs q).
  Proof.
    intros Hd Hx Hc. pose proof Ht as H. unfold transform_program in H. bok H p1 H1. bok H p2 H2. bok H p3 H3. bok H p4 H4.
    unfold add_record_equal in H1. bok H1 ds Hds. injection H1 as <-. destruct (comparable_In p n p ds eq_refl Hds) as [_ G].
    assert (Gd : In d (snd ds)).
    { destruct (G d Hd Hc) as [Q|Q]; [|exact Q]. unfold comparable_records in Hds. bok Hds l Hl0. injection Hds as <-. cbn [fst] in Q. apply filter_In in Q. destruct Q as [_ Q]. congruence. }
    unfold add_record_hash in H2. bok H2 ds2 Hds2. bok H2 hs Hhs. injection H2 as <-.
    unfold add_map_contexts in H3. bok H3 mts Hmts. bok H3 cs Hcs. injection H3 as <-.
    unfold add_equal in H4. bok H4 ets Hets. bok H4 es Hes. injection H4 as <-.
    unfold add_hash in H. bok H hts Hhts. bok H gs Hgs. injection H as <-.
    cbn [p_defs add_defs add_declared]. do 4 (apply in_or_app; left). apply in_or_app. right. apply (in_map equal_function), Gd.
  Qed.

  Lemma module_inside : inside_module.
  Proof.
    destruct (transform_found f C p PF n k q Ht) as (mts & ets & hts & B & F).
    destruct (transform_shape f C p PF n k q Ht) as (ds & hs & mts' & cs & ets' & es & hts' & gs & S).
    pose proof Hl as H. unfold lower_program in H. bok H its Hits. bok H ids Hids. bok H ifs Hifs. bok H tds Htds. bok H cds Hcds. bok H fds Hfds. bok H dds Hdds. bok H defs Hdefs. bok H infos Hinfos.
    injection H as HM. constructor; rewrite <- ?HM; revert SB; rewrite <- ?HM; intros SB'.
    - intros x Hx. eapply source_there; eassumption.
    - intros r Hr. eapply user_record_there; eassumption.
    - unfold has_record; cbn [m_types]; rewrite !map_app, !in_app_iff; right; right; left; reflexivity.
    - intros r ts Hr. eapply module_record; eassumption.
    - intros r ts Hr. apply (in_map fst) in Hr as Hn. refine (compiler_record_known f C p CF PF n k q ds hs mts' cs ets' es hts' gs S ids ifs tds cds fds dds defs infos Htds Hcds r ts Hn _).
      eapply module_record; eassumption.
    - intros x l e Hx He. eapply source_clear; eassumption.
    - pose proof (function_names_nodup f C p CF PF n k q ds hs mts' cs ets' es hts' gs S its ids ifs tds cds fds dds defs infos Hits Hids Hifs Hfds Hdds Hdefs) as N.
      exact (nodup_right _ _ N).
    - intros d Hd. destruct (bt_grows p q B) as (_ & _ & _ & _ & G5). apply mapM_ok in Hdefs as Fd. destruct (Forall2_given _ _ _ _ Fd (G5 d Hd)) as (fd & Hfd & Q).
      exists fd. split; [exact Q|]. split; [cbn [m_defs]; apply in_or_app; left; exact Hfd|].
      unfold compile_definition in Q. bok Q e He. bok Q r Hr. destruct (l_arguments (snd d)); [injection Q as <-; reflexivity|]. bok Q as0 Ha. injection Q as <-. reflexivity.
    - intros x Hx. apply names_entries in Hx. destruct Hx as [t Hx].
      pose proof (entries f C p CF PF n k q ds hs mts' cs ets' es hts' gs S its ids ifs tds cds fds dds defs infos Hids Hifs Hfds Hdds Hdefs x t Hx) as G.
      destruct G as [(u & Hu & _)|[G|(a & i & Ha & ->)]].
      + apply (pf_globals f C p PF). unfold sources in Hu. unfold global_names. rewrite !in_app_iff in *. destruct Hu as [Hu|[Hu|Hu]]; [apply (in_map fst) in Hu; auto|apply (in_map fst) in Hu; auto|].
        apply in_map_iff in Hu. destruct Hu as (d & Q & Hd). injection Q as <- <-. right. right. apply in_map, Hd.
      + exact (k_names E R C K _ _ G).
      + pose proof (kind_hir C a t i Ha) as Kh. exact (hir_user _ Kh).
    - intros d Hd Hx Hc. pose proof (equal_there d Hd Hx Hc) as G. apply mapM_ok in Hdefs as Fd. destruct (Forall2_given _ _ _ _ Fd G) as (fd & Hfd & Q).
      exists fd. split; [exact Q|]. split; [cbn [m_defs]; apply in_or_app; left; exact Hfd|].
      unfold compile_definition in Q. bok Q e He. bok Q r Hr. destruct (l_arguments (snd (equal_function d))); [injection Q as <-; reflexivity|]. bok Q as0 Ha. injection Q as <-. reflexivity.
    Unshelve. all: assumption.
  Qed.

  Lemma boxed_canonical a x v b : canon E a x -> boxed E C a v b -> boxed E C x v b.
  Proof.
    intros Hx H. pose proof (canon_sound _ _ _ Hx) as Q. pose proof (canon_defined _ _ _ Hx) as D'.
    inversion H; subst; try (destruct Hx as [[|j] Hx]; [discriminate|]; cbn in Hx; injection Hx as <-; exact H).
    - pose proof Hx as Hx'. apply canon_function in Hx'. destruct Hx' as (a' & r' & _ & _ & ->).
      apply boxed_function. eapply (identified_teq f E C tidy_all); eassumption.
    - apply canon_list in Hx. destruct Hx as (e' & He & ->). apply boxed_list.
      eapply (identified_teq f E C tidy_all); [apply canon_sound, He|assumption|exact D'].
    - apply canon_map in Hx. destruct Hx as (k' & w' & Hk & Hw & ->). apply boxed_map.
      + eapply (identified_teq f E C tidy_all); [apply canon_sound, Hk|assumption|]. intros z Hz. apply D'. cbn. apply in_or_app; auto.
      + eapply (identified_teq f E C tidy_all); [apply canon_sound, Hw|assumption|]. intros z Hz. apply D'. cbn. apply in_or_app; auto.
  Qed.

  Lemma carrier_there s c v b : inside_module -> tidy_type f E s -> LowerCompleteSpec.carried E C M s -> teq E s c -> boxed E C c v b -> LowerSpec.carried M c b.
  Proof.
    intros IM [[D _] _] A Q B. intros r fs -> Hc. destruct (canon_ex f E W s D) as [c0 Hc0].
    assert (Hc1 : canon E c c0) by (apply (teq_canon E s c); [apply W|apply W|exact Q|exact Hc0]).
    apply (boxed_canonical c c0) in B as B0; [|exact Hc1].
    assert (G : exists r', r = r' /\ carrier E C c0 r' /\ (exists x, r' = ("hir:function:" ++ x)%string \/ r' = ("hir:list:" ++ x)%string \/ r' = ("hir:map:" ++ x)%string)).
    { assert (S0 : match c0 with TFunction _ _ | TList _ | TMap _ _ => True | _ => False end).
      { destruct c; try (destruct Hc).
        - apply canon_function in Hc1. destruct Hc1 as (a' & r' & _ & _ & ->). exact I.
        - apply canon_list in Hc1. destruct Hc1 as (e' & _ & ->). exact I.
        - apply canon_map in Hc1. destruct Hc1 as (k' & w' & _ & _ & ->). exact I. }
      inversion B0; subst; try (destruct S0; fail); (eexists; split; [reflexivity|split; [constructor; apply identified_identifier; assumption|eexists; first [left; reflexivity|right; left; reflexivity|right; right; reflexivity]]]). }
    destruct G as (r' & <- & G & x & Hx). pose proof (A c0 r Hc0 G) as Hr. apply in_map_iff in Hr. destruct Hr as ([r0 ts] & Hr0 & Hr). cbn [fst] in Hr0. subst r0.
    rewrite (im_lookup IM _ _ Hr). apply (im_kinds IM) in Hr.
    assert (L : exists t, ts = [t]).
    { inversion Hr as [r0 fts ms Hf Hms| | | | |]; subst; eauto; exfalso.
      - apply (record_source f C p PF) in Hf. destruct Hx as [Hx|[Hx|Hx]]; subst r; discriminate.
      - destruct Hx as [Hx|[Hx|Hx]]; discriminate.
      }
    destruct L as [t ->]. eauto.
  Qed.

  Lemma fine_body x l : inside_module -> In (x, l) (p_defs p) -> fine f E R C (fun _ => True) M (l_body l).
  Proof.
    intros IM Hd e He. destruct (pf_definitions f C p PF x l Hd) as (_ & _ & (T1 & T2 & _) & _).
    assert (T : forall t, In t (node_types e) -> tidy_type f E t) by (intros t Ht0; apply tidy_in; eapply ti_expression; eassumption).
    split; [intros y Hy; apply free_own; exact (T1 y e He Hy)|]. pose proof (Once x l e Hd He) as O. pose proof (im_clear IM x l e Hd He) as [_ A].
    destruct e; try exact I; try exact O; try (destruct o as [?|?|?|[t|] ?|?]; try exact I; split; [apply T; cbn; auto|intros a _ u _; exact I]).
    - intros bt b Hb. split; [|right; intros a _ u _; exact I]. apply T. cbn [node_types]. unfold all_branches in Hb. apply in_app_or in Hb. apply in_or_app.
      destruct Hb as [Hb|Hb]; [left; apply (in_map fst) in Hb; exact Hb|right].
      destruct else_ as [[[t|] e0]|]; [|destruct Hb|destruct Hb]. destruct Hb as [Hb|[]]. injection Hb as <- <-. left. reflexivity.
    - destruct type as [t|]; [|exact I]. split; [apply T; cbn; auto|]. intros a _ u _. exact I.
    - split; [apply T; cbn; auto|]. split; [apply T; cbn; auto|]. split.
      + destruct (occurs_scope E R _ _ _ _ (XM x l Hd) He) as [(b & Q)|(G' & t' & H' & _)]; [discriminate|]. eapply exact_coerce; [exact H'|reflexivity].
      + split; [intros a _ u _; exact I|]. intros c v b Q B. eapply carrier_there; [exact IM| |exact A|exact Q|exact B]. apply T; cbn; auto.
    - exact (T2 _ He).
  Qed.

  Variable w : world.
  Variable outer : list (string * list hvalue) -> string -> list hvalue -> hvalue -> Prop.
  Hypothesis An : answers f n C p M w outer.

  Lemma defined_record r fts : lookup (defined_records p) r = Some fts ->
    exists d, In d (p_types p) /\ t_external d = false /\ r = record_name d /\ fts = td_fields (t_def d).
  Proof.
    intros H. apply lookup_In in H. unfold defined_records in H. apply in_map_iff in H. destruct H as (d & Q & H). injection Q as <- <-.
    apply filter_In in H. destruct H as [H N]. exists d. destruct (t_external d); [discriminate|]. auto.
  Qed.

  Lemma global_unknown x : ~ has_function M x -> global_type M x = None.
  Proof.
    unfold has_function, global_type. intros H. destruct (find_def (m_defs M) x) as [d|] eqn:Q.
    - exfalso. apply H. unfold find_def in Q. apply find_some in Q. destruct Q as [Q1 Q2]. apply String.eqb_eq in Q2. subst x. apply in_or_app. right. apply in_map, Q1.
    - apply lookup_none. intros G. apply H, in_or_app. left. exact G.
  Qed.

  Theorem compiled_program_from : compiled_from f n E R C (fun _ => True) (program_hir p) M (defined_records p) w outer.
  Proof.
    pose proof module_inside as IM. constructor.
    - exact tidy_all.
    - exact hashes_free.
    - intros g G. apply compares_name in G. destruct G as [t G]. exact (k_names E R C K _ _ G).
    - apply global_unknown. intros G. apply (im_user IM) in G. destruct G as [_ G]. discriminate.
    - apply global_unknown. intros G. apply (im_user IM) in G. destruct G as [_ G]. discriminate.
    - apply global_known, (im_functions IM), (sb_prelude C p M SB), string_equal_prelude.
    - exact (an_strings _ _ _ _ _ _ _ An).
    - intros r fts Hr. split; [exact (k_fields E R C K r fts Hr)|]. assert (H : has_record M r) by (apply (im_records IM); congruence).
      apply in_map_iff in H. destruct H as ([r0 ts] & Q & H). cbn [fst] in Q. subst r0. exists ts. split; [exact (im_lookup IM _ _ H)|].
      apply (im_kinds IM) in H. apply (record_source f C p PF) in Hr as Hp. inversion H as [r0 fts' ms Hf Hms| | | | |]; subst; try discriminate Hp.
      assert (fts' = fts) as -> by (unfold R in Hr; unfold R in Hf; rewrite Hr in Hf; injection Hf; auto). clear - Hms. induction Hms; cbn; congruence.
    - intros r fts Hr. destruct (defined_record r fts Hr) as (d & Hd & _ & -> & ->). exact (record_lookup f C p PF d Hd).
    - intros r o fts Hr T Hc. destruct (defined_record r fts Hr) as (d & Hd & He & -> & ->). split.
      + intros x t Hx. split; [apply tidy_in; eapply ti_field; eassumption|]. intros a _ u _. exact I.
      + assert (o = td_original (t_def d)) as ->.
        { pose proof (tidy_in _ (ti_record p d Hd)) as [[_ N] _]. destruct T as [[_ N'] _]. unfold def_record in N. unfold record_name in N'. inversion N. inversion N'. congruence. }
        assert (Q : comparable_type E R (def_record d)) by (intros u Hu; exact (comparable_sound E R n _ u Hc Hu)).
        destruct (im_equal IM d Hd He Q) as (fd & Hf & Hi & N). exists k, fd. split; [exact Hf|]. unfold record_name. rewrite <- N. apply find_def_found; [apply IM|exact Hi].
    - pose proof (im_error IM) as H. apply in_map_iff in H. destruct H as ([r0 ts] & Q & H). cbn [fst] in Q. subst r0. rewrite (im_lookup IM _ _ H).
      apply (im_kinds IM) in H. inversion H as [r0 fts' ms Hf Hms| | | | |]; subst; eauto. apply (record_source f C p PF) in Hf. discriminate.
    - intros g l Hg. apply lookup_In in Hg. cbn [program_hir h_defs] in Hg. destruct (pf_definitions f C p PF g l Hg) as (_ & Fa & _).
      split; [|split; [exact (fine_body g l IM Hg)|]].
      + apply Forall_forall. intros y Hy. apply in_map_iff in Hy. destruct Hy as ([z t] & <- & Hy). apply free_own, (Fa z t Hy).
      + destruct (im_code IM _ Hg) as (fd & Q & Hfd & N). exists k, fd. split; [exact Q|]. cbn [fst] in N. rewrite <- N. apply find_def_found; [apply IM|exact Hfd].
    - intros g Hg. apply global_known, (im_functions IM). destruct (in_dec string_dec g (map fst (h_declared (program_hir p)))) as [H|H]; [|apply lookup_none in H; congruence].
      cbn [program_hir h_declared] in H. rewrite map_app, in_app_iff in H. unfold global_names. rewrite !in_app_iff. tauto.
    - intros s st g us v vs Hs _ Hg Ho Hu. refine (an_outer _ _ _ _ _ _ _ An s st g us v vs Hs _ Ho Hu).
      destruct (in_dec string_dec g (map fst (h_declared (program_hir p)))) as [H|H]; [exact H|apply lookup_none in H; congruence].
  Qed.
End Compiled.

Lemma program_compiled_from f n k C p q M w outer :
  compile_program n k C p = Ok M -> analyze_program n p = Ok q ->
  config_fits C -> program_fits f C p -> raw_program p -> apart_module (program_hir p) -> searchable C q M ->
  own_types p -> fields_once p -> answers f n C q M w outer ->
  compiled_from f n (program_env q) (program_records q) C (fun _ => True) (program_hir q) M (defined_records q) w outer.
Proof.
  intros H Hq CF PF Raw A SB Own Once An. unfold compile_program in H. rewrite Hq in H. cbn [bind] in H.
  destruct (transform_program n k (program_env q) (program_records q) C q) as [r| | |] eqn:Hr; try discriminate. cbn [bind] in H.
  unfold analyze_program in Hq. repeat match type of Hq with (if ?b then _ else _) = _ => destruct b; [discriminate|] end.
  destruct (analyze n (program_env p) (program_records p) (open_records p) (program_hir p)) as [m| | |] eqn:Hm; try discriminate.
  cbn [bind] in Hq. injection Hq as <-.
  destruct (exact_q f C p PF Raw n m Hm A) as [X T].
  eapply compiled_program_from; [exact CF|exact (program_fits_q f C p PF Raw n m Hm)|exact Hr|exact H|exact SB|exact X| | |exact An].
  - intros t x Ht. exact (own_q f C p PF Raw (fun t Ht r => Own t r Ht) n m Hm t Ht x).
  - exact (fields_q f C p PF Raw n m Hm Once).
Qed.

(** ** Plain data *)
Lemma plain_basic a t : In (a, t) [(TBoolean, Mir.TBoolean); (TNumber, Mir.TNumber); (TString, TByteString); (TNone, Mir.TNone); (TError, Mir.TRecord "hir:error")] ->
  forall E C v, canon E a a /\ record_names a = [] /\ references a = [] /\ components a = [] /\ (forall f, names_ok f a) /\ boxed E C a v (VVariant t v).
Proof.
  intros H E C v. repeat (destruct H as [H|H]; [injection H as <- <-; repeat split; try (exists 1; reflexivity); intros; constructor|]). destruct H.
Qed.

Section Plain.
  Variable f : string -> string.
  Variable n : nat.
  Variable E : tenv.
  Variable R : renv.
  Variable C : config.
  Variable T : ty -> Prop.
  Variable m : mmodule.
  Hypothesis Ht : tidy f E C.

  Lemma plain_rep u v : plain u v -> rep f n E R C T m u v.
  Proof.
    induction 1 as [| | | |u v _ IH|a t u v _ IH H]; try (constructor; assumption).
    destruct (plain_basic a t H E C v) as (Hc & Hr & Hf & Hk & Hn & Hb). eapply rep_tagged with (c := a); [apply teq_refl| | |exact Hb|exact IH].
    - split; [split; [intros x Hx; rewrite Hf in Hx; destruct Hx|apply Hn]|]. intros r Hx. rewrite Hr in Hx. destruct Hx.
    - intros s Hs. rewrite Hk in Hs. destruct Hs.
  Qed.

  Lemma plain_unique u v : plain u v -> forall v', rep f n E R C T m u v' -> v' = v.
  Proof.
    induction 1 as [| | | |u v _ IH|a t u v _ IH H]; intros v' Hv.
    1-4: inversion Hv; reflexivity.
    - inversion Hv as [| | | | |u' w' Hw| | |]; subst. rewrite (IH _ Hw). reflexivity.
    - inversion Hv as [| | | | | |a' c u' w' b Ha Hc _ Hb Hw| |]; subst. rewrite (IH _ Hw) in *.
      destruct (plain_basic a t H E C v) as (Hca & _ & _ & _ & _ & Hba).
      assert (Hcc : canon E c a) by (apply (teq_canon E a c); [apply Ht|apply Ht|exact Ha|exact Hca]).
      eapply (boxed_canon f E C Ht c a) in Hb; [|apply Hc|exact Hcc]. eapply boxed_fun; eassumption.
  Qed.
End Plain.
