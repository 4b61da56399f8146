(** Tags of values identify their types; the alternatives of a lowered type
    switch select by them. *)
From Coq Require Import String Ascii List ZArith Bool Lia.
From Verif Require Import Base Mir MirSim HirType HirTypeSpec HirTypeTermination HirTypeOrder HirTypeEq HirTypeSub HirTypeId Hir HirSpec HirMir LowerSpec.
Import ListNotations.
Local Open Scope string_scope.

(** ** Record names of canonical types *)
Section Names.
  Variable P : string -> Prop.
  Definition all_names (t : ty) : Prop := forall r, In r (record_names t) -> P r.

  Lemma names_split a b : (forall x, In x (a ++ b)%list -> P x) ->
    (forall x, In x a -> P x) /\ (forall x, In x b -> P x).
  Proof. intros H. split; intros x Hx; apply H, in_or_app; auto. Qed.

  Lemma all_reduce s c : reduce_union s = Ok c -> Forall all_names s -> all_names c.
  Proof.
    destruct s as [|t ts]; [discriminate|]. cbn. intros H; injection H as <-. intros H. inversion H as [|? ? Ht Hts]; subst.
    clear H. revert t Ht. induction Hts as [|u us Hu _ IH]; intros t Ht; [exact Ht|]. cbn. apply IH.
    unfold join. destruct (is_any t); [exact Ht|]. destruct (is_any u); [exact Hu|].
    intros r Hr. cbn in Hr. apply in_app_or in Hr. destruct Hr; auto.
  Qed.

  Lemma all_canon_n E n : (forall x t, lookup E x = Some t -> all_names t) ->
    (forall t c, canonicalize n E t = Ok c -> all_names t -> all_names c) /\
    (forall t acc s, collect_types n E t acc = Ok s -> all_names t -> Forall all_names acc -> Forall all_names s).
  Proof.
    intros HE. induction n as [|n [IHc IHs]]; [split; discriminate|]. split.
    - intros t c H Ht. unfold all_names in Ht. destruct t; cbn [canonicalize] in H; cbn [record_names] in Ht; try (injection H as <-; exact Ht).
      + apply bind_ok in H. destruct H as (a' & Ha & H). apply bind_ok in H. destruct H as (r' & Hr & H).
        injection H as <-. apply names_split in Ht. destruct Ht as [Hta Htr].
        intros z Hz. cbn in Hz. apply in_app_or in Hz. destruct Hz as [Hz|Hz]; [|eapply IHc; eassumption].
        apply mapM_ok in Ha. revert Hz Hta. clear - Ha IHc. induction Ha as [|x y xs ys Hxy _ IH]; cbn; [intros []|].
        intros Hz Hta. apply names_split in Hta. apply in_app_or in Hz. destruct Hz as [Hz|Hz]; [eapply IHc; [exact Hxy|exact (proj1 Hta)|exact Hz]|apply IH; [exact Hz|exact (proj2 Hta)]].
      + apply bind_ok in H. destruct H as (e' & He & H). injection H as <-. exact (IHc _ _ He Ht).
      + apply bind_ok in H. destruct H as (k' & Hk & H). apply bind_ok in H. destruct H as (v' & Hv & H).
        injection H as <-. apply names_split in Ht. destruct Ht as [H1 H2]. intros z Hz. cbn in Hz. apply in_app_or in Hz.
        destruct Hz as [Hz|Hz]; [exact (IHc _ _ Hk H1 z Hz)|exact (IHc _ _ Hv H2 z Hz)].
      + apply bind_ok in H. destruct H as (t' & Ht' & H). eapply IHc; [exact H|]. unfold HirType.resolve in Ht'.
        destruct (lookup E name) eqn:Hl; [|discriminate]. injection Ht' as ->. eapply HE, Hl.
      + apply bind_ok in H. destruct H as (s & Hs & H). eapply all_reduce; [exact H|].
        eapply IHs; [exact Hs|exact Ht|constructor].
    - intros t acc s H Ht Hacc.
      assert (Hins : forall c, all_names c -> Forall all_names (set_insert c acc)).
      { intros c Hc. apply Forall_forall. rewrite Forall_forall in Hacc. intros x Hx. apply set_insert_In in Hx. destruct Hx as [->|Hx]; auto. }
      destruct t; cbn [collect_types] in H; apply bind_ok in H; destruct H as (t' & Ht' & H);
        try (injection H as <-; apply Hins; eauto; fail).
      + eapply IHs; [exact H| |exact Hacc]. unfold HirType.resolve in Ht'.
        destruct (lookup E name) eqn:Hl; [|discriminate]. injection Ht' as ->. eapply HE, Hl.
      + unfold all_names in Ht. cbn in Ht. apply names_split in Ht. destruct Ht as [Hl Hr]. eapply IHs; [exact H|exact Hr|]. eapply IHs; eauto.
  Qed.

  Lemma all_members c : all_names c -> forall x, In x (members_canonical c) -> all_names x.
  Proof.
    induction c using ty_ind'; cbn [members_canonical]; intros A z Hz; try (destruct Hz as [<-|[]]; exact A).
    unfold all_names in A. cbn in A. apply names_split in A. destruct A. apply in_app_or in Hz. destruct Hz; auto.
  Qed.
End Names.

Lemma prefix_app a b : prefix a (a ++ b) = true.
Proof. induction a as [|c a IH]; [destruct b; reflexivity|]. cbn. destruct (ascii_dec c c); [exact IH|congruence]. Qed.

Lemma colon_split i j i' j' : has_char ":" i = false -> has_char ":" i' = false ->
  i ++ ":" ++ j = i' ++ ":" ++ j' -> i = i' /\ j = j'.
Proof.
  revert i'. induction i as [|c i IH]; intros [|c' i'] H H' Q; cbn in *.
  - injection Q as ->. auto.
  - injection Q as <- _. discriminate H'.
  - injection Q as -> _. discriminate H.
  - injection Q as -> Q. apply orb_false_iff in H. apply orb_false_iff in H'. destruct H as [_ H], H' as [_ H'].
    destruct (IH i' H H' Q) as [-> ->]. auto.
Qed.

Lemma existsb_mtype m ts : existsb (mtype_eqb m) ts = true <-> In m ts.
Proof.
  rewrite existsb_exists. split; [intros (t & H & Q); apply mtype_eqb_eq in Q; subst; exact H|].
  intros H. exists m. split; [exact H|apply mtype_eqb_refl].
Qed.

Lemma has_alt_teq E t a b : has_alt E t a -> teq E a b -> has_alt E t b.
Proof. intros (c & H & Q) Q'. exists c. split; [exact H|eapply teq_trans; eassumption]. Qed.

Section Tags.
  Variable f : string -> string.
  Variable E : tenv.
  Variable C : config.
  Variable T : ty -> Prop.
  Hypothesis Ht : tidy f E C.
  Hypothesis HT : collision_free E C T.

  Let W : wf f E := tidy_wf _ _ _ Ht.

  Lemma tidy_plain t : tidy_names t -> plain_names t.
  Proof. intros H r Hr. apply H, Hr. Qed.

  Lemma plain_env : forall z u, lookup E z = Some u -> plain_names u.
  Proof. intros z u H. apply tidy_plain. exact (tidy_env _ _ _ Ht z u H). Qed.

  Lemma tidy_canon t c : tidy_names t -> canon E t c -> tidy_names c.
  Proof. intros H [k G]. exact (proj1 (all_canon_n _ E k (tidy_env _ _ _ Ht)) t c G H). Qed.

  Lemma tidy_type_canon t c : tidy_type f E t -> canon E t c -> tidy_type f E c.
  Proof.
    intros [[D N] H] G. split; [split; [eapply canon_defined, G|eapply names_canon; [apply W|exact N|exact G]]|].
    eapply tidy_canon; eassumption.
  Qed.

  Lemma tidy_type_member t c x : tidy_type f E t -> canon E t c -> In x (members_canonical c) ->
    tidy_type f E x /\ canon E x x.
  Proof.
    intros Tt G Hx. destruct (fixed_members f E W t c G (proj2 (proj1 Tt)) x Hx) as [Fx Nx].
    split; [|exact Fx]. split; [split; [eapply canon_defined, Fx|exact Nx]|].
    eapply all_members; [|exact Hx]. eapply tidy_canon; [apply Tt|exact G].
  Qed.

  Lemma tidy_list e : tidy_type f E (TList e) -> tidy_type f E e.
  Proof. intros [[D N] H]. inversion N; subst. split; [split; [exact D|assumption]|exact H]. Qed.
  Lemma tidy_map k v : tidy_type f E (TMap k v) -> tidy_type f E k /\ tidy_type f E v.
  Proof.
    intros [[D N] H]. inversion N; subst.
    split; (split; [split; [|assumption]|]); intros z Hz; (apply D || apply H); cbn; apply in_or_app; auto.
  Qed.

  Lemma component_tidy a s : tidy_type f E a -> In s (components a) -> tidy_type f E s.
  Proof.
    destruct a; cbn [components]; intros A; try (intros []; fail).
    - intros [<-|[]]. exact A.
    - intros [<-|[]]. apply tidy_list, A.
    - apply tidy_map in A. destruct A. intros [<-|[<-|[]]]; assumption.
  Qed.

  (** identifiers do not depend on the fuel *)
  Lemma identified_fun t i j : identified E C t i -> identified E C t j -> i = j.
  Proof.
    intros (n & x & Hx & ->) (m & y & Hy & ->). f_equal. unfold type_id_string in *.
    apply bind_ok in Hx. destruct Hx as (c & Hc & Hx). apply bind_ok in Hy. destruct Hy as (d & Hd & Hy).
    assert (c = d) as -> by (eapply canon_fun; [exists n; exact Hc|exists m; exact Hd]). congruence.
  Qed.

  Lemma identified_teq s t i : teq E s t -> identified E C s i -> defined E t -> identified E C t i.
  Proof.
    intros Q (n & x & Hx & ->) D. unfold type_id_string in Hx. apply bind_ok in Hx. destruct Hx as (c & Hc & Hx).
    assert (G : canon E t c). { destruct (canon_ex f E W t D) as [d Hd].
      assert (c = d) as -> by (eapply (teq_canon_eq f E W); [exact Q|exists n; exact Hc|exact Hd]). exact Hd. }
    destruct G as [m G]. exists m, x. split; [|reflexivity]. unfold type_id_string. rewrite G. exact Hx.
  Qed.

  Lemma identified_inj s t i : tidy_type f E s -> tidy_type f E t -> T s -> T t ->
    identified E C s i -> identified E C t i -> teq E s t.
  Proof.
    intros [Os Ps] [Ot Pt] Ts Tt (n & x & Hx & ->) (m & y & Hy & Q).
    eapply (type_id_iff f E n m s t x y W plain_env Os Ot (tidy_plain _ Ps) (tidy_plain _ Pt) Hx Hy).
    eapply HT; [exact Ts|exact Tt|exact Hx|exact Hy|exact Q].
  Qed.

  Lemma identified_colon t i : identified E C t i -> has_char ":" i = false.
  Proof. intros (n & x & _ & ->). apply (tidy_hash _ _ _ Ht). Qed.

  (** the tag of [a]'s values *)
  Definition tagged (a : ty) (m : mtype) : Prop := exists v p, boxed E C a v (VVariant m p).

  Lemma record_apart r : tidy_names (TRecord r (f r)) -> forall s, r <> "hir:" ++ s.
  Proof.
    intros H s ->. destruct (H ("hir:" ++ s) (or_introl eq_refl)) as [_ Q].
    rewrite prefix_app in Q. discriminate.
  Qed.

  Lemma tagged_inj a b m : tidy_type f E a -> tidy_type f E b -> tags_among T a -> tags_among T b ->
    tagged a m -> tagged b m -> teq E a b.
  Proof.
    intros A B Ta Tb (v & p & Ha) (v' & p' & Hb).
    assert (Ra : forall r o, a = TRecord r o -> o = f r /\ forall s, r <> "hir:" ++ s).
    { intros r o ->. destruct A as [[_ N] H]. inversion N; subst. split; [reflexivity|]. apply record_apart, H. }
    assert (Rb : forall r o, b = TRecord r o -> o = f r /\ forall s, r <> "hir:" ++ s).
    { intros r o ->. destruct B as [[_ N] H]. inversion N; subst. split; [reflexivity|]. apply record_apart, H. }
    inversion Ha; subst; inversion Hb; subst; try apply teq_refl.
    all: try match goal with |- teq _ (TRecord ?r ?o) (TRecord ?r ?o') =>
           rewrite (proj1 (Ra r o eq_refl)), (proj1 (Rb r o' eq_refl)); apply teq_refl end.
    all: try match goal with |- teq _ (TRecord ?r ?o) _ =>
           exfalso; eapply (proj2 (Ra r o eq_refl)); reflexivity end.
    all: try match goal with |- teq _ _ (TRecord ?r ?o) =>
           exfalso; eapply (proj2 (Rb r o eq_refl)); reflexivity end.
    - eapply identified_inj; [exact A|exact B|apply Ta; left; reflexivity|apply Tb; left; reflexivity|eassumption|eassumption].
    - apply teq_list. apply tidy_list in A. apply tidy_list in B.
      eapply identified_inj; [exact A|exact B|apply Ta; left; reflexivity|apply Tb; left; reflexivity|eassumption|eassumption].
    - match goal with
      | Q : (?i ++ String ":" ?j)%string = (?i' ++ String ":" ?j')%string |- _ =>
          apply (colon_split i j i' j') in Q; [destruct Q as [-> ->]|eapply identified_colon; eassumption|eapply identified_colon; eassumption]
      end.
      apply tidy_map in A. apply tidy_map in B. destruct A as [A1 A2], B as [B1 B2].
      apply teq_map; eapply identified_inj;
        first [exact A1|exact A2|idtac]; first [exact B1|exact B2|idtac]; try eassumption;
        first [apply Ta; cbn; tauto|apply Tb; cbn; tauto].
  Qed.

  Definition plain_head (a : ty) : Prop :=
    match a with TAny | TUnion _ _ | TReference _ => False | _ => True end.

  Lemma boxed_head a v b : boxed E C a v b -> plain_head a.
  Proof. intros H. inversion H; exact I. Qed.

  Lemma boxed_canon a x v b : defined E a -> canon E a x -> boxed E C a v b -> boxed E C x v b.
  Proof.
    intros D Hx H. pose proof (canon_sound _ _ _ Hx) as Q. pose proof (canon_defined _ _ _ Hx) as D'.
    inversion H; subst; try (destruct Hx as [[|k] Hx]; [discriminate|]; cbn in Hx; injection Hx as <-; exact H).
    - pose proof Hx as Hx'. apply canon_function in Hx'. destruct Hx' as (a' & r' & _ & _ & ->).
      apply boxed_function. eapply identified_teq; eassumption.
    - apply canon_list in Hx. destruct Hx as (e' & He & ->). apply boxed_list.
      eapply identified_teq; [apply canon_sound, He|assumption|exact D'].
    - apply canon_map in Hx. destruct Hx as (k' & w' & Hk & Hw & ->). apply boxed_map.
      + eapply identified_teq; [apply canon_sound, Hk|assumption|]. intros z Hz. apply D'. cbn. apply in_or_app; auto.
      + eapply identified_teq; [apply canon_sound, Hw|assumption|]. intros z Hz. apply D'. cbn. apply in_or_app; auto.
  Qed.

  Lemma boxed_fun a v b b' : boxed E C a v b -> boxed E C a v b' -> b = b'.
  Proof.
    intros H G. inversion H; subst; inversion G; subst; try reflexivity;
      repeat match goal with
      | H1 : identified E C ?t ?i, H2 : identified E C ?t ?j |- _ => assert (i = j) as -> by (eapply identified_fun; eassumption); clear H1
      end; reflexivity.
  Qed.

  Lemma tagged_fun a m m' : tagged a m -> tagged a m' -> m = m'.
  Proof.
    intros (v & p & H) (v' & p' & G). inversion H; subst; inversion G; subst; try reflexivity;
      repeat match goal with
      | H1 : identified E C ?t ?i, H2 : identified E C ?t ?j |- _ => assert (i = j) as -> by (eapply identified_fun; eassumption); clear H1
      end; reflexivity.
  Qed.

  Lemma boxed_variant a v b : boxed E C a v b -> exists m p, b = VVariant m p.
  Proof. intros H. inversion H; eauto. Qed.

  Lemma tag_not_variant a m : tagged a m -> m <> TVariant.
  Proof. intros (v & p & H). inversion H; discriminate. Qed.

  Lemma type_id_identified n t i : type_id n E C t = Ok i -> identified E C t i.
  Proof.
    unfold type_id. intros H. destruct (type_id_string n E t) as [x| | |] eqn:Hx; cbn in H; try discriminate.
    injection H as <-. exists n, x. auto.
  Qed.

  (** the record that carries functions, lists and maps *)
  Lemma concrete_name_boxed n c r v : concrete_name n E C c = Ok (Some r) ->
    boxed E C c v (VVariant (Mir.TRecord r) (VRecord r [v])).
  Proof.
    destruct c; cbn [concrete_name]; try discriminate; intros H; apply bind_ok in H; destruct H as (i & Hi & H).
    - injection H as <-. apply boxed_function, type_id_identified with n, Hi.
    - injection H as <-. apply boxed_list, type_id_identified with n, Hi.
    - apply bind_ok in H. destruct H as (j & Hj & H). injection H as <-.
      apply boxed_map; eapply type_id_identified; eassumption.
  Qed.

  Lemma concrete_none_boxed n c m v : concrete_name n E C c = Ok None -> plain_head c -> lower C c = Ok m ->
    boxed E C c v (VVariant m v).
  Proof.
    destruct c; cbn [concrete_name plain_head lower]; intros H G L; try (injection L as <-; constructor); try contradiction;
      exfalso; repeat (apply bind_ok in H; destruct H as (? & ? & H)); discriminate.
  Qed.

  Lemma concrete_tagged n y m : canon E y y -> compile_concrete n E C y = Ok m -> plain_head y /\ tagged y m.
  Proof.
    intros Fy H. unfold compile_concrete in H. apply bind_ok in H. destruct H as (c & Hc & H).
    assert (c = y) as -> by (eapply canon_fun; [exists n; exact Hc|exact Fy]).
    assert (P : plain_head y) by (destruct y; try exact I; discriminate). split; [exact P|].
    assert (H' : bind (concrete_name n E C y)
      (fun o : option string => match o with Some r => Ok (Mir.TRecord r) | None => lower C y end) = Ok m)
      by (destruct y; try exact H; contradiction).
    clear H. apply bind_ok in H'. destruct H' as ([r|] & Ho & H).
    - injection H as <-. exists VNone, (VRecord r [VNone]). eapply concrete_name_boxed, Ho.
    - exists VNone, VNone. eapply concrete_none_boxed; eassumption.
  Qed.

  Lemma concrete_none_head n c : concrete_name n E C c = Ok None ->
    match c with TFunction _ _ | TList _ | TMap _ _ => False | _ => True end.
  Proof.
    destruct c; cbn [concrete_name]; try (intros; exact I); intros H;
      repeat (apply bind_ok in H; destruct H as (? & ? & H)); discriminate.
  Qed.

  Lemma boxed_simple y v m p : boxed E C y v (VVariant m p) ->
    match y with TFunction _ _ | TList _ | TMap _ _ => False | _ => True end -> p = v.
  Proof. intros H G. inversion H; subst; reflexivity || contradiction. Qed.

  Lemma union_members_spec n c ms : canon E c c -> union_members n E c = Ok ms ->
    (forall x, In x ms <-> In x (members_canonical c)) /\ (forall y, ms = [y] -> c = y) /\
    (plain_head c -> ms = [c]).
  Proof.
    intros Fc H. unfold union_members in H. apply bind_ok in H. destruct H as (d & Hd & H).
    assert (d = c) as -> by (eapply canon_fun; [exists n; exact Hd|exact Fc]). injection H as <-.
    destruct (sset_of_list (members_canonical c)) as [_ HI]. split; [exact HI|].
    split; [|intros P; destruct c; try contradiction; reflexivity]. intros y Hy. destruct (canon_cform _ _ _ Fc) as [(S & _ & _ & Ne) Red].
    rewrite Hy in HI. destruct (members_canonical c) as [|u us] eqn:Hm; [congruence|].
    assert (u = y) as -> by (destruct (proj2 (HI u) (or_introl eq_refl)) as [<-|[]]; reflexivity).
    destruct us as [|u' us]; [cbn in Red; congruence|].
    assert (u' = y) as -> by (destruct (proj2 (HI u') (or_intror (or_introl eq_refl))) as [<-|[]]; reflexivity).
    inversion S as [|? ? _ F]; subst. inversion F as [|? ? L _]; subst. destruct (tlt_irrefl _ L).
  Qed.

  Lemma uses_member t c x : tidy_type f E t -> canon E t c -> c <> TAny -> uses E T t -> In x (members_canonical c) -> tags_among T x.
  Proof.
    intros Tt Hc Na U Hx. apply U. destruct (tidy_type_member t c x Tt Hc Hx) as [Tx Fx].
    apply (has_alt_canon f E W t c x (proj1 (proj1 Tt)) (proj1 (proj1 Tx)) Hc Na). eauto.
  Qed.

  Lemma alternative_spec n x t e al : tidy_type f E t -> uses E T t -> compile_alternative n E C x t e = Ok al ->
    ~ has_alt E t TAny /\ a_name al = x /\
    forall a v tag p, tidy_type f E a -> tags_among T a -> boxed E C a v (VVariant tag p) ->
      (In tag (a_types al) <-> has_alt E t a) /\
      (has_alt E t a -> forall rho, exists u rho',
         seen E t a v (VVariant tag p) u /\ binds rho' rho x u /\
         forall md w m call st, eval md w m call ((x, Mir.downcast (alt_type (a_types al)) tag p) :: rho) st (a_body al)
         = eval md w m call rho' st e).
  Proof.
    intros Tt U H. unfold compile_alternative in H. apply bind_ok in H. destruct H as (c & Hc & H).
    assert (Cc : canon E t c) by (exists n; exact Hc). pose proof (canon_idem f E W t c Cc) as Fc.
    pose proof (tidy_type_canon t c Tt Cc) as Tc. pose proof (canon_sound _ _ _ Cc) as Qc.
    apply bind_ok in H. destruct H as ([r|] & Ho & H).
    - apply bind_ok in H. destruct H as (m & Hm & H). injection H as <-. cbn [a_types a_name a_body].
      assert (Na : c <> TAny) by (intros ->; discriminate).
      assert (Mc : members_canonical c = [c]) by (destruct c; cbn [concrete_name] in Ho; try discriminate; reflexivity).
      split; [rewrite (has_alt_any f E W t c (proj1 (proj1 Tt)) Cc); exact Na|]. split; [reflexivity|].
      intros a v tag p Ta Ua B.
      assert (Sel : In tag [Mir.TRecord r] <-> has_alt E t a).
      { rewrite (has_alt_canon f E W t c a (proj1 (proj1 Tt)) (proj1 (proj1 Ta)) Cc Na), Mc. split.
        - intros [<-|[]]. exists c. split; [|left; reflexivity].
          assert (Q : teq E a c).
          { eapply tagged_inj; [exact Ta|exact Tc|exact Ua| |exists v, p; exact B|].
            - eapply uses_member; [exact Tt|exact Cc|exact Na|exact U|rewrite Mc; left; reflexivity].
            - exists VNone, (VRecord r [VNone]). eapply concrete_name_boxed, Ho. }
          destruct (canon_ex f E W a (proj1 (proj1 Ta))) as [a' Ha'].
          rewrite <- (teq_canon_eq f E W a c a' c Q Ha' Fc). exact Ha'.
        - intros (y & Hy & [<-|[]]). left.
          pose proof (boxed_canon a c v _ (proj1 (proj1 Ta)) Hy B) as B'.
          pose proof (concrete_name_boxed n c r v Ho) as B''.
          rewrite (boxed_fun _ _ _ _ B' B'') in *. injection (boxed_fun _ _ _ _ B' B'') as -> _. reflexivity. }
      split; [exact Sel|]. intros Ha rho.
      assert (Hy : canon E a c).
      { apply (has_alt_canon f E W t c a (proj1 (proj1 Tt)) (proj1 (proj1 Ta)) Cc Na) in Ha.
        destruct Ha as (y & Hy & Hin). rewrite Mc in Hin. destruct Hin as [<-|[]]. exact Hy. }
      pose proof (boxed_fun _ _ _ _ (boxed_canon a c v _ (proj1 (proj1 Ta)) Hy B) (concrete_name_boxed n c r v Ho)) as Q.
      injection Q as -> ->.
      exists v, ((x, v) :: (x, VRecord r [v]) :: rho). split; [|split].
      + left. split; [|reflexivity]. eapply teq_trans; [exact Qc|]. apply teq_sym, canon_sound, Hy.
      + split; [cbn; rewrite String.eqb_refl; reflexivity|]. intros y Ny. cbn.
        destruct (String.eqb y x) eqn:Ey; [apply String.eqb_eq in Ey; congruence|reflexivity].
      + intros md w mm call st. cbn [alt_type Mir.downcast eval eval_list obind]. unfold eval_var. cbn [lookup fst snd].
        rewrite String.eqb_refl. cbn. rewrite String.eqb_refl. reflexivity.
    - apply bind_ok in H. destruct H as (ms & Hms & H). apply bind_ok in H. destruct H as (ts & Hts & H).
      injection H as <-. cbn [a_types a_name a_body].
      destruct (union_members_spec n c ms Fc Hms) as (Im & One & Sing).
      apply mapM_ok in Hts.
      assert (Mem : forall y m, In y ms -> compile_concrete n E C y = Ok m -> canon E y y /\ tidy_type f E y /\ plain_head y /\ tagged y m).
      { intros y m Hy Hcy. destruct (tidy_type_member t c y Tt Cc (proj1 (Im y) Hy)) as [Ty Fy].
        destruct (concrete_tagged n y m Fy Hcy). auto. }
      assert (All : forall y, In y ms -> exists m, In m ts /\ compile_concrete n E C y = Ok m).
      { clear - Hts. induction Hts as [|z m zs mz Hz _ IH]; intros y []; [subst; exists m; split; [left; reflexivity|exact Hz]|].
        destruct (IH y H) as (m' & A & B). exists m'. split; [right; exact A|exact B]. }
      assert (Inv : forall m, In m ts -> exists y, In y ms /\ compile_concrete n E C y = Ok m).
      { clear - Hts. induction Hts as [|z m zs mz Hz _ IH]; intros y []; [subst; exists z; split; [left; reflexivity|exact Hz]|].
        destruct (IH y H) as (m' & A & B). exists m'. split; [right; exact A|exact B]. }
      assert (Na : c <> TAny).
      { intros ->. destruct (All TAny) as (m & _ & Hm); [apply Im; left; reflexivity|].
        destruct (Mem TAny m (proj2 (Im TAny) (or_introl eq_refl)) Hm) as (_ & _ & [] & _). }
      split; [rewrite (has_alt_any f E W t c (proj1 (proj1 Tt)) Cc); exact Na|]. split; [reflexivity|].
      intros a v tag p Ta Ua B.
      assert (HA := has_alt_canon f E W t c a (proj1 (proj1 Tt)) (proj1 (proj1 Ta)) Cc Na).
      assert (Sel : In tag ts <-> has_alt E t a).
      { rewrite HA. split.
        - intros Hin. destruct (Inv tag Hin) as (y & Hy & Hcy). destruct (Mem y tag Hy Hcy) as (Fy & Ty & _ & Gy).
          exists y. split; [|apply Im, Hy].
          assert (Q : teq E a y).
          { eapply tagged_inj; [exact Ta|exact Ty|exact Ua| |exists v, p; exact B|exact Gy].
            eapply uses_member; [exact Tt|exact Cc|exact Na|exact U|apply Im, Hy]. }
          destruct (canon_ex f E W a (proj1 (proj1 Ta))) as [a' Ha'].
          rewrite <- (teq_canon_eq f E W a y a' y Q Ha' Fy). exact Ha'.
        - intros (y & Hy & Hin). apply Im in Hin. destruct (All y Hin) as (m & Hm & Hcy).
          destruct (Mem y m Hin Hcy) as (Fy & Ty & _ & Gy).
          rewrite (tagged_fun y tag m); [exact Hm| |exact Gy]. exists v, p.
          eapply boxed_canon; [exact (proj1 (proj1 Ta))|exact Hy|exact B]. }
      split; [exact Sel|]. intros Ha rho.
      apply HA in Ha. destruct Ha as (y & Hy & Hin). apply Im in Hin.
      assert (B' : boxed E C y v (VVariant tag p)) by (eapply boxed_canon; [exact (proj1 (proj1 Ta))|exact Hy|exact B]).
      exists (Mir.downcast (alt_type ts) tag p), ((x, Mir.downcast (alt_type ts) tag p) :: rho).
      split; [|split; [|reflexivity]].
      + destruct Hts as [|z m zs mz Hz Htl]; [destruct Hin|].
        destruct Htl as [|z' m' zs mz Hz' Htl].
        * destruct Hin as [<-|[]]. assert (c = z) as -> by (apply One; reflexivity). left.
          split; [eapply teq_trans; [exact Qc|apply teq_sym, canon_sound, Hy]|].
          cbn [alt_type]. assert (Hm : m <> TVariant).
          { destruct (Mem z m (or_introl eq_refl) Hz) as (_ & _ & _ & G). eapply tag_not_variant, G. }
          assert (p = v) as -> by (eapply boxed_simple; [exact B'|eapply concrete_none_head, Ho]).
          destruct m; try reflexivity. congruence.
        * right. split; [|reflexivity]. intros Q.
          assert (c = y) as -> by (eapply (teq_canon_eq f E W); [exact Q|exact Cc|exact Hy]).
          discriminate (Sing (boxed_head _ _ _ B')).
      + split; [cbn; rewrite String.eqb_refl; reflexivity|]. intros z Ny. cbn.
        destruct (String.eqb z x) eqn:Ey; [apply String.eqb_eq in Ey; congruence|reflexivity].
  Qed.
End Tags.
