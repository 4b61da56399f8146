(** Facts about the representation of types and about the names a module
    provides. *)
From Coq Require Import String Ascii List ZArith Bool Lia.
From Verif Require Import Base Mir MirTypeCheck MirTypeProofs HirType HirTypeOrder HirTypeSpec HirTypeTermination HirTypeEq HirTypeSub
  Hir HirSpec HirParts HirTyping HirMir LowerTag LowerSwitch LowerTypeSpec.
Import ListNotations.
Local Open Scope string_scope.

Ltac bok H x Hx := apply bind_ok in H; destruct H as (x & Hx & H).


Lemma mtype_eqb_refl m : mtype_eqb m m = true.
Proof.
  assert (H : existsb (mtype_eqb m) [m] = true) by (apply existsb_mtype; left; reflexivity).
  cbn in H. rewrite orb_false_r in H. exact H.
Qed.
Lemma mtype_eqb_eq a b : mtype_eqb a b = true <-> a = b.
Proof.
  split; [|intros ->; apply mtype_eqb_refl]. intros H. assert (In a [b]) as [G|[]].
  { apply existsb_mtype. cbn. rewrite H. reflexivity. } symmetry. exact G.
Qed.
Lemma same_type_refl m : same_type m m = true.
Proof. apply mtype_eqb_refl. Qed.

Lemma canon_is_defined_n E n : (forall t c, canonicalize n E t = Ok c -> defined E t) /\
  (forall t acc s, collect_types n E t acc = Ok s -> defined E t).
Proof.
  induction n as [|n [IH1 IH2]]; [split; discriminate|].
  assert (M : forall ts cs, mapM (canonicalize n E) ts = Ok cs -> forall x, In x (flat_map references ts) -> lookup E x <> None).
  { intros ts cs H. apply mapM_ok in H. induction H as [|t c ts cs Ht _ IH]; intros x Hx; [destruct Hx|].
    cbn in Hx. apply in_app_or in Hx. destruct Hx as [Hx|Hx]; [exact (IH1 _ _ Ht x Hx)|exact (IH x Hx)]. }
  assert (A1 : forall t c, canonicalize (S n) E t = Ok c -> defined E t).
  { intros t c H. destruct t; cbn [canonicalize] in H; try (intros ? []; fail).
    - bok H a Ha. bok H r Hr. intros x Hx. cbn in Hx. apply in_app_or in Hx. destruct Hx as [Hx|Hx]; [exact (M _ _ Ha x Hx)|exact (IH1 _ _ Hr x Hx)].
    - bok H a Ha. exact (IH1 _ _ Ha).
    - bok H a Ha. bok H r Hr. intros x Hx. cbn in Hx. apply in_app_or in Hx. destruct Hx as [Hx|Hx]; [exact (IH1 _ _ Ha x Hx)|exact (IH1 _ _ Hr x Hx)].
    - bok H a Ha. intros y [<-|[]] L. unfold resolve in Ha. rewrite L in Ha. discriminate.
    - bok H s Hs. exact (IH2 _ _ _ Hs). }
  split; [exact A1|]. intros t acc s H.
  destruct t; cbn [collect_types] in H; try (intros ? []; fail);
    try (bok H c Hc; exact (IH1 _ _ Hc)).
  - bok H a Ha. intros y [<-|[]] L. unfold resolve in Ha. rewrite L in Ha. discriminate.
  - bok H a Ha. intros x Hx. cbn in Hx. apply in_app_or in Hx. destruct Hx as [Hx|Hx]; [exact (IH2 _ _ _ Ha x Hx)|exact (IH2 _ _ _ H x Hx)].
Qed.

Lemma canon_is_defined E t c : canon E t c -> defined E t.
Proof. intros [n H]. exact (proj1 (canon_is_defined_n E n) t c H). Qed.

Section Lowers.
  Variable f : string -> string.
  Variable E : tenv.
  Variable R : renv.
  Variable C : config.
  Hypothesis W : wf f E.

  Notation lowers := (lowers E C).

  Lemma proper_canon t c : canon E t c -> proper E t <-> plain_names c.
  Proof. intros H. split; [intros (d & Hd & P); rewrite (canon_fun _ _ _ _ H Hd); exact P|intros P; exists c; auto]. Qed.

  Lemma lowers_canon t m : lowers t m <-> exists c, canon E t c /\ lower C c = Ok m /\ plain_names c.
  Proof. reflexivity. Qed.

  Lemma lowers_proper t m : lowers t m -> proper E t.
  Proof. intros (c & Hc & _ & P). exists c. auto. Qed.

  Lemma lowers_at t c m : lowers t m -> canon E t c -> lower C c = Ok m /\ plain_names c.
  Proof. intros (d & Hd & H) Hc. rewrite (canon_fun _ _ _ _ Hd Hc) in H. exact H. Qed.

  Lemma compiles n t m : compile_type n E C t = Ok m -> proper E t -> lowers t m.
  Proof.
    unfold compile_type. intros H P. bok H c Hc. assert (Cc : canon E t c) by (exists n; exact Hc).
    exists c. split; [exact Cc|]. split; [exact H|]. apply (proper_canon t c Cc), P.
  Qed.

  Lemma compiles_fun n t m m' : compile_type n E C t = Ok m -> lowers t m' -> m = m'.
  Proof.
    unfold compile_type. intros H L. bok H c Hc. assert (Cc : canon E t c) by (exists n; exact Hc).
    destruct (lowers_at t c m' L Cc) as [Q _]. congruence.
  Qed.

  Lemma lowers_fun t m m' : lowers t m -> lowers t m' -> m = m'.
  Proof.
    intros (c & Hc & H & _) (d & Hd & G & _). rewrite (canon_fun _ _ _ _ Hc Hd) in H. congruence.
  Qed.

  Lemma lowers_teq s t m : teq E s t -> lowers s m -> lowers t m.
  Proof.
    intros Q (c & Hc & H). exists c. split; [|exact H].
    eapply (teq_canon E s); [apply W|apply W|exact Q|exact Hc].
  Qed.

  Lemma proper_teq s t : teq E s t -> proper E s -> proper E t.
  Proof.
    intros Q (c & Hc & H). exists c. split; [|exact H].
    eapply (teq_canon E s); [apply W|apply W|exact Q|exact Hc].
  Qed.

  Lemma lower_total c : references c = [] -> exists m, lower C c = Ok m.
  Proof.
    induction c as [| | |a r Ha IHr|e _|k v _ _| | |i o|z| |l r IHl IHr] using ty_ind'; intros H; try (eexists; reflexivity); [|discriminate].
    cbn in H. apply app_nil_inv in H. destruct H as [H1 H2]. destruct (IHr H2) as [mr Hr].
    assert (exists ms, mapM (lower C) a = Ok ms) as [ms Hms].
    { clear - Ha H1. induction Ha as [|x l Hx _ IH]; [eexists; reflexivity|]. cbn in H1. apply app_nil_inv in H1. destruct H1 as [H1 H2].
      destruct (Hx H1) as [m Hm]. destruct (IH H2) as [ms Hms]. exists (m :: ms). cbn. rewrite Hm. cbn. rewrite Hms. reflexivity. }
    exists (Mir.TFunction ms mr). cbn. rewrite Hms. cbn. rewrite Hr. reflexivity.
  Qed.

  Lemma canon_lowers t c : canon E t c -> plain_names c -> exists m, lower C c = Ok m /\ lowers t m.
  Proof.
    intros H P. destruct (lower_total c (canon_references _ _ _ H)) as [m Hm]. exists m. split; [exact Hm|]. exists c. auto.
  Qed.

  Lemma proper_lowers t : proper E t -> exists m, lowers t m.
  Proof. intros (c & Hc & P). destruct (canon_lowers t c Hc P) as (m & _ & H). eauto. Qed.

  Lemma lowers_defined t m : lowers t m -> defined E t.
  Proof. intros (c & Hc & _). eapply canon_is_defined, Hc. Qed.

  Lemma plain_function a r : plain_names (TFunction a r) <-> Forall plain_names a /\ plain_names r.
  Proof.
    unfold plain_names. cbn. split.
    - intros H. split; [|intros x Hx; apply H, in_or_app; auto]. apply Forall_forall. intros t Ht x Hx. apply H, in_or_app. left. apply in_flat_map. eauto.
    - intros [H1 H2] x Hx. apply in_app_or in Hx. destruct Hx as [Hx|Hx]; [|apply H2, Hx]. apply in_flat_map in Hx. destruct Hx as (t & Ht & Hx).
      rewrite Forall_forall in H1. exact (H1 t Ht x Hx).
  Qed.

  Lemma Forall2_lowers a ms : Forall2 lowers a ms <-> exists a', Forall2 (canon E) a a' /\ mapM (lower C) a' = Ok ms /\ Forall plain_names a'.
  Proof.
    split.
    - intros H. induction H as [|t m ts ms Ht _ (a' & H1 & H2 & H3)].
      + exists []. split; [constructor|split; [reflexivity|constructor]].
      + destruct Ht as (c & Hc & Hm & P). exists (c :: a'). split; [constructor; assumption|]. split; [|constructor; assumption]. cbn. rewrite Hm. cbn. rewrite H2. reflexivity.
    - intros (a' & H1 & H2 & H3). apply mapM_ok in H2. revert ms H2 H3. induction H1 as [|t c ts cs Ht _ IH]; intros ms H2 H3; inversion H2; subst; inversion H3; subst; constructor.
      + exists c. auto.
      + apply IH; assumption.
  Qed.

  Lemma lowers_function a r m : lowers (TFunction a r) m <->
    exists ms mr, m = Mir.TFunction ms mr /\ Forall2 lowers a ms /\ lowers r mr.
  Proof.
    split.
    - intros (c & Hc & H & P). apply canon_function in Hc. destruct Hc as (a' & r' & Ha & Hr & ->). cbn in H. apply plain_function in P. destruct P as [P1 P2].
      bok H ms Hms. bok H mr Hmr. injection H as <-. exists ms, mr. split; [reflexivity|]. split; [apply Forall2_lowers; eauto|exists r'; auto].
    - intros (ms & mr & -> & Ha & Hr). apply Forall2_lowers in Ha. destruct Ha as (a' & Ha & Hms & P1). destruct Hr as (r' & Hr & Hmr & P2).
      exists (TFunction a' r'). split; [apply canon_function; eauto|]. split; [|apply plain_function; auto]. cbn. rewrite Hms. cbn. rewrite Hmr. reflexivity.
  Qed.

  Lemma Forall2_lowers_fun a ms ms' : Forall2 lowers a ms -> Forall2 lowers a ms' -> ms = ms'.
  Proof.
    intros H. revert ms'. induction H as [|t m ts ms Ht _ IH]; intros ms' G; inversion G; subst; [reflexivity|].
    f_equal; [eapply lowers_fun; eassumption|apply IH; assumption].
  Qed.

  Lemma basic_lowers t m : canon E t t -> lower C t = Ok m -> record_names t = [] -> lowers t m.
  Proof. intros H L Q. exists t. split; [exact H|]. split; [exact L|]. intros x Hx. rewrite Q in Hx. destruct Hx. Qed.

  Lemma lowers_any : lowers TAny TVariant. Proof. apply basic_lowers; [exists 1; reflexivity|reflexivity|reflexivity]. Qed.
  Lemma lowers_boolean : lowers TBoolean Mir.TBoolean. Proof. apply basic_lowers; [exists 1; reflexivity|reflexivity|reflexivity]. Qed.
  Lemma lowers_none : lowers TNone Mir.TNone. Proof. apply basic_lowers; [exists 1; reflexivity|reflexivity|reflexivity]. Qed.
  Lemma lowers_number : lowers TNumber Mir.TNumber. Proof. apply basic_lowers; [exists 1; reflexivity|reflexivity|reflexivity]. Qed.
  Lemma lowers_string : lowers TString TByteString. Proof. apply basic_lowers; [exists 1; reflexivity|reflexivity|reflexivity]. Qed.
  Lemma lowers_error : lowers TError (Mir.TRecord error_record). Proof. apply basic_lowers; [exists 1; reflexivity|reflexivity|reflexivity]. Qed.
  Lemma lowers_record r o : has_char ")"%char r = false -> lowers (TRecord r o) (Mir.TRecord r).
  Proof. intros P. exists (TRecord r o). split; [exists 1; reflexivity|]. split; [reflexivity|]. intros x [<-|[]]. exact P. Qed.

  Lemma lowers_list e m : lowers (TList e) m -> m = Mir.TRecord (list_type C).
  Proof. intros (c & Hc & H & _). apply canon_list in Hc. destruct Hc as (e' & _ & ->). injection H as <-. reflexivity. Qed.
  Lemma lowers_map k v m : lowers (TMap k v) m -> m = Mir.TRecord (map_type C).
  Proof. intros (c & Hc & H & _). apply canon_map in Hc. destruct Hc as (k' & v' & _ & _ & ->). injection H as <-. reflexivity. Qed.

  Lemma lowers_record_inv r o m : lowers (TRecord r o) m -> m = Mir.TRecord r /\ has_char ")"%char r = false.
  Proof.
    intros L. apply (lowers_at _ (TRecord r o)) in L; [|exists 1; reflexivity]. destruct L as [L P]. injection L as <-.
    split; [reflexivity|]. apply P. left. reflexivity.
  Qed.
  Lemma list_lowers e : proper E e -> lowers (TList e) (Mir.TRecord (list_type C)).
  Proof. intros (c & Hc & P). exists (TList c). split; [apply canon_list; eauto|]. split; [reflexivity|exact P]. Qed.
  Lemma map_lowers k v : proper E k -> proper E v -> lowers (TMap k v) (Mir.TRecord (map_type C)).
  Proof.
    intros (c & Hc & P) (d & Hd & Q). exists (TMap c d). split; [apply canon_map; eauto|]. split; [reflexivity|].
    intros x Hx. cbn in Hx. apply in_app_or in Hx. destruct Hx; [apply P|apply Q]; assumption.
  Qed.
  Lemma proper_element e : proper E (TList e) -> proper E e.
  Proof. intros (c & Hc & P). apply canon_list in Hc. destruct Hc as (e' & Hc & ->). exists e'. split; [exact Hc|exact P]. Qed.
  Lemma proper_entries k v : proper E (TMap k v) -> proper E k /\ proper E v.
  Proof.
    intros (c & Hc & P). apply canon_map in Hc. destruct Hc as (k' & v' & Hk & Hv & ->).
    split; [exists k'|exists v']; (split; [assumption|]); intros x Hx; apply P; cbn; apply in_or_app; auto.
  Qed.

  Lemma plain_member c x : plain_names c -> In x (members_canonical c) -> plain_names x.
  Proof.
    induction c; cbn [members_canonical]; intros P H; try (destruct H as [<-|[]]; exact P).
    apply in_app_or in H. destruct H as [H|H]; [apply IHc1|apply IHc2]; try exact H; intros z Hz; apply P; cbn; apply in_or_app; auto.
  Qed.
  Lemma plain_members c : (forall x, In x (members_canonical c) -> plain_names x) -> plain_names c.
  Proof.
    induction c; cbn [members_canonical]; intros H; try (apply H; left; reflexivity).
    intros z Hz. cbn in Hz. apply in_app_or in Hz. destruct Hz as [Hz|Hz]; [eapply IHc1|eapply IHc2]; try exact Hz; intros x Hx; apply H, in_or_app; auto.
  Qed.
  Lemma proper_union l r : proper E l -> proper E r -> proper E (TUnion l r).
  Proof.
    intros (cl & Hl & Pl) (cr & Hr & Pr).
    destruct (canon_ex f E W (TUnion l r)) as [c Hc].
    { intros z Hz. cbn in Hz. apply in_app_or in Hz. destruct Hz as [Hz|Hz]; [eapply canon_is_defined in Hl|eapply canon_is_defined in Hr]; auto. }
    exists c. split; [exact Hc|].
    apply canon_union_members in Hc. destruct Hc as (cl' & cr' & Hl' & Hr' & _ & Hm).
    rewrite (canon_fun _ _ _ _ Hl' Hl), (canon_fun _ _ _ _ Hr' Hr) in Hm.
    apply plain_members. intros x Hx. rewrite Hm in Hx. apply norm_In in Hx. destruct Hx as [[_ ->]|[_ Hx]]; [intros z []|].
    apply sunion_In in Hx. destruct Hx as [Hx|Hx]; [exact (plain_member _ _ Pl Hx)|exact (plain_member _ _ Pr Hx)].
  Qed.
  Lemma proper_create ts u : create_union ts = Some u -> (forall t, In t ts -> proper E t) -> proper E u.
  Proof.
    destruct ts as [|t ts]; [discriminate|]. intros Q; injection Q as <-. intros H.
    assert (G : forall ts t, proper E t -> (forall u, In u ts -> proper E u) -> proper E (fold_left TUnion ts t)).
    { clear - W. induction ts as [|u ts IH]; cbn; intros t Pt Pu; [exact Pt|]. apply IH; [apply proper_union; auto|auto]. }
    apply G; [apply H; left; reflexivity|intros u Hu; apply H; right; exact Hu].
  Qed.

  Lemma lowers_varies t m : varies E t -> lowers t m -> m = TVariant.
  Proof.
    intros V (c & Hc & H & _). destruct c; try (exfalso; eapply V; [|apply canon_sound, Hc]; exact I).
    - injection H as <-. reflexivity.
    - discriminate.
    - injection H as <-. reflexivity.
  Qed.

  Lemma lowers_not_single t c m : canon E t c -> ~ single c -> lowers t m -> m = TVariant.
  Proof.
    intros Hc N (d & Hd & H & _). rewrite (canon_fun _ _ _ _ Hd Hc) in H.
    destruct c; try (exfalso; apply N; exact I); try discriminate; injection H as <-; reflexivity.
  Qed.

  Lemma single_members c : single c -> members_canonical c = [c].
  Proof. intros H. apply members_nonunion. destruct c; try reflexivity; contradiction. Qed.

  Lemma sub_to_single s t c d : sub E s t -> canon E s c -> canon E t d -> single d -> c = d.
  Proof.
    intros S Hc Hd Sd. pose proof (canon_is_defined _ _ _ Hc) as Ds. pose proof (canon_is_defined _ _ _ Hd) as Dt.
    pose proof (sub_msub f E W s t S Ds Dt c d Hc Hd) as [A|I]; rewrite (single_members d Sd) in *.
    - destruct A as [->|[]]. contradiction.
    - pose proof (canon_cform _ _ _ Hc) as Fc. apply cform_inj; [exact Fc|apply (canon_cform _ _ _ Hd)|].
      intros x. rewrite (single_members d Sd). split; [apply I|]. intros [<-|[]].
      destruct Fc as [(_ & _ & _ & N) _]. destruct (members_canonical c) as [|y l]; [contradiction|].
      destruct (I y (or_introl eq_refl)) as [->|[]]. left. reflexivity.
  Qed.

  Lemma lowers_failing r m : sub E TError r -> ~ teq E r TError -> lowers r m -> m = TVariant.
  Proof.
    intros S N H. pose proof H as H0. apply lowers_canon in H0. destruct H0 as (c & Hc & Hl & _).
    eapply lowers_not_single; [exact Hc| |exact H]. intros Sc. apply N.
    assert (Ce : canon E TError TError) by (exists 1; reflexivity).
    rewrite <- (sub_to_single _ _ _ _ S Ce Hc Sc) in Hc. apply canon_sound, Hc.
  Qed.

  Lemma lowers_reference x o : lookup E x = Some (TRecord x o) -> has_char ")"%char x = false -> lowers (TReference x) (Mir.TRecord x).
  Proof. intros H P. exists (TRecord x o). split; [exists 2; cbn; unfold resolve; rewrite H; reflexivity|]. split; [reflexivity|]. intros y [<-|[]]. exact P. Qed.

  Lemma lowers_reference_or_none x o : lookup E x = Some (TRecord x o) -> has_char ")"%char x = false -> lowers (TUnion (TReference x) TNone) TVariant.
  Proof.
    intros H P. exists (TUnion TNone (TRecord x o)). split; [exists 8; cbn; unfold resolve; rewrite H; reflexivity|]. split; [reflexivity|].
    intros y [<-|[]]. exact P.
  Qed.
End Lowers.

(** ** Needs *)
Section Provides.
  Variable E : tenv.
  Variable R : renv.
  Variable C : config.
  Variable M : mmodule.
  Notation provides := (provides E R C M).

  Lemma provides_part vars e p : incl (needs p) (needs e) -> provides vars e -> provides vars p.
  Proof.
    intros I (H1 & H2 & H3). split; [|split; [|exact H3]].
    - intros x t Hx. apply H1, I, Hx.
    - intros r ts Hr. apply H2, I, Hr.
  Qed.

  Lemma provides_bind vars x m e : (forall t, ~ compiler_name E R C x t) -> provides vars e -> provides ((x, m) :: vars) e.
  Proof.
    intros N (H1 & H2 & H3 & H4). split; [|split; [exact H2|split; [exact H3|]]].
    - intros y t Hy Hc. cbn. destruct (String.eqb_spec y x) as [->|_]; [exfalso; exact (N t Hc)|]. exact (H1 y t Hy Hc).
    - cbn [lookup]. destruct (String.eqb_spec "hir:type_information:default" x) as [<-|_]; [exfalso; exact (N _ (cn_information E R C))|exact H4].
  Qed.

  Lemma provides_binds l vars e : (forall x m, In (x, m) l -> forall t, ~ compiler_name E R C x t) -> provides vars e -> provides (l ++ vars)%list e.
  Proof.
    induction l as [|[x m] l IH]; intros N H; [exact H|]. cbn. apply provides_bind; [exact (N x m (or_introl eq_refl))|].
    apply IH; [|exact H]. intros y m' Hy. apply (N y m'). right. exact Hy.
  Qed.

  Lemma provides_alike vars vars' e : alike vars vars' -> provides vars e -> provides vars' e.
  Proof.
    intros A (H1 & H2 & H3 & H4). split; [|split; [exact H2|split; [exact H3|]]].
    - intros x t Hx Hc. rewrite <- A. exact (H1 x t Hx Hc).
    - rewrite <- A. exact H4.
  Qed.
End Provides.
