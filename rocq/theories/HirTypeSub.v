(** Equality check, subsumption check and difference against the specification. *)
From Coq Require Import String Ascii List Arith Lia Bool Relations Sorted.
From Verif Require Import Base HirType HirTypeSpec HirTypeOrder HirTypeTermination HirTypeEq.
Import ListNotations.

(** ** Names *)
Section NamesInd.
  Variable f : string -> string.
  Lemma names_fix t : names_ok f t <->
    match t with
    | TFunction a r => Forall (names_ok f) a /\ names_ok f r
    | TList e => names_ok f e
    | TMap k v => names_ok f k /\ names_ok f v
    | TUnion l r => names_ok f l /\ names_ok f r
    | TRecord n o => o = f n
    | _ => True
    end.
  Proof.
    destruct t; (split; [intros H; inversion H; subst; auto|]); try (intros [H1 H2]; constructor; assumption);
      intros H; subst; constructor; assumption.
  Qed.
End NamesInd.

Lemma names_reduce f s c : reduce_union s = Ok c -> Forall (names_ok f) s -> names_ok f c.
Proof.
  destruct s as [|t ts]; [discriminate|]. cbn. intros H; injection H as <-. intros H. inversion H as [|? ? Ht Hts]; subst.
  clear H. revert t Ht. induction Hts as [|u us Hu _ IH]; intros t Ht; [exact Ht|]. cbn. apply IH.
  unfold join. destruct (is_any t); [exact Ht|]. destruct (is_any u); [exact Hu|]. constructor; assumption.
Qed.

Lemma names_canon_n f E n : names_env f E ->
  (forall t c, canonicalize n E t = Ok c -> names_ok f t -> names_ok f c) /\
  (forall t acc s, collect_types n E t acc = Ok s -> names_ok f t -> Forall (names_ok f) acc -> Forall (names_ok f) s).
Proof.
  intros HE. induction n as [|n [IHc IHs]]; [split; discriminate|]. split.
  - intros t c H Ht. apply names_fix in Ht. destruct t; cbn [canonicalize] in H; try (injection H as <-; apply names_fix; exact Ht).
    + apply bind_ok in H. destruct H as (a' & Ha & H). apply bind_ok in H. destruct H as (r' & Hr & H).
      injection H as <-. destruct Ht as [Hta Htr]. constructor; [|eauto]. apply mapM_ok in Ha.
      induction Ha as [|x y xs ys Hxy _ IH]; [constructor|]. inversion Hta; subst. constructor; eauto.
    + apply bind_ok in H. destruct H as (e' & He & H). injection H as <-. constructor. eauto.
    + apply bind_ok in H. destruct H as (k' & Hk & H). apply bind_ok in H. destruct H as (v' & Hv & H).
      injection H as <-. destruct Ht. constructor; eauto.
    + apply bind_ok in H. destruct H as (t' & Ht' & H). eapply IHc; [exact H|]. unfold resolve in Ht'.
      destruct (lookup E name) eqn:Hl; [|discriminate]. injection Ht' as ->. eapply HE, Hl.
    + apply bind_ok in H. destruct H as (s & Hs & H). eapply names_reduce; [exact H|].
      eapply IHs; [exact Hs|apply names_fix; exact Ht|constructor].
  - intros t acc s H Ht Hacc.
    assert (Hins : forall c, names_ok f c -> Forall (names_ok f) (set_insert c acc)).
    { intros c Hc. apply Forall_forall. rewrite Forall_forall in Hacc. intros x Hx. apply set_insert_In in Hx. destruct Hx as [->|Hx]; auto. }
    destruct t; cbn [collect_types] in H; apply bind_ok in H; destruct H as (t' & Ht' & H);
      try (injection H as <-; apply Hins; eauto; fail).
    + eapply IHs; [exact H| |exact Hacc]. unfold resolve in Ht'.
      destruct (lookup E name) eqn:Hl; [|discriminate]. injection Ht' as ->. eapply HE, Hl.
    + apply names_fix in Ht. destruct Ht as [Hl Hr]. eapply IHs; [exact H|exact Hr|]. eapply IHs; eauto.
Qed.

Lemma names_canon f E t c : names_env f E -> names_ok f t -> canon E t c -> names_ok f c.
Proof. intros HE Ht [n H]. eapply names_canon_n; eauto. Qed.

Lemma names_members f c : names_ok f c -> Forall (names_ok f) (members_canonical c).
Proof.
  induction c as [| | |a r _ _|e _|k v _ _| | |n o|x| |l r IHl IHr] using ty_ind'; cbn; intros H;
    try (constructor; [exact H|constructor]).
  apply names_fix in H. destruct H. apply Forall_app. auto.
Qed.

(** ** The structural comparison *)
Lemma andr_ok a b x y : a = Ok x -> b = Ok y -> andr a b = Ok (x && y).
Proof. intros -> ->. unfold andr. cbn. destruct x; reflexivity. Qed.

Lemma app_nil_inv {A} (l l' : list A) : l ++ l' = [] -> l = [] /\ l' = [].
Proof. destruct l; cbn; [auto|discriminate]. Qed.

Lemma equal_canonical_spec f c : forall d,
  references c = [] -> references d = [] -> names_ok f c -> names_ok f d ->
  exists b, equal_canonical c d = Ok b /\ (b = true <-> c = d).
Proof.
  induction c as [| | |a r IHa IHr|e IHe|k v IHk IHv| | |n o|x| |l r IHl IHr] using ty_ind';
    intros d Hc Hd Nc Nd; apply names_fix in Nc; apply names_fix in Nd;
    destruct d; try discriminate; cbn [equal_canonical];
    try (eexists; split; [reflexivity|split; congruence]).
  - cbn in Hc, Hd. apply app_nil_inv in Hc. apply app_nil_inv in Hd. destruct Hc as [Hca Hcr], Hd as [Hda Hdr].
    destruct Nc as [Nca Ncr], Nd as [Nda Ndr].
    destruct (IHr d Hcr Hdr Ncr Ndr) as (br & Hbr & Hbr').
    assert (Hz : exists b, zip_all equal_canonical a arguments = Ok b /\
              (length a = length arguments -> (b = true <-> a = arguments))).
    { clear IHr Hbr Hbr'. revert arguments Hda Nda.
      induction IHa as [|y ys Hy _ IH]; intros [|z zs] Hda Nda; cbn [zip_all];
        try (eexists; split; [reflexivity|cbn; (split; [congruence|auto]) || (intros; discriminate)]).
      cbn in Hca, Hda. apply app_nil_inv in Hca. apply app_nil_inv in Hda. destruct Hca as [Hy1 Hys1], Hda as [Hz1 Hzs1].
      inversion Nca; subst. inversion Nda; subst.
      destruct (Hy z) as (b1 & E1 & E1'); try assumption.
      destruct (IH Hys1 ltac:(assumption) zs) as (b2 & E2 & E2'); try assumption.
      rewrite (andr_ok _ _ _ _ E1 E2). eexists; split; [reflexivity|]. cbn. intros Hl. injection Hl as Hl.
      rewrite andb_true_iff, E1', (E2' Hl). split; [intros [-> ->]; reflexivity|intros H; injection H as -> ->; auto]. }
    destruct Hz as (bz & Hz & Hz').
    rewrite (andr_ok _ _ _ _ eq_refl (andr_ok _ _ _ _ Hz Hbr)). eexists; split; [reflexivity|].
    rewrite !andb_true_iff, Nat.eqb_eq, Hbr'. split.
    + intros (Hl & Hb & ->). f_equal. apply Hz'; assumption.
    + intros H. injection H as -> ->. split; [reflexivity|]. split; [apply Hz'; reflexivity|reflexivity].
  - destruct (IHe d Hc Hd Nc Nd) as (b & Hb & Hb'). exists b. split; [exact Hb|]. rewrite Hb'. split; congruence.
  - cbn in Hc, Hd. apply app_nil_inv in Hc. apply app_nil_inv in Hd. destruct Hc as [Hca Hcr], Hd as [Hda Hdr].
    destruct Nc, Nd.
    destruct (IHk d1) as (b1 & E1 & E1'); try assumption. destruct (IHv d2) as (b2 & E2 & E2'); try assumption.
    rewrite (andr_ok _ _ _ _ E1 E2). eexists; split; [reflexivity|]. rewrite andb_true_iff, E1', E2'.
    split; [intros [-> ->]; reflexivity|intros G; injection G as -> ->; auto].
  - eexists; split; [reflexivity|]. rewrite String.eqb_eq. subst. split; [intros ->; reflexivity|congruence].
  - cbn in Hc, Hd. apply app_nil_inv in Hc. apply app_nil_inv in Hd. destruct Hc as [Hca Hcr], Hd as [Hda Hdr].
    destruct Nc, Nd.
    destruct (IHl d1) as (b1 & E1 & E1'); try assumption. destruct (IHr d2) as (b2 & E2 & E2'); try assumption.
    rewrite (andr_ok _ _ _ _ E1 E2). eexists; split; [reflexivity|]. rewrite andb_true_iff, E1', E2'.
    split; [intros [-> ->]; reflexivity|intros G; injection G as -> ->; auto].
Qed.

(** ** The setting of the theorems *)
Section Decide.
  Variable f : string -> string.
  Variable E : tenv.
  Hypothesis W : wf f E.

  Local Notation ok := (HirTypeSpec.ok f E).

  Lemma canon_ex t : defined E t -> exists c, canon E t c.
  Proof. intros H. apply (canon_total E t); [apply W|apply W|exact H]. Qed.

  Lemma teq_canon_eq s t c d : teq E s t -> canon E s c -> canon E t d -> c = d.
  Proof.
    intros H Hc Hd. eapply canon_fun; [|exact Hd]. apply (teq_canon E s t); [apply W|apply W|exact H|exact Hc].
  Qed.

  Lemma canon_teq s t c : canon E s c -> canon E t c -> teq E s t.
  Proof. intros H G. eapply teq_trans; [apply canon_sound, H|apply teq_sym, canon_sound, G]. Qed.

  Lemma canon_idem t c : canon E t c -> canon E c c.
  Proof. intros H. apply (teq_canon E t c); [apply W|apply W|apply canon_sound, H|exact H]. Qed.

  Lemma equal_types_n n s t b :
    names_ok f s -> names_ok f t -> equal_types n E s t = Ok b ->
    exists c d, canon E s c /\ canon E t d /\ (b = true <-> c = d).
  Proof.
    intros Ns Nt H. unfold equal_types in H. apply bind_ok in H. destruct H as (c & Hc & H).
    apply bind_ok in H. destruct H as (d & Hd & H). assert (Xc : canon E s c) by (exists n; exact Hc).
    assert (Xd : canon E t d) by (exists n; exact Hd). exists c, d. split; [exact Xc|]. split; [exact Xd|].
    destruct (equal_canonical_spec f c d) as (b' & Hb & Hb').
    - eapply canon_references, Xc.
    - eapply canon_references, Xd.
    - eapply names_canon; [apply W|exact Ns|exact Xc].
    - eapply names_canon; [apply W|exact Nt|exact Xd].
    - rewrite Hb in H. injection H as ->. exact Hb'.
  Qed.

  Lemma equal_types_mono n m s t b : n <= m -> equal_types n E s t = Ok b -> equal_types m E s t = Ok b.
  Proof.
    intros Hnm H. unfold equal_types in *. apply bind_ok in H. destruct H as (c & Hc & H).
    apply bind_ok in H. destruct H as (d & Hd & H). apply bind_ok. exists c. split; [eapply canon_mono; eassumption|].
    apply bind_ok. exists d. split; [eapply canon_mono; eassumption|exact H].
  Qed.

  Lemma equal_types_total s t : ok s -> ok t -> exists n b, equal_types n E s t = Ok b.
  Proof.
    intros [Ds Ns] [Dt Nt]. destruct (canon_ex s Ds) as [c Hc]. destruct (canon_ex t Dt) as [d Hd].
    destruct (equal_canonical_spec f c d) as (b & Hb & _).
    - eapply canon_references, Hc.
    - eapply canon_references, Hd.
    - eapply names_canon; [apply W|exact Ns|exact Hc].
    - eapply names_canon; [apply W|exact Nt|exact Hd].
    - destruct Hc as [n Hc], Hd as [m Hd]. exists (n + m), b. unfold equal_types.
      apply bind_ok. exists c. split; [eapply canon_mono; [|exact Hc]; lia|].
      apply bind_ok. exists d. split; [eapply canon_mono; [|exact Hd]; lia|exact Hb].
  Qed.

  Lemma equal_types_correct n s t b :
    names_ok f s -> names_ok f t -> equal_types n E s t = Ok b -> (b = true <-> teq E s t).
  Proof.
    intros Ns Nt H. destruct (equal_types_n n s t b Ns Nt H) as (c & d & Hc & Hd & Hb). rewrite Hb. split.
    - intros ->. eapply canon_teq; eassumption.
    - intros G. eapply teq_canon_eq; eassumption.
  Qed.

  (** Members of canonical types are canonical themselves. *)
  Lemma collect_fixed n : forall t acc s, collect_types n E t acc = Ok s ->
    (forall x, In x acc -> canon E x x) -> forall x, In x s -> canon E x x.
  Proof.
    induction n as [|n IH]; [discriminate|]. intros t acc s H Hacc x Hx.
    destruct t; cbn [collect_types] in H; apply bind_ok in H; destruct H as (t' & Ht & H);
      try (injection H as <-; apply set_insert_In in Hx; destruct Hx as [->|Hx]; [eapply canon_idem; exists n; exact Ht|auto]).
    - eapply IH; eauto.
    - eapply IH; [exact H| |exact Hx]. eapply IH; eauto.
  Qed.

  Lemma members_fixed t c : canon E t c -> forall x, In x (members_canonical c) -> canon E x x /\ is_union x = false.
  Proof.
    intros H x Hx. split.
    - apply canon_collects in H. destruct H as (s & Hs & Hred).
      destruct (collects_acc _ _ _ _ Hs) as (m & Hm & Hms & Hnu & _). rewrite (collects_fun _ _ _ _ _ Hm Hs) in *.
      rewrite (reduce_members s c Hms Hnu Hred) in Hx. apply norm_In in Hx. destruct Hs as [n Hs].
      destruct Hx as [[_ ->]|[_ Hx]]; [exists 1; reflexivity|]. eapply collect_fixed; [exact Hs|intros y []|exact Hx].
    - destruct (canon_cform _ _ _ H) as [(_ & Hnu & _) _]. rewrite Forall_forall in Hnu. apply Hnu, Hx.
  Qed.

  (** ** Alternatives *)
  Lemma alt_collects_n n : forall t acc s, collect_types n E t acc = Ok s ->
    forall x, In x s <-> In x acc \/ exists b, alt E t b /\ canon E b x.
  Proof.
    induction n as [|n IH]; [discriminate|]. intros t acc s H x.
    destruct t; try
     (cbn [collect_types] in H; apply bind_ok in H; destruct H as (t' & Ht & H); injection H as <-;
      rewrite set_insert_In; split;
      [intros [->|Hx]; [right; eexists; split; [apply alt_self; intros; discriminate|exists n; exact Ht]|auto]
      |intros [Hx|(b & Hb & Hc)]; [auto|]; inversion Hb; subst; try discriminate; left; eapply canon_fun; [exact Hc|exists n; exact Ht]]; fail).
    - cbn [collect_types] in H; apply bind_ok in H; destruct H as (t' & Ht & H).
      assert (Hl : lookup E name = Some t') by (unfold resolve in Ht; destruct (lookup E name); congruence).
      rewrite (IH _ _ _ H). split; (intros [Hx|(b & Hb & Hc)]; [auto|right; exists b; split; [|exact Hc]]).
      + eapply alt_alias; eassumption.
      + inversion Hb as [? ? ? Hl' Hb'| | |]; subst.
        * rewrite Hl in Hl'. injection Hl' as <-. exact Hb'.
        * exfalso. match goal with G : forall x, TReference _ <> TReference x |- _ => eapply G; reflexivity end.
    - cbn [collect_types] in H; apply bind_ok in H; destruct H as (s1 & H1 & H2).
      rewrite (IH _ _ _ H2), (IH _ _ _ H1). split.
      + intros [[Hx|(b & Hb & Hc)]|(b & Hb & Hc)]; [auto| |]; right; exists b; (split; [|exact Hc]); [apply alt_left|apply alt_right]; exact Hb.
      + intros [Hx|(b & Hb & Hc)]; [auto|]. inversion Hb; subst; eauto 6.
        exfalso. match goal with G : forall l r, TUnion _ _ <> TUnion l r |- _ => eapply G; reflexivity end.
  Qed.

  Definition msub (c d : ty) : Prop := In TAny (members_canonical d) \/ incl (members_canonical c) (members_canonical d).

  Lemma has_alt_members t s a : collects E t [] s -> defined E a ->
    (has_alt E t a <-> exists x, canon E a x /\ In x s).
  Proof.
    intros [n Hs] Da. unfold has_alt. split.
    - intros (b & Hb & Heq). destruct (canon_ex a Da) as [x Hx]. exists x. split; [exact Hx|].
      apply (alt_collects_n _ _ _ _ Hs). right. exists b. split; [exact Hb|].
      apply (teq_canon E b a); [apply W|apply W|exact Heq|exact Hx].
    - intros (x & Hx & Hin). apply (alt_collects_n _ _ _ _ Hs) in Hin. destruct Hin as [[]|(b & Hb & Hc)].
      exists b. split; [exact Hb|]. eapply canon_teq; eassumption.
  Qed.

  (** ** Declarative subtyping against member sets *)
  Lemma sub_in_member c x : references c = [] -> In x (members_canonical c) -> sub E x c.
  Proof.
    induction c as [| | |a r _ _|e _|k v _ _| | |n o|y| |l r IHl IHr] using ty_ind'; cbn [members_canonical];
      try (intros _ [->|[]]; apply sub_eq, teq_refl).
    intros Hr H. cbn in Hr. apply app_nil_inv in Hr. destruct Hr as [H1 H2]. apply in_app_or in H.
    destruct H as [H|H].
    - eapply sub_trans; [apply noref_defined, H1|apply IHl; assumption|apply sub_left].
    - eapply sub_trans; [apply noref_defined, H2|apply IHr; assumption|apply sub_right].
  Qed.

  Lemma sub_all_members c u : (forall x, In x (members_canonical c) -> sub E x u) -> sub E c u.
  Proof.
    induction c as [| | |a r _ _|e _|k v _ _| | |n o|y| |l r IHl IHr] using ty_ind'; cbn [members_canonical];
      try (intros H; apply H; left; reflexivity).
    intros H. apply sub_least; [apply IHl|apply IHr]; intros x Hx; apply H, in_or_app; auto.
  Qed.

  Lemma any_member d : cform d -> In TAny (members_canonical d) -> d = TAny.
  Proof.
    intros [(_ & _ & H & _) Hr] Hin. specialize (H Hin). rewrite H in Hr. cbn in Hr. congruence.
  Qed.

  Lemma msub_sub s t c d : canon E s c -> canon E t d -> msub c d -> sub E s t.
  Proof.
    intros Hc Hd H.
    eapply sub_trans; [eapply canon_defined, Hc|apply sub_eq, canon_sound, Hc|].
    eapply sub_trans; [eapply canon_defined, Hd| |apply sub_eq, teq_sym, canon_sound, Hd].
    destruct H as [H|H].
    - apply any_member in H; [|eapply canon_cform, Hd]. subst. apply sub_top.
    - apply sub_all_members. intros x Hx. apply sub_in_member; [eapply canon_references, Hd|apply H, Hx].
  Qed.

  Lemma msub_refl c : msub c c.
  Proof. right. apply incl_refl. Qed.

  Lemma msub_trans c d e : cform d -> msub c d -> msub d e -> msub c e.
  Proof.
    intros Hd [H|H] [G|G]; try (left; exact G).
    - left. apply G. exact H.
    - right. eapply incl_tran; eassumption.
  Qed.

  Lemma defined_union l r : defined E (TUnion l r) <-> defined E l /\ defined E r.
  Proof.
    unfold defined. cbn [references]. split.
    - intros H. split; intros x Hx; apply H, in_or_app; auto.
    - intros [H1 H2] x Hx. apply in_app_or in Hx. destruct Hx; auto.
  Qed.

  Lemma union_msub l r c cl cr : canon E (TUnion l r) c -> canon E l cl -> canon E r cr ->
    forall e, msub c e <-> msub cl e /\ msub cr e.
  Proof.
    intros H Hl Hr e. apply canon_union_members in H. destruct H as (cl' & cr' & Hl' & Hr' & Hcf & Hm).
    rewrite (canon_fun _ _ _ _ Hl' Hl), (canon_fun _ _ _ _ Hr' Hr) in Hm. unfold msub. rewrite Hm. unfold incl.
    destruct (canon_cform _ _ _ Hl) as [(_ & _ & Al & _) _]. destruct (canon_cform _ _ _ Hr) as [(_ & _ & Ar & _) _].
    split.
    - intros [G|G]; [auto|].
      destruct (set_mem TAny (sunion (members_canonical cl) (members_canonical cr))) eqn:Ha.
      + split; left; apply G, norm_In; left; (split; [apply set_mem_In, Ha|reflexivity]).
      + assert (Hn : ~ In TAny (sunion (members_canonical cl) (members_canonical cr))) by (rewrite <- set_mem_In, Ha; discriminate).
        split; right; intros x Hx; apply G, norm_In; right; (split; [exact Hn|apply sunion_In; auto]).
    - intros [[G|G] [F|F]]; try (left; assumption). right. intros x Hx. apply norm_In in Hx. rewrite !sunion_In in Hx.
      destruct Hx as [[[Hx|Hx] ->]|[_ [Hx|Hx]]]; auto.
  Qed.

  Lemma sub_msub s t : sub E s t -> defined E s -> defined E t ->
    forall c d, canon E s c -> canon E t d -> msub c d.
  Proof.
    induction 1 as [s t H|s t u Dt _ IH1 _ IH2|t|l r|l r|l r u _ IH1 _ IH2]; intros Ds Du c d Hc Hd.
    - rewrite (teq_canon_eq _ _ _ _ H Hc Hd). apply msub_refl.
    - destruct (canon_ex t Dt) as [e He]. eapply msub_trans; [eapply canon_cform, He|apply IH1|apply IH2]; assumption.
    - left. destruct Hd as [[|n] Hd]; [discriminate|]. cbn in Hd. injection Hd as <-. left. reflexivity.
    - apply defined_union in Du. destruct Du as [_ Dr]. destruct (canon_ex r Dr) as [cr Hr].
      apply (union_msub l r d c cr Hd Hc Hr d), msub_refl.
    - apply defined_union in Du. destruct Du as [Dl _]. destruct (canon_ex l Dl) as [cl Hl].
      apply (union_msub l r d cl c Hd Hl Hc d), msub_refl.
    - apply defined_union in Ds. destruct Ds as [Dl Dr].
      destruct (canon_ex l Dl) as [cl Hl]. destruct (canon_ex r Dr) as [cr Hr].
      apply (union_msub l r c cl cr Hc Hl Hr). auto.
  Qed.

  (** ** The subsumption check *)
  Lemma orr_ok a b c : orr a b = Ok c -> (a = Ok true /\ c = true) \/ (a = Ok false /\ b = Ok c).
  Proof. destruct a as [[]| | |]; cbn; intros H; try discriminate; [left; split; congruence|right; auto]. Qed.
  Lemma andr_inv a b c : andr a b = Ok c -> (a = Ok false /\ c = false) \/ (a = Ok true /\ b = Ok c).
  Proof. destruct a as [[]| | |]; cbn; intros H; try discriminate; [right; auto|left; split; congruence]. Qed.

  Lemma equal_fixed n x y b : canon E x x -> canon E y y -> names_ok f x -> names_ok f y ->
    equal_types n E x y = Ok b -> (b = true <-> x = y).
  Proof.
    intros Hx Hy Nx Ny H. destruct (equal_types_n n x y b Nx Ny H) as (c & d & Hc & Hd & Hb).
    rewrite (canon_fun _ _ _ _ Hc Hx), (canon_fun _ _ _ _ Hd Hy) in Hb. exact Hb.
  Qed.

  Lemma subsumes_member_spec n x : canon E x x -> names_ok f x ->
    forall d b, (forall y, In y (members_canonical d) -> canon E y y /\ names_ok f y) ->
    subsumes_member n E x d = Ok b ->
    (b = true <-> In TAny (members_canonical d) \/ In x (members_canonical d)).
  Proof.
    intros Hx Nx. induction d as [| | |a r _ _|e _|k v _ _| | |m o|z| |l r IHl IHr] using ty_ind'; intros b Hd H;
      cbn [subsumes_member members_canonical] in *;
      try (destruct (Hd _ (or_introl eq_refl)) as [H1 H2]; pose proof (equal_fixed _ _ _ _ Hx H1 Nx H2 H) as Hb;
           rewrite Hb; cbn; split; [intros ->; auto|intros [[E1|[]]|[E1|[]]]; congruence]; fail).
    - injection H as <-. cbn. tauto.
    - destruct (subsumes_member n E x l) as [bl| | |] eqn:E1; cbn in H; try discriminate.
      assert (Hl := IHl bl ltac:(intros; apply Hd, in_or_app; auto) eq_refl).
      rewrite !in_app_iff. destruct bl; cbn in H.
      + injection H as <-. tauto.
      + assert (Hr := IHr b ltac:(intros; apply Hd, in_or_app; auto) H). rewrite Hr. intuition congruence.
  Qed.

  Lemma is_union_case t : is_union t = true -> exists l r, t = TUnion l r.
  Proof. destruct t; cbn; try discriminate. eauto. Qed.

  Lemma subsumes_upper_union n d : is_union d = true -> forall c b,
    (forall y, In y (members_canonical c) -> canon E y y /\ names_ok f y) ->
    (forall y, In y (members_canonical d) -> canon E y y /\ names_ok f y) ->
    ~ In TAny (members_canonical d) ->
    subsumes_canonical n E c d = Ok b -> (b = true <-> incl (members_canonical c) (members_canonical d)).
  Proof.
    intros Hu. apply is_union_case in Hu. destruct Hu as (dl & dr & ->). intros c b Hc Hd Hna.
    revert b Hc. induction c as [| | |a r _ _|e _|k v _ _| | |m o|z| |l r IHl IHr] using ty_ind'; intros b Hc H;
      try (cbn [subsumes_canonical] in H; destruct (Hc _ (or_introl eq_refl)) as [H1 H2];
           rewrite (subsumes_member_spec n _ H1 H2 (TUnion dl dr) b Hd H);
           split; [intros [G|G]; [contradiction|]; intros y [<-|[]]; exact G|intros G; right; apply G; left; reflexivity]; fail).
    change (subsumes_canonical n E (TUnion l r) (TUnion dl dr)) with
      (andr (subsumes_canonical n E l (TUnion dl dr)) (subsumes_canonical n E r (TUnion dl dr))) in H.
    cbn [members_canonical] in Hc |- *. unfold incl in *.
    apply andr_inv in H. destruct H as [[H ->]|[H G]].
    - assert (Hl := IHl false ltac:(intros; apply Hc, in_or_app; auto) H). split; [discriminate|].
      intros X. apply Hl. intros x Hx. apply X, in_or_app. auto.
    - assert (Hl := IHl true ltac:(intros; apply Hc, in_or_app; auto) H).
      assert (Hr := IHr b ltac:(intros; apply Hc, in_or_app; auto) G). rewrite Hr. split.
      + intros X x Hx. apply in_app_or in Hx. destruct Hx as [Hx|Hx]; [apply Hl; auto|auto].
      + intros X x Hx. apply X, in_or_app. auto.
  Qed.

  Lemma fixed_members t c : canon E t c -> names_ok f t ->
    forall y, In y (members_canonical c) -> canon E y y /\ names_ok f y.
  Proof.
    intros H N y Hy. split; [eapply members_fixed; eassumption|].
    pose proof (names_members f c (names_canon f E t c (wf_names _ _ W) N H)) as G. rewrite Forall_forall in G. apply G, Hy.
  Qed.

  Lemma subsumes_canonical_spec n s t c d b : canon E s c -> canon E t d -> names_ok f s -> names_ok f t ->
    subsumes_canonical n E c d = Ok b -> (b = true <-> msub c d).
  Proof.
    intros Hc Hd Ns Nt H. unfold msub.
    destruct (is_any d) eqn:Ha.
    - apply is_any_true in Ha. subst. destruct c; cbn in H; injection H as <-; (split; [intros _; left; left; reflexivity|reflexivity]).
    - assert (Hna : ~ In TAny (members_canonical d)).
      { intros G. apply any_member in G; [|eapply canon_cform, Hd]. subst. discriminate. }
      destruct (is_union d) eqn:Hu.
      + rewrite (subsumes_upper_union n d Hu c b (fixed_members s c Hc Ns) (fixed_members t d Hd Nt) Hna H). tauto.
      + assert (H' : equal_types n E c d = Ok b) by (destruct c, d; try discriminate; exact H).
        rewrite (equal_fixed n c d b (canon_idem _ _ Hc) (canon_idem _ _ Hd)
                   (names_canon f E s c (wf_names _ _ W) Ns Hc) (names_canon f E t d (wf_names _ _ W) Nt Hd) H').
        rewrite (members_nonunion d Hu). split.
        * intros ->. right. rewrite (members_nonunion d Hu). apply incl_refl.
        * intros [[G|[]]|G]; [subst; discriminate|].
          apply cform_inj; [eapply canon_cform, Hc|eapply canon_cform, Hd|].
          destruct (canon_cform _ _ _ Hc) as [(Hss & _ & _ & Hne) _].
          rewrite (members_nonunion d Hu). intros x. split; [apply G|].
          intros [<-|[]]. destruct (members_canonical c) as [|y ys]; [congruence|].
          destruct (G y (or_introl eq_refl)) as [->|[]]. left. reflexivity.
  Qed.

  Lemma subsumes_correct n s t b : ok s -> ok t ->
    subsumes n E s t = Ok b -> (b = true <-> sub E s t).
  Proof.
    intros [Ds Ns] [Dt Nt] H. unfold subsumes in H. apply bind_ok in H. destruct H as (c & Hc & H).
    apply bind_ok in H. destruct H as (d & Hd & H).
    assert (Xc : canon E s c) by (exists n; exact Hc). assert (Xd : canon E t d) by (exists n; exact Hd).
    rewrite (subsumes_canonical_spec n s t c d b Xc Xd Ns Nt H). split.
    - apply msub_sub; assumption.
    - intros G. eapply sub_msub; eassumption.
  Qed.

  Lemma fixed_equal_total x y : canon E x x -> canon E y y -> names_ok f x -> names_ok f y ->
    exists n b, equal_types n E x y = Ok b.
  Proof.
    intros Hx Hy Nx Ny. apply equal_types_total; split; auto; eapply canon_defined; eassumption.
  Qed.

  Lemma subsumes_member_mono n m x d b : n <= m -> subsumes_member n E x d = Ok b -> subsumes_member m E x d = Ok b.
  Proof.
    intros Hnm. revert b. induction d as [| | |a r _ _|e _|k v _ _| | |i o|z| |l r IHl IHr] using ty_ind'; intros b;
      cbn [subsumes_member]; try (apply equal_types_mono; assumption).
    - auto.
    - intros H. apply orr_ok in H. destruct H as [[H ->]|[H G]].
      + rewrite (IHl _ H). reflexivity.
      + rewrite (IHl _ H). cbn. apply IHr, G.
  Qed.

  Lemma subsumes_member_total x : canon E x x -> names_ok f x ->
    forall d, (forall y, In y (members_canonical d) -> canon E y y /\ names_ok f y) ->
    exists n b, subsumes_member n E x d = Ok b.
  Proof.
    intros Hx Nx. induction d as [| | |a r _ _|e _|k v _ _| | |i o|z| |l r IHl IHr] using ty_ind'; intros Hd;
      cbn [subsumes_member members_canonical] in *;
      try (destruct (Hd _ (or_introl eq_refl)) as [H1 H2]; apply fixed_equal_total; assumption).
    - exists 0, true. reflexivity.
    - destruct (IHl ltac:(intros; apply Hd, in_or_app; auto)) as (n1 & b1 & H1).
      destruct (IHr ltac:(intros; apply Hd, in_or_app; auto)) as (n2 & b2 & H2).
      exists (n1 + n2). rewrite (subsumes_member_mono n1 (n1 + n2) x l b1 ltac:(lia) H1),
        (subsumes_member_mono n2 (n1 + n2) x r b2 ltac:(lia) H2). destruct b1; cbn; eauto.
  Qed.

  Lemma subsumes_canonical_mono n m c d b : n <= m ->
    subsumes_canonical n E c d = Ok b -> subsumes_canonical m E c d = Ok b.
  Proof.
    intros Hnm. revert b. induction c as [| | |a r _ _|e _|k v _ _| | |i o|z| |l r IHl IHr] using ty_ind'; intros b;
      try (destruct d; cbn [subsumes_canonical]; try exact (fun H => H); apply subsumes_member_mono; assumption).
    destruct d; try (cbn [subsumes_canonical]; try exact (fun H => H); apply subsumes_member_mono; assumption).
    change (subsumes_canonical ?n E (TUnion l r) (TUnion d1 d2)) with
      (andr (subsumes_canonical n E l (TUnion d1 d2)) (subsumes_canonical n E r (TUnion d1 d2))).
    intros H. apply andr_inv in H. destruct H as [[H ->]|[H G]].
    - rewrite (IHl _ H). reflexivity.
    - rewrite (IHl _ H). cbn. apply IHr, G.
  Qed.

  Lemma subsumes_canonical_total s t c d : canon E s c -> canon E t d -> names_ok f s -> names_ok f t ->
    exists n b, subsumes_canonical n E c d = Ok b.
  Proof.
    intros Hc Hd Ns Nt. pose proof (fixed_members s c Hc Ns) as Fc. pose proof (fixed_members t d Hd Nt) as Fd.
    destruct (is_any d) eqn:Ha.
    { apply is_any_true in Ha. subst. exists 0, true. destruct c; reflexivity. }
    destruct (is_union d) eqn:Hu.
    - apply is_union_case in Hu. destruct Hu as (dl & dr & ->). clear Hc.
      induction c as [| | |a r _ _|e _|k v _ _| | |i o|z| |l r IHl IHr] using ty_ind';
        try (cbn [subsumes_canonical]; destruct (Fc _ (or_introl eq_refl)) as [H1 H2]; apply subsumes_member_total; assumption).
      destruct IHl as (n1 & b1 & H1); [intros; apply Fc; cbn; apply in_or_app; auto|].
      destruct IHr as (n2 & b2 & H2); [intros; apply Fc; cbn; apply in_or_app; auto|].
      exists (n1 + n2). change (subsumes_canonical (n1 + n2) E (TUnion l r) (TUnion dl dr)) with
        (andr (subsumes_canonical (n1 + n2) E l (TUnion dl dr)) (subsumes_canonical (n1 + n2) E r (TUnion dl dr))).
      rewrite (subsumes_canonical_mono n1 (n1 + n2) l _ b1 ltac:(lia) H1),
        (subsumes_canonical_mono n2 (n1 + n2) r _ b2 ltac:(lia) H2). destruct b1; cbn; eauto.
    - destruct (fixed_equal_total c d (canon_idem _ _ Hc) (canon_idem _ _ Hd)
                   (names_canon f E s c (wf_names _ _ W) Ns Hc) (names_canon f E t d (wf_names _ _ W) Nt Hd)) as (n & b & H).
      exists n, b. destruct c, d; try discriminate; exact H.
  Qed.

  Lemma subsumes_mono n m s t b : n <= m -> subsumes n E s t = Ok b -> subsumes m E s t = Ok b.
  Proof.
    intros Hnm H. unfold subsumes in *. apply bind_ok in H. destruct H as (c & Hc & H).
    apply bind_ok in H. destruct H as (d & Hd & H). apply bind_ok. exists c. split; [eapply canon_mono; eassumption|].
    apply bind_ok. exists d. split; [eapply canon_mono; eassumption|]. eapply subsumes_canonical_mono; eassumption.
  Qed.

  Lemma subsumes_total s t : ok s -> ok t -> exists n b, subsumes n E s t = Ok b.
  Proof.
    intros [Ds Ns] [Dt Nt]. destruct (canon_ex s Ds) as [c Hc]. destruct (canon_ex t Dt) as [d Hd].
    destruct (subsumes_canonical_total s t c d Hc Hd Ns Nt) as (k & b & H).
    destruct Hc as [n Hc], Hd as [m Hd]. exists (n + m + k), b. unfold subsumes.
    apply bind_ok. exists c. split; [eapply canon_mono; [|exact Hc]; lia|].
    apply bind_ok. exists d. split; [eapply canon_mono; [|exact Hd]; lia|].
    eapply subsumes_canonical_mono; [|exact H]. lia.
  Qed.

  (** ** Subtyping as inclusion of alternatives *)
  Lemma alt_defined t b : defined E t -> alt E t b -> defined E b.
  Proof.
    intros D H. induction H as [x t a Hl _ IH|l r a _ IH|l r a _ IH|t _ _].
    - apply IH. eapply (wf_closed _ _ W), Hl.
    - apply IH. apply defined_union in D. tauto.
    - apply IH. apply defined_union in D. tauto.
    - exact D.
  Qed.

  Lemma canon_any_iff t c : canon E t c -> (teq E t TAny <-> c = TAny).
  Proof.
    intros H. split.
    - intros G. eapply teq_canon_eq; [exact G|exact H|exists 1; reflexivity].
    - intros ->. apply canon_sound, H.
  Qed.

  Lemma collects_ex t : defined E t -> exists s, collects E t [] s /\ s <> [].
  Proof. intros D. destruct (canon_total E t (wf_closed _ _ W) (wf_acyclic _ _ W) D) as [_ G]. apply G. Qed.

  Lemma has_alt_any t c : defined E t -> canon E t c -> (has_alt E t TAny <-> c = TAny).
  Proof.
    intros D H. apply canon_collects in H. destruct H as (s & Hs & Hred).
    destruct (collects_acc _ _ _ _ Hs) as (m & Hm & Hms & Hnu & _). rewrite (collects_fun _ _ _ _ _ Hm Hs) in *.
    rewrite (has_alt_members t s TAny Hs); [|intros x []]. split.
    - intros (x & [[|n] Hx] & Hin); [discriminate|]. cbn in Hx. injection Hx as <-.
      apply any_first in Hin; [|exact Hms]. destruct Hin as [ts ->]. cbn in Hred. rewrite fold_join_any in Hred. congruence.
    - intros ->. exists TAny. split; [exists 1; reflexivity|].
      pose proof (reduce_members s TAny Hms Hnu Hred) as G. cbn in G. unfold norm in G.
      destruct (set_mem TAny s) eqn:Em; [apply set_mem_In, Em|]. rewrite <- G. left. reflexivity.
  Qed.

  (** For a type without [any], the written alternatives are the members. *)
  Lemma has_alt_canon t c a : defined E t -> defined E a -> canon E t c -> c <> TAny ->
    (has_alt E t a <-> exists x, canon E a x /\ In x (members_canonical c)).
  Proof.
    intros D Da H Hna. pose proof H as H0. apply canon_collects in H. destruct H as (s & Hs & Hred).
    destruct (collects_acc _ _ _ _ Hs) as (m & Hm & Hms & Hnu & _). rewrite (collects_fun _ _ _ _ _ Hm Hs) in *.
    rewrite (has_alt_members t s a Hs Da), (reduce_members s c Hms Hnu Hred). unfold norm.
    destruct (set_mem TAny s) eqn:Em; [|tauto]. exfalso. apply Hna. apply (has_alt_any t c D H0).
    apply (has_alt_members t s TAny Hs); [intros x []|]. exists TAny. split; [exists 1; reflexivity|apply set_mem_In, Em].
  Qed.

  Lemma sub_alts s t : defined E s -> defined E t ->
    (sub E s t <-> has_alt E t TAny \/ forall a, defined E a -> has_alt E s a -> has_alt E t a).
  Proof.
    intros Ds Dt. destruct (canon_ex s Ds) as [c Hc]. destruct (canon_ex t Dt) as [d Hd].
    rewrite (has_alt_any t d Dt Hd). split.
    - intros H. pose proof (sub_msub s t H Ds Dt c d Hc Hd) as [G|G].
      + left. apply any_member; [eapply canon_cform, Hd|exact G].
      + destruct (is_any d) eqn:Ed; [left; apply is_any_true, Ed|]. right. intros a Da.
        assert (Hdn : d <> TAny) by (intros ->; discriminate).
        assert (Hcn : c <> TAny).
        { intros ->. apply Hdn. apply any_member; [eapply canon_cform, Hd|apply G; left; reflexivity]. }
        rewrite (has_alt_canon s c a Ds Da Hc Hcn), (has_alt_canon t d a Dt Da Hd Hdn).
        intros (x & Hx & Hin). exists x. split; [exact Hx|apply G, Hin].
    - intros [->|H]; [eapply msub_sub; [exact Hc|exact Hd|left; left; reflexivity]|].
      destruct (is_any d) eqn:Ed; [apply is_any_true in Ed; subst; eapply msub_sub; [exact Hc|exact Hd|left; left; reflexivity]|].
      assert (Hdn : d <> TAny) by (intros ->; discriminate).
      eapply msub_sub; [exact Hc|exact Hd|]. right. intros x Hx.
      destruct (members_fixed s c Hc x Hx) as [Fx _].
      assert (Dx : defined E x) by (eapply canon_defined, Fx).
      assert (Hs : has_alt E s x).
      { destruct (is_any c) eqn:Ec.
        - apply is_any_true in Ec. subst. destruct Hx as [<-|[]]. apply (has_alt_any s TAny Ds Hc). reflexivity.
        - apply (has_alt_canon s c x Ds Dx Hc); [intros ->; discriminate|]. eauto. }
      apply H in Hs; [|exact Dx]. apply (has_alt_canon t d x Dt Dx Hd Hdn) in Hs.
      destruct Hs as (y & Hy & Hin). rewrite (canon_fun _ _ _ _ Hy Fx) in Hin. exact Hin.
  Qed.

  (** ** Difference *)
  Lemma sset_of_list l : sset (fold_right set_insert [] l) /\ forall x, In x (fold_right set_insert [] l) <-> In x l.
  Proof.
    induction l as [|y ys [IH1 IH2]]; cbn [fold_right]; [split; [constructor|tauto]|].
    split; [apply set_insert_sset, IH1|]. intros x. rewrite set_insert_In, IH2. cbn. intuition.
  Qed.

  Lemma create_members ts t : Forall nonunion ts -> create_union ts = Some t -> members_canonical t = ts.
  Proof.
    destruct ts as [|u us]; [discriminate|]. cbn. intros H G. injection G as <-. inversion H as [|? ? Hu Hus]; subst.
    assert (Hacc : forall t, members_canonical (fold_left TUnion us t) = members_canonical t ++ us).
    { clear - Hus. induction Hus as [|v vs Hv _ IH]; intros t; cbn [fold_left]; [rewrite app_nil_r; reflexivity|].
      rewrite IH. cbn [members_canonical]. rewrite (members_nonunion v Hv), <- app_assoc. reflexivity. }
    rewrite Hacc, (members_nonunion u Hu). reflexivity.
  Qed.

  Lemma difference_members n s t c d o : canon E s c -> canon E t d ->
    type_difference n E s t = Ok o ->
    (d = TAny /\ o = None) \/ (d <> TAny /\ c = TAny /\ o = Some TAny) \/
    (d <> TAny /\ c <> TAny /\ exists ms, (forall x, In x ms <-> In x (members_canonical c) /\ ~ In x (members_canonical d)) /\
       Forall nonunion ms /\ o = create_union ms).
  Proof.
    intros Hc Hd H. unfold type_difference in H. apply bind_ok in H. destruct H as (c' & Hc' & H).
    apply bind_ok in H. destruct H as (d' & Hd' & H).
    assert (c' = c) as -> by (eapply canon_fun; [exists n; exact Hc'|exact Hc]).
    assert (d' = d) as -> by (eapply canon_fun; [exists n; exact Hd'|exact Hd]).
    destruct (is_any d) eqn:Ed; [left; split; [apply is_any_true, Ed|congruence]|].
    assert (Hdn : d <> TAny) by (intros ->; discriminate).
    destruct (is_any c) eqn:Ec; [right; left; apply is_any_true in Ec; subst; split; [exact Hdn|split; congruence]|].
    assert (Hcn : c <> TAny) by (intros ->; discriminate).
    right. right. split; [exact Hdn|]. split; [exact Hcn|]. unfold union_members in H.
    apply bind_ok in H. destruct H as (ms & Hms & H). apply bind_ok in Hms. destruct Hms as (c2 & Hc2 & Hms).
    apply bind_ok in H. destruct H as (ms' & Hms' & H). apply bind_ok in Hms'. destruct Hms' as (d2 & Hd2 & Hms').
    assert (c2 = c) as -> by (eapply canon_fun; [exists n; exact Hc2|eapply canon_idem, Hc]).
    assert (d2 = d) as -> by (eapply canon_fun; [exists n; exact Hd2|eapply canon_idem, Hd]).
    injection Hms as <-. injection Hms' as <-. injection H as <-. eexists. split; [|split; [|reflexivity]].
    - intros x. rewrite filter_In, (proj2 (sset_of_list _)), negb_true_iff, <- not_true_iff_false, set_mem_In, (proj2 (sset_of_list _)). tauto.
    - apply Forall_forall. intros x Hx. apply filter_In in Hx. destruct Hx as [Hx _]. apply (proj1 (proj2 (sset_of_list (members_canonical c)) x)) in Hx.
      exact (proj2 (members_fixed s c Hc x Hx)).
  Qed.

  Lemma create_none ms : create_union ms = None <-> ms = [].
  Proof. destruct ms; cbn; split; congruence. Qed.

  Lemma difference_none n s t o : ok s -> ok t ->
    type_difference n E s t = Ok o -> (o = None <-> sub E s t).
  Proof.
    intros [Ds Ns] [Dt Nt] H. destruct (canon_ex s Ds) as [c Hc]. destruct (canon_ex t Dt) as [d Hd].
    assert (Hs : sub E s t <-> msub c d) by (split; [intros G; eapply sub_msub; eassumption|apply msub_sub; assumption]).
    rewrite Hs. unfold msub.
    destruct (difference_members n s t c d o Hc Hd H) as [[-> ->]|[(Hd' & -> & ->)|(Hd' & Hc' & ms & Hms & Hnu & ->)]].
    - cbn. tauto.
    - split; [discriminate|]. cbn. intros [G|G]; exfalso; apply Hd'; apply any_member; [eapply canon_cform, Hd|exact G|eapply canon_cform, Hd|apply G; left; reflexivity].
    - rewrite create_none. split.
      + intros ->. right. intros x Hx. destruct (set_mem x (members_canonical d)) eqn:Em; [apply set_mem_In, Em|].
        exfalso. apply (proj2 (Hms x)). split; [exact Hx|]. rewrite <- set_mem_In, Em. discriminate.
      + intros [G|G]; [exfalso; apply Hd', any_member; [eapply canon_cform, Hd|exact G]|].
        destruct ms as [|x xs]; [reflexivity|]. exfalso. apply (proj1 (Hms x) (or_introl eq_refl)).
        apply G. apply (proj1 (Hms x) (or_introl eq_refl)).
  Qed.

  Lemma members_alt d a : references d = [] -> (alt E d a <-> In a (members_canonical d)).
  Proof.
    induction d as [| | |b r _ _|e _|k v _ _| | |i o|z| |l r IHl IHr] using ty_ind'; intros Hr;
      try (cbn [members_canonical]; split; [intros H; inversion H; subst; left; reflexivity|intros [<-|[]]; apply alt_self; intros; discriminate]).
    - discriminate.
    - cbn in Hr. apply app_nil_inv in Hr. destruct Hr as [H1 H2]. cbn [members_canonical]. rewrite in_app_iff, <- (IHl H1), <- (IHr H2). split.
      + intros H. inversion H; subst; auto.
        exfalso. match goal with G : forall l r, TUnion _ _ <> TUnion l r |- _ => eapply G; reflexivity end.
      + intros [H|H]; [apply alt_left|apply alt_right]; exact H.
  Qed.

  Lemma members_references d : references d = [] <-> forall x, In x (members_canonical d) -> references x = [].
  Proof.
    induction d as [| | |b r _ _|e _|k v _ _| | |i o|z| |l r IHl IHr] using ty_ind'; cbn [members_canonical];
      try (split; [intros H x [<-|[]]; exact H|intros H; apply H; left; reflexivity]).
    cbn [references]. split.
    - intros H. apply app_nil_inv in H. destruct H as [H1 H2]. intros x Hx. apply in_app_or in Hx.
      destruct Hx as [Hx|Hx]; [apply IHl|apply IHr]; assumption.
    - intros H. rewrite (proj2 IHl), (proj2 IHr); [reflexivity| |]; intros x Hx; apply H, in_or_app; auto.
  Qed.

  Lemma difference_alts n s t u a : ok s -> ok t -> defined E a ->
    ~ has_alt E s TAny -> type_difference n E s t = Ok (Some u) ->
    (has_alt E u a <-> has_alt E s a /\ ~ has_alt E t a).
  Proof.
    intros [Ds Ns] [Dt Nt] Da Hs H. destruct (canon_ex s Ds) as [c Hc]. destruct (canon_ex t Dt) as [d Hd].
    rewrite (has_alt_any s c Ds Hc) in Hs.
    destruct (difference_members n s t c d (Some u) Hc Hd H) as [[_ G]|[(_ & G & _)|(Hd' & Hc' & ms & Hms & Hnu & Hu)]]; [discriminate|contradiction|].
    symmetry in Hu. pose proof (create_members ms u Hnu Hu) as Hmu.
    assert (Hru : references u = []).
    { apply members_references. rewrite Hmu. intros x Hx. apply Hms in Hx. destruct Hx as [Hx _].
      eapply canon_references, (proj1 (members_fixed s c Hc x Hx)). }
    destruct (canon_ex a Da) as [x Hx].
    assert (Hua : has_alt E u a <-> In x ms).
    { unfold has_alt. split.
      - intros (b & Hb & Heq). apply members_alt in Hb; [|exact Hru]. rewrite Hmu in Hb.
        assert (b = x) as ->; [|exact Hb]. eapply teq_canon_eq; [exact Heq| |exact Hx].
        apply Hms in Hb. exact (proj1 (members_fixed s c Hc b (proj1 Hb))).
      - intros Hin. exists x. split; [apply members_alt; [exact Hru|rewrite Hmu; exact Hin]|]. apply teq_sym, canon_sound, Hx. }
    rewrite Hua, Hms, (has_alt_canon s c a Ds Da Hc Hs), (has_alt_canon t d a Dt Da Hd Hd'). split.
    - intros [G1 G2]. split; [eauto|]. intros (y & Hy & Hin). rewrite (canon_fun _ _ _ _ Hy Hx) in Hin. contradiction.
    - intros [(y & Hy & Hin) G]. rewrite (canon_fun _ _ _ _ Hy Hx) in Hin. split; [exact Hin|]. intros F. apply G. eauto.
  Qed.

  Lemma difference_any n s t u : ok s -> ok t -> has_alt E s TAny ->
    type_difference n E s t = Ok (Some u) -> u = TAny /\ ~ has_alt E t TAny.
  Proof.
    intros [Ds Ns] [Dt Nt] Hs H. destruct (canon_ex s Ds) as [c Hc]. destruct (canon_ex t Dt) as [d Hd].
    rewrite (has_alt_any s c Ds Hc) in Hs. rewrite (has_alt_any t d Dt Hd).
    destruct (difference_members n s t c d (Some u) Hc Hd H) as [[_ G]|[(G1 & _ & G2)|(_ & Hc' & _)]]; [discriminate| |contradiction].
    split; [injection G2 as ->; reflexivity|exact G1].
  Qed.

  Lemma difference_total s t : ok s -> ok t -> exists n o, type_difference n E s t = Ok o.
  Proof.
    intros [Ds Ns] [Dt Nt]. destruct (canon_ex s Ds) as [c Hc]. destruct (canon_ex t Dt) as [d Hd].
    pose proof (canon_idem _ _ Hc) as Fc. pose proof (canon_idem _ _ Hd) as Fd.
    destruct Hc as [n1 H1], Hd as [n2 H2], Fc as [n3 H3], Fd as [n4 H4].
    exists (n1 + n2 + n3 + n4). unfold type_difference, union_members.
    rewrite (canon_mono n1 (n1 + n2 + n3 + n4) _ _ _ ltac:(lia) H1). cbn [bind].
    rewrite (canon_mono n2 (n1 + n2 + n3 + n4) _ _ _ ltac:(lia) H2). cbn [bind].
    destruct (is_any d); [eauto|]. destruct (is_any c); [eauto|].
    rewrite (canon_mono n3 (n1 + n2 + n3 + n4) _ _ _ ltac:(lia) H3). cbn [bind].
    rewrite (canon_mono n4 (n1 + n2 + n3 + n4) _ _ _ ltac:(lia) H4). cbn [bind]. eauto.
  Qed.

  Lemma sub_antisym_ok s t : ok s -> ok t -> (sub E s t /\ sub E t s <-> teq E s t).
  Proof.
    intros [Ds _] [Dt _]. split.
    - intros [H G]. destruct (canon_ex s Ds) as [c Hc]. destruct (canon_ex t Dt) as [d Hd].
      pose proof (sub_msub s t H Ds Dt c d Hc Hd) as H1. pose proof (sub_msub t s G Dt Ds d c Hd Hc) as H2.
      assert (c = d) as ->; [|eapply canon_teq; eassumption].
      pose proof (canon_cform _ _ _ Hc) as Fc. pose proof (canon_cform _ _ _ Hd) as Fd.
      apply cform_inj; [exact Fc|exact Fd|].
      destruct H1 as [H1|H1].
      + pose proof (any_member d Fd H1) as ->. destruct H2 as [H2|H2].
        * rewrite (any_member c Fc H2). tauto.
        * assert (H3 : In TAny (members_canonical c)) by (apply H2; exact H1). rewrite (any_member c Fc H3). tauto.
      + destruct H2 as [H2|H2].
        * pose proof (any_member c Fc H2) as ->. assert (H3 : In TAny (members_canonical d)) by (apply H1; exact H2).
          rewrite (any_member d Fd H3). tauto.
        * intros x. split; [apply H1|apply H2].
    - intros H. split; apply sub_eq; [exact H|apply teq_sym, H].
  Qed.
End Decide.

Lemma sub_antisym f E s t : wf f E -> ok f E s -> ok f E t -> (sub E s t /\ sub E t s <-> teq E s t).
Proof. intros W. exact (sub_antisym_ok f E W s t). Qed.
