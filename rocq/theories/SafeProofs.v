(** Accepted programs do not go wrong. *)
From Coq Require Import String List ZArith Bool Lia Arith.
From Verif Require Import Base Mir HirType HirTypeOrder HirTypeSpec HirTypeTermination HirTypeEq HirTypeSub Hir HirSpec HirTyping HirParts HirExact HirSound LowerSpec
  LowerTypeSpec LowerTypeBase DataSpec HirMeaning HirForever LowerMeaning SafeSpec.
Import ListNotations.
Local Open Scope list_scope.

Scheme value_min := Minimality for value_of Sort Prop
  with variables_min := Minimality for variables_of Sort Prop.

Lemma lookup_combine {A} xs (us : list A) x u : lookup (combine xs us) x = Some u -> In u us.
Proof.
  revert us. induction xs as [|y xs IH]; intros [|v us] H; try discriminate. cbn in H. destruct (String.eqb x y); [injection H as <-; left; reflexivity|right; eauto].
Qed.

Lemma nodup_lookup {A} (l : list (string * A)) x a : NoDup (map fst l) -> In (x, a) l -> lookup l x = Some a.
Proof.
  induction l as [|[y b] l IH]; intros N H; [destruct H|]. cbn in N. inversion N as [|? ? N1 N2]; subst. cbn. destruct H as [H|H].
  - injection H as -> ->. rewrite String.eqb_refl. reflexivity.
  - destruct (String.eqb_spec x y) as [<-|Q]; [|apply IH; assumption]. exfalso. apply N1. apply (in_map fst) in H. exact H.
Qed.

Lemma forall2_length {A B} (P : A -> B -> Prop) l l' : Forall2 P l l' -> length l = length l'.
Proof. induction 1; cbn; congruence. Qed.

Lemma member_dec (t : ty) s : In t s \/ ~ In t s.
Proof. destruct (set_mem t s) eqn:Q; [left; apply set_mem_In, Q|right; intros H; apply set_mem_In in H; congruence]. Qed.

Section Types.
  Variable f : string -> string.
  Variable E : tenv.
  Hypothesis W : wf f E.
  Notation canon := (canon E).

  Lemma teq_same s t c : teq E s t -> canon s c -> canon t c.
  Proof. intros H Hc. eapply (teq_canon E s t); [apply W|apply W|exact H|exact Hc]. Qed.

  Lemma defined_teq s t : teq E s t -> defined E s -> defined E t.
  Proof. intros H. apply (teq_defined E s t (wf_closed _ _ W) H). Qed.

  Lemma teq_dec s t : defined E s -> defined E t -> teq E s t \/ ~ teq E s t.
  Proof.
    intros Ds Dt. destruct (canon_ex f E W s Ds) as [c Hc]. destruct (canon_ex f E W t Dt) as [d Hd]. destruct (member_dec c [d]) as [[<-|[]]|Q].
    - left. exact (canon_teq E s t d Hc Hd).
    - right. intros H. apply Q. left. symmetry. exact (teq_canon_eq f E W s t c d H Hc Hd).
  Qed.

  Lemma has_alt_dec t a : defined E t -> defined E a -> takes E t a \/ ~ takes E t a.
  Proof.
    intros D Da. destruct (canon_ex f E W t D) as [c Hc]. destruct (member_dec c [TAny]) as [[Q|[]]|Q].
    - left. right. apply (has_alt_any f E W t c D Hc). symmetry. exact Q.
    - assert (N : c <> TAny) by (intros ->; apply Q; left; reflexivity). destruct (canon_ex f E W a Da) as [x Hx].
      destruct (member_dec x (members_canonical c)) as [I|I].
      + left. left. apply (has_alt_canon f E W t c a D Da Hc N). eauto.
      + right. intros [H|H].
        * apply (has_alt_canon f E W t c a D Da Hc N) in H. destruct H as (y & Hy & H). rewrite (canon_fun _ _ _ _ Hy Hx) in H. contradiction.
        * apply (has_alt_any f E W t c D Hc) in H. contradiction.
  Qed.

  Lemma takes_varies t a : defined E t -> defined E a -> takes E t a -> ~ teq E t a -> varies E t.
  Proof.
    intros D Da T N b Sb Q. destruct (canon_ex f E W t D) as [c Hc].
    assert (Sc : single c) by (eapply (canon_single E); [exact Sb|exact (teq_same _ _ _ Q Hc)]).
    assert (Nc : c <> TAny) by (intros ->; contradiction). destruct T as [T|T].
    - apply (has_alt_canon f E W t c a D Da Hc Nc) in T. destruct T as (x & Hx & I). rewrite (single_members c Sc) in I. destruct I as [<-|[]].
      apply N. exact (canon_teq E t a c Hc Hx).
    - apply (has_alt_any f E W t c D Hc) in T. contradiction.
  Qed.

  Lemma teq_alt t a : single a -> defined E t -> teq E t a -> has_alt E t a.
  Proof.
    intros Sa D Q. destruct (canon_ex f E W t D) as [c Hc]. pose proof (teq_same _ _ _ Q Hc) as Ha. pose proof (canon_single E a c Sa Ha) as Sc.
    apply (has_alt_canon f E W t c a D (defined_teq _ _ Q D) Hc); [intros ->; contradiction|]. exists c. split; [exact Ha|]. rewrite (single_members c Sc). left. reflexivity.
  Qed.

  Lemma takes_sub s t a : defined E s -> defined E t -> defined E a -> sub E s t -> takes E s a -> takes E t a.
  Proof.
    intros Ds Dt Da H T. apply (sub_alts f E W s t Ds Dt) in H. destruct H as [H|H]; [right; exact H|].
    destruct T as [T|T]; [left; apply H; assumption|right; apply H; [intros x []|exact T]].
  Qed.

  Lemma takes_teq s t a : defined E a -> teq E s t -> defined E s -> takes E s a -> takes E t a.
  Proof. intros Da Q Ds. apply takes_sub; [exact Ds|exact (defined_teq _ _ Q Ds)|exact Da|apply sub_eq, Q]. Qed.

  Lemma varies_teq s t : teq E s t -> varies E s -> varies E t.
  Proof. intros Q V a Sa H. apply (V a Sa). eapply teq_trans; eassumption. Qed.

  Lemma function_parts a r a' r' : teq E (TFunction a r) (TFunction a' r') -> defined E (TFunction a r) -> Forall2 (teq E) a a' /\ teq E r r'.
  Proof.
    intros Q D. destruct (canon_ex f E W _ D) as [c Hc]. pose proof (teq_same _ _ _ Q Hc) as Hc'.
    apply canon_function in Hc. destruct Hc as (x & y & Hx & Hy & ->). apply canon_function in Hc'. destruct Hc' as (x' & y' & Hx' & Hy' & Z). injection Z as <- <-.
    split; [|exact (canon_teq E _ _ _ Hy Hy')]. clear - W Hx Hx'. revert a' Hx'. induction Hx as [|t c ts cs H _ IH]; intros a' Hx'; inversion Hx'; subst; constructor.
    - eapply (canon_teq E); eassumption.
    - apply IH. assumption.
  Qed.
End Types.

Section Safe.
  Variable f : string -> string.
  Variable E : tenv.
  Variable R : renv.
  Variable own : renv.
  Variable p : hmodule.
  Variable w : world.
  Variable outer : list (string * list hvalue) -> string -> list hvalue -> hvalue -> Prop.
  Notation value_of := (value_of E R own p).
  Notation variables_of := (variables_of E R own p).
  Notation sound_body := (sound_body E own p).
  Notation named := (named p).
  Notation state_of := (state_of E R own p).
  Notation nested := (nested E own p w outer).
  Notation ev := (ev E own p w outer).
  Notation evs := (evs E own p w outer).
  Notation applies := (applies E own p w outer).
  Notation goes_on := (goes_on E own p w outer).
  Notation M := (module_env p).

  Hypothesis W : wf f E.
  Hypothesis Hown : forall r fts, lookup own r = Some fts -> lookup R r = Some fts.
  Hypothesis Hfields : forall r fts, lookup R r = Some fts -> NoDup (map fst fts) /\ forall x ft, In (x, ft) fts -> defined E ft.
  Hypothesis Hdefs : forall g l, lookup (h_defs p) g = Some l ->
    lookup M g = Some (lambda_type l) /\ exact E R (rev (l_arguments l) ++ M) (l_body l) (l_result l) /\ sound_body (l_result l) (l_body l) /\
    defined E (lambda_type l).
  Hypothesis Hdeclared : forall g t, lookup M g = Some t -> lookup (h_defs p) g = None -> lookup (h_declared p) g = Some t.
  Hypothesis Hfunctions : forall g t, lookup (h_declared p) g = Some t -> defined E t /\ exists ts r, t = TFunction ts r.
  Hypothesis Houter : outside_answers E R own p outer.

  (** *** Values *)
  Lemma value_teq s t u : defined E s -> teq E s t -> value_of s u -> value_of t u.
  Proof.
    intros D Q H. apply teq_sym in Q as Q'. inversion H; subst; try (econstructor; eauto using teq_trans; fail).
    apply of_tagged; try assumption; [eapply varies_teq; eassumption|eapply (takes_teq f E W); eassumption].
  Qed.

  Lemma function_of a r t : teq E t (TFunction a r) -> canon E t t -> match t with TFunction _ _ => True | _ => False end.
  Proof. intros Q Hc. apply (teq_same f E W _ _ _ Q) in Hc. apply canon_function in Hc. destruct Hc as (x & y & _ & _ & ->). exact I. Qed.

  Lemma base_differ s t : teq E s t -> canon E s s -> canon E t t -> s = t.
  Proof. intros Q Hs Ht. exact (teq_canon_eq f E W s t s t Q Hs Ht). Qed.

  Ltac base := exists 1; reflexivity.
  Ltac other := exfalso; match goal with
    | V : varies E ?t |- _ => exact (V t I (teq_refl _ _))
    | Q : teq E _ (TFunction _ _) |- _ => apply function_of in Q; [exact Q|base]
    | Q : teq E _ _ |- _ => apply base_differ in Q; [discriminate Q|base|base]
    end.

  Lemma boolean_is u : value_of TBoolean u -> exists b, u = UBoolean b.
  Proof. intros H. inversion H; subst; try other. eauto. Qed.
  Lemma number_is u : value_of TNumber u -> exists z, u = UNumber z.
  Proof. intros H. inversion H; subst; try other. eauto. Qed.
  Lemma string_is u : value_of TString u -> exists s, u = UString s.
  Proof. intros H. inversion H; subst; try other. eauto. Qed.
  Lemma error_is u : value_of TError u -> exists v, u = UError v /\ value_of TAny v.
  Proof. intros H. inversion H; subst; try other. eauto. Qed.
  Lemma record_is r o u : value_of (TRecord r o) u -> exists fts fs get, u = URecord r fs /\ lookup R r = Some fts /\
    (forall x ft, lookup fts x = Some ft -> lookup fs x = Some (get x)) /\ forall x ft, lookup fts x = Some ft -> value_of ft (get x).
  Proof. intros H. inversion H as [| | | | |? r' o' fts fs get Q Hl Hg Hv| | |]; subst; try other. apply base_differ in Q; [|base|base]. injection Q as <- <-. eauto 8. Qed.
  Lemma tagged_is t u : varies E t -> value_of t u -> exists a v, u = UTagged a v /\ single a /\ defined E a /\ takes E t a /\ value_of a v.
  Proof.
    intros V H. inversion H; subst; try (exfalso; match goal with Q : teq E t _ |- _ => refine (V _ _ Q); exact I end).
    do 2 eexists. split; [reflexivity|]. auto.
  Qed.
  Lemma varies_any : varies E TAny.
  Proof. intros a Sa Q. destruct (canon_ex f E W a) as [c Hc].
    - apply (defined_teq f E W _ _ Q). intros x [].
    - apply (canon_single E a c Sa) in Hc as Sc. apply teq_sym in Q. apply (teq_same f E W _ _ _ Q) in Hc. destruct Hc as [[|m] Hc]; [discriminate|]. cbn in Hc. injection Hc as <-. contradiction.
  Qed.
  Lemma no_carrier t c u : canon E t c -> match c with TList _ | TMap _ _ => True | _ => False end -> value_of t u -> False.
  Proof.
    intros Hc K H.
    inversion H; subst; try (match goal with Z : teq E t _ |- _ => apply (teq_same f E W _ _ _ Z) in Hc end;
      first [apply canon_function in Hc; destruct Hc as (? & ? & _ & _ & ->); exact K
            |destruct Hc as [[|m] Hc]; [discriminate|]; cbn in Hc; injection Hc as <-; exact K]).
    match goal with V : varies E t |- _ => refine (V c _ (canon_sound _ _ _ Hc)); destruct c; try contradiction; exact I end.
  Qed.

  Lemma values_teq ss ts us : Forall (defined E) ss -> Forall2 (teq E) ss ts -> Forall2 value_of ss us -> Forall2 value_of ts us.
  Proof.
    intros D Q. revert us D. induction Q as [|s t ss ts Q _ IH]; intros us D H; inversion H; subst; constructor.
    - eapply value_teq; [|exact Q|assumption]. inversion D. assumption.
    - apply IH; [inversion D|]; assumption.
  Qed.

  (** *** Data that can be compared *)
  Lemma simple_read : forall t u, value_of t u -> forall D, simple_types E own D -> D t -> exists x, read E own t u x.
  Proof.
    apply (value_min E R own p (fun t u => forall D, simple_types E own D -> D t -> exists x, read E own t u x) (fun _ _ => True)); try (intros; exact I);
      try (intros; eexists; constructor; assumption).
    - intros t u Q _ _ D S Dt. exfalso. destruct (S t Dt) as (Df & _ & A). destruct (A TError I (teq_alt f E W t TError I Df Q)) as [K|[K|[K|[K|(r & o & fts & K & _)]]]];
      (apply base_differ in K; [discriminate K|base|base]).
    - intros t r o fts fs get Q Hr Hg _ IH D S Dt. destruct (S t Dt) as (Df & _ & A).
      destruct (A (TRecord r o) I (teq_alt f E W t (TRecord r o) I Df Q)) as [K|[K|[K|[K|(r' & o' & fts' & K & Ho & Dd)]]]];
        try (apply base_differ in K; [discriminate K|base|base]).
      apply base_differ in K; [|base|base]. injection K as <- <-. pose proof (Hown _ _ Ho) as Hr'. assert (fts' = fts) as -> by congruence.
      assert (exists xs, read_fields E own fts fs xs) as [xs Hx].
      { destruct (Hfields _ _ Hr) as [N _]. assert (L : forall x ft, In (x, ft) fts -> lookup fts x = Some ft) by (intros; apply nodup_lookup; assumption).
        enough (Z : forall gts, incl gts fts -> exists xs, read_fields E own gts fs xs) by exact (Z fts (incl_refl _)).
        induction gts as [|[y t'] gts IHg]; intros Hi; [eexists; apply read_nil|]. pose proof (Hi _ (or_introl eq_refl)) as Iy.
        assert (Hy : lookup fts y = Some t') by (apply L, Iy). destruct (IH y t' Hy D S) as [x Hx]; [eapply Dd, Iy|].
        destruct IHg as [xs Hxs]; [intros z Hz; apply Hi; right; exact Hz|].
        exists (x :: xs). eapply read_cons; [apply Hg with t'; exact Hy|exact Hx|exact Hxs]. }
      eexists. eapply read_record; eassumption.
    - intros t a u V Sa Da T _ IH D S Dt. destruct (S t Dt) as (Df & Na & A). assert (Ha : has_alt E t a) by (destruct T as [T|T]; [exact T|contradiction]).
      assert (N : ~ teq E t a) by (apply V, Sa).
      assert (Dd : exists D', simple_types E own D' /\ D' a).
      { exists (fun b => D b \/ (defined E b /\ exists a0, single a0 /\ teq E a0 b /\ has_alt E t a0)). split; [|right; split; [exact Da|exists a; split; [exact Sa|split; [apply teq_refl|exact Ha]]]].
        intros b [Db|(Db & a0 & S0 & Q0 & H0)].
        - destruct (S b Db) as (B1 & B2 & B3). split; [exact B1|]. split; [exact B2|]. intros c Sc Hc. destruct (B3 c Sc Hc) as [K|[K|[K|[K|(r & o & fts & K & Ho & Dd)]]]]; auto.
          do 4 right. exists r, o, fts. split; [exact K|]. split; [exact Ho|]. intros x ft Hx. left. eapply Dd, Hx.
        - destruct (canon_ex f E W b Db) as [c Hc]. assert (Sc : single c) by (eapply (canon_single E); [exact S0|eapply (teq_same f E W); [apply teq_sym, Q0|exact Hc]]).
          split; [exact Db|]. split; [intros K; apply (has_alt_any f E W b c Db Hc) in K; subst c; contradiction|].
          intros c' Sc' Hc'. assert (Nc : c <> TAny) by (intros ->; contradiction).
          assert (Dc' : defined E c').
          { destruct Hc' as (b' & Hb & Qb). apply (defined_teq f E W _ _ Qb). exact (alt_defined f E W b b' Db Hb). }
          apply (has_alt_canon f E W b c c' Db Dc' Hc Nc) in Hc'. destruct Hc' as (z & Hz & I'). rewrite (single_members c Sc) in I'. destruct I' as [<-|[]].
          assert (Q1 : teq E a0 c') by (eapply teq_trans; [exact Q0|eapply canon_teq; eassumption]).
          destruct (A a0 S0 H0) as [K|[K|[K|[K|(r & o & fts & K & Ho & Dd)]]]]; [left|right; left|right; right; left|do 3 right; left|do 4 right];
            try (eapply teq_trans; [apply teq_sym, Q1|exact K]).
          exists r, o, fts. split; [eapply teq_trans; [apply teq_sym, Q1|exact K]|]. split; [exact Ho|]. intros x ft Hx. left. eapply Dd, Hx. }
      destruct Dd as (D' & S' & Da'). destruct (IH D' S' Da') as [x Hx]. exists x. apply read_tagged; assumption.
    - intros t xs ts r body rho G Q _ _ _ _ _ D S Dt. exfalso. destruct (S t Dt) as (Df & _ & A).
      destruct (A (TFunction ts r) I (teq_alt f E W t (TFunction ts r) I Df Q)) as [K|[K|[K|[K|(r' & o & fts & K & _)]]]]; apply teq_sym, function_of in K; try exact K; base.
    - intros t g ft ts r _ Q _ _ D S Dt. exfalso. destruct (S t Dt) as (Df & _ & A).
      destruct (A (TFunction ts r) I (teq_alt f E W t (TFunction ts r) I Df Q)) as [K|[K|[K|[K|(r' & o & fts & K & _)]]]]; apply teq_sym, function_of in K; try exact K; base.
  Qed.

  (** *** Types of expressions *)
  Definition known_types (e : hexpr) : Prop := forall e' t, occurs e' e -> In t (node_types e') -> defined E t.
  Definition env_defined (G : venv) : Prop := forall x t, lookup G x = Some t -> defined E t.

  Lemma defined_function ts r : defined E (TFunction ts r) <-> Forall (defined E) ts /\ defined E r.
  Proof.
    unfold defined. cbn [references]. split.
    - intros H. split; [apply Forall_forall; intros t Ht x Hx; apply H, in_app_iff; left; apply in_flat_map; eauto|intros x Hx; apply H, in_app_iff; right; exact Hx].
    - intros [H1 H2] x Hx. apply in_app_iff in Hx. destruct Hx as [Hx|Hx]; [|apply H2, Hx]. apply in_flat_map in Hx. destruct Hx as (t & Ht & Hx).
      rewrite Forall_forall in H1. exact (H1 t Ht x Hx).
  Qed.

  Lemma occurs_part e a b : In a (eager_parts e) -> occurs b a -> occurs b e.
  Proof. intros Ha (c & c' & H). exists c, c'. eapply within_eager; eassumption. Qed.
  Lemma occurs_body e r a b : In (r, a) (bodies e) -> occurs b a -> occurs b e.
  Proof. intros Ha (c & c' & H). destruct (within_any _ _ _ _ H (Some r)) as [d Hd]. exists c, d. eapply within_body; eassumption. Qed.
  Lemma occurs_itself e : occurs e e.
  Proof. exists None, None. apply within_self. Qed.

  Lemma known_part e a : known_types e -> In a (eager_parts e) -> known_types a.
  Proof. intros K H e' t O. apply K. eapply occurs_part; eassumption. Qed.

  Lemma env_cons G x t : env_defined G -> defined E t -> env_defined ((x, t) :: G).
  Proof. intros H D y s Hs. cbn in Hs. destruct (String.eqb y x); [injection Hs as <-; exact D|exact (H _ _ Hs)]. Qed.

  Lemma exact_defined G e t : exact E R G e t -> env_defined G -> known_types e -> defined E t.
  Proof.
    induction 1; intros HG K; try (intros ? []; fail);
      try (match goal with |- defined E ?t => eapply (K _ t (occurs_itself _)); cbn; auto; fail end).
    - eapply (defined_teq f E W); [eassumption|]. apply IHexact; assumption.
    - eapply HG. eassumption.
    - assert (D : defined E (TFunction ts r)) by (eapply (defined_teq f E W); [eassumption|]; eapply (K _ ft (occurs_itself _)); left; reflexivity).
      apply defined_function in D. tauto.
    - assert (D : defined E (TFunction ts r)) by (eapply (defined_teq f E W); [eassumption|]; eapply (K _ ft (occurs_itself _)); left; reflexivity).
      apply defined_function in D. tauto.
    - apply IHexact2; [exact HG|]. eapply known_part; [exact K|]. right. left. reflexivity.
    - apply IHexact3; [exact HG|]. eapply known_part; [exact K|]. cbn. auto.
    - apply IHexact4; [exact HG|]. eapply known_part; [exact K|]. cbn. auto.
    - destruct branches as [|[bt b] bs]; [contradiction|]. apply (H4 bt b (or_introl eq_refl)).
      + apply env_cons; [exact HG|]. apply (K _ bt (occurs_itself _)). left. reflexivity.
      + eapply known_part; [exact K|]. right. left. reflexivity.
    - destruct branches as [|[bt b] bs]; [contradiction|]. apply (H4 bt b (or_introl eq_refl)).
      + apply env_cons; [exact HG|]. apply (K _ bt (occurs_itself _)). left. reflexivity.
      + eapply known_part; [exact K|]. right. left. reflexivity.
    - apply defined_function. split; [apply Forall_forall; intros t Ht|]; eapply (K _ _ (occurs_itself _)); cbn; apply in_app_iff; [left; exact Ht|right; left; reflexivity].
    - apply IHexact2; [exact HG|]. eapply known_part; [exact K|]. right. left. reflexivity.
    - apply IHexact2; [apply env_cons; [exact HG|]|eapply known_part; [exact K|]; right; left; reflexivity]. apply (K _ s (occurs_itself _)). left. reflexivity.
    - intros x Hx. eapply (K _ t (occurs_itself _)); [left; reflexivity|exact Hx].
    - intros x Hx. eapply (K _ t (occurs_itself _)); [left; reflexivity|exact Hx].
    - cbn. intros x Hx. apply in_app_iff in Hx. destruct Hx as [Hx|Hx]; eapply (K _ _ (occurs_itself _)); try exact Hx; cbn; auto.
    - apply (Hfields _ _ H0) with x. apply lookup_In. assumption.
    - apply defined_function. split; [constructor|]. apply (K _ t (occurs_itself _)). left. reflexivity.
  Qed.

  Lemma module_defined : env_defined M.
  Proof.
    intros g t H. destruct (lookup (h_defs p) g) as [l|] eqn:Q.
    - destruct (Hdefs g l Q) as (Z & _ & _ & D). rewrite Z in H. injection H as <-. exact D.
    - apply (Hfunctions g t). apply Hdeclared; assumption.
  Qed.

  Lemma variables_lookup G rho x : variables_of G rho ->
    lookup G x = None /\ lookup rho x = None \/ exists t u, lookup G x = Some t /\ lookup rho x = Some u /\ defined E t /\ value_of t u.
  Proof.
    induction 1 as [|y t u G rho D V H IH]; [left; split; reflexivity|]. cbn. destruct (String.eqb x y); [right; eauto 8|exact IH].
  Qed.

  Lemma all_defined G rho : variables_of G rho -> env_defined (G ++ M).
  Proof.
    intros H x t. rewrite lookup_app'. destruct (variables_lookup G rho x H) as [[-> _]|(t' & u & -> & _ & D & _)]; [apply module_defined|intros Q; injection Q as <-; exact D].
  Qed.

  Lemma variables_app G rho G' rho' : variables_of G rho -> variables_of G' rho' -> variables_of (G ++ G') (rho ++ rho').
  Proof. intros H H'. induction H; [exact H'|]. constructor; assumption. Qed.

  Lemma variables_bound xs ts us G rho : length xs = length ts -> Forall (defined E) ts -> Forall2 value_of ts us -> variables_of G rho ->
    variables_of (rev (combine xs ts) ++ G) (bound_to xs us rho).
  Proof.
    intros L D V H. unfold bound_to. apply variables_app; [|exact H]. clear H. revert ts us L D V. induction xs as [|x xs IH]; intros [|t ts] us L D V; try discriminate; inversion V; subst; [constructor|].
    cbn [combine rev]. inversion D; subst. apply variables_app; [apply IH; [injection L as L; exact L|assumption|assumption]|]. constructor; [assumption|assumption|constructor].
  Qed.

  (** *** Parts of bodies *)
  Lemma sound_part r e a : sound_body r e -> In a (eager_parts e) -> sound_body r a.
  Proof.
    intros (D & C & V & T) H. split; [exact D|]. split; [intros e' O; apply C; eapply occurs_part; eassumption|]. split; [intros g O; apply V; eapply occurs_part; eassumption|].
    intros c t b Hw. apply (T c t b). eapply within_eager; eassumption.
  Qed.
  Lemma sound_lambda r args r' b : sound_body r (HLambda args r' b) -> sound_body r' b.
  Proof.
    intros (D & C & V & T). split; [|split; [|split]].
    - apply (C _ (occurs_itself _)). cbn. apply in_app_iff. right. left. reflexivity.
    - intros e' O. apply C. eapply occurs_body; [left; reflexivity|exact O].
    - intros g O. apply V. eapply occurs_body; [left; reflexivity|exact O].
    - intros c t a Hw. apply (T c t a). eapply within_body; [left; reflexivity|exact Hw].
  Qed.
  Lemma sound_known r e : sound_body r e -> known_types e.
  Proof. intros (_ & C & _) e' t O. apply C. exact O. Qed.
  Lemma sound_node r e : sound_body r e -> covered E own e /\ forall t, In t (node_types e) -> defined E t.
  Proof. intros (_ & C & _). apply C, occurs_itself. Qed.
  Lemma operands_eager e a : In a (operands e) -> In a (eager_parts e).
  Proof.
    destruct e as [| |ft g args| | | | | | | | | | | |o l r| | | | | | | | |]; cbn [operands eager_parts]; try (intros H; exact H); try (cbn; tauto).
    - destruct g as [|b| | | | | | | | | | | | | | | | | | | | | |]; try (intros H; exact H). destruct b; try (intros []; fail); destruct args as [|? [|? ?]]; cbn; tauto.
    - destruct o; cbn; tauto.
  Qed.
  Lemma operands_call ft g args : (forall b, g <> HBuiltIn b) -> operands (HCall ft g args) = g :: args.
  Proof. intros N. destruct g; try reflexivity. exfalso. eapply N. reflexivity. Qed.
  Lemma exact_not_builtin G e t : exact E R G e t -> forall b, e <> HBuiltIn b.
  Proof. induction 1; try discriminate. assumption. Qed.

  (** *** Progress *)
  Definition good (n : nat) (r : ty) (s : hstate) (rho : henv) (e : hexpr) (t : ty) : Prop :=
    (exists u s', ev s rho e (Gives u) s' /\ value_of t u /\ state_of s') \/
    (exists u s', ev s rho e (Returns u) s' /\ value_of r u /\ state_of s') \/
    nested n (s, rho, e).
  Definition safe (n z : nat) : Prop := forall r s rho G e t, size e < z ->
    variables_of G rho -> exact E R (G ++ M) e t -> sound_body r e -> state_of s -> good n r s rho e t.

  Lemma part_size e a : In a (eager_parts e) -> size a < size e.
  Proof. intros H. apply parts_size, in_app_iff. left. exact H. Qed.

  Lemma evs_ok n z r G rho es ts : safe n z -> variables_of G rho -> Forall2 (exact E R (G ++ M)) es ts -> (forall e, In e es -> size e < z /\ sound_body r e) ->
    forall s, state_of s ->
    (exists us s', evs s rho es (inl us) s' /\ Forall2 value_of ts us /\ state_of s') \/
    (exists u s', evs s rho es (inr u) s' /\ value_of r u /\ state_of s') \/
    (exists before e1 after us s1, es = before ++ e1 :: after /\ evs s rho before (inl us) s1 /\ nested n (s1, rho, e1)).
  Proof.
    intros Hs HG H. induction H as [|e t es ts H _ IH]; intros S s St.
    - left. exists [], s. split; [constructor|]. split; [constructor|exact St].
    - destruct (S _ (or_introl eq_refl)) as [Lz Se]. destruct (Hs r s rho G e t Lz HG H Se St) as [(u & s1 & He & Hu & St1)|[(u & s1 & He & Hu & St1)|F]].
      + destruct (IH (fun e' I => S e' (or_intror I)) s1 St1) as [(us & s2 & Hes & Hus & St2)|[(v & s2 & Hes & Hv & St2)|(before & e1 & after & us & s2 & Q & Hb & F)]].
        * left. exists (u :: us), s2. split; [econstructor; eassumption|]. split; [constructor; assumption|exact St2].
        * right; left. exists v, s2. split; [eapply evs_later; eassumption|]. split; assumption.
        * right; right. exists (e :: before), e1, after, (u :: us), s2. split; [rewrite Q; reflexivity|]. split; [econstructor; eassumption|exact F].
      + right; left. exists u, s1. split; [apply evs_returns, He|]. split; assumption.
      + right; right. exists [], e, es, [], s. split; [reflexivity|]. split; [constructor|exact F].
  Qed.

  Lemma ops_ok n r G rho e t ts s : safe n (size e) -> variables_of G rho -> Forall2 (exact E R (G ++ M)) (operands e) ts -> sound_body r e -> state_of s ->
    (exists us s', evs s rho (operands e) (inl us) s' /\ Forall2 value_of ts us /\ state_of s') \/ good n r s rho e t.
  Proof.
    intros Hs HG H S St.
    destruct (evs_ok n (size e) r G rho _ _ Hs HG H (fun a Ha => conj (part_size _ _ (operands_eager _ _ Ha)) (sound_part _ _ _ S (operands_eager _ _ Ha))) s St)
      as [Z|[(u & s' & He & Hu & St')|(before & e1 & after & us & s1 & Q & Hb & F)]]; [left; exact Z|right; right; left|right; right; right].
    - exists u, s'. split; [apply ev_early, He|]. split; assumption.
    - eapply nested_inside; [eapply on_operand; eassumption|exact F].
  Qed.

  Lemma tail n r s rho e t s1 rho1 e1 : good n r s1 rho1 e1 t -> (forall o s2, ev s1 rho1 e1 o s2 -> ev s rho e o s2) -> goes_on (s, rho, e) (s1, rho1, e1) ->
    good n r s rho e t.
  Proof.
    intros [(u & s' & He & Hu & St)|[(u & s' & He & Hu & St)|F]] Hev Hgo; [left|right; left|right; right].
    - exists u, s'. split; [apply Hev, He|]. split; assumption.
    - exists u, s'. split; [apply Hev, He|]. split; assumption.
    - eapply nested_inside; eassumption.
  Qed.

  Lemma gives n r s rho e t u s' : ev s rho e (Gives u) s' -> value_of t u -> state_of s' -> good n r s rho e t.
  Proof. intros. left. eauto. Qed.

  Lemma kept_state s g l u : lookup (h_defs p) g = Some l -> value_of (l_result l) u -> state_of s -> state_of (add_kept s g u).
  Proof.
    intros Hg Hu St g' l' u' Hg' H. cbn [add_kept kept lookup] in H. destruct (String.eqb_spec g' g) as [->|N].
    - injection H as <-. rewrite Hg in Hg'. injection Hg' as <-. exact Hu.
    - exact (St g' l' u' Hg' H).
  Qed.

  Lemma combine_fst_snd {A B} (l : list (A * B)) : combine (map fst l) (map snd l) = l.
  Proof. induction l as [|[a b] l IH]; [reflexivity|]. cbn. rewrite IH. reflexivity. Qed.

  Lemma call_ok n ts r g us s : (forall z, safe n z) -> defined E (TFunction ts r) -> value_of (TFunction ts r) g -> Forall2 value_of ts us -> state_of s ->
    (exists v s', applies s g us v s' /\ value_of r v /\ state_of s') \/ exists q, enters p s g us q /\ nested n q.
  Proof.
    intros Hs D V Hus St. pose proof D as D0. apply defined_function in D0. destruct D0 as [Dts Dr].
    inversion V as [? ? Q|? ? Q|? ? Q|? Q|? ? Q|? ? ? ? ? ? Q|? ? ? Vt|? xs ts' r' body rho G Q L HG He Sb|? g' ft ts' r' Hnm Q Hg Qf]; subst;
      try (exfalso; apply teq_sym, function_of in Q; [exact Q|base]; fail).
    - exfalso. exact (Vt (TFunction ts r) I (teq_refl _ _)).
    - destruct (function_parts f E W _ _ _ _ Q D) as [Qts Qr]. assert (Dr' : defined E r') by exact (defined_teq f E W _ _ Qr Dr).
      assert (Dts' : Forall (defined E) ts').
      { assert (D' : defined E (TFunction ts' r')) by exact (defined_teq f E W _ _ Q D). apply defined_function in D'. tauto. }
      pose proof (values_teq _ _ _ Dts Qts Hus) as Hus'. pose proof (variables_bound xs ts' us G rho L Dts' Hus' HG) as HG'.
      assert (Ln : length us = length xs) by (rewrite L; symmetry; eapply forall2_length; exact Hus').
      rewrite app_assoc in He. destruct (Hs _ r' s _ _ _ _ (Nat.lt_succ_diag_r _) HG' He Sb St) as [(u & s' & Hev & Hu & St')|[(u & s' & Hev & Hu & St')|F]].
      + left. exists u, s'. split; [exact (ap_closure E own p w outer s xs body rho us (Gives u) s' Ln Hev)|]. split; [eapply value_teq; [exact Dr'|apply teq_sym, Qr|exact Hu]|exact St'].
      + left. exists u, s'. split; [exact (ap_closure E own p w outer s xs body rho us (Returns u) s' Ln Hev)|]. split; [eapply value_teq; [exact Dr'|apply teq_sym, Qr|exact Hu]|exact St'].
      + right. eexists. split; [apply en_closure, Ln|exact F].
    - destruct (lookup (h_defs p) g') as [l|] eqn:Hl.
      + destruct (Hdefs g' l Hl) as (Z & He & Sb & Dl). rewrite Z in Hg. injection Hg as <-. unfold lambda_type in *.
        assert (Ql : teq E (TFunction ts r) (TFunction (map snd (l_arguments l)) (l_result l))) by (eapply teq_trans; [exact Q|apply teq_sym, Qf]).
        destruct (function_parts f E W _ _ _ _ Ql D) as [Qts Qr]. assert (Dr' : defined E (l_result l)) by exact (defined_teq f E W _ _ Qr Dr).
        apply defined_function in Dl. destruct Dl as [Dts' _].
        pose proof (values_teq _ _ _ Dts Qts Hus) as Hus'.
        assert (HG : variables_of (rev (l_arguments l) ++ []) (bound_to (map fst (l_arguments l)) us [])).
        { rewrite <- (combine_fst_snd (l_arguments l)) at 1. apply variables_bound; [rewrite !map_length; reflexivity|exact Dts'|exact Hus'|constructor]. }
        assert (Ln : length us = length (l_arguments l)) by (apply forall2_length in Hus'; rewrite map_length in Hus'; symmetry; exact Hus').
        assert (He' : exact E R ((rev (l_arguments l) ++ []) ++ M) (l_body l) (l_result l)) by (rewrite app_nil_r; exact He).
        pose proof (Hs _ (l_result l) s _ _ _ _ (Nat.lt_succ_diag_r _) HG He' Sb St) as K. destruct (l_arguments l) as [|a args] eqn:La.
        * destruct us; [|discriminate]. cbn in K. destruct (lookup (kept s) g') as [u|] eqn:Hk.
          { left. exists u, s. split; [eapply ap_kept; eassumption|]. split; [|exact St]. eapply value_teq; [exact Dr'|apply teq_sym, Qr|]. eapply St; eassumption. }
          unfold bound_to in K. cbn in K. destruct K as [(u & s' & Hev & Hu & St')|[(u & s' & Hev & Hu & St')|F]].
          { left. exists u, (add_kept s' g' u). split; [eapply ap_once; eassumption|]. split; [eapply value_teq; [exact Dr'|apply teq_sym, Qr|exact Hu]|]. eapply kept_state; eassumption. }
          { left. exists u, s'. split; [eapply ap_again; eassumption|]. split; [eapply value_teq; [exact Dr'|apply teq_sym, Qr|exact Hu]|exact St']. }
          right. eexists. split; [eapply en_once; eassumption|exact F].
        * assert (Na : l_arguments l <> []) by (rewrite La; discriminate). rewrite <- La in K, Ln.
          destruct K as [(u & s' & Hev & Hu & St')|[(u & s' & Hev & Hu & St')|F]].
          { left. exists u, s'. split; [exact (ap_function E own p w outer s g' l us (Gives u) s' Hl Na Ln Hev)|]. split; [eapply value_teq; [exact Dr'|apply teq_sym, Qr|exact Hu]|exact St']. }
          { left. exists u, s'. split; [exact (ap_function E own p w outer s g' l us (Returns u) s' Hl Na Ln Hev)|]. split; [eapply value_teq; [exact Dr'|apply teq_sym, Qr|exact Hu]|exact St']. }
          right. eexists. split; [eapply en_function; eassumption|exact F].
      + pose proof (Hdeclared _ _ Hg Hl) as Hd. destruct (function_parts f E W _ _ _ _ Q D) as [Qts Qr]. pose proof (values_teq _ _ _ Dts Qts Hus) as Hus'.
        assert (Hnm' : named g') by (destruct Hnm as [Hnm|Hnm]; [congruence|exact Hnm]). destruct (Houter (calls s) g' ft ts' r' us Hnm' Hl Hd Qf Hus') as (v & Ho & Hv). left. exists v, (add_call s g' us).
        split; [apply ap_outer; [exact Hl|congruence|exact Ho]|]. split; [eapply value_teq; [|apply teq_sym, Qr|exact Hv]; exact (defined_teq f E W _ _ Qr Dr)|exact St].
  Qed.

  (** *** Fields *)
  Definition field_type (fts : list (string * ty)) (x : string) : ty := match lookup fts x with Some t => t | None => TNone end.

  Lemma fields_exact G fts (fs : list (string * hexpr)) :
    (forall x e, In (x, e) fs -> lookup fts x <> None) -> (forall x e ft, In (x, e) fs -> lookup fts x = Some ft -> exact E R G e ft) ->
    Forall2 (exact E R G) (map snd fs) (map (fun xe => field_type fts (fst xe)) fs).
  Proof.
    induction fs as [|[x e] fs IH]; intros H1 H2; [constructor|]. cbn [map fst snd]. constructor.
    - unfold field_type. pose proof (H1 x e (or_introl eq_refl)) as N. destruct (lookup fts x) as [ft|] eqn:Q; [|contradiction]. exact (H2 x e ft (or_introl eq_refl) Q).
    - apply IH; intros; [eapply H1|eapply H2]; try (right; eassumption); assumption.
  Qed.

  Lemma fields_get fts (fs : list (string * hexpr)) us x ft : Forall2 value_of (map (fun xe => field_type fts (fst xe)) fs) us -> lookup fts x = Some ft ->
    match lookup (combine (map fst fs) us) x with Some u => value_of ft u | None => ~ In x (map fst fs) end.
  Proof.
    intros H Q. revert us H. induction fs as [|[y e] fs IH]; intros us H; inversion H; subst; cbn; [intros []|]. destruct (String.eqb_spec x y) as [->|N].
    - cbn [fst] in *. unfold field_type in *. rewrite Q in *. assumption.
    - match goal with Z : Forall2 _ _ _ |- _ => specialize (IH _ Z) end. destruct (lookup (combine (map fst fs) l') x); [exact IH|]. intros [Z|Z]; [congruence|contradiction].
  Qed.

  Lemma forall2_combine {A B} (P : A -> B -> Prop) xs ys : length xs = length ys -> (forall x y, In (x, y) (combine xs ys) -> P x y) -> Forall2 P xs ys.
  Proof.
    revert ys. induction xs as [|x xs IH]; intros [|y ys] L H; try discriminate; constructor; [apply H; left; reflexivity|].
    apply IH; [injection L as L; exact L|]. intros a b Hab. apply H. right. exact Hab.
  Qed.

  Lemma first_taker (bs : list (ty * hexpr)) a : defined E a -> (forall bt b, In (bt, b) bs -> defined E bt) -> (exists b, In b bs /\ takes E (fst b) a) ->
    exists b, first_taking E a bs b.
  Proof.
    intros Da. induction bs as [|b bs IH]; intros D (b' & Hb & T); [destruct Hb|]. destruct (has_alt_dec f E W (fst b) a) as [Y|N]; [apply (D (fst b) (snd b)); left; destruct b; reflexivity|exact Da| |].
    - exists b, [], bs. split; [reflexivity|]. split; [exact Y|intros ? []].
    - destruct IH as (b1 & before & after & Q & T1 & F); [intros; eapply D; right; eassumption| |].
      + destruct Hb as [<-|Hb]; [contradiction|]. exists b'. split; assumption.
      + exists b1, (b :: before), after. split; [rewrite Q; reflexivity|]. split; [exact T1|]. intros b2 [<-|Hb2]; [exact N|exact (F _ Hb2)].
  Qed.

  Lemma open_value t a v : defined E t -> defined E a -> single a -> takes E t a -> value_of a v -> exists u, opened E t a v u /\ value_of t u.
  Proof.
    intros D Da Sa T V. destruct (teq_dec f E W t a D Da) as [Q|N].
    - exists v. split; [left; split; [exact Q|reflexivity]|]. eapply value_teq; [exact Da|apply teq_sym, Q|exact V].
    - exists (UTagged a v). split; [right; split; [exact N|reflexivity]|]. apply of_tagged; try assumption. eapply (takes_varies f E W); eassumption.
  Qed.

  Lemma if_type_ok n r s rho G x a bs els u t :
    safe n (size (HIfType x a bs els)) -> variables_of G rho -> sound_body r (HIfType x a bs els) -> state_of s ->
    exact E R (G ++ M) a u -> varies E u -> (forall bt b, In (bt, b) bs -> ~ has_alt E bt TAny) ->
    (forall et b, els = Some (et, b) -> et <> None) ->
    (forall bt b, In (bt, b) (all_branches bs els) -> exact E R ((x, bt) :: G ++ M) b t) ->
    covers E u (map fst bs) (match els with Some (et, _) => et | None => None end) ->
    good n r s rho (HIfType x a bs els) t.
  Proof.
    intros Hs HG S St Ha Vu Nany Hels Hb Hc.
    destruct (ops_ok n r G rho (HIfType x a bs els) t [u] s Hs HG) as [(us & s1 & He & Hus & St1)|K]; [constructor; [exact Ha|constructor]|exact S|exact St| |exact K].
    cbn [operands] in He. inversion Hus as [|? u0 ? ? Hu Hnil]; subst. inversion Hnil; subst. destruct (tagged_is u u0 Vu Hu) as (a0 & v & -> & Sa & Da & T & Hv).
    assert (Db : forall bt b, In (bt, b) (all_branches bs els) -> defined E bt).
    { intros bt b H. apply (proj2 (sound_node _ _ S)). unfold all_branches in H. apply in_app_iff in H. cbn [node_types]. apply in_app_iff. destruct H as [H|H]; [left; apply (in_map fst) in H; exact H|right].
      destruct els as [[[et|] b']|]; try destruct H. cbn. left. congruence. destruct H. }
    assert (X : exists b, In b (all_branches bs els) /\ takes E (fst b) a0).
    { assert (Inb : forall b0, In b0 (map fst bs) -> exists b, In b (all_branches bs els) /\ fst b = b0).
      { intros b0 H. apply in_map_iff in H. destruct H as (b & <- & H). exists b. split; [unfold all_branches; apply in_app_iff; left; exact H|reflexivity]. }
      assert (Ine : forall b0, match els with Some (et, _) => et | None => None end = Some b0 -> exists b, In b (all_branches bs els) /\ fst b = b0).
      { intros b0 H. destruct els as [[et b']|]; [|discriminate]. subst et. exists (b0, b'). split; [unfold all_branches; apply in_app_iff; right; left; reflexivity|reflexivity]. }
      destruct T as [T|T].
      - destruct (Hc a0 Da T) as [(b0 & H & T0)|(b0 & H & T0)]; [destruct (Inb b0 H) as (b & H' & <-)|destruct (Ine b0 H) as (b & H' & <-)]; eauto.
      - destruct (Hc TAny ltac:(intros ? []) T) as [(b0 & H & T0)|(b0 & H & T0)].
        + exfalso. destruct (in_map_iff fst bs b0) as [Z _]. destruct (Z H) as ([bt b] & Q & H'). cbn in Q. subst bt. apply (Nany b0 b H'). destruct T0; assumption.
        + destruct (Ine b0 H) as (b & H' & <-). exists b. split; [exact H'|]. right. destruct T0; assumption. }
    destruct (first_taker _ a0 Da Db X) as ([bt body] & F). destruct F as (before & after & Q & Tb & F).
    assert (Hin : In (bt, body) (all_branches bs els)) by (rewrite Q; apply in_app_iff; right; left; reflexivity).
    assert (F' : first_taking E a0 (all_branches bs els) (bt, body)) by (exists before, after; auto).
    destruct (open_value bt a0 v (Db _ _ Hin) Da Sa Tb Hv) as (u1 & Ho & Hu').
    eapply tail with (s1 := s1) (rho1 := (x, u1) :: rho) (e1 := body).
    - assert (Ib : In body (eager_parts (HIfType x a bs els))); [|apply (Hs r s1 ((x, u1) :: rho) ((x, bt) :: G)); [apply part_size, Ib|constructor; [exact (Db _ _ Hin)|exact Hu'|exact HG]|exact (Hb _ _ Hin)|eapply sound_part; [exact S|exact Ib]|exact St1]].
      cbn [eager_parts]. right. unfold all_branches in Hin. apply in_app_iff in Hin. apply in_app_iff. destruct Hin as [H|H]; [left; apply (in_map snd) in H; exact H|right].
      destruct els as [[[et|] b']|]; try destruct H as []. left. congruence. destruct H.
    - intros o s2 H. eapply ev_if_type; eassumption.
    - eapply on_if_type; eassumption.
  Qed.

  Lemma single_dec c : single c \/ ~ single c.
  Proof. destruct c; cbn; tauto. Qed.

  Lemma alt_union l r a : has_alt E (TUnion l r) a -> has_alt E l a \/ has_alt E r a.
  Proof.
    intros (b & A & Q). inversion A; subst; [left; exists b; auto|right; exists b; auto|]. exfalso. eapply H0. reflexivity.
  Qed.

  Lemma alt_error a : has_alt E TError a -> teq E TError a.
  Proof. intros (b & A & Q). inversion A; subst. exact Q. Qed.

  Lemma error_any : ~ has_alt E TError TAny.
  Proof. intros H. apply alt_error in H. apply base_differ in H; [discriminate|base|base]. Qed.

  Ltac ops ts := match goal with |- good ?n ?r ?s ?rho ?e ?t =>
    match goal with Hs : safe n _, HG : variables_of ?G rho, S : sound_body r e, St : state_of s |- _ =>
      let us := fresh "us" in let s1 := fresh "s1" in let He := fresh "He" in let Hus := fresh "Hus" in let St1 := fresh "St1" in let K := fresh "K" in
      destruct (ops_ok n r G rho e t ts s Hs HG) as [(us & s1 & He & Hus & St1)|K]; [try (repeat (constructor; [assumption|]); constructor)|exact S|exact St| |exact K];
      cbn [operands] in He end end.
  Ltac one := match goal with H : Forall2 _ [_] _ |- _ => inversion H as [|? ? ? ? ? H']; subst; inversion H'; subst; clear H H' end.
  Ltac two := match goal with H : Forall2 _ [_; _] _ |- _ => inversion H as [|? ? ? ? ? H']; subst; inversion H' as [|? ? ? ? ? H'']; subst; inversion H''; subst; clear H H' H'' end.

  Theorem is_safe n : forall z, safe n z.
  Proof.
    induction n as [|n IHn]; [intros z r s rho G e t _ _ _ _ _; right; right; apply nested_any|]. induction z as [|z IHz]; [intros r s rho G e t L; lia|].
    intros r s rho G e t Lz HG H S St.
    assert (Hs : safe (Datatypes.S n) (size e)) by (intros r1 s1 rho1 G1 e1 t1 L1; apply IHz; lia). clear IHz Lz z. remember (G ++ M) as GM eqn:Q.
    induction H as [G0 e s0 t H IH T|G0 b|G0|G0 z|G0 z|G0 x t H|G0 ft g args ts r0 T Hg _ L Ha _|G0 ft b args ts r0 Hb T L Ha _|G0 c a b t Hc _ Ha _ Hb _|G0 et l first rest a b t _ _ _ _ _ _|G0 kt vt x m k a b t _ _ _ _ _ _ _ _
      |G0 x a u bs t Ha _ Vu Nb Hbs Hb _ Hc|G0 x a u bs et b' t Ha _ Vu Nb Hbs Hb _ Hc Hb' _|G0 args r0 b Hb _|G0 s0 b e t Hb _ He _|G0 x s0 b e t Hb _ He _|G0 t es _ _ _ _|G0 t el bs G' _ _ _|G0 k v es _ _ _ _ _ _
      |G0 t l r0 Ht Hl _ Hr _|G0 o l r0 Hl _ Hr _|G0 o l r0 Hl _ Hr _|G0 o t l r0 Hl _ Hr _|G0 o l r0 Hl _ Hr _|G0 e He _|G0 t e He _ V|G0 t name o fts fs T Hr Hf He _ Hall|G0 t name o fts a x ft T Hr Hx Ha _|G0 t name o fts a fs T Hr Ha _ Hf He _
      |G0 t e _ _|G0 s0 t a Ha _ Hw Nt]; subst; pose proof (sound_node _ _ S) as [C N]; try (destruct C; fail).
    - (* another form of the type *)
      assert (D : defined E s0) by (eapply exact_defined; [exact H|eapply all_defined; exact HG|eapply sound_known; exact S]).
      destruct (IH eq_refl S Hs) as [(u & s' & He & Hu & St')|K]; [left|right; exact K]. exists u, s'. split; [exact He|]. split; [eapply value_teq; eassumption|exact St'].
    - eapply gives; [constructor|constructor; apply teq_refl|exact St].
    - eapply gives; [constructor|constructor; apply teq_refl|exact St].
    - eapply gives; [constructor|constructor; apply teq_refl|exact St].
    - eapply gives; [constructor|constructor; apply teq_refl|exact St].
    - (* variables *)
      rewrite lookup_app' in H. destruct (variables_lookup G rho x HG) as [[Q1 Q2]|(t' & u & Q1 & Q2 & _ & Hu)]; rewrite Q1 in H.
      + destruct (lookup (h_defs p) x) as [l|] eqn:Hl.
        * eapply gives; [apply ev_function; [exact Q2|left; congruence]| |exact St]. destruct (Hdefs x l Hl) as (Z & _). rewrite Z in H. injection H as <-.
          unfold lambda_type in *. eapply of_function; [left; congruence|apply teq_refl|exact Z|apply teq_refl].
        * pose proof (Hdeclared _ _ H Hl) as Hd. destruct (Hfunctions _ _ Hd) as (_ & ts & r0 & ->).
          eapply gives; [apply ev_function; [exact Q2|right; congruence]| |exact St]. eapply of_function; [destruct S as (_ & _ & Hn & _); apply Hn; [apply occurs_itself|congruence]|apply teq_refl|exact H|apply teq_refl].
      + injection H as <-. eapply gives; [apply ev_variable, Q2|exact Hu|exact St].
    - (* calls *)
      pose proof (exact_not_builtin _ _ _ Hg) as Nb.
      destruct (ops_ok (Datatypes.S n) r G rho (HCall (Some ft) g args) r0 (TFunction ts r0 :: ts) s Hs HG) as [(us & s1 & He & Hus & St1)|K];
        [rewrite operands_call by exact Nb; constructor; [exact Hg|apply forall2_combine; assumption]|exact S|exact St| |exact K].
      rewrite operands_call in He by exact Nb. inversion Hus as [|? g0 ? us0 Hg0 Hus0]; subst.
      assert (D : defined E (TFunction ts r0)) by (eapply (defined_teq f E W); [exact T|]; apply N; left; reflexivity).
      destruct (call_ok n ts r0 g0 us0 s1 IHn D Hg0 Hus0 St1) as [(v & s2 & Hap & Hv & St2)|(q & Hen & F)].
      + eapply gives; [eapply ev_call; eassumption|exact Hv|exact St2].
      + right; right. eapply nested_call; eassumption.
    - (* error and source *)
      destruct C as [-> | ->]; inversion Hb; subst; destruct args as [|a [|? ?]]; try discriminate; pose proof (Ha a _ (or_introl eq_refl)) as Ha'.
      + ops [TAny]. one. destruct (tagged_is TAny _ varies_any ltac:(eassumption)) as (a0 & v & -> & Sa & Da & _ & Hv).
        destruct (teq_dec f E W a0 TError Da ltac:(intros ? [])) as [Y|Y].
        * eapply gives; [eapply ev_error_of_error; eassumption|eapply value_teq; eassumption|assumption].
        * eapply gives; [eapply ev_error; eassumption|constructor; [apply teq_refl|assumption]|assumption].
      + ops [TError]. one. destruct (error_is _ ltac:(eassumption)) as (v & -> & Hv). eapply gives; [eapply ev_source; eassumption|exact Hv|assumption].
    - (* if *)
      ops [TBoolean]. one. destruct (boolean_is _ ltac:(eassumption)) as (x & ->).
      eapply tail with (s1 := s1) (rho1 := rho) (e1 := if x then a else b).
      + apply (Hs r s1 rho G); [apply part_size; destruct x; cbn; auto|exact HG|destruct x; assumption| |assumption]. eapply sound_part; [exact S|]. destruct x; cbn; auto.
      + intros o1 s2 Hz. eapply ev_if; eassumption.
      + apply on_if. assumption.
    - (* if on types *)
      eapply if_type_ok with (u := u); try eassumption; [intros; eapply Hbs; eassumption|discriminate|].
      intros bt b H. unfold all_branches in H. rewrite app_nil_r in H. exact (Hb bt b H).
    - eapply if_type_ok with (u := u); try eassumption; [intros; eapply Hbs; eassumption|intros et0 b0 H; injection H as <- _; discriminate|].
      intros bt b H. unfold all_branches in H. apply in_app_iff in H. destruct H as [H|[H|[]]]; [exact (Hb bt b H)|injection H as <- <-; exact Hb'].
    - (* functions *)
      eapply gives; [apply ev_lambda| |exact St]. eapply of_closure; [apply teq_refl|rewrite !map_length; reflexivity|exact HG|rewrite combine_fst_snd; exact Hb|eapply sound_lambda; exact S].
    - (* blocks *)
      ops [s0]. one. eapply tail with (s1 := s1) (rho1 := rho) (e1 := e).
      + apply (Hs r s1 rho G); try assumption; [apply part_size; cbn; auto|]. eapply sound_part; [exact S|]. cbn; auto.
      + intros o1 s2 Hz. eapply ev_statement; eassumption.
      + eapply on_statement; eassumption.
    - ops [s0]. one. eapply tail with (s1 := s1) (rho1 := (x, y) :: rho) (e1 := e).
      + apply (Hs r s1 ((x, y) :: rho) ((x, s0) :: G)); try assumption; [apply part_size; cbn; auto|constructor; try assumption; apply N; left; reflexivity|]. eapply sound_part; [exact S|]. cbn; auto.
      + intros o1 s2 Hz. eapply ev_let; eassumption.
      + eapply on_let; eassumption.
    - (* + *)
      ops [t; t]. two. destruct Ht as [-> | ->].
      + destruct (number_is y ltac:(eassumption)) as (a & ->). destruct (number_is y0 ltac:(eassumption)) as (b & ->).
        eapply gives; [eapply ev_binary; [eassumption|constructor]|constructor; apply teq_refl|assumption].
      + destruct (string_is y ltac:(eassumption)) as (a & ->). destruct (string_is y0 ltac:(eassumption)) as (b & ->).
        eapply gives; [eapply ev_binary; [eassumption|constructor]|constructor; apply teq_refl|assumption].
    - ops [TNumber; TNumber]. two. destruct (number_is y ltac:(eassumption)) as (a & ->). destruct (number_is y0 ltac:(eassumption)) as (b & ->).
      destruct o; (eapply gives; [eapply ev_binary; [eassumption|constructor]|constructor; apply teq_refl|assumption]).
    - (* and, or *)
      ops [TBoolean]. one. destruct (boolean_is _ ltac:(eassumption)) as (x & ->).
      assert (K : good (Datatypes.S n) r s1 rho r0 TBoolean) by (apply (Hs r s1 rho G); try assumption; [apply part_size; cbn; auto|eapply sound_part; [exact S|]; cbn; auto]).
      destruct o, x.
      + eapply tail; [exact K|intros o1 s2 Hz; eapply ev_and; eassumption|apply on_and; assumption].
      + eapply gives; [eapply ev_and; [eassumption|constructor]|constructor; apply teq_refl|assumption].
      + eapply gives; [eapply ev_or; [eassumption|constructor]|constructor; apply teq_refl|assumption].
      + eapply tail; [exact K|intros o1 s2 Hz; eapply ev_or; eassumption|apply on_or; assumption].
    - (* == *)
      destruct C as (Ho & D & HD & Dt).
      destruct (Hs r s rho G l t ltac:(apply part_size; cbn; auto) HG Hl ltac:(eapply sound_part; [exact S|]; cbn; auto) St) as [(u & s1 & He & Hu & St1)|[(u & s1 & He & Hu & St1)|F]].
      + destruct (simple_read t u Hu D HD Dt) as [x Hx]. assert (He1 : evs s rho [l] (inl [u]) s1) by (econstructor; [exact He|constructor]).
        destruct (Hs r s1 rho G r0 t ltac:(apply part_size; cbn; auto) HG Hr ltac:(eapply sound_part; [exact S|]; cbn; auto) St1) as [(v & s2 & He2 & Hv & St2)|[(v & s2 & He2 & Hv & St2)|F]].
        * destruct (simple_read t v Hv D HD Dt) as [y Hy].
          eapply gives; [eapply ev_equality; [econstructor; [exact He|econstructor; [exact He2|constructor]]|exact Ho|exact Hx|exact Hy]|constructor; apply teq_refl|exact St2].
        * right; left. exists v, s2. split; [eapply ev_equality_right; [exact Ho|exact He1|exact Hx|apply evs_returns, He2]|]. split; assumption.
        * right; right. eapply nested_inside; [eapply on_equality_right; [exact Ho|exact He1|exact Hx]|exact F].
      + right; left. exists u, s1. split; [apply ev_equality_left; [exact Ho|apply evs_returns, He]|]. split; assumption.
      + right; right. eapply nested_inside; [apply on_equality_left, Ho|exact F].
    - ops [TNumber; TNumber]. two. destruct (number_is y ltac:(eassumption)) as (a & ->). destruct (number_is y0 ltac:(eassumption)) as (b & ->).
      destruct o; (eapply gives; [eapply ev_binary; [eassumption|constructor]|constructor; apply teq_refl|assumption]).
    - ops [TBoolean]. one. destruct (boolean_is _ ltac:(eassumption)) as (x & ->).
      eapply gives; [apply ev_not; eassumption|constructor; apply teq_refl|assumption].
    - (* ? *)
      assert (Dt : defined E t) by (apply N; left; reflexivity).
      ops [TUnion t TError]. one. destruct (tagged_is _ _ V ltac:(eassumption)) as (a0 & v & -> & Sa & Da & Ta & Hv).
      destruct (teq_dec f E W a0 TError Da ltac:(intros ? [])) as [Y|Y].
      + right; left. exists (UTagged a0 v), s1. split; [eapply ev_try_error; eassumption|]. split; [|assumption].
        destruct S as (_ & _ & _ & Tr). destruct (Tr (Some r) (Some t) e (within_self _ _)) as (r' & Qr & Dr & Sr & Nr). injection Qr as <-.
        assert (Dte : defined E TError) by (intros ? []).
        assert (Te : takes E r TError) by (apply (takes_sub f E W TError r TError Dte Dr Dte Sr); left; exists TError; split; [apply alt_self; discriminate|apply teq_refl]).
        apply of_tagged; try assumption; [exact (takes_varies f E W r TError Dr Dte Te Nr)|].
        apply (takes_sub f E W TError r a0 Dte Dr Da Sr). left. apply (teq_alt f E W); [exact Sa|exact Dte|apply teq_sym, Y].
      + assert (Ha : has_alt E t a0).
        { destruct Ta as [Ta|Ta]; apply alt_union in Ta; destruct Ta as [Ta|Ta]; [exact Ta|apply alt_error, teq_sym in Ta; contradiction|contradiction|apply error_any in Ta; contradiction]. }
        destruct (open_value t a0 v Dt Da Sa (or_introl Ha) Hv) as (u & Ho & Hu). eapply gives; [eapply ev_try; eassumption|exact Hu|assumption].
    - (* records *)
      destruct (ops_ok (Datatypes.S n) r G rho (HRecord t fs) t (map (fun xe => field_type fts (fst xe)) fs) s Hs HG) as [(us & s1 & Hev & Hus & St1)|K];
        [apply fields_exact; assumption|exact S|exact St| |exact K].
      eapply gives; [eapply ev_record; eassumption| |assumption].
      eapply of_record with (get := fun x => match lookup (combine (map fst fs) us) x with Some u => u | None => UNone end); [exact T|exact Hr| |];
        intros x ft Hx; pose proof (fields_get fts fs us x ft Hus Hx) as K; assert (Ix : In x (map fst fs)) by (apply Hall; congruence);
        destruct (lookup (combine (map fst fs) us) x) as [u|]; try contradiction; [reflexivity|exact K].
    - ops [t]. one. assert (Dt : defined E t) by (apply N; left; reflexivity).
      destruct (record_is name o y) as (fts' & fs & get & -> & Hr' & Hg & Hv); [eapply value_teq; eassumption|]. rewrite Hr in Hr'. injection Hr' as <-.
      eapply gives; [eapply ev_field; [exact T|eassumption|eapply Hg; exact Hx]|apply Hv, Hx|assumption].
    - assert (Dt : defined E t) by (apply N; left; reflexivity).
      destruct (ops_ok (Datatypes.S n) r G rho (HUpdate t a fs) t (t :: map (fun xe => field_type fts (fst xe)) fs) s Hs HG) as [(us & s1 & Hev & Hus & St1)|K];
        [cbn [operands]; constructor; [exact Ha|apply fields_exact; assumption]|exact S|exact St| |exact K].
      cbn [operands] in Hev. inversion Hus as [|? old ? us0 Hold Hus0]; subst.
      destruct (record_is name o old) as (fts' & fs0 & get & -> & Hr' & Hg & Hv); [eapply value_teq; eassumption|]. rewrite Hr in Hr'. injection Hr' as <-.
      eapply gives; [eapply ev_update; eassumption| |assumption].
      eapply of_record with (get := fun x => match lookup (combine (map fst fs) us0) x with Some u => u | None => get x end); [exact T|exact Hr| |];
        intros x ft Hx; pose proof (fields_get fts fs us0 x ft Hus0 Hx) as K; rewrite ?lookup_app';
        destruct (lookup (combine (map fst fs) us0) x) as [u|]; [reflexivity|eapply Hg; exact Hx|exact K|apply Hv, Hx].
    - (* conversions *)
      assert (Ds : defined E s0) by (apply N; left; reflexivity). assert (Dt : defined E t) by (apply N; right; left; reflexivity).
      ops [s0]. one. destruct (canon_ex f E W s0 Ds) as [c Hc]. destruct (canon_ex f E W t Dt) as [d Hd].
      destruct Hw as [s0 t Hsub|s0 t a1 b1 Q _ _|s0 t a1 b1 a2 b2 Q _ _ _].
      + pose proof (canon_sound _ _ _ Hc) as Qc. pose proof (defined_teq f E W _ _ Qc Ds) as Dc. destruct (single_dec c) as [Sc|Sc].
        * eapply gives; [eapply ev_box; eassumption| |assumption].
          assert (Tc : takes E t c) by (apply (takes_sub f E W s0 t c Ds Dt Dc Hsub); left; apply (teq_alt f E W); assumption).
          apply of_tagged; try assumption; [|eapply value_teq; [exact Ds|exact Qc|assumption]]. apply (takes_varies f E W t c Dt Dc Tc). intros Qt. apply Nt. eapply teq_trans; [exact Qc|apply teq_sym, Qt].
        * assert (Vs : varies E s0) by (intros a' Sa' Qa; apply Sc; eapply (canon_single E); [exact Sa'|exact (teq_same f E W _ _ _ Qa Hc)]). eapply gives; [eapply ev_boxed; [left; exact Vs|eassumption]| |assumption].
          destruct (tagged_is s0 _ Vs ltac:(eassumption)) as (a0 & v & -> & Sa & Da & Ta & Hv). pose proof (takes_sub f E W s0 t a0 Ds Dt Da Hsub Ta) as Tt.
          apply of_tagged; try assumption. apply (takes_varies f E W t a0 Dt Da Tt). intros Qt. apply Sc.
          assert (Sd : single d) by (eapply (canon_single E); [exact Sa|exact (teq_same f E W _ _ _ Qt Hd)]).
          assert (Qd : c = d) by (eapply sub_to_single; eassumption); rewrite Qd. exact Sd.
      + exfalso. eapply no_carrier; [exact Hc| |eassumption]. apply (teq_same f E W _ _ _ Q) in Hc. apply canon_list in Hc. destruct Hc as (? & _ & ->). exact I.
      + exfalso. eapply no_carrier; [exact Hc| |eassumption]. apply (teq_same f E W _ _ _ Q) in Hc. apply canon_map in Hc. destruct Hc as (? & ? & _ & _ & ->). exact I.
  Qed.
End Safe.
