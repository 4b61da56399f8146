(** A lowered type switch runs the first branch that takes the value. *)
From Coq Require Import String Ascii List ZArith Bool Lia.
From Verif Require Import Base Mir MirSim HirType HirTypeSpec HirTypeTermination HirTypeOrder HirTypeEq HirTypeSub HirTypeId Hir HirSpec HirStrip HirMir LowerSpec LowerTag.
Import ListNotations.

Lemma first_taking_cons E a b bs br : ~ takes E (fst b) a -> first_taking E a bs br -> first_taking E a (b :: bs) br.
Proof.
  intros N (before & after & -> & H & B). exists (b :: before), after. split; [reflexivity|]. split; [exact H|].
  intros b' [<-|Hb]; auto.
Qed.

Lemma first_taking_here E a b bs : takes E (fst b) a -> first_taking E a (b :: bs) b.
Proof. intros H. exists [], bs. split; [reflexivity|]. split; [exact H|intros ? []]. Qed.

Section Switch.
  Variable f : string -> string.
  Variable E : tenv.
  Variable R : renv.
  Variable C : config.
  Variable T : ty -> Prop.
  Hypothesis Ht : tidy f E C.
  Hypothesis HT : collision_free E C T.
  Let W : wf f E := tidy_wf _ _ _ Ht.

  Definition known_branch (bt : ty) : Prop := tidy_type f E bt /\ (has_alt E bt TAny \/ uses E T bt).

  Lemma compile_alternative_any n x t e al : tidy_type f E t -> compile_alternative n E C x t e = Ok al -> ~ has_alt E t TAny.
  Proof.
    intros Tt H. unfold compile_alternative in H. apply bind_ok in H. destruct H as (c & Hc & H).
    rewrite (has_alt_any f E W t c (proj1 (proj1 Tt))); [|exists n; exact Hc]. intros ->. cbn in H.
    apply bind_ok in H. destruct H as (ms & Hms & H). destruct n as [|n]; [discriminate|]. cbn in Hms. injection Hms as <-.
    cbn in H. discriminate.
  Qed.

  (** what the theorem says of the branches [bs] and the code [run] that runs them *)
  Definition runs_first (n k : nat) (x : string) (bs : list (ty * hexpr)) (al : ty) (v b : value) (rho : env)
      (run : mode -> world -> mmodule -> (state -> value -> list value -> out value) -> state -> out value) : Prop :=
    exists br body u rho', first_taking E al bs br /\ compile n E R C k (snd br) = Ok body /\
      seen E (fst br) al v b u /\ binds rho' rho x u /\
      forall md w m call st, run md w m call st = eval md w m call rho' st body.

  Lemma branches_run n k x al v tag p rho :
    tidy_type f E al -> tags_among T al -> boxed E C al v (VVariant tag p) ->
    forall bs alts tail otherwise,
    (forall br, In br bs -> known_branch (fst br)) ->
    mapM (compile_branch n E C (compile n E R C k) x) bs = Ok alts ->
    ((exists br, In br tail /\ takes E (fst br) al) ->
       runs_first n k x tail al v (VVariant tag p) rho otherwise) ->
    (exists br, In br (bs ++ tail) /\ takes E (fst br) al) ->
    runs_first n k x (bs ++ tail) al v (VVariant tag p) rho
      (fun md w m call st => eval_alts (eval md w m call) rho st tag p alts (otherwise md w m call st)).
  Proof.
    intros Ta Ua B bs. induction bs as [|[bt b] bs IH]; intros alts tail otherwise K H HO Ex.
    - cbn in H. injection H as <-. cbn. apply HO, Ex.
    - cbn [mapM] in H. apply bind_ok in H. destruct H as (al1 & H1 & H). apply bind_ok in H. destruct H as (als & H2 & H).
      injection H as <-. unfold compile_branch in H1. apply bind_ok in H1. destruct H1 as (body & Hb & H1). cbn [fst snd] in *.
      destruct (K _ (or_introl eq_refl)) as [Tb [Ub|Ub]]; cbn [fst] in *;
        [destruct (compile_alternative_any n x bt body al1 Tb H1 Ub)|].
      destruct (alternative_spec f E C T Ht HT n x bt body al1 Tb Ub H1) as (Na & Nm & S).
      destruct (S al v tag p Ta Ua B) as [Sel Run].
      destruct (existsb (mtype_eqb tag) (a_types al1)) eqn:Ex1.
      + pose proof Ex1 as Ex2. apply existsb_mtype in Ex1. apply Sel in Ex1. destruct (Run Ex1 rho) as (u & rho' & Hs & Hbi & He).
        exists (bt, b), body, u, rho'. split; [apply first_taking_here; left; exact Ex1|].
        split; [exact Hb|]. split; [exact Hs|]. split; [exact Hbi|]. intros md w m call st. cbn [eval_alts]. rewrite Ex2, Nm. apply He.
      + assert (Nt : ~ takes E bt al).
        { intros [Q|Q]; [|exact (Na Q)]. apply Sel in Q. apply existsb_mtype in Q. congruence. }
        destruct (IH als tail otherwise) as (br & body' & u & rho' & F & Hc & Hs & Hbi & He).
        * intros br Hbr. apply K. right. exact Hbr.
        * exact H2.
        * exact HO.
        * destruct Ex as (br & Hbr & Q). exists br. split; [|exact Q]. destruct Hbr as [<-|Hbr]; [contradiction|exact Hbr].
        * exists br, body', u, rho'. split; [apply first_taking_cons; [exact Nt|exact F]|].
          split; [exact Hc|]. split; [exact Hs|]. split; [exact Hbi|]. intros md w m call st. cbn [eval_alts]. rewrite Ex1. apply He.
  Qed.

  Lemma eval_alts_app md w m call rho st tag p l l' o :
    eval_alts (eval md w m call) rho st tag p (l ++ l') o = eval_alts (eval md w m call) rho st tag p l (eval_alts (eval md w m call) rho st tag p l' o).
  Proof. induction l as [|a l IH]; [reflexivity|]. cbn. rewrite IH. reflexivity. Qed.

  Lemma switch_runs n k x a bs els e :
    compile n E R C (S k) (HIfType x a bs els) = Ok e ->
    (forall br, In br (all_branches bs els) -> known_branch (fst br)) ->
    exists a', compile n E R C k a = Ok a' /\
    forall al v b rho,
      tidy_type f E al -> tags_among T al -> boxed E C al v b ->
      (exists br, In br (all_branches bs els) /\ takes E (fst br) al) ->
      exists br body u rho', first_taking E al (all_branches bs els) br /\ compile n E R C k (snd br) = Ok body /\
        seen E (fst br) al v b u /\ binds rho' rho x u /\
        forall md w m call st st', eval md w m call rho st a' = Done b st' ->
          eval md w m call rho st e = eval md w m call rho' st' body.
  Proof.
    intros H K. cbn [compile] in H. apply bind_ok in H. destruct H as (a' & Ha & H).
    apply bind_ok in H. destruct H as (alts & Halts & H). apply bind_ok in H. destruct H as (de & Hde & H).
    injection H as <-. exists a'. split; [exact Ha|]. intros al v b rho Ta Ua B Ex.
    destruct (boxed_variant E C al v b B) as (tag & p & ->).
    assert (S : runs_first n k x (all_branches bs els) al v (VVariant tag p) rho
      (fun md w m call st => eval_alts (eval md w m call) rho st tag p alts
         (eval_alts (eval md w m call) rho st tag p (fst de)
            match snd de with Some (x, e) => eval md w m call ((x, VVariant tag p) :: rho) st e | None => Wrong end))).
    2:{ destruct S as (br & body & u & rho' & H1 & H2 & H3 & H4 & H5). exists br, body, u, rho'.
        do 4 (split; [assumption|]). intros md w m call st st' Hev. cbn [eval]. rewrite Hev. cbn [obind]. rewrite eval_alts_app. apply H5. }
    unfold all_branches in *.
    assert (Kbs : forall br, In br bs -> known_branch (fst br)) by (intros br Hbr; apply K, in_or_app; auto).
    apply (branches_run n k x al v tag p rho Ta Ua B bs alts _
      (fun md w m call st => eval_alts (eval md w m call) rho st tag p (fst de)
            match snd de with Some (x, e) => eval md w m call ((x, VVariant tag p) :: rho) st e | None => Wrong end) Kbs Halts); [|exact Ex].
    intros (br & Hbr & Q). clear Ex.
    destruct els as [[[t|] d]|]; cbn [compile_else] in Hde; [|destruct Hbr|destruct Hbr].
    destruct Hbr as [<-|[]]. cbn [fst snd] in *.
    assert (Kt : known_branch t) by (apply (K (t, d)), in_or_app; right; left; reflexivity).
    apply bind_ok in Hde. destruct Hde as (any & Hany & Hde).
    pose proof (equal_types_correct f E W n t TAny any) as Eq.
    assert (Oa : ok f E TAny) by (split; [intros z []|constructor]).
    specialize (Eq (proj2 (proj1 (proj1 Kt))) (proj2 Oa) Hany).
    destruct any.
    - apply bind_ok in Hde. destruct Hde as (d' & Hd & Hde). injection Hde as <-. cbn [fst snd eval_alts].
      assert (Qt : teq E t TAny) by (apply Eq; reflexivity).
      exists (t, d), d', (VVariant tag p), ((x, VVariant tag p) :: rho).
      split; [apply first_taking_here; exact Q|]. split; [exact Hd|]. split; [|split; [|reflexivity]].
      + right. split; [|reflexivity]. intros Q'. assert (Q2 : teq E al TAny) by (eapply teq_trans; [apply teq_sym, Q'|exact Qt]).
        destruct (canon_ex f E W al (proj1 (proj1 Ta))) as [c Hc].
        pose proof (boxed_head _ _ _ _ _ (boxed_canon f E C Ht al c v _ (proj1 (proj1 Ta)) Hc B)) as P.
        assert (c = TAny) as -> by (eapply (teq_canon_eq f E W); [exact Q2|exact Hc|exists 1; reflexivity]). exact P.
      + split; [cbn; rewrite String.eqb_refl; reflexivity|]. intros z Ny. cbn.
        destruct (String.eqb z x) eqn:Ey; [apply String.eqb_eq in Ey; congruence|reflexivity].
    - apply bind_ok in Hde. destruct Hde as (al1 & Hal1 & Hde). injection Hde as <-. cbn [fst snd].
      assert (Hm : mapM (compile_branch n E C (compile n E R C k) x) [(t, d)] = Ok [al1]).
      { cbn [mapM]. rewrite Hal1. reflexivity. }
      apply (branches_run n k x al v tag p rho Ta Ua B [(t, d)] [al1] [] (fun _ _ _ _ _ => Wrong)).
      + intros br [<-|[]]. exact Kt.
      + exact Hm.
      + intros (br & [] & _).
      + exists (t, d). split; [left; reflexivity|exact Q].
  Qed.

  Section Run.
    Variables (md : mode) (w : world) (m : mmodule) (call : state -> value -> list value -> out value).

    (** *** Conversions *)
    Lemma sub_concrete s t c d : defined E s -> defined E t -> canon E s c -> canon E t d ->
      sub E s t -> plain_head d -> plain_head c -> c = d.
    Proof.
      intros Ds Dt Hc Hd S P P'. destruct (proj1 (sub_alts f E W s t Ds Dt) S) as [H|H].
      - apply (has_alt_any f E W t d Dt Hd) in H. subst. contradiction.
      - assert (Na : c <> TAny) by (intros ->; contradiction). assert (Nd : d <> TAny) by (intros ->; contradiction).
        assert (Hh : has_alt E s c).
        { apply (has_alt_canon f E W s c c Ds (canon_defined _ _ _ Hc) Hc Na). exists c.
          split; [eapply canon_idem; eassumption|]. destruct c; try contradiction; left; reflexivity. }
        specialize (H c (canon_defined _ _ _ Hc) Hh).
        apply (has_alt_canon f E W t d c Dt (canon_defined _ _ _ Hc) Hd Nd) in H. destruct H as (x & Hx & Hin).
        assert (x = c) as -> by (eapply canon_fun; [exact Hx|eapply canon_idem; eassumption]).
        destruct d; try contradiction; destruct Hin as [<-|[]]; reflexivity.
    Qed.

    Lemma conversion_runs n k s t e c :
      tidy_type f E s -> tidy_type f E t -> ~ teq E s t ->
      compile n E R C (S k) (HCoerce s t e) = Ok c ->
      exists e', compile n E R C k e = Ok e' /\
      forall rho st,
        (forall a v b st', tidy_type f E a -> sub E s t -> teq E s a -> boxed E C a v b -> carried m a b ->
           eval md w m call rho st e' = Done v st' -> eval md w m call rho st c = Done b st') /\
        ((forall a, teq E s a -> ~ plain_head a) \/ widens E s t /\ ~ sub E s t ->
           eval md w m call rho st c = eval md w m call rho st e').
    Proof.
      intros Ts Tt Nst H. cbn [compile] in H. unfold compile_coercion in H.
      apply bind_ok in H. destruct H as (s' & Hs & H). apply bind_ok in H. destruct H as (t' & Hd & H).
      apply bind_ok in H. destruct H as (e' & He & H). exists e'. split; [exact He|]. intros rho st.
      assert (Cs : canon E s s') by (exists n; exact Hs). assert (Ct : canon E t t') by (exists n; exact Hd).
      pose proof (canon_idem f E W _ _ Cs) as Fs.
      assert (Ns : sub E s t -> plain_head s' -> ~ plain_head t').
      { intros S P P'. apply Nst. pose proof (sub_concrete s t s' t' (proj1 (proj1 Ts)) (proj1 (proj1 Tt)) Cs Ct S P' P) as Q.
        subst t'. eapply teq_trans; [apply canon_sound, Cs|apply teq_sym, canon_sound, Ct]. }
      assert (Bx : forall a v b, tidy_type f E a -> teq E s a -> boxed E C a v b -> carried m a b -> boxed E C s' v b /\ plain_head s' /\ carried m s' b).
      { intros a v b Ta Q B Ca. destruct (canon_ex f E W a (proj1 (proj1 Ta))) as [a' Ha'].
        assert (s' = a') as -> by (eapply (teq_canon_eq f E W); [exact Q|exact Cs|exact Ha']).
        pose proof (boxed_canon f E C Ht a a' v b (proj1 (proj1 Ta)) Ha' B) as B'. split; [exact B'|split; [eapply boxed_head, B'|]].
        intros r fs Q' Nc. apply (Ca r fs Q'). destruct Ha' as [[|q] Ha']; [discriminate|]. destruct a; try exact I; try (cbn in Ha'; injection Ha' as <-; destruct Nc);
          destruct (boxed_head _ _ _ _ _ B). }
      assert (Wr : forall o r, concrete_name n E C s' = Ok o ->
        match o with Some r => bind (concrete_value n E C e' s') (fun v => Ok (Op (OVariant (Mir.TRecord r)) [v])) | None => Panic end = Ok c ->
        o = Some r -> c = Op (OVariant (Mir.TRecord r)) [Op (ORecord r) [e']]).
      { intros o r Ho G ->. apply bind_ok in G. destruct G as (v & Hv & G). injection G as <-.
        unfold concrete_value in Hv. apply bind_ok in Hv. destruct Hv as (s2 & Hs2 & Hv).
        assert (s2 = s') as -> by (eapply canon_fun; [exists n; exact Hs2|exact Fs]).
        destruct s'; cbn [concrete_name] in Ho; try discriminate Ho; cbn [concrete_name] in Hv; rewrite Ho in Hv; cbn in Hv; injection Hv as <-; reflexivity. }
      assert (Wrap : bind (concrete_name n E C s')
          (fun o => match o with Some r => bind (concrete_value n E C e' s') (fun v => Ok (Op (OVariant (Mir.TRecord r)) [v])) | None => Panic end) = Ok c ->
        forall v b st', boxed E C s' v b -> carried m s' b -> eval md w m call rho st e' = Done v st' -> eval md w m call rho st c = Done b st').
      { intros G v b st' B Ca Hev. apply bind_ok in G. destruct G as ([r|] & Ho & G); [|discriminate].
        rewrite (Wr _ r Ho G eq_refl). cbn [eval eval_list]. rewrite Hev. cbn.
        rewrite (boxed_fun E C s' v b _ B (concrete_name_boxed E C n s' r v Ho)) in *.
        destruct (Ca r [v] eq_refl) as [ty Hty]; [destruct s'; discriminate || exact I|]. rewrite Hty. reflexivity. }
      assert (Simple : bind (compile_type n E C s') (fun t => Ok (Op (OVariant t) [e'])) = Ok c ->
        concrete_name n E C s' = Ok None -> plain_head s' ->
        forall v b st', boxed E C s' v b -> eval md w m call rho st e' = Done v st' -> eval md w m call rho st c = Done b st').
      { intros G Ho P v b st' B Hev. apply bind_ok in G. destruct G as (t2 & Ht2 & G). injection G as <-.
        unfold compile_type in Ht2. apply bind_ok in Ht2. destruct Ht2 as (s2 & Hs2 & L).
        assert (s2 = s') as -> by (eapply canon_fun; [exists n; exact Hs2|exact Fs]).
        cbn [eval eval_list]. rewrite Hev. cbn.
        rewrite (boxed_fun E C s' v b _ B (concrete_none_boxed E C n s' t2 v Ho P L)). reflexivity. }
      split.
      - intros a v b st' Ta S Q B Ca Hev. destruct (Bx a v b Ta Q B Ca) as (B' & P & Ca'). specialize (Ns S P).
        destruct s'; try contradiction; try (eapply Simple; [exact H|reflexivity|exact I|exact B'|exact Hev]);
          try (eapply Wrap; [exact H|exact B'|exact Ca'|exact Hev]);
          (destruct t'; try (eapply Wrap; [exact H|exact B'|exact Ca'|exact Hev]); destruct (Ns I)).
      - intros [NP|[Wi NS]].
        + assert (P : ~ plain_head s') by (apply NP, canon_sound, Cs).
          destruct s'; try (destruct (P I)); try (injection H as <-; reflexivity). discriminate.
        + destruct Wi as [s t S|s t a b Qa Qb S|s t a b a' b' Qa Qb S1 S2]; [contradiction| |].
          * assert (exists x, s' = TList x) as [x ->].
            { assert (G : canon E (TList a) s') by (eapply (teq_canon E s); [apply W|apply W|exact Qa|exact Cs]).
              apply canon_list in G. destruct G as (x & _ & ->). eauto. }
            assert (exists y, t' = TList y) as [y ->].
            { assert (G : canon E (TList b) t') by (eapply (teq_canon E t); [apply W|apply W|exact Qb|exact Ct]).
              apply canon_list in G. destruct G as (y & _ & ->). eauto. }
            injection H as <-. reflexivity.
          * assert (exists x y, s' = TMap x y) as (x & y & ->).
            { assert (G : canon E (TMap a b) s') by (eapply (teq_canon E s); [apply W|apply W|exact Qa|exact Cs]).
              apply canon_map in G. destruct G as (x & y & _ & _ & ->). eauto. }
            assert (exists x y, t' = TMap x y) as (x' & y' & ->).
            { assert (G : canon E (TMap a' b') t') by (eapply (teq_canon E t); [apply W|apply W|exact Qb|exact Ct]).
              apply canon_map in G. destruct G as (x' & y' & _ & _ & ->). eauto. }
            injection H as <-. reflexivity.
    Qed.
  End Run.
End Switch.
