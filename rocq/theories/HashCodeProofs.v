(** The hash functions that the lowering generates compute a hash of the data. *)
From Coq Require Import String List ZArith Bool Lia.
From Verif Require Import Base Mir HirType HirTypeSpec HirTypeOrder HirTypeTermination HirTypeEq HirTypeSub Hir HirSpec HirMir LowerSpec LowerTag LowerSwitch
  RunSpec RunProofs ListSpec PreludeList ListProofs ListLiteral EqualSpec EqualProofs HashCodeSpec.
Import ListNotations.
Local Open Scope string_scope.

Section Hash.
  Variables (f : string -> string) (n : nat) (E : tenv) (R : renv) (C : config) (T : ty -> Prop).
  Variables (w : world) (m : mmodule) (Inv : state -> Prop).
  Hypothesis HC : equality_code f n E R C T w m Inv.
  Variables (hn : Z -> Z) (hs : string -> Z) (hc : Z -> Z -> Z).
  Hypothesis HH : hash_code n E R C w m Inv hn hs hc.
  Let HR := ec_records _ _ _ _ _ _ _ _ _ HC.
  Let Ht : tidy f E C := rc_tidy _ _ _ _ _ _ _ _ _ _ HR.
  Let HT : collision_free E C T := rc_hashes _ _ _ _ _ _ _ _ _ _ HR.
  Let W : wf f E := tidy_wf _ _ _ Ht.
  Notation compile := (compile n E R C).
  Notation evals := (evals w m).
  Notation runs := (runs w m).
  Notation operand := (operand n E R C w m).
  Notation value_of := (value_of E R C w m Inv).
  Notation value_at := (value_at E R C w m Inv).
  Notation value_as_any := (value_as_any E R C w m Inv).
  Notation clear := (clear_of_globals m).

  Lemma clear_nil : clear [].
  Proof. intros g _. reflexivity. Qed.
  Lemma clear_binds rho rho' x v : global_type m x = None -> binds rho' rho x v -> clear rho -> clear rho'.
  Proof.
    intros G (_ & B) H g Hg. destruct (String.eqb g x) eqn:Q.
    - apply String.eqb_eq in Q. subst g. contradiction.
    - apply String.eqb_neq in Q. rewrite B by exact Q. apply H, Hg.
  Qed.
  Lemma clear_cons rho x v : global_type m x = None -> clear rho -> clear ((x, v) :: rho).
  Proof.
    intros G. apply clear_binds with (x := x) (v := v); [exact G|]. split; [cbn; rewrite String.eqb_refl; reflexivity|].
    intros y Ny. cbn. apply String.eqb_neq in Ny. rewrite Ny. reflexivity.
  Qed.
  Lemma known_evals rho st g : clear rho -> global_type m g <> None -> evals rho st (Var g) (VGlobal g) st.
  Proof. intros H G. destruct (global_type m g) as [t|] eqn:Q; [|contradiction]. eapply evals_global; [apply H; congruence|exact Q]. Qed.
  Notation fields_at := (fields_at E R C w m Inv).

  Fixpoint digest (x : data) : Z :=
    match x with
    | DBool b => if b then true_hash else false_hash
    | DNumber z => hn z
    | DString s => hs s
    | DNone => 0
    | DRecord r _ xs =>
        (fix fields (xs : list data) : Z :=
           match xs with [] => c_identity C r | x :: xs => hc (fields xs) (digest x) end) xs
    | DList _ _ => 0
    end.
  Definition digests (i : Z) (xs : list data) : Z := fold_right (fun x h => hc h (digest x)) i xs.

  Lemma digest_record r o xs : digest (DRecord r o xs) = digests (c_identity C r) xs.
  Proof. unfold digests. cbn [digest]. induction xs as [|x xs IH]; [reflexivity|]. cbn [fold_right]. rewrite IH; reflexivity. Qed.

  Lemma list_free_record r o xs : list_free (DRecord r o xs) -> Forall list_free xs.
  Proof. cbn [list_free]. induction xs as [|x xs IH]; [constructor|]. intros (H & G). constructor; auto. Qed.

  Lemma digest_same : (forall a b, w_compare w Equal a b = true -> hn a = hn b) ->
    forall x y, same w x y = true -> digest x = digest y.
  Proof.
    intros Z x. induction x using data_ind'; intros []; try discriminate; try reflexivity.
    - cbn [same digest]. intros Q. apply eqb_prop in Q. rewrite Q. reflexivity.
    - apply Z.
    - cbn [same digest]. rewrite String.eqb_eq. congruence.
    - rewrite same_record, !digest_record, andb_true_iff, String.eqb_eq. intros (<- & Q). revert xs0 Q.
      induction H as [|x xs Hx _ IH]; intros [|y ys] Q; cbn in Q; try discriminate; [reflexivity|].
      apply andb_true_iff in Q as (Q1 & Q2). specialize (IH _ Q2). unfold digests in *. cbn [fold_right]. rewrite IH, (Hx _ Q1). reflexivity.
  Qed.

  (** Aliases *)
  Lemma canon_written t u : written_as E t u -> forall c, canon E t c -> canon E u c.
  Proof.
    induction 1 as [x t u Hx _ IH|t _]; intros c Hc; [|exact Hc]. apply IH. apply canon_alias in Hc as (t' & H1 & H2). congruence.
  Qed.

  Lemma proper_union t l r c : defined E t -> proper E t -> written_as E t (TUnion l r) -> canon E t c -> c <> TAny ->
    exists cl cr, c = TUnion cl cr.
  Proof.
    intros D P Hw Hc Na. destruct (P l r Hw) as (a & b & Da & Db & Ha & Hb & N).
    apply (has_alt_canon f E W t c a D Da Hc Na) in Ha as (ca & Hca & Ia).
    apply (has_alt_canon f E W t c b D Db Hc Na) in Hb as (cb & Hcb & Ib).
    destruct c; try (exfalso; apply N; apply (canon_teq E a b ca); [exact Hca|];
      cbn in Ia, Ib; destruct Ia as [<-|[]]; destruct Ib as [<-|[]]; exact Hcb).
    - eauto.
  Qed.

  (** *** What is to be proved of a datum *)
  Definition hashed (x : data) : Prop := forall t j k v h e rho st u,
    tidy_type f E t -> uses E T t -> proper E t ->
    hash_calculation n E R C j v t = Ok h -> compile k h = Ok e ->
    operand rho st v u st -> value_at t x u -> list_free x -> clear rho -> Inv st ->
    exists st', evals rho st e (VNumber (digest x)) st' /\ Inv st'.

  Definition hashed_plain (x : data) : Prop := forall c j k v h e rho st u,
    tidy_type f E c -> plain_head c -> type_of_data x = c ->
    hash_calculation n E R C j v c = Ok h -> compile k h = Ok e ->
    operand rho st v u st -> value_of x u -> list_free x -> clear rho -> Inv st ->
    exists st', evals rho st e (VNumber (digest x)) st' /\ Inv st'.

  (** A call with one argument *)
  Lemma hcall1_runs g ts t v k e rho st u b st' :
    compile k (hcall g ts t [v]) = Ok e -> List.length ts = 1 ->
    clear rho -> global_type m g <> None -> operand rho st v u st ->
    runs st (VGlobal g) [u] b st' -> evals rho st e b st'.
  Proof.
    intros H Le Cl G Hv Hr. apply (compile_hcall n E R C) in H as (k' & a & rt & es' & -> & F & La & ->).
    inversion F as [|? v' ? ? Hv' F']; subst. inversion F'; subst.
    refine (evals_call w m _ _ _ _ _ _ _ _ _ _ _ _ Hr); [|rewrite La, Le; reflexivity].
    eapply evals_cons; [apply (known_evals); assumption|]. eapply evals_cons; [exact (Hv _ _ Hv')|]. apply evals_nil.
  Qed.

  Lemma fields_hash r o fts vs rho : lookup R r = Some fts -> NoDup (map fst fts) ->
    (forall x t, In (x, t) fts -> tidy_type f E t /\ uses E T t /\ proper E t) ->
    lookup rho "$record" = Some (VRecord r vs) -> clear rho ->
    forall suf xs pre vpre vsuf j k h e st i,
    fts = (pre ++ suf)%list -> vs = (vpre ++ vsuf)%list -> List.length vpre = List.length pre ->
    Forall hashed xs -> Forall list_free xs -> fields_at xs suf vsuf ->
    hash_fields n E R C j (TRecord r o) suf (HNumber i) = Ok h -> compile k h = Ok e -> Inv st ->
    exists st', evals rho st e (VNumber (digests i xs)) st' /\ Inv st'.
  Proof.
    intros Hr ND Hty Hl Cl. induction suf as [|[z t] suf IH]; intros xs pre vpre vsuf j k h e st i Ef Ev Lv K Lf Fx Hh He I.
    - destruct xs as [|? ?]; [|destruct vsuf; contradiction Fx]. cbn in Hh. injection Hh as <-.
      destruct k as [|k]; [discriminate|]. injection He as <-. exists st. split; [apply evals_lit|exact I].
    - destruct xs as [|x xs]; [destruct Fx|]. destruct vsuf as [|v vsuf]; [destruct Fx|]. destruct Fx as (Vx & Fx).
      inversion K as [|? ? Kx Kxs]; subst x0 l. inversion Lf as [|? ? Lx Lxs]; subst x0 l.
      cbn [hash_fields] in Hh. apply bind_ok in Hh as (h1 & Hh1 & Hh). apply bind_ok in Hh as (h2 & Hh2 & Hh). injection Hh as <-.
      apply (compile_hcall n E R C) in He as (k' & a & rt & es' & -> & F & La & ->).
      inversion F as [|? e1 ? ? He1 F']; subst. inversion F' as [|? e2 ? ? He2 F'']; subst. inversion F''; subst.
      destruct (Hty z t) as (Tt & U & Pt); [apply in_or_app; right; left; reflexivity|].
      destruct (IH xs (pre ++ [(z, t)])%list (vpre ++ [v])%list vsuf j (S k') h1 e1 st i) as (st1 & H1 & I1);
        try assumption; try (rewrite <- app_assoc; reflexivity); try (rewrite !app_length; cbn; lia).
      assert (Nv : nth_error (vpre ++ v :: vsuf) (List.length pre) = Some v) by (rewrite <- Lv, nth_error_app2, PeanoNat.Nat.sub_diag by lia; reflexivity).
      destruct (Kx t j (S k') _ h2 e2 rho st1 v Tt U Pt Hh2 He2) as (st2 & H2 & I2); try assumption.
      { eapply field_operand; try eassumption. reflexivity. }
      destruct (hk_combine _ _ _ _ _ _ _ _ _ _ HH st2 (digests i xs) (digest x) I2) as (st3 & H3 & I3).
      exists st3. split; [|exact I3]. cbn [digests fold_right]. fold (digests i xs).
      refine (evals_call w m _ _ _ _ _ _ _ _ _ _ _ _ H3); [|rewrite La; reflexivity].
      eapply evals_cons; [apply (known_evals); [exact Cl|exact (hk_combine_known _ _ _ _ _ _ _ _ _ _ HH)]|].
      eapply evals_cons; [exact H1|]. eapply evals_cons; [exact H2|]. apply evals_nil.
  Qed.

  Lemma record_hash r o xs v st : Forall hashed xs -> tidy_type f E (TRecord r o) -> comparable n E R (TRecord r o) = Ok true ->
    value_of (DRecord r o xs) v -> list_free (DRecord r o xs) -> Inv st ->
    global_type m (record_hash_name r) <> None /\
    exists st', runs st (VGlobal (record_hash_name r)) [v] (VNumber (digest (DRecord r o xs))) st' /\ Inv st'.
  Proof.
    intros K Tr Hc Hv Lf I. apply value_of_record in Hv as (fts & vs & Hr & -> & Fv).
    destruct (rc_records _ _ _ _ _ _ _ _ _ _ HR r o fts Logic.I Tr Hc Hr) as (ND & Hty & _).
    destruct (hk_records _ _ _ _ _ _ _ _ _ _ HH r o fts Hc Hr) as (Hp & j & k & def & d & Hdef & Hd & Hfind).
    split; [eapply def_known, Hfind|].
    unfold record_hash_definition in Hdef. apply bind_ok in Hdef as (h & Hh & Hdef). injection Hdef as <-.
    unfold compile_definition in Hd. cbn [fst snd l_body l_result l_arguments] in Hd.
    apply bind_ok in Hd as (body & Hbody & Hd). apply bind_ok in Hd as (rt & _ & Hd). apply bind_ok in Hd as (args & Hargs & Hd).
    injection Hd as <-. cbn [mapM fst snd] in Hargs.
    apply bind_ok in Hargs as (a1 & Ha1 & Hargs). apply bind_ok in Ha1 as (t1 & _ & Ha1). injection Ha1 as <-. cbn in Hargs. injection Hargs as <-.
    destruct (fields_hash r o fts vs [("$record", VRecord r vs)] Hr ND) with (suf := fts) (xs := xs) (pre := @nil (string * ty)) (vpre := @nil value)
      (vsuf := vs) (j := j) (k := k) (h := h) (e := body) (st := st) (i := c_identity C r) as (st' & H & I'); try reflexivity; try assumption.
    - intros x t Hx. destruct (Hty x t Hx). eauto.
    - apply clear_cons; [exact (hk_record _ _ _ _ _ _ _ _ _ _ HH)|apply clear_nil].
    - apply list_free_record in Lf. exact Lf.
    - exists st'. split; [|exact I']. rewrite digest_record. eapply runs_global; [exact Hfind|reflexivity|reflexivity|]. exact H.
  Qed.

  Lemma plain_hash x : match x with DRecord _ _ xs | DList _ xs => Forall hashed xs | _ => True end -> hashed_plain x.
  Proof.
    intros K c j k v h e rho st u Tc Pc Ex Hh He Hv Vx Lf Cl I.
    destruct j as [|j]; [discriminate|]. destruct x as [a|a|a| |r o xs|e0 xs]; cbn [type_of_data] in Ex; subst c; cbn [hash_calculation] in Hh.
    - injection Hh as <-. cbn in Vx. subst u. destruct k as [|k]; [discriminate|]. cbn [HirMir.compile] in He.
      apply bind_ok in He as (c & Hc & He). apply bind_ok in He as (x1 & H1 & He). apply bind_ok in He as (x2 & H2 & He). injection He as <-.
      exists st. split; [|exact I]. eapply evals_if; [exact (Hv _ _ Hc)|]. destruct k as [|k]; [discriminate|].
      injection H1 as <-. injection H2 as <-. destruct a; apply evals_lit.
    - injection Hh as <-. cbn in Vx. subst u. destruct (hk_number _ _ _ _ _ _ _ _ _ _ HH st a I) as (st' & H & I').
      exists st'. split; [|exact I']. eapply hcall1_runs; try eassumption; [reflexivity|exact (hk_number_known _ _ _ _ _ _ _ _ _ _ HH)].
    - injection Hh as <-. cbn in Vx. subst u. destruct (hk_string _ _ _ _ _ _ _ _ _ _ HH st a I) as (st' & H & I').
      exists st'. split; [|exact I']. eapply hcall1_runs; try eassumption; [reflexivity|exact (hk_string_known _ _ _ _ _ _ _ _ _ _ HH)].
    - injection Hh as <-. destruct k as [|k]; [discriminate|]. injection He as <-. exists st. split; [apply evals_lit|exact I].
    - apply bind_ok in Hh as (b & Hb & Hh). destruct b; [|discriminate]. injection Hh as <-.
      destruct (record_hash r o xs u st K Tc Hb Vx Lf I) as (G & st' & H & I').
      exists st'. split; [|exact I']. eapply hcall1_runs; try eassumption. reflexivity.
    - destruct Lf.
  Qed.

  (** *** Unions *)
  Lemma union_hash x t lt rt j k v h e rho st u : hashed_plain x ->
    tidy_type f E t -> uses E T t -> canon E t (TUnion lt rt) -> (exists a b, t = TUnion a b) ->
    hash_calculation n E R C j v t = Ok h -> compile k h = Ok e ->
    operand rho st v u st -> value_at t x u -> list_free x -> clear rho -> Inv st ->
    exists st', evals rho st e (VNumber (digest x)) st' /\ Inv st'.
  Proof.
    intros K Tt U Hc (ta & tb & ->) Hh He Hv Vx Lf Cl I. set (t := TUnion ta tb) in *. set (c := TUnion lt rt) in *.
    assert (Na : c <> TAny) by discriminate.
    destruct j as [|j]; [discriminate|]. cbn [hash_calculation t] in Hh. fold t in Hh.
    apply bind_ok in Hh as (ms & Hms & Hh). apply bind_ok in Hh as (bs & Hbs & Hh). injection Hh as <-.
    assert (Mm : forall a, In a ms <-> In a (members_canonical c)).
    { unfold union_members in Hms. apply bind_ok in Hms as (d & Hd & Hms).
      assert (d = c) as -> by (eapply canon_fun; [exists n; exact Hd|exact Hc]). injection Hms as <-.
      apply (sset_of_list (members_canonical c)). }
    assert (Mt : forall a, In a ms -> tidy_type f E a /\ canon E a a /\ uses E T a /\ plain_head a).
    { intros a Ha. apply Mm in Ha. destruct (tidy_type_member f E C Ht t c a Tt Hc Ha) as (Ta & Fa).
      assert (Hat : has_alt E t a) by (apply (has_alt_canon f E W t c a (proj1 (proj1 Tt)) (proj1 (proj1 Ta)) Hc Na); eauto).
      assert (Pa : plain_head a).
      { destruct (members_fixed f E W t c Hc a Ha) as (_ & Nu). destruct a; try exact Logic.I; try discriminate Nu.
        - apply (proj1 (has_alt_any f E W t c (proj1 (proj1 Tt)) Hc)) in Hat. congruence.
        - exfalso. pose proof (canon_references _ _ _ Fa) as Q. discriminate Q. }
      split; [exact Ta|]. split; [exact Fa|]. split; [|exact Pa]. intros b Hb. apply U. destruct Hb as (b' & Hb' & Q).
      assert (b' = a). { inversion Hb'; subst; try contradiction. reflexivity. } subst b'.
      eapply has_alt_teq; eassumption. }
    assert (Bs : forall br, In br bs -> In (fst br) ms /\ hash_calculation n E R C j (HVariable "$x") (fst br) = Ok (snd br)).
    { intros br Hbr. destruct (mapM_in _ _ _ Hbs br Hbr) as (a & Ha & Hg). apply bind_ok in Hg as (eq & Heq & Hg). injection Hg as <-. auto. }
    destruct k as [|k]; [discriminate|].
    destruct (switch_runs f E R C T Ht HT n k _ _ _ _ e He) as (v' & Hv' & S1).
    { unfold all_branches. rewrite app_nil_r. intros br Hbr. destruct (Bs br Hbr) as (Hin & _). destruct (Mt _ Hin) as (H1 & _ & H2 & _). split; auto. }
    unfold all_branches in S1. rewrite app_nil_r in S1.
    destruct (belongs_member f n E R C T w m Inv (fun _ => True) HR t c x Tt U Hc Na (proj1 Vx)) as (Ix & Tx & Ux).
    destruct (at_union f n E R C T w m Inv (fun _ => True) HR t lt rt x u Tt U Hc Vx) as (v0 & Hv0 & Hb).
    apply Mm in Ix. destruct (Mt _ Ix) as (_ & Fx & _ & Px).
    destruct (S1 _ v0 u rho Tx Ux Hb) as (br & body & u1 & rho1 & F1 & Hb1 & Sn1 & Bi1 & Ev1).
    { destruct (mapM_in' _ _ _ Hbs _ Ix) as (br & Hbr & Hg). exists br. split; [exact Hbr|]. left.
      apply bind_ok in Hg as (eq & Heq & Hg). injection Hg as <-. cbn [fst]. exists (type_of_data x). split; [|apply teq_refl].
      apply alt_self; intros; destruct x; discriminate. }
    assert (Hbr : In br bs) by (destruct F1 as (be & af & -> & _); apply in_or_app; right; left; reflexivity).
    destruct (Bs br Hbr) as (Hin & Heq). destruct (Mt _ Hin) as (Tbr & Fbr & Ubr & Pbr).
    assert (Ebr : fst br = type_of_data x).
    { apply (fixed_alt f n E R C T w m Inv (fun _ => True) HR _ _ Fbr Fx Pbr). destruct F1 as (be & af & _ & [Q|Q] & _); [exact Q|].
      exfalso. apply (proj1 (has_alt_any f E W _ _ (proj1 (proj1 Tbr)) Fbr)) in Q. rewrite Q in Pbr. exact Pbr. }
    rewrite Ebr in *.
    assert (u1 = v0) by (destruct Sn1 as [(_ & Q)|(Q & _)]; [exact Q|destruct Q; apply teq_refl]). subst u1.
    destruct (K _ j k _ _ body rho1 st v0 Tx Px eq_refl Heq Hb1) as (st' & H' & I'); try assumption.
    - apply variable_operand. exact (proj1 Bi1).
    - eapply clear_binds; [exact (hk_x _ _ _ _ _ _ _ _ _ _ HH)|exact Bi1|exact Cl].
    - exists st'. split; [|exact I']. eapply evals_via; [exact Ev1|exact (Hv _ _ Hv')|exact H'].
  Qed.

  Lemma hashed_any j v h t : hash_calculation n E R C j v t = Ok h -> canon E t TAny -> False.
  Proof.
    revert t. induction j as [|j IH]; intros t Hh Hc; [discriminate|].
    destruct t; cbn [hash_calculation] in Hh; try discriminate;
      try (destruct Hc as ([|k] & Hc); cbn in Hc; discriminate).
    - apply canon_list in Hc as (? & _ & Q). discriminate.
    - apply canon_map in Hc as (? & ? & _ & _ & Q). discriminate.
    - apply bind_ok in Hh as (t & Ht' & Hh). apply (IH t); [exact Hh|]. apply canon_alias in Hc as (t' & H1 & H2).
      unfold resolve in Ht'. rewrite H1 in Ht'. congruence.
    - apply bind_ok in Hh as (ms & Hms & Hh). unfold union_members in Hms. apply bind_ok in Hms as (d & Hd & Hms).
      assert (d = TAny) as -> by (eapply canon_fun; [exists n; exact Hd|exact Hc]). injection Hms as <-. cbn in Hh.
      destruct j; discriminate.
  Qed.

  Lemma hashed_all : forall x, hashed x.
  Proof.
    assert (G : forall x, match x with DRecord _ _ xs | DList _ xs => Forall hashed xs | _ => True end -> hashed x).
    { intros x Hx t j k v h e rho st u Tt U Pt Hh He Hv Vx Lf Cl I. pose proof (plain_hash x Hx) as K. clear Hx.
      revert t Tt U Pt Hh Vx. induction j as [|j IH]; intros t Tt U Pt Hh Vx; [discriminate|].
      destruct (canon_ex f E W t (proj1 (proj1 Tt))) as (c & Hc).
      assert (Na : c <> TAny) by (intros ->; eapply hashed_any; eassumption).
      destruct (match t with TReference _ | TUnion _ _ => true | _ => false end) eqn:Qt.
      - destruct t; try discriminate.
        + cbn [hash_calculation] in Hh. apply bind_ok in Hh as (t & Ht' & Hh).
          assert (Hx : lookup E name = Some t) by (unfold resolve in Ht'; destruct (lookup E name); congruence). clear Ht'.
          apply (IH t); try assumption.
          * split; [split|].
            -- intros z Hz. exact (wf_closed _ _ W name t Hx z Hz).
            -- exact (wf_names _ _ W name t Hx).
            -- exact (tidy_env _ _ _ Ht name t Hx).
          * intros a (b & Hb & Q). apply U. exists b. split; [eapply alt_alias; eassumption|exact Q].
          * intros l r Hw. destruct (Pt l r (written_alias _ _ _ _ Hx Hw)) as (a & b & Da & Db & Ha & Hb & N).
            exists a, b. split; [exact Da|]. split; [exact Db|].
            split; [|split; [|exact N]]; [destruct Ha as (a' & Ha' & Q)|destruct Hb as (a' & Ha' & Q)]; exists a'; (split; [|exact Q]);
              inversion Ha' as [? t' ? Hl Ha2| | |? Nr _]; subst; try congruence; destruct (Nr name eq_refl).
          * destruct Vx as ((Ha & Hcx) & v0 & b & Hv0 & Hb & S). split.
            -- split; [|exact Hcx]. destruct Ha as (a' & Ha & Q). exists a'. split; [|exact Q].
               inversion Ha as [? t' ? Hl Ha'| | |? Nr _]; subst; congruence.
            -- exists v0, b. split; [exact Hv0|]. split; [exact Hb|]. pose proof (teq_alias E name t Hx) as Qt'.
               destruct S as [(Q & ->)|(Q & ->)]; [left|right]; (split; [|reflexivity]).
               ++ eapply teq_trans; [apply teq_sym, Qt'|exact Q].
               ++ intros Q'. apply Q. eapply teq_trans; [exact Qt'|exact Q'].
        + assert (Hw : written_as E (TUnion t1 t2) (TUnion t1 t2)) by (apply written_self; discriminate).
          destruct (proper_union _ _ _ c (proj1 (proj1 Tt)) Pt Hw Hc Na) as (cl & cr & ->).
          eapply union_hash; try eassumption. eauto.
      - assert (Pc : plain_head c /\ (type_of_data x = c -> c = t)).
        { destruct t; try discriminate Qt; try (destruct Hc as ([|k'] & Hc); [discriminate|]; cbn in Hc; injection Hc as <-; split; [exact Logic.I|reflexivity]).
          - destruct Na. destruct Hc as ([|k'] & Hc); cbn in Hc; congruence.
          - apply canon_function in Hc as (? & ? & _ & _ & ->). split; [exact Logic.I|]. destruct x; discriminate.
          - apply canon_list in Hc as (? & _ & ->). split; [exact Logic.I|]. destruct x; try discriminate. destruct Lf.
          - apply canon_map in Hc as (? & ? & _ & _ & ->). split; [exact Logic.I|]. destruct x; discriminate. }
        destruct Pc as (Pc & Ec). destruct (at_plain f n E R C T w m Inv (fun _ => True) HR t c x u Tt U Hc Pc Vx) as (Ex & Hvx).
        specialize (Ec Ex). subst c. eapply K; eassumption. }
    intros x. induction x using data_ind'; apply G; try exact Logic.I; assumption.
  Qed.

  (** A type in canonical form is proper. *)
  Lemma canonical_proper t : tidy_type f E t -> canon E t t -> t <> TAny -> proper E t.
  Proof.
    intros Tt Hc Na l r Hw. pose proof (canon_references _ _ _ Hc) as Q.
    inversion Hw as [x u ? Hx _|]; subst; [discriminate Q|]. set (t := TUnion l r) in *.
    destruct (canon_cform _ _ _ Hc) as [(S & _ & _ & Ne) Red].
    destruct (members_canonical t) as [|a [|b ms]] eqn:Hm; [congruence| |].
    - exfalso. cbn in Red. injection Red as ->. destruct (members_fixed f E W t t Hc t) as (_ & Nu); [rewrite Hm; left; reflexivity|]. discriminate.
    - assert (Ha : In a (members_canonical t)) by (rewrite Hm; left; reflexivity).
      assert (Hb : In b (members_canonical t)) by (rewrite Hm; right; left; reflexivity).
      destruct (tidy_type_member f E C Ht t t a Tt Hc Ha) as (Ta & Fa). destruct (tidy_type_member f E C Ht t t b Tt Hc Hb) as (Tb & Fb).
      exists a, b. split; [apply Ta|]. split; [apply Tb|].
      split; [apply (has_alt_canon f E W t t a (proj1 (proj1 Tt)) (proj1 (proj1 Ta)) Hc Na); eauto|].
      split; [apply (has_alt_canon f E W t t b (proj1 (proj1 Tt)) (proj1 (proj1 Tb)) Hc Na); eauto|].
      intros Qab. assert (a = b) as -> by (eapply (teq_canon_eq f E W); eassumption).
      inversion S as [|? ? _ F]; subst. inversion F as [|? ? L _]; subst. destruct (tlt_irrefl _ L).
  Qed.

  (** The hash function of a type *)
  Lemma function_hash t j k def d x b st : tidy_type f E t -> uses E T t -> canon E t t ->
    hash_definition n E R C j t = Ok def -> compile_definition n E R C k def = Ok d -> find_def (m_defs m) (fst def) = Some d ->
    list_free x -> value_as_any t x b -> Inv st ->
    exists st', runs st (VGlobal (fst def)) [b] (VNumber (digest x)) st' /\ Inv st'.
  Proof.
    intros Tt U Ct Hdef Hd Hfind Lf (Bx & v & Hv & Hb) I.
    unfold hash_definition in Hdef. apply bind_ok in Hdef as (g & Hg & Hdef). apply bind_ok in Hdef as (h & Hh & Hdef). injection Hdef as <-.
    unfold compile_definition in Hd. cbn [fst snd l_body l_result l_arguments] in Hd, Hfind |- *.
    apply bind_ok in Hd as (body & Hbody & Hd). apply bind_ok in Hd as (rt & _ & Hd). apply bind_ok in Hd as (args & Hargs & Hd).
    injection Hd as <-. cbn [mapM fst snd] in Hargs.
    apply bind_ok in Hargs as (a1 & Ha1 & Hargs). apply bind_ok in Ha1 as (t1 & _ & Ha1). injection Ha1 as <-. cbn in Hargs. injection Hargs as <-.
    assert (Na : t <> TAny) by (intros ->; eapply hashed_any; eassumption).
    destruct (belongs_member f n E R C T w m Inv (fun _ => True) HR t t x Tt U Ct Na Bx) as (_ & Tx & Ux).
    destruct k as [|k]; [discriminate|].
    destruct (switch_runs f E R C T Ht HT n k _ _ _ _ body Hbody) as (a' & Ha' & S1).
    { intros br [<-|[]]. split; auto. }
    set (rho := [("$x", b)]).
    destruct (S1 _ v b rho Tx Ux Hb) as (br & body1 & u & rho1 & F1 & Hb1 & Sn1 & Bi1 & Ev1).
    { eexists. split; [left; reflexivity|]. left. exact (proj1 Bx). }
    destruct F1 as (be & af & Hbr & _ & _). destruct be as [|? [|]]; try discriminate. injection Hbr as <- _. cbn [fst snd] in *.
    pose proof (hk_x _ _ _ _ _ _ _ _ _ _ HH) as GX.
    destruct (hashed_all x t j k _ h body1 rho1 st u Tt U (canonical_proper t Tt Ct Na) Hh Hb1) as (st' & H' & I'); try assumption.
    - apply variable_operand. exact (proj1 Bi1).
    - split; [exact Bx|]. exists v, b. auto.
    - eapply clear_binds; [exact GX|exact Bi1|]. apply clear_cons, clear_nil; assumption.
    - exists st'. split; [|exact I']. eapply runs_global; [exact Hfind|reflexivity|reflexivity|]. cbn [f_args f_body map fst bind_args].
      eapply evals_via; [exact Ev1| |exact H']. destruct k; [discriminate|]. cbn in Ha'. injection Ha' as <-. apply evals_var. reflexivity.
  Qed.
End Hash.
