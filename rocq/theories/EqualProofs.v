(** The code of [==] compares data. *)
From Coq Require Import String List ZArith Bool Lia.
From Verif Require Import Base Mir HirType HirTypeSpec HirTypeOrder HirTypeTermination HirTypeEq HirTypeSub Hir HirSpec HirMir LowerSpec LowerTag LowerSwitch
  RunSpec RunProofs ListSpec PreludeList ListProofs ListLiteral EqualSpec.
Import ListNotations.
Local Open Scope string_scope.

Section Data.
  Variable P : data -> Prop.
  Hypothesis Hb : forall b, P (DBool b).
  Hypothesis Hn : forall z, P (DNumber z).
  Hypothesis Hs : forall s, P (DString s).
  Hypothesis H0 : P DNone.
  Hypothesis Hr : forall r o xs, Forall P xs -> P (DRecord r o xs).
  Hypothesis Hl : forall e xs, Forall P xs -> P (DList e xs).
  Fixpoint data_ind' (x : data) : P x :=
    let fix all (xs : list data) : Forall P xs :=
      match xs with
      | [] => Forall_nil _
      | x :: xs => Forall_cons _ (data_ind' x) (all xs)
      end in
    match x with
    | DBool b => Hb b
    | DNumber z => Hn z
    | DString s => Hs s
    | DNone => H0
    | DRecord r o xs => Hr r o xs (all xs)
    | DList e xs => Hl e xs (all xs)
    end.
End Data.

Lemma same_record w r o xs s p ys : same w (DRecord r o xs) (DRecord s p ys) = String.eqb r s && equal_with (same w) xs ys.
Proof. cbn [same]. f_equal. revert ys. induction xs as [|x xs IH]; intros [|y ys]; try reflexivity. cbn [equal_with]. f_equal. apply IH. Qed.

Lemma same_list w e xs ys : same w (DList e xs) (DList e ys) = equal_with (same w) xs ys.
Proof. cbn [same]. rewrite ty_compare_refl. revert ys. induction xs as [|x xs IH]; intros [|y ys]; try reflexivity. cbn [equal_with]. f_equal. apply IH. Qed.

Lemma same_types w f x y : names_ok f (type_of_data x) -> names_ok f (type_of_data y) ->
  type_of_data x <> type_of_data y -> same w x y = false.
Proof.
  intros Nx Ny N. destruct x, y; cbn [type_of_data] in *; try reflexivity; try congruence.
  - rewrite same_record. destruct (String.eqb r r0) eqn:Q; [|reflexivity]. apply String.eqb_eq in Q. subst r0.
    inversion Nx; inversion Ny; subst. congruence.
  - cbn [same]. destruct (ty_compare e e0) eqn:Q; try reflexivity. apply ty_compare_eq in Q. congruence.
Qed.

Section Equality.
  Variables (f : string -> string) (n : nat) (E : tenv) (R : renv) (C : config) (T : ty -> Prop).
  Variables (w : world) (m : mmodule) (Inv : state -> Prop).
  Variables (G : string -> Prop) (Ls : Prop).
  Hypothesis HC : record_code f n E R C T w m Inv G.
  Hypothesis HL : Ls -> list_code f n E R C T m.
  Let Ht : tidy f E C := rc_tidy _ _ _ _ _ _ _ _ _ _ HC.
  Let HT : collision_free E C T := rc_hashes _ _ _ _ _ _ _ _ _ _ HC.
  Let W : wf f E := tidy_wf _ _ _ Ht.
  Notation compile := (compile n E R C).
  Notation evals := (evals w m).
  Notation runs := (runs w m).
  Notation operand := (operand n E R C w m).
  Notation value_of := (value_of E R C w m Inv).
  Notation value_at := (value_at E R C w m Inv).
  Notation value_as_any := (value_as_any E R C w m Inv).
  Notation clear := (clear_of_equality n E C m G Ls).

  (** *** Environments *)
  Lemma clear_nil : clear [].
  Proof. intros g _ _. reflexivity. Qed.
  Lemma clear_binds rho rho' x v : global_type m x = None -> binds rho' rho x v -> clear rho -> clear rho'.
  Proof.
    intros Gx (_ & B) H g Hn Hg. destruct (String.eqb g x) eqn:Q.
    - apply String.eqb_eq in Q. subst g. contradiction.
    - apply String.eqb_neq in Q. rewrite B by exact Q. apply H; assumption.
  Qed.
  Lemma clear_cons rho x v : global_type m x = None -> clear rho -> clear ((x, v) :: rho).
  Proof.
    intros Gx. apply clear_binds with (x := x) (v := v); [exact Gx|]. split; [cbn; rewrite String.eqb_refl; reflexivity|].
    intros y Ny. cbn. apply String.eqb_neq in Ny. rewrite Ny. reflexivity.
  Qed.
  Lemma known_evals rho st g : clear rho -> equality_name n E C G Ls g -> global_type m g <> None -> evals rho st (Var g) (VGlobal g) st.
  Proof. intros H Hn Hg. destruct (global_type m g) as [t|] eqn:Q; [|contradiction]. eapply evals_global; [apply H; [exact Hn|congruence]|exact Q]. Qed.
  Lemma def_known g d : find_def (m_defs m) g = Some d -> global_type m g <> None.
  Proof. intros H. unfold global_type. rewrite H. discriminate. Qed.
  Lemma variable_operand rho st x v : lookup rho x = Some v -> operand rho st (HVariable x) v st.
  Proof. intros H [|k] e' Hc; [discriminate|]. cbn in Hc. injection Hc as <-. apply evals_var, H. Qed.

  Lemma evals_via rho st e a' b st1 rho' body v st2 :
    (forall md w m call st st', eval md w m call rho st a' = Done b st' -> eval md w m call rho st e = eval md w m call rho' st' body) ->
    evals rho st a' b st1 -> evals rho' st1 body v st2 -> evals rho st e v st2.
  Proof.
    intros H (k1 & H1) (k2 & H2). exists (Nat.max k1 k2). intros k Hk.
    rewrite (H Lexical w m (call Lexical w m k) st st1); [apply H2; lia|apply H1; lia].
  Qed.

  (** *** Operands *)
  Definition operands rho st l r (P Q : value -> Prop) st2 : Prop :=
    exists v st1, operand rho st l v st1 /\ P v /\
      forall rho', same_but "$lhs" rho' rho -> exists u, operand rho' st1 r u st2 /\ Q u.

  Lemma same_but_refl x rho : same_but x rho rho.
  Proof. intros y _. reflexivity. Qed.

  Lemma operands_impl rho st l r (P Q P' Q' : value -> Prop) st2 :
    (forall v, P v -> P' v) -> (forall v, Q v -> Q' v) -> operands rho st l r P Q st2 -> operands rho st l r P' Q' st2.
  Proof.
    intros HP HQ (v & st1 & H1 & H2 & H3). exists v, st1. split; [exact H1|]. split; [apply HP, H2|].
    intros rho' S. destruct (H3 rho' S) as (u & H4 & H5). eauto.
  Qed.

  Lemma variables_operands rho st v u (P Q : value -> Prop) :
    lookup rho "$lhs" = Some v -> lookup rho "$rhs" = Some u -> P v -> Q u ->
    operands rho st (HVariable "$lhs") (HVariable "$rhs") P Q st.
  Proof.
    intros Hv Hu Pv Qu. exists v, st. split; [apply variable_operand, Hv|]. split; [exact Pv|].
    intros rho' S. exists u. split; [|exact Qu]. apply variable_operand. rewrite S by discriminate. exact Hu.
  Qed.

  (** *** Types of data *)
  Lemma belongs_member t c x : tidy_type f E t -> uses E T t -> canon E t c -> c <> TAny -> belongs E t x ->
    In (type_of_data x) (members_canonical c) /\ tidy_type f E (type_of_data x) /\ tags_among T (type_of_data x).
  Proof.
    intros Tt U Hc Na (Ha & Hx).
    assert (Dx : defined E (type_of_data x)) by (eapply canon_defined; exact Hx).
    pose proof Ha as Ha'. apply (has_alt_canon f E W t c _ (proj1 (proj1 Tt)) Dx Hc Na) in Ha' as (y & Hy & Hin).
    assert (y = type_of_data x) as -> by (eapply canon_fun; eassumption).
    split; [exact Hin|]. split; [apply (tidy_type_member f E C Ht t c _ Tt Hc Hin)|]. apply U, Ha.
  Qed.

  Lemma member_plain c x : plain_head c -> In x (members_canonical c) -> x = c.
  Proof. destruct c; cbn; intros P H; try contradiction; destruct H as [H|[]]; congruence. Qed.

  (** At a type with one alternative, the value itself *)
  Lemma at_plain t c x u : tidy_type f E t -> uses E T t -> canon E t c -> plain_head c -> value_at t x u ->
    type_of_data x = c /\ value_of x u.
  Proof.
    intros Tt U Hc P (B & v & b & Hv & Hb & S).
    assert (Na : c <> TAny) by (intros ->; exact P).
    destruct (belongs_member t c x Tt U Hc Na B) as (Hin & _ & _). apply member_plain in Hin; [|exact P]. split; [exact Hin|].
    destruct S as [(_ & ->)|(Q & _)]; [exact Hv|]. destruct Q. rewrite Hin. apply canon_sound, Hc.
  Qed.

  (** At a union, its box *)
  Lemma at_union t l r x u : tidy_type f E t -> uses E T t -> canon E t (TUnion l r) -> value_at t x u ->
    exists v, value_of x v /\ boxed E C (type_of_data x) v u.
  Proof.
    intros Tt U Hc (B & v & b & Hv & Hb & S). exists v. split; [exact Hv|].
    destruct S as [(Q & _)|(_ & ->)]; [|exact Hb]. exfalso.
    assert (TUnion l r = type_of_data x) by (eapply (teq_canon_eq f E W); [exact Q|exact Hc|exact (proj2 B)]).
    destruct x; discriminate.
  Qed.

  (** *** Numbers and strings *)
  Lemma number_runs t k l r e rho st st2 (a b : Z) :
    canon E t TNumber -> compile k (HBinary (BinEquality (Some t) HEqual) l r) = Ok e ->
    operands rho st l r (eq (VNumber a)) (eq (VNumber b)) st2 -> evals rho st e (VBool (w_compare w Equal a b)) st2.
  Proof.
    intros Hc H (v & st1 & Hl & <- & Hr). destruct (Hr rho (same_but_refl _ _)) as (u & Hr' & <-).
    destruct k as [|k]; [discriminate|]. cbn [HirMir.compile compile_binary annotated bind] in H.
    apply bind_ok in H as (c & Hc' & H). assert (c = TNumber) as -> by (eapply canon_fun; [exists n; exact Hc'|exact Hc]).
    apply bind_ok in H as (l' & Hl' & H). apply bind_ok in H as (r' & Hr'' & H). injection H as <-.
    eapply evals_op; [eapply evals_cons; [exact (Hl _ _ Hl')|eapply evals_cons; [exact (Hr' _ _ Hr'')|apply evals_nil]]|reflexivity].
  Qed.

  Lemma string_runs t k l r e rho st st2 (a b : string) :
    canon E t TString -> compile k (HBinary (BinEquality (Some t) HEqual) l r) = Ok e -> clear rho -> Inv st2 ->
    operands rho st l r (eq (VBytes a)) (eq (VBytes b)) st2 ->
    exists st3, evals rho st e (VBool (String.eqb a b)) st3 /\ Inv st3.
  Proof.
    intros Hc H Cl I (v & st1 & Hl & <- & Hr). destruct (Hr rho (same_but_refl _ _)) as (u & Hr' & <-).
    destruct k as [|k]; [discriminate|]. cbn [HirMir.compile compile_binary annotated bind] in H.
    apply bind_ok in H as (c & Hc' & H). assert (c = TString) as -> by (eapply canon_fun; [exists n; exact Hc'|exact Hc]).
    apply bind_ok in H as (l' & Hl' & H). apply bind_ok in H as (r' & Hr'' & H). injection H as <-.
    destruct (rc_string _ _ _ _ _ _ _ _ _ _ HC st2 a b I) as (st3 & Hs & I3). exists st3. split; [|exact I3].
    refine (evals_call w m _ _ _ _ _ _ _ _ _ _ _ _ Hs); [|reflexivity].
    eapply evals_cons; [apply known_evals; [exact Cl|constructor|exact (rc_string_known _ _ _ _ _ _ _ _ _ _ HC)]|].
    eapply evals_cons; [exact (Hl _ _ Hl')|]. eapply evals_cons; [exact (Hr' _ _ Hr'')|]. apply evals_nil.
  Qed.

  (** *** What is to be proved of a datum *)
  Definition compared (x : data) : Prop := forall t c y j k l r h e rho st st2,
    tidy_type f E t -> uses E T t -> canon E t c ->
    equal_operation n E R C j t l r = Ok h -> compile k h = Ok e ->
    operands rho st l r (value_at t x) (value_at t y) st2 -> clear rho -> Inv st2 -> (c = TNone -> st2 = st) ->
    exists st3, evals rho st e (VBool (same w x y)) st3 /\ Inv st3.

  Definition compared_plain (x : data) : Prop := forall c y j k l r h e rho st st2,
    tidy_type f E c -> tags_among T c -> canon E c c -> plain_head c -> type_of_data x = c -> type_of_data y = c ->
    equal_code n E R C j c l r = Ok h -> compile k h = Ok e ->
    operands rho st l r (value_of x) (value_of y) st2 -> clear rho -> Inv st2 -> (c = TNone -> st2 = st) ->
    exists st3, evals rho st e (VBool (same w x y)) st3 /\ Inv st3.

  (** An equality operation of the source *)
  Lemma binary_runs x t c y k l r e rho st st2 : compared x ->
    tidy_type f E t -> uses E T t -> canon E t c ->
    compile k (HBinary (BinEquality (Some t) HEqual) l r) = Ok e ->
    operands rho st l r (value_at t x) (value_at t y) st2 -> clear rho -> Inv st2 -> (c = TNone -> st2 = st) ->
    exists st3, evals rho st e (VBool (same w x y)) st3 /\ Inv st3.
  Proof.
    intros K Tt U Hc H O Cl I No.
    assert (Hop : (exists k' h, k = S k' /\ equal_operation n E R C k' t l r = Ok h /\ compile k' h = Ok e) \/ c = TNumber \/ c = TString).
    { destruct k as [|k]; [discriminate|]. pose proof H as H'. cbn [HirMir.compile compile_binary annotated bind] in H'.
      apply bind_ok in H' as (c' & Hc' & H'). assert (c' = c) as -> by (eapply canon_fun; [exists n; exact Hc'|exact Hc]).
      destruct c; auto; left; apply bind_ok in H' as (h & H1 & H2); exists k, h; auto. }
    destruct Hop as [(k' & h & -> & H1 & H2)|[-> | ->]].
    - eapply K; eassumption.
    - assert (O' : operands rho st l r (fun v => type_of_data x = TNumber /\ value_of x v) (fun v => type_of_data y = TNumber /\ value_of y v) st2)
        by (eapply operands_impl; [| |exact O]; intros v Hv; eapply at_plain; try eassumption; exact Logic.I).
      destruct O' as (v & st1 & A1 & (A2 & A3) & A4). destruct (A4 rho (same_but_refl _ _)) as (u & _ & (A5 & _)).
      destruct x; try discriminate. destruct y; try discriminate. exists st2. split; [|exact I]. cbn [same].
      eapply number_runs; [exact Hc|exact H|]. exists v, st1. split; [exact A1|]. split; [symmetry; exact A3|].
      intros rho' S. destruct (A4 rho' S) as (u' & A6 & _ & A7). exists u'. split; [exact A6|]. symmetry. exact A7.
    - assert (O' : operands rho st l r (fun v => type_of_data x = TString /\ value_of x v) (fun v => type_of_data y = TString /\ value_of y v) st2)
        by (eapply operands_impl; [| |exact O]; intros v Hv; eapply at_plain; try eassumption; exact Logic.I).
      destruct O' as (v & st1 & A1 & (A2 & A3) & A4). destruct (A4 rho (same_but_refl _ _)) as (u & _ & (A5 & _)).
      destruct x; try discriminate. destruct y; try discriminate. cbn [same].
      eapply string_runs; [exact Hc|exact H|exact Cl|exact I|]. exists v, st1. split; [exact A1|]. split; [symmetry; exact A3|].
      intros rho' S. destruct (A4 rho' S) as (u' & A6 & _ & A7). exists u'. split; [exact A6|]. symmetry. exact A7.
  Qed.

  (** *** The equality function of a list's elements *)
  Lemma element_runs e x y g st b b' : compared x -> Ls ->
    T e -> canonical E e -> equal_name n E C e = Ok g -> Inv st ->
    value_as_any e x b -> value_as_any e y b' ->
    exists st', runs st (VGlobal g) [b; b'] (VBool (same w x y)) st' /\ Inv st'.
  Proof.
    intros K Hls Te Ce Hg I (Bx & v & Hv & Hb) (By & v' & Hv' & Hb').
    destruct (lc_elements _ _ _ _ _ _ _ (HL Hls) e Te Ce) as (Tt & U & j & k & def & d & Hdef & Hd & Hfind).
    unfold equal_definition in Hdef. apply bind_ok in Hdef as (name & Hname & Hdef). rewrite Hg in Hname. injection Hname as <-.
    apply bind_ok in Hdef as (h & Hh & Hdef). injection Hdef as <-.
    unfold compile_definition in Hd. cbn [fst snd l_body l_result l_arguments] in Hd, Hfind.
    apply bind_ok in Hd as (body & Hbody & Hd). apply bind_ok in Hd as (rt & _ & Hd). apply bind_ok in Hd as (args & Hargs & Hd).
    injection Hd as <-. cbn [mapM fst snd] in Hargs.
    apply bind_ok in Hargs as (a1 & Ha1 & Hargs). apply bind_ok in Ha1 as (t1 & _ & Ha1). injection Ha1 as <-.
    apply bind_ok in Hargs as (args' & Hargs' & Hargs). apply bind_ok in Hargs' as (a2 & Ha2 & Hargs').
    apply bind_ok in Ha2 as (t2 & _ & Ha2). injection Ha2 as <-. cbn in Hargs'. injection Hargs' as <-. injection Hargs as <-.
    assert (Na : e <> TAny).
    { intros ->. unfold equal_operation in Hh. apply bind_ok in Hh as (c & Hc & Hh). destruct n; [discriminate|]. cbn in Hc. injection Hc as <-.
      destruct j; discriminate. }
    destruct (belongs_member e e x Tt U Ce Na Bx) as (_ & Tx & Ux).
    destruct (belongs_member e e y Tt U Ce Na By) as (_ & Ty & Uy).
    assert (Kn : known_branch f E T e) by (split; [exact Tt|right; exact U]).
    assert (KB : forall z br, In br (all_branches [(e, z)] None) -> known_branch f E T (fst br)) by (intros z br [<-|[]]; exact Kn).
    destruct k as [|k]; [discriminate|].
    destruct (switch_runs f E R C T Ht HT n k _ _ _ _ body Hbody (KB _)) as (a' & Ha' & S1).
    set (rho := [("$rhs", b'); ("$lhs", b)]).
    destruct (S1 _ v b rho Tx Ux Hb) as (br & body1 & u & rho1 & F1 & Hb1 & Sn1 & Bi1 & Ev1).
    { eexists. split; [left; reflexivity|]. left. exact (proj1 Bx). }
    destruct F1 as (be & af & Hbr & _ & _). destruct be as [|? [|]]; try discriminate. injection Hbr as <- _. cbn [fst snd] in *.
    destruct k as [|k]; [discriminate|].
    destruct (switch_runs f E R C T Ht HT n k _ _ _ _ body1 Hb1 (KB _)) as (a2 & Ha2 & S2).
    destruct (S2 _ v' b' rho1 Ty Uy Hb') as (br & body2 & u' & rho2 & F2 & Hb2 & Sn2 & Bi2 & Ev2).
    { eexists. split; [left; reflexivity|]. left. exact (proj1 By). }
    destruct F2 as (be & af' & Hbr & _ & _). destruct be as [|? [|]]; try discriminate. injection Hbr as <- _. cbn [fst snd] in *.
    pose proof (rc_lhs _ _ _ _ _ _ _ _ _ _ HC) as GL. pose proof (rc_rhs _ _ _ _ _ _ _ _ _ _ HC) as GR.
    assert (Cl : clear rho) by (apply clear_cons, clear_cons, clear_nil; assumption).
    destruct (K e e y j k _ _ h body2 rho2 st st Tt U Ce Hh Hb2) as (st' & Hev & I').
    { eapply variables_operands.
      - rewrite (proj2 Bi2) by discriminate. exact (proj1 Bi1).
      - exact (proj1 Bi2).
      - split; [exact Bx|]. exists v, b. auto.
      - split; [exact By|]. exists v', b'. auto. }
    { eapply clear_binds; [exact GR|exact Bi2|]. eapply clear_binds; [exact GL|exact Bi1|exact Cl]. }
    { exact I. } { reflexivity. }
    exists st'. split; [|exact I'].
    eapply runs_global; [exact Hfind|reflexivity|reflexivity|]. cbn [f_args f_body map fst bind_args].
    eapply evals_via; [exact Ev1| |].
    { destruct k; cbn in Ha'; injection Ha' as <-; apply evals_var; reflexivity. }
    eapply evals_via; [exact Ev2| |exact Hev].
    destruct k; [discriminate|]; cbn in Ha2; injection Ha2 as <-. apply evals_var. rewrite (proj2 Bi1) by discriminate. reflexivity.
  Qed.

  (** *** The equality function of a record *)
  Fixpoint fields_at (xs : list data) (fts : list (string * ty)) (vs : list value) : Prop :=
    match xs, fts, vs with
    | [], [], [] => True
    | x :: xs, (_, t) :: fts, u :: vs => value_at t x u /\ fields_at xs fts vs
    | _, _, _ => False
    end.

  Lemma value_of_record r o xs v : value_of (DRecord r o xs) v ->
    exists fts vs, lookup R r = Some fts /\ v = VRecord r vs /\ fields_at xs fts vs.
  Proof.
    cbn [EqualSpec.value_of]. intros (fts & vs & H1 & H2 & H3). exists fts, vs. split; [exact H1|]. split; [exact H2|]. exact H3.
  Qed.

  Lemma field_index_app pre x t suf : ~ In x (map fst pre) -> field_index (pre ++ (x, t) :: suf) x = Ok (List.length pre).
  Proof.
    induction pre as [|[y u] pre IH]; cbn; intros H.
    - rewrite String.eqb_refl. reflexivity.
    - destruct (String.eqb x y) eqn:Q; [apply String.eqb_eq in Q; subst; tauto|]. rewrite IH by tauto. reflexivity.
  Qed.

  Lemma field_operand r o fts pre x t suf vs rho st v z : lookup R r = Some fts -> NoDup (map fst fts) -> fts = (pre ++ (x, t) :: suf)%list ->
    lookup rho z = Some (VRecord r vs) -> nth_error vs (List.length pre) = Some v ->
    operand rho st (HField (Some (TRecord r o)) (HVariable z) x) v st.
  Proof.
    clear HL. intros Hr ND -> Hz Hn [|k] e' H; [discriminate|]. cbn [HirMir.compile] in H.
    apply bind_ok in H as (r' & Hr' & H). apply bind_ok in H as (fts & Hf & H). apply bind_ok in H as (i & Hi & H).
    apply bind_ok in H as (e & He & H). injection H as <-.
    assert (r' = r).
    { unfold compile_record_type in Hr'. apply bind_ok in Hr' as (c & Hc & Hr'). destruct n; [discriminate|]. cbn in Hc. injection Hc as <-.
      cbn in Hr'. congruence. }
    subst r'.
    assert (fts = (pre ++ (x, t) :: suf)%list).
    { unfold record_fields, canonical_record in Hf. apply bind_ok in Hf as (r' & Hr2 & Hf). apply bind_ok in Hr2 as (c & Hc & Hr2).
      destruct n; [discriminate|]. cbn in Hc. injection Hc as <-. injection Hr2 as <-. unfold resolve_record in Hf. rewrite Hr in Hf. congruence. }
    subst fts. rewrite map_app in ND. cbn [map fst] in ND. apply NoDup_remove_2 in ND.
    rewrite field_index_app in Hi by (intros Q; apply ND, in_or_app; auto). injection Hi as <-.
    destruct k as [|k]; [discriminate|]. cbn in He. injection He as <-.
    eapply evals_op; [eapply evals_cons; [apply evals_var, Hz|apply evals_nil]|].
    intros call. cbn. rewrite String.eqb_refl, Hn. reflexivity.
  Qed.

  Lemma fields_run r o fts vs us rho : lookup R r = Some fts -> NoDup (map fst fts) ->
    (forall x t, In (x, t) fts -> tidy_type f E t /\ uses E T t) ->
    lookup rho "$lhs" = Some (VRecord r vs) -> lookup rho "$rhs" = Some (VRecord r us) -> clear rho ->
    forall suf xs ys pre vpre vsuf upre usuf k e st,
    fts = (pre ++ suf)%list -> vs = (vpre ++ vsuf)%list -> us = (upre ++ usuf)%list ->
    List.length vpre = List.length pre -> List.length upre = List.length pre ->
    Forall compared xs -> fields_at xs suf vsuf -> fields_at ys suf usuf ->
    compile k (equal_fields (TRecord r o) suf) = Ok e -> Inv st ->
    exists st', evals rho st e (VBool (equal_with (same w) xs ys)) st' /\ Inv st'.
  Proof.
    intros Hr ND Hty Hl Hrh Cl. induction suf as [|[z t] suf IH]; intros xs ys pre vpre vsuf upre usuf k e st Ef Ev Eu Lv Lu K Fx Fy H I.
    - destruct xs as [|? ?]; [|destruct vsuf; contradiction Fx]. destruct ys as [|? ?]; [|destruct usuf; contradiction Fy].
      destruct k as [|k]; [discriminate|]. injection H as <-. exists st. split; [apply evals_lit|exact I].
    - destruct xs as [|x xs]; [destruct Fx|]. destruct vsuf as [|v vsuf]; [destruct Fx|]. destruct Fx as (Vx & Fx).
      destruct ys as [|y ys]; [destruct Fy|]. destruct usuf as [|u usuf]; [destruct Fy|]. destruct Fy as (Vy & Fy).
      inversion K as [|? ? Kx Kxs]; subst x0 l.
      destruct k as [|k]; [discriminate|]. cbn [equal_fields HirMir.compile] in H.
      apply bind_ok in H as (ec & Hc & H). apply bind_ok in H as (ea & Ha & H). apply bind_ok in H as (eb & Hb & H). injection H as <-.
      destruct (Hty z t) as (Tt & U); [rewrite Ef; apply in_or_app; right; left; reflexivity|].
      destruct (canon_ex f E W t (proj1 (proj1 Tt))) as (c & Hcan).
      assert (Nv : nth_error vs (List.length pre) = Some v) by (rewrite Ev, <- Lv, nth_error_app2, PeanoNat.Nat.sub_diag by lia; reflexivity).
      assert (Nu : nth_error us (List.length pre) = Some u) by (rewrite Eu, <- Lu, nth_error_app2, PeanoNat.Nat.sub_diag by lia; reflexivity).
      destruct (binary_runs x t c y k _ _ ec rho st st Kx Tt U Hcan Hc) as (st1 & H1 & I1); [|exact Cl|exact I|reflexivity|].
      { exists v, st. split; [eapply field_operand; eassumption|]. split; [exact Vx|]. intros rho' S. exists u. split; [|exact Vy].
        eapply field_operand; try eassumption. rewrite S by discriminate. exact Hrh. }
      cbn [equal_with]. destruct (same w x y) eqn:Sxy; cbn [andb].
      + destruct (IH xs ys (pre ++ [(z, t)])%list (vpre ++ [v])%list vsuf (upre ++ [u])%list usuf k ea st1) as (st2 & H2 & I2);
          try assumption; try (rewrite <- app_assoc; assumption); try (rewrite !app_length; cbn; lia).
        exists st2. split; [|exact I2]. eapply evals_if; [exact H1|exact H2].
      + exists st1. split; [|exact I1]. eapply evals_if; [exact H1|]. destruct k; [discriminate|]. injection Hb as <-. apply evals_lit.
  Qed.

  Lemma record_runs r o xs ys v u st : Forall compared xs -> G r -> tidy_type f E (TRecord r o) -> comparable n E R (TRecord r o) = Ok true ->
    value_of (DRecord r o xs) v -> value_of (DRecord r o ys) u -> Inv st ->
    exists st', runs st (VGlobal (record_equal_name r)) [v; u] (VBool (equal_with (same w) xs ys)) st' /\ Inv st'.
  Proof.
    intros K Hg Tr Hc Hv Hu I. apply value_of_record in Hv as (fts & vs & Hr & -> & Fv). apply value_of_record in Hu as (fts' & us & Hr' & -> & Fu).
    rewrite Hr in Hr'. injection Hr' as <-.
    destruct (rc_records _ _ _ _ _ _ _ _ _ _ HC r o fts Hg Tr Hc Hr) as (ND & Hty & k & d & Hd & Hfind).
    unfold compile_definition, record_equal_definition in Hd. cbn [fst snd l_body l_result l_arguments] in Hd.
    apply bind_ok in Hd as (body & Hbody & Hd). apply bind_ok in Hd as (rt & _ & Hd). apply bind_ok in Hd as (args & Hargs & Hd).
    injection Hd as <-. cbn [mapM fst snd] in Hargs.
    apply bind_ok in Hargs as (a1 & Ha1 & Hargs). apply bind_ok in Ha1 as (t1 & _ & Ha1). injection Ha1 as <-.
    apply bind_ok in Hargs as (args' & Hargs' & Hargs). apply bind_ok in Hargs' as (a2 & Ha2 & Hargs').
    apply bind_ok in Ha2 as (t2 & _ & Ha2). injection Ha2 as <-. cbn in Hargs'. injection Hargs' as <-. injection Hargs as <-.
    pose proof (rc_lhs _ _ _ _ _ _ _ _ _ _ HC) as GL. pose proof (rc_rhs _ _ _ _ _ _ _ _ _ _ HC) as GR.
    destruct (fields_run r o fts vs us [("$rhs", VRecord r us); ("$lhs", VRecord r vs)] Hr ND Hty eq_refl eq_refl
      (clear_cons _ _ _ GR (clear_cons _ _ _ GL clear_nil)) fts xs ys [] [] vs [] us k body st) as (st' & H & I');
      try reflexivity; try assumption.
    exists st'. split; [|exact I']. eapply runs_global; [exact Hfind|reflexivity|reflexivity|]. exact H.
  Qed.

  (** *** Types with one alternative *)
  Lemma hcall_runs g ts t es l r k e rho st st2 (P Q : value -> Prop) vs b :
    compile k (hcall g ts t (es ++ [l; r])) = Ok e -> List.length ts = S (S (List.length es)) ->
    Forall2 (fun z v => forall st', operand rho st' z v st') es vs ->
    clear rho -> equality_name n E C G Ls g -> global_type m g <> None -> operands rho st l r P Q st2 ->
    (forall v u, P v -> Q u -> exists st3, runs st2 (VGlobal g) (vs ++ [v; u]) (VBool b) st3 /\ Inv st3) ->
    exists st3, evals rho st e (VBool b) st3 /\ Inv st3.
  Proof.
    intros H Le Hes Cl Gn Gg (v & st1 & Hl & Pv & Hr) Hrun. destruct (Hr rho (same_but_refl _ _)) as (u & Hr' & Qu).
    destruct (Hrun v u Pv Qu) as (st3 & H3 & I3). exists st3. split; [|exact I3].
    apply compile_hcall in H as (k' & a & rt & es' & -> & F & La & ->).
    apply Forall2_app_inv_l in F as (es1 & es2 & F1 & F2 & ->). inversion F2 as [|? l' ? ? Hl' F3]; subst. inversion F3 as [|? r' ? ? Hr'' F4]; subst.
    inversion F4; subst.
    refine (evals_call w m _ _ _ _ _ _ _ _ _ _ _ _ H3).
    - eapply evals_cons; [apply known_evals; [exact Cl|exact Gn|exact Gg]|].
      clear H3 Le La F2 F3 F4 Hrun. revert vs Hes. induction F1 as [|z z' es es1 Hz F1 IH]; intros vs Hes; inversion Hes as [|? w0 ? ws Hw Hws]; subst.
      + cbn [app]. eapply evals_cons; [exact (Hl _ _ Hl')|]. eapply evals_cons; [exact (Hr' _ _ Hr'')|]. apply evals_nil.
      + cbn [app]. eapply evals_cons; [exact (Hw _ _ _ Hz)|]. apply IH, Hws.
    - rewrite La, Le, app_length. rewrite <- (Forall2_len Hes). cbn. lia.
  Qed.

  (** the data that the code can compare *)
  Fixpoint handled (x : data) : Prop :=
    let fix all (xs : list data) : Prop := match xs with [] => True | x :: xs => handled x /\ all xs end in
    match x with
    | DRecord r _ xs => G r /\ all xs
    | DList _ xs => Ls /\ all xs
    | _ => True
    end.

  Lemma plain_runs x :
    match x with DRecord r _ xs => G r /\ Forall compared xs | DList _ xs => Ls /\ Forall compared xs | _ => True end -> compared_plain x.
  Proof.
    intros K c y j k l r h e rho st st2 Tc Uc Cc Pc Ex Ey Hh He O Cl I No.
    destruct j as [|j]; [discriminate|]. destruct x as [a|a|a| |r0 o xs|e0 xs]; cbn [type_of_data] in Ex; subst c; destruct y as [b|b|b| |r1 o1 ys|e1 ys]; try discriminate Ey;
      cbn [equal_code] in Hh.
    - injection Hh as <-. destruct O as (v & st1 & Hl & Pv & Hr). cbn in Pv. subst v. destruct (Hr rho (same_but_refl _ _)) as (u & Hr' & Qu). cbn in Qu. subst u.
      exists st2. split; [|exact I]. destruct k as [|k]; [discriminate|]. cbn [HirMir.compile] in He.
      apply bind_ok in He as (l' & Hl' & He). apply bind_ok in He as (r' & Hr'' & He). apply bind_ok in He as (i' & Hi & He). injection He as <-.
      eapply evals_if; [exact (Hl _ _ Hl')|]. destruct a.
      + cbn [same Bool.eqb]. replace (if b then true else false) with b by (destruct b; reflexivity). exact (Hr' _ _ Hr'').
      + destruct k as [|k]; [discriminate|]. cbn [HirMir.compile] in Hi.
        apply bind_ok in Hi as (r2 & Hr2 & Hi). apply bind_ok in Hi as (x1 & Hx1 & Hi). apply bind_ok in Hi as (x2 & Hx2 & Hi). injection Hi as <-.
        eapply evals_if; [exact (Hr' _ _ Hr2)|]. destruct k; [discriminate|]. injection Hx1 as <-. injection Hx2 as <-.
        destruct b; apply evals_lit.
    - injection Hh as <-. exists st2. split; [|exact I]. cbn [same]. eapply number_runs; [exact Cc|exact He|].
      eapply operands_impl; [| |exact O]; intros v Hv; symmetry; exact Hv.
    - injection Hh as <-. cbn [same]. eapply string_runs; [exact Cc|exact He|exact Cl|exact I|].
      eapply operands_impl; [| |exact O]; intros v Hv; symmetry; exact Hv.
    - injection Hh as <-. rewrite (No eq_refl) in I. exists st. split; [|exact I]. destruct k; [discriminate|]. injection He as <-. apply evals_lit.
    - cbn in Ey. injection Ey as -> ->. apply bind_ok in Hh as (b & Hb & Hh). destruct b; [|discriminate]. injection Hh as <-.
      rewrite same_record, String.eqb_refl. cbn [andb].
      destruct O as (v0 & st1 & A1 & A2 & A3). destruct (value_of_record _ _ _ _ A2) as (fts & vs0 & Hr & _).
      destruct K as (Kg & K). destruct (rc_records _ _ _ _ _ _ _ _ _ _ HC _ _ _ Kg Tc Hb Hr) as (_ & _ & k0 & d & _ & Hfind).
      refine (hcall_runs _ [_; _] _ [] l r k e rho st st2 _ _ [] _ He eq_refl (Forall2_nil _) Cl (en_record _ _ _ _ _ _ Kg) (def_known _ _ Hfind)
        (ex_intro _ v0 (ex_intro _ st1 (conj A1 (conj A2 A3)))) _).
      intros v u Pv Qu. eapply record_runs; eassumption.
    - cbn in Ey. injection Ey as ->. apply bind_ok in Hh as (g & Hg & Hh). injection Hh as <-. rewrite same_list.
      destruct K as (Kl & K). pose proof (lc_prelude _ _ _ _ _ _ _ (HL Kl)) as L. pose proof (lc_names _ _ _ _ _ _ _ (HL Kl)) as N.
      assert (Te : T e0) by (apply Uc; left; reflexivity).
      assert (Ce : canonical E e0) by (apply canon_list in Cc as (e' & He' & Q); injection Q as <-; exact He').
      destruct (lc_elements _ _ _ _ _ _ _ (HL Kl) e0 Te Ce) as (_ & _ & j0 & k0 & def & d & Hdef & _ & Hfind).
      assert (Gg : global_type m g <> None).
      { unfold equal_definition in Hdef. apply bind_ok in Hdef as (name & Hname & Hdef). rewrite Hg in Hname. injection Hname as <-.
        apply bind_ok in Hdef as (h & _ & Hdef). injection Hdef as <-. eapply def_known, Hfind. }
      pose proof (en_list n E C G Ls Kl) as Ne. rewrite (ln_equal C N) in He, Ne.
      refine (hcall_runs _ [_; _; _] _ [HVariable g] l r k e rho st st2 _ _ [VGlobal g] _ He eq_refl _ Cl Ne _ O _).
      + constructor; [|constructor]. intros st' k' e' Hc'. destruct k'; [discriminate|]. cbn in Hc'. injection Hc' as <-.
        apply known_evals; [assumption|eapply en_element; [exact Kl|exact Hg]|assumption].
      + erewrite (known_global m L) by reflexivity. discriminate.
      + intros v u Pv Qu. cbn [EqualSpec.value_of] in Pv, Qu. cbn [app].
        refine (equal_runs w m L Inv _ (same w) (VGlobal g) xs ys v u st2 Pv Qu _ I).
        intros a b Ia Ib st' va vb I' Qa Qb. rewrite Forall_forall in K. eapply element_runs; eauto.
  Qed.

  (** *** Unions *)
  Lemma alt_fold E0 ts : forall t a, alt E0 (fold_left TUnion ts t) a <-> alt E0 t a \/ exists u, In u ts /\ alt E0 u a.
  Proof.
    induction ts as [|u ts IH]; intros t a; cbn [fold_left].
    - split; [auto|]. intros [H|(u & [] & _)]. exact H.
    - rewrite IH. split.
      + intros [H|(z & Hz & H)]; [|right; exists z; split; [right; exact Hz|exact H]].
        inversion H; subst; [left; assumption|right; exists u; split; [left; reflexivity|assumption]|congruence].
      + intros [H|(z & [<-|Hz] & H)]; [left; apply alt_left, H|left; apply alt_right, H|right; eauto].
  Qed.

  Lemma create_union_alt E0 ts u a : create_union ts = Some u -> (has_alt E0 u a <-> exists t, In t ts /\ has_alt E0 t a).
  Proof.
    destruct ts as [|t ts]; [discriminate|]. cbn. intros [= <-]. unfold has_alt. split.
    - intros (b & H & Q). apply alt_fold in H as [H|(z & Hz & H)]; [exists t|exists z]; (split; [cbn; auto|]); eauto.
    - intros (z & Hz & b & H & Q). exists b. split; [|exact Q]. apply alt_fold. destruct Hz as [<-|Hz]; eauto.
  Qed.

  Lemma create_union_names ts u : create_union ts = Some u -> (forall t, In t ts -> tidy_type f E t) -> tidy_type f E u.
  Proof.
    destruct ts as [|t ts]; [discriminate|]. cbn. intros [= <-] H.
    assert (Ht0 : tidy_type f E t) by (apply H; left; reflexivity).
    assert (Hts : forall t, In t ts -> tidy_type f E t) by (intros z Hz; apply H; right; exact Hz).
    clear H. revert t Ht0. induction ts as [|z ts IH]; intros t Ht0; cbn [fold_left]; [exact Ht0|].
    apply IH; [intros y Hy; apply Hts; right; exact Hy|].
    destruct Ht0 as ((D1 & N1) & T1). destruct (Hts z (or_introl eq_refl)) as ((D2 & N2) & T2).
    split; [split|].
    - intros y Hy. cbn in Hy. apply in_app_or in Hy as [Hy|Hy]; auto.
    - constructor; assumption.
    - intros y Hy. cbn in Hy. apply in_app_or in Hy as [Hy|Hy]; auto.
  Qed.

  Lemma other_types_spec ts t : forall us, (forall u, In u ts -> names_ok f u) -> names_ok f t -> other_types n E ts t = Ok us ->
    forall u, In u us <-> In u ts /\ ~ teq E u t.
  Proof.
    induction ts as [|a ts IH]; intros us Hn Nt H u; cbn [other_types] in H.
    - injection H as <-. cbn. tauto.
    - apply bind_ok in H as (b & Hb & H). apply bind_ok in H as (us' & Hus & H). injection H as <-.
      pose proof (equal_types_correct f E W n a t b (Hn a (or_introl eq_refl)) Nt Hb) as Q.
      specialize (IH us' (fun u Hu => Hn u (or_intror Hu)) Nt Hus u). destruct b.
      + rewrite IH. cbn [In]. split; [tauto|]. intros ([<-|H1] & H2); [|tauto]. destruct H2. apply Q. reflexivity.
      + cbn [In]. rewrite IH. split; [|tauto]. intros [<-|H]; [|tauto]. split; [left; reflexivity|]. intros T'. apply Q in T'. discriminate.
  Qed.

  Lemma mapM_in {A B} (g : A -> res B) xs ys : mapM g xs = Ok ys -> forall y, In y ys -> exists x, In x xs /\ g x = Ok y.
  Proof.
    intros H. apply mapM_ok in H. induction H as [|x y xs ys Hx _ IH]; intros z Hz; [destruct Hz|].
    destruct Hz as [<-|Hz]; [exists x; cbn; auto|]. destruct (IH z Hz) as (x' & H1 & H2). exists x'. cbn. auto.
  Qed.
  Lemma mapM_in' {A B} (g : A -> res B) xs ys : mapM g xs = Ok ys -> forall x, In x xs -> exists y, In y ys /\ g x = Ok y.
  Proof.
    intros H. apply mapM_ok in H. induction H as [|x y xs ys Hx _ IH]; intros z Hz; [destruct Hz|].
    destruct Hz as [<-|Hz]; [exists y; cbn; auto|]. destruct (IH z Hz) as (x' & H1 & H2). exists x'. cbn. auto.
  Qed.

  Lemma fixed_alt a b : canon E a a -> canon E b b -> plain_head a -> has_alt E a b -> a = b.
  Proof.
    intros Ca Cb Pa H.
    apply (has_alt_canon f E W a a b (canon_defined _ _ _ Ca) (canon_defined _ _ _ Cb) Ca) in H as (y & Hy & Hin); [|intros ->; exact Pa].
    apply member_plain in Hin; [|exact Pa]. subst y. symmetry. eapply canon_fun; eassumption.
  Qed.

  Lemma switch_case k x a bs els e : compile (S k) (HIfType x a bs els) = Ok e ->
    exists a' alts de, compile k a = Ok a' /\ e = Case a' alts de.
  Proof.
    intros H. cbn [HirMir.compile] in H. apply bind_ok in H as (a' & Ha & H). apply bind_ok in H as (alts & _ & H). apply bind_ok in H as (de & _ & H).
    injection H as <-. eauto.
  Qed.

  (** what the code does once an operand is there *)
  Definition continues rho (a : expr) (b : value) (e : expr) rho' (e' : expr) : Prop :=
    forall md w m call st st', eval md w m call rho st a = Done b st' -> eval md w m call rho st e = eval md w m call rho' st' e'.

  Lemma union_switch t lt rt j k l r h e : tidy_type f E t -> uses E T t -> canon E t (TUnion lt rt) ->
    equal_code n E R C j (TUnion lt rt) l r = Ok h -> compile k h = Ok e ->
    exists k1 l' alts de, k = S k1 /\ compile k1 l = Ok l' /\ e = Case l' alts de /\
    forall x b rho, compared_plain x -> value_at t x b ->
    exists rho1 k2 r' alts' de', k1 = S k2 /\ compile k2 r = Ok r' /\ same_but "$lhs" rho1 rho /\
      continues rho l' b e rho1 (Case r' alts' de') /\
      forall y b', value_at t y b' ->
      exists rho2 body, continues rho1 r' b' (Case r' alts' de') rho2 body /\
        (clear rho -> forall st2, Inv st2 -> exists st3, evals rho2 st2 body (VBool (same w x y)) st3 /\ Inv st3).
  Proof.
    intros Tt U Hc Hh He. set (c := TUnion lt rt) in *.
    assert (Na : c <> TAny) by discriminate. pose proof (canon_idem f E W t c Hc) as Fc.
    destruct j as [|j]; [discriminate|]. cbn [equal_code c] in Hh. fold c in Hh.
    apply bind_ok in Hh as (ms & Hms & Hh). apply bind_ok in Hh as (bs & Hbs & Hh). injection Hh as <-.
    destruct (union_members_spec E n c ms Fc Hms) as (Mm & _ & _).
    (* members *)
    assert (Mt : forall a, In a ms -> tidy_type f E a /\ canon E a a /\ uses E T a /\ plain_head a /\ has_alt E t a).
    { intros a Ha. apply Mm in Ha. destruct (tidy_type_member f E C Ht t c a Tt Hc Ha) as (Ta & Fa).
      assert (Hat : has_alt E t a) by (apply (has_alt_canon f E W t c a (proj1 (proj1 Tt)) (proj1 (proj1 Ta)) Hc Na); eauto).
      assert (Pa : plain_head a).
      { destruct (members_fixed f E W t c Hc a Ha) as (_ & Nu). destruct a; try exact Logic.I; try discriminate Nu.
        - apply (proj1 (has_alt_any f E W t c (proj1 (proj1 Tt)) Hc)) in Hat. congruence.
        - exfalso. pose proof (canon_references _ _ _ Fa) as Q. discriminate Q. }
      split; [exact Ta|]. split; [exact Fa|]. split; [|auto]. intros b Hb. apply U. destruct Hb as (b' & Hb' & Q).
      assert (b' = a). { inversion Hb'; subst; try contradiction. reflexivity. } subst b'.
      eapply has_alt_teq; eassumption. }
    assert (Kb : forall a, In a ms -> known_branch f E T a) by (intros a Ha; destruct (Mt a Ha) as (H1 & _ & H2 & _); split; auto).
    assert (Bs : forall br, In br bs -> exists others u eq, In (fst br) ms /\
      equal_code n E R C j (fst br) (HVariable "$lhs") (HVariable "$rhs") = Ok eq /\
      other_types n E ms (fst br) = Ok others /\ create_union others = Some u /\
      snd br = HIfType "$rhs" r [(fst br, eq)] (Some (Some u, HBoolean false))).
    { intros br Hbr. destruct (mapM_in _ _ _ Hbs br Hbr) as (a & Ha & Hg). apply bind_ok in Hg as (eq & Heq & Hg).
      apply bind_ok in Hg as (others & Hoth & Hg). destruct (create_union others) as [u|] eqn:Hu; [|discriminate]. injection Hg as <-.
      exists others, u, eq. cbn. auto. }
    destruct k as [|k]; [discriminate|].
    destruct (switch_case _ _ _ _ _ _ He) as (l0 & alts & de & Hl0 & Ee).
    destruct (switch_runs f E R C T Ht HT n k _ _ _ _ e He) as (l' & Hl' & S1).
    { unfold all_branches. rewrite app_nil_r. intros br Hbr. destruct (Bs br Hbr) as (_ & _ & _ & Hin & _). apply Kb, Hin. }
    unfold all_branches in S1. rewrite app_nil_r in S1.
    assert (l0 = l') by congruence. subst l0. exists k, l', alts, de. split; [reflexivity|]. split; [exact Hl'|]. split; [exact Ee|].
    intros x b rho K Vx.
    destruct (belongs_member t c x Tt U Hc Na (proj1 Vx)) as (Ix & Tx & Ux).
    destruct (at_union t lt rt x b Tt U Hc Vx) as (v & Hv & Hb).
    apply Mm in Ix. destruct (Mt _ Ix) as (_ & Fx & _ & Px & _).
    assert (self : forall a, canon E a a -> plain_head a -> has_alt E a a).
    { intros a _ Pa. exists a. split; [|apply teq_refl]. apply alt_self; intros; destruct a; try discriminate; contradiction. }
    destruct (S1 _ v b rho Tx Ux Hb) as (br & body1 & u1 & rho1 & F1 & Hb1 & Sn1 & Bi1 & Ev1).
    { destruct (mapM_in' _ _ _ Hbs _ Ix) as (br & Hbr & Hg). exists br. split; [exact Hbr|]. left.
      apply bind_ok in Hg as (eq & Heq & Hg). apply bind_ok in Hg as (others & Hoth & Hg).
      destruct (create_union others) as [u|]; [|discriminate]. injection Hg as <-. apply self; assumption. }
    assert (Hbr : In br bs) by (destruct F1 as (be & af & -> & _); apply in_or_app; right; left; reflexivity).
    destruct (Bs br Hbr) as (others & ou & eq & Hin & Heq & Hoth & Hou & Hsnd).
    destruct (Mt _ Hin) as (Tbr & Fbr & Ubr & Pbr & _).
    assert (Ebr : fst br = type_of_data x).
    { apply (fixed_alt _ _ Fbr Fx Pbr). destruct F1 as (be & af & _ & [Q|Q] & _); [exact Q|].
      exfalso. apply (proj1 (has_alt_any f E W _ _ (proj1 (proj1 Tbr)) Fbr)) in Q. rewrite Q in Pbr. exact Pbr. }
    rewrite Ebr in *. rewrite Hsnd in Hb1.
    assert (u1 = v) by (destruct Sn1 as [(_ & Q)|(Q & _)]; [exact Q|destruct Q; apply teq_refl]). subst u1.
    (* the other operand *)
    assert (Nms : forall a, In a ms -> names_ok f a) by (intros a Ha; apply (Mt a Ha)).
    pose proof (other_types_spec ms (type_of_data x) others Nms (proj2 (proj1 Tx)) Hoth) as Ho.
    assert (To : tidy_type f E ou).
    { eapply create_union_names; [exact Hou|]. intros a Ha. apply Ho in Ha as (Ha & _). apply (Mt a Ha). }
    assert (Uo : uses E T ou).
    { intros a Ha. apply (create_union_alt E _ _ a Hou) in Ha as (z & Hz & Ha). apply Ho in Hz as (Hz & _).
      destruct (Mt z Hz) as (_ & _ & Uz & _). apply Uz, Ha. }
    destruct k as [|k]; [discriminate|].
    destruct (switch_case _ _ _ _ _ _ Hb1) as (r0 & alts' & de' & Hr0 & Eb).
    destruct (switch_runs f E R C T Ht HT n k _ _ _ _ body1 Hb1) as (r' & Hr' & S2).
    { intros br' [<-|[<-|[]]]; cbn [fst]; split; auto. }
    assert (Sb : same_but "$lhs" rho1 rho) by (intros z Nz; apply Bi1, Nz).
    assert (r0 = r') by congruence. subst r0. exists rho1, k, r', alts', de'. split; [reflexivity|]. split; [exact Hr'|]. split; [exact Sb|].
    rewrite <- Eb. split; [exact Ev1|]. intros y b' Vy.
    destruct (belongs_member t c y Tt U Hc Na (proj1 Vy)) as (Iy & Ty & Uy). apply Mm in Iy.
    destruct (Mt _ Iy) as (_ & Fy & _ & Py & _).
    destruct (at_union t lt rt y b' Tt U Hc Vy) as (v' & Hv' & Hb').
    assert (Dec : type_of_data x = type_of_data y \/ type_of_data x <> type_of_data y).
    { destruct (ty_compare (type_of_data x) (type_of_data y)) eqn:Q; [left; apply ty_compare_eq, Q| |];
        right; intros Q'; apply ty_compare_eq in Q'; congruence. }
    destruct (S2 _ v' b' rho1 Ty Uy Hb') as (br' & body2 & u2 & rho2 & F2 & Hb2 & Sn2 & Bi2 & Ev2).
    { destruct Dec as [Q|Q].
      - eexists. split; [left; reflexivity|]. left. cbn [fst]. rewrite Q. apply self; assumption.
      - eexists. split; [right; left; reflexivity|]. left. cbn [fst]. apply (create_union_alt E _ _ _ Hou).
        exists (type_of_data y). split; [|apply self; assumption]. apply Ho. split; [exact Iy|].
        intros T'. apply Q. symmetry. eapply (teq_canon_eq f E W); [exact T'|exact Fy|exact Fx]. }
    pose proof (rc_lhs _ _ _ _ _ _ _ _ _ _ HC) as GL. pose proof (rc_rhs _ _ _ _ _ _ _ _ _ _ HC) as GR.
    exists rho2, body2. split; [exact Ev2|]. intros Cl st2 I.
    assert (Cl2 : clear rho2) by (eapply clear_binds; [exact GR|exact Bi2|]; eapply clear_binds; [exact GL|exact Bi1|exact Cl]).
    destruct F2 as (be & af & Hl2 & [Tk|Tk] & Hno).
      2:{ exfalso. destruct be as [|b0 [|b1 [|]]]; try discriminate Hl2; [injection Hl2 as <- _|injection Hl2 as _ <- _]; cbn [fst] in Tk.
          - apply (proj1 (has_alt_any f E W _ _ (proj1 (proj1 Tx)) Fx)) in Tk. rewrite Tk in Px. exact Px.
          - apply (create_union_alt E _ _ _ Hou) in Tk as (z & Hz & Tk). apply Ho in Hz as (Hz & _).
            destruct (Mt z Hz) as (Tz & Fz & _ & Pz & _).
            apply (proj1 (has_alt_any f E W _ _ (proj1 (proj1 Tz)) Fz)) in Tk. rewrite Tk in Pz. exact Pz. }
      destruct be as [|b0 [|b1 [|]]]; try discriminate Hl2.
      - injection Hl2 as <- _. cbn [fst snd] in *.
        assert (Exy : type_of_data x = type_of_data y) by (apply (fixed_alt _ _ Fx Fy Px Tk)).
        assert (u2 = v') by (destruct Sn2 as [(_ & Q)|(Q & _)]; [exact Q|destruct Q; rewrite Exy; apply teq_refl]). subst u2.
        refine (K (type_of_data x) y j k _ _ eq body2 rho2 st2 st2 Tx Ux Fx Px eq_refl (eq_sym Exy) Heq Hb2 _ Cl2 I (fun _ => eq_refl)).
        eapply variables_operands; [rewrite (proj2 Bi2) by discriminate; exact (proj1 Bi1)|exact (proj1 Bi2)|exact Hv|exact Hv'].
      - injection Hl2 as <- <- _. cbn [fst snd] in *.
        assert (Nxy : type_of_data x <> type_of_data y).
        { intros Q. apply (Hno (type_of_data x, eq)); [left; reflexivity|]. left. cbn [fst]. rewrite Q. apply self; assumption. }
        rewrite (same_types w f x y (proj2 (proj1 Tx)) (proj2 (proj1 Ty)) Nxy). exists st2. split; [|exact I].
        destruct k; [discriminate|]. cbn in Hb2. injection Hb2 as <-. apply evals_lit.
  Qed.

  Lemma union_runs x t lt rt y j k l r h e rho st st2 : compared_plain x ->
    tidy_type f E t -> uses E T t -> canon E t (TUnion lt rt) ->
    equal_code n E R C j (TUnion lt rt) l r = Ok h -> compile k h = Ok e ->
    operands rho st l r (value_at t x) (value_at t y) st2 -> clear rho -> Inv st2 ->
    exists st3, evals rho st e (VBool (same w x y)) st3 /\ Inv st3.
  Proof.
    intros K Tt U Hc Hh He (b & st1 & Hl & Vx & Hr) Cl I.
    destruct (union_switch t lt rt j k l r h e Tt U Hc Hh He) as (k1 & l' & alts & de & -> & Hl' & _ & S1).
    destruct (S1 x b rho K Vx) as (rho1 & k2 & r' & alts' & de' & -> & Hr' & Sb & Ev1 & S2).
    destruct (Hr rho1 Sb) as (b' & Hrop & Vy).
    destruct (S2 y b' Vy) as (rho2 & body & Ev2 & Fin). destruct (Fin Cl st2 I) as (st3 & H3 & I3). exists st3. split; [|exact I3].
    eapply evals_via; [exact Ev1|exact (Hl _ _ Hl')|]. eapply evals_via; [exact Ev2|exact (Hrop _ _ Hr')|exact H3].
  Qed.

  Lemma compared_all : forall x, handled x -> compared x.
  Proof.
    assert (K0 : forall x, match x with DRecord r _ xs => G r /\ Forall compared xs | DList _ xs => Ls /\ Forall compared xs | _ => True end -> compared x).
    { intros x Hx t c y j k l r h e rho st st2 Tt U Hc Hh He O Cl I No.
      pose proof (plain_runs x Hx) as K. unfold equal_operation in Hh. apply bind_ok in Hh as (c' & Hc' & Hh).
      assert (c' = c) as -> by (eapply canon_fun; [exists n; exact Hc'|exact Hc]).
      pose proof (canon_idem f E W t c Hc) as Fc.
      destruct (match c with TUnion _ _ => true | _ => false end) eqn:Qc.
      - destruct c; try discriminate. eapply union_runs; eassumption.
      - assert (Pc : plain_head c).
        { destruct j as [|j]; [discriminate|]. destruct c; try exact Logic.I; try discriminate Qc; try discriminate Hh.
          exfalso. pose proof (canon_references _ _ _ Fc) as Q. discriminate Q. }
        assert (Na : c <> TAny) by (intros ->; exact Pc).
        destruct O as (v & st1 & Hl & Vx & Hr). destruct (at_plain t c x v Tt U Hc Pc Vx) as (Ex & Hvx).
        destruct (Hr rho (same_but_refl _ _)) as (u0 & _ & Vy0). destruct (at_plain t c y u0 Tt U Hc Pc Vy0) as (Ey & _).
        destruct (belongs_member t c x Tt U Hc Na (proj1 Vx)) as (_ & Tx & Ux). rewrite Ex in Tx, Ux.
        refine (K c y j k l r h e rho st st2 Tx Ux Fc Pc Ex Ey Hh He _ Cl I No).
        exists v, st1. split; [exact Hl|]. split; [exact Hvx|]. intros rho' S. destruct (Hr rho' S) as (u & H1 & H2).
        exists u. split; [exact H1|]. apply (at_plain t c y u Tt U Hc Pc H2). }
    assert (K1 : forall xs, Forall (fun x => handled x -> compared x) xs ->
      (fix all (xs : list data) : Prop := match xs with [] => True | x :: xs => handled x /\ all xs end) xs -> Forall compared xs).
    { induction 1 as [|x xs Hx _ IH]; intros H; constructor; [apply Hx, H|apply IH, H]. }
    intros x. induction x using data_ind'; intros Hx; apply K0; try exact Logic.I; (split; [apply Hx|apply K1; [assumption|apply Hx]]).
  Qed.

  Lemma plain_all x : handled x -> compared_plain x.
  Proof.
    intros H. apply plain_runs. destruct x as [| | | |r o xs|e xs]; try exact Logic.I; (split; [apply H|]); destruct H as (_ & H);
      (induction xs as [|x xs IH]; constructor; [apply compared_all, H|apply IH, H]).
  Qed.
End Equality.

Lemma equality_compared f n E R C T w m Inv : equality_code f n E R C T w m Inv -> forall x, compared f n E R C T w m Inv (fun _ => True) True x.
Proof.
  intros [HR HL] x. apply (compared_all f n E R C T w m Inv (fun _ => True) True HR (fun _ => HL)).
  induction x as [| | | |r o xs H|e xs H] using data_ind'; try exact Logic.I; (split; [exact Logic.I|]); induction H; cbn; auto.
Qed.

(** The types in tags, from the members of the canonical form *)
Lemma uses_members f E (T : ty -> Prop) t c : wf f E -> defined E t -> canon E t c -> c <> TAny ->
  (forall s s', teq E s s' -> T s -> T s') -> (forall x, In x (members_canonical c) -> tags_among T x) -> uses E T t.
Proof.
  intros W D Hc Na HT HM a (b & Ab & Qb) s Hs. pose proof (alt_defined f E W t b D Ab) as Db.
  destruct (canon_ex f E W b Db) as (cb & Hb).
  assert (Ha : canon E a cb) by (apply (teq_canon E b a); [apply W|apply W|exact Qb|exact Hb]).
  assert (In cb (members_canonical c)) as Hin.
  { destruct (proj1 (has_alt_canon f E W t c b D Db Hc Na)) as (x & Hx & Hi); [exists b; split; [exact Ab|apply teq_refl]|].
    rewrite (canon_fun _ _ _ _ Hb Hx). exact Hi. }
  specialize (HM cb Hin). destruct a; cbn in Hs; try contradiction.
  - destruct Hs as [<-|[]]. eapply HT; [apply teq_sym, canon_sound, Ha|]. apply HM.
    apply canon_function in Ha as (? & ? & _ & _ & ->). left. reflexivity.
  - destruct Hs as [<-|[]]. apply canon_list in Ha as (e' & He & ->).
    eapply HT; [apply teq_sym, canon_sound, He|]. apply HM. left. reflexivity.
  - apply canon_map in Ha as (k' & v' & Hk & Hv & ->). destruct Hs as [<-|[<-|[]]].
    + eapply HT; [apply teq_sym, canon_sound, Hk|]. apply HM. left. reflexivity.
    + eapply HT; [apply teq_sym, canon_sound, Hv|]. apply HM. right. left. reflexivity.
Qed.

(** *** The specification *)
Section Same.
  Variable w : world.
  Notation eqz := (w_compare w Equal).

  Lemma with_refl xs : Forall (fun x => same w x x = true) xs -> equal_with (same w) xs xs = true.
  Proof. induction 1 as [|x xs H _ IH]; cbn; [reflexivity|]. rewrite H. exact IH. Qed.

  Lemma same_refl : (forall z, eqz z z = true) -> forall x, same w x x = true.
  Proof.
    intros Z x. induction x using data_ind'; try reflexivity.
    - apply Bool.eqb_reflx.
    - apply Z.
    - apply String.eqb_refl.
    - rewrite same_record, String.eqb_refl. apply with_refl, H.
    - rewrite same_list. apply with_refl, H.
  Qed.

  Lemma with_sym xs : Forall (fun x => forall y, same w x y = same w y x) xs ->
    forall ys, equal_with (same w) xs ys = equal_with (same w) ys xs.
  Proof. induction 1 as [|x xs H _ IH]; intros [|y ys]; cbn; try reflexivity. rewrite H, IH. reflexivity. Qed.

  Lemma same_lists e e' xs ys : same w (DList e xs) (DList e' ys) = true <-> e = e' /\ equal_with (same w) xs ys = true.
  Proof.
    split; [|intros [-> H]; rewrite same_list; exact H]. intros H.
    assert (e = e') as -> by (cbn [same] in H; destruct (ty_compare e e') eqn:Q; try discriminate; apply ty_compare_eq, Q).
    rewrite same_list in H. auto.
  Qed.

  Lemma same_sym : (forall a b, eqz a b = eqz b a) -> forall x y, same w x y = same w y x.
  Proof.
    intros Z x. induction x using data_ind'; intros []; try reflexivity.
    - cbn. destruct b, b0; reflexivity.
    - apply Z.
    - apply String.eqb_sym.
    - rewrite !same_record, String.eqb_sym, (with_sym _ H). reflexivity.
    - apply eq_iff_eq_true. rewrite !same_lists, (with_sym _ H). intuition.
  Qed.

  Lemma with_trans xs : Forall (fun x => forall y z, same w x y = true -> same w y z = true -> same w x z = true) xs ->
    forall ys zs, equal_with (same w) xs ys = true -> equal_with (same w) ys zs = true -> equal_with (same w) xs zs = true.
  Proof.
    induction 1 as [|x xs H _ IH]; intros [|y ys] [|z zs]; cbn; try discriminate; [reflexivity|].
    rewrite !andb_true_iff. intros [A B] [C D]. split; [eapply H; eassumption|eapply IH; eassumption].
  Qed.

  Lemma same_trans : (forall a b c, eqz a b = true -> eqz b c = true -> eqz a c = true) ->
    forall x y z, same w x y = true -> same w y z = true -> same w x z = true.
  Proof.
    intros Z x. induction x using data_ind'; intros [] []; try discriminate; try reflexivity.
    - cbn. rewrite !eqb_true_iff. congruence.
    - apply Z.
    - cbn [same]. rewrite !String.eqb_eq. congruence.
    - rewrite !same_record, !andb_true_iff, !String.eqb_eq. intros [-> A] [-> B]. split; [reflexivity|eapply with_trans; eassumption].
    - rewrite !same_lists. intros [-> A] [-> B]. split; [reflexivity|eapply with_trans; eassumption].
  Qed.
End Same.
