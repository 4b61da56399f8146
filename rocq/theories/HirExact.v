(** Accepted modules are exactly typed after coercion. *)
From Coq Require Import String List ZArith Bool Lia.
From Verif Require Import Base HirType HirTypeSpec HirTypeTermination HirTypeEq HirTypeSub
  Hir HirCheck HirCoerce HirInfer HirValidate HirSpec HirParts HirStrip HirTyping.
Import ListNotations.

Scheme exact_min := Minimality for exact Sort Prop
  with exact_branches_min := Minimality for exact_branches Sort Prop.

Lemma teq_union_same E t u v : teq E t u -> teq E t v -> teq E t (TUnion u v).
Proof. intros H G. eapply teq_trans; [apply teq_sym, teq_idem|]. apply teq_union; assumption. Qed.

Lemma create_union_same E t ts u : Forall (teq E t) ts -> create_union ts = Some u -> teq E t u.
Proof.
  destruct ts as [|v ts]; [discriminate|]. cbn. intros H X. injection X as <-. inversion H as [|? ? Hv Hts]; subst. clear H.
  revert v Hv. induction Hts as [|w ts Hw _ IH]; intros v Hv; [exact Hv|]. cbn. apply IH. apply teq_union_same; assumption.
Qed.

Lemma create_union_alt E ts u a : create_union ts = Some u -> has_alt E u a -> exists b, In b ts /\ has_alt E b a.
Proof.
  destruct ts as [|v ts]; [discriminate|]. cbn. intros X (b & A & T). injection X as <-. revert v A.
  induction ts as [|w ts IH]; intros v A; cbn in A.
  - exists v. split; [left; reflexivity|exists b; auto].
  - destruct (IH _ A) as (c & [<-|Hc] & Hb).
    + destruct Hb as (b' & A' & T'). inversion A'; subst.
      * exists v. split; [left; reflexivity|exists b'; auto].
      * exists w. split; [right; left; reflexivity|exists b'; auto].
      * exfalso. eapply H0. reflexivity.
    + exists c. split; [right; right; exact Hc|exact Hb].
Qed.

Lemma agree_cons (P : string -> bool) (G G' : venv) b :
  (forall x, P x = true -> lookup G x = lookup G' x) -> forall x, P x = true -> lookup (b :: G) x = lookup (b :: G') x.
Proof. destruct b as [y t]. intros H x Hx. cbn. destruct (String.eqb _ _); [reflexivity|apply H, Hx]. Qed.

Lemma lookup_app' {A} (l l' : list (string * A)) x : lookup (l ++ l')%list x = match lookup l x with Some a => Some a | None => lookup l' x end.
Proof. induction l as [|[y a] l IH]; [reflexivity|]. cbn. destruct (String.eqb _ _); [reflexivity|exact IH]. Qed.

Lemma agree_app (P : string -> bool) (G G' l : venv) :
  (forall x, P x = true -> lookup G x = lookup G' x) -> forall x, P x = true -> lookup (l ++ G)%list x = lookup (l ++ G')%list x.
Proof. intros H x Hx. rewrite !lookup_app'. destruct (lookup l x); [reflexivity|apply H, Hx]. Qed.

Lemma agree_let (P : string -> bool) (G G' : venv) x t :
  (forall x, P x = true -> lookup G x = lookup G' x) -> forall y, P y = true -> lookup (let_env x t G) y = lookup (let_env x t G') y.
Proof. destruct x; cbn [let_env]; [apply agree_cons|auto]. Qed.

(** ** Only the mentioned variables matter *)
Definition agree (e : hexpr) (G G' : venv) : Prop := forall x, mentions x e = true -> lookup G x = lookup G' x.

Lemma part_mentions e p x : In p (parts e) -> mentions x p = true -> mentions x e = true.
Proof.
  intros Hp H. unfold parts in Hp. rewrite !in_app_iff in Hp.
  destruct e; cbn [eager_parts lazy_parts bodies map snd In] in Hp; cbn [mentions]; rewrite ?orb_true_iff;
    try (intuition (subst; tauto)).
  - destruct Hp as [[->|Hp]|[[]|[]]]; [auto|]. right. apply existsb_exists. eauto.
  - destruct Hp as [[->|Hp]|[[]|[]]]; [auto|]. apply in_app_or in Hp. destruct Hp as [Hp|Hp].
    + apply in_map_iff in Hp. destruct Hp as (b & <- & Hb). left. right. apply existsb_exists. eauto.
    + destruct else_ as [[o b]|]; [|destruct Hp]. destruct Hp as [<-|[]]. auto.
  - destruct Hp as [[]|[Hp|[]]]. apply in_flat_map in Hp. destruct Hp as (el & Hel & Hp). apply existsb_exists.
    exists el. split; [exact Hel|]. destruct el; cbn in Hp; destruct Hp as [<-|[]]; exact H.
  - destruct Hp as [[]|[Hp|[]]]. apply in_app_or in Hp. destruct Hp as [Hp|[<-|[]]]; [|auto]. right.
    apply in_flat_map in Hp. destruct Hp as (b & Hb & Hp). apply existsb_exists. exists b. split; [exact Hb|].
    destruct b as [names its cond]. unfold branch_parts in Hp. cbn [b_iteratees b_condition] in Hp. apply orb_true_iff.
    apply in_app_or in Hp. destruct Hp as [Hp|Hp].
    + left. apply in_map_iff in Hp. destruct Hp as (it & <- & Hi). apply existsb_exists. eauto.
    + right. destruct cond as [c|]; [|destruct Hp]. destruct Hp as [<-|[]]. exact H.
  - destruct Hp as [Hp|[[]|[]]]. apply in_flat_map in Hp. destruct Hp as (el & Hel & Hp). apply existsb_exists.
    exists el. split; [exact Hel|]. destruct el; cbn in Hp; [apply orb_true_iff; destruct Hp as [<-|[<-|[]]]; auto|destruct Hp as [<-|[]]; exact H].
  - destruct Hp as [Hp|[[]|[]]]. apply in_map_iff in Hp. destruct Hp as (b & <- & Hb). apply existsb_exists. eauto.
  - destruct Hp as [[->|Hp]|[[]|[]]]; [auto|]. apply in_map_iff in Hp. destruct Hp as (b & <- & Hb). right. apply existsb_exists. eauto.
  - destruct type; cbn in Hp; intuition (subst; tauto).
Qed.

Lemma bind_ext {A B} (r : res A) (g h : A -> res B) : (forall a, r = Ok a -> g a = h a) -> bind r g = bind r h.
Proof. destruct r; cbn; auto. Qed.

Lemma mapM_ext_in {A B} (g h : A -> res B) l : (forall x, In x l -> g x = h x) -> mapM g l = mapM h l.
Proof.
  induction l as [|x l IH]; intros H; [reflexivity|]. cbn. rewrite (H x (or_introl eq_refl)), IH; [reflexivity|].
  intros y Hy. apply H. right. exact Hy.
Qed.

Lemma extract_agree n E R e : forall G G', agree e G G' -> extract n E R G e = extract n E R G' e.
Proof.
  induction e as [e IH'] using parts_ind. intros G G' H.
  assert (IH : forall p l, In p (parts e) -> extract n E R (l ++ G)%list p = extract n E R (l ++ G')%list p).
  { intros p l Hp. apply (IH' p Hp). intros x Hx. apply (agree_app (fun y => mentions y e)); [exact H|]. eapply part_mentions; eassumption. }
  assert (IH0 : forall p, In p (parts e) -> extract n E R G p = extract n E R G' p) by (intros p Hp; exact (IH p [] Hp)).
  assert (IH1 : forall p b, In p (parts e) -> extract n E R (b :: G) p = extract n E R (b :: G') p) by (intros p b Hp; exact (IH p [b] Hp)).
  assert (IH2 : forall p b c, In p (parts e) -> extract n E R (b :: c :: G) p = extract n E R (b :: c :: G') p) by (intros p b c Hp; exact (IH p [b; c] Hp)).
  clear IH'. destruct e; cbn [extract]; try reflexivity.
  - rewrite !(IH0 e2), !(IH0 e3) by spart. reflexivity.
  - rewrite (IH0 e1) by spart. apply bind_ext. intros t _. apply bind_ext. intros et _. unfold list_env.
    rewrite (IH2 e2 (rest, TList et) (first, TFunction [] et)), (IH0 e3) by spart. reflexivity.
  - rewrite (IH0 e1) by spart. apply bind_ext. intros t _. apply bind_ext. intros kv _.
    rewrite (IH1 e3 (name, snd kv)), (IH0 e4) by spart. reflexivity.
  - rewrite (mapM_ext_in (fun b => extract n E R ((name, fst b) :: G) (snd b)) (fun b => extract n E R ((name, fst b) :: G') (snd b))).
    + apply bind_ext. intros ts _. f_equal. destruct else_ as [[o b]|]; [|reflexivity]. apply bind_ext. intros t _. unfold rmap.
      rewrite (IH1 b (name, t)); [reflexivity|apply if_type_else_part].
    + intros b Hb. apply (IH1 (snd b) (name, fst b)). apply if_type_branch_part, Hb.
  - destruct name as [x|]; [|apply (IH0 e2); spart]. apply bind_ext. intros t _. apply (IH1 e2 (x, t)). spart.
  - rewrite (H x); [reflexivity|]. cbn. apply String.eqb_refl.
Qed.

Lemma check_agree n E R e : forall G G', agree e G G' -> check n E R G e = check n E R G' e.
Proof.
  induction e as [e IH'] using parts_ind. intros G G' H.
  assert (IH : forall p l, In p (parts e) -> check n E R (l ++ G)%list p = check n E R (l ++ G')%list p).
  { intros p l Hp. apply (IH' p Hp). intros x Hx. apply (agree_app (fun y => mentions y e)); [exact H|]. eapply part_mentions; eassumption. }
  assert (IH0 : forall p, In p (parts e) -> check n E R G p = check n E R G' p) by (intros p Hp; exact (IH p [] Hp)).
  assert (IH1 : forall p b, In p (parts e) -> check n E R (b :: G) p = check n E R (b :: G') p) by (intros p b Hp; exact (IH p [b] Hp)).
  assert (IH2 : forall p b c, In p (parts e) -> check n E R (b :: c :: G) p = check n E R (b :: c :: G') p) by (intros p b c Hp; exact (IH p [b; c] Hp)).
  assert (X : extract n E R G e = extract n E R G' e) by (apply extract_agree, H).
  destruct e; cbn [check]; rewrite ?X; try reflexivity.
  - apply bind_ext. intros t _. apply bind_ext. intros ar _. destruct (Nat.eqb _ _); [|reflexivity].
    assert (A : forall es ts, incl es arguments -> check_arguments n E (check n E R) G es ts = check_arguments n E (check n E R) G' es ts).
    { induction es as [|a es IHes]; intros ts I; [reflexivity|]. cbn [check_arguments]. destruct ts as [|t' ts]; [reflexivity|].
      rewrite (IH0 a) by (apply argument_part, I; left; reflexivity). apply bind_ext. intros s _. apply bind_ext. intros _ _.
      apply IHes. intros b Hb. apply I. right. exact Hb. }
    rewrite A by apply incl_refl. apply bind_ext. intros _ _.
    replace (match e with HBuiltIn b => check_builtin n E b (fst ar) (snd ar) | _ => bind (check n E R G e) (fun s => check_sub n E s t) end)
      with (match e with HBuiltIn b => check_builtin n E b (fst ar) (snd ar) | _ => bind (check n E R G' e) (fun s => check_sub n E s t) end); [reflexivity|].
    destruct e; try reflexivity; (rewrite <- (IH0 _); [reflexivity|apply function_part]).
  - rewrite (IH0 e1), (IH0 e2), (IH0 e3) by spart. reflexivity.
  - apply bind_ext. intros t _. rewrite (IH0 e1) by spart. apply bind_ext. intros s _. apply bind_ext. intros _ _. unfold list_env.
    rewrite (IH2 e2 (rest, TList t) (first, TFunction [] t)), (IH0 e3) by spart. reflexivity.
  - apply bind_ext. intros kt _. apply bind_ext. intros vt _. rewrite (IH0 e1), (IH0 e2), (IH0 e4), (IH1 e3 (name, vt)) by spart. reflexivity.
  - rewrite (IH0 e) by spart. apply bind_ext. intros s _. apply bind_ext. intros u _. destruct (is_variant u); [|reflexivity].
    assert (A : forall bs, incl bs branches -> check_branches n E (check n E R) G name u bs = check_branches n E (check n E R) G' name u bs).
    { induction bs as [|[t b] bs IHbs]; intros I; [reflexivity|]. cbn [check_branches]. apply bind_ext. intros _ _.
      rewrite (IH1 b (name, t)) by (apply (if_type_branch_part name e branches else_ (t, b)), I; left; reflexivity).
      apply bind_ext. intros _ _. apply bind_ext. intros c _. destruct (is_any c); [reflexivity|]. apply IHbs. intros b' Hb'. apply I. right. exact Hb'. }
    rewrite A by apply incl_refl. apply bind_ext. intros _ _. f_equal. destruct else_ as [[o b]|]; [|reflexivity].
    apply bind_ext. intros t _. rewrite (IH1 b (name, t)) by apply if_type_else_part. reflexivity.
  - unfold args_env. rewrite (IH e (rev arguments)) by spart. reflexivity.
  - apply bind_ext. intros t _. rewrite (IH0 e1) by spart. apply bind_ext. intros s _. apply bind_ext. intros _ _.
    destruct name as [x|]; cbn [let_env]; [apply (IH1 e2 (x, t)); spart|apply (IH0 e2); spart].
  - assert (A : forall es, incl es elements -> check_elements n E (check n E R) G type es = check_elements n E (check n E R) G' type es).
    { induction es as [|[a|a] es IHes]; intros I; [reflexivity| |]; cbn [check_elements].
      - rewrite (IH0 a) by (apply single_part, I; left; reflexivity). apply bind_ext. intros s _. apply bind_ext. intros _ _.
        apply IHes. intros b Hb. apply I. right. exact Hb.
      - rewrite (IH0 a) by (apply multiple_part, I; left; reflexivity). apply bind_ext. intros s _. apply bind_ext. intros s' _. apply bind_ext. intros _ _.
        apply IHes. intros b Hb. apply I. right. exact Hb. }
    rewrite A by apply incl_refl. reflexivity.
  - assert (A : forall bs, incl bs branches -> forall l,
      match check_comp_branches n E (check n E R) (l ++ G)%list bs with
      | Ok g => exists l', g = (l' ++ G)%list /\ check_comp_branches n E (check n E R) (l ++ G')%list bs = Ok (l' ++ G')%list
      | r => check_comp_branches n E (check n E R) (l ++ G')%list bs = r
      end).
    { induction bs as [|[names its cond] bs IHbs]; intros I l; cbn [check_comp_branches]; [eauto|].
      destruct (Nat.eqb _ _); [|reflexivity].
      assert (B : forall its', incl its' its -> forall names' l,
        match check_iteratees n E (check n E R) (l ++ G)%list names' its' with
        | Ok g => exists l', g = (l' ++ G)%list /\ check_iteratees n E (check n E R) (l ++ G')%list names' its' = Ok (l' ++ G')%list
        | r => check_iteratees n E (check n E R) (l ++ G')%list names' its' = r
        end).
      { induction its' as [|[t a] its' IHi]; intros I' names' l0; (destruct names' as [|x names']; cbn [check_iteratees]; [eauto|]); [eauto|].
        destruct (annotated t) as [t'| | |]; cbn [bind]; try reflexivity.
        rewrite <- (IH a l0).
        2: { change a with (snd (t, a)). eapply branch_iteratee_part; [apply I; left; reflexivity|]. apply I'. left. reflexivity. }
        destruct (check n E R (l0 ++ G)%list a) as [s| | |]; cbn [bind]; try reflexivity.
        destruct (check_sub n E s t'); cbn [bind]; try reflexivity.
        destruct (canonical_list n E t') as [et| | |]; cbn [bind]; try reflexivity.
        apply (IHi (fun b Hb => I' b (or_intror Hb)) names' ((x, TFunction [] et) :: l0)). }
      specialize (B its (incl_refl its) names l).
      destruct (check_iteratees n E (check n E R) (l ++ G)%list names its) as [g| | |]; cbn [bind]; [|rewrite B; reflexivity..].
      destruct B as (l' & -> & ->). cbn [bind].
      assert (Cd : match cond with None => Ok tt | Some c => bind (check n E R (l' ++ G)%list c) (fun s => check_sub n E s TBoolean) end =
                   match cond with None => Ok tt | Some c => bind (check n E R (l' ++ G')%list c) (fun s => check_sub n E s TBoolean) end).
      { destruct cond as [c|]; [|reflexivity]. rewrite (IH c l'); [reflexivity|]. eapply branch_condition_part; [apply I; left; reflexivity|reflexivity]. }
      rewrite <- Cd. destruct (match cond with None => _ | Some c => _ end); cbn [bind]; try reflexivity.
      apply IHbs. intros b Hb. apply I. right. exact Hb. }
    specialize (A branches (incl_refl _) []). cbn [app] in A.
    destruct (check_comp_branches n E (check n E R) G branches) as [g| | |]; cbn [bind]; [|rewrite A; reflexivity..].
    destruct A as (l' & -> & ->). cbn [bind]. rewrite (IH e l') by spart. reflexivity.
  - assert (A : forall es, incl es elements -> check_map_elements n E (check n E R) G key_type value_type es = check_map_elements n E (check n E R) G' key_type value_type es).
    { induction es as [|[a b|m] es IHes]; intros I; [reflexivity| |]; cbn [check_map_elements].
      - destruct (entry_parts key_type value_type elements a b) as [P1 P2]; [apply I; left; reflexivity|].
        rewrite (IH0 a P1), (IH0 b P2). apply bind_ext. intros s _. apply bind_ext. intros _ _. apply bind_ext. intros s' _. apply bind_ext. intros _ _.
        apply IHes. intros c Hc. apply I. right. exact Hc.
      - rewrite (IH0 m) by (apply spread_part, I; left; reflexivity). apply bind_ext. intros s _. apply bind_ext. intros kv _. apply bind_ext. intros _ _. apply bind_ext. intros _ _.
        apply IHes. intros c Hc. apply I. right. exact Hc. }
    rewrite A by apply incl_refl. reflexivity.
  - rewrite (IH0 e1), (IH0 e2) by spart.
    assert (X1 : extract n E R G e1 = extract n E R G' e1).
    { apply extract_agree. intros x Hx. apply H. eapply part_mentions; [|exact Hx]. spart. }
    assert (X2 : extract n E R G e2 = extract n E R G' e2).
    { apply extract_agree. intros x Hx. apply H. eapply part_mentions; [|exact Hx]. spart. }
    rewrite X1, X2. reflexivity.
  - rewrite (IH0 e) by spart. reflexivity.
  - rewrite (IH0 e) by spart. reflexivity.
  - assert (A : forall fts fs, incl fs fields -> check_fields n E (check n E R) G fts fs = check_fields n E (check n E R) G' fts fs).
    { induction fs as [|[x a] fs IHfs]; intros I; [reflexivity|]. cbn [check_fields].
      rewrite (IH0 a) by (apply (record_part type fields (x, a)), I; left; reflexivity). apply bind_ext. intros t _. apply bind_ext. intros s _. apply bind_ext. intros _ _.
      apply IHfs. intros b Hb. apply I. right. exact Hb. }
    apply bind_ext. intros fts _. rewrite A by apply incl_refl. reflexivity.
  - rewrite (IH0 e) by spart. reflexivity.
  - assert (A : forall fts fs, incl fs fields -> check_fields n E (check n E R) G fts fs = check_fields n E (check n E R) G' fts fs).
    { induction fs as [|[x a] fs IHfs]; intros I; [reflexivity|]. cbn [check_fields].
      rewrite (IH0 a) by (apply (update_part type e fields (x, a)), I; left; reflexivity). apply bind_ext. intros t _. apply bind_ext. intros s _. apply bind_ext. intros _ _.
      apply IHfs. intros b Hb. apply I. right. exact Hb. }
    rewrite (IH0 e) by spart. apply bind_ext. intros s _. apply bind_ext. intros _ _. apply bind_ext. intros fts _. rewrite A by apply incl_refl. reflexivity.
  - apply bind_ext. intros t _. rewrite (IH0 e) by spart. reflexivity.
  - rewrite (IH0 e) by spart. reflexivity.
  - rewrite (H x); [reflexivity|]. cbn. apply String.eqb_refl.
Qed.

(** ** Coerced expressions mention known types *)
Section Known.
  Variable f : string -> string.
  Variable E : tenv.
  Variable R : renv.
  Hypothesis C : context_ok f E R.
  Let ok := HirTypeSpec.ok f E.
  Let env_ok := HirTyping.env_ok f E.

  Definition coerce_known n (p : hexpr) : Prop := forall G e, env_ok G ->
    coerce n E R G p = Ok e -> types_known f E (written e).

  Lemma coerce_to_known n G e t e' : env_ok G -> ok t -> types_known f E (written e) ->
    coerce_to n E R G e t = Ok e' -> types_known f E (written e').
  Proof.
    unfold coerce_to. intros HG Ht K H. inv_ok. destruct y0; [exact K|]. unfold types_known. cbn [written].
    constructor; [|constructor; [exact Ht|exact K]]. eapply extract_ok; eassumption.
  Qed.

  Ltac split_known := repeat match goal with
    | H : types_known _ _ _ |- _ => unfold types_known in H
    | H : Forall _ (written _) |- _ => progress cbn [written] in H
    | H : Forall _ (_ ++ _) |- _ => apply Forall_app in H; destruct H
    | H : Forall _ (_ :: _) |- _ => inversion H; clear H; subst
    | H : Forall _ (opt_types (Some _)) |- _ => cbn [opt_types] in H
    end.

  Lemma coerce_branches_known n bs : (forall p, In p (flat_map branch_parts bs) -> coerce_known n p) ->
    Forall ok (flat_map branch_written bs) ->
    forall G r, env_ok G -> coerce_branches n E (coerce n E R) G bs = Ok r ->
    env_ok (fst r) /\ Forall ok (flat_map branch_written (snd r)).
  Proof.
    induction bs as [|[names its cond] bs IH]; intros HP K G r HG H; cbn [coerce_branches] in H; inv_ok; [split; [exact HG|constructor]|].
    cbn [flat_map] in K. apply Forall_app in K. destruct K as [K Kbs]. cbn [branch_written] in K. apply Forall_app in K. destruct K as [Ki Kc].
    assert (K' : Forall ok (flat_map (fun it : option ty * hexpr => opt_types (fst it) ++ written (snd it)) y)).
    { eapply known_flat; [exact Hy|]. intros it it' Hi X. inv_ok. cbn [fst snd]. apply Forall_app. split.
      - rewrite Forall_forall in *. intros t Ht. apply Ki. apply in_flat_map. exists it. split; [exact Hi|apply in_or_app; left; exact Ht].
      - eapply HP; [|exact HG|eassumption]. cbn [flat_map]. apply in_or_app. left. unfold branch_parts. apply in_or_app. left. apply in_map, Hi. }
    assert (HG' : env_ok (args_env y0 G)).
    { apply env_args; [|exact HG]. eapply iteratee_types_ok; [exact C| |exact Hy0]. rewrite Forall_forall in *. intros t Ht. apply Ki.
      apply in_flat_map in Ht. destruct Ht as (it & Hi & Ht). apply in_flat_map. exists it. split; [exact Hi|apply in_or_app; left; exact Ht]. }
    assert (IHr : env_ok (fst y2) /\ Forall ok (flat_map branch_written (snd y2))).
    { eapply IH; [| |exact HG'|exact Hy2]; [|exact Kbs]. intros p Hp. apply HP. cbn [flat_map]. apply in_or_app. right. exact Hp. }
    destruct IHr as [I1 I2]. split; [exact I1|]. cbn [snd flat_map branch_written]. apply Forall_app. split; [|exact I2].
    apply Forall_app. split; [exact K'|]. destruct cond as [c|]; inv_ok; [|constructor].
    eapply HP; [|exact HG'|eassumption]. cbn [flat_map]. apply in_or_app. left. unfold branch_parts. apply in_or_app. right. left. reflexivity.
  Qed.

  Theorem coerce_ok n e0 : types_known f E (written e0) -> coerce_known n e0.
  Proof.
    induction e0 as [e0 IH] using parts_ind. intros K G e HG H.
    assert (K0 := K).
    assert (IH' : forall p, In p (parts e0) -> coerce_known n p).
    { intros p Hp. apply (IH p Hp). eapply known_part; eassumption. }
    assert (IHi : forall p G' t p', In p (parts e0) -> env_ok G' -> ok t -> coerce_into n E R (coerce n E R) G' t p = Ok p' -> types_known f E (written p')).
    { intros p G' t p' Hp HG' Ht X. unfold coerce_into in X. inv_ok. eapply coerce_to_known; [exact HG'|exact Ht| |exact X]. eapply IH'; eassumption. }
    assert (Hx : forall t, extract n E R G e0 = Ok t -> ok t).
    { intros t. eapply extract_ok; eassumption. }
    clear IH. unfold types_known in *.
    destruct e0; try (cbn [coerce] in H; inv_ok; split_known; cbn [written opt_types app]);
      repeat match goal with X : extract n E R G _ = Ok ?t |- _ => lazymatch goal with _ : ok t |- _ => fail | _ => pose proof (Hx _ X) end end;
      repeat (apply Forall_app; split); try (constructor; fail); try assumption;
      try (eapply IH'; [| |eassumption]; [spart|assumption]; fail);
      try (eapply IHi; [| | |eassumption]; [spart|assumption|assumption]; fail).
    - assert (O : Forall ok (fst y0)).
      { apply canonical_function_canon in Hy0. eapply ok_canon in Hy0; [|exact C|eassumption]. apply ok_function in Hy0. apply Hy0. }
      constructor; [assumption|]. apply Forall_app. split; [eapply IH'; [| |eassumption]; [apply function_part|assumption]|].
      assert (A : forall es ts es', incl es arguments -> Forall ok ts -> coerce_arguments n E R (coerce n E R) G es ts = Ok es' -> Forall ok (flat_map written es')).
      { induction es as [|a es IHes]; intros ts es' I Ht X; cbn [coerce_arguments] in X; [inv_ok; constructor|].
        destruct ts as [|t ts]; inv_ok; [constructor|]. inversion Ht; subst. cbn. apply Forall_app. split.
        - eapply IHi; [| | |eassumption]; [apply argument_part, I; left; reflexivity|assumption|assumption].
        - eapply IHes; [| |eassumption]; [intros z Hz; apply I; right; exact Hz|assumption]. }
      eapply A; [apply incl_refl| |eassumption]. exact O.
    - constructor; [assumption|]. repeat (apply Forall_app; split);
        first [eapply IH'; [| |eassumption]; [spart|assumption] | eapply IHi; [| | |eassumption]; [spart|try apply env_list; assumption|assumption]].
    - constructor; [assumption|]. constructor; [assumption|]. repeat (apply Forall_app; split);
        first [eapply IH'; [| |eassumption]; [spart|assumption] | eapply IHi; [| | |eassumption]; [spart|try constructor; assumption|assumption]].
    - eapply known_flat; [eassumption|]. intros b b' Hb X. inv_ok. cbn [fst snd].
      assert (O : ok (fst b)). { match goal with X : Forall _ (flat_map _ branches) |- _ => rewrite Forall_forall in X; apply X end. apply in_flat_map. exists b. split; [exact Hb|left; reflexivity]. }
      constructor; [exact O|]. eapply IHi; [| | |eassumption]; [apply if_type_branch_part, Hb|constructor; assumption|assumption].
    - destruct else_ as [[o b]|]; inv_ok; [|constructor]. split_known. cbn [opt_types app]. constructor; [assumption|].
      eapply IHi; [| | |eassumption]; [apply if_type_else_part|constructor; assumption|assumption].
    - constructor; [assumption|]. eapply IHi; [| | |eassumption]; [spart|apply env_args; assumption|assumption].
    - destruct name as [x|]; inv_ok; split_known; cbn [written opt_types app].
      + constructor; [assumption|]. apply Forall_app. split; (eapply IH'; [| |eassumption]; [spart|try constructor; assumption]).
      + apply Forall_app. split; [assumption|]. apply Forall_app. split; (eapply IH'; [| |eassumption]; [spart|assumption]).
    - constructor; [assumption|]. eapply known_flat; [eassumption|]. intros el el' Hel X. unfold coerce_element in X.
      destruct el; inv_ok; (eapply IHi; [| | |eassumption]; [first [apply single_part; exact Hel | apply multiple_part; exact Hel]|exact HG|first [assumption | apply (proj2 (ok_list _ _ _)); assumption]]).
    - destruct (coerce_branches_known n branches) with (G := G) (r := y) as [I1 I2]; [|assumption|exact HG|exact Hy|].
      { intros p Hp. apply IH'. apply lazy_part. cbn [lazy_parts]. apply in_or_app. left. exact Hp. }
      constructor; [assumption|]. apply Forall_app. split; [|exact I2]. eapply IHi; [| | |eassumption]; [spart|exact I1|assumption].
    - constructor; [assumption|]. constructor; [assumption|]. eapply known_flat; [eassumption|]. intros el el' Hel X. unfold coerce_map_element in X.
      destruct el as [a b|m]; inv_ok.
      + destruct (entry_parts key_type value_type _ _ _ Hel). apply Forall_app. split; (eapply IHi; [| | |eassumption]; assumption).
      + eapply IHi; [| | |eassumption]; [apply spread_part, Hel|exact HG|apply ok_map; auto].
    - destruct o; inv_ok; cbn [written opt_types app];
        try (apply Forall_app; split; (eapply IH'; [| |eassumption]; [spart|assumption]); fail).
      + apply Forall_app. split; [assumption|]. apply Forall_app. split; (eapply IH'; [| |eassumption]; [spart|assumption]).
      + split_known. constructor; [assumption|]. apply Forall_app. split; (eapply IHi; [| | |eassumption]; [spart|assumption|assumption]).
    - constructor; [assumption|]. eapply known_flat; [eassumption|]. intros x x' Hx' X. unfold coerce_field in X. inv_ok. cbn [snd].
      eapply coerce_to_known; [exact HG| | |eassumption]; [|eapply IH'; [| |eassumption]; [apply record_part, Hx'|exact HG]].
      match goal with X : record_fields _ _ _ _ = _ |- _ => apply record_fields_canon in X; destruct X as (r & o & _ & L) end.
      match goal with X : field_type _ _ = _ |- _ => apply field_type_lookup in X; eapply (ctx_fields f E R C); eassumption end.
    - constructor; [assumption|]. apply Forall_app. split; [eapply IH'; [| |eassumption]; [spart|assumption]|].
      eapply known_flat; [eassumption|]. intros x x' Hx' X. unfold coerce_field in X. inv_ok. cbn [snd].
      eapply coerce_to_known; [exact HG| | |eassumption]; [|eapply IH'; [| |eassumption]; [apply update_part, Hx'|exact HG]].
      match goal with X : record_fields _ _ _ _ = _ |- _ => apply record_fields_canon in X; destruct X as (r & o & _ & L) end.
      match goal with X : field_type _ _ = _ |- _ => apply field_type_lookup in X; eapply (ctx_fields f E R C); eassumption end.
    - constructor; [assumption|]. eapply IHi; [| | |eassumption]; [apply thunk_part|assumption|assumption].
    - constructor; [assumption|]. constructor; [assumption|]. eapply IH'; [| |eassumption]; [spart|assumption].
  Qed.
End Known.
