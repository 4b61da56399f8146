(** Reference counting balances references on every path. *)
From Coq Require Import String List Bool Arith Lia.
From Verif Require Import Base Mir MirSim MirScopeSpec MirNormSpec MirEnv MirEnvProofs MirUniq MirRc MirRcSpec.
Import ListNotations.

(** ** Ownership given by a function of names *)
Definition upd (c : string -> nat) (x : string) (n : nat) : string -> nat :=
  fun y => if String.eqb y x then n else c y.

Lemma upd_same c x n : upd c x n x = n.
Proof. unfold upd. rewrite String.eqb_refl. reflexivity. Qed.

Lemma upd_other c x n y : y <> x -> upd c x n y = c y.
Proof. intros H. unfold upd. apply String.eqb_neq in H. rewrite H. reflexivity. Qed.

(** The innermost variable of each name owns [c] references, and those it
    shadows own none. *)
Fixpoint good (c : string -> nat) (o : ownership) : Prop :=
  match o with
  | [] => True
  | (x, n) :: o' => n = c x /\ good (upd c x 0) o'
  end.

Lemma good_ext o : forall c c', good c o -> (forall x, In x (map fst o) -> c' x = c x) -> good c' o.
Proof.
  induction o as [|[x n] o IH]; intros c c' H E; cbn in *; [exact I|]. destruct H as [-> H].
  split; [symmetry; apply E; auto|]. eapply IH; [exact H|]. intros y Hy. unfold upd.
  destruct (String.eqb y x); [reflexivity|]. apply E. auto.
Qed.

Lemma good_lookup o : forall c x, good c o -> In x (map fst o) -> lookup o x = Some (c x).
Proof.
  induction o as [|[y n] o IH]; intros c x H Hx; cbn in *; [destruct Hx|]. destruct H as [-> H].
  destruct (String.eqb x y) eqn:E; [apply String.eqb_eq in E; subst; reflexivity|].
  destruct Hx as [<-|Hx]; [rewrite String.eqb_refl in E; discriminate|].
  rewrite (IH _ _ H Hx). unfold upd. rewrite E. reflexivity.
Qed.

Lemma lookup_out {A} (o : list (string * A)) x : ~ In x (map fst o) -> lookup o x = None.
Proof.
  induction o as [|[y n] o IH]; cbn; intros H; [reflexivity|].
  destruct (String.eqb x y) eqn:E; [apply String.eqb_eq in E; subst; tauto|]. apply IH. tauto.
Qed.

Lemma own_set_names x n o : map fst (own_set x n o) = map fst o.
Proof.
  induction o as [|[y k] o IH]; cbn; [reflexivity|]. destruct (String.eqb x y); cbn; congruence.
Qed.

Lemma good_set o : forall c x n, good c o -> good (upd c x n) (own_set x n o).
Proof.
  induction o as [|[y k] o IH]; intros c x n H; cbn in *; [exact I|]. destruct H as [-> H].
  destruct (String.eqb x y) eqn:E; cbn.
  - apply String.eqb_eq in E. subst y. rewrite upd_same. split; [reflexivity|].
    eapply good_ext; [exact H|]. intros z _. unfold upd. destruct (String.eqb z x); reflexivity.
  - apply String.eqb_neq in E. rewrite upd_other by congruence. split; [reflexivity|].
    eapply good_ext; [apply (IH _ x n H)|]. intros z _. unfold upd.
    destruct (String.eqb_spec z y), (String.eqb_spec z x); congruence.
Qed.

Lemma good_take c x o : good c o -> (In x (map fst o) -> 1 <= c x) ->
  exists o', take x o = Some o' /\ good (upd c x (c x - 1)) o' /\ map fst o' = map fst o.
Proof.
  intros H Hx. unfold take. destruct (in_dec string_dec x (map fst o)) as [Hi|Hi].
  - rewrite (good_lookup _ _ _ H Hi). specialize (Hx Hi). destruct (c x) as [|n] eqn:E; [lia|].
    eexists. split; [reflexivity|]. split; [|apply own_set_names].
    replace (S n - 1) with n by lia. apply good_set. assumption.
  - rewrite (lookup_out _ _ Hi). exists o. split; [reflexivity|]. split; [|reflexivity].
    eapply good_ext; [exact H|]. intros y Hy. apply upd_other. congruence.
Qed.

Definition less (c : string -> nat) (xs : list string) : string -> nat :=
  fun y => if mem y xs then c y - 1 else c y.

Definition more (c : string -> nat) (xs : list string) : string -> nat :=
  fun y => if mem y xs then S (c y) else c y.

Lemma mem_cons x y l : mem x (y :: l) = String.eqb x y || mem x l.
Proof. reflexivity. Qed.

Lemma good_take_all xs : forall c o, good c o -> NoDup xs ->
  (forall x, In x xs -> In x (map fst o) -> 1 <= c x) ->
  exists o', take_all xs o = Some o' /\ good (less c xs) o' /\ map fst o' = map fst o.
Proof.
  induction xs as [|x xs IH]; intros c o H N Hx; cbn [take_all].
  - exists o. split; [reflexivity|]. split; [|reflexivity]. eapply good_ext; [exact H|]. reflexivity.
  - apply NoDup_cons_iff in N as [N1 N2].
    destruct (good_take c x o H (Hx x (or_introl eq_refl))) as (o1 & -> & H1 & E1).
    destruct (IH _ o1 H1 N2) as (o2 & -> & H2 & E2).
    { intros y Hy Hd. rewrite upd_other by congruence. apply Hx; [right; assumption|]. rewrite <- E1. assumption. }
    exists o2. split; [reflexivity|]. split; [|congruence].
    eapply good_ext; [exact H2|]. intros y _. unfold less. rewrite mem_cons. unfold upd.
    destruct (String.eqb_spec y x) as [->|Hne]; cbn; [|reflexivity].
    apply mem_false in N1. rewrite N1. reflexivity.
Qed.

Definition in_waiting (x : string) (w : waiting) : Prop := In (Some x) w.

Lemma waiting_existsb x w :
  existsb (fun h => match h with Some y => String.eqb x y | None => false end) w = true <-> in_waiting x w.
Proof.
  rewrite existsb_exists. split.
  - intros ([y|] & Hy & E); [|discriminate]. apply String.eqb_eq in E. subst. exact Hy.
  - intros H. exists (Some x). split; [exact H|apply String.eqb_refl].
Qed.

Lemma good_duplicate w c x o : good c o -> (In x (map fst o) -> 1 <= c x \/ in_waiting x w) ->
  exists o', duplicate w x o = Some o' /\ good (upd c x (S (c x))) o' /\ map fst o' = map fst o.
Proof.
  intros H Hx. unfold duplicate. destruct (in_dec string_dec x (map fst o)) as [Hi|Hi].
  - rewrite (good_lookup _ _ _ H Hi). specialize (Hx Hi). destruct (c x) as [|n] eqn:E.
    + destruct Hx as [Hx|Hx]; [lia|]. apply waiting_existsb in Hx. rewrite Hx.
      eexists. split; [reflexivity|]. split; [|apply own_set_names]. apply good_set. assumption.
    + eexists. split; [reflexivity|]. split; [|apply own_set_names]. apply good_set. assumption.
  - rewrite (lookup_out _ _ Hi). exists o. split; [reflexivity|]. split; [|reflexivity].
    eapply good_ext; [exact H|]. intros y Hy. apply upd_other. congruence.
Qed.

Lemma good_duplicate_all w xs : forall c o, good c o -> NoDup xs ->
  (forall x, In x xs -> In x (map fst o) -> 1 <= c x \/ in_waiting x w) ->
  exists o', duplicate_all w xs o = Some o' /\ good (more c xs) o' /\ map fst o' = map fst o.
Proof.
  induction xs as [|x xs IH]; intros c o H N Hx; cbn [duplicate_all].
  - exists o. split; [reflexivity|]. split; [|reflexivity]. eapply good_ext; [exact H|]. reflexivity.
  - apply NoDup_cons_iff in N as [N1 N2].
    destruct (good_duplicate w c x o H (Hx x (or_introl eq_refl))) as (o1 & -> & H1 & E1).
    destruct (IH _ o1 H1 N2) as (o2 & -> & H2 & E2).
    { intros y Hy Hd. rewrite upd_other by congruence. apply Hx; [right; assumption|]. rewrite <- E1. assumption. }
    exists o2. split; [reflexivity|]. split; [|congruence].
    eapply good_ext; [exact H2|]. intros y _. unfold more. rewrite mem_cons. unfold upd.
    destruct (String.eqb_spec y x) as [->|Hne]; cbn; [|reflexivity].
    apply mem_false in N1. rewrite N1. reflexivity.
Qed.

Lemma good_push c x o : good c o -> (In x (map fst o) -> c x = 0) -> good (upd c x 1) ((x, 1) :: o).
Proof.
  intros H Hx. cbn. split; [symmetry; apply upd_same|]. eapply good_ext; [exact H|]. intros y Hy.
  unfold upd. destruct (String.eqb_spec y x) as [->|]; [symmetry; auto|reflexivity].
Qed.

(** ** Clones and drops in front of an expression *)
Lemma restrict_names owned xs x : In x (map fst (restrict owned xs)) <-> In x (map fst owned) /\ In x xs.
Proof.
  unfold restrict. rewrite !in_map_iff. split.
  - intros ([y t] & <- & H). apply filter_In in H as [H1 H2]. apply mem_In in H2. cbn in *.
    split; [exists (y, t); auto|assumption].
  - intros [([y t] & <- & H1) H2]. exists (y, t). split; [reflexivity|]. apply filter_In. split; [assumption|].
    apply mem_In. exact H2.
Qed.

Lemma nodup_map_filter {A} (f : A -> string) (g : A -> bool) l : NoDup (map f l) -> NoDup (map f (filter g l)).
Proof.
  induction l as [|a l IH]; cbn; intros H; [constructor|]. apply NoDup_cons_iff in H as [H1 H2].
  destruct (g a); cbn; [|auto]. constructor; [|auto]. intros Hi. apply H1. apply in_map_iff in Hi as (b & <- & Hb).
  apply filter_In in Hb as [Hb _]. apply in_map. assumption.
Qed.

Lemma drop_paths w e xs owned c o :
  good c o -> NoDup (map fst owned) ->
  (forall x, In x xs -> In x (map fst owned) -> In x (map fst o) -> 1 <= c x) ->
  exists o', paths w (drop_variables e xs owned) o = paths w e o' /\ map fst o' = map fst o /\
    good (fun x => if mem x xs && mem x (map fst owned) then c x - 1 else c x) o'.
Proof.
  intros H N Hx. destruct xs as [|x0 xs0].
  { exists o. split; [reflexivity|]. split; [reflexivity|]. eapply good_ext; [exact H|]. reflexivity. }
  unfold drop_variables. set (xs := x0 :: xs0) in *. cbn [paths].
  destruct (good_take_all (map fst (restrict owned xs)) c o H) as (o' & -> & H' & E).
  { apply nodup_map_filter. assumption. }
  { intros x Hi Ho. apply restrict_names in Hi as [H1 H2]. auto. }
  exists o'. split; [reflexivity|]. split; [assumption|]. eapply good_ext; [exact H'|]. intros x _. unfold less.
  destruct (mem x (map fst (restrict owned xs))) eqn:Em.
  - apply mem_In, restrict_names in Em as [H1 H2]. apply mem_In in H1, H2. rewrite H1, H2. reflexivity.
  - apply mem_false in Em. rewrite restrict_names in Em.
    destruct (mem x xs && mem x (map fst owned)) eqn:E2; [|reflexivity].
    apply andb_true_iff in E2 as [E2 E3]. apply mem_In in E2, E3. tauto.
Qed.

Lemma clone_paths w e xs owned c o :
  good c o -> NoDup (map fst owned) ->
  (forall x, In x xs -> In x (map fst owned) -> In x (map fst o) -> 1 <= c x \/ in_waiting x w) ->
  exists o', paths w (clone_variables e xs owned) o = paths w e o' /\ map fst o' = map fst o /\
    good (fun x => if mem x xs && mem x (map fst owned) then S (c x) else c x) o'.
Proof.
  intros H N Hx. destruct xs as [|x0 xs0].
  { exists o. split; [reflexivity|]. split; [reflexivity|]. eapply good_ext; [exact H|]. reflexivity. }
  unfold clone_variables. set (xs := x0 :: xs0) in *. cbn [paths].
  destruct (good_duplicate_all w (map fst (restrict owned xs)) c o H) as (o' & -> & H' & E).
  { apply nodup_map_filter. assumption. }
  { intros x Hi Ho. apply restrict_names in Hi as [H1 H2]. auto. }
  exists o'. split; [reflexivity|]. split; [assumption|]. eapply good_ext; [exact H'|]. intros x _. unfold more.
  destruct (mem x (map fst (restrict owned xs))) eqn:Em.
  - apply mem_In, restrict_names in Em as [H1 H2]. apply mem_In in H1, H2. rewrite H1, H2. reflexivity.
  - apply mem_false in Em. rewrite restrict_names in Em.
    destruct (mem x xs && mem x (map fst owned)) eqn:E2; [|reflexivity].
    apply andb_true_iff in E2 as [E2 E3]. apply mem_In in E2, E3. tauto.
Qed.

Lemma own_insert_names x t owned y : In y (map fst (own_insert x t owned)) <-> y = x \/ In y (map fst owned).
Proof.
  unfold own_insert. cbn. rewrite !in_map_iff. split.
  - intros [H|([z u] & <- & H)]; [auto|]. apply filter_In in H as [H _]. right. exists (z, u). auto.
  - intros [->|([z u] & <- & H)]; [auto|]. destruct (string_dec z x) as [->|Hne]; [left; reflexivity|].
    right. exists (z, u). split; [reflexivity|]. apply filter_In. split; [assumption|].
    apply String.eqb_neq in Hne. cbn. rewrite Hne. reflexivity.
Qed.

Lemma own_insert_nodup x t owned : NoDup (map fst owned) -> NoDup (map fst (own_insert x t owned)).
Proof.
  intros H. unfold own_insert. cbn. constructor; [|apply nodup_map_filter; assumption].
  intros Hi. apply in_map_iff in Hi as ([y u] & Hy & Hi). cbn in Hy. subst y. apply filter_In in Hi as [_ Hi].
  cbn in Hi. rewrite String.eqb_refl in Hi. discriminate.
Qed.

(** ** The variables an expression uses *)
Fixpoint uses (e : expr) : list string :=
  match e with
  | Lit _ => []
  | Var x => [x]
  | Op _ es => flat_map uses es
  | If c t e => uses c ++ uses t ++ uses e
  | Case a alts de =>
      uses a ++ flat_map (fun al => except (a_name al) (uses (a_body al))) alts ++
      match de with
      | Some (x, e) => except x (uses e)
      | None => []
      end
  | Let x _ b e => uses b ++ except x (uses e)
  | LetRec d e => map fst (f_env d) ++ except (f_name d) (uses e)
  | Try o x _ e => uses o ++ except x (uses e)
  | CloneVars _ e => uses e
  | DropVars _ e => uses e
  end.

(** ** Conditions on expressions *)
Record fit (e : expr) : Prop := {
  fit_normal : forall o es, within (Op o es) e -> counted o = true -> 2 <= length es -> Forall simple es;
  fit_tries : forall o x t e1, within (Try o x t e1) e -> exists t', e1 = Op (OVariant t') [Var x];
  fit_env : forall d e1, within (LetRec d e1) e ->
    NoDup (f_name d :: map fst (f_args d) ++ map fst (f_env d)) /\
    forall x, In x (map fst (f_env d)) -> In x (fv (f_body d))
}.

Lemma within_trans a b c : within a b -> within b c -> within a c.
Proof. intros H. induction 1; [assumption|..]; solve [econstructor; eauto]. Qed.

Lemma fit_within e e' : within e' e -> fit e -> fit e'.
Proof.
  intros H [H1 H2 H3]. split.
  - intros o es Hw. apply H1. eapply within_trans; eassumption.
  - intros o x t e1 Hw. eapply H2. eapply within_trans; eassumption.
  - intros d e1 Hw. eapply H3. eapply within_trans; eassumption.
Qed.

Lemma uses_fv e : fit e -> incl (uses e) (fv e).
Proof.
  induction e as [l|x|o es IH|c t e IHc IHt IHe|a alts de IHa IHalts IHde|x t b e IHb IHe
                  |d e IHd IHe|o x t e IHo IHe|xs e IHe|xs e IHe] using expr_ind'; intros F z Hz;
    rewrite ?Forall_forall in *; cbn [uses fv] in *.
  - exact Hz.
  - exact Hz.
  - apply in_flat_map in Hz as (e & He & Hz). apply in_flat_map. exists e. split; [assumption|].
    apply IH; auto. eapply fit_within; [|exact F]. econstructor; [eassumption|constructor].
  - rewrite !in_app_iff in *. destruct Hz as [Hz|[Hz|Hz]]; [left; apply IHc|right; left; apply IHt|right; right; apply IHe];
      auto; (eapply fit_within; [|exact F]); [apply within_if_1|apply within_if_2|apply within_if_3]; constructor.
  - rewrite !in_app_iff in *. destruct Hz as [Hz|[Hz|Hz]].
    + left. apply IHa; auto. eapply fit_within; [|exact F]. apply within_case_argument. constructor.
    + right. left. apply in_flat_map in Hz as (al & Hal & Hz). apply in_flat_map. exists al. split; [assumption|].
      apply in_except in Hz as [Hz Hne]. apply in_except. split; [|assumption]. apply IHalts; auto.
      eapply fit_within; [|exact F]. eapply within_case_alternative; [eassumption|constructor].
    + right. right. destruct de as [[y e]|]; [|destruct Hz]. apply in_except in Hz as [Hz Hne]. apply in_except.
      split; [|assumption]. eapply IHde; eauto. eapply fit_within; [|exact F]. apply within_case_default. constructor.
  - rewrite !in_app_iff, !in_except in *. destruct Hz as [Hz|[Hz Hne]].
    + left. apply IHb; auto. eapply fit_within; [|exact F]. apply within_let_bound. constructor.
    + right. split; [|assumption]. apply IHe; auto. eapply fit_within; [|exact F]. apply within_let_body. constructor.
  - apply in_app_iff in Hz. apply in_fv_letrec. rewrite in_except in Hz.
    destruct (fit_env _ F d e (within_here _)) as [N E]. destruct Hz as [Hz|[Hz Hne]].
    + change (f_name d :: map fst (f_args d) ++ map fst (f_env d))
        with ((f_name d :: map fst (f_args d)) ++ map fst (f_env d)) in N.
      apply nodup_app_iff in N as (_ & _ & N). split.
      * intros ->. apply (N (f_name d)); [left; reflexivity|assumption].
      * left. split; [auto|]. intros Ha. apply (N z); [right; assumption|assumption].
    + split; [assumption|]. right. apply IHe; auto. eapply fit_within; [|exact F]. apply within_letrec_body. constructor.
  - rewrite !in_app_iff, !in_except in *. destruct Hz as [Hz|[Hz Hne]].
    + left. apply IHo; auto. eapply fit_within; [|exact F]. apply within_try_operand. constructor.
    + right. split; [|assumption]. apply IHe; auto. eapply fit_within; [|exact F]. apply within_try_body. constructor.
  - apply IHe; auto. eapply fit_within; [|exact F]. apply within_clone. constructor.
  - apply IHe; auto. eapply fit_within; [|exact F]. apply within_drop. constructor.
Qed.

(** ** The variables moved *)
Lemma some_pair {A B} (a a' : A) (b b' : B) : Some (a, b) = Some (a', b') -> a' = a /\ b' = b.
Proof. intros H. injection H as -> ->. auto. Qed.

Ltac osome H :=
  apply some_pair in H; destruct H as [-> ->].

Ltac obind H :=
  match type of H with
  | opt_bind ?x _ = Some _ =>
      let E := fresh "E" in destruct x as [[? ?]|] eqn:E; [cbn [opt_bind] in H|discriminate H]
  end.

Definition moves (f : expr -> names -> option (expr * names)) (e : expr) : Prop :=
  forall mv e' mv', f e mv = Some (e', mv') -> forall x, In x mv' <-> In x mv \/ In x (uses e).

Lemma backward_moved f es : Forall (moves f) es ->
  forall mv es' mv', rc_backward f es mv = Some (es', mv') -> forall x, In x mv' <-> In x mv \/ In x (flat_map uses es).
Proof.
  induction 1 as [|e es He _ IH]; intros mv es' mv' H x; cbn [rc_backward flat_map] in *.
  - osome H. cbn. tauto.
  - obind H. obind H. osome H. rewrite (He _ _ _ E0), (IH _ _ _ E), in_app_iff. tauto.
Qed.

Lemma forward_moved f es : Forall (moves f) es ->
  forall mv es' mv', rc_forward f es mv = Some (es', mv') -> forall x, In x mv' <-> In x mv \/ In x (flat_map uses es).
Proof.
  induction 1 as [|e es He _ IH]; intros mv es' mv' H x; cbn [rc_forward flat_map] in *.
  - osome H. cbn. tauto.
  - obind H. obind H. osome H. rewrite (IH _ _ _ E0), (He _ _ _ E), in_app_iff. tauto.
Qed.

(** Transformed alternatives beside their sources. *)
Lemma alternatives_forall2 f owned moved alts : forall tuples,
  rc_alternatives f owned moved alts = Some tuples ->
  Forall2 (fun al t => a_types (fst t) = a_types al /\ a_name (fst t) = a_name al /\
             f (own_insert (a_name al) (alt_type (a_types al)) owned) (except (a_name al) moved) (a_body al) =
             Some (a_body (fst t), snd t)) alts tuples.
Proof.
  induction alts as [|al alts IH]; intros tuples H; cbn [rc_alternatives] in H.
  - injection H as <-. constructor.
  - obind H. destruct (rc_alternatives f owned moved alts) as [rest|]; [|discriminate]. cbn [opt_bind] in H.
    injection H as <-. constructor; [cbn; auto|]. apply IH. reflexivity.
Qed.

Lemma rc_moved e : forall owned mv e' mv', rc owned mv e = Some (e', mv') ->
  forall x, In x mv' <-> In x mv \/ In x (uses e).
Proof.
  induction e as [l|y|o es IH|c t e IHc IHt IHe|a alts de IHa IHalts IHde|y t b e IHb IHe
                  |d e IHd IHe|o y t e IHo IHe|xs e IHe|xs e IHe] using expr_ind';
    intros owned mv e' mv' H x; cbn [rc] in H.
  - osome H. cbn. tauto.
  - destruct (should_clone y owned mv) eqn:Es; osome H.
    + apply andb_true_iff in Es as [_ Es]. apply mem_In in Es. cbn. split; [auto|].
      intros [Hx|[<-|[]]]; assumption.
    + rewrite in_app_iff. reflexivity.
  - obind H. osome H. cbn [uses].
    assert (Hm : Forall (moves (fun e mv => rc owned mv e)) es).
    { eapply Forall_impl; [|exact IH]. intros e He m1 e1 m2 H1. exact (He _ _ _ _ H1). }
    destruct (forward_operation o); [eapply forward_moved|eapply backward_moved]; eassumption.
  - obind H. obind H. obind H. osome H. cbn [uses].
    rewrite (IHc _ _ _ _ E1), !in_app_iff, (IHt _ _ _ _ E), (IHe _ _ _ _ E0). tauto.
  - obind H. destruct (rc_alternatives _ owned mv alts) as [tuples|] eqn:Et; [|discriminate H]. cbn [opt_bind] in H.
    obind H. osome H. cbn [uses]. rewrite (IHa _ _ _ _ E0), !in_app_iff.
    assert (Hd : In x (match o with Some (y, _) => except y n | None => n end) <->
                 In x (match de with Some (y, _) => except y mv | None => mv end) \/
                 In x (match de with Some (y, e) => except y (uses e) | None => [] end)).
    { destruct de as [[y0 e9]|].
      - obind E. osome E. rewrite !in_except, (IHde _ _ eq_refl _ _ _ _ E1), in_except. tauto.
      - osome E. cbn. tauto. }
    assert (Ha : In x (flat_map (fun '(al, mv) => except (a_name al) mv) tuples) <->
                 exists al, In al alts /\ x <> a_name al /\ (In x mv \/ In x (uses (a_body al)))).
    { apply alternatives_forall2 in Et. clear -IHalts Et. induction Et as [|al [al' m1] alts tuples (Ht & Hn & Hr) _ IH].
      - cbn. split; [tauto|]. intros (al & [] & _).
      - apply Forall_cons_iff in IHalts as [IH1 IHalts]. specialize (IH IHalts). cbn [flat_map fst snd] in *.
        rewrite in_app_iff, IH, in_except, Hn, (IH1 _ _ _ _ Hr), in_except. clear. split.
        + intros [[[[H1 H2]|H1] H3]|(al' & H1 & H2)]; [exists al|exists al|exists al']; cbn; tauto.
        + intros (al' & [<-|H1] & H2 & H3); [left; tauto|]. right. exists al'. auto. }
    rewrite Hd, Ha.
    assert (Hf : In x (flat_map (fun al => except (a_name al) (uses (a_body al))) alts) <->
                 exists al, In al alts /\ x <> a_name al /\ In x (uses (a_body al))).
    { rewrite in_flat_map. split; intros (al & H1 & H2); exists al; rewrite ?in_except in *; tauto. }
    rewrite Hf. clear. destruct de as [[y e]|]; rewrite ?in_except; firstorder.
  - obind H. obind H. osome H. cbn [uses].
    rewrite (IHb _ _ _ _ E0), !in_app_iff, !in_except, (IHe _ _ _ _ E), in_except. tauto.
  - obind H. obind H. osome H. cbn [uses].
    rewrite !in_app_iff, !in_except, (IHe _ _ _ _ E), in_except. tauto.
  - obind H. obind H. osome H. cbn [uses].
    rewrite (IHo _ _ _ _ E0), !in_app_iff, !in_except, (IHe _ _ _ _ E). cbn. tauto.
  - discriminate.
  - discriminate.
Qed.

(** ** Paths *)
Definition ind (l : names) : string -> nat := fun x => if mem x l then 1 else 0.

(** The end of a path is fine: the variables named by [mv] own one reference,
    the others none. *)
Definition fine (mv : names) (scope : list string) (r : ending) : Prop :=
  match r with
  | Value o _ => good (ind mv) o /\ map fst o = scope
  | Early => True
  | Fault => False
  end.

Lemma in_after r f r' : In r' (after r f) ->
  (exists o h, r = Value o h /\ In r' (f o h)) \/ (r' = r /\ forall o h, r <> Value o h).
Proof. destruct r; cbn; [eauto| |]; intros [<-|[]]; right; split; congruence. Qed.

Lemma ind_true l x : In x l -> ind l x = 1.
Proof. intros H. unfold ind. apply mem_In in H. rewrite H. reflexivity. Qed.

Lemma ind_false l x : ~ In x l -> ind l x = 0.
Proof. intros H. unfold ind. apply mem_false in H. rewrite H. reflexivity. Qed.

Lemma ind_iff a b x : (In x a <-> In x b) -> ind a x = ind b x.
Proof.
  intros H. destruct (in_dec string_dec x a) as [Ha|Ha].
  - rewrite !ind_true; tauto.
  - rewrite !ind_false; tauto.
Qed.

(** [owned] lists the variables in scope. *)
Definition covers (owned : arguments) (o : ownership) : Prop :=
  NoDup (map fst owned) /\ forall x, In x (map fst owned) <-> In x (map fst o).

Lemma covers_push owned o x t n : covers owned o -> covers (own_insert x t owned) ((x, n) :: o).
Proof.
  intros [N H]. split; [apply own_insert_nodup; assumption|]. intros y. rewrite own_insert_names, H. cbn.
  intuition congruence.
Qed.

Lemma covers_same owned o o' : map fst o' = map fst o -> covers owned o -> covers owned o'.
Proof. intros E [N H]. split; [assumption|]. intros x. rewrite E. apply H. Qed.

(** Variables and literals, with any operands that wait. *)
Lemma simple_paths w e owned mv e' mv' o : simple e -> rc owned mv e = Some (e', mv') ->
  covers owned o -> good (ind mv') o ->
  forall r, In r (paths w e' o) -> fine mv (map fst o) r /\ r <> Early.
Proof.
  intros Hs H Hc Hg r Hr. destruct e as [l|x| | | | | | | |]; try destruct Hs; cbn [rc] in H.
  - osome H. destruct Hr as [<-|[]]. cbn. split; [auto|discriminate].
  - destruct (should_clone x owned mv) eqn:Es; osome H.
    + apply andb_true_iff in Es as [Eo Em]. apply mem_In in Em. apply mem_In in Eo.
      destruct (clone_paths w (Var x) [x] owned (ind mv) o) as (o1 & E1 & N1 & G1); [assumption|apply Hc| |].
      { intros y [<-|[]] _ _. left. rewrite ind_true by assumption. lia. }
      change (In r (paths w (clone_variables (Var x) [x] owned) o)) in Hr. rewrite E1 in Hr. cbn [paths] in Hr.
      destruct (good_take _ x o1 G1) as (o2 & E2 & G2 & N2).
      { intros _. rewrite mem_cons, String.eqb_refl. apply mem_In in Eo. rewrite Eo. cbn. lia. }
      rewrite E2 in Hr. destruct Hr as [<-|[]]. split; [|discriminate]. cbn. split; [|congruence].
      eapply good_ext; [exact G2|]. intros y _. unfold upd. apply mem_In in Eo. rewrite !mem_cons.
      destruct (String.eqb_spec y x) as [->|Hne]; cbn.
      * rewrite String.eqb_refl, Eo. cbn. lia.
      * reflexivity.
    + cbn [paths] in Hr. destruct (good_take _ x o Hg) as (o2 & E2 & G2 & N2).
      { intros _. rewrite ind_true; [lia|]. rewrite in_app_iff. right. left. reflexivity. }
      rewrite E2 in Hr. destruct Hr as [<-|[]]. split; [|discriminate]. cbn. split; [|assumption].
      eapply good_ext; [exact G2|]. intros y Hy. unfold upd.
      destruct (String.eqb_spec y x) as [->|Hne].
      * rewrite (ind_true (mv ++ [x])) by (rewrite in_app_iff; right; left; reflexivity). cbn. apply ind_false.
        intros Hm. rewrite N2 in Hy. apply (proj2 Hc) in Hy. apply mem_In in Hm, Hy.
        unfold should_clone in Es. rewrite Hm, Hy in Es. discriminate.
      * apply ind_iff. rewrite in_app_iff. cbn. intuition congruence.
Qed.

(** Operands transformed from the last to the first. *)
Lemma backward_paths (keep : bool) (ok : waiting -> Prop) owned es :
  (forall w h, ok w -> ok (if keep then h ++ w else w)) ->
  Forall (fun e => forall (L : string -> Prop) mv e' mv' w o, rc owned mv e = Some (e', mv') -> ok w -> covers owned o ->
            hides_none L e -> (forall x, In x mv -> L x) -> good (ind mv') o ->
            forall r, In r (paths w e' o) -> fine mv (map fst o) r) es ->
  (forall e, In e es -> incl (uses e) (fv e)) ->
  forall (L : string -> Prop) mv es' mv' w o, rc_backward (fun e mv => rc owned mv e) es mv = Some (es', mv') ->
    ok w -> covers owned o -> operands_hide_none hides_none L es -> (forall x, In x mv -> L x) -> good (ind mv') o ->
    forall r, In r (operand_paths paths keep w es' o) -> fine mv (map fst o) r.
Proof.
  intros Hok. induction 1 as [|e es He _ IH]; intros Huse L mv es' mv' w o H Hw Hc Hh Ha Hg r Hr; cbn [rc_backward] in H.
  - osome H. destruct Hr as [<-|[]]. cbn. auto.
  - obind H. obind H. osome H. cbn [operand_paths] in Hr. apply in_flat_map in Hr as (r1 & Hr1 & Hr).
    cbn [operands_hide_none] in Hh. destruct Hh as [Hh1 Hh2].
    assert (Hl : forall x, In x n <-> In x mv \/ In x (flat_map uses es)).
    { eapply backward_moved; [|exact E]. apply Forall_forall. intros e1 _ m1 e2 m2 H1. exact (rc_moved _ _ _ _ _ H1). }
    assert (F1 : fine n (map fst o) r1).
    { eapply He; try eassumption. intros x Hx. cbv beta. apply Hl in Hx as [Hx|Hx]; [left; auto|right].
      apply in_flat_map in Hx as (e1 & He1 & Hx). exists e1. split; [assumption|]. apply fv_free, (Huse e1 (or_intror He1)), Hx. }
    apply in_after in Hr as [(o1 & h & -> & Hr)|[-> Hne]].
    + destruct F1 as [G1 S1]. cbn in S1. rewrite <- S1.
      eapply (IH (fun e1 He1 => Huse e1 (or_intror He1)) L).
      * exact E.
      * apply Hok. exact Hw.
      * eapply covers_same; eassumption.
      * exact Hh2.
      * exact Ha.
      * exact G1.
      * exact Hr.
    + destruct r1; [exfalso; eapply Hne; reflexivity|exact I|destruct F1].
Qed.

(** Variables and literals transformed from the first to the last. *)
Lemma forward_paths owned es : Forall simple es ->
  forall mv0 mv es' mv' w o, rc_forward (fun e mv => rc owned mv e) es mv = Some (es', mv') ->
    covers owned o -> incl mv0 mv ->
    (forall x, In x mv -> ~ In x mv0 -> In x (map fst o) -> in_waiting x w) ->
    good (fun x => if mem x mv0 then 1 else if mem x mv then 0 else ind mv' x) o ->
    forall r, In r (operand_paths paths true w es' o) -> fine mv0 (map fst o) r.
Proof.
  induction 1 as [|e es He Hes IH]; intros mv0 mv es' mv' w o H Hc Hi Hw Hg r Hr; cbn [rc_forward] in H.
  - osome H. destruct Hr as [<-|[]]. cbn. split; [|reflexivity].
    eapply good_ext; [exact Hg|]. intros x _. unfold ind. destruct (mem x mv0); [reflexivity|].
    destruct (mem x mv); reflexivity.
  - obind H. obind H. osome H. cbn [operand_paths] in Hr. apply in_flat_map in Hr as (r1 & Hr1 & Hr).
    assert (Hl : forall x, In x n0 <-> In x n \/ In x (flat_map uses es)).
    { eapply forward_moved; [|exact E0]. apply Forall_forall. intros e1 _ m1 e2 m2 H1. exact (rc_moved _ _ _ _ _ H1). }
    destruct e as [l1|x| | | | | | | |]; try destruct He; cbn [rc] in E.
    + osome E. destruct Hr1 as [<-|[]]. cbn [after app] in Hr. eapply IH; eassumption.
    + destruct (should_clone x owned mv) eqn:Es; osome E.
      * apply andb_true_iff in Es as [Eo Em]. apply mem_In in Em.
        destruct (clone_paths w (Var x) [x] owned _ o Hg) as (o1 & E1 & N1 & G1); [apply Hc| |].
        { intros y [<-|[]] Hy Ho. destruct (in_dec string_dec x mv0) as [H0|H0].
          - left. apply mem_In in H0. rewrite H0. lia.
          - right. apply Hw; assumption. }
        change (In r1 (paths w (clone_variables (Var x) [x] owned) o)) in Hr1. rewrite E1 in Hr1. cbn [paths] in Hr1.
        destruct (good_take _ x o1 G1) as (o2 & E2 & G2 & N2).
        { intros _. rewrite mem_cons, String.eqb_refl, Eo. cbn. lia. }
        rewrite E2 in Hr1. destruct Hr1 as [<-|[]]. cbn [after] in Hr. rewrite <- N1, <- N2.
        eapply IH; [exact E0| |exact Hi| | |exact Hr].
        -- eapply covers_same; [|exact Hc]. congruence.
        -- intros y H1 H2 H3. apply in_or_app. right. apply Hw; auto. rewrite <- N1, <- N2. assumption.
        -- eapply good_ext; [exact G2|]. intros y _. unfold upd. rewrite !mem_cons.
           destruct (String.eqb_spec y x) as [->|Hne]; cbn; [|reflexivity].
           rewrite String.eqb_refl, Eo. cbn. lia.
      * cbn [paths] in Hr1.
        assert (Hn : forall y, In y (map fst o) -> y = x -> ~ In y mv).
        { intros y Hy -> Hm. apply (proj2 Hc) in Hy. apply mem_In in Hm, Hy.
          unfold should_clone in Es. rewrite Hm, Hy in Es. discriminate. }
        assert (Hx' : In x n0).
        { apply Hl. left. rewrite in_app_iff. right. left. reflexivity. }
        destruct (good_take _ x o Hg) as (o2 & E2 & G2 & N2).
        { intros Hx. specialize (Hn x Hx eq_refl).
          assert (Hn0 : ~ In x mv0) by auto. apply mem_false in Hn, Hn0. rewrite Hn0, Hn, ind_true by assumption. lia. }
        rewrite E2 in Hr1. destruct Hr1 as [<-|[]]. cbn [after] in Hr. rewrite <- N2.
        eapply IH; [exact E0| | | | |exact Hr].
        -- eapply covers_same; [|exact Hc]. congruence.
        -- intros y Hy. rewrite in_app_iff. auto.
        -- intros y H1 H2 H3. rewrite N2 in H3. apply in_or_app. apply in_app_iff in H1 as [H1|[<-|[]]].
           ++ right. apply Hw; auto.
           ++ left. rewrite (good_lookup _ _ _ Hg H3). left. reflexivity.
        -- eapply good_ext; [exact G2|]. intros y Hy. rewrite N2 in Hy. unfold upd.
           assert (Em : mem y (mv ++ [x]) = mem y mv || String.eqb y x).
           { apply eq_true_iff_eq. rewrite orb_true_iff, !mem_In, in_app_iff, String.eqb_eq. cbn. intuition congruence. }
           rewrite Em. destruct (String.eqb_spec y x) as [->|Hne].
           ++ specialize (Hn x Hy eq_refl). assert (Hn0 : ~ In x mv0) by auto.
              apply mem_false in Hn, Hn0. rewrite Hn0, Hn, ind_true by assumption. reflexivity.
           ++ rewrite orb_false_r. reflexivity.
Qed.

Lemma leave_fine mv scope x r :
  fine (except x mv) (x :: scope) r -> fine mv scope (leave_scope r) \/ In x mv.
Proof.
  intros F. destruct (in_dec string_dec x mv) as [Hx|Hx]; [auto|left].
  destruct r as [o h| |]; [|exact I|destruct F]. destruct F as [G S]. destruct o as [|[y n] o]; [discriminate|].
  cbn in S. injection S as -> S. cbn in G. destruct G as [-> G].
  rewrite ind_false by (rewrite in_except; tauto). cbn. split; [|assumption].
  eapply good_ext; [exact G|]. intros y Hy. unfold upd. destruct (String.eqb_spec y x) as [->|Hne].
  - apply ind_false. assumption.
  - apply ind_iff. rewrite in_except. tauto.
Qed.

(** A scope opened for [x]: the variables not moved any more are dropped, the
    expression runs, and the scope is left. *)
Lemma scope_paths owned x t mv c drops e em o :
  (forall o1 r, covers (own_insert x t owned) o1 -> good (ind em) o1 -> In r (paths [] e o1) ->
     fine (except x mv) (map fst o1) r) ->
  covers owned o -> ~ In x mv -> good (ind c) o -> ~ In x c ->
  (forall y, y <> x -> In y c <-> In y em \/ In y drops) -> In x em \/ In x drops ->
  (forall y, In y drops -> ~ In y em) ->
  forall r, In r (map leave_scope (paths [] (drop_variables e drops (own_insert x t owned)) ((x, 1) :: o))) ->
    fine mv (map fst o) r.
Proof.
  intros He Hc Hx Hg Hxc Hcs Hxs Hd r Hr. apply in_map_iff in Hr as (r1 & <- & Hr).
  pose proof (covers_push owned o x t 1 Hc) as Hc1.
  assert (Hg1 : good (fun y => if mem y em then 1 else if mem y drops then 1 else 0) ((x, 1) :: o)).
  { eapply good_ext; [apply good_push; [exact Hg|]|].
    - intros _. apply ind_false. assumption.
    - intros y _. cbv beta. unfold upd. destruct (String.eqb_spec y x) as [->|Hne].
      + destruct Hxs as [H|H]; apply mem_In in H; rewrite H; [reflexivity|]. destruct (mem x em); reflexivity.
      + specialize (Hcs y Hne). destruct (mem y em) eqn:E1.
        { rewrite ind_true; [reflexivity|]. apply Hcs. left. apply mem_In. assumption. }
        destruct (mem y drops) eqn:E2.
        { rewrite ind_true; [reflexivity|]. apply Hcs. right. apply mem_In. assumption. }
        rewrite ind_false; [reflexivity|]. rewrite Hcs. apply mem_false in E1, E2. tauto. }
  destruct (drop_paths [] e drops (own_insert x t owned) _ _ Hg1 (proj1 Hc1)) as (o1 & E1 & N1 & G1).
  { intros y Hy _ _. specialize (Hd y Hy). apply mem_false in Hd. apply mem_In in Hy. rewrite Hd, Hy. lia. }
  rewrite E1 in Hr.
  assert (F : fine (except x mv) (map fst o1) r1).
  { apply He; [eapply covers_same; eassumption| |assumption].
    eapply good_ext; [exact G1|]. intros y Hy. unfold ind. cbv beta.
    assert (Ho : mem y (map fst (own_insert x t owned)) = true).
    { apply mem_In. apply (proj2 Hc1). rewrite <- N1. assumption. }
    rewrite Ho, andb_true_r. destruct (mem y em) eqn:Ee, (mem y drops) eqn:Ed; try reflexivity.
    exfalso. apply mem_In in Ed. apply mem_In in Ee. exact (Hd y Ed Ee). }
  rewrite N1 in F. cbn [map fst] in F. destruct (leave_fine mv (map fst o) x r1 F) as [H|H]; tauto.
Qed.

Lemma in_minus x a b : In x (minus a b) <-> In x a /\ ~ In x b.
Proof. unfold minus. rewrite filter_In, negb_true_iff, mem_false. reflexivity. Qed.

Lemma in_inter x a b : In x (inter a b) <-> In x a /\ In x b.
Proof. unfold inter. rewrite filter_In, mem_In. reflexivity. Qed.

Lemma drop_unless x e em owned :
  (if mem x em then e else drop_variables e [x] owned) = drop_variables e (minus [x] em) owned.
Proof. unfold minus. cbn [filter]. destruct (mem x em); reflexivity. Qed.

Lemma good_nothing c o : good c o -> (forall x, In x (map fst o) -> c x = 0) -> nothing_owned o = true.
Proof.
  revert c. induction o as [|[x n] o IH]; intros c H Hz; [reflexivity|]. destruct H as [-> H]. cbn.
  rewrite (Hz x) by (left; reflexivity). cbn. eapply IH; [exact H|]. intros y Hy. unfold upd.
  destruct (String.eqb y x); [reflexivity|]. apply Hz. right. assumption.
Qed.

Lemma forall2_in_right {A B} (R : A -> B -> Prop) l l' b : Forall2 R l l' -> In b l' -> exists a, In a l /\ R a b.
Proof.
  induction 1 as [|a b' l l' H _ IH]; intros Hb; [destruct Hb|]. destruct Hb as [->|Hb].
  - exists a. split; [left; reflexivity|assumption].
  - destruct (IH Hb) as (a' & Ha & HR). exists a'. split; [right; assumption|assumption].
Qed.

Lemma filter_none {A} (f : A -> bool) l : (forall x, In x l -> f x = false) -> filter f l = [].
Proof.
  induction l as [|a l IH]; cbn; intros H; [reflexivity|]. rewrite (H a) by auto. apply IH. auto.
Qed.

Lemma branches_hide (P : (string -> Prop) -> expr -> Prop) L B alts al : branches_hide_none P L B alts -> In al alts ->
  ~ L (a_name al) /\ ~ B (a_name al) /\ P L (a_body al).
Proof.
  induction alts as [|a alts IH]; intros H Hi; [destruct Hi|]. destruct H as (H1 & H2 & H3 & H4).
  destruct Hi as [->|Hi]; auto.
Qed.

Lemma rc_paths e : fit e -> forall (L : string -> Prop) owned mv e' mv' o, rc owned mv e = Some (e', mv') ->
  covers owned o -> hides_none L e -> (forall x, In x mv -> L x) -> good (ind mv') o ->
  forall r, In r (paths [] e' o) -> fine mv (map fst o) r.
Proof.
  induction e as [l|y|op es IH|c t e IHc IHt IHe|a alts de IHa IHalts IHde|y t b e IHb IHe
                  |d e IHd IHe|a y t e IHo IHe|xs e IHe|xs e IHe] using expr_ind';
    intros F L owned mv e' mv' o H Hc Hh Ha Hg r Hr.
  - exact (proj1 (simple_paths [] (Lit l) _ _ _ _ _ I H Hc Hg r Hr)).
  - exact (proj1 (simple_paths [] (Var y) _ _ _ _ _ I H Hc Hg r Hr)).
  - cbn [rc] in H. obind H. osome H. cbn [paths] in Hr. apply in_flat_map in Hr as (r1 & Hr1 & Hr).
    assert (F1 : fine mv (map fst o) r1).
    { destruct (Nat.le_gt_cases 2 (length es)) as [Hl|Hl]; [destruct (counted op) eqn:Ec|].
      - pose proof (fit_normal _ F _ _ (within_here _) Ec Hl) as Hs.
        destruct (forward_operation op) eqn:Ef.
        + eapply forward_paths; [exact Hs|exact E|exact Hc| | | |exact Hr1].
          * intros x Hx. exact Hx.
          * intros x H1 H2. contradiction.
          * eapply good_ext; [exact Hg|]. intros x _. cbv beta. destruct (mem x mv) eqn:Em; [|reflexivity].
            symmetry. apply ind_true. eapply (forward_moved _ es); [|exact E|left; apply mem_In; exact Em].
            apply Forall_forall. intros e1 _ m1 e2 m2 H1. exact (rc_moved _ _ _ _ _ H1).
        + eapply (backward_paths true (fun _ => True)); [auto| | |exact E|exact I|exact Hc|exact Hh|exact Ha|exact Hg|exact Hr1].
          * apply Forall_forall. intros e1 He1 L1 m1 e2 m2 w1 o1 H1 _ Hc1 _ _ Hg1 r2 Hr2.
            rewrite Forall_forall in Hs. exact (proj1 (simple_paths w1 e1 _ _ _ _ _ (Hs e1 He1) H1 Hc1 Hg1 r2 Hr2)).
          * intros e1 He1. apply uses_fv. eapply fit_within; [|exact F]. econstructor; [exact He1|constructor].
      - assert (Ef : forward_operation op = false) by (destruct op; cbn in *; congruence). rewrite Ef in E.
        eapply (backward_paths false (fun w => w = [])); [auto| | |exact E|reflexivity|exact Hc|exact Hh|exact Ha|exact Hg|exact Hr1].
        * apply Forall_forall. intros e1 He1 L1 m1 e2 m2 w1 o1 H1 -> Hc1 Hh1 Ha1 Hg1 r2 Hr2. rewrite Forall_forall in IH.
          eapply (IH e1 He1); try eassumption.
          eapply fit_within; [|exact F]. econstructor; [exact He1|constructor].
        * intros e1 He1. apply uses_fv. eapply fit_within; [|exact F]. econstructor; [exact He1|constructor].
      - destruct es as [|e1 [|e2 es]]; [| |cbn in Hl; lia].
        + assert (E' : rc_backward (fun e mv => rc owned mv e) [] mv = Some (l, n)).
          { destruct (forward_operation op); exact E. }
          osome E'. destruct Hr1 as [<-|[]]. cbn. auto.
        + assert (E' : exists e1', rc owned mv e1 = Some (e1', n) /\ l = [e1']).
          { destruct (forward_operation op); cbn in E; destruct (rc owned mv e1) as [[e1' m1]|]; try discriminate;
              cbn in E; osome E; eauto. }
          destruct E' as (e1' & E' & ->). cbn [operand_paths] in Hr1.
          apply in_flat_map in Hr1 as (r2 & Hr2 & Hr1).
          assert (F2 : fine mv (map fst o) r2).
          { apply Forall_cons_iff in IH as [IH _].
            eapply IH; [|exact E'|exact Hc|exact (proj1 Hh)| |exact Hg|exact Hr2].
            - eapply fit_within; [|exact F]. econstructor; [left; reflexivity|constructor].
            - intros x Hx. left. auto. }
          apply in_after in Hr1 as [(o2 & h & -> & Hr1)|[-> Hne]]; [|exact F2].
          destruct Hr1 as [<-|[]]. exact F2. }
    apply in_after in Hr as [(o2 & h & -> & Hr)|[-> Hne]]; [|exact F1].
    destruct Hr as [<-|[]]. exact F1.
  - cbn [rc] in H. obind H. obind H. obind H. osome H.
    destruct Hh as (Hh1 & Hh2 & Hh3).
    assert (F1 : fit c) by (eapply fit_within; [|exact F]; apply within_if_1; constructor).
    assert (F2 : fit t) by (eapply fit_within; [|exact F]; apply within_if_2; constructor).
    assert (F3 : fit e) by (eapply fit_within; [|exact F]; apply within_if_3; constructor).
    pose proof (rc_moved _ _ _ _ _ E) as Mt. pose proof (rc_moved _ _ _ _ _ E0) as Me.
    assert (Ha1 : forall x, In x (n ++ n0) -> L x \/ free x t \/ free x e).
    { intros x Hx. apply in_app_iff in Hx as [Hx|Hx]; [apply Mt in Hx|apply Me in Hx]; destruct Hx as [Hx|Hx]; auto.
      - right. left. apply fv_free, uses_fv; assumption.
      - right. right. apply fv_free, uses_fv; assumption. }
    cbn [paths] in Hr. apply in_flat_map in Hr as (r1 & Hr1 & Hr).
    pose proof (IHc F1 _ _ _ _ _ _ E1 Hc Hh1 Ha1 Hg r1 Hr1) as Fr1.
    apply in_after in Hr as [(o1 & h & -> & Hr)|[-> Hne]].
    2: { destruct r1; [exfalso; eapply Hne; reflexivity|exact I|destruct Fr1]. }
    destruct Fr1 as [G1 S1]. rewrite <- S1. apply in_flat_map in Hr as (r2 & Hr2 & Hr).
    assert (Hc1 : covers owned o1) by (eapply covers_same; eassumption).
    assert (Fr2 : fine mv (map fst o1) r2).
    { apply in_app_iff in Hr2 as [Hr2|Hr2].
      - destruct (drop_paths [] e0 (minus (n ++ n0) n) owned _ _ G1 (proj1 Hc)) as (o2 & E2 & N2 & G2).
        { intros x Hx _ _. unfold minus in Hx. apply filter_In in Hx as [Hx _]. rewrite ind_true by assumption. lia. }
        rewrite E2 in Hr2. rewrite <- N2. eapply (IHt F2 L); [exact E| |exact Hh2|exact Ha| |exact Hr2].
        + eapply covers_same; eassumption.
        + eapply good_ext; [exact G2|]. intros x Hx. cbv beta.
          assert (Ho : mem x (map fst owned) = true).
          { apply mem_In. apply (proj2 Hc1). rewrite <- N2. assumption. }
          rewrite Ho, andb_true_r. destruct (mem x (minus (n ++ n0) n)) eqn:Em.
          * apply mem_In, filter_In in Em as [Em1 Em2]. apply negb_true_iff, mem_false in Em2.
            rewrite (ind_true (_ ++ _)), ind_false by assumption. reflexivity.
          * apply mem_false in Em. unfold minus in Em. rewrite filter_In, negb_true_iff, mem_false in Em.
            apply ind_iff. rewrite in_app_iff. rewrite in_app_iff in Em.
            destruct (in_dec string_dec x n); tauto.
      - destruct (drop_paths [] e1 (minus (n ++ n0) n0) owned _ _ G1 (proj1 Hc)) as (o2 & E2 & N2 & G2).
        { intros x Hx _ _. unfold minus in Hx. apply filter_In in Hx as [Hx _]. rewrite ind_true by assumption. lia. }
        rewrite E2 in Hr2. rewrite <- N2. eapply (IHe F3 L); [exact E0| |exact Hh3|exact Ha| |exact Hr2].
        + eapply covers_same; eassumption.
        + eapply good_ext; [exact G2|]. intros x Hx. cbv beta.
          assert (Ho : mem x (map fst owned) = true).
          { apply mem_In. apply (proj2 Hc1). rewrite <- N2. assumption. }
          rewrite Ho, andb_true_r. destruct (mem x (minus (n ++ n0) n0)) eqn:Em.
          * apply mem_In, filter_In in Em as [Em1 Em2]. apply negb_true_iff, mem_false in Em2.
            rewrite (ind_true (_ ++ _)), ind_false by assumption. reflexivity.
          * apply mem_false in Em. unfold minus in Em. rewrite filter_In, negb_true_iff, mem_false in Em.
            apply ind_iff. rewrite in_app_iff. rewrite in_app_iff in Em.
            destruct (in_dec string_dec x n0); tauto. }
    apply in_after in Hr as [(o2 & h2 & -> & Hr)|[-> Hne]]; [|exact Fr2].
    destruct Hr as [<-|[]]. exact Fr2.
  - cbn [rc] in H. obind H. destruct (rc_alternatives _ owned mv alts) as [tuples|] eqn:Et; [|discriminate H].
    cbn [opt_bind] in H. obind H.
    set (B := fun x => (exists al, In al alts /\ x <> a_name al /\ free x (a_body al)) \/
                       match de with Some (y, e) => x <> y /\ free x e | None => False end).
    assert (Hh1 : hides_none (fun x => L x \/ B x) a) by exact (proj1 Hh).
    assert (Hh2 : branches_hide_none hides_none L B alts) by exact (proj1 (proj2 Hh)).
    assert (Hh3 : match de with Some (y, e) => ~ L y /\ ~ B y /\ hides_none L e | None => True end)
      by exact (proj2 (proj2 Hh)).
    clear Hh.
    osome H. set (am := match o0 with Some (x, _) => except x n | None => n end ++
                        flat_map (fun '(al, mv) => except (a_name al) mv) tuples) in *.
    pose proof (rc_moved _ _ _ _ _ E0) as Ma.
    assert (Hmm : forall x, In x (mv ++ am) -> L x \/ B x).
    { intros x Hx. apply in_app_iff in Hx as [Hx|Hx]; [auto|]. unfold am in Hx. apply in_app_iff in Hx as [Hx|Hx].
      - destruct de as [[y e9]|].
        + obind E. osome E. apply in_except in Hx as [Hx Hne].
          match goal with Hr9 : rc _ _ e9 = Some _ |- _ => apply (rc_moved _ _ _ _ _ Hr9) in Hx end.
          destruct Hx as [Hx|Hx]; [apply in_except in Hx as [Hx _]; auto|]. right. right. split; [congruence|].
          apply fv_free, uses_fv; [|assumption]. eapply fit_within; [|exact F]. eapply within_case_default; constructor.
        + osome E. auto.
      - apply in_flat_map in Hx as ([al2 bm] & Hal & Hx). apply in_except in Hx as [Hx Hne].
        destruct (forall2_in_right _ _ _ _ (alternatives_forall2 _ _ _ _ _ Et) Hal) as (al & Hal1 & T1 & T2 & T3).
        cbn [fst snd] in *. apply (rc_moved _ _ _ _ _ T3) in Hx as [Hx|Hx]; [apply in_except in Hx as [Hx _]; auto|].
        right. left. exists al. split; [assumption|]. split; [congruence|].
        apply fv_free, uses_fv; [|assumption]. eapply fit_within; [|exact F]. eapply within_case_alternative; [exact Hal1|constructor]. }
    assert (Fa : fit a) by (eapply fit_within; [|exact F]; apply within_case_argument; constructor).
    cbn [paths] in Hr. apply in_flat_map in Hr as (r1 & Hr1 & Hr).
    assert (Fr1 : fine (mv ++ am) (map fst o) r1).
    { eapply (IHa Fa); [exact E0|exact Hc|exact Hh1|exact Hmm|exact Hg|exact Hr1]. }
    apply in_after in Hr as [(o1 & h & -> & Hr)|[-> Hne]].
    2: { destruct r1; [exfalso; eapply Hne; reflexivity|exact I|destruct Fr1]. }
    destruct Fr1 as [G1 S1]. rewrite <- S1. assert (Hc1 : covers owned o1) by (eapply covers_same; eassumption).
    rewrite map_app in Hr. apply in_app_iff in Hr as [Hr|Hr].
    + apply in_map_iff in Hr as (r2 & Hl & Hr). apply in_flat_map in Hr as (al' & Hal & Hr).
      apply in_map_iff in Hal as ([al2 bm] & <- & Hal). cbn [a_body a_name] in Hr.
      pose proof (alternatives_forall2 _ _ _ _ _ Et) as Ef.
      destruct (forall2_in_right _ _ _ _ Ef Hal) as (al & Hal1 & T1 & T2 & T3). cbn [fst snd] in *.
      rewrite T1, T2 in Hr. destruct (branches_hide _ _ _ _ _ Hh2 Hal1) as (K1 & K2 & K3).
      pose proof (rc_moved _ _ _ _ _ T3) as Mb.
      eapply (scope_paths owned (a_name al) (alt_type (a_types al)) mv (mv ++ am) (minus (am ++ [a_name al]) bm)
                (a_body al2) bm o1).
      * intros o2 r3 Hc2 Hg2 Hr3. rewrite Forall_forall in IHalts.
        eapply (IHalts al Hal1); [|exact T3|exact Hc2|exact K3| |exact Hg2|exact Hr3].
        -- eapply fit_within; [|exact F]. eapply within_case_alternative; [exact Hal1|constructor].
        -- intros x Hx. apply in_except in Hx as [Hx _]. exact (Ha x Hx).
      * exact Hc1.
      * intros Hx. exact (K1 (Ha _ Hx)).
      * exact G1.
      * intros Hx. destruct (Hmm _ Hx); contradiction.
      * intros y Hy. rewrite in_app_iff, in_minus, in_app_iff, (Mb y), in_except. cbn.
        assert (Hi : In y bm -> In y am).
        { intros Hyb. unfold am. apply in_app_iff. right. apply in_flat_map. exists (al2, bm).
          split; [assumption|]. apply in_except. rewrite T2. auto. }
        rewrite (Mb y), in_except in Hi. assert (Hn : a_name al <> y) by congruence.
        destruct (in_dec string_dec y mv); [tauto|].
        destruct (in_dec string_dec y (uses (a_body al))); tauto.
      * rewrite in_minus, in_app_iff. cbn. destruct (in_dec string_dec (a_name al) bm); tauto.
      * intros y Hy. apply in_minus in Hy. tauto.
      * apply in_map_iff. exists r2. split; [exact Hl|exact Hr].
    + destruct de as [[x e9]|].
      2: { osome E. destruct Hr. }
      obind E. osome E. destruct Hh3 as (K1 & K2 & K3).
      pose proof (rc_moved _ _ _ _ _ E1) as Mb. subst am.
      set (am := except x n1 ++ flat_map (fun '(al, mv) => except (a_name al) mv) tuples) in *.
      eapply (scope_paths owned x TVariant mv (mv ++ am) (minus (am ++ [x]) n1) _ n1 o1).
      * intros o2 r3 Hc2 Hg2 Hr3.
        eapply (IHde _ _ eq_refl); [|exact E1|exact Hc2|exact K3| |exact Hg2|exact Hr3].
        -- eapply fit_within; [|exact F]. eapply within_case_default; constructor.
        -- intros y Hy. apply in_except in Hy as [Hy _]. exact (Ha y Hy).
      * exact Hc1.
      * intros Hx. exact (K1 (Ha _ Hx)).
      * exact G1.
      * intros Hx. destruct (Hmm _ Hx); contradiction.
      * intros y Hy. rewrite in_app_iff, in_minus, in_app_iff, (Mb y), in_except. cbn.
        assert (Hi : In y n1 -> In y am).
        { intros Hyb. unfold am. apply in_app_iff. left. apply in_except. auto. }
        rewrite (Mb y), in_except in Hi. assert (Hn : x <> y) by congruence.
        destruct (in_dec string_dec y mv); [tauto|].
        destruct (in_dec string_dec y (uses e9)); tauto.
      * rewrite in_minus, in_app_iff. cbn. destruct (in_dec string_dec x n1); tauto.
      * intros y Hy. apply in_minus in Hy. tauto.
      * exact Hr.
  - cbn [rc] in H. obind H. obind H. osome H. destruct Hh as (Hh0 & Hh1 & Hh2).
    assert (F1 : fit b) by (eapply fit_within; [|exact F]; apply within_let_bound; constructor).
    assert (F2 : fit e) by (eapply fit_within; [|exact F]; apply within_let_body; constructor).
    pose proof (rc_moved _ _ _ _ _ E) as Me.
    rewrite drop_unless in Hr. cbn [paths] in Hr. apply in_flat_map in Hr as (r1 & Hr1 & Hr).
    assert (Hy0 : ~ In y mv).
    { intros Hx. exact (Hh0 (Ha y Hx)). }
    assert (Fr1 : fine (mv ++ except y n) (map fst o) r1).
    { eapply (IHb F1); [exact E0|exact Hc|exact Hh1| |exact Hg|exact Hr1].
      intros x Hx. cbv beta. apply in_app_iff in Hx as [Hx|Hx]; [auto|].
      apply in_except in Hx as [Hx Hne]. apply Me in Hx as [Hx|Hx].
      - apply in_except in Hx as [Hx _]. auto.
      - right. split; [congruence|]. apply fv_free, uses_fv; assumption. }
    apply in_after in Hr as [(o1 & h & -> & Hr)|[-> Hne]].
    2: { destruct r1; [exfalso; eapply Hne; reflexivity|exact I|destruct Fr1]. }
    destruct Fr1 as [G1 S1]. rewrite <- S1. assert (Hc1 : covers owned o1) by (eapply covers_same; eassumption).
    eapply (scope_paths owned y t mv (mv ++ except y n) (minus [y] n) e0 n o1); try eassumption.
    + intros o2 r3 Hc2 Hg2 Hr3. eapply (IHe F2 L); [exact E|exact Hc2|exact Hh2| |exact Hg2|exact Hr3].
      intros x Hx. apply in_except in Hx as [Hx _]. exact (Ha x Hx).
    + rewrite in_app_iff, in_except. tauto.
    + intros x Hx. rewrite in_app_iff, in_except, in_minus, (Me x), in_except. cbn. intuition congruence.
    + rewrite in_minus. cbn. destruct (in_dec string_dec y n); tauto.
    + intros x Hx. apply in_minus in Hx. tauto.
  - cbn [rc] in H. obind H. obind H. osome H.
    assert (F2 : fit e) by (eapply fit_within; [|exact F]; apply within_letrec_body; constructor).
    destruct Hh as (Hh0 & Hh2).
    destruct (fit_env _ F d e (within_here _)) as [Nd _].
    assert (Ne : NoDup (map fst (f_env d))).
    { change (f_name d :: map fst (f_args d) ++ map fst (f_env d))
        with ((f_name d :: map fst (f_args d)) ++ map fst (f_env d)) in Nd. apply nodup_app_iff in Nd. tauto. }
    pose proof (rc_moved _ _ _ _ _ E) as Me.
    set (mvv := mv ++ except (f_name d) n) in *.
    assert (Hy0 : ~ In (f_name d) mv).
    { intros Hx. exact (Hh0 (Ha _ Hx)). }
    match type of Hr with In _ (paths _ (clone_variables ?e1 _ _) _) =>
      destruct (clone_paths [] e1 (inter (map fst (f_env d)) mvv) owned _ _ Hg (proj1 Hc)) as (o1 & E1 & N1 & G1) end.
    { intros x Hx _ _. apply in_inter in Hx as [_ Hx]. left. rewrite ind_true; [lia|]. apply in_app_iff. auto. }
    rewrite E1 in Hr. cbn [paths f_env f_name] in Hr.
    destruct (good_take_all (map fst (f_env d)) _ o1 G1 Ne) as (o2 & E2 & G2 & N2).
    { intros x Hx _. cbv beta. destruct (_ && _); [lia|]. rewrite ind_true; [lia|]. apply in_app_iff. auto. }
    rewrite E2 in Hr. rewrite drop_unless in Hr. rewrite <- N1, <- N2.
    assert (Hc2 : covers owned o2) by (eapply covers_same; [|exact Hc]; congruence).
    eapply (scope_paths owned (f_name d) (f_type d) mv mvv (minus [f_name d] n) e0 n o2); try eassumption.
    + intros o3 r3 Hc3 Hg3 Hr3. eapply (IHe F2 L); [exact E|exact Hc3|exact Hh2| |exact Hg3|exact Hr3].
      intros x Hx. apply in_except in Hx as [Hx _]. exact (Ha x Hx).
    + eapply good_ext; [exact G2|]. intros x Hx. unfold less. cbv beta.
      assert (Ho : mem x (map fst owned) = true). { apply mem_In. apply (proj2 Hc2). assumption. }
      rewrite Ho, andb_true_r. destruct (mem x (map fst (f_env d))) eqn:Ee.
      * apply mem_In in Ee. destruct (mem x (inter (map fst (f_env d)) mvv)) eqn:Ei.
        -- apply mem_In, in_inter in Ei as [_ Ei]. rewrite !ind_true; [lia|apply in_app_iff; auto|assumption].
        -- apply mem_false in Ei. rewrite in_inter in Ei. rewrite (ind_true (_ ++ _)) by (apply in_app_iff; auto).
           rewrite ind_false by tauto. reflexivity.
      * apply mem_false in Ee. assert (Ei : mem x (inter (map fst (f_env d)) mvv) = false).
        { apply mem_false. rewrite in_inter. tauto. }
        rewrite Ei. apply ind_iff. rewrite in_app_iff. tauto.
    + unfold mvv. rewrite in_app_iff, in_except. tauto.
    + intros x Hx. unfold mvv. rewrite in_app_iff, in_except, in_minus, (Me x), in_except. cbn. intuition congruence.
    + rewrite in_minus. cbn. destruct (in_dec string_dec (f_name d) n); tauto.
    + intros x Hx. apply in_minus in Hx. tauto.
  - destruct (fit_tries _ F _ _ _ _ (within_here _)) as (t' & ->).
    assert (F1 : fit a) by (eapply fit_within; [|exact F]; apply within_try_operand; constructor).
    destruct Hh as (Hh0 & Hh1).
    cbn [rc forward_operation rc_backward opt_bind] in H.
    assert (Es : should_clone y owned [] = false) by (unfold should_clone; cbn [mem]; apply andb_false_r).
    rewrite Es in H. cbn [opt_bind app] in H.
    assert (Ey : except y [y] = []) by (cbn; rewrite String.eqb_refl; reflexivity).
    rewrite Ey in H. cbn [app] in H. obind H. osome H.
    assert (Em : forall l, minus l l = []).
    { intros l0. unfold minus. apply filter_none. intros x Hx. apply mem_In in Hx. rewrite Hx. reflexivity. }
    rewrite Em in Hr. cbn [drop_variables paths] in Hr.
    assert (Hy0 : ~ In y mv).
    { intros Hx. exact (Hh0 (Ha y Hx)). }
    apply in_flat_map in Hr as (r1 & Hr1 & Hr).
    assert (Fr1 : fine mv (map fst o) r1).
    { eapply (IHo F1 L); [exact E|exact Hc|exact Hh1|exact Ha|exact Hg|exact Hr1]. }
    apply in_after in Hr as [(o1 & h & -> & Hr)|[-> Hne]].
    2: { destruct r1; [exfalso; eapply Hne; reflexivity|exact I|destruct Fr1]. }
    destruct Hr as [<-|Hr]; [exact Fr1|]. destruct Fr1 as [G1 S1].
    assert (Hc1 : covers owned o1) by (eapply covers_same; eassumption).
    apply in_map_iff in Hr as (r2 & <- & Hr).
    assert (G2 : good (upd (ind mv) y 1) ((y, 1) :: o1)).
    { apply good_push; [exact G1|]. intros _. apply ind_false. assumption. }
    destruct (drop_paths [] (Op (OVariant t') [Var y]) (minus mv []) owned _ _ G2 (proj1 Hc)) as (o2 & E2 & N2 & G3).
    { intros x Hx _ _. apply in_minus in Hx as [Hx _]. rewrite upd_other by congruence. rewrite ind_true by assumption. lia. }
    rewrite E2 in Hr. cbn [paths operand_paths counted] in Hr.
    destruct (good_take _ y o2 G3) as (o3 & E3 & G4 & N3).
    { intros _. cbv beta. replace (mem y (minus mv [])) with false.
      - cbn. rewrite upd_same. lia.
      - symmetry. apply mem_false. rewrite in_minus. tauto. }
    rewrite E3 in Hr. cbn [flat_map after app] in Hr. destruct Hr as [<-|[]].
    cbn [return_early]. rewrite (good_nothing _ _ G4); [exact I|].
    intros x Hx. unfold upd at 1. cbv beta. destruct (String.eqb_spec x y) as [->|Hne].
    + replace (mem y (minus mv [])) with false.
      * cbn. rewrite upd_same. reflexivity.
      * symmetry. apply mem_false. rewrite in_minus. tauto.
    + rewrite N3, N2 in Hx. destruct Hx as [Hx|Hx]; [cbn in Hx; congruence|].
      assert (Ho : mem x (map fst owned) = true). { apply mem_In. apply (proj2 Hc1). assumption. }
      rewrite Ho, andb_true_r, upd_other by assumption. destruct (mem x (minus mv [])) eqn:Ex.
      * unfold ind. destruct (mem x mv); reflexivity.
      * apply ind_false. apply mem_false in Ex. rewrite in_minus in Ex. cbn in Ex. tauto.
  - discriminate.
  - discriminate.
Qed.
