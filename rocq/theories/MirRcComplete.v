(** The validator of reference counts accepts balanced code. *)
From Coq Require Import String List ZArith Bool Lia.
From Verif Require Import Base Mir MirSim MirScopeSpec MirNormSpec MirUniq MirRc MirRcSpec MirRcValidSpec
  MirRcProofs MirRcSound.
Import ListNotations.
Local Open Scope Z_scope.

(** ** Balances changed by a function of names *)
Definition zs (o : ownership) : balance := map (fun p => (fst p, Z.of_nat (snd p))) o.

Definition zupd (f : string -> Z) (x : string) (n : Z) : string -> Z := fun y => if String.eqb y x then n else f y.

Fixpoint bump (f : string -> Z) (o : balance) : balance :=
  match o with
  | [] => []
  | (x, n) :: o' => (x, n + f x) :: bump (zupd f x 0) o'
  end.

Lemma zs_names o : map fst (zs o) = map fst o.
Proof. unfold zs. rewrite map_map. reflexivity. Qed.

Lemma zs_inj o : forall o', zs o = zs o' -> o = o'.
Proof.
  induction o as [|[x n] o IH]; intros [|[y k] o'] H; cbn in H; try discriminate; [reflexivity|].
  injection H as -> H1 H2. apply Nat2Z.inj in H1. rewrite (IH _ H2), H1. reflexivity.
Qed.

Lemma bump_ext o : forall f g, (forall x, f x = g x) -> bump f o = bump g o.
Proof.
  induction o as [|[x n] o IH]; intros f g E; cbn [bump]; [reflexivity|]. rewrite E. f_equal. apply IH.
  intros y. unfold zupd. rewrite E. reflexivity.
Qed.

Lemma bump_zero o : bump (fun _ => 0) o = o.
Proof.
  induction o as [|[x n] o IH]; cbn [bump]; [reflexivity|]. rewrite Z.add_0_r. f_equal.
  rewrite <- IH at 2. apply bump_ext. intros y. unfold zupd. destruct (String.eqb y x); reflexivity.
Qed.

Lemma bump_bump o : forall f g, bump g (bump f o) = bump (fun x => f x + g x) o.
Proof.
  induction o as [|[x n] o IH]; intros f g; cbn [bump]; [reflexivity|]. rewrite Z.add_assoc. f_equal. rewrite IH.
  apply bump_ext. intros y. unfold zupd. destruct (String.eqb y x); reflexivity.
Qed.

Lemma bump_inj o : forall f o', bump f o = bump f o' -> o = o'.
Proof.
  induction o as [|[x n] o IH]; intros f [|[y k] o'] H; cbn in H; try discriminate; [reflexivity|].
  injection H as -> H1 H2. rewrite (IH _ _ H2). f_equal. f_equal. lia.
Qed.

Lemma bump_names o : forall f, map fst (bump f o) = map fst o.
Proof. induction o as [|[x n] o IH]; intros f; cbn; [reflexivity|]. rewrite IH. reflexivity. Qed.

Lemma bump_lookup o : forall f x, lookup (bump f o) x = option_map (fun n => n + f x) (lookup o x).
Proof.
  induction o as [|[y n] o IH]; intros f x; cbn [bump lookup]; [reflexivity|].
  destruct (String.eqb x y) eqn:E; [apply String.eqb_eq in E; subst; reflexivity|]. rewrite IH. unfold zupd. rewrite E. reflexivity.
Qed.

Definition one (x : string) (k : Z) : string -> Z := fun y => if String.eqb y x then k else 0.

Lemma bump_set o : forall x n k, lookup o x = Some n -> zs (own_set x k o) = bump (one x (Z.of_nat k - Z.of_nat n)) (zs o).
Proof.
  induction o as [|[y j] o IH]; intros x n k H; cbn [lookup] in H; [discriminate|]. cbn [own_set].
  destruct (String.eqb x y) eqn:E.
  - injection H as ->. apply String.eqb_eq in E. subst. cbn. unfold one at 1. rewrite String.eqb_refl. f_equal.
    + f_equal. lia.
    + fold (zs o). rewrite <- (bump_zero (zs o)) at 1. apply bump_ext. intros z. unfold zupd, one.
      destruct (String.eqb z y); reflexivity.
  - cbn. fold (zs (own_set x k o)). fold (zs o). rewrite (IH _ _ _ H). unfold one at 2.
    rewrite String.eqb_sym, E, Z.add_0_r. f_equal. apply bump_ext. intros z. unfold zupd, one.
    destruct (String.eqb_spec z y) as [->|]; [rewrite String.eqb_sym, E|]; reflexivity.
Qed.

Lemma bump_ext_in o : forall f g, (forall y, In y (map fst o) -> f y = g y) -> bump f o = bump g o.
Proof.
  induction o as [|[x n] o IH]; intros f g E; cbn [bump]; [reflexivity|]. cbn in E. rewrite E by auto. f_equal.
  apply IH. intros y Hy. unfold zupd. rewrite E by auto. reflexivity.
Qed.

Lemma bump_out x k o : ~ In x (map fst o) -> bump (one x k) o = o.
Proof.
  intros H. rewrite <- (bump_zero o) at 2. apply bump_ext_in. intros y Hy. unfold one.
  destruct (String.eqb_spec y x) as [->|]; [contradiction|reflexivity].
Qed.

Lemma take_bump x o o' : take x o = Some o' -> zs o' = bump (one x (-1)) (zs o).
Proof.
  unfold take. destruct (lookup o x) as [[|n]|] eqn:E; intros H; try discriminate; injection H as <-.
  - rewrite (bump_set _ _ _ _ E). apply bump_ext. intros y. unfold one. destruct (String.eqb y x); [lia|reflexivity].
  - symmetry. apply bump_out. rewrite zs_names. intros Hx. apply lookup_in in Hx as [n Hx]. congruence.
Qed.

Lemma duplicate_bump w x o o' : duplicate w x o = Some o' -> zs o' = bump (one x 1) (zs o).
Proof.
  unfold duplicate. destruct (lookup o x) as [[|n]|] eqn:E; intros H.
  - destruct (existsb _ w); [|discriminate]. injection H as <-. rewrite (bump_set _ _ _ _ E). reflexivity.
  - injection H as <-. rewrite (bump_set _ _ _ _ E). apply bump_ext. intros y. unfold one. destruct (String.eqb y x); [lia|reflexivity].
  - injection H as <-. symmetry. apply bump_out. rewrite zs_names. intros Hx. apply lookup_in in Hx as [n Hx]. congruence.
Qed.

Definition many (xs : list string) (k : Z) : string -> Z := fun y => fold_right (fun x s => one x k y + s) 0 xs.

Lemma take_all_bump xs : forall o o', take_all xs o = Some o' -> zs o' = bump (many xs (-1)) (zs o).
Proof.
  induction xs as [|x xs IH]; intros o o' H; cbn [take_all] in H.
  - injection H as <-. symmetry. apply bump_zero.
  - destruct (take x o) as [o1|] eqn:E; [|discriminate]. rewrite (IH _ _ H), (take_bump _ _ _ E), bump_bump.
    apply bump_ext. reflexivity.
Qed.

Lemma duplicate_all_bump w xs : forall o o', duplicate_all w xs o = Some o' -> zs o' = bump (many xs 1) (zs o).
Proof.
  induction xs as [|x xs IH]; intros o o' H; cbn [duplicate_all] in H.
  - injection H as <-. symmetry. apply bump_zero.
  - destruct (duplicate w x o) as [o1|] eqn:E; [|discriminate]. rewrite (IH _ _ H), (duplicate_bump _ _ _ _ E), bump_bump.
    apply bump_ext. reflexivity.
Qed.

(** ** One path *)
Definition under (x : string) (f : string -> Z) : string -> Z := zupd f x 0.
Definition plus (f g : string -> Z) : string -> Z := fun x => f x + g x.

(** The change of the balances on the path through all first branches. *)
Fixpoint canon (e : expr) : string -> Z :=
  match e with
  | Lit _ => fun _ => 0
  | Var x => one x (-1)
  | Op _ es => fold_right (fun e f => plus (canon e) f) (fun _ => 0) es
  | If c t _ => plus (canon c) (canon t)
  | Case a alts de =>
      plus (canon a)
        match alts, de with
        | al :: _, _ => under (a_name al) (canon (a_body al))
        | [], Some (x, e) => under x (canon e)
        | [], None => fun _ => 0
        end
  | Let x _ b e => plus (canon b) (under x (canon e))
  | LetRec d e => plus (many (map fst (f_env d)) (-1)) (under (f_name d) (canon e))
  | Try a _ _ _ => canon a
  | CloneVars xs e => plus (many (map fst xs) 1) (canon e)
  | DropVars xs e => plus (many (map fst xs) (-1)) (canon e)
  end.

Definition no_empty (e : expr) : Prop := forall a, ~ within (Case a [] None) e.

Lemma no_empty_within e' e : within e' e -> no_empty e -> no_empty e'.
Proof. intros H N a Hw. apply (N a). eapply within_trans; eassumption. Qed.

(** A list of path ends has a fault or the balance changed by [f]. *)
Definition leads (rs : list ending) (f : string -> Z) (o : ownership) : Prop :=
  In Fault rs \/ exists o' h, In (Value o' h) rs /\ zs o' = bump f (zs o).

Lemma leads_after rs k f g o :
  leads rs f o -> (forall o1 h, In (Value o1 h) rs -> leads (k o1 h) g o1) ->
  leads (flat_map (fun r => after r k) rs) (plus f g) o.
Proof.
  intros [H|(o1 & h & H & E)] Hk.
  - left. apply in_flat_map. exists Fault. split; [assumption|left; reflexivity].
  - destruct (Hk o1 h H) as [H1|(o2 & h2 & H1 & E2)].
    + left. apply in_flat_map. exists (Value o1 h). split; assumption.
    + right. exists o2, h2. split; [apply in_flat_map; exists (Value o1 h); split; assumption|].
      rewrite E2, E, bump_bump. apply bump_ext. reflexivity.
Qed.

Lemma leads_incl rs rs' f o : incl rs rs' -> leads rs f o -> leads rs' f o.
Proof.
  intros I [H|(o' & h & H & E)]; [left; auto|]. right. exists o', h. auto.
Qed.

Lemma leads_ext rs f g o : (forall x, f x = g x) -> leads rs f o -> leads rs g o.
Proof.
  intros Ef [H|(o' & h & H & E)]; [left; auto|]. right. exists o', h. split; [assumption|]. rewrite E.
  apply bump_ext, Ef.
Qed.

Lemma leads_leave rs x f o : leads rs f ((x, 1%nat) :: o) -> leads (map leave_scope rs) (under x f) o.
Proof.
  intros [H|(o' & h & H & E)].
  - left. apply (in_map leave_scope) in H. exact H.
  - apply (in_map leave_scope) in H. destruct o' as [|[y n] o']; [discriminate E|].
    cbn in E. injection E as -> E1 E2. cbn in H. destruct n as [|n].
    + right. exists o', [None]. split; [assumption|exact E2].
    + left. exact H.
Qed.

Lemma value_after o f : leads [Value o f] (fun _ => 0) o.
Proof. right. exists o, f. split; [left; reflexivity|]. symmetry. apply bump_zero. Qed.

Lemma operands_lead keep es : Forall (fun e => forall w o, leads (paths w e o) (canon e) o) es ->
  forall w o, leads (operand_paths paths keep w es o) (fold_right (fun e f => plus (canon e) f) (fun _ => 0) es) o.
Proof.
  induction 1 as [|e es He _ IH]; intros w o; cbn [operand_paths fold_right].
  - apply value_after.
  - apply leads_after; [apply He|]. intros o1 h _. apply IH.
Qed.

Lemma plus_zero f x : plus f (fun _ => 0) x = f x.
Proof. unfold plus. lia. Qed.

Lemma paths_lead e : no_empty e -> forall w o, leads (paths w e o) (canon e) o.
Proof.
  induction e as [l|x|o es IH|c t e IHc IHt IHe|a alts de IHa IHalts IHde|x t b e IHb IHe
                  |d e IHd IHe|a x t e IHo IHe|xs e IHe|xs e IHe] using expr_ind'; intros N w o1; cbn [paths canon].
  - apply value_after.
  - destruct (take x o1) as [o2|] eqn:E; [|left; left; reflexivity].
    right. eexists _, _. split; [left; reflexivity|]. apply take_bump. assumption.
  - eapply leads_ext; [apply plus_zero|]. apply leads_after.
    + apply operands_lead. rewrite Forall_forall in *. intros e He. apply IH; [assumption|].
      eapply no_empty_within; [|exact N]. econstructor; [exact He|constructor].
    + intros o2 h _. apply value_after.
  - assert (N1 : no_empty c) by (eapply no_empty_within; [|exact N]; apply within_if_1; constructor).
    assert (N2 : no_empty t) by (eapply no_empty_within; [|exact N]; apply within_if_2; constructor).
    apply leads_after; [auto|]. intros o2 h _. eapply leads_ext; [apply plus_zero|]. apply leads_after.
    + eapply leads_incl; [|apply (IHt N2 w)]. intros r Hr. apply in_app_iff. auto.
    + intros o3 h3 _. apply value_after.
  - assert (N1 : no_empty a) by (eapply no_empty_within; [|exact N]; apply within_case_argument; constructor).
    apply leads_after; [auto|]. intros o2 h _. destruct alts as [|al alts].
    + destruct de as [[x e]|]; [|exfalso; apply (N a); constructor]. cbn [flat_map app]. apply leads_leave.
      eapply IHde; [reflexivity|]. eapply no_empty_within; [|exact N]. apply within_case_default. constructor.
    + apply leads_leave. apply Forall_cons_iff in IHalts as [IH1 _].
      assert (N2 : no_empty (a_body al)).
      { eapply no_empty_within; [|exact N]. eapply within_case_alternative; [left; reflexivity|constructor]. }
      eapply leads_incl; [|apply (IH1 N2 w)].
      intros r Hr. apply in_app_iff. left. cbn [flat_map]. apply in_app_iff. left. exact Hr.
  - assert (N1 : no_empty b) by (eapply no_empty_within; [|exact N]; apply within_let_bound; constructor).
    assert (N2 : no_empty e) by (eapply no_empty_within; [|exact N]; apply within_let_body; constructor).
    apply leads_after; [auto|]. intros o2 h _. apply leads_leave. auto.
  - assert (N2 : no_empty e) by (eapply no_empty_within; [|exact N]; apply within_letrec_body; constructor).
    destruct (take_all (map fst (f_env d)) o1) as [o2|] eqn:E; [|left; left; reflexivity].
    destruct (leads_leave _ _ _ _ (IHe N2 w ((f_name d, 1%nat) :: o2))) as [H|(o3 & h & H & Eb)]; [left; exact H|].
    right. exists o3, h. split; [exact H|]. rewrite Eb, (take_all_bump _ _ _ E), bump_bump. apply bump_ext. reflexivity.
  - assert (N1 : no_empty a) by (eapply no_empty_within; [|exact N]; apply within_try_operand; constructor).
    eapply leads_ext; [apply plus_zero|]. apply leads_after; [auto|]. intros o2 h _.
    eapply leads_incl; [|apply (value_after o2 [None])]. intros r [<-|[]]. left. reflexivity.
  - assert (N1 : no_empty e) by (eapply no_empty_within; [|exact N]; apply within_clone; constructor).
    destruct (duplicate_all w (map fst xs) o1) as [o2|] eqn:E; [|left; left; reflexivity].
    destruct (IHe N1 w o2) as [H|(o3 & h & H & Eb)]; [left; exact H|].
    right. exists o3, h. split; [exact H|]. rewrite Eb, (duplicate_all_bump _ _ _ _ E), bump_bump. apply bump_ext. reflexivity.
  - assert (N1 : no_empty e) by (eapply no_empty_within; [|exact N]; apply within_drop; constructor).
    destruct (take_all (map fst xs) o1) as [o2|] eqn:E; [|left; left; reflexivity].
    destruct (IHe N1 w o2) as [H|(o3 & h & H & Eb)]; [left; exact H|].
    right. exists o3, h. split; [exact H|]. rewrite Eb, (take_all_bump _ _ _ E), bump_bump. apply bump_ext. reflexivity.
Qed.

(** ** Scopes *)
Definition keeps (scope : list string) (r : ending) : Prop :=
  match r with
  | Value o _ => map fst o = scope
  | _ => True
  end.

Lemma keeps_after rs k scope : (forall r, In r rs -> keeps scope r) ->
  (forall o h, In (Value o h) rs -> map fst o = scope -> forall r, In r (k o h) -> keeps scope r) ->
  forall r, In r (flat_map (fun r => after r k) rs) -> keeps scope r.
Proof.
  intros H Hk r Hr. apply in_flat_map in Hr as (r1 & Hr1 & Hr).
  apply in_after in Hr as [(o & h & -> & Hr)|[-> Hne]]; [|auto]. eapply Hk; eauto. apply (H _ Hr1).
Qed.

Lemma keeps_leave rs x scope : (forall r, In r rs -> keeps (x :: scope) r) ->
  forall r, In r (map leave_scope rs) -> keeps scope r.
Proof.
  intros H r Hr. apply in_map_iff in Hr as (r1 & <- & Hr). specialize (H _ Hr).
  destruct r1 as [[|[y [|n]] o] h| |]; cbn in *; auto. injection H as _ H. exact H.
Qed.

Lemma bump_scope f o o' : zs o' = bump f (zs o) -> map fst o' = map fst o.
Proof. intros H. apply (f_equal (map fst)) in H. rewrite bump_names, !zs_names in H. exact H. Qed.

Lemma paths_keep e : forall w o r, In r (paths w e o) -> keeps (map fst o) r.
Proof.
  induction e as [l|x|op es IH|c t e IHc IHt IHe|a alts de IHa IHalts IHde|x t b e IHb IHe
                  |d e IHd IHe|a x t e IHo IHe|xs e IHe|xs e IHe] using expr_ind'; intros w o r Hr; cbn [paths] in Hr.
  - destruct Hr as [<-|[]]. reflexivity.
  - destruct (take x o) as [o2|] eqn:E; destruct Hr as [<-|[]]; cbn; [|exact I]. eapply bump_scope, take_bump; eassumption.
  - revert r Hr. apply keeps_after.
    + revert w o. generalize (counted op) as kp. intros kp. induction IH as [|e es He _ IHes]; intros w o r Hr; cbn [operand_paths] in Hr.
      * destruct Hr as [<-|[]]. reflexivity.
      * revert r Hr. apply keeps_after; [apply He|]. intros o1 h _ Eo r Hr. rewrite <- Eo. eapply IHes; eassumption.
    + intros o1 h _ Eo r [<-|[]]. exact Eo.
  - revert r Hr. apply keeps_after; [apply IHc|]. intros o1 h _ <- r Hr. revert r Hr. apply keeps_after.
    + intros r Hr. apply in_app_iff in Hr as [Hr|Hr]; [eapply IHt|eapply IHe]; eassumption.
    + intros o2 h2 _ Eo r [<-|[]]. exact Eo.
  - revert r Hr. apply keeps_after; [apply IHa|]. intros o1 h _ <- r Hr. rewrite map_app in Hr.
    apply in_app_iff in Hr as [Hr|Hr].
    + apply in_map_iff in Hr as (r1 & <- & Hr). apply in_flat_map in Hr as (al & Hal & Hr).
      eapply (keeps_leave (paths w (a_body al) ((a_name al, 1%nat) :: o1))); [|apply in_map; exact Hr].
      intros r2 Hr2. rewrite Forall_forall in IHalts. apply (IHalts al Hal) in Hr2. exact Hr2.
    + destruct de as [[x e]|]; [|destruct Hr]. eapply keeps_leave; [|exact Hr]. intros r1 Hr1.
      apply (IHde _ _ eq_refl) in Hr1. exact Hr1.
  - revert r Hr. apply keeps_after; [apply IHb|]. intros o1 h _ <- r Hr. eapply keeps_leave; [|exact Hr].
    intros r1 Hr1. apply IHe in Hr1. exact Hr1.
  - destruct (take_all (map fst (f_env d)) o) as [o2|] eqn:E; [|destruct Hr as [<-|[]]; exact I].
    rewrite <- (bump_scope _ _ _ (take_all_bump _ _ _ E)). eapply keeps_leave; [|exact Hr].
    intros r1 Hr1. apply IHe in Hr1. exact Hr1.
  - revert r Hr. apply keeps_after; [apply IHo|]. intros o1 h _ Eo r [<-|Hr]; [exact Eo|].
    apply in_map_iff in Hr as (r1 & <- & Hr). destruct r1; destruct w; cbn; auto. destruct (nothing_owned o0); exact I.
  - destruct (duplicate_all w (map fst xs) o) as [o2|] eqn:E; [|destruct Hr as [<-|[]]; exact I].
    rewrite <- (bump_scope _ _ _ (duplicate_all_bump _ _ _ _ E)). eapply IHe; eassumption.
  - destruct (take_all (map fst xs) o) as [o2|] eqn:E; [|destruct Hr as [<-|[]]; exact I].
    rewrite <- (bump_scope _ _ _ (take_all_bump _ _ _ E)). eapply IHe; eassumption.
Qed.

(** ** Counts of the validator *)
(** The counts are those of the variables in scope; names of variables that
    went out of scope may remain with the count zero, all among [B]. *)
Record inv (B : list string) (o : ownership) (c : counts) : Prop := {
  inv_nodup : NoDup (map fst c);
  inv_scope : forall x, In x (map fst o) -> lookup c x = option_map Z.of_nat (lookup o x);
  inv_rest : forall x, ~ In x (map fst o) -> lk c x = 0;
  inv_keys : forall x, In x (map fst c) -> In x (map fst o) \/ In x B
}.

Lemma inv_lk B o c x : inv B o c -> lk c x = match lookup o x with Some n => Z.of_nat n | None => 0 end.
Proof.
  intros H. destruct (in_dec string_dec x (map fst o)) as [Hx|Hx].
  - unfold lk. rewrite (inv_scope _ _ _ H x Hx). destruct (lookup o x); reflexivity.
  - rewrite (inv_rest _ _ _ H x Hx), (lookup_out _ _ Hx). reflexivity.
Qed.

Lemma inv_eqb B o c c' : inv B o c -> inv B o c' -> counts_eqb (nonzero c) (nonzero c') = true.
Proof.
  intros H H'. apply counts_eqb_spec; [apply H|apply H'|]. intros x.
  rewrite (inv_lk _ _ _ _ H), (inv_lk _ _ _ _ H'). reflexivity.
Qed.

Lemma inv_add B o o' c x k : inv B o c -> (In x B -> In x (map fst o)) -> zs o' = bump (one x k) (zs o) ->
  inv B o' (add_count k c x).
Proof.
  intros [N S R K] Hx E. pose proof (bump_scope _ _ _ E) as Ed. constructor.
  - apply add_nodup, N.
  - intros y Hy. rewrite Ed in Hy.
    rewrite <- lookup_of_nat. change (map _ o') with (zs o'). rewrite E, bump_lookup.
    change (zs o) with (map (fun p => (fst p, Z.of_nat (snd p))) o). rewrite lookup_of_nat, lookup_add. unfold one.
    destruct (String.eqb_spec y x) as [->|Hne].
    + rewrite S by assumption. reflexivity.
    + rewrite S by assumption. destruct (lookup o y); cbn; [rewrite Z.add_0_r|]; reflexivity.
  - intros y Hy. rewrite Ed in Hy. unfold lk. rewrite lookup_add. destruct (String.eqb_spec y x) as [->|Hne]; [|apply R, Hy].
    destruct (lookup c x) as [n|] eqn:El; [|reflexivity]. exfalso.
    assert (Hk : In x (map fst c)) by (apply lookup_in; eauto). destruct (K x Hk) as [|Hb]; [contradiction|]. auto.
  - intros y Hy. rewrite Ed. apply K. apply add_keys in Hy. exact Hy.
Qed.

Lemma inv_take_all B xs : forall o o' c, inv B o c -> (forall x, In x xs -> In x B -> In x (map fst o)) ->
  take_all xs o = Some o' -> inv B o' (fold_left (add_count (-1)) xs c).
Proof.
  induction xs as [|x xs IH]; intros o o' c H Hx E; cbn [take_all fold_left] in *.
  - injection E as <-. exact H.
  - destruct (take x o) as [o1|] eqn:E1; [|discriminate]. pose proof (take_bump _ _ _ E1) as Eb. eapply IH; [| |exact E].
    + eapply inv_add; [exact H| |exact Eb]. apply Hx. left. reflexivity.
    + intros y Hy Hb. rewrite (bump_scope _ _ _ Eb). apply Hx; [right|]; assumption.
Qed.

Lemma inv_duplicate_all B w xs : forall o o' c, inv B o c -> (forall x, In x xs -> In x B -> In x (map fst o)) ->
  duplicate_all w xs o = Some o' -> inv B o' (fold_left (add_count 1) xs c).
Proof.
  induction xs as [|x xs IH]; intros o o' c H Hx E; cbn [duplicate_all fold_left] in *.
  - injection E as <-. exact H.
  - destruct (duplicate w x o) as [o1|] eqn:E1; [|discriminate]. pose proof (duplicate_bump _ _ _ _ E1) as Eb. eapply IH; [| |exact E].
    + eapply inv_add; [exact H| |exact Eb]. apply Hx. left. reflexivity.
    + intros y Hy Hb. rewrite (bump_scope _ _ _ Eb). apply Hx; [right|]; assumption.
Qed.

(** All paths end without a fault and with the same ownership. *)
Definition settles (rs : list ending) (o' : ownership) : Prop :=
  ~ In Fault rs /\ forall o1 h, In (Value o1 h) rs -> o1 = o'.

Lemma settles_first rs k f g o o' : leads rs f o -> settles (flat_map (fun r => after r k) rs) o' ->
  (forall o1 h, In (Value o1 h) rs -> leads (k o1 h) g o1) ->
  exists o1, settles rs o1 /\ zs o1 = bump f (zs o) /\ exists h, In (Value o1 h) rs.
Proof.
  intros L [NF S] Hk. assert (NF1 : ~ In Fault rs).
  { intros H. apply NF. apply in_flat_map. exists Fault. split; [assumption|left; reflexivity]. }
  destruct L as [H|(o1 & h & H & E)]; [contradiction|]. exists o1. split; [|eauto]. split; [assumption|].
  assert (G : forall o2 h2, In (Value o2 h2) rs -> bump g (zs o2) = zs o').
  { intros o2 h2 H2. destruct (Hk o2 h2 H2) as [Hf|(o3 & h3 & H3 & E3)].
    - exfalso. apply NF. apply in_flat_map. exists (Value o2 h2). split; assumption.
    - rewrite <- E3. f_equal. eapply S. apply in_flat_map. exists (Value o2 h2). split; eassumption. }
  intros o2 h2 H2. apply zs_inj. apply (bump_inj _ g). rewrite (G _ _ H2), (G _ _ H). reflexivity.
Qed.

Lemma settles_rest rs k o1 h o' : In (Value o1 h) rs -> settles (flat_map (fun r => after r k) rs) o' -> settles (k o1 h) o'.
Proof.
  intros H [NF S]. split.
  - intros Hf. apply NF. apply in_flat_map. exists (Value o1 h). split; assumption.
  - intros o2 h2 H2. eapply S. apply in_flat_map. exists (Value o1 h). split; eassumption.
Qed.

Lemma settles_incl rs rs' o' : incl rs rs' -> settles rs' o' -> settles rs o'.
Proof. intros I [NF S]. split; [auto|]. intros o1 h H. eauto. Qed.

(** Local functions have been checked. *)
Definition locals_fine (e : expr) : Prop := forall d b, within (LetRec d b) e ->
  balanced true d /\ forall x, mentioned (f_body d) x -> In x (own_binders (f_body d)) -> In x (parameters true d).

Definition complete (e : expr) : Prop := forall B w o o' c,
  no_empty e -> locals_fine e -> settles (paths w e o) o' -> inv B o c -> incl (own_binders e) B ->
  (forall x, mentioned e x -> In x B -> In x (map fst o)) ->
  exists c', move e c = Some c' /\ inv B o' c'.

Lemma let_like_complete x e B w o o' c : complete e ->
  no_empty e -> locals_fine e -> settles (map leave_scope (paths w e ((x, 1%nat) :: o))) o' -> inv B o c ->
  In x B -> incl (own_binders e) B ->
  (forall y, mentioned e y -> y <> x -> In y B -> In y (map fst o)) ->
  exists c', validate_let_like move x e c = Some c' /\ inv B o' c'.
Proof.
  intros IH Ne Lf [NF S] [N Sc R K] Hx Ib M.
  assert (NF1 : ~ In Fault (paths w e ((x, 1%nat) :: o))).
  { intros H. apply NF. apply (in_map leave_scope) in H. exact H. }
  assert (S1 : forall o1 h, In (Value o1 h) (paths w e ((x, 1%nat) :: o)) -> o1 = (x, 0%nat) :: o').
  { intros o1 h H. pose proof (paths_keep _ _ _ _ H) as Hk. apply (in_map leave_scope) in H.
    destruct o1 as [|[y n] o1]; [discriminate|]. cbn in Hk. injection Hk as -> _.
    destruct n as [|n]; [|exfalso; apply NF; exact H]. cbn in H. rewrite (S _ _ H). reflexivity. }
  assert (Ho' : exists f, zs o' = bump (under x f) (zs o)).
  { destruct (paths_lead e Ne w ((x, 1%nat) :: o)) as [H|(o1 & h & H & E)]; [contradiction|].
    rewrite (S1 _ _ H) in E. cbn in E. injection E as _ E. exists (canon e). exact E. }
  destruct Ho' as (f & Ho'). pose proof (bump_scope _ _ _ Ho') as Hd.
  destruct (IH B w ((x, 1%nat) :: o) ((x, 0%nat) :: o') (counts_set x 1 c)) as (c2 & E2 & [N2 Sc2 R2 K2]); try assumption.
  - split; assumption.
  - constructor.
    + apply set_nodup, N.
    + intros y Hy. rewrite lookup_set. cbn [lookup]. destruct (String.eqb_spec y x) as [->|Hne]; [reflexivity|].
      apply Sc. cbn in Hy. destruct Hy; [congruence|assumption].
    + intros y Hy. cbn in Hy. unfold lk. rewrite lookup_set.
      destruct (String.eqb_spec y x) as [->|Hne]; [tauto|]. apply R. tauto.
    + intros y Hy. apply set_keys in Hy as [->|Hy]; cbn; [tauto|]. destruct (K y Hy); tauto.
  - intros y Hm Hb. cbn. destruct (string_dec y x) as [->|Hne]; [auto|]. right. auto.
  - unfold validate_let_like. rewrite E2. cbn [opt_bind].
    pose proof (Sc2 x (or_introl eq_refl)) as Ex. cbn [lookup] in Ex. rewrite String.eqb_refl in Ex. cbn in Ex.
    rewrite Ex. cbn [Z.eqb].
    assert (Sy : forall y, y <> x -> In y (map fst o') -> lookup c2 y = option_map Z.of_nat (lookup o' y)).
    { intros y Hne Hy. rewrite Sc2 by (right; assumption). cbn [lookup]. apply String.eqb_neq in Hne. rewrite Hne. reflexivity. }
    assert (Ry : forall y, y <> x -> ~ In y (map fst o') -> lk c2 y = 0).
    { intros y Hne Hy. apply R2. cbn. intros [->|H]; [apply Hne; reflexivity|contradiction]. }
    assert (Ky : forall y, In y (map fst c2) -> In y (map fst o') \/ In y B).
    { intros y Hy. destruct (K2 y Hy) as [[<-|H]|H]; cbn in *; auto. }
    destruct (lookup c x) as [old|] eqn:El; eexists; (split; [reflexivity|]); constructor.
    + apply set_nodup, N2.
    + intros y Hy. rewrite lookup_set. destruct (String.eqb_spec y x) as [->|Hne]; [|auto].
      rewrite <- El, Sc by (rewrite <- Hd; assumption).
      rewrite <- !lookup_of_nat. change (lookup (zs o) x = lookup (zs o') x). rewrite Ho', bump_lookup.
      unfold under, zupd. rewrite String.eqb_refl. destruct (lookup (zs o) x); cbn; [rewrite Z.add_0_r|]; reflexivity.
    + intros y Hy. unfold lk. rewrite lookup_set. destruct (String.eqb_spec y x) as [->|Hne]; [|apply Ry; assumption].
      rewrite Hd in Hy. specialize (R x Hy). unfold lk in R. rewrite El in R. exact R.
    + intros y Hy. apply set_keys in Hy as [->|Hy]; auto.
    + assumption.
    + intros y Hy. destruct (string_dec y x) as [->|Hne]; [|auto]. exfalso.
      rewrite Hd in Hy. specialize (Sc x Hy). rewrite El in Sc. apply lookup_in in Hy as [n Hy]. rewrite Hy in Sc. discriminate.
    + intros y Hy. destruct (string_dec y x) as [->|Hne]; [|auto]. unfold lk. rewrite Ex. reflexivity.
    + assumption.
Qed.

Lemma mentioned_op o es x : mentioned (Op o es) x <-> exists e, In e es /\ mentioned e x.
Proof.
  cbn [mentioned]. induction es as [|e es IH]; [split; [tauto|intros (e & [] & _)]|]. rewrite IH. split.
  - intros [H|(e1 & H1 & H2)]; [exists e|exists e1]; cbn; auto.
  - intros (e1 & [->|H1] & H2); [auto|]. right. eauto.
Qed.

Lemma mentioned_case a alts de x : mentioned (Case a alts de) x <->
  mentioned a x \/ (exists al, In al alts /\ mentioned (a_body al) x /\ x <> a_name al) \/
  match de with Some (y, e) => mentioned e x /\ x <> y | None => False end.
Proof.
  cbn [mentioned]. apply or_iff_compat_l. apply or_iff_compat_r.
  induction alts as [|al alts IH]; [split; [tauto|intros (e & [] & _)]|]. rewrite IH. split.
  - intros [H|(e1 & H1 & H2)]; [exists al|exists e1]; cbn; auto.
  - intros (e1 & [->|H1] & H2); [auto|]. right. eauto.
Qed.

Lemma operands_complete keep es : Forall complete es -> forall B w o o' c,
  Forall no_empty es -> Forall locals_fine es -> settles (operand_paths paths keep w es o) o' -> inv B o c ->
  incl (flat_map own_binders es) B ->
  (forall e x, In e es -> mentioned e x -> In x B -> In x (map fst o)) ->
  exists c', move_all move es c = Some c' /\ inv B o' c'.
Proof.
  induction 1 as [|e es He _ IH]; intros B w o o' c Ne Lf S I Ib M; cbn [operand_paths move_all flat_map] in *.
  - exists c. split; [reflexivity|]. destruct S as [_ S]. rewrite <- (S _ _ (or_introl eq_refl)). exact I.
  - apply Forall_cons_iff in Ne as [Ne1 Ne]. apply Forall_cons_iff in Lf as [Lf1 Lf].
    destruct (settles_first _ _ _ (fold_right (fun e f => plus (canon e) f) (fun _ => 0) es) o o' (paths_lead e Ne1 w o) S)
      as (o1 & S1 & E1 & h & H1).
    { intros o2 h _. apply operands_lead. eapply Forall_impl; [|exact Ne]. intros e1 Hn. apply paths_lead. exact Hn. }
    destruct (He B w o o1 c) as (c1 & Ec1 & I1); try assumption.
    + intros x Hx. apply Ib. apply in_app_iff. auto.
    + intros x. apply M. left. reflexivity.
    + rewrite Ec1. cbn [opt_bind]. apply (settles_rest _ _ _ _ _ H1) in S. eapply (IH B); try eassumption.
      * intros x Hx. apply Ib. apply in_app_iff. auto.
      * intros e2 x He2 Hm Hb. rewrite (bump_scope _ _ _ E1). eapply M; [right|..]; eassumption.
Qed.

Lemma settles_done rs o' : settles (flat_map (fun r => after r (fun o _ => [Value o [None]])) rs) o' -> settles rs o'.
Proof.
  intros [NF S]. split.
  - intros H. apply NF. apply in_flat_map. exists Fault. split; [assumption|left; reflexivity].
  - intros o1 h H. eapply S. apply in_flat_map. exists (Value o1 h). split; [eassumption|left; reflexivity].
Qed.

Lemma nothing_zeros o : nothing_owned o = true -> o = map (fun x => (x, 0%nat)) (map fst o).
Proof.
  induction o as [|[x n] o IH]; cbn; [reflexivity|]. intros H. apply andb_true_iff in H as [H1 H2].
  apply Nat.eqb_eq in H1. subst n. f_equal. apply IH, H2.
Qed.

Lemma balanced_settles local d : balanced local d ->
  settles (paths [] (f_body d) (at_entry local d)) (map (fun x => (x, 0%nat)) (map fst (at_entry local d))).
Proof.
  intros H. split.
  - intros Hf. exact (H _ Hf).
  - intros o1 h Hv. specialize (H _ Hv). cbn in H. rewrite <- (paths_keep _ _ _ _ Hv). apply nothing_zeros. exact H.
Qed.

Lemma inv_zeros B xs c : inv B (map (fun x => (x, 0%nat)) xs) c -> all_zero c = true.
Proof.
  intros I. apply all_zero_spec; [apply I|]. intros x. rewrite (inv_lk _ _ _ _ I).
  assert (E : lookup (map (fun x => (x, 0%nat)) xs) x = if mem x xs then Some 0%nat else None).
  { clear I. induction xs as [|y xs IH]; cbn; [reflexivity|]. destruct (String.eqb x y); [reflexivity|exact IH]. }
  rewrite E. destruct (mem x xs); reflexivity.
Qed.

Lemma inv_initial B local d : inv B (at_entry local d) (initial_counts (negb local) d).
Proof.
  destruct (initial_lookup local d) as [N L]. constructor.
  - exact N.
  - intros x Hx. rewrite L, entry_lookup. destruct (mem x _); reflexivity.
  - intros x Hx. unfold lk. rewrite L. apply mem_false in Hx. rewrite Hx. reflexivity.
  - intros x Hx. apply lookup_in in Hx as [n Hx]. rewrite L in Hx. left. apply mem_In.
    destruct (mem x _); [reflexivity|discriminate].
Qed.

Lemma body_complete local d : complete (f_body d) -> no_empty (f_body d) -> locals_fine (f_body d) -> balanced local d ->
  (forall x, mentioned (f_body d) x -> In x (own_binders (f_body d)) -> In x (parameters local d)) ->
  exists c, move (f_body d) (initial_counts (negb local) d) = Some c /\ all_zero c = true.
Proof.
  intros IH Ne Lf Hb M.
  destruct (IH (own_binders (f_body d)) [] (at_entry local d) _ (initial_counts (negb local) d) Ne Lf (balanced_settles _ _ Hb))
    as (c & E & I).
  - apply inv_initial.
  - intros x Hx. exact Hx.
  - exact M.
  - exists c. split; [exact E|]. eapply inv_zeros. exact I.
Qed.

Lemma locals_within e' e : within e' e -> locals_fine e -> locals_fine e'.
Proof. intros H L d b Hw. eapply L. eapply within_trans; eassumption. Qed.

Lemma move_complete e : complete e.
Proof.
  induction e as [l|x|op es IH|c t e IHc IHt IHe|a alts de IHa IHalts IHde|x t b e IHb IHe
                  |d e IHd IHe|a x t e IHo IHe|xs e IHe|xs e IHe] using expr_ind';
    intros B w o o' k Ne Lf S I Ib M; cbn [move own_binders paths] in *.
  - eexists. split; [reflexivity|]. destruct S as [_ S]. rewrite <- (S _ _ (or_introl eq_refl)). exact I.
  - eexists. split; [reflexivity|]. destruct (take x o) as [o1|] eqn:E.
    + destruct S as [_ S]. rewrite <- (S _ _ (or_introl eq_refl)). eapply inv_add; [exact I| |apply take_bump; exact E].
      apply M. reflexivity.
    + destruct S as [S _]. exfalso. apply S. left. reflexivity.
  - apply settles_done in S. eapply operands_complete; [exact IH| | |exact S|exact I|exact Ib|].
    + apply Forall_forall. intros e He. eapply no_empty_within; [|exact Ne]. econstructor; [exact He|constructor].
    + apply Forall_forall. intros e He. eapply locals_within; [|exact Lf]. econstructor; [exact He|constructor].
    + intros e x He Hm. apply M. apply mentioned_op. eauto.
  - assert (W1 : within c (If c t e)) by (apply within_if_1; constructor).
    assert (W2 : within t (If c t e)) by (apply within_if_2; constructor).
    assert (W3 : within e (If c t e)) by (apply within_if_3; constructor).
    pose proof (no_empty_within _ _ W1 Ne) as N1. pose proof (no_empty_within _ _ W2 Ne) as N2.
    destruct (settles_first _ _ _ (canon t) o o' (paths_lead c N1 w o) S) as (o1 & S1 & E1 & h & H1).
    { intros o2 h _. eapply leads_ext; [apply plus_zero|]. apply leads_after; [|intros; apply value_after].
      eapply leads_incl; [|apply (paths_lead t N2 w)]. intros r Hr. apply in_app_iff. auto. }
    pose proof (bump_scope _ _ _ E1) as D1.
    destruct (IHc B w o o1 k) as (k1 & -> & I1); try eassumption.
    { eapply locals_within; eassumption. }
    { intros y Hy. apply Ib. rewrite !in_app_iff. auto. }
    { intros y Hy. apply M. cbn [mentioned]. auto. }
    cbn [opt_bind]. apply (settles_rest _ _ _ _ _ H1) in S. apply settles_done in S.
    destruct (IHt B w o1 o' k1) as (k2 & -> & I2); try eassumption.
    { eapply locals_within; eassumption. }
    { eapply settles_incl; [|exact S]. intros r Hr. apply in_app_iff. auto. }
    { intros y Hy. apply Ib. rewrite !in_app_iff. auto. }
    { intros y Hy. rewrite D1. apply M. cbn [mentioned]. auto. }
    destruct (IHe B w o1 o' k1) as (k3 & -> & I3); try eassumption.
    { eapply no_empty_within; eassumption. }
    { eapply locals_within; eassumption. }
    { eapply settles_incl; [|exact S]. intros r Hr. apply in_app_iff. auto. }
    { intros y Hy. apply Ib. rewrite !in_app_iff. auto. }
    { intros y Hy. rewrite D1. apply M. cbn [mentioned]. auto. }
    cbn [opt_bind]. rewrite (inv_eqb _ _ _ _ I3 I2). eauto.
  - assert (W1 : within a (Case a alts de)) by (apply within_case_argument; constructor).
    pose proof (no_empty_within _ _ W1 Ne) as N1.
    assert (Wal : forall al, In al alts -> within (a_body al) (Case a alts de)).
    { intros al Hal. eapply within_case_alternative; [exact Hal|constructor]. }
    assert (Wde : forall y e, de = Some (y, e) -> within e (Case a alts de)).
    { intros y e ->. apply within_case_default. constructor. }
    match goal with |- context [opt_bind ?q _] => idtac end.
    destruct (settles_first _ _ _
      (match alts, de with
        | al :: _, _ => under (a_name al) (canon (a_body al))
        | [], Some (x, e) => under x (canon e)
        | [], None => fun _ => 0
        end) o o' (paths_lead a N1 w o) S) as (o1 & S1 & E1 & h & H1).
    { intros o2 h _. destruct alts as [|al alts].
      - destruct de as [[y e]|]; [|exfalso; apply (Ne a); constructor]. cbn [flat_map app]. apply leads_leave.
        apply paths_lead. eapply no_empty_within; [apply (Wde _ _ eq_refl)|exact Ne].
      - apply leads_leave. assert (N2 : no_empty (a_body al)).
        { eapply no_empty_within; [apply (Wal al); left; reflexivity|exact Ne]. }
        eapply leads_incl; [|apply (paths_lead _ N2 w)].
        intros r Hr. apply in_app_iff. left. cbn [flat_map]. apply in_app_iff. left. exact Hr. }
    pose proof (bump_scope _ _ _ E1) as D1.
    destruct (IHa B w o o1 k) as (k1 & -> & I1); try eassumption.
    { eapply locals_within; eassumption. }
    { intros y Hy. apply Ib. rewrite !in_app_iff. auto. }
    { intros y Hy. apply M. apply mentioned_case. auto. }
    cbn [opt_bind]. apply (settles_rest _ _ _ _ _ H1) in S.
    assert (Hal : forall al, In al alts -> exists k2, validate_let_like move (a_name al) (a_body al) k1 = Some k2 /\ inv B o' k2).
    { intros al Hal. rewrite Forall_forall in IHalts. eapply let_like_complete; [apply IHalts; exact Hal| | |  |exact I1| | |].
      - eapply no_empty_within; [apply Wal; exact Hal|exact Ne].
      - eapply locals_within; [apply Wal; exact Hal|exact Lf].
      - eapply settles_incl; [|exact S]. intros r Hr. rewrite map_app. apply in_app_iff. left.
        apply in_map_iff in Hr as (r1 & <- & Hr). apply in_map. apply in_flat_map. eauto.
      - apply Ib. rewrite !in_app_iff. right. left. apply in_flat_map. exists al. split; [assumption|left; reflexivity].
      - intros y Hy. apply Ib. rewrite !in_app_iff. right. left. apply in_flat_map. exists al. split; [assumption|right; assumption].
      - intros y Hm Hne. rewrite D1. apply M. apply mentioned_case. right. left. eauto. }
    assert (Hde : exists k2, match de with
              | Some (x, e) => validate_let_like move x e k1
              | None => match alts with
                        | [] => None
                        | al :: _ => validate_let_like move (a_name al) (a_body al) k1
                        end
              end = Some k2 /\ inv B o' k2).
    { destruct de as [[y e]|].
      - eapply let_like_complete; [eapply IHde; reflexivity| | | |exact I1| | |].
        + eapply no_empty_within; [apply (Wde _ _ eq_refl)|exact Ne].
        + eapply locals_within; [apply (Wde _ _ eq_refl)|exact Lf].
        + eapply settles_incl; [|exact S]. intros r Hr. rewrite map_app. apply in_app_iff. right. exact Hr.
        + apply Ib. rewrite !in_app_iff. right. right. left. reflexivity.
        + intros z Hz. apply Ib. rewrite !in_app_iff. right. right. right. assumption.
        + intros z Hm Hne. rewrite D1. apply M. apply mentioned_case. auto.
      - destruct alts as [|al alts]; [exfalso; apply (Ne a); constructor|]. apply Hal. left. reflexivity. }
    destruct Hde as (k2 & -> & I2). cbn [opt_bind].
    assert (Hv : validate_alternatives move alts k1 k2 = true).
    { clear -Hal I2. induction alts as [|al alts IH]; cbn [validate_alternatives]; [reflexivity|].
      destruct (Hal al (or_introl eq_refl)) as (k3 & -> & I3). rewrite (inv_eqb _ _ _ _ I2 I3). apply IH.
      intros al' Hal'. apply Hal. right. assumption. }
    rewrite Hv. eauto.
  - assert (W1 : within b (Let x t b e)) by (apply within_let_bound; constructor).
    assert (W2 : within e (Let x t b e)) by (apply within_let_body; constructor).
    pose proof (no_empty_within _ _ W1 Ne) as N1. pose proof (no_empty_within _ _ W2 Ne) as N2.
    destruct (settles_first _ _ _ (under x (canon e)) o o' (paths_lead b N1 w o) S) as (o1 & S1 & E1 & h & H1).
    { intros o2 h _. apply leads_leave. apply paths_lead. exact N2. }
    pose proof (bump_scope _ _ _ E1) as D1.
    destruct (IHb B w o o1 k) as (k1 & -> & I1); try eassumption.
    { eapply locals_within; eassumption. }
    { intros y Hy. apply Ib. right. rewrite in_app_iff. auto. }
    { intros y Hy. apply M. cbn. auto. }
    cbn [opt_bind]. apply (settles_rest _ _ _ _ _ H1) in S.
    eapply let_like_complete; try eassumption.
    + eapply locals_within; eassumption.
    + apply Ib. left. reflexivity.
    + intros y Hy. apply Ib. right. rewrite in_app_iff. auto.
    + intros y Hm Hne. rewrite D1. apply M. cbn. auto.
  - assert (W2 : within e (LetRec d e)) by (apply within_letrec_body; constructor).
    assert (W1 : within (f_body d) (LetRec d e)) by (apply within_letrec_definition; constructor).
    destruct (Lf d e (within_here _)) as [Hb Hm].
    destruct (body_complete true d IHd (no_empty_within _ _ W1 Ne) (locals_within _ _ W1 Lf) Hb Hm) as (cb & Eb & Ez).
    cbn [negb] in Eb. rewrite Eb. cbn [opt_bind]. rewrite Ez.
    destruct (take_all (map fst (f_env d)) o) as [o1|] eqn:E.
    2: { destruct S as [S _]. exfalso. apply S. left. reflexivity. }
    pose proof (bump_scope _ _ _ (take_all_bump _ _ _ E)) as D1.
    eapply let_like_complete; [exact IHe| | |exact S| | | |].
    + eapply no_empty_within; eassumption.
    + eapply locals_within; eassumption.
    + eapply inv_take_all; [exact I| |exact E]. intros y Hy. apply M. cbn. auto.
    + apply Ib. left. reflexivity.
    + intros y Hy. apply Ib. right. assumption.
    + intros y Hy Hne. rewrite D1. apply M. cbn. auto.
  - assert (W1 : within a (Try a x t e)) by (apply within_try_operand; constructor).
    assert (W2 : within e (Try a x t e)) by (apply within_try_body; constructor).
    pose proof (no_empty_within _ _ W1 Ne) as N1. pose proof (no_empty_within _ _ W2 Ne) as N2.
    destruct (settles_first _ _ _ (fun _ => 0) o o' (paths_lead a N1 w o) S) as (o1 & S1 & E1 & h & H1).
    { intros o2 h _. eapply leads_incl; [|apply (value_after o2 [None])]. intros r [<-|[]]. left. reflexivity. }
    pose proof (bump_scope _ _ _ E1) as D1.
    destruct (IHo B w o o1 k) as (k1 & -> & I1); try eassumption.
    { eapply locals_within; eassumption. }
    { intros y Hy. apply Ib. right. rewrite in_app_iff. auto. }
    { intros y Hy. apply M. cbn. auto. }
    cbn [opt_bind]. apply (settles_rest _ _ _ _ _ H1) in S.
    assert (Eo : o1 = o') by (eapply (proj2 S); left; reflexivity). subst o1.
    assert (S2 : settles (map leave_scope (paths [] e ((x, 1%nat) :: o'))) (map (fun x => (x, 0%nat)) (map fst o'))).
    { assert (G : forall r, In r (paths [] e ((x, 1%nat) :: o')) -> return_early w r <> Fault).
      { intros r Hr E. apply (proj1 S). right. rewrite <- E. apply in_map. exact Hr. }
      split.
      - intros Hf. apply in_map_iff in Hf as (r & E & Hr). specialize (G r Hr).
        destruct r as [o2 h2| |]; [|discriminate|apply G; destruct w; reflexivity].
        cbn in G. destruct w; [|apply G; reflexivity]. destruct (nothing_owned o2) eqn:Eq; [|apply G; reflexivity].
        pose proof (paths_keep _ _ _ _ Hr) as Hk. destruct o2 as [|[y n] o2]; [discriminate|].
        cbn in Eq. apply andb_true_iff in Eq as [Eq _]. apply Nat.eqb_eq in Eq. subst n. discriminate.
      - intros o2 h2 Hv. apply in_map_iff in Hv as (r & E & Hr). specialize (G r Hr).
        destruct r as [o3 h3| |]; [|discriminate|discriminate]. cbn in G. destruct w; [|exfalso; apply G; reflexivity].
        destruct (nothing_owned o3) eqn:Eq; [|exfalso; apply G; reflexivity].
        pose proof (paths_keep _ _ _ _ Hr) as Hk. destruct o3 as [|[y n] o3]; [discriminate|].
        cbn in Eq, Hk. injection Hk as _ Hk. apply andb_true_iff in Eq as [Eq Eq2]. apply Nat.eqb_eq in Eq. subst n.
        cbn in E. injection E as <- _. rewrite <- Hk. apply nothing_zeros. exact Eq2. }
    destruct (let_like_complete x e B [] o' _ k1 IHe N2 (locals_within _ _ W2 Lf) S2 I1) as (k2 & -> & I2).
    + apply Ib. left. reflexivity.
    + intros y Hy. apply Ib. right. rewrite in_app_iff. auto.
    + intros y Hy Hne. rewrite D1. apply M. cbn. auto.
    + cbn [opt_bind]. rewrite (inv_zeros _ _ _ I2). eauto.
  - destruct (duplicate_all w (map fst xs) o) as [o1|] eqn:E.
    2: { destruct S as [S _]. exfalso. apply S. left. reflexivity. }
    pose proof (bump_scope _ _ _ (duplicate_all_bump _ _ _ _ E)) as D1.
    assert (W2 : within e (CloneVars xs e)) by (apply within_clone; constructor).
    eapply IHe; [| |exact S| |exact Ib|].
    + eapply no_empty_within; eassumption.
    + eapply locals_within; eassumption.
    + eapply inv_duplicate_all; [exact I| |exact E]. intros y Hy. apply M. cbn. auto.
    + intros y Hy. rewrite D1. apply M. cbn. auto.
  - destruct (take_all (map fst xs) o) as [o1|] eqn:E.
    2: { destruct S as [S _]. exfalso. apply S. left. reflexivity. }
    pose proof (bump_scope _ _ _ (take_all_bump _ _ _ E)) as D1.
    assert (W2 : within e (DropVars xs e)) by (apply within_drop; constructor).
    eapply IHe; [| |exact S| |exact Ib|].
    + eapply no_empty_within; eassumption.
    + eapply locals_within; eassumption.
    + eapply inv_take_all; [exact I| |exact E]. intros y Hy. apply M. cbn. auto.
    + intros y Hy. rewrite D1. apply M. cbn. auto.
Qed.

Theorem balanced_validated m : references_balanced m -> globals_not_hidden m -> no_empty_case m -> validate m = true.
Proof.
  intros Hb Hg He. apply forallb_forall. intros g Hin. destruct (Hb g Hin) as [Hb1 Hb2].
  assert (M : forall local d, function_of m local d -> forall x, mentioned (f_body d) x -> In x (own_binders (f_body d)) ->
              In x (parameters local d)).
  { intros local d Hd x Hm Hx. destruct (in_dec string_dec x (parameters local d)) as [H|H]; [assumption|].
    exfalso. exact (Hg local d x Hd Hm H Hx). }
  destruct (body_complete false g (move_complete _)) as (c & E & Z).
  - intros a. apply He. assumption.
  - intros d b Hw. split; [eapply Hb2; eassumption|]. apply M. exists g, b. auto.
  - assumption.
  - apply M. exact Hin.
  - unfold validate_function. cbn [negb] in E. rewrite E. exact Z.
Qed.
