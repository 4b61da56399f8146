(** What is known of a resolved module determines it. *)
From Coq Require Import String List Bool.
From Verif Require Import Base HirType HirTypeSpec Hir HirSpec HirParts LowerTypeSpec Resolve ResolveSpec ResolveProofs.
Import ListNotations.

(** *** An expression is determined by its shape, its types and its parts. *)
Lemma blank_inj a b : blank a = blank b -> opt_types a = opt_types b -> a = b.
Proof. destruct a, b; cbn; intros H1 H2; congruence. Qed.
Lemma opt_types_app a b l m : blank a = blank b -> opt_types a ++ l = opt_types b ++ m -> a = b /\ l = m.
Proof. destruct a, b; cbn; intros H1 H2; try discriminate; [injection H2 as -> ->|subst]; auto. Qed.
Lemma app_parts {A} (a b c d : list A) : length a = length b -> a ++ c = b ++ d -> a = b /\ c = d.
Proof. revert b. induction a as [|x a IH]; intros [|y b] L H; try discriminate; cbn in *; [auto|]. injection L as L. injection H as -> H. destruct (IH b L H) as [-> ->]. auto. Qed.
Lemma pairs_eq {A B} (l m : list (A * B)) : map fst l = map fst m -> map snd l = map snd m -> l = m.
Proof. revert m. induction l as [|[a b] l IH]; intros [|[c d] m] H1 H2; try discriminate; [reflexivity|]. cbn in *. injection H1 as -> H1. injection H2 as -> H2. f_equal. auto. Qed.
Lemma tagged_eq {A B C} (t : C) (f : A -> B) (l m : list A) : map (fun a => (t, f a)) l = map (fun a => (t, f a)) m -> map f l = map f m.
Proof. revert m. induction l as [|a l IH]; intros [|c m] H; try discriminate; [reflexivity|]. cbn in *. injection H as -> H. f_equal. auto. Qed.
Lemma branches_eq el el' bs : forall xs bs',
  map (fun b : comp_branch => CompBranch (b_names b) (map (fun it : option ty * hexpr => (blank (fst it), HNone)) (b_iteratees b)) match b_condition b with Some _ => Some HNone | None => None end) bs =
  map (fun b : comp_branch => CompBranch (b_names b) (map (fun it : option ty * hexpr => (blank (fst it), HNone)) (b_iteratees b)) match b_condition b with Some _ => Some HNone | None => None end) bs' ->
  flat_map (fun b : comp_branch => flat_map (fun it => opt_types (fst it)) (b_iteratees b)) bs = flat_map (fun b : comp_branch => flat_map (fun it => opt_types (fst it)) (b_iteratees b)) bs' ->
  branch_scopes xs el bs = branch_scopes xs el' bs' -> el = el' /\ bs = bs'.
Proof.
  induction bs as [|[ns its c] bs IH]; intros xs [|[ns' its' c'] bs'] H1 H2 H3; try discriminate; cbn in *.
  - injection H3 as ->. auto.
  - injection H1 as <- H1 Hc Hb.
    assert (Q : its = its' /\ flat_map (fun b : comp_branch => flat_map (fun it => opt_types (fst it)) (b_iteratees b)) bs = flat_map (fun b : comp_branch => flat_map (fun it => opt_types (fst it)) (b_iteratees b)) bs' /\
      (match c with Some c => [((ns ++ xs)%list, c)] | None => [] end ++ branch_scopes (ns ++ xs) el bs = match c' with Some c => [((ns ++ xs)%list, c)] | None => [] end ++ branch_scopes (ns ++ xs) el' bs')%list).
    { clear IH Hc Hb. revert its' H1 H2 H3. induction its as [|[t e] its IH]; intros [|[t' e'] its'] H1 H2 H3; try discriminate; cbn in *; [auto|].
      injection H1 as Ht H1. injection H3 as <- H3. rewrite <- !app_assoc in H2. destruct (opt_types_app _ _ _ _ Ht H2) as [<- H4]. destruct (IH its' H1 H4 H3) as (<- & ? & ?). auto. }
    destruct Q as (<- & Q1 & Q2). destruct c, c'; try discriminate; cbn in Q2.
    + injection Q2 as <- Q2. destruct (IH _ _ Hb Q1 Q2) as [<- <-]. auto.
    + destruct (IH _ _ Hb Q1 Q2) as [<- <-]. auto.
Qed.
Lemma fields_eq (l m : list (string * hexpr)) : map (fun x => (fst x, HNone)) l = map (fun x => (fst x, HNone)) m -> map (fun x => (@nil string, snd x)) l = map (fun x => ([], snd x)) m -> l = m.
Proof. revert m. induction l as [|[a b] l IH]; intros [|[c d] m] H1 H2; try discriminate; [reflexivity|]. cbn in *. injection H1 as -> H1. injection H2 as -> H2. f_equal. auto. Qed.
Lemma elements_eq (l m : list element) : map (fun el => match el with Single _ => Single HNone | Multiple _ => Multiple HNone end) l = map (fun el => match el with Single _ => Single HNone | Multiple _ => Multiple HNone end) m ->
  map (fun el => match el with Single a | Multiple a => (@nil string, a) end) l = map (fun el => match el with Single a | Multiple a => ([], a) end) m -> l = m.
Proof. revert m. induction l as [|a l IH]; intros [|c m] H1 H2; try discriminate; [reflexivity|]. cbn in *. destruct a, c; try discriminate; injection H1 as H1; injection H2 as -> H2; f_equal; auto. Qed.
Lemma entries_eq (l m : list map_element) : map (fun el => match el with Entry _ _ => Entry HNone HNone | Spread _ => Spread HNone end) l = map (fun el => match el with Entry _ _ => Entry HNone HNone | Spread _ => Spread HNone end) m ->
  flat_map (fun el => match el with Entry a b => [(@nil string, a); ([], b)] | Spread a => [([], a)] end) l = flat_map (fun el => match el with Entry a b => [(@nil string, a); ([], b)] | Spread a => [([], a)] end) m -> l = m.
Proof. revert m. induction l as [|a l IH]; intros [|c m] H1 H2; try discriminate; [reflexivity|]. cbn in *. destruct a, c; try discriminate; injection H1 as H1; [injection H2 as -> -> H2|injection H2 as -> H2]; f_equal; auto. Qed.
Lemma pair_nil_eq (l m : list hexpr) : map (pair (@nil string)) l = map (pair []) m -> l = m.
Proof. revert m. induction l as [|a l IH]; intros [|c m] H; try discriminate; [reflexivity|]. cbn in *. injection H as -> H. f_equal. auto. Qed.
Lemma arguments_eq (l m : list (string * ty)) r s : map (fun a => (fst a, TNone)) l = map (fun a => (fst a, TNone)) m -> map snd l ++ [r] = map snd m ++ [s] -> l = m /\ r = s.
Proof.
  revert m. induction l as [|[a b] l IH]; intros [|[c d] m] H1 H2; try discriminate; cbn in *; [injection H2 as ->; auto|]. injection H1 as -> H1. injection H2 as -> H2. destruct (IH _ H1 H2) as [-> ->]. auto.
Qed.
Lemma node_determined e1 e2 : shape e1 = shape e2 -> node_types e1 = node_types e2 -> scoped e1 = scoped e2 -> e1 = e2.
Proof.
  destruct e1, e2; intros H1 H2 H3; try discriminate H1; try exact H1; cbn [shape node_types scoped] in *.
  - injection H1 as H1 _. injection H3 as -> H3. apply pair_nil_eq in H3. rewrite (blank_inj _ _ H1 H2), H3. reflexivity.
  - congruence.
  - injection H1 as H1 -> ->. injection H3 as -> -> ->. rewrite (blank_inj _ _ H1 H2). reflexivity.
  - injection H1 as H1 H1' ->. injection H3 as -> -> -> ->. destruct (opt_types_app _ _ _ _ H1 H2) as [-> H2']. rewrite (blank_inj _ _ H1' H2'). reflexivity.
  - injection H1 as -> H1 Hels. injection H3 as -> H3. assert (L : length branches = length branches0) by (apply (f_equal (@length _)) in H1; rewrite !map_length in H1; exact H1).
    apply app_parts in H2; [|rewrite !map_length; exact L]. apply app_parts in H3; [|rewrite !map_length; exact L]. destruct H2 as [H2 H2'], H3 as [H3 H3']. apply tagged_eq in H3. rewrite (pairs_eq _ _ H2 H3). f_equal.
    match goal with |- ?x = ?y => destruct x as [[t b]|], y as [[t' b']|] end; try discriminate; [|reflexivity]. injection Hels as Hels. injection H3' as ->. rewrite (blank_inj _ _ Hels H2'). reflexivity.
  - injection H1 as H1. injection H3 as _ ->. destruct (arguments_eq _ _ _ _ H1 H2) as [-> ->]. reflexivity.
  - injection H1 as -> H1. injection H3 as -> ->. rewrite (blank_inj _ _ H1 H2). reflexivity.
  - injection H1 as H1. injection H2 as ->. rewrite (elements_eq _ _ H1 H3). reflexivity.
  - injection H1 as H1. injection H2 as -> H2. destruct (branches_eq _ _ _ _ _ H1 H2 H3) as [-> ->]. reflexivity.
  - injection H1 as H1. injection H2 as -> ->. rewrite (entries_eq _ _ H1 H3). reflexivity.
  - injection H1 as H1. injection H3 as -> ->. f_equal. destruct o, o0; try discriminate H1; try exact H1; injection H1; intros; subst; f_equal; apply blank_inj; assumption.
  - congruence.
  - injection H1 as H1. injection H3 as ->. rewrite (blank_inj _ _ H1 H2). reflexivity.
  - injection H1 as H1. injection H2 as ->. rewrite (fields_eq _ _ H1 H3). reflexivity.
  - injection H1 as H1 ->. injection H3 as ->. rewrite (blank_inj _ _ H1 H2). reflexivity.
  - injection H1 as H1. injection H2 as ->. injection H3 as -> H3. rewrite (fields_eq _ _ H1 H3). reflexivity.
  - injection H1 as H1. injection H3 as ->. rewrite (blank_inj _ _ H1 H2). reflexivity.
  - congruence.
Qed.

(** *** So names determine the whole module. *)
Section Unique.
  Variable prefix : string.
  Variable m : rmodule.
  Variables is is' : list import.
  Hypothesis HF : forall S x e e', refers prefix m is S x e -> refers prefix m is' S x e' -> e = e'.
  Hypothesis HT : forall x t t', type_refers prefix m is x t -> type_refers prefix m is' x t' -> t = t'.

  Lemma Forall2_unique {A B} (P Q : A -> B -> Prop) l : forall a b, Forall2 P l a -> Forall2 Q l b -> (forall x y z, In x l -> P x y -> Q x z -> y = z) -> a = b.
  Proof.
    induction l as [|x l IH]; intros a b Ha Hb U; inversion Ha; inversion Hb; subst; [reflexivity|]. f_equal; [eapply U; [left; reflexivity|eassumption..]|]. eapply IH; [eassumption..|]. intros x1 x2 x3 I. apply U. right. exact I.
  Qed.
  Lemma type_unique t : forall a b, type_resolved prefix m is t a -> type_resolved prefix m is' t b -> a = b.
  Proof.
    induction t as [| | |ar r IHa IHr|e IHe|k v IHk IHv| | |n o|x| |l r IHl IHr] using HirTypeOrder.ty_ind'; intros p q Hp Hq; inversion Hp; inversion Hq; subst; try solve [f_equal; eauto]; try solve [eauto].
    f_equal; [|eauto]. match goal with H1 : Forall2 _ ar ?x, H2 : Forall2 _ ar ?y |- ?x = ?y => apply (Forall2_unique _ _ _ _ _ H1 H2) end. intros y z w I. rewrite Forall_forall in IHa. apply IHa. exact I.
  Qed.
  Lemma types_unique l a b : Forall2 (type_resolved prefix m is) l a -> Forall2 (type_resolved prefix m is') l b -> a = b.
  Proof. intros Ha Hb. apply (Forall2_unique _ _ _ _ _ Ha Hb). intros x y z _. apply type_unique. Qed.
  Lemma resolved_unique e : forall S a b, resolved prefix m is S e a -> resolved prefix m is' S e b -> a = b.
  Proof.
    induction e as [e IH] using parts_ind. intros S a b Ha Hb. inversion Ha as [S1 x1 e1 R1|S1 e1 e1' V1 Sh1 Ty1 Sc1]; subst; inversion Hb as [S2 x2 e2 R2|S2 e2 e2' V2 Sh2 Ty2 Sc2]; subst.
    - eapply HF; eassumption.
    - exfalso. eapply V2. reflexivity.
    - exfalso. eapply V1. reflexivity.
    - apply node_determined; [congruence|exact (types_unique _ _ _ Ty1 Ty2)|]. apply (Forall2_unique _ _ _ _ _ Sc1 Sc2). intros [ys p] [ys1 p1] [ys2 p2] I [E1 H1] [E2 H2]. cbn [fst snd] in *. subst ys1 ys2. f_equal.
      apply scoped_part in I. destruct I as [I _]. exact (IH p I _ _ _ H1 H2).
  Qed.
  Lemma typed_unique (l a b : list (string * ty)) : Forall2 (fun x y => fst x = fst y /\ type_resolved prefix m is (snd x) (snd y)) l a -> Forall2 (fun x y => fst x = fst y /\ type_resolved prefix m is' (snd x) (snd y)) l b -> a = b.
  Proof. intros Ha Hb. apply (Forall2_unique _ _ _ _ _ Ha Hb). intros [x t] [x1 t1] [x2 t2] _ [E1 H1] [E2 H2]. cbn [fst snd] in *. rewrite <- E1, <- E2, (type_unique _ _ _ H1 H2). reflexivity. Qed.
  Lemma functions_unique a b : Forall2 (function_resolved prefix m is) (rm_functions m) a -> Forall2 (function_resolved prefix m is') (rm_functions m) b -> a = b.
  Proof.
    intros Ha Hb. apply (Forall2_unique _ _ _ _ _ Ha Hb). intros d [n1 o1 [a1 r1 b1] p1] [n2 o2 [a2 r2 b2] p2] _ (N1 & O1 & P1 & A1 & R1 & B1) (N2 & O2 & P2 & A2 & R2 & B2). cbn in *. subst.
    rewrite (typed_unique _ _ _ A1 A2), (type_unique _ _ _ R1 R2), (resolved_unique _ _ _ _ B1 B2). reflexivity.
  Qed.
  Lemma foreign_unique a b : Forall2 (foreign_resolved prefix m is) (rm_foreign m) a -> Forall2 (foreign_resolved prefix m is') (rm_foreign m) b -> a = b.
  Proof. intros Ha Hb. apply (Forall2_unique _ _ _ _ _ Ha Hb). intros d [n1 o1 t1] [n2 o2 t2] _ (N1 & O1 & T1) (N2 & O2 & T2). cbn in *. subst. rewrite (type_unique _ _ _ T1 T2). reflexivity. Qed.
  Lemma records_unique a b : Forall2 (record_resolved prefix m is) (rm_types m) a -> Forall2 (record_resolved prefix m is') (rm_types m) b -> a = b.
  Proof.
    intros Ha Hb. apply (Forall2_unique _ _ _ _ _ Ha Hb). intros d [n1 o1 f1 op1 p1 x1] [n2 o2 f2 op2 p2 x2] _ (N1 & O1 & P1 & Q1 & X1 & F1) (N2 & O2 & P2 & Q2 & X2 & F2). cbn in *. subst.
    rewrite (typed_unique _ _ _ F1 F2). reflexivity.
  Qed.
  Lemma aliases_unique a b : Forall2 (alias_resolved prefix m is) (rm_aliases m) a -> Forall2 (alias_resolved prefix m is') (rm_aliases m) b -> a = b.
  Proof.
    intros Ha Hb. apply (Forall2_unique _ _ _ _ _ Ha Hb). intros d [n1 o1 t1 p1 x1] [n2 o2 t2 p2 x2] _ (N1 & O1 & P1 & X1 & F1) (N2 & O2 & P2 & X2 & F2). cbn in *. subst.
    rewrite (type_unique _ _ _ F1 F2). reflexivity.
  Qed.
End Unique.
