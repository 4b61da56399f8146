(** Name resolution replaces each name by what it refers to. *)
From Coq Require Import String Ascii List Bool Lia.
From Verif Require Import Base HirType HirTypeSpec HirTypeOrder Hir HirSpec HirParts HirMain LowerTypeSpec Resolve ResolveSpec.
Import ListNotations.
Local Open Scope string_scope.
Local Open Scope list_scope.

(** ** Lists *)
Lemma Forall2_map_r {A B} (P : A -> B -> Prop) (g : A -> B) l : (forall a, In a l -> P a (g a)) -> Forall2 P l (map g l).
Proof. intros H. induction l as [|a l IH]; constructor; [apply H; left; reflexivity|]. apply IH. intros b Hb. apply H. right. exact Hb. Qed.
Lemma Forall2_chain {A} (P Q R : A -> A -> Prop) l1 l2 l3 : (forall a b c, P a b -> Q b c -> R a c) -> Forall2 P l1 l2 -> Forall2 Q l2 l3 -> Forall2 R l1 l3.
Proof.
  intros H H1. revert l3. induction H1 as [|a b l1 l2 Hab _ IH]; intros l3 H2; inversion H2; subst; constructor; [|apply IH; assumption]. eapply H; eassumption.
Qed.
Lemma Forall2_mono {A B} (P Q : A -> B -> Prop) l l' : Forall2 P l l' -> (forall a b, In a l -> P a b -> Q a b) -> Forall2 Q l l'.
Proof.
  intros F. induction F as [|a b l l' H F IH]; intros G; constructor; [apply G; [left; reflexivity|exact H]|]. apply IH. intros x y Hx. apply G. right. exact Hx.
Qed.

(** ** Transformations keep the structure *)
Definition is_var (e : hexpr) : bool := match e with HVariable _ => true | _ => false end.

(** The parts of a transformed expression are the transformed parts. *)
Definition part_transformed (f : string -> hexpr) (p p' : list string * hexpr) : Prop :=
  fst p = fst p' /\ exists g, (forall x, g x = without (fst p) f x) /\ snd p' = transform g (snd p).

Lemma transformed_same f e : part_transformed f ([], e) ([], transform f e).
Proof. split; [reflexivity|]. exists f. split; [|reflexivity]. intros x. reflexivity. Qed.
Lemma transformed_in f xs e : part_transformed f (xs, e) (xs, transform (without xs f) e).
Proof. split; [reflexivity|]. exists (without xs f). split; reflexivity. Qed.

(** The branches of a list comprehension, apart *)
Fixpoint transform_branches (f : string -> hexpr) (bs : list comp_branch) : list comp_branch * (string -> hexpr) :=
  match bs with
  | [] => ([], f)
  | b :: bs' =>
      let f' := without (b_names b) f in
      let r := transform_branches f' bs' in
      (CompBranch (b_names b) (map (fun it => (fst it, transform f (snd it))) (b_iteratees b))
         match b_condition b with None => None | Some c => Some (transform f' c) end :: fst r, snd r)
  end.

Lemma transform_comprehension f t el bs :
  transform f (HComprehension t el bs) = HComprehension t (transform (snd (transform_branches f bs)) el) (fst (transform_branches f bs)).
Proof.
  assert (H : forall bs f done,
    (fix go (f : string -> hexpr) (done : list comp_branch) (bs : list comp_branch) : hexpr :=
         match bs with
         | [] => HComprehension t (transform f el) (rev done)
         | CompBranch names its cond :: bs' =>
             let f' := without names f in
             go f' (CompBranch names (map (fun it => (fst it, transform f (snd it))) its)
                      match cond with None => None | Some c => Some (transform f' c) end :: done) bs'
         end) f done bs = HComprehension t (transform (snd (transform_branches f bs)) el) (rev done ++ fst (transform_branches f bs))).
  { clear. induction bs as [|[names its cond] bs IH]; intros f done; [cbn; rewrite app_nil_r; reflexivity|]. cbv zeta. rewrite IH. cbn [transform_branches fst snd b_names b_iteratees b_condition rev].
    rewrite <- app_assoc. reflexivity. }
  exact (H bs f []).
Qed.

Lemma without_app xs ys f x : without (xs ++ ys) f x = without xs (without ys f) x.
Proof.
  unfold without. destruct (mem x xs) eqn:H1; destruct (mem x (xs ++ ys)) eqn:H2; try reflexivity.
  - apply mem_In in H1. assert (In x (xs ++ ys)) by (apply in_or_app; auto). apply mem_In in H. congruence.
  - apply mem_In in H2. apply in_app_or in H2. destruct H2 as [H2|H2]; apply mem_In in H2; [congruence|]. rewrite H2. reflexivity.
  - destruct (mem x ys) eqn:H3; [|reflexivity]. apply mem_In in H3. assert (In x (xs ++ ys)) by (apply in_or_app; auto). apply mem_In in H. congruence.
Qed.

Lemma branches_transformed h el : forall bs xs f, (forall x, f x = without xs h x) ->
  Forall2 (part_transformed h) (branch_scopes xs el bs) (branch_scopes xs (transform (snd (transform_branches f bs)) el) (fst (transform_branches f bs))).
Proof.
  induction bs as [|b bs IH]; intros xs f Hf; cbn [transform_branches fst snd branch_scopes].
  - constructor; [|constructor]. split; [reflexivity|]. exists f. split; [exact Hf|reflexivity].
  - cbn [b_iteratees b_condition b_names]. apply Forall2_app; [|apply Forall2_app].
    + rewrite map_map. induction (b_iteratees b) as [|it its IHi]; cbn [map]; [constructor|constructor; [|exact IHi]]. split; [reflexivity|]. exists f. split; [exact Hf|reflexivity].
    + destruct (b_condition b) as [c|]; [|constructor]. constructor; [|constructor]. split; [reflexivity|]. exists (without (b_names b) f). split; [|reflexivity].
      intros x. cbn [fst]. rewrite without_app. unfold without at 1 2. destruct (mem x (b_names b)); [reflexivity|apply Hf].
    + apply IH. intros x. rewrite without_app. unfold without at 1 2. destruct (mem x (b_names b)); [reflexivity|apply Hf].
Qed.

Lemma transform_scoped f e : is_var e = false -> Forall2 (part_transformed f) (scoped e) (scoped (transform f e)).
Proof.
  intros Hv. destruct e; try discriminate; clear Hv; try (rewrite transform_comprehension); cbn [transform scoped]; try (repeat constructor; first [apply transformed_same|apply transformed_in]; fail).
  - constructor; [apply transformed_same|]. rewrite map_map. induction arguments as [|a l IH]; cbn [map]; [constructor|constructor; [apply transformed_same|exact IH]].
  - constructor; [apply transformed_same|]. apply Forall2_app.
    + rewrite map_map. induction branches as [|b l IH]; cbn [map]; [constructor|constructor; [apply transformed_in|exact IH]].
    + destruct else_ as [[t b]|]; [constructor; [apply transformed_in|constructor]|constructor].
  - rewrite map_map. induction elements as [|[a|a] l IH]; cbn [map]; [constructor|constructor; [apply transformed_same|exact IH]..].
  - apply branches_transformed. intros x. reflexivity.
  - rewrite flat_map_concat_map, flat_map_concat_map, map_map. induction elements as [|[a b|a] l IH]; cbn [map concat app]; [constructor| |];
      repeat (constructor; [apply transformed_same|]); exact IH.
  - rewrite map_map. induction fields as [|a l IH]; cbn [map]; [constructor|constructor; [apply transformed_same|exact IH]].
  - constructor; [apply transformed_same|]. rewrite map_map. induction fields as [|a l IH]; cbn [map]; [constructor|constructor; [apply transformed_same|exact IH]].
Qed.

Lemma transform_shape f e : is_var e = false -> shape (transform f e) = shape e /\ node_types (transform f e) = node_types e /\ is_var (transform f e) = false.
Proof.
  intros Hv. destruct e; try discriminate; clear Hv; try (rewrite transform_comprehension); cbn [transform shape node_types is_var]; rewrite ?map_map; cbn [fst snd]; try (repeat split; reflexivity).
  - destruct else_ as [[t b]|]; repeat split; rewrite ?map_map; reflexivity.
  - split; [|split; reflexivity]. f_equal. apply map_ext. intros [a|a]; reflexivity.
  - assert (H : forall bs f, map (fun b => CompBranch (b_names b) (map (fun it => (blank (fst it), HNone)) (b_iteratees b)) match b_condition b with Some _ => Some HNone | None => None end) (fst (transform_branches f bs)) =
        map (fun b => CompBranch (b_names b) (map (fun it => (blank (fst it), HNone)) (b_iteratees b)) match b_condition b with Some _ => Some HNone | None => None end) bs /\
      flat_map (fun b => flat_map (fun it => opt_types (fst it)) (b_iteratees b)) (fst (transform_branches f bs)) = flat_map (fun b => flat_map (fun it => opt_types (fst it)) (b_iteratees b)) bs).
    { clear. induction bs as [|b bs IH]; intros f; [split; reflexivity|]. cbn [transform_branches fst map flat_map b_names b_iteratees b_condition]. destruct (IH (without (b_names b) f)) as [I1 I2].
      rewrite I1, I2. split; f_equal.
      - rewrite map_map. destruct (b_condition b); reflexivity.
      - rewrite !flat_map_concat_map, map_map. reflexivity. }
    destruct (H branches f) as [H1 H2]. rewrite H1, H2. repeat split; reflexivity.
  - split; [|split; reflexivity]. f_equal. apply map_ext. intros [a b|a]; reflexivity.
Qed.

Definition part_retyped (f : ty -> ty) (p p' : list string * hexpr) : Prop := fst p = fst p' /\ snd p' = retype f (snd p).

Lemma retyped_in f xs e : part_retyped f (xs, e) (xs, retype f e).
Proof. split; reflexivity. Qed.

Lemma retype_scoped f e : Forall2 (part_retyped f) (scoped e) (scoped (retype f e)).
Proof.
  destruct e; cbn [retype scoped]; try (repeat constructor; fail).
  - constructor; [apply retyped_in|]. rewrite map_map. induction arguments as [|a l IH]; cbn [map]; [constructor|constructor; [apply retyped_in|exact IH]].
  - constructor; [apply retyped_in|]. apply Forall2_app.
    + rewrite map_map. induction branches as [|b l IH]; cbn [map]; [constructor|constructor; [apply retyped_in|exact IH]].
    + destruct else_ as [[t b]|]; [constructor; [apply retyped_in|constructor]|constructor].
  - constructor; [|constructor]. rewrite map_map. cbn [fst]. apply retyped_in.
  - rewrite map_map. induction elements as [|[a|a] l IH]; cbn [map]; [constructor|constructor; [apply retyped_in|exact IH]..].
  - generalize (@nil string) as xs. induction branches as [|b bs IH]; intros xs; cbn [map branch_scopes]; [constructor; [apply retyped_in|constructor]|].
    destruct b as [names its cond]. cbn [b_iteratees b_condition b_names]. apply Forall2_app; [|apply Forall2_app].
    + rewrite map_map. induction its as [|it its IHi]; cbn [map]; [constructor|constructor; [apply retyped_in|exact IHi]].
    + destruct cond; [constructor; [apply retyped_in|constructor]|constructor].
    + apply IH.
  - rewrite flat_map_concat_map, flat_map_concat_map, map_map. induction elements as [|[a b|a] l IH]; cbn [map concat app]; [constructor| |];
      repeat (constructor; [apply retyped_in|]); exact IH.
  - rewrite map_map. induction fields as [|a l IH]; cbn [map]; [constructor|constructor; [apply retyped_in|exact IH]].
  - constructor; [apply retyped_in|]. rewrite map_map. induction fields as [|a l IH]; cbn [map]; [constructor|constructor; [apply retyped_in|exact IH]].
Qed.

Lemma blank_map f t : blank (option_map f t) = blank t.
Proof. destruct t; reflexivity. Qed.
Lemma opt_types_map (f : ty -> ty) t : opt_types (option_map f t) = map f (opt_types t).
Proof. destruct t; reflexivity. Qed.

Lemma retype_shape f e : shape (retype f e) = shape e /\ node_types (retype f e) = map f (node_types e) /\ is_var (retype f e) = is_var e.
Proof.
  destruct e; cbn [retype shape node_types is_var]; rewrite ?map_map, ?blank_map, ?opt_types_map, ?map_app; cbn [fst snd map]; try (repeat split; reflexivity).
  - destruct else_ as [[t b]|]; repeat split; rewrite ?map_app, ?map_map, ?blank_map, ?opt_types_map; reflexivity.
  - rewrite map_map. repeat split; reflexivity.
  - split; [|split; reflexivity]. f_equal. apply map_ext. intros [a|a]; reflexivity.
  - split; [|split; [|reflexivity]].
    + f_equal. apply map_ext. intros [names its cond]. cbn. rewrite map_map. cbn. f_equal; [apply map_ext; intros it; cbn; rewrite blank_map; reflexivity|destruct cond; reflexivity].
    + f_equal. induction branches as [|[names its cond] bs IH]; [reflexivity|]. cbn [map flat_map b_iteratees]. rewrite map_app, IH. f_equal.
      induction its as [|it its IHi]; [reflexivity|]. cbn [map flat_map fst]. rewrite map_app, IHi, opt_types_map. reflexivity.
  - split; [|split; reflexivity]. f_equal. apply map_ext. intros [a b|a]; reflexivity.
  - split; [|split; [|reflexivity]]; destruct o; cbn; rewrite ?blank_map, ?opt_types_map; reflexivity.
Qed.

(** ** Parts and scopes *)
Lemma branch_scoped el : forall bs xs ys p, In (ys, p) (branch_scopes xs el bs) -> In p (flat_map branch_parts bs ++ [el]) /\ incl ys (flat_map b_names bs ++ xs).
Proof.
  induction bs as [|b bs IH]; intros xs ys p; cbn [branch_scopes flat_map app].
  - intros [[= <- <-]|[]]. split; [left; reflexivity|apply incl_refl].
  - rewrite !in_app_iff. intros [H|[H|H]].
    + apply in_map_iff in H. destruct H as (it & [= <- <-] & Hit). split; [left; left|apply incl_appr, incl_refl].
      unfold branch_parts. apply in_or_app. left. apply in_map. exact Hit.
    + destruct (b_condition b) as [c|] eqn:E; [|destruct H]. destruct H as [[= <- <-]|[]]. split.
      * left. left. unfold branch_parts. rewrite E. apply in_or_app. right. left. reflexivity.
      * intros x Hx. apply in_app_or in Hx. rewrite !in_app_iff. tauto.
    + apply IH in H. destruct H as [H1 H2]. split; [apply in_app_or in H1; tauto|]. intros x Hx. apply H2 in Hx. rewrite !in_app_iff in *. tauto.
Qed.

Lemma scoped_part e ys p : In (ys, p) (scoped e) -> In p (parts e) /\ incl ys (bound e).
Proof.
  unfold parts. destruct e; cbn [scoped eager_parts lazy_parts bodies bound]; try (cbn [In]; intros H; repeat destruct H as [H|H]; try (injection H as <- <-); try contradiction;
    (split; [apply in_or_app; cbn; tauto|]); first [apply incl_refl|apply incl_nil_l|intros x Hx; cbn in *; tauto]; fail).
  - intros [[= <- <-]|H]; [split; [left; reflexivity|apply incl_nil_l]|]. apply in_map_iff in H. destruct H as (a & [= <- <-] & Ha). split; [|apply incl_nil_l]. apply in_or_app. left. right. exact Ha.
  - intros [[= <- <-]|H]; [split; [left; reflexivity|apply incl_nil_l]|]. apply in_app_or in H. destruct H as [H|H].
    + apply in_map_iff in H. destruct H as (a & [= <- <-] & Ha). split; [|apply incl_refl]. apply in_or_app. left. right. apply in_or_app. left. apply in_map. exact Ha.
    + destruct else_ as [[t b]|]; [|destruct H]. destruct H as [[= <- <-]|[]]. split; [|apply incl_refl]. apply in_or_app. left. right. apply in_or_app. right. left. reflexivity.
  - intros H. apply in_map_iff in H. destruct H as (el & H & Hel). assert (ys = [] /\ In p (element_parts el)) as [-> Hp] by (destruct el; injection H as <- <-; cbn; auto).
    split; [|apply incl_nil_l]. cbn [app]. rewrite app_nil_r. apply in_flat_map. exists el. split; assumption.
  - intros H. apply branch_scoped in H. rewrite app_nil_r in H. cbn [app map]. rewrite app_nil_r. exact H.
  - intros H. apply in_flat_map in H. destruct H as (el & Hel & H). assert (ys = [] /\ In p (map_parts el)) as [-> Hp].
    { destruct el; cbn in H; [destruct H as [H|[H|[]]]|destruct H as [H|[]]]; injection H as <- <-; cbn; auto. }
    split; [|apply incl_nil_l]. rewrite app_nil_r. apply in_flat_map. exists el. split; assumption.
  - intros H. apply in_map_iff in H. destruct H as (a & [= <- <-] & Ha). split; [|apply incl_nil_l]. rewrite app_nil_r. apply in_map. exact Ha.
  - intros [[= <- <-]|H]; [split; [left; reflexivity|apply incl_nil_l]|]. apply in_map_iff in H. destruct H as (a & [= <- <-] & Ha). split; [|apply incl_nil_l].
    rewrite app_nil_r. right. apply in_map. exact Ha.
  - intros [[= <- <-]|[]]. split; [|apply incl_nil_l]. destruct type; cbn; auto.
Qed.

(** ** Maps of names *)
Lemma get_In names x y : get names x = Some y -> In (x, y) names.
Proof. unfold get. intros H. apply lookup_In in H. apply in_rev. exact H. Qed.
Lemma get_none names x : get names x = None <-> forall y, ~ In (x, y) names.
Proof.
  unfold get. rewrite lookup_none. split.
  - intros H y Hy. apply H. apply in_map_iff. exists (x, y). split; [reflexivity|]. apply in_rev in Hy. exact Hy.
  - intros H Hx. apply in_map_iff in Hx. destruct Hx as ([a b] & [= <-] & Hy). apply in_rev in Hy. exact (H b Hy).
Qed.
Lemma get_keys (g : string -> string) l x : get (map (fun x => (x, g x)) l) x = if mem x l then Some (g x) else None.
Proof.
  destruct (mem x l) eqn:H.
  - destruct (get _ x) as [y|] eqn:G.
    + apply get_In, in_map_iff in G. destruct G as (z & [= -> <-] & _). reflexivity.
    + exfalso. apply mem_In in H. apply (proj1 (get_none _ _) G (g x)). apply in_map_iff. exists x. split; [reflexivity|exact H].
  - apply get_none. intros y Hy. apply in_map_iff in Hy. destruct Hy as (z & [= -> _] & Hz). apply mem_In in Hz. congruence.
Qed.
Lemma fold_remove {A} (k : A -> string) n : forall l names, In n (fold_left (fun names d => remove (k d) names) l names) <-> In n names /\ ~ In (fst n) (map k l).
Proof.
  induction l as [|a l IH]; intros names; cbn [fold_left map In]; [tauto|]. rewrite IH. unfold remove. rewrite filter_In.
  destruct (String.eqb_spec (k a) (fst n)); cbn [negb]; intuition congruence.
Qed.

Lemma has_char_app c s t : has_char c (s ++ t) = has_char c s || has_char c t.
Proof. induction s as [|d s IH]; cbn; [reflexivity|]. rewrite IH, orb_assoc. reflexivity. Qed.

Lemma built_in_plain x e : built_in_variable x = Some e -> plain x.
Proof.
  unfold built_in_variable. intros H. apply lookup_In in H. cbn [In] in H. unfold plain.
  repeat destruct H as [H|H]; try (injection H as <- <-; reflexivity). destruct H.
Qed.
Lemma built_in_variable_leaf x e : built_in_variable x = Some e -> is_var e = false /\ scoped e = [] /\ node_types e = [] /\ forall f, transform f e = e.
Proof.
  unfold built_in_variable. intros H. apply lookup_In in H. cbn [In] in H.
  repeat destruct H as [H|H]; try (injection H as <- <-; repeat split; reflexivity). destruct H.
Qed.
Lemma built_in_type_plain x t : built_in_type x = Some t -> plain x.
Proof.
  unfold built_in_type. intros H. apply lookup_In in H. cbn [In] in H. unfold plain.
  repeat destruct H as [H|H]; try (injection H as <- <-; reflexivity). destruct H.
Qed.

Lemma unique_incl {A} (name : A -> string) l : forall seen, incl (unique name seen l) l.
Proof.
  induction l as [|a l IH]; intros seen; cbn [unique]; [apply incl_refl|]. destruct (mem (name a) seen); [apply incl_tl, IH|].
  intros x [<-|H]; [left; reflexivity|right; apply (IH _ _ H)].
Qed.
Lemma public_first_incl {A} (p : A -> bool) l : incl (public_first p l) l.
Proof. unfold public_first. intros x H. apply in_app_or in H. destruct H as [H|H]; apply filter_In in H; tauto. Qed.

(** ** The passes together *)
Section Passes.
  Variable prefix : string.
  Variable m : rmodule.
  Variable is : list import.
  Variable prelude : list interface.
  Hypothesis HW : written_module m.
  Hypothesis HI : clear_imports m is prelude.
  Hypothesis HP : mangled prefix.

  Definition named (names : list (string * string)) (x : string) : hexpr := match get names x with Some y => HVariable y | None => HVariable x end.

  Definition functions : list string := map rf_name (rm_foreign m) ++ map rd_name (rm_functions m).
  Definition types : list string := map rt_name (rm_types m) ++ map ra_name (rm_aliases m).
  Definition own (x : string) : string := (prefix ++ x)%string.

  Lemma own_mangled x : mangled (own x).
  Proof. unfold mangled, own. rewrite has_char_app. unfold mangled in HP. rewrite HP. reflexivity. Qed.

  Lemma goes_by_name i original : goes_by i original (imported_name i original).
  Proof.
    unfold goes_by, imported_name. destruct (mem original (im_unqualified i)) eqn:H; [left; split; [apply mem_In, H|reflexivity]|right]. split; [apply mem_not_In, H|reflexivity].
  Qed.
  Lemma goes_by_same i original x : goes_by i original x -> x = imported_name i original.
  Proof.
    unfold goes_by, imported_name. intros [[H ->]|[H ->]]; [apply mem_In in H|apply mem_not_In in H]; rewrite H; reflexivity.
  Qed.

  (** The variables of the imports *)
  Lemma import_variables x y : In (x, y) (flat_map (fun i => map (fun d => (imported_name i (if_original d), if_name d)) (i_functions (im_interface i))) is) <-> imported_function is x y.
  Proof.
    rewrite in_flat_map. unfold imported_function. split.
    - intros (i & Hi & H). apply in_map_iff in H. destruct H as (d & [= <- <-] & Hd). exists i, d. repeat split; try assumption. apply goes_by_name.
    - intros (i & d & Hi & Hd & Hg & <-). exists i. split; [exact Hi|]. apply in_map_iff. exists d. split; [|exact Hd]. apply goes_by_same in Hg. rewrite Hg. reflexivity.
  Qed.

  Lemma import_types x y : In (x, y) (flat_map (fun i => map (fun n => (imported_name i (fst n), snd n)) (type_names_of (im_interface i))) is) <-> imported_type is x y.
  Proof.
    rewrite in_flat_map. unfold imported_type. split.
    - intros (i & Hi & H). apply in_map_iff in H. destruct H as ([o n] & [= <- <-] & Hn). exists i, o. split; [exact Hi|]. split; [apply goes_by_name|].
      unfold type_names_of in Hn. apply in_app_or in Hn. destruct Hn as [Hn|Hn]; apply in_map_iff in Hn; destruct Hn as (d & [= <- <-] & Hd); apply filter_In in Hd; [left|right]; exists d; tauto.
    - intros (i & o & Hi & Hg & H). exists i. split; [exact Hi|]. apply in_map_iff. exists (o, y). split; [apply goes_by_same in Hg; rewrite Hg; reflexivity|].
      unfold type_names_of. apply in_or_app. destruct H as [(d & Hd & Hp & <- & <-)|(d & Hd & Hp & <- & <-)]; [left|right]; apply in_map_iff; exists d; (split; [reflexivity|]); apply filter_In; auto.
  Qed.

  Lemma imported_mangled x y : imported_function is x y -> mangled y.
  Proof. intros (i & d & Hi & Hd & _ & <-). exact (ci_function_names _ _ _ HI i d Hi Hd). Qed.
  Lemma imported_type_mangled x y : imported_type is x y -> mangled y.
  Proof.
    intros (i & o & Hi & _ & [(d & Hd & _ & _ & <-)|(d & Hd & _ & _ & <-)]); apply (ci_type_names _ _ _ HI (im_interface i)); try assumption; apply in_or_app; left; apply in_map; exact Hi.
  Qed.
  Lemma mangled_plain x : mangled x -> plain x -> False.
  Proof. unfold mangled, plain. congruence. Qed.

  (** The variables of a module *)
  Section Names.
    Variables names2 names3 : list (string * string).
    Hypothesis H2 : forall x y, In (x, y) names2 <-> imported_function is x y /\ ~ In x (map rd_name (rm_functions m)).
    Hypothesis H3 : names3 = map (fun x => (x, own x)) functions.
    Variables T4 T5 : ty -> ty.

    Let F2 := named names2.
    Let F3 := named names3.
    Let F6 := fun x => match built_in_variable x with Some e => e | None => HVariable x end.

    Lemma chain_variable S g2 g3 g6 x :
      (forall x, In x S -> plain x) ->
      (forall x, g2 x = without S F2 x) -> (forall x, g3 x = without S F3 x) -> (forall x, g6 x = without S F6 x) ->
      refers prefix m is S x (transform g6 (retype T5 (retype T4 (transform g3 (g2 x))))).
    Proof.
      intros HS G2 G3 G6. rewrite G2. unfold without at 1. destruct (mem x S) eqn:HxS.
      - cbn [transform]. rewrite G3. unfold without at 1. rewrite HxS. cbn [retype transform]. rewrite G6. unfold without. rewrite HxS. apply refers_local, mem_In, HxS.
      - assert (Hx : ~ In x S) by (apply mem_not_In, HxS).
        assert (HM : forall y, mangled y -> mem y S = false) by (intros y Hy; apply mem_not_In; intros Hin; exact (mangled_plain _ Hy (HS _ Hin))).
        assert (HB : forall y, mangled y -> F6 y = HVariable y).
        { intros y Hy. unfold F6. destruct (built_in_variable y) as [e|] eqn:B; [|reflexivity]. exfalso. exact (mangled_plain _ Hy (built_in_plain _ _ B)). }
        assert (HF : forall y, F3 y = if mem y functions then HVariable (own y) else HVariable y) by (intros y; unfold F3, named; rewrite H3, get_keys; destruct (mem y functions); reflexivity).
        unfold F2, named. destruct (get names2 x) as [y|] eqn:G.
        + apply get_In, H2 in G. destruct G as [Gi Gn]. pose proof (imported_mangled _ _ Gi) as My. cbn [transform]. rewrite G3. unfold without at 1. rewrite (HM y My), HF.
          replace (mem y functions) with false.
          2: { symmetry. apply mem_not_In. intros Hin. exact (mangled_plain _ My (wm_functions _ HW y Hin)). }
          cbn [retype transform]. rewrite G6. unfold without. rewrite (HM y My), (HB y My). apply refers_imported; [exact Hx| |exact Gi].
          intros Hown. unfold own_function in Hown. apply in_app_or in Hown. destruct Hown as [Hown|Hown]; [|exact (Gn Hown)].
          apply in_map_iff in Hown. destruct Hown as (d & <- & Hd). exact (ci_foreign _ _ _ HI d y Hd Gi).
        + cbn [transform]. rewrite G3. unfold without at 1. rewrite HxS, HF. destruct (mem x functions) eqn:Hown; cbn [retype transform]; rewrite G6; unfold without.
          * rewrite (HM _ (own_mangled x)), (HB _ (own_mangled x)). apply refers_own; [exact Hx|apply mem_In, Hown].
          * rewrite HxS. apply mem_not_In in Hown. assert (Hni : forall y, ~ imported_function is x y).
            { intros y Hy. apply (proj1 (get_none _ _) G y), H2. split; [exact Hy|]. intros Hin. apply Hown. unfold functions. apply in_or_app. right. exact Hin. }
            unfold F6. destruct (built_in_variable x) as [e|] eqn:B; [apply refers_built_in|apply refers_unknown]; assumption.
    Qed.

    Variable T1 : ty -> ty.
    Hypothesis HT : forall t, written_type t -> type_resolved prefix m is t (T5 (T4 (T1 t))).

    Lemma without_chain (ys S : list string) F g h : (forall x, g x = without S F x) -> (forall x, h x = without ys g x) -> forall x, h x = without (ys ++ S) F x.
    Proof. intros Hg Hh x. rewrite Hh, without_app. unfold without at 1 2. destruct (mem x ys); [reflexivity|apply Hg]. Qed.

    Lemma chain_resolved : forall e S g2 g3 g6,
      (forall x, In x S -> plain x) -> (forall p x, occurs p e -> In x (bound p) -> plain x) -> (forall p t, occurs p e -> In t (node_types p) -> written_type t) ->
      (forall x, g2 x = without S F2 x) -> (forall x, g3 x = without S F3 x) -> (forall x, g6 x = without S F6 x) ->
      resolved prefix m is S e (transform g6 (retype T5 (retype T4 (transform g3 (transform g2 (retype T1 e)))))).
    Proof.
      induction e as [e IH] using parts_ind. intros S g2 g3 g6 HS Hb Ht G2 G3 G6. destruct (is_var e) eqn:V.
      - destruct e as [| | | | | | | | | | | | | | | | | | | | | | |name]; try discriminate. cbn [retype]. change (transform g2 (HVariable name)) with (g2 name). apply resolved_variable. apply chain_variable; assumption.
      - destruct (retype_shape T1 e) as (S1 & N1 & V1). pose proof (retype_scoped T1 e) as P1. rewrite V in V1. revert S1 N1 V1 P1. generalize (retype T1 e) as e1. intros e1 S1 N1 V1 P1.
        destruct (transform_shape g2 e1 V1) as (S2 & N2 & V2). pose proof (transform_scoped g2 e1 V1) as P2. revert S2 N2 V2 P2. generalize (transform g2 e1) as e2. intros e2 S2 N2 V2 P2.
        destruct (transform_shape g3 e2 V2) as (S3 & N3 & V3). pose proof (transform_scoped g3 e2 V2) as P3. revert S3 N3 V3 P3. generalize (transform g3 e2) as e3. intros e3 S3 N3 V3 P3.
        destruct (retype_shape T4 e3) as (S4 & N4 & V4). pose proof (retype_scoped T4 e3) as P4. rewrite V3 in V4. revert S4 N4 V4 P4. generalize (retype T4 e3) as e4. intros e4 S4 N4 V4 P4.
        destruct (retype_shape T5 e4) as (S5 & N5 & V5). pose proof (retype_scoped T5 e4) as P5. rewrite V4 in V5. revert S5 N5 V5 P5. generalize (retype T5 e4) as e5. intros e5 S5 N5 V5 P5.
        destruct (transform_shape g6 e5 V5) as (S6 & N6 & V6). pose proof (transform_scoped g6 e5 V5) as P6. revert S6 N6 V6 P6. generalize (transform g6 e5) as e6. intros e6 S6 N6 V6 P6.
        apply resolved_node.
        + intros x ->. discriminate.
        + congruence.
        + rewrite N6, N5, N4, N3, N2, N1, !map_map. apply Forall2_map_r. intros t Hin. apply HT. apply (Ht e t); [|exact Hin]. exists None, None. apply within_self.
        + pose proof (Forall2_chain _ _ (fun a c => exists b, part_retyped T1 a b /\ part_transformed g2 b c) _ _ _ (fun a b c Ha Hb => ex_intro _ b (conj Ha Hb)) P1 P2) as Q2.
          pose proof (Forall2_chain _ _ (fun a c => exists b, _ /\ part_transformed g3 b c) _ _ _ (fun a b c Ha Hb => ex_intro _ b (conj Ha Hb)) Q2 P3) as Q3.
          pose proof (Forall2_chain _ _ (fun a c => exists b, _ /\ part_retyped T4 b c) _ _ _ (fun a b c Ha Hb => ex_intro _ b (conj Ha Hb)) Q3 P4) as Q4.
          pose proof (Forall2_chain _ _ (fun a c => exists b, _ /\ part_retyped T5 b c) _ _ _ (fun a b c Ha Hb => ex_intro _ b (conj Ha Hb)) Q4 P5) as Q5.
          pose proof (Forall2_chain _ _ (fun a c => exists b, _ /\ part_transformed g6 b c) _ _ _ (fun a b c Ha Hb => ex_intro _ b (conj Ha Hb)) Q5 P6) as Q6.
          eapply Forall2_mono; [exact Q6|]. clear P1 P2 P3 P4 P5 P6 Q2 Q3 Q4 Q5 Q6.
          intros [ys p] [ys6 p6] Hin ([ys5 p5] & ([ys4 p4] & ([ys3 p3] & ([ys2 p2] & ([ys1 p1] & R1 & R2) & R3) & R4) & R5) & R6).
          destruct R1 as [E1 R1], R2 as (E2 & h2 & K2 & R2), R3 as (E3 & h3 & K3 & R3), R4 as [E4 R4], R5 as [E5 R5], R6 as (E6 & h6 & K6 & R6). cbn [fst snd] in *. subst ys1 ys2 ys3 ys4 ys5 ys6.
          split; [reflexivity|]. rewrite R6, R5, R4, R3, R2, R1. apply scoped_part in Hin. destruct Hin as [Hp Hys]. apply (IH p Hp).
          * intros x Hx. apply in_app_or in Hx. destruct Hx as [Hx|Hx]; [|apply HS, Hx]. apply (Hb e x); [exists None, None; apply within_self|apply Hys, Hx].
          * intros q x Hq. apply Hb. eapply occurs_in_part; eassumption.
          * intros q t Hq. apply Ht. eapply occurs_in_part; eassumption.
          * eapply without_chain; eassumption.
          * eapply without_chain; eassumption.
          * eapply without_chain; eassumption.
    Qed.
  End Names.

  (** The types of a module *)
  Section Types.
    Variables names1 names4 : list (string * string).
    Variable all : list string.
    Hypothesis H1 : forall x y, In (x, y) names1 <-> imported_type is x y /\ ~ In x types.
    Hypothesis H4 : names4 = map (fun x => (x, own x)) types.
    Hypothesis H5 : forall x, In x all -> mangled x.

    Let T1 := transform_type (rename_type names1).
    Let T4 := transform_type (rename_type names4).
    Let T5 := transform_type (fun t => match t with
                            | TReference x => if mem x all then t else match built_in_type x with Some u => u | None => t end
                            | _ => t
                            end).

    Lemma chain_type t : written_type t -> type_resolved prefix m is t (T5 (T4 (T1 t))).
    Proof.
      unfold T1, T4, T5. induction t as [| | |a r IHa IHr|e IHe|k v IHk IHv| | |n o|x| |l r IHl IHr] using ty_ind'; cbn [written_type]; intros H; try contradiction.
      - destruct H as [Ha Hr]. cbn [transform_type rename_type]. apply tr_function; [|apply IHr, Hr]. rewrite !map_map. clear Hr IHr. induction a as [|t a IH]; cbn [map]; [constructor|].
        destruct Ha as [Ht Ha]. inversion IHa; subst. constructor; [auto|]. apply IH; assumption.
      - apply tr_list, IHe, H.
      - destruct H. apply tr_map; auto.
      - apply tr_reference. cbn [transform_type]. cbn [rename_type].
        assert (HB : forall y, mangled y -> built_in_type y = None).
        { intros y Hy. destruct (built_in_type y) as [u|] eqn:B; [|reflexivity]. exfalso. exact (mangled_plain _ Hy (built_in_type_plain _ _ B)). }
        assert (H6 : forall y, mangled y -> transform_type (fun t => match t with TReference x => if mem x all then t else match built_in_type x with Some u => u | None => t end | _ => t end) (TReference y) = TReference y).
        { intros y Hy. cbn [transform_type]. rewrite (HB y Hy). destruct (mem y all); reflexivity. }
        assert (H7 : forall y, get names4 y = if mem y types then Some (own y) else None) by (intros y; rewrite H4, get_keys; reflexivity).
        destruct (get names1 x) as [y|] eqn:G.
        + apply get_In, H1 in G. destruct G as [Gi Gn]. pose proof (imported_type_mangled _ _ Gi) as My. cbn [transform_type rename_type]. rewrite H7.
          replace (mem y types) with false.
          2: { symmetry. apply mem_not_In. intros Hin. exact (mangled_plain _ My (wm_types _ HW y Hin)). }
          rewrite (HB y My). destruct (mem y all); apply type_refers_imported; assumption.
        + cbn [transform_type rename_type]. rewrite H7. destruct (mem x types) eqn:Hown.
          * rewrite (HB _ (own_mangled x)). destruct (mem (own x) all); apply type_refers_own, mem_In, Hown.
          * apply mem_not_In in Hown. assert (Hni : forall y, ~ imported_type is x y).
            { intros y Hy. apply (proj1 (get_none _ _) G y), H1. split; assumption. }
            destruct (mem x all) eqn:Ha.
            -- apply type_refers_unknown; [exact Hown|exact Hni|]. apply HB, H5, mem_In, Ha.
            -- destruct (built_in_type x) as [u|] eqn:B; [apply type_refers_built_in|apply type_refers_unknown]; assumption.
      - destruct H. apply tr_union; auto.
    Qed.
  End Types.

  (** The definitions of a compiled module *)
  Definition m1 : rmodule := rename_types m is.
  Definition m3 : rmodule := compile_import m is prelude.
  Definition m4 : rmodule := qualify_functions m3 prefix.
  Definition m5 : rmodule := qualify_types m4 prefix.
  Definition names1 := type_names m is.
  Definition names2 := variable_names m1 is.
  Definition names3 := map (fun x => (x, own x)) functions.
  Definition names4 := map (fun x => (x, own x)) types.
  Definition all5 := map rt_name (rm_types m5) ++ map ra_name (rm_aliases m5).
  Definition t1 := transform_type (rename_type names1).
  Definition t4 := transform_type (rename_type names4).
  Definition t5 := transform_type (fun t => match t with
                            | TReference x => if mem x all5 then t else match built_in_type x with Some u => u | None => t end
                            | _ => t
                            end).
  Definition f6 := fun x => match built_in_variable x with Some e => e | None => HVariable x end.

  Definition outer_types : list rtype := unique rt_name [] (public_first rt_public
       (flat_map (fun i => map (fun d => RType (it_name d) (it_original d) (it_fields d) (it_open d) (it_public d) true) (i_types i)) (map im_interface is ++ prelude))).
  Definition outer_aliases : list ralias := unique ra_name [] (public_first ra_public
       (flat_map (fun i => map (fun a => RAlias (ia_name a) (ia_original a) (ia_type a) (ia_public a) true) (i_aliases i)) (map im_interface is ++ prelude))).

  Lemma outer_type d : In d outer_types -> rt_external d = true /\ mangled (rt_name d).
  Proof.
    intros H. apply unique_incl, public_first_incl, in_flat_map in H. destruct H as (i & Hi & H). apply in_map_iff in H. destruct H as (t & <- & Ht). split; [reflexivity|].
    cbn [rt_name]. exact (proj1 (ci_type_names _ _ _ HI i Hi) t Ht).
  Qed.
  Lemma outer_alias d : In d outer_aliases -> ra_external d = true /\ mangled (ra_name d).
  Proof.
    intros H. apply unique_incl, public_first_incl, in_flat_map in H. destruct H as (i & Hi & H). apply in_map_iff in H. destruct H as (t & <- & Ht). split; [reflexivity|].
    cbn [ra_name]. exact (proj2 (ci_type_names _ _ _ HI i Hi) t Ht).
  Qed.

  Lemma functions3 : map rf_name (rm_foreign m3) ++ map rd_name (rm_functions m3) = functions.
  Proof.
    unfold m3, compile_import, compile_imports, rename_variables, rename, transform_variables, rename_types, transform_types, functions. cbn [rm_foreign rm_functions]. rewrite !map_map. reflexivity.
  Qed.
  Lemma names3_same : map (fun d => (rf_name d, (prefix ++ rf_name d)%string)) (rm_foreign m3) ++ map (fun d => (rd_name d, (prefix ++ rd_name d)%string)) (rm_functions m3) = names3.
  Proof.
    unfold names3. rewrite <- functions3, map_app. generalize (rm_foreign m3) (rm_functions m3). intros l l'. rewrite !map_map. reflexivity.
  Qed.

  Lemma filter_none {A} (p : A -> bool) l : (forall a, In a l -> p a = false) -> filter p l = [].
  Proof. induction l as [|a l IH]; intros H; [reflexivity|]. cbn [filter]. rewrite (H a (or_introl eq_refl)). apply IH. intros b Hb. apply H. right. exact Hb. Qed.
  Lemma filter_all {A} (p : A -> bool) l : (forall a, In a l -> p a = true) -> filter p l = l.
  Proof. induction l as [|a l IH]; intros H; [reflexivity|]. cbn [filter]. rewrite (H a (or_introl eq_refl)). f_equal. apply IH. intros b Hb. apply H. right. exact Hb. Qed.

  Definition typed1 (d : rtype) : rtype := RType (rt_name d) (rt_original d) (map (fun x => (fst x, t1 (snd x))) (rt_fields d)) (rt_open d) (rt_public d) (rt_external d).
  Definition aliased1 (a : ralias) : ralias := RAlias (ra_name a) (ra_original a) (t1 (ra_type a)) (ra_public a) (ra_external a).

  Lemma types3 : rm_types m3 = outer_types ++ map typed1 (rm_types m).
  Proof.
    unfold m3, compile_import, compile_imports, rename_variables, rename, transform_variables, rename_types, transform_types. cbn [rm_types]. fold outer_types. f_equal.
    apply map_ext_in. intros d Hd. destruct (wm_external _ HW) as [H _]. rewrite (H d Hd). unfold typed1. rewrite (H d Hd). reflexivity.
  Qed.
  Lemma aliases3 : rm_aliases m3 = outer_aliases ++ map aliased1 (rm_aliases m).
  Proof.
    unfold m3, compile_import, compile_imports, rename_variables, rename, transform_variables, rename_types, transform_types. cbn [rm_aliases]. fold outer_aliases. f_equal.
    apply map_ext_in. intros d Hd. destruct (wm_external _ HW) as [_ H]. rewrite (H d Hd). unfold aliased1. rewrite (H d Hd). reflexivity.
  Qed.

  Lemma names4_same : map (fun d => (rt_name d, (prefix ++ rt_name d)%string)) (filter (fun d => negb (rt_external d)) (rm_types m4)) ++
               map (fun a => (ra_name a, (prefix ++ ra_name a)%string)) (filter (fun a => negb (ra_external a)) (rm_aliases m4)) = names4.
  Proof.
    change (rm_types m4) with (rm_types m3). change (rm_aliases m4) with (rm_aliases m3). rewrite types3, aliases3, !filter_app.
    destruct (wm_external _ HW) as [X1 X2].
    rewrite (filter_none _ outer_types) by (intros d Hd; apply outer_type in Hd; destruct Hd as [-> _]; reflexivity).
    rewrite (filter_none _ outer_aliases) by (intros d Hd; apply outer_alias in Hd; destruct Hd as [-> _]; reflexivity).
    rewrite (filter_all _ (map typed1 _)) by (intros d Hd; apply in_map_iff in Hd; destruct Hd as (e & <- & He); cbn [typed1 rt_external]; rewrite (X1 e He); reflexivity).
    rewrite (filter_all _ (map aliased1 _)) by (intros d Hd; apply in_map_iff in Hd; destruct Hd as (e & <- & He); cbn [aliased1 ra_external]; rewrite (X2 e He); reflexivity).
    unfold names4, types. cbn [app]. rewrite map_app, !map_map. reflexivity.
  Qed.

  Lemma own_name x : In x types -> match get names4 x with Some y => y | None => x end = own x.
  Proof. intros H. unfold names4. rewrite get_keys. apply mem_In in H. rewrite H. reflexivity. Qed.
  Lemma outer_name x : mangled x -> match get names4 x with Some y => y | None => x end = x.
  Proof.
    intros H. unfold names4. rewrite get_keys. destruct (mem x types) eqn:E; [|reflexivity]. exfalso. apply mem_In in E. exact (mangled_plain _ H (wm_types _ HW x E)).
  Qed.

  Definition new4 (x : string) : string := match get names4 x with Some y => y | None => x end.

  Lemma types5 : rm_types m5 = outer_types ++
    map (fun d => RType (own (rt_name d)) (rt_original d) (map (fun x => (fst x, t4 (snd x))) (rt_fields d)) (rt_open d) (rt_public d) (rt_external d)) (map typed1 (rm_types m)).
  Proof.
    unfold m5, qualify_types. rewrite names4_same. unfold transform_types. cbn [rm_types]. change (rm_types m4) with (rm_types m3). rewrite types3, !map_app. f_equal.
    - rewrite map_map. rewrite <- (map_id outer_types) at 2. apply map_ext_in. intros d Hd. apply outer_type in Hd. destruct Hd as [Hx Hm]. cbn [rt_external]. rewrite Hx, (outer_name _ Hm). destruct d; cbn in *; congruence.
    - rewrite !map_map. apply map_ext_in. intros d Hd. destruct (wm_external _ HW) as [H _]. cbn [typed1 rt_external rt_name rt_original rt_fields rt_open rt_public]. rewrite (H d Hd).
      rewrite own_name; [reflexivity|]. unfold types. apply in_or_app. left. apply in_map. exact Hd.
  Qed.
  Lemma aliases5 : rm_aliases m5 = outer_aliases ++
    map (fun a => RAlias (own (ra_name a)) (ra_original a) (t4 (ra_type a)) (ra_public a) (ra_external a)) (map aliased1 (rm_aliases m)).
  Proof.
    unfold m5, qualify_types. rewrite names4_same. unfold transform_types. cbn [rm_aliases]. change (rm_aliases m4) with (rm_aliases m3). rewrite aliases3, !map_app. f_equal.
    - rewrite map_map. rewrite <- (map_id outer_aliases) at 2. apply map_ext_in. intros d Hd. apply outer_alias in Hd. destruct Hd as [Hx Hm]. cbn [ra_external]. rewrite Hx, (outer_name _ Hm). destruct d; cbn in *; congruence.
    - rewrite !map_map. apply map_ext_in. intros d Hd. destruct (wm_external _ HW) as [_ H]. cbn [aliased1 ra_external ra_name ra_original ra_type ra_public]. rewrite (H d Hd).
      rewrite own_name; [reflexivity|]. unfold types. apply in_or_app. right. apply in_map. exact Hd.
  Qed.

  Lemma all5_mangled x : In x all5 -> mangled x.
  Proof.
    unfold all5. rewrite types5, aliases5, !map_app, !in_app_iff, !map_map. cbn [rt_name ra_name]. intros [[H|H]|[H|H]]; apply in_map_iff in H; destruct H as (d & <- & Hd).
    - apply outer_type in Hd. tauto.
    - apply own_mangled.
    - apply outer_alias in Hd. tauto.
    - apply own_mangled.
  Qed.

  Lemma names1_ok x y : In (x, y) names1 <-> imported_type is x y /\ ~ In x types.
  Proof.
    unfold names1, type_names. rewrite !fold_remove, import_types. cbn [fst]. unfold types. rewrite in_app_iff. destruct (wm_original _ HW) as (_ & O1 & O2).
    assert (E1 : map rt_original (rm_types m) = map rt_name (rm_types m)) by (apply map_ext_in; intros d Hd; apply O1, Hd).
    assert (E2 : map ra_original (rm_aliases m) = map ra_name (rm_aliases m)) by (apply map_ext_in; intros d Hd; apply O2, Hd).
    rewrite E1, E2. tauto.
  Qed.
  Lemma names2_ok x y : In (x, y) names2 <-> imported_function is x y /\ ~ In x (map rd_name (rm_functions m)).
  Proof.
    unfold names2, variable_names. rewrite fold_remove, import_variables. cbn [fst]. destruct (wm_original _ HW) as (O & _ & _).
    assert (E1 : map rd_original (rm_functions m1) = map rd_name (rm_functions m)).
    { unfold m1, rename_types, transform_types. cbn [rm_functions]. rewrite map_map. apply map_ext_in. intros d Hd. cbn [rd_original]. apply O, Hd. }
    rewrite E1. tauto.
  Qed.

  Definition type_ok t (H : written_type t) : type_resolved prefix m is t (t5 (t4 (t1 t))) := chain_type names1 names4 all5 names1_ok eq_refl all5_mangled t H.

  Definition m' : rmodule := transform_module (compile_import m is prelude) prefix.

  Lemma own_function_name x : In x functions -> match get names3 x with Some y => y | None => x end = own x.
  Proof. intros H. unfold names3. rewrite get_keys. apply mem_In in H. rewrite H. reflexivity. Qed.

  Lemma functions' : rm_functions m' = map (fun d => RFunction (own (rd_name d)) (rd_original d)
    (transform_lambda f6 (retype_lambda t5 (retype_lambda t4 (transform_lambda (named names3) (transform_lambda (named names2) (retype_lambda t1 (rd_lambda d)))))))
    (rd_public d)) (rm_functions m).
  Proof.
    unfold m', transform_module. fold m3. fold m4. fold m5.
    unfold transform_built_in_variables, transform_variables, transform_built_in_types, transform_types. cbn [rm_functions]. fold all5. fold t5. fold f6. rewrite map_map.
    cbn [rd_name rd_original rd_lambda rd_public].
    unfold m5, qualify_types. rewrite names4_same. unfold transform_types. cbn [rm_functions]. fold t4. rewrite map_map. cbn [rd_name rd_original rd_lambda rd_public].
    unfold m4, qualify_functions. rewrite names3_same. unfold rename, transform_variables. cbn [rm_functions]. rewrite !map_map. cbn [rd_name rd_original rd_lambda rd_public].
    unfold m3, compile_import, compile_imports, rename_variables, rename, transform_variables. cbn [rm_functions]. fold m1. fold names2. rewrite map_map. cbn [rd_name rd_original rd_lambda rd_public].
    unfold m1 at 1, rename_types, transform_types. cbn [rm_functions]. fold names1. fold t1. rewrite map_map. cbn [rd_name rd_original rd_lambda rd_public].
    apply map_ext_in. intros d Hd. rewrite own_function_name; [reflexivity|]. unfold functions. apply in_or_app. right. apply in_map. exact Hd.
  Qed.
  Lemma foreign' : rm_foreign m' = map (fun d => RForeign (own (rf_name d)) (rf_foreign d) (t5 (t4 (t1 (rf_type d))))) (rm_foreign m).
  Proof.
    unfold m', transform_module. fold m3. fold m4. fold m5.
    unfold transform_built_in_variables, transform_variables, transform_built_in_types, transform_types. cbn [rm_foreign]. fold all5. fold t5.
    unfold m5, qualify_types. rewrite names4_same. unfold transform_types. cbn [rm_foreign]. fold t4. rewrite map_map. cbn [rf_name rf_foreign rf_type].
    unfold m4, qualify_functions. rewrite names3_same. unfold rename, transform_variables. cbn [rm_foreign]. rewrite map_map. cbn [rf_name rf_foreign rf_type].
    unfold m3, compile_import, compile_imports, rename_variables, rename, transform_variables. cbn [rm_foreign].
    unfold rename_types, transform_types. cbn [rm_foreign]. fold names1. fold t1. rewrite map_map. cbn [rf_name rf_foreign rf_type].
    apply map_ext_in. intros d Hd. rewrite own_function_name; [reflexivity|]. unfold functions. apply in_or_app. left. apply in_map. exact Hd.
  Qed.
  Lemma types' : rm_types m' = outer_types ++ map (fun d => RType (own (rt_name d)) (rt_original d) (map (fun x => (fst x, t5 (t4 (t1 (snd x))))) (rt_fields d)) (rt_open d) (rt_public d) false) (rm_types m).
  Proof.
    unfold m', transform_module. fold m3. fold m4. fold m5.
    unfold transform_built_in_variables, transform_variables, transform_built_in_types, transform_types. cbn [rm_types]. fold all5. fold t5. rewrite types5, map_app. f_equal.
    - rewrite <- (map_id outer_types) at 2. apply map_ext_in. intros d Hd. apply outer_type in Hd. destruct Hd as [Hx _]. rewrite Hx. reflexivity.
    - rewrite !map_map. apply map_ext_in. intros d Hd. destruct (wm_external _ HW) as [H _]. cbn [typed1 rt_external rt_name rt_original rt_fields rt_open rt_public]. rewrite (H d Hd), !map_map. reflexivity.
  Qed.
  Lemma aliases' : rm_aliases m' = outer_aliases ++ map (fun a => RAlias (own (ra_name a)) (ra_original a) (t5 (t4 (t1 (ra_type a)))) (ra_public a) false) (rm_aliases m).
  Proof.
    unfold m', transform_module. fold m3. fold m4. fold m5.
    unfold transform_built_in_variables, transform_variables, transform_built_in_types, transform_types. cbn [rm_aliases]. fold all5. fold t5. rewrite aliases5, map_app. f_equal.
    - rewrite <- (map_id outer_aliases) at 2. apply map_ext_in. intros d Hd. apply outer_alias in Hd. destruct Hd as [Hx _]. rewrite Hx. reflexivity.
    - rewrite !map_map. apply map_ext_in. intros d Hd. destruct (wm_external _ HW) as [_ H]. cbn [aliased1 ra_external ra_name ra_original ra_type ra_public]. rewrite (H d Hd). reflexivity.
  Qed.

  Theorem module_resolved :
    Forall2 (function_resolved prefix m is) (rm_functions m) (rm_functions m') /\
    Forall2 (foreign_resolved prefix m is) (rm_foreign m) (rm_foreign m') /\
    (exists types, rm_types m' = outer_types ++ types /\ Forall2 (record_resolved prefix m is) (rm_types m) types) /\
    (exists aliases, rm_aliases m' = outer_aliases ++ aliases /\ Forall2 (alias_resolved prefix m is) (rm_aliases m) aliases).
  Proof.
    destruct (wm_type _ HW) as (W1 & W2 & W3 & W4). split; [|split; [|split]].
    - rewrite functions'. apply Forall2_map_r. intros d Hd. destruct (W1 d Hd) as (Wr & Wa & We). destruct (wm_bound _ HW d Hd) as (Ba & Bb & _). repeat split.
      + cbn [rd_lambda transform_lambda retype_lambda l_arguments]. rewrite !map_map. cbn [fst snd]. apply Forall2_map_r. intros a Ha. split; [reflexivity|]. apply type_ok, Wa, Ha.
      + cbn [rd_lambda transform_lambda retype_lambda l_result]. apply type_ok, Wr.
      + cbn [rd_lambda]. unfold transform_lambda, retype_lambda. cbn [l_arguments l_body]. rewrite !map_map. cbn [fst].
        apply (chain_resolved names2 names3 names2_ok eq_refl t4 t5 t1 type_ok); try assumption; reflexivity.
    - rewrite foreign'. apply Forall2_map_r. intros d Hd. repeat split. cbn [rf_type]. apply type_ok, W2, Hd.
    - eexists. split; [apply types'|]. apply Forall2_map_r. intros d Hd. repeat split. cbn [rt_fields]. apply Forall2_map_r. intros x Hx. split; [reflexivity|]. apply type_ok. eapply W3; eassumption.
    - eexists. split; [apply aliases'|]. apply Forall2_map_r. intros d Hd. repeat split. cbn [ra_type]. apply type_ok, W4, Hd.
  Qed.
End Passes.
