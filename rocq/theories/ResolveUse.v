(** What compiled code mentions, and how names of modules differ. *)
From Coq Require Import String Ascii List Bool Lia.
From Verif Require Import Base HirType HirTypeSpec HirTypeOrder Hir HirSpec HirParts HirMain LowerTypeSpec Resolve ResolveSpec ResolveProofs.
Import ListNotations.
Local Open Scope string_scope.
Local Open Scope list_scope.

Lemma branch_part_scoped el : forall bs xs p, In p (flat_map branch_parts bs ++ [el]) -> exists ys, In (ys, p) (branch_scopes xs el bs).
Proof.
  induction bs as [|b bs IH]; intros xs p; cbn [branch_scopes flat_map app].
  - intros [<-|[]]. exists xs. left. reflexivity.
  - rewrite <- app_assoc. intros H. apply in_app_or in H. destruct H as [H|H].
    + unfold branch_parts in H. apply in_app_or in H. destruct H as [H|H].
      * apply in_map_iff in H. destruct H as (it & <- & Hit). exists xs. apply in_or_app. left. apply in_map_iff. exists it. auto.
      * destruct (b_condition b); [|destruct H]. destruct H as [<-|[]]. exists (b_names b ++ xs). rewrite !in_app_iff. right. left. left. reflexivity.
    + destruct (IH (b_names b ++ xs) p H) as [ys Hys]. exists ys. rewrite !in_app_iff. auto.
Qed.

Lemma part_scoped e p : In p (parts e) -> exists ys, In (ys, p) (scoped e).
Proof.
  unfold parts. destruct e; cbn [scoped eager_parts lazy_parts bodies]; try (rewrite ?app_nil_r; cbn [In app map snd]; intros H; repeat destruct H as [H|H]; try contradiction; subst; eexists; cbn [In]; eauto 8; fail).
  - rewrite !app_nil_r. intros [<-|H]; [eexists; left; reflexivity|]. exists []. right. apply in_map. exact H.
  - rewrite !app_nil_r. intros [<-|H]; [eexists; left; reflexivity|]. apply in_app_or in H. destruct H as [H|H].
    + apply in_map_iff in H. destruct H as (a & <- & Ha). exists [name]. right. apply in_or_app. left. apply in_map_iff. exists a. auto.
    + destruct else_ as [[t b]|]; [|destruct H]. destruct H as [<-|[]]. exists [name]. right. apply in_or_app. right. left. reflexivity.
  - cbn [app map]. rewrite app_nil_r. intros H. apply in_flat_map in H. destruct H as (el & Hel & H). exists []. apply in_map_iff. exists el. destruct el; cbn in H; destruct H as [<-|[]]; auto.
  - cbn [app map]. rewrite app_nil_r. apply branch_part_scoped.
  - rewrite !app_nil_r. intros H. apply in_flat_map in H. destruct H as (el & Hel & H). exists []. apply in_flat_map. exists el. split; [exact Hel|].
    destruct el; cbn in H; [destruct H as [<-|[<-|[]]]|destruct H as [<-|[]]]; cbn; auto.
  - rewrite !app_nil_r. intros H. apply in_map_iff in H. destruct H as (a & <- & Ha). exists []. apply in_map_iff. exists a. auto.
  - rewrite !app_nil_r. intros [<-|H]; [eexists; left; reflexivity|]. apply in_map_iff in H. destruct H as (a & <- & Ha). exists []. right. apply in_map_iff. exists a. auto.
  - destruct type; cbn; intros [<-|[]]; exists []; auto.
Qed.

Lemma occurs_cases q e : occurs q e -> q = e \/ exists p, In p (parts e) /\ occurs q p.
Proof.
  intros (c & c' & H). inversion H as [c0 e0|c0 e0 p c1 e1 Hp Hw|c0 e0 p c1 e1 Hp Hw|c0 e0 s p c1 e1 Hp Hw]; subst; [left; reflexivity|right..]; exists p;
    (split; [first [apply eager_part, Hp|apply lazy_part, Hp|eapply body_part, Hp]|eexists; eexists; exact Hw]).
Qed.

Lemma Forall2_In_r {A B} (P : A -> B -> Prop) l l' b : Forall2 P l l' -> In b l' -> exists a, In a l /\ P a b.
Proof.
  intros F. induction F as [|a b' l l' H F IH]; intros Hin; [destruct Hin|]. destruct Hin as [<-|Hin]; [exists a; split; [left; reflexivity|exact H]|].
  destruct (IH Hin) as (a0 & Ha & Hp). exists a0. split; [right; exact Ha|exact Hp].
Qed.

Section Use.
  Variable prefix : string.
  Variable m : rmodule.
  Variable is : list import.

  (** Every variable of a resolved expression whose name has a colon is a
      function of the module or an imported one. *)
  Lemma resolved_uses y : mangled y -> forall e S e',
    (forall x, In x S -> plain x) -> (forall p x, occurs p e -> In x (bound p) -> plain x) -> (forall x, occurs (HVariable x) e -> plain x) ->
    resolved prefix m is S e e' -> occurs (HVariable y) e' ->
    (exists x, own_function m x /\ y = (prefix ++ x)%string) \/ exists x, imported_function is x y.
  Proof.
    intros My. induction e as [e IH] using parts_ind. intros S e' HS Hb Hv R Ho.
    destruct R as [S x e'' R|S e e' Hn Hs Ht Hp].
    - assert (Hx : plain x) by (apply Hv; exists None, None; apply within_self).
      assert (Hleaf : forall z, occurs (HVariable y) (HVariable z) -> y = z).
      { intros z Hz. apply occurs_cases in Hz. destruct Hz as [[= ->]|(p & [] & _)]. reflexivity. }
      destruct R as [H|H H0|z H H0 H1|b H H0 H1 H2|H H0 H1 H2].
      + apply Hleaf in Ho. subst y. exfalso. exact (mangled_plain _ My Hx).
      + apply Hleaf in Ho. left. exists x. auto.
      + apply Hleaf in Ho. subst z. right. exists x. exact H1.
      + exfalso. destruct (built_in_variable_leaf _ _ H2) as (V & Sc & _). apply occurs_cases in Ho. destruct Ho as [<-|(p & Hp & _)]; [discriminate|].
        apply part_scoped in Hp. destruct Hp as [ys Hp]. rewrite Sc in Hp. destruct Hp.
      + apply Hleaf in Ho. subst y. exfalso. exact (mangled_plain _ My Hx).
    - apply occurs_cases in Ho. destruct Ho as [<-|(p & Hin & Ho)].
      + exfalso. destruct e; try discriminate. exact (Hn x eq_refl).
      + apply part_scoped in Hin. destruct Hin as [ys Hin]. destruct (Forall2_In_r _ _ _ _ Hp Hin) as ([zs q] & Hq & E & R). cbn [fst snd] in *. subst zs.
        apply scoped_part in Hq. destruct Hq as [Hq Hys]. apply (IH q Hq _ _ ) with (3 := fun x Hx => Hv x (occurs_in_part _ _ _ Hq Hx)) (4 := R); [| |exact Ho].
        * intros x Hx. apply in_app_or in Hx. destruct Hx as [Hx|Hx]; [|apply HS, Hx]. apply (Hb e x); [exists None, None; apply within_self|apply Hys, Hx].
        * intros p0 x Hp0. apply Hb. eapply occurs_in_part; eassumption.
  Qed.

  Lemma type_resolved_uses y t : mangled y -> forall t', written_type t -> type_resolved prefix m is t t' -> In y (references t') ->
    (exists x, own_type m x /\ y = (prefix ++ x)%string) \/ exists x, imported_type is x y.
  Proof.
    intros My. induction t as [| | |a r IHa IHr|e IHe|k v IHk IHv| | |n o|x| |l r IHl IHr] using ty_ind'; intros t' W R; inversion R; subst; cbn [references]; cbn [written_type] in W.
    - destruct W as [Wa Wr]. intros J. apply in_app_or in J. destruct J as [J|J]; [|eapply IHr; eassumption].
      apply in_flat_map in J. destruct J as (u & Hu & J). match goal with F : Forall2 _ a b |- _ => revert F end. clear R. revert b Hu IHa Wa. induction a as [|t a IH]; intros b Hu IHa Wa F; inversion F; subst; [destruct Hu|].
      inversion IHa; subst. destruct Wa as [Wt Wa]. destruct Hu as [<-|Hu]; [eauto|]. eapply IH; eassumption.
    - eapply IHe; eassumption.
    - destruct W. intros J. apply in_app_or in J. destruct J; eauto.
    - intros Hy. match goal with F : type_refers _ _ _ _ _ |- _ => destruct F as [Q|z Q Q0|b Q Q0 H1|Q Q0 H1] end.
      + destruct Hy as [<-|[]]. left. exists x. auto.
      + destruct Hy as [<-|[]]. right. exists x. auto.
      + exfalso. unfold built_in_type in H1. apply lookup_In in H1. cbn [In] in H1. repeat destruct H1 as [H1|H1]; try (injection H1 as <- <-; destruct Hy). destruct H1.
      + exfalso. destruct Hy as [<-|[]]. exact (mangled_plain _ My W).
    - destruct W. intros J. apply in_app_or in J. destruct J; eauto.
  Qed.

  Lemma resolved_types : forall e S e' p' t', resolved prefix m is S e e' -> occurs p' e' -> In t' (node_types p') ->
    exists p t, occurs p e /\ In t (node_types p) /\ type_resolved prefix m is t t'.
  Proof.
    induction e as [e IH] using parts_ind. intros S e' p' t' R Ho Hin.
    destruct R as [S x e'' R|S e e' Hn Hs Ht Hp].
    - exfalso. assert (L : node_types e'' = [] /\ parts e'' = []).
      { destruct R as [H|H H0|z H H0 H1|b H H0 H1 H2|H H0 H1 H2]; try (split; reflexivity). destruct (built_in_variable_leaf _ _ H2) as (_ & Sc & N & _). split; [exact N|].
        destruct (parts b) as [|p l] eqn:P; [reflexivity|]. exfalso. destruct (part_scoped b p) as [ys Hys]; [rewrite P; left; reflexivity|]. rewrite Sc in Hys. destruct Hys. }
      destruct L as [L1 L2]. apply occurs_cases in Ho. destruct Ho as [->|(p & Hp & _)]; [rewrite L1 in Hin; destruct Hin|rewrite L2 in Hp; destruct Hp].
    - apply occurs_cases in Ho. destruct Ho as [->|(p & Hq & Ho)].
      + destruct (Forall2_In_r _ _ _ _ Ht Hin) as (t & Hte & R). exists e, t. split; [exists None, None; apply within_self|auto].
      + apply part_scoped in Hq. destruct Hq as [ys Hq]. destruct (Forall2_In_r _ _ _ _ Hp Hq) as ([zs q] & Hz & E & R). cbn [fst snd] in *. subst zs.
        apply scoped_part in Hz. destruct Hz as [Hz _]. destruct (IH q Hz _ _ _ _ R Ho Hin) as (p0 & t & Hp0 & Ht0 & Rt). exists p0, t. split; [eapply occurs_in_part; eassumption|auto].
  Qed.
End Use.

(** ** Resolution is a function where names are unambiguous *)
Lemma refers_functional prefix m is S x e e' : (forall x y z, imported_function is x y -> imported_function is x z -> y = z) ->
  refers prefix m is S x e -> refers prefix m is S x e' -> e = e'.
Proof.
  intros U H H'. destruct H, H'; try reflexivity; try contradiction; try congruence; try (f_equal; eauto; fail); exfalso; match goal with X : forall y, ~ _, Y : _ |- _ => exact (X _ Y) end.
Qed.
Lemma type_refers_functional prefix m is x t t' : (forall x y z, imported_type is x y -> imported_type is x z -> y = z) ->
  type_refers prefix m is x t -> type_refers prefix m is x t' -> t = t'.
Proof.
  intros U H H'. destruct H, H'; try reflexivity; try contradiction; try congruence; try (f_equal; eauto; fail); exfalso; match goal with X : forall y, ~ _, Y : _ |- _ => exact (X _ Y) end.
Qed.

(** ** Names of different modules *)
Lemma mangled_apart x y : plain x -> plain y -> forall p q, (p ++ ":" ++ x)%string = (q ++ ":" ++ y)%string -> p = q /\ x = y.
Proof.
  intros Px Py. assert (N : forall z r s, plain z -> z = (r ++ ":" ++ s)%string -> False).
  { intros z r s Pz ->. unfold plain in Pz. rewrite !has_char_app in Pz. cbn in Pz. rewrite orb_true_r in Pz. discriminate. }
  induction p as [|c p IH]; intros q H; destruct q as [|d q].
  - injection H as ->. auto.
  - exfalso. cbn in H. injection H as <- H. exact (N x q y Px H).
  - exfalso. cbn in H. injection H as -> H. symmetry in H. exact (N y p x Py H).
  - cbn in H. injection H as -> H. destruct (IH q H) as [-> ->]. auto.
Qed.

(** ** Modules *)
Section Modules.
  Variables (prefix : string) (m : rmodule) (is : list import) (prelude : list interface) (m' : rmodule).
  Hypothesis HR : resolve_module m prefix is prelude = Ok m'.
  Hypothesis HW : written_module m.
  Hypothesis HI : clear_imports m is prelude.
  Hypothesis HP : mangled prefix.

  Lemma resolve_is : m' = ResolveProofs.m' prefix m is prelude.
  Proof. unfold resolve_module in HR. destruct (forallb validate is); [|discriminate]. injection HR as <-. reflexivity. Qed.

  Lemma module_uses d y : In d (rm_functions m') -> occurs (HVariable y) (l_body (rd_lambda d)) -> mangled y ->
    (exists x, own_function m x /\ y = (prefix ++ x)%string) \/ exists x, imported_function is x y.
  Proof.
    intros Hd Ho My. destruct (module_resolved prefix m is prelude HW HI HP) as (F & _). rewrite <- resolve_is in F. destruct (Forall2_In_r _ _ _ _ F Hd) as (d0 & Hd0 & _ & _ & _ & _ & _ & R).
    destruct (wm_bound _ HW d0 Hd0) as (Ba & Bb & Bv). eapply resolved_uses; eassumption.
  Qed.

  Lemma mentioned_resolved t' : mentioned m' t' -> exists t, written_type t /\ type_resolved prefix m is t t'.
  Proof.
    destruct (module_resolved prefix m is prelude HW HI HP) as (F & G & (ts & T1 & T2) & (als & A1 & A2)). rewrite <- resolve_is in *. destruct (wm_type _ HW) as (W1 & W2 & W3 & W4).
    intros H. destruct H as [d Hd|d a Hd Ha|d e t Hd He Ht|d Hd|d x Hd Hx Hin|a Ha Hx].
    - destruct (Forall2_In_r _ _ _ _ F Hd) as (d0 & Hd0 & _ & _ & _ & _ & R & _). exists (l_result (rd_lambda d0)). split; [apply W1, Hd0|exact R].
    - destruct (Forall2_In_r _ _ _ _ F Hd) as (d0 & Hd0 & _ & _ & _ & R & _ & _). destruct (Forall2_In_r _ _ _ _ R Ha) as (a0 & Ha0 & _ & Ra). exists (snd a0). split; [apply (W1 d0 Hd0), Ha0|exact Ra].
    - destruct (Forall2_In_r _ _ _ _ F Hd) as (d0 & Hd0 & _ & _ & _ & _ & _ & R). destruct (resolved_types _ _ _ _ _ _ _ _ R He Ht) as (p & u & Hp & Hu & Ru). exists u. split; [|exact Ru].
      destruct (W1 d0 Hd0) as (_ & _ & We). eapply We; eassumption.
    - destruct (Forall2_In_r _ _ _ _ G Hd) as (d0 & Hd0 & _ & _ & R). exists (rf_type d0). split; [apply W2, Hd0|exact R].
    - rewrite T1 in Hd. apply in_app_or in Hd. destruct Hd as [Hd|Hd]; [apply (outer_type m is prelude HI) in Hd; destruct Hd; congruence|].
      destruct (Forall2_In_r _ _ _ _ T2 Hd) as (d0 & Hd0 & _ & _ & _ & _ & _ & R). destruct (Forall2_In_r _ _ _ _ R Hin) as (x0 & Hx0 & _ & Rx). exists (snd x0). split; [eapply W3; eassumption|exact Rx].
    - rewrite A1 in Ha. apply in_app_or in Ha. destruct Ha as [Ha|Ha]; [apply (outer_alias m is prelude HI) in Ha; destruct Ha; congruence|].
      destruct (Forall2_In_r _ _ _ _ A2 Ha) as (a0 & Ha0 & _ & _ & _ & _ & R). exists (ra_type a0). split; [apply W4, Ha0|exact R].
  Qed.

  Lemma module_type_uses t y : mentioned m' t -> In y (references t) -> mangled y ->
    (exists x, own_type m x /\ y = (prefix ++ x)%string) \/ exists x, imported_type is x y.
  Proof. intros Ht Hy My. destruct (mentioned_resolved t Ht) as (u & Wu & R). eapply type_resolved_uses; eassumption. Qed.

  Lemma function_names d : In d (rm_functions m') -> exists d0, In d0 (rm_functions m) /\ rd_name d = (prefix ++ rd_name d0)%string /\ rd_original d = rd_name d0 /\ rd_public d = rd_public d0.
  Proof.
    intros Hd. destruct (module_resolved prefix m is prelude HW HI HP) as (F & _). rewrite <- resolve_is in F. destruct (Forall2_In_r _ _ _ _ F Hd) as (d0 & Hd0 & N & O & P & _).
    exists d0. destruct (wm_original _ HW) as (Ho & _). rewrite (Ho d0 Hd0) in O. auto.
  Qed.
  Lemma foreign_names d : In d (rm_foreign m') -> exists d0, In d0 (rm_foreign m) /\ rf_name d = (prefix ++ rf_name d0)%string.
  Proof.
    intros Hd. destruct (module_resolved prefix m is prelude HW HI HP) as (_ & F & _). rewrite <- resolve_is in F. destruct (Forall2_In_r _ _ _ _ F Hd) as (d0 & Hd0 & N & _). eauto.
  Qed.
  Lemma interface_mangled : (forall d, In d (i_functions (module_interface m')) -> mangled (if_name d)) /\
    (forall d, In d (i_types (module_interface m')) -> mangled (it_name d)) /\ (forall d, In d (i_aliases (module_interface m')) -> mangled (ia_name d)).
  Proof.
    assert (N : forall x, mangled (prefix ++ x)) by (intros x; unfold mangled; rewrite has_char_app; unfold mangled in HP; rewrite HP; reflexivity).
    destruct (module_resolved prefix m is prelude HW HI HP) as (F & G & (ts & T1 & T2) & (als & A1 & A2)). rewrite <- resolve_is in *. cbn [module_interface i_functions i_types i_aliases]. repeat split.
    - intros d Hd. apply in_map_iff in Hd. destruct Hd as (f & <- & Hf). apply filter_In in Hf. destruct Hf as [Hf _]. cbn [if_name]. destruct (Forall2_In_r _ _ _ _ F Hf) as (d0 & Hd0 & -> & _). apply N.
    - intros d Hd. apply in_map_iff in Hd. destruct Hd as (f & <- & Hf). cbn [it_name]. rewrite T1 in Hf. apply in_app_or in Hf. destruct Hf as [Hf|Hf]; [apply (outer_type m is prelude HI) in Hf; tauto|].
      destruct (Forall2_In_r _ _ _ _ T2 Hf) as (d0 & Hd0 & -> & _). apply N.
    - intros d Hd. apply in_map_iff in Hd. destruct Hd as (f & <- & Hf). cbn [ia_name]. rewrite A1 in Hf. apply in_app_or in Hf. destruct Hf as [Hf|Hf]; [apply (outer_alias m is prelude HI) in Hf; tauto|].
      destruct (Forall2_In_r _ _ _ _ A2 Hf) as (d0 & Hd0 & -> & _). apply N.
  Qed.
End Modules.

Lemma interface_function m d : In d (i_functions (module_interface m)) -> offers_function m (if_name d).
Proof. cbn [module_interface i_functions]. intros H. apply in_map_iff in H. destruct H as (f & <- & Hf). apply filter_In in Hf. exists f. tauto. Qed.
Lemma interface_type m x :
  (exists d, In d (i_types (module_interface m)) /\ it_public d = true /\ it_name d = x) \/ (exists a, In a (i_aliases (module_interface m)) /\ ia_public a = true /\ ia_name a = x) -> offers_type m x.
Proof.
  cbn [module_interface i_types i_aliases]. intros [(d & Hd & P & N)|(d & Hd & P & N)]; [left|right]; apply in_map_iff in Hd; destruct Hd as (f & <- & Hf); exists f; cbn in P, N;
    apply andb_true_iff in P; destruct P as [P1 P2]; apply negb_true_iff in P2; auto.
Qed.
