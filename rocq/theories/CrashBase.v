(** Operations on types do not crash. *)
From Coq Require Import String List Bool Lia.
From Verif Require Import Base HirType HirTypeOrder HirTypeSpec HirTypeTermination HirTypeEq Hir HirParts HirValidate.
Import ListNotations.

Definition calm {A} (r : res A) : Prop := r <> Panic.

Lemma calm_ok {A} (a : A) : calm (Ok a).
Proof. discriminate. Qed.
Lemma calm_reject {A} s : calm (@reject A s).
Proof. discriminate. Qed.
Lemma calm_bind {A B} (r : res A) (g : A -> res B) : calm r -> (forall a, r = Ok a -> calm (g a)) -> calm (bind r g).
Proof. intros H1 H2. destruct r; cbn; [apply H2; reflexivity|discriminate|exfalso; apply H1; reflexivity|discriminate]. Qed.
Lemma calm_rmap {A B} (g : A -> B) r : calm r -> calm (rmap g r).
Proof. intros H. apply calm_bind; [exact H|]. intros. apply calm_ok. Qed.
Lemma calm_mapM {A B} (g : A -> res B) l : (forall a, In a l -> calm (g a)) -> calm (mapM g l).
Proof.
  induction l as [|a l IH]; intros H; cbn [mapM]; [apply calm_ok|]. apply calm_bind; [apply H; left; reflexivity|]. intros b _.
  apply calm_bind; [apply IH; intros x Hx; apply H; right; exact Hx|]. intros. apply calm_ok.
Qed.
Lemma calm_each {A} (g : A -> res unit) l : (forall a, In a l -> calm (g a)) -> calm (each g l).
Proof.
  induction l as [|a l IH]; intros H; cbn [each]; [apply calm_ok|]. apply calm_bind; [apply H; left; reflexivity|]. intros b _.
  apply IH. intros x Hx. apply H. right. exact Hx.
Qed.
Lemma calm_andr a b : calm a -> calm b -> calm (andr a b).
Proof. intros H1 H2. apply calm_bind; [exact H1|]. intros [] _; [exact H2|apply calm_ok]. Qed.
Lemma calm_orr a b : calm a -> calm b -> calm (orr a b).
Proof. intros H1 H2. apply calm_bind; [exact H1|]. intros [] _; [apply calm_ok|exact H2]. Qed.
Lemma calm_annotated t : calm (annotated t).
Proof. destruct t; discriminate. Qed.
Lemma calm_resolve E x : calm (resolve E x).
Proof. unfold resolve. destruct (lookup E x); discriminate. Qed.
Lemma calm_resolve_record R x : calm (resolve_record R x).
Proof. unfold resolve_record. destruct (lookup R x); discriminate. Qed.
Lemma calm_field fts x : calm (field_type fts x).
Proof. unfold field_type. destruct (lookup fts x); discriminate. Qed.

Lemma calm_canonicalize E n : (forall t, calm (canonicalize n E t)) /\
  (forall t acc, calm (collect_types n E t acc) /\ (forall s, collect_types n E t acc = Ok s -> s <> [])).
Proof.
  induction n as [|n [IHc IHs]]; [split; [discriminate|split; [discriminate|intros s H; discriminate H]]|]. split.
  - intros t. destruct t; cbn [canonicalize]; try apply calm_ok.
    + apply calm_bind; [apply calm_mapM; intros; apply IHc|]. intros. apply calm_bind; [apply IHc|]. intros. apply calm_ok.
    + apply calm_bind; [apply IHc|]. intros. apply calm_ok.
    + apply calm_bind; [apply IHc|]. intros. apply calm_bind; [apply IHc|]. intros. apply calm_ok.
    + apply calm_bind; [apply calm_resolve|]. intros. apply IHc.
    + apply calm_bind; [apply IHs|]. intros s Hs. apply IHs in Hs. destruct s; [contradiction|]. cbn. apply calm_ok.
  - intros t acc.
    assert (A : forall t, calm (bind (canonicalize n E t) (fun c => Ok (set_insert c acc))) /\
      forall s, bind (canonicalize n E t) (fun c => Ok (set_insert c acc)) = Ok s -> s <> []).
    { intros u. split; [apply calm_bind; [apply IHc|]; intros; apply calm_ok|]. intros s H. apply bind_ok in H. destruct H as (c & _ & H). injection H as <-. apply set_insert_nonnil. }
    destruct t; cbn [collect_types]; try apply A.
    + split; [apply calm_bind; [apply calm_resolve|]; intros; apply IHs|]. intros s H. apply bind_ok in H. destruct H as (c & _ & H). eapply IHs, H.
    + split; [apply calm_bind; [apply IHs|]; intros; apply IHs|]. intros s H. apply bind_ok in H. destruct H as (c & _ & H). eapply IHs, H.
Qed.

Lemma calm_canon n E t : calm (canonicalize n E t).
Proof. apply (proj1 (calm_canonicalize E n)). Qed.

Lemma canon_flat n E t c : canonicalize n E t = Ok c -> references c = [].
Proof. apply (proj1 (canon_noref n E)). Qed.

Lemma flat_in {A} (g : A -> list string) l : flat_map g l = [] <-> forall a, In a l -> g a = [].
Proof.
  split.
  - induction l as [|b l IH]; cbn; intros H a Ha; [destruct Ha|]. apply app_eq_nil in H. destruct H as [H1 H2]. destruct Ha as [<-|Ha]; auto.
  - induction l as [|b l IH]; cbn; intros H; [reflexivity|]. rewrite (H b) by auto. rewrite IH; [reflexivity|]. auto.
Qed.

Fixpoint calm_equal_canonical s {struct s} : forall t, references s = [] -> references t = [] -> calm (equal_canonical s t).
Proof.
  intros t Hs Ht. destruct s; try (cbn in Hs; discriminate Hs); destruct t; try (cbn in Ht; discriminate Ht); try (cbn; discriminate).
  - cbn [equal_canonical]. cbn [references] in Hs, Ht. apply app_eq_nil in Hs, Ht. destruct Hs as [Ha Hr], Ht as [Ha' Hr'].
    apply calm_andr; [apply calm_ok|]. apply calm_andr; [|apply calm_equal_canonical; assumption].
    revert arguments0 Ha Ha'. induction arguments as [|a l IH]; intros [|a' l'] Ha Ha'; cbn [zip_all]; try apply calm_ok.
    cbn [flat_map] in Ha, Ha'. apply app_eq_nil in Ha, Ha'. apply calm_andr; [apply calm_equal_canonical; tauto|apply IH; tauto].
  - cbn [equal_canonical]. apply calm_equal_canonical; assumption.
  - cbn [equal_canonical]. cbn [references] in Hs, Ht. apply app_eq_nil in Hs, Ht. apply calm_andr; apply calm_equal_canonical; tauto.
  - cbn [equal_canonical]. cbn [references] in Hs, Ht. apply app_eq_nil in Hs, Ht. apply calm_andr; apply calm_equal_canonical; tauto.
Qed.

Lemma calm_equal n E s t : calm (equal_types n E s t).
Proof.
  apply calm_bind; [apply calm_canon|]. intros c Hc. apply calm_bind; [apply calm_canon|]. intros d Hd. apply canon_flat in Hc, Hd. apply calm_equal_canonical; assumption.
Qed.

Lemma calm_member n E s t : calm (subsumes_member n E s t).
Proof. induction t; cbn [subsumes_member]; try apply calm_ok; try apply calm_equal. apply calm_orr; assumption. Qed.
Lemma calm_subsumes_canonical n E s t : calm (subsumes_canonical n E s t).
Proof.
  induction s; cbn [subsumes_canonical]; destruct t; try apply calm_ok; try apply calm_member. apply calm_andr; assumption.
Qed.
Lemma calm_subsumes n E s t : calm (subsumes n E s t).
Proof. apply calm_bind; [apply calm_canon|]. intros. apply calm_bind; [apply calm_canon|]. intros. apply calm_subsumes_canonical. Qed.

Lemma calm_members n E t : calm (union_members n E t).
Proof. apply calm_bind; [apply calm_canon|]. intros. apply calm_ok. Qed.
Lemma calm_difference n E s t : calm (type_difference n E s t).
Proof.
  apply calm_bind; [apply calm_canon|]. intros c _. apply calm_bind; [apply calm_canon|]. intros d _.
  destruct (is_any d); [apply calm_ok|]. destruct (is_any c); [apply calm_ok|].
  apply calm_bind; [apply calm_members|]. intros. apply calm_bind; [apply calm_members|]. intros. apply calm_ok.
Qed.

Fixpoint calm_id_string t {struct t} : references t = [] -> calm (id_string t).
Proof.
  intros H. destruct t; try (cbn in H; discriminate H); try (cbn; discriminate); cbn [references] in H; cbn [id_string].
  - apply app_eq_nil in H. destruct H as [Ha Hr]. apply calm_bind.
    + induction arguments as [|a l IH]; cbn [mapM]; [apply calm_ok|]. cbn [flat_map] in Ha. apply app_eq_nil in Ha. apply calm_bind; [apply calm_id_string; tauto|].
      intros. apply calm_bind; [apply IH; tauto|]. intros. apply calm_ok.
    + intros. apply calm_bind; [apply calm_id_string; assumption|]. intros. apply calm_ok.
  - apply calm_bind; [apply calm_id_string; assumption|]. intros. apply calm_ok.
  - apply app_eq_nil in H. apply calm_bind; [apply calm_id_string; tauto|]. intros. apply calm_bind; [apply calm_id_string; tauto|]. intros. apply calm_ok.
  - apply app_eq_nil in H. apply calm_bind; [apply calm_id_string; tauto|]. intros. apply calm_bind; [apply calm_id_string; tauto|]. intros. apply calm_ok.
Qed.
Lemma calm_type_id n E t : calm (type_id_string n E t).
Proof. apply calm_bind; [apply calm_canon|]. intros c Hc. apply calm_id_string. eapply canon_flat, Hc. Qed.

Lemma calm_comparable_cached n E R : forall cache t, calm (comparable_cached n E R cache t).
Proof.
  induction n as [|n IH]; intros cache t; [discriminate|]. cbn [comparable_cached]. destruct t; try apply calm_ok; try apply IH.
  - apply calm_andr; apply IH.
  - destruct (mem _ _); [apply calm_ok|]. apply calm_bind; [apply calm_resolve_record|]. intros. apply calm_bind; [apply calm_mapM; intros; apply IH|]. intros. apply calm_ok.
  - apply calm_bind; [apply calm_resolve|]. intros. apply IH.
  - apply calm_andr; apply IH.
Qed.
Lemma calm_comparable n E R t : calm (comparable n E R t).
Proof. apply calm_comparable_cached. Qed.

Lemma calm_function n E t : calm (canonical_function n E t).
Proof. apply calm_bind; [apply calm_canon|]. intros [] _; try apply calm_reject; apply calm_ok. Qed.
Lemma calm_list n E t : calm (canonical_list n E t).
Proof. apply calm_bind; [apply calm_canon|]. intros [] _; try apply calm_reject; apply calm_ok. Qed.
Lemma calm_map n E t : calm (canonical_map n E t).
Proof. apply calm_bind; [apply calm_canon|]. intros [] _; try apply calm_reject; apply calm_ok. Qed.
Lemma calm_record n E t : calm (canonical_record n E t).
Proof. apply calm_bind; [apply calm_canon|]. intros [] _; try apply calm_reject; apply calm_ok. Qed.
Lemma calm_record_fields n E R t : calm (record_fields n E R t).
Proof. apply calm_bind; [apply calm_record|]. intros. apply calm_resolve_record. Qed.

(** ** Types that do not stand for [any] *)
Fixpoint may_be_any (t : ty) : bool :=
  match t with TAny | TReference _ => true | TUnion l r => may_be_any l || may_be_any r | _ => false end.

Lemma set_insert_in t s x : In x (set_insert t s) -> x = t \/ In x s.
Proof.
  induction s as [|u us IH]; cbn; [intros [<-|[]]; auto|]. destruct (ty_compare t u); cbn; intros H; [auto| |].
  - destruct H as [<-|H]; auto.
  - destruct H as [<-|H]; [auto|]. destruct (IH H); auto.
Qed.

Lemma not_any_canonical E n : (forall t c, may_be_any t = false -> canonicalize n E t = Ok c -> c <> TAny) /\
  (forall t acc s, may_be_any t = false -> ~ In TAny acc -> collect_types n E t acc = Ok s -> ~ In TAny s).
Proof.
  induction n as [|n [IHc IHs]]; [split; [intros t c _ H; discriminate H|intros t acc s _ _ H; discriminate H]|]. split.
  - intros t c M H. destruct t; cbn in M; try discriminate M; cbn [canonicalize] in H; try (injection H as <-; discriminate).
    + apply bind_ok in H. destruct H as (a & _ & H). apply bind_ok in H. destruct H as (b & _ & H). injection H as <-. discriminate.
    + apply bind_ok in H. destruct H as (a & _ & H). injection H as <-. discriminate.
    + apply bind_ok in H. destruct H as (a & _ & H). apply bind_ok in H. destruct H as (b & _ & H). injection H as <-. discriminate.
    + apply bind_ok in H. destruct H as (s & Hs & H). apply IHs in Hs; [|exact M|intros []]. destruct s as [|u us]; cbn in H; [discriminate H|]. injection H as <-.
      assert (Hu : u <> TAny) by (intros ->; apply Hs; left; reflexivity). assert (Hus : ~ In TAny us) by (intros X; apply Hs; right; exact X). clear Hs M.
      revert u Hu. induction us as [|v us IH]; intros u Hu; [exact Hu|]. cbn [fold_left]. apply IH; [intros X; apply Hus; right; exact X|].
      unfold join. destruct (is_any u); [exact Hu|]. destruct (is_any v) eqn:V; [|discriminate]. destruct v; try discriminate V. exfalso. apply Hus. left. reflexivity.
  - intros t acc s M Ha H. destruct t; cbn in M; try discriminate M; cbn [collect_types] in H.
    all: try (apply bind_ok in H; destruct H as (c & Hc & H); injection H as <-; intros X; apply set_insert_in in X; destruct X as [X|X];
      [revert X; apply not_eq_sym; eapply IHc; [|exact Hc]; reflexivity|exact (Ha X)]).
    apply orb_false_elim in M. destruct M as [M1 M2]. apply bind_ok in H. destruct H as (s1 & H1 & H). eapply IHs; [exact M2| |exact H]. eapply IHs; [exact M1|exact Ha|exact H1].
Qed.
