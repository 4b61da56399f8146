(** Where the parts of canonical types come from. *)
From Coq Require Import String Ascii List ZArith Bool Lia.
From Verif Require Import Base Mir HirType HirTypeOrder HirTypeSpec HirTypeTermination HirTypeEq HirTypeSub HirTypeModule Hir HirSpec
  HirMir HirProgram LowerTypeSpec LowerProgramSpec LowerCompleteSpec LowerTypeBase.
Import ListNotations.
Local Open Scope string_scope.

Definition collection (t : ty) : bool := match t with TList _ | TMap _ _ => true | _ => false end.

Section Origin.
  Variable f : string -> string.
  Variable E : tenv.
  Variable R : renv.
  Hypothesis W : wf f E.

  Lemma origin t c a : canon E t c -> In a (members_canonical c) -> exists b, alt E t b /\ canon E b a.
  Proof.
    intros Hc Ha. apply canon_collects in Hc. destruct Hc as (s & Hs & Hr). destruct (collects_acc _ _ _ _ Hs) as (m & Hm & Hms & Hnu & _).
    rewrite (collects_fun _ _ _ _ _ Hm Hs) in *. rewrite (reduce_members s c Hms Hnu Hr) in Ha. apply norm_In in Ha.
    assert (In a s) as Hi by (destruct Ha as [[H ->]|[_ H]]; exact H). destruct Hs as [n Hs]. apply (alt_collects_n E _ _ _ _ Hs) in Hi. destruct Hi as [[]|Hi]. exact Hi.
  Qed.

  Lemma alt_atom t b : alt E t b -> is_union b = false /\ forall x, b <> TReference x.
  Proof. induction 1 as [x t a _ _ IH|l r a _ IH|l r a _ IH|t H1 H2]; auto. split; [|exact H1]. destruct t; try reflexivity. exfalso. eapply H2. reflexivity. Qed.
  Lemma alt_inside t b : alt E t b -> inside E t b.
  Proof. induction 1; econstructor; eassumption. Qed.
  Lemma alt_part t b : alt E t b -> part E R t b.
  Proof. induction 1; econstructor; eassumption. Qed.
  Lemma inside_trans t u v : inside E t u -> inside E u v -> inside E t v.
  Proof. intros H G. induction H; auto; try (econstructor; eauto; fail). Qed.
  Lemma part_trans t u v : part E R t u -> part E R u v -> part E R t v.
  Proof. intros H G. induction H; auto; try (econstructor; eauto; fail). Qed.

  (** The kind of a type that is not a union or an alias *)
  Lemma from_list b e : is_union b = false -> (forall x, b <> TReference x) -> canon E b (TList e) -> exists e0, b = TList e0 /\ canon E e0 e.
  Proof.
    intros U N H. destruct b; try discriminate U; try (exfalso; eapply N; reflexivity); try (destruct H as [[|j] H]; discriminate).
    - apply canon_function in H. destruct H as (? & ? & _ & _ & Q). discriminate.
    - apply canon_list in H. destruct H as (e' & H & Q). injection Q as <-. eauto.
    - apply canon_map in H. destruct H as (? & ? & _ & _ & Q). discriminate.
  Qed.
  Lemma from_map b k v : is_union b = false -> (forall x, b <> TReference x) -> canon E b (TMap k v) -> exists k0 v0, b = TMap k0 v0 /\ canon E k0 k /\ canon E v0 v.
  Proof.
    intros U N H. destruct b; try discriminate U; try (exfalso; eapply N; reflexivity); try (destruct H as [[|j] H]; discriminate).
    - apply canon_function in H. destruct H as (? & ? & _ & _ & Q). discriminate.
    - apply canon_list in H. destruct H as (? & _ & Q). discriminate.
    - apply canon_map in H. destruct H as (k' & v' & H & G & Q). injection Q as <- <-. eauto.
  Qed.
  Lemma from_function b a r : is_union b = false -> (forall x, b <> TReference x) -> canon E b (TFunction a r) -> exists a0 r0, b = TFunction a0 r0 /\ Forall2 (canon E) a0 a /\ canon E r0 r.
  Proof.
    intros U N H. destruct b; try discriminate U; try (exfalso; eapply N; reflexivity); try (destruct H as [[|j] H]; discriminate).
    - apply canon_function in H. destruct H as (a' & r' & H & G & Q). injection Q as <- <-. eauto.
    - apply canon_list in H. destruct H as (? & _ & Q). discriminate.
    - apply canon_map in H. destruct H as (? & ? & _ & _ & Q). discriminate.
  Qed.
  Lemma from_plain b c : is_union b = false -> (forall x, b <> TReference x) -> canon E b c -> match c with TFunction _ _ | TList _ | TMap _ _ => True | _ => b = c end.
  Proof.
    intros U N H. destruct b; try discriminate U; try (exfalso; eapply N; reflexivity); try (destruct H as [[|j] H]; [discriminate|]; injection H as <-; reflexivity).
    - apply canon_function in H. destruct H as (? & ? & _ & _ & ->). exact I.
    - apply canon_list in H. destruct H as (? & _ & ->). exact I.
    - apply canon_map in H. destruct H as (? & ? & _ & _ & ->). exact I.
  Qed.

  Lemma visit_trans t u v : In u (visit_type t) -> In v (visit_type u) -> In v (visit_type t).
  Proof.
    induction t as [| | |a r IHa IHr|e IHe|k v' IHk IHv| | |n o|x| |l r IHl IHr] using ty_ind'; intros H G; cbn [visit_type] in H;
      (destruct H as [<-|H]; [exact G|]); cbn [visit_type]; right; rewrite ?in_app_iff in *; try (destruct H; fail); try tauto.
    destruct H as [H|H]; [left; auto|right]. apply in_flat_map in H. destruct H as (w & Hw & H). apply in_flat_map. exists w. split; [exact Hw|].
    rewrite Forall_forall in IHa. apply IHa; assumption.
  Qed.
  Lemma visit_inside t u : In u (visit_type t) -> inside E t u.
  Proof.
    induction t as [| | |a r IHa IHr|e IHe|k v' IHk IHv| | |n o|x| |l r IHl IHr] using ty_ind'; intros H; cbn [visit_type] in H;
      (destruct H as [<-|H]; [constructor|]); rewrite ?in_app_iff in *; try (destruct H; fail).
    - destruct H as [H|H]; [apply inside_result; auto|]. apply in_flat_map in H. destruct H as (w & Hw & H). eapply inside_argument; [exact Hw|].
      rewrite Forall_forall in IHa. apply IHa; assumption.
    - apply inside_list. auto.
    - destruct H as [H|H]; [apply inside_key|apply inside_value]; auto.
    - destruct H as [H|H]; [apply inside_left|apply inside_right]; auto.
  Qed.

  Lemma visit_members c s : In s (visit_type c) -> is_union s = false -> exists u, In u (members_canonical c) /\ In s (visit_type u).
  Proof.
    induction c as [| | |a r _ _|e _|k v' _ _| | |n o|x| |l r IHl IHr] using ty_ind'; intros H N;
      try (eexists; split; [left; reflexivity|exact H]).
    cbn [visit_type] in H. destruct H as [<-|H]; [discriminate|]. apply in_app_or in H. cbn [members_canonical].
    destruct H as [H|H]; [destruct (IHl H N) as (u & Hu & G)|destruct (IHr H N) as (u & Hu & G)]; exists u; (split; [apply in_or_app; auto|exact G]).
  Qed.

  Lemma canonical_members_parts c : forall u, In u (members_canonical c) -> forall t s, canon E t u -> In s (visit_type u) -> is_union s = false ->
    exists b, inside E t b /\ canon E b s /\ is_union b = false /\ forall x, b <> TReference x.
  Proof.
    assert (Go : forall d, (forall u, In u (members_canonical d) -> forall t s, canon E t u -> In s (visit_type u) -> is_union s = false ->
        exists b, inside E t b /\ canon E b s /\ is_union b = false /\ forall x, b <> TReference x) ->
      forall t s, canon E t d -> In s (visit_type d) -> is_union s = false -> exists b, inside E t b /\ canon E b s /\ is_union b = false /\ forall x, b <> TReference x).
    { intros d IH t s Hc Hs N. destruct (visit_members d s Hs N) as (u & Hu & G). destruct (origin t d u Hc Hu) as (b & Hb & Cb).
      destruct (IH u Hu b s Cb G N) as (b' & I' & C' & N'). exists b'. split; [eapply inside_trans; [apply alt_inside, Hb|exact I']|auto]. }
    assert (Self : forall d t, canon E t d -> is_union d = false -> exists b, inside E t b /\ canon E b d /\ is_union b = false /\ forall x, b <> TReference x).
    { intros d t Hc N. destruct (origin t d d Hc) as (b & Hb & Cb); [rewrite members_nonunion by exact N; left; reflexivity|].
      exists b. destruct (alt_atom t b Hb). split; [apply alt_inside, Hb|auto]. }
    induction c as [| | |a r IHa IHr|e IHe|k v IHk IHv| | |n o|x| |l r IHl IHr] using ty_ind'; intros u Hu t s Hc Hs N.
    12: { cbn [members_canonical] in Hu. apply in_app_or in Hu. destruct Hu as [Hu|Hu]; [eapply IHl|eapply IHr]; eassumption. }
    all: destruct Hu as [<-|[]]; pose proof Hs as Hs0; cbn [visit_type] in Hs; (destruct Hs as [<-|Hs]; [apply Self; [exact Hc|reflexivity]|]); try (destruct Hs; fail).
    - destruct (Self _ _ Hc eq_refl) as (b & Ib & Cb & Ub & Nb). destruct (from_function b a r Ub Nb Cb) as (a0 & r0 & -> & Ca & Cr). apply in_app_or in Hs. destruct Hs as [Hs|Hs].
      + destruct (Go r IHr r0 s Cr Hs N) as (b' & I' & G). exists b'. split; [|exact G]. eapply inside_trans; [exact Ib|]. apply inside_result, I'.
      + apply in_flat_map in Hs. destruct Hs as (w & Hw & Hs).
        assert (exists w0, In w0 a0 /\ canon E w0 w) as (w0 & Hw0 & Cw).
        { clear - Ca Hw. induction Ca as [|x y l l' Hx _ IH]; [destruct Hw|]. destruct Hw as [<-|Hw]; [exists x; split; [left; reflexivity|exact Hx]|].
          destruct (IH Hw) as (w0 & H & G). exists w0. split; [right; exact H|exact G]. }
        rewrite Forall_forall in IHa. destruct (Go w (IHa w Hw) w0 s Cw Hs N) as (b' & I' & G). exists b'. split; [|exact G]. eapply inside_trans; [exact Ib|]. eapply inside_argument; [exact Hw0|exact I'].
    - destruct (Self _ _ Hc eq_refl) as (b & Ib & Cb & Ub & Nb). destruct (from_list b e Ub Nb Cb) as (e0 & -> & Ce).
      destruct (Go e IHe e0 s Ce Hs N) as (b' & I' & G). exists b'. split; [|exact G]. eapply inside_trans; [exact Ib|]. apply inside_list, I'.
    - destruct (Self _ _ Hc eq_refl) as (b & Ib & Cb & Ub & Nb). destruct (from_map b k v Ub Nb Cb) as (k0 & v0 & -> & Ck & Cv). apply in_app_or in Hs. destruct Hs as [Hs|Hs].
      + destruct (Go k IHk k0 s Ck Hs N) as (b' & I' & G). exists b'. split; [|exact G]. eapply inside_trans; [exact Ib|]. apply inside_key, I'.
      + destruct (Go v IHv v0 s Cv Hs N) as (b' & I' & G). exists b'. split; [|exact G]. eapply inside_trans; [exact Ib|]. apply inside_value, I'.
  Qed.

  (** A part of a canonical form is the canonical form of a part. *)
  Lemma canonical_parts t c s : canon E t c -> In s (visit_type c) -> is_union s = false ->
    exists b, inside E t b /\ canon E b s /\ is_union b = false /\ forall x, b <> TReference x.
  Proof.
    intros Hc Hs N. destruct (visit_members c s Hs N) as (u & Hu & G). destruct (origin t c u Hc Hu) as (b & Hb & Cb).
    destruct (canonical_members_parts c u Hu b s Cb G N) as (b' & I' & C' & N'). exists b'. split; [eapply inside_trans; [apply alt_inside, Hb|exact I']|auto].
  Qed.

  Lemma canonical_part_fixed t c s : canon E t c -> In s (visit_type c) -> is_union s = false -> canon E s s.
  Proof. intros Hc Hs N. destruct (canonical_parts t c s Hc Hs N) as (b & _ & Cb & _). eapply (canon_idem f E W), Cb. Qed.

  (** ** Comparable types *)
  Lemma comparable_origin c u : part E R c u -> incomparable u ->
    forall t, (forall m, In m (members_canonical c) -> exists b, part E R t b /\ canon E b m) -> exists u', part E R t u' /\ incomparable u'.
  Proof.
    assert (At : forall t m, (exists b, part E R t b /\ canon E b m) -> is_union m = false -> exists b, part E R t b /\ canon E b m /\ is_union b = false /\ forall x, b <> TReference x).
    { intros t m (b & Pb & Cb) N. destruct (origin b m m Cb) as (b' & Hb & Cb'); [rewrite members_nonunion by exact N; left; reflexivity|].
      exists b'. split; [eapply part_trans; [exact Pb|apply alt_part, Hb]|]. split; [exact Cb'|]. eapply alt_atom, Hb. }
    assert (Re : forall t c, canon E t c -> forall m, In m (members_canonical c) -> exists b, part E R t b /\ canon E b m).
    { intros t c0 Hc m Hm. destruct (origin t c0 m Hc Hm) as (b & Hb & Cb). exists b. split; [apply alt_part, Hb|exact Cb]. }
    intros Hp Hu. induction Hp as [c|e u _ IH|k v u _ IH|k v u _ IH|l r u _ IH|l r u _ IH|x t u Hl _ IH|n o fields fd u Hl Hf Hpart IH]; intros t0 H.
    - assert (N : is_union c = false) by (destruct Hu as [->|[->|(a & r & ->)]]; reflexivity).
      destruct (At t0 c (H c ltac:(rewrite members_nonunion by exact N; left; reflexivity)) N) as (b & Pb & Cb & Ub & Nb). exists b. split; [exact Pb|].
      destruct Hu as [->|[->|(a & r & ->)]].
      + left. exact (from_plain b TAny Ub Nb Cb).
      + right. left. exact (from_plain b TError Ub Nb Cb).
      + right. right. destruct (from_function b a r Ub Nb Cb) as (a0 & r0 & -> & _). eauto.
    - destruct (At t0 _ (H _ (or_introl eq_refl)) eq_refl) as (b & Pb & Cb & Ub & Nb). destruct (from_list b e Ub Nb Cb) as (e0 & -> & Ce).
      destruct (IH Hu e0 (Re e0 e Ce)) as (u' & Pu & Iu). exists u'. split; [|exact Iu]. eapply part_trans; [exact Pb|apply part_list, Pu].
    - destruct (At t0 _ (H _ (or_introl eq_refl)) eq_refl) as (b & Pb & Cb & Ub & Nb). destruct (from_map b k v Ub Nb Cb) as (k0 & v0 & -> & Ck & Cv).
      destruct (IH Hu k0 (Re k0 k Ck)) as (u' & Pu & Iu). exists u'. split; [|exact Iu]. eapply part_trans; [exact Pb|apply part_key, Pu].
    - destruct (At t0 _ (H _ (or_introl eq_refl)) eq_refl) as (b & Pb & Cb & Ub & Nb). destruct (from_map b k v Ub Nb Cb) as (k0 & v0 & -> & Ck & Cv).
      destruct (IH Hu v0 (Re v0 v Cv)) as (u' & Pu & Iu). exists u'. split; [|exact Iu]. eapply part_trans; [exact Pb|apply part_value, Pu].
    - apply (IH Hu). intros m Hm. apply H. cbn. apply in_or_app. auto.
    - apply (IH Hu). intros m Hm. apply H. cbn. apply in_or_app. auto.
    - exfalso. destruct (H _ (or_introl eq_refl)) as (b & _ & Cb). apply canon_references in Cb. discriminate.
    - destruct (At t0 _ (H _ (or_introl eq_refl)) eq_refl) as (b & Pb & Cb & Ub & Nb). pose proof (from_plain b _ Ub Nb Cb) as Q. cbn in Q. subst b.
      exists u. split; [|exact Hu]. eapply part_trans; [exact Pb|]. eapply part_field; eassumption.
  Qed.

  Lemma comparable_canonical t c : canon E t c -> comparable_type E R t -> comparable_type E R c.
  Proof.
    intros Hc H u Pu Iu. destruct (comparable_origin c u Pu Iu t) as (u' & Pu' & Iu').
    - intros m Hm. destruct (origin t c m Hc Hm) as (b & Hb & Cb). exists b. split; [apply alt_part, Hb|exact Cb].
    - exact (H u' Pu' Iu').
  Qed.
  Lemma comparable_part t u : part E R t u -> comparable_type E R t -> comparable_type E R u.
  Proof. intros P H v Pv. apply H. eapply part_trans; eassumption. Qed.
  Lemma member_part c m : In m (members_canonical c) -> part E R c m.
  Proof.
    induction c as [| | |a r _ _|e _|k v' _ _| | |n o|x| |l r IHl IHr] using ty_ind'; intros H; try (destruct H as [<-|[]]; constructor).
    cbn in H. apply in_app_or in H. destruct H as [H|H]; [apply part_left|apply part_right]; auto.
  Qed.
  Lemma comparable_member t c m : canon E t c -> In m (members_canonical c) -> comparable_type E R t -> comparable_type E R m.
  Proof. intros Hc Hm H. eapply comparable_part; [apply member_part, Hm|]. eapply comparable_canonical; eassumption. Qed.
End Origin.
