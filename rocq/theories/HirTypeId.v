(** The textual encoding behind type identifiers is unambiguous. *)
From Coq Require Import String Ascii List Arith Lia Bool Relations.
From Verif Require Import Base HirType HirTypeSpec HirTypeOrder HirTypeTermination HirTypeEq HirTypeSub HirTypeModule.
Import ListNotations.
Local Open Scope string_scope.

Lemma append_assoc (a b c : string) : (a ++ b) ++ c = a ++ (b ++ c).
Proof. induction a as [|x a IH]; cbn; [reflexivity|]. rewrite IH. reflexivity. Qed.

Lemma plain_app a b (r : list string) : (forall x, In x (a ++ b)%list -> has_char ")" x = false) ->
  (forall x, In x a -> has_char ")" x = false) /\ (forall x, In x b -> has_char ")" x = false).
Proof. intros H. split; intros x Hx; apply H, in_or_app; auto. Qed.

(** A name followed by ")" can be read back. *)
Lemma read_name n m s s' : has_char ")" n = false -> has_char ")" m = false ->
  n ++ String ")" s = m ++ String ")" s' -> n = m /\ s = s'.
Proof.
  revert m. induction n as [|a n IH]; intros [|b m] Hn Hm H; cbn in *.
  - injection H as ->. auto.
  - injection H as <- H. cbn in Hm. discriminate.
  - injection H as -> H. cbn in Hn. discriminate.
  - injection H as -> H. apply orb_false_iff in Hn. apply orb_false_iff in Hm.
    destruct (IH m (proj2 Hn) (proj2 Hm) H) as [-> ->]. auto.
Qed.

Definition first_ok (x : string) : Prop :=
  match x with
  | EmptyString => False
  | String c _ => c <> ")"%char /\ c <> ","%char /\ c <> "\"%char
  end.

Lemma id_first t x : id_string t = Ok x -> first_ok x.
Proof.
  destruct t; cbn; intros H; try (injection H as <-; cbn; repeat split; discriminate); try discriminate;
    repeat (apply bind_ok in H; destruct H as (? & ? & H)); injection H as <-; cbn; repeat split; discriminate.
Qed.

Definition reads (t : ty) : Prop :=
  plain_names t -> forall f, names_ok f t -> forall u x y s s',
    plain_names u -> names_ok f u ->
    id_string t = Ok x -> id_string u = Ok y -> x ++ s = y ++ s' -> t = u /\ s = s'.

Lemma union_not_function x s a r' : first_ok x -> x ++ s <> "\(" ++ a ++ r'.
Proof. destruct x as [|c x]; cbn; [tauto|]. intros (_ & _ & H) E. injection E as -> _. congruence. Qed.

Lemma concat_cons x xs : String.concat "," (x :: xs) = match xs with [] => x | _ => x ++ "," ++ String.concat "," xs end.
Proof. destruct xs; reflexivity. Qed.

Lemma read_args f a : Forall reads a ->
  (forall t, In t a -> plain_names t) -> Forall (names_ok f) a ->
  forall b xs ys s s',
    (forall t, In t b -> plain_names t) -> Forall (names_ok f) b ->
    mapM id_string a = Ok xs -> mapM id_string b = Ok ys ->
    String.concat "," xs ++ String ")" s = String.concat "," ys ++ String ")" s' -> a = b /\ s = s'.
Proof.
  intros Ha. induction Ha as [|t ts Ht Hts IH]; intros Pa Na b xs ys s s' Pb Nb Hx Hy H.
  - cbn in Hx. injection Hx as <-. destruct b as [|u us].
    + cbn in Hy. injection Hy as <-. cbn in H. injection H as ->. auto.
    + cbn [mapM] in Hy. apply bind_ok in Hy. destruct Hy as (y & Hu & Hy). apply bind_ok in Hy. destruct Hy as (ys' & _ & Hy).
      injection Hy as <-. rewrite concat_cons in H. apply id_first in Hu. exfalso.
      destruct y as [|c y]; [exact Hu|]. destruct Hu as [Hu _]. destruct ys'; cbn in H; injection H as E _; congruence.
  - cbn [mapM] in Hx. apply bind_ok in Hx. destruct Hx as (x & Hx & Hx'). apply bind_ok in Hx'. destruct Hx' as (xs' & Hxs & Hx').
    injection Hx' as <-. destruct b as [|u us].
    { cbn in Hy. injection Hy as <-. rewrite concat_cons in H. apply id_first in Hx. exfalso.
      destruct x as [|c x]; [exact Hx|]. destruct Hx as [Hx _]. destruct xs'; cbn in H; injection H as E _; congruence. }
    cbn [mapM] in Hy. apply bind_ok in Hy. destruct Hy as (y & Hu & Hy). apply bind_ok in Hy. destruct Hy as (ys' & Hys & Hy).
    injection Hy as <-. rewrite !concat_cons in H.
    inversion Na as [|? ? Nt Nts]; subst. inversion Nb as [|? ? Nu Nus]; subst.
    assert (Hgen : forall r r', x ++ r = y ++ r' -> t = u /\ r = r').
    { intros r r' E. eapply (Ht (Pa t (or_introl eq_refl)) f Nt u x y r r'); auto. apply Pb. left. reflexivity. }
    assert (Hl : match xs' with [] => x | _ => x ++ "," ++ String.concat "," xs' end ++ String ")" s =
                 x ++ (match xs' with [] => "" | _ => "," ++ String.concat "," xs' end ++ String ")" s)).
    { destruct xs'; [reflexivity|]. rewrite append_assoc. reflexivity. }
    assert (Hr : match ys' with [] => y | _ => y ++ "," ++ String.concat "," ys' end ++ String ")" s' =
                 y ++ (match ys' with [] => "" | _ => "," ++ String.concat "," ys' end ++ String ")" s')).
    { destruct ys'; [reflexivity|]. rewrite append_assoc. reflexivity. }
    rewrite Hl, Hr in H. apply Hgen in H. destruct H as [-> H].
    destruct xs' as [|x1 xs']; destruct ys' as [|y1 ys'].
    + cbn in H. injection H as ->. destruct ts; [|cbn [mapM] in Hxs; apply bind_ok in Hxs; destruct Hxs as (? & _ & G); apply bind_ok in G; destruct G as (? & _ & G); discriminate].
      destruct us; [auto|cbn [mapM] in Hys; apply bind_ok in Hys; destruct Hys as (? & _ & G); apply bind_ok in G; destruct G as (? & _ & G); discriminate].
    + cbn in H. discriminate.
    + cbn in H. discriminate.
    + rewrite !append_assoc in H. cbn [append] in H. injection H as H.
      destruct (IH ltac:(intros; apply Pa; right; assumption) Nts us (x1 :: xs') (y1 :: ys') s s' ltac:(intros; apply Pb; right; assumption) Nus Hxs Hys H) as [-> ->]. auto.
Qed.

Lemma plain_args a t : (forall x, In x (flat_map record_names a) -> has_char ")" x = false) -> In t a -> plain_names t.
Proof. intros H Hin r Hr. apply H, in_flat_map. eauto. Qed.

Lemma id_reads t : reads t.
Proof.
  induction t as [| | |a r IHa IHr|e IHe|k v IHk IHv| | |n o|x0| |l r IHl IHr] using ty_ind';
    intros Pt f Nt u x y s s' Pu Nu Hx Hy H.
  1-3,7,8,11: cbn in Hx; injection Hx as <-; destruct u; cbn in Hy; try discriminate;
    try (injection Hy as <-; cbn in H; try discriminate; injection H as ->; auto; fail);
    repeat (apply bind_ok in Hy; destruct Hy as (? & ? & Hy)); injection Hy as <-; discriminate.
  - apply names_fix in Nt. destruct Nt as [Na Nr]. unfold plain_names in Pt. cbn in Pt. apply plain_app in Pt; [|exact []]. destruct Pt as [Pa Pr].
    cbn [id_string] in Hx. apply bind_ok in Hx. destruct Hx as (xs & Hxs & Hx). apply bind_ok in Hx. destruct Hx as (xr & Hxr & Hx). injection Hx as <-.
    destruct u; cbn [id_string] in Hy; try discriminate; try (injection Hy as <-; discriminate);
      repeat (apply bind_ok in Hy; destruct Hy as (? & ? & Hy)); injection Hy as <-; try discriminate.
    + apply names_fix in Nu. destruct Nu as [Nb Nr']. unfold plain_names in Pu. cbn in Pu. apply plain_app in Pu; [|exact []]. destruct Pu as [Pb Pr'].
      unfold join_strings in H. cbn [append] in H. injection H as H.
      rewrite !append_assoc in H. cbn [append] in H. rewrite !append_assoc in H.
      destruct (read_args f a IHa (fun t => plain_args a t Pa) Na _ _ _ _ _ (fun t => plain_args arguments t Pb) Nb Hxs H0 H) as [-> H'].
      destruct (IHr Pr f Nr _ _ _ _ _ Pr' Nr' Hxr H1 H') as [-> H'']. cbn in H''. injection H'' as ->. auto.
    + exfalso. cbn [append] in H. injection H as H. rewrite append_assoc in H. symmetry in H.
      apply id_first in H0. destruct x as [|c x]; [exact H0|]. destruct H0 as (_ & _ & H0). cbn in H. injection H as E _. congruence.
  - apply names_fix in Nt. cbn [id_string] in Hx. apply bind_ok in Hx. destruct Hx as (xs & Hxs & Hx). injection Hx as <-.
    destruct u; cbn [id_string] in Hy; try discriminate; try (injection Hy as <-; discriminate);
      repeat (apply bind_ok in Hy; destruct Hy as (? & ? & Hy)); injection Hy as <-; try discriminate.
    apply names_fix in Nu. cbn [append] in H. injection H as H. rewrite !append_assoc in H.
    destruct (IHe Pt f Nt u _ _ _ _ Pu Nu Hxs H0 H) as [-> H']. cbn in H'. injection H' as ->. auto.
  - apply names_fix in Nt. destruct Nt as [Nk Nv]. unfold plain_names in Pt. cbn in Pt. apply plain_app in Pt; [|exact []]. destruct Pt as [Pk Pv].
    cbn [id_string] in Hx. apply bind_ok in Hx. destruct Hx as (xk & Hxk & Hx). apply bind_ok in Hx. destruct Hx as (xv & Hxv & Hx). injection Hx as <-.
    destruct u; cbn [id_string] in Hy; try discriminate; try (injection Hy as <-; discriminate);
      repeat (apply bind_ok in Hy; destruct Hy as (? & ? & Hy)); injection Hy as <-; try discriminate.
    apply names_fix in Nu. destruct Nu as [Nk' Nv']. unfold plain_names in Pu. cbn in Pu. apply plain_app in Pu; [|exact []]. destruct Pu as [Pk' Pv'].
    cbn [append] in H. injection H as H. rewrite !append_assoc in H.
    destruct (IHk Pk f Nk _ _ _ _ _ Pk' Nk' Hxk H0 H) as [-> H']. cbn [append] in H'. injection H' as H'. rewrite !append_assoc in H'.
    destruct (IHv Pv f Nv _ _ _ _ _ Pv' Nv' Hxv H1 H') as [-> H'']. cbn in H''. injection H'' as ->. auto.
  - apply names_fix in Nt. cbn [id_string] in Hx. injection Hx as <-.
    destruct u; cbn [id_string] in Hy; try discriminate; try (injection Hy as <-; discriminate);
      repeat (apply bind_ok in Hy; destruct Hy as (? & ? & Hy)); injection Hy as <-; try discriminate.
    apply names_fix in Nu. cbn [append] in H. injection H as H. rewrite !append_assoc in H. cbn [append] in H.
    destruct (read_name n name s s') as [-> ->]; [apply Pt; left; reflexivity|apply Pu; left; reflexivity|exact H|]. subst. auto.
  - discriminate Hx.
  - apply names_fix in Nt. destruct Nt as [Nk Nv]. unfold plain_names in Pt. cbn in Pt. apply plain_app in Pt; [|exact []]. destruct Pt as [Pk Pv].
    cbn [id_string] in Hx. apply bind_ok in Hx. destruct Hx as (xk & Hxk & Hx). apply bind_ok in Hx. destruct Hx as (xv & Hxv & Hx). injection Hx as <-.
    destruct u; cbn [id_string] in Hy; try discriminate; try (injection Hy as <-; discriminate);
      repeat (apply bind_ok in Hy; destruct Hy as (? & ? & Hy)); injection Hy as <-; try discriminate.
    + exfalso. cbn [append] in H. injection H as H. rewrite append_assoc in H.
      apply id_first in Hxk. destruct xk as [|c xk]; [exact Hxk|]. destruct Hxk as (_ & _ & G). cbn in H. injection H as E _. congruence.
    + apply names_fix in Nu. destruct Nu as [Nk' Nv']. unfold plain_names in Pu. cbn in Pu. apply plain_app in Pu; [|exact []]. destruct Pu as [Pk' Pv'].
      cbn [append] in H. injection H as H. rewrite !append_assoc in H.
      destruct (IHl Pk f Nk _ _ _ _ _ Pk' Nk' Hxk H0 H) as [-> H']. cbn [append] in H'. injection H' as H'. rewrite !append_assoc in H'.
      destruct (IHr Pv f Nv _ _ _ _ _ Pv' Nv' Hxv H1 H') as [-> H'']. cbn in H''. injection H'' as ->. auto.
Qed.

Lemma append_nil_r s : s ++ "" = s.
Proof. induction s as [|c s IH]; cbn; [reflexivity|]. rewrite IH. reflexivity. Qed.

Lemma id_string_inj f t u x : plain_names t -> plain_names u -> names_ok f t -> names_ok f u ->
  id_string t = Ok x -> id_string u = Ok x -> t = u.
Proof.
  intros Pt Pu Nt Nu Hx Hy. apply (id_reads t Pt f Nt u x x "" "" Pu Nu Hx Hy). reflexivity.
Qed.

Lemma id_string_total t : references t = [] -> exists x, id_string t = Ok x.
Proof.
  induction t as [| | |a r IHa IHr|e IHe|k v IHk IHv| | |n o|x0| |l r IHl IHr] using ty_ind'; cbn [references id_string]; intros H;
    try (eexists; reflexivity).
  - apply app_nil_inv in H. destruct H as [Ha Hr]. destruct (IHr Hr) as [xr Hxr].
    assert (exists xs, mapM id_string a = Ok xs) as [xs Hxs].
    { clear IHr Hr. induction IHa as [|t ts Ht _ IH]; [exists []; reflexivity|]. cbn in Ha. apply app_nil_inv in Ha. destruct Ha as [H1 H2].
      destruct (Ht H1) as [x Hx]. destruct (IH H2) as [xs Hxs]. exists (x :: xs). cbn [mapM]. rewrite Hx. cbn [bind]. rewrite Hxs. reflexivity. }
    rewrite Hxs. cbn [bind]. rewrite Hxr. eexists. reflexivity.
  - destruct (IHe H) as [x Hx]. rewrite Hx. eexists. reflexivity.
  - apply app_nil_inv in H. destruct H as [H1 H2]. destruct (IHk H1) as [x Hx]. destruct (IHv H2) as [y Hy]. rewrite Hx. cbn [bind]. rewrite Hy. eexists. reflexivity.
  - discriminate.
  - apply app_nil_inv in H. destruct H as [H1 H2]. destruct (IHl H1) as [x Hx]. destruct (IHr H2) as [y Hy]. rewrite Hx. cbn [bind]. rewrite Hy. eexists. reflexivity.
Qed.

(** Canonicalization introduces no record names. *)
Lemma plain_reduce s c : reduce_union s = Ok c -> Forall plain_names s -> plain_names c.
Proof.
  destruct s as [|t ts]; [discriminate|]. cbn. intros H; injection H as <-. intros H. inversion H as [|? ? Ht Hts]; subst.
  clear H. revert t Ht. induction Hts as [|u us Hu _ IH]; intros t Ht; [exact Ht|]. cbn. apply IH.
  unfold join. destruct (is_any t); [exact Ht|]. destruct (is_any u); [exact Hu|].
  intros r Hr. cbn in Hr. apply in_app_or in Hr. destruct Hr; auto.
Qed.

Lemma plain_canon_n E n : (forall x t, lookup E x = Some t -> plain_names t) ->
  (forall t c, canonicalize n E t = Ok c -> plain_names t -> plain_names c) /\
  (forall t acc s, collect_types n E t acc = Ok s -> plain_names t -> Forall plain_names acc -> Forall plain_names s).
Proof.
  intros HE. induction n as [|n [IHc IHs]]; [split; discriminate|]. split.
  - intros t c H Ht. unfold plain_names in Ht. destruct t; cbn [canonicalize] in H; cbn [record_names] in Ht; try (injection H as <-; exact Ht).
    + apply bind_ok in H. destruct H as (a' & Ha & H). apply bind_ok in H. destruct H as (r' & Hr & H).
      injection H as <-. apply plain_app in Ht; [|exact []]. destruct Ht as [Hta Htr].
      intros z Hz. cbn in Hz. apply in_app_or in Hz. destruct Hz as [Hz|Hz]; [|eapply IHc; eassumption].
      apply mapM_ok in Ha. revert Hz Hta. clear - Ha IHc. induction Ha as [|x y xs ys Hxy _ IH]; cbn; [intros []|].
      intros Hz Hta. apply plain_app in Hta; [|exact []]. apply in_app_or in Hz. destruct Hz as [Hz|Hz]; [eapply IHc; [exact Hxy|exact (proj1 Hta)|exact Hz]|apply IH; [exact Hz|exact (proj2 Hta)]].
    + apply bind_ok in H. destruct H as (e' & He & H). injection H as <-. exact (IHc _ _ He Ht).
    + apply bind_ok in H. destruct H as (k' & Hk & H). apply bind_ok in H. destruct H as (v' & Hv & H).
      injection H as <-. apply plain_app in Ht; [|exact []]. destruct Ht as [H1 H2]. intros z Hz. cbn in Hz. apply in_app_or in Hz.
      destruct Hz as [Hz|Hz]; [exact (IHc _ _ Hk H1 z Hz)|exact (IHc _ _ Hv H2 z Hz)].
    + apply bind_ok in H. destruct H as (t' & Ht' & H). eapply IHc; [exact H|]. unfold resolve in Ht'.
      destruct (lookup E name) eqn:Hl; [|discriminate]. injection Ht' as ->. eapply HE, Hl.
    + apply bind_ok in H. destruct H as (s & Hs & H). eapply plain_reduce; [exact H|].
      eapply IHs; [exact Hs|exact Ht|constructor].
  - intros t acc s H Ht Hacc.
    assert (Hins : forall c, plain_names c -> Forall plain_names (set_insert c acc)).
    { intros c Hc. apply Forall_forall. rewrite Forall_forall in Hacc. intros x Hx. apply set_insert_In in Hx. destruct Hx as [->|Hx]; auto. }
    destruct t; cbn [collect_types] in H; apply bind_ok in H; destruct H as (t' & Ht' & H);
      try (injection H as <-; apply Hins; eauto; fail).
    + eapply IHs; [exact H| |exact Hacc]. unfold resolve in Ht'.
      destruct (lookup E name) eqn:Hl; [|discriminate]. injection Ht' as ->. eapply HE, Hl.
    + unfold plain_names in Ht. cbn in Ht. apply plain_app in Ht; [|exact []]. destruct Ht as [Hl Hr]. eapply IHs; [exact H|exact Hr|]. eapply IHs; eauto.
Qed.

Lemma type_id_iff f E n m s t x y : wf f E -> (forall z u, lookup E z = Some u -> plain_names u) ->
  ok f E s -> ok f E t -> plain_names s -> plain_names t ->
  type_id_string n E s = Ok x -> type_id_string m E t = Ok y -> (x = y <-> teq E s t).
Proof.
  intros W HP [Ds Ns] [Dt Nt] Ps Pt Hx Hy. unfold type_id_string in *.
  apply bind_ok in Hx. destruct Hx as (c & Hc & Hx). apply bind_ok in Hy. destruct Hy as (d & Hd & Hy).
  assert (Xc : canon E s c) by (exists n; exact Hc). assert (Xd : canon E t d) by (exists m; exact Hd). split.
  - intros <-. assert (c = d) as ->; [|eapply canon_teq; eassumption].
    eapply (id_string_inj f); [..|exact Hx|exact Hy].
    + eapply plain_canon_n; eassumption.
    + eapply plain_canon_n; eassumption.
    + eapply names_canon; [apply W|exact Ns|exact Xc].
    + eapply names_canon; [apply W|exact Nt|exact Xd].
  - intros H. assert (c = d) as -> by (eapply teq_canon_eq; eassumption). congruence.
Qed.

Lemma type_id_total f E t : wf f E -> defined E t -> exists n x, type_id_string n E t = Ok x.
Proof.
  intros W D. destruct (canon_ex f E W t D) as [c Hc]. destruct (id_string_total c (canon_references _ _ _ Hc)) as [x Hx].
  destruct Hc as [n Hc]. exists n, x. unfold type_id_string. rewrite Hc. exact Hx.
Qed.

Lemma id_clash : exists s t x, references s = [] /\ references t = [] /\
  type_id_string 9 [] s = Ok x /\ type_id_string 9 [] t = Ok x /\ ~ teq [] s t.
Proof.
  exists (TFunction [TRecord "a" "a"; TRecord "b" "b"] TNone), (TFunction [TRecord "a),record(b" "c"] TNone).
  eexists. split; [reflexivity|]. split; [reflexivity|]. split; [reflexivity|]. split; [reflexivity|]. intros H.
  assert (C : closed_env []) by (intros x t Hx; discriminate).
  assert (A : acyclic []). { intros x Hx. apply clos_trans_t1n in Hx. inversion Hx as [? (t & Ht & _)|? ? (t & Ht & _)]; discriminate. }
  pose proof (proj1 (teq_canon [] _ _ C A H (TFunction [TRecord "a" "a"; TRecord "b" "b"] TNone)) (ex_intro _ 9 eq_refl)) as G.
  pose proof (canon_fun _ _ _ _ G (ex_intro _ 9 eq_refl)) as E. discriminate E.
Qed.
