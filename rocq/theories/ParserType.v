From Coq Require Import String Ascii List Bool Arith Lia.
From Verif Require Import Syntax Ast Parser Printer ParserSpec ParserToken ParserList.
Import ListNotations.
Local Open Scope string_scope.

Definition close_member (m : bool * document) : document := if fst m then (Text "(" :: snd m ++ [Text ")"])%list else snd m.
Definition left_document (t : aty) : document := intersperse [Text " |"; Line] (map close_member (members t)).
Definition is_union (t : aty) : bool := match t with AUnion _ _ => true | _ => false end.
Definition is_function (t : aty) : bool := match t with AFunction _ _ => true | _ => false end.

Lemma intersperse_snoc d l e : l <> [] -> intersperse d (l ++ [e])%list = (intersperse d l ++ d ++ e)%list.
Proof.
  induction l as [|a l IH]; [congruence|]. intros _. destruct l as [|b l]; [reflexivity|].
  change (intersperse d ((a :: b :: l) ++ [e])%list) with (a ++ d ++ intersperse d ((b :: l) ++ [e])%list)%list.
  rewrite IH by discriminate. change (intersperse d (a :: b :: l)) with (a ++ d ++ intersperse d (b :: l))%list. rewrite <- !app_assoc. reflexivity.
Qed.
Lemma members_nonempty t : members t <> [].
Proof. induction t as [| | | |l IHl r IHr]; try discriminate. cbn. destruct (members l); [congruence|discriminate]. Qed.
Lemma members_single t : is_union t = false -> members t = [(is_function t, type_document t)].
Proof. destruct t; try reflexivity. discriminate. Qed.
Lemma union_members_snoc l f d : union_members (l ++ [(f, d)])%list = (map close_member l ++ [d])%list.
Proof.
  induction l as [|[g e] l IH]; [reflexivity|]. cbn [app map]. destruct (l ++ [(f, d)])%list eqn:E; [destruct l; discriminate|].
  rewrite <- IH. cbn [union_members]. destruct g; reflexivity.
Qed.
Lemma right_single r : right_member r -> members r = [(false, type_document r)].
Proof. destruct r; try reflexivity; intros []. Qed.
Lemma left_single t : is_union t = false -> left_document t = parens (is_function t) (type_document t).
Proof. intros H. unfold left_document. rewrite (members_single t H). destruct t; reflexivity. Qed.
Lemma left_right r : right_member r -> left_document r = type_document r.
Proof. intros H. rewrite left_single; destruct r; try reflexivity; destruct H. Qed.
Lemma union_type_document l r : right_member r -> type_document (AUnion l r) = (left_document l ++ [Text " |"; Line] ++ left_document r)%list.
Proof.
  intros H. rewrite (left_right r H). unfold type_document at 1, union_document. cbn [members]. rewrite (right_single r H), union_members_snoc.
  rewrite intersperse_snoc; [reflexivity|]. intros E. apply map_eq_nil in E. exact (members_nonempty l E).
Qed.
Lemma union_left_document l r : right_member r -> left_document (AUnion l r) = (left_document l ++ [Text " |"; Line] ++ left_document r)%list.
Proof.
  intros H. rewrite (left_right r H). unfold left_document at 1. cbn [members]. rewrite (right_single r H), map_app. cbn [map close_member fst snd].
  rewrite intersperse_snoc; [reflexivity|]. intros E. apply map_eq_nil in E. exact (members_nonempty l E).
Qed.

(** What a type may be followed by *)
Definition stop_type (k : string) : Prop := not_next part k = true /\ sign "|" k = PErr.
Lemma stop_type_comma r : stop_type (String "," r).
Proof. split; reflexivity. Qed.

(** First characters of types *)
Definition type_start (c : ascii) : bool := word_start c || existsb (Ascii.eqb c) ["\"; "["; "{"; "("]%char.
Definition atom_start (c : ascii) : bool := word_start c || existsb (Ascii.eqb c) ["["; "{"; "("]%char.
Lemma type_start_solid c : type_start c = true -> solid c = true.
Proof. apply by_chars2. vm_compute. reflexivity. Qed.
Lemma atom_type_start c : atom_start c = true -> type_start c = true.
Proof. apply by_chars2. vm_compute. reflexivity. Qed.
Lemma word_atom_start c : word_start c = true -> atom_start c = true.
Proof. apply by_chars2. vm_compute. reflexivity. Qed.

Lemma left_starts t s : faithful_type t -> renders (left_document t) s -> starts atom_start s.
Proof.
  revert s. induction t as [a r _|e _|k _ v _|x|l IHl r _] using aty_ind; intros s F R.
  - rewrite left_single in R by reflexivity. cbn in R. rinv. eexists _, _. split; reflexivity.
  - rewrite left_single in R by reflexivity. cbn in R. rinv. eexists _, _. split; reflexivity.
  - rewrite left_single in R by reflexivity. cbn in R. rinv. eexists _, _. split; reflexivity.
  - rewrite left_single in R by reflexivity. cbn in R. rinv. apply starts_app. eapply starts_weaken; [apply word_atom_start|]. apply qualified_starts. exact F.
  - destruct F as (Fl & Fr & Hr). rewrite (union_left_document l r Hr) in R. rinv. apply starts_app. eapply IHl; eauto.
Qed.
Lemma type_left t : is_function t = false -> faithful_type t -> type_document t = left_document t.
Proof.
  intros H F. destruct t; try discriminate; try (rewrite left_single by reflexivity; reflexivity).
  destruct F as (_ & _ & Hr). rewrite (union_type_document _ _ Hr), (union_left_document _ _ Hr). reflexivity.
Qed.
Lemma type_starts t s : faithful_type t -> renders (type_document t) s -> starts type_start s.
Proof.
  intros F R. destruct (is_function t) eqn:E.
  - destruct t; try discriminate. cbn in R. rinv. eexists _, _. split; reflexivity.
  - rewrite (type_left t E F) in R. eapply starts_weaken; [apply atom_type_start|]. eapply left_starts; eauto.
Qed.

Ltac startc := eexists _, _; split; [reflexivity|reflexivity].
(** Solves [skip x = text]. *)
Ltac sk :=
  repeat first [rewrite skip_blank by assumption | rewrite skip_space | rewrite skip_idem];
  try reflexivity; first [apply skip_app; assumption | apply skip_solid; assumption | rewrite skip_app by assumption; reflexivity | idtac].

Section Step.
  Variable n : nat.
  Hypothesis IH : forall t s k x, slen s < n -> faithful_type t -> renders (type_document t) s -> stop_type k -> skip x = s ++ k -> ptype n x = POk t k.

  Lemma starts_skip f s k x : (forall c, f c = true -> solid c = true) -> starts f s -> skip x = skip (s ++ k) -> skip x = s ++ k.
  Proof. intros H S E. rewrite E. apply skip_app. eapply starts_weaken; eauto. Qed.

  Lemma atomic_type_ok u s k x : is_union u = false -> slen s <= n -> faithful_type u -> renders (left_document u) s ->
    not_next part k = true -> skip x = s ++ k -> atomic_type (ptype n) x = POk u k.
  Proof.
    intros U L F R K E. rewrite left_single in R by exact U. unfold atomic_type. destruct u as [a r|e|q v|y|]; try discriminate; cbn [is_function parens] in R.
    - (* a function in parentheses *)
      rinv. norm. assert (S : starts type_start t0) by (eapply type_starts; eauto).
      assert (S0 : starts (Ascii.eqb "(") (skip x)) by (rewrite E; startc).
      apply alt_right; [unfold reference_type; unfold qualified_identifier; rewrite (raw_err (Ascii.eqb "(")); [reflexivity|exact S0|intros c Hc; apply Ascii.eqb_eq in Hc; subst; reflexivity]|].
      apply alt_right; [unfold list_type; rewrite (sign_err _ _ _ _ S0); reflexivity|].
      apply alt_right; [unfold map_type; rewrite (sign_err _ _ _ _ S0); reflexivity|].
      unfold parenthesized_type. eapply pbind_ok; [apply (sign_ok "(" x); [exact E|discriminate]|]. apply cut_ok.
      eapply pbind_ok.
      { apply IH with (s := t0) (k := String ")" k); [|exact F|assumption| |].
        - lens. lia.
        - split; reflexivity.
        - apply skip_app. eapply starts_weaken; [apply type_start_solid|exact S]. }
      eapply pbind_ok; [apply (sign_ok ")"); [reflexivity|discriminate]|]. reflexivity.
    - (* a list *)
      cbn in R. rinv. norm. assert (S : starts type_start t0) by (apply (type_starts e); assumption).
      assert (S0 : starts (Ascii.eqb "[") (skip x)) by (rewrite E; startc).
      apply alt_right; [unfold reference_type; unfold qualified_identifier; rewrite (raw_err (Ascii.eqb "[")); [reflexivity|exact S0|intros c Hc; apply Ascii.eqb_eq in Hc; subst; reflexivity]|].
      apply alt_left. unfold list_type. eapply pbind_ok; [apply (sign_ok "[" x); [exact E|discriminate]|]. apply cut_ok.
      eapply pbind_ok.
      { apply IH with (t := e) (s := t0) (k := String "]" k); [|exact F|assumption| |].
        - lens. lia.
        - split; reflexivity.
        - apply skip_app. eapply starts_weaken; [apply type_start_solid|exact S]. }
      eapply pbind_ok; [apply (sign_ok "]"); [reflexivity|discriminate]|]. reflexivity.
    - (* a map *)
      destruct F as [Fq Fv]. cbn in R. rinv. norm.
      assert (S : starts type_start t0) by (apply (type_starts q); assumption). assert (S' : starts type_start t1) by (apply (type_starts v); assumption).
      assert (S0 : starts (Ascii.eqb "{") (skip x)) by (rewrite E; startc).
      apply alt_right; [unfold reference_type; unfold qualified_identifier; rewrite (raw_err (Ascii.eqb "{")); [reflexivity|exact S0|intros c Hc; apply Ascii.eqb_eq in Hc; subst; reflexivity]|].
      apply alt_right; [unfold list_type; rewrite (sign_err _ _ _ _ S0); reflexivity|].
      apply alt_left. unfold map_type. eapply pbind_ok; [apply (sign_ok "{" x); [exact E|discriminate]|]. apply cut_ok.
      eapply pbind_ok.
      { apply IH with (s := t0) (k := String ":" (String " " (t1 ++ String "}" k))); [|exact Fq|assumption| |].
        - lens. lia.
        - split; reflexivity.
        - apply skip_app. eapply starts_weaken; [apply type_start_solid|exact S]. }
      eapply pbind_ok; [apply (sign_ok ":"); [reflexivity|discriminate]|].
      eapply pbind_ok.
      { apply IH with (s := t1) (k := String "}" k); [|exact Fv|assumption| |].
        - lens. lia.
        - split; reflexivity.
        - rewrite skip_space. apply skip_app. eapply starts_weaken; [apply type_start_solid|exact S']. }
      eapply pbind_ok; [apply (sign_ok "}"); [reflexivity|discriminate]|]. reflexivity.
    - (* a reference *)
      cbn in R. rinv. norm. apply alt_left. unfold reference_type. rewrite E, (qualified_ok y k F K). reflexivity.
  Qed.

  Lemma union_chain t : forall s k x, slen s <= n -> faithful_type t -> renders (left_document t) s -> not_next part k = true -> skip x = s ++ k ->
    exists u us r, atomic_type (ptype n) x = POk u r /\ seps (sign "|") (atomic_type (ptype n)) us r k /\ fold_left AUnion us u = t /\ slen r <= slen s + slen k.
  Proof.
    induction t as [a r _|e _|q _ v _|y|l IHl r _] using aty_ind; intros s k x L F R K E;
      try (eexists _, [], k; split; [eapply atomic_type_ok; eauto; reflexivity|split; [constructor|split; [reflexivity|lia]]]).
    destruct F as (Fl & Fr & Hr). rewrite (union_left_document l r Hr) in R. cbn [app] in R. rinv. norm.
    assert (S : starts atom_start t0) by (apply (left_starts r); assumption).
    destruct (IHl t (String " " (String "|" (b ++ t0 ++ k))) x) as (u & us & r0 & H1 & H2 & H3 & H4); auto.
    { lens. lia. }
    exists u, (us ++ [r])%list, r0. split; [exact H1|]. split; [|split].
    - eapply seps_app; [exact H2|]. econstructor; [| | |constructor].
      + apply (sign_ok "|"); [reflexivity|]. intros _. apply (blank_not_word b); [assumption|assumption| |reflexivity].
        intros c. intros Hc. apply negb_true_iff. revert c Hc. apply by_chars2. vm_compute. reflexivity.
      + apply (atomic_type_ok r t0 k); auto.
        * destruct r; try reflexivity. destruct Hr.
        * lens. lia.
        * rewrite skip_blank by assumption. apply skip_app. eapply starts_weaken; [|exact S]. intros c Hc. apply type_start_solid, atom_type_start, Hc.
      + lens. lia.
    - rewrite fold_left_app, H3. reflexivity.
    - lens. lia.
  Qed.

  Lemma type_step t s k x : slen s <= n -> faithful_type t -> renders (type_document t) s -> stop_type k -> skip x = s ++ k -> ptype (S n) x = POk t k.
  Proof.
    intros L F R [K1 K2] E. cbn [ptype]. destruct (is_function t) eqn:U.
    - (* a function *)
      destruct t as [a r| | | |]; try discriminate. destruct F as [Fa Fr]. apply alt_left.
      change (type_document (AFunction a r)) with (Text "\(" :: intersperse [Text ", "] (map type_document a) ++ Text ") " :: type_document r)%list in R. rinv. norm.
      match goal with H : renders (type_document r) ?u |- _ => rename u into t2 end.
      match goal with H : renders (intersperse _ _) ?u |- _ => rename u into t1 end.
      assert (S : starts type_start t2) by (apply (type_starts r); assumption).
      unfold function_type. eapply pbind_ok; [apply (sign_ok "\(" x); [exact E|discriminate]|]. apply cut_ok.
      destruct (plain_list_ok (ptype n) type_document stop_type a t1 (String ")" (String " " (t2 ++ k))) (t1 ++ String ")" (String " " (t2 ++ k)))) as (k' & E' & T & _); auto using stop_type_comma.
      { split; reflexivity. }
      { intros y u r' x' I1 I2 I3 I4 I5. assert (Sy : starts type_start u) by (apply (type_starts y); [apply (every_In _ _ _ Fa I1)|assumption]).
        apply (IH y u); auto; [lens; lia|apply (every_In _ _ _ Fa I1)|]. rewrite I5. apply skip_app. eapply starts_weaken; [apply type_start_solid|exact Sy]. }
      { intros x' E'. destruct n as [|m]; [cbn in L; lens; lia|]. cbn [ptype].
        assert (S0 : starts (Ascii.eqb ")") (skip x')) by (rewrite E'; startc).
        apply alt_right; [unfold function_type; rewrite (sign_err _ _ _ _ S0); reflexivity|].
        unfold union_type, separated_list1. apply pbind_err. apply pbind_err. unfold atomic_type.
        apply alt_right; [unfold reference_type, qualified_identifier; rewrite (raw_err (Ascii.eqb ")")); [reflexivity|exact S0|intros c Hc; apply Ascii.eqb_eq in Hc; subst; reflexivity]|].
        apply alt_right; [unfold list_type; rewrite (sign_err _ _ _ _ S0); reflexivity|].
        apply alt_right; [unfold map_type; rewrite (sign_err _ _ _ _ S0); reflexivity|].
        unfold parenthesized_type. rewrite (sign_err _ _ _ _ S0); reflexivity. }
      eapply pbind_ok; [exact T|]. eapply pbind_ok; [apply (sign_ok ")"); [exact E'|discriminate]|].
      eapply pbind_ok; [|reflexivity]. eapply IH; [|exact Fr|eassumption|split; assumption|].
      + lens. lia.
      + rewrite skip_space. apply skip_app. eapply starts_weaken; [apply type_start_solid|exact S].
    - (* a union, or another type *)
      rewrite (type_left t U F) in R. pose proof (left_starts t s F R) as S.
      apply alt_right; [unfold function_type; rewrite (sign_err atom_start); [reflexivity|rewrite E; apply starts_app; exact S|reflexivity]|].
      destruct (union_chain t s k x L F R K1 E) as (u & us & r & H1 & H2 & H3 & _).
      unfold union_type. eapply pbind_ok; [eapply separated1_ok; [exact H1|exact H2|left; exact K2]|]. cbn beta iota. rewrite H3. reflexivity.
  Qed.
End Step.

Lemma ptype_ok n : forall t s k x, slen s < n -> faithful_type t -> renders (type_document t) s -> stop_type k -> skip x = s ++ k -> ptype n x = POk t k.
Proof.
  induction n as [|n IH]; intros t s k x L F R K E; [lia|]. eapply type_step; eauto. lia.
Qed.
Lemma type_ok t s k x : faithful_type t -> renders (type_document t) s -> stop_type k -> skip x = skip (s ++ k) -> type_ x = POk t k.
Proof.
  intros F R K E. pose proof (type_starts t s F R) as S. rewrite (skip_app s k) in E by (eapply starts_weaken; [apply type_start_solid|exact S]).
  unfold type_. apply (ptype_ok _ t s k x); auto. pose proof (skip_shorter x). rewrite E in H. lens. lia.
Qed.
(** What is no type *)
Lemma type_err f x : starts f (skip x) -> (forall c, f c = true -> type_start c = false) -> type_ x = PErr.
Proof.
  intros S H. unfold type_. cbn [ptype].
  assert (W : forall c, f c = true -> word_start c = false) by (intros c Hc; specialize (H c Hc); unfold type_start in H; apply orb_false_iff in H; tauto).
  assert (T : forall c, existsb (Ascii.eqb c) ["\"; "["; "{"; "("]%char = true -> f c = false).
  { intros c Hc. destruct (f c) eqn:X; [|reflexivity]. specialize (H c X). unfold type_start in H. rewrite Hc, orb_true_r in H. discriminate. }
  apply alt_right; [unfold function_type; rewrite (sign_err _ _ _ _ S); [reflexivity|apply T; reflexivity]|].
  unfold union_type, separated_list1. apply pbind_err. apply pbind_err. unfold atomic_type.
  apply alt_right; [unfold reference_type, qualified_identifier; rewrite (raw_err f); [reflexivity|exact S|exact W]|].
  apply alt_right; [unfold list_type; rewrite (sign_err _ _ _ _ S); [reflexivity|apply T; reflexivity]|].
  apply alt_right; [unfold map_type; rewrite (sign_err _ _ _ _ S); [reflexivity|apply T; reflexivity]|].
  unfold parenthesized_type. rewrite (sign_err _ _ _ _ S); [reflexivity|apply T; reflexivity].
Qed.
