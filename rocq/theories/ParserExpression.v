From Coq Require Import String Ascii List Bool Arith Lia.
From Verif Require Import Base Syntax SyntaxSpec Ast Parser Printer ParserSpec ParserToken ParserList ParserType ParserLiteral ParserOpening ParserBlock ParserAtom ParserIf ParserReduce.
Import ListNotations.
Local Open Scope string_scope.

(** *** What is no expression *)
Lemma atom_err P x : no_expression x -> atomic_expression P x = PErr.
Proof.
  intros [S|(r & E)]; unfold atomic_expression.
  - nolam S. noif_ S. norec S. nolist S. nomap S. nonum S. nostr S. novar S. unfold parenthesized_expression. rewrite (sign_err _ _ _ _ S) by reflexivity. reflexivity.
  - assert (S : starts (Ascii.eqb ".") (skip x)) by (rewrite E; startc).
    nolam S. noif_ S. norec S. nolist S. nomap S. apply alt_right; [rewrite (number_points x r E); reflexivity|]. nostr S. novar S.
    unfold parenthesized_expression. rewrite (sign_err _ _ _ _ S) by reflexivity. reflexivity.
Qed.
Lemma operation_err P x : no_expression x -> operation P x = PErr.
Proof.
  intros H. unfold operation. apply pbind_err. unfold operand. cbn [prefix_operation]. apply alt_right.
  - destruct H as [S|(r & E)]; [rewrite (sign_err _ _ _ _ S) by reflexivity; reflexivity|]. unfold sign. rewrite E. reflexivity.
  - unfold suffix_operation. rewrite (atom_err P x H). reflexivity.
Qed.

(** *** Operations as trees *)
Fixpoint tree_of (e : aexpr) : tree :=
  match e with
  | XBinary o l r => Node o (if looser o l then Leaf l else tree_of l) (if looser o r then Leaf r else tree_of r)
  | _ => Leaf e
  end.
Definition operand_tree (b : bool) (e : aexpr) : tree := if b then Leaf e else tree_of e.
Lemma tree_meaning e : meaning (tree_of e) = e.
Proof. induction e; try reflexivity. cbn [tree_of meaning]. destruct (looser o e1), (looser o e2); cbn [meaning]; congruence. Qed.
Lemma tree_grouped e : faithful e -> grouped (tree_of e).
Proof.
  induction e as [o l IHl r IHr| | | | | | | | | | | | | | | |]; try (intros _; exact I). intros (H & Fl & Fr). cbn [tree_of grouped].
  split; [|split; [|split]].
  - destruct l; try exact I. cbn [looser]. destruct (Nat.ltb_spec (priority o0) (priority o)); [exact I|]. rewrite !priority_level in *. cbn. lia.
  - destruct r; try exact I. cbn [looser]. destruct (Nat.ltb_spec (priority o0) (priority o)); [exact I|]. rewrite !priority_level in *. cbn in *. lia.
  - destruct (looser o l); [exact I|auto].
  - destruct (looser o r); [exact I|auto].
Qed.

(** *** Signs around operands *)
Lemma point_next k : sign "." k = PErr -> not_next (Ascii.eqb ".") k = true.
Proof.
  destruct k as [|c k]; [reflexivity|]. cbn [not_next]. destruct (Ascii.eqb_spec "." c) as [<-|]; [|reflexivity]. intros H. discriminate.
Qed.
Lemma suffix_end P k : still k -> suffix_operator P k = PErr.
Proof.
  intros (_ & H & _ & H1 & H2 & _). unfold suffix_operator. apply alt_right; [|apply alt_right].
  - unfold call_operator. destruct k as [|c k]; [reflexivity|]. cbn [not_next] in H. apply negb_true_iff in H. cbn [tag]. rewrite H. reflexivity.
  - unfold record_field_operator. rewrite H1. reflexivity.
  - unfold try_operator. rewrite H2. reflexivity.
Qed.
Lemma operator_ok o x k : skip x = operator_text o ++ String " " k -> binary_operator x = POk o (String " " k).
Proof. intros E. unfold binary_operator, alt, operator_sign, sign. rewrite E. destruct o; reflexivity. Qed.
Lemma operator_still b o k : blank b -> b <> "" -> still (b ++ operator_text o ++ String " " k).
Proof.
  intros B N. assert (E : skip (b ++ operator_text o ++ String " " k) = operator_text o ++ String " " k) by (rewrite skip_blank by exact B; apply skip_app; destruct o; startc).
  split; [apply blank_part; assumption|]. split; [apply blank_next; auto|]. split; [apply blank_next; auto|].
  unfold sign, keyword. rewrite E. destruct o; repeat split.
Qed.
Lemma operator_brace b o k : blank b -> brace_safe (b ++ operator_text o ++ String " " k).
Proof.
  intros B. left. assert (E : skip (b ++ operator_text o ++ String " " k) = operator_text o ++ String " " k) by (rewrite skip_blank by exact B; apply skip_app; destruct o; startc).
  unfold sign. rewrite E. destruct o; reflexivity.
Qed.
Definition simple (e : aexpr) : Prop := match e with XBinary _ _ _ | XNot _ => False | _ => True end.
Lemma simple_leftmost e y : faithful e -> simple e -> leftmost e <> Some (XNot y).
Proof.
  induction e; cbn [simple leftmost]; intros F S; try discriminate; try contradiction.
  - destruct F as (C & F & _). apply IHe; [exact F|]. destruct e; try exact I; contradiction.
  - destruct F as ((C & _) & F & _). apply IHe; [exact F|]. destruct e; try exact I; contradiction.
  - destruct F as (C & F). destruct e; try discriminate; try contradiction; apply IHe; try exact F; exact I.
Qed.
Lemma simple_not e s k x : faithful e -> simple e -> renders (expression_document e) s -> skip x = skip (s ++ k) -> sign "!" x = PErr.
Proof.
  intros F Si R E. pose proof (expr_starts e s F R) as S0. rewrite skip_app in E by solidify.
  pose proof (leading_app e s k (expr_leading e s F R)) as Le. unfold leading in Le. rewrite <- E in Le.
  pose proof (fun y => simple_leftmost e y F Si) as Nl.
  destruct (leftmost e) as [[]|] eqn:El; try (apply (sign_err _ _ _ _ Le); reflexivity).
  - destruct n as [d|d|t]; try (apply (sign_err _ _ _ _ Le); reflexivity).
    destruct Le as (r & Le). pose proof (float_starts t (leftmost_float e t El F)) as St. apply starts_app with (k := r) in St. rewrite <- Le in St.
    apply (sign_err _ _ _ _ St). reflexivity.
  - exfalso. exact (Nl _ eq_refl).
Qed.

Section Operation.
  Variables (P : parser aexpr) (n : nat).
  Hypothesis HP : forall e s k x, slen s < n -> faithful e -> renders (expression_document e) s -> calm k -> (ends_variable e -> brace_safe k) -> skip x = skip (s ++ k) -> P x = POk e k.
  Hypothesis HE : forall x, no_expression x -> P x = PErr.

  Definition is_atom (e : aexpr) : Prop := match e with XBinary _ _ _ | XNot _ | XCall _ _ | XField _ _ | XTry _ => False | _ => True end.
  Lemma atom_ok e s k x : is_atom e -> slen s <= n -> faithful e -> renders (expression_document e) s -> fit e k -> skip x = skip (s ++ k) -> atomic_expression P x = POk e k.
  Proof.
    intros A L F R K E. destruct e; try contradiction.
    - eapply (atom_if P n); eauto.
    - eapply (atom_if_list P n); eauto.
    - eapply (atom_if_map P n); eauto.
    - eapply (atom_if_type P n); eauto. apply K.
    - eapply (atom_lambda P n); eauto.
    - eapply (atom_list P n); eauto.
    - eapply (atom_comprehension P n); eauto.
    - eapply (atom_map P n); eauto.
    - eapply atom_number; eauto.
    - eapply (atom_record P n); eauto.
    - eapply atom_string; eauto.
    - eapply atom_variable; eauto.
  Qed.

  Lemma call_ok a s k : slen s < n -> every faithful a -> renders (list_document (map expression_document a)) s ->
    suffix_operator P (String "(" (s ++ String ")" k)) = POk (SCall a) k.
  Proof.
    intros L F R. unfold suffix_operator. apply alt_left. unfold call_operator. cbn [tag]. rewrite Ascii.eqb_refl. cbn [pbind]. apply cut_ok.
    destruct (list_ok P expression_document good a s (String ")" k) (s ++ String ")" k)) as (k' & Ek & T & _); auto.
    { intros r. apply good_char. reflexivity. }
    { apply good_char. reflexivity. }
    { apply (exprs_ok P n HP); auto. }
    { intros z Ez. apply (no_char P HE z (Ascii.eqb ")")); [rewrite Ez; startc|byc]. }
    rewrite T. cbn [pbind]. takes ")". reflexivity.
  Qed.
  Lemma field_ok y k : name y -> not_next part k = true -> suffix_operator P (String "." (y ++ k)) = POk (SField y) k.
  Proof.
    intros N K. unfold suffix_operator. apply alt_right; [reflexivity|]. apply alt_left. unfold record_field_operator. takes ".".
    eapply pbind_ok; [|reflexivity]. apply cut_ok. eapply identifier_ok; [apply name_skip; exact N|exact N|apply part_word; exact K].
  Qed.
  Lemma try_ok k : not_next (Ascii.eqb "=") k = true -> suffix_operator P (String "?" k) = POk STry k.
  Proof.
    intros K. unfold suffix_operator. apply alt_right; [reflexivity|]. apply alt_right; [reflexivity|]. unfold try_operator.
    eapply pbind_ok; [apply (sign_ok "?"); [reflexivity|intros _; exact K]|]. reflexivity.
  Qed.

  Lemma chain_ok e : simple e -> forall s k x, slen s <= n -> faithful e -> renders (expression_document e) s -> fit e k -> not_next (Ascii.eqb "=") k = true ->
    skip x = skip (s ++ k) -> exists a l r, atomic_expression P x = POk a r /\ manys (suffix_operator P) l r k /\ fold_left apply_suffix l a = e.
  Proof.
    induction e as [o l IHl r IHr|f IHf a|l b|e IHe y z a b|y m IHm q IHk a b|y e IHe l o|a r b|t l|t e IHe l|q v l|c|y o l|e IHe y|t|e IHe|e IHe|y];
      intros Si s k x L F R K Q E; try contradiction;
      try (eexists _, [], k; split; [eapply atom_ok; eauto; exact I|split; [constructor|reflexivity]]).
    - destruct F as (C & Ff & Fa). cbn [expression_document] in R. apply renders_app in R. destruct R as (s1 & s2 & -> & R1 & R). rinv. norm.
      match goal with H : renders (list_document _) ?u |- _ => rename u into w; rename H into Ra end. lens.
      destruct (IHf ltac:(destruct f; try exact I; contradiction) s1 (String "(" (w ++ String ")" k)) x) as (a0 & l0 & r0 & H1 & H2 & H3); auto; [lia| |].
      { split; [reflexivity|]. split; [reflexivity|]. destruct f; try exact I; [destruct n0; try exact I; reflexivity|left; reflexivity]. }
      exists a0, (l0 ++ [SCall a])%list, r0. split; [exact H1|]. split; [|rewrite fold_left_app, H3; reflexivity].
      eapply manys_app; [exact H2|]. econstructor; [apply call_ok; auto; lia| |constructor]. lens. lia.
    - destruct F as ((C & C') & Fe & Ny). cbn [expression_document] in R. apply renders_app in R. destruct R as (s1 & s2 & -> & R1 & R). rinv. norm. lens.
      destruct (IHe ltac:(destruct e; try exact I; contradiction) s1 (String "." (y ++ k)) x) as (a0 & l0 & r0 & H1 & H2 & H3); auto; [lia| |].
      { split; [reflexivity|]. split; [reflexivity|]. destruct e; try exact I; [destruct n0; try exact I; contradiction|left; reflexivity]. }
      exists a0, (l0 ++ [SField y])%list, r0. split; [exact H1|]. split; [|rewrite fold_left_app, H3; reflexivity].
      eapply manys_app; [exact H2|]. econstructor; [apply field_ok; [exact Ny|apply K]| |constructor]. lens. lia.
    - destruct F as (C & Fe). cbn [expression_document] in R. apply renders_app in R. destruct R as (s1 & s2 & -> & R1 & R). rinv. norm. lens.
      destruct (is_operation e) eqn:O; cbn [parens] in R1.
      + rinv. norm. match goal with H : renders (expression_document e) ?u |- _ => rename u into w; rename H into Re end. lens.
        exists e, [STry], (String "?" k). split; [apply (atom_parens P n HP e w); auto; lia|]. split; [|reflexivity].
        econstructor; [apply try_ok; exact Q| |constructor]. lens. lia.
      + destruct (IHe ltac:(destruct e; try exact I; try contradiction; discriminate) s1 (String "?" k) x) as (a0 & l0 & r0 & H1 & H2 & H3); auto; [lia| |].
        { split; [reflexivity|]. split; [reflexivity|]. destruct e; try exact I; [destruct n0; try exact I; reflexivity|left; reflexivity]. }
        exists a0, (l0 ++ [STry])%list, r0. split; [exact H1|]. split; [|rewrite fold_left_app, H3; reflexivity].
        eapply manys_app; [exact H2|]. econstructor; [apply try_ok; exact Q| |constructor]. lens. lia.
  Qed.

  Lemma prefix_ok m : forall b e s k x, (b = false -> is_operation e = false) -> slen s <= n -> slen s <= m -> faithful e -> renders (parens b (expression_document e)) s -> still k ->
    (b = false -> ends_variable e -> brace_safe k) -> skip x = skip (s ++ k) -> prefix_operation P (S m) x = POk e k.
  Proof.
    induction m as [|m IH]; intros b e s k x Hb L Lm F R K V E.
    { pose proof (starts_len _ _ (parens_starts b e s F R)). lia. }
    cbn [prefix_operation]. destruct b; cbn [parens] in R.
    - rinv. norm. match goal with H : renders (expression_document e) ?u |- _ => rename u into w; rename H into Re end. cbn [append] in *. lens.
      assert (E' : skip x = String "(" (w ++ String ")" k)) by exact E. apply alt_right.
      + rewrite (sign_err (Ascii.eqb "(")); [reflexivity|rewrite E'; startc|reflexivity].
      + unfold suffix_operation. eapply pbind_ok; [apply (atom_parens P n HP e w k); [lia|exact F|exact Re|exact E']|].
        eapply pbind_ok; [eapply many0_ok; [constructor|apply suffix_end; exact K]|]. reflexivity.
    - specialize (Hb eq_refl). specialize (V eq_refl).
      assert (Si : (exists e1, e = XNot e1) \/ simple e) by (destruct e; try (right; exact I); [discriminate|left; eauto]).
      destruct Si as [(e1 & ->)|Si].
      + cbn [expression_document] in R. apply renders_text_inv in R. destruct R as (s1 & -> & R). cbn [append] in *. lens.
        pose proof (parens_starts _ e1 s1 F R) as S1. apply alt_left. eapply pbind_ok.
        * apply (sign_ok "!"); [exact E|]. intros _. destruct S1 as (c & r & -> & Hc). cbn [append not_next]. destruct (Ascii.eqb_spec "=" c) as [<-|]; [discriminate|reflexivity].
        * eapply pbind_ok; [|reflexivity]. apply cut_ok. apply (IH (is_operation e1) e1 s1 k); auto; try lia.
          intros O Ve. apply V. unfold ends_variable in *. cbn [rightmost]. destruct e1; try exact Ve. discriminate.
      + apply alt_right; [rewrite (simple_not e s k x F Si R E); reflexivity|]. unfold suffix_operation.
        destruct K as (K1 & K2 & K3 & K4 & K5 & K6).
        destruct (chain_ok e Si s k x L F R) as (a & l & r & H1 & H2 & H3); auto.
        { split; [exact K1|]. split; [exact K6|]. destruct e; try exact I; [destruct n0; try exact I; apply point_next; exact K4|apply V; exact I]. }
        rewrite H1. cbn [pbind]. eapply pbind_ok; [eapply many0_ok; [exact H2|apply suffix_end; repeat split; assumption]|]. rewrite H3. reflexivity.
  Qed.
  Lemma operand_ok b e s k x : (b = false -> is_operation e = false) -> slen s <= n -> faithful e -> renders (parens b (expression_document e)) s -> still k ->
    (b = false -> ends_variable e -> brace_safe k) -> skip x = skip (s ++ k) -> operand P x = POk e k.
  Proof.
    intros Hb L F R K V E. unfold operand. eapply (prefix_ok (slen x) b e s k x); eauto. pose proof (parens_starts b e s F R) as S0.
    pose proof (skip_shorter x) as Y. rewrite E in Y. rewrite skip_app in Y by solidify. lens. lia.
  Qed.

  Definition pair_parser : parser (operator * aexpr) := fun s => do o, s <- binary_operator s; do e, s <- cut (operand P s); POk (o, e) s.
  Lemma operands_ok e : forall b s k x, slen s <= n -> faithful e -> renders (parens b (expression_document e)) s -> still k ->
    (b = false -> ends_variable e -> brace_safe k) -> skip x = skip (s ++ k) ->
    exists r, operand P x = POk (first_operand (operand_tree b e)) r /\ manys pair_parser (operations (operand_tree b e)) r k /\ slen r <= slen s + slen k.
  Proof.
    assert (Base : forall e b s k x, (b = false -> is_operation e = false) -> slen s <= n -> faithful e -> renders (parens b (expression_document e)) s -> still k ->
      (b = false -> ends_variable e -> brace_safe k) -> skip x = skip (s ++ k) ->
      exists r, operand P x = POk (first_operand (operand_tree b e)) r /\ manys pair_parser (operations (operand_tree b e)) r k /\ slen r <= slen s + slen k).
    { clear e. intros e b s k x Hb L F R K V E. exists k. assert (T : operand_tree b e = Leaf e) by (destruct b; [reflexivity|]; specialize (Hb eq_refl); destruct e; try reflexivity; discriminate).
      rewrite T. cbn [first_operand operations]. split; [eapply operand_ok; eauto|]. split; [constructor|lia]. }
    induction e as [o l IHl r IHr|f IHf a|l b|e IHe y z a b|y m IHm q IHk a b|y e IHe l o|a r b|t l|t e IHe l|q v l|c|y o l|e IHe y|t|e IHe|e IHe|y];
      intros b0 s k x L F R K V E; try (eapply Base; eauto; reflexivity).
    destruct b0; [eapply Base; eauto; discriminate|]. specialize (V eq_refl). cbn [parens expression_document] in R. destruct F as (Ho & Fl & Fr).
    apply renders_app in R. destruct R as (s1 & s2 & -> & R1 & R). apply renders_line_inv in R. destruct R as (bl & s3 & -> & B & N & R).
    apply renders_text_inv in R. destruct R as (s4 & -> & R). apply renders_text_inv in R. destruct R as (s5 & -> & R). norm. lens.
    set (K' := bl ++ operator_text o ++ String " " (s5 ++ k)) in *.
    destruct (IHl (looser o l) s1 K' x) as (r1 & H1 & H2 & H3); auto; [lia|apply operator_still; assumption|intros _ _; apply operator_brace; exact B|].
    destruct (IHr (looser o r) s5 k (String " " (s5 ++ k))) as (r2 & G1 & G2 & G3); auto; [lia| |].
    { intros Lo Ve. apply V. unfold ends_variable in *. cbn [rightmost]. rewrite tight_looser, Lo. exact Ve. }
    exists r1. cbn [operand_tree tree_of first_operand operations]. fold (operand_tree (looser o l) l). fold (operand_tree (looser o r) r). split; [exact H1|]. split.
    - eapply manys_app; [exact H2|]. econstructor; [| |exact G2].
      + unfold pair_parser. eapply pbind_ok; [apply operator_ok; unfold K'; rewrite skip_blank by exact B; apply skip_app; destruct o; startc|]. rewrite G1. reflexivity.
      + unfold K'. lens. assert (1 <= slen (operator_text o)) by (destruct o; cbn; lia). lia.
    - unfold K' in H3. lens. lia.
  Qed.

  Lemma operation_ok e s k x : slen s <= n -> faithful e -> renders (expression_document e) s -> calm k -> (ends_variable e -> brace_safe k) -> skip x = skip (s ++ k) ->
    operation P x = POk e k.
  Proof.
    intros L F R [K Kb] V E. destruct (operands_ok e false s k x L F R K (fun _ => V) E) as (r & H1 & H2 & _). cbn [operand_tree] in *.
    unfold operation. rewrite H1. cbn [pbind]. eapply pbind_ok; [eapply many0_ok; [exact H2|unfold pair_parser; rewrite Kb; reflexivity]|].
    rewrite (reduce_tree _ (tree_grouped e F)), tree_meaning. reflexivity.
  Qed.
End Operation.

Lemma pexpression_ok n : forall e s k x, slen s < n -> faithful e -> renders (expression_document e) s -> calm k -> (ends_variable e -> brace_safe k) -> skip x = skip (s ++ k) ->
  pexpression n x = POk e k.
Proof.
  induction n as [|n IH]; intros e s k x L F R K V E; [lia|]. cbn [pexpression]. apply (operation_ok (pexpression n) n IH) with (s := s); auto; [|lia].
  intros z H. destruct n as [|n]; [pose proof (starts_len _ _ (expr_starts e s F R)); lia|]. cbn [pexpression]. apply operation_err. exact H.
Qed.
Lemma expression_ok e s k x : faithful e -> renders (expression_document e) s -> calm k -> (ends_variable e -> brace_safe k) -> skip x = skip (s ++ k) -> expression x = POk e k.
Proof.
  intros F R K V E. unfold expression. apply pexpression_ok with (s := s); auto. pose proof (expr_starts e s F R) as S0.
  pose proof (skip_shorter x) as Y. rewrite E in Y. rewrite skip_app in Y by solidify. lens. lia.
Qed.
Lemma expression_err x : no_expression x -> expression x = PErr.
Proof. intros H. unfold expression. cbn [pexpression]. apply operation_err. exact H. Qed.
