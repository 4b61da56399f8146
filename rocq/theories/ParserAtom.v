From Coq Require Import String Ascii List Bool Arith Lia.
From Verif Require Import Syntax SyntaxSpec Ast Parser Printer ParserSpec ParserToken ParserList ParserType ParserLiteral ParserOpening ParserBlock.
Import ListNotations.
Local Open Scope string_scope.

(** What may follow an expression that a suffix may follow *)
Definition fit (e : aexpr) (k : string) : Prop :=
  not_next part k = true /\ keyword "else" k = PErr /\
  match e with XNumber (NFloat _) => not_next (Ascii.eqb ".") k = true | XVariable _ => brace_safe k | _ => True end.

Ltac byc :=
  let c := fresh in let H := fresh in
  intros c H; first [apply Ascii.eqb_eq in H; subst; reflexivity | apply negb_true_iff; revert c H; apply by_chars2; vm_compute; reflexivity].
Ltac solidify := eapply starts_weaken; [|eassumption]; first [apply expr_start_solid | apply word_start_solid | apply type_start_solid | apply by_chars2; vm_compute; reflexivity].
(** Steps over the alternatives that fail on the first character. *)
Ltac nolam S := apply alt_right; [unfold lambda_expression, lambda; rewrite (sign_err _ _ _ _ S) by reflexivity; reflexivity|].
Ltac noif K := do 4 (apply alt_right; [unfold if_type, if_list, if_map, if_; rewrite K; reflexivity|]).
Ltac norec S := apply alt_right; [unfold record, qualified_identifier; rewrite (raw_err _ _ S) by byc; reflexivity|].
Ltac nolist S := do 2 (apply alt_right; [unfold list_comprehension, list_literal; rewrite (sign_err _ _ _ _ S) by reflexivity; reflexivity|]).
Ltac nomap S := apply alt_right; [unfold map_literal; rewrite (sign_err _ _ _ _ S) by reflexivity; reflexivity|].
Ltac nonum S := apply alt_right; [rewrite (number_err _ _ S) by byc; reflexivity|].
Ltac nostr S := apply alt_right; [rewrite (string_err _ _ S) by reflexivity; reflexivity|].
Ltac novar S := apply alt_right; [unfold variable, qualified_identifier; rewrite (raw_err _ _ S) by byc; reflexivity|].
Ltac noif_ S := let K := fresh in pose proof (keyword_err _ "i" "f" _ S eq_refl) as K; noif K.
(** Takes a sign. *)
Ltac takes t := eapply pbind_ok; [apply (sign_ok t); [first [reflexivity | match goal with H : skip ?z = _ |- skip ?z = _ => exact H end]|first [discriminate | intros _; reflexivity]]|].

Lemma plain_list1 {A} (p : parser A) (D : A -> document) (good : string -> Prop) l s k x :
  l <> [] -> (forall r, good (String "," r)) -> good k -> element_ok p D good l (slen s) ->
  renders (intersperse [Text ", "] (map D l)) s -> sign "," k = PErr -> skip x = skip (s ++ k) ->
  terminated_list1 (sign ",") p x = POk l k.
Proof.
  intros N Hg Hk Hp R Hs E. destruct l as [|a l]; [congruence|].
  destruct (comma_list p D good [Text ", "] l comma_space Hg a s k Hk Hp R x E) as (r & H1 & H2 & _). eapply terminated1_ok; eauto. left. auto.
Qed.
Lemma elements_head d ds s : renders (elements_document (d :: ds)) s ->
  exists b t r, blank b /\ b <> "" /\ s = b ++ t ++ r /\ renders d t /\ (r = "" \/ exists r', r = String "," r').
Proof.
  intros R. unfold elements_document in R. cbn [map] in R. apply renders_app in R. destruct R as (s1 & s2 & -> & R1 & R2). apply comma_tail in R2.
  destruct ds as [|d' ds].
  - cbn [map intersperse] in R1. rinv. match goal with |- exists _ _ _, _ /\ _ /\ (?a ++ ?g ++ ?t) ++ _ = _ /\ _ => exists (a ++ g), t, s2 end. norm.
    split; [apply blank_app; assumption|]. split; [apply sapp_not_nil; assumption|]. split; [reflexivity|]. split; [assumption|].
    destruct R2 as [->|(b1 & _ & ->)]; [left; reflexivity|right; eauto].
  - cbn [map] in R1. set (rest := map (fun d0 => Line :: Gap :: d0) ds) in *.
    change (intersperse [Text ","] ((Line :: Gap :: d) :: (Line :: Gap :: d') :: rest)) with ((Line :: Gap :: d) ++ [Text ","] ++ intersperse [Text ","] ((Line :: Gap :: d') :: rest))%list in R1.
    apply renders_app in R1. destruct R1 as (u & v & -> & R1 & R3). rinv. norm.
    match goal with |- exists _ _ _, _ /\ _ /\ ?a ++ ?g ++ ?t ++ ?r = _ /\ _ => exists (a ++ g), t, r end. norm.
    split; [apply blank_app; assumption|]. split; [apply sapp_not_nil; assumption|]. split; [reflexivity|]. split; [assumption|]. right. eauto.
Qed.
Lemma stop_blank f b y : blank b -> b <> "" -> starts f (skip y) -> f "|"%char = false -> stop_type (b ++ y).
Proof. intros B N S H. split; [apply blank_part; assumption|]. apply (sign_err f); [rewrite skip_blank by exact B; exact S|exact H]. Qed.
Lemma distinct_ok l : NoDup l -> distinct l = true.
Proof.
  induction 1 as [|x l H _ IH]; [reflexivity|]. cbn [distinct]. rewrite IH, andb_true_r. apply negb_true_iff.
  destruct (existsb (String.eqb x) l) eqn:E; [|reflexivity]. apply existsb_exists in E. destruct E as (y & Hy & E). apply String.eqb_eq in E. subst. contradiction.
Qed.
Lemma qualified_skip x k : qualified_name x -> skip (x ++ k) = x ++ k.
Proof. intros H. apply skip_app. eapply starts_weaken; [apply word_start_solid|]. apply qualified_starts. exact H. Qed.
Lemma name_skip x k : name x -> skip (x ++ k) = x ++ k.
Proof. intros H. apply qualified_skip. left. exact H. Qed.
Lemma block_first b s k : renders (block_document expression_document b) s -> exists r, s ++ k = String "{" r.
Proof. destruct b as [l e]. cbn [block_document]. intros R. apply renders_text_inv in R. destruct R as (r & -> & _). eexists. reflexivity. Qed.
Lemma block_good b s k : faithful_block faithful b -> renders (block_document expression_document b) s -> good (String " " (s ++ k)).
Proof.
  intros F R. split.
  - destruct (block_first b s k R) as (r & E). change (String " " (s ++ k)) with (" " ++ (s ++ k)). apply calm_blank; [apply blank_one|discriminate|].
    apply settled_char. rewrite E. startc.
  - eapply block_brace; [exact F|exact R|]. apply skip_space.
Qed.
Lemma keyword_after w r : In w keywords -> w <> "else" -> settled (w ++ String " " r).
Proof.
  intros H N. destruct (keyword_word w H) as [S0 W].
  assert (E : skip (w ++ String " " r) = w ++ String " " r) by (apply skip_app; eapply starts_weaken; [apply word_start_solid|exact S0]).
  assert (S : starts word_start (skip (w ++ String " " r))) by (rewrite E; apply starts_app; exact S0).
  split; [apply (sign_err _ _ _ _ S); reflexivity|]. split; [apply (sign_err _ _ _ _ S); reflexivity|]. split.
  - eapply (keyword_other "else" w); [cbn; tauto|exact E|exact W|reflexivity|exact N].
  - apply (binary_err _ _ S). byc.
Qed.
Lemma good_keyword b w r : blank b -> b <> "" -> In w keywords -> w <> "else" -> good (b ++ w ++ String " " r).
Proof.
  intros B N H D. split; [apply calm_blank; auto; apply keyword_after; assumption|]. left. apply (sign_err word_start); [|reflexivity].
  destruct (keyword_word w H) as [S0 _]. rewrite skip_blank by exact B. rewrite skip_app by (eapply starts_weaken; [apply word_start_solid|exact S0]). apply starts_app. exact S0.
Qed.

Section Atom.
  Variables (P : parser aexpr) (n : nat).
  Hypothesis HP : forall e s k x, slen s < n -> faithful e -> renders (expression_document e) s -> calm k -> (ends_variable e -> brace_safe k) -> skip x = skip (s ++ k) -> P x = POk e k.
  Hypothesis HE : forall x, no_expression x -> P x = PErr.

  Lemma HG e s k x : slen s < n -> faithful e -> renders (expression_document e) s -> good k -> skip x = skip (s ++ k) -> P x = POk e k.
  Proof. intros L F R [G1 G2] E. eapply HP; eauto. Qed.
  Lemma no_char x f : starts f (skip x) -> (forall c, f c = true -> expr_start c = false) -> P x = PErr.
  Proof. intros S H. apply HE. left. eapply starts_weaken; [|exact S]. intros c Hc. rewrite (H c Hc). reflexivity. Qed.
  Lemma no_points x r : skip x = "..." ++ r -> P x = PErr.
  Proof. intros E. apply HE. right. exists r. exact E. Qed.
  Lemma exprs_ok l m : m < n -> every faithful l -> element_ok P expression_document good l m.
  Proof. intros L F y t r x I R Lt G E. apply (HG y t r x); auto; [lia|]. exact (every_In _ _ _ F I). Qed.

  Notation atomic := (atomic_expression P).

  Lemma atom_number m s k x : faithful (XNumber m) -> renders (expression_document (XNumber m)) s -> fit (XNumber m) k -> skip x = skip (s ++ k) -> atomic x = POk (XNumber m) k.
  Proof.
    intros F R (K1 & K2 & K3) E. apply renders_number in R. subst. cbn in F. pose proof (number_starts m F) as S0.
    rewrite skip_app in E by solidify.
    assert (S : starts (fun c => is_digit c || Ascii.eqb c "." || Ascii.eqb c "+" || Ascii.eqb c "-") (skip x)) by (rewrite E; apply starts_app; exact S0).
    unfold atomic_expression. nolam S. noif_ S. norec S. nolist S. nomap S. apply alt_left.
    rewrite (number_ok m x k F (part_word k K1)); [reflexivity| |exact E]. destruct m; cbn; [discriminate..|]. intros _. exact K3.
  Qed.
  Lemma atom_string t s k x : faithful (XString t) -> renders (expression_document (XString t)) s -> skip x = skip (s ++ k) -> atomic x = POk (XString t) k.
  Proof.
    intros F R E. cbn [expression_document] in R. rinv. norm. cbn in F.
    assert (E' : skip x = String quote (t ++ String quote k)) by exact E.
    assert (S : starts (Ascii.eqb quote) (skip x)) by (rewrite E'; startc).
    unfold atomic_expression. nolam S. noif_ S. norec S. nolist S. nomap S. nonum S. apply alt_left. rewrite (string_ok t x k F E'). reflexivity.
  Qed.
  Lemma atom_variable a s k x : faithful (XVariable a) -> renders (expression_document (XVariable a)) s -> fit (XVariable a) k -> skip x = skip (s ++ k) -> atomic x = POk (XVariable a) k.
  Proof.
    intros F R (K1 & K2 & K3) E. cbn [expression_document] in R. rinv. norm. cbn in F. rewrite (qualified_skip a k F) in E.
    assert (S : starts word_start (skip x)) by (rewrite E; apply starts_app; apply qualified_starts; exact F).
    assert (K : keyword "if" x = PErr) by (eapply keyword_qualified; eauto; cbn; tauto).
    unfold atomic_expression. nolam S. noif K. apply alt_right; [eapply record_brace; eauto|]. nolist S. nomap S. nonum S. nostr S. apply alt_left.
    unfold variable. rewrite E, (qualified_ok a k F K1). reflexivity.
  Qed.
  Lemma atom_parens e s k x : slen s < n -> faithful e -> renders (expression_document e) s -> skip x = String "(" (s ++ String ")" k) -> atomic x = POk e k.
  Proof.
    intros L F R E. assert (S : starts (Ascii.eqb "(") (skip x)) by (rewrite E; startc).
    unfold atomic_expression. nolam S. noif_ S. norec S. nolist S. nomap S. nonum S. nostr S. novar S.
    unfold parenthesized_expression. takes "(". eapply pbind_ok; [apply (HG e s (String ")" k)); auto; apply good_char; reflexivity|]. takes ")". reflexivity.
  Qed.
  Lemma atom_lambda a r b s k x : slen s <= n -> faithful (XLambda a r b) -> renders (expression_document (XLambda a r b)) s -> skip x = skip (s ++ k) -> atomic x = POk (XLambda a r b) k.
  Proof.
    intros L F R E. unfold atomic_expression. apply alt_left. unfold lambda_expression. rewrite (lambda_ok P n HP HE a r b s k x L F R E). reflexivity.
  Qed.

  (** *** Lists and maps *)
  Lemma spread_ok e s k x : slen s < n -> faithful e -> renders (expression_document e) s -> good k -> skip x = skip (String "." (String "." (String "." (s ++ k)))) ->
    sign "..." x = POk tt (s ++ k) /\ P (s ++ k) = POk e k.
  Proof.
    intros L F R G E. split; [apply sign_ok; [exact E|discriminate]|]. apply (HG e s k); auto.
  Qed.
  Definition element_document (y : aelement aexpr) : document :=
    match y with Single e => expression_document e | Multiple e => Text "..." :: expression_document e end.
  Lemma list_elements_ok l m : m < n -> every (fun x => match x with Single e | Multiple e => faithful e end) l ->
    element_ok (list_element P) element_document good l m.
  Proof.
    intros L F y t r x I R Lt G E. pose proof (every_In _ _ _ F I) as Fy. unfold list_element. destruct y as [e|e]; cbn [element_document] in *.
    - apply alt_right.
      + rewrite (sign_skip _ _ (t ++ r) E), (expr_points e t r Fy R). reflexivity.
      + rewrite (HG e t r x); auto. lia.
    - rinv. norm. match goal with H : renders _ ?u |- _ => destruct (spread_ok e u r x) as [H1 H2] end; auto.
      { lens. lia. }
      apply alt_left. rewrite H1. cbn [pbind]. rewrite H2. reflexivity.
  Qed.
  Lemma atom_list t l s k x : slen s <= n -> faithful (XList t l) -> renders (expression_document (XList t l)) s -> skip x = skip (s ++ k) -> atomic x = POk (XList t l) k.
  Proof.
    intros L (Ft & Fl) R E. cbn [expression_document] in R. fold element_document in R. rinv. norm.
    match goal with H : renders (type_document t) ?u |- _ => rename u into t2; rename H into Rt end.
    match goal with H : renders (elements_document _) ?u |- _ => rename u into t3; rename H into Re end.
    assert (E' : skip x = String "[" (t2 ++ t3 ++ String "]" k)) by exact E.
    assert (S : starts (Ascii.eqb "[") (skip x)) by (rewrite E'; startc).
    assert (Hd : match l with [] => t3 = "" | y :: _ => exists b u r, blank b /\ b <> "" /\ t3 = b ++ u ++ r /\ renders (element_document y) u /\ (r = "" \/ exists r', r = String "," r') end).
    { destruct l as [|y l]; [apply renders_nil_inv in Re; exact Re|]. apply elements_head in Re. exact Re. }
    assert (T : stop_type (t3 ++ String "]" k)).
    { destruct l as [|y l]; [subst; split; reflexivity|]. destruct Hd as (b & u & r & B & N & -> & Ru & _). rewrite sapp_assoc. destruct Fl as [Fy _]. destruct y as [e|e]; cbn [element_document] in Ru.
      - pose proof (expr_starts e u Fy Ru) as Su. apply (stop_blank expr_start); auto. rewrite sapp_assoc, skip_app by solidify. apply starts_app. exact Su.
      - rinv. apply (stop_blank (Ascii.eqb ".")); auto. startc. }
    assert (Ty : type_ (t2 ++ t3 ++ String "]" k) = POk t (t3 ++ String "]" k)) by (eapply type_ok; eauto).
    unfold atomic_expression. nolam S. noif_ S. norec S.
    apply alt_right.
    { unfold list_comprehension. takes "[". rewrite Ty. cbn [pbind]. destruct l as [|y l].
      - subst. rewrite (no_char _ (Ascii.eqb "]")); [reflexivity|startc|byc].
      - destruct Hd as (b & u & r & B & N & -> & Ru & Hr). rewrite !sapp_assoc. destruct Fl as [Fy _]. destruct y as [e|e]; cbn [element_document] in Ru.
        + assert (Er : exists c r', closer c = true /\ Ascii.eqb c "f" = false /\ r ++ String "]" k = String c r').
          { destruct Hr as [->|(r' & ->)]; eexists _, _; (split; [|split; [|reflexivity]]); reflexivity. }
          destruct Er as (c & r' & Hc & Hf & ->). eapply pbind_ok; [apply (HG e u (String c r')); auto; [lens; lia|apply good_char; exact Hc|rewrite skip_blank by exact B; reflexivity]|].
          unfold many1, comprehension_branch. rewrite (keyword_err (Ascii.eqb c) "f" "or" (String c r')); [reflexivity| |exact Hf].
          rewrite skip_solid; [exists c, r'; split; [reflexivity|apply Ascii.eqb_refl]|]. exists c, r'. split; [reflexivity|]. clear -Hc. revert c Hc. apply by_chars2. vm_compute. reflexivity.
        + rinv. match goal with H : renders (expression_document e) ?u |- _ => rewrite (no_points _ (u ++ r ++ String "]" k)); [reflexivity|] end. rewrite skip_blank by exact B. norm. reflexivity. }
    apply alt_left. unfold list_literal. takes "[". apply cut_ok. rewrite Ty. cbn [pbind].
    destruct (elements_ok (list_element P) element_document good l t3 (String "]" k) (t3 ++ String "]" k)) as (k' & Ek & Tl); auto.
    { intros r. apply good_char. reflexivity. }
    { apply good_char. reflexivity. }
    { apply list_elements_ok; [lens; lia|exact Fl]. }
    { intros z Ez. unfold list_element. apply alt_right.
      - rewrite (sign_err (Ascii.eqb "]")); [reflexivity|rewrite Ez; startc|reflexivity].
      - rewrite (no_char _ (Ascii.eqb "]")); [reflexivity|rewrite Ez; startc|byc]. }
    rewrite Tl. cbn [pbind]. takes "]". reflexivity.
  Qed.

  Definition entry_document (y : aentry aexpr) : document :=
    match y with Entry k v => (expression_document k ++ Text ": " :: expression_document v)%list | Spread e => Text "..." :: expression_document e end.
  Lemma map_elements_ok l m : m < n -> every (fun x => match x with Entry k v => faithful k /\ faithful v | Spread e => faithful e end) l ->
    element_ok (map_element P) entry_document good l m.
  Proof.
    intros L F y t r x I R Lt G E. pose proof (every_In _ _ _ F I) as Fy. unfold map_element. destruct y as [q v|e]; cbn [entry_document] in *.
    - destruct Fy as [Fq Fv]. rinv. norm.
      match goal with H : renders (expression_document q) ?u |- _ => rename u into u1; rename H into Rq end.
      match goal with H : renders (expression_document v) ?u |- _ => rename u into u2; rename H into Rv end.
      apply alt_left. eapply pbind_ok; [apply (HG q u1 (String ":" (String " " (u2 ++ r)))); auto; [lens; lia|apply good_char; reflexivity]|].
      takes ":". eapply pbind_ok; [|reflexivity]. apply cut_ok. apply (HG v u2 r); auto. lens. lia.
    - rinv. norm. match goal with H : renders _ ?u |- _ => destruct (spread_ok e u r x) as [H1 H2]; [lens; lia|auto..|] end.
      apply alt_right; [rewrite (no_points x _ E); reflexivity|]. rewrite H1. cbn [pbind]. rewrite H2. reflexivity.
  Qed.
  Lemma atom_map q v l s k x : slen s <= n -> faithful (XMap q v l) -> renders (expression_document (XMap q v l)) s -> skip x = skip (s ++ k) -> atomic x = POk (XMap q v l) k.
  Proof.
    intros L (Fq & Fv & Fl) R E. cbn [expression_document] in R. fold entry_document in R. rinv. norm.
    match goal with H : renders (type_document q) ?u |- _ => rename u into w1; rename H into Rq end.
    match goal with H : renders (type_document v) ?u |- _ => rename u into w2; rename H into Rv end.
    match goal with H : renders (elements_document _) ?u |- _ => rename u into w3; rename H into Re end.
    assert (E' : skip x = String "{" (w1 ++ String ":" (String " " (w2 ++ w3 ++ String "}" k)))) by exact E.
    assert (S : starts (Ascii.eqb "{") (skip x)) by (rewrite E'; startc).
    assert (T : stop_type (w3 ++ String "}" k)).
    { destruct l as [|y l]; [apply renders_nil_inv in Re; subst; split; reflexivity|]. apply elements_head in Re. destruct Re as (b & u & r & B & N & -> & Ru & _). rewrite sapp_assoc.
      destruct Fl as [Fy _]. destruct y as [e1 e2|e]; cbn [entry_document] in Ru.
      - destruct Fy as [Fy _]. apply renders_app in Ru. destruct Ru as (u1 & u2 & -> & Ru & _). pose proof (expr_starts e1 u1 Fy Ru) as Su.
        apply (stop_blank expr_start); auto. rewrite !sapp_assoc, skip_app by solidify. apply starts_app. exact Su.
      - rinv. apply (stop_blank (Ascii.eqb ".")); auto. startc. }
    unfold atomic_expression. nolam S. noif_ S. norec S. nolist S. apply alt_left. unfold map_literal. takes "{". apply cut_ok.
    eapply pbind_ok; [apply (type_ok q w1 (String ":" (String " " (w2 ++ w3 ++ String "}" k)))); auto; split; reflexivity|]. takes ":".
    eapply pbind_ok; [apply (type_ok v w2 (w3 ++ String "}" k)); auto|].
    destruct (elements_ok (map_element P) entry_document good l w3 (String "}" k) (w3 ++ String "}" k)) as (k' & Ek & Tl); auto.
    { intros r. apply good_char. reflexivity. }
    { apply good_char. reflexivity. }
    { apply map_elements_ok; [lens; lia|exact Fl]. }
    { intros z Ez. unfold map_element. apply alt_right.
      - rewrite (no_char _ (Ascii.eqb "}")); [reflexivity|rewrite Ez; startc|byc].
      - rewrite (sign_err (Ascii.eqb "}")); [reflexivity|rewrite Ez; startc|reflexivity]. }
    rewrite Tl. cbn [pbind]. takes "}". reflexivity.
  Qed.
End Atom.
