From Coq Require Import String Ascii List Bool Arith Lia.
From Verif Require Import Syntax SyntaxSpec Ast Parser Printer ParserSpec ParserToken ParserList ParserType ParserLiteral.
Import ListNotations.
Local Open Scope string_scope.

(** *** First characters of expressions *)
Definition expr_start (c : ascii) : bool :=
  word_start c || is_digit c || existsb (Ascii.eqb c) ["."; "+"; "-"; quote; "\"; "["; "{"; "("; "!"]%char.
Definition calm_start (c : ascii) : bool :=
  word_start c || is_digit c || existsb (Ascii.eqb c) [quote; "\"; "("]%char.
Lemma expr_start_solid c : expr_start c = true -> solid c = true.
Proof. apply by_chars2. vm_compute. reflexivity. Qed.
Lemma calm_expr_start c : calm_start c = true -> expr_start c = true.
Proof. apply by_chars2. vm_compute. reflexivity. Qed.
Lemma word_calm_start c : word_start c = true -> calm_start c = true.
Proof. apply by_chars2. vm_compute. reflexivity. Qed.
Lemma digit_calm_start c : is_digit c = true -> calm_start c = true.
Proof. apply by_chars2. vm_compute. reflexivity. Qed.
Lemma number_expr_start c : (is_digit c || Ascii.eqb c "." || Ascii.eqb c "+" || Ascii.eqb c "-") = true -> expr_start c = true.
Proof. revert c. apply by_chars2. vm_compute. reflexivity. Qed.

Lemma renders_number n s : renders (expression_document (XNumber n)) s -> s = number_string n.
Proof. destruct n; cbn [expression_document]; intros R; rinv; norm; reflexivity. Qed.
Lemma if_document l b : l <> [] -> exists d, expression_document (XIf l b) = (Text "if " :: d)%list.
Proof. destruct l as [|[c b0] l]; [congruence|]. intros _. eexists. reflexivity. Qed.

Lemma expr_starts e : forall s, faithful e -> renders (expression_document e) s -> starts expr_start s.
Proof.
  induction e as [o l IHl r IHr|f IHf a|l b|e IHe x y a b|x m IHm k IHk a b|x e IHe l o|a r b|t l|t e IHe l|k v l|n|x o l|e IHe x|t|e IHe|e IHe|x];
    intros s F R; try (cbn [expression_document] in R; unfold signature_document in R; cbn [app] in R; rinv; startc).
  - cbn [expression_document] in R. destruct F as (_ & Fl & _). destruct (looser o l); cbn [parens app] in R; rinv; [startc|]. apply starts_app. apply IHl; assumption.
  - cbn [expression_document] in R. destruct F as (_ & Ff & _). rinv. apply starts_app. apply IHf; assumption.
  - destruct F as (N & _). destruct (if_document l b N) as (d & E). rewrite E in R. rinv. startc.
  - apply renders_number in R. subst. eapply starts_weaken; [apply number_expr_start|]. apply number_starts. exact F.
  - cbn [expression_document] in R. rinv. apply starts_app. eapply starts_weaken; [intros c Hc; apply calm_expr_start, word_calm_start, Hc|]. apply qualified_starts. apply F.
  - cbn [expression_document] in R. destruct F as (_ & Fe & _). rinv. apply starts_app. apply IHe; assumption.
  - cbn [expression_document] in R. destruct F as (_ & Fe). destruct (is_operation e); cbn [parens app] in R; rinv; [startc|]. apply starts_app. apply IHe; assumption.
  - cbn [expression_document] in R. rinv. rewrite sapp_nil. eapply starts_weaken; [intros c Hc; apply calm_expr_start, word_calm_start, Hc|]. apply qualified_starts. apply F.
Qed.
Lemma parens_starts b e s : faithful e -> renders (parens b (expression_document e)) s -> starts expr_start s.
Proof. intros F R. destruct b; cbn [parens] in R; [rinv; startc|eapply expr_starts; eauto]. Qed.

Lemma tight_looser o e : tight o e = negb (looser o e).
Proof. destruct e; try reflexivity. cbn. rewrite Nat.leb_antisym. f_equal. destruct o; destruct o0; reflexivity. Qed.

(** How an expression begins, by its first part *)
Definition leading (e : aexpr) (s : string) : Prop :=
  match leftmost e with
  | Some (XNumber (NFloat t)) => exists r, s = t ++ r
  | Some (XMap _ _ _) => starts (Ascii.eqb "{") s
  | Some (XList _ _) | Some (XComprehension _ _ _) => starts (Ascii.eqb "[") s
  | Some (XNot _) => exists r, s = String "!" r /\ starts expr_start r
  | _ => starts calm_start s
  end.
Lemma leading_app e s k : leading e s -> leading e (s ++ k).
Proof.
  unfold leading. destruct (leftmost e) as [[]|]; try apply starts_app.
  - destruct n; try apply starts_app. intros (r & ->). exists (r ++ k). apply sapp_assoc.
  - intros (r & -> & S). exists (r ++ k). split; [reflexivity|]. apply starts_app. exact S.
Qed.
Lemma leading_left e f s : leftmost e = leftmost f -> leading f s -> leading e s.
Proof. unfold leading. intros ->. trivial. Qed.
Lemma leading_none e s : leftmost e = None -> starts calm_start s -> leading e s.
Proof. unfold leading. intros ->. trivial. Qed.

Lemma expr_leading e : forall s, faithful e -> renders (expression_document e) s -> leading e s.
Proof.
  induction e as [o l IHl r IHr|f IHf a|l b|e IHe x y a b|x m IHm k IHk a b|x e IHe l o|a r b|t l|t e IHe l|k v l|n|x o l|e IHe x|t|e IHe|e IHe|x];
    intros s F R; try (cbn [expression_document] in R; unfold signature_document in R; cbn [app] in R; rinv; startc).
  - cbn [expression_document] in R. destruct F as (_ & Fl & _). pose proof (tight_looser o l) as T.
    destruct (looser o l); cbn [parens app negb] in R, T; rinv.
    + apply leading_none; [cbn; rewrite T; reflexivity|startc].
    + apply leading_left with (f := l); [cbn; rewrite T; reflexivity|]. apply leading_app. apply IHl; assumption.
  - cbn [expression_document] in R. destruct F as (_ & Ff & _). rinv. apply leading_left with (f := f); [reflexivity|]. apply leading_app. apply IHf; assumption.
  - destruct F as (N & _). destruct (if_document l b N) as (d & E). rewrite E in R. rinv. startc.
  - apply renders_number in R. subst. destruct n as [d|d|t]; cbn; [startc|startc|]. exists "". rewrite sapp_nil. reflexivity.
  - cbn [expression_document] in R. rinv. cbn. apply starts_app. eapply starts_weaken; [apply word_calm_start|]. apply qualified_starts. apply F.
  - cbn [expression_document] in R. destruct F as (_ & Fe & _). rinv. apply leading_left with (f := e); [reflexivity|]. apply leading_app. apply IHe; assumption.
  - cbn [expression_document] in R. rinv. cbn. eexists. split; [reflexivity|]. eapply (parens_starts _ e); eauto.
  - cbn [expression_document] in R. destruct F as (_ & Fe). destruct (is_operation e) eqn:O; cbn [parens app] in R; rinv.
    + destruct e; try discriminate. apply leading_none; [reflexivity|startc].
    + apply leading_left with (f := e); [destruct e; try reflexivity; discriminate|]. apply leading_app. apply IHe; assumption.
  - cbn [expression_document] in R. rinv. rewrite sapp_nil. cbn. eapply starts_weaken; [apply word_calm_start|]. apply qualified_starts. apply F.
Qed.

(** *** Names at the beginning *)
Lemma sign_skip t x y : skip x = skip y -> sign t x = sign t y.
Proof. unfold sign. intros ->. reflexivity. Qed.
Lemma keyword_skip t x y : skip x = skip y -> keyword t x = keyword t y.
Proof. unfold keyword. intros ->. reflexivity. Qed.
Lemma identifier_skip x y : skip x = skip y -> identifier x = identifier y.
Proof. unfold identifier. intros ->. reflexivity. Qed.

(** What may follow a name without making it a field or a definition *)
Definition after (k : string) : Prop := not_next part k = true /\ sign ":" k = PErr /\ sign "=" k = PErr.
Definition opens (y : string) : Prop :=
  starts (fun c => expr_start c && negb (word_start c)) y \/ (exists r, y = "if " ++ r) \/
  (exists a r, y = a ++ r /\ name a /\ not_next is_word r = true /\ sign ":" r = PErr /\ sign "=" r = PErr).

Lemma blank_part b k : blank b -> b <> "" -> not_next part (b ++ k) = true.
Proof.
  intros B N. apply blank_not_word; auto. intros c Hc. apply negb_true_iff. revert c Hc. apply by_chars2. vm_compute. reflexivity.
Qed.
Lemma blank_next b k c : blank b -> b <> "" -> solid c = true -> not_next (Ascii.eqb c) (b ++ k) = true.
Proof.
  intros B N H. apply blank_not_word; auto.
  - intros d Hd. destruct (Ascii.eqb_spec c d) as [<-|]; [|reflexivity]. unfold solid in H. rewrite Hd in H. discriminate.
  - destruct (Ascii.eqb_spec c "#") as [->|]; [discriminate|reflexivity].
Qed.
Lemma operator_starts o : starts (fun c => solid c && is_operator_character c) (operator_text o).
Proof. destruct o; startc. Qed.
Lemma after_operator b o k : blank b -> b <> "" -> after (b ++ operator_text o ++ String " " k).
Proof.
  intros B N. split; [apply blank_part; assumption|].
  assert (E : skip (b ++ operator_text o ++ String " " k) = operator_text o ++ String " " k) by (rewrite skip_blank by exact B; apply skip_app; destruct o; startc).
  unfold sign. rewrite E. destruct o; split; reflexivity.
Qed.
Lemma after_char f c k : f c = true -> (forall c, f c = true -> solid c = true /\ part c = false /\ c <> ":"%char /\ c <> "="%char) -> after (String c k).
Proof.
  intros H G. destruct (G c H) as (G1 & G2 & G3 & G4). split; [cbn [not_next]; rewrite G2; reflexivity|].
  assert (S : starts (Ascii.eqb c) (skip (String c k))) by (rewrite skip_solid; [eexists _, _; split; [reflexivity|apply Ascii.eqb_refl]|eexists _, _; split; [reflexivity|exact G1]]).
  split; (apply (sign_err (Ascii.eqb c)); [exact S|]); apply Ascii.eqb_neq; assumption.
Qed.
Lemma opens_name x k : qualified_name x -> after k -> opens (x ++ k).
Proof.
  intros Q (K1 & K2 & K3). right; right. destruct Q as [Q|(a & b & -> & Na & Nb)].
  - exists x, k. repeat split; try assumption; [apply Q..|]. apply part_word. exact K1.
  - exists a, ("'" ++ b ++ k). rewrite !sapp_assoc. repeat split; try reflexivity; apply Na.
Qed.
Lemma opens_other c r : expr_start c = true -> word_start c = false -> opens (String c r).
Proof. intros H W. left. exists c, r. split; [reflexivity|]. rewrite H, W. reflexivity. Qed.

Lemma expr_opens e : forall s k, faithful e -> renders (expression_document e) s -> after k -> opens (s ++ k).
Proof.
  induction e as [o l IHl r IHr|f IHf a|l b|e IHe x y a b|x m IHm q IHk a b|x e IHe l o|a r b|t l|t e IHe l|q v l|n|x o l|e IHe x|t|e IHe|e IHe|x];
    intros s k F R K;
    try (cbn [expression_document] in R; unfold signature_document in R; cbn [app] in R; rinv; apply opens_other; reflexivity);
    try (cbn [expression_document] in R; rinv; right; left; eexists; reflexivity).
  - cbn [expression_document] in R. destruct F as (_ & Fl & _). destruct (looser o l); cbn [parens app] in R; rinv; [apply opens_other; reflexivity|].
    rewrite !sapp_assoc. apply IHl; [assumption..|]. cbn [append]. apply after_operator; assumption.
  - cbn [expression_document] in R. destruct F as (_ & Ff & _). rinv. rewrite sapp_assoc. apply IHf; [assumption..|]. split; [reflexivity|split; reflexivity].
  - destruct F as (N & _). destruct (if_document l b N) as (d & E). rewrite E in R. rinv. right; left. eexists. reflexivity.
  - apply renders_number in R. subst. left. apply starts_app. eapply starts_weaken; [|apply number_starts; exact F].
    apply by_chars2. vm_compute. reflexivity.
  - cbn [expression_document] in R. rinv. rewrite sapp_assoc. apply opens_name; [apply F|]. split; [reflexivity|split; reflexivity].
  - cbn [expression_document] in R. destruct F as (_ & Fe & _). rinv. rewrite sapp_assoc. apply IHe; [assumption..|]. split; [reflexivity|split; reflexivity].
  - cbn [expression_document] in R. destruct F as (_ & Fe). destruct (is_operation e); cbn [parens app] in R; rinv; [apply opens_other; reflexivity|].
    rewrite sapp_assoc. apply IHe; [assumption..|]. split; [reflexivity|split; reflexivity].
  - cbn [expression_document] in R. rinv. rewrite sapp_nil. apply opens_name; assumption.
Qed.

Lemma opens_starts y : opens y -> starts expr_start y.
Proof.
  intros [S|[(r & ->)|(a & r & -> & H & _)]].
  - eapply starts_weaken; [|exact S]. intros c E. apply andb_true_iff in E. tauto.
  - startc.
  - apply starts_app. eapply starts_weaken; [|apply name_starts; exact H]. intros c Hc. apply calm_expr_start, word_calm_start, Hc.
Qed.
Lemma opens_solid y : opens y -> skip y = y.
Proof. intros H. apply skip_solid. eapply starts_weaken; [apply expr_start_solid|]. apply opens_starts. exact H. Qed.
Lemma opens_identifier y : opens y -> identifier y = PErr \/ exists a r, identifier y = POk a r /\ sign ":" r = PErr /\ sign "=" r = PErr.
Proof.
  intros H. pose proof (opens_solid y H) as E. destruct H as [S|[(r & ->)|(a & r & -> & Na & Nr & H1 & H2)]].
  - left. apply (identifier_err (fun c => expr_start c && negb (word_start c))); [rewrite E; exact S|]. intros c Hc. apply andb_true_iff in Hc. apply negb_true_iff. tauto.
  - left. eapply (identifier_keyword "if" _ (String " " r)); [exact E|cbn; tauto|reflexivity].
  - right. exists a, r. split; [|auto]. eapply identifier_ok; eauto.
Qed.
Lemma opens_keyword w y : In w keywords -> w <> "if" -> opens y -> keyword w y = PErr.
Proof.
  intros W D H. pose proof (opens_solid y H) as E. destruct H as [S|[(r & ->)|(a & r & -> & Na & Nr & H1 & H2)]].
  - destruct w as [|c w]; [cbn in W; repeat (destruct W as [W|W]; [discriminate|]); destruct W|].
    eapply keyword_err; [rewrite E; exact S|]. destruct (keyword_word _ W) as [(c' & w' & E' & Hc) _]. injection E' as <- <-. cbn beta. rewrite Hc, andb_false_r. reflexivity.
  - eapply (keyword_other w "if" _ (String " " r)); [exact W|exact E|reflexivity|reflexivity|congruence].
  - eapply keyword_name; eauto.
Qed.

(** *** What may follow an expression *)
Definition still (k : string) : Prop :=
  not_next part k = true /\ not_next (Ascii.eqb "(") k = true /\ not_next (Ascii.eqb "=") k = true /\
  sign "." k = PErr /\ sign "?" k = PErr /\ keyword "else" k = PErr.
Definition calm (k : string) : Prop := still k /\ binary_operator k = PErr.
Definition brace_safe (k : string) : Prop :=
  sign "{" k = PErr \/
  exists r, sign "{" k = POk tt r /\ sign "..." r = PErr /\ sign "}" r = PErr /\
    (identifier r = PErr \/ exists y r', identifier r = POk y r' /\ sign ":" r' = PErr).
Definition good (k : string) : Prop := calm k /\ brace_safe k.

Definition settled (y : string) : Prop :=
  sign "." y = PErr /\ sign "?" y = PErr /\ keyword "else" y = PErr /\ binary_operator y = PErr.
Lemma binary_skip x y : skip x = skip y -> binary_operator x = binary_operator y.
Proof. intros E. unfold binary_operator, alt, operator_sign, sign. rewrite E. reflexivity. Qed.
Lemma calm_blank b y : blank b -> b <> "" -> settled y -> calm (b ++ y).
Proof.
  intros B N (H1 & H2 & H3 & H4). pose proof (skip_blank b y B) as E. split.
  - split; [apply blank_part; assumption|]. split; [apply blank_next; auto|]. split; [apply blank_next; auto|].
    rewrite !(sign_skip _ _ _ E), (keyword_skip _ _ _ E). auto.
  - rewrite (binary_skip _ _ E). exact H4.
Qed.
Lemma binary_err f x : starts f (skip x) -> (forall c, f c = true -> is_operator_character c = false) -> binary_operator x = PErr.
Proof.
  intros S H.
  assert (T : forall c, is_operator_character c = true -> f c = false) by (intros c Hc; destruct (f c) eqn:X; [rewrite (H c X) in Hc; discriminate|reflexivity]).
  assert (G : forall o c t, is_operator_character c = true -> operator_sign o (String c t) x = PErr) by (intros o c t Hc; unfold operator_sign; rewrite (sign_err f c t x S (T c Hc)); reflexivity).
  unfold binary_operator. repeat (apply alt_right; [apply G; reflexivity|]). apply G. reflexivity.
Qed.
Definition quiet_char (c : ascii) : bool := solid c && negb (is_operator_character c) && negb (Ascii.eqb c ".") && negb (Ascii.eqb c "e").
Lemma settled_char y : starts quiet_char y -> settled y.
Proof.
  intros S. assert (E : skip y = y) by (apply skip_solid; eapply starts_weaken; [|exact S]; apply by_chars2; vm_compute; reflexivity).
  rewrite <- E in S. split; [apply (sign_err _ _ _ _ S); reflexivity|]. split; [apply (sign_err _ _ _ _ S); reflexivity|]. split; [apply (keyword_err _ _ _ _ S); reflexivity|].
  apply (binary_err _ _ S). intros c Hc. apply negb_true_iff. revert c Hc. apply by_chars2. vm_compute. reflexivity.
Qed.
Lemma settled_word y : opens y -> starts word_start y -> settled y.
Proof.
  intros O S. pose proof (opens_solid y O) as E. pose proof (opens_keyword "else" y ltac:(cbn; tauto) ltac:(discriminate) O) as K. rewrite <- E in S.
  split; [apply (sign_err _ _ _ _ S); reflexivity|]. split; [apply (sign_err _ _ _ _ S); reflexivity|]. split; [exact K|].
  apply (binary_err _ _ S). intros c Hc. apply negb_true_iff. revert c Hc. apply by_chars2. vm_compute. reflexivity.
Qed.
Lemma settled_name a k : name a -> not_next is_word k = true -> settled (a ++ k).
Proof.
  intros H N. pose proof (name_starts a H) as S0.
  assert (E : skip (a ++ k) = a ++ k) by (apply skip_app; eapply starts_weaken; [|exact S0]; apply word_start_solid).
  assert (S : starts word_start (skip (a ++ k))) by (rewrite E; apply starts_app; exact S0).
  split; [apply (sign_err _ _ _ _ S); reflexivity|]. split; [apply (sign_err _ _ _ _ S); reflexivity|].
  split; [eapply (keyword_name "else"); eauto; cbn; tauto|].
  apply (binary_err _ _ S). intros c Hc. apply negb_true_iff. revert c Hc. apply by_chars2. vm_compute. reflexivity.
Qed.
Lemma settled_not r : starts expr_start r -> settled (String "!" r).
Proof.
  intros (c & r' & -> & H). assert (N : Ascii.eqb "=" c = false) by (destruct (Ascii.eqb_spec "=" c) as [<-|]; [discriminate|reflexivity]).
  split; [reflexivity|]. split; [reflexivity|]. split; [reflexivity|].
  unfold binary_operator, alt, operator_sign, sign. rewrite (skip_solid (String "!" _)) by startc. cbn [tag pbind]. cbv [Ascii.eqb Bool.eqb]. cbn [tag pbind].
  unfold tag. rewrite ?N. fold (Ascii.eqb "=" c). destruct c as [[] [] [] [] [] [] [] []]; try reflexivity; discriminate.
Qed.
(** The characters that close something *)
Definition closer (c : ascii) : bool := existsb (Ascii.eqb c) [")"; "]"; "}"; ","; ":"; "["]%char.
Lemma good_char c r : closer c = true -> good (String c r).
Proof.
  intros H. assert (S : starts quiet_char (String c r)).
  { exists c, r. split; [reflexivity|]. revert c H. apply by_chars2. vm_compute. reflexivity. }
  destruct (settled_char _ S) as (H1 & H2 & H3 & H4). split; [split; [|exact H4]|].
  - split; [cbn [not_next]; revert c H S H1 H2 H3 H4; intros c H _ _ _ _ _; revert c H; apply by_chars2; vm_compute; reflexivity|].
    split; [cbn [not_next]; clear -H; revert c H; apply by_chars2; vm_compute; reflexivity|].
    split; [cbn [not_next]; clear -H; revert c H; apply by_chars2; vm_compute; reflexivity|]. auto.
  - left. apply (sign_err closer); [|reflexivity]. rewrite skip_solid; [exists c, r; auto|]. exists c, r. split; [reflexivity|]. clear -H. revert c H. apply by_chars2. vm_compute. reflexivity.
Qed.
Lemma brace_skip x y : skip x = skip y -> brace_safe y -> brace_safe x.
Proof. intros E. unfold brace_safe. rewrite (sign_skip _ _ _ E). trivial. Qed.
Lemma good_blank b c r : blank b -> closer c = true -> good (b ++ String c r).
Proof.
  intros B H. destruct b as [|b0 b1] eqn:Eb; [apply good_char; exact H|]. rewrite <- Eb in *. destruct (good_char c r H) as [[S1 S2] S3]. split.
  - apply calm_blank; [exact B|subst; discriminate|]. destruct S1 as (_ & _ & _ & A1 & A2 & A3). repeat split; assumption.
  - eapply brace_skip; [apply skip_blank; exact B|exact S3].
Qed.

(** A name before a block is no record. *)
Lemma record_brace p a k x : qualified_name a -> not_next part k = true -> brace_safe k -> skip x = a ++ k -> record p x = PErr.
Proof.
  intros Q K B E. unfold record. rewrite E, (qualified_ok a k Q K). cbn [pbind]. destruct B as [B|(r & B1 & B2 & B3 & B4)].
  - rewrite B. reflexivity.
  - rewrite B1. cbn [pbind]. assert (F : record_field p r = PErr).
    { unfold record_field. destruct B4 as [B4|(y & r' & B4 & B5)]; rewrite B4; [reflexivity|]. cbn [pbind]. rewrite B5. reflexivity. }
    assert (T : record_elements p r = POk (None, []) r).
    { unfold record_elements. apply alt_right; [rewrite B2; reflexivity|]. rewrite (terminated0_nil _ _ _ F). reflexivity. }
    rewrite T. cbn [pbind snd map distinct]. rewrite B3. reflexivity.
Qed.

(** The statement after another one *)
Definition ends_variable (e : aexpr) : Prop := match rightmost e with Some (XVariable _) => True | _ => False end.
Lemma next_expression e e' s k : apart e (None, e') -> faithful e' -> renders (expression_document e') s -> after k ->
  settled (s ++ k) /\ (ends_variable e -> sign "{" (s ++ k) = PErr).
Proof.
  intros A F R K. pose proof (expr_opens e' s k F R K) as O. pose proof (opens_solid _ O) as E.
  pose proof (leading_app e' s k (expr_leading e' s F R)) as L. unfold leading in L. unfold apart in A.
  assert (C : starts calm_start (s ++ k) -> settled (s ++ k) /\ (ends_variable e -> sign "{" (s ++ k) = PErr)).
  { intros S. split.
    - destruct O as [S'|O].
      + apply settled_char. destruct S as (c & r & E1 & H1), S' as (c' & r' & E2 & H2). rewrite E1 in E2. injection E2 as -> ->. exists c', r'. split; [exact E1|].
        assert (X : (calm_start c' && (expr_start c' && negb (word_start c'))) = true) by (rewrite H1, H2; reflexivity). clear -X. revert c' X. apply by_chars2. vm_compute. reflexivity.
      + apply settled_word; [right; exact O|]. destruct O as [(r & E1)|(a & r & E1 & H1 & _)]; rewrite E1; [startc|]. apply starts_app. apply name_starts. exact H1.
    - intros _. rewrite <- E in S. apply (sign_err _ _ _ _ S). reflexivity. }
  destruct (leftmost e') as [[]|]; try (apply C; exact L).
  - split; [apply settled_char; eapply starts_weaken; [|exact L]; apply by_chars2; vm_compute; reflexivity|]. intros _. rewrite <- E in L. apply (sign_err _ _ _ _ L). reflexivity.
  - split; [apply settled_char; eapply starts_weaken; [|exact L]; apply by_chars2; vm_compute; reflexivity|]. intros _. rewrite <- E in L. apply (sign_err _ _ _ _ L). reflexivity.
  - split; [apply settled_char; eapply starts_weaken; [|exact L]; apply by_chars2; vm_compute; reflexivity|]. unfold ends_variable. destruct (rightmost e) as [[]|]; tauto.
  - destruct n as [d|d|t]; [apply C; exact L|apply C; exact L|]. destruct L as (r & L). destruct t as [|c t]; [destruct A|]. apply C. rewrite L. exists c, (t ++ r). split; [reflexivity|]. apply digit_calm_start. exact A.
  - destruct L as (r & -> & S). split; [apply settled_not; exact S|]. intros _. reflexivity.
Qed.
