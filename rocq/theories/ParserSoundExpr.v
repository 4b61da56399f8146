From Coq Require Import String Ascii List Bool Arith Lia.
From Verif Require Import Base Syntax SyntaxSpec Ast Parser ParserSpec ParserKept ParserToken ParserList ParserType ParserSound.
Import ListNotations.
Local Open Scope string_scope.

Ltac tok := repeat match goal with
  | H : sign (String _ _) _ = POk _ _ |- _ => apply sign_sound in H; destruct H as [_ H]
  | H : keyword (String _ _) _ = POk _ _ |- _ => apply keyword_sound in H; destruct H as [_ H]
  | H : identifier _ = POk _ _ |- _ => apply identifier_sound in H; destruct H as [? H]
  | H : qualified_identifier (skip _) = POk _ _ |- _ => apply qualified_sound in H; destruct H as [? H]
  | H : number_literal _ = POk _ _ |- _ => apply number_sound in H; destruct H as [? H]
  | H : string_literal _ = POk _ _ |- _ => apply string_sound in H; destruct H as [? H]
  end.
Ltac use L := match goal with H : _ = POk _ _ |- _ => apply L in H; destruct H as [? H] end.

(** *** Types *)
Definition Wt (t : aty) : Prop := kept_type t -> faithful_type t.
Section Types.
  Variable T : parser aty.
  Hypothesis HT : sound Wt T.
  Lemma atomic_type_sound : sound Wt (atomic_type T).
  Proof.
    intros x a r H. unfold atomic_type in H. pinv.
    - unfold reference_type in H. pinv. tok. split; [intros _; assumption|lia].
    - unfold list_type in H. pinv. tok. use HT. tok. split; [assumption|lia].
    - unfold map_type in H. pinv. tok. use HT. use HT. tok. split; [intros [K1 K2]; split; auto|lia].
    - unfold parenthesized_type in H. pinv. tok. use HT. tok. split; [assumption|lia].
  Qed.
  Lemma union_fold l : forall t, Wt t -> every Wt l -> Wt (fold_left AUnion l t).
  Proof.
    induction l as [|u l IH]; intros t H [H1 H2] || intros t H _; [exact H|]. cbn. apply IH; [|exact H2]. intros (K1 & K2 & K3). split; [auto|]. split; auto.
  Qed.
  Lemma union_sound : sound Wt (union_type T).
  Proof.
    intros x a r H. unfold union_type in H. destruct (separated_list1 (sign "|") (atomic_type T) x) as [l k| |] eqn:E; cbn [pbind] in H; try discriminate.
    apply (list1_sound Wt _ _ (sound_loose _ _ (sign_sound _ _)) atomic_type_sound) in E. destruct E as [[_ E] L]. destruct l as [|t l]; [discriminate|]. pinv.
    split; [apply union_fold; apply E|exact L].
  Qed.
  Lemma function_sound : sound Wt (function_type T).
  Proof.
    intros x a r H. unfold function_type in H. pinv. use (terminated0_sound Wt _ _ comma_sound (sound_loose _ _ HT)). use HT. tok.
    split; [intros [K1 K2]; split; [eapply every_imp; eauto|auto]|lia].
  Qed.
End Types.
Lemma ptype_sound n : sound Wt (ptype n).
Proof.
  induction n as [|n IH]; [intros x a r H; discriminate|]. intros x a r H. cbn [ptype] in H. pinv.
  - eapply function_sound; eauto.
  - eapply union_sound; eauto.
Qed.
Lemma type_sound : sound Wt type_.
Proof. intros x a r H. eapply ptype_sound. exact H. Qed.

(** *** Expressions *)
Definition We (e : aexpr) : Prop := kept e -> faithful e.
Definition Wb (b : ablock aexpr) : Prop := kept_block kept b -> faithful_block faithful b.
Definition Wst (st : option string * aexpr) : Prop := maybe name (fst st) /\ We (snd st).
Definition Warg (p : string * aty) : Prop := name (fst p) /\ Wt (snd p).
Definition Wl (l : alambda) : Prop := kept_lambda l -> faithful_lambda l.
Lemma args_sound l : every Warg l -> every (fun p => kept_type (snd p)) l -> every (fun p => name (fst p) /\ faithful_type (snd p)) l.
Proof. induction l as [|[x t] l IH]; cbn; [auto|]. intros ((N & H1) & H2) (K1 & K2). cbn in *. auto. Qed.
Lemma every_rev {A} (W : A -> Prop) l : every W l -> every W (rev l).
Proof. induction l as [|a l IH]; [auto|]. intros [H1 H2]. cbn. apply every_app; [auto|]. split; [exact H1|exact I]. Qed.
Lemma stmts_sound l : every Wst l -> every (fun st => match st with (_, e) => kept e end) l -> every (fun st => match st with (x, e) => maybe name x /\ faithful e end) l.
Proof. induction l as [|[x e] l IH]; [auto|]. intros ((N & H1) & H2) (K1 & K2). cbn in *. auto. Qed.
Lemma binding_sound : loose name (fun s => do x, s <- identifier s; do_ s <- sign "=" s; POk x s).
Proof. intros x a r H. pinv. tok. split; [assumption|lia]. Qed.
Lemma distinct_sound l : distinct l = true -> NoDup l.
Proof.
  induction l as [|x l IH]; [constructor|]. cbn [distinct]. intros H. apply andb_true_iff in H. destruct H as [H1 H2]. constructor; [|auto].
  intros I. apply negb_true_iff in H1. assert (X : existsb (String.eqb x) l = true) by (apply existsb_exists; exists x; split; [exact I|apply String.eqb_refl]). congruence.
Qed.
Definition Wbr (p : aexpr * ablock aexpr) : Prop := We (fst p) /\ Wb (snd p).
Definition Wtb (p : aty * ablock aexpr) : Prop := Wt (fst p) /\ Wb (snd p).
Definition Wf (p : string * aexpr) : Prop := name (fst p) /\ We (snd p).
Definition Wel (x : aelement aexpr) : Prop := match x with Single e | Multiple e => We e end.
Definition Wen (x : aentry aexpr) : Prop := match x with Entry k v => We k /\ We v | Spread e => We e end.
Definition Wcb (b : abranch aexpr) : Prop := match b with Branch xs es c => (xs <> [] /\ every name xs) /\ (es <> [] /\ every We es) /\ maybe We c end.
Definition Wsf (s : suffix) : Prop := match s with SCall l => every We l | SField x => name x | STry => True end.

Section Expressions.
  Variable P : parser aexpr.
  Hypothesis HP : sound We P.

  Lemma statement_sound : sound Wst (statement P).
  Proof. intros x a r H. unfold statement in H. pinv. use (opt_sound name _ binding_sound). use HP. split; [split; assumption|lia]. Qed.
  Lemma block_sound : sound Wb (block P).
  Proof.
    intros x a r H. unfold block in H. destruct (sign "{" x) as [u k| |] eqn:E; cbn [pbind] in H; try discriminate. apply cut_inv in H. tok.
    destruct (many1 (statement P) k) as [l j| |] eqn:M; cbn [pbind] in H; try discriminate. apply (many1_sound Wst _ statement_sound) in M. destruct M as [[_ M] L].
    apply every_rev in M. destruct (rev l) as [|[[y|] e] m]; try discriminate. pinv. tok. split; [|lia]. intros (K1 & K2 & K3). destruct M as [[_ M1] M2].
    split; [apply stmts_sound; [apply every_rev; exact M2|exact K1]|]. split; [auto|exact K3].
  Qed.
  Lemma argument_sound : sound Warg argument.
  Proof. intros x a r H. unfold argument in H. pinv. tok. use type_sound. split; [split; assumption|lia]. Qed.
  Lemma lambda_sound : sound Wl (lambda P).
  Proof.
    intros x a r H. unfold lambda in H. pinv. use (terminated0_sound Warg _ _ comma_sound (sound_loose _ _ argument_sound)). use type_sound. use block_sound. tok.
    split; [|lia]. intros (K1 & K2 & K3). split; [apply args_sound; assumption|]. split; auto.
  Qed.
  Lemma lambda_expression_sound : sound We (lambda_expression P).
  Proof. intros x a r H. unfold lambda_expression in H. pinv. use lambda_sound. split; [|lia]. assumption. Qed.
  Lemma if_branch_sound : sound Wbr (if_branch P).
  Proof. intros x a r H. unfold if_branch in H. pinv. use HP. use block_sound. split; [split; assumption|lia]. Qed.
  Lemma else_branch_sound : sound Wbr (fun s => do_ s <- else_if s; cut (if_branch P s)).
  Proof. intros x a r H. unfold else_if in H. pinv. use if_branch_sound. tok. split; [assumption|lia]. Qed.
  Lemma branches_sound l : every Wbr l -> every (fun p => match p with (c, b) => kept c /\ kept_block kept b end) l -> every (fun p => match p with (c, b) => faithful c /\ faithful_block faithful b end) l.
  Proof. induction l as [|[c b] l IH]; [auto|]. intros ((N & H1) & H2) ((K & K1) & K2). cbn in *. auto. Qed.
  Lemma if_sound : sound We (if_ P).
  Proof.
    intros x a r H. unfold if_ in H. pinv. use if_branch_sound. use (many0_sound Wbr _ (sound_loose _ _ else_branch_sound)). use block_sound. tok.
    split; [|lia]. intros (K1 & K2 & K3). split; [discriminate|]. split; [exact K1|]. split; [|auto]. apply branches_sound; [split; assumption|exact K2].
  Qed.
  Lemma if_list_sound : sound We (if_list P).
  Proof. intros x a r H. unfold if_list in H. pinv. tok. use HP. use block_sound. use block_sound. tok. split; [|lia]. intros (K1 & K2 & K3). repeat (split; [solve [auto]|]); auto. Qed.
  Lemma if_map_sound : sound We (if_map P).
  Proof. intros x a r H. unfold if_map in H. pinv. tok. use HP. use HP. use block_sound. use block_sound. tok. split; [|lia]. intros (K1 & K2 & K3 & K4). repeat (split; [solve [auto]|]); auto. Qed.
  Lemma if_type_branch_sound : sound Wtb (if_type_branch P).
  Proof. intros x a r H. unfold if_type_branch in H. pinv. use type_sound. use block_sound. split; [split; assumption|lia]. Qed.
  Lemma else_type_sound : sound Wtb (fun s => do_ s <- else_if s; cut (if_type_branch P s)).
  Proof. intros x a r H. unfold else_if in H. pinv. use if_type_branch_sound. tok. split; [assumption|lia]. Qed.
  Lemma else_sound : sound Wb (fun s => do_ s <- keyword "else" s; block P s).
  Proof. intros x a r H. pinv. use block_sound. tok. split; [assumption|lia]. Qed.
  Lemma type_branches_sound l : every Wtb l -> every (fun p => match p with (t, b) => kept_type t /\ kept_block kept b end) l -> every (fun p => match p with (t, b) => faithful_type t /\ faithful_block faithful b end) l.
  Proof. induction l as [|[c b] l IH]; [auto|]. intros ((N & H1) & H2) ((K & K1) & K2). cbn in *. auto. Qed.
  Lemma if_type_sound : sound We (if_type P).
  Proof.
    intros x a r H. unfold if_type in H. pinv. tok. use HP. use if_type_branch_sound. use (many0_sound Wtb _ (sound_loose _ _ else_type_sound)). use (opt_sound Wb _ (sound_loose _ _ else_sound)). tok.
    split; [|lia]. intros (K1 & K2 & K3). split; [assumption|]. split; [auto|]. split; [discriminate|]. split; [apply type_branches_sound; [split; assumption|exact K2]|].
    match goal with o : option (ablock aexpr) |- _ => destruct o; cbn in *; auto end.
  Qed.
  Lemma record_field_sound : sound Wf (record_field P).
  Proof. intros x a r H. unfold record_field in H. pinv. tok. use HP. split; [split; assumption|lia]. Qed.
  Lemma fields_sound l : every Wf l -> every (fun p => match p with (_, e) => kept e end) l -> every (fun p => match p with (x, e) => name x /\ faithful e end) l.
  Proof. induction l as [|[c b] l IH]; [auto|]. intros ((N & H1) & H2) (K1 & K2). cbn in *. auto. Qed.
  Lemma record_elements_sound : loose (fun p => every Wf (snd p) /\ match fst p with Some e => We e /\ snd p <> [] | None => True end) (record_elements P).
  Proof.
    intros x a r H. unfold record_elements in H. pinv.
    - use HP. match goal with H : terminated_list1 _ _ _ = _ |- _ => apply (terminated1_sound Wf _ _ comma_sound record_field_sound) in H; destruct H as [[? ?] ?] end. tok.
      cbn. split; [split; [assumption|split; assumption]|lia].
    - use (terminated0_sound Wf _ _ comma_sound (sound_loose _ _ record_field_sound)). split; [split; [assumption|exact I]|lia].
  Qed.
  Lemma record_sound : sound We (record P).
  Proof.
    intros x a r H. unfold record in H. pinv. tok. use record_elements_sound. tok. match goal with H : distinct _ = true |- _ => apply distinct_sound in H end.
    match goal with p : option aexpr * _ |- _ => destruct p as [o l] end. cbn [fst snd] in *.
    match goal with H : every Wf l /\ _ |- _ => destruct H as [F O] end. split; [|lia]. intros (K1 & K2). split; [assumption|].
    split; [destruct o; [destruct O; split; auto|exact I]|]. split; [apply fields_sound; assumption|assumption].
  Qed.
  Lemma list_element_sound : sound Wel (list_element P).
  Proof.
    intros x a r H. unfold list_element in H. pinv.
    - use HP. tok. split; [assumption|lia].
    - use HP. split; [assumption|lia].
  Qed.
  Lemma els_sound l : every Wel l -> every (fun x => match x with Single e | Multiple e => kept e end) l -> every (fun x => match x with Single e | Multiple e => faithful e end) l.
  Proof. induction l as [|[c|b] l IH]; [auto| |]; intros (H1 & H2) (K1 & K2); cbn in *; auto. Qed.
  Lemma list_literal_sound : sound We (list_literal P).
  Proof.
    intros x a r H. unfold list_literal in H. pinv. use type_sound. use (terminated0_sound Wel _ _ comma_sound (sound_loose _ _ list_element_sound)). tok.
    split; [|lia]. intros (K1 & K2). split; [auto|apply els_sound; assumption].
  Qed.
  Lemma condition_sound : sound We (fun s => do_ s <- keyword "if" s; P s).
  Proof. intros x a r H. pinv. use HP. tok. split; [assumption|lia]. Qed.
  Lemma comprehension_branch_sound : sound Wcb (comprehension_branch P).
  Proof.
    intros x a r H. unfold comprehension_branch in H. pinv. use (terminated1_sound name _ _ comma_sound identifier_sound). use (terminated1_sound We _ _ comma_sound HP). use (opt_sound We _ (sound_loose _ _ condition_sound)). tok.
    split; [|lia]. split; [assumption|]. split; assumption.
  Qed.
  Lemma cbs_sound l : every Wcb l -> every (fun b => match b with Branch _ es c => every kept es /\ match c with Some e => kept e | None => True end end) l ->
    every (fun b => match b with Branch xs es c =>
        xs <> [] /\ every name xs /\ es <> [] /\ every faithful es /\ match c with Some e => faithful e | None => True end end) l.
  Proof.
    induction l as [|[xs es c] l IH]; [auto|]. intros ((H1 & H2 & H3) & H4) ((K1 & K2) & K3). split; [|auto]. destruct H1, H2. repeat split; auto; [eapply every_imp; eauto|].
    destruct c; [apply H3; exact K2|exact I].
  Qed.
  Lemma comprehension_sound : sound We (list_comprehension P).
  Proof.
    intros x a r H. unfold list_comprehension in H. pinv. use type_sound. use HP. match goal with H : many1 _ _ = _ |- _ => apply (many1_sound Wcb _ comprehension_branch_sound) in H; destruct H as [[? ?] ?] end. tok.
    split; [|lia]. intros (K1 & K2 & K3). split; [auto|]. split; [auto|]. split; [assumption|apply cbs_sound; assumption].
  Qed.
  Lemma map_element_sound : sound Wen (map_element P).
  Proof.
    intros x a r H. unfold map_element in H. pinv.
    - use HP. use HP. tok. split; [split; assumption|lia].
    - use HP. tok. split; [assumption|lia].
  Qed.
  Lemma entries_sound l : every Wen l -> every (fun x => match x with Entry k v => kept k /\ kept v | Spread e => kept e end) l -> every (fun x => match x with Entry k v => faithful k /\ faithful v | Spread e => faithful e end) l.
  Proof. induction l as [|[k v|b] l IH]; [auto| |]; intros (H1 & H2) (K1 & K2); cbn in *; intuition. Qed.
  Lemma map_literal_sound : sound We (map_literal P).
  Proof.
    intros x a r H. unfold map_literal in H. pinv. use type_sound. use type_sound. use (terminated0_sound Wen _ _ comma_sound (sound_loose _ _ map_element_sound)). tok.
    split; [|lia]. intros (K1 & K2 & K3). split; [auto|]. split; [auto|apply entries_sound; assumption].
  Qed.
  Lemma atomic_sound : sound We (atomic_expression P).
  Proof.
    intros x a r H. unfold atomic_expression in H. repeat (apply alt_inv in H; destruct H as [H|H]).
    - apply lambda_expression_sound; exact H.
    - apply if_type_sound; exact H.
    - apply if_list_sound; exact H.
    - apply if_map_sound; exact H.
    - apply if_sound; exact H.
    - apply record_sound; exact H.
    - apply comprehension_sound; exact H.
    - apply list_literal_sound; exact H.
    - apply map_literal_sound; exact H.
    - pinv. tok. split; [intros _; assumption|lia].
    - pinv. tok. split; [intros _; assumption|lia].
    - unfold variable in H. pinv. tok. split; [intros _; assumption|lia].
    - unfold parenthesized_expression in H. pinv. use HP. tok. split; [assumption|lia].
  Qed.
  Lemma suffix_sound : sound Wsf (suffix_operator P).
  Proof.
    intros x a r H. unfold suffix_operator in H. pinv.
    - unfold call_operator in H. pinv. use (terminated0_sound We _ _ comma_sound (sound_loose _ _ HP)). tok. apply tag_len in E. cbn in E. split; [assumption|lia].
    - unfold record_field_operator in H. pinv. tok. split; [assumption|lia].
    - unfold try_operator in H. pinv. tok. split; [exact I|lia].
  Qed.
  Lemma suffixes_sound l : forall e, We e -> every Wsf l -> We (fold_left apply_suffix l e).
  Proof.
    induction l as [|s l IH]; intros e H Hl; [exact H|]. destruct Hl as [H1 H2]. cbn [fold_left]. apply IH; [|exact H2]. destruct s; cbn [apply_suffix].
    - intros (K1 & K2 & K3). split; [exact K1|]. split; [auto|]. eapply every_imp; eauto.
    - intros (K1 & K2). split; [exact K1|]. split; [auto|]. exact H1.
    - intros (K1 & K2). split; auto.
  Qed.
  Lemma suffix_operation_sound : sound We (suffix_operation P).
  Proof. intros x a r H. unfold suffix_operation in H. pinv. use atomic_sound. use (many0_sound Wsf _ (sound_loose _ _ suffix_sound)). split; [apply suffixes_sound; assumption|lia]. Qed.
  Lemma prefix_sound n : sound We (prefix_operation P n).
  Proof.
    induction n as [|n IH]; intros x a r H; cbn [prefix_operation] in H; [discriminate|]. apply alt_inv in H. destruct H as [H|H].
    - pinv. use IH. tok. split; [assumption|lia].
    - apply suffix_operation_sound; exact H.
  Qed.
  Lemma operand_sound : sound We (operand P).
  Proof. intros x a r H. eapply prefix_sound. exact H. Qed.
  Definition Wp (p : operator * aexpr) : Prop := We (snd p).
  Lemma binary_operator_sound : sound (fun _ => True) binary_operator.
  Proof. intros x a r H. unfold binary_operator in H. repeat (apply alt_inv in H; destruct H as [H|H]); unfold operator_sign in H; pinv; tok; split; auto. Qed.
  Lemma pair_sound : sound Wp (fun s => do o, s <- binary_operator s; do e, s <- cut (operand P s); POk (o, e) s).
  Proof. intros x a r H. pinv. use binary_operator_sound. use operand_sound. split; [assumption|lia]. Qed.
  Lemma split_sound p l : forall h t, split_operations p l = (h, t) -> every Wp l -> every Wp h /\ every Wp t.
  Proof.
    induction l as [|[o e] l IH]; intros h t H W; cbn [split_operations] in H; [injection H as <- <-; auto|].
    destruct (priority o <=? p)%nat; [injection H as <- <-; split; [exact I|exact W]|]. destruct (split_operations p l) as [h' t']. injection H as <- <-.
    destruct W as [W1 W2]. destruct (IH h' t' eq_refl W2). split; [split; assumption|assumption].
  Qed.
  Lemma reduce_sound n : forall l e a, We e -> every Wp l -> reduce n e l = Some a -> We a.
  Proof.
    assert (B : forall o l r, We l -> We r -> We (XBinary o l r)) by (intros o l r Hl Hr (K1 & K2 & K3); split; [exact K1|split; auto]).
    induction n as [|n IH]; intros l e a He Hl H; [discriminate|]. destruct l as [|[o rhs] [|[o2 r2] l]]; cbn [reduce] in H.
    - injection H as <-. exact He.
    - injection H as <-. apply B; [exact He|apply Hl].
    - destruct Hl as [H1 H2]. destruct (priority o2 <=? priority o)%nat.
      + eapply IH; [|exact H2|exact H]. apply B; [exact He|exact H1].
      + destruct (split_operations (priority o) ((o2, r2) :: l)) as [h t] eqn:S. apply split_sound in S; [|exact H2]. destruct S as [Hh Ht].
        destruct (reduce n rhs h) as [r|] eqn:R; [|discriminate]. eapply IH; [|exact Ht|exact H]. apply B; [exact He|]. eapply IH; [|exact Hh|exact R]. exact H1.
  Qed.
  Lemma operation_sound : sound We (operation P).
  Proof.
    intros x a r H. unfold operation in H. pinv. destruct (reduce _ _ _) eqn:R; [|discriminate]. pinv. use operand_sound. use (many0_sound Wp _ (sound_loose _ _ pair_sound)).
    split; [eapply reduce_sound; eauto|lia].
  Qed.
End Expressions.
Lemma pexpression_sound n : sound We (pexpression n).
Proof. induction n as [|n IH]; [intros x a r H; discriminate|]. intros x a r H. cbn [pexpression] in H. eapply operation_sound; eauto. Qed.
Lemma expression_sound : sound We expression.
Proof. intros x a r H. eapply pexpression_sound. exact H. Qed.
