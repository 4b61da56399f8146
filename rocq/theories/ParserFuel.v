(** The bounds on recursion in Parser.v are never reached: the parsers satisfy
    the recursive equations of the code. *)
From Coq Require Import String Ascii List Bool Arith Lia.
From Verif Require Import Base Syntax SyntaxSpec Ast Parser ParserSpec ParserKept ParserToken ParserSound ParserSoundExpr ParserSoundModule.
Import ListNotations.
Local Open Scope string_scope.

(** Two parsers agree on the texts shorter than [k] *)
Definition agree {A} (k : nat) (p q : parser A) : Prop := forall x, slen x < k -> p x = q x.
Lemma agree_less {A} j k (p q : parser A) : j <= k -> agree k p q -> agree j p q.
Proof. intros L H x Hx. apply H. lia. Qed.
Lemma agree_same {A} k (p : parser A) : agree k p p.
Proof. intros x _. reflexivity. Qed.
Lemma pbind_ext {A B} (e e' : presult A) (f g : A -> string -> presult B) :
  e = e' -> (forall a r, e = POk a r -> f a r = g a r) -> pbind e f = pbind e' g.
Proof. intros <- H. destruct e; cbn; auto. Qed.
Lemma cut_ext {A} (e e' : presult A) : e = e' -> cut e = cut e'.
Proof. congruence. Qed.
Lemma agree_alt {A} k (p p' q q' : parser A) : agree k p p' -> agree k q q' -> agree k (alt p q) (alt p' q').
Proof. intros H1 H2 x L. unfold alt. rewrite <- H1, <- H2 by exact L. reflexivity. Qed.
Lemma agree_opt {A} k (p q : parser A) : agree k p q -> agree k (opt p) (opt q).
Proof. intros H x L. unfold opt. rewrite <- H by exact L. reflexivity. Qed.
Section Repetition.
  Context {A : Type} (W : A -> Prop) (p q : parser A).
  Hypothesis Hp : loose W p.
  Lemma many0_bound n : forall m k x, agree k p q -> slen x < k -> slen x < n -> slen x < m -> many0_ n p x = many0_ m q x.
  Proof.
    induction n as [|n IH]; intros m k x H L Ln Lm; [lia|]. destruct m as [|m]; [lia|]. cbn [many0_]. rewrite <- (H x L). destruct (p x) as [a r| |] eqn:E; try reflexivity.
    destruct (Nat.eqb_spec (slen r) (slen x)); [reflexivity|]. apply Hp in E. rewrite (IH m k r H); [reflexivity|lia|lia|lia].
  Qed.
  Lemma agree_many0 k : agree k p q -> agree k (many0 p) (many0 q).
  Proof. intros H x L. unfold many0. apply (many0_bound _ _ k); auto; lia. Qed.
  Lemma agree_many1 k : agree k p q -> agree k (many1 p) (many1 q).
  Proof. intros H x L. unfold many1. apply pbind_ext; [auto|]. intros a r E. apply Hp in E. rewrite (agree_many0 k H); [reflexivity|lia]. Qed.
  Variable sep : parser unit.
  Hypothesis Hs : loose (fun _ => True) sep.
  Lemma separated_bound n : forall m k x, agree k p q -> slen x < k -> slen x < n -> slen x < m -> separated_ n sep p x = separated_ m sep q x.
  Proof.
    induction n as [|n IH]; intros m k x H L Ln Lm; [lia|]. destruct m as [|m]; [lia|]. cbn [separated_]. destruct (sep x) as [u y| |] eqn:S; try reflexivity. apply Hs in S.
    rewrite <- (H y) by lia. destruct (p y) as [a r| |] eqn:E; try reflexivity.
    destruct (Nat.eqb_spec (slen r) (slen x)); [reflexivity|]. apply Hp in E. rewrite (IH m k r H); [reflexivity|lia|lia|lia].
  Qed.
  Lemma agree_list1 k : agree k p q -> agree k (separated_list1 sep p) (separated_list1 sep q).
  Proof. intros H x L. unfold separated_list1. apply pbind_ext; [auto|]. intros a r E. apply Hp in E. rewrite (separated_bound (S (slen r)) (S (slen r)) k); auto; lia. Qed.
  Lemma agree_list0 k : agree k p q -> agree k (separated_list0 sep p) (separated_list0 sep q).
  Proof.
    intros H x L. unfold separated_list0. rewrite <- H by exact L. destruct (p x) as [a r| |] eqn:E; try reflexivity. apply Hp in E.
    rewrite (separated_bound (S (slen r)) (S (slen r)) k); auto; lia.
  Qed.
  Lemma agree_terminated1 k : agree k p q -> agree k (terminated_list1 sep p) (terminated_list1 sep q).
  Proof. intros H x L. unfold terminated_list1. apply pbind_ext; [apply (agree_list1 k H); exact L|reflexivity]. Qed.
  Lemma agree_terminated0 k : agree k p q -> agree k (terminated_list0 sep p) (terminated_list0 sep q).
  Proof. intros H x L. unfold terminated_list0. apply pbind_ext; [apply (agree_list0 k H); exact L|reflexivity]. Qed.
End Repetition.

Lemma else_if_sound : sound (fun _ => True) else_if.
Proof. intros x a r H. unfold else_if in H. pinv. tok. split; [exact I|lia]. Qed.
(** Going through a parser from left to right *)
Ltac shorter E := match type of E with
  | sign (String _ _) _ = _ => apply sign_sound in E
  | keyword (String _ _) _ = _ => apply keyword_sound in E
  | identifier _ = _ => apply identifier_sound in E
  | type_ _ = _ => apply type_sound in E
  | else_if _ = _ => apply else_if_sound in E
  | qualified_identifier (skip _) = _ => apply qualified_sound in E
  | tag _ _ = _ => apply tag_len in E; cbn in E
  | _ => idtac
  end.
Ltac through := repeat match goal with
  | |- ?x = ?x => reflexivity
  | |- cut _ = cut _ => apply cut_ext
  | |- pmap _ _ = pmap _ _ => unfold pmap
  | |- pbind _ _ = pbind _ _ => apply pbind_ext; [try reflexivity|let a := fresh "a" in let r := fresh "r" in let E := fresh "E" in intros a r E; shorter E]
  end.

(** *** Types *)
Section Types.
  Variables P Q : parser aty.
  Variable n : nat.
  Hypothesis HP : sound Wt P.
  Hypothesis PQ : agree n P Q.
  Lemma agree_atomic_type : agree (S n) (atomic_type P) (atomic_type Q).
  Proof.
    repeat apply agree_alt; [apply agree_same| | |]; intros x L.
    - unfold list_type. through. apply PQ; lia.
    - unfold map_type. through; [apply PQ; lia|]. apply HP in E0. apply PQ; lia.
    - unfold parenthesized_type. through. apply PQ; lia.
  Qed.
  Lemma agree_union : agree (S n) (union_type P) (union_type Q).
  Proof.
    intros x L. unfold union_type. apply pbind_ext; [|reflexivity].
    apply (agree_list1 Wt _ _ (sound_loose _ _ (atomic_type_sound P HP)) _ (sound_loose _ _ (sign_sound _ _)) (S n)); [apply agree_atomic_type|exact L].
  Qed.
  Lemma agree_function : agree (S n) (function_type P) (function_type Q).
  Proof.
    intros x L. unfold function_type. through.
    - apply (agree_terminated0 Wt _ _ (sound_loose _ _ HP) _ comma_sound n PQ). lia.
    - apply (terminated0_sound Wt _ _ comma_sound (sound_loose _ _ HP)) in E0. apply PQ. lia.
  Qed.
End Types.
Lemma ptype_bound n : forall m x, slen x < n -> slen x < m -> ptype n x = ptype m x.
Proof.
  induction n as [|n IH]; intros m x Ln Lm; [lia|]. destruct m as [|m]; [lia|]. cbn [ptype].
  apply (agree_alt (S (slen x))); [apply agree_function|apply agree_union|lia]; try apply ptype_sound; intros y L; apply IH; lia.
Qed.
Lemma type_equation x : type_ x = alt (function_type type_) (union_type type_) x.
Proof.
  unfold type_ at 1. cbn [ptype].
  apply (agree_alt (S (slen x))); [apply agree_function|apply agree_union|lia]; try apply ptype_sound; intros y L; apply ptype_bound; lia.
Qed.

(** *** Expressions *)
Section Expressions.
  Variables P Q : parser aexpr.
  Variable n : nat.
  Hypothesis HP : sound We P.
  Hypothesis PQ : agree n P Q.
  Ltac more E := first
    [ apply HP in E | apply (block_sound P HP) in E | apply (terminated0_sound We _ _ comma_sound (sound_loose _ _ HP)) in E
    | apply (terminated1_sound We _ _ comma_sound HP) in E | apply (if_branch_sound P HP) in E | apply (if_type_branch_sound P HP) in E
    | apply (atomic_sound P HP) in E | apply (operand_sound P HP) in E | apply (record_elements_sound P HP) in E
    | apply (terminated0_sound Warg _ _ comma_sound (sound_loose _ _ argument_sound)) in E
    | apply (terminated1_sound name _ _ comma_sound identifier_sound) in E
    | apply (many0_sound Wbr _ (sound_loose _ _ (else_branch_sound P HP))) in E
    | apply (many0_sound Wtb _ (sound_loose _ _ (else_type_sound P HP))) in E
    | apply binary_operator_sound in E ].
  Ltac lengths := repeat match goal with E : _ = POk _ _ |- _ => more E end.
  Ltac here := first [apply PQ; lia].

  Lemma agree_statement : agree n (statement P) (statement Q).
  Proof. intros x L. unfold statement. through. apply (opt_sound name _ binding_sound) in E. here. Qed.
  Lemma agree_block : agree (S n) (block P) (block Q).
  Proof. intros x L. unfold block. through. apply (agree_many1 Wst _ _ (sound_loose _ _ (statement_sound P HP)) n agree_statement). lia. Qed.
  Lemma agree_lambda : agree (S n) (lambda P) (lambda Q).
  Proof. intros x L. unfold lambda. through. lengths. apply agree_block. lia. Qed.
  Lemma agree_lambda_expression : agree (S n) (lambda_expression P) (lambda_expression Q).
  Proof. intros x L. unfold lambda_expression. through. apply agree_lambda. lia. Qed.
  Lemma agree_if_branch : agree n (if_branch P) (if_branch Q).
  Proof. intros x L. unfold if_branch. through; lengths; [here|]. apply agree_block. lia. Qed.
  Lemma agree_if : agree (S n) (if_ P) (if_ Q).
  Proof.
    intros x L. unfold if_. through.
    - apply agree_if_branch. lia.
    - lengths. apply (agree_many0 Wbr _ _ (sound_loose _ _ (else_branch_sound P HP)) n); [|lia]. intros y Ly. through. apply agree_if_branch. lia.
    - lengths. apply agree_block. lia.
  Qed.
  Lemma agree_if_list : agree (S n) (if_list P) (if_list Q).
  Proof. intros x L. unfold if_list. through; lengths; [here| |]; apply agree_block; lia. Qed.
  Lemma agree_if_map : agree (S n) (if_map P) (if_map Q).
  Proof. intros x L. unfold if_map. through; lengths; [here|here| |]; apply agree_block; lia. Qed.
  Lemma agree_if_type_branch : agree n (if_type_branch P) (if_type_branch Q).
  Proof. intros x L. unfold if_type_branch. through; lengths. apply agree_block. lia. Qed.
  Lemma agree_if_type : agree (S n) (if_type P) (if_type Q).
  Proof.
    intros x L. unfold if_type. through; lengths.
    - here.
    - apply agree_if_type_branch. lia.
    - apply (agree_many0 Wtb _ _ (sound_loose _ _ (else_type_sound P HP)) n); [|lia]. intros y Ly. through. apply agree_if_type_branch. lia.
    - apply (agree_opt n); [|lia]. intros y Ly. through. apply agree_block. lia.
  Qed.
  Lemma agree_record_field : agree n (record_field P) (record_field Q).
  Proof. intros x L. unfold record_field. through. here. Qed.
  Lemma agree_record_elements : agree n (record_elements P) (record_elements Q).
  Proof.
    apply agree_alt; intros x L; through; lengths.
    - here.
    - apply (agree_terminated1 Wf _ _ (sound_loose _ _ (record_field_sound P HP)) _ comma_sound n agree_record_field). lia.
    - apply (agree_terminated0 Wf _ _ (sound_loose _ _ (record_field_sound P HP)) _ comma_sound n agree_record_field). lia.
  Qed.
  Lemma agree_record : agree (S n) (record P) (record Q).
  Proof. intros x L. unfold record. through. apply agree_record_elements. lia. Qed.
  Lemma agree_list_element : agree n (list_element P) (list_element Q).
  Proof. apply agree_alt; intros x L; through; here. Qed.
  Lemma agree_list : agree (S n) (list_literal P) (list_literal Q).
  Proof. intros x L. unfold list_literal. through. apply (agree_terminated0 Wel _ _ (sound_loose _ _ (list_element_sound P HP)) _ comma_sound n agree_list_element). lia. Qed.
  Lemma agree_comprehension_branch : agree (S n) (comprehension_branch P) (comprehension_branch Q).
  Proof.
    intros x L. unfold comprehension_branch. through; lengths.
    - apply (agree_terminated1 We _ _ (sound_loose _ _ HP) _ comma_sound n PQ). lia.
    - apply (agree_opt n); [|lia]. intros y Ly. through. here.
  Qed.
  Lemma agree_comprehension : agree (S n) (list_comprehension P) (list_comprehension Q).
  Proof.
    intros x L. unfold list_comprehension. through; lengths; [here|].
    apply (agree_many1 Wcb _ _ (sound_loose _ _ (comprehension_branch_sound P HP)) _ agree_comprehension_branch). lia.
  Qed.
  Lemma agree_map_element : agree n (map_element P) (map_element Q).
  Proof. apply agree_alt; intros x L; through; lengths; here. Qed.
  Lemma agree_map : agree (S n) (map_literal P) (map_literal Q).
  Proof. intros x L. unfold map_literal. through. apply (agree_terminated0 Wen _ _ (sound_loose _ _ (map_element_sound P HP)) _ comma_sound n agree_map_element). lia. Qed.
  Lemma agree_atomic : agree (S n) (atomic_expression P) (atomic_expression Q).
  Proof.
    unfold atomic_expression.
    repeat first [apply agree_same|apply agree_alt|apply agree_lambda_expression|apply agree_if_type|apply agree_if_list|apply agree_if_map|apply agree_if|apply agree_record
      |apply agree_comprehension|apply agree_list|apply agree_map].
    intros x L. unfold parenthesized_expression. through. here.
  Qed.
  Lemma agree_suffix : agree (S n) (suffix_operator P) (suffix_operator Q).
  Proof.
    unfold suffix_operator. apply agree_alt; [|apply agree_same]. intros x L. unfold call_operator. through.
    apply (agree_terminated0 We _ _ (sound_loose _ _ HP) _ comma_sound n PQ). lia.
  Qed.
  Lemma agree_suffix_operation : agree (S n) (suffix_operation P) (suffix_operation Q).
  Proof.
    intros x L. unfold suffix_operation. through; [apply agree_atomic; lia|]. lengths.
    apply (agree_many0 Wsf _ _ (sound_loose _ _ (suffix_sound P HP)) _ agree_suffix). lia.
  Qed.
  Lemma agree_prefix m : agree (S n) (prefix_operation P m) (prefix_operation Q m).
  Proof.
    induction m as [|m IH]; [apply agree_same|]. intros x. revert x. change (agree (S n) (prefix_operation P (S m)) (prefix_operation Q (S m))). cbn [prefix_operation].
    apply agree_alt; [|apply agree_suffix_operation]. intros x L. through. apply IH. lia.
  Qed.
  Lemma agree_operand : agree (S n) (operand P) (operand Q).
  Proof. intros x L. apply agree_prefix. exact L. Qed.
  Lemma agree_operation : agree (S n) (operation P) (operation Q).
  Proof.
    intros x L. unfold operation. through; [apply agree_operand; lia|]. lengths.
    apply (agree_many0 Wp _ _ (sound_loose _ _ (pair_sound P HP)) (S n)); [|lia]. intros y Ly. through. lengths. apply agree_operand. lia.
  Qed.
  (** The bound of [operand] *)
  Lemma prefix_bound k : forall m x, slen x < k -> slen x < m -> prefix_operation P k x = prefix_operation P m x.
  Proof.
    induction k as [|k IH]; intros m x Lk Lm; [lia|]. destruct m as [|m]; [lia|]. cbn [prefix_operation].
    apply (agree_alt (S (slen x))); [|apply agree_same|lia]. intros y L. through. apply IH; lia.
  Qed.
  Lemma operand_equation x :
    operand P x = alt (fun s => do_ s <- sign "!" s; do e, s <- cut (operand P s); POk (XNot e) s) (suffix_operation P) x.
  Proof.
    unfold operand at 1. cbn [prefix_operation]. apply (agree_alt (S (slen x))); [|apply agree_same|lia]. intros y L. through. unfold operand. apply prefix_bound; lia.
  Qed.
End Expressions.
Lemma pexpression_bound n : forall m x, slen x < n -> slen x < m -> pexpression n x = pexpression m x.
Proof.
  induction n as [|n IH]; intros m x Ln Lm; [lia|]. destruct m as [|m]; [lia|]. cbn [pexpression].
  apply (agree_operation _ _ (slen x)); [apply pexpression_sound| |lia]. intros y L. apply IH; lia.
Qed.
Lemma expression_equation x : expression x = operation expression x.
Proof.
  unfold expression at 1. cbn [pexpression]. apply (agree_operation _ _ (slen x)); [apply pexpression_sound| |lia]. intros y L. apply pexpression_bound; lia.
Qed.
(** The bounds of the repetitions *)
Lemma many0_equation {A} W (p : parser A) x : loose W p ->
  many0 p x = match p x with
              | POk a r => if (slen r =? slen x)%nat then PErr else do l, r <- many0 p r; POk (a :: l) r
              | PErr => POk [] x
              | PFail => PFail
              end.
Proof.
  intros H. unfold many0 at 1. cbn [many0_]. destruct (p x) as [a r| |] eqn:E; try reflexivity. destruct (Nat.eqb_spec (slen r) (slen x)); [reflexivity|].
  apply pbind_ext; [|reflexivity]. apply H in E. apply (many0_bound W p p H _ _ (slen x)); [apply agree_same|lia|lia|lia].
Qed.
(** The bound of the reduction of operations *)
Lemma split_length p l : forall h t, split_operations p l = (h, t) -> (length h + length t = length l)%nat.
Proof.
  induction l as [|[o e] l IH]; intros h t H; cbn [split_operations] in H; [injection H as <- <-; reflexivity|].
  destruct (priority o <=? p)%nat; [injection H as <- <-; reflexivity|]. destruct (split_operations p l) as [h' t']. injection H as <- <-. cbn. rewrite <- (IH h' t' eq_refl). reflexivity.
Qed.
Lemma reduce_total n : forall l e, (length l < n)%nat -> exists a, reduce n e l = Some a.
Proof.
  induction n as [|n IH]; intros l e L; [lia|]. destruct l as [|[o rhs] [|[o2 r2] l]]; cbn [reduce]; eauto. cbn [length] in L.
  destruct (priority o2 <=? priority o)%nat; [apply IH; cbn; lia|]. destruct (split_operations (priority o) ((o2, r2) :: l)) as [h t] eqn:S. apply split_length in S. cbn [length] in S.
  destruct (IH h rhs) as [r ->]; [lia|]. apply IH. lia.
Qed.
