(** The translation of syntax trees gives the code they stand for. *)
From Coq Require Import String Ascii List Bool ZArith Lia.
From Verif Require Import Base HirType Hir Syntax Ast Parser Resolve Desugar DesugarSpec DesugarProofs SourceMeans.
Import ListNotations.

Lemma desugar_type_means t : type_means t (desugar_type t).
Proof.
  revert t. fix go 1. intros [a r|e|k v|x|l r]; cbn [desugar_type]; constructor; try apply go.
  induction a as [|t a IH]; cbn [map]; constructor; [apply go|exact IH].
Qed.
Lemma arguments_means a : Forall2 named_type_means a (desugar_arguments a).
Proof. induction a as [|[x t] a IH]; cbn [desugar_arguments map]; constructor; [split; [reflexivity|apply desugar_type_means]|exact IH]. Qed.
Lemma operator_meant o : operator_means o (desugar_operator o).
Proof. destruct o; constructor. Qed.
Lemma mapM_means {A B} (f : A -> res B) (P : A -> B -> Prop) l : forall l', mapM f l = Ok l' -> (forall a b, In a l -> f a = Ok b -> P a b) -> Forall2 P l l'.
Proof.
  intros l' M. apply mapM_ok in M. induction M as [|x y l l' E M IH]; intros H; constructor; [apply H; [left; reflexivity|exact E]|]. apply IH. intros a b I. apply H. right. exact I.
Qed.

Section Means.
  Variable read_float : string -> res Z.
  Definition number_read (n : anumber) (z : Z) : Prop := desugar_number read_float n = Ok z.
  Definition string_read (s t : string) : Prop := desugar_string s = t.
  Notation D := (desugar read_float).
  Notation DB := (desugar_block (desugar read_float)).
  Notation M := (means number_read string_read).
  Notation MB := (block_means number_read string_read).
  Ltac binv := repeat match goal with
    | H : bind _ _ = Ok _ |- _ => apply bind_ok in H; let a := fresh "a" in let E := fresh "E" in destruct H as (a & E & H)
    | H : Ok _ = Ok _ |- _ => injection H; clear H; intros; subst
    end.

  Section Below.
    Variable n : nat.
    Hypothesis IH : forall e h, asize e < n -> D e = Ok h -> M e h.
    Lemma statements_means l : forall e h, bsize asize (Block l e) < n -> desugar_statements D e l = Ok h -> MB (Block l e) h.
    Proof.
      induction l as [|[x e1] l IHl]; intros e h N H; cbn [desugar_statements] in H; cbn [bsize sum] in N.
      - constructor. apply IH; [lia|exact H].
      - binv. constructor; [apply IH; [lia|exact E0]|]. apply IHl; [cbn [bsize]; lia|exact E].
    Qed.
    Lemma block_meant b h : bsize asize b < n -> DB b = Ok h -> MB b h.
    Proof. destruct b as [l e]. apply statements_means. Qed.
    Lemma if_means b l : forall h, sum (fun p => match p with (c, b) => asize c + bsize asize b end) l + bsize asize b < n -> desugar_if D b l = Ok h -> M (XIf l b) h.
    Proof.
      induction l as [|[c a] l IHl]; intros h N H; cbn [desugar_if] in H; [discriminate|]. binv. cbn [sum] in N.
      assert (C : M c a0) by (apply IH; [lia|exact E]). assert (A : MB a a1) by (apply block_meant; [lia|exact E0]).
      destruct l as [|p l]; [constructor; [exact C|exact A|]; apply block_meant; [lia|exact E1]|]. apply m_else_if; [exact C|exact A|discriminate|]. apply (IHl _ ltac:(lia) E1).
    Qed.
  End Below.

  Ltac size := cbn [asize] in *; lia.
  Ltac sub IH := match goal with
    | E : D ?e = Ok ?h |- means _ _ ?e ?h => apply (IH e h); [size|exact E]
    | E : desugar_block D ?b = Ok ?h |- block_means _ _ ?b ?h => apply (block_meant _ IH b h); [size|exact E]
    end.
  Lemma desugar_means e : forall h, D e = Ok h -> M e h.
  Proof.
    remember (asize e) as n eqn:N. revert e N. induction n as [n IH'] using lt_wf_ind. intros e N h H.
    assert (IH : forall e h, asize e < n -> D e = Ok h -> M e h) by (intros e0 h0 L; eapply IH'; [exact L|reflexivity]). clear IH'.
    destruct e; cbn [desugar] in H; try (binv; constructor; try (sub IH); first [apply operator_meant|apply arguments_means|apply desugar_type_means|assumption|reflexivity]; fail).
    - binv. constructor; [sub IH|]. apply (mapM_means _ _ _ _ E0). intros q b I0 Eb. apply (sum_in asize) in I0. sub IH.
    - apply (if_means n IH); [size|exact H].
    - binv. assert (B : Forall2 (typed_block_means number_read string_read) branches a0).
      { apply (mapM_means _ _ _ _ E0). intros [t q] b I0 Eb. apply (sum_in (fun p => match p with (_, b) => bsize asize b end)) in I0. binv. constructor; [apply desugar_type_means|]. sub IH. }
      destruct els as [q|]; binv; constructor; try exact B; sub IH.
    - binv. constructor; [apply desugar_type_means|]. apply (mapM_means _ _ _ _ E). intros q b I0 Eb. apply (sum_in (fun x => match x with Ast.Single e | Ast.Multiple e => asize e end)) in I0.
      destruct q; binv; constructor; sub IH.
    - binv. constructor; [apply desugar_type_means|sub IH|]. apply (mapM_means _ _ _ _ E0). intros [xs es c] b I0 Eb.
      apply (sum_in (fun b => match b with Branch _ es c => sum asize es + match c with Some c => asize c | None => 0 end end)) in I0. cbv beta iota in I0. binv.
      assert (L : Forall2 (list_means number_read string_read) es a1).
      { apply (mapM_means _ _ _ _ E1). intros q b I1 Eb. apply (sum_in asize) in I1. binv. constructor. sub IH. }
      destruct c as [c|]; binv; constructor; try exact L. sub IH.
    - binv. constructor; [apply desugar_type_means..|]. apply (mapM_means _ _ _ _ E). intros q b I0 Eb. apply (sum_in (fun x => match x with Ast.Entry a b => asize a + asize b | Ast.Spread e => asize e end)) in I0.
      destruct q; binv; constructor; sub IH.
    - binv. assert (B : Forall2 (named_means number_read string_read) fields a).
      { apply (mapM_means _ _ _ _ E). intros [x q] b I0 Eb. apply (sum_in (fun p => match p with (_, e) => asize e end)) in I0. binv. constructor. sub IH. }
      destruct record as [q|]; binv; constructor; try exact B; sub IH.
  Qed.
  Lemma desugar_block_means b h : DB b = Ok h -> MB b h.
  Proof. intros H. apply (block_meant (S (bsize asize b))); [intros e k _; apply desugar_means|lia|exact H]. Qed.

  Lemma capital_public x : public_name x = true <-> capital x.
  Proof.
    destruct x as [|c s]; cbn [public_name].
    - split; [discriminate|]. intros (c & s & [=] & _).
    - assert (C : is_upper c = true <-> (65 <= N_of_ascii c <= 90)%N).
      { unfold is_upper, between. rewrite andb_true_iff, !Nat.leb_le. unfold code, nat_of_ascii. change (N_of_ascii "A") with 65%N. change (N_of_ascii "Z") with 90%N. lia. }
      rewrite C. split; [intros H; exists c, s; split; [reflexivity|exact H]|]. intros (c' & s' & [= <- <-] & H). exact H.
  Qed.
  Lemma desugar_module_means m r : desugar_module read_float m = Ok r -> module_means number_read string_read m r.
  Proof.
    unfold desugar_module. intros H. binv. constructor; cbn [rm_functions rm_foreign rm_types rm_aliases rm_declared]; [| | | |reflexivity].
    - apply (mapM_means _ _ _ _ E). intros f d _ Ef. unfold desugar_function, desugar_lambda in Ef. binv. repeat (split; [reflexivity|]). split; [apply capital_public|]. split; [apply arguments_means|]. split; [apply desugar_type_means|]. apply desugar_block_means. assumption.
    - induction (m_foreign m) as [|f l IH]; cbn [map]; constructor; [|exact IH]. repeat (split; [reflexivity|]). apply desugar_type_means.
    - induction (m_types m) as [|[x l|x t] k IH]; cbn [filter is_record flat_map desugar_record app]; [constructor| |exact IH]. constructor; [|exact IH].
      exists x, l. repeat (split; [reflexivity|]). split; [apply arguments_means|]. split; [|split; [apply capital_public|reflexivity]]. cbn [rt_open]. rewrite forallb_forall. split.
      + intros H y t I. apply capital_public. exact (H (y, t) I).
      + intros H [y t] I. apply capital_public. exact (H y t I).
    - induction (m_types m) as [|[x l|x t] k IH]; cbn [filter is_record flat_map desugar_alias app negb]; [constructor|exact IH|]. constructor; [|exact IH].
      exists x, t. repeat (split; [reflexivity|]). split; [apply desugar_type_means|]. split; [apply capital_public|reflexivity].
  Qed.
End Means.
