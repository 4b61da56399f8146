From Coq Require Import String List Bool Arith Lia.
From Verif Require Import Base Syntax SyntaxSpec Ast Parser.
Import ListNotations.

(** A way of grouping a chain of operands and operators.  Operands are whole
    expressions, among them parenthesized operations. *)
Inductive tree := Leaf (e : aexpr) | Node (o : operator) (l r : tree).

(** The chain it groups: first operand, then operators with their operands. *)
Fixpoint first_operand (t : tree) : aexpr :=
  match t with Leaf e => e | Node _ l _ => first_operand l end.
Fixpoint operations (t : tree) : list (operator * aexpr) :=
  match t with
  | Leaf _ => []
  | Node o l r => operations l ++ (o, first_operand r) :: operations r
  end.

(** The expression it means. *)
Fixpoint meaning (t : tree) : aexpr :=
  match t with Leaf e => e | Node o l r => XBinary o (meaning l) (meaning r) end.

(** Operators bind by level and to the left: no operator has a looser one as
    its left operand, or a looser or equally loose one as its right operand. *)
Definition left_fits (p : nat) (t : tree) : Prop := match t with Leaf _ => True | Node o _ _ => p <= level o end.
Definition right_fits (p : nat) (t : tree) : Prop := match t with Leaf _ => True | Node o _ _ => p < level o end.
Fixpoint grouped (t : tree) : Prop :=
  match t with
  | Leaf _ => True
  | Node o l r => left_fits (level o) l /\ right_fits (level o) r /\ grouped l /\ grouped r
  end.

(** *** Grouping is unique *)
Fixpoint all_ge (p : nat) (l : list (operator * aexpr)) : Prop :=
  match l with [] => True | (o, _) :: l => p <= level o /\ all_ge p l end.

Lemma all_ge_app p a b : all_ge p (a ++ b) <-> all_ge p a /\ all_ge p b.
Proof. induction a as [|[o e] a IH]; cbn; [tauto|]. rewrite IH. tauto. Qed.

Lemma all_ge_weaken p q l : q <= p -> all_ge p l -> all_ge q l.
Proof. intros H. induction l as [|[o e] l IH]; cbn; [tauto|]. intros [A B]. split; [lia|auto]. Qed.

Lemma grouped_ge t : grouped t -> match t with Leaf _ => True | Node o l r => all_ge (level o) (operations l) /\ all_ge (S (level o)) (operations r) end.
Proof.
  induction t as [e|o l IHl r IHr]; [trivial|]. cbn [grouped]. intros (L & R & Gl & Gr). specialize (IHl Gl). specialize (IHr Gr). split.
  - destruct l as [|o' l1 l2]; [exact I|]. cbn in L. cbn [operations]. apply all_ge_app. destruct IHl as [A B]. split; [eapply all_ge_weaken; [exact L|exact A]|].
    cbn. split; [lia|]. eapply all_ge_weaken; [|exact B]. lia.
  - destruct r as [|o' l1 l2]; [exact I|]. cbn in R. cbn [operations]. apply all_ge_app. destruct IHr as [A B]. split; [eapply all_ge_weaken; [|exact A]; lia|].
    cbn. split; [lia|]. eapply all_ge_weaken; [|exact B]. lia.
Qed.

(** Splitting at the last loosest operator is unique. *)
Lemma split_unique (a1 : list (operator * aexpr)) : forall a2 o1 e1 o2 e2 b1 b2,
  a1 ++ (o1, e1) :: b1 = a2 ++ (o2, e2) :: b2 ->
  all_ge (level o1) a1 -> all_ge (S (level o1)) b1 ->
  all_ge (level o2) a2 -> all_ge (S (level o2)) b2 ->
  a1 = a2 /\ o1 = o2 /\ e1 = e2 /\ b1 = b2.
Proof.
  induction a1 as [|[o e] a1 IH]; intros [|[o' e'] a2] o1 e1 o2 e2 b1 b2 E A1 B1 A2 B2; cbn in *.
  - injection E as -> -> ->. auto.
  - injection E as -> -> ->. apply all_ge_app in B1. cbn in *. lia.
  - injection E as -> -> <-. apply all_ge_app in B2. cbn in *. lia.
  - injection E as -> -> E. destruct A1, A2. destruct (IH a2 o1 e1 o2 e2 b1 b2 E) as (-> & -> & -> & ->); auto.
Qed.

Lemma grouped_unique t : forall u, grouped t -> grouped u ->
  first_operand t = first_operand u -> operations t = operations u -> t = u.
Proof.
  induction t as [e|o l IHl r IHr]; intros [e'|o' l' r'] Gt Gu F O.
  - cbn in F. congruence.
  - cbn in O. destruct (operations l'); discriminate.
  - cbn in O. destruct (operations l); discriminate.
  - pose proof (grouped_ge _ Gt) as [A B]. pose proof (grouped_ge _ Gu) as [A' B']. cbn in Gt, Gu, F, O.
    destruct (split_unique _ _ _ _ _ _ _ _ O A B A' B') as (H1 & <- & H2 & H3).
    f_equal; [apply IHl|apply IHr]; tauto.
Qed.

(** *** groups groups *)
Lemma priority_level o : priority o = S (level o).
Proof. destruct o; reflexivity. Qed.

Lemma split_spec q pairs : let (head, tail) := split_operations (priority q) pairs in
  pairs = head ++ tail /\ all_ge (S (level q)) head /\ match tail with [] => True | (o, _) :: _ => level o <= level q end.
Proof.
  induction pairs as [|[o e] pairs IH]; cbn [split_operations].
  - cbn. auto.
  - destruct (priority o <=? priority q) eqn:E; rewrite !priority_level in E; [apply Nat.leb_le in E|apply Nat.leb_gt in E].
    + split; [reflexivity|split; [exact I|lia]].
    + destruct (split_operations (priority q) pairs) as [head tail]. destruct IH as (-> & A & B). split; [reflexivity|]. split; [split; [lia|exact A]|exact B].
Qed.

Lemma all_ge_fits p t : all_ge (S p) (operations t) -> right_fits p t.
Proof.
  destruct t as [e|o l r]; [exact (fun _ => I)|]. cbn [operations right_fits]. intros H. apply all_ge_app in H. cbn in H. lia.
Qed.

(** [fits t pairs]: every operator waiting after [t] binds at most as tightly as
    the root of [t]. *)
Definition next_fits (t : tree) (pairs : list (operator * aexpr)) : Prop :=
  match pairs with [] => True | (o, _) :: _ => left_fits (level o) t end.

Lemma reduce_grouped n : forall t pairs, length pairs < n -> grouped t -> next_fits t pairs ->
  exists u, reduce n (meaning t) pairs = Some (meaning u) /\ grouped u /\
    first_operand u = first_operand t /\ operations u = operations t ++ pairs.
Proof.
  induction n as [|n IH]; intros t pairs Hn G F; [lia|]. destruct pairs as [|[o rhs] rest].
  - exists t. rewrite app_nil_r. cbn. auto.
  - cbn in F. destruct rest as [|[next e] rest].
    + exists (Node o t (Leaf rhs)). split; [reflexivity|]. split; [cbn; auto|]. split; reflexivity.
    + cbn [reduce]. destruct (priority next <=? priority o) eqn:E; rewrite ?priority_level in E.
      * apply Nat.leb_le in E. destruct (IH (Node o t (Leaf rhs)) ((next, e) :: rest)) as (u & U1 & U2 & U3 & U4); [cbn in *; lia|cbn; auto|cbn; lia|].
        exists u. split; [exact U1|]. split; [exact U2|]. split; [exact U3|]. rewrite U4. cbn. rewrite <- app_assoc. reflexivity.
      * apply Nat.leb_gt in E. pose proof (split_spec o ((next, e) :: rest)) as Hs.
        assert (Hne : forall head tail, split_operations (priority o) ((next, e) :: rest) = (head, tail) -> head <> []).
        { intros head tail Hs'. cbn in Hs'. destruct (priority next <=? priority o) eqn:E'; [apply Nat.leb_le in E'; rewrite !priority_level in E'; lia|]. destruct (split_operations (priority o) rest). injection Hs' as <- <-. discriminate. }
        destruct (split_operations (priority o) ((next, e) :: rest)) as [head tail]. specialize (Hne _ _ eq_refl). destruct Hs as (Hs & A & B).
        assert (Hlen : length ((next, e) :: rest) = length head + length tail) by (rewrite Hs, app_length; reflexivity).
        cbn [length] in Hn, Hlen.
        destruct (IH (Leaf rhs) head) as (r & R1 & R2 & R3 & R4); [lia|exact I|destruct head as [|[? ?] ?]; exact I|].
        cbn [meaning] in R1. rewrite R1. cbv iota beta. cbn in R4.
        destruct (IH (Node o t r) tail) as (u & U1 & U2 & U3 & U4).
        { destruct head; cbn in *; [congruence|lia]. }
        { cbn. split; [exact F|]. split; [|auto]. apply all_ge_fits. rewrite R4. exact A. }
        { destruct tail as [|[o' e'] tail]; [exact I|]. exact B. }
        exists u. split; [exact U1|]. split; [exact U2|]. split; [exact U3|]. rewrite U4. cbn. rewrite R3, R4, <- app_assoc, Hs. reflexivity.
Qed.

Lemma reduce_total lhs pairs :
  exists t, reduce (S (length pairs)) lhs pairs = Some (meaning t) /\ grouped t /\ first_operand t = lhs /\ operations t = pairs.
Proof.
  destruct (reduce_grouped (S (length pairs)) (Leaf lhs) pairs) as (u & H); [lia|exact I|destruct pairs as [|[? ?] ?]; exact I|].
  exists u. exact H.
Qed.

Lemma reduce_tree t : grouped t -> reduce (S (length (operations t))) (first_operand t) (operations t) = Some (meaning t).
Proof.
  intros G. destruct (reduce_total (first_operand t) (operations t)) as (u & E & Gu & F & O).
  rewrite E. f_equal. f_equal. apply grouped_unique; auto.
Qed.

