From Coq Require Import String List Bool Arith Lia.
From Verif Require Import Base Syntax SyntaxSpec.
Import ListNotations.

(** *** Grouping is unique *)
Fixpoint all_ge (p : nat) (l : list (operator * expr)) : Prop :=
  match l with [] => True | (o, _) :: l => p <= level o /\ all_ge p l end.

Lemma all_ge_app p a b : all_ge p (a ++ b) <-> all_ge p a /\ all_ge p b.
Proof. induction a as [|[o e] a IH]; cbn; [tauto|]. rewrite IH. tauto. Qed.

Lemma all_ge_weaken p q l : q <= p -> all_ge p l -> all_ge q l.
Proof. intros H. induction l as [|[o e] l IH]; cbn; [tauto|]. intros [A B]. split; [lia|auto]. Qed.

Lemma grouped_ge t : grouped t -> match t with Leaf _ => True | Node o l r => all_ge (level o) (operations l) /\ all_ge (S (level o)) (operations r) end.
Proof.
  induction t as [e|o l IHl r IHr]; [trivial|]. cbn [grouped]. intros (L & R & Gl & Gr). specialize (IHl Gl). specialize (IHr Gr). split.
  - destruct l as [|o' l1 l2]; [exact I|]. cbn in L. cbn [operations]. apply all_ge_app. destruct IHl as [A B]. split; [eapply all_ge_weaken; [exact L|exact A]|].
    cbn. split; [lia|]. eapply all_ge_weaken; [|exact B]. lia.
  - destruct r as [|o' l1 l2]; [exact I|]. cbn in R. cbn [operations]. apply all_ge_app. destruct IHr as [A B]. split; [eapply all_ge_weaken; [|exact A]; lia|].
    cbn. split; [lia|]. eapply all_ge_weaken; [|exact B]. lia.
Qed.

(** Splitting at the last loosest operator is unique. *)
Lemma split_unique (a1 : list (operator * expr)) : forall a2 o1 e1 o2 e2 b1 b2,
  a1 ++ (o1, e1) :: b1 = a2 ++ (o2, e2) :: b2 ->
  all_ge (level o1) a1 -> all_ge (S (level o1)) b1 ->
  all_ge (level o2) a2 -> all_ge (S (level o2)) b2 ->
  a1 = a2 /\ o1 = o2 /\ e1 = e2 /\ b1 = b2.
Proof.
  induction a1 as [|[o e] a1 IH]; intros [|[o' e'] a2] o1 e1 o2 e2 b1 b2 E A1 B1 A2 B2; cbn in *.
  - injection E as -> -> ->. auto.
  - injection E as -> -> ->. apply all_ge_app in B1. cbn in *. lia.
  - injection E as -> -> <-. apply all_ge_app in B2. cbn in *. lia.
  - injection E as -> -> E. destruct A1, A2. destruct (IH a2 o1 e1 o2 e2 b1 b2 E) as (-> & -> & -> & ->); auto.
Qed.

Lemma grouped_unique t : forall u, grouped t -> grouped u ->
  first_operand t = first_operand u -> operations t = operations u -> t = u.
Proof.
  induction t as [e|o l IHl r IHr]; intros [e'|o' l' r'] Gt Gu F O.
  - cbn in F. congruence.
  - cbn in O. destruct (operations l'); discriminate.
  - cbn in O. destruct (operations l); discriminate.
  - pose proof (grouped_ge _ Gt) as [A B]. pose proof (grouped_ge _ Gu) as [A' B']. cbn in Gt, Gu, F, O.
    destruct (split_unique _ _ _ _ _ _ _ _ O A B A' B') as (H1 & <- & H2 & H3).
    f_equal; [apply IHl|apply IHr]; tauto.
Qed.

(** *** [reduce_operations] groups *)
Lemma priority_level o : priority o = S (level o).
Proof. destruct o; reflexivity. Qed.

Lemma split_spec q pairs : let (head, tail) := split_pairs (priority q) pairs in
  pairs = head ++ tail /\ all_ge (S (level q)) head /\ match tail with [] => True | (o, _) :: _ => level o <= level q end.
Proof.
  induction pairs as [|[o e] pairs IH]; cbn [split_pairs].
  - cbn. auto.
  - destruct (priority o <=? priority q) eqn:E; rewrite !priority_level in E; [apply Nat.leb_le in E|apply Nat.leb_gt in E].
    + split; [reflexivity|split; [exact I|lia]].
    + destruct (split_pairs (priority q) pairs) as [head tail]. destruct IH as (-> & A & B). split; [reflexivity|]. split; [split; [lia|exact A]|exact B].
Qed.

Lemma all_ge_fits p t : all_ge (S p) (operations t) -> right_fits p t.
Proof.
  destruct t as [e|o l r]; [exact (fun _ => I)|]. cbn [operations right_fits]. intros H. apply all_ge_app in H. cbn in H. lia.
Qed.

(** [fits t pairs]: every operator waiting after [t] binds at most as tightly as
    the root of [t]. *)
Definition next_fits (t : tree) (pairs : list (operator * expr)) : Prop :=
  match pairs with [] => True | (o, _) :: _ => left_fits (level o) t end.

Lemma reduce_grouped n : forall t pairs, length pairs < n -> grouped t -> next_fits t pairs ->
  exists u, reduce_operations n (meaning t) pairs = Ok (meaning u) /\ grouped u /\
    first_operand u = first_operand t /\ operations u = operations t ++ pairs.
Proof.
  induction n as [|n IH]; intros t pairs Hn G F; [lia|]. destruct pairs as [|[o rhs] rest].
  - exists t. rewrite app_nil_r. cbn. auto.
  - cbn in F. destruct rest as [|[next e] rest].
    + exists (Node o t (Leaf rhs)). split; [reflexivity|]. split; [cbn; auto|]. split; reflexivity.
    + cbn [reduce_operations]. destruct (priority next <=? priority o) eqn:E; rewrite ?priority_level in E.
      * apply Nat.leb_le in E. destruct (IH (Node o t (Leaf rhs)) ((next, e) :: rest)) as (u & U1 & U2 & U3 & U4); [cbn in *; lia|cbn; auto|cbn; lia|].
        exists u. split; [exact U1|]. split; [exact U2|]. split; [exact U3|]. rewrite U4. cbn. rewrite <- app_assoc. reflexivity.
      * apply Nat.leb_gt in E. pose proof (split_spec o ((next, e) :: rest)) as Hs.
        assert (Hne : forall head tail, split_pairs (priority o) ((next, e) :: rest) = (head, tail) -> head <> []).
        { intros head tail Hs'. cbn in Hs'. destruct (priority next <=? priority o) eqn:E'; [apply Nat.leb_le in E'; rewrite !priority_level in E'; lia|]. destruct (split_pairs (priority o) rest). injection Hs' as <- <-. discriminate. }
        destruct (split_pairs (priority o) ((next, e) :: rest)) as [head tail]. specialize (Hne _ _ eq_refl). destruct Hs as (Hs & A & B).
        assert (Hlen : length ((next, e) :: rest) = length head + length tail) by (rewrite Hs, app_length; reflexivity).
        cbn [length] in Hn, Hlen.
        destruct (IH (Leaf rhs) head) as (r & R1 & R2 & R3 & R4); [lia|exact I|destruct head as [|[? ?] ?]; exact I|].
        cbn [meaning] in R1. rewrite R1. cbn [bind]. cbn in R4.
        destruct (IH (Node o t r) tail) as (u & U1 & U2 & U3 & U4).
        { destruct head; cbn in *; [congruence|lia]. }
        { cbn. split; [exact F|]. split; [|auto]. apply all_ge_fits. rewrite R4. exact A. }
        { destruct tail as [|[o' e'] tail]; [exact I|]. exact B. }
        exists u. split; [exact U1|]. split; [exact U2|]. split; [exact U3|]. rewrite U4. cbn. rewrite R3, R4, <- app_assoc, Hs. reflexivity.
Qed.

Lemma reduce_total lhs pairs :
  exists t, reduce_operations (S (length pairs)) lhs pairs = Ok (meaning t) /\ grouped t /\ first_operand t = lhs /\ operations t = pairs.
Proof.
  destruct (reduce_grouped (S (length pairs)) (Leaf lhs) pairs) as (u & H); [lia|exact I|destruct pairs as [|[? ?] ?]; exact I|].
  exists u. exact H.
Qed.

Lemma reduce_tree t : grouped t -> reduce_operations (S (length (operations t))) (first_operand t) (operations t) = Ok (meaning t).
Proof.
  intros G. destruct (reduce_total (first_operand t) (operations t)) as (u & E & Gu & F & O).
  rewrite E. f_equal. f_equal. apply grouped_unique; auto.
Qed.

(** *** Formatting and parsing *)
Fixpoint size (e : expr) : nat :=
  match e with
  | EAtom _ => 1
  | EBin _ l r => S (size l + size r)
  | ENot x | ETry x | EField x _ => S (size x)
  | ECall f args => S (size f + (fix go (l : list expr) : nat := match l with [] => 0 | x :: l => S (size x + go l) end) args)
  end.
Definition sizes := fix go (l : list expr) : nat := match l with [] => 0 | x :: l => S (size x + go l) end.

Definition format_arguments := fix go (args : list expr) (blank : bool) : list token :=
  match args with
  | [] => []
  | [a] => format_expression a blank
  | a :: args => format_expression a blank ++ TComma :: go args true
  end.
Definition all_faithful := fix all (l : list expr) : Prop := match l with [] => True | x :: l => faithful x /\ all l end.

(** The grouping the formatter leaves implicit. *)
Fixpoint tree_of (e : expr) : tree :=
  match e with
  | EBin o l r =>
      let side x := match x with EBin o' _ _ => if priority o' <? priority o then Leaf x else tree_of x | _ => Leaf x end in
      Node o (side l) (side r)
  | _ => Leaf e
  end.

Definition is_bin (e : expr) : bool := match e with EBin _ _ _ => true | _ => false end.
Definition format_operand (e : expr) (blank : bool) : list token :=
  if is_bin e then parenthesized (format_expression e false) blank else format_expression e blank.

Fixpoint format_pairs (l : list (operator * expr)) : list token :=
  match l with [] => [] | (o, e) :: l => TOp o :: format_operand e true ++ format_pairs l end.

Lemma format_pairs_app a b : format_pairs (a ++ b) = format_pairs a ++ format_pairs b.
Proof. induction a as [|[o e] a IH]; cbn; [reflexivity|]. rewrite IH, app_assoc. reflexivity. Qed.

Lemma tree_meaning e : meaning (tree_of e) = e.
Proof.
  induction e as [| o l IHl r IHr | | | |]; try reflexivity. cbn [tree_of meaning]. f_equal.
  - destruct l; try reflexivity. destruct (_ <? _); [reflexivity|exact IHl].
  - destruct r; try reflexivity. destruct (_ <? _); [reflexivity|exact IHr].
Qed.

Lemma tree_grouped e : faithful e -> grouped (tree_of e).
Proof.
  induction e as [| o l IHl r IHr | | | |]; try exact (fun _ => I). cbn [faithful tree_of grouped]. intros (R & Fl & Fr).
  specialize (IHl Fl). specialize (IHr Fr). repeat split.
  - destruct l as [|o' ? ?| | | |]; try exact I. destruct (priority o' <? priority o) eqn:E; [exact I|]. apply Nat.ltb_ge in E. rewrite !priority_level in E. cbn. lia.
  - destruct r as [|o' ? ?| | | |]; try exact I. destruct (priority o' <? priority o) eqn:E; [exact I|]. apply Nat.ltb_ge in E. rewrite !priority_level in E. cbn in *. lia.
  - destruct l as [|o' ? ?| | | |]; try exact I. destruct (priority o' <? priority o); [exact I|exact IHl].
  - destruct r as [|o' ? ?| | | |]; try exact I. destruct (priority o' <? priority o); [exact I|exact IHr].
Qed.

Definition format_tree (t : tree) (b : bool) : list token := format_operand (first_operand t) b ++ format_pairs (operations t).

Lemma format_as_tree e : forall b, match e with EBin _ _ _ => format_expression e b | _ => format_operand e b end = format_tree (tree_of e) b.
Proof.
  induction e as [| o l IHl r IHr | | | |]; intros b; try (unfold format_tree; cbn [tree_of first_operand operations format_pairs]; rewrite app_nil_r; reflexivity).
  unfold format_tree. cbn [tree_of first_operand operations format_expression].
  set (tl := match l with EBin o' _ _ => if priority o' <? priority o then Leaf l else tree_of l | _ => Leaf l end).
  set (tr := match r with EBin o' _ _ => if priority o' <? priority o then Leaf r else tree_of r | _ => Leaf r end).
  assert (Hl : match l with EBin o' _ _ => if priority o' <? priority o then parenthesized (format_expression l false) b else format_expression l b | _ => format_expression l b end
               = format_tree tl b).
  { subst tl. destruct l as [|o' ? ?| | | |]; try (unfold format_tree; cbn [first_operand operations format_pairs]; rewrite app_nil_r; reflexivity).
    destruct (priority o' <? priority o); [unfold format_tree; cbn [first_operand operations format_pairs]; rewrite app_nil_r; reflexivity|apply IHl]. }
  assert (Hr : match r with EBin o' _ _ => if priority o' <? priority o then parenthesized (format_expression r false) true else format_expression r true | _ => format_expression r true end
               = format_tree tr true).
  { subst tr. destruct r as [|o' ? ?| | | |]; try (unfold format_tree; cbn [first_operand operations format_pairs]; rewrite app_nil_r; reflexivity).
    destruct (priority o' <? priority o); [unfold format_tree; cbn [first_operand operations format_pairs]; rewrite app_nil_r; reflexivity|apply IHr]. }
  rewrite Hl, Hr. unfold format_tree. rewrite format_pairs_app, <- app_assoc. reflexivity.
Qed.

(** Operands of the tree are operands of the expression. *)
Definition leaf_ok (n : nat) (x : expr) : Prop := faithful x /\ (if is_bin x then size x < n else size x <= n).

Lemma tree_leaves e : faithful e -> leaf_ok (size e) (first_operand (tree_of e)) /\ Forall (fun p => leaf_ok (size e) (snd p)) (operations (tree_of e)).
Proof.
  assert (Hw : forall n m x, n <= m -> leaf_ok n x -> leaf_ok m x).
  { intros n m x H [A B]. split; [exact A|]. destruct (is_bin x); lia. }
  induction e as [| o l IHl r IHr | | | |]; intros F; try (split; [split; [exact F|cbn [tree_of first_operand is_bin]; lia]|constructor]).
  cbn [faithful] in F. destruct F as (R & Fl & Fr). specialize (IHl Fl). specialize (IHr Fr). cbn [tree_of first_operand operations].
  set (tl := match l with EBin o' _ _ => if priority o' <? priority o then Leaf l else tree_of l | _ => Leaf l end).
  set (tr := match r with EBin o' _ _ => if priority o' <? priority o then Leaf r else tree_of r | _ => Leaf r end).
  assert (Hx : forall x, faithful x -> size x < size (EBin o l r) ->
    leaf_ok (size x) (first_operand (tree_of x)) /\ Forall (fun p => leaf_ok (size x) (snd p)) (operations (tree_of x)) ->
    let t := match x with EBin o' _ _ => if priority o' <? priority o then Leaf x else tree_of x | _ => Leaf x end in
    leaf_ok (size (EBin o l r)) (first_operand t) /\ Forall (fun p => leaf_ok (size (EBin o l r)) (snd p)) (operations t)).
  { intros x Fx Sx [I1 I2] t.
    assert (Hleaf : leaf_ok (size (EBin o l r)) x) by (split; [exact Fx|destruct (is_bin x); lia]).
    assert (Htree : leaf_ok (size (EBin o l r)) (first_operand (tree_of x)) /\ Forall (fun p => leaf_ok (size (EBin o l r)) (snd p)) (operations (tree_of x))).
    { split; [eapply Hw; [|exact I1]; lia|]. eapply Forall_impl; [|exact I2]. intros p Hp. eapply Hw; [|exact Hp]. lia. }
    subst t. destruct x; try (split; [exact Hleaf|constructor]). destruct (_ <? _); [split; [exact Hleaf|constructor]|exact Htree]. }
  destruct (Hx l Fl ltac:(cbn; lia) IHl) as [L1 L2]. destruct (Hx r Fr ltac:(cbn; lia) IHr) as [R1 R2]. fold tl in L1, L2. fold tr in R1, R2.
  split; [exact L1|]. apply Forall_app. split; [exact L2|]. constructor; [exact R1|exact R2].
Qed.

(** Eventual success of each parser. *)
Definition ev {A} (f : nat -> res A) (a : A) : Prop := exists N, forall n, N <= n -> f n = Ok a.

Lemma ev_ret {A} (a : A) (f : nat -> res A) : (forall n, f (S n) = Ok a) -> ev f a.
Proof. intros H. exists 1. intros [|n] Hn; [lia|apply H]. Qed.

Lemma ev_step {A} (f g : nat -> res A) a : (forall n, f (S n) = g n) -> ev g a -> ev f a.
Proof. intros H [N G]. exists (S N). intros [|n] Hn; [lia|]. rewrite H. apply G. lia. Qed.

Lemma ev_bind {A B} (f : nat -> res A) (g : A -> nat -> res B) a b : ev f a -> ev (g a) b -> ev (fun n => bind (f n) (fun x => g x n)) b.
Proof. intros [N F] [M G]. exists (Nat.max N M). intros n Hn. rewrite F by lia. apply G. lia. Qed.

Definition no_suffix (ts : list token) : Prop :=
  match ts with TOpen false :: _ | TField _ :: _ | TQuestion :: _ => False | _ => True end.
Definition stops (ts : list token) : Prop :=
  match ts with TOpen false :: _ | TField _ :: _ | TQuestion :: _ | TOp _ :: _ => False | _ => True end.

Lemma stops_no_suffix ts : stops ts -> no_suffix ts.
Proof. destruct ts as [|[| | | | |[]| |] ?]; cbn; auto. Qed.

Lemma suffixes_done e ts : no_suffix ts -> ev (fun n => parse_suffixes n e ts) (e, ts).
Proof. intros H. apply ev_ret. intros n. destruct ts as [|[| | | | |[]| |] ?]; cbn in *; tauto. Qed.

Definition not_bang (ts : list token) : Prop := match ts with TBang :: _ => False | _ => True end.

Lemma ev_parens ts e b rest : ev (fun n => parse_expression n (ts ++ TClose :: rest)) (e, TClose :: rest) ->
  ev (fun n => parse_atomic n (parenthesized ts b ++ rest)) (e, rest).
Proof.
  intros H. unfold parenthesized. cbn [app]. rewrite <- app_assoc. cbn [app].
  eapply ev_step; [intros n; cbn [parse_atomic]; reflexivity|].
  refine (ev_bind _ (fun p n => match snd p with TClose :: ts => Ok (fst p, ts) | _ => Panic end) _ _ H _).
  exists 0. reflexivity.
Qed.

Lemma format_start e : forall b, exists t r, format_expression e b = t :: r /\ t <> TClose.
Proof.
  assert (Happ : forall a c, (exists t r, a = t :: r /\ t <> TClose) -> exists t r, a ++ c = t :: r /\ t <> TClose).
  { intros a c (t & r & -> & H). eexists _, _. split; [reflexivity|exact H]. }
  induction e as [a|o l IHl r IHr|x IH|x IH|f IHf args|x IH name]; intros b; cbn [format_expression].
  - eexists _, _. split; [reflexivity|discriminate].
  - apply Happ. destruct l as [|o' ? ?| | | |]; try apply IHl. destruct (_ <? _); [eexists _, _; split; [reflexivity|discriminate]|apply IHl].
  - eexists _, _. split; [reflexivity|discriminate].
  - apply Happ. destruct x; try apply IH. eexists _, _. split; [reflexivity|discriminate].
  - apply Happ, IHf.
  - apply Happ, IH.
Qed.

Section Round.
  Variable k : nat.
  Hypothesis IHe : forall e b rest, size e < k -> faithful e -> stops rest ->
    ev (fun n => parse_expression n (format_expression e b ++ rest)) (e, rest).
  Hypothesis IHs : forall e b rest out, size e < k -> faithful e -> suffixable e ->
    ev (fun n => parse_suffixes n e rest) out ->
    ev (fun n => bind (parse_atomic n (format_expression e b ++ rest)) (fun p => parse_suffixes n (fst p) (snd p))) out.

  Lemma arguments_ok args : forall b rest, sizes args < k -> all_faithful args ->
    ev (fun n => parse_arguments n (format_arguments args b ++ TClose :: rest)) (args, rest).
  Proof.
    induction args as [|a args IH]; intros b rest Hs Hf.
    - apply ev_ret. reflexivity.
    - cbn [sizes] in Hs. cbn [all_faithful] in Hf. destruct Hf as [Fa Hf].
      assert (Hstart : forall ts n, parse_arguments (S n) (format_expression a b ++ ts) =
        bind (parse_expression n (format_expression a b ++ ts)) (fun p =>
            match snd p with
            | TClose :: ts => Ok ([fst p], ts)
            | TComma :: ts => bind (parse_arguments n ts) (fun q => Ok (fst p :: fst q, snd q))
            | _ => Panic
            end)).
      { intros ts n. destruct (format_start a b) as (t & r & -> & Ht). cbn [app parse_arguments]. destruct t; congruence. }
      set (K n := fun p : expr * list token => match snd p with
            | TClose :: ts => Ok ([fst p], ts)
            | TComma :: ts => bind (parse_arguments n ts) (fun q => Ok (fst p :: fst q, snd q))
            | _ => Panic
            end).
      destruct args as [|a' args].
      + cbn [format_arguments]. eapply ev_step; [intros n; apply Hstart|].
        refine (ev_bind _ (fun p n => K n p) _ _ (IHe a b (TClose :: rest) _ Fa I) _); [lia|]. exists 0. reflexivity.
      + change (format_arguments (a :: a' :: args) b) with (format_expression a b ++ TComma :: format_arguments (a' :: args) true).
        rewrite <- app_assoc. cbn [app]. eapply ev_step; [intros n; apply Hstart|].
        refine (ev_bind _ (fun p n => K n p) _ _ (IHe a b (TComma :: format_arguments (a' :: args) true ++ TClose :: rest) _ Fa I) _); [lia|]. subst K. cbn [fst snd].
        refine (ev_bind _ (fun q n => Ok (a :: fst q, snd q)) _ _ (IH true rest _ Hf) _); [lia|]. exists 0. reflexivity.
  Qed.

  (** An operand in parentheses or below the prefix level. *)
  Lemma operand_suffixes e b rest out : size e < k -> faithful e -> triable e ->
    ev (fun n => parse_suffixes n e rest) out ->
    ev (fun n => bind (parse_atomic n (format_operand e b ++ rest)) (fun p => parse_suffixes n (fst p) (snd p))) out.
  Proof.
    intros Hs Hf Ht H. unfold format_operand. destruct (is_bin e) eqn:E.
    - refine (ev_bind _ (fun p n => parse_suffixes n (fst p) (snd p)) _ _ (ev_parens _ e b rest _) H). apply IHe; [exact Hs|exact Hf|exact I].
    - apply IHs; auto. destruct e; cbn in *; auto; discriminate.
  Qed.

  Lemma suffix_ok e b rest out : size e <= k -> faithful e -> suffixable e ->
    ev (fun n => parse_suffixes n e rest) out ->
    ev (fun n => bind (parse_atomic n (format_expression e b ++ rest)) (fun p => parse_suffixes n (fst p) (snd p))) out.
  Proof.
    intros Hs Hf Hx H. destruct e as [a|o l r|x|x|f args|x name]; cbn [suffixable] in Hx; try tauto.
    - refine (ev_bind _ (fun p n => parse_suffixes n (fst p) (snd p)) (EAtom a, rest) _ _ H). apply ev_ret. reflexivity.
    - cbn [faithful] in Hf. destruct Hf as [Ht Hf]. cbn [size] in Hs.
      replace (format_expression (ETry x) b) with (format_operand x b ++ [TQuestion]) by (destruct x; reflexivity).
      rewrite <- app_assoc. cbn [app]. apply operand_suffixes; [lia|exact Hf|exact Ht|].
      eapply ev_step; [intros n; cbn [parse_suffixes]; reflexivity|]. exact H.
    - cbn [faithful] in Hf. destruct Hf as (Hxf & Hf & Ha). cbn [size] in Hs. fold sizes in Hs. change (all_faithful args) in Ha.
      change (format_expression (ECall f args) b) with (format_expression f b ++ TOpen false :: format_arguments args false ++ [TClose]).
      rewrite <- app_assoc. cbn [app]. rewrite <- app_assoc. cbn [app]. apply IHs; [lia|exact Hf|exact Hxf|].
      eapply ev_step; [intros n; cbn [parse_suffixes]; reflexivity|].
      refine (ev_bind _ (fun p n => parse_suffixes n (ECall f (fst p)) (snd p)) (args, rest) _ _ H). apply arguments_ok; [lia|exact Ha].
    - cbn [faithful] in Hf. destruct Hf as [Hx' Hf]. cbn [size] in Hs. cbn [format_expression]. rewrite <- app_assoc. cbn [app].
      apply IHs; [lia|exact Hf|exact Hx'|]. eapply ev_step; [intros n; cbn [parse_suffixes]; reflexivity|]. exact H.
  Qed.

  Lemma no_bang e : forall b, faithful e -> suffixable e -> exists t r, format_expression e b = t :: r /\ t <> TBang.
  Proof.
    clear IHe IHs.
    assert (Happ : forall a c, (exists t r, a = t :: r /\ t <> TBang) -> exists t r, a ++ c = t :: r /\ t <> TBang).
    { intros a c (t & r & -> & H). eexists _, _. split; [reflexivity|exact H]. }
    induction e as [a|o l IHl r IHr|x IH|x IH|f IHf args|x IH name]; cbn [suffixable faithful]; intros b F H; try tauto; cbn [format_expression].
    - eexists _, _. split; [reflexivity|discriminate].
    - apply Happ. destruct F as [T F]. destruct x; cbn [triable] in T; try tauto; try (apply IH; cbn; auto).
      eexists _, _. split; [reflexivity|discriminate].
    - apply Happ, IHf; tauto.
    - apply Happ, IH; tauto.
  Qed.

  Lemma prefix_suffix b e rest n : faithful e -> suffixable e -> parse_prefix (S n) (format_expression e b ++ rest) =
    bind (parse_atomic n (format_expression e b ++ rest)) (fun p => parse_suffixes n (fst p) (snd p)).
  Proof. intros F H. destruct (no_bang e b F H) as (t & r & -> & Ht). cbn [app parse_prefix]. destruct t; congruence. Qed.

  Lemma parens_prefix e b rest : size e < k -> faithful e -> no_suffix rest ->
    ev (fun n => parse_prefix n (parenthesized (format_expression e false) b ++ rest)) (e, rest).
  Proof.
    intros Hs Hf Hr. eapply ev_step; [intros n; cbn [parenthesized app parse_prefix]; reflexivity|].
    refine (ev_bind _ (fun p n => parse_suffixes n (fst p) (snd p)) (e, rest) _ _ (suffixes_done e rest Hr)).
    apply (ev_parens (format_expression e false) e b rest). apply IHe; [exact Hs|exact Hf|exact I].
  Qed.

  Lemma prefix_ok e : forall b rest, size e <= k -> faithful e -> is_bin e = false -> no_suffix rest ->
    ev (fun n => parse_prefix n (format_expression e b ++ rest)) (e, rest).
  Proof.
    assert (Hsuf : forall e b rest, size e <= k -> faithful e -> suffixable e -> no_suffix rest ->
      ev (fun n => parse_prefix n (format_expression e b ++ rest)) (e, rest)).
    { intros x b rest Hs Hf Hx Hr. eapply ev_step; [intros n; apply prefix_suffix; auto|]. apply suffix_ok; auto. apply suffixes_done, Hr. }
    induction e as [a|o l IHl r IHr|x IH|x IH|f IHf args|x IH name]; intros b rest Hs Hf Hb Hr; try discriminate;
      try (apply Hsuf; [exact Hs|exact Hf|exact I|exact Hr]).
    cbn [format_expression size faithful] in *. eapply ev_step; [intros n; cbn [app parse_prefix]; reflexivity|].
    refine (ev_bind _ (fun p n => Ok (ENot (fst p), snd p)) (x, rest) _ _ _); [|exists 0; reflexivity].
    destruct (is_bin x) eqn:E.
    - destruct x; try discriminate. apply parens_prefix; [cbn in *; lia|exact Hf|exact Hr].
    - assert (G : ev (fun n => parse_prefix n (format_expression x false ++ rest)) (x, rest)) by (apply IH; [lia|exact Hf|reflexivity|exact Hr]).
      destruct x; try discriminate; exact G.
  Qed.

  Lemma leaf_prefix x b rest : leaf_ok k x -> no_suffix rest -> ev (fun n => parse_prefix n (format_operand x b ++ rest)) (x, rest).
  Proof.
    intros [F S] Hr. unfold format_operand. destruct (is_bin x) eqn:E; [apply parens_prefix; auto|apply prefix_ok; auto].
  Qed.

  Lemma pairs_no_suffix l rest : no_suffix rest -> no_suffix (format_pairs l ++ rest).
  Proof. destruct l as [|[o e] l]; cbn; auto. Qed.

  Lemma pairs_ok l rest : Forall (fun p => leaf_ok k (snd p)) l -> stops rest ->
    ev (fun n => parse_pairs n (format_pairs l ++ rest)) (l, rest).
  Proof.
    intros H Hr. induction H as [|[o x] l Hx Hl IH].
    - apply ev_ret. intros n. destruct rest as [|[] ?]; cbn in *; tauto.
    - cbn [format_pairs app snd] in *. rewrite <- app_assoc. eapply ev_step; [intros n; cbn [parse_pairs]; reflexivity|].
      refine (ev_bind _ (fun p n => bind (parse_pairs n (snd p)) (fun q => Ok ((o, fst p) :: fst q, snd q))) (x, format_pairs l ++ rest) _ _ _).
      + apply leaf_prefix; [exact Hx|]. apply pairs_no_suffix, stops_no_suffix, Hr.
      + cbn [fst snd]. refine (ev_bind _ (fun q n => Ok ((o, x) :: fst q, snd q)) (l, rest) _ IH _). exists 0. reflexivity.
  Qed.

  Lemma expression_ok e b rest : size e <= k -> faithful e -> stops rest ->
    ev (fun n => parse_expression n (format_expression e b ++ rest)) (e, rest).
  Proof.
    intros Hs Hf Hr. destruct (tree_leaves e Hf) as [L1 L2].
    assert (Hw : forall x, leaf_ok (size e) x -> leaf_ok k x) by (intros x [A B]; split; [exact A|destruct (is_bin x); lia]).
    assert (Ef : format_expression e b = format_tree (tree_of e) b) by (rewrite <- format_as_tree; destruct e; reflexivity).
    rewrite Ef. unfold format_tree. rewrite <- app_assoc.
    eapply ev_step; [intros n; cbn [parse_expression]; reflexivity|].
    refine (ev_bind _ (fun p n => bind (parse_pairs n (snd p)) (fun q => bind (reduce_operations (S (length (fst q))) (fst p) (fst q)) (fun e => Ok (e, snd q)))) (first_operand (tree_of e), format_pairs (operations (tree_of e)) ++ rest) _ _ _).
    - apply leaf_prefix; [apply Hw, L1|]. apply pairs_no_suffix, stops_no_suffix, Hr.
    - cbn [fst snd]. refine (ev_bind _ (fun q n => bind (reduce_operations (S (length (fst q))) (first_operand (tree_of e)) (fst q)) (fun e => Ok (e, snd q))) (operations (tree_of e), rest) _ _ _).
      + apply pairs_ok; [|exact Hr]. eapply Forall_impl; [|exact L2]. intros p Hp. apply Hw, Hp.
      + cbn [fst snd]. rewrite reduce_tree by (apply tree_grouped, Hf). cbn [bind]. rewrite tree_meaning. exists 0. reflexivity.
  Qed.
End Round.

Lemma round_trip k :
  (forall e b rest, size e < k -> faithful e -> stops rest -> ev (fun n => parse_expression n (format_expression e b ++ rest)) (e, rest)) /\
  (forall e b rest out, size e < k -> faithful e -> suffixable e -> ev (fun n => parse_suffixes n e rest) out ->
    ev (fun n => bind (parse_atomic n (format_expression e b ++ rest)) (fun p => parse_suffixes n (fst p) (snd p))) out).
Proof.
  induction k as [|k [IHe IHs]]; [split; intros; lia|]. split.
  - intros e b rest Hs. apply (expression_ok k IHe IHs). lia.
  - intros e b rest out Hs. apply (suffix_ok k IHe IHs). lia.
Qed.

Lemma format_parse e b : faithful e -> exists N, forall n, N <= n -> parse_expression n (format_expression e b) = Ok (e, []).
Proof.
  intros F. pose proof (proj1 (round_trip (S (size e))) e b [] ltac:(lia) F I) as H. rewrite app_nil_r in H. exact H.
Qed.
