(** What the parser reads is made of proper names, numbers and strings, and
    reading takes input. *)
From Coq Require Import String Ascii List Bool Arith Lia.
From Verif Require Import Base Syntax SyntaxSpec Ast Parser ParserSpec ParserKept ParserToken ParserList ParserType.
Import ListNotations.
Local Open Scope string_scope.

Definition sound {A} (W : A -> Prop) (p : parser A) : Prop := forall x a r, p x = POk a r -> W a /\ slen r < slen x.
Definition loose {A} (W : A -> Prop) (p : parser A) : Prop := forall x a r, p x = POk a r -> W a /\ slen r <= slen x.
Lemma sound_loose {A} (W : A -> Prop) p : sound W p -> loose W p.
Proof. intros H x a r E. destruct (H x a r E). split; [assumption|lia]. Qed.

Lemma cut_inv {A} (e : presult A) a r : cut e = POk a r -> e = POk a r.
Proof. destruct e; cbn; congruence. Qed.
Lemma alt_inv {A} (p q : parser A) x a r : alt p q x = POk a r -> p x = POk a r \/ q x = POk a r.
Proof. unfold alt. destruct (p x); intros H; auto; discriminate. Qed.
Ltac pinv :=
  repeat match goal with
  | H : pbind ?e ?f = POk _ _ |- _ => let E := fresh "E" in destruct e eqn:E; cbn [pbind] in H; try discriminate H
  | H : pmap ?f ?e = POk _ _ |- _ => unfold pmap in H
  | H : cut ?e = POk _ _ |- _ => apply cut_inv in H
  | H : alt _ _ _ = POk _ _ |- _ => apply alt_inv in H; destruct H as [H|H]
  | H : POk _ _ = POk _ _ |- _ => injection H as ? ?; subst
  | H : (if ?b then _ else _) = POk _ _ |- _ => let E := fresh "B" in destruct b eqn:E; try discriminate H
  end.

(** *** Tokens *)
Lemma tag_len t : forall x u r, tag t x = POk u r -> slen x = slen t + slen r.
Proof.
  induction t as [|c t IH]; intros [|d x] u r H; cbn [tag] in H; pinv; try discriminate; rewrite ?slen_cons, ?slen_nil; try lia; try reflexivity.
  apply IH in H. lia.
Qed.
Lemma sign_sound c t : sound (fun _ => True) (sign (String c t)).
Proof.
  intros x a r H. unfold sign in H. pinv; split; auto; apply tag_len in E; rewrite slen_cons in E; pose proof (skip_shorter x); lia.
Qed.
Lemma keyword_sound c t : sound (fun _ => True) (keyword (String c t)).
Proof.
  intros x a r H. unfold keyword in H. pinv; split; auto; apply tag_len in E; rewrite slen_cons in E; pose proof (skip_shorter x); lia.
Qed.
Lemma span_inv f x : forall a r, span f x = (a, r) -> x = a ++ r /\ all_chars f a = true.
Proof.
  induction x as [|c x IH]; intros a r; cbn [span]; [intros [= <- <-]; auto|]. destruct (f c) eqn:F.
  - destruct (span f x) as [a' r']. intros [= <- <-]. destruct (IH a' r' eq_refl) as [-> H]. split; [reflexivity|]. cbn. rewrite F, H. reflexivity.
  - intros [= <- <-]. auto.
Qed.
Lemma digit1_sound f x a r : digit1 f x = POk a r -> x = a ++ r /\ digits f a.
Proof.
  unfold digit1. destruct (span f x) as [a' r'] eqn:S. apply span_inv in S. destruct S as [-> H]. destruct a'; [discriminate|]. intros [= <- <-].
  split; [reflexivity|]. split; [discriminate|exact H].
Qed.
Lemma raw_sound : sound name raw_identifier.
Proof.
  intros x a r H. unfold raw_identifier, unchecked_identifier in H. destruct x as [|c x]; [discriminate|]. pinv.
  destruct (is_alpha c || Ascii.eqb c "_") eqn:C; [|discriminate]. destruct (span is_word (String c x)) as [a' r'] eqn:S. injection E as <- <-.
  pose proof (span_inv _ _ _ _ S) as [X W]. cbn [span] in S. assert (Hw : is_word c = true) by (apply word_start_word; exact C). rewrite Hw in S.
  destruct (span is_word x) as [a1 r1]. injection S as <- <-. split.
  - split; [|split].
    + exists c, a1. split; [reflexivity|]. apply orb_prop in C. destruct C as [C|C]; [left; exact C|]. right. apply Ascii.eqb_eq. exact C.
    + exact W.
    + intros I. apply is_keyword_In in I. congruence.
  - rewrite X. rewrite slen_app, slen_cons. lia.
Qed.
Lemma identifier_sound : sound name identifier.
Proof. intros x a r H. apply raw_sound in H. destruct H. pose proof (skip_shorter x). split; [assumption|lia]. Qed.
Lemma qualified_sound x a r : qualified_identifier (skip x) = POk a r -> qualified_name a /\ slen r < slen x.
Proof.
  intros H. unfold qualified_identifier in H. pose proof (skip_shorter x). pinv. apply raw_sound in E. destruct E as [Na L].
  destruct (tag "'" rest) as [[] k| |] eqn:T; pinv; try (split; [left; exact Na|lia]).
  apply tag_len in T. cbn in T. apply raw_sound in E. destruct E as [Nb L']. split; [right; exists a0, a1; auto|lia].
Qed.

(** *** Repetition *)
Lemma every_app {A} (W : A -> Prop) l m : every W l -> every W m -> every W (l ++ m).
Proof. induction l; cbn; intuition. Qed.
Lemma many0_sound {A} (W : A -> Prop) p : loose W p -> loose (every W) (many0 p).
Proof.
  intros Hp x. unfold many0. generalize (S (slen x)) as n. intros n. revert x. induction n as [|n IH]; intros x l r H; cbn [many0_] in H; [discriminate|].
  destruct (p x) as [a k| |] eqn:E; try discriminate; [|injection H as <- <-; split; [exact I|lia]].
  destruct (slen k =? slen x)%nat; [discriminate|]. pinv. apply Hp in E. apply IH in E0. cbn. split; [split; apply E || apply E0|lia].
Qed.
Lemma many1_sound {A} (W : A -> Prop) p : sound W p -> sound (fun l => l <> [] /\ every W l) (many1 p).
Proof.
  intros Hp x l r H. unfold many1 in H. pinv. apply Hp in E. apply (many0_sound W p (sound_loose _ _ Hp)) in E0. split; [split; [discriminate|split; apply E || apply E0]|lia].
Qed.
Lemma separated_sound {A} (W : A -> Prop) sep p : loose (fun _ => True) sep -> loose W p -> forall n x l r, separated_ n sep p x = POk l r -> every W l /\ slen r <= slen x.
Proof.
  intros Hs Hp. induction n as [|n IH]; intros x l r H; cbn [separated_] in H; [discriminate|].
  destruct (sep x) as [u k| |] eqn:E; try discriminate; [|injection H as <- <-; split; [exact I|lia]].
  destruct (p k) as [a k'| |] eqn:E'; try discriminate; [|injection H as <- <-; split; [exact I|lia]].
  destruct (slen k' =? slen x)%nat; [discriminate|]. pinv. apply Hs in E. apply Hp in E'. apply IH in E0. cbn. split; [split; apply E' || apply E0|lia].
Qed.
Lemma opt_sound {A} (W : A -> Prop) p : loose W p -> loose (maybe W) (opt p).
Proof.
  intros Hp x o r H. unfold opt in H. destruct (p x) as [a k| |] eqn:E; try discriminate; injection H as <- <-; [apply Hp in E; exact E|split; [exact I|lia]].
Qed.
Lemma list1_sound {A} (W : A -> Prop) sep p : loose (fun _ => True) sep -> sound W p -> sound (fun l => l <> [] /\ every W l) (separated_list1 sep p).
Proof.
  intros Hs Hp x l r H. unfold separated_list1 in H. pinv. apply Hp in E. apply (separated_sound W) in E0; auto using sound_loose. split; [split; [discriminate|split; apply E || apply E0]|lia].
Qed.
Lemma list0_sound {A} (W : A -> Prop) sep p : loose (fun _ => True) sep -> loose W p -> loose (every W) (separated_list0 sep p).
Proof.
  intros Hs Hp x l r H. unfold separated_list0 in H. destruct (p x) eqn:E; try discriminate; [|pinv; split; [exact I|lia]]. pinv. apply Hp in E. apply (separated_sound W) in E0; auto.
  split; [split; apply E || apply E0|lia].
Qed.
Lemma terminated1_sound {A} (W : A -> Prop) sep p : loose (fun _ => True) sep -> sound W p -> sound (fun l => l <> [] /\ every W l) (terminated_list1 sep p).
Proof.
  intros Hs Hp x l r H. unfold terminated_list1 in H. pinv. apply (list1_sound W) in E; auto. apply (opt_sound (fun _ => True)) in E0; auto. split; [apply E|lia].
Qed.
Lemma terminated0_sound {A} (W : A -> Prop) sep p : loose (fun _ => True) sep -> loose W p -> loose (every W) (terminated_list0 sep p).
Proof.
  intros Hs Hp x l r H. unfold terminated_list0 in H. destruct (separated_list0 sep p x) as [l0 k| |] eqn:E; cbn [pbind] in H; try discriminate. apply (list0_sound W) in E; auto.
  destruct l0; pinv; [exact E|].
  apply (opt_sound (fun _ => True)) in E0; auto. split; [apply E|lia].
Qed.
Lemma comma_sound : loose (fun _ => True) (sign ",").
Proof. apply sound_loose, sign_sound. Qed.
Lemma every_imp {A} (P Q : A -> Prop) l : every (fun x => P x -> Q x) l -> every P l -> every Q l.
Proof. induction l; cbn; intuition. Qed.
Lemma every_all {A} (P Q : A -> Prop) l : (forall x, P x -> Q x) -> every P l -> every Q l.
Proof. intros H. induction l; cbn; intuition. Qed.

(** *** Numbers and strings *)
Lemma opt_sign_sound x s r : opt_sign x = (s, r) -> x = s ++ r /\ sign_text s.
Proof.
  unfold opt_sign. destruct x as [|c x]; [intros [= <- <-]; split; [reflexivity|left; reflexivity]|].
  destruct (Ascii.eqb c "+" || Ascii.eqb c "-") eqn:C; intros [= <- <-]; [|split; [reflexivity|left; reflexivity]].
  split; [reflexivity|]. apply orb_prop in C. destruct C as [C|C]; apply Ascii.eqb_eq in C; subst; [right; left|right; right]; reflexivity.
Qed.
Lemma mantissa_sound x m r : mantissa x = POk m r -> mantissa_text m /\ slen r < slen x.
Proof.
  unfold mantissa. destruct (digit1 is_digit x) as [a k| |] eqn:D.
  - apply digit1_sound in D. destruct D as [-> D]. assert (1 <= slen a) by (destruct a; [destruct D; congruence|cbn; lia]).
    destruct k as [|c k]; [intros [= <- <-]; split; [constructor; exact D|rewrite slen_app; lia]|].
    destruct (Ascii.eqb_spec c ".") as [->|].
    + destruct (span is_digit k) as [b k'] eqn:S. intros [= <- <-]. apply span_inv in S. destruct S as [-> S]. split; [apply pointed; assumption|]. rewrite !slen_app, slen_cons, slen_app. lia.
    + intros [= <- <-]. split; [constructor; exact D|]. rewrite slen_app. lia.
  - destruct x as [|c x]; [discriminate|]. destruct (Ascii.eqb_spec c ".") as [->|]; [|discriminate]. intros H. pinv. apply digit1_sound in E. destruct E as [-> E].
    split; [apply fractional; exact E|]. rewrite slen_cons, slen_app. lia.
  - destruct x as [|c x]; [discriminate|]. destruct (Ascii.eqb_spec c ".") as [->|]; [|discriminate]. intros H. pinv. apply digit1_sound in E. destruct E as [-> E].
    split; [apply fractional; exact E|]. rewrite slen_cons, slen_app. lia.
Qed.
Lemma exponent_sound x e r : exponent x = POk e r -> exponent_text e /\ slen r <= slen x.
Proof.
  unfold exponent. destruct x as [|c x]; [intros [= <- <-]; split; [constructor|lia]|].
  destruct (Ascii.eqb c "e" || Ascii.eqb c "E") eqn:C; [|intros [= <- <-]; split; [constructor|lia]].
  destruct (opt_sign x) as [s k] eqn:S. intros H. pinv. apply opt_sign_sound in S. destruct S as [-> S]. apply digit1_sound in E. destruct E as [-> E].
  split; [|rewrite slen_cons, !slen_app; lia]. apply an_exponent; auto. apply orb_prop in C. destruct C as [C|C]; apply Ascii.eqb_eq in C; auto.
Qed.
Lemma lower_hex d : digits is_hex d -> digits is_lower_hex (smap lower d).
Proof.
  intros [N A]. split; [destruct d; [congruence|discriminate]|]. clear N. induction d as [|c d IH]; [reflexivity|]. cbn [all_chars smap] in *.
  apply andb_true_iff in A. destruct A as [A1 A2]. rewrite (IH A2), andb_true_r. revert c A1. apply (by_chars2 is_hex (fun c => is_lower_hex (lower c))). vm_compute. reflexivity.
Qed.
Lemma number_sound : sound number_text number_literal.
Proof.
  intros x a r H. unfold number_literal in H. pose proof (skip_shorter x). pinv.
  - unfold binary_literal in E. pinv. apply tag_len in E0. cbn in E0. apply digit1_sound in E1. destruct E1 as [-> D]. rewrite slen_app in E0. split; [exact D|lia].
  - unfold hexadecimal_literal in E. pinv. apply tag_len in E0. cbn in E0. apply digit1_sound in E1. destruct E1 as [-> D]. rewrite slen_app in E0. split; [apply lower_hex; exact D|lia].
  - unfold decimal_literal, recognize_float in E. destruct (opt_sign (skip x)) as [s k] eqn:S. pinv. apply opt_sign_sound in S. destruct S as [X S]. apply mantissa_sound in E1. apply exponent_sound in E2.
    split; [apply a_float; apply S || apply E1 || apply E2|]. rewrite X, slen_app in H0. lia.
Qed.
Lemma string_body_sound n : forall s a r, slen s < n -> string_body s = (a, r) -> string_text a /\ slen r <= slen s.
Proof.
  induction n as [|n IH]; intros s a r L; [lia|]. destruct s as [|c s]; cbn [string_body]; [intros [= <- <-]; split; [constructor|lia]|]. rewrite slen_cons in *.
  destruct (Ascii.eqb_spec c quote) as [->|Nq]; [intros [= <- <-]; split; [constructor|rewrite slen_cons; lia]|].
  destruct (Ascii.eqb_spec c "\") as [->|Nb].
  - destruct s as [|d s]; [intros [= <- <-]; split; [constructor|cbn; lia]|]. rewrite slen_cons in *.
    destruct (existsb (Ascii.eqb d) ["\"; quote; "n"; "r"; "t"]%char) eqn:D.
    + destruct (string_body s) as [a' k] eqn:S. intros [= <- <-]. apply IH in S; [|lia]. split; [|lia]. apply text_escape; [|apply S].
      apply existsb_exists in D. destruct D as (e & I & D). apply Ascii.eqb_eq in D. subst. exact I.
    + destruct (Ascii.eqb_spec d "x") as [->|]; [|intros [= <- <-]; split; [constructor|rewrite !slen_cons; lia]].
      destruct s as [|h1 [|h2 s]]; try (intros [= <- <-]; split; [constructor|rewrite !slen_cons; lia]). rewrite !slen_cons in *.
      destruct (is_hex h1 && is_hex h2) eqn:Hx; [|intros [= <- <-]; split; [constructor|rewrite !slen_cons; lia]].
      destruct (string_body s) as [a' k] eqn:S. intros [= <- <-]. apply IH in S; [|lia]. apply andb_true_iff in Hx. split; [|lia]. apply text_byte; apply Hx || apply S.
  - destruct (string_body s) as [a' k] eqn:S. intros [= <- <-]. apply IH in S; [|lia]. split; [|lia]. apply text_character; auto. apply S.
Qed.
Lemma string_sound : sound string_text string_literal.
Proof.
  intros x a r H. unfold string_literal in H. pinv. apply tag_len in E. cbn in E. destruct (string_body rest) as [b k] eqn:Sb. pinv. apply (string_body_sound (S (slen rest))) in Sb; [|lia].
  apply tag_len in E0. cbn in E0. pose proof (skip_shorter x). split; [apply Sb|lia].
Qed.
