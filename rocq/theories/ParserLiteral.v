From Coq Require Import String Ascii List Bool Arith Lia.
From Verif Require Import Syntax Ast Parser Printer ParserSpec ParserToken ParserList.
Import ListNotations.
Local Open Scope string_scope.

Lemma not_next_weaken f g k : (forall c, g c = true -> f c = true) -> not_next f k = true -> not_next g k = true.
Proof.
  intros H. destruct k as [|c k]; [reflexivity|]. cbn [not_next]. rewrite !negb_true_iff. intros E. destruct (g c) eqn:G; [|reflexivity].
  rewrite (H c G) in E. discriminate.
Qed.
Lemma word_digit c : is_digit c = true -> is_word c = true.
Proof. apply by_chars2. vm_compute. reflexivity. Qed.
Lemma word_bit c : is_bit c = true -> is_word c = true.
Proof. apply by_chars2. vm_compute. reflexivity. Qed.
Lemma word_hex c : is_hex c = true -> is_word c = true.
Proof. apply by_chars2. vm_compute. reflexivity. Qed.

Lemma digit1_ok f d k : digits f d -> not_next f k = true -> digit1 f (d ++ k) = POk d k.
Proof. intros [N A] K. unfold digit1. rewrite (span_ok f d k A K). destruct d; [congruence|reflexivity]. Qed.
Lemma digits_starts f d : digits f d -> starts f d.
Proof. intros [N A]. destruct d as [|c d]; [congruence|]. cbn in A. apply andb_true_iff in A. exists c, d. tauto. Qed.

Lemma opt_sign_ok s k : sign_text s -> starts (fun c => is_digit c || Ascii.eqb c ".") k -> opt_sign (s ++ k) = (s, k).
Proof.
  intros S (c & r & -> & H). destruct S as [S|[S|S]]; subst; cbn [append]; [|reflexivity|reflexivity].
  unfold opt_sign. assert (E : (Ascii.eqb c "+" || Ascii.eqb c "-") = false); [|rewrite E; reflexivity].
  apply negb_true_iff. revert c H. apply (by_chars2 (fun c => is_digit c || Ascii.eqb c ".") (fun c => negb (Ascii.eqb c "+" || Ascii.eqb c "-"))). vm_compute. reflexivity.
Qed.
Lemma mantissa_starts m : mantissa_text m -> starts (fun c => is_digit c || Ascii.eqb c ".") m.
Proof.
  intros [d H|d f H _|f _].
  - eapply starts_weaken; [|apply (digits_starts _ _ H)]. intros c E. rewrite E. reflexivity.
  - apply starts_app. eapply starts_weaken; [|apply (digits_starts _ _ H)]. intros c E. rewrite E. reflexivity.
  - exists "."%char, f. split; reflexivity.
Qed.
Lemma mantissa_ok m k : mantissa_text m -> not_next is_digit k = true -> not_next (Ascii.eqb ".") k = true -> mantissa (m ++ k) = POk m k.
Proof.
  intros H K P. unfold mantissa. destruct H as [d H|d f H Hf|f H].
  - rewrite (digit1_ok _ _ _ H K). destruct k as [|c k]; [reflexivity|]. cbn [not_next] in P. apply negb_true_iff in P. rewrite Ascii.eqb_sym, P. reflexivity.
  - rewrite sapp_assoc. rewrite (digit1_ok is_digit d) by (exact H || reflexivity). cbn [append]. rewrite (span_ok is_digit f k Hf K). reflexivity.
  - cbn [append]. assert (E : digit1 is_digit (String "." (f ++ k)) = PErr) by reflexivity. rewrite E. cbn [Ascii.eqb]. rewrite (digit1_ok _ _ _ H K). reflexivity.
Qed.
Lemma exponent_ok e k : exponent_text e -> not_next is_word k = true -> exponent (e ++ k) = POk e k.
Proof.
  intros H K. destruct H as [|c s d Hc Hs Hd].
  - cbn [append]. destruct k as [|c k]; [reflexivity|]. unfold exponent. cbn [not_next] in K. apply negb_true_iff in K.
    assert (E : (Ascii.eqb c "e" || Ascii.eqb c "E") = false); [|rewrite E; reflexivity].
    destruct (Ascii.eqb_spec c "e") as [->|]; [discriminate|]. destruct (Ascii.eqb_spec c "E") as [->|]; [discriminate|]. reflexivity.
  - cbn [append]. unfold exponent. assert (E : (Ascii.eqb c "e" || Ascii.eqb c "E") = true) by (destruct Hc; subst; reflexivity). rewrite E.
    rewrite sapp_assoc. rewrite opt_sign_ok; [|exact Hs|].
    + rewrite (digit1_ok is_digit d k Hd); [reflexivity|]. eapply not_next_weaken; [apply word_digit|exact K].
    + apply starts_app. eapply starts_weaken; [|apply (digits_starts _ _ Hd)]. intros x Hx. rewrite Hx. reflexivity.
Qed.
Lemma exponent_next e k : exponent_text e -> not_next is_word k = true -> not_next (Ascii.eqb ".") k = true ->
  not_next is_digit (e ++ k) = true /\ not_next (Ascii.eqb ".") (e ++ k) = true.
Proof.
  intros [|c s d Hc _ _] K P.
  - split; [|exact P]. eapply not_next_weaken; [apply word_digit|exact K].
  - destruct Hc; subst; split; reflexivity.
Qed.
Lemma float_ok t k : float_text t -> not_next is_word k = true -> not_next (Ascii.eqb ".") k = true -> recognize_float (t ++ k) = POk t k.
Proof.
  intros [s m e Hs Hm He] K P. unfold recognize_float. rewrite !sapp_assoc. rewrite opt_sign_ok; [|exact Hs|apply starts_app; apply mantissa_starts; exact Hm].
  destruct (exponent_next e k He K P) as [K1 K2]. rewrite (mantissa_ok m (e ++ k) Hm K1 K2). cbn [pbind]. rewrite (exponent_ok e k He K). reflexivity.
Qed.
Lemma float_starts t : float_text t -> starts (fun c => is_digit c || Ascii.eqb c "." || Ascii.eqb c "+" || Ascii.eqb c "-") t.
Proof.
  intros [s m e [S|[S|S]] Hm He]; subst.
  - cbn [append]. apply starts_app. eapply starts_weaken; [|apply mantissa_starts; exact Hm]. intros c E. rewrite E. reflexivity.
  - eexists _, _. split; reflexivity.
  - eexists _, _. split; reflexivity.
Qed.
(** A number in base ten has no other character after its first digit. *)
Lemma float_second t k c r : float_text t -> not_next is_word k = true -> t ++ k = String "0" (String c r) ->
  (is_digit c || Ascii.eqb c "." || Ascii.eqb c "e" || Ascii.eqb c "E" || negb (is_word c)) = true.
Proof.
  assert (D : forall d x, is_digit d = true -> (is_digit d || x) = true) by (intros d x ->; reflexivity).
  intros [s m e Hs Hm He] K E. rewrite !sapp_assoc in E.
  assert (Ek : forall r', e ++ k = String c r' -> (is_digit c || Ascii.eqb c "." || Ascii.eqb c "e" || Ascii.eqb c "E" || negb (is_word c)) = true).
  { intros r' Er. destruct He as [|c' s' d Hc _ _].
    - cbn [append] in Er. subst k. cbn [not_next] in K. rewrite K, orb_true_r. reflexivity.
    - cbn [append] in Er. injection Er as <- _. destruct Hc; subst; reflexivity. }
  assert (S0 : s = "").
  { destruct Hs as [S|[S|S]]; [exact S| |]; subst s; discriminate. }
  subst s. cbn [append] in E. destruct Hm as [d Hd|d f Hd Hf|f Hf].
  - destruct Hd as [N A]. destruct d as [|c0 d]; [congruence|]. cbn [append] in E. injection E as -> E. destruct d as [|c1 d].
    + eapply Ek. exact E.
    + cbn [append] in E. injection E as -> E. cbn [all_chars] in A. apply andb_true_iff in A. destruct A as [_ A]. apply andb_true_iff in A. destruct A as [A _]. rewrite A. reflexivity.
  - destruct Hd as [N A]. destruct d as [|c0 d]; [congruence|]. cbn [append] in E. rewrite sapp_assoc in E. injection E as -> E. destruct d as [|c1 d].
    + cbn [append] in E. injection E as <- _. reflexivity.
    + cbn [append] in E. injection E as -> E. cbn [all_chars] in A. apply andb_true_iff in A. destruct A as [_ A]. apply andb_true_iff in A. destruct A as [A _]. rewrite A. reflexivity.
  - cbn [append] in E. discriminate.
Qed.
Lemma tag_two c t k : float_text t -> not_next is_word k = true ->
  (is_digit c || Ascii.eqb c "." || Ascii.eqb c "e" || Ascii.eqb c "E" || negb (is_word c)) = false ->
  tag (String "0" (String c "")) (t ++ k) = PErr.
Proof.
  intros F K C. cbn [tag]. destruct (t ++ k) as [|c0 r] eqn:E; [reflexivity|]. destruct (Ascii.eqb_spec "0" c0) as [<-|]; [|reflexivity].
  destruct r as [|c1 r]; [reflexivity|]. destruct (Ascii.eqb_spec c c1) as [<-|]; [|reflexivity].
  rewrite (float_second t k c r F K E) in C. discriminate.
Qed.

Lemma lower_upper d : all_chars is_lower_hex d = true -> smap lower (smap upper d) = d.
Proof.
  induction d as [|c d IH]; [reflexivity|]. cbn [all_chars smap]. intros H. apply andb_true_iff in H. destruct H as [H1 H2]. rewrite (IH H2). f_equal.
  apply Ascii.eqb_eq. revert c H1. apply (by_chars2 is_lower_hex (fun c => Ascii.eqb (lower (upper c)) c)). vm_compute. reflexivity.
Qed.
Lemma upper_hex d : digits is_lower_hex d -> digits is_hex (smap upper d).
Proof.
  intros [N A]. split; [destruct d; [congruence|discriminate]|]. clear N. induction d as [|c d IH]; [reflexivity|]. cbn [all_chars smap] in *.
  apply andb_true_iff in A. destruct A as [A1 A2]. rewrite (IH A2), andb_true_r. revert c A1. apply (by_chars2 is_lower_hex (fun c => is_hex (upper c))). vm_compute. reflexivity.
Qed.

Definition number_string (n : anumber) : string :=
  match n with NBinary d => "0b" ++ d | NHexadecimal d => "0x" ++ smap upper d | NFloat t => t end.
Definition is_float (n : anumber) : bool := match n with NFloat _ => true | _ => false end.
Lemma number_starts n : number_text n -> starts (fun c => is_digit c || Ascii.eqb c "." || Ascii.eqb c "+" || Ascii.eqb c "-") (number_string n).
Proof. destruct n; cbn [number_text number_string]; intros H; [eexists _, _; split; reflexivity|eexists _, _; split; reflexivity|apply float_starts; exact H]. Qed.
Lemma number_ok n x k : number_text n -> not_next is_word k = true -> (is_float n = true -> not_next (Ascii.eqb ".") k = true) ->
  skip x = number_string n ++ k -> number_literal x = POk n k.
Proof.
  intros H K P E. assert (Kd : not_next is_digit k = true) by (eapply not_next_weaken; [apply word_digit|exact K]).
  unfold number_literal. rewrite E. apply pbind_ok with (a := n) (s := k); [|rewrite Kd; reflexivity].
  destruct n as [d|d|t]; cbn [number_string number_text is_float] in *.
  - apply alt_left. unfold binary_literal. rewrite sapp_assoc, tag_ok. cbn [pbind]. rewrite (digit1_ok is_bit d k H); [reflexivity|]. eapply not_next_weaken; [apply word_bit|exact K].
  - rewrite sapp_assoc. apply alt_right; [reflexivity|]. apply alt_left. unfold hexadecimal_literal. rewrite tag_ok. cbn [pbind].
    rewrite (digit1_ok is_hex _ k (upper_hex d H)).
    + cbn [cut pbind]. rewrite lower_upper by apply H. reflexivity.
    + eapply not_next_weaken; [apply word_hex|exact K].
  - apply alt_right; [unfold binary_literal; rewrite (tag_two "b" t k H K eq_refl); reflexivity|].
    apply alt_right; [unfold hexadecimal_literal; rewrite (tag_two "x" t k H K eq_refl); reflexivity|].
    unfold decimal_literal. rewrite (float_ok t k H K (P eq_refl)). reflexivity.
Qed.
(** What is no number *)
Lemma number_err f x : starts f (skip x) -> (forall c, f c = true -> (is_digit c || Ascii.eqb c "." || Ascii.eqb c "+" || Ascii.eqb c "-") = false) -> number_literal x = PErr.
Proof.
  intros (c & r & E & Hc) H. specialize (H c Hc). rewrite !orb_false_iff in H. destruct H as (((H1 & H2) & H3) & H4).
  unfold number_literal. rewrite E. apply pbind_err.
  assert (Z : Ascii.eqb "0" c = false).
  { destruct (Ascii.eqb_spec "0" c) as [<-|]; [discriminate|reflexivity]. }
  apply alt_right; [unfold binary_literal; cbn [tag]; rewrite Z; reflexivity|].
  apply alt_right; [unfold hexadecimal_literal; cbn [tag]; rewrite Z; reflexivity|].
  unfold decimal_literal, recognize_float, opt_sign. rewrite H3, H4. cbn [orb]. unfold mantissa, digit1. cbn [span]. rewrite H1. cbv iota beta. rewrite H2. reflexivity.
Qed.
Lemma number_points x r : skip x = "..." ++ r -> number_literal x = PErr.
Proof. intros E. unfold number_literal. rewrite E. reflexivity. Qed.

Lemma string_body_ok t k : string_text t -> string_body (t ++ String quote k) = (t, String quote k).
Proof.
  induction 1 as [|c s H1 H2 H IH|c s Hc H IH|h l s Hh Hl H IH].
  - reflexivity.
  - cbn [append string_body]. destruct (Ascii.eqb_spec c quote); [contradiction|]. destruct (Ascii.eqb_spec c "\"); [contradiction|]. rewrite IH. reflexivity.
  - cbn [append string_body]. assert (E : existsb (Ascii.eqb c) ["\"; quote; "n"; "r"; "t"]%char = true) by (apply existsb_exists; exists c; split; [exact Hc|apply Ascii.eqb_refl]).
    change (Ascii.eqb "\" quote) with false. change (Ascii.eqb "\" "\") with true. cbv iota. rewrite E, IH. reflexivity.
  - cbn [append string_body]. change (Ascii.eqb "\" quote) with false. change (Ascii.eqb "\" "\") with true. cbv iota.
    change (existsb (Ascii.eqb "x") ["\"; quote; "n"; "r"; "t"]%char) with false. change (Ascii.eqb "x" "x") with true. cbv iota. rewrite Hh, Hl. cbn [andb]. rewrite IH. reflexivity.
Qed.
Lemma string_ok t x k : string_text t -> skip x = String quote (t ++ String quote k) -> string_literal x = POk t k.
Proof.
  intros H E. unfold string_literal. rewrite E. cbn [tag]. rewrite Ascii.eqb_refl. cbn [pbind]. rewrite (string_body_ok t k H). cbn [tag]. rewrite Ascii.eqb_refl. reflexivity.
Qed.
Lemma string_err f x : starts f (skip x) -> f quote = false -> string_literal x = PErr.
Proof. intros S H. unfold string_literal. rewrite (tag_err f quote "" (skip x) S H). reflexivity. Qed.
