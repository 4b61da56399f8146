From Coq Require Import String Ascii List Bool Arith Lia.
From Verif Require Import Syntax Ast Parser Printer ParserSpec.
Import ListNotations.
Local Open Scope string_scope.

(** *** Strings *)
Lemma sapp_assoc a b c : (a ++ b) ++ c = a ++ b ++ c.
Proof. induction a as [|x a IH]; cbn; [reflexivity|]. rewrite IH. reflexivity. Qed.
Lemma sapp_nil a : a ++ "" = a.
Proof. induction a as [|x a IH]; cbn; [reflexivity|]. rewrite IH. reflexivity. Qed.
Lemma slen_app a b : slen (a ++ b) = slen a + slen b.
Proof. induction a as [|x a IH]; cbn; [reflexivity|]. rewrite <- IH. reflexivity. Qed.
Lemma slen_cons c a : slen (String c a) = S (slen a).
Proof. reflexivity. Qed.
Lemma slen_nil : slen "" = 0.
Proof. reflexivity. Qed.

(** *** First characters *)
Definition starts (f : ascii -> bool) (s : string) : Prop := exists c r, s = String c r /\ f c = true.
Definition solid (c : ascii) : bool := negb (is_space c) && negb (Ascii.eqb c "#").
Definition word_start (c : ascii) : bool := is_alpha c || Ascii.eqb c "_".

Lemma starts_app f s k : starts f s -> starts f (s ++ k).
Proof. intros (c & r & -> & H). exists c, (r ++ k). auto. Qed.
Lemma starts_weaken f g s : (forall c, f c = true -> g c = true) -> starts f s -> starts g s.
Proof. intros H (c & r & -> & E). exists c, r. auto. Qed.
Lemma starts_len f s : starts f s -> 1 <= slen s.
Proof. intros (c & r & -> & _). rewrite slen_cons. lia. Qed.

Lemma all_ascii (f : ascii -> bool) :
  (forall a b c d e g h i, f (Ascii a b c d e g h i) = true) -> forall x, f x = true.
Proof. intros H [a b c d e g h i]. apply H. Qed.
(** Facts on all characters *)
Definition chars : list ascii := map ascii_of_nat (seq 0 256).
Lemma chars_all c : In c chars.
Proof.
  unfold chars. apply in_map_iff. exists (nat_of_ascii c). split; [apply ascii_nat_embedding|]. apply in_seq.
  pose proof (nat_ascii_bounded c). lia.
Qed.
Lemma by_chars (f : ascii -> bool) : forallb f chars = true -> forall c, f c = true.
Proof. intros H c. exact (proj1 (forallb_forall _ _) H c (chars_all c)). Qed.
Lemma by_chars2 (f g : ascii -> bool) : forallb (fun c => implb (f c) (g c)) chars = true -> forall c, f c = true -> g c = true.
Proof. intros H c E. pose proof (by_chars _ H c) as X. cbn in X. rewrite E in X. exact X. Qed.

Lemma word_start_solid c : word_start c = true -> solid c = true.
Proof. apply by_chars2. vm_compute. reflexivity. Qed.
Lemma word_start_word c : word_start c = true -> is_word c = true.
Proof. apply by_chars2. vm_compute. reflexivity. Qed.
Lemma word_not_newline c : is_word c = true -> is_newline c = false.
Proof. intros H. apply negb_true_iff. revert c H. apply by_chars2. vm_compute. reflexivity. Qed.

(** *** Blanks *)
Lemma skip_comment t : (forall a b x, t = a ++ String x b -> is_newline x = false) ->
  forall c s, is_newline c = true -> skip_ true (t ++ String c s) = skip_ false s.
Proof.
  induction t as [|y t IH]; intros H c s Hc; cbn [append skip_].
  - rewrite Hc. reflexivity.
  - rewrite (H "" t y eq_refl). apply IH; [|exact Hc]. intros a b x ->. exact (H (String y a) b x eq_refl).
Qed.
Lemma skip_blank b s : blank b -> skip (b ++ s) = skip s.
Proof.
  unfold skip. induction 1 as [|c b Hc Hb IH|t c b Ht Hc Hb IH]; cbn [append].
  - reflexivity.
  - cbn [skip_]. rewrite Hc. destruct (is_newline c); exact IH.
  - change (skip_ false (String "#" ((t ++ String c b) ++ s))) with (skip_ true ((t ++ String c b) ++ s)).
    rewrite sapp_assoc. cbn [append]. rewrite (skip_comment t Ht c (b ++ s) Hc). exact IH.
Qed.
Lemma skip_solid s : starts solid s -> skip s = s.
Proof.
  intros (c & r & -> & H). unfold skip. cbn [skip_]. unfold solid in H. apply andb_true_iff in H. destruct H as [H1 H2].
  apply negb_true_iff in H1. apply negb_true_iff in H2. rewrite H1, H2.
  assert (E : is_newline c = false) by (unfold is_space in H1; apply orb_false_iff in H1; tauto). rewrite E. reflexivity.
Qed.
Lemma skip_app s k : starts solid s -> skip (s ++ k) = s ++ k.
Proof. intros H. apply skip_solid. apply starts_app. exact H. Qed.
Lemma skip_space s : skip (String " " s) = skip s.
Proof. reflexivity. Qed.
Lemma skip_shorter_ b s : slen (skip_ b s) <= slen s.
Proof.
  revert b. induction s as [|c s IH]; intros b; cbn [skip_]; [lia|]. rewrite slen_cons.
  destruct (is_newline c); [specialize (IH false); lia|]. destruct b; [specialize (IH true); lia|].
  destruct (is_space c); [specialize (IH false); lia|]. destruct (Ascii.eqb c "#"); [specialize (IH true); lia|]. rewrite slen_cons. lia.
Qed.
Lemma skip_shorter s : slen (skip s) <= slen s.
Proof. apply skip_shorter_. Qed.
Lemma skip_idem_ b s : skip (skip_ b s) = skip_ b s.
Proof.
  revert b. induction s as [|c s IH]; intros b; cbn [skip_]; [reflexivity|].
  destruct (is_newline c) eqn:E1; [apply IH|]. destruct b; [apply IH|].
  destruct (is_space c) eqn:E2; [apply IH|]. destruct (Ascii.eqb c "#") eqn:E3; [apply IH|].
  unfold skip. cbn [skip_]. rewrite E1, E2, E3. reflexivity.
Qed.
Lemma skip_idem s : skip (skip s) = skip s.
Proof. apply skip_idem_. Qed.
Lemma blank_one : blank " ".
Proof. apply blank_space; [reflexivity|constructor]. Qed.
Lemma blank_not_word b k : blank b -> b <> "" -> forall f, (forall c, is_space c = true -> f c = false) -> f "#"%char = false -> not_next f (b ++ k) = true.
Proof.
  intros H N f Hf Hh. destruct H as [|c b Hc _|t c b _ _ _]; [congruence| |]; cbn; [rewrite (Hf c Hc)|rewrite Hh]; reflexivity.
Qed.

(** *** Combinators *)
Lemma pbind_ok {A B} (r : presult A) (f : A -> string -> presult B) a s R : r = POk a s -> f a s = R -> pbind r f = R.
Proof. intros -> H. exact H. Qed.
Lemma pbind_err {A B} (r : presult A) (f : A -> string -> presult B) : r = PErr -> pbind r f = PErr.
Proof. intros ->. reflexivity. Qed.
Lemma cut_ok {A} (r : presult A) a s : r = POk a s -> cut r = POk a s.
Proof. intros ->. reflexivity. Qed.
Lemma alt_left {A} (p q : parser A) s a r : p s = POk a r -> alt p q s = POk a r.
Proof. intros H. unfold alt. rewrite H. reflexivity. Qed.
Lemma alt_right {A} (p q : parser A) s R : p s = PErr -> q s = R -> alt p q s = R.
Proof. intros H E. unfold alt. rewrite H. exact E. Qed.
Lemma opt_some {A} (p : parser A) s a r : p s = POk a r -> opt p s = POk (Some a) r.
Proof. intros H. unfold opt. rewrite H. reflexivity. Qed.
Lemma opt_none {A} (p : parser A) s : p s = PErr -> opt p s = POk None s.
Proof. intros H. unfold opt. rewrite H. reflexivity. Qed.

Inductive manys {A} (p : parser A) : list A -> string -> string -> Prop :=
| manys_nil s : manys p [] s s
| manys_cons a l s r k : p s = POk a r -> slen r < slen s -> manys p l r k -> manys p (a :: l) s k.
Lemma manys_app {A} (p : parser A) l s r : manys p l s r -> forall m k, manys p m r k -> manys p (l ++ m)%list s k.
Proof. induction 1; intros m k' H'; [exact H'|]. cbn. econstructor; eauto. Qed.
Lemma many0_ok_ {A} (p : parser A) l s k : manys p l s k -> p k = PErr -> forall n, slen s < n -> many0_ n p s = POk l k.
Proof.
  induction 1 as [s|a l s r k H1 H2 H3 IH]; intros Hk n Hn; (destruct n as [|n]; [lia|]); cbn [many0_].
  - rewrite Hk. reflexivity.
  - rewrite H1. destruct (Nat.eqb_spec (slen r) (slen s)); [lia|]. rewrite (IH Hk n); [reflexivity|lia].
Qed.
Lemma many0_ok {A} (p : parser A) l s k : manys p l s k -> p k = PErr -> many0 p s = POk l k.
Proof. intros H Hk. unfold many0. eapply many0_ok_; eauto. Qed.
Lemma many1_ok {A} (p : parser A) a l s k : manys p (a :: l) s k -> p k = PErr -> many1 p s = POk (a :: l) k.
Proof.
  intros H Hk. inversion H as [|a' l' s' r k' H1 H2 H3]; subst. unfold many1. rewrite H1. cbn [pbind]. rewrite (many0_ok _ _ _ _ H3 Hk). reflexivity.
Qed.

Inductive seps {A} (sep : parser unit) (p : parser A) : list A -> string -> string -> Prop :=
| seps_nil s : seps sep p [] s s
| seps_cons a l s s1 r k : sep s = POk tt s1 -> p s1 = POk a r -> slen r < slen s -> seps sep p l r k -> seps sep p (a :: l) s k.
Definition sep_end {A} (sep : parser unit) (p : parser A) (k : string) : Prop :=
  sep k = PErr \/ exists k1, sep k = POk tt k1 /\ p k1 = PErr.
Lemma seps_app {A} sep (p : parser A) l s r : seps sep p l s r -> forall m k, seps sep p m r k -> seps sep p (l ++ m)%list s k.
Proof. induction 1; intros m k' H'; [exact H'|]. cbn. econstructor; eauto. Qed.
Lemma separated_ok {A} sep (p : parser A) l s k : seps sep p l s k -> sep_end sep p k -> forall n, slen s < n -> separated_ n sep p s = POk l k.
Proof.
  induction 1 as [s|a l s s1 r k H0 H1 H2 H3 IH]; intros Hk n Hn; (destruct n as [|n]; [lia|]); cbn [separated_].
  - destruct Hk as [->|(k1 & -> & ->)]; reflexivity.
  - rewrite H0, H1. destruct (Nat.eqb_spec (slen r) (slen s)); [lia|]. rewrite (IH Hk n); [reflexivity|lia].
Qed.
Lemma separated1_ok {A} sep (p : parser A) a l s r k : p s = POk a r -> seps sep p l r k -> sep_end sep p k -> separated_list1 sep p s = POk (a :: l) k.
Proof. intros H1 H2 H3. unfold separated_list1. rewrite H1. cbn [pbind]. rewrite (separated_ok _ _ _ _ _ H2 H3); [reflexivity|lia]. Qed.
Lemma separated0_ok {A} sep (p : parser A) a l s r k : p s = POk a r -> seps sep p l r k -> sep_end sep p k -> separated_list0 sep p s = POk (a :: l) k.
Proof. intros H1 H2 H3. unfold separated_list0. rewrite H1. cbn [pbind]. rewrite (separated_ok _ _ _ _ _ H2 H3); [reflexivity|lia]. Qed.
(** The end of a list with an optional separator after its last element *)
Definition list_end {A} (sep : parser unit) (p : parser A) (k k' : string) : Prop :=
  (sep k = PErr /\ k' = k) \/ (sep k = POk tt k' /\ p k' = PErr).
Lemma list_end_sep {A} sep (p : parser A) k k' : list_end sep p k k' -> sep_end sep p k.
Proof. intros [[H _]|[H1 H2]]; [left; exact H|right; exists k'; auto]. Qed.
Lemma terminated1_ok {A} sep (p : parser A) a l s r k k' : p s = POk a r -> seps sep p l r k -> list_end sep p k k' -> terminated_list1 sep p s = POk (a :: l) k'.
Proof.
  intros H1 H2 H3. unfold terminated_list1. rewrite (separated1_ok _ _ _ _ _ _ _ H1 H2 (list_end_sep _ _ _ _ H3)). cbn [pbind]. unfold opt.
  destruct H3 as [[-> ->]|[-> _]]; reflexivity.
Qed.
Lemma terminated0_ok {A} sep (p : parser A) a l s r k k' : p s = POk a r -> seps sep p l r k -> list_end sep p k k' -> terminated_list0 sep p s = POk (a :: l) k'.
Proof.
  intros H1 H2 H3. unfold terminated_list0. rewrite (separated0_ok _ _ _ _ _ _ _ H1 H2 (list_end_sep _ _ _ _ H3)). cbn [pbind]. unfold opt.
  destruct H3 as [[-> ->]|[-> _]]; reflexivity.
Qed.
Lemma terminated0_nil {A} sep (p : parser A) s : p s = PErr -> terminated_list0 sep p s = POk [] s.
Proof. intros H. unfold terminated_list0, separated_list0. rewrite H. reflexivity. Qed.

(** *** Tokens *)
Lemma tag_ok t k : tag t (t ++ k) = POk tt k.
Proof. induction t as [|c t IH]; cbn; [reflexivity|]. rewrite Ascii.eqb_refl. exact IH. Qed.
Lemma tag_err f c t s : starts f s -> f c = false -> tag (String c t) s = PErr.
Proof. intros (d & r & -> & H) E. cbn. destruct (Ascii.eqb_spec c d) as [->|]; [congruence|reflexivity]. Qed.
Lemma span_ok f a k : all_chars f a = true -> not_next f k = true -> span f (a ++ k) = (a, k).
Proof.
  induction a as [|c a IH]; cbn [append all_chars]; intros H N.
  - destruct k as [|c k]; [reflexivity|]. cbn in *. destruct (f c); [discriminate|reflexivity].
  - apply andb_true_iff in H. destruct H as [H1 H2]. cbn. rewrite H1, (IH H2 N). reflexivity.
Qed.

Lemma sign_ok t x k : skip x = t ++ k -> (has_operator_character t = true -> not_next (Ascii.eqb "=") k = true) -> sign t x = POk tt k.
Proof.
  intros E H. unfold sign. rewrite E, tag_ok. cbn. destruct (has_operator_character t); [rewrite H by reflexivity|]; reflexivity.
Qed.
Lemma sign_err f c t x : starts f (skip x) -> f c = false -> sign (String c t) x = PErr.
Proof. intros S E. unfold sign. rewrite (tag_err f c t _ S E). reflexivity. Qed.
Lemma sign_err_end c t x : skip x = "" -> sign (String c t) x = PErr.
Proof. intros E. unfold sign. rewrite E. reflexivity. Qed.
Lemma keyword_ok t x k : skip x = t ++ k -> not_next is_word k = true -> keyword t x = POk tt k.
Proof. intros E H. unfold keyword. rewrite E, tag_ok. cbn. rewrite H. reflexivity. Qed.
Lemma keyword_err f c t x : starts f (skip x) -> f c = false -> keyword (String c t) x = PErr.
Proof. intros S E. unfold keyword. rewrite (tag_err f c t _ S E). reflexivity. Qed.

Lemma name_starts x : name x -> starts word_start x.
Proof.
  intros ((c & s & -> & H) & _). exists c, s. split; [reflexivity|]. unfold word_start. destruct H as [H|H]; rewrite H; [reflexivity|apply orb_true_r].
Qed.
Lemma is_keyword_In x : is_keyword x = true <-> In x keywords.
Proof.
  unfold is_keyword. rewrite existsb_exists. split.
  - intros (y & H & E). apply String.eqb_eq in E. subst. exact H.
  - intros H. exists x. split; [exact H|apply String.eqb_refl].
Qed.
Lemma unchecked_ok x k : starts word_start x -> all_chars is_word x = true -> not_next is_word k = true -> unchecked_identifier (x ++ k) = POk x k.
Proof.
  intros (c & s & -> & H) W N. unfold unchecked_identifier. cbn [append]. unfold word_start in H. rewrite H.
  change (String c (s ++ k)) with (String c s ++ k). rewrite (span_ok _ _ _ W N). reflexivity.
Qed.
Lemma raw_ok x k : name x -> not_next is_word k = true -> raw_identifier (x ++ k) = POk x k.
Proof.
  intros H N. pose proof (name_starts x H) as S. destruct H as (_ & W & K). unfold raw_identifier. rewrite (unchecked_ok x k S W N). cbn [pbind].
  destruct (is_keyword x) eqn:E; [|reflexivity]. apply is_keyword_In in E. contradiction.
Qed.
Lemma identifier_ok a x k : skip x = a ++ k -> name a -> not_next is_word k = true -> identifier x = POk a k.
Proof. intros E H N. unfold identifier. rewrite E. apply raw_ok; assumption. Qed.
Lemma keyword_word w : In w keywords -> starts word_start w /\ all_chars is_word w = true.
Proof. intros H. repeat (destruct H as [H|H]; [subst w; split; [eexists _, _; split; reflexivity|reflexivity]|]). destruct H. Qed.
(** A keyword is no identifier. *)
Lemma identifier_keyword w x k : skip x = w ++ k -> In w keywords -> not_next is_word k = true -> identifier x = PErr.
Proof.
  intros E H N. destruct (keyword_word w H) as [S W]. unfold identifier, raw_identifier. rewrite E, (unchecked_ok w k S W N). cbn [pbind].
  rewrite (proj2 (is_keyword_In w) H). reflexivity.
Qed.
Lemma qualified_keyword w x k : skip x = w ++ k -> In w keywords -> not_next is_word k = true -> qualified_identifier (skip x) = PErr.
Proof.
  intros E H N. pose proof (identifier_keyword w x k E H N) as X. unfold identifier in X. unfold qualified_identifier. rewrite X. reflexivity.
Qed.
Lemma word_start_not f c : f c = false -> (forall d, word_start d = true -> f d = true) -> word_start c = false.
Proof. intros H E. destruct (word_start c) eqn:X; [rewrite (E c X) in H; discriminate|reflexivity]. Qed.
Lemma unchecked_err f s : starts f s -> (forall c, f c = true -> word_start c = false) -> unchecked_identifier s = PErr.
Proof. intros (c & r & -> & H) E. unfold unchecked_identifier. specialize (E c H). unfold word_start in E. rewrite E. reflexivity. Qed.
Lemma raw_err f s : starts f s -> (forall c, f c = true -> word_start c = false) -> raw_identifier s = PErr.
Proof. intros S E. unfold raw_identifier. rewrite (unchecked_err f s S E). reflexivity. Qed.
Lemma identifier_err f x : starts f (skip x) -> (forall c, f c = true -> word_start c = false) -> identifier x = PErr.
Proof. intros S E. apply (raw_err f); assumption. Qed.

(** Two words that are not followed by more of them *)
Lemma tag_words w : forall x k r, all_chars is_word w = true -> all_chars is_word x = true -> not_next is_word k = true ->
  tag w (x ++ k) = POk tt r -> not_next is_word r = true -> w = x.
Proof.
  induction w as [|c w IH]; intros x k r Hw Hx Hk E Hr.
  - cbn in E. injection E as <-. destruct x as [|d x]; [reflexivity|]. cbn in Hx, Hr. apply andb_true_iff in Hx. destruct Hx as [Hd _]. rewrite Hd in Hr. discriminate.
  - cbn in Hw. apply andb_true_iff in Hw. destruct Hw as [Hc Hw]. destruct x as [|d x].
    + cbn [append] in E. destruct k as [|d k]; [discriminate|]. cbn in E, Hk. destruct (Ascii.eqb_spec c d) as [->|]; [|discriminate]. rewrite Hc in Hk. discriminate.
    + cbn in E, Hx. apply andb_true_iff in Hx. destruct Hx as [Hd Hx]. destruct (Ascii.eqb_spec c d) as [->|]; [|discriminate]. f_equal. exact (IH x k r Hw Hx Hk E Hr).
Qed.
(** A name, or another keyword, is no keyword. *)
Lemma keyword_other w a x k : In w keywords -> skip x = a ++ k -> all_chars is_word a = true -> not_next is_word k = true -> a <> w -> keyword w x = PErr.
Proof.
  intros H E W N D. destruct (keyword_word w H) as [_ Ww]. unfold keyword. rewrite E. destruct (tag w (a ++ k)) as [[] r| |] eqn:T; cbn; try reflexivity.
  - destruct (not_next is_word r) eqn:R; [|reflexivity]. exfalso. apply D. symmetry. exact (tag_words w a k r Ww W N T R).
  - exfalso. clear -T. revert T. generalize (a ++ k). induction w as [|c w IH]; intros s; cbn; [discriminate|]. destruct s as [|d s]; [discriminate|]. destruct (Ascii.eqb c d); [apply IH|discriminate].
Qed.
Lemma keyword_name w a x k : In w keywords -> skip x = a ++ k -> name a -> not_next is_word k = true -> keyword w x = PErr.
Proof. intros H E (_ & W & K) N. eapply keyword_other; eauto. intros ->. contradiction. Qed.

Definition part (c : ascii) : bool := is_word c || Ascii.eqb c "'".
Lemma part_word k : not_next part k = true -> not_next is_word k = true.
Proof. destruct k as [|c k]; [reflexivity|]. cbn. unfold part. rewrite !negb_true_iff, orb_false_iff. tauto. Qed.
Lemma part_separator k : not_next part k = true -> tag "'" k = PErr.
Proof.
  destruct k as [|c k]; [reflexivity|]. cbn [not_next]. unfold part. rewrite negb_true_iff, orb_false_iff. intros [_ H].
  cbn [tag]. rewrite Ascii.eqb_sym, H. reflexivity.
Qed.
Lemma qualified_ok a k : qualified_name a -> not_next part k = true -> qualified_identifier (a ++ k) = POk a k.
Proof.
  intros H N. unfold qualified_identifier. destruct H as [H|(a1 & a2 & -> & H1 & H2)].
  - rewrite (raw_ok a k H (part_word k N)). cbn [pbind]. rewrite (part_separator k N). reflexivity.
  - rewrite sapp_assoc. cbn [append]. rewrite raw_ok; [|exact H1|reflexivity]. cbn [pbind tag]. rewrite Ascii.eqb_refl. rewrite (raw_ok a2 k H2 (part_word k N)). reflexivity.
Qed.
Lemma qualified_starts x : qualified_name x -> starts word_start x.
Proof. intros [H|(a & b & -> & H & _)]; [apply name_starts; exact H|]. apply starts_app. apply name_starts. exact H. Qed.
(** A qualified name begins with a name. *)
Lemma qualified_head x : qualified_name x -> exists a b, x = a ++ b /\ name a /\ forall k, not_next part k = true -> not_next is_word (b ++ k) = true.
Proof.
  intros [H|(a & b & -> & H & _)].
  - exists x, "". rewrite sapp_nil. repeat split; [apply H..|]. apply part_word.
  - exists a, ("'" ++ b). split; [reflexivity|]. split; [exact H|]. reflexivity.
Qed.
Lemma keyword_qualified w a x k : In w keywords -> skip x = a ++ k -> qualified_name a -> not_next part k = true -> keyword w x = PErr.
Proof.
  intros H E Q N. destruct (qualified_head a Q) as (a1 & a2 & -> & Na & Nk). rewrite sapp_assoc in E. eapply keyword_name; eauto.
Qed.

(** *** Documents *)
Lemma renders_app d e s : renders (d ++ e)%list s <-> exists a b, s = a ++ b /\ renders d a /\ renders e b.
Proof.
  split.
  - intros H. remember (d ++ e)%list as de eqn:E. revert d E.
    induction H as [|t f s H IH|b f s Hb Hn H IH|b f s Hb H IH|m f s H IH|m f s H IH]; intros d E.
    + destruct d; [|discriminate]. cbn in E. subst. exists "", "". repeat split; constructor.
    + destruct d as [|p d]; [cbn in E; subst; exists "", (t ++ s); repeat split; repeat constructor; assumption|].
      injection E as <- ->. destruct (IH d eq_refl) as (a & b & -> & Ha & Hb). exists (t ++ a), b. rewrite sapp_assoc. repeat split; [constructor; exact Ha|exact Hb].
    + destruct d as [|p d]; [cbn in E; subst; exists "", (b ++ s); repeat split; repeat constructor; assumption|].
      injection E as <- ->. destruct (IH d eq_refl) as (a & b' & -> & Ha & Hb'). exists (b ++ a), b'. rewrite sapp_assoc. repeat split; [constructor; assumption|exact Hb'].
    + destruct d as [|p d]; [cbn in E; subst; exists "", (b ++ s); repeat split; repeat constructor; assumption|].
      injection E as <- ->. destruct (IH d eq_refl) as (a & b' & -> & Ha & Hb'). exists (b ++ a), b'. rewrite sapp_assoc. repeat split; [constructor; assumption|exact Hb'].
    + destruct d as [|p d]; [cbn in E; subst; exists "", s; repeat split; [constructor|apply renders_flat; assumption]|].
      injection E as <- ->. destruct (IH d eq_refl) as (a & b' & -> & Ha & Hb'). exists a, b'. repeat split; [apply renders_flat; assumption|exact Hb'].
    + destruct d as [|p d]; [cbn in E; subst; exists "", s; repeat split; [constructor|apply renders_broken; assumption]|].
      injection E as <- ->. destruct (IH (m ++ d)%list (app_assoc _ _ _)) as (a & b' & -> & Ha & Hb'). exists a, b'. repeat split; [apply renders_broken; assumption|exact Hb'].
  - intros (a & b & -> & Ha & Hb). induction Ha as [|t f s H IH|b' f s Hb' Hn H IH|b' f s Hb' H IH|m f s H IH|m f s H IH]; cbn [app append]; rewrite ?sapp_assoc.
    + exact Hb.
    + constructor. exact IH.
    + constructor; assumption.
    + constructor; assumption.
    + apply renders_flat. exact IH.
    + apply renders_broken. rewrite app_assoc. exact IH.
Qed.
Lemma renders_nil_inv s : renders [] s -> s = "".
Proof. intros H. inversion H. reflexivity. Qed.
Lemma renders_text_inv t d s : renders (Text t :: d) s -> exists r, s = t ++ r /\ renders d r.
Proof. intros H. inversion H; subst. eauto. Qed.
Lemma renders_line_inv d s : renders (Line :: d) s -> exists b r, s = b ++ r /\ blank b /\ b <> "" /\ renders d r.
Proof. intros H. inversion H; subst. eauto 6. Qed.
Lemma renders_gap_inv d s : renders (Gap :: d) s -> exists b r, s = b ++ r /\ blank b /\ renders d r.
Proof. intros H. inversion H; subst. eauto 6. Qed.
Lemma renders_maybe_inv m d s : renders (Maybe m :: d) s -> renders d s \/ renders (m ++ d)%list s.
Proof. intros H. inversion H; subst; auto. Qed.
