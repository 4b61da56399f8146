From Coq Require Import String Ascii List Bool Arith Lia.
From Verif Require Import Syntax SyntaxSpec Ast Parser Printer ParserSpec ParserToken ParserList ParserType ParserLiteral ParserOpening.
Import ListNotations.
Local Open Scope string_scope.

Lemma blank_app a b : blank a -> blank b -> blank (a ++ b).
Proof.
  intros A B. induction A as [|c s Hc A IH|t c s Ht Hc A IH]; cbn [append].
  - exact B.
  - constructor; assumption.
  - rewrite sapp_assoc. cbn [append]. apply blank_comment; assumption.
Qed.
Lemma sapp_not_nil a b : a <> "" -> a ++ b <> "".
Proof. destruct a; [congruence|discriminate]. Qed.

(** *** Three points are no expression. *)
Lemma float_points t k : float_text t -> tag "..." (t ++ k) = PErr.
Proof.
  intros [s m e Hs Hm He]. rewrite !sapp_assoc. destruct Hs as [S|[S|S]]; subst; try reflexivity. cbn [append]. destruct Hm as [d Hd|d f Hd _|f Hf].
  - destruct (digits_starts _ _ Hd) as (c & r & -> & H). cbn [append tag]. destruct (Ascii.eqb_spec "." c) as [<-|]; [discriminate|reflexivity].
  - destruct (digits_starts _ _ Hd) as (c & r & -> & H). cbn [append tag]. destruct (Ascii.eqb_spec "." c) as [<-|]; [discriminate|reflexivity].
  - destruct (digits_starts _ _ Hf) as (c & r & -> & H). cbn [append tag]. rewrite Ascii.eqb_refl. destruct (Ascii.eqb_spec "." c) as [<-|]; [discriminate|reflexivity].
Qed.
Lemma expr_points e s k : faithful e -> renders (expression_document e) s -> sign "..." (s ++ k) = PErr.
Proof.
  intros F R. pose proof (expr_starts e s F R) as S0.
  assert (E : skip (s ++ k) = s ++ k) by (apply skip_app; eapply starts_weaken; [apply expr_start_solid|exact S0]).
  pose proof (leading_app e s k (expr_leading e s F R)) as L. unfold leading in L.
  assert (G : forall f, f "."%char = false -> starts f (s ++ k) -> sign "..." (s ++ k) = PErr) by (intros f Hf S; apply (sign_err f); [rewrite E; exact S|exact Hf]).
  destruct (leftmost e) as [[]|] eqn:Le; try (eapply G; [|exact L]; reflexivity).
  - destruct n as [d|d|t]; try (eapply G; [|exact L]; reflexivity). destruct L as (r & L). unfold sign. rewrite E, L, float_points; [reflexivity|].
    clear -Le F. revert Le F. induction e; cbn [leftmost]; intros Le F; try discriminate.
    + destruct F as (_ & Fl & _). destruct (tight o e1); [apply IHe1; assumption|discriminate].
    + destruct F as (_ & Ff & _). apply IHe; assumption.
    + injection Le as ->. exact F.
    + destruct F as (_ & Ff & _). apply IHe; assumption.
    + destruct F as (_ & Ff). apply IHe; [|exact Ff]. destruct e; try exact Le. discriminate.
  - destruct L as (r & -> & _). reflexivity.
Qed.

Definition no_expression (x : string) : Prop := starts (fun c => negb (expr_start c)) (skip x) \/ exists r, skip x = "..." ++ r.

(** *** Blocks *)
Definition tail_document (l : list (option string * aexpr)) (e : aexpr) : document :=
  (flat_map (fun st => match st with (x, e) => statement_document expression_document (x, e) end) l ++ Gap :: expression_document e ++ [Line; Text "}"])%list.
Lemma tail_cons x e1 l e : tail_document ((x, e1) :: l) e =
  ((Gap :: match x with Some x => [Text x; Text " = "] | None => [] end ++ expression_document e1 ++ [Line; Gap]) ++ tail_document l e)%list.
Proof. unfold tail_document. cbn [flat_map]. rewrite <- app_assoc. reflexivity. Qed.
Definition statements_faithful (l : list (option string * aexpr)) : Prop := every (fun st => match st with (x, e) => maybe name x /\ faithful e end) l.
Definition head_statement (l : list (option string * aexpr)) (e : aexpr) : option string * aexpr := match l with [] => (None, e) | st :: _ => st end.

Definition header (l : list (option string * aexpr)) (e : aexpr) (y : string) : Prop :=
  starts expr_start y /\ sign "..." y = PErr /\
  (identifier y = PErr \/ exists a r, identifier y = POk a r /\ sign ":" r = PErr) /\
  (forall e0, apart e0 (head_statement l e) -> settled y /\ (ends_variable e0 -> sign "{" y = PErr)).

Lemma after_blank f b y : blank b -> b <> "" -> starts f (skip y) -> f ":"%char = false -> f "="%char = false -> after (b ++ y).
Proof.
  intros B N S H1 H2. split; [apply blank_part; assumption|]. pose proof (skip_blank b y B) as E.
  split; (apply (sign_err f); [rewrite E; exact S|assumption]).
Qed.
Lemma header_expression e s k l e' : head_statement l e' = (None, e) -> faithful e -> renders (expression_document e) s -> after k -> header l e' (s ++ k).
Proof.
  intros H F R K. split; [apply starts_app; eapply expr_starts; eauto|]. split; [eapply expr_points; eauto|]. split.
  - destruct (opens_identifier _ (expr_opens e s k F R K)) as [O|(a & r & O1 & O2 & _)]; [left; exact O|right; exists a, r; auto].
  - intros e0. rewrite H. intros A. eapply next_expression; eauto.
Qed.

Lemma tail_header l e : forall s k, statements_faithful l -> faithful e -> renders (tail_document l e) s -> header l e (skip (s ++ k)).
Proof.
  induction l as [|[x e1] l IH]; intros s k Fl Fe R.
  - unfold tail_document in R; cbn [flat_map app] in R. rinv. norm. rewrite skip_blank by assumption.
    match goal with H : renders (expression_document e) ?u |- _ => rename u into t2 end.
    assert (S : starts expr_start t2) by (eapply expr_starts; [|eassumption]; assumption).
    rewrite skip_app by (eapply starts_weaken; [apply expr_start_solid|exact S]).
    apply (header_expression e); auto. eapply (after_blank (Ascii.eqb "}")); auto. startc.
  - destruct Fl as [[Fx F1] Fl]. rewrite tail_cons in R.
    apply renders_app in R. destruct R as (s1 & s2 & -> & R1 & R2). specialize (IH s2 k Fl Fe R2).
    apply renders_gap_inv in R1. destruct R1 as (g & s1' & -> & G & R1). rewrite !sapp_assoc, skip_blank by exact G.
    destruct IH as (I1 & _).
    destruct x as [x|]; cbn [app] in R1; rinv; norm.
    + cbn in Fx. pose proof (name_starts x Fx) as S.
      match goal with |- header _ _ (skip (x ++ ?k0)) => set (K := k0) end.
      assert (E : skip (x ++ K) = x ++ K) by (apply skip_app; eapply starts_weaken; [apply word_start_solid|exact S]). rewrite E.
      assert (S' : starts word_start (skip (x ++ K))) by (rewrite E; apply starts_app; exact S).
      split; [rewrite <- E; eapply starts_weaken; [intros c Hc; apply calm_expr_start, word_calm_start, Hc|exact S']|].
      split; [apply (sign_err _ _ _ _ S'); reflexivity|]. split.
      * right. exists x, K. split; [apply (identifier_ok x _ K); [exact E|exact Fx|reflexivity]|reflexivity].
      * intros e0 _. split; [apply settled_name; [exact Fx|reflexivity]|]. intros _. apply (sign_err _ _ _ _ S'). reflexivity.
    + match goal with H : renders (expression_document e1) ?u |- _ => rename u into t2 end.
      assert (S : starts expr_start t2) by (eapply expr_starts; [|eassumption]; assumption).
      rewrite skip_app by (eapply starts_weaken; [apply expr_start_solid|exact S]).
      apply (header_expression e1); auto.
      match goal with |- after (?b1 ++ ?b2 ++ ?r) => rewrite <- (sapp_assoc b1 b2 r) end.
      apply (after_blank expr_start); [apply blank_app; assumption|apply sapp_not_nil; assumption|exact I1|reflexivity|reflexivity].
Qed.

Lemma block_brace b s k x : faithful_block faithful b -> renders (block_document expression_document b) s -> skip x = skip (s ++ k) -> brace_safe x.
Proof.
  destruct b as [l e]. intros (Fl & Fe & _) R E. cbn [block_document] in R. apply renders_text_inv in R. destruct R as (s1 & -> & R).
  apply renders_line_inv in R. destruct R as (b & s2 & -> & B & N & R). fold (tail_document l e) in R.
  destruct (tail_header l e s2 k Fl Fe R) as (H1 & H2 & H3 & _).
  assert (Ek : skip (skip (s2 ++ k)) = skip ((b ++ s2) ++ k)) by (rewrite skip_idem, sapp_assoc, (skip_blank b) by exact B; reflexivity).
  right. exists ((b ++ s2) ++ k). split; [apply sign_ok; [rewrite E; reflexivity|discriminate]|].
  rewrite <- !(sign_skip _ _ _ Ek), <- (identifier_skip _ _ Ek). split; [exact H2|]. split; [|exact H3].
  apply (sign_err expr_start); [rewrite skip_idem; exact H1|reflexivity].
Qed.

Section Block.
  Variables (P : parser aexpr) (n : nat).
  Hypothesis HP : forall e s k x, slen s < n -> faithful e -> renders (expression_document e) s -> calm k -> (ends_variable e -> brace_safe k) -> skip x = skip (s ++ k) -> P x = POk e k.
  Hypothesis HE : forall x, no_expression x -> P x = PErr.

  Lemma statements_ok l e : forall s k y, slen s < n -> statements_faithful l -> faithful e -> chained l e -> renders (tail_document l e) s -> skip y = skip (s ++ k) ->
    exists r, manys (statement P) (l ++ [(None, e)])%list y r /\ skip r = String "}" k.
  Proof.
    induction l as [|[x e1] l IH]; intros s k y L Fl Fe C R E.
    - unfold tail_document in R; cbn [flat_map app] in R. rinv. norm. rewrite skip_blank in E by assumption.
      match goal with H : renders (expression_document e) ?u |- _ => rename u into t2 end.
      match goal with H : skip y = skip (t2 ++ ?b0 ++ _) |- _ => rename b0 into b2 end.
      assert (S : starts expr_start t2) by (eapply expr_starts; [|eassumption]; assumption). rewrite skip_app in E by (eapply starts_weaken; [apply expr_start_solid|exact S]).
      exists (b2 ++ String "}" k). split; [|rewrite skip_blank by assumption; reflexivity].
      assert (O : opens (t2 ++ b2 ++ String "}" k)).
      { apply (expr_opens e); auto. apply (after_blank (Ascii.eqb "}")); auto. startc. }
      econstructor; [| |constructor].
      + unfold statement. apply pbind_ok with (a := None) (s := y).
        * apply opt_none. rewrite <- (opens_solid _ O) in E. rewrite (identifier_skip _ _ E).
          destruct (opens_identifier _ O) as [O1|(a & r & O1 & _ & O2)]; rewrite O1; [reflexivity|]. cbn [pbind]. rewrite O2. reflexivity.
        * apply pbind_ok with (a := e) (s := b2 ++ String "}" k); [|reflexivity]. apply (HP e t2); auto.
          -- lens. lia.
          -- apply good_blank; auto.
          -- intros _. apply good_blank; auto.
          -- rewrite E, (opens_solid _ O). reflexivity.
      + pose proof (skip_shorter y) as Y. rewrite E in Y. apply starts_len in S. lens. lia.
    - destruct Fl as [[Fx F1] Fl]. destruct C as [C1 C]. rewrite tail_cons in R.
      apply renders_app in R. destruct R as (s1 & s2 & -> & R1 & R2).
      pose proof (tail_header l e s2 k Fl Fe R2) as (I1 & _ & _ & I2). specialize (I2 e1 C1). destruct I2 as [I2 I3].
      apply renders_gap_inv in R1. destruct R1 as (g & s1' & -> & G & R1). rewrite !sapp_assoc, skip_blank in E by exact G.
      apply renders_app in R1. destruct R1 as (sx & s1 & -> & Rx & R1). rinv. norm.
      match goal with H : renders (expression_document e1) ?u |- _ => rename u into t2 end.
      match goal with H : skip y = skip (sx ++ t2 ++ ?u ++ ?v ++ _) |- _ => rename u into b1; rename v into b2 end.
      assert (S : starts expr_start t2) by (eapply expr_starts; [|eassumption]; assumption).
      assert (S' : skip (t2 ++ b1 ++ b2 ++ s2 ++ k) = t2 ++ b1 ++ b2 ++ s2 ++ k) by (apply skip_app; eapply starts_weaken; [apply expr_start_solid|exact S]).
      destruct (IH s2 k (b1 ++ b2 ++ s2 ++ k)) as (r & M & Er); auto.
      { lens. lia. }
      { rewrite !skip_blank by assumption. reflexivity. }
      exists r. split; [|exact Er]. cbn [app].
      assert (Cm : calm (b1 ++ b2 ++ s2 ++ k) /\ (ends_variable e1 -> brace_safe (b1 ++ b2 ++ s2 ++ k))).
      { rewrite <- (sapp_assoc b1). assert (Bb : blank (b1 ++ b2)) by (apply blank_app; assumption). assert (Nb : b1 ++ b2 <> "") by (apply sapp_not_nil; assumption). split.
        - apply calm_blank; auto. unfold settled in *. rewrite <- !(sign_skip _ _ _ (skip_idem (s2 ++ k))), <- (keyword_skip _ _ _ (skip_idem (s2 ++ k))), <- (binary_skip _ _ (skip_idem (s2 ++ k))). exact I2.
        - intros V. left. rewrite (sign_skip _ _ (skip (s2 ++ k))); [exact (I3 V)|]. rewrite skip_blank by exact Bb. symmetry. apply skip_idem. }
      assert (Pe : forall z, skip z = t2 ++ b1 ++ b2 ++ s2 ++ k -> P z = POk e1 (b1 ++ b2 ++ s2 ++ k)).
      { intros z Ez. apply (HP e1 t2); auto; try (apply Cm). - lens. lia. - rewrite Ez, S'. reflexivity. }
      econstructor; [| |exact M].
      + unfold statement. destruct x as [x|]; rinv; norm.
        * cbn in Fx. pose proof (name_starts x Fx) as Sx. rewrite skip_app in E by (eapply starts_weaken; [apply word_start_solid|exact Sx]).
          apply pbind_ok with (a := Some x) (s := String " " (t2 ++ b1 ++ b2 ++ s2 ++ k)).
          -- apply opt_some. eapply pbind_ok; [eapply identifier_ok; [exact E|exact Fx|reflexivity]|]. eapply pbind_ok; [apply (sign_ok "="); [reflexivity|intros _; reflexivity]|]. reflexivity.
          -- apply pbind_ok with (a := e1) (s := b1 ++ b2 ++ s2 ++ k); [|reflexivity]. apply Pe. rewrite skip_space. exact S'.
        * assert (O : opens (t2 ++ b1 ++ b2 ++ s2 ++ k)).
          { apply (expr_opens e1); auto. rewrite <- (sapp_assoc b1). apply (after_blank expr_start); [apply blank_app; assumption|apply sapp_not_nil; assumption|exact I1|reflexivity|reflexivity]. }
          apply pbind_ok with (a := None) (s := y).
          -- apply opt_none. rewrite (identifier_skip _ _ E).
             destruct (opens_identifier _ O) as [O1|(a & r' & O1 & _ & O2)]; rewrite O1; [reflexivity|]. cbn [pbind]. rewrite O2. reflexivity.
          -- apply pbind_ok with (a := e1) (s := b1 ++ b2 ++ s2 ++ k); [|reflexivity]. apply Pe. rewrite E. exact S'.
      + pose proof (skip_shorter y) as Y. rewrite E in Y. apply starts_len in S. destruct x as [x|]; rinv; norm.
        * rewrite skip_app in Y by (eapply starts_weaken; [apply word_start_solid|apply name_starts; exact Fx]). lens. lia.
        * rewrite S' in Y. lens. lia.
  Qed.

  Lemma block_ok b s k x : slen s <= n -> faithful_block faithful b -> renders (block_document expression_document b) s -> skip x = skip (s ++ k) -> block P x = POk b k.
  Proof.
    destruct b as [l e]. intros L (Fl & Fe & C) R E. cbn [block_document] in R. apply renders_text_inv in R. destruct R as (s1 & -> & R).
    apply renders_line_inv in R. destruct R as (b & s2 & -> & B & N & R). fold (tail_document l e) in R. norm. lens.
    destruct (statements_ok l e s2 k (b ++ s2 ++ k)) as (r & M & Er); auto.
    { lens. lia. }
    { apply skip_blank. exact B. }
    unfold block. eapply pbind_ok; [apply (sign_ok "{"); [exact E|discriminate]|]. apply cut_ok.
    assert (Sr : starts (Ascii.eqb "}") (skip r)) by (rewrite Er; startc).
    apply pbind_ok with (a := (l ++ [(None, e)])%list) (s := r).
    - destruct l as [|st l]; (apply many1_ok; [exact M|]); (unfold statement; eapply pbind_ok;
        [apply opt_none; rewrite (identifier_err _ _ Sr); [reflexivity|intros c Hc; apply Ascii.eqb_eq in Hc; subst; reflexivity]|]; rewrite HE; [reflexivity|];
        left; eapply starts_weaken; [|exact Sr]; intros c Hc; apply Ascii.eqb_eq in Hc; subst; reflexivity).
    - rewrite rev_app_distr. cbn [rev app]. eapply pbind_ok; [apply (sign_ok "}"); [exact Er|discriminate]|]. rewrite rev_involutive. reflexivity.
  Qed.

  (** *** Functions *)
  Lemma argument_ok a : every (fun p => name (fst p) /\ faithful_type (snd p)) a -> forall m,
    element_ok argument (fun p : string * aty => Text (fst p) :: Text " " :: type_document (snd p)) stop_type a m.
  Proof.
    intros F m [z t] s r x I R _ K E. pose proof (every_In _ _ _ F I) as [Fx Ft]. cbn [fst snd] in *. rinv. norm.
    rewrite skip_app in E by (eapply starts_weaken; [apply word_start_solid|apply name_starts; exact Fx]).
    unfold argument. eapply pbind_ok; [eapply identifier_ok; [exact E|exact Fx|reflexivity]|]. eapply pbind_ok; [|reflexivity]. apply cut_ok.
    eapply type_ok; eauto.
  Qed.
  Lemma lambda_ok a r b s k x : slen s <= n -> faithful_lambda (ALambda a r b) -> renders (signature_document a r ++ Text " " :: block_document expression_document b)%list s ->
    skip x = skip (s ++ k) -> lambda P x = POk (ALambda a r b) k.
  Proof.
    intros L (Fa & Fr & Fb) R E. cbn [la_arguments la_result la_body] in *. unfold signature_document in R. cbn [app] in R. rinv. norm.
    match goal with H : renders (type_document r) ?u |- _ => rename u into t2 end.
    match goal with H : renders (list_document _) ?u |- _ => rename u into t1 end.
    match goal with H : renders (block_document _ b) ?u |- _ => rename u into t3 end.
    unfold lambda. eapply pbind_ok; [apply (sign_ok "\("); [exact E|discriminate]|]. apply cut_ok.
    set (K := String ")" (String " " (t2 ++ String " " (t3 ++ k)))) in *.
    assert (SK : starts (Ascii.eqb ")") (skip K)) by startc.
    destruct (list_ok argument (fun p : string * aty => Text (fst p) :: Text " " :: type_document (snd p)) stop_type a t1 K (t1 ++ K)) as (k' & Ek & T & _); auto using stop_type_comma.
    { split; reflexivity. }
    { apply argument_ok. exact Fa. }
    { intros z Ez. unfold argument. rewrite (identifier_err (Ascii.eqb ")")); [reflexivity|rewrite Ez; exact SK|intros c Hc; apply Ascii.eqb_eq in Hc; subst; reflexivity]. }
    eapply pbind_ok; [exact T|]. eapply pbind_ok; [apply (sign_ok ")"); [exact Ek|discriminate]|].
    eapply pbind_ok.
    { apply (type_ok r t2 (String " " (t3 ++ k))); auto.
      destruct b as [bl be]. cbn [block_document] in *. rinv. split; reflexivity. }
    eapply pbind_ok; [|reflexivity]. eapply (block_ok b t3 k); auto.
    lens. lia.
  Qed.
End Block.
