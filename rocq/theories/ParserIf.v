From Coq Require Import String Ascii List Bool Arith Lia.
From Verif Require Import Syntax SyntaxSpec Ast Parser Printer ParserSpec ParserToken ParserList ParserType ParserLiteral ParserOpening ParserBlock ParserAtom.
Import ListNotations.
Local Open Scope string_scope.

Lemma leftmost_float e t : leftmost e = Some (XNumber (NFloat t)) -> faithful e -> float_text t.
Proof.
  induction e; cbn [leftmost]; intros Le F; try discriminate.
  - destruct F as (_ & Fl & _). destruct (tight o e1); [apply IHe1; assumption|discriminate].
  - destruct F as (_ & Ff & _). apply IHe; assumption.
  - injection Le as ->. exact F.
  - destruct F as (_ & Ff & _). apply IHe; assumption.
  - destruct F as (_ & Ff). apply IHe; [|exact Ff]. destruct e; try exact Le. discriminate.
Qed.

Section If.
  Variables (P : parser aexpr) (n : nat).
  Hypothesis HP : forall e s k x, slen s < n -> faithful e -> renders (expression_document e) s -> calm k -> (ends_variable e -> brace_safe k) -> skip x = skip (s ++ k) -> P x = POk e k.
  Hypothesis HE : forall x, no_expression x -> P x = PErr.
  Notation atomic := (atomic_expression P).

  (** *** Records *)
  Definition field_document (p : string * aexpr) : document := match p with (x, e) => Text x :: Text ": " :: expression_document e end.
  Lemma record_fields_ok l m : m < n -> every (fun p => match p with (x, e) => name x /\ faithful e end) l ->
    element_ok (record_field P) field_document good l m.
  Proof.
    intros L F [a e] t r x I R Lt G E. pose proof (every_In _ _ _ F I) as [Fa Fe]. cbn [field_document] in R. rinv. norm. rewrite (name_skip a _ Fa) in E.
    match goal with H : renders (expression_document e) ?u |- _ => rename u into w; rename H into Re end.
    unfold record_field. eapply pbind_ok; [eapply identifier_ok; [exact E|exact Fa|reflexivity]|]. takes ":". eapply pbind_ok; [|reflexivity]. apply cut_ok.
    apply (HG P n HP e w r); auto. lens. lia.
  Qed.
  Lemma record_field_end z k : skip z = skip (String "}" k) -> record_field P z = PErr.
  Proof. intros E. unfold record_field. rewrite (identifier_err (Ascii.eqb "}")); [reflexivity|rewrite E; startc|byc]. Qed.
  Lemma maybe_line t : renders [Maybe [Line]] t -> blank t.
  Proof.
    intros R. apply renders_maybe_inv in R. destruct R as [R|R]; cbn [app] in R; rinv; [constructor|]. norm. assumption.
  Qed.
  Lemma list_document_cons d ds : list_document (d :: ds) =
    ([Maybe [Line]] ++ intersperse [Text ","; Line] (map (fun d => Gap :: d) (d :: ds)) ++ [Maybe [Text ","; Line]])%list.
  Proof. reflexivity. Qed.
  Lemma record_first l s k : every (fun p => match p with (x, e) => name x /\ faithful e end) l -> renders (list_document (map field_document l)) s ->
    sign "..." (s ++ String "}" k) = PErr.
  Proof.
    intros F R. destruct l as [|[a e] l]; [apply renders_nil_inv in R; subst; reflexivity|]. cbn [map] in R. rewrite list_document_cons in R.
    apply renders_app in R. destruct R as (b & s' & -> & B & R). apply maybe_line in B. apply renders_app in R. destruct R as (u & v & -> & R & _).
    assert (X : exists g y, blank g /\ u = g ++ a ++ y).
    { cbn [map] in R. destruct (map (fun d => Gap :: d) (map field_document l)) as [|d ds].
      - cbn [intersperse field_document] in R. rinv. eexists _, _. split; [eassumption|reflexivity].
      - set (ds' := d :: ds) in R. change (intersperse [Text ","; Line] ((Gap :: field_document (a, e)) :: ds')) with ((Gap :: field_document (a, e)) ++ [Text ","; Line] ++ intersperse [Text ","; Line] ds')%list in R.
        apply renders_app in R. destruct R as (u1 & u2 & -> & R & _). cbn [field_document] in R. rinv. eexists _, _. split; [eassumption|]. rewrite !sapp_assoc. reflexivity. }
    destruct X as (g & y & G & ->). destruct F as [[Fa _] _]. rewrite !sapp_assoc. apply (sign_err word_start); [|reflexivity].
    rewrite !skip_blank by assumption. rewrite (name_skip a _ Fa). apply starts_app. apply name_starts. exact Fa.
  Qed.
  Lemma atom_record a o l s k x : slen s <= n -> faithful (XRecord a o l) -> renders (expression_document (XRecord a o l)) s -> skip x = skip (s ++ k) -> atomic x = POk (XRecord a o l) k.
  Proof.
    intros L (Fa & Fo & Fl & Nd) R E. cbn [expression_document] in R.
    apply renders_text_inv in R. destruct R as (s1 & -> & R). apply renders_text_inv in R. destruct R as (s2 & -> & R). apply renders_app in R. destruct R as (s3 & s4 & -> & R & R4). rinv. norm.
    rewrite (qualified_skip a _ Fa) in E.
    assert (S : starts word_start (skip x)) by (rewrite E; apply starts_app; apply qualified_starts; exact Fa).
    assert (K : keyword "if" x = PErr) by (eapply keyword_qualified; [|exact E|exact Fa|reflexivity]; cbn; tauto).
    unfold atomic_expression. nolam S. noif K. apply alt_left. unfold record. rewrite E, qualified_ok by (exact Fa || reflexivity). cbn [pbind]. takes "{".
    assert (X : exists k', record_elements P (s3 ++ String "}" k) = POk (o, l) k' /\ skip k' = String "}" k).
    { change (fun p : string * aexpr => let (x0, e) := p in Text x0 :: Text ": " :: expression_document e) with field_document in R.
      destruct o as [e|]; cbn [app] in R.
      - destruct Fo as [Fe Nl]. destruct l as [|f0 l]; [congruence|]. rewrite list_document_cons in R. cbn [map] in R.
        set (ds := (Gap :: field_document f0) :: map (fun d => Gap :: d) (map field_document l)) in R.
        change (intersperse [Text ","; Line] ((Gap :: Text "..." :: expression_document e) :: ds)) with ((Gap :: Text "..." :: expression_document e) ++ [Text ","; Line] ++ intersperse [Text ","; Line] ds)%list in R.
        apply renders_app in R. destruct R as (b & s' & -> & B & R). apply maybe_line in B. apply renders_app in R. destruct R as (u & v & -> & R & Rv). apply comma_tail in Rv.
        apply renders_app in R. destruct R as (u1 & u2 & -> & R1 & R2). apply renders_app in R2. destruct R2 as (u3 & u4 & -> & R3 & R4).
        unfold ds in R4. change (renders (intersperse [Text ","; Line] (map (fun d => Gap :: d) (map field_document (f0 :: l)))) u4) in R4. rewrite map_map in R4.
        rinv. norm.
        match goal with H : renders (expression_document e) ?u |- _ => rename u into w; rename H into Re end.
        match goal with |- exists k', record_elements P (b ++ ?g ++ _) = _ /\ _ => rename g into g1 end.
        match goal with |- exists k', record_elements P (_ ++ _ ++ String _ (String _ (String _ (_ ++ String _ (?g ++ _))))) = _ /\ _ => rename g into g2 end.
        destruct (spread_ok P n HP e w (String "," (g2 ++ u4 ++ v ++ String "}" k)) (b ++ g1 ++ String "." (String "." (String "." (w ++ String "," (g2 ++ u4 ++ v ++ String "}" k)))))) as [T1 T2]; auto.
        { lens. lia. }
        { apply good_char. reflexivity. }
        { rewrite !skip_blank by assumption. reflexivity. }
        destruct (comma_end (record_field P) (fun y => Gap :: field_document y) good [Text ","; Line] l f0 u4 (String "}" k) v (g2 ++ u4 ++ v ++ String "}" k)) as (k' & Ek & _ & Tl); auto using comma_line.
        { intros r. apply good_char. reflexivity. }
        { apply good_char. reflexivity. }
        { intros y t r x' I1 I2 I3 I4 I5. rinv. norm. rewrite skip_blank in I5 by assumption. eapply (record_fields_ok (f0 :: l) (slen u4)); eauto; lens; lia. }
        { intros z Ez. eapply record_field_end. exact Ez. }
        { apply skip_blank. assumption. }
        exists k'. split; [|exact Ek]. unfold record_elements. apply alt_left. rewrite T1. cbn [pbind]. apply cut_ok. rewrite T2. cbn [pbind]. takes ",". rewrite Tl. reflexivity.
      - destruct (list_ok (record_field P) field_document good l s3 (String "}" k) (s3 ++ String "}" k)) as (k' & Ek & Tl & _); auto.
        { intros r. apply good_char. reflexivity. }
        { apply good_char. reflexivity. }
        { apply record_fields_ok; [lens; lia|exact Fl]. }
        { intros z Ez. eapply record_field_end. exact Ez. }
        exists k'. split; [|exact Ek]. unfold record_elements. apply alt_right; [rewrite (record_first l s3 k Fl R); reflexivity|]. rewrite Tl. reflexivity. }
    destruct X as (k' & T & Ek). rewrite T. cbn [pbind snd fst]. rewrite (distinct_ok _ Nd). takes "}". reflexivity.
  Qed.

  (** *** Comprehensions *)
  Definition branch_document (b : abranch aexpr) : document :=
    match b with Branch xs es c =>
      (Gap :: Text "for " :: names_document xs ++ Text " in " :: intersperse [Text ", "] (map expression_document es) ++
       match c with Some e => Text " if " :: expression_document e | None => [] end)%list end.
  Definition branch_faithful (b : abranch aexpr) : Prop :=
    match b with Branch xs es c => xs <> [] /\ every name xs /\ es <> [] /\ every faithful es /\ match c with Some e => faithful e | None => True end end.
  Lemma names_ok xs s k x : xs <> [] -> every name xs -> renders (names_document xs) s -> not_next is_word k = true -> sign "," k = PErr -> skip x = skip (s ++ k) ->
    terminated_list1 (sign ",") identifier x = POk xs k.
  Proof.
    intros N F R K1 K2 E. unfold names_document in R. apply (plain_list1 identifier (fun x => [Text x]) (fun k => not_next is_word k = true) xs s); auto.
    intros y t r x' I R' _ G E'. rinv. norm. pose proof (every_In _ _ _ F I) as Fy. rewrite (name_skip y r Fy) in E'. eapply identifier_ok; eauto.
  Qed.
  Lemma branch_ok b s k x : slen s < n -> branch_faithful b -> renders (branch_document b) s -> good k -> sign "," k = PErr -> keyword "if" k = PErr ->
    skip x = skip (s ++ k) -> comprehension_branch P x = POk b k.
  Proof.
    destruct b as [xs es c]. intros L (N1 & F1 & N2 & F2 & Fc) R G K1 K2 E. cbn [branch_document] in R.
    apply renders_gap_inv in R. destruct R as (g & s1 & -> & B & R). apply renders_text_inv in R. destruct R as (s2 & -> & R). apply renders_app in R. destruct R as (s3 & s4 & -> & Rx & R).
    apply renders_text_inv in R. destruct R as (s5 & -> & R). apply renders_app in R. destruct R as (s6 & s7 & -> & Re & R). norm. rewrite skip_blank in E by exact B.
    unfold comprehension_branch. eapply pbind_ok; [apply (keyword_ok "for"); [exact E|reflexivity]|]. apply cut_ok.
    eapply pbind_ok; [apply (names_ok xs s3 (" in " ++ s6 ++ s7 ++ k)); auto|].
    eapply pbind_ok; [apply (keyword_ok "in"); [reflexivity|reflexivity]|].
    eapply pbind_ok.
    { apply (plain_list1 P expression_document good es s6 (s7 ++ k)); auto.
      - intros r. apply good_char. reflexivity.
      - destruct c as [c|]; rinv; norm; [|exact G]. apply (good_keyword " " "if"); [apply blank_one|discriminate|cbn; tauto|discriminate].
      - apply (exprs_ok P n HP); [lens; lia|exact F2].
      - destruct c as [c|]; rinv; norm; [reflexivity|exact K1]. }
    destruct c as [c|]; rinv; norm.
    - match goal with H : renders (expression_document c) ?u |- _ => rename u into w; rename H into Rc end.
      apply pbind_ok with (a := Some c) (s := k); [|reflexivity]. apply opt_some. eapply pbind_ok; [apply (keyword_ok "if"); [reflexivity|reflexivity]|].
      apply (HG P n HP c w k); auto. lens. lia.
    - eapply pbind_ok; [apply opt_none; rewrite K2; reflexivity|]. reflexivity.
  Qed.
  Lemma branch_text b t : renders (branch_document b) t -> exists g u, blank g /\ t = g ++ "for" ++ String " " u.
  Proof.
    destruct b as [xs es c]. cbn [branch_document]. intros R. apply renders_gap_inv in R. destruct R as (g & s1 & -> & B & R). apply renders_text_inv in R. destruct R as (s2 & -> & _).
    exists g, s2. auto.
  Qed.
  Lemma branches_ok l : forall s k y, l <> [] -> slen s < n -> every branch_faithful l -> renders (intersperse [Line] (map branch_document l)) s ->
    good k -> sign "," k = PErr -> keyword "if" k = PErr -> skip y = skip (s ++ k) -> manys (comprehension_branch P) l y k.
  Proof.
    induction l as [|b l IH]; intros s k y N L F R G K1 K2 E; [congruence|]. destruct F as [Fb F].
    assert (Len : forall t r, renders (branch_document b) t -> skip y = skip (t ++ r) -> slen r < slen y).
    { intros t r Rt Et. destruct (branch_text b t Rt) as (g & u & B & ->). rewrite !sapp_assoc, skip_blank in Et by exact B. pose proof (skip_shorter y) as Y.
      assert (Et' : skip y = "for" ++ (String " " u) ++ r) by exact Et. rewrite Et' in Y. cbn [append] in Y. lens. lia. }
    destruct l as [|b' l].
    - cbn [map intersperse] in R. econstructor; [apply (branch_ok b s k); auto| |constructor]. eapply Len; eauto.
    - set (l' := b' :: l) in *. change (intersperse [Line] (map branch_document (b :: l'))) with (branch_document b ++ [Line] ++ intersperse [Line] (map branch_document l'))%list in R.
      apply renders_app in R. destruct R as (t & s1 & -> & Rb & R). apply renders_app in R. destruct R as (bl & s2 & -> & Rl & R).
      assert (Bl : blank bl /\ bl <> "") by (rinv; norm; auto). destruct Bl as [Bl Nl].
      assert (Hs : exists g u, blank g /\ s2 = g ++ "for" ++ String " " u).
      { unfold l' in R. destruct l as [|b2 l]; [exact (branch_text b' s2 R)|]. 
        change (intersperse [Line] (map branch_document (b' :: b2 :: l))) with (branch_document b' ++ [Line] ++ intersperse [Line] (map branch_document (b2 :: l)))%list in R.
        apply renders_app in R. destruct R as (t1 & t2 & -> & R & _). destruct (branch_text b' t1 R) as (g & u & B & ->). exists g, (u ++ t2). rewrite !sapp_assoc. auto. }
      norm. lens. econstructor.
      + apply (branch_ok b t (bl ++ s2 ++ k)); auto.
        * lia.
        * destruct Hs as (g & u & B & ->). rewrite !sapp_assoc. rewrite <- (sapp_assoc bl). apply (good_keyword (bl ++ g) "for" (u ++ k)); [apply blank_app; assumption|apply sapp_not_nil; assumption|cbn; tauto|discriminate].
        * destruct Hs as (g & u & B & ->). rewrite !sapp_assoc. apply (sign_err (Ascii.eqb "f")); [|reflexivity]. rewrite !skip_blank by assumption. startc.
        * destruct Hs as (g & u & B & ->). rewrite !sapp_assoc. rewrite (keyword_skip _ _ ("for" ++ String " " u ++ k)) by (rewrite !skip_blank by assumption; reflexivity). reflexivity.
      + eapply Len; eauto.
      + apply (IH s2); auto; [discriminate|lia|]. apply skip_blank. exact Bl.
  Qed.
  Lemma atom_comprehension t e l s k x : slen s <= n -> faithful (XComprehension t e l) -> renders (expression_document (XComprehension t e l)) s -> skip x = skip (s ++ k) ->
    atomic x = POk (XComprehension t e l) k.
  Proof.
    intros L (Ft & Fe & Nl & Fl) R E. cbn [expression_document] in R.
    apply renders_text_inv in R. destruct R as (s1 & -> & R). apply renders_app in R. destruct R as (st & s2 & -> & Rt & R).
    apply renders_line_inv in R. destruct R as (b1 & s3 & -> & B1 & N1 & R). apply renders_gap_inv in R. destruct R as (g1 & s4 & -> & G1 & R).
    apply renders_app in R. destruct R as (se & s5 & -> & Re & R). apply renders_line_inv in R. destruct R as (b2 & s6 & -> & B2 & N2 & R).
    apply renders_app in R. destruct R as (sb & s7 & -> & Rb & R).
    change [Maybe [Line]; Text "]"] with ([Maybe [Line]] ++ [Text "]"])%list in R. apply renders_app in R. destruct R as (b3 & s8 & -> & B3 & R). apply maybe_line in B3. rinv. norm.
    change (renders (intersperse [Line] (map branch_document l)) sb) in Rb.
    assert (E' : skip x = String "[" (st ++ b1 ++ g1 ++ se ++ b2 ++ sb ++ b3 ++ String "]" k)) by exact E.
    assert (S : starts (Ascii.eqb "[") (skip x)) by (rewrite E'; startc).
    pose proof (expr_starts e se Fe Re) as Se.
    unfold atomic_expression. nolam S. noif_ S. norec S. apply alt_left. unfold list_comprehension. takes "[".
    eapply pbind_ok.
    { apply (type_ok t st (b1 ++ g1 ++ se ++ b2 ++ sb ++ b3 ++ String "]" k)); auto. apply (stop_blank expr_start); auto.
      rewrite skip_blank by exact G1. rewrite skip_app by solidify. apply starts_app. exact Se. }
    assert (Hs : exists g u, blank g /\ sb = g ++ "for" ++ String " " u).
    { destruct l as [|b l]; [congruence|]. destruct l as [|b' l]; [exact (branch_text b sb Rb)|].
      change (intersperse [Line] (map branch_document (b :: b' :: l))) with (branch_document b ++ [Line] ++ intersperse [Line] (map branch_document (b' :: l)))%list in Rb.
      apply renders_app in Rb. destruct Rb as (t1 & t2 & -> & R' & _). destruct (branch_text b t1 R') as (g & u & B & ->). exists g, (u ++ t2). rewrite !sapp_assoc. auto. }
    eapply pbind_ok.
    { apply (HG P n HP e se (b2 ++ sb ++ b3 ++ String "]" k)); auto.
      - lens. lia.
      - destruct Hs as (g & u & B & ->). rewrite !sapp_assoc. rewrite <- (sapp_assoc b2).
        apply (good_keyword (b2 ++ g) "for" (u ++ b3 ++ String "]" k)); [apply blank_app; assumption|apply sapp_not_nil; assumption|cbn; tauto|discriminate].
      - rewrite !skip_blank by assumption. reflexivity. }
    assert (Sk : skip (b3 ++ String "]" k) = String "]" k) by (rewrite skip_blank by exact B3; reflexivity).
    apply pbind_ok with (a := l) (s := b3 ++ String "]" k).
    { destruct l as [|b l]; [congruence|]. apply many1_ok.
      - apply (branches_ok (b :: l) sb); auto.
        + lens. lia.
        + apply good_blank; auto.
        + apply (sign_err (Ascii.eqb "]")); [rewrite Sk; startc|reflexivity].
        + apply (keyword_err (Ascii.eqb "]")); [rewrite Sk; startc|reflexivity].
        + apply skip_blank. exact B2.
      - unfold comprehension_branch. rewrite (keyword_err (Ascii.eqb "]") "f" "or"); [reflexivity|rewrite Sk; startc|reflexivity]. }
    takes "]". reflexivity.
  Qed.

  (** *** Conditionals *)
  Lemma if_branch_ok c b s1 s2 k x : slen s1 < n -> slen s2 <= n -> faithful c -> faithful_block faithful b ->
    renders (expression_document c) s1 -> renders (block_document expression_document b) s2 -> skip x = skip (s1 ++ String " " (s2 ++ k)) -> if_branch P x = POk (c, b) k.
  Proof.
    intros L1 L2 Fc Fb Rc Rb E. unfold if_branch. eapply pbind_ok; [apply (HG P n HP c s1 (String " " (s2 ++ k))); auto; eapply block_good; eauto|].
    eapply pbind_ok; [|reflexivity]. apply (block_ok P n HP HE b s2 k); auto.
  Qed.
  Definition if_document_ (p : aexpr * ablock aexpr) : document :=
    match p with (c, b) => (Text "if " :: expression_document c ++ Text " " :: block_document expression_document b ++ [Text " else "])%list end.
  Lemma else_ifs l b : forall s k, every (fun p => match p with (c, b) => faithful c /\ faithful_block faithful b end) l -> slen s <= n ->
    renders (flat_map if_document_ l ++ block_document expression_document b)%list s ->
    exists sb, renders (block_document expression_document b) sb /\ slen sb <= slen s /\
      manys (fun s => do_ s <- else_if s; cut (if_branch P s)) l (" else " ++ s ++ k) (" else " ++ sb ++ k).
  Proof.
    induction l as [|[c b1] l IH]; intros s k F L R.
    - exists s. split; [exact R|]. split; [lia|constructor].
    - destruct F as [[Fc Fb] F]. cbn [flat_map if_document_] in R. rewrite <- app_assoc in R. apply renders_app in R. destruct R as (s1 & s2 & -> & R1 & R2).
      apply renders_text_inv in R1. destruct R1 as (s3 & -> & R1). apply renders_app in R1. destruct R1 as (sc & s4 & -> & Rc & R1).
      apply renders_text_inv in R1. destruct R1 as (s5 & -> & R1). apply renders_app in R1. destruct R1 as (w & s6 & -> & Rw & R1). apply renders_text_inv in R1. destruct R1 as (s7 & -> & R1).
      apply renders_nil_inv in R1. subst s7. norm. lens.
      destruct (IH s2 k F ltac:(lia) R2) as (sb & H1 & H2 & H3). exists sb. split; [exact H1|]. split; [lia|]. norm.
      econstructor; [| |exact H3].
      + eapply pbind_ok; [unfold else_if; eapply pbind_ok; [apply (keyword_ok "else"); reflexivity|apply (keyword_ok "if"); reflexivity]|]. apply cut_ok.
        eapply (if_branch_ok c b1 sc w); auto; lia.
      + lens. lia.
  Qed.
  Lemma else_if_end b sb k : renders (block_document expression_document b) sb -> else_if (" else " ++ sb ++ k) = PErr.
  Proof.
    intros R. destruct (block_first b sb k R) as (r & E). rewrite E. reflexivity.
  Qed.
  Lemma if_opens c s k x : faithful c -> renders (expression_document c) s -> after k -> skip x = skip (s ++ k) ->
    forall A (f : string -> string -> presult A), (do y, z <- identifier x; do_ z <- sign "=" z; f y z) = PErr.
  Proof.
    intros F R K E A f. pose proof (expr_opens c s k F R K) as O. rewrite (identifier_skip _ _ E).
    destruct (opens_identifier _ O) as [O1|(a & r & O1 & _ & O2)]; rewrite O1; [reflexivity|]. cbn [pbind]. rewrite O2. reflexivity.
  Qed.
  Lemma block_after b s k : renders (block_document expression_document b) s -> after (String " " (s ++ k)).
  Proof. intros R. destruct (block_first b s k R) as (r & E). rewrite E. split; [reflexivity|split; reflexivity]. Qed.
  Lemma no_bracket c s k x : condition c -> faithful c -> renders (expression_document c) s -> skip x = skip (s ++ k) -> sign "[" x = PErr.
  Proof.
    intros C F R E. pose proof (expr_starts c s F R) as S0. rewrite skip_app in E by solidify. pose proof (leading_app c s k (expr_leading c s F R)) as Le. unfold leading in Le. unfold condition in C.
    rewrite <- E in Le.
    destruct (leftmost c) as [[]|] eqn:El; try contradiction; try (apply (sign_err _ _ _ _ Le); reflexivity).
    - destruct n0 as [d|d|t]; try (apply (sign_err _ _ _ _ Le); reflexivity).
      destruct Le as (r & Le). pose proof (float_starts t (leftmost_float c t El F)) as St. apply starts_app with (k := r) in St. rewrite <- Le in St.
      apply (sign_err _ _ _ _ St). reflexivity.
    - destruct Le as (r & Le & _). unfold sign. rewrite Le. reflexivity.
  Qed.

  Lemma atom_if l b s k x : slen s <= n -> faithful (XIf l b) -> renders (expression_document (XIf l b)) s -> skip x = skip (s ++ k) -> atomic x = POk (XIf l b) k.
  Proof.
    intros L (Nl & Hc & Fl & Fb) R E. destruct l as [|[c b1] l]; [congruence|]. destruct Fl as [[Fc F1] Fl].
    change (expression_document (XIf ((c, b1) :: l) b)) with (flat_map if_document_ ((c, b1) :: l) ++ block_document expression_document b)%list in R.
    cbn [flat_map if_document_] in R. rewrite <- app_assoc in R. apply renders_app in R. destruct R as (s1 & s2 & -> & R1 & R2).
    apply renders_text_inv in R1. destruct R1 as (s3 & -> & R1). apply renders_app in R1. destruct R1 as (sc & s4 & -> & Rc & R1).
    apply renders_text_inv in R1. destruct R1 as (s5 & -> & R1). apply renders_app in R1. destruct R1 as (w & s6 & -> & Rw & R1). apply renders_text_inv in R1. destruct R1 as (s7 & -> & R1).
    apply renders_nil_inv in R1. subst s7. norm. lens.
    destruct (else_ifs l b s2 k Fl ltac:(lia) R2) as (sb & Rb & Lb & M).
    set (K := String " " (w ++ " else " ++ s2 ++ k)).
    assert (E' : skip x = "if" ++ String " " (sc ++ K)) by exact E.
    assert (S : starts (Ascii.eqb "i") (skip x)) by (rewrite E'; startc).
    assert (Kif : keyword "if" x = POk tt (String " " (sc ++ K))) by (apply keyword_ok; [exact E'|reflexivity]).
    assert (Ka : after K) by (eapply block_after; eauto).
    unfold atomic_expression. nolam S.
    apply alt_right; [unfold if_type; rewrite Kif; cbn [pbind]; apply (if_opens c sc K); auto; apply skip_space|].
    apply alt_right; [unfold if_list; rewrite Kif; cbn [pbind]; rewrite (no_bracket c sc K) by (auto; apply skip_space); reflexivity|].
    apply alt_right; [unfold if_map; rewrite Kif; cbn [pbind]; apply (if_opens c sc K); auto; apply skip_space|].
    apply alt_left. unfold if_. rewrite Kif. cbn [pbind]. apply cut_ok.
    eapply pbind_ok; [apply (if_branch_ok c b1 sc w (" else " ++ s2 ++ k)); auto; lia|].
    eapply pbind_ok; [apply (many0_ok _ _ _ _ M); rewrite (else_if_end b sb k Rb); reflexivity|].
    eapply pbind_ok; [apply (keyword_ok "else"); reflexivity|].
    eapply pbind_ok; [apply (block_ok P n HP HE b sb k); auto; lia|]. reflexivity.
  Qed.
  Lemma atom_if_list e y z a b s k x : slen s <= n -> faithful (XIfList e y z a b) -> renders (expression_document (XIfList e y z a b)) s -> skip x = skip (s ++ k) ->
    atomic x = POk (XIfList e y z a b) k.
  Proof.
    intros L (Ny & Nz & Fe & Fa & Fb) R E. cbn [expression_document] in R. rinv. norm.
    match goal with H : renders (expression_document e) ?u |- _ => rename u into w1; rename H into Q1 end.
    match goal with H : renders (block_document _ a) ?u |- _ => rename u into w2; rename H into Q2 end.
    match goal with H : renders (block_document _ b) ?u |- _ => rename u into w3; rename H into Q3 end. lens.
    match type of E with skip x = skip (String "i" (String "f" ?r)) => assert (E' : skip x = "if" ++ r) by exact E; assert (Kif : keyword "if" x = POk tt r) by (apply keyword_ok; [exact E'|reflexivity]) end.
    assert (S : starts (Ascii.eqb "i") (skip x)) by (rewrite E'; startc).
    unfold atomic_expression. nolam S.
    apply alt_right; [unfold if_type; rewrite Kif; reflexivity|].
    apply alt_left. unfold if_list. rewrite Kif. cbn [pbind]. takes "[". apply cut_ok.
    eapply pbind_ok; [eapply (identifier_ok y); [rewrite (name_skip y) by exact Ny; reflexivity|exact Ny|reflexivity]|]. takes ",". takes "...".
    eapply pbind_ok; [eapply (identifier_ok z); [rewrite (name_skip z) by exact Nz; reflexivity|exact Nz|reflexivity]|]. takes "]". takes "=".
    eapply pbind_ok; [apply (HG P n HP e w1 (String " " (w2 ++ " else " ++ w3 ++ k))); auto; [lia|exact (block_good a w2 _ Fa Q2)]|].
    eapply pbind_ok; [apply (block_ok P n HP HE a w2 (" else " ++ w3 ++ k)); auto; lia|].
    eapply pbind_ok; [apply (keyword_ok "else"); reflexivity|].
    eapply pbind_ok; [apply (block_ok P n HP HE b w3 k); auto; lia|]. reflexivity.
  Qed.
  Lemma atom_if_map y m q a b s k x : slen s <= n -> faithful (XIfMap y m q a b) -> renders (expression_document (XIfMap y m q a b)) s -> skip x = skip (s ++ k) ->
    atomic x = POk (XIfMap y m q a b) k.
  Proof.
    intros L (Ny & Fm & Fq & Fa & Fb) R E. cbn [expression_document] in R. rinv. norm.
    match goal with H : renders (expression_document m) ?u |- _ => rename u into w0; rename H into Q0 end.
    match goal with H : renders (expression_document q) ?u |- _ => rename u into w1; rename H into Q1 end.
    match goal with H : renders (block_document _ a) ?u |- _ => rename u into w2; rename H into Q2 end.
    match goal with H : renders (block_document _ b) ?u |- _ => rename u into w3; rename H into Q3 end. lens.
    match type of E with skip x = skip (String "i" (String "f" ?r)) => assert (E' : skip x = "if" ++ r) by exact E; assert (Kif : keyword "if" x = POk tt r) by (apply keyword_ok; [exact E'|reflexivity]) end.
    assert (S : starts (Ascii.eqb "i") (skip x)) by (rewrite E'; startc).
    match type of Kif with _ = POk tt (String " " (y ++ ?r)) => 
      assert (Hy : identifier (String " " (y ++ r)) = POk y r) by (apply identifier_ok; [rewrite skip_space; apply name_skip; exact Ny|exact Ny|reflexivity]);
      assert (By : sign "[" (String " " (y ++ r)) = PErr) by (apply (sign_err word_start); [rewrite skip_space, name_skip by exact Ny; apply starts_app, name_starts, Ny|reflexivity]) end.
    set (K := String "[" (w1 ++ "] " ++ w2 ++ " else " ++ w3 ++ k)).
    assert (Hm : P (String " " (w0 ++ K)) = POk m K).
    { apply (HG P n HP m w0 K); auto; [lia|apply good_char; reflexivity]. }
    unfold atomic_expression. nolam S.
    apply alt_right; [unfold if_type; rewrite Kif; cbn [pbind]; rewrite Hy; cbn [pbind]; takes "="; eapply pbind_ok; [exact Hm|reflexivity]|].
    apply alt_right; [unfold if_list; rewrite Kif; cbn [pbind]; rewrite By; reflexivity|].
    apply alt_left. unfold if_map. rewrite Kif. cbn [pbind]. rewrite Hy. cbn [pbind]. takes "=". eapply pbind_ok; [exact Hm|]. takes "[". apply cut_ok.
    eapply pbind_ok; [apply (HG P n HP q w1 ("] " ++ w2 ++ " else " ++ w3 ++ k)); auto; [lia|apply good_char; reflexivity]|]. takes "]".
    eapply pbind_ok; [apply (block_ok P n HP HE a w2 (" else " ++ w3 ++ k)); auto; lia|].
    eapply pbind_ok; [apply (keyword_ok "else"); reflexivity|].
    eapply pbind_ok; [apply (block_ok P n HP HE b w3 k); auto; lia|]. reflexivity.
  Qed.

  Definition type_branch_document (p : aty * ablock aexpr) : document :=
    match p with (t, b) => (type_document t ++ Text " " :: block_document expression_document b)%list end.
  Definition type_branch_faithful (p : aty * ablock aexpr) : Prop := match p with (t, b) => faithful_type t /\ faithful_block faithful b end.
  Lemma type_branch_ok p s k x : slen s <= n -> type_branch_faithful p -> renders (type_branch_document p) s -> skip x = skip (s ++ k) -> if_type_branch P x = POk p k.
  Proof.
    destruct p as [t b]. intros L [Ft Fb] R E. cbn [type_branch_document] in R. rinv. norm.
    match goal with H : renders (type_document t) ?u |- _ => rename u into w1; rename H into Q1 end.
    match goal with H : renders (block_document _ b) ?u |- _ => rename u into w2; rename H into Q2 end. lens.
    unfold if_type_branch. eapply pbind_ok.
    { apply (type_ok t w1 (String " " (w2 ++ k))); auto. destruct (block_first b w2 k Q2) as (r & Er). rewrite Er. split; reflexivity. }
    eapply pbind_ok; [|reflexivity]. apply (block_ok P n HP HE b w2 k); auto. lia.
  Qed.
  Lemma type_branches_ok l : forall p s k x, slen s <= n -> every type_branch_faithful (p :: l) -> renders (intersperse [Text " else if "] (map type_branch_document (p :: l))) s ->
    skip x = skip (s ++ k) -> exists r, if_type_branch P x = POk p r /\ manys (fun s => do_ s <- else_if s; cut (if_type_branch P s)) l r k /\ slen r <= slen s + slen k.
  Proof.
    induction l as [|p' l IH]; intros p s k x L [Fp F] R E.
    - cbn [map intersperse] in R. exists k. split; [apply (type_branch_ok p s k); auto|]. split; [constructor|lia].
    - change (intersperse [Text " else if "] (map type_branch_document (p :: p' :: l))) with (type_branch_document p ++ [Text " else if "] ++ intersperse [Text " else if "] (map type_branch_document (p' :: l)))%list in R.
      apply renders_app in R. destruct R as (s1 & s2 & -> & R1 & R). apply renders_app in R. destruct R as (s3 & s4 & -> & R3 & R). rinv. rewrite !sapp_assoc in *. lens.
      destruct (IH p' s4 k (String " " (s4 ++ k)) ltac:(lia) F R (skip_space _)) as (r & H1 & H2 & H3).
      exists (" else if " ++ s4 ++ k). split; [apply (type_branch_ok p s1); auto; lia|]. split; [|lens; lia].
      econstructor; [| |exact H2].
      + eapply pbind_ok; [unfold else_if; eapply pbind_ok; [apply (keyword_ok "else"); reflexivity|apply (keyword_ok "if"); reflexivity]|]. apply cut_ok. exact H1.
      + cbn [append]. lens. lia.
  Qed.
  Lemma atom_if_type y e l o s k x : slen s <= n -> faithful (XIfType y e l o) -> renders (expression_document (XIfType y e l o)) s -> keyword "else" k = PErr -> skip x = skip (s ++ k) ->
    atomic x = POk (XIfType y e l o) k.
  Proof.
    intros L (Ny & Fe & Nl & Fl & Fo) R Ke E. destruct l as [|p l]; [congruence|]. cbn [expression_document] in R.
    apply renders_text_inv in R. destruct R as (s1 & -> & R). apply renders_text_inv in R. destruct R as (s2 & -> & R). apply renders_text_inv in R. destruct R as (s3 & -> & R).
    apply renders_app in R. destruct R as (se & s4 & -> & Re & R). apply renders_text_inv in R. destruct R as (s5 & -> & R). apply renders_app in R. destruct R as (sl & so & -> & Rl & Ro).
    change (renders (intersperse [Text " else if "] (map type_branch_document (p :: l))) sl) in Rl. norm. lens.
    set (K := String " " ("as" ++ String " " (sl ++ so ++ k))).
    assert (E' : skip x = "if" ++ String " " (y ++ " = " ++ se ++ K)) by exact E.
    assert (S : starts (Ascii.eqb "i") (skip x)) by (rewrite E'; startc).
    assert (Kif : keyword "if" x = POk tt (String " " (y ++ " = " ++ se ++ K))) by (apply keyword_ok; [exact E'|reflexivity]).
    destruct (type_branches_ok l p sl (so ++ k) (String " " (sl ++ so ++ k)) ltac:(lia) Fl Rl (skip_space _)) as (r & H1 & H2 & _).
    unfold atomic_expression. nolam S. apply alt_left. unfold if_type. rewrite Kif. cbn [pbind].
    eapply pbind_ok; [eapply (identifier_ok y); [rewrite skip_space; apply name_skip; exact Ny|exact Ny|reflexivity]|]. takes "=".
    eapply pbind_ok; [apply (HG P n HP e se K); auto; [lia|apply (good_keyword " " "as"); [apply blank_one|discriminate|cbn; tauto|discriminate]]|].
    eapply pbind_ok; [apply (keyword_ok "as"); reflexivity|]. apply cut_ok. rewrite H1. cbn [pbind].
    destruct o as [b|]; rinv; norm.
    - match goal with H : renders (block_document _ b) ?u |- _ => rename u into w; rename H into Qb end.
      eapply pbind_ok; [apply (many0_ok _ _ _ _ H2); change (String " " (String "e" (String "l" (String "s" (String "e" (String " " (w ++ k))))))) with (" else " ++ w ++ k); rewrite (else_if_end b w k Qb); reflexivity|].
      apply pbind_ok with (a := Some b) (s := k); [|reflexivity]. apply opt_some. eapply pbind_ok; [apply (keyword_ok "else"); reflexivity|].
      apply (block_ok P n HP HE b w k); auto. lens. lia.
    - eapply pbind_ok; [apply (many0_ok _ _ _ _ H2); unfold else_if; rewrite Ke; reflexivity|].
      eapply pbind_ok; [apply opt_none; rewrite Ke; reflexivity|]. reflexivity.
  Qed.
End If.
