From Coq Require Import String Ascii List Bool Arith Lia Permutation.
From Verif Require Import Base Syntax SyntaxSpec Ast Parser Printer ParserSpec ParserToken ParserList ParserType ParserLiteral ParserOpening ParserBlock ParserAtom ParserIf ParserReduce ParserExpression.
Import ListNotations.
Local Open Scope string_scope.

(** *** Sequences of definitions *)
Lemma progress s k x : starts solid s -> skip x = s ++ k -> slen k < slen x.
Proof. intros S E. pose proof (skip_shorter x) as Y. rewrite E in Y. apply starts_len in S. lens. lia. Qed.
Definition blank_document (d : document) : Prop := forall t, renders d t -> blank t.
Lemma blank_nothing : blank_document [].
Proof. intros t R. rinv. constructor. Qed.
Lemma blank_line : blank_document [Line].
Proof. intros t R. rinv. norm. assumption. Qed.
Lemma flat_intersperse {A} (D : A -> document) l : flat_map D l = intersperse [] (map D l).
Proof. induction l as [|a [|b l] IH]; [reflexivity|cbn; apply app_nil_r|]. cbn [flat_map map intersperse] in *. rewrite IH. reflexivity. Qed.

Section Items.
  Context {A : Type} (p : parser A) (f : A -> A) (D : A -> document) (G : string -> Prop).
  Hypothesis HG : forall k k', skip k = skip k' -> G k -> G k'.
  Definition item_ok (a : A) : Prop :=
    forall s k x, renders (D a) s -> G k -> skip x = skip (s ++ k) -> exists r, p x = POk (f a) r /\ slen r < slen x /\ skip r = skip k.
  Definition item_head (a : A) : Prop := forall s k, renders (D a) s -> G (s ++ k).
  Lemma items_ok d l : blank_document d -> (forall a, In a l -> item_ok a /\ item_head a) -> forall s k x, renders (intersperse d (map D l)) s -> G k -> skip x = skip (s ++ k) ->
    exists r, manys p (map f l) x r /\ skip r = skip k.
  Proof.
    intros Hd. induction l as [|a l IH]; intros H s k x R K E; cbn [map intersperse] in R.
    - rinv. exists x. split; [constructor|exact E].
    - destruct (H a (or_introl eq_refl)) as [Ha _]. destruct l as [|b l].
      + destruct (Ha s k x R K E) as (r & H1 & H2 & H3). exists r. split; [|exact H3]. cbn. econstructor; eauto. constructor.
      + cbn [map] in R. change (D b :: map D l) with (map D (b :: l)) in R.
        apply renders_app in R. destruct R as (s1 & s2 & -> & R1 & R). apply renders_app in R. destruct R as (t & s3 & -> & Rt & R3). rewrite !sapp_assoc in E.
        apply Hd in Rt. assert (K3 : G (s3 ++ k)).
        { cbn [map intersperse] in R3. destruct (H b (or_intror (or_introl eq_refl))) as [_ Hb]. destruct l as [|c l]; [apply Hb; exact R3|]. cbn [map] in R3.
          apply renders_app in R3. destruct R3 as (s4 & s5 & -> & R4 & _). rewrite sapp_assoc. apply Hb. exact R4. }
        destruct (Ha s1 (t ++ s3 ++ k) x R1) as (r & H1 & H2 & H3); [eapply HG; [|exact K3]; symmetry; apply skip_blank; exact Rt|exact E|].
        destruct (IH (fun c I => H c (or_intror I)) s3 k r R3 K) as (r' & H4 & H5); [rewrite H3; apply skip_blank; exact Rt|].
        exists r'. split; [|exact H5]. cbn [map] in *. econstructor; eauto.
  Qed.
  Lemma items_head d l : blank_document d -> (forall a, In a l -> item_head a) -> forall s k, renders (intersperse d (map D l)) s -> G k -> G (s ++ k).
  Proof.
    intros Hd H s k R K. destruct l as [|a [|b l]]; cbn [map intersperse] in R.
    - rinv. exact K.
    - apply (H a (or_introl eq_refl)). exact R.
    - apply renders_app in R. destruct R as (s1 & s2 & -> & R1 & _). rewrite sapp_assoc. apply (H a (or_introl eq_refl)). exact R1.
  Qed.
End Items.

(** *** What follows a definition *)
Definition head (ws : list string) (k : string) : Prop :=
  skip k = "" \/ exists w r, skip k = w ++ r /\ (In w ws \/ name w) /\ not_next is_word r = true.
Lemma head_skip ws k k' : skip k = skip k' -> head ws k -> head ws k'.
Proof. unfold head. intros E. rewrite E. exact (fun H => H). Qed.
Lemma head_more ws vs k : incl ws vs -> head ws k -> head vs k.
Proof. intros I [H|(w & r & E & [H|H] & N)]; [left; exact H| |]; right; exists w, r; auto. Qed.
Lemma head_keyword ws k w : head ws k -> incl ws keywords -> In w keywords -> ~ In w ws -> keyword w k = PErr.
Proof.
  intros [H|(v & r & E & H & N)] I Iw Nw.
  - unfold keyword. rewrite H. destruct w; [|reflexivity]. cbn in Iw. intuition discriminate.
  - assert (W : all_chars is_word v = true) by (destruct H as [H|H]; [apply keyword_word; auto|apply H]).
    apply (keyword_other w v k r); auto. intros ->. destruct H as [H|H]; [auto|]. destruct H as (_ & _ & H). auto.
Qed.
Lemma head_starts ws k : head ws k -> incl ws keywords -> skip k = "" \/ starts word_start (skip k).
Proof.
  intros [H|(v & r & E & H & N)] I; [left; exact H|]. right. rewrite E. apply starts_app. destruct H as [H|H]; [apply keyword_word; auto|apply name_starts; exact H].
Qed.
Lemma head_sign ws k c t : head ws k -> incl ws keywords -> word_start c = false -> sign (String c t) k = PErr.
Proof.
  intros H I Hc. destruct (head_starts ws k H I) as [E|S]; [apply sign_err_end; exact E|]. apply (sign_err _ _ _ _ S). exact Hc.
Qed.
Lemma head_blank ws b k : blank b -> head ws k -> head ws (b ++ k).
Proof. intros B. apply head_skip. symmetry. apply skip_blank. exact B. Qed.
Definition words : list string := ["import"; "type"; "foreign"].
Lemma words_keywords : incl words keywords.
Proof. intros w [<-|[<-|[<-|[]]]]; cbn; tauto. Qed.
Lemma head_stop ws b k : blank b -> b <> "" -> head ws k -> incl ws keywords -> stop_type (b ++ k).
Proof.
  intros B N H I. split; [apply blank_part; assumption|]. eapply head_sign; [apply head_blank; eauto|exact I|reflexivity].
Qed.
Lemma sign_skip_same t x y : skip x = skip y -> sign t x = sign t y.
Proof. intros E. unfold sign. rewrite E. reflexivity. Qed.

(** *** Imports *)
Definition component_parser (p : parser string) : parser string := fun s => do_ s <- tag "'" s; p s.
Lemma components_ok (p : parser string) (F : string -> Prop) l s k :
  (forall y r, F y -> not_next is_word r = true -> p (y ++ r) = POk y r) -> l <> [] -> every F l ->
  renders (Text "'" :: intersperse [Text "'"] (map (fun x => [Text x]) l)) s -> not_next part k = true -> components p (s ++ k) = POk l k.
Proof.
  intros Hp N Fl R K. unfold components. change (fun s0 => do_ s1 <- tag "'" s0; p s1) with (component_parser p).
  assert (M : forall l a s, every F (a :: l) -> renders (intersperse [Text "'"] (map (fun x => [Text x]) (a :: l))) s -> manys (component_parser p) (a :: l) (String "'" (s ++ k)) k).
  { clear - Hp K. induction l as [|b l IH]; intros a s [Fa Fl] R; cbn [map intersperse] in R.
    - rinv. norm. apply (manys_cons _ a [] _ k k); [|lens; lia|constructor]. unfold component_parser. cbn [tag]. rewrite Ascii.eqb_refl. cbn [pbind]. apply Hp; [exact Fa|apply part_word; exact K].
    - cbn [app] in R. apply renders_text_inv in R. destruct R as (s1 & -> & R). apply renders_text_inv in R. destruct R as (s2 & -> & R). norm.
      apply (manys_cons _ a (b :: l) _ (String "'" (s2 ++ k)) k); [| |apply (IH b s2 Fl R)].
      + unfold component_parser. cbn [tag]. rewrite Ascii.eqb_refl. cbn [pbind]. apply Hp; [exact Fa|reflexivity].
      + lens. lia. }
  destruct l as [|a l]; [congruence|]. apply renders_text_inv in R. destruct R as (s1 & -> & R). cbn [append].
  apply many1_ok; [apply M; assumption|]. unfold component_parser. rewrite (part_separator k K). reflexivity.
Qed.
Lemma component_ok y r : name y -> not_next is_word r = true -> identifier (y ++ r) = POk y r.
Proof. intros N K. eapply identifier_ok; [apply name_skip; exact N|exact N|exact K]. Qed.
Lemma public_ok y r : name y /\ public_name y = true -> not_next is_word r = true -> public_component (y ++ r) = POk y r.
Proof. intros [N U] K. unfold public_component. rewrite (component_ok y r N K). cbn [pbind]. rewrite U. reflexivity. Qed.
Lemma path_ok p s k x : faithful_path p -> renders (path_document p) s -> not_next part k = true -> skip x = skip (s ++ k) -> module_path x = POk p k.
Proof.
  intros F R K E. unfold module_path. destruct p as [y l|l].
  - destruct F as (Ny & Nl & Fl). cbn [path_document] in R. apply renders_text_inv in R. destruct R as (s1 & -> & R). rewrite sapp_assoc in E. rewrite (name_skip y _ Ny) in E. rewrite E.
    apply alt_left. unfold external_path.
    assert (Q : exists s2, s1 = String "'" s2) by (apply renders_text_inv in R; destruct R as (s2 & -> & _); exists s2; reflexivity).
    eapply pbind_ok; [apply component_ok; [exact Ny|destruct Q as (s2 & ->); reflexivity]|].
    eapply pbind_ok; [|reflexivity]. apply cut_ok. eapply components_ok; eauto. intros; apply public_ok; assumption.
  - destruct F as (Nl & Fl). assert (Q : exists s2, s = String "'" s2) by (apply renders_text_inv in R; destruct R as (s2 & -> & _); exists s2; reflexivity).
    destruct Q as (s2 & ->). change (skip (String "'" s2 ++ k)) with (String "'" s2 ++ k) in E. rewrite E.
    apply alt_right.
    + unfold external_path. rewrite (identifier_err (Ascii.eqb "'")); [reflexivity|startc|byc].
    + unfold internal_path. unfold pmap. erewrite components_ok; [reflexivity|apply component_ok|exact Nl|exact Fl|exact R|exact K].
Qed.

Lemma insert_permutation {A} le (x : A) l : Permutation (x :: l) (insert le x l).
Proof.
  induction l as [|y l IH]; cbn [insert]; [reflexivity|]. destruct (le x y); [reflexivity|]. etransitivity; [apply perm_swap|]. constructor. exact IH.
Qed.
Lemma sort_permutation {A} le (l : list A) : Permutation l (sort le l).
Proof. induction l as [|x l IH]; [reflexivity|]. cbn. etransitivity; [constructor; exact IH|]. apply insert_permutation. Qed.
Lemma every_permutation {A} (P : A -> Prop) l m : Permutation l m -> every P l -> every P m.
Proof. induction 1; cbn; tauto. Qed.
Definition sorted_import (i : aimport) : aimport := AImport (i_path i) (i_prefix i) (sort string_le (i_names i)).
Lemma sorted_same i : same_import i (sorted_import i).
Proof. split; [reflexivity|]. split; [reflexivity|]. apply sort_permutation. Qed.

Lemma import_ok i : faithful_import i -> item_ok import sorted_import import_document (head words) i.
Proof.
  destruct i as [p o l]. intros (Fp & Fo & Fl) s k x R K E. unfold sorted_import. cbn [i_path i_prefix i_names] in *. unfold import_document in R. cbn [i_path i_prefix i_names] in R.
  apply renders_gap_inv in R. destruct R as (g & s1 & -> & B & R). apply renders_text_inv in R. destruct R as (s2 & -> & R).
  apply renders_app in R. destruct R as (sp & s3 & -> & Rp & R). apply renders_app in R. destruct R as (so & s4 & -> & Ro & R). apply renders_app in R. destruct R as (sl & s5 & -> & Rl & R).
  apply renders_line_inv in R. destruct R as (b & s6 & -> & Bb & Nb & R). apply renders_nil_inv in R. subst s6. rewrite !sapp_assoc in E. cbn [append] in E. rewrite skip_blank in E by exact B.
  assert (E' : skip x = "import" ++ String " " (sp ++ so ++ sl ++ b ++ k)) by exact E.
  assert (Hb : head words (b ++ k)) by (apply head_blank; assumption).
  assert (So : (o = None /\ so = "") \/ exists y, o = Some y /\ name y /\ so = " as " ++ y) by (destruct o; rinv; norm; [right; eauto|left; auto]).
  assert (Sl : (l = [] /\ sl = "") \/ exists t, l <> [] /\ sl = " { " ++ t ++ " }" /\ renders (names_document (sort string_le l)) t).
  { destruct l; [left; rinv; auto|]. right. apply renders_text_inv in Rl. destruct Rl as (u & -> & Rl). apply renders_app in Rl. destruct Rl as (t & v & -> & Rt & Rl). rinv.
    exists t. split; [discriminate|]. split; [reflexivity|exact Rt]. }
  exists (b ++ k). split; [|split].
  - unfold import. eapply pbind_ok; [apply (keyword_ok "import"); [exact E'|reflexivity]|].
    assert (Pb : not_next part (b ++ k) = true) by (apply blank_part; assumption).
    eapply pbind_ok.
    { apply (path_ok p sp (so ++ sl ++ b ++ k)); auto. destruct So as [[_ ->]|(y & _ & _ & ->)]; [|reflexivity]. destruct Sl as [[_ ->]|(t & _ & -> & _)]; [exact Pb|reflexivity]. }
    apply cut_ok.
    assert (Po : opt (fun s => do_ s <- keyword "as" s; identifier s) (so ++ sl ++ b ++ k) = POk o (sl ++ b ++ k)).
    { destruct So as [[-> ->]|(y & -> & Ny & ->)].
      - cbn [append]. apply opt_none. destruct Sl as [[_ ->]|(t & _ & -> & _)].
        + cbn [append]. rewrite (head_keyword words); [reflexivity|exact Hb|apply words_keywords|cbn; tauto|cbn; intuition discriminate].
        + reflexivity.
      - apply opt_some. rewrite sapp_assoc. eapply pbind_ok; [apply (keyword_ok "as"); reflexivity|].
        eapply identifier_ok; [rewrite skip_space; apply name_skip; exact Ny|exact Ny|]. destruct Sl as [[_ ->]|(t & _ & -> & _)]; [apply part_word; exact Pb|reflexivity]. }
    rewrite Po. cbn [pbind]. destruct Sl as [[-> ->]|(t & Nl & -> & Rt)].
    + cbn [append]. eapply pbind_ok; [apply opt_none; rewrite (head_sign words); [reflexivity|exact Hb|apply words_keywords|reflexivity]|]. reflexivity.
    + norm. eapply pbind_ok.
      { apply opt_some. eapply pbind_ok; [apply (sign_ok "{"); [reflexivity|discriminate]|].
        eapply pbind_ok; [apply (names_ok (sort string_le l) t (" }" ++ b ++ k))|].
        - intros Z. apply Nl. pose proof (sort_permutation string_le l) as Q. rewrite Z in Q. apply Permutation_sym in Q. apply Permutation_nil in Q. exact Q.
        - eapply every_permutation; [apply sort_permutation|exact Fl].
        - exact Rt.
        - reflexivity.
        - reflexivity.
        - reflexivity.
        - eapply pbind_ok; [apply (sign_ok "}"); [reflexivity|discriminate]|]. reflexivity. }
      reflexivity.
  - assert (S : starts solid ("import" ++ String " " (sp ++ so ++ sl))) by startc. eapply progress; [exact S|]. rewrite E'. norm. reflexivity.
  - apply skip_blank. exact Bb.
Qed.
Lemma import_head i : item_head import_document (head words) i.
Proof.
  intros s k R. unfold import_document in R. apply renders_gap_inv in R. destruct R as (g & s1 & -> & B & R). apply renders_text_inv in R. destruct R as (s2 & -> & R).
  right. exists "import", (String " " (s2 ++ k)). rewrite sapp_assoc, skip_blank by exact B. split; [reflexivity|]. split; [left; cbn; tauto|reflexivity].
Qed.

(** *** Foreign imports *)
Definition convention_text (c : aconvention) : string := match c with CConvention => String quote (String "c" (String quote "")) | NativeConvention => "" end.
Lemma convention_ok y k : opt calling_convention (String " " (String quote (String "c" (String quote (String " " (y ++ k)))))) = POk (Some CConvention) (String " " (y ++ k)).
Proof.
  apply opt_some. unfold calling_convention. eapply pbind_ok; [apply (string_ok "c"); [apply text_character; [discriminate|discriminate|constructor]|reflexivity]|]. reflexivity.
Qed.
Lemma convention_none y k : name y -> opt calling_convention (String " " (y ++ k)) = POk None (String " " (y ++ k)).
Proof.
  intros N. apply opt_none. unfold calling_convention. rewrite (string_err word_start); [reflexivity|rewrite skip_space, name_skip by exact N; apply starts_app, name_starts; exact N|reflexivity].
Qed.
Lemma foreign_ok i : faithful_foreign i -> item_ok foreign_import (fun i => i) foreign_document (head words) i.
Proof.
  destruct i as [y c t]. intros (Ny & Ft) s k x R K E. cbn [f_name f_type] in *. unfold foreign_document in R. cbn [f_name f_type f_convention] in R.
  apply renders_gap_inv in R. destruct R as (g & s1 & -> & B & R). apply renders_text_inv in R. destruct R as (s2 & -> & R). apply renders_text_inv in R. destruct R as (s3 & -> & R).
  apply renders_text_inv in R. destruct R as (s4 & -> & R). apply renders_text_inv in R. destruct R as (s5 & -> & R). apply renders_text_inv in R. destruct R as (s6 & -> & R).
  apply renders_app in R. destruct R as (st & s7 & -> & Rt & R). apply renders_line_inv in R. destruct R as (b & s8 & -> & Bb & Nb & R). apply renders_nil_inv in R. subst s8.
  rewrite !sapp_assoc in E. rewrite skip_blank in E by exact B.
  assert (E' : exists z, skip x = "import" ++ z /\ z = String " " ("foreign" ++ match c with CConvention => String " " (String quote (String "c" (String quote ""))) | NativeConvention => "" end ++ String " " (y ++ String " " (st ++ b ++ k))))
    by (eexists; split; [exact E|reflexivity]).
  destruct E' as (z & E' & Z). exists (b ++ k). split; [|split].
  - unfold foreign_import. eapply pbind_ok; [apply (keyword_ok "import" x z); [exact E'|rewrite Z; reflexivity]|].
    eapply pbind_ok; [apply (keyword_ok "foreign" z); [rewrite Z; reflexivity|destruct c; reflexivity]|]. apply cut_ok.
    assert (T : forall c0, (do x0, s0 <- identifier (String " " (y ++ String " " (st ++ b ++ k))); do t0, s9 <- type_ s0; POk (AForeign x0 c0 t0) s9) = POk (AForeign y c0 t) (b ++ k)).
    { intros c0. eapply pbind_ok; [eapply identifier_ok; [rewrite skip_space; apply name_skip; exact Ny|exact Ny|reflexivity]|].
      eapply pbind_ok; [apply (type_ok t st (b ++ k)); [exact Ft|exact Rt|eapply head_stop; eauto; apply words_keywords|apply skip_space]|]. reflexivity. }
    destruct c.
    + cbn [append]. eapply pbind_ok; [apply convention_ok|]. apply T.
    + cbn [append]. eapply pbind_ok; [apply convention_none; exact Ny|]. apply T.
  - rewrite Z in E'. eapply (progress ("import" ++ String " " ("foreign" ++ match c with CConvention => String " " (String quote (String "c" (String quote ""))) | NativeConvention => "" end ++ String " " (y ++ String " " st)))); [startc|].
    rewrite E'. destruct c; cbn [append]; repeat (rewrite ?sapp_assoc; cbn [append]); reflexivity.
  - apply skip_blank. exact Bb.
Qed.
Definition foreign_start (k : string) : Prop := exists y, skip k = "import foreign" ++ y /\ not_next is_word y = true.
Lemma foreign_head i s k : renders (foreign_document i) s -> foreign_start (s ++ k).
Proof.
  intros R. unfold foreign_document in R. apply renders_gap_inv in R. destruct R as (g & s1 & -> & B & R). apply renders_text_inv in R. destruct R as (s2 & -> & R).
  apply renders_text_inv in R. destruct R as (s3 & -> & R). apply renders_text_inv in R. destruct R as (s4 & -> & R). rewrite !sapp_assoc.
  eexists. rewrite skip_blank by exact B. split; [reflexivity|]. destruct (f_convention i); reflexivity.
Qed.
Lemma foreign_start_head k : foreign_start k -> head words k.
Proof. intros (y & E & N). right. exists "import", (" foreign" ++ y). split; [exact E|]. split; [left; cbn; tauto|reflexivity]. Qed.
Definition after_imports (k : string) : Prop := head ["type"; "foreign"] k \/ foreign_start k.
Lemma later_keywords : incl ["type"; "foreign"] keywords.
Proof. intros w [<-|[<-|[]]]; cbn; tauto. Qed.
Lemma import_end k : after_imports k -> import k = PErr.
Proof.
  intros [H|(y & E & N)]; unfold import.
  - rewrite (head_keyword ["type"; "foreign"]); [reflexivity|exact H|apply later_keywords|cbn; tauto|cbn; intuition discriminate].
  - eapply pbind_ok; [apply (keyword_ok "import" k (" foreign" ++ y)); [exact E|reflexivity]|].
    apply pbind_err. unfold module_path. assert (E1 : skip (" foreign" ++ y) = "foreign" ++ y) by reflexivity. apply alt_right.
    + unfold external_path. rewrite (identifier_keyword "foreign" _ y); [reflexivity|rewrite skip_idem; exact E1|cbn; tauto|exact N].
    + reflexivity.
Qed.
Lemma foreign_end k : head ["type"; "foreign"] k -> foreign_import k = PErr.
Proof. intros H. unfold foreign_import. rewrite (head_keyword ["type"; "foreign"]); [reflexivity|exact H|apply later_keywords|cbn; tauto|cbn; intuition discriminate]. Qed.

(** *** Type definitions *)
Lemma fields_ok l : every (fun p => name (fst p) /\ faithful_type (snd p)) l -> forall s k x,
  renders (flat_map (fun p => Line :: Gap :: Text (fst p) :: Text " " :: type_document (snd p)) l) s -> not_next part k = true -> sign "|" k = PErr -> skip x = skip (s ++ k) ->
  exists r, manys record_field_definition l x r /\ skip r = skip k.
Proof.
  induction l as [|[y t] l IH]; intros F s k x R K1 K2 E; cbn [flat_map fst snd] in *.
  - rinv. exists x. split; [constructor|exact E].
  - destruct F as ((Ny & Ft) & Fl). apply renders_app in R. destruct R as (s1 & s2 & -> & R1 & R2). rewrite sapp_assoc in E.
    apply renders_line_inv in R1. destruct R1 as (b & s3 & -> & B & Nb & R1). apply renders_gap_inv in R1. destruct R1 as (g & s4 & -> & Bg & R1).
    apply renders_text_inv in R1. destruct R1 as (s5 & -> & R1). apply renders_text_inv in R1. destruct R1 as (s6 & -> & R1). rewrite !sapp_assoc in E.
    rewrite skip_blank in E by exact B. rewrite skip_blank in E by exact Bg. rewrite (name_skip y _ Ny) in E. cbn [append] in E.
    assert (St : stop_type (s2 ++ k)).
    { destruct l as [|[z u] l]; [apply renders_nil_inv in R2; subst s2; exact (conj K1 K2)|]. cbn [flat_map fst snd] in R2. destruct Fl as ((Nz & _) & _). cbn [fst] in Nz.
      apply renders_app in R2. destruct R2 as (q1 & q2 & -> & Q & _). apply renders_line_inv in Q. destruct Q as (b' & q3 & -> & B' & Nb' & Q). apply renders_gap_inv in Q. destruct Q as (g' & q4 & -> & Bg' & Q).
      apply renders_text_inv in Q. destruct Q as (q5 & -> & Q). rewrite !sapp_assoc. split; [apply blank_part; assumption|].
      apply (sign_err word_start); [|reflexivity]. rewrite skip_blank by exact B'. rewrite skip_blank by exact Bg'. rewrite name_skip by exact Nz. apply starts_app, name_starts. exact Nz. }
    destruct (IH Fl s2 k (s2 ++ k) R2 K1 K2 eq_refl) as (r & M & Er). exists r. split; [|exact Er].
    apply (manys_cons _ _ _ _ (s2 ++ k)); [| |exact M].
    + unfold record_field_definition. eapply pbind_ok; [eapply identifier_ok; [exact E|exact Ny|reflexivity]|].
      eapply pbind_ok; [apply (type_ok t s6 (s2 ++ k)); [exact Ft|exact R1|exact St|apply skip_space]|]. reflexivity.
    + eapply (progress (y ++ String " " s6)); [apply starts_app; eapply starts_weaken; [apply word_start_solid|apply name_starts; exact Ny]|]. rewrite sapp_assoc. cbn [append]. exact E.
Qed.
Definition typedef_parser : parser atypedef := alt type_alias record_definition.
Lemma typedef_ok d : faithful_typedef d -> item_ok typedef_parser (fun i => i) typedef_document (head words) d.
Proof.
  destruct d as [y l|y t]; intros F s k x R K E; cbn [faithful_typedef] in F; unfold typedef_document in R.
  - destruct F as (Ny & Fl). apply renders_gap_inv in R. destruct R as (g & s1 & -> & B & R). apply renders_text_inv in R. destruct R as (s2 & -> & R). apply renders_text_inv in R. destruct R as (s3 & -> & R).
    apply renders_text_inv in R. destruct R as (s4 & -> & R). apply renders_app in R. destruct R as (sf & s5 & -> & Rf & R). apply renders_app in R. destruct R as (sb & s6 & -> & Rb & R).
    apply renders_text_inv in R. destruct R as (s7 & -> & R). apply renders_line_inv in R. destruct R as (b & s8 & -> & Bb & Nb & R). apply renders_nil_inv in R. subst s8.
    rewrite !sapp_assoc in E. rewrite skip_blank in E by exact B.
    assert (Bs : blank sb) by (destruct l; [apply blank_nothing|apply blank_line]; exact Rb).
    assert (E' : skip x = "type" ++ String " " (y ++ " {" ++ sf ++ sb ++ "}" ++ b ++ k)) by exact E. clear E.
    exists (b ++ k). split; [|split].
    + unfold typedef_parser. apply alt_right.
      * unfold type_alias. eapply pbind_ok; [apply (keyword_ok "type"); [exact E'|reflexivity]|].
        eapply pbind_ok; [eapply identifier_ok; [rewrite skip_space; apply name_skip; exact Ny|exact Ny|reflexivity]|]. reflexivity.
      * unfold record_definition. eapply pbind_ok; [apply (keyword_ok "type"); [exact E'|reflexivity]|].
        eapply pbind_ok; [eapply identifier_ok; [rewrite skip_space; apply name_skip; exact Ny|exact Ny|reflexivity]|].
        eapply pbind_ok; [apply (sign_ok "{"); [reflexivity|discriminate]|]. apply cut_ok.
        assert (Eb : skip (sb ++ "}" ++ b ++ k) = "}" ++ b ++ k) by (rewrite skip_blank by exact Bs; reflexivity).
        destruct (fields_ok l Fl sf (sb ++ "}" ++ b ++ k) (sf ++ sb ++ "}" ++ b ++ k) Rf) as (r & M & Er); [| |reflexivity|].
        { destruct l; [rinv; reflexivity|]. apply renders_line_inv in Rb. destruct Rb as (b' & q & -> & B' & Nb' & Q). rinv. rewrite sapp_assoc. apply blank_part; assumption. }
        { apply (sign_err (Ascii.eqb "}")); [rewrite Eb; startc|reflexivity]. }
        rewrite Eb in Er.
        eapply pbind_ok; [eapply many0_ok; [exact M|]|].
        { unfold record_field_definition. rewrite (identifier_err (Ascii.eqb "}")); [reflexivity|rewrite Er; startc|byc]. }
        eapply pbind_ok; [apply (sign_ok "}"); [exact Er|discriminate]|]. reflexivity.
    + eapply (progress ("type" ++ String " " (y ++ " {" ++ sf ++ sb ++ "}"))); [startc|]. rewrite E'. repeat (rewrite ?sapp_assoc; cbn [append]). reflexivity.
    + apply skip_blank. exact Bb.
  - destruct F as (Ny & Ft). apply renders_gap_inv in R. destruct R as (g & s1 & -> & B & R). apply renders_text_inv in R. destruct R as (s2 & -> & R). apply renders_text_inv in R. destruct R as (s3 & -> & R).
    apply renders_text_inv in R. destruct R as (s4 & -> & R). apply renders_line_inv in R. destruct R as (b1 & s5 & -> & B1 & N1 & R). apply renders_app in R. destruct R as (st & s6 & -> & Rt & R).
    apply renders_line_inv in R. destruct R as (b & s8 & -> & Bb & Nb & R). apply renders_nil_inv in R. subst s8.
    rewrite !sapp_assoc in E. rewrite skip_blank in E by exact B.
    assert (E' : skip x = "type" ++ String " " (y ++ " =" ++ b1 ++ st ++ b ++ k)) by exact E. clear E.
    exists (b ++ k). split; [|split].
    + unfold typedef_parser. apply alt_left. unfold type_alias. eapply pbind_ok; [apply (keyword_ok "type"); [exact E'|reflexivity]|].
      eapply pbind_ok; [eapply identifier_ok; [rewrite skip_space; apply name_skip; exact Ny|exact Ny|reflexivity]|].
      eapply pbind_ok; [apply (sign_ok "="); [reflexivity|intros _; apply blank_next; auto]|].
      eapply pbind_ok; [|reflexivity]. apply cut_ok. apply (type_ok t st (b ++ k)); [exact Ft|exact Rt|eapply head_stop; eauto; apply words_keywords|]. apply skip_blank. exact B1.
    + eapply (progress ("type" ++ String " " (y ++ " =" ++ b1 ++ st))); [startc|]. rewrite E'. repeat (rewrite ?sapp_assoc; cbn [append]). reflexivity.
    + apply skip_blank. exact Bb.
Qed.
Lemma typedef_head d s k : renders (typedef_document d) s -> head ["type"; "foreign"] (s ++ k).
Proof.
  intros R. assert (R' : exists d', renders (Gap :: Text "type " :: d') s) by (destruct d; eexists; exact R). clear R. destruct R' as (d' & R).
  apply renders_gap_inv in R. destruct R as (g & s1 & -> & B & R). apply renders_text_inv in R. destruct R as (s2 & -> & R).
  right. exists "type", (String " " (s2 ++ k)). rewrite sapp_assoc, skip_blank by exact B. split; [reflexivity|]. split; [left; cbn; tauto|reflexivity].
Qed.
Lemma foreign_keywords : incl ["foreign"] keywords.
Proof. intros w [<-|[]]; cbn; tauto. Qed.
Lemma typedef_end k : head ["foreign"] k -> typedef_parser k = PErr.
Proof.
  intros H. assert (X : keyword "type" k = PErr) by (eapply head_keyword; [exact H|apply foreign_keywords|cbn; tauto|cbn; intuition discriminate]).
  unfold typedef_parser. apply alt_right; [unfold type_alias|unfold record_definition]; rewrite X; reflexivity.
Qed.

(** *** Functions *)
Lemma lambda_end l s k x : faithful_lambda l -> renders (lambda_document l) s -> skip x = skip (s ++ k) -> lambda expression x = POk l k.
Proof.
  intros F R E. destruct l as [a r b]. apply (lambda_ok expression (slen s)) with (s := s); auto.
  - intros e t j y _ Fe Re Kj V Ey. eapply expression_ok; eauto.
  - apply expression_err.
Qed.
Lemma function_ok f : faithful_function f -> item_ok function_definition (fun i => i) function_document (head words) f.
Proof.
  destruct f as [y l c]. intros (Ny & Fl) s k x R K E. cbn [fn_name fn_lambda] in *. unfold function_document in R. cbn [fn_name fn_lambda fn_export] in R.
  apply renders_gap_inv in R. destruct R as (g & s1 & -> & B & R). apply renders_app in R. destruct R as (sc & s2 & -> & Rc & R). apply renders_text_inv in R. destruct R as (s3 & -> & R).
  apply renders_text_inv in R. destruct R as (s4 & -> & R). apply renders_app in R. destruct R as (sl & s5 & -> & Rl & R). apply renders_line_inv in R. destruct R as (b & s8 & -> & Bb & Nb & R). apply renders_nil_inv in R. subst s8.
  rewrite !sapp_assoc in E. rewrite skip_blank in E by exact B. cbn [append] in E.
  assert (T : forall z, skip z = y ++ " = " ++ sl ++ b ++ k ->
    (do x0, s0 <- identifier z; do_ s9 <- sign "=" s0; do l0, s10 <- cut (lambda expression s9); POk (ADefinition x0 l0 c) s10) = POk (ADefinition y l c) (b ++ k)).
  { intros z Ez. eapply pbind_ok; [eapply identifier_ok; [exact Ez|exact Ny|reflexivity]|]. eapply pbind_ok; [apply (sign_ok "="); [reflexivity|reflexivity]|].
    eapply pbind_ok; [|reflexivity]. apply cut_ok. eapply lambda_end; [exact Fl|exact Rl|apply skip_space]. }
  exists (b ++ k). assert (M : skip x = (sc ++ y ++ " = " ++ sl) ++ b ++ k /\ starts solid (sc ++ y ++ " = " ++ sl) /\ function_definition x = POk (ADefinition y l c) (b ++ k)).
  { unfold function_definition. destruct c as [c|].
    - apply renders_text_inv in Rc. destruct Rc as (q & -> & Rc). apply renders_text_inv in Rc. destruct Rc as (q1 & -> & Rc). apply renders_nil_inv in Rc. subst q1. rewrite sapp_nil in *.
      destruct c; cbn [append] in *.
      + split; [rewrite !sapp_assoc; cbn [append]; rewrite ?sapp_assoc; exact E|]. split; [startc|].
        eapply pbind_ok; [|apply T; rewrite skip_space; apply name_skip; exact Ny]. apply opt_some. unfold foreign_export.
        eapply pbind_ok; [apply (keyword_ok "foreign"); [exact E|reflexivity]|]. eapply pbind_ok; [apply convention_ok|]. reflexivity.
      + split; [rewrite !sapp_assoc; cbn [append]; rewrite ?sapp_assoc; exact E|]. split; [startc|].
        eapply pbind_ok; [|apply T; rewrite skip_space; apply name_skip; exact Ny]. apply opt_some. unfold foreign_export.
        eapply pbind_ok; [apply (keyword_ok "foreign"); [exact E|reflexivity]|]. eapply pbind_ok; [apply convention_none; exact Ny|]. reflexivity.
    - apply renders_nil_inv in Rc. subst sc. cbn [append] in *. rewrite (name_skip y _ Ny) in E. split; [rewrite sapp_assoc; cbn [append]; exact E|].
      split; [apply starts_app; eapply starts_weaken; [apply word_start_solid|apply name_starts; exact Ny]|].
      eapply pbind_ok; [|apply T; exact E]. apply opt_none. unfold foreign_export. rewrite (keyword_name "foreign" y x _ ltac:(cbn; tauto) E Ny); reflexivity. }
  destruct M as (M1 & M2 & M3). split; [exact M3|]. split; [eapply progress; [exact M2|exact M1]|]. apply skip_blank. exact Bb.
Qed.
Lemma function_head f s k : faithful_function f -> renders (function_document f) s -> head ["foreign"] (s ++ k).
Proof.
  destruct f as [y l c]. intros (Ny & _) R. cbn [fn_name] in Ny. unfold function_document in R. cbn [fn_name fn_lambda fn_export] in R.
  apply renders_gap_inv in R. destruct R as (g & s1 & -> & B & R). apply renders_app in R. destruct R as (sc & s2 & -> & Rc & R). apply renders_text_inv in R. destruct R as (s3 & -> & R).
  apply renders_text_inv in R. destruct R as (s4 & -> & R). right. rewrite sapp_assoc, skip_blank by exact B. destruct c as [c|].
  - apply renders_text_inv in Rc. destruct Rc as (q & -> & Rc). eexists "foreign", _. split; [reflexivity|]. split; [left; cbn; tauto|reflexivity].
  - apply renders_nil_inv in Rc. subst sc. exists y, (" = " ++ s4 ++ k). cbn [append]. rewrite sapp_assoc, name_skip by exact Ny. split; [reflexivity|]. split; [right; exact Ny|reflexivity].
Qed.
Lemma function_end k : skip k = "" -> function_definition k = PErr.
Proof.
  intros E. unfold function_definition. assert (X : keyword "foreign" k = PErr) by (unfold keyword; rewrite E; reflexivity).
  rewrite opt_none by (unfold foreign_export; rewrite X; reflexivity). cbn [pbind]. apply pbind_err. unfold identifier. rewrite E. reflexivity.
Qed.

(** *** Modules *)
Lemma partition_permutation {A} (f : A -> bool) l a b : partition f l = (a, b) -> Permutation l (a ++ b).
Proof.
  revert a b. induction l as [|x l IH]; intros a b; cbn [partition]; [intros [= <- <-]; reflexivity|].
  destruct (partition f l) as [c d]. specialize (IH c d eq_refl). destruct (f x); intros [= <- <-].
  - cbn. constructor. exact IH.
  - apply Permutation_cons_app. exact IH.
Qed.
Lemma Forall2_map_same l : Forall2 same_import l (map sorted_import l).
Proof. induction l; constructor; auto using sorted_same. Qed.
Lemma map_same {A} (l : list A) : map (fun i => i) l = l.
Proof. apply map_id. Qed.
Lemma gap_head G (HG : forall k k', skip k = skip k' -> G k -> G k') b k : blank b -> G k -> G (b ++ k).
Proof. intros B. apply HG. symmetry. apply skip_blank. exact B. Qed.
Lemma after_skip k k' : skip k = skip k' -> after_imports k -> after_imports k'.
Proof. intros E. unfold after_imports, head, foreign_start. rewrite E. exact (fun H => H). Qed.
Lemma after_words k : after_imports k -> head words k.
Proof.
  intros [H|H]; [|apply foreign_start_head; exact H]. eapply head_more; [|exact H]. intros w [<-|[<-|[]]]; cbn; tauto.
Qed.

Definition sorted_module (m : amodule) : amodule :=
  let (ext, int) := partition is_external (m_imports m) in
  AModule (map sorted_import (sort_imports ext) ++ map sorted_import (sort_imports int)) (m_foreign m) (m_types m) (m_functions m).
Lemma module_ok m s : faithful_module m -> renders (module_document m) s -> parse s = Some (sorted_module m) /\ same_module m (sorted_module m).
Proof.
  destruct m as [i f t d]. intros (Fi & Ff & Ft & Fd) R. cbn [m_imports m_foreign m_types m_functions] in *. unfold module_document in R. cbn [m_imports m_foreign m_types m_functions] in R.
  unfold sorted_module. cbn [m_imports m_foreign m_types m_functions]. destruct (partition is_external i) as [ext int] eqn:Pa.
  assert (Pe : Permutation i (sort_imports ext ++ sort_imports int)).
  { etransitivity; [apply (partition_permutation _ _ _ _ Pa)|]. apply Permutation_app; apply sort_permutation. }
  pose proof (every_permutation _ _ _ Pe Fi) as Fs.
  apply renders_app in R. destruct R as (s1 & r1 & -> & R1 & R). apply renders_gap_inv in R. destruct R as (b1 & r2 & -> & B1 & R).
  apply renders_app in R. destruct R as (s2 & r3 & -> & R2 & R). apply renders_gap_inv in R. destruct R as (b2 & r4 & -> & B2 & R).
  apply renders_app in R. destruct R as (s3 & r5 & -> & R3 & R). apply renders_gap_inv in R. destruct R as (b3 & r6 & -> & B3 & R).
  apply renders_app in R. destruct R as (s4 & r7 & -> & R4 & R). apply renders_gap_inv in R. destruct R as (b4 & r8 & -> & B4 & R).
  apply renders_app in R. destruct R as (s5 & r9 & -> & R5 & R). apply renders_gap_inv in R. destruct R as (b5 & r10 & -> & B5 & R). apply renders_nil_inv in R. subst r10.
  rewrite flat_intersperse in R1, R2. rewrite flat_intersperse in R3.
  (* what each part begins with *)
  assert (E5 : skip (b5 ++ "") = "") by (rewrite skip_blank by exact B5; reflexivity).
  assert (H5 : head ["foreign"] (s5 ++ b5 ++ "")).
  { apply (items_head function_document (head ["foreign"]) [Line] d blank_line); [|exact R5|left; exact E5]. intros a I s k Ra. apply function_head with (1 := every_In _ _ _ Fd I). exact Ra. }
  assert (H4 : head ["type"; "foreign"] (s4 ++ b4 ++ s5 ++ b5 ++ "")).
  { apply (items_head typedef_document (head ["type"; "foreign"]) [Line] t blank_line); [|exact R4|].
    - intros a I s k Ra. eapply typedef_head. exact Ra.
    - apply head_blank; [exact B4|]. eapply head_more; [|exact H5]. intros w [<-|[]]; cbn; tauto. }
  assert (H3 : after_imports (s3 ++ b3 ++ s4 ++ b4 ++ s5 ++ b5 ++ "")).
  { apply (items_head foreign_document after_imports [] f blank_nothing); [|exact R3|].
    - intros a I s k Ra. right. eapply foreign_head. exact Ra.
    - left. apply head_blank; [exact B3|exact H4]. }
  assert (H2 : head words (s2 ++ b2 ++ s3 ++ b3 ++ s4 ++ b4 ++ s5 ++ b5 ++ "")).
  { apply (items_head import_document (head words) [] (sort_imports int) blank_nothing); [|exact R2|].
    - intros a I. apply import_head.
    - apply head_blank; [exact B2|]. apply after_words. exact H3. }
  (* the parts *)
  unfold parse, module_.
  destruct (items_ok import sorted_import import_document (head words) (head_skip words) [] (sort_imports ext) blank_nothing) with (s := s1) (k := b1 ++ s2 ++ b2 ++ s3 ++ b3 ++ s4 ++ b4 ++ s5 ++ b5 ++ "") (x := s1 ++ b1 ++ s2 ++ b2 ++ s3 ++ b3 ++ s4 ++ b4 ++ s5 ++ b5 ++ "") as (x1 & M1 & X1).
  { intros a I. split; [apply import_ok; eapply every_In; [exact Fs|apply in_or_app; left; exact I]|apply import_head]. }
  { exact R1. }
  { apply head_blank; [exact B1|exact H2]. }
  { reflexivity. }
  destruct (items_ok import sorted_import import_document (head words) (head_skip words) [] (sort_imports int) blank_nothing) with (s := s2) (k := b2 ++ s3 ++ b3 ++ s4 ++ b4 ++ s5 ++ b5 ++ "") (x := x1) as (x2 & M2 & X2).
  { intros a I. split; [apply import_ok; eapply every_In; [exact Fs|apply in_or_app; right; exact I]|apply import_head]. }
  { exact R2. }
  { apply head_blank; [exact B2|apply after_words; exact H3]. }
  { rewrite X1. apply skip_blank. exact B1. }
  destruct (items_ok foreign_import (fun i => i) foreign_document (head words) (head_skip words) [] f blank_nothing) with (s := s3) (k := b3 ++ s4 ++ b4 ++ s5 ++ b5 ++ "") (x := x2) as (x3 & M3 & X3).
  { intros a I. split; [apply foreign_ok; eapply every_In; eauto|]. intros s k Ra. apply foreign_start_head. eapply foreign_head. exact Ra. }
  { exact R3. }
  { apply head_blank; [exact B3|apply after_words; left; exact H4]. }
  { rewrite X2. apply skip_blank. exact B2. }
  destruct (items_ok typedef_parser (fun i => i) typedef_document (head words) (head_skip words) [Line] t blank_line) with (s := s4) (k := b4 ++ s5 ++ b5 ++ "") (x := x3) as (x4 & M4 & X4).
  { intros a I. split; [apply typedef_ok; eapply every_In; eauto|]. intros s k Ra. apply after_words. left. eapply typedef_head. exact Ra. }
  { exact R4. }
  { apply head_blank; [exact B4|]. eapply head_more; [|exact H5]. intros w [<-|[]]; cbn; tauto. }
  { rewrite X3. apply skip_blank. exact B3. }
  destruct (items_ok function_definition (fun i => i) function_document (head words) (head_skip words) [Line] d blank_line) with (s := s5) (k := b5 ++ "") (x := x4) as (x5 & M5 & X5).
  { intros a I. split; [apply function_ok; eapply every_In; eauto|]. intros s k Ra. eapply head_more; [|apply function_head with (2 := Ra); eapply every_In; eauto]. intros w [<-|[]]; cbn; tauto. }
  { exact R5. }
  { left. exact E5. }
  { rewrite X4. apply skip_blank. exact B4. }
  rewrite !map_same in *. rewrite ?sapp_assoc.
  split.
  - erewrite many0_ok; [|eapply manys_app; [exact M1|exact M2]|].
    2: { apply import_end. eapply after_skip; [symmetry; exact X2|]. eapply after_skip; [|exact H3]. symmetry. apply skip_blank. exact B2. }
    cbn [pbind]. erewrite many0_ok; [|exact M3|].
    2: { apply foreign_end. eapply head_skip; [symmetry; exact X3|]. apply head_blank; [exact B3|exact H4]. }
    cbn [pbind]. change (alt type_alias record_definition) with typedef_parser. erewrite many0_ok; [|exact M4|].
    2: { apply typedef_end. eapply head_skip; [symmetry; exact X4|]. apply head_blank; [exact B4|exact H5]. }
    cbn [pbind]. erewrite many0_ok; [|exact M5|].
    2: { apply function_end. rewrite X5. exact E5. }
    cbn [pbind]. rewrite X5, E5. reflexivity.
  - split; [|auto]. cbn [m_imports]. exists (sort_imports ext ++ sort_imports int)%list. split; [exact Pe|]. rewrite <- map_app. apply Forall2_map_same.
Qed.

(** *** Sorting once is enough. *)
Section Sort.
  Context {A : Type} (le : A -> A -> bool) (total : forall x y, le x y = false -> le y x = true).
  Fixpoint ascending (l : list A) : Prop := match l with [] => True | x :: l => match l with [] => True | y :: _ => le x y = true end /\ ascending l end.
  Lemma insert_ascending x l : ascending l -> ascending (insert le x l).
  Proof.
    induction l as [|y l IH]; [cbn; auto|]. cbn [insert]. intros H. destruct (le x y) eqn:E; [split; assumption|]. destruct H as [H1 H2]. specialize (IH H2).
    split; [|exact IH]. destruct l as [|z l]; cbn [insert] in *; [apply total; exact E|]. destruct (le x z); [apply total; exact E|exact H1].
  Qed.
  Lemma sort_ascending l : ascending (sort le l).
  Proof. induction l as [|x l IH]; [exact I|]. cbn [sort fold_right]. apply insert_ascending. exact IH. Qed.
  Lemma ascending_sort l : ascending l -> sort le l = l.
  Proof.
    induction l as [|x l IH]; [reflexivity|]. intros [H1 H2]. cbn [sort fold_right]. change (fold_right (insert le) [] l) with (sort le l). rewrite (IH H2).
    destruct l as [|y l]; [reflexivity|]. cbn [insert]. rewrite H1. reflexivity.
  Qed.
  Lemma sort_idem l : sort le (sort le l) = sort le l.
  Proof. apply ascending_sort, sort_ascending. Qed.
End Sort.
Lemma sort_map {A} (f : A -> A) le l : (forall x y, le (f x) (f y) = le x y) -> sort le (map f l) = map f (sort le l).
Proof.
  intros H. induction l as [|x l IH]; [reflexivity|]. cbn [map sort fold_right]. change (fold_right (insert le) [] (map f l)) with (sort le (map f l)). rewrite IH.
  change (fold_right (insert le) [] l) with (sort le l). generalize (sort le l). clear IH l. intros l. induction l as [|y l IH]; [reflexivity|]. cbn [map insert]. rewrite H.
  destruct (le x y); [reflexivity|]. cbn [map]. rewrite IH. reflexivity.
Qed.
Lemma compare_gt a b : String.compare a b = Gt -> String.compare b a = Lt.
Proof. intros H. rewrite String.compare_antisym, H. reflexivity. Qed.
Lemma compare_swap a b : String.compare b a = CompOpp (String.compare a b).
Proof. apply String.compare_antisym. Qed.
Lemma string_total x y : string_le x y = false -> string_le y x = true.
Proof. unfold string_le. rewrite (compare_swap x y). destruct (String.compare x y); intros; discriminate || reflexivity. Qed.
Lemma strings_total x : forall y, strings_le x y = false -> strings_le y x = true.
Proof.
  induction x as [|a x IH]; intros [|b y]; cbn; try discriminate; try reflexivity. rewrite (compare_swap a b). destruct (String.compare a b); cbn; auto; discriminate.
Qed.
Lemma path_total x y : path_le x y = false -> path_le y x = true.
Proof. destruct x, y; cbn [path_le]; try discriminate; try reflexivity; apply strings_total. Qed.

Lemma partition_true {A} (f : A -> bool) a b : (forall x, In x a -> f x = true) -> (forall x, In x b -> f x = false) -> partition f (a ++ b) = (a, b).
Proof.
  intros Ha Hb. induction a as [|x a IH]; cbn [app partition].
  - induction b as [|x b IH]; [reflexivity|]. cbn [partition]. rewrite IH by (intros y I; apply Hb; right; exact I). rewrite Hb by (left; reflexivity). reflexivity.
  - rewrite IH by (intros y I; apply Ha; right; exact I). rewrite Ha by (left; reflexivity). reflexivity.
Qed.
Lemma partition_sides {A} (f : A -> bool) l a b : partition f l = (a, b) -> (forall x, In x a -> f x = true) /\ (forall x, In x b -> f x = false).
Proof.
  revert a b. induction l as [|x l IH]; intros a b; cbn [partition]; [intros [= <- <-]; split; intros y []|].
  destruct (partition f l) as [c d]. destruct (IH c d eq_refl) as [H1 H2]. destruct (f x) eqn:E; intros [= <- <-]; split; auto.
  - intros y [<-|I]; auto.
  - intros y [<-|I]; auto.
Qed.
Lemma flat_map_map {A} (f : A -> A) (D : A -> document) l : (forall a, D (f a) = D a) -> flat_map D (map f l) = flat_map D l.
Proof. intros H. induction l as [|x l IH]; [reflexivity|]. cbn. rewrite H, IH. reflexivity. Qed.
Lemma insert_some {A} (le : A -> A -> bool) x l : insert le x l <> [].
Proof. destruct l; cbn [insert]; [discriminate|]. destruct (le x a); discriminate. Qed.
Lemma sorted_import_document i : import_document (sorted_import i) = import_document i.
Proof.
  destruct i as [p o l]. unfold import_document, sorted_import. cbn [i_path i_prefix i_names]. f_equal. f_equal. f_equal. f_equal. f_equal.
  destruct l as [|x l]; [reflexivity|]. destruct (sort string_le (x :: l)) as [|y m] eqn:E.
  - cbn [sort fold_right] in E. exfalso. exact (insert_some _ _ _ E).
  - rewrite <- E, (sort_idem _ string_total). reflexivity.
Qed.
Lemma sort_imports_sorted l : sort_imports (map sorted_import (sort_imports l)) = map sorted_import (sort_imports l).
Proof. unfold sort_imports. rewrite sort_map by reflexivity. rewrite sort_idem; [reflexivity|]. intros x y. apply path_total. Qed.
Lemma sorted_module_document m : module_document (sorted_module m) = module_document m.
Proof.
  unfold sorted_module, module_document. destruct (partition is_external (m_imports m)) as [ext int] eqn:P. cbn [m_imports m_foreign m_types m_functions].
  destruct (partition_sides _ _ _ _ P) as [H1 H2]. rewrite partition_true.
  - rewrite !sort_imports_sorted, !flat_map_map by apply sorted_import_document. reflexivity.
  - intros x I. apply in_map_iff in I. destruct I as (y & <- & I). apply (H1 y). eapply Permutation_in; [apply Permutation_sym; apply sort_permutation|exact I].
  - intros x I. apply in_map_iff in I. destruct I as (y & <- & I). apply (H2 y). eapply Permutation_in; [apply Permutation_sym; apply sort_permutation|exact I].
Qed.

(** *** Every document can be printed. *)
Lemma plain_app (d e : document) : plain (d ++ e)%list = plain d ++ plain e.
Proof. induction d as [|p d IH]; [reflexivity|]. cbn [app plain]. rewrite IH, sapp_assoc. reflexivity. Qed.
Lemma newline_blank : blank (String newline "").
Proof. apply blank_space; [reflexivity|constructor]. Qed.
Fixpoint piece_ind_ (P : piece -> Prop) (HT : forall t, P (Text t)) (HL : P Line) (HGp : P Gap) (HM : forall d, Forall P d -> P (Maybe d)) (p : piece) : P p :=
  match p with
  | Text t => HT t
  | Line => HL
  | Gap => HGp
  | Maybe d => HM d ((fix go d : Forall P d := match d with [] => Forall_nil P | q :: d => Forall_cons q (piece_ind_ P HT HL HGp HM q) (go d) end) d)
  end.
Lemma plain_maybe d : plain_piece (Maybe d) = plain d.
Proof. reflexivity. Qed.
Lemma renders_piece p : forall d s, renders d s -> renders (p :: d) (plain_piece p ++ s).
Proof.
  induction p as [t| | |m Hm] using piece_ind_; intros d s R.
  - apply renders_text. exact R.
  - apply renders_line; [apply newline_blank|discriminate|exact R].
  - apply (renders_gap ""); [constructor|exact R].
  - rewrite plain_maybe. apply renders_broken. induction Hm as [|q m Hq _ IH]; [exact R|]. cbn [app plain]. rewrite sapp_assoc. apply Hq. exact IH.
Qed.
Lemma renders_plain d : renders d (plain d).
Proof. induction d as [|p d IH]; [constructor|]. cbn [plain]. apply renders_piece. exact IH. Qed.
