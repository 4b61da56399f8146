From Coq Require Import NArith Ascii List Bool Lia Arith.
From Verif Require Import Literal LiteralSpec.
Import ListNotations.

(** Rendering pieces with a function for each stage of the compilation. *)
Section Stage.
  Variables a b c : ascii.
  Variables f g : piece -> text.

  (** A list of pieces goes from stage [f] to stage [g] piece by piece, as long as
      no pair of [a] and [b] straddles pieces or hides in one. *)
  Lemma replace2_cons x s : (x <> a \/ hd_error s <> Some b) -> replace2 a b c (x :: s) = x :: replace2 a b c s.
  Proof.
    intros H. destruct s as [|y s]; [reflexivity|]. cbn [replace2]. destruct (Ascii.eqb_spec x a) as [->|]; [|reflexivity].
    destruct (Ascii.eqb_spec y b) as [->|]; [|reflexivity]. cbn in H. destruct H; congruence.
  Qed.

  Lemma replace2_hit s : replace2 a b c (a :: b :: s) = c :: replace2 a b c s.
  Proof. cbn [replace2]. rewrite !Ascii.eqb_refl. reflexivity. Qed.
End Stage.

(** Stage 0 is the source; stage 1 after backslashes, 2 after quotes, 3 after
    newlines, 4 after returns, 5 after tabs. *)
Definition stage (k : nat) (p : piece) : text :=
  match p with
  | PPlain c => [c]
  | PBackslash => if 1 <=? k then [backslash] else source_piece p
  | PQuote => if 2 <=? k then [quote] else source_piece p
  | PNewline => if 3 <=? k then [newline] else source_piece p
  | PReturn => if 4 <=? k then [return_] else source_piece p
  | PTab => if 5 <=? k then [tab] else source_piece p
  | PByte h1 h2 => source_piece p
  end.
Definition render (k : nat) (l : list piece) : text := flat_map (stage k) l.

Lemma hex_digit_value c : hex_digit c = hex_value c.
Proof. destruct c as [[] [] [] [] [] [] [] []]; reflexivity. Qed.

Lemma hex_not c d : hex_digit c <> None -> hex_digit d = None -> c <> d.
Proof. intros H1 H2 ->. congruence. Qed.

(** First characters after a backslash. *)
Definition hd_plain (l : list piece) : option ascii := match l with PPlain c :: _ => Some c | _ => None end.

Lemma render_hd k l x : Forall piece_ok l -> hd_error (render k l) = Some x -> x <> backslash -> x <> quote -> x <> newline -> x <> return_ -> x <> tab ->
  hd_plain l = Some x.
Proof.
  intros H E. destruct l as [|p l]; [discriminate|]. cbn [render flat_map] in E. destruct p; cbn [stage source_piece] in E;
    repeat match type of E with context [?n <=? ?m] => destruct (n <=? m) end; cbn in E; injection E as <-; cbn; congruence.
Qed.

Lemma stage1 l : Forall piece_ok l -> replace2 backslash backslash backslash (render 0 l) = render 1 l.
Proof.
  induction 1 as [|p l Hp Hl IH]; [reflexivity|]. cbn [render flat_map]. change (flat_map (stage 0) l) with (render 0 l). change (flat_map (stage 1) l) with (render 1 l).
  rewrite <- IH. destruct p as [c| | | | | |h1 h2]; cbn [stage source_piece Nat.leb app].
  - cbn in Hp. apply replace2_cons. left. tauto.
  - apply replace2_hit.
  - rewrite replace2_cons by (right; discriminate). f_equal. apply replace2_cons. left. discriminate.
  - rewrite replace2_cons by (right; discriminate). f_equal. apply replace2_cons. left. discriminate.
  - rewrite replace2_cons by (right; discriminate). f_equal. apply replace2_cons. left. discriminate.
  - rewrite replace2_cons by (right; discriminate). f_equal. apply replace2_cons. left. discriminate.
  - cbn in Hp. destruct Hp as [H1 H2]. rewrite replace2_cons by (right; discriminate). f_equal. rewrite replace2_cons by (left; discriminate). f_equal.
    rewrite replace2_cons by (left; apply hex_not; [exact H1|reflexivity]). f_equal. apply replace2_cons. left. apply hex_not; [exact H2|reflexivity].
Qed.

Lemma unamb_backslash l : unambiguous (PBackslash :: l) -> reads_as_escape l = false /\ unambiguous l.
Proof. exact (fun H => H). Qed.
Lemma unamb_tail p l : unambiguous (p :: l) -> unambiguous l.
Proof. destruct p; cbn; tauto. Qed.

Lemma not_escape l c : reads_as_escape l = false -> hd_plain l = Some c -> c <> "n"%char /\ c <> "r"%char /\ c <> "t"%char.
Proof.
  destruct l as [|[c'| | | | | |] l]; try discriminate. cbn [reads_as_escape hd_plain]. intros H E. injection E as ->.
  rewrite !orb_false_iff in H. destruct H as [[[H1 H2] H3] _]. apply Ascii.eqb_neq in H1, H2, H3. auto.
Qed.

Ltac plain_hex := match goal with
  | H : hex_digit ?h <> None |- ?h <> _ => apply hex_not; [exact H|reflexivity]
  end.

(** Stages that replace backslash and a character [b] by [c], where [q] is the
    piece written like that. *)
Lemma stage_step k b c q : 
  (forall p, stage (S k) p = if match p, q with PQuote, PQuote | PNewline, PNewline | PReturn, PReturn | PTab, PTab => true | _, _ => false end
                             then [c] else stage k p) ->
  stage k q = [backslash; b] -> stage k PBackslash = [backslash] -> b <> backslash -> b <> "x"%char ->
  match q with PQuote | PNewline | PReturn | PTab => True | _ => False end ->
  (forall p, match p with PPlain _ | PBackslash | PByte _ _ => True | _ => p = q \/ (exists b', stage k p = [backslash; b'] /\ b' <> b /\ b' <> backslash) \/ (exists b', stage k p = [b'] /\ b' <> backslash) end) ->
  forall l, Forall piece_ok l -> unambiguous l ->
  (forall l', reads_as_escape l' = false -> Forall piece_ok l' -> hd_error (render k l') <> Some b) ->
  replace2 backslash b c (render k l) = render (S k) l.
Proof.
  intros Hstage Hq Hb Hbb Hbx Hqq Hother l Hl. induction Hl as [|p l Hp Hl IH]; intros Hu Hh; [reflexivity|].
  specialize (IH (unamb_tail _ _ Hu) Hh). cbn [render flat_map]. change (flat_map (stage k) l) with (render k l). change (flat_map (stage (S k)) l) with (render (S k) l).
  rewrite <- IH. rewrite Hstage.
  assert (Hcase : p = q \/ stage k p = [backslash; b] \/ p <> q) by (destruct p, q; auto; right; right; discriminate).
  specialize (Hother p). destruct p as [x| | | | | |h1 h2].
  - cbn [stage app]. cbn in Hp. apply replace2_cons. left. tauto.
  - rewrite Hb. cbn [app]. apply replace2_cons. right. destruct (unamb_backslash _ Hu) as [Hr _]. apply Hh; assumption.
  - destruct q; try tauto; [rewrite Hq; cbn [app]; apply replace2_hit| | |];
      (destruct Hother as [X|[(b' & X & Y & Z)|(b' & X & Y)]]; [discriminate|rewrite X; cbn [app]; rewrite replace2_cons by (right; cbn; congruence); f_equal; apply replace2_cons; left; exact Z|rewrite X; cbn [app]; apply replace2_cons; left; exact Y]).
  - destruct q; try tauto; [|rewrite Hq; cbn [app]; apply replace2_hit| |];
      (destruct Hother as [X|[(b' & X & Y & Z)|(b' & X & Y)]]; [discriminate|rewrite X; cbn [app]; rewrite replace2_cons by (right; cbn; congruence); f_equal; apply replace2_cons; left; exact Z|rewrite X; cbn [app]; apply replace2_cons; left; exact Y]).
  - destruct q; try tauto; [| |rewrite Hq; cbn [app]; apply replace2_hit|];
      (destruct Hother as [X|[(b' & X & Y & Z)|(b' & X & Y)]]; [discriminate|rewrite X; cbn [app]; rewrite replace2_cons by (right; cbn; congruence); f_equal; apply replace2_cons; left; exact Z|rewrite X; cbn [app]; apply replace2_cons; left; exact Y]).
  - destruct q; try tauto; [| | |rewrite Hq; cbn [app]; apply replace2_hit];
      (destruct Hother as [X|[(b' & X & Y & Z)|(b' & X & Y)]]; [discriminate|rewrite X; cbn [app]; rewrite replace2_cons by (right; cbn; congruence); f_equal; apply replace2_cons; left; exact Z|rewrite X; cbn [app]; apply replace2_cons; left; exact Y]).
  - cbn in Hp. destruct Hp as [H1 H2]. cbn [stage source_piece app]. rewrite replace2_cons by (right; cbn; congruence). f_equal. rewrite replace2_cons by (left; discriminate). f_equal.
    rewrite replace2_cons by (left; plain_hex). f_equal. apply replace2_cons. left. plain_hex.
Qed.

Ltac other_pieces := intros []; try exact I;
  first [left; reflexivity | right; left; eexists; split; [reflexivity|split; discriminate] | right; right; eexists; split; [reflexivity|discriminate]].
Ltac hd_plain_case k := intros l' Hr Hfx E; eapply (render_hd k) in E; [|exact Hfx|discriminate..]; apply not_escape in E; [|exact Hr]; destruct E as (? & ? & ?); congruence.

Lemma no_quote k l : 1 <= k <= 1 -> Forall piece_ok l -> hd_error (render k l) <> Some quote.
Proof.
  intros Hk H E. assert (k = 1) by lia. subst k. destruct H as [|p l Hp Hl]; [discriminate|]. destruct p; cbn in E; try discriminate. cbn in Hp. injection E as ->. tauto.
Qed.

Lemma stage2 l : Forall piece_ok l -> unambiguous l -> replace2 backslash quote quote (render 1 l) = render 2 l.
Proof.
  intros Hf Hu. eapply (stage_step 1 quote quote PQuote); auto; try discriminate; try reflexivity; try exact I.
  - intros []; reflexivity.
  - other_pieces.
  - intros l' _ Hf'. apply no_quote; [lia|exact Hf'].
Qed.

Lemma stage3 l : Forall piece_ok l -> unambiguous l -> replace2 backslash "n" newline (render 2 l) = render 3 l.
Proof.
  intros Hf Hu. eapply (stage_step 2 "n" newline PNewline); auto; try discriminate; try reflexivity; try exact I.
  - intros []; reflexivity.
  - other_pieces.
  - hd_plain_case 2.
Qed.

Lemma stage4 l : Forall piece_ok l -> unambiguous l -> replace2 backslash "r" return_ (render 3 l) = render 4 l.
Proof.
  intros Hf Hu. eapply (stage_step 3 "r"%char return_ PReturn); auto; try discriminate; try reflexivity; try exact I.
  - intros []; reflexivity.
  - other_pieces.
  - hd_plain_case 3.
Qed.

Lemma stage5 l : Forall piece_ok l -> unambiguous l -> replace2 backslash "t" tab (render 4 l) = render 5 l.
Proof.
  intros Hf Hu. eapply (stage_step 4 "t"%char tab PTab); auto; try discriminate; try reflexivity; try exact I.
  - intros []; reflexivity.
  - other_pieces.
  - hd_plain_case 4.
Qed.

(** *** The byte escapes *)
Lemma replace_hex_cons a s : a <> backslash -> replace_hex (a :: s) = a :: replace_hex s.
Proof.
  intros H. destruct s as [|x [|h1 [|h2 s]]]; try reflexivity. cbn [replace_hex].
  destruct (Ascii.eqb_spec a backslash); [contradiction|reflexivity].
Qed.

(** Not an escape: [x] and two digits do not follow. *)
Definition starts_hex (s : text) : bool :=
  match s with
  | x :: h1 :: h2 :: _ => Ascii.eqb x "x" && match hex_value h1, hex_value h2 with Some _, Some _ => true | _, _ => false end
  | _ => false
  end.

Lemma replace_hex_back s : starts_hex s = false -> replace_hex (backslash :: s) = backslash :: replace_hex s.
Proof.
  intros H. destruct s as [|x [|h1 [|h2 s]]]; try reflexivity. cbn [starts_hex] in H. cbn [replace_hex].
  rewrite Ascii.eqb_refl. cbn [andb]. destruct (Ascii.eqb x "x"); [|reflexivity]. cbn in H. destruct (hex_value h1); [|reflexivity]. destruct (hex_value h2); [discriminate|reflexivity].
Qed.

Lemma stage6 l : Forall piece_ok l -> unambiguous l -> replace_hex (render 5 l) = value l.
Proof.
  induction 1 as [|p l Hp Hl IH]; intros Hu; [reflexivity|]. specialize (IH (unamb_tail _ _ Hu)).
  cbn [render flat_map value map]. change (flat_map (stage 5) l) with (render 5 l). change (map piece_value l) with (value l). rewrite <- IH.
  destruct p as [c| | | | | |h1 h2]; cbn [stage source_piece Nat.leb app piece_value]; try (apply replace_hex_cons; discriminate).
  - cbn in Hp. apply replace_hex_cons. tauto.
  - apply replace_hex_back. destruct (unamb_backslash _ Hu) as [Hr _]. clear - Hr Hl.
    destruct l as [|p l]; [reflexivity|]. inversion Hl as [|? ? Hp Hl']; subst. destruct p as [c| | | | | |]; try (cbn [render flat_map stage source_piece Nat.leb app starts_hex]; change (flat_map (stage 5) l) with (render 5 l); destruct (render 5 l) as [|? [|? ?]]; reflexivity).
    + cbn [render flat_map stage app]. change (flat_map (stage 5) l) with (render 5 l). cbn [reads_as_escape] in Hr. apply orb_false_iff in Hr. destruct Hr as [_ Hr]. 
      cbn [starts_hex]. destruct l as [|p1 l]; [reflexivity|]. inversion Hl' as [|? ? Hp1 Hl1]; subst.
      assert (Hx : forall x s, hex_value x = None -> (match x :: s with h1 :: h2 :: _ => Ascii.eqb c "x" && match hex_value h1, hex_value h2 with Some _, Some _ => true | _, _ => false end | _ => false end) = false).
      { intros x s Hx. destruct s; [reflexivity|]. rewrite Hx. apply andb_false_r. }
      destruct p1 as [c1| | | | | |]; cbn [render flat_map stage source_piece Nat.leb app]; try (apply Hx; reflexivity); try (apply andb_false_r).
      cbn [render flat_map stage app]. change (flat_map (stage 5) l) with (render 5 l). destruct l as [|p2 l]; [reflexivity|].
      assert (Hy : forall y, hex_value y = None -> Ascii.eqb c "x" && match hex_value c1, hex_value y with Some _, Some _ => true | _, _ => false end = false).
      { intros y ->. destruct (hex_value c1); apply andb_false_r. }
      destruct p2 as [c2| | | | | |]; [rewrite !hex_digit_value in Hr; exact Hr|..]; cbn [render flat_map stage source_piece Nat.leb app]; apply Hy; reflexivity.
  - cbn in Hp. destruct Hp as [H1 H2]. cbn [replace_hex]. rewrite !Ascii.eqb_refl. cbn [andb]. unfold digit_value. rewrite !hex_digit_value in *.
    destruct (hex_value h1); [|congruence]. destruct (hex_value h2); [|congruence]. reflexivity.
Qed.

Lemma compile_string_ok l : Forall piece_ok l -> unambiguous l -> compile_string (source l) = value l.
Proof.
  intros Hf Hu. unfold compile_string. change (source l) with (render 0 l) || idtac.
  assert (source l = render 0 l) as ->.
  { unfold source, render. apply flat_map_ext. intros []; reflexivity. }
  rewrite stage1, stage2, stage3, stage4, stage5, stage6 by assumption. reflexivity.
Qed.

(** *** Every byte string can be written. *)
Definition digit_of (n : N) : ascii := ascii_of_N (if (n <? 10)%N then 48 + n else 87 + n).
Definition byte_piece (c : ascii) : piece := PByte (digit_of (N_of_ascii c / 16)) (digit_of (N_of_ascii c mod 16)).

Lemma byte_piece_ok c : piece_ok (byte_piece c) /\ piece_value (byte_piece c) = c.
Proof. destruct c as [[] [] [] [] [] [] [] []]; vm_compute; repeat split; discriminate. Qed.

Lemma bytes_unambiguous s : unambiguous (map byte_piece s).
Proof. induction s; cbn; auto. Qed.

Lemma compile_bytes s : compile_string (source (map byte_piece s)) = s.
Proof.
  rewrite compile_string_ok.
  - unfold value. rewrite map_map. rewrite <- (map_id s) at 2. apply map_ext. intros c. apply byte_piece_ok.
  - apply Forall_forall. intros p H. apply in_map_iff in H. destruct H as (c & <- & _). apply byte_piece_ok.
  - apply bytes_unambiguous.
Qed.

(** *** Paths *)
Lemma text_eqb_eq s : forall t, text_eqb s t = true <-> s = t.
Proof.
  induction s as [|c s IH]; intros [|d t]; cbn; try (split; congruence). rewrite andb_true_iff, IH, Ascii.eqb_eq. split; [intros [-> ->]; reflexivity|intros E; injection E; auto].
Qed.

Lemma relative_join p q : relative_to (join q p) q = Some p.
Proof.
  unfold relative_to, join. assert (zip_equal (q ++ p) q = true) as ->.
  { induction q as [|c q IH]; cbn; [destruct p; reflexivity|]. rewrite IH, andb_true_r. apply text_eqb_eq. reflexivity. }
  f_equal. induction q; cbn; auto.
Qed.

Lemma join_relative p q r : relative_to p q = Some r -> length q <= length p -> join q r = p.
Proof.
  unfold relative_to, join. destruct (zip_equal p q) eqn:E; [|discriminate]. intros H. injection H as <-.
  revert p E. induction q as [|d q IH]; intros [|c p] E Hl; cbn in *; try lia; try reflexivity.
  apply andb_true_iff in E. destruct E as [E1 E2]. apply text_eqb_eq in E1. subst. f_equal. apply IH; [exact E2|lia].
Qed.

Lemma before_no_dot s : has_newline s = false -> ~ In dot (before_extension s).
Proof.
  induction s as [|c s IH]; [auto|]. intros H. cbn [before_extension]. assert (H' : has_newline s = false) by (unfold has_newline in *; cbn in H; apply orb_false_iff in H; tauto). clear H. rename H' into H. rewrite H. cbn [negb]. rewrite andb_true_r.
  destruct (Ascii.eqb_spec c dot); [auto|]. intros [X|X]; [congruence|]. apply IH in H. auto.
Qed.

Lemma after_no_dot s t : ~ In dot s -> after_dot (s ++ dot :: t) = t.
Proof.
  induction s as [|c s IH]; cbn; intros H; [reflexivity|]. destruct (Ascii.eqb_spec c dot); [subst; tauto|]. apply IH. tauto.
Qed.
Lemma after_none s : ~ In dot s -> after_dot s = [].
Proof. induction s as [|c s IH]; cbn; intros H; [reflexivity|]. destruct (Ascii.eqb_spec c dot); [subst; tauto|]. apply IH. tauto. Qed.

Lemma extension_set dir name extension : has_newline name = false ->
  has_extension (with_extension (dir ++ [name]) extension) extension = true /\
  exists name', with_extension (dir ++ [name]) extension = dir ++ [name'].
Proof.
  intros Hn. unfold with_extension. rewrite rev_app_distr. cbn [rev app]. rewrite removelast_last. split; [|eexists; reflexivity].
  unfold has_extension. rewrite rev_app_distr. cbn [rev app]. pose proof (before_no_dot name Hn) as Hd. destruct extension as [|c e].
  - rewrite app_nil_r, after_none by exact Hd. destruct (before_extension name); reflexivity.
  - rewrite after_no_dot by exact Hd. destruct (text_eqb (c :: e) (before_extension name ++ dot :: c :: e)) eqn:E.
    + apply text_eqb_eq in E. apply (f_equal (@length ascii)) in E. rewrite app_length in E. cbn in E. lia.
    + apply text_eqb_eq. reflexivity.
Qed.

Lemma before_idem s : ~ In dot s -> before_extension s = s.
Proof. induction s as [|c s IH]; cbn; intros H; [reflexivity|]. destruct (Ascii.eqb_spec c dot); [subst; tauto|]. cbn. f_equal. apply IH. tauto. Qed.
Lemma before_app s t : ~ In dot s -> has_newline t = false -> before_extension (s ++ dot :: t) = s.
Proof.
  intros H Ht. induction s as [|c s IH]; cbn [app before_extension].
  - rewrite Ht. reflexivity.
  - destruct (Ascii.eqb_spec c dot); [subst; cbn in H; tauto|]. cbn. f_equal. apply IH. cbn in H. tauto.
Qed.

(** Setting twice is setting the second. *)
Lemma extension_twice dir name e e' : has_newline name = false -> has_newline e = false ->
  with_extension (with_extension (dir ++ [name]) e) e' = with_extension (dir ++ [name]) e'.
Proof.
  intros Hn He. unfold with_extension at 2 3. rewrite rev_app_distr. cbn [rev app]. rewrite !removelast_last.
  unfold with_extension. rewrite rev_app_distr. cbn [rev app]. rewrite removelast_last. f_equal. f_equal. f_equal.
  pose proof (before_no_dot name Hn) as Hd. destruct e as [|c e]; [rewrite app_nil_r; apply before_idem, Hd|apply before_app; assumption].
Qed.
