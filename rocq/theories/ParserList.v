From Coq Require Import String Ascii List Bool Arith Lia.
From Verif Require Import Syntax Ast Parser Printer ParserSpec ParserToken.
Import ListNotations.
Local Open Scope string_scope.

(** Takes apart what documents are printed as. *)
Ltac rinv :=
  repeat match goal with
  | H : renders (_ ++ _)%list _ |- _ =>
      let a := fresh "t" in let b := fresh "t" in let Ha := fresh "R" in let Hb := fresh "R" in
      apply renders_app in H; destruct H as (a & b & ? & Ha & Hb); subst
  | H : renders (Text _ :: _) _ |- _ =>
      let r := fresh "t" in let Hr := fresh "R" in apply renders_text_inv in H; destruct H as (r & ? & Hr); subst
  | H : renders (Line :: _) _ |- _ =>
      let b := fresh "b" in let r := fresh "t" in let Hb := fresh "B" in let Hn := fresh "N" in let Hr := fresh "R" in
      apply renders_line_inv in H; destruct H as (b & r & ? & Hb & Hn & Hr); subst
  | H : renders (Gap :: _) _ |- _ =>
      let b := fresh "b" in let r := fresh "t" in let Hb := fresh "B" in let Hr := fresh "R" in
      apply renders_gap_inv in H; destruct H as (b & r & ? & Hb & Hr); subst
  | H : renders [] _ |- _ => apply renders_nil_inv in H; subst
  end.
Ltac norm := repeat (rewrite ?sapp_assoc, ?sapp_nil in *; cbn [append] in * ).
Ltac lens := repeat (rewrite ?slen_app, ?slen_cons, ?slen_nil in * ).

Lemma every_In {A} (P : A -> Prop) l x : every P l -> In x l -> P x.
Proof. induction l as [|y l IH]; cbn; [tauto|]. intros [H1 H2] [<-|H]; auto. Qed.

(** A separator is a comma and blanks. *)
Definition comma (d : document) : Prop := forall t, renders d t -> exists b, blank b /\ t = String "," b.
Lemma comma_alone : comma [Text ","].
Proof. intros t R. rinv. exists "". split; [constructor|reflexivity]. Qed.
Lemma comma_space : comma [Text ", "].
Proof. intros t R. rinv. exists " ". split; [apply blank_one|reflexivity]. Qed.
Lemma comma_line : comma [Text ","; Line].
Proof. intros t R. rinv. norm. exists b. auto. Qed.
Lemma sign_comma x r : skip x = String "," r -> sign "," x = POk tt r.
Proof. intros E. apply sign_ok; [exact E|discriminate]. Qed.

Section Lists.
  Context {A : Type} (p : parser A) (D : A -> document) (good : string -> Prop).
  Definition element_ok (l : list A) (n : nat) : Prop :=
    forall y t r x, In y l -> renders (D y) t -> slen t <= n -> good r -> skip x = skip (t ++ r) -> p x = POk y r.

  Lemma comma_list d l : comma d -> (forall r, good (String "," r)) -> forall a s k, good k -> element_ok (a :: l) (slen s) ->
    renders (intersperse d (map D (a :: l))) s -> forall x, skip x = skip (s ++ k) ->
    exists r, p x = POk a r /\ seps (sign ",") p l r k /\ slen r <= slen s + slen k.
  Proof.
    intros Hd Hg. induction l as [|a' l IH]; intros a s k Hk Hp R x E.
    - cbn in R. exists k. split; [|split; [constructor|lia]]. eapply Hp; eauto. left; reflexivity.
    - change (renders (D a ++ d ++ intersperse d (map D (a' :: l)))%list s) in R. rinv.
      destruct (Hd _ R) as (b & Hb & ->).
      destruct (IH a' t2 k Hk) with (x := b ++ t2 ++ k) as (r & H1 & H2 & H3).
      + intros y t' r x' I1 I2 I3. apply Hp; [right; exact I1|exact I2|lens; lia].
      + exact R2.
      + apply skip_blank. exact Hb.
      + norm. exists (String "," (b ++ t2 ++ k)). split; [|split].
        * eapply Hp; [left; reflexivity|exact R0|lens; lia|apply Hg|]. exact E.
        * econstructor; [|exact H1| |exact H2].
          -- apply sign_comma. reflexivity.
          -- lens. lia.
        * lens. lia.
  Qed.

  (** Lists with an optional comma at the end *)
  Lemma comma_end d l a s k t x :
    comma d -> (forall r, good (String "," r)) -> good k -> element_ok (a :: l) (slen s) ->
    renders (intersperse d (map D (a :: l))) s -> (t = "" \/ exists b, blank b /\ t = String "," b) ->
    sign "," k = PErr -> (forall x, skip x = skip k -> p x = PErr) -> skip x = skip (s ++ t ++ k) ->
    exists k', skip k' = skip k /\ terminated_list0 (sign ",") p x = POk (a :: l) k' /\ terminated_list1 (sign ",") p x = POk (a :: l) k'.
  Proof.
    intros Hd Hg Hk Hp R [->|(b & Hb & ->)] Hs Hpk E.
    - cbn [append] in E. destruct (comma_list d l Hd Hg a s k Hk Hp R x E) as (r & H1 & H2 & _). exists k. split; [reflexivity|].
      assert (L : list_end (sign ",") p k k) by (left; auto). split; [eapply terminated0_ok; eauto|eapply terminated1_ok; eauto].
    - cbn [append] in E. destruct (comma_list d l Hd Hg a s (String "," (b ++ k)) (Hg _) Hp R x E) as (r & H1 & H2 & _).
      exists (b ++ k). split; [apply skip_blank; exact Hb|].
      assert (L : list_end (sign ",") p (String "," (b ++ k)) (b ++ k)).
      { right. split; [apply sign_comma; reflexivity|]. apply Hpk. apply skip_blank. exact Hb. }
      split; [eapply terminated0_ok; eauto|eapply terminated1_ok; eauto].
  Qed.

  Lemma comma_tail t : renders [Maybe [Text ","; Line]] t -> t = "" \/ exists b, blank b /\ t = String "," b.
  Proof.
    intros R. apply renders_maybe_inv in R. destruct R as [R|R].
    - left. apply renders_nil_inv. exact R.
    - right. apply comma_line. exact R.
  Qed.
End Lists.

Section ListDocuments.
  Context {A : Type} (p : parser A) (D : A -> document) (good : string -> Prop).

  Lemma list_ok l s k x :
    (forall r, good (String "," r)) -> good k -> element_ok p D good l (slen s) ->
    renders (list_document (map D l)) s ->
    sign "," k = PErr -> (forall x, skip x = skip k -> p x = PErr) -> skip x = skip (s ++ k) ->
    exists k', skip k' = skip k /\ terminated_list0 (sign ",") p x = POk l k' /\ (l <> [] -> terminated_list1 (sign ",") p x = POk l k').
  Proof.
    intros Hg Hk Hp R Hs Hpk E. destruct l as [|a l].
    - cbn in R. apply renders_nil_inv in R. subst. cbn [append] in E. exists x. split; [exact E|]. split; [apply terminated0_nil; apply Hpk; exact E|congruence].
    - unfold list_document in R. cbn [map] in R.
      change (Maybe [Line] :: intersperse [Text ","; Line] ((Gap :: D a) :: map (fun d => Gap :: d) (map D l)) ++ [Maybe [Text ","; Line]])%list
        with ([Maybe [Line]] ++ intersperse [Text ","; Line] (map (fun d => Gap :: d) (map D (a :: l))) ++ [Maybe [Text ","; Line]])%list in R.
      rewrite map_map in R. rinv.
      assert (X : exists b, blank b /\ t = b).
      { apply renders_maybe_inv in R0. destruct R0 as [R0|R0]; [exists ""; split; [constructor|apply renders_nil_inv; exact R0]|].
        cbn in R0. rinv. norm. exists b. auto. }
      destruct X as (b & Hb & ->). norm. rewrite skip_blank in E by exact Hb.
      destruct (comma_end p (fun y => Gap :: D y) good [Text ","; Line] l a t1 k t2 x) as (k' & K1 & K2 & K3); auto using comma_line.
      { intros y u r x' I1 I2 I3 I4 I5. rinv. norm. rewrite skip_blank in I5 by assumption. eapply Hp; eauto. lens. lia. }
      { apply comma_tail. assumption. }
      exists k'. auto.
  Qed.

  Lemma elements_ok l s k x :
    (forall r, good (String "," r)) -> good k -> element_ok p D good l (slen s) ->
    renders (elements_document (map D l)) s ->
    sign "," k = PErr -> (forall x, skip x = skip k -> p x = PErr) -> skip x = skip (s ++ k) ->
    exists k', skip k' = skip k /\ terminated_list0 (sign ",") p x = POk l k'.
  Proof.
    intros Hg Hk Hp R Hs Hpk E. destruct l as [|a l].
    - cbn in R. apply renders_nil_inv in R. subst. cbn [append] in E. exists x. split; [exact E|]. apply terminated0_nil; apply Hpk; exact E.
    - unfold elements_document in R. cbn [map] in R.
      change (intersperse [Text ","] ((Line :: Gap :: D a) :: map (fun d => Line :: Gap :: d) (map D l)) ++ [Maybe [Text ","; Line]])%list
        with (intersperse [Text ","] (map (fun d => Line :: Gap :: d) (map D (a :: l))) ++ [Maybe [Text ","; Line]])%list in R.
      rewrite map_map in R. rinv. norm.
      destruct (comma_end p (fun y => Line :: Gap :: D y) good [Text ","] l a t k t0 x) as (k' & K1 & K2 & K3); auto using comma_alone.
      { intros y u r x' I1 I2 I3 I4 I5. rinv. norm. rewrite !skip_blank in I5 by assumption. eapply Hp; eauto. lens. lia. }
      { apply comma_tail. assumption. }
      exists k'. auto.
  Qed.

  (** Lists with commas between their elements only *)
  Lemma plain_list_ok l s k x :
    (forall r, good (String "," r)) -> good k -> element_ok p D good l (slen s) ->
    renders (intersperse [Text ", "] (map D l)) s ->
    sign "," k = PErr -> (forall x, skip x = skip k -> p x = PErr) -> skip x = skip (s ++ k) ->
    exists k', skip k' = skip k /\ terminated_list0 (sign ",") p x = POk l k' /\ (l <> [] -> terminated_list1 (sign ",") p x = POk l k').
  Proof.
    intros Hg Hk Hp R Hs Hpk E. destruct l as [|a l].
    - cbn in R. apply renders_nil_inv in R. subst. cbn [append] in E. exists x. split; [exact E|]. split; [apply terminated0_nil; apply Hpk; exact E|congruence].
    - destruct (comma_end p D good [Text ", "] l a s k "" x) as (k' & K1 & K2 & K3); auto using comma_space. exists k'. auto.
  Qed.
End ListDocuments.
