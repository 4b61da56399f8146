(** The modules that parsed texts are translated to are as name resolution
    expects them. *)
From Coq Require Import String Ascii List Bool Arith ZArith Lia.
From Verif Require Import Base HirType HirTypeSpec Hir HirSpec HirMain LowerTypeSpec Syntax SyntaxSpec Ast Parser ParserSpec ParserWords ParserWordsProofs Resolve ResolveSpec ResolveProofs Desugar DesugarSpec DesugarProofs.
Import ListNotations.

(** *** Names have no colons *)
Lemma word_char c : is_word c = true -> Ascii.eqb ":"%char c = false.
Proof. intros H. destruct (Ascii.eqb_spec ":"%char c) as [<-|]; [discriminate|reflexivity]. Qed.
Lemma words_plain x : all_chars is_word x = true -> plain x.
Proof.
  unfold plain. induction x as [|c x IH]; [reflexivity|]. cbn [all_chars has_char]. intros H. apply andb_true_iff in H. destruct H as [H1 H2]. rewrite (word_char _ H1), (IH H2). reflexivity.
Qed.
Lemma name_plain x : name x -> plain x.
Proof. intros (_ & H & _). apply words_plain, H. Qed.
Lemma qualified_plain x : qualified_name x -> plain x.
Proof.
  intros [H|(a & b & -> & Ha & Hb)]; [apply name_plain, H|]. apply name_plain in Ha, Hb. unfold plain in *. rewrite has_char_app, Ha. cbn. exact Hb.
Qed.
Fixpoint type_written t : worded_type t -> written_type (desugar_type t).
Proof.
  destruct t as [a r|e|k v|x|l r]; cbn [worded_type desugar_type written_type].
  - intros [Ha Hr]. split; [|apply type_written, Hr]. induction a as [|t a IH]; [exact I|]. destruct Ha as [H1 H2]. split; [apply type_written, H1|apply IH, H2].
  - apply type_written.
  - intros [H1 H2]. split; apply type_written; assumption.
  - apply qualified_plain.
  - intros [H1 H2]. split; apply type_written; assumption.
Qed.
Lemma every_in {A} (P : A -> Prop) l a : every P l -> In a l -> P a.
Proof. induction l as [|b l IH]; intros H I; [destruct I|]. destruct H as [H1 H2]. destruct I as [<-|I]; auto. Qed.

(** *** Code *)
Definition written_node (e : hexpr) : Prop :=
  (forall x, In x (bound e) -> plain x) /\ (forall t, In t (node_types e) -> written_type t) /\
  match e with HVariable x => plain x | HCoerce _ _ _ | HThunk _ _ | HBuiltIn _ | HBoolean _ | HNone => False | _ => True end.
Definition written_code (e : hexpr) : Prop := forall p, occurs p e -> written_node p.

Lemma occurs_parts p e : occurs p e -> p = e \/ exists q, In q (parts e) /\ occurs p q.
Proof.
  intros (c & c' & H). destruct H as [c e|c e q c' p I H|c e q c' p I H|c e t q c' p I H]; [left; reflexivity|right; exists q..]; (split; [unfold parts; rewrite !in_app_iff|eexists _, _; exact H]).
  - left. exact I.
  - right. left. exact I.
  - right. right. apply in_map_iff. exists (t, q). split; [reflexivity|exact I].
Qed.
Lemma code_node e : written_node e -> (forall p, In p (parts e) -> written_code p) -> written_code e.
Proof. intros H1 H2 p O. apply occurs_parts in O. destruct O as [->|(q & I & O)]; [exact H1|exact (H2 q I p O)]. Qed.
Lemma mapM_out {A B} (f : A -> res B) l : forall l' b, mapM f l = Ok l' -> In b l' -> exists a, In a l /\ f a = Ok b.
Proof. intros l' b M. apply mapM_ok in M. induction M as [|x y l l' E M IH]; intros I; [destruct I|]. destruct I as [<-|I]; [exists x; split; [left; reflexivity|exact E]|]. destruct (IH I) as (a & Ha & Hf). exists a. split; [right; exact Ha|exact Hf]. Qed.

Section Written.
  Variable read_float : string -> res Z.
  Notation D := (desugar read_float).
  Notation DB := (desugar_block (desugar read_float)).
  Ltac binv := repeat match goal with
    | H : bind _ _ = Ok _ |- _ => apply bind_ok in H; let a := fresh "a" in let E := fresh "E" in destruct H as (a & E & H)
    | H : Ok _ = Ok _ |- _ => injection H; clear H; intros; subst
    end.
  Ltac ins := repeat match goal with
    | I : In _ (_ ++ _) |- _ => apply in_app_iff in I
    | I : _ \/ _ |- _ => destruct I as [I|I]
    | I : In _ [] |- _ => destruct I
    | I : In _ (_ :: _) |- _ => destruct I as [<-|I]
    | I : False |- _ => destruct I
    | I : _ = ?p |- _ => is_var p; subst p
    end.

  Section Below.
    Variable n : nat.
    Hypothesis IH : forall e h, asize e < n -> worded e -> D e = Ok h -> written_code h.

    Lemma statements_written l : forall e h, bsize asize (Block l e) < n -> worded_block worded (Block l e) -> desugar_statements D e l = Ok h -> written_code h.
    Proof.
      induction l as [|[x e1] l IHl]; intros e h N W H; cbn [desugar_statements] in H; cbn [bsize sum] in N; destruct W as [W1 W2].
      - eapply IH; [|exact W2|exact H]. lia.
      - binv. destruct W1 as [[Nx We] W1]. apply code_node.
        + split; [|split; [intros t []|exact I]]. destruct x as [x|]; intros y I0; cbn in I0; ins. apply name_plain, Nx.
        + intros p I0. cbn in I0. ins.
          * eapply IH; [|exact We|exact E0]. lia.
          * eapply (IHl e); [|split; assumption|exact E]. cbn [bsize]. lia.
    Qed.
    Lemma block_written b h : bsize asize b < n -> worded_block worded b -> DB b = Ok h -> written_code h.
    Proof. destruct b as [l e]. apply statements_written. Qed.
    Lemma if_written b l : forall h, sum (fun p => match p with (c, b) => asize c + bsize asize b end) l + bsize asize b < n ->
      every (fun p => match p with (c, b) => worded c /\ worded_block worded b end) l -> worded_block worded b -> desugar_if D b l = Ok h -> written_code h.
    Proof.
      induction l as [|[c a] l IHl]; intros h N W Wb H; cbn [desugar_if] in H; [discriminate|]. binv. cbn [sum] in N. destruct W as [[W1 W2] W3]. apply code_node.
      - split; [intros y []|split; [intros t []|exact I]].
      - intros p I0. cbn in I0. ins.
        + eapply IH; [|exact W1|exact E]. lia.
        + eapply block_written; [|exact W2|exact E0]. lia.
        + destruct l; [eapply block_written; [|exact Wb|exact E1]; lia|]. apply (IHl _ ltac:(lia) W3 Wb E1).
    Qed.
  End Below.

  Lemma arguments_written l : every (fun p => name (fst p) /\ worded_type (snd p)) l ->
    (forall x, In x (map fst (desugar_arguments l)) -> plain x) /\ (forall t, In t (map snd (desugar_arguments l)) -> written_type t).
  Proof.
    intros W. unfold desugar_arguments. rewrite !map_map. cbn [fst snd]. split; intros y I0; apply in_map_iff in I0; destruct I0 as (p & <- & I0); apply (every_in _ _ _ W) in I0; destruct I0 as [H1 H2].
    - apply name_plain, H1.
    - apply type_written, H2.
  Qed.

  Ltac leaf := split; [intros ? []|split; [intros ? []|exact I]].
  Ltac size := cbn [asize] in *; lia.
  Ltac sub IH := match goal with
    | E : D ?e = Ok ?h |- written_code ?h => apply (IH e h); [size|assumption|exact E]
    | E : desugar_block D ?b = Ok ?h |- written_code ?h => apply (block_written _ IH b h); [size|assumption|exact E]
    end.
  Lemma desugar_written e : forall h, worded e -> D e = Ok h -> written_code h.
  Proof.
    remember (asize e) as n eqn:N. revert e N. induction n as [n IH'] using lt_wf_ind. intros e N h W H.
    assert (IH : forall e h, asize e < n -> worded e -> D e = Ok h -> written_code h) by (intros e0 h0 L; eapply IH'; [exact L|reflexivity]). clear IH'.
    destruct e; cbn [desugar] in H; cbn [worded] in W.
    - binv. destruct W. apply code_node; [|intros p I0; cbn in I0; ins; sub IH]. split; [intros ? []|split; [|exact I]]. destruct o; intros ? [].
    - binv. destruct W as [W1 W2]. apply code_node; [leaf|]. intros p I0. cbn in I0. rewrite app_nil_r in I0. ins; [sub IH|].
      destruct (mapM_out _ _ _ _ E0 I0) as (q & Ia & Ea). eapply IH; [|exact (every_in _ _ _ W2 Ia)|exact Ea]. apply (sum_in asize) in Ia. size.
    - destruct W as (_ & W1 & W2). eapply (if_written n IH); [|exact W1|exact W2|exact H]. size.
    - binv. destruct W as (W1 & W2 & W3 & W4 & W5). apply code_node; [|intros p I0; cbn in I0; ins; sub IH]. split; [intros y I0; cbn in I0; ins; apply name_plain; assumption|split; [intros ? []|exact I]].
    - binv. destruct W as (W1 & W2 & W3 & W4 & W5). apply code_node; [|intros p I0; cbn in I0; ins; sub IH]. split; [intros y I0; cbn in I0; ins; apply name_plain; assumption|split; [intros ? []|exact I]].
    - binv. destruct W as (W1 & W2 & W3 & W4 & W5). apply code_node.
      + split; [intros y I0; cbn in I0; ins; apply name_plain; assumption|]. split; [|exact I]. intros t I0. cbn [node_types] in I0. ins.
        * apply in_map_iff in I0. destruct I0 as (q & <- & I0). destruct (mapM_out _ _ _ _ E0 I0) as ([t b] & Ib & Eb). binv. apply (every_in _ _ _ W4) in Ib. apply type_written, Ib.
        * destruct els; binv; destruct I0.
      + intros p I0. unfold parts in I0. cbn [eager_parts lazy_parts bodies map app] in I0. rewrite app_nil_r in I0. ins; [sub IH| |].
        * apply in_map_iff in I0. destruct I0 as (q & <- & I0). destruct (mapM_out _ _ _ _ E0 I0) as ([t b] & Ib & Eb). binv. cbn [snd].
          pose proof (sum_in (fun p => match p with (_, b) => bsize asize b end) _ _ Ib) as Sz. apply (every_in _ _ _ W4) in Ib. destruct Ib. sub IH.
        * destruct els; binv; ins. sub IH.
    - binv. destruct W as (W1 & W2 & W3). apply arguments_written in W1. destruct W1 as [A1 A2]. apply code_node.
      + split; [exact A1|]. split; [|exact I]. intros t I0. cbn [node_types] in I0. ins; [apply A2, I0|apply type_written, W2].
      + intros p I0. cbn in I0. ins. sub IH.
    - binv. destruct W as [W1 W2]. apply code_node.
      + split; [intros ? []|]. split; [|exact I]. intros t I0. cbn in I0. ins. apply type_written, W1.
      + intros p I0. unfold parts in I0. cbn [eager_parts lazy_parts bodies map app] in I0. rewrite app_nil_r in I0. apply in_flat_map in I0. destruct I0 as (q & I0 & Iq).
        destruct (mapM_out _ _ _ _ E I0) as (b & Ib & Eb). pose proof (sum_in (fun x => match x with Ast.Single e | Ast.Multiple e => asize e end) _ _ Ib) as Sz. apply (every_in _ _ _ W2) in Ib.
        destruct b; binv; cbn in Iq; ins; sub IH.
    - binv. destruct W as (W1 & W2 & _ & W3). apply code_node.
      + split; [|split; [|exact I]].
        * intros y I0. cbn [bound] in I0. apply in_flat_map in I0. destruct I0 as (q & I0 & Iq). apply in_rev in I0. destruct (mapM_out _ _ _ _ E0 I0) as ([xs es c] & Ib & Eb). binv. cbn in Iq.
          apply (every_in _ _ _ W3) in Ib. destruct Ib as (_ & Wn & _). apply name_plain, (every_in _ _ _ Wn Iq).
        * intros t I0. cbn [node_types] in I0. ins; [apply type_written, W1|]. apply in_flat_map in I0. destruct I0 as (q & I0 & Iq). apply in_rev in I0. destruct (mapM_out _ _ _ _ E0 I0) as ([xs es c] & Ib & Eb). binv.
          cbn [b_iteratees] in Iq. apply in_flat_map in Iq. destruct Iq as (it & Iit & It). match goal with M : mapM _ es = Ok _ |- _ => destruct (mapM_out _ _ _ _ M Iit) as (e1 & _ & Ee) end. binv. destruct It.
      + intros p I0. unfold parts in I0. cbn [eager_parts lazy_parts bodies map app] in I0. rewrite app_nil_r in I0. ins; [|sub IH].
        apply in_flat_map in I0. destruct I0 as (q & I0 & Iq). apply in_rev in I0. destruct (mapM_out _ _ _ _ E0 I0) as ([xs es c] & Ib & Eb).
        pose proof (sum_in (fun b => match b with Branch _ es c => sum asize es + match c with Some c => asize c | None => 0 end end) _ _ Ib) as Sz. apply (every_in _ _ _ W3) in Ib. destruct Ib as (_ & _ & _ & We & Wc).
        binv. unfold branch_parts in Iq. cbn [b_iteratees b_condition] in Iq. ins.
        * apply in_map_iff in Iq. destruct Iq as (it & <- & Iit). match goal with M : mapM _ es = Ok _ |- _ => destruct (mapM_out _ _ _ _ M Iit) as (e1 & I1 & Ee) end. binv. cbn [snd].
          eapply IH; [|exact (every_in _ _ _ We I1)|eassumption]. apply (sum_in asize) in I1. size.
        * destruct c; binv; ins. sub IH.
    - binv. destruct W as (W1 & W2 & W3). apply code_node.
      + split; [intros ? []|]. split; [|exact I]. intros t I0. cbn in I0. ins; apply type_written; assumption.
      + intros p I0. unfold parts in I0. cbn [eager_parts lazy_parts bodies map app] in I0. rewrite app_nil_r in I0. apply in_flat_map in I0. destruct I0 as (q & I0 & Iq).
        destruct (mapM_out _ _ _ _ E I0) as (b & Ib & Eb). pose proof (sum_in (fun x => match x with Ast.Entry a b => asize a + asize b | Ast.Spread e => asize e end) _ _ Ib) as Sz. apply (every_in _ _ _ W3) in Ib.
        destruct b; [destruct Ib|]; binv; cbn in Iq; ins; sub IH.
    - binv. apply code_node; [leaf|]. intros p [].
    - binv. destruct W as (W1 & W2 & W3 & _). assert (F : forall p, In p (map snd a) -> written_code p).
      { intros p I0. apply in_map_iff in I0. destruct I0 as (q & <- & I0). destruct (mapM_out _ _ _ _ E I0) as ([x e] & Ib & Eb). binv. pose proof (sum_in (fun p => match p with (_, e) => asize e end) _ _ Ib) as Sz.
        apply (every_in _ _ _ W3) in Ib. destruct Ib. cbn [snd]. sub IH. }
      destruct record as [r|]; binv; apply code_node;
        try (split; [intros ? []|]; split; [|exact I]; intros t I0; cbn in I0; ins; apply qualified_plain, W1); intros p I0; unfold parts in I0; cbn [eager_parts lazy_parts bodies map app] in I0; rewrite app_nil_r in I0; ins; auto.
      destruct W2. sub IH.
    - binv. destruct W. apply code_node; [leaf|]. intros p I0. cbn in I0. ins. sub IH.
    - binv. apply code_node; [leaf|]. intros p [].
    - binv. apply code_node; [leaf|]. intros p I0. cbn in I0. ins. sub IH.
    - binv. apply code_node; [leaf|]. intros p I0. cbn in I0. ins. sub IH.
    - binv. apply code_node; [|intros p []]. split; [intros ? []|]. split; [intros ? []|]. apply qualified_plain, W.
  Qed.

  Lemma module_written m r : worded_module m -> desugar_module read_float m = Ok r ->
    written_module r /\ (forall d, In d (rm_functions r) -> written_code (l_body (rd_lambda d))).
  Proof.
    intros (_ & Wf & Wt & Wd) H. unfold desugar_module in H. binv.
    assert (B : forall d, In d a -> exists f, In f (m_functions m) /\ worded_function f /\ rd_name d = fn_name f /\ rd_original d = fn_name f /\
      l_arguments (rd_lambda d) = desugar_arguments (la_arguments (fn_lambda f)) /\ l_result (rd_lambda d) = desugar_type (la_result (fn_lambda f)) /\ written_code (l_body (rd_lambda d))).
    { intros d I0. destruct (mapM_out _ _ _ _ E I0) as (f & If & Ef). exists f. split; [exact If|]. pose proof (every_in _ _ _ Wd If) as Wl. split; [exact Wl|].
      unfold desugar_function, desugar_lambda in Ef. binv. repeat (split; [reflexivity|]). cbn [l_body rd_lambda]. destruct Wl as (_ & _ & _ & Wb).
      eapply (block_written (S (bsize asize (la_body (fn_lambda f))))); [intros e1 h1 _ We1; apply desugar_written; exact We1| |exact Wb|eassumption]. lia. }
    assert (T : forall d, In d (flat_map desugar_record (m_types m)) -> rt_original d = rt_name d /\ rt_external d = false /\ plain (rt_name d) /\ forall x, In x (rt_fields d) -> written_type (snd x)).
    { intros d I0. apply in_flat_map in I0. destruct I0 as ([x l|x t] & I0 & Id); cbn in Id; ins. apply (every_in _ _ _ Wt) in I0. destruct I0 as [N W]. apply arguments_written in W.
      cbn. repeat (split; [auto using name_plain|]). intros y Iy. apply W, in_map, Iy. }
    assert (A : forall d, In d (flat_map desugar_alias (m_types m)) -> ra_original d = ra_name d /\ ra_external d = false /\ plain (ra_name d) /\ written_type (ra_type d)).
    { intros d I0. apply in_flat_map in I0. destruct I0 as ([x l|x t] & I0 & Id); cbn in Id; ins. apply (every_in _ _ _ Wt) in I0. destruct I0 as [N W]. cbn. repeat (split; [auto using name_plain|]). apply type_written, W. }
    assert (G : forall d, In d (map (fun f => RForeign (f_name f) (f_name f) (desugar_type (f_type f))) (m_foreign m)) -> plain (rf_name d) /\ written_type (rf_type d)).
    { intros d I0. apply in_map_iff in I0. destruct I0 as (f & <- & I0). apply (every_in _ _ _ Wf) in I0. destruct I0. split; [apply name_plain|apply type_written]; assumption. }
    split; [|intros d I0; cbn in I0; destruct (B d I0) as (f & _ & _ & _ & _ & _ & _ & X); exact X].
    constructor; cbn [rm_types rm_aliases rm_foreign rm_functions].
    - intros x I0. unfold own_function in I0. cbn [rm_foreign rm_functions] in I0. rewrite in_app_iff, !in_map_iff in I0. destruct I0 as [(d & <- & I0)|(d & <- & I0)]; [apply G, I0|].
      destruct (B d I0) as (f & _ & [N _] & -> & _). apply name_plain, N.
    - intros x I0. unfold own_type in I0. cbn [rm_types rm_aliases] in I0. rewrite in_app_iff, !in_map_iff in I0. destruct I0 as [(d & <- & I0)|(d & <- & I0)]; [apply T, I0|apply A, I0].
    - intros d I0. destruct (B d I0) as (f & _ & (_ & Wa & _) & _ & _ & -> & _ & C). apply arguments_written in Wa. split; [apply Wa|]. split.
      + intros e x O. apply (C e O).
      + intros x O. apply (C _ O).
    - split; [intros d I0; destruct (B d I0) as (f & _ & _ & -> & -> & _); reflexivity|]. split; intros d I0; [apply T|apply A]; exact I0.
    - split; intros d I0; [apply T|apply A]; exact I0.
    - split; [|split; [intros d I0; apply G, I0|split; [intros d x I0; apply T, I0|intros d I0; apply A, I0]]].
      intros d I0. destruct (B d I0) as (f & _ & (_ & Wa & Wr & _) & _ & _ & -> & -> & C). apply arguments_written in Wa. split; [apply type_written, Wr|]. split; [intros x Ix; apply Wa, in_map, Ix|]. intros e t O. apply (C e O).
  Qed.
End Written.
