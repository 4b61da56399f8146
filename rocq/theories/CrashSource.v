(** Programs that are made from source texts have the shapes that the analysis
    relies on. *)
From Coq Require Import String List Bool Arith ZArith Lia.
From Verif Require Import Base HirType HirTypeModule Hir HirSpec HirParts HirProgram HirModule LowerProgramSpec MeaningProgramSpec Syntax SyntaxSpec Ast Float Parser ParserSpec ParserWords ParserWordsProofs Resolve ResolveSpec ResolveProofs ResolveUse
  Desugar DesugarSpec DesugarProofs DesugarWritten CrashSpec CrashBase CrashAnalysis CrashSourceSpec.
Import ListNotations.
Local Open Scope list_scope.

(** A node without annotations, and neither a conversion nor a thunk, that gives no
    field twice *)
Definition bare (e : hexpr) : Prop :=
  match e with
  | HCall t _ _ | HIfList t _ _ _ _ _ | HLet _ t _ _ | HField t _ _ => t = None
  | HTry t _ => t = None
  | HIfMap k v _ _ _ _ _ => k = None /\ v = None
  | HIfType _ _ _ (Some (t, _)) => t = None
  | HComprehension _ _ bs => forall b it, In b bs -> In it (b_iteratees b) -> fst it = None
  | HBinary (BinAddition t) _ _ => t = None
  | HBinary (BinEquality t _) _ _ => t = None
  | HThunk _ _ | HCoerce _ _ _ => False
  | HRecord _ fs | HUpdate _ _ fs => NoDup (map fst fs)
  | _ => True
  end.
Definition made (e : hexpr) : Prop := shaped e /\ bare e.
Definition all_made (e : hexpr) : Prop := forall x, occurs x e -> made x.

Lemma all_made_part e p : all_made e -> In p (parts e) -> all_made p.
Proof. intros H Hp x Hx. apply H. eapply occurs_cons; eassumption. Qed.
Lemma all_made_here e : all_made e -> made e.
Proof. intros H. apply H, occurs_here. Qed.

Lemma made_node e : made e -> (forall p, In p (parts e) -> all_made p) -> all_made e.
Proof. intros H1 H2 x Hx. apply occurs_inv in Hx. destruct Hx as [->|(p & Hp & Hx)]; [exact H1|exact (H2 p Hp x Hx)]. Qed.
Lemma mapM_nonempty {A B} (g : A -> res B) l l' : mapM g l = Ok l' -> l <> [] -> l' <> [].
Proof. intros H N ->. apply mapM_ok in H. inversion H. subst. contradiction N. reflexivity. Qed.

Lemma mapM_names {A B} (g : A -> res B) l : forall l', mapM (fun p : string * A => match p with (x, e) => bind (g e) (fun h => Ok (x, h)) end) l = Ok l' -> map fst l' = map fst l.
Proof.
  induction l as [|[x e] l IH]; cbn [mapM]; intros l' H; [injection H as <-; reflexivity|]. apply bind_ok in H. destruct H as (y & Hy & H). apply bind_ok in Hy. destruct Hy as (h & _ & [= <-]).
  apply bind_ok in H. destruct H as (k & Hk & [= <-]). cbn. rewrite (IH k Hk). reflexivity.
Qed.

(** ** Translation of syntax *)
Section Translated.
  Variable read_float : string -> res Z.
  Notation D := (desugar read_float).
  Notation DB := (desugar_block (desugar read_float)).
  Ltac binv := repeat match goal with
    | H : bind _ _ = Ok _ |- _ => apply bind_ok in H; let a := fresh "a" in let E := fresh "E" in destruct H as (a & E & H)
    | H : Ok _ = Ok _ |- _ => injection H; clear H; intros; subst
    end.
  Ltac ins := repeat match goal with
    | I : In _ (_ ++ _) |- _ => apply in_app_iff in I
    | I : _ \/ _ |- _ => destruct I as [I|I]
    | I : In _ [] |- _ => destruct I
    | I : In _ (_ :: _) |- _ => destruct I as [<-|I]
    | I : False |- _ => destruct I
    | I : _ = ?p |- _ => is_var p; subst p
    end.

  Section Below.
    Variable n : nat.
    Hypothesis IH : forall e h, asize e < n -> worded e -> D e = Ok h -> all_made h.

    Lemma statements_shaped l : forall e h, bsize asize (Block l e) < n -> worded_block worded (Block l e) -> desugar_statements D e l = Ok h -> all_made h.
    Proof.
      induction l as [|[x e1] l IHl]; intros e h N W H; cbn [desugar_statements] in H; cbn [bsize sum] in N; destruct W as [W1 W2].
      - eapply IH; [|exact W2|exact H]. lia.
      - binv. destruct W1 as [[Nx We] W1]. apply made_node; [split; [exact I|repeat split]|]. intros p I0. cbn in I0. ins.
        + eapply IH; [|exact We|exact E0]. lia.
        + eapply (IHl e); [|split; assumption|exact E]. cbn [bsize]. lia.
    Qed.
    Lemma block_shaped b h : bsize asize b < n -> worded_block worded b -> DB b = Ok h -> all_made h.
    Proof. destruct b as [l e]. apply statements_shaped. Qed.
    Lemma if_made b l : forall h, sum (fun p => match p with (c, b) => asize c + bsize asize b end) l + bsize asize b < n ->
      every (fun p => match p with (c, b) => worded c /\ worded_block worded b end) l -> worded_block worded b -> desugar_if D b l = Ok h -> all_made h.
    Proof.
      induction l as [|[c a] l IHl]; intros h N W Wb H; cbn [desugar_if] in H; [discriminate|]. binv. cbn [sum] in N. destruct W as [[W1 W2] W3]. apply made_node; [split; [exact I|repeat split]|].
      intros p I0. cbn in I0. ins.
      - eapply IH; [|exact W1|exact E]. lia.
      - eapply block_shaped; [|exact W2|exact E0]. lia.
      - destruct l; [eapply block_shaped; [|exact Wb|exact E1]; lia|]. apply (IHl _ ltac:(lia) W3 Wb E1).
    Qed.
  End Below.

  Ltac size := cbn [asize] in *; lia.
  Ltac sub IH := match goal with
    | E : D ?e = Ok ?h |- all_made ?h => apply (IH e h); [size|assumption|exact E]
    | E : desugar_block D ?b = Ok ?h |- all_made ?h => apply (block_shaped _ IH b h); [size|assumption|exact E]
    end.
  Ltac pieces I0 := intros p I0; unfold parts in I0; cbn [eager_parts lazy_parts bodies map snd app] in I0; try rewrite app_nil_r in I0.
  Lemma desugar_shaped e : forall h, worded e -> D e = Ok h -> all_made h.
  Proof.
    remember (asize e) as n eqn:N. revert e N. induction n as [n IH'] using lt_wf_ind. intros e N h W H.
    assert (IH : forall e h, asize e < n -> worded e -> D e = Ok h -> all_made h) by (intros e0 h0 L; eapply IH'; [exact L|reflexivity]). clear IH'.
    destruct e; cbn [desugar] in H; cbn [worded] in W.
    - binv. destruct W. apply made_node; [split; [exact I|match goal with o : operator |- _ => destruct o end; first [exact I | reflexivity]]|]. pieces I0. ins; sub IH.
    - binv. destruct W as [W1 W2]. apply made_node; [split; [exact I|repeat split]|]. pieces I0. ins; [sub IH|].
      destruct (mapM_out _ _ _ _ E0 I0) as (q & Ia & Ea). eapply IH; [|exact (every_in _ _ _ W2 Ia)|exact Ea]. apply (sum_in asize) in Ia. size.
    - destruct W as (_ & W1 & W2). eapply (if_made n IH); [|exact W1|exact W2|exact H]. size.
    - binv. destruct W as (W1 & W2 & W3 & W4 & W5). apply made_node; [split; [exact I|repeat split]|]. pieces I0. ins; sub IH.
    - binv. destruct W as (W1 & W2 & W3 & W4 & W5). apply made_node; [split; [exact I|repeat split]|]. pieces I0. ins; sub IH.
    - binv. destruct W as (W1 & W2 & W3 & W4 & W5). apply made_node; [split; [eapply mapM_nonempty; eassumption|destruct els; binv; exact I || reflexivity]|]. pieces I0. ins; [sub IH| |].
      + apply in_map_iff in I0. destruct I0 as (q & <- & I0). destruct (mapM_out _ _ _ _ E0 I0) as ([t b] & Ib & Eb). binv. cbn [snd].
        pose proof (sum_in (fun p => match p with (_, b) => bsize asize b end) _ _ Ib) as Sz. apply (every_in _ _ _ W4) in Ib. destruct Ib. sub IH.
      + destruct els; binv; ins. sub IH.
    - binv. destruct W as (W1 & W2 & W3). apply made_node; [split; [exact I|repeat split]|]. pieces I0. ins; sub IH.
    - binv. destruct W as [W1 W2]. apply made_node; [split; [exact I|repeat split]|]. pieces I0. apply in_flat_map in I0. destruct I0 as (q & I0 & Iq).
      destruct (mapM_out _ _ _ _ E I0) as (b & Ib & Eb). pose proof (sum_in (fun x => match x with Ast.Single e | Ast.Multiple e => asize e end) _ _ Ib) as Sz. apply (every_in _ _ _ W2) in Ib.
      destruct b; binv; cbn in Iq; ins; sub IH.
    - binv. destruct W as (W1 & W2 & Nl & W3). apply made_node.
      + split.
        2: { intros b it Hb Hit. apply in_rev in Hb. destruct (mapM_out _ _ _ _ E0 Hb) as ([xs es c] & _ & Eb). binv. cbn [b_iteratees] in Hit.
             match goal with M : mapM _ es = Ok _ |- _ => destruct (mapM_out _ _ _ _ M Hit) as (e1 & _ & Ee) end. binv. reflexivity. }
        cbn. intros Q. apply (mapM_nonempty _ _ _ E0 Nl). apply (f_equal (@rev _)) in Q. rewrite rev_involutive in Q. exact Q.
      + pieces I0. ins; [|sub IH].
        apply in_flat_map in I0. destruct I0 as (q & I0 & Iq). apply in_rev in I0. destruct (mapM_out _ _ _ _ E0 I0) as ([xs es c] & Ib & Eb).
        pose proof (sum_in (fun b => match b with Branch _ es c => sum asize es + match c with Some c => asize c | None => 0 end end) _ _ Ib) as Sz. apply (every_in _ _ _ W3) in Ib. destruct Ib as (_ & _ & _ & We & Wc).
        binv. unfold branch_parts in Iq. cbn [b_iteratees b_condition] in Iq. ins.
        * apply in_map_iff in Iq. destruct Iq as (it & <- & Iit). match goal with M : mapM _ es = Ok _ |- _ => destruct (mapM_out _ _ _ _ M Iit) as (e1 & I1 & Ee) end. binv. cbn [snd].
          eapply IH; [|exact (every_in _ _ _ We I1)|eassumption]. apply (sum_in asize) in I1. size.
        * destruct c; binv; ins. sub IH.
    - binv. destruct W as (W1 & W2 & W3). apply made_node; [split; [exact I|repeat split]|]. pieces I0. apply in_flat_map in I0. destruct I0 as (q & I0 & Iq).
      destruct (mapM_out _ _ _ _ E I0) as (b & Ib & Eb). pose proof (sum_in (fun x => match x with Ast.Entry a b => asize a + asize b | Ast.Spread e => asize e end) _ _ Ib) as Sz. apply (every_in _ _ _ W3) in Ib.
      destruct b; [destruct Ib|]; binv; cbn in Iq; ins; sub IH.
    - binv. apply made_node; [split; [exact I|repeat split]|]. intros p [].
    - binv. destruct W as (W1 & W2 & W3 & W4). assert (Nd : NoDup (map fst a)) by (rewrite (mapM_names _ _ _ E); exact W4). assert (F : forall p, In p (map snd a) -> all_made p).
      { intros p I0. apply in_map_iff in I0. destruct I0 as (q & <- & I0). destruct (mapM_out _ _ _ _ E I0) as ([x e] & Ib & Eb). binv. pose proof (sum_in (fun p => match p with (_, e) => asize e end) _ _ Ib) as Sz.
        apply (every_in _ _ _ W3) in Ib. destruct Ib. cbn [snd]. sub IH. }
      destruct record as [r|]; binv.
      + destruct W2 as [W2 Nl]. apply made_node; [split; [eapply mapM_nonempty; eassumption|exact Nd]|]. pieces I0. ins; [sub IH|apply F, I0].
      + apply made_node; [split; [exact I|exact Nd]|]. pieces I0. apply F, I0.
    - binv. destruct W. apply made_node; [split; [exact I|repeat split]|]. pieces I0. ins; sub IH.
    - binv. apply made_node; [split; [exact I|repeat split]|]. intros p [].
    - binv. apply made_node; [split; [exact I|repeat split]|]. pieces I0. ins; sub IH.
    - binv. apply made_node; [split; [exact I|repeat split]|]. pieces I0. ins; sub IH.
    - binv. apply made_node; [split; [exact I|repeat split]|]. intros p [].
  Qed.

  (** What is kept of a module by the passes *)
  Definition kept (m : rmodule) : Prop :=
    (forall d, In d (rm_types m) -> rt_fields d = [] -> rt_open d = true) /\ (forall d, In d (rm_functions m) -> all_made (l_body (rd_lambda d))).

  Lemma desugar_kept m r : worded_module m -> desugar_module read_float m = Ok r -> kept r.
  Proof.
    intros (_ & _ & _ & Wd) H. unfold desugar_module in H. binv. split; cbn [rm_types rm_functions].
    - intros d I0 Q. apply in_flat_map in I0. destruct I0 as ([x l|x t] & I0 & Id); cbn in Id; ins. cbn in *. destruct l; [reflexivity|discriminate Q].
    - intros d I0. destruct (mapM_out _ _ _ _ E I0) as (f & If & Ef). pose proof (every_in _ _ _ Wd If) as Wl. unfold desugar_function, desugar_lambda in Ef. binv. cbn [l_body rd_lambda].
      destruct Wl as (_ & _ & _ & Wb). eapply (block_shaped (S (bsize asize (la_body (fn_lambda f))))); [intros e1 h1 _ We1; apply desugar_shaped; exact We1| |exact Wb|eassumption]. lia.
  Qed.
End Translated.

(** ** Resolution of names *)
Lemma shaped_shape e e' : shape e' = shape e -> shaped e -> shaped e'.
Proof.
  destruct e, e'; try discriminate; cbn [shape shaped]; intros Q H; try exact I; injection Q; clear Q; intros.
  all: match goal with Q : map _ ?l = map _ ?l' |- ?l <> [] => intros ->; destruct l'; [contradiction H; reflexivity|discriminate Q] end.
Qed.
Lemma blank_none t t' : blank t' = blank t -> t = None -> t' = None.
Proof. intros Q ->. destruct t'; [discriminate Q|reflexivity]. Qed.
Lemma fields_named (l l' : list (string * hexpr)) : map (fun x => (fst x, HNone)) l' = map (fun x => (fst x, HNone)) l -> NoDup (map fst l) -> NoDup (map fst l').
Proof. intros Q. apply (f_equal (map fst)) in Q. rewrite !map_map in Q. change (map fst l' = map fst l) in Q. rewrite Q. auto. Qed.
Lemma bare_shape e e' : shape e' = shape e -> bare e -> bare e'.
Proof.
  destruct e, e'; try discriminate; cbn [shape bare]; intros Q H; try exact I; try (exfalso; exact H).
  all: try match goal with H : _ /\ _ |- _ => destruct H end.
  all: try (injection Q; clear Q; repeat match goal with |- _ = _ -> _ => intro end).
  all: try (eapply blank_none; eassumption).
  all: try (split; eapply blank_none; eassumption).
  - repeat match goal with o : option (option ty * hexpr) |- _ => destruct o as [[? ?]|] end; try exact I; try discriminate. eapply blank_none; [|eassumption]. congruence.
  - match goal with H : map _ _ = map _ _ |- _ => revert H end. intros Q b it Hb Hit. apply (in_map (fun b => CompBranch (b_names b) (map (fun it => (blank (fst it), HNone)) (b_iteratees b))
                         match b_condition b with Some _ => Some HNone | None => None end)) in Hb. rewrite Q in Hb. apply in_map_iff in Hb. destruct Hb as (b0 & Qb & Hb). injection Qb; clear Qb; intros _ Qi _.
    apply (in_map (fun it => (blank (fst it), HNone))) in Hit. rewrite <- Qi in Hit. apply in_map_iff in Hit. destruct Hit as (it0 & Qt & Hit). injection Qt; clear Qt; intros Qt.
    eapply blank_none; [symmetry; exact Qt|]. exact (H b0 it0 Hb Hit).
  - repeat match goal with o : binop |- _ => destruct o end; try exact I; try discriminate; (eapply blank_none; [|eassumption]; congruence).
  - eapply fields_named; eassumption.
  - eapply fields_named; eassumption.
Qed.
Lemma made_shape e e' : shape e' = shape e -> made e -> made e'.
Proof. intros Q [H1 H2]. split; [eapply shaped_shape; eassumption|eapply bare_shape; eassumption]. Qed.
Lemma all_made_leaf e : parts e = [] -> made e -> all_made e.
Proof. intros P S. apply made_node; [exact S|]. rewrite P. intros p []. Qed.

Lemma transform_shaped : forall e f, (forall x, all_made (f x)) -> all_made e -> all_made (transform f e).
Proof.
  induction e as [e IH] using parts_ind. intros f F S. destruct (is_var e) eqn:V; [destruct e; try discriminate V; apply F|].
  apply made_node; [eapply made_shape; [apply transform_shape, V|apply all_made_here, S]|].
  intros p Hp. apply part_scoped in Hp. destruct Hp as (ys & Hp). destruct (Forall2_in_r _ _ _ _ (transform_scoped f e V) Hp) as ([zs q] & Hq & _ & g & Hg & Q). cbn [fst snd] in *. subst p.
  apply scoped_part in Hq. destruct Hq as [Hq _]. apply IH; [exact Hq| |eapply all_made_part; eassumption].
  intros x. rewrite Hg. unfold without. destruct (mem x zs); [apply all_made_leaf; [reflexivity|split; exact I]|apply F].
Qed.
Lemma retype_shaped f : forall e, all_made e -> all_made (retype f e).
Proof.
  induction e as [e IH] using parts_ind. intros S. apply made_node; [eapply made_shape; [apply retype_shape|apply all_made_here, S]|].
  intros p Hp. apply part_scoped in Hp. destruct Hp as (ys & Hp). destruct (Forall2_in_r _ _ _ _ (retype_scoped f e) Hp) as ([zs q] & Hq & _ & Q). cbn [fst snd] in *. subst p.
  apply scoped_part in Hq. destruct Hq as [Hq _]. apply IH; [exact Hq|eapply all_made_part; eassumption].
Qed.

Lemma variables_kept f m : (forall x, all_made (f x)) -> kept m -> kept (transform_variables f m).
Proof.
  intros F [K1 K2]. split; [exact K1|]. cbn [transform_variables rm_functions]. intros d Hd. apply in_map_iff in Hd. destruct Hd as (d0 & <- & Hd). cbn.
  apply transform_shaped; [|apply K2, Hd]. intros x. unfold without. destruct (mem x _); [apply all_made_leaf; [reflexivity|split; exact I]|apply F].
Qed.
Lemma rename_kept m names : kept m -> kept (rename m names).
Proof. apply variables_kept. intros x. destruct (get names x); apply all_made_leaf; try reflexivity; split; exact I. Qed.
Lemma types_kept g m : kept m -> kept (transform_types g m).
Proof.
  intros [K1 K2]. split; cbn [transform_types rm_types rm_functions]; intros d Hd; apply in_map_iff in Hd; destruct Hd as (d0 & <- & Hd).
  - destruct (rt_external d0); [apply K1, Hd|]. cbn. intros Q. apply (K1 d0 Hd). destruct (rt_fields d0); [reflexivity|discriminate Q].
  - cbn. apply retype_shaped, K2, Hd.
Qed.
Lemma imports_kept m is : (forall i, In i is -> open_interface i) -> kept m -> kept (compile_imports m is).
Proof.
  intros O [K1 K2]. split; [|exact K2]. cbn [compile_imports rm_types]. intros d Hd. apply in_app_or in Hd. destruct Hd as [Hd|Hd]; [|apply K1, Hd].
  apply unique_incl, public_first_incl in Hd. apply in_flat_map in Hd. destruct Hd as (i & Hi & Hd). apply in_map_iff in Hd. destruct Hd as (d0 & <- & Hd). apply (O i Hi d0 Hd).
Qed.
Lemma transformed_kept r prefix : kept r -> kept (transform_module r prefix).
Proof.
  intros K. unfold transform_module. apply variables_kept.
  { intros x. destruct (built_in_variable x) as [b|] eqn:B; [|apply all_made_leaf; [reflexivity|split; exact I]].
    unfold built_in_variable in B. apply lookup_In in B. cbn in B. repeat (destruct B as [B|B]; [injection B as <- <-; apply all_made_leaf; [reflexivity|split; exact I]|]). destruct B. }
  apply types_kept. unfold qualify_types. apply types_kept.
  assert (K' : kept (qualify_functions r prefix)).
  { unfold qualify_functions. apply rename_kept.
    destruct K as [K1 K2]. split; [exact K1|]. cbn [rm_functions]. intros d Hd. apply in_map_iff in Hd. destruct Hd as (d0 & <- & Hd). cbn. apply K2, Hd. }
  destruct K' as [K1 K2]. split; [|exact K2]. cbn [rm_types]. intros d Hd. apply in_map_iff in Hd. destruct Hd as (d0 & <- & Hd). cbn. apply K1, Hd.
Qed.
Lemma resolved_kept r prefix is prelude m : (forall i, In i is -> open_interface (im_interface i)) -> (forall i, In i prelude -> open_interface i) -> kept r ->
  resolve_module r prefix is prelude = Ok m -> kept m.
Proof.
  intros O1 O2 K H. unfold resolve_module in H. destruct (forallb validate is); [|discriminate H]. injection H as <-. apply transformed_kept.
  unfold compile_import. apply imports_kept; [|apply rename_kept, types_kept, K]. intros i Hi. apply in_app_or in Hi. destruct Hi as [Hi|Hi]; [|apply O2, Hi].
  apply in_map_iff in Hi. destruct Hi as (j & <- & Hj). apply O1, Hj.
Qed.

(** ** Source texts *)
Lemma kept_program m : kept m -> shaped_program (module_program m).
Proof.
  intros [K1 K2]. split; cbn [module_program p_types p_defs].
  - intros d Hd. apply in_map_iff in Hd. destruct Hd as (d0 & <- & Hd). cbn. apply K1, Hd.
  - intros x l e Hd He. apply in_map_iff in Hd. destruct Hd as (d0 & Q & Hd). injection Q as <- <-. apply (K2 d0 Hd e He).
Qed.
Lemma map_same {A} (g : A -> A) l : (forall x, In x l -> g x = x) -> map g l = l.
Proof. induction l as [|x l IH]; intros H; cbn; [reflexivity|]. rewrite (H x (or_introl eq_refl)), IH; [reflexivity|]. intros y Hy. apply H. right. exact Hy. Qed.
Lemma made_strip : forall e, all_made e -> strip e = e.
Proof.
  induction e as [e IH] using parts_ind. intros M. destruct (all_made_here _ M) as [_ B].
  assert (P : forall p, In p (parts e) -> strip p = p) by (intros p Hp; apply IH; [exact Hp|eapply all_made_part; eassumption]). clear IH M.
  destruct e; cbn [strip bare] in *; try reflexivity; try contradiction; unfold parts in P; cbn [eager_parts lazy_parts bodies map snd app] in P.
  all: try match goal with B : _ /\ _ |- _ => destruct B end; subst.
  all: try (f_equal; try (apply P; auto 8 using in_or_app, in_eq, in_cons; fail); fail).
  all: try rewrite app_nil_r in P.
  - rewrite (P e (or_introl eq_refl)), map_same; [reflexivity|]. intros x Hx. apply P. right. exact Hx.
  - rewrite (P e (or_introl eq_refl)), map_same.
    + destruct else_ as [[t b]|]; [|reflexivity]. subst t. rewrite (P b); [reflexivity|]. right. apply in_or_app. right. left. reflexivity.
    + intros [t b] Hx. cbn [fst snd]. rewrite (P b); [reflexivity|]. right. apply in_or_app. left. apply (in_map snd _ (t, b)), Hx.
  - rewrite map_same; [reflexivity|]. intros x Hx. destruct x; rewrite P; try reflexivity; apply in_flat_map; (eexists; split; [exact Hx|left; reflexivity]).
  - assert (Pe : strip e = e) by (apply P, in_or_app; right; left; reflexivity). rewrite Pe, map_same; [reflexivity|]. intros [xs its c] Hx.
    assert (Pb : forall q, In q (map snd its ++ match c with Some c => [c] | None => [] end) -> strip q = q).
    { intros q Hq. apply P, in_or_app. left. apply in_flat_map. exists (CompBranch xs its c). split; [exact Hx|exact Hq]. }
    f_equal.
    + apply map_same. intros [t a] Ht. pose proof (B _ _ Hx Ht) as Q. cbn in Q. subst t. cbn [snd]. rewrite (Pb a); [reflexivity|]. apply in_or_app. left. apply (in_map snd _ (None, a)), Ht.
    + destruct c as [c|]; [|reflexivity]. rewrite (Pb c); [reflexivity|]. apply in_or_app. right. left. reflexivity.
  - rewrite map_same; [reflexivity|]. intros x Hx. destruct x; repeat rewrite P; try reflexivity; apply in_flat_map; (eexists; split; [exact Hx|cbn; auto]).
  - rewrite (P e1), (P e2); [|cbn; auto|cbn; auto]. destruct o; try subst; reflexivity.
  - rewrite map_same; [reflexivity|]. intros [x a] Hx. cbn [fst snd]. rewrite (P a); [reflexivity|]. apply (in_map snd _ (x, a)), Hx.
  - rewrite (P e (or_introl eq_refl)), map_same; [reflexivity|]. intros [x a] Hx. cbn [fst snd]. rewrite (P a); [reflexivity|]. right. apply (in_map snd _ (x, a)), Hx.
Qed.
Lemma kept_raw m : kept m -> raw_program (module_program m).
Proof.
  intros [_ K2] x l Hd. apply in_map_iff in Hd. destruct Hd as (d0 & Q & Hd). injection Q as <- <-. split; [apply made_strip, K2, Hd|].
  intros t b0 O. destruct (K2 d0 Hd _ O) as [_ []].
Qed.
Lemma kept_once m : kept m -> fields_once (module_program m).
Proof.
  intros [_ K2] x l e Hd He. apply in_map_iff in Hd. destruct Hd as (d0 & Q & Hd). injection Q as <- <-. destruct (K2 d0 Hd e He) as [_ B]. destruct e; try exact I; exact B.
Qed.
Lemma text_kept rf prefix interfaces prelude s m :
  (forall p i, interfaces p = Some i -> open_interface i) -> (forall i, In i prelude -> open_interface i) ->
  compile_text rf prefix interfaces prelude s = Ok m -> kept m.
Proof.
  intros O1 O2 H. unfold compile_text in H. destruct (parse s) as [a|] eqn:P; [|discriminate H]. unfold front_end in H. apply bind_ok in H. destruct H as (is & Hi & H).
  apply bind_ok in H. destruct H as (r & Hr & H). eapply resolved_kept; [|exact O2|eapply desugar_kept; [eapply parse_worded, P|exact Hr]|exact H].
  intros i Hin. destruct (mapM_out _ _ _ _ Hi Hin) as (b & _ & Hb). unfold find_import in Hb. destruct (interfaces (i_path b)) as [j|] eqn:J; [|discriminate Hb]. apply bind_ok in Hb. destruct Hb as (x & _ & [= <-]). exact (O1 _ _ J).
Qed.
Lemma kept_interface m : kept m -> open_interface (module_interface m).
Proof. intros [K1 _] d Hd. cbn in Hd. apply in_map_iff in Hd. destruct Hd as (d0 & <- & Hd). cbn. apply K1, Hd. Qed.

Lemma prelude_kept rf prefix s m : compile_prelude_text rf prefix s = Ok m -> kept m.
Proof.
  intros H. unfold compile_prelude_text in H. destruct (parse s) as [a|] eqn:P; [|discriminate H]. apply bind_ok in H. destruct H as (r & Hr & [= <-]).
  apply transformed_kept. eapply desugar_kept; [eapply parse_worded, P|exact Hr].
Qed.
Lemma made_open rf i : made_interface rf i -> open_interface i.
Proof.
  induction 1 as [prefix s m H|prefix interfaces prelude s m _ IH1 _ IH2 H]; apply kept_interface; [eapply prelude_kept, H|eapply text_kept; eassumption].
Qed.

(** ** The front end *)
Section Front.
  Variable read_float : string -> res Z.
  Hypothesis Calm : forall x, calm (read_float x).
  Notation D := (desugar read_float).

  Lemma calm_radix r s : calm (from_str_radix r s).
  Proof.
    unfold from_str_radix, reject. destruct s; [discriminate|]. destruct (radix_value r 0 _); [|intros Q; discriminate Q]. destruct (Z.of_N n <=? Float.usize_max)%Z; intros Q; discriminate Q.
  Qed.
  Lemma calm_number a : calm (desugar_number read_float a).
  Proof. destruct a; cbn; [apply calm_radix|apply calm_radix|apply Calm]. Qed.

  Section Below.
    Variable n : nat.
    Hypothesis IH : forall e, asize e < n -> calm (D e).
    Lemma calm_statements l : forall e, bsize asize (Block l e) < n -> calm (desugar_statements D e l).
    Proof.
      induction l as [|[x e1] l IHl]; intros e N; cbn [desugar_statements]; cbn [bsize sum] in N; [apply IH; lia|]. apply calm_bind; [apply IHl; cbn [bsize]; lia|]. intros.
      apply calm_bind; [apply IH; lia|]. intros. apply calm_ok.
    Qed.
    Lemma calm_block b : bsize asize b < n -> calm (desugar_block D b).
    Proof. destruct b as [l e]. apply calm_statements. Qed.
    Lemma calm_if b l : sum (fun p => match p with (c, b) => asize c + bsize asize b end) l + bsize asize b < n -> calm (desugar_if D b l).
    Proof.
      induction l as [|[c a] l IHl]; intros N; cbn [desugar_if]; [apply calm_reject|]. cbn [sum] in N. apply calm_bind; [apply IH; lia|]. intros. apply calm_bind; [apply calm_block; lia|]. intros.
      apply calm_bind; [|intros; apply calm_ok]. destruct l; [apply calm_block; lia|apply IHl; lia].
    Qed.
  End Below.
  Ltac size := cbn [asize] in *; lia.
  Lemma calm_desugar e : calm (D e).
  Proof.
    remember (asize e) as n eqn:N. revert e N. induction n as [n IH'] using lt_wf_ind. intros e N.
    assert (IH : forall e, asize e < n -> calm (D e)) by (intros e0 L; eapply IH'; [exact L|reflexivity]). clear IH'. pose proof (calm_block n IH) as IB.
    destruct e; cbn [desugar]; try apply calm_ok.
    all: repeat first [apply calm_ok
      |apply calm_bind; [first [apply IH; size|apply IB; size|apply calm_number]|intros ? _]].
    - apply calm_bind; [|intros; apply calm_ok]. apply calm_mapM. intros q Ha. apply IH. apply (sum_in asize) in Ha. size.
    - apply (calm_if n IH). size.
    - apply calm_bind; [|intros; apply calm_bind; [|intros; apply calm_ok]].
      + apply calm_mapM. intros [t q] Ha. apply (sum_in (fun p => match p with (_, b) => bsize asize b end)) in Ha. apply calm_bind; [apply IB; size|intros; apply calm_ok].
      + destruct els; [apply calm_bind; [apply IB; size|intros; apply calm_ok]|apply calm_ok].
    - apply calm_bind; [|intros; apply calm_ok]. apply calm_mapM. intros q Ha. apply (sum_in (fun x => match x with Ast.Single e | Ast.Multiple e => asize e end)) in Ha.
      destruct q; (apply calm_bind; [apply IH; size|intros; apply calm_ok]).
    - apply calm_bind; [|intros; apply calm_ok]. apply calm_mapM. intros [xs es c] Ha.
      apply (sum_in (fun b => match b with Branch _ es c => sum asize es + match c with Some c => asize c | None => 0 end end)) in Ha. apply calm_bind.
      + apply calm_mapM. intros x Hx. apply (sum_in asize) in Hx. apply calm_bind; [apply IH; size|intros; apply calm_ok].
      + intros. apply calm_bind; [|intros; apply calm_ok]. destruct c; [apply calm_bind; [apply IH; size|intros; apply calm_ok]|apply calm_ok].
    - apply calm_bind; [|intros; apply calm_ok]. apply calm_mapM. intros q Ha. apply (sum_in (fun x => match x with Ast.Entry a b => asize a + asize b | Ast.Spread e => asize e end)) in Ha.
      destruct q; repeat (apply calm_bind; [apply IH; size|intros]); apply calm_ok.
    - apply calm_bind.
      + apply calm_mapM. intros [x q] Ha. apply (sum_in (fun p => match p with (_, e) => asize e end)) in Ha. apply calm_bind; [apply IH; size|intros; apply calm_ok].
      + intros. destruct record; [apply calm_bind; [apply IH; size|intros; apply calm_ok]|apply calm_ok].
  Qed.
  Lemma calm_module m : calm (desugar_module read_float m).
  Proof.
    apply calm_bind; [|intros; apply calm_ok]. apply calm_mapM. intros d _. apply calm_bind; [|intros; apply calm_ok]. apply calm_bind; [|intros; apply calm_ok].
    eapply (calm_block (S (bsize asize (la_body (fn_lambda d))))); [intros; apply calm_desugar|lia].
  Qed.
  Lemma calm_prelude prefix s : calm (compile_prelude_text read_float prefix s).
  Proof. unfold compile_prelude_text. destruct (parse s) as [m|]; [|apply calm_reject]. apply calm_bind; [apply calm_module|intros; apply calm_ok]. Qed.
  Lemma calm_text prefix interfaces prelude s : calm (compile_text read_float prefix interfaces prelude s).
  Proof.
    unfold compile_text. destruct (parse s) as [m|] eqn:P; [|apply calm_reject]. destruct (parse_worded s m P) as [Wi _]. unfold front_end. apply calm_bind.
    - apply calm_mapM. intros i Hi. unfold find_import. destruct (interfaces _); [|apply calm_reject]. apply calm_bind; [|intros; apply calm_ok]. unfold module_prefix. destruct (i_prefix i); [apply calm_ok|].
      apply (every_in _ _ _ Wi) in Hi. destruct Hi as [Q _]. assert (N : path_components (i_path i) <> []) by (unfold path_components; destruct (i_path i); cbn in Q; tauto).
      destruct (exists_last N) as (l & y & ->). rewrite rev_app_distr. apply calm_ok.
    - intros is _. apply calm_bind.
      + apply calm_module.
      + intros r _. unfold resolve_module. destruct (forallb validate is); [apply calm_ok|apply calm_reject].
  Qed.
End Front.
