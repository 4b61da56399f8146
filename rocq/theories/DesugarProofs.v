(** The translation of syntax trees keeps scopes. *)
From Coq Require Import String Ascii List Bool ZArith Lia.
From Verif Require Import Base HirType Hir Syntax Ast ResolveSpec Desugar DesugarSpec.
Import ListNotations.

(** *** Induction over the parts of an expression *)
Section Sum.
  Context {A : Type} (f : A -> nat).
  Definition sum : list A -> nat := fix go l := match l with [] => 0 | a :: l => f a + go l end.
  Lemma sum_in a l : In a l -> f a <= sum l.
  Proof. induction l as [|b l IH]; intros H; [destruct H|]. cbn [sum]. destruct H as [<-|H]; [|apply IH in H]; lia. Qed.
End Sum.
Definition bsize (size : aexpr -> nat) (b : ablock aexpr) : nat := match b with Block l e => sum (fun st => match st with (_, e) => size e end) l + size e end.
Fixpoint asize (e : aexpr) : nat :=
  S match e with
    | XBinary _ l r => asize l + asize r
    | XCall f a => asize f + sum asize a
    | XIf l b => sum (fun p => match p with (c, b) => asize c + bsize asize b end) l + bsize asize b
    | XIfList e _ _ a b => asize e + bsize asize a + bsize asize b
    | XIfMap _ m k a b => asize m + asize k + bsize asize a + bsize asize b
    | XIfType _ e l o => asize e + sum (fun p => match p with (_, b) => bsize asize b end) l + match o with Some b => bsize asize b | None => 0 end
    | XLambda _ _ b => bsize asize b
    | XList _ l => sum (fun x => match x with Ast.Single e | Ast.Multiple e => asize e end) l
    | XComprehension _ e l => asize e + sum (fun b => match b with Branch _ es c => sum asize es + match c with Some c => asize c | None => 0 end end) l
    | XMap _ _ l => sum (fun x => match x with Ast.Entry a b => asize a + asize b | Ast.Spread e => asize e end) l
    | XRecord _ o l => match o with Some e => asize e | None => 0 end + sum (fun p => match p with (_, e) => asize e end) l
    | XField e _ | XNot e | XTry e => asize e
    | XNumber _ | XString _ | XVariable _ => 0
    end.
Lemma statement_size l : forall xs e T p, In (T, p) (statement_parts xs l e) -> asize p <= bsize asize (Block l e).
Proof.
  induction l as [|[x e1] l IH]; intros xs e T p H; cbn [statement_parts] in H; cbn [bsize sum] in *.
  - destruct H as [[= <- <-]|[]]. lia.
  - destruct H as [[= <- <-]|H]; [|apply IH in H]; lia.
Qed.
Lemma block_size xs b T p : In (T, p) (block_parts xs b) -> asize p <= bsize asize b.
Proof. destruct b as [l e]. apply statement_size. Qed.
Lemma for_size l : forall T p, In (T, p) (for_parts l) -> asize p <= sum (fun b => match b with Branch _ es c => sum asize es + match c with Some c => asize c | None => 0 end end) l.
Proof.
  induction l as [|[xs es c] l IH]; intros T p H; cbn [for_parts] in H; cbn [sum br_iteratees br_condition br_names] in *; [destruct H|].
  rewrite !in_app_iff in H. destruct H as [H|[H|H]].
  - apply in_map_iff in H. destruct H as (q & [= _ ->] & H). apply (sum_in asize) in H. lia.
  - destruct c; [|destruct H]. destruct H as [[= _ ->]|[]]. lia.
  - apply IH in H. lia.
Qed.
Lemma part_size e T p : In (T, p) (source_parts e) -> asize p < asize e.
Proof.
  destruct e; cbn [source_parts asize]; intros H; repeat (rewrite in_app_iff in H || cbn [In] in H);
    repeat match goal with
    | H : _ \/ _ |- _ => destruct H as [H|H]
    | H : False |- _ => destruct H
    | H : (_, _) = (_, _) |- _ => injection H as ? ?; subst
    | H : In _ (block_parts _ _) |- _ => apply block_size in H
    | H : In _ (for_parts _) |- _ => apply for_size in H
    | H : In _ (map _ _) |- _ => apply in_map_iff in H; destruct H as (q & Eq & H)
    | H : In _ (flat_map _ _) |- _ => apply in_flat_map in H; destruct H as (q & H & Hq)
    | H : In _ (match ?o with Some _ => _ | None => _ end) |- _ => destruct o; cbn [In] in H
    end; try lia.
  - apply (sum_in asize) in H. lia.
  - destruct q as [c b]. apply (sum_in (fun p => match p with (c, b) => asize c + bsize asize b end)) in H. cbn [fst snd] in Hq. destruct Hq as [[= _ ->]|Hq]; [|apply block_size in Hq]; lia.
  - destruct q as [c b]. apply (sum_in (fun p => match p with (_, b) => bsize asize b end)) in H. cbn [fst snd] in Hq. lia.
  - apply (sum_in (fun x => match x with Ast.Single e | Ast.Multiple e => asize e end)) in H. destruct q; injection Eq as _ ->; lia.
  - apply (sum_in (fun x => match x with Ast.Entry a b => asize a + asize b | Ast.Spread e => asize e end)) in H. destruct q; cbn [In] in Hq; intuition; match goal with H : (_, _) = (_, _) |- _ => injection H as _ -> end; lia.
  - destruct q as [c b]. apply (sum_in (fun p => match p with (_, e) => asize e end)) in H. cbn [snd] in *. lia.
Qed.
Lemma aexpr_parts_ind (P : aexpr -> Prop) :
  (forall e, (forall T p, In (T, p) (source_parts e) -> P p) -> P e) -> forall e, P e.
Proof.
  intros H e. remember (asize e) as n eqn:N. revert e N. induction n as [n IH] using lt_wf_ind. intros e ->. apply H. intros T p I. apply part_size in I. eapply IH; [exact I|reflexivity].
Qed.

(** *** Uses *)
Section Uses.
  Variable read_float : string -> res Z.
  Notation D := (desugar read_float).
  Notation DB := (desugar_block (desugar read_float)).

  Definition parts_use (S : list string) (ps : list (list string * aexpr)) (U : list string) (x : string) : Prop :=
    exists T p h, In (T, p) ps /\ D p = Ok h /\ code_uses (T ++ S) h U x.
  Definition code_parts_use (S : list string) (ps : list (list string * hexpr)) (U : list string) (x : string) : Prop :=
    exists T p, In (T, p) ps /\ code_uses (T ++ S) p U x.
  Lemma code_uses_node S h U x : (forall y, h <> HVariable y) -> code_uses S h U x <-> code_parts_use S (scoped h) U x.
  Proof.
    intros N. split.
    - intros H. inversion H; subst; [exfalso; eapply N; reflexivity|]. eexists _, _; eauto.
    - intros (T & p & I & H). econstructor; eauto.
  Qed.
  Lemma cpu_nil S U x : code_parts_use S [] U x <-> False.
  Proof. split; [intros (T & p & [] & _)|tauto]. Qed.
  Lemma cpu_cons S T p l U x : code_parts_use S ((T, p) :: l) U x <-> code_uses (T ++ S) p U x \/ code_parts_use S l U x.
  Proof.
    split.
    - intros (T' & p' & [E|I] & H); [injection E as <- <-; left; exact H|right; exists T', p'; auto].
    - intros [H|(T' & p' & I & H)]; [exists T, p; split; [left; reflexivity|exact H]|exists T', p'; split; [right; exact I|exact H]].
  Qed.
  Lemma cpu_app S l l' U x : code_parts_use S (l ++ l') U x <-> code_parts_use S l U x \/ code_parts_use S l' U x.
  Proof.
    induction l as [|[T p] l IH]; cbn [app]; [rewrite cpu_nil; tauto|]. rewrite !cpu_cons, IH. tauto.
  Qed.
  Lemma pu_nil S U x : parts_use S [] U x <-> False.
  Proof. split; [intros (T & p & h & [] & _)|tauto]. Qed.
  Lemma pu_cons S T p h l U x : D p = Ok h -> parts_use S ((T, p) :: l) U x <-> code_uses (T ++ S) h U x \/ parts_use S l U x.
  Proof.
    intros E. split.
    - intros (T' & p' & h' & [Q|I] & E' & H); [injection Q as <- <-; left; congruence|right; exists T', p', h'; auto].
    - intros [H|(T' & p' & h' & I & E' & H)]; [exists T, p, h; split; [left; reflexivity|auto]|exists T', p', h'; split; [right; exact I|auto]].
  Qed.
  Lemma pu_app S l l' U x : parts_use S (l ++ l') U x <-> parts_use S l U x \/ parts_use S l' U x.
  Proof.
    split.
    - intros (T & p & h & I & E & H). apply in_app_iff in I. destruct I as [I|I]; [left|right]; exists T, p, h; auto.
    - intros [(T & p & h & I & E & H)|(T & p & h & I & E & H)]; exists T, p, h; rewrite in_app_iff; auto.
  Qed.
  Ltac binv := repeat match goal with
    | H : bind _ _ = Ok _ |- _ => apply bind_ok in H; let a := fresh "a" in let E := fresh "E" in destruct H as (a & E & H)
    | H : Ok _ = Ok _ |- _ => injection H; clear H; intros; subst
    end.
  Ltac node := rewrite code_uses_node by discriminate; cbn [scoped].

  Lemma statements_uses l : forall xs e h S U x, desugar_statements D e l = Ok h ->
    code_uses (xs ++ S) h U x <-> parts_use S (statement_parts xs l e) U x.
  Proof.
    induction l as [|[y e1] l IH]; intros xs e h S U x H; cbn [desugar_statements statement_parts] in *.
    - rewrite (pu_cons _ _ _ h) by exact H. rewrite pu_nil. tauto.
    - binv. rewrite (pu_cons _ _ _ _ _ _ _ E0). rewrite <- (IH _ _ _ _ _ _ E). node. rewrite !cpu_cons, cpu_nil. destruct y; cbn [app]; tauto.
  Qed.
  Lemma block_uses xs b h S U x : DB b = Ok h -> code_uses (xs ++ S) h U x <-> parts_use S (block_parts xs b) U x.
  Proof. destruct b as [l e]. apply statements_uses. Qed.
  Ltac pu := repeat match goal with
    | |- context[code_parts_use _ ((_, _) :: _) _ _] => rewrite cpu_cons
    | |- context[code_parts_use _ [] _ _] => rewrite cpu_nil
    | |- context[parts_use _ [] _ _] => rewrite pu_nil
    | E : D ?p = Ok _ |- context[parts_use _ ((_, ?p) :: _) _ _] => rewrite (pu_cons _ _ _ _ _ _ _ E)
    | E : desugar_block _ ?b = Ok _ |- context[parts_use _ (block_parts ?xs ?b) _ _] => rewrite <- (block_uses xs _ _ _ _ _ E)
    end; cbn [app].
  Lemma if_uses b l : forall h S U x, desugar_if D b l = Ok h ->
    code_uses S h U x <-> parts_use S (flat_map (fun p => ([], fst p) :: block_parts [] (snd p)) l ++ block_parts [] b) U x.
  Proof.
    induction l as [|[c a] l IH]; intros h S U x H; cbn [desugar_if] in H; [discriminate|]. binv. cbn [flat_map fst snd app]. rewrite <- app_assoc.
    rewrite (pu_cons _ _ _ _ _ _ _ E), pu_app, <- (block_uses [] a _ S U x E0). node. rewrite !cpu_cons, cpu_nil. cbn [app].
    destruct l as [|p l]; [cbn [flat_map app]; rewrite <- (block_uses [] b _ S U x E1); cbn [app]; tauto|]. rewrite <- (IH _ S U x E1). tauto.
  Qed.
  (** Lists of parts *)
  Lemma list_uses {A B} (f : A -> res B) (ps : A -> list (list string * aexpr)) (qs : B -> list (list string * hexpr)) S U x l l' :
    mapM f l = Ok l' -> (forall a b, f a = Ok b -> code_parts_use S (qs b) U x <-> parts_use S (ps a) U x) ->
    code_parts_use S (flat_map qs l') U x <-> parts_use S (flat_map ps l) U x.
  Proof.
    intros M H. apply mapM_ok in M. induction M as [|a b l l' E M IH]; cbn [flat_map]; [rewrite cpu_nil, pu_nil; tauto|]. rewrite cpu_app, pu_app, IH, (H _ _ E). tauto.
  Qed.
  Lemma flat_one {A B} (f : A -> B) l : map f l = flat_map (fun a => [f a]) l.
  Proof. induction l; cbn; congruence. Qed.
  (** The branches of a comprehension without the element *)
  Fixpoint code_for_scope (xs : list string) (bs : list comp_branch) : list string :=
    match bs with [] => xs | b :: bs => code_for_scope (b_names b ++ xs) bs end.
  Fixpoint code_for_parts (xs : list string) (bs : list comp_branch) : list (list string * hexpr) :=
    match bs with
    | [] => []
    | b :: bs =>
        map (fun it => (xs, snd it)) (b_iteratees b) ++ match b_condition b with Some c => [(b_names b ++ xs, c)] | None => [] end ++
        code_for_parts (b_names b ++ xs) bs
    end%list.
  Lemma branch_scopes_split e bs : forall xs, branch_scopes xs e bs = (code_for_parts xs bs ++ [(code_for_scope xs bs, e)])%list.
  Proof. induction bs as [|b bs IH]; intros xs; cbn; [reflexivity|]. rewrite IH, <- !app_assoc. reflexivity. Qed.
  Lemma code_for_scope_snoc bs b : forall xs, code_for_scope xs (bs ++ [b]) = (b_names b ++ code_for_scope xs bs)%list.
  Proof. induction bs as [|c bs IH]; intros xs; cbn; [reflexivity|]. apply IH. Qed.
  Lemma code_for_parts_snoc bs b : forall xs, code_for_parts xs (bs ++ [b]) =
    (code_for_parts xs bs ++ map (fun it => (code_for_scope xs bs, snd it)) (b_iteratees b) ++
     match b_condition b with Some c => [(b_names b ++ code_for_scope xs bs, c)] | None => [] end)%list.
  Proof. induction bs as [|c bs IH]; intros xs; cbn; [rewrite app_nil_r; reflexivity|]. rewrite IH, <- !app_assoc. reflexivity. Qed.
  Definition desugar_branch (b : abranch aexpr) : res comp_branch :=
    match b with
    | Branch xs es c =>
        bind (mapM (fun e => bind (D e) (fun h => Ok (None, h))) es) (fun its =>
        bind (match c with Some c => bind (D c) (fun h => Ok (Some h)) | None => Ok None end) (fun c =>
        Ok (CompBranch xs its c)))
    end.
  Lemma for_uses S U x l : forall l', mapM desugar_branch l = Ok l' ->
    code_for_scope [] (rev l') = for_scope l /\
    (code_parts_use S (code_for_parts [] (rev l')) U x <-> parts_use S (for_parts l) U x).
  Proof.
    induction l as [|b l IH]; intros l' M; cbn [mapM] in M; binv; [cbn; rewrite cpu_nil, pu_nil; tauto|].
    destruct (IH _ E0) as [Hs Hp]. cbn [rev for_scope for_parts]. rewrite code_for_scope_snoc, code_for_parts_snoc, Hs. destruct b as [xs es c]. cbn [desugar_branch] in E. binv.
    cbn [b_names b_iteratees b_condition br_names br_iteratees br_condition]. split; [reflexivity|]. rewrite !cpu_app, !pu_app, Hp. rewrite (flat_one _ a1), (flat_one _ es).
    rewrite (list_uses _ (fun e => [(for_scope l, e)]) (fun it => [(for_scope l, snd it)]) S U x _ _ E1).
    - destruct c as [c|]; binv; [|rewrite cpu_nil, pu_nil; tauto]. pu; tauto.
    - intros e [t h] H. binv. cbn [snd]. pu; tauto.
  Qed.

  Lemma node_uses e h S U x : (forall y, e <> XVariable y) -> D e = Ok h -> code_uses S h U x <-> parts_use S (source_parts e) U x.
  Proof.
    intros N H. destruct e; cbn [desugar] in H; cbn [source_parts].
    - binv. node. pu. tauto.
    - binv. node. match goal with M : mapM _ _ = Ok ?l |- _ => rewrite (flat_one (pair []) l), (flat_one (pair []) arguments), cpu_cons;
        assert (F := list_uses _ (fun e => [([], e)]) (fun e => [([], e)]) S U x _ _ M) end. pu. rewrite <- F; [tauto|]. intros p q Hp. pu. tauto.
    - apply if_uses. exact H.
    - binv. node. pu. rewrite pu_app. pu. tauto.
    - binv. node. pu. rewrite pu_app. pu. tauto.
    - binv. node. rewrite cpu_cons, cpu_app. match goal with M : mapM _ _ = Ok ?l |- _ => rewrite (flat_one (fun b => ([name], snd b)) l);
        assert (F := list_uses _ (fun p => block_parts [name] (snd p)) (fun b => [([name], snd b)]) S U x _ _ M) end. rewrite F.
      + pu. rewrite pu_app. destruct els as [b|]; binv; pu; tauto.
      + intros [t b] [t' h] Hb. binv. cbn [snd]. pu. tauto.
    - binv. node. pu. unfold desugar_arguments. rewrite map_map. cbn [fst]. tauto.
    - binv. node. rewrite !flat_one. match goal with M : mapM _ _ = Ok ?l |- _ => apply (list_uses _ _ _ _ _ _ _ _ M) end. intros p q Hp. destruct p; binv; pu; tauto.
    - binv. node. rewrite branch_scopes_split, cpu_app. match goal with M : mapM _ _ = Ok ?l |- _ => change (mapM desugar_branch branches = Ok l) in M; destruct (for_uses S U x _ _ M) as [F1 F2] end. unfold comp_branch in F1, F2. rewrite F1, F2. pu. tauto.
    - binv. node. match goal with M : mapM _ _ = Ok ?l |- _ => apply (list_uses _ _ _ _ _ _ _ _ M) end. intros p q Hp. destruct p; binv; pu; tauto.
    - binv. node. pu. tauto.
    - binv. rewrite pu_app.
      match goal with M : mapM _ _ = Ok ?l |- _ => assert (F : code_parts_use S (map (fun x => ([], snd x)) l) U x <-> parts_use S (map (fun p => ([], snd p)) fields) U x) by
        (rewrite (flat_one _ l), (flat_one _ fields); apply (list_uses _ _ _ _ _ _ _ _ M); intros [y p] q Hp; binv; cbn [snd]; pu; tauto) end.
      destruct record as [r|]; binv; node; pu; rewrite F; tauto.
    - binv. node. pu. tauto.
    - binv. node. pu. tauto.
    - binv. node. pu. tauto.
    - binv. node. pu. tauto.
    - exfalso. eapply N. reflexivity.
  Qed.
  (** Every part of an accepted expression is accepted. *)
  Lemma statements_parts_ok l : forall xs e h T p, desugar_statements D e l = Ok h -> In (T, p) (statement_parts xs l e) -> exists k, D p = Ok k.
  Proof.
    induction l as [|[x e1] l IH]; intros xs e h T p H I; cbn [statement_parts In desugar_statements] in *; binv.
    - destruct I as [[= <- <-]|[]]. eauto.
    - destruct I as [[= <- <-]|I]; eauto.
  Qed.
  Lemma block_parts_ok xs b h T p : DB b = Ok h -> In (T, p) (block_parts xs b) -> exists k, D p = Ok k.
  Proof. destruct b as [l e]. apply statements_parts_ok. Qed.
  Lemma mapM_in {A B} (f : A -> res B) l l' a : mapM f l = Ok l' -> In a l -> exists b, f a = Ok b.
  Proof. intros M. apply mapM_ok in M. induction M as [|x y l l' E M IH]; intros I; [destruct I|destruct I as [<-|I]; eauto]. Qed.
  Lemma if_parts_ok b l : forall h T p, desugar_if D b l = Ok h ->
    In (T, p) (flat_map (fun p => ([], fst p) :: block_parts [] (snd p)) l ++ block_parts [] b) -> exists k, D p = Ok k.
  Proof.
    induction l as [|[c a] l IH]; intros h T p H I; cbn [desugar_if] in H; [discriminate|]. binv. cbn [flat_map fst snd app In] in I. rewrite <- app_assoc, in_app_iff in I.
    destruct I as [[= <- <-]|[I|I]]; [eauto|exact (block_parts_ok _ _ _ _ _ E0 I)|]. destruct l; [exact (block_parts_ok _ _ _ _ _ E1 I)|exact (IH _ _ _ E1 I)].
  Qed.
  Lemma for_parts_ok l : forall l' T p, mapM desugar_branch l = Ok l' -> In (T, p) (for_parts l) -> exists k, D p = Ok k.
  Proof.
    induction l as [|b l IH]; intros l' T p M I; cbn [mapM for_parts] in *; [destruct I|]. binv. rewrite !in_app_iff in I. destruct b as [xs es c]. cbn [desugar_branch br_iteratees br_condition] in *. binv.
    destruct I as [I|[I|I]]; [|destruct c; [|destruct I]|eauto].
    - apply in_map_iff in I. destruct I as (q & [= <- <-] & I). apply (mapM_in _ _ _ _ E1) in I. destruct I as [k I]. binv. eauto.
    - destruct I as [[= <- <-]|[]]. binv. eauto.
  Qed.
  Lemma parts_ok e h T p : D e = Ok h -> In (T, p) (source_parts e) -> exists k, D p = Ok k.
  Proof.
    intros H I. destruct e; cbn [desugar] in H; cbn [source_parts] in I; try (destruct I; fail); try (eapply if_parts_ok; eassumption); binv;
      repeat (rewrite in_app_iff in I || cbn [In] in I);
      repeat match goal with
      | H : _ \/ _ |- _ => destruct H as [H|H]
      | H : False |- _ => destruct H
      | H : (_, _) = (_, _) |- _ => injection H as ? ?; subst
      end; eauto 2 using block_parts_ok.
    - apply in_map_iff in I. destruct I as (q & [= <- <-] & I). eapply mapM_in; eauto.
    - apply in_flat_map in I. destruct I as ([t b] & I & Ib). apply (mapM_in _ _ _ _ E0) in I. destruct I as [k I]. binv. eapply block_parts_ok; eauto.
    - destruct els; [|destruct I]. binv. eapply block_parts_ok; eauto.
    - apply in_map_iff in I. destruct I as (q & Q & I). apply (mapM_in _ _ _ _ E) in I. destruct I as [k I]. destruct q; injection Q as <- <-; binv; eauto.
    - eapply for_parts_ok; eauto.
    - apply in_flat_map in I. destruct I as (q & I & Q). apply (mapM_in _ _ _ _ E) in I. destruct I as [k I]. destruct q; cbn [In] in Q; binv; intuition; match goal with H : (_, _) = (_, _) |- _ => injection H as <- <- end; eauto.
    - destruct record as [r|]; [|destruct I]. binv. destruct I as [[= <- <-]|[]]. eauto.
    - apply in_map_iff in I. destruct I as ([y q] & [= <- <-] & I). apply (mapM_in _ _ _ _ E) in I. destruct I as [k I]. binv. eauto.
  Qed.
  Theorem desugar_uses e : forall h S U x, D e = Ok h -> source_uses S e U x <-> code_uses S h U x.
  Proof.
    induction e as [e IH] using aexpr_parts_ind. intros h S U x H.
    assert (V : (exists y, e = XVariable y) \/ forall y, e <> XVariable y) by (destruct e; try (right; discriminate); left; eauto).
    destruct V as [[y ->]|V].
    - cbn [desugar] in H. injection H as <-. split; intros X; inversion X; subst; try constructor; match goal with I : In _ _ |- _ => destruct I end.
    - rewrite (node_uses _ _ _ _ _ V H). split.
      + intros X. inversion X; subst; [exfalso; eapply V; reflexivity|]. match goal with I : In _ _ |- _ => destruct (parts_ok _ _ _ _ H I) as [k E] end. eexists _, _, _; split; [eassumption|]. split; [exact E|]. eapply IH; eauto.
      + intros (T & p & k & I & E & X). econstructor; [exact I|]. eapply IH; eauto.
  Qed.
End Uses.
