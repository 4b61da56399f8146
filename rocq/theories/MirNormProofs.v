(** Normalization preserves behaviour. *)
From Coq Require Import String List Arith Bool Lia FinFun.
From Verif Require Import Base Names Mir MirSpec MirSim MirScopeSpec MirNormSpec MirEnv MirEnvProofs
  MirConcatProofs MirAlpha MirAlphaProofs MirNorm MirUniq MirLoose MirAliasProofs.
Import ListNotations.

Definition shaped_in (m : mmodule) (e : expr) : Prop :=
  forall o es, within (Op o es) e -> arity m o (length es).

(** Normalization leaves the bodies of local functions alone except for
    normalizing them. *)
Definition norm0 (m : mmodule) := norm m (fun e => e).

(** *** Types of operands *)
(** Only the last operand may stay in place. *)
Fixpoint last_only (ts : list (option mtype)) : Prop :=
  match ts with
  | [] => True
  | [_] => True
  | t :: ts' => t <> None /\ last_only ts'
  end.

Lemma last_only_some ts : last_only (map Some ts).
Proof. induction ts as [|t [|u ts] IH]; cbn; auto. split; [discriminate|exact IH]. Qed.

Lemma last_only_cons t (ts : list (option mtype)) : t <> None -> last_only ts -> last_only (t :: ts).
Proof. destruct ts; cbn; auto. Qed.

Lemma operand_types_last m o k : last_only (operand_types m o k).
Proof.
  destruct o; cbn [operand_types]; try (cbn; auto; fail).
  - cbn. split; [discriminate|exact I].
  - cbn. split; [discriminate|exact I].
  - replace (repeat (Some TByteString) k) with (map Some (repeat TByteString k)); [apply last_only_some|].
    induction k; cbn; congruence.
  - apply last_only_some.
  - apply last_only_cons; [discriminate|].
    rewrite <- (map_map (fun i => nth i (record_types m name) TNone) Some). apply last_only_some.
  - apply last_only_cons; [discriminate|]. apply last_only_some.
Qed.

Lemma operand_types_length m o k : arity m o k -> length (operand_types m o k) = k.
Proof.
  destruct o; cbn; intros H; subst; cbn; try reflexivity.
  - apply repeat_length.
  - destruct H as (ts & E & ->). unfold record_types. rewrite E. apply map_length.
  - rewrite map_length. reflexivity.
  - rewrite map_length. reflexivity.
Qed.

(** *** Binders *)
Definition cnt (x : string) (l : list string) : nat := count_occ string_dec l x.

Lemma cnt_app x a b : cnt x (a ++ b) = cnt x a + cnt x b.
Proof. apply count_occ_app. Qed.

Lemma cnt_cons x y l : cnt x (y :: l) = cnt x [y] + cnt x l.
Proof. change (y :: l) with ([y] ++ l). apply cnt_app. Qed.

(** The names made between two states of the counter. *)
Definition made (n n' : nat) : list string := map anf (seq n (n' - n)).

Lemma made_same n x : cnt x (made n n) = 0.
Proof. unfold made. rewrite Nat.sub_diag. reflexivity. Qed.

Lemma made_app n n1 n2 x : n <= n1 -> n1 <= n2 -> cnt x (made n n2) = cnt x (made n n1) + cnt x (made n1 n2).
Proof.
  intros H1 H2. unfold made. rewrite <- cnt_app, <- map_app.
  replace (n2 - n) with ((n1 - n) + (n2 - n1)) by lia. rewrite seq_app.
  replace (n + (n1 - n)) with n1 by lia. reflexivity.
Qed.

Lemma made_one n x : cnt x (made n (S n)) = cnt x [anf n].
Proof. unfold made. replace (S n - n) with 1 by lia. reflexivity. Qed.

Lemma made_in n n' x : In x (made n n') <-> exists i, n <= i < n' /\ x = anf i.
Proof.
  unfold made. rewrite in_map_iff. split.
  - intros (i & <- & Hi). apply in_seq in Hi. exists i. split; [lia|reflexivity].
  - intros (i & Hi & ->). exists i. split; [reflexivity|]. apply in_seq. lia.
Qed.

Lemma anf_inj i j : anf i = anf j -> i = j.
Proof. intros E. apply numbered_inj in E as [_ E]. exact E. Qed.

(** [k] adds the binders counted by [X] to those of what it is given. *)
Definition adds (X : string -> nat) (k : cont) : Prop := forall r n,
  n <= snd (k r n) /\
  forall x, cnt x (binders (fst (k r n))) = cnt x (binders r) + X x + cnt x (made n (snd (k r n))).

Lemma adds_ret : adds (fun _ => 0) ret.
Proof. intros r n. split; [apply le_n|]. intros x. cbn [ret fst snd]. rewrite made_same. lia. Qed.

Lemma shaped_op m o es e : shaped_in m (Op o es) -> In e es -> shaped_in m e.
Proof. intros H He o' es' Hw. eapply H, within_op; eassumption. Qed.

Ltac shaped_sub H := intros ? ? Hw_; apply H; econstructor; eassumption.

Lemma operands_add m es : (forall e, In e es -> forall X k n, adds X k ->
      n <= snd (norm0 m e k n) /\
      forall x, cnt x (binders (fst (norm0 m e k n))) =
                cnt x (binders e) + X x + cnt x (made n (snd (norm0 m e k n)))) ->
  forall ts acc k X n, length ts = length es ->
  (forall rs n, length rs = length acc + length es ->
     n <= snd (k rs n) /\
     forall x, cnt x (binders (fst (k rs n))) =
               cnt x (flat_map binders rs) + X x + cnt x (made n (snd (k rs n)))) ->
  let r := norm_operands (norm0 m) es ts acc k n in
  n <= snd r /\
  forall x, cnt x (binders (fst r)) =
            cnt x (flat_map binders acc) + cnt x (flat_map binders es) + X x + cnt x (made n (snd r)).
Proof.
  induction es as [|e es IH]; intros He [|t ts] acc k X n Hlen Hk; try discriminate; cbn zeta.
  - cbn [norm_operands flat_map]. destruct (Hk acc n) as [H1 H2]; [cbn; lia|]. split; [exact H1|].
    intros x. rewrite H2. cbn. lia.
  - cbn [norm_operands flat_map].
    assert (Hrest : adds (fun x => cnt x (flat_map binders acc) + cnt x (flat_map binders es) + X x)
                         (fun r n => norm_operands (norm0 m) es ts (acc ++ [r]) k n)).
    { intros r n1.
      destruct (IH (fun e H => He e (or_intror H)) ts (acc ++ [r]) k X n1) as [H1 H2].
      - cbn in Hlen. lia.
      - intros rs n2 Hr. apply Hk. rewrite Hr, app_length. cbn. lia.
      - split; [exact H1|]. intros x. rewrite H2, flat_map_app, cnt_app. cbn [flat_map].
        rewrite app_nil_r. lia. }
    destruct t as [t|]; cbn [norm_operand].
    + unfold norm_bound.
      destruct (He e (or_introl eq_refl)
                  (fun x => cnt x (flat_map binders acc) + cnt x (flat_map binders es) + X x)
                  (fun e n => if is_atom e then norm_operands (norm0 m) es ts (acc ++ [e]) k n
                     else let '(e', n') := norm_operands (norm0 m) es ts (acc ++ [Var (anf n)]) k (S n) in
                          (Let (anf n) t e e', n')) n) as [H1 H2].
      * intros r n1. destruct (is_atom r) eqn:Ea; [apply Hrest|].
        destruct (Hrest (Var (anf n1)) (S n1)) as [H1 H2].
        destruct (norm_operands (norm0 m) es ts (acc ++ [Var (anf n1)]) k (S n1)) as [e' n'].
        cbn [fst snd] in *. split; [lia|]. intros x. cbn [binders].
        rewrite cnt_cons, cnt_app, H2. cbn [binders].
        rewrite (made_app n1 (S n1) n' x) by lia. rewrite made_one. change (cnt x []) with 0. lia.
      * split; [exact H1|]. intros x. rewrite H2, cnt_app. lia.
    + destruct (He e (or_introl eq_refl) _ _ n Hrest) as [H1 H2]. split; [exact H1|].
      intros x. rewrite H2, cnt_app. lia.
Qed.

Lemma norm_binders m e : shaped_in m e -> forall X k n, adds X k ->
  n <= snd (norm0 m e k n) /\
  forall x, cnt x (binders (fst (norm0 m e k n))) =
            cnt x (binders e) + X x + cnt x (made n (snd (norm0 m e k n))).
Proof.
  unfold norm0.
  induction e as [l|x|o es IH|c t e IHc IHt IHe|a alts de IHa IHalts IHde|x t b e IHb IHe
                  |d e IHd IHe|o x t e IHo IHe|xs e IHe|xs e IHe] using expr_ind';
    intros Hsh X k n Hk; cbn [norm].
  - apply Hk.
  - apply Hk.
  - rewrite Forall_forall in IH.
    destruct (operands_add m es) with (ts := operand_types m o (length es)) (acc := @nil expr)
      (k := fun es n => k (Op o es) n) (X := X) (n := n) as [H1 H2].
    + intros e He. apply IH; [assumption|]. eapply shaped_op; eassumption.
    + apply operand_types_length, Hsh. constructor.
    + intros rs n1 _. apply Hk.
    + split; [exact H1|]. exact H2.
  - assert (St : shaped_in m t) by shaped_sub Hsh. assert (Se : shaped_in m e) by shaped_sub Hsh.
    assert (Sc : shaped_in m c) by shaped_sub Hsh.
    destruct (IHc Sc (fun x => cnt x (binders t) + cnt x (binders e) + X x)
                (fun c n => let '(t, n) := norm m (fun e => e) t ret n in
                            let '(e, n) := norm m (fun e => e) e ret n in k (If c t e) n) n) as [H1 H2].
    + intros r n1.
      destruct (IHt St (fun _ => 0) ret n1 adds_ret) as [L1 T1].
      destruct (norm m _ t ret n1) as [t' n2]. cbn [fst snd] in *.
      destruct (IHe Se (fun _ => 0) ret n2 adds_ret) as [L2 T2].
      destruct (norm m _ e ret n2) as [e' n3]. cbn [fst snd] in *.
      destruct (Hk (If r t' e') n3) as [L3 T3]. split; [lia|].
      intros x. rewrite T3. cbn [binders]. rewrite !cnt_app, T1, T2.
      set (N := snd (k (If r t' e') n3)) in *.
      rewrite (made_app n1 n2 N), (made_app n2 n3 N) by lia. lia.
    + split; [exact H1|]. intros x. rewrite H2. cbn [binders]. rewrite !cnt_app. lia.
  - set (rest := fun x => cnt x (flat_map (fun al => a_name al :: binders (a_body al)) alts) +
                          cnt x (match de with Some (x, e) => x :: binders e | None => [] end)).
    destruct (IHa ltac:(shaped_sub Hsh) (fun x => rest x + X x)
      (fun a n =>
          let '(alts, n) :=
            map_state (fun al n =>
              let '(b, n) := norm m (fun e => e) (a_body al) ret n in
              (Alt (a_types al) (a_name al) b, n)) alts n in
          match de with
          | Some (x, e) =>
              let '(e, n) := norm m (fun e => e) e ret n in
              k (Case a alts (Some (x, e))) n
          | None => k (Case a alts None) n
          end) n) as [H1 H2].
    + intros r n1.
      assert (HA : n1 <= snd (map_state (fun al n =>
              let '(b, n) := norm m (fun e => e) (a_body al) ret n in
              (Alt (a_types al) (a_name al) b, n)) alts n1) /\
             forall x, cnt x (flat_map (fun al => a_name al :: binders (a_body al))
                (fst (map_state (fun al n =>
              let '(b, n) := norm m (fun e => e) (a_body al) ret n in
              (Alt (a_types al) (a_name al) b, n)) alts n1))) =
              cnt x (flat_map (fun al => a_name al :: binders (a_body al)) alts) +
              cnt x (made n1 (snd (map_state (fun al n =>
              let '(b, n) := norm m (fun e => e) (a_body al) ret n in
              (Alt (a_types al) (a_name al) b, n)) alts n1)))).
      { assert (Hal : forall al, In al alts -> shaped_in m (a_body al)).
        { intros al Hal o es Hw. apply Hsh. eapply within_case_alternative; eassumption. }
        clear -IHalts Hal. revert n1. induction IHalts as [|al alts Hb _ IH]; intros n1.
        - cbn [map_state fst snd flat_map]. split; [apply le_n|]. intros x. rewrite made_same. reflexivity.
        - cbn [map_state].
          destruct (Hb (Hal al (or_introl eq_refl)) (fun _ => 0) ret n1 adds_ret) as [L1 T1].
          destruct (norm m (fun e => e) (a_body al) ret n1) as [b n2]. cbn [fst snd] in L1, T1.
          destruct (IH (fun al H => Hal al (or_intror H)) n2) as [L2 T2].
          destruct (map_state _ alts n2) as [bs n3]. cbn [fst snd flat_map a_name a_body] in *.
          split; [lia|]. intros x. rewrite !cnt_app, T2, !(cnt_cons x (a_name al) (binders _)), T1.
          rewrite (made_app n1 n2 n3) by lia. lia. }
      destruct (map_state _ alts n1) as [alts' n2]. cbn [fst snd] in HA. destruct HA as [L1 T1].
      destruct de as [[y e]|].
      * destruct (IHde _ _ eq_refl ltac:(shaped_sub Hsh) (fun _ => 0) ret n2 adds_ret) as [L2 T2].
        destruct (norm m _ e ret n2) as [e' n3]. cbn [fst snd] in *.
        destruct (Hk (Case r alts' (Some (y, e'))) n3) as [L3 T3]. split; [lia|].
        intros x. rewrite T3. cbn [binders]. unfold rest.
        rewrite !cnt_app, T1, !(cnt_cons x y (binders _)), T2.
        set (N := snd (k (Case r alts' (Some (y, e'))) n3)) in *.
      rewrite (made_app n1 n2 N), (made_app n2 n3 N) by lia. lia.
      * destruct (Hk (Case r alts' None) n2) as [L3 T3]. split; [lia|].
        intros x. rewrite T3. cbn [binders]. unfold rest. rewrite !cnt_app, T1.
        set (N := snd (k (Case r alts' None) n2)) in *.
        rewrite (made_app n1 n2 N) by lia. lia.
    + split; [exact H1|]. intros x. rewrite H2. cbn [binders]. unfold rest. rewrite !cnt_app. lia.
  - destruct (IHb ltac:(shaped_sub Hsh) (fun y => cnt y [x] + cnt y (binders e) + X y)
                (fun b n => let '(e, n) := norm m (fun e => e) e k n in (Let x t b e, n)) n) as [H1 H2].
    + intros r n1. destruct (IHe ltac:(shaped_sub Hsh) X k n1 Hk) as [L1 T1].
      destruct (norm m _ e k n1) as [e' n2]. cbn [fst snd] in *. split; [lia|].
      intros y. cbn [binders]. rewrite (cnt_cons y x (_ ++ _)), !cnt_app, T1. lia.
    + split; [exact H1|]. intros y. rewrite H2. cbn [binders]. rewrite (cnt_cons y x (_ ++ _)), !cnt_app. lia.
  - destruct (IHd ltac:(shaped_sub Hsh) (fun _ => 0) ret n adds_ret) as [L1 T1].
    destruct (norm m _ (f_body d) ret n) as [b n1]. cbn [fst snd] in *.
    destruct (IHe ltac:(shaped_sub Hsh) X k n1 Hk) as [L2 T2].
    destruct (norm m _ e k n1) as [e' n2]. cbn [fst snd] in *. split; [lia|].
    intros y. cbn [binders f_name f_args f_body]. rewrite !(cnt_cons y (f_name d) (_ ++ _)), !cnt_app, T1, T2.
    rewrite (made_app n n1 n2) by lia. lia.
  - destruct (IHo ltac:(shaped_sub Hsh) (fun y => cnt y [x] + cnt y (binders e) + X y)
                (fun o n => let '(e, n) := norm m (fun e => e) e ret n in k (Try o x t e) n) n) as [H1 H2].
    + intros r n1. destruct (IHe ltac:(shaped_sub Hsh) (fun _ => 0) ret n1 adds_ret) as [L1 T1].
      destruct (norm m _ e ret n1) as [e' n2]. cbn [fst snd] in *.
      destruct (Hk (Try r x t e') n2) as [L2 T2]. split; [lia|].
      intros y. rewrite T2. cbn [binders]. rewrite (cnt_cons y x (_ ++ _)), !cnt_app, T1.
      set (N := snd (k (Try r x t e') n2)) in *.
      rewrite (made_app n1 n2 N) by lia. lia.
    + split; [exact H1|]. intros y. rewrite H2. cbn [binders]. rewrite (cnt_cons y x (_ ++ _)), !cnt_app. lia.
  - destruct (IHe ltac:(shaped_sub Hsh) X (fun e n => k (CloneVars xs e) n) n) as [H1 H2].
    + intros r n1. exact (Hk (CloneVars xs r) n1).
    + split; assumption.
  - destruct (IHe ltac:(shaped_sub Hsh) X (fun e n => k (CloneVars xs e) n) n) as [H1 H2].
    + intros r n1. exact (Hk (CloneVars xs r) n1).
    + split; assumption.
Qed.

(** *** Free variables *)
Definition adds_free (Y : string -> Prop) (k : cont) : Prop :=
  forall r n x, In x (fv (fst (k r n))) -> In x (fv r) \/ Y x.

Lemma adds_free_ret : adds_free (fun _ => False) ret.
Proof. intros r n x H. left. exact H. Qed.

Lemma operands_free m (es : list expr) :
  (forall e, In e es -> forall (Y : string -> Prop) k n, adds_free Y k ->
     forall x, In x (fv (fst (norm0 m e k n))) -> In x (fv e) \/ Y x) ->
  forall ts acc (Y : string -> Prop) k n,
  (forall rs n x, In x (fv (fst (k rs n))) -> In x (flat_map fv rs) \/ Y x) ->
  forall x, In x (fv (fst (norm_operands (norm0 m) es ts acc k n))) ->
            In x (flat_map fv acc) \/ In x (flat_map fv es) \/ Y x.
Proof.
  induction es as [|e es IH]; intros He ts acc Y k n Hk x Hx.
  - cbn [norm_operands] in Hx. apply Hk in Hx. tauto.
  - destruct ts as [|t ts]; [cbn [norm_operands] in Hx; apply Hk in Hx; tauto|].
    cbn [norm_operands flat_map] in *. rewrite in_app_iff.
    assert (Hrest : forall r n x, In x (fv (fst (norm_operands (norm0 m) es ts (acc ++ [r]) k n))) ->
              In x (fv r) \/ (In x (flat_map fv acc) \/ In x (flat_map fv es) \/ Y x)).
    { intros r n1 y Hy. apply IH with (Y := Y) in Hy; [|intros; eapply He; eauto; right; assumption|exact Hk].
      rewrite flat_map_app, in_app_iff in Hy. cbn [flat_map] in Hy. rewrite app_nil_r in Hy. tauto. }
    enough (H : In x (fv e) \/ (In x (flat_map fv acc) \/ In x (flat_map fv es) \/ Y x)) by tauto.
    destruct t as [t|]; cbn [norm_operand] in Hx.
    + unfold norm_bound in Hx. revert Hx. apply (He e (or_introl eq_refl) (fun x => In x (flat_map fv acc) \/ In x (flat_map fv es) \/ Y x)).
      intros r n1 y Hy. destruct (is_atom r); [apply Hrest in Hy; exact Hy|].
      specialize (Hrest (Var (anf n1)) (S n1) y).
      destruct (norm_operands (norm0 m) es ts (acc ++ [Var (anf n1)]) k (S n1)) as [e' n'].
      cbn [fst snd fv] in *. rewrite in_app_iff, in_except in Hy. destruct Hy as [Hy|[Hy Hne]]; [auto|].
      destruct (Hrest Hy) as [[E|[]]|E]; [congruence|auto].
    + revert Hx. apply (He e (or_introl eq_refl) (fun x => In x (flat_map fv acc) \/ In x (flat_map fv es) \/ Y x)). intros r n1 y Hy. apply Hrest in Hy. exact Hy.
Qed.

Lemma norm_free m e : forall (Y : string -> Prop) k n, adds_free Y k ->
  forall x, In x (fv (fst (norm0 m e k n))) -> In x (fv e) \/ Y x.
Proof.
  unfold norm0.
  induction e as [l|x|o es IH|c t e IHc IHt IHe|a alts de IHa IHalts IHde|x t b e IHb IHe
                  |d e IHd IHe|o x t e IHo IHe|xs e IHe|xs e IHe] using expr_ind';
    intros Y k n Hk z Hz; cbn [norm] in Hz.
  - apply Hk in Hz. exact Hz.
  - apply Hk in Hz. exact Hz.
  - rewrite Forall_forall in IH.
    apply (operands_free m es) with (Y := Y) in Hz; [cbn in Hz |- *; tauto| |].
    + intros e He. exact (IH e He).
    + intros rs n1 y Hy. apply Hk in Hy. exact Hy.
  - cbn [fv]. rewrite !in_app_iff.
    enough (H : In z (fv c) \/ (In z (fv t) \/ In z (fv e) \/ Y z)) by tauto.
    revert Hz. apply (IHc (fun z => In z (fv t) \/ In z (fv e) \/ Y z)). intros r n1 y Hy.
    pose proof (IHt _ ret n1 adds_free_ret) as T1.
    destruct (norm m _ t ret n1) as [t' n2]. cbn [fst] in T1.
    pose proof (IHe _ ret n2 adds_free_ret) as T2.
    destruct (norm m _ e ret n2) as [e' n3]. cbn [fst] in T2.
    apply Hk in Hy. cbn [fv] in Hy. rewrite !in_app_iff in Hy.
    specialize (T1 y). specialize (T2 y). tauto.
  - cbn [fv]. rewrite !in_app_iff.
    enough (H : In z (fv a) \/ (In z (flat_map (fun al => except (a_name al) (fv (a_body al))) alts) \/
       In z (match de with Some (x, e) => except x (fv e) | None => [] end) \/ Y z)) by tauto.
    revert Hz.
    apply (IHa (fun z => In z (flat_map (fun al => except (a_name al) (fv (a_body al))) alts) \/
       In z (match de with Some (x, e) => except x (fv e) | None => [] end) \/ Y z)). intros r n1 y Hy.
    assert (HA : forall y, In y (flat_map (fun al => except (a_name al) (fv (a_body al)))
                (fst (map_state (fun al n =>
              let '(b, n) := norm m (fun e => e) (a_body al) ret n in
              (Alt (a_types al) (a_name al) b, n)) alts n1))) ->
              In y (flat_map (fun al => except (a_name al) (fv (a_body al))) alts)).
    { clear -IHalts. revert n1. induction IHalts as [|al alts Hb _ IH]; intros n1 y; cbn [map_state].
      - auto.
      - pose proof (Hb _ ret n1 adds_free_ret) as T1.
        destruct (norm m _ (a_body al) ret n1) as [b n2]. cbn [fst] in T1. specialize (IH n2 y).
        destruct (map_state _ alts n2) as [bs n3]. cbn [fst flat_map a_name a_body] in *.
        rewrite !in_app_iff, !in_except. specialize (T1 y). tauto. }
    destruct (map_state _ alts n1) as [alts' n2]. cbn [fst] in HA. specialize (HA y).
    destruct de as [[x e]|].
    + pose proof (IHde _ _ eq_refl _ ret n2 adds_free_ret) as T2.
      destruct (norm m _ e ret n2) as [e' n3]. cbn [fst] in T2. specialize (T2 y).
      apply Hk in Hy. cbn [fv] in Hy. rewrite !in_app_iff, !in_except in *. tauto.
    + apply Hk in Hy. cbn [fv] in Hy. rewrite !in_app_iff in *. cbn [In] in *. tauto.
  - cbn [fv]. rewrite in_app_iff, in_except.
    enough (H : In z (fv b) \/ ((In z (fv e) /\ z <> x) \/ Y z)) by tauto.
    revert Hz. apply (IHb (fun z => (In z (fv e) /\ z <> x) \/ Y z)). intros r n1 y Hy.
    pose proof (IHe Y k n1 Hk y) as T1. destruct (norm m _ e k n1) as [e' n2]. cbn [fst fv] in *.
    rewrite in_app_iff, in_except in Hy. tauto.
  - pose proof (IHd _ ret n adds_free_ret z) as T1.
    destruct (norm m _ (f_body d) ret n) as [b n1]. cbn [fst] in T1.
    pose proof (IHe Y k n1 Hk z) as T2. destruct (norm m _ e k n1) as [e' n2]. cbn [fst] in *.
    apply in_fv_letrec in Hz. cbn [f_name f_args f_body] in Hz. rewrite in_fv_letrec. tauto.
  - cbn [fv]. rewrite in_app_iff, in_except.
    enough (H : In z (fv o) \/ ((In z (fv e) /\ z <> x) \/ Y z)) by tauto.
    revert Hz. apply (IHo (fun z => (In z (fv e) /\ z <> x) \/ Y z)). intros r n1 y Hy.
    pose proof (IHe _ ret n1 adds_free_ret y) as T1. destruct (norm m _ e ret n1) as [e' n2].
    cbn [fst] in *. apply Hk in Hy. cbn [fv] in Hy. rewrite in_app_iff, in_except in Hy. tauto.
  - cbn [fv]. revert Hz. apply IHe. intros r n1 y Hy. apply Hk in Hy. exact Hy.
  - cbn [fv]. revert Hz. apply IHe. intros r n1 y Hy. apply Hk in Hy. exact Hy.
Qed.

(** *** Distinct names after normalization *)
Definition no_anf (e : expr) : Prop :=
  forall i, ~ In (anf i) (fv e) /\ ~ In (anf i) (binders e).

Lemma nodup_made n n' : NoDup (made n n').
Proof.
  unfold made. apply FinFun.Injective_map_NoDup; [|apply seq_NoDup]. intros i j. apply anf_inj.
Qed.

(** *** Names bound by let expressions *)
Definition adds_lets (X : string -> Prop) (k : cont) : Prop :=
  forall r n x, In x (lets (fst (k r n))) -> In x (lets r) \/ X x.

Definition is_made (x : string) : Prop := exists i, x = anf i.

Lemma operands_lets m (es : list expr) :
  (forall e, In e es -> forall (Y : string -> Prop) k n, adds_lets Y k ->
     forall x, In x (lets (fst (norm0 m e k n))) -> In x (lets e) \/ Y x \/ is_made x) ->
  forall ts acc (Y : string -> Prop) k n,
  (forall rs n x, In x (lets (fst (k rs n))) -> In x (flat_map lets rs) \/ Y x) ->
  forall x, In x (lets (fst (norm_operands (norm0 m) es ts acc k n))) ->
            In x (flat_map lets acc) \/ In x (flat_map lets es) \/ Y x \/ is_made x.
Proof.
  induction es as [|e es IH]; intros He ts acc Y k n Hk x Hx.
  - cbn [norm_operands] in Hx. apply Hk in Hx. tauto.
  - destruct ts as [|t ts]; [cbn [norm_operands] in Hx; apply Hk in Hx; tauto|].
    cbn [norm_operands flat_map] in *. rewrite in_app_iff.
    assert (Hrest : forall r n x, In x (lets (fst (norm_operands (norm0 m) es ts (acc ++ [r]) k n))) ->
              In x (lets r) \/ (In x (flat_map lets acc) \/ In x (flat_map lets es) \/ Y x \/ is_made x)).
    { intros r n1 y Hy. apply IH with (Y := Y) in Hy; [|intros; eapply He; eauto; right; assumption|exact Hk].
      rewrite flat_map_app, in_app_iff in Hy. cbn [flat_map] in Hy. rewrite app_nil_r in Hy. tauto. }
    enough (H : In x (lets e) \/ (In x (flat_map lets acc) \/ In x (flat_map lets es) \/ Y x \/ is_made x) \/ is_made x) by tauto.
    destruct t as [t|]; cbn [norm_operand] in Hx.
    + unfold norm_bound in Hx. revert Hx.
      apply (He e (or_introl eq_refl) (fun x => In x (flat_map lets acc) \/ In x (flat_map lets es) \/ Y x \/ is_made x)).
      intros r n1 y Hy. destruct (is_atom r); [apply Hrest in Hy; exact Hy|].
      specialize (Hrest (Var (anf n1)) (S n1) y).
      destruct (norm_operands (norm0 m) es ts (acc ++ [Var (anf n1)]) k (S n1)) as [e' n'].
      cbn [fst snd lets In] in *. rewrite in_app_iff in Hy. destruct Hy as [<-|[Hy|Hy]].
      * right. right. right. right. exists n1. reflexivity.
      * auto.
      * destruct (Hrest Hy) as [[]|E]. auto.
    + revert Hx. apply (He e (or_introl eq_refl) (fun x => In x (flat_map lets acc) \/ In x (flat_map lets es) \/ Y x \/ is_made x)).
      intros r n1 y Hy. apply Hrest in Hy. exact Hy.
Qed.

Lemma adds_lets_ret : adds_lets (fun _ => False) ret.
Proof. intros r n x H. left. exact H. Qed.

Lemma norm_lets m e : forall (Y : string -> Prop) k n, adds_lets Y k ->
  forall x, In x (lets (fst (norm0 m e k n))) -> In x (lets e) \/ Y x \/ is_made x.
Proof.
  unfold norm0.
  induction e as [l|x|o es IH|c t e IHc IHt IHe|a alts de IHa IHalts IHde|x t b e IHb IHe
                  |d e IHd IHe|o x t e IHo IHe|xs e IHe|xs e IHe] using expr_ind';
    intros Y k n Hk z Hz; cbn [norm] in Hz.
  - apply Hk in Hz. tauto.
  - apply Hk in Hz. tauto.
  - rewrite Forall_forall in IH.
    apply (operands_lets m es) with (Y := Y) in Hz; [cbn in Hz |- *; tauto| |].
    + intros e He. exact (IH e He).
    + intros rs n1 y Hy. apply Hk in Hy. exact Hy.
  - cbn [lets]. rewrite !in_app_iff.
    enough (H : In z (lets c) \/ (In z (lets t) \/ In z (lets e) \/ Y z \/ is_made z) \/ is_made z) by tauto.
    revert Hz. apply (IHc (fun z => In z (lets t) \/ In z (lets e) \/ Y z \/ is_made z)). intros r n1 y Hy.
    pose proof (IHt _ ret n1 adds_lets_ret) as T1.
    destruct (norm m _ t ret n1) as [t' n2]. cbn [fst] in T1.
    pose proof (IHe _ ret n2 adds_lets_ret) as T2.
    destruct (norm m _ e ret n2) as [e' n3]. cbn [fst] in T2.
    apply Hk in Hy. cbn [lets] in Hy. rewrite !in_app_iff in Hy.
    specialize (T1 y). specialize (T2 y). tauto.
  - cbn [lets]. rewrite !in_app_iff.
    enough (H : In z (lets a) \/ (In z (flat_map (fun al => lets (a_body al)) alts) \/
       In z (match de with Some (_, e) => lets e | None => [] end) \/ Y z \/ is_made z) \/ is_made z) by tauto.
    revert Hz.
    apply (IHa (fun z => In z (flat_map (fun al => lets (a_body al)) alts) \/
       In z (match de with Some (_, e) => lets e | None => [] end) \/ Y z \/ is_made z)). intros r n1 y Hy.
    assert (HA : forall y, In y (flat_map (fun al => lets (a_body al))
                (fst (map_state (fun al n =>
              let '(b, n) := norm m (fun e => e) (a_body al) ret n in
              (Alt (a_types al) (a_name al) b, n)) alts n1))) ->
              In y (flat_map (fun al => lets (a_body al)) alts) \/ is_made y).
    { clear -IHalts. revert n1. induction IHalts as [|al alts Hb _ IH]; intros n1 y; cbn [map_state].
      - auto.
      - pose proof (Hb _ ret n1 adds_lets_ret) as T1.
        destruct (norm m _ (a_body al) ret n1) as [b n2]. cbn [fst] in T1. specialize (IH n2 y).
        destruct (map_state _ alts n2) as [bs n3]. cbn [fst flat_map a_name a_body] in *.
        rewrite !in_app_iff. specialize (T1 y). tauto. }
    destruct (map_state _ alts n1) as [alts' n2]. cbn [fst] in HA. specialize (HA y).
    destruct de as [[x e]|].
    + pose proof (IHde _ _ eq_refl _ ret n2 adds_lets_ret) as T2.
      destruct (norm m _ e ret n2) as [e' n3]. cbn [fst] in T2. specialize (T2 y).
      apply Hk in Hy. cbn [lets] in Hy. rewrite !in_app_iff in *. tauto.
    + apply Hk in Hy. cbn [lets] in Hy. rewrite !in_app_iff in *. cbn [In] in *. tauto.
  - cbn [lets In]. rewrite in_app_iff.
    enough (H : In z (lets b) \/ ((x = z \/ In z (lets e) \/ Y z \/ is_made z)) \/ is_made z) by tauto.
    revert Hz. apply (IHb (fun z => x = z \/ In z (lets e) \/ Y z \/ is_made z)). intros r n1 y Hy.
    pose proof (IHe Y k n1 Hk y) as T1. destruct (norm m _ e k n1) as [e' n2]. cbn [fst lets In] in *.
    rewrite in_app_iff in Hy. tauto.
  - pose proof (IHd _ ret n adds_lets_ret z) as T1.
    destruct (norm m _ (f_body d) ret n) as [b n1]. cbn [fst] in T1.
    pose proof (IHe Y k n1 Hk z) as T2. destruct (norm m _ e k n1) as [e' n2]. cbn [fst] in *.
    cbn [lets In f_name f_body] in *. rewrite in_app_iff in *. tauto.
  - cbn [lets]. rewrite in_app_iff.
    enough (H : In z (lets o) \/ ((In z (lets e) \/ Y z \/ is_made z)) \/ is_made z) by tauto.
    revert Hz. apply (IHo (fun z => In z (lets e) \/ Y z \/ is_made z)). intros r n1 y Hy.
    pose proof (IHe _ ret n1 adds_lets_ret y) as T1. destruct (norm m _ e ret n1) as [e' n2].
    cbn [fst] in *. apply Hk in Hy. cbn [lets] in Hy. rewrite in_app_iff in Hy. tauto.
  - cbn [lets]. revert Hz. apply IHe. intros r n1 y Hy. apply Hk in Hy. exact Hy.
  - cbn [lets]. revert Hz. apply IHe. intros r n1 y Hy. apply Hk in Hy. exact Hy.
Qed.

(** *** Variables given other names *)
(** What normalization passes on is not a let expression. *)
Definition flat (e : expr) : Prop :=
  match e with
  | Let _ _ _ _ | LetRec _ _ => False
  | _ => True
  end.

Lemma flat_results e : flat e -> is_atom e = false -> results e = [].
Proof. destruct e; cbn; try reflexivity; try discriminate; tauto. Qed.

(** [R] says whether the continuation may give another name to what it is given. *)
Definition adds_copies (R : Prop) (Y : string -> Prop) (k : cont) : Prop :=
  forall r n x, flat r -> In x (copies (fst (k r n))) -> In x (copies r) \/ (R /\ In x (results r)) \/ Y x.

Lemma adds_copies_ret : adds_copies False (fun _ => False) ret.
Proof. intros r n x _ H. left. exact H. Qed.

Lemma operands_copies m (es : list expr) :
  (forall e, In e es -> forall R (Y : string -> Prop) k n, adds_copies R Y k ->
     forall x, In x (copies (fst (norm0 m e k n))) -> In x (copies e) \/ (R /\ In x (results e)) \/ Y x) ->
  forall ts acc (Y : string -> Prop) k n,
  (forall rs n x, In x (copies (fst (k rs n))) -> In x (flat_map copies rs) \/ Y x) ->
  forall x, In x (copies (fst (norm_operands (norm0 m) es ts acc k n))) ->
            In x (flat_map copies acc) \/ In x (flat_map copies es) \/ Y x.
Proof.
  induction es as [|e es IH]; intros He ts acc Y k n Hk x Hx.
  - cbn [norm_operands] in Hx. apply Hk in Hx. tauto.
  - destruct ts as [|t ts]; [cbn [norm_operands] in Hx; apply Hk in Hx; tauto|].
    cbn [norm_operands flat_map] in *. rewrite in_app_iff.
    assert (Hrest : forall r n x, In x (copies (fst (norm_operands (norm0 m) es ts (acc ++ [r]) k n))) ->
              In x (copies r) \/ (In x (flat_map copies acc) \/ In x (flat_map copies es) \/ Y x)).
    { intros r n1 y Hy. apply IH with (Y := Y) in Hy; [|intros; eapply He; eauto; right; assumption|exact Hk].
      rewrite flat_map_app, in_app_iff in Hy. cbn [flat_map] in Hy. rewrite app_nil_r in Hy. tauto. }
    enough (H : In x (copies e) \/ (False /\ In x (results e)) \/ (In x (flat_map copies acc) \/ In x (flat_map copies es) \/ Y x)) by tauto.
    destruct t as [t|]; cbn [norm_operand] in Hx.
    + unfold norm_bound in Hx. revert Hx.
      apply (He e (or_introl eq_refl) False (fun x => In x (flat_map copies acc) \/ In x (flat_map copies es) \/ Y x)).
      intros r n1 y Hf Hy. destruct (is_atom r) eqn:Ea; [apply Hrest in Hy; tauto|].
      specialize (Hrest (Var (anf n1)) (S n1) y).
      destruct (norm_operands (norm0 m) es ts (acc ++ [Var (anf n1)]) k (S n1)) as [e' n'].
      cbn [fst snd copies In] in *. rewrite (flat_results r Hf Ea) in Hy. cbn [app] in Hy.
      rewrite in_app_iff, in_except in Hy. destruct Hy as [Hy|[Hy _]]; [auto|].
      destruct (Hrest Hy) as [[]|E]. auto.
    + revert Hx. apply (He e (or_introl eq_refl) False (fun x => In x (flat_map copies acc) \/ In x (flat_map copies es) \/ Y x)).
      intros r n1 y Hf Hy. apply Hrest in Hy. tauto.
Qed.

Lemma norm_copies m e : forall R (Y : string -> Prop) k n, adds_copies R Y k ->
  forall x, In x (copies (fst (norm0 m e k n))) -> In x (copies e) \/ (R /\ In x (results e)) \/ Y x.
Proof.
  unfold norm0.
  induction e as [l|x|o es IH|c t e IHc IHt IHe|a alts de IHa IHalts IHde|x t b e IHb IHe
                  |d e IHd IHe|o x t e IHo IHe|xs e IHe|xs e IHe] using expr_ind';
    intros R Y k n Hk z Hz; cbn [norm] in Hz.
  - apply Hk in Hz; [|exact I]. tauto.
  - apply Hk in Hz; [|exact I]. tauto.
  - rewrite Forall_forall in IH.
    apply (operands_copies m es) with (Y := Y) in Hz; [cbn in Hz |- *; tauto| |].
    + intros e He. exact (IH e He).
    + intros rs n1 y Hy. apply Hk in Hy; [|exact I]. cbn [copies results In] in Hy. tauto.
  - cbn [copies results In]. rewrite !in_app_iff.
    enough (H : In z (copies c) \/ (False /\ In z (results c)) \/ (In z (copies t) \/ In z (copies e) \/ Y z)) by tauto.
    revert Hz. apply (IHc False (fun z => In z (copies t) \/ In z (copies e) \/ Y z)). intros r n1 y Hf Hy.
    pose proof (IHt _ _ ret n1 adds_copies_ret) as T1.
    destruct (norm m _ t ret n1) as [t' n2]. cbn [fst] in T1.
    pose proof (IHe _ _ ret n2 adds_copies_ret) as T2.
    destruct (norm m _ e ret n2) as [e' n3]. cbn [fst] in T2.
    apply Hk in Hy; [|exact I]. cbn [copies results In] in Hy. rewrite !in_app_iff in Hy.
    specialize (T1 y). specialize (T2 y). tauto.
  - cbn [copies results In]. rewrite !in_app_iff.
    enough (H : In z (copies a) \/ (False /\ In z (results a)) \/ (In z (flat_map (fun al => except (a_name al) (copies (a_body al))) alts) \/
       In z (match de with Some (x, e) => except x (copies e) | None => [] end) \/ Y z)) by tauto.
    revert Hz.
    apply (IHa False (fun z => In z (flat_map (fun al => except (a_name al) (copies (a_body al))) alts) \/
       In z (match de with Some (x, e) => except x (copies e) | None => [] end) \/ Y z)). intros r n1 y Hf Hy.
    assert (HA : forall y, In y (flat_map (fun al => except (a_name al) (copies (a_body al)))
                (fst (map_state (fun al n =>
              let '(b, n) := norm m (fun e => e) (a_body al) ret n in
              (Alt (a_types al) (a_name al) b, n)) alts n1))) ->
              In y (flat_map (fun al => except (a_name al) (copies (a_body al))) alts)).
    { clear -IHalts. revert n1. induction IHalts as [|al alts Hb _ IH]; intros n1 y; cbn [map_state].
      - auto.
      - pose proof (Hb _ _ ret n1 adds_copies_ret) as T1.
        destruct (norm m _ (a_body al) ret n1) as [b n2]. cbn [fst] in T1. specialize (IH n2 y).
        destruct (map_state _ alts n2) as [bs n3]. cbn [fst flat_map a_name a_body] in *.
        rewrite !in_app_iff, !in_except. specialize (T1 y). tauto. }
    destruct (map_state _ alts n1) as [alts' n2]. cbn [fst] in HA. specialize (HA y).
    destruct de as [[x e]|].
    + pose proof (IHde _ _ eq_refl _ _ ret n2 adds_copies_ret) as T2.
      destruct (norm m _ e ret n2) as [e' n3]. cbn [fst] in T2. specialize (T2 y).
      apply Hk in Hy; [|exact I]. cbn [copies results In] in Hy. rewrite !in_app_iff, !in_except in *. tauto.
    + apply Hk in Hy; [|exact I]. cbn [copies results In] in Hy. rewrite !in_app_iff in *. cbn [In] in *. tauto.
  - cbn [copies results]. rewrite !in_app_iff, !in_except.
    enough (H : In z (copies b) \/ (True /\ In z (results b)) \/
                (z <> x /\ (In z (copies e) \/ (R /\ In z (results e))) \/ Y z)) by tauto.
    revert Hz. apply (IHb True (fun z => z <> x /\ (In z (copies e) \/ (R /\ In z (results e))) \/ Y z)). intros r n1 y Hf Hy.
    pose proof (IHe R Y k n1 Hk y) as T1. destruct (norm m _ e k n1) as [e' n2]. cbn [fst copies] in *.
    rewrite !in_app_iff, in_except in Hy. tauto.
  - pose proof (IHd _ _ ret n adds_copies_ret z) as T1.
    destruct (norm m _ (f_body d) ret n) as [b n1]. cbn [fst] in T1.
    pose proof (IHe R Y k n1 Hk z) as T2. destruct (norm m _ e k n1) as [e' n2]. cbn [fst] in *.
    apply in_copies_letrec in Hz. cbn [f_name f_args f_body] in Hz. rewrite in_copies_letrec. cbn [results].
    rewrite in_except. tauto.
  - cbn [copies results In]. rewrite in_app_iff, in_except.
    enough (H : In z (copies o) \/ (False /\ In z (results o)) \/ ((In z (copies e) /\ z <> x) \/ Y z)) by tauto.
    revert Hz. apply (IHo False (fun z => (In z (copies e) /\ z <> x) \/ Y z)). intros r n1 y Hf Hy.
    pose proof (IHe _ _ ret n1 adds_copies_ret y) as T1. destruct (norm m _ e ret n1) as [e' n2].
    cbn [fst] in *. apply Hk in Hy; [|exact I]. cbn [copies results In] in Hy. rewrite in_app_iff, in_except in Hy. tauto.
  - cbn [copies results In].
    enough (H : In z (copies e) \/ (False /\ In z (results e)) \/ Y z) by tauto. revert Hz. apply IHe. intros r n1 y Hf Hy.
    apply Hk in Hy; [|exact I]. cbn [copies results In] in Hy. tauto.
  - cbn [copies results In].
    enough (H : In z (copies e) \/ (False /\ In z (results e)) \/ Y z) by tauto. revert Hz. apply IHe. intros r n1 y Hf Hy.
    apply Hk in Hy; [|exact I]. cbn [copies results In] in Hy. tauto.
Qed.

Lemma norm_loose m e n : loose e -> no_anf e -> shaped_in m e -> loose (fst (norm0 m e ret n)).
Proof.
  intros (N & D & C) Hf Hsh. destruct (norm_binders m e Hsh _ ret n adds_ret) as [L T].
  split; [|split].
  - apply (NoDup_count_occ string_dec). intros x. fold (cnt x (binders (fst (norm0 m e ret n)))).
    rewrite T.
    pose proof (proj1 (NoDup_count_occ string_dec _) N x) as C1.
    pose proof (proj1 (NoDup_count_occ string_dec _) (nodup_made n (snd (norm0 m e ret n))) x) as C2.
    fold (cnt x (binders e)) in C1. fold (cnt x (made n (snd (norm0 m e ret n)))) in C2.
    destruct (in_dec string_dec x (made n (snd (norm0 m e ret n)))) as [Hi|Hi].
    + apply made_in in Hi as (i & _ & ->). destruct (Hf i) as [_ Hb].
      apply (count_occ_not_In string_dec) in Hb. fold (cnt (anf i) (binders e)) in Hb. lia.
    + apply (count_occ_not_In string_dec) in Hi. fold (cnt x (made n (snd (norm0 m e ret n)))) in Hi. lia.
  - intros x Hx Hb. apply norm_free with (Y := fun _ => False) in Hx; [|apply adds_free_ret].
    destruct Hx as [Hx|[]]. apply norm_lets with (Y := fun _ => False) in Hb; [|apply adds_lets_ret].
    destruct Hb as [Hb|[[]|(i & ->)]]; [exact (D x Hx Hb)|]. destruct (Hf i). auto.
  - intros x Hx Hb. apply norm_copies with (R := False) (Y := fun _ => False) in Hx; [|apply adds_copies_ret].
    destruct Hx as [Hx|[[[] _]|[]]].
    apply (count_occ_In string_dec) in Hb. fold (cnt x (binders (fst (norm0 m e ret n)))) in Hb.
    rewrite T in Hb.
    assert (C1 : cnt x (binders e) = 0).
    { apply count_occ_not_In. intros Hi. eapply C; eassumption. }
    assert (C2 : cnt x (made n (snd (norm0 m e ret n))) = 0).
    { apply count_occ_not_In. intros Hi. apply made_in in Hi as (i & _ & ->). destruct (Hf i) as [H _].
      apply H, copies_free. assumption. }
    lia.
Qed.

(** *** Behaviour without alias removal *)
Definition norm0_def (d : fdef) (b : expr) : fdef :=
  Fdef (f_name d) (f_env d) (f_args d) (f_result d) b (f_thunk d).

Lemma obind_assoc {A B C} (r : out A) (f : A -> state -> out B) (g : B -> state -> out C) :
  obind (obind r f) g = obind r (fun a st => obind (f a st) g).
Proof. destruct r; reflexivity. Qed.

Lemma obind_done {A} (r : out A) : obind r (fun a st => Done a st) = r.
Proof. destruct r; reflexivity. Qed.

Lemma obind_ext {A B} (r : out A) (f g : A -> state -> out B) :
  (forall a st, f a st = g a st) -> obind r f = obind r g.
Proof. intros H. destruct r; cbn; auto. Qed.

Section NormSim.
  Variable m : mmodule.
  Variable m' : mmodule.
  Variable w : world.

  Definition norm_crel (d d' : fdef) (_ : list string * list string) (ps : string -> string -> Prop) : Prop :=
    exists n, d' = norm0_def d (fst (norm0 m (f_body d) ret n)) /\ loose (f_body d) /\
      no_anf (f_body d) /\ shaped_in m (f_body d) /\
      (forall i, ~ In (anf i) (map fst (f_args d)) /\ anf i <> f_name d) /\
      ps = (fun x y => y = x /\ In x (def_fv d)).

  Let lrel := fun (_ : fdef) (_ : string) => False.
  Notation vr := (vrel m norm_crel lrel).
  Notation sr := (srel m norm_crel lrel).
  Notation orl := (orel m norm_crel lrel vr).

  Hypothesis AG : agree m m' norm_crel lrel.

  Section Body.
    Variables call call' : state -> value -> list value -> out value.
    Hypothesis Hcall : callrel m norm_crel lrel call call'.
    Notation ev := (eval Lexical w m call).
    Notation ev' := (eval Lexical w m' call').

    (** [rho1] is [rho] with more variables in front, among [B] and the names
        made from [n] to [n']. *)
    Definition extends (rho rho1 : env) (B : list string) (n n' : nat) : Prop :=
      n <= n' /\
      forall x, ~ In x B -> ~ In x (made n n') -> lookup rho1 x = lookup rho x.

    Definition same (S : list string) (rho rho' : env) : Prop :=
      forall x, In x S -> entry m vr rho rho' x x.

    Lemma entry_lookup rho rho' rho1' x :
      entry m vr rho rho' x x -> lookup rho1' x = lookup rho' x -> entry m vr rho rho1' x x.
    Proof.
      intros H E. destruct H as [v v' E1 E2 Hv|E1 E2|E0 _ _ _]; [| |congruence].
      - econstructor; [exact E1|rewrite E; exact E2|exact Hv].
      - apply entry_none; [exact E1|]. rewrite E. exact E2.
    Qed.

    Lemma extends_same S rho rho' rho1' B n n' :
      same S rho rho' -> extends rho' rho1' B n n' ->
      (forall x, In x S -> ~ In x B /\ ~ In x (made n n')) -> same S rho rho1'.
    Proof.
      intros Hs [_ He] Hd x Hx. destruct (Hd x Hx). eapply entry_lookup; [apply Hs, Hx|]. auto.
    Qed.

    Lemma extends_trans rho rho1 rho2 B B' B'' n n1 n2 :
      extends rho rho1 B n n1 -> extends rho1 rho2 B' n1 n2 ->
      (forall x, In x B \/ In x B' -> In x B'') -> extends rho rho2 B'' n n2.
    Proof.
      intros [L1 H1] [L2 H2] HB. split; [lia|]. intros x Hx Hm.
      rewrite H2, H1; [reflexivity|..]; intros Hi.
      - apply Hx, HB. auto.
      - apply Hm. apply made_in in Hi as (i & Hi & ->). apply made_in. exists i. split; [lia|reflexivity].
      - apply Hx, HB. auto.
      - apply Hm. apply made_in in Hi as (i & Hi & ->). apply made_in. exists i. split; [lia|reflexivity].
    Qed.

    Lemma extends_refl rho B n : extends rho rho B n n.
    Proof. split; [apply le_n|reflexivity]. Qed.

    Lemma extends_cons rho rho1 B n n1 x v B' :
      extends rho rho1 B n n1 -> (forall y, In y B -> In y B') -> In x B' ->
      extends rho ((x, v) :: rho1) B' n n1.
    Proof.
      intros [L H] HB Hx. split; [exact L|]. intros y Hy Hm. cbn.
      destruct (String.eqb_spec y x) as [->|Hne]; [contradiction|]. apply H; auto.
    Qed.

    (** What continuation [k] must do with a residual expression [r] whose
        evaluation amounts to the rest [c] of the evaluation in the source. *)
    Definition continues (S B : list string) (rho' : env) (n : nat) (F : value -> state -> out value)
               (k : cont) : Prop :=
      forall r n1 rho1' c st1',
        extends rho' rho1' B n n1 ->
        (forall x, In x (fv r) -> In x S \/ In x B \/ In x (made n n1)) ->
        orl c (ev' rho1' st1' r) ->
        orl (obind c F) (ev' rho1' st1' (fst (k r n1))).

    Definition good (e : expr) : Prop := loose e /\ no_anf e /\ shaped_in m e.

    Definition norm_sound (e : expr) : Prop :=
      forall k n rho rho' F,
        good e -> same (fv e) rho rho' -> continues (fv e) (lets e) rho' n F k ->
        forall st st', sr st st' -> orl (obind (ev rho st e) F) (ev' rho' st' (fst (norm0 m e k n))).

    Lemma continues_ret S B rho' n : continues S B rho' n (fun v st => Done v st) ret.
    Proof. intros r n1 rho1' c st1' _ _ H. rewrite obind_done. exact H. Qed.

    (** The whole expression. *)
    Lemma norm_whole e n rho rho' : norm_sound e -> good e -> same (fv e) rho rho' ->
      evrel_at m m' Lexical Lexical w norm_crel lrel call call' rho rho' e (fst (norm0 m e ret n)).
    Proof.
      intros Hs Hg Hr st st' Hst. rewrite <- (obind_done (ev rho st e)).
      apply Hs; auto. apply continues_ret.
    Qed.

    Lemma good_op o es e : good (Op o es) -> In e es -> good e.
    Proof.
      intros (Hu & Hn & Hs) He. split; [eapply loose_op; eassumption|]. split.
      - intros i. split; intros Hi.
        + apply (proj1 (Hn i)). apply in_flat_map. eauto.
        + apply (proj2 (Hn i)). apply in_flat_map. eauto.
      - eapply shaped_op; eassumption.
    Qed.

    (** *** Operands *)
    (** Operands already normalized: their values do not depend on the state. *)
    Definition settled (rho' : env) (acc : list expr) (vs' : list value) : Prop :=
      Forall2 (fun a v' => is_atom a = true /\ forall st, ev' rho' st a = Done v' st) acc vs'.

    Lemma settled_list rho' acc vs' st : settled rho' acc vs' ->
      eval_list ev' rho' st acc = Done vs' st.
    Proof.
      induction 1 as [|a v' acc vs' [_ H] _ IH]; cbn [eval_list]; [reflexivity|].
      rewrite H. cbn [obind]. rewrite IH. reflexivity.
    Qed.

    Lemma settled_list_app rho' acc vs' es st : settled rho' acc vs' ->
      eval_list ev' rho' st (acc ++ es) =
      obind (eval_list ev' rho' st es) (fun us st => Done (vs' ++ us) st).
    Proof.
      induction 1 as [|a v' acc vs' [_ H] _ IH]; cbn [eval_list app].
      - destruct (eval_list ev' rho' st es); reflexivity.
      - rewrite H. cbn [obind]. rewrite IH, obind_assoc. reflexivity.
    Qed.

    Lemma settled_extends rho' rho1' acc vs' B n n' :
      settled rho' acc vs' -> extends rho' rho1' B n n' ->
      (forall x, In x (flat_map fv acc) -> ~ In x B /\ ~ In x (made n n')) ->
      settled rho1' acc vs'.
    Proof.
      intros H He Hd. induction H as [|a v' acc vs' [Ha H] _ IH]; constructor.
      - split; [assumption|]. intros st. specialize (H st).
        destruct a; try discriminate; cbn [eval] in *; [exact H|].
        unfold eval_var in *. destruct (Hd x) as [H1 H2]; [cbn; auto|].
        rewrite (proj2 He x H1 H2). exact H.
      - apply IH. intros x Hx. apply Hd. cbn. rewrite in_app_iff. auto.
    Qed.

    Lemma atom_done rho' r : is_atom r = true -> forall st1',
      (exists v', forall st, ev' rho' st r = Done v' st) \/ ev' rho' st1' r = Wrong.
    Proof.
      destruct r; try discriminate; intros _ st1'; cbn [eval]; [eauto|].
      unfold eval_var. destruct (lookup rho' x); [eauto|].
      destruct (global_type m' x); [eauto|auto].
    Qed.

    Definition disjoint_operands (es : list expr) : Prop :=
      NoDup (flat_map binders es) /\
      forall x, In x (flat_map fv es) -> In x (flat_map lets es) -> False.

    Lemma operands_sound o rho F k es : (forall e, In e es -> norm_sound e /\ good e) ->
      disjoint_operands es ->
      forall ts acc vs vs' n0 n S B rho0' rho',
      length ts = length es -> last_only ts ->
      settled rho' acc vs' -> Forall2 vr vs vs' ->
      (forall x, In x (flat_map fv acc) -> In x S \/ In x B \/ In x (made n0 n)) ->
      (forall x, In x (flat_map fv acc) -> ~ In x (flat_map lets es) /\ forall i, n <= i -> x <> anf i) ->
      extends rho0' rho' B n0 n ->
      same (flat_map fv es) rho rho' ->
      (forall x, In x (flat_map fv es) -> In x S) ->
      (forall x, In x (flat_map lets es) -> In x B) ->
      continues S B rho0' n0 F k ->
      forall st st', sr st st' ->
      orl (obind (eval_list ev rho st es) (fun us st => obind (apply_op w m call o (vs ++ us) st) F))
          (ev' rho' st' (fst (norm_operands (norm0 m) es ts acc (fun es n => k (Op o es) n) n))).
    Proof.
      induction es as [|e es IH]; intros Hes Hd ts acc vs vs' n0 n S B rho0' rho' Hlen Hlast Hacc Hvs
        HS Hfresh Hext Hsame HeS HeB Hk st st' Hst.
      - destruct ts; [|discriminate]. cbn [norm_operands eval_list obind]. rewrite app_nil_r.
        apply Hk; [assumption| |].
        + intros x Hx. apply HS. exact Hx.
        + cbn [eval]. rewrite (settled_list _ _ _ _ Hacc). cbn [obind].
          apply apply_op_sim; assumption.
      - destruct ts as [|t ts]; [discriminate|]. cbn [norm_operands eval_list].
        destruct (Hes e (or_introl eq_refl)) as [Hsound Hgood].
        assert (Hes' : forall e, In e es -> norm_sound e /\ good e) by (intros; apply Hes; right; assumption).
        destruct Hd as [Hd1 Hd2]. cbn [flat_map] in Hd1, Hd2.
        apply nodup_app_iff in Hd1 as (Hd1 & Hd3 & Hd4).
        assert (Hd' : disjoint_operands es).
        { split; [assumption|]. intros x H1 H2. apply (Hd2 x); rewrite in_app_iff; auto. }
        assert (HsameE : same (fv e) rho rho').
        { intros x Hx. apply Hsame. cbn. rewrite in_app_iff. auto. }
        assert (HsameES : same (flat_map fv es) rho rho').
        { intros x Hx. apply Hsame. cbn. rewrite in_app_iff. auto. }
        pose proof Hgood as (Hu & Hanf & Hsh).
        (* the rest of the operands, once this one has value [v] *)
        assert (Hrest : forall v v' r n1 rho1' st1 st1',
                  vr v v' -> sr st1 st1' -> is_atom r = true -> (forall st, ev' rho1' st r = Done v' st) ->
                  extends rho' rho1' (lets e) n n1 ->
                  (forall x, In x (fv r) -> In x (fv e) \/ In x (lets e) \/ In x (made n n1)) ->
                  orl (obind (eval_list ev rho st1 es)
                         (fun us st => obind (apply_op w m call o (vs ++ v :: us) st) F))
                      (ev' rho1' st1' (fst (norm_operands (norm0 m) es ts (acc ++ [r])
                                              (fun es n => k (Op o es) n) n1)))).
        { intros v v' r n1 rho1' st1 st1' Hv Hs1 Ha Hr He1 Hfr.
          assert (Hanf_es : forall i, ~ In (anf i) (flat_map fv es) /\ ~ In (anf i) (flat_map lets es)).
          { intros i. split; intros Hi; apply in_flat_map in Hi as (e1 & H1 & H2);
              destruct (Hes' e1 H1) as (_ & _ & Hn & _); destruct (Hn i); try apply lets_binders in H2; contradiction. }
          destruct (He1) as [Hle _].
          rewrite (obind_ext _ _ (fun us st => obind (apply_op w m call o ((vs ++ [v]) ++ us) st) F))
            by (intros; rewrite <- app_assoc; reflexivity).
          apply IH with (vs' := vs' ++ [v']) (n0 := n0) (S := S) (B := B) (rho0' := rho0'); auto.
          - destruct ts; cbn in Hlast |- *; tauto.
          - apply Forall2_app; [|constructor; [split; assumption|constructor]].
            eapply settled_extends; [exact Hacc|exact He1|].
            intros x Hx. destruct (Hfresh x Hx) as [H1 H2]. split.
            + intros Hi. apply H1. cbn. rewrite in_app_iff. auto.
            + intros Hi. apply made_in in Hi as (i & Hi & ->). apply (H2 i); [lia|reflexivity].
          - apply Forall2_app; [assumption|]. constructor; [assumption|constructor].
          - intros x Hx. rewrite flat_map_app, in_app_iff in Hx. cbn [flat_map] in Hx.
            rewrite app_nil_r in Hx. destruct Hext as [Hl _]. destruct Hx as [Hx|Hx].
            + destruct (HS x Hx) as [H|[H|H]]; auto. right. right.
              apply made_in in H as (i & Hi & ->). apply made_in. exists i. split; [lia|reflexivity].
            + destruct (Hfr x Hx) as [H|[H|H]].
              * left. apply HeS. cbn. rewrite in_app_iff. auto.
              * right. left. apply HeB. cbn. rewrite in_app_iff. auto.
              * right. right. apply made_in in H as (i & Hi & ->). apply made_in. exists i.
                split; [lia|reflexivity].
          - intros x Hx. rewrite flat_map_app, in_app_iff in Hx. cbn [flat_map] in Hx.
            rewrite app_nil_r in Hx. destruct Hx as [Hx|Hx].
            + destruct (Hfresh x Hx) as [H1 H2]. split.
              * intros Hi. apply H1. cbn. rewrite in_app_iff. auto.
              * intros i Hi. apply H2. lia.
            + destruct (Hfr x Hx) as [H|[H|H]]; split.
              * intros Hi. apply (Hd2 x); rewrite in_app_iff; auto.
              * intros i Hi ->. destruct (Hanf i). contradiction.
              * intros Hi. apply (Hd4 x); [apply lets_binders; assumption|]. apply in_flat_map in Hi as (e1 & H1 & H2). apply in_flat_map. exists e1. split; [assumption|apply lets_binders; assumption].
              * intros i Hi ->. apply lets_binders in H. destruct (Hanf i). contradiction.
              * intros Hi. apply made_in in H as (i & _ & ->). destruct (Hanf_es i). contradiction.
              * intros i Hi ->. apply made_in in H as (j & Hj & E). apply anf_inj in E. lia.
          - eapply extends_trans; [exact Hext|exact He1|]. intros x [Hx|Hx]; [assumption|].
            apply HeB. cbn. rewrite in_app_iff. auto.
          - eapply extends_same; [exact HsameES|exact He1|]. intros x Hx. split.
            + intros Hi. apply (Hd2 x); rewrite in_app_iff; auto.
            + intros Hi. apply made_in in Hi as (i & _ & ->). destruct (Hanf_es i). contradiction.
          - intros x Hx. apply HeS. cbn. rewrite in_app_iff. auto.
          - intros x Hx. apply HeB. cbn. rewrite in_app_iff. auto. }
        (* evaluation of the first operand and then the rest *)
        set (G := fun v st => obind (eval_list ev rho st es)
                    (fun us st => obind (apply_op w m call o (vs ++ v :: us) st) F)).
        assert (HG : obind (obind (ev rho st e) (fun v st => obind (eval_list ev rho st es)
                       (fun us st => Done (v :: us) st)))
                       (fun us st => obind (apply_op w m call o (vs ++ us) st) F) =
                     obind (ev rho st e) G).
        { rewrite obind_assoc. unfold G. destruct (ev rho st e); cbn [obind]; try reflexivity.
          rewrite obind_assoc. reflexivity. }
        rewrite HG.
        destruct t as [t|]; cbn [norm_operand].
        + unfold norm_bound. apply Hsound; [assumption|assumption| |assumption].
          intros r n1 rho1' c st1' He1 Hfr Hc.
          destruct (is_atom r) eqn:Ea.
          * destruct (atom_done rho1' r Ea st1') as [[v' Hv']|Hw'].
            -- rewrite Hv' in Hc. inversion Hc as [v a' st1 st2 Hv Hs1 E1 E2| | | |]; subst; cbn [obind];
                 try constructor.
               unfold G. eapply Hrest; eauto.
            -- rewrite Hw' in Hc. inversion Hc; subst; cbn [obind]; constructor.
          * destruct (norm_operands (norm0 m) es ts (acc ++ [Var (anf n1)])
                        (fun es n => k (Op o es) n) (Datatypes.S n1)) as [e' n'] eqn:Ee.
            cbn [fst eval]. eapply orel_bind; [exact Hc|].
            intros v v' st1 st2 Hv Hs1. unfold G.
            replace e' with (fst (norm_operands (norm0 m) es ts (acc ++ [Var (anf n1)])
                        (fun es n => k (Op o es) n) (Datatypes.S n1))) by (rewrite Ee; reflexivity).
            eapply Hrest with (v' := v'); eauto.
            -- intros st3. cbn [eval]. unfold eval_var. cbn [lookup]. rewrite String.eqb_refl. reflexivity.
            -- destruct He1 as [L He1]. split; [lia|]. intros x H1 H2. cbn [lookup].
               destruct (String.eqb_spec x (anf n1)) as [->|Hne].
               ++ exfalso. apply H2. apply made_in. exists n1. split; [lia|reflexivity].
               ++ apply He1; [assumption|]. intros Hi. apply H2.
                  apply made_in in Hi as (i & Hi & ->). apply made_in. exists i. split; [lia|reflexivity].
            -- intros x [<-|[]]. right. right. apply made_in. exists n1. destruct He1. split; [lia|reflexivity].
        + (* in place, hence the last *)
          assert (Hnil : es = []).
          { destruct ts as [|u ts]; [destruct es; [reflexivity|discriminate]|].
            cbn in Hlast. destruct Hlast as [H _]. congruence. }
          subst es. destruct ts; [|discriminate]. cbn [norm_operands].
          apply Hsound; [assumption|assumption| |assumption].
          intros r n1 rho1' c st1' He1 Hfr Hc.
          assert (Hacc1 : settled rho1' acc vs').
          { eapply settled_extends; [exact Hacc|exact He1|]. intros x Hx.
            destruct (Hfresh x Hx) as [H1 H2]. split.
            - intros Hi. apply H1. cbn. rewrite in_app_iff. auto.
            - intros Hi. apply made_in in Hi as (i & Hi & ->). apply (H2 i); [lia|reflexivity]. }
          replace (obind c G) with (obind (obind c (fun v st => apply_op w m call o (vs ++ [v]) st)) F).
          2:{ rewrite obind_assoc. unfold G. destruct c; reflexivity. }
          apply Hk.
          * eapply extends_trans; [exact Hext|exact He1|]. intros x [Hx|Hx]; [assumption|].
            apply HeB. cbn. rewrite in_app_iff. auto.
          * intros x Hx. cbn [fv] in Hx. rewrite flat_map_app, in_app_iff in Hx. cbn [flat_map] in Hx.
            rewrite app_nil_r in Hx. destruct Hext as [Hl _], He1 as [Hl1 _]. destruct Hx as [Hx|Hx].
            -- destruct (HS x Hx) as [H|[H|H]]; auto. right. right.
               apply made_in in H as (i & Hi & ->). apply made_in. exists i. split; [lia|reflexivity].
            -- destruct (Hfr x Hx) as [H|[H|H]].
               ++ left. apply HeS. cbn. rewrite in_app_iff. auto.
               ++ right. left. apply HeB. cbn. rewrite in_app_iff. auto.
               ++ right. right. apply made_in in H as (i & Hi & ->). apply made_in. exists i.
                  split; [lia|reflexivity].
          * cbn [eval]. rewrite (settled_list_app _ _ _ _ _ Hacc1). cbn [eval_list].
            rewrite !obind_assoc. eapply orel_bind; [exact Hc|].
            intros v v' st1 st2 Hv Hs1. cbn [obind].
            apply apply_op_sim; auto.
            apply Forall2_app; [assumption|]. constructor; [assumption|constructor].
    Qed.

    (** *** All expressions *)
    Lemma good_sub e (e1 : expr) : good e -> loose e1 ->
      (forall x, In x (fv e1) -> In x (fv e) \/ In x (binders e)) ->
      (forall x, In x (binders e1) -> In x (binders e)) ->
      (forall e2, within e2 e1 -> within e2 e) -> good e1.
    Proof.
      intros (Hu & Hn & Hs) Hu1 H1 H2 H3. split; [assumption|]. split.
      - intros i. destruct (Hn i) as [N1 N2]. split; intros Hi.
        + destruct (H1 _ Hi); contradiction.
        + apply N2, H2, Hi.
      - intros o es Hw. apply Hs, H3, Hw.
    Qed.

    Lemma norm_fv_sub e n x : In x (fv (fst (norm0 m e ret n))) -> In x (fv e).
    Proof.
      intros H. apply norm_free with (Y := fun _ => False) in H; [tauto|apply adds_free_ret].
    Qed.

    Lemma norm_mono e n : shaped_in m e -> n <= snd (norm0 m e ret n).
    Proof. intros H. apply (norm_binders m e H _ ret n adds_ret). Qed.

    Lemma not_made (S : list string) n n' x :
      (forall i, ~ In (anf i) S) -> In x S -> ~ In x (made n n').
    Proof. intros H Hx Hm. apply made_in in Hm as (i & _ & ->). apply (H i Hx). Qed.

    Lemma extends_later rho rho1 B B' n n1 n2 :
      extends rho rho1 B n n1 -> (forall x, In x B -> In x B') -> n1 <= n2 ->
      extends rho rho1 B' n n2.
    Proof.
      intros [L H] HB Hl. split; [lia|]. intros x Hx Hm. apply H.
      - intros Hi. apply Hx, HB, Hi.
      - intros Hi. apply Hm. apply made_in in Hi as (i & Hi & ->). apply made_in. exists i.
        split; [lia|reflexivity].
    Qed.

    Lemma made_later n n1 n2 x : n1 <= n2 -> In x (made n n1) -> In x (made n n2).
    Proof.
      intros Hl Hi. apply made_in in Hi as (i & Hi & ->). apply made_in. exists i.
      split; [lia|reflexivity].
    Qed.

    Lemma made_earlier n n1 n2 x : n <= n1 -> In x (made n1 n2) -> In x (made n n2).
    Proof.
      intros Hl Hi. apply made_in in Hi as (i & Hi & ->). apply made_in. exists i.
      split; [lia|reflexivity].
    Qed.

    Lemma norm_eval e : norm_sound e.
    Proof.
      induction e as [l|x|o es IH|c t e IHc IHt IHe|a alts de IHa IHalts IHde|x t b e IHb IHe
                      |d e IHd IHe|o x t e IHo IHe|xs e IHe|xs e IHe] using expr_ind';
        intros k n rho rho' F Hg Hr Hk st st' Hst; pose proof Hg as (Hu & Hn & Hsh); unfold norm0; cbn [norm].
      - apply Hk; [apply extends_refl|intros ? []|]. apply lit_at. assumption.
      - apply Hk; [apply extends_refl|cbn; auto|]. apply var_at; [assumption| |assumption].
        apply Hr. left. reflexivity.
      - cbn [eval]. rewrite obind_assoc. rewrite Forall_forall in IH.
        apply operands_sound with (vs := []) (vs' := []) (n0 := n) (S := fv (Op o es))
          (B := lets (Op o es)) (rho0' := rho'); auto.
        + intros e He. split; [apply IH, He|]. eapply good_op; eassumption.
        + split; [apply Hu|exact (proj1 (proj2 Hu))].
        + apply operand_types_length, Hsh. constructor.
        + apply operand_types_last.
        + constructor.
        + intros x Hx. destruct Hx.
        + apply extends_refl.
      - destruct (loose_if _ _ _ Hu) as (U1 & U2 & U3 & A1 & A2).
        assert (Gc : good c).
        { apply (good_sub (If c t e)); auto; cbn; intros; [rewrite !in_app_iff; auto..|]. constructor; assumption. }
        assert (Gt : good t).
        { apply (good_sub (If c t e)); auto; cbn; intros; [rewrite !in_app_iff; auto..|]. apply within_if_2; assumption. }
        assert (Ge : good e).
        { apply (good_sub (If c t e)); auto; cbn; intros; [rewrite !in_app_iff; auto..|]. apply within_if_3; assumption. }
        cbn [eval]. rewrite obind_assoc. apply IHc; [assumption| | |assumption].
        { intros x Hx. apply Hr. cbn. rewrite in_app_iff. auto. }
        intros r n1 rho1' c0 st1' He1 Hfr Hc.
        pose proof (norm_mono t n1 (proj2 (proj2 Gt))) as M1.
        pose proof (norm_whole t n1 rho rho1' IHt Gt) as W1.
        pose proof (norm_fv_sub t n1) as V1. unfold norm0 in M1, W1, V1.
        destruct (norm m _ t ret n1) as [t' n2]. cbn [fst snd] in *.
        pose proof (norm_mono e n2 (proj2 (proj2 Ge))) as M2.
        pose proof (norm_whole e n2 rho rho1' IHe Ge) as W2.
        pose proof (norm_fv_sub e n2) as V2. unfold norm0 in M2, W2, V2.
        destruct (norm m _ e ret n2) as [e' n3]. cbn [fst snd] in *.
        rewrite <- obind_assoc. apply Hk.
        + eapply extends_later; [exact He1| |lia]. cbn. intros. rewrite in_app_iff. auto.
        + intros x Hx. cbn [fv lets] in *. rewrite !in_app_iff in *. destruct Hx as [Hx|[Hx|Hx]].
          * destruct (Hfr x Hx) as [H|[H|H]]; auto. right. right. eapply made_later; [|exact H]. lia.
          * auto.
          * auto.
        + cbn [eval]. eapply orel_bind; [exact Hc|]. intros v v' s1 s1' Hv Hs1.
          assert (St : same (fv t) rho rho1').
          { eapply extends_same; [|exact He1|].
            - intros x Hx. apply Hr. cbn. rewrite !in_app_iff. auto.
            - intros x Hx. split; [intros Hi; eapply A1; eassumption|].
              eapply not_made; [|exact Hx]. intros i. apply Gt. }
          assert (Se : same (fv e) rho rho1').
          { eapply extends_same; [|exact He1|].
            - intros x Hx. apply Hr. cbn. rewrite !in_app_iff. auto.
            - intros x Hx. split; [intros Hi; eapply A2; eassumption|].
              eapply not_made; [|exact Hx]. intros i. apply Ge. }
          destruct Hv; try constructor. destruct b; [apply W1|apply W2]; assumption.
      - pose proof (loose_case_argument _ _ _ Hu) as U1.
        assert (Ga : good a).
        { apply (good_sub (Case a alts de)); auto; cbn; intros; [rewrite !in_app_iff; auto..|].
          constructor; assumption. }
        cbn [eval]. rewrite obind_assoc. apply IHa; [assumption| | |assumption].
        { intros x Hx. apply Hr. cbn. rewrite in_app_iff. auto. }
        intros r n1 rho1' c0 st1' He1 Hfr Hc.
        assert (HA : n1 <= snd (map_state (fun al n =>
              let '(b, n) := norm m (fun e => e) (a_body al) ret n in
              (Alt (a_types al) (a_name al) b, n)) alts n1) /\
             (forall x, In x (flat_map (fun al => except (a_name al) (fv (a_body al)))
                (fst (map_state (fun al n =>
              let '(b, n) := norm m (fun e => e) (a_body al) ret n in
              (Alt (a_types al) (a_name al) b, n)) alts n1))) ->
              In x (flat_map (fun al => except (a_name al) (fv (a_body al))) alts)) /\
             Forall2 (alt_at m m' Lexical Lexical w norm_crel lrel call call' rho rho1') alts
               (fst (map_state (fun al n =>
              let '(b, n) := norm m (fun e => e) (a_body al) ret n in
              (Alt (a_types al) (a_name al) b, n)) alts n1))).
        { assert (Hal : forall al, In al alts -> good (a_body al) /\
                   forall v v', vr v v' -> same (fv (a_body al)) ((a_name al, v) :: rho) ((a_name al, v') :: rho1')).
          { intros al Hal. destruct (loose_case_alternative _ _ _ _ Hu Hal) as (U2 & U3 & U4).
            assert (Gal : good (a_body al)).
            { apply (good_sub (Case a alts de)); auto.
              - intros x Hx. cbn. rewrite !in_app_iff, !in_flat_map.
                destruct (string_dec x (a_name al)) as [->|Hne].
                + right. right. left. exists al. split; [assumption|left; reflexivity].
                + left. right. left. exists al. split; [assumption|]. apply in_except. auto.
              - intros x Hx. cbn. rewrite !in_app_iff, !in_flat_map. right. left. exists al.
                split; [assumption|right; assumption].
              - intros e2 Hw. eapply within_case_alternative; eassumption. }
            split; [assumption|]. intros v v' Hv x Hx.
            destruct (string_dec x (a_name al)) as [->|Hne]; [apply entry_cons_here; assumption|].
            apply entry_cons_there; auto. eapply entry_lookup.
            - apply Hr. cbn. rewrite !in_app_iff, in_flat_map. right. left. exists al.
              split; [assumption|]. apply in_except. auto.
            - apply He1; [intros Hi; eapply U4; eassumption|].
              eapply not_made; [|exact Hx]. intros i. apply Gal. }
          clear -IHalts Hal Hcall AG. revert n1. induction IHalts as [|al alts Hb _ IH]; intros n1.
          - cbn [map_state fst snd flat_map]. split; [apply le_n|]. split; [auto|constructor].
          - cbn [map_state]. destruct (Hal al (or_introl eq_refl)) as [Gal Sal].
            pose proof (norm_mono (a_body al) n1 (proj2 (proj2 Gal))) as M1.
            pose proof (norm_fv_sub (a_body al) n1) as V1.
            assert (W1 : forall v v', vr v v' ->
                      evrel_at m m' Lexical Lexical w norm_crel lrel call call'
                        ((a_name al, v) :: rho) ((a_name al, v') :: rho1') (a_body al)
                        (fst (norm0 m (a_body al) ret n1))).
            { intros v v' Hv. apply norm_whole; auto. }
            unfold norm0 in M1, V1, W1.
            destruct (norm m _ (a_body al) ret n1) as [b n2]. cbn [fst snd] in M1, V1, W1.
            destruct (IH (fun al H => Hal al (or_intror H)) n2) as (L2 & T2 & S2).
            destruct (map_state _ alts n2) as [bs n3]. cbn [fst snd flat_map a_name a_body] in *.
            split; [lia|]. split.
            + intros x. rewrite !in_app_iff, !in_except. intros [[H1 H2]|H]; [left|right]; auto.
            + constructor; [|assumption]. split; [reflexivity|]. exact W1. }
        destruct (map_state _ alts n1) as [alts' n2]. cbn [fst snd] in HA. destruct HA as (M1 & V1 & W1).
        destruct de as [[y e]|].
        + destruct (loose_case_default _ _ _ _ Hu) as (U2 & U3 & U4).
          assert (Ge : good e).
          { apply (good_sub (Case a alts (Some (y, e)))); auto.
            - intros x Hx. cbn. rewrite !in_app_iff.
              destruct (string_dec x y) as [->|Hne].
              + right. right. right. left. reflexivity.
              + left. right. right. apply in_except. auto.
            - intros x Hx. cbn. rewrite !in_app_iff. right. right. right. assumption.
            - intros e2 Hw. apply within_case_default; assumption. }
          pose proof (norm_mono e n2 (proj2 (proj2 Ge))) as M2.
          pose proof (norm_fv_sub e n2) as V2.
          assert (W2 : forall v v', vr v v' ->
                    evrel_at m m' Lexical Lexical w norm_crel lrel call call'
                      ((y, v) :: rho) ((y, v') :: rho1') e (fst (norm0 m e ret n2))).
          { intros v v' Hv. apply norm_whole; [eapply IHde; reflexivity|assumption|].
            intros x Hx. destruct (string_dec x y) as [->|Hne]; [apply entry_cons_here; assumption|].
            apply entry_cons_there; auto. eapply entry_lookup.
            - apply Hr. cbn. rewrite !in_app_iff. right. right. apply in_except. auto.
            - apply He1; [intros Hi; eapply U4; eassumption|].
              eapply not_made; [|exact Hx]. intros i. apply Ge. }
          unfold norm0 in M2, V2, W2.
          destruct (norm m _ e ret n2) as [e' n3]. cbn [fst snd] in *.
          rewrite <- obind_assoc. apply Hk.
          * eapply extends_later; [exact He1| |lia]. cbn. intros. rewrite in_app_iff. auto.
          * intros x Hx. cbn [fv lets] in *. rewrite !in_app_iff in *.
            destruct Hx as [Hx|[Hx|Hx]]; [|auto|].
            -- destruct (Hfr x Hx) as [H|[H|H]]; auto. right. right. eapply made_later; [|exact H]. lia.
            -- apply in_except in Hx as [Hx Hne]. left. right. right. apply in_except. auto.
          * cbn [eval]. eapply orel_bind; [exact Hc|]. intros v v' s1 s1' Hv Hs1.
            destruct Hv as [| | | | |tag v v' Hv| | | | |]; try constructor.
            clear -W1 W2 Hs1 Hv. induction W1 as [|al al' alts alts' [Ht Hal] _ IH]; cbn [eval_alts].
            -- apply W2; [|assumption]. constructor. assumption.
            -- rewrite Ht. destruct (existsb (mtype_eqb tag) (a_types al)); [|exact IH].
               apply Hal; [|assumption]. apply downcast_sim. assumption.
        + rewrite <- obind_assoc. apply Hk.
          * eapply extends_later; [exact He1| |lia]. cbn. intros. rewrite in_app_iff. auto.
          * intros x Hx. cbn [fv lets] in *. rewrite !in_app_iff in *.
            destruct Hx as [Hx|[Hx|Hx]]; [|auto|destruct Hx].
            destruct (Hfr x Hx) as [H|[H|H]]; auto. right. right. eapply made_later; [|exact H]. lia.
          * cbn [eval]. eapply orel_bind; [exact Hc|]. intros v v' s1 s1' Hv Hs1.
            destruct Hv as [| | | | |tag v v' Hv| | | | |]; try constructor.
            clear -W1 Hs1 Hv. induction W1 as [|al al' alts alts' [Ht Hal] _ IH]; cbn [eval_alts].
            -- constructor.
            -- rewrite Ht. destruct (existsb (mtype_eqb tag) (a_types al)); [|exact IH].
               apply Hal; [|assumption]. apply downcast_sim. assumption.
      - destruct (loose_let _ _ _ _ Hu) as (U1 & U2 & U6 & U7).
        assert (Gb : good b).
        { apply (good_sub (Let x t b e)); auto; cbn; intros; [rewrite !in_app_iff; auto..|]. constructor; assumption. }
        assert (Ge : good e).
        { apply (good_sub (Let x t b e)); auto; cbn; intros y Hy.
          - rewrite !in_app_iff, in_except. destruct (string_dec y x) as [->|Hne]; auto.
          - rewrite in_app_iff. auto.
          - apply within_let_body. assumption. }
        cbn [eval]. rewrite obind_assoc. apply IHb; [assumption| | |assumption].
        { intros y Hy. apply Hr. cbn. rewrite in_app_iff. auto. }
        intros r n1 rho1' c0 st1' He1 Hfr Hc.
        change (norm m (fun e => e)) with (norm0 m).
        destruct (norm0 m e k n1) as [e' n2] eqn:Ee. cbn [fst eval].
        eapply orel_bind; [exact Hc|]. intros v v' s1 s1' Hv Hs1.
        replace e' with (fst (norm0 m e k n1)) by (rewrite Ee; reflexivity).
        apply IHe; [assumption| | |assumption].
        + intros y Hy. destruct (string_dec y x) as [->|Hne]; [apply entry_cons_here; assumption|].
          apply entry_cons_there; auto. eapply entry_lookup.
          * apply Hr. cbn. rewrite in_app_iff, in_except. auto.
          * apply He1; [intros Hi; eapply U6; eassumption|].
            eapply not_made; [|exact Hy]. intros i. apply Ge.
        + intros r2 n3 rho2' c2 st2' He2 Hfr2 Hc2. apply Hk; [| |assumption].
          * eapply extends_trans; [|exact He2|].
            -- eapply extends_cons with (B' := x :: lets b); [exact He1| |left; reflexivity].
               intros y Hy. right. assumption.
            -- cbn. intros y [[Hy|Hy]|Hy]; auto; right; rewrite in_app_iff; auto.
          * intros y Hy. cbn. rewrite !in_app_iff, in_except. destruct (Hfr2 y Hy) as [H|[H|H]].
            -- destruct (string_dec y x) as [->|Hne]; auto.
            -- auto.
            -- right. right. destruct He1. eapply made_earlier; eassumption.
      - destruct (loose_letrec _ _ Hu) as (Ud & U2).
        assert (Gb : good (f_body d)).
        { apply (good_sub (LetRec d e)); auto; cbn [binders].
          - intros y Hy. rewrite in_fv_letrec. cbn. rewrite !in_app_iff.
            destruct (string_dec y (f_name d)) as [->|Hne]; [auto|].
            destruct (in_dec string_dec y (map fst (f_args d))); auto.
          - intros y Hy. cbn. rewrite !in_app_iff. auto.
          - intros e2 Hw. apply within_letrec_definition. assumption. }
        assert (Ge : good e).
        { apply (good_sub (LetRec d e)); auto; cbn [binders].
          - intros y Hy. rewrite in_fv_letrec. cbn. destruct (string_dec y (f_name d)) as [->|Hne]; auto.
          - intros y Hy. cbn. rewrite !in_app_iff. auto.
          - intros e2 Hw. apply within_letrec_body. assumption. }
        change (norm m (fun e => e)) with (norm0 m).
        pose proof (norm_mono (f_body d) n (proj2 (proj2 Gb))) as M1.
        destruct (norm0 m (f_body d) ret n) as [b n1] eqn:Eb.
        destruct (norm0 m e k n1) as [e' n2] eqn:Ee. cbn [fst snd] in *.
        assert (Hcr : exists ps, norm_crel d (norm0_def d b) (map fst rho, map fst rho') ps /\
                        forall x y, ps x y -> entry m vr rho rho' x y).
        { exists (fun x y => y = x /\ In x (def_fv d)). split.
          - exists n. rewrite Eb. split; [reflexivity|]. split; [assumption|].
            split; [apply Gb|]. split; [apply Gb|]. split; [|reflexivity].
            intros i. destruct (Hn i) as [_ N2]. cbn [binders] in N2. cbn in N2. rewrite !in_app_iff in N2.
            split; intros Hi; apply N2; auto.
          - intros x y [-> Hx]. apply Hr. apply in_def_fv in Hx as (E1 & E2 & E3).
            apply in_fv_letrec. auto. }
        destruct Hcr as (ps & Hcr & Hps).
        cbn [eval capture f_thunk f_name]. fold (norm0_def d b).
        assert (Hbody : forall v v' s1 s1', vr v v' -> sr s1 s1' ->
                  orl (obind (ev ((f_name d, v) :: rho) s1 e) F) (ev' ((f_name d, v') :: rho') s1' e')).
        { intros v v' s1 s1' Hv Hs1.
          replace e' with (fst (norm0 m e k n1)) by (rewrite Ee; reflexivity).
          apply IHe; [assumption| | |assumption].
          - intros y Hy. destruct (string_dec y (f_name d)) as [->|Hne]; [apply entry_cons_here; assumption|].
            apply entry_cons_there; auto. apply Hr. apply in_fv_letrec. auto.
          - intros r2 n3 rho2' c2 st2' He2 Hfr2 Hc2. apply Hk; [| |assumption].
            + eapply extends_trans with (rho1 := (f_name d, v') :: rho') (B := [f_name d]) (n1 := n1).
              * split; [assumption|]. intros y Hy _. cbn. cbn in Hy.
                destruct (String.eqb_spec y (f_name d)); [subst; tauto|reflexivity].
              * exact He2.
              * cbn. intros y [[Hy|[]]|Hy]; auto; right; rewrite !in_app_iff; auto.
            + intros y Hy. rewrite in_fv_letrec. cbn. rewrite !in_app_iff.
              destruct (Hfr2 y Hy) as [H|[H|H]].
              * destruct (string_dec y (f_name d)) as [->|Hne]; intuition auto.
              * intuition auto.
              * right. right. eapply made_earlier; eassumption. }
        destruct (f_thunk d) eqn:Eth.
        + rewrite <- (Forall2_length (sr_cells _ _ _ _ _ Hst)). apply Hbody.
          * eapply vr_thunk; eassumption.
          * destruct Hst as [H1 H2 H3]. split; cbn; try assumption.
            apply Forall2_app; [assumption|]. constructor; constructor.
        + apply Hbody; [|assumption]. eapply vr_closure; eassumption.
      - destruct (loose_try _ _ _ _ Hu) as (U1 & U2 & U5).
        assert (Go : good o).
        { apply (good_sub (Try o x t e)); auto; cbn; intros; [rewrite !in_app_iff; auto..|]. constructor; assumption. }
        assert (Ge : good e).
        { apply (good_sub (Try o x t e)); auto; cbn; intros y Hy.
          - rewrite !in_app_iff, in_except. destruct (string_dec y x) as [->|Hne]; auto.
          - rewrite in_app_iff. auto.
          - apply within_try_body. assumption. }
        cbn [eval]. rewrite obind_assoc. apply IHo; [assumption| | |assumption].
        { intros y Hy. apply Hr. cbn. rewrite in_app_iff. auto. }
        intros r n1 rho1' c0 st1' He1 Hfr Hc.
        pose proof (norm_mono e n1 (proj2 (proj2 Ge))) as M2.
        pose proof (norm_fv_sub e n1) as V2.
        assert (W2 : forall v v', vr v v' ->
                  evrel_at m m' Lexical Lexical w norm_crel lrel call call'
                    ((x, v) :: rho) ((x, v') :: rho1') e (fst (norm0 m e ret n1))).
        { intros v v' Hv. apply norm_whole; [assumption|assumption|].
          intros y Hy. destruct (string_dec y x) as [->|Hne]; [apply entry_cons_here; assumption|].
          apply entry_cons_there; auto. eapply entry_lookup.
          - apply Hr. cbn. rewrite !in_app_iff. right. apply in_except. auto.
          - apply He1; [intros Hi; eapply U5; eassumption|].
            eapply not_made; [|exact Hy]. intros i. apply Ge. }
        unfold norm0 in M2, V2, W2.
        destruct (norm m _ e ret n1) as [e' n2]. cbn [fst snd] in *.
        rewrite <- obind_assoc. apply Hk.
        + eapply extends_later; [exact He1| |lia]. cbn. intros. rewrite in_app_iff. auto.
        + intros y Hy. cbn [fv lets] in *. cbn. rewrite !in_app_iff, in_except in *.
          destruct Hy as [Hy|[Hy Hne]]; [|auto].
          destruct (Hfr y Hy) as [H|[H|H]]; auto. right. right. eapply made_later; [|exact H]. lia.
        + cbn [eval]. eapply orel_bind; [exact Hc|]. intros v v' s1 s1' Hv Hs1.
          destruct Hv as [| | | | |tag v v' Hv| | | | |]; try constructor.
          destruct (mtype_eqb tag t).
          * apply orel_escape. apply W2; [|assumption]. apply downcast_sim. assumption.
          * constructor; [constructor|]; assumption.
      - cbn [eval]. apply IHe; [|exact Hr| |assumption].
        + apply (good_sub (CloneVars xs e)); auto. intros e2 Hw. constructor. assumption.
        + intros r n1 rho1' c st1' He1 Hfr Hc. apply Hk; auto.
      - cbn [eval]. apply IHe; [|exact Hr| |assumption].
        + apply (good_sub (DropVars xs e)); auto. intros e2 Hw. constructor. assumption.
        + intros r n1 rho1' c st1' He1 Hfr Hc. apply Hk; auto.
    Qed.
  End Body.
End NormSim.

(** *** Modules *)
Definition norm0_module (m : mmodule) : mmodule :=
  set_defs m (fst (map_state (norm_def m (fun e => e)) (m_defs m) 0)).

Lemma find_norm m clean g defs : forall n,
  match find_def defs g with
  | Some d => exists k, find_def (fst (map_state (norm_def m clean) defs n)) g =
                        Some (set_body d (clean (fst (norm m clean (f_body d) ret k))))
  | None => find_def (fst (map_state (norm_def m clean) defs n)) g = None
  end.
Proof.
  induction defs as [|d defs IH]; intros n; [reflexivity|]. unfold find_def. cbn [List.find map_state].
  unfold norm_def at 1 3. destruct (norm m clean (f_body d) ret n) as [b n1] eqn:Eb.
  specialize (IH n1). unfold find_def in IH.
  destruct (map_state (norm_def m clean) defs n1) as [ds n2]. cbn [fst List.find set_body f_name] in *.
  destruct (String.eqb g (f_name d)); [|exact IH].
  exists n. rewrite Eb. reflexivity.
Qed.

Lemma norm0_agree m : infos_ok m -> agree m (norm0_module m) (norm_crel m) (fun _ _ => False).
Proof.
  intros [Hi Hfb].
  split; cbn [norm0_module set_defs m_types m_declared m_infos m_fallback m_defs]; auto.
  - intros g d Hd. pose proof (find_norm m (fun e => e) g (m_defs m) 0) as H. rewrite Hd in H.
    destruct H as (k & ->). eauto.
  - intros g Hd _. pose proof (find_norm m (fun e => e) g (m_defs m) 0) as H. rewrite Hd in H. exact H.
  - intros d d' xs ps (n & -> & _). reflexivity.
  - intros d g [].
Qed.

Definition normalizable (m : mmodule) : Prop :=
  forall d, In d (m_defs m) -> loose (f_body d) /\ no_anf (f_body d) /\ shaped_in m (f_body d).

Theorem norm0_refines m : infos_ok m -> normalizable m ->
  refines Lexical m Lexical (norm0_module m).
Proof.
  intros Hi Hm. apply sim_refines with (crel := norm_crel m) (lrel := fun _ _ => False).
  - apply norm0_agree. assumption.
  - intros w call call' d d' c c' ps f f' vs vs' st st' Hcall
           (n & -> & Hu & Hn & Hsh & Hna & ->) Hent Hf Hk Hvs Hlen Hs.
    cbn [norm0_def f_args f_name f_body].
    apply norm_whole; auto.
    + apply norm_eval; [apply norm0_agree; assumption|assumption].
    + split; [assumption|split; assumption].
    + intros z Hz. apply entry_bind_args_one; [assumption|rewrite map_length; assumption|].
      intros Ha. destruct (string_dec z (f_name d)) as [->|Hne]; [apply entry_cons_here; assumption|].
      apply entry_cons_there; auto. apply Hent. split; [reflexivity|]. apply in_def_fv. auto.
  - intros w call call' d g vs vs' st st' Hcall [].
  - intros w call call' g d d' vs vs' st st' Hcall Hd Hd' Hvs Hlen Hs.
    pose proof (find_norm m (fun e => e) g (m_defs m) 0) as H. rewrite Hd in H. destruct H as (k & H).
    cbn [norm0_module set_defs m_defs] in Hd'. rewrite H in Hd'. injection Hd' as <-.
    apply find_def_in in Hd as [Hd _].
    cbn [f_args f_name f_body set_body]. apply norm_whole; auto.
    + apply norm_eval; [apply norm0_agree; assumption|assumption].
    + exact (Hm d Hd).
    + intros x Hx. cbn. apply entry_bind_args_one; [assumption|rewrite map_length; assumption|].
      intros _. apply entry_nil.
Qed.

(** *** Alias removal inside local functions first *)
Fixpoint deep (e : expr) : expr :=
  match e with
  | Lit l => Lit l
  | Var x => Var x
  | Op o es => Op o (map deep es)
  | If c t e => If (deep c) (deep t) (deep e)
  | Case a alts de =>
      Case (deep a) (map (fun al => Alt (a_types al) (a_name al) (deep (a_body al))) alts)
           (match de with Some (x, e) => Some (x, deep e) | None => None end)
  | Let x t b e => Let x t (deep b) (deep e)
  | LetRec d e =>
      LetRec (Fdef (f_name d) (f_env d) (f_args d) (f_result d) (alias [] (deep (f_body d))) (f_thunk d))
             (deep e)
  | Try o x t e => Try (deep o) x t (deep e)
  | CloneVars xs e => CloneVars xs (deep e)
  | DropVars xs e => DropVars xs (deep e)
  end.

Lemma alias_deep e : forall s, loose e -> alias s (deep e) = alias s e.
Proof.
  induction e as [l|x|o es IH|c t e IHc IHt IHe|a alts de IHa IHalts IHde|x t b e IHb IHe
                  |d e IHd IHe|o x t e IHo IHe|xs e IHe|xs e IHe] using expr_ind';
    intros s Hu; cbn [deep].
  - reflexivity.
  - reflexivity.
  - cbn [alias]. rewrite map_map. f_equal. apply map_ext_in. intros e He.
    rewrite Forall_forall in IH. apply IH; [assumption|]. eapply loose_op; eassumption.
  - destruct (loose_if _ _ _ Hu) as (U1 & U2 & U3 & _). cbn [alias]. rewrite IHc, IHt, IHe by assumption.
    reflexivity.
  - cbn [alias]. rewrite IHa by (eapply loose_case_argument; eassumption). f_equal.
    + rewrite map_map. apply map_ext_in. intros al Hal. cbn [a_types a_name a_body]. f_equal.
      rewrite Forall_forall in IHalts. apply IHalts; [assumption|].
      eapply loose_case_alternative; eassumption.
    + destruct de as [[y e]|]; [|reflexivity]. rewrite (IHde _ _ eq_refl); [reflexivity|].
      eapply loose_case_default; eassumption.
  - destruct (loose_let _ _ _ _ Hu) as (U1 & U2 & _).
    destruct (var_of (alias s b)) as [y|] eqn:Ev.
    + apply var_of_some in Ev. rewrite (alias_let_var s x t b e y Ev).
      rewrite (alias_let_var s x t (deep b) (deep e) y) by (rewrite IHb by assumption; exact Ev).
      apply IHe. assumption.
    + rewrite (alias_let_other s x t b e) by assumption.
      rewrite alias_let_other by (rewrite IHb by assumption; assumption).
      rewrite IHb, IHe by assumption. reflexivity.
  - destruct (loose_letrec _ _ Hu) as (U1 & U2). cbn [alias f_name f_env f_args f_result f_body f_thunk].
    rewrite (IHd [] U1), alias_idempotent, IHe by assumption. reflexivity.
  - destruct (loose_try _ _ _ _ Hu) as (U1 & U2 & _). cbn [alias]. rewrite IHo, IHe by assumption. reflexivity.
  - cbn [alias]. rewrite IHe by assumption. reflexivity.
  - cbn [alias]. rewrite IHe by assumption. reflexivity.
Qed.

Definition deepens (k1 k2 : cont) : Prop :=
  forall r n, k1 (deep r) n = (deep (fst (k2 r n)), snd (k2 r n)).

Lemma deepens_ret : deepens ret ret.
Proof. intros r n. reflexivity. Qed.

Lemma is_atom_deep r : is_atom (deep r) = is_atom r.
Proof. destruct r; reflexivity. Qed.

Lemma operands_deep m es :
  (forall e, In e es -> forall k1 k2 n, deepens k1 k2 ->
     norm m (alias []) e k1 n = (deep (fst (norm0 m e k2 n)), snd (norm0 m e k2 n))) ->
  forall ts acc k1 k2 n,
  (forall rs n, k1 (map deep rs) n = (deep (fst (k2 rs n)), snd (k2 rs n))) ->
  norm_operands (norm m (alias [])) es ts (map deep acc) k1 n =
  (deep (fst (norm_operands (norm0 m) es ts acc k2 n)), snd (norm_operands (norm0 m) es ts acc k2 n)).
Proof.
  induction es as [|e es IH]; intros He ts acc k1 k2 n Hk; [apply Hk|].
  destruct ts as [|t ts]; [apply Hk|]. cbn [norm_operands].
  assert (Hrest : deepens (fun r n => norm_operands (norm m (alias [])) es ts (map deep acc ++ [r]) k1 n)
                          (fun r n => norm_operands (norm0 m) es ts (acc ++ [r]) k2 n)).
  { intros r n1. change [deep r] with (map deep [r]). rewrite <- map_app. apply IH; [|exact Hk].
    intros e' He'. apply He. right. assumption. }
  destruct t as [t|]; cbn [norm_operand].
  - unfold norm_bound. apply He; [left; reflexivity|]. intros r n1. rewrite is_atom_deep.
    destruct (is_atom r); [apply Hrest|].
    specialize (Hrest (Var (anf n1)) (S n1)). cbn [deep] in Hrest. rewrite Hrest.
    destruct (norm_operands (norm0 m) es ts (acc ++ [Var (anf n1)]) k2 (S n1)) as [e' n'].
    reflexivity.
  - apply He; [left; reflexivity|]. exact Hrest.
Qed.

Lemma norm_deep m e : forall k1 k2 n, deepens k1 k2 ->
  norm m (alias []) e k1 n = (deep (fst (norm0 m e k2 n)), snd (norm0 m e k2 n)).
Proof.
  unfold norm0.
  induction e as [l|x|o es IH|c t e IHc IHt IHe|a alts de IHa IHalts IHde|x t b e IHb IHe
                  |d e IHd IHe|o x t e IHo IHe|xs e IHe|xs e IHe] using expr_ind';
    intros k1 k2 n Hk; cbn [norm].
  - apply (Hk (Lit l)).
  - apply (Hk (Var x)).
  - rewrite Forall_forall in IH. apply (operands_deep m es IH _ []).
    intros rs n1. apply (Hk (Op o rs)).
  - apply IHc. intros r n1. rewrite (IHt ret ret) by exact deepens_ret.
    destruct (norm m (fun e => e) t ret n1) as [t' n2]. cbn [fst snd].
    rewrite (IHe ret ret) by exact deepens_ret.
    destruct (norm m (fun e => e) e ret n2) as [e' n3]. cbn [fst snd].
    apply (Hk (If r t' e')).
  - apply IHa. intros r n1.
    assert (HA : map_state (fun al n =>
              let '(b, n) := norm m (alias []) (a_body al) ret n in
              (Alt (a_types al) (a_name al) b, n)) alts n1 =
              (map (fun al => Alt (a_types al) (a_name al) (deep (a_body al)))
                 (fst (map_state (fun al n =>
              let '(b, n) := norm m (fun e => e) (a_body al) ret n in
              (Alt (a_types al) (a_name al) b, n)) alts n1)),
               snd (map_state (fun al n =>
              let '(b, n) := norm m (fun e => e) (a_body al) ret n in
              (Alt (a_types al) (a_name al) b, n)) alts n1))).
    { clear -IHalts. revert n1. induction IHalts as [|al alts Hb _ IH]; intros n1; cbn [map_state]; [reflexivity|].
      rewrite (Hb ret ret) by exact deepens_ret.
      destruct (norm m (fun e => e) (a_body al) ret n1) as [b n2]. cbn [fst snd]. rewrite IH.
      destruct (map_state _ alts n2) as [bs n3]. reflexivity. }
    rewrite HA. clear HA.
    match goal with |- context [map _ (fst ?M)] => destruct M as [alts' n2] end. cbn [fst snd].
    destruct de as [[y e]|].
    + rewrite (IHde _ _ eq_refl ret ret) by exact deepens_ret.
      destruct (norm m (fun e => e) e ret n2) as [e' n3]. cbn [fst snd].
      apply (Hk (Case r alts' (Some (y, e')))).
    + apply (Hk (Case r alts' None)).
  - apply IHb. intros r n1. rewrite (IHe k1 k2) by assumption.
    destruct (norm m (fun e => e) e k2 n1) as [e' n2]. reflexivity.
  - rewrite (IHd ret ret) by exact deepens_ret.
    destruct (norm m (fun e => e) (f_body d) ret n) as [b n1]. cbn [fst snd].
    rewrite (IHe k1 k2) by assumption.
    destruct (norm m (fun e => e) e k2 n1) as [e' n2]. reflexivity.
  - apply IHo. intros r n1. rewrite (IHe ret ret) by exact deepens_ret.
    destruct (norm m (fun e => e) e ret n1) as [e' n2]. cbn [fst snd]. apply (Hk (Try r x t e')).
  - apply IHe. intros r n1. apply (Hk (CloneVars xs r)).
  - apply IHe. intros r n1. apply (Hk (CloneVars xs r)).
Qed.

(** Normalization is normalization without alias removal followed by alias
    removal. *)
Lemma norm_module_alias m : normalizable m -> norm_module m = alias_module (norm0_module m).
Proof.
  intros Hm. unfold norm_module, alias_module, norm0_module. unfold set_defs at 1 2. cbn [m_defs m_types m_declared m_infos m_fallback].
  unfold set_defs. cbn [m_defs m_types m_declared m_infos m_fallback]. f_equal.
  assert (H : forall defs n, (forall d, In d defs -> In d (m_defs m)) ->
            map_state (norm_def m (alias [])) defs n =
            (map (fun d => set_body d (alias [] (f_body d))) (fst (map_state (norm_def m (fun e => e)) defs n)),
             snd (map_state (norm_def m (fun e => e)) defs n))).
  { induction defs as [|d defs IH]; intros n Hd; [reflexivity|]. cbn [map_state].
    unfold norm_def at 1 3 5. rewrite (norm_deep m (f_body d) ret ret n deepens_ret).
    destruct (Hm d (Hd d (or_introl eq_refl))) as (Hu & Hn & Hsh).
    pose proof (norm_loose m (f_body d) n Hu Hn Hsh) as Hu'. unfold norm0 in *.
    destruct (norm m (fun e => e) (f_body d) ret n) as [b n1]. cbn [fst snd] in *.
    rewrite alias_deep by assumption. rewrite IH by (intros; apply Hd; right; assumption).
    destruct (map_state (norm_def m (fun e => e)) defs n1) as [ds n2]. reflexivity. }
  rewrite H by auto. reflexivity.
Qed.

Lemma norm0_loose m : normalizable m -> forall d, In d (m_defs (norm0_module m)) -> loose (f_body d).
Proof.
  intros Hm d. cbn [norm0_module set_defs m_defs].
  assert (H : forall defs n, (forall d, In d defs -> In d (m_defs m)) ->
            In d (fst (map_state (norm_def m (fun e => e)) defs n)) -> loose (f_body d)).
  { induction defs as [|d0 defs IH]; intros n Hd; [intros []|]. cbn [map_state].
    unfold norm_def at 1.
    destruct (Hm d0 (Hd d0 (or_introl eq_refl))) as (Hu & Hn & Hsh).
    pose proof (norm_loose m (f_body d0) n Hu Hn Hsh) as Hu'. unfold norm0 in *.
    destruct (norm m (fun e => e) (f_body d0) ret n) as [b n1]. cbn [fst snd] in *.
    specialize (IH n1 ltac:(intros; apply Hd; right; assumption)).
    destruct (map_state (norm_def m (fun e => e)) defs n1) as [ds n2]. cbn [fst] in *.
    intros [<-|Hi]; [exact Hu'|apply IH, Hi]. }
  apply H. auto.
Qed.

Lemma norm0_infos m : infos_ok m -> infos_ok (norm0_module m).
Proof.
  intros [H1 H2]. unfold infos_ok, global_type in *.
  cbn [norm0_module set_defs m_types m_declared m_infos m_fallback m_defs].
  assert (H : forall g, match find_def (m_defs m) g with
                        | Some d => Some (f_type d) | None => lookup (m_declared m) g end <> None ->
     match find_def (fst (map_state (norm_def m (fun e => e)) (m_defs m) 0)) g with
     | Some d => Some (f_type d) | None => lookup (m_declared m) g end <> None).
  { intros g. pose proof (find_norm m (fun e => e) g (m_defs m) 0) as H.
    destruct (find_def (m_defs m) g); [destruct H as (k & ->); discriminate|rewrite H; auto]. }
  split; [intros t g Ht; apply H; eapply H1; eassumption|apply H, H2].
Qed.

Theorem norm_refines m : infos_ok m -> normalizable m -> refines Lexical m Lexical (norm_module m).
Proof.
  intros Hi Hm. rewrite norm_module_alias by assumption.
  eapply refines_trans; [apply norm0_refines; assumption|].
  apply alias_refines; [apply norm0_infos; assumption|]. apply norm0_loose. assumption.
Qed.

(** The conditions in the words of the specification. *)
Lemma normalizable_spec m : names_apart m -> no_normal_names m -> shaped m -> normalizable m.
Proof.
  intros Hd Hn Hs d Hi. destruct (Hd d Hi) as (D1 & D2 & D3). split; [|split].
  - split; [assumption|]. split; intros x Hx Hb.
    + apply fv_free in Hx. eapply D2; eassumption.
    + apply in_copies in Hx. eapply D3; eassumption.
  - intros i. destruct (Hn d i Hi) as [N1 N2]. split; [|exact N2].
    intros Hx. apply N1, fv_free, Hx.
  - intros o es Hw. eapply Hs; eassumption.
Qed.

Lemma distinct_names_apart m : distinct_binders m -> names_apart m.
Proof.
  intros H d Hd. destruct (H d Hd) as [N D]. split; [assumption|]. split; intros x Hx Hb; apply (D x).
  - assumption.
  - apply lets_binders. assumption.
  - apply fv_free, copies_free, in_copies. assumption.
  - assumption.
Qed.
