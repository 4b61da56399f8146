(** Symbolic execution of code. *)
From Coq Require Import String List ZArith Bool Lia.
From Verif Require Import Base Mir RunSpec.
Import ListNotations.

Section Rules.
  Variable w : world.
  Variable m : mmodule.
  Notation evals := (evals w m).
  Notation runs := (runs w m).

  Definition evals_list (rho : env) (st : state) (es : list expr) (vs : list value) (st' : state) : Prop :=
    exists n0, forall n, n0 <= n ->
      eval_list (eval Lexical w m (call Lexical w m n)) rho st es = Done vs st'.

  Lemma evals_fun rho st e v st1 v' st2 : evals rho st e v st1 -> evals rho st e v' st2 -> v = v' /\ st1 = st2.
  Proof.
    intros (n & H) (n' & H'). specialize (H (Nat.max n n')). specialize (H' (Nat.max n n')).
    rewrite H in H' by lia. specialize (H' ltac:(lia)). injection H' as <- <-. split; reflexivity.
  Qed.

  Lemma runs_fun st f vs v st1 v' st2 : runs st f vs v st1 -> runs st f vs v' st2 -> v = v' /\ st1 = st2.
  Proof.
    intros (n & H) (n' & H'). specialize (H (Nat.max n n')). specialize (H' (Nat.max n n')).
    rewrite H in H' by lia. specialize (H' ltac:(lia)). injection H' as <- <-. split; reflexivity.
  Qed.

  Lemma evals_lit rho st l : evals rho st (Lit l) (lit_value l) st.
  Proof. exists 0. reflexivity. Qed.

  Lemma evals_var rho st x v : lookup rho x = Some v -> evals rho st (Var x) v st.
  Proof. intros H. exists 0. intros n _. cbn. unfold eval_var. rewrite H. reflexivity. Qed.

  Lemma evals_global rho st x t : lookup rho x = None -> global_type m x = Some t -> evals rho st (Var x) (VGlobal x) st.
  Proof. intros H Ht. exists 0. intros n _. cbn. unfold eval_var. rewrite H, Ht. reflexivity. Qed.

  Lemma evals_nil rho st : evals_list rho st [] [] st.
  Proof. exists 0. reflexivity. Qed.

  Lemma evals_cons rho st e es v vs st1 st2 :
    evals rho st e v st1 -> evals_list rho st1 es vs st2 -> evals_list rho st (e :: es) (v :: vs) st2.
  Proof.
    intros (n & H) (n' & H'). exists (Nat.max n n'). intros k Hk. cbn.
    rewrite H by lia. cbn. rewrite H' by lia. reflexivity.
  Qed.

  (** Operations other than calls do not depend on the bound. *)
  Lemma evals_op rho st o es vs v st1 st2 :
    evals_list rho st es vs st1 ->
    (forall call, apply_op w m call o vs st1 = Done v st2) -> evals rho st (Op o es) v st2.
  Proof. intros (n & H) Ho. exists n. intros k Hk. cbn. rewrite H by lia. cbn. apply Ho. Qed.

  Lemma evals_call rho st ts t es f vs v st1 st2 :
    evals_list rho st es (f :: vs) st1 -> length vs = length ts -> runs st1 f vs v st2 ->
    evals rho st (Op (OCall ts t) es) v st2.
  Proof.
    intros (n & H) L (n' & H'). exists (Nat.max n n'). intros k Hk. cbn. rewrite H by lia. cbn.
    rewrite L, PeanoNat.Nat.eqb_refl. apply H'. lia.
  Qed.

  Lemma evals_let rho st x t b e v st1 v' st2 :
    evals rho st b v st1 -> evals ((x, v) :: rho) st1 e v' st2 -> evals rho st (Let x t b e) v' st2.
  Proof.
    intros (n & H) (n' & H'). exists (Nat.max n n'). intros k Hk. cbn. rewrite H by lia. cbn. apply H'. lia.
  Qed.

  Lemma evals_closure rho st d e v st' :
    f_thunk d = false -> evals ((f_name d, VClosure d rho) :: rho) st e v st' -> evals rho st (LetRec d e) v st'.
  Proof. intros F (n & H). exists n. intros k Hk. cbn. rewrite F. apply H. lia. Qed.

  Lemma evals_thunk rho st d e v st' :
    f_thunk d = true ->
    evals ((f_name d, VThunk (length (s_cells st)) d rho) :: rho)
      (State (s_log st) (s_cells st ++ [None]) (s_globals st)) e v st' ->
    evals rho st (LetRec d e) v st'.
  Proof. intros F (n & H). exists n. intros k Hk. cbn. rewrite F. apply H. lia. Qed.

  Lemma evals_if rho st c a b x v st1 st2 :
    evals rho st c (VBool x) st1 -> evals rho st1 (if x then a else b) v st2 -> evals rho st (If c a b) v st2.
  Proof.
    intros (n & H) (n' & H'). exists (Nat.max n n'). intros k Hk. cbn. rewrite H by lia. cbn.
    destruct x; apply H'; lia.
  Qed.

  (** The alternative that takes the tag *)
  Definition pick (tag : mtype) (alts : list alt) : option alt :=
    List.find (fun a => List.existsb (mtype_eqb tag) (a_types a)) alts.

  Lemma eval_alts_pick ev rho st tag p alts o a :
    pick tag alts = Some a ->
    eval_alts ev rho st tag p alts o =
    ev ((a_name a, downcast (alt_type (a_types a)) tag p) :: rho) st (a_body a).
  Proof.
    unfold pick. induction alts as [|b alts IH]; cbn; [discriminate|].
    destruct (existsb (mtype_eqb tag) (a_types b)); [intros [= ->]; reflexivity|exact IH].
  Qed.

  Lemma evals_case rho st e alts o tag p a v st1 st2 :
    evals rho st e (VVariant tag p) st1 -> pick tag alts = Some a ->
    evals ((a_name a, downcast (alt_type (a_types a)) tag p) :: rho) st1 (a_body a) v st2 ->
    evals rho st (Case e alts o) v st2.
  Proof.
    intros (n & H) Hp (n' & H'). exists (Nat.max n n'). intros k Hk. cbn. rewrite H by lia. cbn.
    rewrite (eval_alts_pick _ _ _ _ _ _ _ _ Hp). apply H'. lia.
  Qed.

  Lemma runs_closure st d c vs v st' :
    length vs = length (f_args d) ->
    evals (bind_args (map fst (f_args d)) vs ((f_name d, VClosure d c) :: c)) st (f_body d) v st' ->
    runs st (VClosure d c) vs v st'.
  Proof.
    intros L (n & H). exists (S n). intros [|k] Hk; [lia|]. cbn. rewrite L, PeanoNat.Nat.eqb_refl.
    rewrite H by lia. reflexivity.
  Qed.

  Lemma runs_global st g d vs v st' :
    find_def (m_defs m) g = Some d -> f_thunk d = false -> length vs = length (f_args d) ->
    evals (bind_args (map fst (f_args d)) vs []) st (f_body d) v st' ->
    runs st (VGlobal g) vs v st'.
  Proof.
    intros F T L (n & H). exists (S n). intros [|k] Hk; [lia|]. cbn. rewrite F, T, L, PeanoNat.Nat.eqb_refl.
    rewrite H by lia. reflexivity.
  Qed.

  (** A thunk that has a value *)
  Lemma runs_known st i d c v :
    f_args d = [] -> nth_error (s_cells st) i = Some (Some v) -> runs st (VThunk i d c) [] v st.
  Proof. intros A H. exists 1. intros [|k] Hk; [lia|]. cbn. rewrite A, H. reflexivity. Qed.

  (** A thunk that has none *)
  Lemma runs_thunk st i d c v st' :
    f_args d = [] -> nth_error (s_cells st) i = Some None ->
    evals ((f_name d, VThunk i d c) :: c) st (f_body d) v st' -> runs st (VThunk i d c) [] v (set_cell st' i v).
  Proof.
    intros A H (n & Hn). exists (S n). intros [|k] Hk; [lia|]. cbn. rewrite A, H, Hn by lia. reflexivity.
  Qed.

  Lemma runs_known_global st g d v :
    find_def (m_defs m) g = Some d -> f_thunk d = true -> f_args d = [] ->
    lookup (s_globals st) g = Some v -> runs st (VGlobal g) [] v st.
  Proof. intros F T A H. exists 1. intros [|k] Hk; [lia|]. cbn. rewrite F, T, A, H. reflexivity. Qed.

  Lemma runs_global_thunk st g d v st' :
    find_def (m_defs m) g = Some d -> f_thunk d = true -> f_args d = [] ->
    lookup (s_globals st) g = None -> evals [] st (f_body d) v st' ->
    runs st (VGlobal g) [] v (set_global st' g v).
  Proof.
    intros F T A H (n & Hn). exists (S n). intros [|k] Hk; [lia|]. cbn. rewrite F, T, A, H, Hn by lia. reflexivity.
  Qed.
End Rules.
