(** Code that ends with a value or with an early return. *)
From Coq Require Import String List ZArith Bool Lia.
From Verif Require Import Base Mir RunSpec RunProofs.
Import ListNotations.

Inductive mout : Type := MGives (v : value) | MReturns (v : value).
Definition out_of (o : mout) (st : state) : out value :=
  match o with MGives v => Done v st | MReturns v => Return v st end.
Definition mresult (o : mout) : value := match o with MGives v | MReturns v => v end.

Section Rules.
  Variable w : world.
  Variable m : mmodule.
  Notation evals := (evals w m).
  Notation runs := (runs w m).

  Definition evalo (rho : env) (st : state) (e : expr) (o : mout) (st' : state) : Prop :=
    exists n0, forall n, n0 <= n -> eval Lexical w m (call Lexical w m n) rho st e = out_of o st'.

  (** The expressions are evaluated in turn; the last one may return early. *)
  Definition evalos (rho : env) (st : state) (es : list expr) (r : list value + value) (st' : state) : Prop :=
    exists n0, forall n, n0 <= n ->
      eval_list (eval Lexical w m (call Lexical w m n)) rho st es =
      match r with inl vs => Done vs st' | inr v => Return v st' end.

  Lemma gives rho st e v st' : evals rho st e v st' -> evalo rho st e (MGives v) st'.
  Proof. exact (fun H => H). Qed.

  Lemma evalos_nil rho st : evalos rho st [] (inl []) st.
  Proof. exists 0. reflexivity. Qed.
  Lemma evalos_cons rho st e es v vs st1 st2 :
    evalo rho st e (MGives v) st1 -> evalos rho st1 es (inl vs) st2 -> evalos rho st (e :: es) (inl (v :: vs)) st2.
  Proof. intros (n & H) (n' & H'). exists (Nat.max n n'). intros k Hk. cbn. rewrite H by lia. cbn. rewrite H' by lia. reflexivity. Qed.
  Lemma evalos_returns rho st e es v st1 : evalo rho st e (MReturns v) st1 -> evalos rho st (e :: es) (inr v) st1.
  Proof. intros (n & H). exists n. intros k Hk. cbn. rewrite H by lia. reflexivity. Qed.
  Lemma evalos_later rho st e es v u st1 st2 :
    evalo rho st e (MGives u) st1 -> evalos rho st1 es (inr v) st2 -> evalos rho st (e :: es) (inr v) st2.
  Proof. intros (n & H) (n' & H'). exists (Nat.max n n'). intros k Hk. cbn. rewrite H by lia. cbn. rewrite H' by lia. reflexivity. Qed.

  Lemma evalo_op_returns rho st o es v st' : evalos rho st es (inr v) st' -> evalo rho st (Op o es) (MReturns v) st'.
  Proof. intros (n & H). exists n. intros k Hk. cbn. rewrite H by lia. reflexivity. Qed.
  Lemma evalo_op rho st o es vs v st1 st2 :
    evalos rho st es (inl vs) st1 -> (forall call, apply_op w m call o vs st1 = Done v st2) -> evalo rho st (Op o es) (MGives v) st2.
  Proof. intros (n & H) Ho. exists n. intros k Hk. cbn. rewrite H by lia. apply Ho. Qed.
  Lemma evalo_call rho st ts t es g vs v st1 st2 :
    evalos rho st es (inl (g :: vs)) st1 -> length vs = length ts -> runs st1 g vs v st2 ->
    evalo rho st (Op (OCall ts t) es) (MGives v) st2.
  Proof.
    intros (n & H) L (n' & H'). exists (Nat.max n n'). intros k Hk. cbn. rewrite H by lia. cbn.
    rewrite L, PeanoNat.Nat.eqb_refl. rewrite H' by lia. reflexivity.
  Qed.
  Lemma evalo_let rho st x t b e v st1 o st2 :
    evalo rho st b (MGives v) st1 -> evalo ((x, v) :: rho) st1 e o st2 -> evalo rho st (Let x t b e) o st2.
  Proof. intros (n & H) (n' & H'). exists (Nat.max n n'). intros k Hk. cbn. rewrite H by lia. cbn. apply H'. lia. Qed.
  Lemma evalo_let_returns rho st x t b e v st1 : evalo rho st b (MReturns v) st1 -> evalo rho st (Let x t b e) (MReturns v) st1.
  Proof. intros (n & H). exists n. intros k Hk. cbn. rewrite H by lia. reflexivity. Qed.
  Lemma evalo_if rho st c a b x o st1 st2 :
    evalo rho st c (MGives (VBool x)) st1 -> evalo rho st1 (if x then a else b) o st2 -> evalo rho st (If c a b) o st2.
  Proof.
    intros (n & H) (n' & H'). exists (Nat.max n n'). intros k Hk. cbn. rewrite H by lia. cbn. destruct x; apply H'; lia.
  Qed.
  Lemma evalo_if_returns rho st c a b v st1 : evalo rho st c (MReturns v) st1 -> evalo rho st (If c a b) (MReturns v) st1.
  Proof. intros (n & H). exists n. intros k Hk. cbn. rewrite H by lia. reflexivity. Qed.
  Lemma evalo_case_returns rho st c alts de v st1 : evalo rho st c (MReturns v) st1 -> evalo rho st (Case c alts de) (MReturns v) st1.
  Proof. intros (n & H). exists n. intros k Hk. cbn. rewrite H by lia. reflexivity. Qed.
  Lemma evalo_try_returns rho st a x t e v st1 : evalo rho st a (MReturns v) st1 -> evalo rho st (Try a x t e) (MReturns v) st1.
  Proof. intros (n & H). exists n. intros k Hk. cbn. rewrite H by lia. reflexivity. Qed.
  (** Code that runs as other code once its first operand has a value *)
  Lemma evalo_as rho st a e b st1 rho' e' o st2 :
    evalo rho st a (MGives b) st1 ->
    (forall call, eval Lexical w m call rho st a = Done b st1 -> eval Lexical w m call rho st e = eval Lexical w m call rho' st1 e') ->
    evalo rho' st1 e' o st2 -> evalo rho st e o st2.
  Proof. intros (n & H) K (n' & H'). exists (Nat.max n n'). intros k Hk. rewrite K by (apply H; lia). apply H'. lia. Qed.
  Lemma evalo_as_done rho st a e b st1 v :
    evalo rho st a (MGives b) st1 ->
    (forall call, eval Lexical w m call rho st a = Done b st1 -> eval Lexical w m call rho st e = Done v st1) ->
    evalo rho st e (MGives v) st1.
  Proof. intros (n & H) K. exists n. intros k Hk. cbn. rewrite K by (apply H; lia). reflexivity. Qed.
  Lemma evalo_same rho st a e o st1 :
    evalo rho st a o st1 ->
    (forall call, eval Lexical w m call rho st e = eval Lexical w m call rho st a) -> evalo rho st e o st1.
  Proof. intros (n & H) K. exists n. intros k Hk. rewrite K. apply H. lia. Qed.

  Lemma runs_closure_o st d c vs o st' :
    length vs = length (f_args d) ->
    evalo (bind_args (map fst (f_args d)) vs ((f_name d, VClosure d c) :: c)) st (f_body d) o st' ->
    runs st (VClosure d c) vs (mresult o) st'.
  Proof.
    intros L (n & H). exists (S n). intros [|k] Hk; [lia|]. cbn. rewrite L, PeanoNat.Nat.eqb_refl.
    rewrite H by lia. destruct o; reflexivity.
  Qed.
  Lemma runs_global_o st g d vs o st' :
    find_def (m_defs m) g = Some d -> f_thunk d = false -> length vs = length (f_args d) ->
    evalo (bind_args (map fst (f_args d)) vs []) st (f_body d) o st' ->
    runs st (VGlobal g) vs (mresult o) st'.
  Proof.
    intros F T L (n & H). exists (S n). intros [|k] Hk; [lia|]. cbn. rewrite F, T, L, PeanoNat.Nat.eqb_refl.
    rewrite H by lia. destruct o; reflexivity.
  Qed.
  Lemma runs_global_again st g d v st' :
    find_def (m_defs m) g = Some d -> f_thunk d = true -> f_args d = [] ->
    lookup (s_globals st) g = None -> evalo [] st (f_body d) (MReturns v) st' -> runs st (VGlobal g) [] v st'.
  Proof.
    intros F T A H (n & Hn). exists (S n). intros [|k] Hk; [lia|]. cbn. rewrite F, T, A, H, Hn by lia. reflexivity.
  Qed.
  Lemma bind_args_rev xs : forall vs rho, length vs = length xs -> bind_args xs vs rho = (rev (combine xs vs) ++ rho)%list.
  Proof.
    induction xs as [|x xs IH]; intros [|v vs] rho L; try discriminate; [reflexivity|]. cbn. rewrite IH by (cbn in L; lia).
    rewrite <- app_assoc. reflexivity.
  Qed.
End Rules.
