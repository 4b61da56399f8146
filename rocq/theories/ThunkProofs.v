(** Thunks keep their values. *)
From Coq Require Import String List ZArith Bool Lia.
From Verif Require Import Base Mir MirSim RunInvariant.
Import ListNotations.

Lemma nth_set_length {A} i (a : A) l : List.length (nth_set i a l) = List.length l.
Proof. revert i. induction l as [|x l IH]; intros [|i]; cbn; auto. Qed.

Lemma nth_set_same {A} i (a b : A) l : nth_error l i = Some b -> nth_error (nth_set i a l) i = Some a.
Proof. revert i. induction l as [|x l IH]; intros [|i] H; try discriminate; cbn in *; auto. Qed.

Lemma nth_set_other {A} i j (a : A) l : i <> j -> nth_error (nth_set i a l) j = nth_error l j.
Proof. revert i j. induction l as [|x l IH]; intros [|i] [|j] H; cbn; auto; congruence. Qed.

Section Thunks.
  Variable md : mode.
  Variable w : world.
  Variable m : mmodule.

  Definition holds (i : nat) (v : value) (st : state) : Prop := nth_error (s_cells st) i = Some (Some v).
  Definition holds_global (g : string) (v : value) (st : state) : Prop := lookup (s_globals st) g = Some v.

  Lemma call_holds i v n st f vs : holds i v st -> ends (holds i v) (call md w m n st f vs).
  Proof.
    apply call_ends; unfold holds; cbn.
    - auto.
    - intros st' H. rewrite nth_error_app1; [exact H|]. apply nth_error_Some. congruence.
    - intros st0 st' j u H0 Hj H. cbn. destruct (PeanoNat.Nat.eq_dec j i) as [->|Hne]; [congruence|].
      rewrite nth_set_other by exact Hne. exact H.
    - auto.
  Qed.

  Lemma call_holds_global g v n st f vs : holds_global g v st -> ends (holds_global g v) (call md w m n st f vs).
  Proof.
    apply call_ends; unfold holds_global; cbn; auto.
    intros k st0 g' d u st' _ _ H0 Hn _ H. destruct (String.eqb_spec g g') as [->|Hne]; [congruence|exact H].
  Qed.

  Lemma cells_grow i n st f vs :
    i < List.length (s_cells st) -> ends (fun st' => i < List.length (s_cells st')) (call md w m n st f vs).
  Proof.
    apply (call_ends md w m (fun st' => i < List.length (s_cells st'))); cbn; auto.
    - intros st' H. rewrite app_length. cbn. lia.
    - intros st0 st' j v _ _ H. rewrite nth_set_length. exact H.
  Qed.

  Lemma eval_cells_grow i n rho st e :
    i < List.length (s_cells st) -> ends (fun st' => i < List.length (s_cells st')) (eval md w m (call md w m n) rho st e).
  Proof.
    intros H. apply eval_ends; auto.
    - intros st' H'. cbn. rewrite app_length. cbn. lia.
    - intros st' f vs H'. apply cells_grow, H'.
  Qed.

  (** A call of a thunk that ends without an early return of its body leaves its value. *)
  Lemma thunk_holds n st i d c v st' :
    (forall k rho st u st', eval md w m (call md w m k) rho st (f_body d) <> Return u st') ->
    call md w m n st (VThunk i d c) [] = Done v st' -> holds i v st'.
  Proof.
    intros NR. destruct n as [|n]; [discriminate|]. cbn. destruct (f_args d); [|discriminate].
    destruct (nth_error (s_cells st) i) as [[u|]|] eqn:Ec; [intros [= <- <-]; exact Ec| |discriminate].
    pose proof (eval_cells_grow i n ((f_name d, VThunk i d c) :: c) st (f_body d)) as G.
    destruct (eval md w m (call md w m n) ((f_name d, VThunk i d c) :: c) st (f_body d)) eqn:Ev; cbn; try discriminate.
    - intros [= <- <-]. unfold holds, set_cell. cbn.
      assert (Hl : i < List.length (s_cells st)) by (apply nth_error_Some; congruence).
      specialize (G Hl). cbn in G. destruct (nth_error (s_cells st0) i) eqn:Ei.
      + eapply nth_set_same, Ei.
      + apply nth_error_None in Ei. lia.
    - exfalso. exact (NR _ _ _ _ _ Ev).
  Qed.

  Lemma thunk_again n st i d c v : f_args d = [] -> holds i v st -> call md w m (S n) st (VThunk i d c) [] = Done v st.
  Proof. intros A H. cbn. rewrite A, H. reflexivity. Qed.

  Lemma global_holds n st g d v st' :
    find_def (m_defs m) g = Some d -> f_thunk d = true ->
    (forall k rho st u st', eval md w m (call md w m k) rho st (f_body d) <> Return u st') ->
    call md w m n st (VGlobal g) [] = Done v st' -> holds_global g v st'.
  Proof.
    intros F T NR. destruct n as [|n]; [discriminate|]. cbn. rewrite F, T. destruct (f_args d); [|discriminate].
    destruct (lookup (s_globals st) g) eqn:Eg; [intros [= <- <-]; exact Eg|].
    destruct (eval md w m (call md w m n) [] st (f_body d)) eqn:Ev; cbn; try discriminate.
    - intros [= <- <-]. unfold holds_global, set_global. cbn. rewrite String.eqb_refl. reflexivity.
    - exfalso. exact (NR _ _ _ _ _ Ev).
  Qed.

  Lemma global_again n st g d v :
    find_def (m_defs m) g = Some d -> f_thunk d = true -> f_args d = [] -> holds_global g v st ->
    call md w m (S n) st (VGlobal g) [] = Done v st.
  Proof. intros F T A H. cbn. rewrite F, T, A, H. reflexivity. Qed.
End Thunks.

(** Code without try operations outside local functions never returns early. *)
Fixpoint no_try (e : expr) : bool :=
  match e with
  | Lit _ | Var _ => true
  | Op _ es => forallb no_try es
  | If c a b => no_try c && no_try a && no_try b
  | Case a alts o => no_try a && forallb (fun al => no_try (a_body al)) alts && match o with Some (_, e) => no_try e | None => true end
  | Let _ _ b e => no_try b && no_try e
  | LetRec _ e => no_try e
  | Try _ _ _ _ => false
  | CloneVars _ e | DropVars _ e => no_try e
  end.

Definition no_return {A} (o : out A) : Prop := forall v st, o <> Return v st.

Section NoReturn.
  Variable md : mode.
  Variable w : world.
  Variable m : mmodule.

  Lemma bind_no_return {A B} (o : out A) (f : A -> state -> out B) :
    no_return o -> (forall a st, no_return (f a st)) -> no_return (obind o f).
  Proof. intros H Hf. destruct o; cbn; try (intros v' st'; congruence); [apply Hf|]. exfalso. exact (H _ _ eq_refl). Qed.

  Section Call.
    Variable callf : state -> value -> list value -> out value.
    Hypothesis Hcall : forall st f vs, no_return (callf st f vs).

    Lemma apply_op_no_return o vs st : no_return (apply_op w m callf o vs st).
    Proof.
      unfold apply_op, no_return.
      repeat match goal with |- context [match ?x with _ => _ end] => destruct x end; try congruence; apply Hcall.
    Qed.

    Lemma eval_no_return e : no_try e = true -> forall rho st, no_return (eval md w m callf rho st e).
    Proof.
      induction e as [l|x|o es IHes|a b c IHa IHb IHc|a alts o IHa IHalts IHo|x t b e IHb IHe
                      |d e IHd IHe|o x t e IHo IHe|xs e IHe|xs e IHe] using expr_ind'; cbn [no_try]; intros H rho st; cbn [eval].
      - discriminate.
      - unfold eval_var, no_return. destruct (lookup rho x); [congruence|]. destruct (global_type m x); congruence.
      - apply bind_no_return; [|intros; apply apply_op_no_return].
        revert st. induction es as [|e es IH]; intros st; cbn; [discriminate|]. inversion IHes; subst.
        cbn in H. apply andb_true_iff in H as [Hx1 Hx2].
        apply bind_no_return; [auto|]. intros v st'. apply bind_no_return; [apply IH; assumption|discriminate].
      - rewrite !andb_true_iff in H. destruct H as [[H1 H2] H3]. apply bind_no_return; [auto|].
        intros [[|]| | | | | | | | |] st'; cbn; auto; discriminate.
      - rewrite !andb_true_iff in H. destruct H as [[H1 H2] H3]. apply bind_no_return; [auto|]. intros v st'. destruct v; try discriminate.
        assert (Hd : no_return match o with
                          | Some (x, e) => eval md w m callf ((x, VVariant type v) :: rho) st' e
                          | None => Wrong
                          end).
        { destruct o as [[x e]|]; [|discriminate]. eapply IHo; [reflexivity|exact H3]. }
        revert Hd. generalize (match o with
                          | Some (x, e) => eval md w m callf ((x, VVariant type v) :: rho) st' e
                          | None => Wrong
                          end). intros oo Hd. clear H3 IHo.
        induction alts as [|b alts IH]; cbn; [exact Hd|]. inversion IHalts; subst. cbn in H2. apply andb_true_iff in H2 as [Hy1 Hy2].
        destruct (existsb (mtype_eqb type) (a_types b)); auto.
      - apply andb_true_iff in H as [H1 H2]. apply bind_no_return; auto.
      - destruct (capture md d rho); [|discriminate]. destruct (f_thunk d); auto.
      - discriminate.
      - auto.
      - auto.
    Qed.

    Lemma script_no_return sc : forall st, no_return (run_script m callf sc st).
    Proof.
      induction sc as [|[c ts] sc IH]; intros st; cbn; [discriminate|].
      destruct (resolve_callee m (known st) c); [|discriminate]. destruct (type_of m v) as [[]|]; try discriminate.
      destruct (resolve_args m (known st) ts _); [|discriminate]. apply bind_no_return; auto.
    Qed.

    Lemma outside_no_return st f vs t : no_return (outside w m callf st f vs t).
    Proof.
      unfold outside. apply bind_no_return; [apply script_no_return; auto|]. intros _ st'.
      destruct (resolve m (known st') _); [|discriminate]. destruct (type_of m v); [|discriminate].
      destruct (mtype_eqb m0 t); discriminate.
    Qed.
  End Call.

  Lemma finish_no_return o : no_return (finish o).
  Proof. destruct o; discriminate. Qed.

  Lemma keep_no_return s o : no_return (keep s o).
  Proof. destruct o; discriminate. Qed.

  Lemma call_no_return n : forall st f vs, no_return (call md w m n st f vs).
  Proof.
    induction n as [|n IH]; intros st f vs; [discriminate|]. cbn.
    destruct f; try discriminate.
    - destruct (Nat.eqb _ _); [apply finish_no_return|discriminate].
    - destruct vs; [|discriminate]. destruct (f_args d); [|discriminate].
      destruct (nth_error (s_cells st) cell) as [[v|]|]; try discriminate. apply keep_no_return.
    - destruct (find_def (m_defs m) g) as [d|].
      + destruct (f_thunk d).
        * destruct vs; [|discriminate]. destruct (f_args d); [|discriminate].
          destruct (lookup (s_globals st) g); [discriminate|apply keep_no_return].
        * destruct (Nat.eqb _ _); [apply finish_no_return|discriminate].
      + destruct (lookup (m_declared m) g) as [[]|]; try discriminate.
        destruct (Nat.eqb _ _); [|discriminate]. apply outside_no_return, IH.
    - destruct type; try discriminate. destruct (Nat.eqb _ _); [|discriminate]. apply outside_no_return, IH.
  Qed.

  Lemma body_no_return e : no_try e = true ->
    forall k rho st u st', eval md w m (call md w m k) rho st e <> Return u st'.
  Proof. intros H k rho st u st'. apply eval_no_return; [apply call_no_return|exact H]. Qed.
End NoReturn.

Lemma eval_holds md w m i v n rho st e : holds i v st -> ends (holds i v) (eval md w m (call md w m n) rho st e).
Proof.
  intros H. apply eval_ends; auto; unfold holds; cbn.
  - intros st' H'. rewrite nth_error_app1; [exact H'|]. apply nth_error_Some. congruence.
  - intros st' f vs H'. apply call_holds, H'.
Qed.

Lemma eval_holds_global md w m g v n rho st e :
  holds_global g v st -> ends (holds_global g v) (eval md w m (call md w m n) rho st e).
Proof. intros H. apply eval_ends; auto. intros st' f vs H'. apply call_holds_global, H'. Qed.
