(** Predicates on states that every call preserves. *)
From Coq Require Import String List ZArith Bool Lia.
From Verif Require Import Base Mir MirSim.
Import ListNotations.

Definition ends {A} (I : state -> Prop) (o : out A) : Prop :=
  match o with
  | Done _ st | Return _ st | Timeout st | Bad st => I st
  | Wrong => True
  end.

Section Invariant.
  Variable md : mode.
  Variable w : world.
  Variable m : mmodule.
  Variable I : state -> Prop.
  Hypothesis Ilog : forall st ev, I st -> I (log_event st ev).
  Hypothesis Inew : forall st, I st -> I (State (s_log st) (s_cells st ++ [None]) (s_globals st)).
  (** A cell is filled if it was empty when the call started, and so is a global. *)
  Hypothesis Icell : forall st st' i v, I st -> nth_error (s_cells st) i = Some None -> I st' -> I (set_cell st' i v).
  Hypothesis Iglobal : forall n st g d v st', find_def (m_defs m) g = Some d -> f_thunk d = true ->
    I st -> lookup (s_globals st) g = None ->
    eval md w m (call md w m n) [] st (f_body d) = Done v st' -> I st' -> I (set_global st' g v).

  Lemma ends_bind {A B} (o : out A) (f : A -> state -> out B) :
    ends I o -> (forall a st, I st -> ends I (f a st)) -> ends I (obind o f).
  Proof. destruct o; cbn; auto. Qed.

  Section Call.
    Variable callf : state -> value -> list value -> out value.
    Hypothesis Hcall : forall st f vs, I st -> ends I (callf st f vs).

    Lemma apply_op_ends o vs st : I st -> ends I (apply_op w m callf o vs st).
    Proof.
      intros H. unfold apply_op.
      repeat match goal with |- context [match ?x with _ => _ end] => destruct x end; cbn; auto.
    Qed.

    Lemma eval_ends e : forall rho st, I st -> ends I (eval md w m callf rho st e).
    Proof.
      induction e as [l|x|o es IHes|a b c IHa IHb IHc|a alts o IHa IHalts IHo|x t b e IHb IHe
                      |d e IHd IHe|o x t e IHo IHe|xs e IHe|xs e IHe] using expr_ind'; intros rho st H; cbn [eval].
      - exact H.
      - unfold eval_var. destruct (lookup rho x); [exact H|]. destruct (global_type m x); [exact H|exact Logic.I].
      - apply ends_bind; [|intros; apply apply_op_ends; assumption].
        revert st H. induction es as [|e es IH]; intros st H; cbn; [exact H|]. inversion IHes; subst.
        apply ends_bind; [auto|]. intros v st' H'. apply ends_bind; [apply IH; assumption|auto].
      - apply ends_bind; [auto|]. intros [[|]| | | | | | | | |] st' H'; cbn; auto.
      - apply ends_bind; [auto|]. intros v st' H'. destruct v; try exact Logic.I.
        assert (Hd : ends I match o with
                          | Some (x, e) => eval md w m callf ((x, VVariant type v) :: rho) st' e
                          | None => Wrong
                          end).
        { destruct o as [[x e]|]; [|exact Logic.I]. eapply IHo; [reflexivity|exact H']. }
        revert Hd. generalize (match o with
                          | Some (x, e) => eval md w m callf ((x, VVariant type v) :: rho) st' e
                          | None => Wrong
                          end). intros oo Hd.
        induction alts as [|b alts IH]; cbn; [exact Hd|]. inversion IHalts; subst.
        destruct (existsb (mtype_eqb type) (a_types b)); auto.
      - apply ends_bind; auto.
      - destruct (capture md d rho); [|exact Logic.I]. destruct (f_thunk d); auto.
      - apply ends_bind; [auto|]. intros v st' H'. destruct v; try exact Logic.I.
        destruct (mtype_eqb type t); [|exact H'].
        specialize (IHe ((x, downcast t type v) :: rho) st' H').
        destruct (eval md w m callf ((x, downcast t type v) :: rho) st' e); cbn in *; auto.
      - auto.
      - auto.
    Qed.

    Lemma script_ends sc : forall st, I st -> ends I (run_script m callf sc st).
    Proof.
      induction sc as [|[c ts] sc IH]; intros st H; cbn; [exact H|].
      destruct (resolve_callee m (known st) c); [|exact H]. destruct (type_of m v) as [[]|]; try exact H.
      destruct (resolve_args m (known st) ts _); [|exact H]. apply ends_bind; auto.
    Qed.

    Lemma outside_ends st f vs t : I st -> ends I (outside w m callf st f vs t).
    Proof.
      intros H. unfold outside. apply ends_bind; [apply script_ends; auto|]. intros _ st' H'.
      destruct (resolve m (known st') _); [|exact H']. destruct (type_of m v); [|exact H'].
      destruct (mtype_eqb m0 t); exact H'.
    Qed.
  End Call.

  Lemma finish_ends o : ends I o -> ends I (finish o).
  Proof. destruct o; auto. Qed.

  Theorem call_ends n : forall st f vs, I st -> ends I (call md w m n st f vs).
  Proof.
    induction n as [|n IH]; intros st f vs H; [exact H|]. cbn.
    destruct f; try exact Logic.I.
    - destruct (Nat.eqb _ _); [|exact Logic.I]. apply finish_ends, eval_ends; assumption.
    - destruct vs; [|exact Logic.I]. destruct (f_args d); [|exact Logic.I].
      destruct (nth_error (s_cells st) cell) as [[v|]|] eqn:Ec; [exact H| |exact Logic.I].
      pose proof (eval_ends _ IH (f_body d) ((f_name d, VThunk cell d captured) :: captured) st H) as He.
      destruct (eval _ _ _ _ _ _ _); cbn in *; auto. exact (Icell _ _ _ _ H Ec He).
    - destruct (find_def (m_defs m) g) as [d|] eqn:F.
      + destruct (f_thunk d) eqn:T.
        * destruct vs; [|exact Logic.I]. destruct (f_args d); [|exact Logic.I].
          destruct (lookup (s_globals st) g) eqn:Eg; [exact H|].
          pose proof (eval_ends _ IH (f_body d) [] st H) as He.
          destruct (eval md w m (call md w m n) [] st (f_body d)) eqn:Ev; cbn in *; auto.
          exact (Iglobal _ _ _ _ _ _ F T H Eg Ev He).
        * destruct (Nat.eqb _ _); [|exact Logic.I]. apply finish_ends, eval_ends; assumption.
      + destruct (lookup (m_declared m) g) as [[]|]; try exact Logic.I.
        destruct (Nat.eqb _ _); [|exact Logic.I]. apply outside_ends; assumption.
    - destruct type; try exact Logic.I. destruct (Nat.eqb _ _); [|exact Logic.I]. apply outside_ends; assumption.
  Qed.

  Lemma run_ends n sc : I initial -> ends I (run md w m n sc).
  Proof. intros H. apply script_ends; [apply call_ends|exact H]. Qed.
End Invariant.
