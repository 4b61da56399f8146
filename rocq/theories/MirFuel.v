(** A larger bound on the depth of calls changes nothing unless the bound was
    reached, and then the evaluation goes on from there. *)
From Coq Require Import String List ZArith Bool Lia.
From Verif Require Import Base Mir MirSim RunInvariant.
Import ListNotations.

(** [later st st']: the events of [st'] begin with those of [st]. *)
Definition later (st st' : state) : Prop := exists l, s_log st' = (s_log st ++ l)%list.
Definition grows {A} (st : state) (r : out A) : Prop := ends (later st) r.
(** [below r r']: the bound was reached in [r], and [r'] comes later, or [r] and [r'] are the same. *)
Definition below {A} (r r' : out A) : Prop := (exists st, r = Timeout st /\ grows st r') \/ r = r'.

Lemma later_refl st : later st st.
Proof. exists []. rewrite app_nil_r. reflexivity. Qed.
Lemma later_trans a b c : later a b -> later b c -> later a c.
Proof. intros (l & H) (l' & H'). exists (l ++ l')%list. rewrite H', H, app_assoc. reflexivity. Qed.
Lemma ends_later {A} st st' (r : out A) : later st st' -> grows st' r -> grows st r.
Proof. intros L. destruct r; cbn; auto; intros H; eapply later_trans; eassumption. Qed.
Lemma later_log a b st : s_log b = s_log a -> later st a -> later st b.
Proof. intros H (l & Q). exists l. rewrite H. exact Q. Qed.

Section Fuel.
  Variable md : mode.
  Variable w : world.
  Variable m : mmodule.

  Section Grow.
    Variable c : state -> value -> list value -> out value.
    Hypothesis H : forall st f vs, grows st (c st f vs).
    Lemma grow_call st0 st f vs : later st0 st -> ends (later st0) (c st f vs).
    Proof. intros L. eapply ends_later; [exact L|apply H]. Qed.
    Lemma grow_event st0 st ev : later st0 st -> later st0 (log_event st ev).
    Proof. intros (l & Q). exists (l ++ [ev])%list. cbn. rewrite Q, app_assoc. reflexivity. Qed.
    Lemma grow_new st0 st : later st0 st -> later st0 (State (s_log st) (s_cells st ++ [None]) (s_globals st)).
    Proof. apply later_log. reflexivity. Qed.
    Ltac grow := first [intros; apply grow_event; assumption|intros; apply grow_new; assumption|intros; apply grow_call; assumption|apply later_refl].
    Lemma grow_eval e rho st : grows st (eval md w m c rho st e).
    Proof.
      apply eval_ends; grow.
    Qed.
    Lemma grow_op o vs st : grows st (apply_op w m c o vs st).
    Proof. apply apply_op_ends; grow. Qed.
    Lemma grow_list rho es : forall st, grows st (eval_list (eval md w m c) rho st es).
    Proof.
      induction es as [|e es IH]; intros st; cbn; [apply later_refl|]. apply ends_bind; [apply grow_eval|].
      intros v st' L. eapply ends_later; [exact L|]. apply ends_bind; [apply IH|]. intros vs st2 L'. exact L'.
    Qed.
    Lemma grow_script sc st : grows st (run_script m c sc st).
    Proof. apply script_ends; grow. Qed.
    Lemma grow_outside st f vs t : grows st (outside w m c st f vs t).
    Proof. apply outside_ends; grow. Qed.
  End Grow.
  Lemma grow_calls n st f vs : grows st (call md w m n st f vs).
  Proof.
    apply call_ends; [intros; apply grow_event; assumption|intros; apply grow_new; assumption| | |apply later_refl].
    - intros st0 st' i v _ _ L. revert L. apply later_log. reflexivity.
    - intros n' st0 g d v st' _ _ _ _ _ L. revert L. apply later_log. reflexivity.
  Qed.

  Lemma below_refl {A} (r : out A) : below r r.
  Proof. right. reflexivity. Qed.
  Lemma below_bind {A B} (r r' : out A) (f f' : A -> state -> out B) :
    below r r' -> (forall a st, grows st (f' a st)) -> (forall a st, below (f a st) (f' a st)) -> below (obind r f) (obind r' f').
  Proof.
    intros [(st & -> & G)|<-] Hf H.
    - left. exists st. split; [reflexivity|]. apply ends_bind; [exact G|]. intros a st' L. eapply ends_later; [exact L|apply Hf].
    - destruct r; cbn; auto using @below_refl.
  Qed.
  Lemma below_finish r r' : below r r' -> below (finish r) (finish r').
  Proof. intros [(st & -> & G)|<-]; [left; exists st; split; [reflexivity|apply finish_ends, G]|apply below_refl]. Qed.
  Lemma below_escape r r' : below r r' -> below (escape r) (escape r').
  Proof. intros [(st & -> & G)|<-]; [left; exists st; split; [reflexivity|destruct r'; exact G]|apply below_refl]. Qed.
  Lemma below_keep f r r' : (forall v st, s_log (f v st) = s_log st) -> below r r' -> below (keep f r) (keep f r').
  Proof.
    intros Hf [(st & -> & G)|<-]; [|apply below_refl]. left; exists st; split; [reflexivity|].
    destruct r'; cbn in *; auto; eapply later_log; try eassumption; apply Hf.
  Qed.

  Section Call.
    Variable c c' : state -> value -> list value -> out value.
    Hypothesis H : forall st f vs, below (c st f vs) (c' st f vs).
    Hypothesis G : forall st f vs, grows st (c' st f vs).

    Lemma apply_op_below o vs st : below (apply_op w m c o vs st) (apply_op w m c' o vs st).
    Proof.
      destruct o, vs as [|v vs]; try apply below_refl. cbn. destruct (Nat.eqb _ _); [apply H|apply below_refl].
    Qed.
    Lemma list_of_below es : (forall e, In e es -> forall rho st, below (eval md w m c rho st e) (eval md w m c' rho st e)) ->
      forall rho st, below (eval_list (eval md w m c) rho st es) (eval_list (eval md w m c') rho st es).
    Proof.
      induction es as [|e es IH]; intros He rho st; cbn; [apply below_refl|].
      apply below_bind; [apply He; left; reflexivity| |].
      - intros v st'. apply ends_bind; [apply grow_list, G|]. intros vs st2 L. exact L.
      - intros v st'. apply below_bind; [apply IH; intros; apply He; right; assumption| |intros; apply below_refl]. intros vs st2. apply later_refl.
    Qed.

    Lemma eval_below e : forall rho st, below (eval md w m c rho st e) (eval md w m c' rho st e).
    Proof.
      induction e as [l|x|o es IHes|a b d IHa IHb IHd|a alts o IHa IHalts IHo|x t b e IHb IHe
                      |d e IHd IHe|o x t e IHo IHe|xs e IHe|xs e IHe] using expr_ind'; intros rho st; cbn [eval].
      - apply below_refl.
      - apply below_refl.
      - apply below_bind; [|intros; apply grow_op, G|intros; apply apply_op_below].
        apply list_of_below. intros e He. exact (proj1 (Forall_forall _ _) IHes e He).
      - apply below_bind; [auto| |].
        + intros [[|]| | | | | | | | |] st'; try apply grow_eval, G; exact Logic.I.
        + intros [[|]| | | | | | | | |] st'; auto using @below_refl.
      - apply below_bind; [auto| |].
        + intros v st'. destruct v; try exact Logic.I.
          assert (Hd : grows st' match o with
                          | Some (x, e) => eval md w m c' ((x, VVariant type v) :: rho) st' e
                          | None => Wrong
                          end).
          { destruct o as [[x e]|]; [|exact Logic.I]. apply grow_eval, G. }
          revert Hd. generalize (match o with
                          | Some (x, e) => eval md w m c' ((x, VVariant type v) :: rho) st' e
                          | None => Wrong
                          end). intros oo Hd. clear IHalts.
          induction alts as [|b alts IH]; cbn; [exact Hd|].
          destruct (existsb (mtype_eqb type) (a_types b)); [apply grow_eval, G|exact IH].
        + intros v st'. destruct v; try apply below_refl.
          assert (Hd : below match o with
                          | Some (x, e) => eval md w m c ((x, VVariant type v) :: rho) st' e
                          | None => Wrong
                          end
                          match o with
                          | Some (x, e) => eval md w m c' ((x, VVariant type v) :: rho) st' e
                          | None => Wrong
                          end).
          { destruct o as [[x e]|]; [|apply below_refl]. eapply IHo. reflexivity. }
          revert Hd. generalize (match o with
                          | Some (x, e) => eval md w m c ((x, VVariant type v) :: rho) st' e
                          | None => Wrong
                          end). generalize (match o with
                          | Some (x, e) => eval md w m c' ((x, VVariant type v) :: rho) st' e
                          | None => Wrong
                          end). intros oo oo' Hd.
          induction alts as [|b alts IH]; cbn; [exact Hd|]. inversion IHalts; subst.
          destruct (existsb (mtype_eqb type) (a_types b)); auto.
      - apply below_bind; [auto|intros; apply grow_eval, G|auto].
      - destruct (capture md d rho); [|apply below_refl]. destruct (f_thunk d); auto.
      - apply below_bind; [auto| |].
        + intros v st'. destruct v; try exact Logic.I. destruct (mtype_eqb type t); [|apply later_refl].
          pose proof (grow_eval c' G e ((x, downcast t type v) :: rho) st') as L. unfold grows in *.
          destruct (eval md w m c' ((x, downcast t type v) :: rho) st' e); exact L.
        + intros v st'. destruct v; try apply below_refl.
          destruct (mtype_eqb type t); [|apply below_refl]. apply below_escape, IHe.
      - auto.
      - auto.
    Qed.

    Lemma script_below sc : forall st, below (run_script m c sc st) (run_script m c' sc st).
    Proof.
      induction sc as [|[g ts] sc IH]; intros st; cbn; [apply below_refl|].
      destruct (resolve_callee m (known st) g); [|apply below_refl]. destruct (type_of m v) as [[]|]; try apply below_refl.
      destruct (resolve_args m (known st) ts _); [|apply below_refl]. apply below_bind; [apply H| |auto].
      intros u st'. eapply ends_later; [|apply grow_script, G]. apply grow_event. apply later_refl.
    Qed.

    Lemma outside_below st f vs t : below (outside w m c st f vs t) (outside w m c' st f vs t).
    Proof.
      unfold outside. apply below_bind; [apply script_below| |intros _ st'; apply below_refl]. intros _ st'. unfold grows.
      destruct (resolve m (known st') _); [|apply later_refl]. destruct (type_of m v); [|apply later_refl].
      destruct (mtype_eqb m0 t); cbn; auto using later_refl, grow_event.
    Qed.
  End Call.

  Lemma call_below n : forall n', n <= n' -> forall st f vs, below (call md w m n st f vs) (call md w m n' st f vs).
  Proof.
    induction n as [|n IH]; intros n' L st f vs; [left; exists st; split; [reflexivity|apply grow_calls]|].
    destruct n' as [|n']; [lia|]. specialize (IH n' ltac:(lia)). cbn.
    pose proof (eval_below _ _ IH (grow_calls n')) as He.
    destruct f; try apply below_refl.
    - destruct (Nat.eqb _ _); [|apply below_refl]. apply below_finish, He.
    - destruct vs; [|apply below_refl]. destruct (f_args d); [|apply below_refl].
      destruct (nth_error (s_cells st) cell) as [[v|]|]; try apply below_refl. apply below_keep; [reflexivity|apply He].
    - destruct (find_def (m_defs m) g) as [d|].
      + destruct (f_thunk d).
        * destruct vs; [|apply below_refl]. destruct (f_args d); [|apply below_refl].
          destruct (lookup (s_globals st) g); [apply below_refl|]. apply below_keep; [reflexivity|apply He].
        * destruct (Nat.eqb _ _); [|apply below_refl]. apply below_finish, He.
      + destruct (lookup (m_declared m) g) as [[]|]; try apply below_refl.
        destruct (Nat.eqb _ _); [|apply below_refl]. apply outside_below; [apply IH|apply grow_calls].
    - destruct type; try apply below_refl. destruct (Nat.eqb _ _); [|apply below_refl]. apply outside_below; [apply IH|apply grow_calls].
  Qed.
  Lemma depth_below n n' rho st e : n <= n' -> below (eval md w m (call md w m n) rho st e) (eval md w m (call md w m n') rho st e).
  Proof. intros L. apply eval_below; [intros; apply call_below, L|apply grow_calls]. Qed.
  Lemma list_depth_below n n' rho es st : n <= n' -> below (eval_list (eval md w m (call md w m n)) rho st es) (eval_list (eval md w m (call md w m n')) rho st es).
  Proof. intros L. apply list_of_below; [apply grow_calls|]. intros. apply depth_below, L. Qed.
End Fuel.
