(** A framework for simulations between two modules that run in lock step. *)
From Coq Require Import String List ZArith Bool Lia PeanoNat.
From Verif Require Import Base Mir MirSpec.
Import ListNotations.

(** ** Induction over the nested inductive types *)
Section ExprInd.
  Variable P : expr -> Prop.
  Hypothesis HLit : forall l, P (Lit l).
  Hypothesis HVar : forall x, P (Var x).
  Hypothesis HOp : forall o es, Forall P es -> P (Op o es).
  Hypothesis HIf : forall c t e, P c -> P t -> P e -> P (If c t e).
  Hypothesis HCase : forall a alts default,
      P a -> Forall (fun al => P (a_body al)) alts ->
      (forall x e, default = Some (x, e) -> P e) -> P (Case a alts default).
  Hypothesis HLet : forall x t b e, P b -> P e -> P (Let x t b e).
  Hypothesis HLetRec : forall d e, P (f_body d) -> P e -> P (LetRec d e).
  Hypothesis HTry : forall o x t e, P o -> P e -> P (Try o x t e).
  Hypothesis HClone : forall xs e, P e -> P (CloneVars xs e).
  Hypothesis HDrop : forall xs e, P e -> P (DropVars xs e).

  Fixpoint expr_ind' (e : expr) : P e :=
    match e with
    | Lit l => HLit l
    | Var x => HVar x
    | Op o es =>
        HOp o es ((fix go (es : list expr) : Forall P es :=
                     match es with
                     | [] => Forall_nil _
                     | e :: es' => Forall_cons _ (expr_ind' e) (go es')
                     end) es)
    | If c t e => HIf c t e (expr_ind' c) (expr_ind' t) (expr_ind' e)
    | Case a alts default =>
        HCase a alts default (expr_ind' a)
          ((fix go (alts : list alt) : Forall (fun al => P (a_body al)) alts :=
              match alts with
              | [] => Forall_nil _
              | al :: alts' =>
                  Forall_cons al
                    (match al as al return P (a_body al) with Alt ts x e => expr_ind' e end)
                    (go alts')
              end) alts)
          (match default as d return (forall x e, d = Some (x, e) -> P e) with
           | Some (x, e) =>
               fun x' e' H =>
                 eq_ind e P (expr_ind' e) e'
                   (f_equal (fun o => match o with Some (_, e) => e | None => e end) H)
           | None => fun x e H => False_ind _ (eq_ind None (fun o => match o with None => True | Some _ => False end) I _ H)
           end)
    | Let x t b e => HLet x t b e (expr_ind' b) (expr_ind' e)
    | LetRec d e =>
        HLetRec d e (match d as d return P (f_body d) with Fdef _ _ _ _ b _ => expr_ind' b end)
                (expr_ind' e)
    | Try o x t e => HTry o x t e (expr_ind' o) (expr_ind' e)
    | CloneVars xs e => HClone xs e (expr_ind' e)
    | DropVars xs e => HDrop xs e (expr_ind' e)
    end.
End ExprInd.

Section TypeInd.
  Variable P : mtype -> Prop.
  Hypothesis HB : P TBoolean.
  Hypothesis HS : P TByteString.
  Hypothesis HF : forall ts t, Forall P ts -> P t -> P (TFunction ts t).
  Hypothesis HN : P TNone.
  Hypothesis HNum : P TNumber.
  Hypothesis HR : forall n, P (TRecord n).
  Hypothesis HV : P TVariant.
  Fixpoint mtype_ind' (t : mtype) : P t :=
    match t with
    | TBoolean => HB
    | TByteString => HS
    | TFunction ts t =>
        HF ts t ((fix go (ts : list mtype) : Forall P ts :=
                    match ts with
                    | [] => Forall_nil _
                    | t :: ts' => Forall_cons _ (mtype_ind' t) (go ts')
                    end) ts) (mtype_ind' t)
    | TNone => HN
    | TNumber => HNum
    | TRecord n => HR n
    | TVariant => HV
    end.
End TypeInd.

Lemma mtype_eqb_eq a b : mtype_eqb a b = true <-> a = b.
Proof.
  revert b. induction a as [ | |ts t IHts IHt| | |n|] using mtype_ind';
    intros b; destruct b as [ | |ts' t'| | |n'|]; cbn [mtype_eqb]; try (split; congruence).
  - rewrite andb_true_iff, IHt.
    assert (Hl : (fix go (xs ys : list mtype) : bool :=
                    match xs, ys with
                    | [], [] => true
                    | x :: xs', y :: ys' => mtype_eqb x y && go xs' ys'
                    | _, _ => false
                    end) ts ts' = true <-> ts = ts').
    { clear IHt. revert ts'.
      induction ts as [|x xs IH]; intros [|y ys]; cbn; try (split; congruence).
      inversion IHts; subst. rewrite andb_true_iff, H1, IH by assumption.
      split; [intros [-> ->]; reflexivity|intros H; injection H; auto]. }
    rewrite Hl. split; [intros [-> ->]; reflexivity|intros H; injection H; auto].
  - rewrite String.eqb_eq. split; congruence.
Qed.

Lemma mtype_eqb_refl a : mtype_eqb a a = true.
Proof. apply mtype_eqb_eq. reflexivity. Qed.

Lemma mtype_eqb_spec a b : reflect (a = b) (mtype_eqb a b).
Proof. apply iff_reflect. symmetry. apply mtype_eqb_eq. Qed.

Section ValueInd.
  Variable P : value -> Prop.
  Hypothesis HB : forall b, P (VBool b).
  Hypothesis HS : forall s, P (VBytes s).
  Hypothesis HN : P VNone.
  Hypothesis HNum : forall n, P (VNumber n).
  Hypothesis HR : forall n vs, Forall P vs -> P (VRecord n vs).
  Hypothesis HV : forall t v, P v -> P (VVariant t v).
  Hypothesis HC : forall d c, Forall (fun p => P (snd p)) c -> P (VClosure d c).
  Hypothesis HT : forall i d c, Forall (fun p => P (snd p)) c -> P (VThunk i d c).
  Hypothesis HG : forall g, P (VGlobal g).
  Hypothesis HO : forall i t, P (VOutside i t).
  Fixpoint value_ind' (v : value) : P v :=
    let env_ind := (fix go (c : list (string * value)) : Forall (fun p => P (snd p)) c :=
                      match c with
                      | [] => Forall_nil _
                      | p :: c' =>
                          Forall_cons p (match p as p return P (snd p) with (_, v) => value_ind' v end)
                                      (go c')
                      end) in
    match v with
    | VBool b => HB b
    | VBytes s => HS s
    | VNone => HN
    | VNumber n => HNum n
    | VRecord n vs =>
        HR n vs ((fix go (vs : list value) : Forall P vs :=
                    match vs with
                    | [] => Forall_nil _
                    | v :: vs' => Forall_cons _ (value_ind' v) (go vs')
                    end) vs)
    | VVariant t v => HV t v (value_ind' v)
    | VClosure d c => HC d c (env_ind c)
    | VThunk i d c => HT i d c (env_ind c)
    | VGlobal g => HG g
    | VOutside i t => HO i t
    end.
End ValueInd.

Section TermInd.
  Variable P : term -> Prop.
  Hypothesis HB : forall b, P (TmBool b).
  Hypothesis HS : forall s, P (TmBytes s).
  Hypothesis HN : P TmNone.
  Hypothesis HNum : forall n, P (TmNumber n).
  Hypothesis HR : forall n ts, Forall P ts -> P (TmRecord n ts).
  Hypothesis HV : forall t v, P v -> P (TmVariant t v).
  Hypothesis HK : forall i, P (TmKnown i).
  Hypothesis HO : forall i t, P (TmOutside i t).
  Fixpoint term_ind' (t : term) : P t :=
    match t with
    | TmBool b => HB b
    | TmBytes s => HS s
    | TmNone => HN
    | TmNumber n => HNum n
    | TmRecord n ts =>
        HR n ts ((fix go (vs : list term) : Forall P vs :=
                    match vs with
                    | [] => Forall_nil _
                    | v :: vs' => Forall_cons _ (term_ind' v) (go vs')
                    end) ts)
    | TmVariant t v => HV t v (term_ind' v)
    | TmKnown i => HK i
    | TmOutside i t => HO i t
    end.
End TermInd.

(** ** Names for the anonymous recursions *)
Fixpoint resolve_list (m : mmodule) (kn : list value) (ts : list term) : option (list value) :=
  match ts with
  | [] => Some []
  | t :: ts' =>
      match resolve m kn t, resolve_list m kn ts' with
      | Some v, Some vs => Some (v :: vs)
      | _, _ => None
      end
  end.

Fixpoint same_types (m : mmodule) (vs : list value) (types : list mtype) : bool :=
  match vs, types with
  | [], [] => true
  | v :: vs', t :: types' =>
      match type_of m v with
      | Some t' => mtype_eqb t' t && same_types m vs' types'
      | None => false
      end
  | _, _ => false
  end.

Lemma resolve_record m kn n ts :
  resolve m kn (TmRecord n ts) =
  match resolve_list m kn ts, lookup (m_types m) n with
  | Some vs, Some types => if same_types m vs types then Some (VRecord n vs) else None
  | _, _ => None
  end.
Proof.
  cbn [resolve].
  assert (H : forall ts,
             (fix go (ts : list term) : option (list value) :=
                match ts with
                | [] => Some []
                | t :: ts' =>
                    match resolve m kn t, go ts' with
                    | Some v, Some vs => Some (v :: vs)
                    | _, _ => None
                    end
                end) ts = resolve_list m kn ts).
  { clear. induction ts as [|t ts IH]; cbn; [reflexivity|]. rewrite IH. reflexivity. }
  rewrite H. destruct (resolve_list m kn ts) as [vs|]; [|reflexivity].
  destruct (lookup (m_types m) n) as [types|]; [|reflexivity].
  assert (H' : forall vs types,
             (fix same (vs : list value) (types : list mtype) : bool :=
                match vs, types with
                | [], [] => true
                | v :: vs', t :: types' =>
                    match type_of m v with
                    | Some t' => mtype_eqb t' t && same vs' types'
                    | None => false
                    end
                | _, _ => false
                end) vs types = same_types m vs types).
  { clear. induction vs as [|v vs IH]; intros [|t types]; cbn; try reflexivity.
    destruct (type_of m v); [|reflexivity]. rewrite IH. reflexivity. }
  rewrite H'. reflexivity.
Qed.

Lemma Forall2_length {A B} {R : A -> B -> Prop} {l l'} : Forall2 R l l' -> length l = length l'.
Proof. induction 1; cbn; congruence. Qed.

(** ** The relations *)
(** *** Captured variables *)
Lemma capture_vars_some xs rho :
  (forall x, In x xs -> lookup rho x <> None) -> exists c, capture_vars xs rho = Some c.
Proof.
  induction xs as [|x xs IH]; cbn; intros H; [eauto|].
  destruct IH as (c & ->); [auto|].
  destruct (lookup rho x) eqn:E; [eauto|]. exfalso. apply (H x); auto.
Qed.

Lemma capture_vars_lookup xs rho : forall c x, capture_vars xs rho = Some c ->
  lookup c x = if mem x xs then lookup rho x else None.
Proof.
  induction xs as [|k xs IH]; cbn; intros c x E.
  - injection E as <-. reflexivity.
  - destruct (lookup rho k) as [v|] eqn:Hk; [|discriminate].
    destruct (capture_vars xs rho) as [c1|]; [|discriminate]. injection E as <-. cbn.
    destruct (String.eqb_spec x k) as [->|Hne]; [symmetry; exact Hk|]. cbn. apply IH. reflexivity.
Qed.

Lemma capture_vars_in xs rho c x : capture_vars xs rho = Some c -> In x xs -> lookup rho x <> None.
Proof.
  revert c. induction xs as [|k xs IH]; cbn; intros c E Hx; [destruct Hx|].
  destruct (lookup rho k) as [v|] eqn:Hk; [|discriminate].
  destruct (capture_vars xs rho) as [c1|]; [|discriminate].
  destruct Hx as [->|Hx]; [congruence|]. eapply IH; [reflexivity|assumption].
Qed.

Lemma mem_false x xs : mem x xs = false <-> ~ In x xs.
Proof.
  rewrite <- mem_In. destruct (mem x xs); split; intros; try congruence.
Qed.

(** *** Bound arguments *)
Lemma bind_args_skip xs : forall vs rho x,
  ~ In x xs -> lookup (bind_args xs vs rho) x = lookup rho x.
Proof.
  induction xs as [|k xs IH]; intros vs rho x Hx; cbn; [reflexivity|].
  destruct vs as [|v vs]; [reflexivity|]. rewrite IH by (intros E; apply Hx; right; assumption).
  cbn. destruct (String.eqb_spec x k) as [->|]; [destruct Hx; left; reflexivity|reflexivity].
Qed.

Section Sim.
  Variables m m' : mmodule.
  Variables md md' : mode.
  Variable w : world.

  (** [crel d d' (xs, xs') ps]: a closure of [d] in the first module that captured the
      variables [xs] corresponds to one of [d'] in the second when the captured
      variables related by [ps] hold corresponding values.
      [lrel d g]: one that captured nothing corresponds to the global function [g]. *)
  Variable crel : fdef -> fdef -> list string * list string -> (string -> string -> Prop) -> Prop.
  Variable lrel : fdef -> string -> Prop.

  Inductive entry (R : value -> value -> Prop) (c c' : env) (x y : string) : Prop :=
  | entry_some v v' :
      lookup c x = Some v -> lookup c' y = Some v' -> R v v' -> entry R c c' x y
  | entry_none :
      lookup c x = None ->
      (global_type m x <> None -> y = x /\ lookup c' y = None) ->
      entry R c c' x y
  | entry_global :
      x <> y -> lookup c x = Some (VGlobal y) -> lookup c' y = None -> global_type m y <> None ->
      entry R c c' x y.

  Inductive vrel : value -> value -> Prop :=
  | vr_bool b : vrel (VBool b) (VBool b)
  | vr_bytes s : vrel (VBytes s) (VBytes s)
  | vr_none : vrel VNone VNone
  | vr_number n : vrel (VNumber n) (VNumber n)
  | vr_record n vs vs' : Forall2 vrel vs vs' -> vrel (VRecord n vs) (VRecord n vs')
  | vr_variant t v v' : vrel v v' -> vrel (VVariant t v) (VVariant t v')
  | vr_closure d d' c c' ps :
      f_thunk d = false -> crel d d' (map fst c, map fst c') ps -> (forall x y, ps x y -> entry vrel c c' x y) ->
      vrel (VClosure d c) (VClosure d' c')
  | vr_thunk i d d' c c' ps :
      f_thunk d = true -> crel d d' (map fst c, map fst c') ps -> (forall x y, ps x y -> entry vrel c c' x y) ->
      vrel (VThunk i d c) (VThunk i d' c')
  | vr_lift d g : f_thunk d = false -> lrel d g -> vrel (VClosure d []) (VGlobal g)
  | vr_global g : global_type m g <> None -> vrel (VGlobal g) (VGlobal g)
  | vr_outside i t : vrel (VOutside i t) (VOutside i t).

  Definition erel (ps : string -> string -> Prop) (rho rho' : env) : Prop :=
    forall x y, ps x y -> entry vrel rho rho' x y.

  Inductive evrel : event -> event -> Prop :=
  | er_call f vs vs' : Forall2 vrel vs vs' -> evrel (EvCall f vs) (EvCall f vs')
  | er_result v v' : vrel v v' -> evrel (EvResult v) (EvResult v').

  Inductive cellrel : option value -> option value -> Prop :=
  | cr_none : cellrel None None
  | cr_some v v' : vrel v v' -> cellrel (Some v) (Some v').

  Definition grel (p p' : string * value) : Prop := fst p = fst p' /\ vrel (snd p) (snd p').

  Record srel (st st' : state) : Prop := {
    sr_log : Forall2 evrel (s_log st) (s_log st');
    sr_cells : Forall2 cellrel (s_cells st) (s_cells st');
    sr_globals : Forall2 grel (s_globals st) (s_globals st')
  }.

  Inductive orel {A A'} (R : A -> A' -> Prop) : out A -> out A' -> Prop :=
  | or_done a a' st st' : R a a' -> srel st st' -> orel R (Done a st) (Done a' st')
  | or_return v v' st st' : vrel v v' -> srel st st' -> orel R (Return v st) (Return v' st')
  | or_timeout st st' : srel st st' -> orel R (Timeout st) (Timeout st')
  | or_bad st r : orel R (Bad st) r
  | or_wrong r : orel R Wrong r.

  Lemma orel_bind {A A' B B'} (R : A -> A' -> Prop) (Q : B -> B' -> Prop) r r' f f' :
    orel R r r' ->
    (forall a a' st st', R a a' -> srel st st' -> orel Q (f a st) (f' a' st')) ->
    orel Q (obind r f) (obind r' f').
  Proof.
    intros H Hf. destruct H; cbn; [apply Hf; assumption|constructor..]; assumption.
  Qed.

  Lemma orel_finish r r' : orel vrel r r' -> orel vrel (finish r) (finish r').
  Proof. intros H. destruct H; cbn; constructor; assumption. Qed.

  Lemma orel_escape r r' : orel vrel r r' -> orel vrel (escape r) (escape r').
  Proof. intros H. destruct H; cbn; constructor; assumption. Qed.

  (** ** What the modules must share *)
  Record agree : Prop := {
    ag_types : m_types m' = m_types m;
    ag_declared : m_declared m' = m_declared m;
    ag_infos : m_infos m' = m_infos m;
    ag_fallback : m_fallback m' = m_fallback m;
    ag_def : forall g d, find_def (m_defs m) g = Some d ->
                         exists d', find_def (m_defs m') g = Some d' /\ f_type d' = f_type d /\
                                    f_thunk d' = f_thunk d;
    ag_nodef : forall g, find_def (m_defs m) g = None -> lookup (m_declared m) g <> None ->
                         find_def (m_defs m') g = None;
    ag_crel : forall d d' xs ps, crel d d' xs ps -> f_type d' = f_type d;
    ag_lrel : forall d g, lrel d g -> global_type m' g = Some (f_type d);
    ag_infos_ok : forall t g, lookup_type (m_infos m) t = Some g -> global_type m g <> None;
    ag_fallback_ok : global_type m (m_fallback m) <> None
  }.

  Hypothesis AG : agree.

  Lemma global_type_agree g t : global_type m g = Some t -> global_type m' g = Some t.
  Proof.
    unfold global_type. destruct (find_def (m_defs m) g) as [d|] eqn:Hd.
    - destruct (ag_def AG _ _ Hd) as (d' & -> & Ht & _). rewrite Ht. auto.
    - intros H. rewrite (ag_nodef AG _ Hd) by congruence. rewrite (ag_declared AG). exact H.
  Qed.

  Lemma vrel_type_of v v' t : vrel v v' -> type_of m v = Some t -> type_of m' v' = Some t.
  Proof.
    intros H. destruct H; cbn [type_of]; auto.
    - rewrite (ag_crel AG _ _ _ _ H0). auto.
    - rewrite (ag_crel AG _ _ _ _ H0). auto.
    - rewrite (ag_lrel AG _ _ H0). auto.
    - apply global_type_agree.
  Qed.

  Lemma vrel_observe v v' : vrel v v' -> observe v' = observe v.
  Proof.
    revert v'. induction v using value_ind'; intros v' Hv; inversion Hv; subst; cbn [observe];
      try reflexivity.
    - f_equal. match goal with HF : Forall2 _ _ _ |- _ => rename HF into HF2 end.
      clear Hv. induction HF2; cbn; [reflexivity|]. inversion H; subst.
      f_equal; auto.
    - f_equal. auto.
  Qed.

  Lemma Forall2_vrel_observe vs vs' : Forall2 vrel vs vs' -> map observe vs' = map observe vs.
  Proof.
    induction 1; cbn; [reflexivity|]. f_equal; [apply vrel_observe; assumption|assumption].
  Qed.

  Lemma srel_observe st st' : srel st st' -> observe_log st' = observe_log st.
  Proof.
    intros [H _ _]. unfold observe_log. induction H as [|ev ev' l l' Hev _ IH]; cbn; [reflexivity|].
    f_equal; [|exact IH]. destruct Hev; cbn.
    - f_equal. apply Forall2_vrel_observe. assumption.
    - f_equal. apply vrel_observe. assumption.
  Qed.

  Lemma srel_log st st' ev ev' :
    srel st st' -> evrel ev ev' -> srel (log_event st ev) (log_event st' ev').
  Proof.
    intros [H1 H2 H3] He. split; cbn; try assumption.
    apply Forall2_app; [assumption|]. constructor; [assumption|constructor].
  Qed.

  Lemma srel_known st st' : srel st st' -> Forall2 vrel (known st) (known st').
  Proof.
    intros [H _ _]. unfold known. induction H as [|ev ev' l l' Hev _ IH]; cbn; [constructor|].
    apply Forall2_app; [|exact IH]. destruct Hev; cbn; [assumption|].
    constructor; [assumption|constructor].
  Qed.

  Lemma Forall2_nth {A} (R : A -> A -> Prop) l l' i a :
    Forall2 R l l' -> nth_error l i = Some a -> exists a', nth_error l' i = Some a' /\ R a a'.
  Proof.
    intros H. revert i. induction H; intros [|i] E; cbn in *; try discriminate.
    - injection E as ->. eauto.
    - auto.
  Qed.

  Lemma Forall2_nth_none {A} (R : A -> A -> Prop) l l' i :
    Forall2 R l l' -> nth_error l i = None -> nth_error l' i = None.
  Proof.
    intros H E. apply nth_error_None in E. apply nth_error_None.
    rewrite <- (Forall2_length H). exact E.
  Qed.

  Lemma Forall2_nth_set {A} (R : A -> A -> Prop) l l' i a a' :
    Forall2 R l l' -> R a a' -> Forall2 R (nth_set i a l) (nth_set i a' l').
  Proof.
    intros H Ha. revert i. induction H; intros [|i]; cbn; constructor; auto.
  Qed.

  (** ** Operations *)
  Definition callrel (call call' : state -> value -> list value -> out value) : Prop :=
    forall st st' f f' vs vs',
      srel st st' -> vrel f f' -> Forall2 vrel vs vs' -> orel vrel (call st f vs) (call' st' f' vs').

  Lemma update_fields_sim is_ : forall vs vs' fs fs' r,
      Forall2 vrel vs vs' -> Forall2 vrel fs fs' ->
      update_fields is_ vs fs = Some r ->
      exists r', update_fields is_ vs' fs' = Some r' /\ Forall2 vrel r r'.
  Proof.
    induction is_ as [|i is_ IH]; intros vs vs' fs fs' r Hv Hf E; destruct Hv; cbn in *; try discriminate.
    - injection E as <-. eauto.
    - destruct (nth_error fs i) as [f|] eqn:Ei; [|discriminate].
      destruct (Forall2_nth _ _ _ _ _ Hf Ei) as (f' & -> & Hf').
      eapply IH; [eassumption| |exact E]. apply Forall2_nth_set; assumption.
  Qed.

  Lemma concat_bytes_sim vs vs' s :
    Forall2 vrel vs vs' -> concat_bytes vs = Some s -> concat_bytes vs' = Some s.
  Proof.
    intros H. revert s. induction H as [|v v' l l' Hv _ IH]; cbn; intros s E; [exact E|].
    destruct Hv; try discriminate.
    destruct (concat_bytes l) as [r|]; [|discriminate].
    rewrite (IH r eq_refl). exact E.
  Qed.

  Lemma apply_op_sim call call' o vs vs' st st' :
    callrel call call' -> Forall2 vrel vs vs' -> srel st st' ->
    orel vrel (apply_op w m call o vs st) (apply_op w m' call' o vs' st').
  Proof.
    intros Hc Hv Hs. unfold apply_op.
    destruct o.
    - destruct Hv as [|? ? ? ? H Hv]; [constructor|]. destruct H; try constructor.
      destruct Hv as [|? ? ? ? H Hv]; [constructor|]. destruct H; try constructor.
      destruct Hv; try constructor; [constructor|assumption].
    - destruct Hv as [|? ? ? ? H Hv]; [constructor|]. destruct H; try constructor.
      destruct Hv as [|? ? ? ? H Hv]; [constructor|]. destruct H; try constructor.
      destruct Hv; try constructor; [constructor|assumption].
    - destruct (concat_bytes vs) as [s|] eqn:E; [|constructor].
      rewrite (concat_bytes_sim _ _ _ Hv E). constructor; [constructor|assumption].
    - rewrite (ag_types AG). destruct (lookup (m_types m) name) as [ts|]; [|constructor].
      rewrite <- (Forall2_length Hv).
      destruct (Nat.eqb (length vs) (length ts)); constructor; [constructor|]; assumption.
    - destruct Hv as [|? ? ? ? H Hv]; [constructor|]. destruct H; try constructor.
      destruct Hv as [|]; [|constructor].
      destruct (String.eqb name n); [|constructor].
      destruct (nth_error vs index) as [v|] eqn:E; [|constructor].
      destruct (Forall2_nth _ _ _ _ _ H E) as (v' & -> & Hv'). constructor; assumption.
    - destruct Hv as [|? ? ? ? H Hv]; [constructor|]. destruct H; try constructor.
      destruct (String.eqb name n); [|constructor].
      destruct (update_fields indices l vs) as [r|] eqn:E; [|constructor].
      destruct (update_fields_sim _ _ _ _ _ _ Hv H E) as (r' & -> & Hr).
      constructor; [constructor|]; assumption.
    - destruct Hv as [|? ? ? ? H Hv]; [constructor|].
      destruct Hv; [|constructor]. constructor; [constructor|]; assumption.
    - destruct Hv as [|? ? ? ? H Hv]; [constructor|]. destruct H; try constructor.
      destruct Hv; [|constructor].
      rewrite (ag_infos AG), (ag_fallback AG).
      constructor; [|assumption]. constructor.
      destruct (lookup_type (m_infos m) t) eqn:E; [eapply (ag_infos_ok AG); eassumption|].
      apply (ag_fallback_ok AG).
    - destruct Hv as [|? ? ? ? H Hv]; [constructor|].
      destruct Hv; [|constructor]. constructor; assumption.
    - destruct Hv as [|? ? ? ? H Hv]; [constructor|].
      rewrite <- (Forall2_length Hv).
      destruct (Nat.eqb (length l) (length arguments)); [|constructor].
      apply Hc; assumption.
  Qed.

  (** ** The outside *)
  Lemma same_types_sim vs vs' types :
    Forall2 vrel vs vs' -> same_types m vs types = true -> same_types m' vs' types = true.
  Proof.
    intros H. revert types. induction H as [|v v' l l' Hv _ IH]; intros [|t types] E; cbn in *;
      try discriminate; [reflexivity|].
    destruct (type_of m v) as [t'|] eqn:Et; [|discriminate].
    rewrite (vrel_type_of _ _ _ Hv Et). apply andb_true_iff in E. destruct E as [-> E].
    cbn. auto.
  Qed.

  Lemma resolve_sim kn kn' t : Forall2 vrel kn kn' -> forall v,
      resolve m kn t = Some v -> exists v', resolve m' kn' t = Some v' /\ vrel v v'.
  Proof.
    intros Hk. induction t using term_ind'; intros v0 E; try (cbn in *; injection E as <-; eauto using vrel; fail).
    - rewrite resolve_record in E. rewrite resolve_record, (ag_types AG).
      destruct (resolve_list m kn ts) as [vs|] eqn:El; [|discriminate].
      destruct (lookup (m_types m) n) as [types|]; [|discriminate].
      destruct (same_types m vs types) eqn:Es; [|discriminate]. injection E as <-.
      assert (Hl : exists vs', resolve_list m' kn' ts = Some vs' /\ Forall2 vrel vs vs').
      { clear Es types. revert vs El. induction H as [|t ts Ht _ IH]; intros vs El; cbn in *.
        - injection El as <-. eauto.
        - destruct (resolve m kn t) as [v|] eqn:Ev; [|discriminate].
          destruct (resolve_list m kn ts) as [vs1|]; [|discriminate]. injection El as <-.
          destruct (Ht _ eq_refl) as (v' & -> & Hv').
          destruct (IH _ eq_refl) as (vs' & -> & Hvs'). eauto. }
      destruct Hl as (vs' & -> & Hvs). rewrite (same_types_sim _ _ _ Hvs Es). eauto using vrel.
    - cbn in *. destruct (resolve m kn t0) as [v|] eqn:Ev; [|discriminate].
      destruct (IHt _ eq_refl) as (v' & -> & Hv').
      destruct (type_of m v) as [t'|] eqn:Et; [|discriminate].
      rewrite (vrel_type_of _ _ _ Hv' Et).
      destruct t'; try discriminate;
        (destruct (mtype_eqb _ t); [|discriminate]; injection E as <-; eauto using vrel).
    - cbn in *. eapply Forall2_nth; eassumption.
    - cbn in *. destruct t; try discriminate. injection E as <-. eauto using vrel.
  Qed.

  Lemma resolve_args_sim kn kn' ts : Forall2 vrel kn kn' -> forall types vs,
      resolve_args m kn ts types = Some vs ->
      exists vs', resolve_args m' kn' ts types = Some vs' /\ Forall2 vrel vs vs'.
  Proof.
    intros Hk. induction ts as [|t ts IH]; intros [|ty types] vs E; cbn in *; try discriminate.
    - injection E as <-. eauto.
    - destruct (resolve m kn t) as [v|] eqn:Ev; [|discriminate].
      destruct (resolve_sim _ _ _ Hk _ Ev) as (v' & -> & Hv').
      destruct (type_of m v) as [t'|] eqn:Et; [|discriminate].
      rewrite (vrel_type_of _ _ _ Hv' Et).
      destruct (mtype_eqb t' ty); [|discriminate].
      destruct (resolve_args m kn ts types) as [vs1|] eqn:E1; [|discriminate].
      destruct (IH _ _ E1) as (vs' & -> & Hvs'). cbn in *. injection E as <-. eauto.
  Qed.

  Lemma run_script_sim call call' : callrel call call' -> forall sc st st',
      srel st st' -> orel eq (run_script m call sc st) (run_script m' call' sc st').
  Proof.
    intros Hc. induction sc as [|[c ts] sc IH]; intros st st' Hs; cbn [run_script].
    - constructor; [reflexivity|assumption].
    - destruct (resolve_callee m (known st) c) as [f|] eqn:Ef; [|constructor].
      assert (Hf : exists f', resolve_callee m' (known st') c = Some f' /\ vrel f f').
      { destruct c as [g|i]; cbn in *.
        - destruct (find_def (m_defs m) g) as [d|] eqn:Ed; [|discriminate]. injection Ef as <-.
          destruct (ag_def AG _ _ Ed) as (d' & -> & _). eexists. split; [reflexivity|].
          constructor. unfold global_type. rewrite Ed. discriminate.
        - eapply Forall2_nth; [apply srel_known|]; eassumption. }
      destruct Hf as (f' & -> & Hf).
      destruct (type_of m f) as [t|] eqn:Et; [|constructor].
      rewrite (vrel_type_of _ _ _ Hf Et).
      destruct t as [ | |types rt| | | |]; try constructor.
      destruct (resolve_args m (known st) ts types) as [vs|] eqn:Ea; [|constructor].
      destruct (resolve_args_sim _ _ _ (srel_known _ _ Hs) _ _ Ea) as (vs' & -> & Hvs).
      eapply orel_bind; [apply Hc; assumption|].
      intros v v' st1 st1' Hv Hs1. apply IH. apply srel_log; [assumption|].
      constructor. assumption.
  Qed.

  Lemma outside_sim call call' st st' f vs vs' t :
    callrel call call' -> srel st st' -> Forall2 vrel vs vs' ->
    orel vrel (outside w m call st f vs t) (outside w m' call' st' f vs' t).
  Proof.
    intros Hc Hs Hv. unfold outside.
    assert (Hs' : srel (log_event st (EvCall f vs)) (log_event st' (EvCall f vs')))
      by (apply srel_log; [assumption|constructor; assumption]).
    pose proof (srel_observe _ _ Hs') as Ho. unfold observe_log in Ho. rewrite Ho.
    eapply orel_bind; [apply run_script_sim; eassumption|].
    intros _ _ st1 st1' _ Hs1.
    destruct (resolve m (known st1) _) as [v|] eqn:Er; [|constructor].
    destruct (resolve_sim _ _ _ (srel_known _ _ Hs1) _ Er) as (v' & -> & Hv').
    destruct (type_of m v) as [t'|] eqn:Et; [|constructor].
    rewrite (vrel_type_of _ _ _ Hv' Et).
    destruct (mtype_eqb t' t); constructor; assumption.
  Qed.

  (** ** Calls *)

  (** Running related closures, thunks and globals with related arguments. *)
  Definition closure_sim : Prop := forall call call' d d' c c' ps f f' vs vs' st st',
      callrel call call' -> crel d d' (map fst c, map fst c') ps -> (forall x y, ps x y -> entry vrel c c' x y) ->
      vrel f f' ->
      (f = VClosure d c /\ f' = VClosure d' c' \/ exists i, f = VThunk i d c /\ f' = VThunk i d' c') ->
      Forall2 vrel vs vs' -> length vs = length (f_args d) -> srel st st' ->
      orel vrel
           (eval md w m call (bind_args (map fst (f_args d)) vs ((f_name d, f) :: c)) st (f_body d))
           (eval md' w m' call' (bind_args (map fst (f_args d')) vs' ((f_name d', f') :: c')) st'
                 (f_body d')).

  Definition lift_sim : Prop := forall call call' d g vs vs' st st',
      callrel call call' -> lrel d g -> f_thunk d = false ->
      Forall2 vrel vs vs' -> length vs = length (f_args d) -> srel st st' ->
      exists d', find_def (m_defs m') g = Some d' /\ f_thunk d' = false /\
        orel vrel
           (eval md w m call (bind_args (map fst (f_args d)) vs [(f_name d, VClosure d [])]) st (f_body d))
           (eval md' w m' call' (bind_args (map fst (f_args d')) vs' []) st' (f_body d')).

  Definition global_sim : Prop := forall call call' g d d' vs vs' st st',
      callrel call call' -> find_def (m_defs m) g = Some d -> find_def (m_defs m') g = Some d' ->
      Forall2 vrel vs vs' -> length vs = length (f_args d) -> srel st st' ->
      orel vrel
           (eval md w m call (bind_args (map fst (f_args d)) vs []) st (f_body d))
           (eval md' w m' call' (bind_args (map fst (f_args d')) vs' []) st' (f_body d')).

  (** What is known about the calls available to a body, besides [callrel]. *)
  Definition calls_relation : Type :=
    (state -> value -> list value -> out value) -> (state -> value -> list value -> out value) -> Prop.

  Definition closure_sim_with (extra : calls_relation) : Prop := forall call call' d d' c c' ps f f' vs vs' st st',
      callrel call call' -> extra call call' -> crel d d' (map fst c, map fst c') ps -> (forall x y, ps x y -> entry vrel c c' x y) ->
      vrel f f' ->
      (f = VClosure d c /\ f' = VClosure d' c' \/ exists i, f = VThunk i d c /\ f' = VThunk i d' c') ->
      Forall2 vrel vs vs' -> length vs = length (f_args d) -> srel st st' ->
      orel vrel
           (eval md w m call (bind_args (map fst (f_args d)) vs ((f_name d, f) :: c)) st (f_body d))
           (eval md' w m' call' (bind_args (map fst (f_args d')) vs' ((f_name d', f') :: c')) st'
                 (f_body d')).

  Definition lift_sim_with (extra : calls_relation) : Prop := forall call call' d g vs vs' st st',
      callrel call call' -> extra call call' -> lrel d g -> f_thunk d = false ->
      Forall2 vrel vs vs' -> length vs = length (f_args d) -> srel st st' ->
      exists d', find_def (m_defs m') g = Some d' /\ f_thunk d' = false /\
        orel vrel
           (eval md w m call (bind_args (map fst (f_args d)) vs [(f_name d, VClosure d [])]) st (f_body d))
           (eval md' w m' call' (bind_args (map fst (f_args d')) vs' []) st' (f_body d')).

  Definition global_sim_with (extra : calls_relation) : Prop := forall call call' g d d' vs vs' st st',
      callrel call call' -> extra call call' -> find_def (m_defs m) g = Some d -> find_def (m_defs m') g = Some d' ->
      Forall2 vrel vs vs' -> length vs = length (f_args d) -> srel st st' ->
      orel vrel
           (eval md w m call (bind_args (map fst (f_args d)) vs []) st (f_body d))
           (eval md' w m' call' (bind_args (map fst (f_args d')) vs' []) st' (f_body d')).

  Lemma f_type_args (d d' : fdef) : f_type d' = f_type d -> length (f_args d') = length (f_args d).
  Proof.
    unfold f_type. intros H. injection H as H _.
    apply (f_equal (@length _)) in H. rewrite !map_length in H. exact H.
  Qed.

  Lemma orel_keep f f' r r' :
    (forall v v' st st', vrel v v' -> srel st st' -> srel (f v st) (f' v' st')) ->
    orel vrel r r' -> orel vrel (keep f r) (keep f' r').
  Proof.
    intros Hf H. destruct H; cbn; constructor; auto.
  Qed.

  Lemma globals_lookup l l' g : Forall2 grel l l' ->
    match lookup l g with
    | Some v => exists v', lookup l' g = Some v' /\ vrel v v'
    | None => lookup l' g = None
    end.
  Proof.
    induction 1 as [|[k v] [k' v'] l l' [Hk Hv] _ IH]; cbn in *; [reflexivity|].
    subst k'. destruct (String.eqb g k); [eauto|exact IH].
  Qed.

  Theorem call_sim_with (extra : calls_relation) n :
    closure_sim_with extra -> lift_sim_with extra -> global_sim_with extra ->
    extra (call md w m 0) (call md' w m' 0) ->
    (forall n, callrel (call md w m n) (call md' w m' n) -> extra (call md w m n) (call md' w m' n) ->
               extra (call md w m (S n)) (call md' w m' (S n))) ->
    callrel (call md w m n) (call md' w m' n) /\ extra (call md w m n) (call md' w m' n).
  Proof.
    intros HC HL HG H0 HS.
    enough (IH : forall n, callrel (call md w m n) (call md' w m' n) -> extra (call md w m n) (call md' w m' n) ->
                   callrel (call md w m (S n)) (call md' w m' (S n))).
    { induction n as [|n [IHc IHe]]; split; auto. intros st st' f f' vs vs' Hs Hf Hv. cbn [call]. constructor. assumption. }
    clear n H0 HS. intros n IH IHe st st' f f' vs vs' Hs Hf Hv; cbn [call].
    pose proof (Forall2_length Hv) as Hlen. destruct Hf; try constructor.
      + (* closures *)
        rewrite <- Hlen, (f_type_args _ _ (ag_crel AG _ _ _ _ H0)).
        destruct (Nat.eqb_spec (length vs) (length (f_args d))); [|constructor].
        apply orel_finish. eapply HC; try eassumption; [|left; split; reflexivity].
        econstructor; eassumption.
      + (* thunks *)
        pose proof (f_type_args _ _ (ag_crel AG _ _ _ _ H0)) as Ha.
        destruct Hv as [|]; [|constructor].
        destruct (f_args d) as [|] eqn:Ea; [|constructor].
        destruct (f_args d') as [|] eqn:Ea'; [|discriminate].
        destruct (nth_error (s_cells st) i) as [cell|] eqn:Ei; [|constructor].
        destruct (Forall2_nth _ _ _ _ _ (sr_cells _ _ Hs) Ei) as (cell' & -> & Hcell).
        destruct Hcell as [|v v' Hv].
        * apply orel_keep.
          { intros v v' st1 st1' Hv [H2 H3 H4]. split; cbn; try assumption.
            apply Forall2_nth_set; [assumption|]. constructor. assumption. }
          specialize (HC _ _ _ _ _ _ _ (VThunk i d c) (VThunk i d' c') [] [] st st' IH IHe H0 H1).
          rewrite Ea, Ea' in HC. cbn in HC. apply HC; auto.
          { econstructor; eassumption. }
          { right. eauto. }
        * constructor; assumption.
      + (* lifted closures *)
        destruct (Nat.eqb_spec (length vs) (length (f_args d))) as [Hl|]; [|constructor].
        destruct (HL _ _ _ _ _ _ _ _ IH IHe H0 H Hv Hl Hs) as (d' & Hd' & Ht & Hrel).
        rewrite Hd', Ht.
        pose proof (ag_lrel AG _ _ H0) as Hg. unfold global_type in Hg. rewrite Hd' in Hg.
        injection Hg as Hg Hr.
        assert (Hl' : length (f_args d') = length (f_args d)).
        { apply (f_equal (@length _)) in Hg. rewrite !map_length in Hg. exact Hg. }
        rewrite <- Hlen, Hl, Hl', Nat.eqb_refl. apply orel_finish. exact Hrel.
      + (* global functions *)
        destruct (find_def (m_defs m) g) as [d|] eqn:Hd.
        * destruct (ag_def AG _ _ Hd) as (d' & Hd' & Ht & Hth). rewrite Hd', Hth.
          pose proof (f_type_args _ _ Ht) as Ha.
          destruct (f_thunk d) eqn:Hthunk.
          { destruct Hv as [|]; [|constructor].
            destruct (f_args d) as [|] eqn:Ea; [|constructor].
            destruct (f_args d') as [|] eqn:Ea'; [|discriminate].
            pose proof (globals_lookup _ _ g (sr_globals _ _ Hs)) as Hgl.
            destruct (lookup (s_globals st) g) as [v|].
            - destruct Hgl as (v' & -> & Hv). constructor; assumption.
            - rewrite Hgl. apply orel_keep.
              { intros v v' st1 st1' Hv [H2 H3 H4]. split; cbn; try assumption.
                constructor; [split; [reflexivity|assumption]|assumption]. }
              specialize (HG _ _ _ _ _ [] [] st st' IH IHe Hd Hd').
              rewrite Ea, Ea' in HG. cbn in HG. apply HG; auto. }
          { rewrite <- Hlen, Ha.
            destruct (Nat.eqb_spec (length vs) (length (f_args d))); [|constructor].
            apply orel_finish. eapply HG; eassumption. }
        * unfold global_type in H. rewrite Hd in H.
          rewrite (ag_nodef AG _ Hd H), (ag_declared AG).
          destruct (lookup (m_declared m) g) as [t|]; [|constructor].
          destruct t as [ | |ts t| | | |]; try constructor.
          rewrite <- Hlen. destruct (Nat.eqb (length vs) (length ts)); [|constructor].
          apply outside_sim; assumption.
      + (* functions made outside *)
        destruct t as [ | |ts t| | | |]; try constructor.
        rewrite <- Hlen. destruct (Nat.eqb (length vs) (length ts)); [|constructor].
        apply outside_sim; assumption.
  Qed.

  Theorem call_sim n : closure_sim -> lift_sim -> global_sim ->
    callrel (call md w m n) (call md' w m' n).
  Proof.
    intros HC HL HG. apply (call_sim_with (fun _ _ => True)); auto.
    - intros call call' d d' c c' ps f f' vs vs' st st' Hc _. apply HC. exact Hc.
    - intros call call' d g vs vs' st st' Hc _. apply HL. exact Hc.
    - intros call call' g d d' vs vs' st st' Hc _. apply HG. exact Hc.
  Qed.

  (** ** Evaluation *)
  Definition evrel_at (call call' : state -> value -> list value -> out value)
             (rho rho' : env) (e e' : expr) : Prop :=
    forall st st', srel st st' -> orel vrel (eval md w m call rho st e) (eval md' w m' call' rho' st' e').

  Lemma eval_list_sim call call' rho rho' es es' :
    Forall2 (evrel_at call call' rho rho') es es' ->
    forall st st', srel st st' ->
      orel (Forall2 vrel) (eval_list (eval md w m call) rho st es)
           (eval_list (eval md' w m' call') rho' st' es').
  Proof.
    induction 1 as [|e e' es es' He _ IH]; intros st st' Hs; cbn [eval_list].
    - constructor; [constructor|assumption].
    - eapply orel_bind; [apply He; assumption|].
      intros v v' st1 st1' Hv Hs1. eapply orel_bind; [apply IH; assumption|].
      intros vs vs' st2 st2' Hvs Hs2. constructor; [constructor|]; assumption.
  Qed.

  Lemma var_sim rho rho' x y st st' :
    entry vrel rho rho' x y -> srel st st' ->
    orel vrel (eval_var m rho st x) (eval_var m' rho' st' y).
  Proof.
    intros H Hs. unfold eval_var. destruct H as [v v' H1 H2 Hv|H1 H2|Hne H1 H2 H3].
    - rewrite H1, H2. constructor; assumption.
    - rewrite H1. destruct (global_type m x) as [t|] eqn:Ht; [|constructor].
      destruct H2 as [-> H2]; [discriminate|]. rewrite H2, (global_type_agree _ _ Ht).
      constructor; [constructor; congruence|assumption].
    - rewrite H1, H2. destruct (global_type m y) as [t|] eqn:Ht; [|congruence].
      rewrite (global_type_agree _ _ Ht). constructor; [constructor; congruence|assumption].
  Qed.

  Lemma downcast_sim t tag v v' : vrel v v' -> vrel (downcast t tag v) (downcast t tag v').
  Proof. intros H. destruct t; cbn; try assumption. constructor. assumption. Qed.

  (** *** One lemma per kind of expression *)
  Section Congruence.
    Variables call call' : state -> value -> list value -> out value.
    Hypothesis Hcall : callrel call call'.
    Notation at_ := (evrel_at call call').

    (** [e] and [e'] with the variables [x] and [y] bound to related values. *)
    Definition under (rho rho' : env) (x y : string) (e e' : expr) : Prop :=
      forall v v', vrel v v' -> at_ ((x, v) :: rho) ((y, v') :: rho') e e'.

    Lemma lit_at rho rho' l : at_ rho rho' (Lit l) (Lit l).
    Proof.
      intros st st' Hs. cbn [eval]. constructor; [|assumption]. destruct l; constructor.
    Qed.

    Lemma var_at rho rho' x y : entry vrel rho rho' x y -> at_ rho rho' (Var x) (Var y).
    Proof. intros H st st' Hs. cbn [eval]. apply var_sim; assumption. Qed.

    Lemma op_at rho rho' o es es' :
      Forall2 (at_ rho rho') es es' -> at_ rho rho' (Op o es) (Op o es').
    Proof.
      intros H st st' Hs. cbn [eval].
      eapply orel_bind; [apply eval_list_sim; eassumption|].
      intros vs vs' st1 st1' Hv Hs1. apply apply_op_sim; assumption.
    Qed.

    Lemma if_at rho rho' c c' t t' e e' :
      at_ rho rho' c c' -> at_ rho rho' t t' -> at_ rho rho' e e' ->
      at_ rho rho' (If c t e) (If c' t' e').
    Proof.
      intros Hc Ht He st st' Hs. cbn [eval].
      eapply orel_bind; [apply Hc; assumption|].
      intros v v' st1 st1' Hv Hs1. destruct Hv; try constructor.
      destruct b; [apply Ht|apply He]; assumption.
    Qed.

    Lemma let_at rho rho' x y t t' b b' e e' :
      at_ rho rho' b b' -> under rho rho' x y e e' ->
      at_ rho rho' (Let x t b e) (Let y t' b' e').
    Proof.
      intros Hb He st st' Hs. cbn [eval].
      eapply orel_bind; [apply Hb; assumption|].
      intros v v' st1 st1' Hv Hs1. apply He; assumption.
    Qed.

    Lemma try_at rho rho' o o' x y t e e' :
      at_ rho rho' o o' -> under rho rho' x y e e' ->
      at_ rho rho' (Try o x t e) (Try o' y t e').
    Proof.
      intros Ho He st st' Hs. cbn [eval].
      eapply orel_bind; [apply Ho; assumption|].
      intros v v' st1 st1' Hv Hs1. destruct Hv as [| | | | |tag v v' Hv| | | | |]; try constructor.
      destruct (mtype_eqb tag t).
      - apply orel_escape. apply He; [|assumption]. apply downcast_sim. assumption.
      - constructor; [constructor|]; assumption.
    Qed.

    Definition alt_at (rho rho' : env) (al al' : alt) : Prop :=
      a_types al' = a_types al /\
      under rho rho' (a_name al) (a_name al') (a_body al) (a_body al').

    Inductive default_at (rho rho' : env) : option (string * expr) -> option (string * expr) -> Prop :=
    | da_none : default_at rho rho' None None
    | da_some x y e e' :
        under rho rho' x y e e' -> default_at rho rho' (Some (x, e)) (Some (y, e')).

    Lemma case_at rho rho' a a' alts alts' de de' :
      at_ rho rho' a a' -> Forall2 (alt_at rho rho') alts alts' -> default_at rho rho' de de' ->
      at_ rho rho' (Case a alts de) (Case a' alts' de').
    Proof.
      intros Ha Halts Hde st st' Hs. cbn [eval].
      eapply orel_bind; [apply Ha; assumption|].
      intros v v' st1 st1' Hv Hs1.
      destruct Hv as [| | | | |tag v v' Hv| | | | |]; try constructor.
      induction Halts as [|al al' alts alts' [Ht Hal] _ IH]; cbn [eval_alts].
      - destruct Hde as [|x y e e' He]; [constructor|]. apply He; [|assumption].
        constructor. assumption.
      - rewrite Ht. destruct (existsb (mtype_eqb tag) (a_types al)); [|exact IH].
        apply Hal; [|assumption]. apply downcast_sim. assumption.
    Qed.

    Lemma letrec_at rho rho' d d' e e' :
      f_thunk d' = f_thunk d ->
      (forall c, capture md d rho = Some c ->
                 exists c' ps, capture md' d' rho' = Some c' /\ crel d d' (map fst c, map fst c') ps /\
                               forall x y, ps x y -> entry vrel c c' x y) ->
      under rho rho' (f_name d) (f_name d') e e' ->
      at_ rho rho' (LetRec d e) (LetRec d' e').
    Proof.
      intros Hth Hc He st st' Hs. cbn [eval].
      destruct (capture md d rho) as [c|]; [|constructor].
      destruct (Hc _ eq_refl) as (c' & ps & -> & Hd & Hps). rewrite Hth.
      destruct (f_thunk d) eqn:Ht.
      - rewrite <- (Forall2_length (sr_cells _ _ Hs)). apply He.
        + econstructor; eassumption.
        + destruct Hs as [H1 H2 H3]. split; cbn; try assumption.
          apply Forall2_app; [assumption|]. constructor; constructor.
      - apply He; [|assumption]. econstructor; eassumption.
    Qed.

    Lemma clone_at rho rho' xs xs' e e' :
      at_ rho rho' e e' -> at_ rho rho' (CloneVars xs e) (CloneVars xs' e').
    Proof. intros H st st' Hs. cbn [eval]. apply H. assumption. Qed.

    Lemma drop_at rho rho' xs xs' e e' :
      at_ rho rho' e e' -> at_ rho rho' (DropVars xs e) (DropVars xs' e').
    Proof. intros H st st' Hs. cbn [eval]. apply H. assumption. Qed.
  End Congruence.

  (** *** Environments *)
  Lemma entry_cons_here c c' x y v v' :
    vrel v v' -> entry vrel ((x, v) :: c) ((y, v') :: c') x y.
  Proof.
    intros H. econstructor; cbn; [rewrite String.eqb_refl; reflexivity..|assumption].
  Qed.

  Lemma entry_cons_there c c' k k' u u' x y :
    x <> k -> y <> k' -> entry vrel c c' x y -> entry vrel ((k, u) :: c) ((k', u') :: c') x y.
  Proof.
    intros Hx Hy H. apply String.eqb_neq in Hx, Hy.
    destruct H as [v v' H1 H2 Hv|H1 H2|Hne H1 H2 H3].
    - econstructor; cbn; [rewrite Hx; exact H1|rewrite Hy; exact H2|exact Hv].
    - apply entry_none; cbn; [rewrite Hx; exact H1|]. rewrite Hy. exact H2.
    - apply entry_global; cbn; [exact Hne|rewrite Hx; exact H1|rewrite Hy; exact H2|exact H3].
  Qed.

  Lemma entry_cons_same c c' k u u' x :
    vrel u u' -> entry vrel c c' x x -> entry vrel ((k, u) :: c) ((k, u') :: c') x x.
  Proof.
    intros Hu H. destruct (String.eqb_spec x k) as [->|Hne].
    - apply entry_cons_here. assumption.
    - apply entry_cons_there; assumption.
  Qed.

  Lemma entry_bind_args_same xs : forall vs vs' c c',
      Forall2 vrel vs vs' -> (forall x, entry vrel c c' x x) ->
      forall x, entry vrel (bind_args xs vs c) (bind_args xs vs' c') x x.
  Proof.
    induction xs as [|k xs IH]; intros vs vs' c c' Hv Hc x; cbn; [apply Hc|].
    destruct Hv as [|v v' vs vs' Hv Hvs]; [apply Hc|].
    apply IH; [assumption|]. intros y. apply entry_cons_same; [assumption|apply Hc].
  Qed.

  (** Only the variables that are not arguments have to agree before. *)
  Lemma entry_bind_args_one xs : forall vs vs' c c' x,
      Forall2 vrel vs vs' -> length vs = length xs ->
      (~ In x xs -> entry vrel c c' x x) ->
      entry vrel (bind_args xs vs c) (bind_args xs vs' c') x x.
  Proof.
    induction xs as [|k xs IH]; intros vs vs' c c' x Hv Hlen Hc; cbn; [apply Hc; auto|].
    destruct Hv as [|v v' vs vs' Hv Hvs]; [discriminate|].
    apply IH; [assumption|auto|]. intros Hx.
    destruct (String.eqb_spec x k) as [->|Hne].
    - apply entry_cons_here. assumption.
    - apply entry_cons_there; auto. apply Hc. intros [E|E]; auto.
  Qed.

  Lemma entry_nil x : entry vrel [] [] x x.
  Proof. apply entry_none; cbn; auto. Qed.
End Sim.

(** ** The whole run *)
Section NoReturn.
  Variables (md : mode) (w : world) (m : mmodule).

  Definition no_return (c : state -> value -> list value -> out value) : Prop :=
    forall st f vs v st', c st f vs <> Return v st'.

  Lemma script_no_return c : no_return c ->
    forall sc st v st', run_script m c sc st <> Return v st'.
  Proof.
    intros Hc. induction sc as [|[g ts] sc IH]; intros st v st'; cbn [run_script]; [discriminate|].
    destruct (resolve_callee _ _ _) as [h|]; [|discriminate].
    destruct (type_of m h) as [[]|]; try discriminate.
    destruct (resolve_args _ _ _ _) as [us|]; [|discriminate].
    specialize (Hc st h us v st'). destruct (c st h us); cbn; try discriminate; [apply IH|].
    intros E. apply Hc. injection E as -> ->. reflexivity.
  Qed.

  Lemma outside_no_return c st f vs t v st' :
    no_return c -> outside w m c st f vs t <> Return v st'.
  Proof.
    intros Hc. unfold outside.
    pose proof (script_no_return c Hc (w_script w (observe_log (log_event st (EvCall f vs))))
                  (log_event st (EvCall f vs)) v st') as Hs.
    destruct (run_script _ _ _ _) as [[] st1|v1 st1|st1|st1|]; cbn; try discriminate.
    - destruct (resolve _ _ _); [|discriminate]. destruct (type_of m _); [|discriminate].
      destruct (mtype_eqb _ _); discriminate.
    - intros E. apply Hs. injection E as -> ->. reflexivity.
  Qed.

  Lemma call_no_return n : no_return (call md w m n).
  Proof.
    induction n as [|n IH]; intros st f vs v st'; cbn [call]; [discriminate|].
    assert (Hfin : forall r : out value, finish r <> Return v st') by (intros []; discriminate).
    assert (Hkeep : forall f (r : out value), keep f r <> Return v st')
      by (intros ? []; discriminate).
    destruct f; try discriminate.
    - destruct (Nat.eqb _ _); [apply Hfin|discriminate].
    - destruct vs; [|discriminate]. destruct (f_args d); [|discriminate].
      destruct (nth_error _ _) as [[]|]; [discriminate|apply Hkeep|discriminate].
    - destruct (find_def _ _) as [d|].
      + destruct (f_thunk d).
        * destruct vs; [|discriminate]. destruct (f_args d); [|discriminate].
          destruct (lookup _ _); [discriminate|apply Hkeep].
        * destruct (Nat.eqb _ _); [apply Hfin|discriminate].
      + destruct (lookup _ _) as [[]|]; try discriminate.
        destruct (Nat.eqb _ _); [|discriminate]. apply outside_no_return. exact IH.
    - destruct type; try discriminate.
      destruct (Nat.eqb _ _); [|discriminate]. apply outside_no_return. exact IH.
  Qed.
End NoReturn.

Theorem calls_refine m m' md md' crel lrel :
  agree m m' crel lrel ->
  (forall w n, callrel m crel lrel (call md w m n) (call md' w m' n)) ->
  refines md m md' m'.
Proof.
  intros AG Hcall w n sc.
  assert (H0 : srel m crel lrel initial initial) by (split; constructor).
  pose proof (run_script_sim m m' crel lrel AG _ _ (Hcall w n) sc _ _ H0) as H.
  unfold run.
  pose proof (script_no_return m _ (call_no_return md w m n) sc initial) as Hret.
  destruct H as [a a' st st' _ Hs|v v' st st' _ _|st st' Hs|st r|r].
  - destruct a'. exists st'. split; [reflexivity|]. eapply srel_observe. exact Hs.
  - apply (Hret v st). reflexivity.
  - exists st'. split; [reflexivity|]. eapply srel_observe. exact Hs.
  - exact I.
  - exact I.
Qed.

Theorem sim_refines m m' md md' crel lrel :
  agree m m' crel lrel ->
  (forall w, closure_sim m m' md md' w crel lrel) ->
  (forall w, lift_sim m m' md md' w crel lrel) ->
  (forall w, global_sim m m' md md' w crel lrel) ->
  refines md m md' m'.
Proof.
  intros AG HC HL HG. apply (calls_refine _ _ _ _ crel lrel AG).
  intros w n. apply call_sim; auto.
Qed.

Lemma refines_trans md1 m1 md2 m2 md3 m3 :
  refines md1 m1 md2 m2 -> refines md2 m2 md3 m3 -> refines md1 m1 md3 m3.
Proof.
  intros H1 H2 w n sc. specialize (H1 w n sc). specialize (H2 w n sc).
  destruct (run md1 w m1 n sc) as [a st|v st|st|st|]; try assumption.
  - destruct H1 as (st' & E & Ho). rewrite E in H2. destruct H2 as (st2 & E2 & Ho2).
    exists st2. split; [assumption|congruence].
  - destruct H1 as (st' & E & Ho). rewrite E in H2. destruct H2 as (st2 & E2 & Ho2).
    exists st2. split; [assumption|congruence].
Qed.
