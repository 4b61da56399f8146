(** The names of a compiled module: which types the compiler's names have, and
    why no two coincide. *)
From Coq Require Import String Ascii List ZArith Bool Lia Sorted.
From Verif Require Import Base Mir MirTypeCheck MirTypeProofs HirType HirTypeOrder HirTypeSpec HirTypeTermination HirTypeEq HirTypeSub HirTypeId
  HirTypeModule HirTypeModuleProofs Hir HirSpec HirParts HirMir HirProgram LowerTag LowerTypeSpec LowerProgramSpec LowerTypeBase.
Import ListNotations.
Local Open Scope string_scope.

(** ** Strings *)
Lemma append_left (a b c : string) : a ++ b = a ++ c -> b = c.
Proof. induction a as [|x a IH]; cbn; [auto|]. intros H. injection H as H. auto. Qed.

Lemma length_append (a b : string) : String.length (a ++ b) = String.length a + String.length b.
Proof. induction a as [|x a IH]; cbn; [reflexivity|]. rewrite IH. reflexivity. Qed.

Lemma append_right (a b c : string) : a ++ c = b ++ c -> a = b.
Proof.
  revert b. induction a as [|x a IH]; intros [|y b] H; [reflexivity| | |].
  - exfalso. apply (f_equal String.length) in H. cbn in H. rewrite length_append in H. lia.
  - exfalso. apply (f_equal String.length) in H. cbn in H. rewrite length_append in H. lia.
  - cbn in H. injection H as -> H. f_equal. apply IH, H.
Qed.

Fixpoint last_char (s : string) : option ascii :=
  match s with
  | EmptyString => None
  | String c EmptyString => Some c
  | String _ s => last_char s
  end.
Lemma last_append a c s : last_char (a ++ String c s) = last_char (String c s).
Proof.
  induction a as [|x a IH]; [reflexivity|]. change (String x a ++ String c s) with (String x (a ++ String c s)).
  destruct (a ++ String c s) eqn:Q; [destruct a; discriminate|]. cbn [last_char] in *. exact IH.
Qed.

Lemma prefix_split a : forall s, prefix a s = true -> exists b, s = a ++ b.
Proof.
  induction a as [|c a IH]; intros s H; [exists s; reflexivity|]. destruct s as [|d s]; [discriminate|]. cbn in H.
  destruct (ascii_dec c d) as [->|]; [|discriminate]. destruct (IH s H) as [b ->]. exists b. reflexivity.
Qed.

(** ** Lists *)
Lemma nodup_lookup_rev {A} (l : list (string * A)) x a : NoDup (map fst l) -> In (x, a) l -> lookup (rev l) x = Some a.
Proof.
  intros N H. apply NoDup_lookup; [|apply in_rev in H; exact H]. rewrite map_rev. apply NoDup_rev, N.
Qed.

Lemma sset_nodup s : sset s -> NoDup s.
Proof.
  unfold sset. induction 1 as [|u us Hs IH Hu]; constructor; [|exact IH]. intros H. rewrite Forall_forall in Hu. specialize (Hu u H).
  unfold tlt in Hu. rewrite (proj2 (ty_compare_eq u u) eq_refl) in Hu. discriminate.
Qed.

Lemma type_set_nodup ts : NoDup (type_set ts).
Proof. apply sset_nodup. exact (proj1 (sset_of_list ts)). Qed.
Lemma type_set_In ts x : In x (type_set ts) <-> In x ts.
Proof. exact (proj2 (sset_of_list ts) x). Qed.


Lemma nodup_middle {A} (l r : list A) a : ~ In a (l ++ r)%list -> NoDup (l ++ r)%list -> NoDup (l ++ a :: r)%list.
Proof. intros N H. apply NoDup_Add with (a := a) (l := (l ++ r)%list); [apply Add_app|split; assumption]. Qed.

Lemma nodup_left {A} (l r : list A) : NoDup (l ++ r)%list -> NoDup l.
Proof.
  induction l as [|a l IH]; intros H; [constructor|]. cbn in H. inversion H as [|? ? N H']; subst. constructor; [|apply IH, H'].
  intros Ha. apply N, in_or_app. auto.
Qed.

Lemma nodup_split {A B} (g : A -> B) (b : A -> bool) l : NoDup (map g l) -> NoDup (map g (filter b l) ++ map g (filter (fun x => negb (b x)) l))%list.
Proof.
  assert (I : forall (c : A -> bool) l x, In x (map g (filter c l)) -> In x (map g l)).
  { intros c l' x Hx. apply in_map_iff in Hx. destruct Hx as (a & <- & Ha). apply filter_In in Ha. apply in_map, Ha. }
  induction l as [|a l IH]; [intros; constructor|]. cbn [map filter]. intros N. inversion N as [|? ? Na Nl]; subst. specialize (IH Nl).
  assert (Q : ~ In (g a) (map g (filter b l) ++ map g (filter (fun x => negb (b x)) l))%list).
  { intros H. apply Na. apply in_app_or in H. destruct H as [H|H]; eapply I, H. }
  destruct (b a); cbn [map negb app].
  - constructor; assumption.
  - apply nodup_middle; assumption.
Qed.

Lemma nodup_tags (tag : string -> nat) l : (forall g, NoDup (filter (fun x => Nat.eqb (tag x) g) l)) -> NoDup l.
Proof.
  induction l as [|x l IH]; intros H; [constructor|]. constructor.
  - intros Hx. specialize (H (tag x)). cbn [filter] in H. rewrite PeanoNat.Nat.eqb_refl in H. inversion H as [|? ? N _]; subst. apply N.
    apply filter_In. split; [exact Hx|apply PeanoNat.Nat.eqb_refl].
  - apply IH. intros g. specialize (H g). cbn [filter] in H. destruct (Nat.eqb (tag x) g); [inversion H; assumption|exact H].
Qed.

Lemma filter_none {A} (b : A -> bool) l : (forall x, In x l -> b x = false) -> filter b l = [].
Proof. induction l as [|a l IH]; intros H; [reflexivity|]. cbn. rewrite (H a (or_introl eq_refl)). apply IH. intros x Hx. apply H. right. exact Hx. Qed.
Lemma filter_all {A} (b : A -> bool) l : (forall x, In x l -> b x = true) -> filter b l = l.
Proof. induction l as [|a l IH]; intros H; [reflexivity|]. cbn. rewrite (H a (or_introl eq_refl)). f_equal. apply IH. intros x Hx. apply H. right. exact Hx. Qed.

Lemma distinct_names_intro l : NoDup l -> distinct_names l = true.
Proof.
  induction 1 as [|x l Hx _ IH]; [reflexivity|]. cbn. rewrite IH, andb_true_r. apply negb_true_iff. destruct (mem x l) eqn:Q; [|reflexivity].
  apply mem_In in Q. contradiction.
Qed.

(** ** What a record's original name does not change *)
Fixpoint anon (t : ty) : ty :=
  match t with
  | TFunction a r => TFunction (map anon a) (anon r)
  | TList e => TList (anon e)
  | TMap k v => TMap (anon k) (anon v)
  | TUnion l r => TUnion (anon l) (anon r)
  | TRecord r _ => TRecord r r
  | _ => t
  end.

Lemma anon_names t : names_ok (fun x => x) (anon t).
Proof.
  induction t as [| | |a r Ha IHr|e IHe|k v IHk IHv| | |r o|x| |l r IHl IHr] using ty_ind'; try (constructor; assumption).
  cbn. constructor; [|exact IHr]. apply Forall_forall. intros y Hy. apply in_map_iff in Hy. destruct Hy as (z & <- & Hz). rewrite Forall_forall in Ha. exact (Ha z Hz).
Qed.

Lemma anon_record_names t : record_names (anon t) = record_names t.
Proof.
  induction t as [| | |a r Ha IHr|e IHe|k v IHk IHv| | |r o|x| |l r IHl IHr] using ty_ind'; cbn; try reflexivity; try congruence.
  rewrite IHr. f_equal. clear IHr. induction Ha as [|y l Hy _ IH]; [reflexivity|]. cbn. rewrite Hy, IH. reflexivity.
Qed.

Lemma anon_id t : id_string (anon t) = id_string t.
Proof.
  induction t as [| | |a r Ha IHr|e IHe|k v IHk IHv| | |r o|x| |l r IHl IHr] using ty_ind'; cbn; try reflexivity.
  - assert (mapM id_string (map anon a) = mapM id_string a) as ->.
    { clear IHr. induction Ha as [|y l Hy _ IH]; [reflexivity|]. cbn. rewrite Hy, IH. reflexivity. }
    rewrite IHr. reflexivity.
  - rewrite IHe. reflexivity.
  - rewrite IHk, IHv. reflexivity.
  - rewrite IHl, IHr. reflexivity.
Qed.

Lemma anon_lower C t : lower C (anon t) = lower C t.
Proof.
  induction t as [| | |a r Ha IHr|e IHe|k v IHk IHv| | |r o|x| |l r IHl IHr] using ty_ind'; cbn; try reflexivity.
  assert (mapM (lower C) (map anon a) = mapM (lower C) a) as ->.
  { clear IHr. induction Ha as [|y l Hy _ IH]; [reflexivity|]. cbn. rewrite Hy, IH. reflexivity. }
  rewrite IHr. reflexivity.
Qed.

(** Types with the same identifier have the same representation. *)
Lemma same_id_lower C c d x : plain_names c -> plain_names d -> id_string c = Ok x -> id_string d = Ok x -> lower C c = lower C d.
Proof.
  intros Pc Pd Hc Hd. rewrite <- (anon_lower C c), <- (anon_lower C d). f_equal.
  apply (id_string_inj (fun x => x) (anon c) (anon d) x).
  - unfold plain_names. rewrite anon_record_names. exact Pc.
  - unfold plain_names. rewrite anon_record_names. exact Pd.
  - apply anon_names.
  - apply anon_names.
  - rewrite anon_id. exact Hc.
  - rewrite anon_id. exact Hd.
Qed.

Section Names.
  Variable f : string -> string.
  Variable C : config.
  Variable p : program.
  Hypothesis CF : config_fits C.
  Hypothesis PF : program_fits f C p.

  Let E := program_env p.
  Let R := program_records p.
  Let X : context_ok f E R := pf_context f C p PF.
  Let W : wf f E := ctx_types f E R X.

  Notation compiler_name := (compiler_name E R C).
  Notation compiler_record := (compiler_record E R C).

  (** ** Records of the program *)
  Lemma records_nodup : NoDup (map record_name (p_types p)).
  Proof.
    pose proof (pf_type_names f C p PF) as H. unfold type_names, program_module in H. cbn [tm_defs tm_aliases] in H. apply nodup_left in H.
    rewrite map_map in H. exact H.
  Qed.

  Lemma record_lookup d : In d (p_types p) -> lookup R (record_name d) = Some (td_fields (t_def d)).
  Proof.
    intros H. unfold R, program_records, collect_records. apply nodup_lookup_rev.
    - rewrite map_map. cbn. rewrite map_map. exact records_nodup.
    - apply in_map_iff. exists (t_def d). split; [reflexivity|]. apply in_map, H.
  Qed.

  Lemma record_definition r fts : lookup R r = Some fts -> exists d, In d (p_types p) /\ r = record_name d /\ fts = td_fields (t_def d).
  Proof.
    intros H. apply lookup_In in H. unfold R, program_records, collect_records in H. apply in_rev in H. apply in_map_iff in H. destruct H as (td & Q & H).
    injection Q as <- <-. cbn in H. apply in_map_iff in H. destruct H as (d & <- & H). exists d. auto.
  Qed.

  Lemma record_type d : In d (p_types p) -> lookup E (record_name d) = Some (def_record d).
  Proof.
    intros H. unfold E, program_env, collect_env. apply nodup_lookup_rev.
    - rewrite map_app, map_map. cbn [fst]. exact (pf_type_names f C p PF).
    - apply in_or_app. left. apply in_map_iff. exists (t_def d). split; [reflexivity|]. apply in_map, H.
  Qed.

  Lemma record_plain d : In d (p_types p) -> has_char ")"%char (record_name d) = false.
  Proof. intros H. apply (pf_types f C p PF (def_record d)); [apply ti_record, H|left; reflexivity]. Qed.

  Lemma env_plain x t : lookup E x = Some t -> plain_names t.
  Proof.
    intros H. apply lookup_In in H. unfold E, program_env, collect_env in H. apply in_rev in H. apply in_app_or in H. destruct H as [H|H].
    - apply in_map_iff in H. destruct H as (td & Q & H). injection Q as <- <-. cbn in H. apply in_map_iff in H. destruct H as (d & <- & H).
      intros r [<-|[]]. apply record_plain, H.
    - apply (pf_types f C p PF t). eapply ti_alias, H.
  Qed.

  (** ** Types *)
  Definition neat (t : ty) : Prop := names_ok f t /\ plain_names t.

  Lemma neat_canon t c : neat t -> canon E t c -> neat c.
  Proof.
    intros [N P] [n H]. split.
    - eapply names_canon; [apply W|exact N|exists n; exact H].
    - eapply (plain_canon_n E n env_plain); [exact H|exact P].
  Qed.

  Lemma neat_proper t c : neat t -> canon E t c -> proper E t.
  Proof. intros N H. exists c. split; [exact H|]. exact (proj2 (neat_canon t c N H)). Qed.

  Lemma type_proper t : type_in p t -> neat t /\ proper E t.
  Proof.
    intros H. destruct (pf_types f C p PF t H) as [[D N] P]. assert (neat t) as Nt by (split; assumption). split; [exact Nt|].
    destruct (canon_ex f E W t D) as [c Hc]. eapply neat_proper; eassumption.
  Qed.

  Lemma neat_visit t u : neat t -> In u (visit_type t) -> neat u.
  Proof.
    revert u. induction t as [| | |a r Ha IHr|e IHe|k v IHk IHv| | |r o|x| |l r IHl IHr] using ty_ind'; intros u [N P] H; cbn in H;
      (destruct H as [<-|H]; [split; assumption|]); try (destruct H; fail).
    - apply names_fix in N. destruct N as [Na Nr]. apply plain_function in P. destruct P as [Pa Pr]. apply in_app_or in H. destruct H as [H|H].
      + apply IHr; [split; assumption|exact H].
      + apply in_flat_map in H. destruct H as (t & Ht & H). rewrite Forall_forall in Ha, Na, Pa. apply (Ha t Ht); [split; auto|exact H].
    - apply names_fix in N. apply IHe; [split; assumption|exact H].
    - apply names_fix in N. destruct N as [Nk Nv]. unfold plain_names in P. cbn in P. apply plain_app in P; [|exact []]. destruct P as [Pk Pv].
      apply in_app_or in H. destruct H as [H|H]; [apply IHk|apply IHv]; try (split; assumption); exact H.
    - apply names_fix in N. destruct N as [Nk Nv]. unfold plain_names in P. cbn in P. apply plain_app in P; [|exact []]. destruct P as [Pk Pv].
      apply in_app_or in H. destruct H as [H|H]; [apply IHl|apply IHr]; try (split; assumption); exact H.
  Qed.

  Lemma neat_member t c u : neat t -> canon E t c -> In u (members_canonical c) -> neat u.
  Proof.
    intros N H Hu. pose proof (neat_canon t c N H) as [Nc Pc]. split.
    - pose proof (names_members f c Nc) as F. rewrite Forall_forall in F. exact (F u Hu).
    - eapply plain_member; eassumption.
  Qed.

  (** ** Identifiers *)
  Lemma identifier_canon n t i : type_id n E C t = Ok i -> exists c s, canon E t c /\ id_string c = Ok s /\ i = c_hash C s.
  Proof.
    unfold type_id. destruct (type_id_string n E t) as [s| | |] eqn:Q; try discriminate. cbn. intros H. injection H as <-. unfold type_id_string in Q.
    bok Q c Hc. exists c, s. split; [exists n; exact Hc|auto].
  Qed.

  Lemma identifier_inj n m t u i : neat t -> neat u -> canon E t t -> canon E u u -> type_id n E C t = Ok i -> type_id m E C u = Ok i -> t = u.
  Proof.
    intros [Nt Pt] [Nu Pu] Ct Cu Ht Hu. apply identifier_canon in Ht, Hu. destruct Ht as (c & s & Hc & Hs & Hi). destruct Hu as (d & s' & Hd & Hs' & Hi').
    rewrite (canon_fun _ _ _ _ Hc Ct) in Hs. rewrite (canon_fun _ _ _ _ Hd Cu) in Hs'. subst i. apply (cf_hash C CF) in Hi'. subst s'.
    eapply (id_string_inj f); [exact Pt|exact Pu|exact Nt|exact Nu|exact Hs|exact Hs'].
  Qed.

  Lemma identifier_word t i : identifier E C t i -> has_char ":"%char i = false /\ i <> "default" /\ i <> "element".
  Proof.
    intros [n H]. apply identifier_canon in H. destruct H as (c & s & _ & _ & ->). destruct (cf_words C CF s) as [H1 H2].
    split; [exact H1|]. split; intros Q; apply H2; rewrite Q; cbn; auto.
  Qed.

  (** ** The compiler's names *)
  Definition private_functions : list (string * mtype) :=
    [("__debug", Mir.TFunction [TByteString] Mir.TNone);
     ("__race", Mir.TFunction [Mir.TRecord (list_type C)] (Mir.TRecord (list_type C)));
     ("__spawn", Mir.TFunction [Mir.TFunction [] TVariant] (Mir.TFunction [] TVariant))].

  Definition generated_kinds : list (string * mtype) :=
    [("hir:type_information:", Mir.TFunction [] (Mir.TRecord information_record));
     ("hir:reflect:debug:", Mir.TFunction [TVariant] TByteString);
     ("hir:reflect:equal:", Mir.TFunction [TVariant; TVariant] TVariant);
     ("hir:equal:", Mir.TFunction [TVariant; TVariant] Mir.TBoolean);
     ("hir:hash:", Mir.TFunction [TVariant] Mir.TNumber);
     ("hir:map:context:", Mir.TFunction [] (Mir.TRecord (map_context C)))].

  Lemma compiler_name_cases x t : compiler_name x t ->
    In (x, t) (prelude_functions C) \/ In (x, t) private_functions \/
    (exists a i, In (a, t) generated_kinds /\ x = a ++ i /\ i <> "element") \/
    (exists d, In d (p_types p) /\
       (x = record_equal_name (record_name d) /\ t = Mir.TFunction [Mir.TRecord (record_name d); Mir.TRecord (record_name d)] Mir.TBoolean \/
        x = record_hash_name (record_name d) /\ t = Mir.TFunction [Mir.TRecord (record_name d)] Mir.TNumber)).
  Proof.
    assert (L : forall r, lookup R r <> None -> exists d, In d (p_types p) /\ r = record_name d).
    { intros r H. destruct (lookup R r) as [fts|] eqn:Q; [|contradiction]. destruct (record_definition r fts Q) as (d & Hd & Hr & _). eauto. }
    destruct 1; try (left; unfold prelude_functions; cbn; tauto); right;
      try (left; unfold private_functions; cbn; tauto); right;
      try (left; eexists _, _; split; [|split; [reflexivity|]]; [unfold generated_kinds; cbn; tauto|first [discriminate|eapply identifier_word; eassumption]]).
    - left. exists "hir:type_information:", "default". split; [unfold generated_kinds; cbn; tauto|]. split; [reflexivity|discriminate].
    - right. destruct (L r H) as (d & Hd & ->). exists d. auto.
    - right. destruct (L r H) as (d & Hd & ->). exists d. auto.
  Qed.

  Lemma kind_hir a t i : In (a, t) generated_kinds -> prefix "hir:" (a ++ i) = true.
  Proof. intros H. cbn in H. repeat (destruct H as [H|H]; [injection H as <- <-; reflexivity|]). destruct H. Qed.

  Lemma record_not_hir d s c : In d (p_types p) -> c <> "h"%char -> c <> "i"%char -> c <> "r"%char -> c <> ":"%char ->
    prefix "hir:" (record_name d ++ String c s) = false.
  Proof.
    intros Hd N1 N2 N3 N4. destruct (pf_records f C p PF d Hd) as [H _]. revert H. generalize (record_name d). intros r H.
    destruct (prefix "hir:" (r ++ String c s)) eqn:Q; [|reflexivity]. exfalso.
    destruct r as [|c1 [|c2 [|c3 [|c4 r]]]]; cbn [prefix append] in Q, H; revert H Q;
      repeat (match goal with |- context [ascii_dec ?a ?b] => destruct (ascii_dec a b) end); try congruence; destruct r; discriminate.
  Qed.

  Lemma kinds_apart a b t u i j : In (a, t) generated_kinds -> In (b, u) generated_kinds -> a ++ i = b ++ j -> a = b /\ t = u.
  Proof.
    intros Ha Hb Q. cbn in Ha, Hb.
    repeat (destruct Ha as [Ha|Ha]; [injection Ha as <- <-; repeat (destruct Hb as [Hb|Hb]; [injection Hb as <- <-; first [split; reflexivity|cbn in Q; discriminate]|]); destruct Hb|]); destruct Ha.
  Qed.

  Lemma prelude_source x t : In (x, t) (prelude_functions C) -> source_name x.
  Proof. intros H. apply (cf_names C CF). apply (in_map fst) in H. exact H. Qed.

  Lemma private_names x t : In (x, t) private_functions -> In x ["__debug"; "__race"; "__spawn"].
  Proof. intros H. apply (in_map fst) in H. exact H. Qed.

  Lemma nodup_unique {A} (l : list (string * A)) x a b : NoDup (map fst l) -> In (x, a) l -> In (x, b) l -> a = b.
  Proof. intros N Ha Hb. apply (NoDup_lookup _ _ _ N) in Ha. apply (NoDup_lookup _ _ _ N) in Hb. congruence. Qed.

  Lemma private_nodup : NoDup ["__debug"; "__race"; "__spawn"].
  Proof. repeat constructor; cbn; intuition discriminate. Qed.

  Lemma record_function_last d x : x = record_equal_name (record_name d) \/ x = record_hash_name (record_name d) ->
    last_char x = Some "l"%char \/ last_char x = Some "h"%char.
  Proof. intros [->| ->]; unfold record_equal_name, record_hash_name; rewrite last_append; cbn; auto. Qed.

  Lemma record_function_not_hir d x : In d (p_types p) -> x = record_equal_name (record_name d) \/ x = record_hash_name (record_name d) ->
    prefix "hir:" x = false.
  Proof. intros Hd [->| ->]; apply record_not_hir; try assumption; discriminate. Qed.

  Lemma record_function_not_private d x t : x = record_equal_name (record_name d) \/ x = record_hash_name (record_name d) -> ~ In (x, t) private_functions.
  Proof.
    intros H Hp. apply private_names in Hp. apply record_function_last in H.
    cbn in Hp. destruct Hp as [<-|[<-|[<-|[]]]]; cbn in H; destruct H; discriminate.
  Qed.

  Lemma compiler_name_fun x t u : compiler_name x t -> compiler_name x u -> t = u.
  Proof.
    intros Ht Hu. apply compiler_name_cases in Ht, Hu.
    assert (PR : forall d t, In (x, t) (prelude_functions C) -> In d (p_types p) -> ~ (x = record_equal_name (record_name d) \/ x = record_hash_name (record_name d))).
    { intros d t' H1 Hd H2. destruct (pf_record_functions f C p PF x d) as [N1 N2]; [apply in_or_app; right; apply (in_map fst) in H1; exact H1|exact Hd|]. tauto. }
    destruct Ht as [Ht|[Ht|[(a & i & Ha & -> & _)|(d & Hd & Ht)]]]; destruct Hu as [Hu|[Hu|[(b & j & Hb & Q & _)|(e & He & Hu)]]].
    - eapply nodup_unique; [exact (cf_distinct C CF)|exact Ht|exact Hu].
    - exfalso. apply private_names in Hu. apply prelude_source in Ht. apply Ht, Hu.
    - exfalso. apply prelude_source in Ht. destruct Ht as (_ & N & _). subst x. rewrite (kind_hir _ _ j Hb) in N. discriminate.
    - exfalso. eapply PR; [exact Ht|exact He|tauto].
    - exfalso. apply private_names in Ht. apply prelude_source in Hu. apply Hu, Ht.
    - eapply (nodup_unique private_functions); [exact private_nodup|exact Ht|exact Hu].
    - exfalso. apply private_names in Ht. subst x. pose proof (kind_hir _ _ j Hb) as N. cbn in Ht. destruct Ht as [H|[H|[H|[]]]]; rewrite <- H in N; discriminate.
    - exfalso. eapply (record_function_not_private e); [|exact Ht]. tauto.
    - exfalso. apply prelude_source in Hu. destruct Hu as (_ & N & _). rewrite (kind_hir _ _ i Ha) in N. discriminate.
    - exfalso. apply private_names in Hu. pose proof (kind_hir _ _ i Ha) as N. cbn in Hu. destruct Hu as [H|[H|[H|[]]]]; rewrite <- H in N; discriminate.
    - apply (kinds_apart _ _ _ _ _ _ Ha Hb Q).
    - exfalso. pose proof (kind_hir _ _ i Ha) as N. rewrite (record_function_not_hir e) in N; [discriminate|exact He|tauto].
    - exfalso. eapply PR; [exact Hu|exact Hd|tauto].
    - exfalso. eapply (record_function_not_private d); [|exact Hu]. tauto.
    - exfalso. subst x. pose proof (kind_hir _ _ j Hb) as N. rewrite (record_function_not_hir d) in N; [discriminate|exact Hd|tauto].
    - destruct Ht as [[-> ->]|[-> ->]]; destruct Hu as [[Q ->]|[Q ->]].
      + apply append_right in Q. rewrite Q. reflexivity.
      + exfalso. apply (f_equal last_char) in Q. unfold record_equal_name, record_hash_name in Q. rewrite !last_append in Q. discriminate.
      + exfalso. apply (f_equal last_char) in Q. unfold record_equal_name, record_hash_name in Q. rewrite !last_append in Q. discriminate.
      + apply append_right in Q. rewrite Q. reflexivity.
  Qed.

  (** ** The compiler's records *)
  Lemma record_source r fts : lookup R r = Some fts -> prefix "hir:" r = false.
  Proof. intros H. destruct (record_definition r fts H) as (d & Hd & -> & _). apply (pf_records f C p PF d Hd). Qed.

  Lemma compiler_record_fun r ts us : compiler_record r ts -> compiler_record r us -> ts = us.
  Proof.
    assert (G : forall l (ms : list mtype), Forall2 (fun ft m => lowers E C (snd ft) m) l ms ->
      forall ms', Forall2 (fun (ft : string * ty) m => lowers E C (snd ft) m) l ms' -> ms = ms').
    { intros l ms F. induction F as [|x m l ms Hm _ IH]; intros ms' F'; inversion F' as [|? m' ? ? Hm' F'']; subst; [reflexivity|].
      f_equal; [eapply lowers_fun; eassumption|apply IH, F'']. }
    intros Ht Hu. destruct Ht as [r fts ms Hl F| | |a s i m Hi L|e i Hi|k v i j Hi Hj]; inversion Hu as [r' fts' ms' Hl' F' Q|Q|Q|a' s' i' m' Hi' L' Q|e' i' Hi' Q|k' v' i' j' Hi' Hj' Q]; subst; try reflexivity;
      try (exfalso; match goal with H : lookup R _ = Some _ |- _ => apply record_source in H; discriminate end).
    - rewrite Hl in Hl'. injection Hl' as <-. eapply G; eassumption.
    - f_equal. destruct Hi as [n Hi]. destruct Hi' as [n' Hi']. apply identifier_canon in Hi, Hi'.
      destruct Hi as (c & x & Hc & Hx & Q). destruct Hi' as (d & y & Hd & Hy & Q'). subst i. apply (cf_hash C CF) in Q'. subst y.
      destruct (lowers_at E C _ _ _ L Hc) as [L1 P1]. destruct (lowers_at E C _ _ _ L' Hd) as [L2 P2].
      pose proof (same_id_lower C c d x P1 P2 Hx Hy) as Q. congruence.
  Qed.

  Lemma config_fine : config_ok E R C.
  Proof.
    constructor.
    - intros x Hx. pose proof (pf_prelude_types f C p PF x Hx) as H. apply in_map_iff in H. destruct H as (d & <- & Hd). split; [|apply record_plain, Hd].
      exists (td_original (t_def d)). exact (record_type d Hd).
    - intros x t H. apply compiler_name_cases in H. destruct H as [H|[H|[(a & i & Ha & -> & _)|(d & Hd & H)]]].
      + apply prelude_source in H. apply H.
      + apply private_names in H. cbn in H. destruct H as [<-|[<-|[<-|[]]]]; split; discriminate || reflexivity.
      + cbn in Ha. repeat (destruct Ha as [Ha|Ha]; [injection Ha as <- <-; split; [discriminate|reflexivity]|]). destruct Ha.
      + destruct (pf_records f C p PF d Hd) as [_ N]. destruct H as [[-> _]|[-> _]]; unfold record_equal_name, record_hash_name;
          destruct (record_name d) as [|c r]; cbn [prefix append] in N |- *; (split; [discriminate|]); try reflexivity; cbn [prefix append]; (destruct (ascii_dec "$" c); [destruct r; discriminate|reflexivity]).
    - intros x t Hx H. apply compiler_name_cases in H. assert (Hh : prefix "hir:" x = true) by (cbn in Hx; destruct Hx as [<-|[<-|[]]]; reflexivity).
      destruct H as [H|[H|[(a & i & Ha & Q & Ni)|(d & Hd & H)]]].
      + apply prelude_source in H. destruct H as (_ & N & _). congruence.
      + apply private_names in H. cbn in H. destruct H as [<-|[<-|[<-|[]]]]; discriminate.
      + cbn in Ha. cbn in Hx. destruct Hx as [<-|[<-|[]]];
          repeat (destruct Ha as [Ha|Ha]; [injection Ha as <- <-; cbn in Q; try discriminate; injection Q as Q; congruence|]); destruct Ha.
      + rewrite (record_function_not_hir d) in Hh; [discriminate|exact Hd|tauto].
    - intros r fts H. destruct (record_definition r fts H) as (d & Hd & -> & ->). exact (pf_fields f C p PF d Hd).
    - intros r fts H. destruct (record_definition r fts H) as (d & Hd & -> & ->). split; [apply record_plain, Hd|].
      intros x t Hx. apply type_proper. eapply ti_field; eassumption.
  Qed.
End Names.
