From Coq Require Import String Ascii List ZArith Bool Lia.
From Coq Require Import Floats.SpecFloat.
From Verif Require Import Base Float FloatProofs PkgBytes PkgBytesSpec PkgBytesProofs Utf8 PkgUtf8 PkgUtf8Spec PkgUtf8Proofs PkgHtml PkgHtmlSpec.
Import ListNotations.
Local Open Scope string_scope.

Section NodeInd.
  Variable P : node -> Prop.
  Hypothesis Ht : forall s, P (Text s).
  Hypothesis He : forall tag ats ns, Forall P ns -> P (Element tag ats ns).
  Fixpoint node_ind' (n : node) : P n :=
    match n with
    | Text s => Ht s
    | Element tag ats ns => He tag ats ns ((fix go ns := match ns return Forall P ns with [] => Forall_nil P | n :: ns => Forall_cons n (node_ind' n) (go ns) end) ns)
    end.
End NodeInd.

(** *** Names *)
Definition name_strings : list string := "-" :: map (fun n => String (ascii_of_nat n) "") (seq 97 26).
Lemma valid_characters_eq : valid_characters = Ok name_strings.
Proof. vm_compute. reflexivity. Qed.

Lemma any_starts v t cs : shows v t -> any (map (view_starts_with v) cs) = Ok (existsb (fun c => prefix c t) cs).
Proof.
  intros S. induction cs as [|c cs IH]; [reflexivity|]. cbn [map any existsb]. rewrite (shows_prefix _ _ _ S). cbn [bind]. destruct (prefix c t); [reflexivity|exact IH].
Qed.
Lemma starts_name c t : existsb (fun p => prefix p (String c t)) name_strings = name_character c.
Proof. destruct c as [[] [] [] [] [] [] [] []], t; vm_compute; reflexivity. Qed.

Lemma shows_seek v c t : shows v (String c t) -> shows (view_seek v (of_int 1)) t.
Proof.
  intros S. pose proof (small_room _ _ S) as R. unfold reasonable in R. cbn [String.length] in R.
  pose proof (shows_slice v (String c t) (of_int 2) infinity 2 (2 ^ 52) S) as H.
  unfold view_seek. rewrite add_exact by (unfold small; lia). change (1 + 1)%Z with 2%Z.
  replace t with (select (fun j => (2 <=? j) && (j <=? 2 ^ 52))%Z 1 (String c t)); [apply H|].
  - left. split; [reflexivity|lia].
  - lia.
  - right. split; [reflexivity|lia].
  - cbn [select]. change ((2 <=? 1) && (1 <=? 2 ^ 52))%Z with false. cbn iota. change (1 + 1)%Z with 2%Z.
    assert (G : forall u i, (2 <= i)%Z -> (i + size u <= 2 ^ 52)%Z -> select (fun j => (2 <=? j) && (j <=? 2 ^ 52))%Z i u = u).
    { induction u as [|d u IH]; intros i L M; [reflexivity|]. unfold size in M. cbn [String.length select] in *.
      destruct (Z.leb_spec 2 i); [|lia]. destruct (Z.leb_spec i (2 ^ 52)); [|lia]. cbn [andb]. f_equal. apply IH; [lia|]. unfold size. lia. }
    apply G; [lia|]. unfold size. lia.
Qed.

Lemma name_view_spec : forall fuel v t, shows v t -> (String.length t < fuel)%nat ->
  name_view fuel v = Ok (forallb name_character (list_ascii_of_string t)).
Proof.
  induction fuel as [|fuel IH]; intros v t S L; [lia|]. cbn [name_view]. pose proof (small_room _ _ S) as R. unfold reasonable in R.
  rewrite (shows_length _ _ S). rewrite equal_exact by (unfold small, size; lia).
  destruct t as [|c t]; [reflexivity|]. replace (size (String c t) =? 0)%Z with false by (unfold size; cbn [String.length]; symmetry; apply Z.eqb_neq; lia).
  rewrite valid_characters_eq. cbn [bind]. rewrite (any_starts _ _ _ S), starts_name. cbn [bind list_ascii_of_string forallb].
  destruct (name_character c); [|reflexivity]. cbn [andb]. apply IH; [apply shows_seek with c; exact S|cbn [String.length] in L; lia].
Qed.

Lemma name_spec s : reasonable s -> name s = Ok (negb (String.eqb s "") && forallb name_character (list_ascii_of_string s)).
Proof.
  intros R. unfold name. destruct s as [|c s]; [reflexivity|].
  assert (E : equal (utf8_length (String c s)) (of_int 0) = false).
  { unfold utf8_length. destruct (chars (String c s)) as [l|] eqn:C; [|reflexivity]. apply chars_sound in C as (cs & O & E & ->).
    pose proof (text_length cs O) as L. rewrite <- E in L. unfold reasonable in R. unfold size in L. unfold count. rewrite map_length.
    rewrite equal_exact by (unfold small; lia). apply Z.eqb_neq. destruct cs; [discriminate|]. cbn [List.length]. lia. }
  rewrite E. cbn [negb]. rewrite (name_view_spec _ _ (String c s)); [reflexivity|apply shows_new; exact R|lia].
Qed.
Lemma name_true s : reasonable s -> (named s -> name s = Ok true) /\ (~ named s -> name s = Ok false).
Proof.
  intros R. rewrite name_spec by exact R. unfold named. destruct (String.eqb_spec s "") as [->|N]; cbn [negb andb].
  - split; [intros [[] _]; reflexivity|reflexivity].
  - destruct (forallb _ _); split; try reflexivity; [intros H; destruct H; split; [exact N|reflexivity]|intros [_ H]; discriminate].
Qed.

(** *** Rendering succeeds exactly for valid names *)
Lemma attributes_ok ats : (forall k v, In (k, v) ats -> reasonable k) ->
  match render_attributes ats with
  | Ok _ => forall k v, In (k, v) ats -> named k
  | NotFound _ => ~ (forall k v, In (k, v) ats -> named k)
  | _ => False
  end.
Proof.
  induction ats as [|(k, v) ats IH]; intros R; cbn [render_attributes]; [intros ? ? []|].
  destruct (name_true k (R k v (or_introl eq_refl))) as (T & F). rewrite name_spec in * by apply (R k v (or_introl eq_refl)). cbn [bind].
  destruct (negb (String.eqb k "") && forallb name_character (list_ascii_of_string k)) eqn:E; cbn [bind].
  - assert (K : named k).
    { apply andb_true_iff in E as (E1 & E2). split; [|exact E2]. intros ->. discriminate. }
    specialize (IH (fun k' v' I => R k' v' (or_intror I))). destruct (render_attributes ats); cbn [bind]; try exact IH.
    + intros k' v' [I|I]; [injection I as <- <-; exact K|exact (IH k' v' I)].
    + intros H. apply IH. intros k' v' I. exact (H k' v' (or_intror I)).
  - intros H. specialize (T (H k v (or_introl eq_refl))). discriminate.
Qed.

Lemma mapM_status {A B} (f : A -> res B) (P Q : A -> Prop) l :
  Forall (fun x => Q x -> match f x with Ok _ => P x | NotFound _ => ~ P x | _ => False end) l -> fold_right (fun x R => Q x /\ R) True l ->
  match mapM f l with
  | Ok _ => fold_right (fun x R => P x /\ R) True l
  | NotFound _ => ~ fold_right (fun x R => P x /\ R) True l
  | _ => False
  end.
Proof.
  induction 1 as [|x l H _ IH]; cbn [mapM fold_right]; [tauto|]. intros (q & qs). specialize (H q). specialize (IH qs).
  destruct (f x); cbn [bind]; try tauto. destruct (mapM f l); cbn [bind]; tauto.
Qed.

Lemma render_status n : all_reasonable n ->
  match render n with
  | Ok _ => all_named n
  | NotFound _ => ~ all_named n
  | _ => False
  end.
Proof.
  induction n as [s|tag ats ns IH] using node_ind'; [intros _; exact I|]. cbn [all_reasonable all_named render]. intros (Rt & Ra & Rn).
  pose proof (attributes_ok ats Ra) as A. destruct (render_attributes ats); cbn [bind]; try tauto.
  pose proof (mapM_status render all_named all_reasonable ns IH Rn) as M.
  assert (G : match match ns with [] => Ok ["/>"] | _ => bind (mapM render ns) (fun ns => Ok ([">"] ++ ns ++ ["</"; tag; ">"])%list) end with
    | Ok _ => fold_right (fun x R => all_named x /\ R) True ns
    | NotFound _ => ~ fold_right (fun x R => all_named x /\ R) True ns
    | _ => False end).
  { destruct ns; [exact I|]. destruct (mapM render (n :: ns)); exact M. }
  destruct (match ns with [] => Ok ["/>"] | _ => bind (mapM render ns) (fun ns => Ok ([">"] ++ ns ++ ["</"; tag; ">"])%list) end); cbn [bind]; try tauto.
  destruct (name_true tag Rt) as (T & F). rewrite name_spec in * by exact Rt. cbn [bind].
  destruct (negb (String.eqb tag "") && forallb name_character (list_ascii_of_string tag)) eqn:E; cbn [bind].
  - split; [|tauto]. apply andb_true_iff in E as (E1 & E2). split; [|exact E2]. intros ->. discriminate.
  - intros (K & _). specialize (T K). discriminate.
Qed.

(** *** Reading the output *)
Lemma run_app st s ts st' t : run st s = Some (ts, st') ->
  run st (s ++ t) = match run st' t with Some (us, st'') => Some ((ts ++ us)%list, st'') | None => None end.
Proof.
  revert st ts. induction s as [|c s IH]; intros st ts H; cbn [run append] in *.
  - injection H as <- <-. cbn [app]. destruct (run st t) as [(us, st')|]; reflexivity.
  - destruct (step st c) as [(ts1, st1)|]; [|discriminate]. destruct (run st1 s) as [(us, st2)|] eqn:E; [|discriminate]. injection H as <- <-.
    rewrite (IH _ _ E). destruct (run st2 t) as [(vs, st3)|]; [|reflexivity]. rewrite List.app_assoc. reflexivity.
Qed.
Lemma run_seq st s ts st' t us st'' : run st s = Some (ts, st') -> run st' t = Some (us, st'') -> run st (s ++ t) = Some ((ts ++ us)%list, st'').
Proof. intros H K. rewrite (run_app _ _ _ _ _ H), K. reflexivity. Qed.

Lemma run_text s : run Data (escape escape_text s) = Some (map Character (list_ascii_of_string s), Data).
Proof.
  induction s as [|c s IH]; [reflexivity|]. cbn [escape list_ascii_of_string map].
  change (Character c :: map Character (list_ascii_of_string s)) with ([Character c] ++ map Character (list_ascii_of_string s))%list.
  apply run_seq with Data; [|exact IH]. clear. destruct c as [[] [] [] [] [] [] [] []]; reflexivity.
Qed.
Lemma snoc_app v c s : snoc v c ++ s = v ++ String c s.
Proof. unfold snoc. apply app_assoc. Qed.
Lemma run_value tag ats k s : forall v, run (Value tag ats k v) (escape escape_attribute s) = Some ([], Value tag ats k (v ++ s)).
Proof.
  induction s as [|c s IH]; intros v; [rewrite app_nil; reflexivity|]. cbn [escape]. rewrite <- snoc_app.
  change (@nil token) with ([] ++ [] : list token)%list. apply run_seq with (Value tag ats k (snoc v c)); [|apply IH].
  clear. destruct c as [[] [] [] [] [] [] [] []]; reflexivity.
Qed.

Lemma name_character_facts c : name_character c = true -> space c = false /\ is "/" c = false /\ is ">" c = false /\ is "=" c = false /\ letter c || is "-" c = true.
Proof. destruct c as [[] [] [] [] [] [] [] []]; vm_compute; try discriminate; repeat split; reflexivity. Qed.

Definition names (s : string) : Prop := forallb name_character (list_ascii_of_string s) = true.
Lemma run_tag_name s : names s -> forall x, run (TagName x) s = Some ([], TagName (x ++ s)).
Proof.
  unfold names. induction s as [|c s IH]; intros H x; [rewrite app_nil; reflexivity|]. cbn [list_ascii_of_string forallb] in H. apply andb_true_iff in H as (Hc & H).
  destruct (name_character_facts c Hc) as (A & B & C & _). cbn [run step]. rewrite A, B, C, IH by exact H. rewrite snoc_app. reflexivity.
Qed.
Lemma run_end_name s : names s -> forall x, run (EndTagName x) s = Some ([], EndTagName (x ++ s)).
Proof.
  unfold names. induction s as [|c s IH]; intros H x; [rewrite app_nil; reflexivity|]. cbn [list_ascii_of_string forallb] in H. apply andb_true_iff in H as (Hc & H).
  destruct (name_character_facts c Hc) as (A & B & C & _). cbn [run step]. rewrite A, B, C. cbn [orb]. rewrite IH by exact H. rewrite snoc_app. reflexivity.
Qed.
Lemma run_name tag ats s : names s -> forall x, run (Name tag ats x) s = Some ([], Name tag ats (x ++ s)).
Proof.
  unfold names. induction s as [|c s IH]; intros H x; [rewrite app_nil; reflexivity|]. cbn [list_ascii_of_string forallb] in H. apply andb_true_iff in H as (Hc & H).
  destruct (name_character_facts c Hc) as (A & B & C & D & E). cbn [run step]. rewrite D, E, IH by exact H. rewrite snoc_app. reflexivity.
Qed.

Lemma concatenate_cons x l : concatenate (x :: l) = x ++ concatenate l.
Proof. unfold concatenate. destruct l; [symmetry; apply app_nil|]. rewrite join_cons by discriminate. reflexivity. Qed.
Lemma concatenate_app l k : concatenate (l ++ k) = concatenate l ++ concatenate k.
Proof. induction l as [|x l IH]; [reflexivity|]. cbn [app]. rewrite !concatenate_cons, IH, app_assoc. reflexivity. Qed.

Lemma utf8_valid s : utf8 s -> valid_or_default s = s.
Proof. intros (cs & C & ->). unfold valid_or_default. rewrite chars_text by exact C. reflexivity. Qed.

Lemma run_attribute tag ats k v st : named k -> utf8 v -> st = BeforeName tag ats \/ st = AfterValue tag ats ->
  run st (concatenate [k; "="""; encode_attribute v; """"]) = Some ([], AfterValue tag (ats ++ [(k, v)])%list).
Proof.
  intros (NE & N) U S. destruct k as [|c k]; [congruence|]. cbn [list_ascii_of_string forallb] in N. apply andb_true_iff in N as (Hc & N).
  destruct (name_character_facts c Hc) as (A & B & C & D & E).
  assert (H : step st c = Some ([], Name tag ats (String c ""))) by (destruct S as [-> | ->]; cbn [step]; unfold before_name; rewrite A, B, C, E; reflexivity).
  rewrite !concatenate_cons. unfold encode_attribute. rewrite utf8_valid by exact U. cbn [append run]. rewrite H.
  rewrite (run_app _ _ _ _ _ (run_name tag ats k N (String c ""))). cbn [run step append is Ascii.eqb]. cbn.
  rewrite (run_app _ _ _ _ _ (run_value tag ats (String c k) v "")). cbn. reflexivity.
Qed.
Lemma run_attributes tag ats ss : forall ats0 st, render_attributes ats = Ok ss -> (forall k v, In (k, v) ats -> reasonable k /\ utf8 v) -> ats <> [] ->
  st = BeforeName tag ats0 \/ st = AfterValue tag ats0 ->
  ss <> [] /\ run st (concatenate ss) = Some ([], AfterValue tag (ats0 ++ ats)%list).
Proof.
  revert ss. induction ats as [|(k, v) ats IH]; intros ss ats0 st H G NE S; [congruence|]. cbn [render_attributes] in H.
  destruct (G k v (or_introl eq_refl)) as (R & U). destruct (name_true k R) as (_ & F).
  assert (K : named k).
  { rewrite name_spec in * by exact R. cbn [bind] in H. destruct (negb (String.eqb k "") && forallb name_character (list_ascii_of_string k)) eqn:E; [|discriminate].
    apply andb_true_iff in E as (E1 & E2). split; [|exact E2]. intros ->. discriminate. }
  rewrite (proj1 (name_true k R) K) in H. cbn [bind] in H. destruct (render_attributes ats) as [rs| | |] eqn:Er; try discriminate. cbn [bind] in H. injection H as <-.
  split; [discriminate|]. change (k :: "=""" :: encode_attribute v :: """" :: rs) with ([k; "="""; encode_attribute v; """"] ++ rs)%list.
  rewrite concatenate_app, (run_app _ _ _ _ _ (run_attribute tag ats0 k v st K U S)).
  destruct ats as [|(k', v') ats].
  - cbn in Er. injection Er as <-. reflexivity.
  - destruct (IH rs (ats0 ++ [(k, v)])%list (AfterValue tag (ats0 ++ [(k, v)])) eq_refl (fun k' v' I => G k' v' (or_intror I)) ltac:(discriminate) (or_intror eq_refl)) as (_ & ->).
    cbn [app]. rewrite <- List.app_assoc. reflexivity.
Qed.

Lemma open_ordinary tag ats b : ~ In tag (raw_tags ++ other_tags) -> open tag ats b = Some ([Open tag ats b], Data).
Proof.
  intros N. unfold open. assert (F : forall l, ~ In tag l -> contains l tag = false).
  { intros l H. unfold contains. destruct (existsb (String.eqb tag) l) eqn:E; [|reflexivity]. apply existsb_exists in E as (x & I & E). apply String.eqb_eq in E as ->. destruct (H I). }
  rewrite !F by (intros I; apply N, in_or_app; auto). reflexivity.
Qed.

Lemma run_children ns ss : Forall (fun n => forall s, render n = Ok s -> all_reasonable n -> all_utf8 n -> all_ordinary n -> run Data s = Some (meaning n, Data)) ns ->
  mapM render ns = Ok ss -> fold_right (fun n P => all_reasonable n /\ P) True ns -> fold_right (fun n P => all_utf8 n /\ P) True ns ->
  fold_right (fun n P => all_ordinary n /\ P) True ns -> run Data (concatenate ss) = Some (flat_map meaning ns, Data).
Proof.
  intros H. revert ss. induction H as [|n ns H _ IH]; intros ss M R U O; cbn [mapM fold_right] in *.
  - injection M as <-. reflexivity.
  - destruct (render n) as [s| | |] eqn:E; try discriminate. cbn [bind] in M. destruct (mapM render ns) as [ts| | |] eqn:Es; try discriminate. cbn [bind] in M. injection M as <-.
    rewrite concatenate_cons. cbn [flat_map]. apply run_seq with Data; [apply H; tauto|apply IH; tauto].
Qed.

Lemma render_meaning n : forall s, render n = Ok s -> all_reasonable n -> all_utf8 n -> all_ordinary n -> run Data s = Some (meaning n, Data).
Proof.
  induction n as [s|tag ats ns IH] using node_ind'; intros s' H R U O.
  - cbn in *. injection H as <-. unfold encode_text. rewrite utf8_valid by exact U. apply run_text.
  - pose proof (render_status _ R) as Nm. rewrite H in Nm. cbn [all_named] in Nm. destruct Nm as (Nt & Na & Nn).
    cbn [all_reasonable all_utf8 all_ordinary] in *. destruct R as (Rt & Ra & Rn), U as (Ua & Un), O as ((c & t & Et & Lc) & Ot & On).
    cbn [render] in H. destruct (render_attributes ats) as [rs| | |] eqn:Ea; try discriminate. cbn [bind] in H.
    rewrite (proj1 (name_true tag Rt) Nt) in H.
    set (children := match ns with [] => Ok ["/>"] | _ => bind (mapM render ns) (fun ns => Ok ([">"] ++ ns ++ ["</"; tag; ">"])%list) end) in H.
    destruct children as [cs| | |] eqn:Ec; try discriminate. cbn [bind] in H. injection H as <-.
    destruct Nt as (_ & Nt). pose proof Nt as Nt'. rewrite Et in Nt'. cbn [list_ascii_of_string forallb] in Nt'. apply andb_true_iff in Nt' as (Hc & Nt').
    assert (sl : is "/" c = false) by (destruct (name_character_facts c Hc); tauto).
    (* the end, from the state after the attributes *)
    assert (E : forall st, (forall d, d = "/"%char \/ d = ">"%char -> step st d = before_name tag ats d) -> run st (concatenate cs) = Some (meaning (Element tag ats ns), Data)).
    { intros st S. unfold children in Ec. destruct ns as [|n ns].
      - injection Ec as <-. change (concatenate ["/>"]) with "/>". cbn [run]. rewrite S by auto.
        change (before_name tag ats "/"%char) with (Some ([] : list token, SelfClosing tag ats)). cbn iota.
        change (step (SelfClosing tag ats) ">"%char) with (open tag ats true). rewrite open_ordinary by exact Ot. reflexivity.
      - destruct (mapM render (n :: ns)) as [ss| | |] eqn:Em; try discriminate. cbn [bind] in Ec. injection Ec as <-.
        rewrite concatenate_cons, concatenate_app. cbn [append run]. rewrite S by auto.
        change (before_name tag ats ">"%char) with (open tag ats false). rewrite open_ordinary by exact Ot.
        rewrite (run_app _ _ _ _ _ (run_children _ _ IH Em Rn Un On)). rewrite !concatenate_cons. rewrite Et at 1. cbn [append run step is Ascii.eqb Bool.eqb].
        rewrite Lc. cbn. rewrite (run_app _ _ _ _ _ (run_end_name t Nt' (String c ""))). cbn. rewrite <- Et. reflexivity. }
    cbn [app]. rewrite !concatenate_cons. cbn [append run step is Ascii.eqb Bool.eqb]. rewrite Et at 1. cbn [append run step]. rewrite sl, Lc.
    rewrite (run_app _ _ _ _ _ (run_tag_name t Nt' (String c ""))). cbn [append app]. rewrite <- Et.
    rewrite concatenate_app. destruct ats as [|(k, v) ats].
    + cbn in Ea. injection Ea as <-. cbn [append concatenate join String.concat]. rewrite E; [reflexivity|].
      intros d [-> | ->]; reflexivity.
    + destruct (run_attributes tag ((k, v) :: ats) rs [] (BeforeName tag []) Ea) as (NE & Ra'); [intros k' v' I; split; [eapply Ra|eapply Ua]; exact I|discriminate|left; reflexivity|].
      destruct rs as [|r rs]; [congruence|]. rewrite concatenate_cons. cbn [append run step].
      change (space " ") with true. cbn iota. rewrite (run_app _ _ _ _ _ Ra'). rewrite E; [reflexivity|]. intros d _. reflexivity.
Qed.
