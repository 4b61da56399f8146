(** Properties of rendered HTML: C37. *)
From Coq Require Import String Ascii List ZArith Bool.
From Verif Require Import Base PkgBytesSpec Utf8 PkgUtf8Proofs PkgHtml PkgHtmlSpec PkgHtmlProofs.
Import ListNotations.
Local Open Scope string_scope.

(** *** C37: rendered HTML keeps text as text *)
(** A browser that reads the output sees the tags and attributes of the nodes, and
    their texts and values byte by byte; nothing else.  Missing: tags that start with a
    hyphen, tags whose content browsers do not read as HTML, and strings that are not
    UTF-8, for all of which it is false. *)
Theorem html_keeps_text_partial : forall n s, all_reasonable n -> all_utf8 n -> all_ordinary n ->
  render n = Ok s -> tokens s = Some (meaning n).
Proof. intros n s R U O H. unfold tokens. rewrite (render_meaning n s H R U O). reflexivity. Qed.
Print Assumptions html_keeps_text_partial.

(** Rendering fails with an error exactly if a name is not made of small letters and hyphens. *)
Theorem html_rejects_names : forall n, all_reasonable n ->
  (all_named n -> exists s, render n = Ok s) /\ (~ all_named n -> exists e, render n = NotFound e).
Proof.
  intros n R. pose proof (render_status n R) as H. destruct (render n); split; intros K; try tauto; eexists; reflexivity.
Qed.
Print Assumptions html_rejects_names.

Definition html_node : node :=
  Element "ul" [("class", "a"" onclick=""b"); ("title", "'<&'")]
    [Element "li" [] [Text "</li><script>&amp;"; Element "br" [] []]; Text ("caf" ++ encode 0xE9)].
Example html_case : all_reasonable html_node /\ all_utf8 html_node /\ all_ordinary html_node /\ all_named html_node /\
  render html_node = Ok ("<ul class=""a&quot; onclick=&quot;b""title=""&#x27;&lt;&amp;&#x27;""><li>&lt;/li&gt;&lt;script&gt;&amp;amp;<br/></li>caf" ++ encode 0xE9 ++ "</ul>").
Proof.
  assert (A : forall s, forallb (fun c => (nat_of_ascii c <? 128)%nat) (list_ascii_of_string s) = true -> utf8 s).
  { induction s as [|c s IH]; cbn [list_ascii_of_string forallb]; intros H; [exists []; split; [constructor|reflexivity]|].
    apply andb_true_iff in H as (Hc & H). destruct (IH H) as (cs & C & ->). exists (PkgUtf8.byte c :: cs).
    assert (L : (PkgUtf8.byte c < 128)%Z) by (clear -Hc; destruct c as [[] [] [] [] [] [] [] []]; vm_compute in *; reflexivity || discriminate).
    destruct (encode_one c L) as (Sc & E). split; [constructor; assumption|]. cbn [text]. rewrite E. reflexivity. }
  assert (U : utf8 ("caf" ++ encode 0xE9)) by (exists [99; 97; 102; 0xE9]%Z; split; [repeat constructor|vm_compute; reflexivity]).
  assert (Q : forall A B C D F : Prop, F -> (A /\ B /\ C /\ D) -> A /\ B /\ C /\ D /\ F) by tauto. apply Q; clear Q; [vm_compute; reflexivity|].
  repeat split; cbn; lazymatch goal with |- utf8 (String "c" _) => exact U | |- utf8 _ => apply A; reflexivity | |- reasonable _ => vm_compute; reflexivity | |- _ = _ => try reflexivity | |- _ => try discriminate end.
  - intros k v [I|[I|[]]]; injection I as <- <-; vm_compute; reflexivity.
  - intros k v [].
  - intros k v [].
  - intros k v [I|[I|[]]]; injection I as <- <-; apply A; reflexivity.
  - intros k v [].
  - intros k v [].
  - exists "u"%char, "l". split; reflexivity.
  - intros H. repeat destruct H as [H|H]; try discriminate; exact H.
  - exists "l"%char, "i". split; reflexivity.
  - intros H. repeat destruct H as [H|H]; try discriminate; exact H.
  - exists "b"%char, "r". split; reflexivity.
  - intros H. repeat destruct H as [H|H]; try discriminate; exact H.
  - destruct H as [I|[I|[]]]; injection I as <- <-; discriminate.
  - destruct H as [I|[I|[]]]; injection I as <- <-; reflexivity.
  - destruct H.
  - destruct H.
  - destruct H.
  - destruct H.
Qed.

(** A tag that starts with a hyphen is accepted, and read as text. *)
Theorem html_hyphen_tag_refuted : exists n s, all_named n /\ all_utf8 n /\ render n = Ok s /\
  tokens s = Some (map Character (list_ascii_of_string "<-a/>")).
Proof.
  exists (Element "-a" [] []), "<-a/>". split; [|split; [|split; vm_compute; reflexivity]].
  - split; [split; [discriminate|reflexivity]|]. split; [intros k v []|exact I].
  - split; [intros k v []|exact I].
Qed.
Print Assumptions html_hyphen_tag_refuted.

(** The text of a style sheet is changed. *)
Theorem html_style_refuted : exists n s, all_named n /\ all_utf8 n /\ render n = Ok s /\
  meaning n = Open "style" [] false :: map Character (list_ascii_of_string "a>b{}") ++ [Close "style"] /\
  tokens s = Some (Open "style" [] false :: map Character (list_ascii_of_string "a&gt;b{}") ++ [Close "style"]).
Proof.
  exists (Element "style" [] [Text "a>b{}"]), "<style>a&gt;b{}</style>". split; [|split; [|split; [|split]; vm_compute; reflexivity]].
  - split; [split; [discriminate|reflexivity]|]. split; [intros k v []|split; exact I].
  - split; [intros k v []|]. split; [|exact I]. exists [97; 62; 98; 123; 125]%Z. split; [repeat constructor|vm_compute; reflexivity].
Qed.
Print Assumptions html_style_refuted.

(** Text that is not UTF-8 disappears without an error. *)
Theorem html_invalid_text_refuted : exists s, s <> "" /\ render (Text s) = Ok "".
Proof. exists ("caf" ++ String "233"%char ""). split; [discriminate|]. vm_compute. reflexivity. Qed.
Print Assumptions html_invalid_text_refuted.

(** Headings cannot be rendered. *)
Theorem html_heading_refuted : exists e, render (Element "h1" [] [Text "Title"]) = NotFound e.
Proof. eexists. vm_compute. reflexivity. Qed.
Print Assumptions html_heading_refuted.
