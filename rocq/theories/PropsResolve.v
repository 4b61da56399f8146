(** C54 and C55: what names refer to, and what modules can use of each other. *)
From Coq Require Import String Ascii List Bool ZArith.
From Verif Require Import Base HirType HirTypeSpec Hir HirSpec HirParts HirMain LowerTypeSpec PropsHir Resolve ResolveSpec ResolveProofs ResolveUse.
Import ListNotations.
Local Open Scope string_scope.
Local Open Scope list_scope.

(** ** C54: every name is resolved by its scope *)

(** Each variable and type name of a compiled module is replaced by what it
    refers to: variables bound around it first, then functions of the module,
    imported ones and built-in ones.  Nothing else changes. *)
Theorem names_resolved m prefix is prelude m' :
  resolve_module m prefix is prelude = Ok m' ->
  written_module m -> clear_imports m is prelude -> mangled prefix ->
  Forall2 (function_resolved prefix m is) (rm_functions m) (rm_functions m') /\
  Forall2 (foreign_resolved prefix m is) (rm_foreign m) (rm_foreign m') /\
  (exists outer types, rm_types m' = outer ++ types /\ (forall d, In d outer -> rt_external d = true) /\ Forall2 (record_resolved prefix m is) (rm_types m) types) /\
  (exists outer aliases, rm_aliases m' = outer ++ aliases /\ (forall a, In a outer -> ra_external a = true) /\ Forall2 (alias_resolved prefix m is) (rm_aliases m) aliases).
Proof.
  intros HR HW HI HP. destruct (module_resolved prefix m is prelude HW HI HP) as (F & G & (ts & T1 & T2) & (als & A1 & A2)). rewrite <- (resolve_is prefix m is prelude m' HR) in *.
  split; [exact F|]. split; [exact G|]. split.
  - exists (outer_types is prelude), ts. split; [exact T1|]. split; [|exact T2]. intros d Hd. apply (outer_type m is prelude HI) in Hd. tauto.
  - exists (outer_aliases is prelude), als. split; [exact A1|]. split; [|exact A2]. intros d Hd. apply (outer_alias m is prelude HI) in Hd. tauto.
Qed.
Print Assumptions names_resolved.

(** Names refer to one thing at most unless two imports go by the same name. *)
Theorem reference_unique m prefix is S x :
  ((forall y z, imported_function is x y -> imported_function is x z -> y = z) -> forall e e', refers prefix m is S x e -> refers prefix m is S x e' -> e = e') /\
  ((forall y z, imported_type is x y -> imported_type is x z -> y = z) -> forall t t', type_refers prefix m is x t -> type_refers prefix m is x t' -> t = t').
Proof.
  split.
  - intros U e e' H H'. destruct H, H'; try reflexivity; try contradiction; try congruence; try (f_equal; eauto; fail); exfalso; match goal with X : forall y, ~ _, Y : _ |- _ => exact (X _ Y) end.
  - intros U e e' H H'. destruct H, H'; try reflexivity; try contradiction; try congruence; try (f_equal; eauto; fail); exfalso; match goal with X : forall y, ~ _, Y : _ |- _ => exact (X _ Y) end.
Qed.
Print Assumptions reference_unique.

(** Unqualified names of an import exist in the imported module. *)
Theorem unqualified_names_exist m prefix is prelude m' i x :
  resolve_module m prefix is prelude = Ok m' -> In i is -> In x (im_unqualified i) ->
  (exists d, In d (i_functions (im_interface i)) /\ if_original d = x) \/ (exists d, In d (i_types (im_interface i)) /\ it_original d = x) \/
  (exists a, In a (i_aliases (im_interface i)) /\ ia_original a = x).
Proof.
  unfold resolve_module. destruct (forallb validate is) eqn:V; [|discriminate]. intros _ Hi Hx. rewrite forallb_forall in V. specialize (V i Hi). unfold validate in V. rewrite forallb_forall in V.
  specialize (V x Hx). apply mem_In in V. rewrite !in_app_iff, !in_map_iff in V. destruct V as [(d & <- & Hd)|[(d & <- & Hd)|(d & <- & Hd)]]; [right; left|right; right|left]; exists d; auto.
Qed.
Print Assumptions unqualified_names_exist.

(** ** C55: modules use only what others export *)

(** A function that compiled code mentions is one of the module, or a public one
    of an imported module.  The names of all functions have a colon. *)
Theorem only_public_functions m prefix is prelude m' ms d y :
  resolve_module m prefix is prelude = Ok m' ->
  written_module m -> clear_imports m is prelude -> mangled prefix ->
  Forall2 (fun i other => im_interface i = module_interface other) is ms ->
  In d (rm_functions m') -> occurs (HVariable y) (l_body (rd_lambda d)) -> mangled y ->
  (exists x, own_function m x /\ y = (prefix ++ x)%string) \/ (exists other, In other ms /\ offers_function other y).
Proof.
  intros HR HW HI HP HM Hd Ho My. destruct (module_uses prefix m is prelude m' HR HW HI HP d y Hd Ho My) as [H|(x & i & f & Hi & Hf & _ & <-)]; [left; exact H|right].
  clear HR HI. induction HM as [|i0 other is0 ms0 E HM IH]; [destruct Hi|]. destruct Hi as [->|Hi].
  - exists other. split; [left; reflexivity|]. rewrite E in Hf. apply interface_function, Hf.
  - destruct (IH Hi) as (o & Hin & Hoff). exists o. split; [right; exact Hin|exact Hoff].
Qed.
Print Assumptions only_public_functions.

Theorem only_public_types m prefix is prelude m' ms t y :
  resolve_module m prefix is prelude = Ok m' ->
  written_module m -> clear_imports m is prelude -> mangled prefix ->
  Forall2 (fun i other => im_interface i = module_interface other) is ms ->
  mentioned m' t -> In y (references t) -> mangled y ->
  (exists x, own_type m x /\ y = (prefix ++ x)%string) \/ (exists other, In other ms /\ offers_type other y).
Proof.
  intros HR HW HI HP HM Ht Hy My. destruct (module_type_uses prefix m is prelude m' HR HW HI HP t y Ht Hy My) as [H|(x & i & o & Hi & _ & H)]; [left; exact H|right].
  clear HR HI. induction HM as [|i0 other is0 ms0 E HM IH]; [destruct Hi|]. destruct Hi as [->|Hi].
  - exists other. split; [left; reflexivity|]. apply interface_type. rewrite E in H. destruct H as [(d & Hd & P & _ & N)|(d & Hd & P & _ & N)]; [left|right]; exists d; auto.
  - destruct (IH Hi) as (o' & Hin & Hoff). exists o'. split; [right; exact Hin|exact Hoff].
Qed.
Print Assumptions only_public_types.

(** The interface of a compiled module can be imported again: its names all have
    colons. *)
Theorem compiled_interface m prefix is prelude m' :
  resolve_module m prefix is prelude = Ok m' ->
  written_module m -> clear_imports m is prelude -> mangled prefix ->
  (forall d, In d (i_functions (module_interface m')) -> mangled (if_name d)) /\
  (forall d, In d (i_types (module_interface m')) -> mangled (it_name d)) /\ (forall d, In d (i_aliases (module_interface m')) -> mangled (ia_name d)).
Proof. intros HR HW HI HP. exact (interface_mangled prefix m is prelude m' HR HW HI HP). Qed.
Print Assumptions compiled_interface.

(** Functions of modules at different paths never have the same name, whatever
    the modules call them. *)
Theorem modules_do_not_clash p q m1 m2 is1 is2 prelude1 prelude2 m1' m2' d1 d2 :
  resolve_module m1 (p ++ ":") is1 prelude1 = Ok m1' -> resolve_module m2 (q ++ ":") is2 prelude2 = Ok m2' ->
  written_module m1 -> written_module m2 -> clear_imports m1 is1 prelude1 -> clear_imports m2 is2 prelude2 ->
  In d1 (rm_functions m1') -> In d2 (rm_functions m2') -> rd_name d1 = rd_name d2 -> p = q /\ rd_original d1 = rd_original d2.
Proof.
  intros R1 R2 W1 W2 I1 I2 H1 H2 E.
  assert (M : forall s, mangled (s ++ ":")) by (intros s; unfold mangled; rewrite has_char_app; apply orb_true_r).
  destruct (function_names _ _ _ _ _ R1 W1 I1 (M p) d1 H1) as (f1 & F1 & N1 & O1 & _). destruct (function_names _ _ _ _ _ R2 W2 I2 (M q) d2 H2) as (f2 & F2 & N2 & O2 & _).
  rewrite O1, O2. apply (mangled_apart (rd_name f1) (rd_name f2)).
  - apply (wm_functions _ W1). unfold own_function. apply in_or_app. right. apply in_map, F1.
  - apply (wm_functions _ W2). unfold own_function. apply in_or_app. right. apply in_map, F2.
  - assert (A : forall s x, ((s ++ ":") ++ x)%string = (s ++ ":" ++ x)%string) by (induction s as [|c s IH]; intros x; cbn; [reflexivity|]; rewrite IH; reflexivity).
    rewrite <- !A. congruence.
Qed.
Print Assumptions modules_do_not_clash.

(** ** An example *)

(** Deciding that a module is as the parser leaves it *)
Definition plainb (x : string) : bool := negb (has_char ":"%char x).
Fixpoint written_typeb (t : ty) : bool :=
  match t with
  | TReference x => plainb x
  | TFunction a r => forallb written_typeb a && written_typeb r
  | TList e => written_typeb e
  | TMap k v | TUnion k v => written_typeb k && written_typeb v
  | _ => false
  end.
Definition unwritten (e : hexpr) : bool :=
  negb (forallb plainb (bound e) && forallb written_typeb (node_types e) && match e with HVariable x => plainb x | _ => true end).
Definition decided (m : rmodule) : bool :=
  forallb plainb (map rf_name (rm_foreign m) ++ map rd_name (rm_functions m)) && forallb plainb (map rt_name (rm_types m) ++ map ra_name (rm_aliases m)) &&
  forallb (fun d => forallb plainb (map fst (l_arguments (rd_lambda d))) && nowhere 30 unwritten (l_body (rd_lambda d)) && String.eqb (rd_original d) (rd_name d) &&
                    written_typeb (l_result (rd_lambda d)) && forallb (fun a => written_typeb (snd a)) (l_arguments (rd_lambda d))) (rm_functions m) &&
  forallb (fun d => written_typeb (rf_type d)) (rm_foreign m) &&
  forallb (fun d => String.eqb (rt_original d) (rt_name d) && negb (rt_external d) && forallb (fun x => written_typeb (snd x)) (rt_fields d)) (rm_types m) &&
  forallb (fun a => String.eqb (ra_original a) (ra_name a) && negb (ra_external a) && written_typeb (ra_type a)) (rm_aliases m).

Lemma plainb_ok x : plainb x = true -> plain x.
Proof. unfold plainb, plain. apply negb_true_iff. Qed.
Lemma written_typeb_ok t : written_typeb t = true -> written_type t.
Proof.
  induction t as [| | |a r IHa IHr|e IHe|k v IHk IHv| | |n o|x| |l r IHl IHr] using HirTypeOrder.ty_ind'; cbn [written_typeb written_type]; try discriminate; auto.
  - rewrite andb_true_iff. intros [Ha Hr]. split; [|auto]. clear IHr Hr. induction a as [|t a IH]; [exact I|]. cbn [forallb] in Ha. apply andb_true_iff in Ha. destruct Ha as [Ht Ha]. inversion IHa as [|t0 a0 Pt Pa]; subst. split; [exact (Pt Ht)|exact (IH Pa Ha)].
  - rewrite andb_true_iff. intros []. auto.
  - apply plainb_ok.
  - rewrite andb_true_iff. intros []. auto.
Qed.
Lemma decided_ok m : decided m = true -> written_module m.
Proof.
  unfold decided. rewrite !andb_true_iff, !forallb_forall. intros [[[[[H1 H2] H3] H4] H5] H6].
  assert (F : forall d, In d (rm_functions m) -> (forall x, In x (map fst (l_arguments (rd_lambda d))) -> plain x) /\ (forall e, occurs e (l_body (rd_lambda d)) -> unwritten e = false) /\
    rd_original d = rd_name d /\ written_type (l_result (rd_lambda d)) /\ (forall a, In a (l_arguments (rd_lambda d)) -> written_type (snd a))).
  { intros d Hd. specialize (H3 d Hd). cbv beta in H3. rewrite !andb_true_iff, !forallb_forall in H3. destruct H3 as [[[[A B] C] D] E]. repeat split.
    - intros x Hx. apply plainb_ok, A, Hx.
    - intros e He. eapply nowhere_ok; eassumption.
    - apply String.eqb_eq, C.
    - apply written_typeb_ok, D.
    - intros a Ha. apply written_typeb_ok, E, Ha. }
  assert (U : forall e, unwritten e = false -> (forall x, In x (bound e) -> plain x) /\ (forall t, In t (node_types e) -> written_type t) /\ (forall x, e = HVariable x -> plain x)).
  { intros e He. unfold unwritten in He. apply negb_false_iff in He. rewrite !andb_true_iff, !forallb_forall in He. destruct He as [[A B] C]. repeat split.
    - intros x Hx. apply plainb_ok, A, Hx.
    - intros t Ht. apply written_typeb_ok, B, Ht.
    - intros x ->. apply plainb_ok, C. }
  constructor.
  - intros x Hx. apply plainb_ok, H1, Hx.
  - intros x Hx. apply plainb_ok, H2, Hx.
  - intros d Hd. destruct (F d Hd) as (A & B & _). repeat split; [exact A| |].
    + intros e x He. exact (proj1 (U e (B e He)) x).
    + intros x Hx. exact (proj2 (proj2 (U _ (B _ Hx))) x eq_refl).
  - repeat split; intros d Hd; [apply (F d Hd)| |]; [specialize (H5 d Hd); rewrite !andb_true_iff in H5|specialize (H6 d Hd); rewrite !andb_true_iff in H6]; apply String.eqb_eq; tauto.
  - split; intros d Hd; [specialize (H5 d Hd); rewrite !andb_true_iff in H5|specialize (H6 d Hd); rewrite !andb_true_iff in H6]; apply negb_true_iff; tauto.
  - split; [|split; [|split]].
    + intros d Hd. destruct (F d Hd) as (_ & B & _ & C & D). split; [exact C|]. split; [exact D|]. intros e t He. exact (proj1 (proj2 (U e (B e He))) t).
    + intros d Hd. apply written_typeb_ok, H4, Hd.
    + intros d x Hd Hx. specialize (H5 d Hd). rewrite !andb_true_iff, forallb_forall in H5. destruct H5 as [_ H5]. apply written_typeb_ok, H5, Hx.
    + intros a Ha. specialize (H6 a Ha). rewrite !andb_true_iff in H6. destruct H6 as [_ H6]. apply written_typeb_ok, H6.
Qed.

(** [import Shop { total }] and
<<
type pair { a Shop'item, b none }
import foreign log \(number) none
count = \(x number, go Shop'item) number {
  total = total(go, \(count number) number { log(count) })
  size(total) + Shop'vat(x, true)
}
>> *)
Definition shop : rmodule :=
  RModule [RType "/shop.pen:item" "item" [] false true false; RType "/shop.pen:secret" "secret" [] false false false] [] [] []
    [RFunction "/shop.pen:total" "total" (Lambda [] TNumber (HNumber 1)) true; RFunction "/shop.pen:vat" "vat" (Lambda [] TNumber (HNumber 2)) true;
     RFunction "/shop.pen:hidden" "hidden" (Lambda [] TNumber (HNumber 3)) false].
Definition shop_import : import := Import (module_interface shop) "Shop" ["total"].
Definition till : rmodule :=
  RModule [RType "pair" "pair" [("a", TReference "Shop'item"); ("b", TReference "none")] false false false] []
    [RForeign "log" "log" (TFunction [TReference "number"] (TReference "none"))] []
    [RFunction "count" "count" (Lambda [("x", TReference "number"); ("go", TReference "Shop'item")] (TReference "number")
       (HLet (Some "total") None (HCall None (HVariable "total") [HVariable "go"; HLambda [("count", TReference "number")] (TReference "number") (HCall None (HVariable "log") [HVariable "count"])])
         (HBinary (BinAddition None) (HCall None (HVariable "size") [HVariable "total"]) (HCall None (HVariable "Shop'vat") [HVariable "x"; HVariable "true"])))) true].

Example till_resolves :
  written_module till /\ clear_imports till [shop_import] [] /\ mangled "/till.pen:" /\
  Forall2 (fun i other => im_interface i = module_interface other) [shop_import] [shop] /\
  rmap (fun m' => map rd_lambda (rm_functions m')) (resolve_module till "/till.pen:" [shop_import] []) =
  Ok [Lambda [("x", TNumber); ("go", TReference "/shop.pen:item")] TNumber
       (HLet (Some "total") None (HCall None (HVariable "/shop.pen:total") [HVariable "go"; HLambda [("count", TNumber)] TNumber (HCall None (HVariable "/till.pen:log") [HVariable "count"])])
         (HBinary (BinAddition None) (HCall None (HBuiltIn BSize) [HVariable "total"]) (HCall None (HVariable "/shop.pen:vat") [HVariable "x"; HBoolean true])))].
Proof.
  split; [apply decided_ok; vm_compute; reflexivity|]. split; [|split; [reflexivity|split; [repeat constructor|vm_compute; reflexivity]]].
  constructor.
  - intros i d [<-|[]] Hd. cbn in Hd. repeat destruct Hd as [<-|Hd]; try reflexivity. destruct Hd.
  - intros i [<-|[]]. split; intros d Hd; cbn in Hd; repeat destruct Hd as [<-|Hd]; try reflexivity; destruct Hd.
  - intros d y [<-|[]] (i & f & [<-|[]] & Hf & [[Hu Hx]|[Hu Hx]] & _); cbn in Hf, Hx; repeat destruct Hf as [<-|Hf]; try discriminate; destruct Hf.
Qed.

(** ** What does not hold *)

(** Finding 40: an unqualified import hides a foreign import of the module.  With
    [import foreign log \(number) none] and [import Shop { log }], [log] is
    [Shop]'s and the foreign function cannot be called. *)
Theorem foreign_import_hidden_refuted : exists m is m',
  resolve_module m "/till.pen:" is [] = Ok m' /\ written_module m /\
  (forall i d, In i is -> In d (i_functions (im_interface i)) -> mangled (if_name d)) /\
  ~ Forall2 (function_resolved "/till.pen:" m is) (rm_functions m) (rm_functions m').
Proof.
  exists (RModule [] [] [RForeign "log" "log" (TReference "none")] [] [RFunction "f" "f" (Lambda [] (TReference "none") (HVariable "log")) true]).
  exists [Import (Interface [] [] [IFunction "/shop.pen:log" "log" TNone]) "Shop" ["log"]].
  eexists. split; [vm_compute; reflexivity|]. split; [apply decided_ok; vm_compute; reflexivity|]. split.
  - intros i d [<-|[]] [<-|[]]. reflexivity.
  - intros F. inversion F as [|a b l l' H _]; subst. destruct H as (_ & _ & _ & _ & _ & R). cbn [rd_lambda l_body l_arguments map] in R.
    inversion R as [S x e R'|S e e' Hn]; subst; [|exact (Hn _ eq_refl)].
    inversion R' as [Hin| |y _ Ho|e _ Ho|_ Ho]; subst; [apply Ho; left; reflexivity..].
Qed.
Print Assumptions foreign_import_hidden_refuted.

(** Finding 41: two imports may go by the same name.  [import Shop'Util] and
    [import Home'Util] are both [Util], and [Util'clean] is that of the last. *)
Theorem ambiguous_imports_refuted : exists m is m' x y z d,
  resolve_module m "/till.pen:" is [] = Ok m' /\ written_module m /\ clear_imports m is [] /\
  imported_function is x y /\ imported_function is x z /\ y <> z /\
  In d (rm_functions m) /\ occurs (HVariable x) (l_body (rd_lambda d)).
Proof.
  exists (RModule [] [] [] [] [RFunction "f" "f" (Lambda [] (TReference "none") (HVariable "Util'clean")) true]).
  exists [Import (Interface [] [] [IFunction "/Shop/Util.pen:clean" "clean" TNone]) "Util" []; Import (Interface [] [] [IFunction "/Home/Util.pen:clean" "clean" TNone]) "Util" []].
  eexists. exists "Util'clean", "/Shop/Util.pen:clean", "/Home/Util.pen:clean", (RFunction "f" "f" (Lambda [] (TReference "none") (HVariable "Util'clean")) true).
  split; [vm_compute; reflexivity|]. split; [apply decided_ok; vm_compute; reflexivity|]. split.
  - constructor.
    + intros i d [<-|[<-|[]]] [<-|[]]; reflexivity.
    + intros i [<-|[<-|[]]]; split; intros d [].
    + intros d y [].
  - split; [|split; [|split; [discriminate|split; [left; reflexivity|exists None, None; apply within_self]]]].
    + eexists. eexists. split; [left; reflexivity|]. split; [left; reflexivity|]. split; [|reflexivity]. right. split; [intros []|reflexivity].
    + eexists. eexists. split; [right; left; reflexivity|]. split; [left; reflexivity|]. split; [|reflexivity]. right. split; [intros []|reflexivity].
Qed.
Print Assumptions ambiguous_imports_refuted.

(** Finding 42: [import Shop { secret }] is accepted although [secret] is
    private.  The type check then does not know it. *)
Theorem private_unqualified_name_refuted : exists m m' i x,
  resolve_module m "/till.pen:" [i] [] = Ok m' /\ im_interface i = module_interface shop /\ In x (im_unqualified i) /\
  (forall y, ~ imported_function [i] x y) /\ (forall y, ~ imported_type [i] x y).
Proof.
  exists (RModule [] [] [] [] []). eexists. exists (Import (module_interface shop) "Shop" ["secret"]), "secret".
  split; [vm_compute; reflexivity|]. split; [reflexivity|]. split; [left; reflexivity|]. split.
  - intros y (i & d & [<-|[]] & Hd & [[Hu Hx]|[Hu Hx]] & _); cbn in Hd; destruct Hd as [<-|[<-|[]]]; discriminate.
  - intros y (i & o & [<-|[]] & G & [(d & Hd & P & <- & _)|(d & Hd & P & <- & _)]); cbn in Hd; [|destruct Hd].
    destruct Hd as [<-|[<-|[]]]; [|discriminate]. destruct G as [[Hu Hx]|[Hu Hx]]; discriminate.
Qed.
Print Assumptions private_unqualified_name_refuted.
