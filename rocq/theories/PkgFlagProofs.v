From Coq Require Import String List ZArith Bool Lia Ascii.
From Coq Require Import Floats.SpecFloat.
From Verif Require Import Base Float FloatProofs PkgBytes PkgBytesSpec PkgBytesProofs PkgFlag PkgFlagSpec.
Import ListNotations.
Local Open Scope string_scope.
Local Open Scope Z_scope.

Lemma starts_with_prefix s p : starts_with s p = prefix p s.
Proof.
  unfold starts_with. rewrite prefix_spec. destruct (Z.leb_spec (size p) (size s)) as [H|H].
  - replace (Nat.min (String.length p) (String.length s)) with (String.length p) by (unfold size in H; lia). reflexivity.
  - symmetry. apply String.eqb_neq. intros Q. apply (f_equal String.length) in Q.
    assert (G : forall s m, (String.length (substring 0 m s) <= String.length s)%nat).
    { clear. induction s as [|c s IH]; intros [|m]; cbn [substring String.length]; try lia. specialize (IH m). lia. }
    specialize (G s (Nat.min (String.length p) (String.length s))). unfold size in H. lia.
Qed.

Lemma key_slice k : reasonable ("-" ++ k) -> byte_slice ("-" ++ k) (add (byte_length "-") (of_int 1)) infinity = Ok k.
Proof.
  intros R. change (add (byte_length "-") (of_int 1)) with (of_int 2).
  rewrite byte_slice_spec; [|exact R|reflexivity|reflexivity|reflexivity|reflexivity]. f_equal.
  rewrite bytes_at_substring; [|exact R|reflexivity|reflexivity|reflexivity].
  rewrite usize_int by lia. rewrite (select_ext _ (fun j => (2 <=? j) && (j <=? size ("-" ++ k)))).
  - rewrite select_range. rewrite size_app. change (size "-") with 1. change (Z.to_nat (2 - 1)) with (String.length "-"). rewrite substring_skip.
    replace (Z.to_nat (1 + size k - Z.max 2 1 + 1)) with (String.length k) by (unfold size; lia). rewrite <- (app_nil k) at 2. apply substring_take.
  - intros j Hj. f_equal. unfold to_usize, cast, infinity, usize_max. unfold reasonable, size in *.
    destruct (Z.leb_spec j (2 ^ 64 - 1)), (Z.leb_spec j (Z.of_nat (String.length ("-" ++ k)))); lia || reflexivity.
Qed.

Lemma parse_flags_spec ss ns ps : flags ss ns ps -> Forall reasonable ss -> forall acc, parse_flags ss acc = Ok (Set_ (rev ns ++ acc) ps).
Proof.
  induction 1 as [|ps|p ps P|k v ss ns ps K _ IH]; intros R acc.
  - reflexivity.
  - reflexivity.
  - cbn [parse_flags]. rewrite starts_with_prefix. unfold flag_prefix, separator. rewrite P.
    destruct (String.eqb_spec p "--") as [->|_]; [discriminate P|reflexivity].
  - inversion R as [|x l R1 R2]; subst. inversion R2 as [|x l R3 R4]; subst. cbn [parse_flags].
    destruct (String.eqb_spec ("-" ++ k) separator) as [Q|_]; [injection Q as Q; elim K; exact Q|].
    rewrite starts_with_prefix. change (prefix flag_prefix ("-" ++ k)) with (prefix "" k). replace (prefix "" k) with true by (destruct k; reflexivity).
    unfold flag_prefix. rewrite key_slice by exact R1. cbn [bind]. rewrite IH by exact R4. cbn [rev]. rewrite <- List.app_assoc. reflexivity.
Qed.

Lemma lookup_value ns k : lookup (rev ns) k = value_of ns k.
Proof.
  unfold value_of. rewrite <- (fold_left_rev_right (fun kv r => if String.eqb (fst kv) k then Some (snd kv) else r)). induction (rev ns) as [|[x v] l IH]; [reflexivity|].
  cbn [lookup fold_right fst snd]. rewrite IH. rewrite (String.eqb_sym x k). reflexivity.
Qed.

Lemma parse_flags_fails ss : Forall reasonable ss -> (forall ns ps, ~ flags ss ns ps) -> forall acc, parse_flags ss acc = NotFound "flag value missing".
Proof.
  induction ss as [ss IH] using (induction_ltof1 _ (@List.length string)). unfold ltof in IH. intros R N acc.
  destruct ss as [|s ss]; [elim (N [] []); constructor|]. cbn [parse_flags].
  destruct (String.eqb_spec s separator) as [->|Q]; [elim (N [] ss); apply flags_separator|].
  rewrite starts_with_prefix. destruct (prefix flag_prefix s) eqn:P.
  - destruct ss as [|v ss]; [reflexivity|]. destruct s as [|c k]; [discriminate P|]. unfold flag_prefix in P. cbn [prefix] in P.
    destruct (ascii_dec "-"%char c) as [<-|]; [|discriminate]. inversion R as [|x l R1 R2]; subst. inversion R2 as [|x l R3 R4]; subst.
    change (String "-"%char k) with ("-" ++ k) in *. unfold flag_prefix. rewrite key_slice by exact R1. cbn [bind]. apply IH; [cbn; lia|exact R4|].
    intros ns ps F. apply (N ((k, v) :: ns) ps). apply flags_named; [|exact F]. intros ->. apply Q. reflexivity.
  - elim (N [] (s :: ss)). apply flags_positional. exact P.
Qed.
