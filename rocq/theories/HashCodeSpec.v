(** Specification of hash functions: they give equal data equal numbers.

    Lists and maps are left out. *)
From Coq Require Import String List ZArith Bool.
From Verif Require Import Base Mir HirType HirTypeSpec Hir HirMir LowerSpec RunSpec EqualSpec.
Import ListNotations.
Local Open Scope string_scope.

(** [t] is written as [u], up to aliases. *)
Inductive written_as (E : tenv) : ty -> ty -> Prop :=
| written_alias : forall x t u, lookup E x = Some t -> written_as E t u -> written_as E (TReference x) u
| written_self : forall t, (forall x, t <> TReference x) -> written_as E t t.

(** If [t] is written as a union, it has different alternatives (unlike
    [number | number]). *)
Definition proper (E : tenv) (t : ty) : Prop := forall l r, written_as E t (TUnion l r) ->
  exists a b, defined E a /\ defined E b /\ has_alt E t a /\ has_alt E t b /\ ~ teq E a b.

(** No lists in [x] *)
Fixpoint list_free (x : data) : Prop :=
  match x with
  | DRecord _ _ xs => (fix all (xs : list data) : Prop := match xs with [] => True | x :: xs => list_free x /\ all xs end) xs
  | DList _ _ => False
  | _ => True
  end.

(** The program [m] has the code that hashes of data use.  The outside computes the
    hashes [hn] of numbers and [hs] of strings, and combines hashes with [hc]. *)
Record hash_code (n : nat) (E : tenv) (R : renv) (C : config) (w : world) (m : mmodule) (Inv : state -> Prop)
    (hn : Z -> Z) (hs : string -> Z) (hc : Z -> Z -> Z) : Prop := HashCode {
  (* the compiler's variables are no functions *)
  hk_x : global_type m "$x" = None;
  hk_record : global_type m "$record" = None;
  (* the functions of the prelude *)
  hk_number_known : global_type m (hash_number C) <> None;
  hk_number : forall st z, Inv st ->
    exists st', runs w m st (VGlobal (hash_number C)) [VNumber z] (VNumber (hn z)) st' /\ Inv st';
  hk_string_known : global_type m (hash_string C) <> None;
  hk_string : forall st s, Inv st ->
    exists st', runs w m st (VGlobal (hash_string C)) [VBytes s] (VNumber (hs s)) st' /\ Inv st';
  hk_combine_known : global_type m (hash_combine C) <> None;
  hk_combine : forall st a b, Inv st ->
    exists st', runs w m st (VGlobal (hash_combine C)) [VNumber a; VNumber b] (VNumber (hc a b)) st' /\ Inv st';
  (* the hash functions of records *)
  hk_records : forall r o fts, comparable n E R (TRecord r o) = Ok true -> lookup R r = Some fts ->
    (forall x t, In (x, t) fts -> proper E t) /\
    exists j k def d, record_hash_definition n E R C j r o fts = Ok def /\ compile_definition n E R C k def = Ok d /\
      find_def (m_defs m) (record_hash_name r) = Some d
}.
