(** Module-level type checks: name collection, duplicates, existence, alias
    cycles.  Source: /repo/lib/hir/src/analysis/*.rs. *)
From Coq Require Import String List Bool.
From Verif Require Import Base HirType HirTypeSpec Graph.
Import ListNotations.

(** The parts of [ir::TypeDefinition] and [ir::TypeAlias] these checks use.
    Visibility flags are dropped: the model keeps only the definitions that
    pass the filters of type_existence_validator.rs:58-74
    ([!is_external() || is_public()]). *)
Record typedef := { td_name : string; td_original : string; td_fields : list (string * ty) }.
Record tmodule := { tm_defs : list typedef; tm_aliases : list (string * ty) }.

(** type_collector.rs:7-35 [collect], [collect_records]: a later insertion
    overrides an earlier one, so the list is reversed. *)
Definition collect_env (m : tmodule) : tenv :=
  rev (map (fun d => (td_name d, TRecord (td_name d) (td_original d))) (tm_defs m) ++ tm_aliases m).

(** type_collector.rs:37-43 [collect_record_fields] *)
Definition collect_records (m : tmodule) : renv :=
  rev (map (fun d => (td_name d, td_fields d)) (tm_defs m)).

(** duplicate_type_name_validator.rs [validate]: definitions, then aliases *)
Definition type_names (m : tmodule) : list string := map td_name (tm_defs m) ++ map fst (tm_aliases m).

Fixpoint no_duplicates (seen : list string) (names : list string) : bool :=
  match names with
  | [] => true
  | x :: xs => if mem x seen then false else no_duplicates (x :: seen) xs
  end.

(** type_existence_validator.rs:6-36 on one type *)
Definition exists_type (m : tmodule) (t : ty) : bool :=
  forallb (fun x => mem x (type_names m)) (references t) &&
  forallb (fun n => mem n (map td_name (tm_defs m))) (record_names t).

(** type_existence_validator.rs [validate], on the types in type definitions
    and aliases (those in expressions are checked the same way). *)
Definition types_exist (m : tmodule) : bool :=
  forallb (fun d => forallb (fun f => exists_type m (snd f)) (td_fields d)) (tm_defs m) &&
  forallb (fun a => exists_type m (snd a)) (tm_aliases m).

(** recursive_type_alias_validator.rs:6-26 [validate]: nodes are aliases, an
    edge goes from an alias to each alias it mentions. *)
Definition alias_edges (aliases : list (string * ty)) : list edge :=
  flat_map
    (fun a => map (fun x => (fst a, x)) (filter (fun x => mem x (map fst aliases)) (references (snd a))))
    aliases.

Definition aliases_not_recursive (m : tmodule) : bool :=
  match toposort (map fst (tm_aliases m)) (alias_edges (tm_aliases m)) with
  | Some _ => true
  | None => false
  end.
