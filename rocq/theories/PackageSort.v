(** Ordering of external packages.
    Source: /repo/lib/app/src/external_package_topological_sorter.rs. *)
From Coq Require Import String List Bool.
From Verif Require Import Base Graph.
Import ListNotations.

(** [BTreeMap<Url, PackageConfiguration>] as a list of urls with the urls of
    [PackageConfiguration::dependencies]; urls are strings. *)
Definition configurations := list (string * list string).

(** external_package_topological_sorter.rs:18-22: one edge from a package to
    each of its dependencies. *)
Definition package_edges (c : configurations) : list edge :=
  flat_map (fun p => map (fun d => (fst p, d)) (snd p)) c.

(** external_package_topological_sorter.rs:5-29 [sort].  [Panic] is the failed
    index [indices[dependency_url]]; [Ok None] is
    [ApplicationError::PackageDependencyCycle]. *)
Definition sort_packages (c : configurations) : res (option (list string)) :=
  if forallb (fun e => mem (snd e) (map fst c)) (package_edges c)
  then Ok (toposort (map fst c) (package_edges c))
  else Panic.
