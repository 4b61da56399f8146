(** Specification of finite maps with a user-given key equality, independent of
    the trie. *)
From Coq Require Import NArith ZArith List Bool Arith.
From Verif Require Import Base Hash Hamt.
Import ListNotations.

Section Spec.
  Variables K V : Type.
  Variable equal_keys : K -> K -> bool.
  Variable hash_key : K -> N.

  (** On the keys in [good], [equal_keys] is an equivalence, hashes are 64-bit
      words, equal keys have equal hashes, and unequal keys have different
      hashes. *)
  Record keys_ok (good : K -> Prop) : Prop := {
    ko_refl : forall a, good a -> equal_keys a a = true;
    ko_sym : forall a b, good a -> good b -> equal_keys a b = true -> equal_keys b a = true;
    ko_trans : forall a b c, good a -> good b -> good c -> equal_keys a b = true -> equal_keys b c = true -> equal_keys a c = true;
    ko_hash : forall a b, good a -> good b -> equal_keys a b = true -> hash_key a = hash_key b;
    ko_range : forall a, good a -> (hash_key a < u64_limit)%N;
    ko_apart : forall a b, good a -> good b -> hash_key a = hash_key b -> equal_keys a b = true
  }.

  Definition all_good (good : K -> Prop) (l : list (K * V)) : Prop := forall k v, In (k, v) l -> good k.

  (** The value given to [q] by the last pair with an equal key. *)
  Fixpoint last_set (q : K) (history : list (K * V)) : option V :=
    match history with
    | [] => None
    | (k, v) :: history =>
        match last_set q history with
        | Some w => Some w
        | None => if equal_keys k q then Some v else None
        end
    end.

  (** Keys without repetition. *)
  Fixpoint distinct_keys (l : list K) : list K :=
    match l with
    | [] => []
    | k :: l => if existsb (equal_keys k) l then distinct_keys l else k :: distinct_keys l
    end.

  (** No two positions hold equal keys. *)
  Definition pairwise_distinct (l : list (K * V)) : Prop :=
    ForallOrdPairs (fun x y => equal_keys (fst x) (fst y) = false) l.

  (** Histories with deletions. *)
  Inductive op := OSet (k : K) (v : V) | ODelete (k : K).
  Definition op_key (o : op) : K := match o with OSet k _ => k | ODelete k => k end.
  Fixpoint last_op (q : K) (history : list op) (before : option V) : option V :=
    match history with
    | [] => before
    | OSet k v :: history => last_op q history (if equal_keys k q then Some v else before)
    | ODelete k :: history => last_op q history (if equal_keys k q then None else before)
    end.
End Spec.
Arguments OSet {K V} k v.
Arguments ODelete {K V} k.

Section Run.
  Variables K V : Type.
  Variable equal_keys : K -> K -> bool.
  Variable hash_key : K -> N.
  Variable layer_hash : nat -> N.

  (** The map after a history of sets, from the empty map. *)
  Definition build (n : nat) (history : list (K * V)) : res (map K V) :=
    foldM (fun m kv => set_map K V equal_keys hash_key layer_hash n m (fst kv) (snd kv)) (new_map K V) history.

  Definition run_op (n : nat) (m : map K V) (o : op K V) : res (map K V) :=
    match o with
    | OSet k v => set_map K V equal_keys hash_key layer_hash n m k v
    | ODelete k => delete_map K V equal_keys hash_key layer_hash n m k
    end.
  Definition run (n : nat) (history : list (op K V)) : res (map K V) := foldM (run_op n) (new_map K V) history.
End Run.

(** Maps with numbers as keys: [number_eqb] is what [==] compiles to and
    [hash_number] what the hash of a number compiles to
    (/repo/lib/hir-mir/src/transformation/hash_calculation/expression.rs:83-88). *)
Definition number_layer (layer : nat) : N := hash_number (number_of_nat layer).
