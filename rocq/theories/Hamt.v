(** The hash array mapped trie behind Pen maps.
    Source: /repo/packages/prelude/Map.pen.

    Simplifications: keys and values are of arbitrary types instead of [any];
    the 32 fields of a [hamt] record are a list; sizes are integers instead of
    [f64]; layers and levels are natural numbers.  Recursion that is not on a
    sub-tree takes fuel, [OutOfFuel] when it runs out. *)
From Coq Require Import NArith ZArith List Bool Arith.
From Verif Require Import Base Hash.
Import ListNotations.

(** Map.pen:12-15 [keyValue], 35-70 [entry], [hamt] *)
Inductive entry (K V : Type) : Type :=
| ENone
| EKey (k : K) (v : V)
| EHamt (h : list (entry K V)).
Arguments ENone {K V}.
Arguments EKey {K V} k v.
Arguments EHamt {K V} h.

Section Hamt.
  Variables K V : Type.

  (** Map.pen:17-22 [MapContext] *)
  Variable equal_keys : K -> K -> bool.
  Variable equal_values : V -> V -> bool.
  Variable hash_key : K -> N.
  Variable hash_value : V -> N.
  (** The hash of each layer number, [_pen_prelude_hash_number(layer)]. *)
  Variable layer_hash : nat -> N.

  Definition hamt := list (entry K V).

  (** Map.pen:5-8 [Map] *)
  Record map := { map_hamt : hamt; map_size : Z }.

  (** Map.pen:72 *)
  Definition max_level : nat := 12.

  (** Map.pen:88-127 *)
  Definition new_hamt : hamt := repeat ENone 32.
  Definition new_map : map := {| map_hamt := new_hamt; map_size := 0 |}.

  (** Map.pen:472-540 [getEntry], 542-610 [setEntry]; indices count from one,
      and other indices read [none] and write nothing *)
  Definition get_entry (h : hamt) (i : nat) : entry K V :=
    match i with O => ENone | S j => nth j h ENone end.

  Fixpoint set_nth (h : hamt) (j : nat) (e : entry K V) : hamt :=
    match h, j with
    | [], _ => []
    | _ :: h, O => e :: h
    | x :: h, S j => x :: set_nth h j e
    end.

  Definition set_entry (h : hamt) (i : nat) (e : entry K V) : hamt :=
    match i with O => h | S j => set_nth h j e end.

  (** Map.pen:444-446 [hamtIndex] *)
  Definition hamt_index (key : K) (layer level : nat) : nat :=
    hash_to_index (hash_key key) (layer_hash layer) level.

  (** Map.pen:133-151 [getValue]; [None] is [Empty{}] *)
  Fixpoint get_value (n : nat) (h : hamt) (key : K) (layer level : nat) : res (option V) :=
    match n with
    | O => OutOfFuel
    | S n =>
        match get_entry h (hamt_index key layer level) with
        | EKey k v => Ok (if equal_keys k key then Some v else None)
        | EHamt e =>
            if max_level <? level then get_value n e key (layer + 1) 1
            else get_value n e key layer (level + 1)
        | ENone => Ok None
        end
    end.

  (** Map.pen:129-131 [GetMap] *)
  Definition get_map (n : nat) (m : map) (key : K) : res (option V) := get_value n (map_hamt m) key 1 1.

  (** Map.pen:169-208 [setKeyValue]; the result is [hamtUpdate] *)
  Fixpoint set_key_value (n : nat) (h : hamt) (key : K) (value : V) (layer level : nat) : res (hamt * bool) :=
    match n with
    | O => OutOfFuel
    | S n =>
        let i := hamt_index key layer level in
        let e := get_entry h i in
        let h := set_entry h i ENone in
        match e with
        | EKey k v =>
            if equal_keys k key then Ok (set_entry h i (EKey key value), false)
            else
              bind (set_key_value n new_hamt k v layer (level + 1)) (fun u =>
              bind (set_key_value n (fst u) key value layer (level + 1)) (fun u =>
              Ok (set_entry h i (EHamt (fst u)), true)))
        | EHamt e =>
            bind (if max_level <? level then set_key_value n e key value (layer + 1) 1
                  else set_key_value n e key value layer (level + 1)) (fun u =>
            Ok (set_entry h i (EHamt (fst u)), snd u))
        | ENone => Ok (set_entry h i (EKey key value), true)
        end
    end.

  (** Map.pen:153-167 [SetMap] *)
  Definition set_map (n : nat) (m : map) (key : K) (value : V) : res map :=
    bind (set_key_value n (map_hamt m) key value 1 1) (fun u =>
    Ok {| map_hamt := fst u; map_size := (map_size m + if snd u then 1 else 0)%Z |}).

  (** Map.pen:256-270 [getSingleEntry]; the index walks over the entries *)
  Fixpoint get_single_entry (h : hamt) (e : entry K V) : entry K V :=
    match h with
    | [] => e
    | ENone :: h => get_single_entry h e
    | ee :: h => match e with ENone => get_single_entry h ee | _ => ENone end
    end.

  (** Map.pen:248-254 [normalizeHamt] *)
  Definition normalize_hamt (h : hamt) : entry K V :=
    match get_single_entry h ENone with
    | ENone => EHamt h
    | e => e
    end.

  (** Map.pen:223-246 [deleteKey] *)
  Fixpoint delete_key (n : nat) (h : hamt) (key : K) (layer level : nat) : res (hamt * bool) :=
    match n with
    | O => OutOfFuel
    | S n =>
        let i := hamt_index key layer level in
        match get_entry h i with
        | EKey k v =>
            if equal_keys k key then Ok (set_entry h i ENone, true) else Ok (h, false)
        | EHamt e =>
            bind (if max_level <? level then delete_key n e key (layer + 1) 1
                  else delete_key n e key layer (level + 1)) (fun u =>
            Ok (set_entry h i (normalize_hamt (fst u)), snd u))
        | ENone => Ok (h, false)
        end
    end.

  (** Map.pen:210-221 [DeleteMap] *)
  Definition delete_map (n : nat) (m : map) (key : K) : res map :=
    bind (delete_key n (map_hamt m) key 1 1) (fun u =>
    Ok {| map_hamt := fst u; map_size := (map_size m - if snd u then 1 else 0)%Z |}).

  (** Map.pen:276-293 [mergeHamt], on one entry; the loop over the entries is
      [foldM] *)
  Fixpoint foldM {A B : Type} (f : A -> B -> res A) (a : A) (l : list B) : res A :=
    match l with
    | [] => Ok a
    | b :: l => bind (f a b) (fun a => foldM f a l)
    end.

  Fixpoint merge_entry (n : nat) (m : map) (e : entry K V) : res map :=
    match e with
    | EKey k v => set_map n m k v
    | EHamt h =>
        (fix go (m : map) (h : hamt) : res map :=
           match h with
           | [] => Ok m
           | e :: h => bind (merge_entry n m e) (fun m => go m h)
           end) m h
    | ENone => Ok m
    end.

  (** Map.pen:272-274 [MergeMaps] *)
  Definition merge_maps (n : nat) (x y : map) : res map := foldM (merge_entry n) x (map_hamt y).

  (** Map.pen:324-382 [equalHamts], entry by entry; [None] is Pen's [none]
      ("not comparable") *)
  Section Equal.
    Variable fk : K -> K -> option bool.
    Variable fv : V -> V -> option bool.

    Definition and_then (b : option bool) (rest : option bool) : option bool :=
      match b with Some true => rest | Some false => Some false | None => None end.

    Fixpoint equal_entry (e1 e2 : entry K V) {struct e1} : option bool :=
      match e1 with
      | EKey k1 v1 =>
          match e2 with
          | EKey k2 v2 => and_then (fk k1 k2) (fv v1 v2)
          | _ => Some false
          end
      | EHamt h1 =>
          match e2 with
          | EHamt h2 =>
              (fix go (h1 h2 : hamt) {struct h1} : option bool :=
                 match h1 with
                 | [] => Some true
                 | e1 :: h1 => and_then (equal_entry e1 (hd ENone h2)) (go h1 (tl h2))
                 end) h1 h2
          | _ => Some false
          end
      | ENone => match e2 with ENone => Some true | _ => Some false end
      end.

    Fixpoint equal_hamts (h1 h2 : hamt) {struct h1} : option bool :=
      match h1 with
      | [] => Some true
      | e1 :: h1 => and_then (equal_entry e1 (hd ENone h2)) (equal_hamts h1 (tl h2))
      end.
  End Equal.

  (** Map.pen:295-311 [EqualMaps] *)
  Definition equal_maps (x y : map) : bool :=
    if Z.eqb (map_size x) (map_size y)
    then
      match equal_hamts (fun a b => Some (equal_keys a b)) (fun a b => Some (equal_values a b)) (map_hamt x) (map_hamt y) with
      | Some b => b
      | None => false
      end
    else false.

  (** Map.pen:313-322 [MaybeEqualMaps] *)
  Definition maybe_equal_maps (fk : K -> K -> option bool) (fv : V -> V -> option bool) (x y : map) : option bool :=
    if Z.eqb (map_size x) (map_size y) then equal_hamts fk fv (map_hamt x) (map_hamt y) else Some false.

  (** Map.pen:390-410 [hashHamt], entry by entry *)
  Fixpoint hash_entry (e : entry K V) (hash : N) : N :=
    match e with
    | EKey k v => combine_hashes (combine_hashes hash (hash_key k)) (hash_value v)
    | EHamt h =>
        combine_hashes hash
          ((fix go (h : hamt) (hash : N) : N :=
              match h with
              | [] => hash
              | e :: h => go h (hash_entry e hash)
              end) h hash)
    | ENone => hash
    end.

  Fixpoint hash_hamt (h : hamt) (hash : N) : N :=
    match h with
    | [] => hash
    | e :: h => hash_hamt h (hash_entry e hash)
    end.

  (** Map.pen:384-388 [HashMap]; [headerHash] is the number 5 *)
  Definition hash_map (m : map) : N := hash_hamt (map_hamt m) (number_of_nat 5).

  (** Map.pen:416-434 [iterateHamt]: the sequence of pairs that the iterator
      yields when it is followed to its end; [rest] is the sequence of the
      continuation. *)
  Fixpoint iterate_entry (e : entry K V) (rest : list (K * V)) : list (K * V) :=
    match e with
    | EKey k v => (k, v) :: rest
    | EHamt h =>
        (fix go (h : hamt) (rest : list (K * V)) : list (K * V) :=
           match h with
           | [] => rest
           | e :: h => iterate_entry e (go h rest)
           end) h rest
    | ENone => rest
    end.

  Fixpoint iterate_hamt (h : hamt) (rest : list (K * V)) : list (K * V) :=
    match h with
    | [] => rest
    | e :: h => iterate_entry e (iterate_hamt h rest)
    end.

  (** Map.pen:412-414 [IterateMap] *)
  Definition iterate_map (m : map) : list (K * V) := iterate_hamt (map_hamt m) [].
End Hamt.
