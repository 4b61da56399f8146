(** Reference counting: insertion of clones and drops, and its validation. *)
From Coq Require Import String List ZArith Bool.
From Verif Require Import Base Mir MirEnv.
Import ListNotations.

(** Hash sets of names are lists, read through [mem]; hash maps of owned
    variables are association lists with distinct keys. *)
Definition names := list string.

(** [owned_variables.chain([(name, type)]).collect()] *)
Definition own_insert (x : string) (t : mtype) (owned : arguments) : arguments :=
  (x, t) :: List.filter (fun p => negb (String.eqb (fst p) x)) owned.

Definition own_collect (l : arguments) : arguments :=
  fold_left (fun owned p => own_insert (fst p) (snd p) owned) l [].

Definition minus (a b : names) : names := List.filter (fun x => negb (mem x b)) a.
Definition inter (a b : names) : names := List.filter (fun x => mem x b) a.

Definition restrict (owned : arguments) (xs : names) : arguments :=
  List.filter (fun p => mem (fst p) xs) owned.

(** lib/mir/src/analysis/reference_count/transformation.rs 581-601. *)
Definition clone_variables (e : expr) (xs : names) (owned : arguments) : expr :=
  match xs with
  | [] => e
  | _ => CloneVars (restrict owned xs) e
  end.

(** lib/mir/src/analysis/reference_count/transformation.rs 603-623. *)
Definition drop_variables (e : expr) (xs : names) (owned : arguments) : expr :=
  match xs with
  | [] => e
  | _ => DropVars (restrict owned xs) e
  end.

(** lib/mir/src/analysis/reference_count/transformation.rs 625-631. *)
Definition should_clone (x : string) (owned : arguments) (moved : names) : bool :=
  mem x (map fst owned) && mem x moved.

Definition opt_bind {A B} (o : option A) (f : A -> option B) : option B :=
  match o with
  | Some a => f a
  | None => None
  end.

Section Operands.
  Variable f : expr -> names -> option (expr * names).

  (** Operands from the last to the first:
      lib/mir/src/analysis/reference_count/transformation.rs 82-92, 236-268,
      432-447. *)
  Fixpoint rc_backward (es : list expr) (moved : names) : option (list expr * names) :=
    match es with
    | [] => Some ([], moved)
    | e :: es' =>
        opt_bind (rc_backward es' moved) (fun '(es', moved) =>
          opt_bind (f e moved) (fun '(e, moved) => Some (e :: es', moved)))
    end.

  (** Operands from the first to the last:
      lib/mir/src/analysis/reference_count/transformation.rs 457-488. *)
  Fixpoint rc_forward (es : list expr) (moved : names) : option (list expr * names) :=
    match es with
    | [] => Some ([], moved)
    | e :: es' =>
        opt_bind (f e moved) (fun '(e, moved) =>
          opt_bind (rc_forward es' moved) (fun '(es', moved) => Some (e :: es', moved)))
    end.
End Operands.

Definition forward_operation (o : operation) : bool :=
  match o with
  | OConcat | OUpdate _ _ => true
  | _ => false
  end.

(** Alternatives, each with the variables it moves. *)
Section Alternatives.
  Variable f : arguments -> names -> expr -> option (expr * names).
  Variables (owned : arguments) (moved : names).

  (** lib/mir/src/analysis/reference_count/transformation.rs 118-145. *)
  Fixpoint rc_alternatives (alts : list alt) : option (list (alt * names)) :=
    match alts with
    | [] => Some []
    | al :: alts' =>
        opt_bind (f (own_insert (a_name al) (alt_type (a_types al)) owned) (except (a_name al) moved) (a_body al))
          (fun '(e, mv) =>
             opt_bind (rc_alternatives alts') (fun rest =>
               Some ((Alt (a_types al) (a_name al) e, mv) :: rest)))
    end.
End Alternatives.

(** lib/mir/src/analysis/reference_count/transformation.rs 26-66, after the
    body has been transformed. *)
Definition owned_by (global : bool) (d : fdef) : arguments :=
  own_collect ((if global then [] else [(f_name d, f_type d)]) ++ f_env d ++ f_args d).

Definition close_function (owned : arguments) (e : expr) (moved : names) : expr :=
  drop_variables e (minus (map fst owned) moved) owned.

(** lib/mir/src/analysis/reference_count/transformation.rs 68-579; [None] is
    the error for expressions that are reference-counted already. *)
Fixpoint rc (owned : arguments) (moved : names) (e : expr) {struct e} : option (expr * names) :=
  match e with
  | Lit _ => Some (e, moved)
  | Var x =>
      if should_clone x owned moved then Some (clone_variables e [x] owned, moved)
      else Some (e, moved ++ [x])
  | Op o es =>
      opt_bind (if forward_operation o then rc_forward (fun e mv => rc owned mv e) es moved
                else rc_backward (fun e mv => rc owned mv e) es moved)
        (fun '(es, moved) => Some (Op o es, moved))
  | If c t e =>
      opt_bind (rc owned moved t) (fun '(t, tm) =>
      opt_bind (rc owned moved e) (fun '(e, em) =>
      opt_bind (rc owned (tm ++ em) c) (fun '(c, moved) =>
        Some (If c (drop_variables t (minus (tm ++ em) tm) owned)
                   (drop_variables e (minus (tm ++ em) em) owned), moved))))
  | Case a alts de =>
      opt_bind
        match de with
        | Some (x, e) =>
            opt_bind (rc (own_insert x TVariant owned) (except x moved) e) (fun '(e, mv) => Some (Some (x, e), mv))
        | None => Some (None, moved)
        end (fun '(de, dm) =>
      opt_bind (rc_alternatives (fun o mv e => rc o mv e) owned moved alts) (fun tuples =>
      let am := (match de with Some (x, _) => except x dm | None => dm end) ++
                flat_map (fun '(al, mv) => except (a_name al) mv) tuples in
      opt_bind (rc owned (moved ++ am) a) (fun '(a, moved) =>
        Some (Case a
                (map (fun '(al, mv) =>
                        Alt (a_types al) (a_name al)
                            (drop_variables (a_body al) (minus (am ++ [a_name al]) mv)
                               (own_insert (a_name al) (alt_type (a_types al)) owned))) tuples)
                (match de with
                 | Some (x, e) =>
                     Some (x, drop_variables e (minus (am ++ [x]) dm) (own_insert x TVariant owned))
                 | None => None
                 end), moved))))
  | Let x t b e =>
      let inner := own_insert x t owned in
      opt_bind (rc inner (except x moved) e) (fun '(e, em) =>
      opt_bind (rc owned (moved ++ except x em) b) (fun '(b, moved) =>
        Some (Let x t b (if mem x em then e else drop_variables e [x] inner), moved)))
  | LetRec d e =>
      let inner := own_insert (f_name d) (f_type d) owned in
      opt_bind (rc inner (except (f_name d) moved) e) (fun '(e, em) =>
      let mv := moved ++ except (f_name d) em in
      let cloned := inter (map fst (f_env d)) mv in
      let owned' := owned_by false d in
      opt_bind (rc owned' [] (f_body d)) (fun '(b, bm) =>
        Some (clone_variables
                (LetRec (Fdef (f_name d) (f_env d) (f_args d) (f_result d) (close_function owned' b bm) (f_thunk d))
                        (if mem (f_name d) em then e else drop_variables e [f_name d] inner))
                cloned owned, mv ++ map fst (f_env d))))
  | Try o x t e =>
      opt_bind (rc owned [] e) (fun '(e, em) =>
      let em := except x em in
      let am := em ++ moved in
      opt_bind (rc owned am o) (fun '(o, om) =>
        Some (drop_variables (Try o x t (drop_variables e (minus am em) owned)) (minus am moved) owned, om)))
  | CloneVars _ _ | DropVars _ _ => None
  end.

(** lib/mir/src/analysis/reference_count/transformation.rs 26-66. *)
Definition rc_function (global : bool) (d : fdef) : option fdef :=
  opt_bind (rc (owned_by global d) [] (f_body d)) (fun '(b, bm) =>
    Some (Fdef (f_name d) (f_env d) (f_args d) (f_result d) (close_function (owned_by global d) b bm) (f_thunk d))).

Fixpoint opt_map {A B} (f : A -> option B) (l : list A) : option (list B) :=
  match l with
  | [] => Some []
  | a :: l' => opt_bind (f a) (fun b => opt_bind (opt_map f l') (fun l' => Some (b :: l')))
  end.

(** lib/mir/src/analysis/reference_count/transformation.rs 6-24. *)
Definition rc_module (m : mmodule) : option mmodule :=
  option_map (set_defs m) (opt_map (rc_function true) (m_defs m)).

(** ** Validation *)

(** [FnvHashMap<String, isize>]: an association list with distinct keys.
    Simplification: counts are integers without overflow. *)
Definition counts := list (string * Z).

Fixpoint counts_set (x : string) (n : Z) (c : counts) : counts :=
  match c with
  | [] => [(x, n)]
  | (y, k) :: c' => if String.eqb x y then (x, n) :: c' else (y, k) :: counts_set x n c'
  end.

(** lib/mir/src/analysis/reference_count/validation.rs 263-277. *)
Definition add_count (k : Z) (c : counts) (x : string) : counts :=
  match lookup c x with
  | Some n => counts_set x (n + k) c
  | None => c
  end.

(** lib/mir/src/analysis/reference_count/validation.rs 255-261. *)
Definition nonzero (c : counts) : counts := List.filter (fun p => negb (Z.eqb (snd p) 0)) c.

(** Equality of hash maps. *)
Definition counts_eqb (a b : counts) : bool :=
  forallb (fun p => match lookup b (fst p) with Some n => Z.eqb n (snd p) | None => false end) a &&
  forallb (fun p => match lookup a (fst p) with Some n => Z.eqb n (snd p) | None => false end) b.

Section Validation.
  Variable move : expr -> counts -> option counts.

  (** lib/mir/src/analysis/reference_count/validation.rs 217-236. *)
  Definition validate_let_like (x : string) (e : expr) (c : counts) : option counts :=
    opt_bind (move e (counts_set x 1 c)) (fun c' =>
      match lookup c' x with
      | Some n =>
          if Z.eqb n 0 then
            match lookup c x with
            | Some old => Some (counts_set x old c')
            | None => Some c'
            end
          else None
      | None => None              (* the code panics *)
      end).

  Fixpoint move_all (es : list expr) (c : counts) : option counts :=
    match es with
    | [] => Some c
    | e :: es' => opt_bind (move e c) (move_all es')
    end.

  (** lib/mir/src/analysis/reference_count/validation.rs 98-108. *)
  Fixpoint validate_alternatives (alts : list alt) (old : counts) (c : counts) : bool :=
    match alts with
    | [] => true
    | al :: alts' =>
        match validate_let_like (a_name al) (a_body al) old with
        | Some c' => counts_eqb (nonzero c) (nonzero c') && validate_alternatives alts' old c
        | None => false
        end
    end.
End Validation.

(** lib/mir/src/analysis/reference_count/validation.rs 47-65. *)
Definition all_zero (c : counts) : bool := forallb (fun p => Z.eqb (snd p) 0) c.

(** lib/mir/src/analysis/reference_count/validation.rs 13-45. *)
Definition initial_counts (global : bool) (d : fdef) : counts :=
  fold_left (fun c x => counts_set x 1 c)
    ((if global then [] else [f_name d]) ++ map fst (f_env d) ++ map fst (f_args d)) [].

(** lib/mir/src/analysis/reference_count/validation.rs 67-215; [None] is an
    error. *)
Fixpoint move (e : expr) (c : counts) {struct e} : option counts :=
  match e with
  | Lit _ => Some c
  | Var x => Some (add_count (-1) c x)
  | Op _ es => move_all move es c
  | If b t e =>
      opt_bind (move b c) (fun c =>
      opt_bind (move t c) (fun ct =>
      opt_bind (move e c) (fun ce => if counts_eqb (nonzero ce) (nonzero ct) then Some ce else None)))
  | Case a alts de =>
      opt_bind (move a c) (fun old =>
      opt_bind
        match de, alts with
        | Some (x, e), _ => validate_let_like move x e old
        | None, al :: _ => validate_let_like move (a_name al) (a_body al) old
        | None, [] => None        (* the code panics *)
        end (fun c =>
      if validate_alternatives move alts old c then Some c else None))
  | Let x _ b e => opt_bind (move b c) (validate_let_like move x e)
  | LetRec d e =>
      opt_bind (move (f_body d) (initial_counts false d)) (fun cb =>
      if all_zero cb
      then validate_let_like move (f_name d) e (fold_left (add_count (-1)) (map fst (f_env d)) c)
      else None)
  | Try o x _ e =>
      opt_bind (move o c) (fun c =>
      opt_bind (validate_let_like move x e c) (fun c' => if all_zero c' then Some c else None))
  | CloneVars xs e => move e (fold_left (add_count 1) (map fst xs) c)
  | DropVars xs e => move e (fold_left (add_count (-1)) (map fst xs) c)
  end.

Definition validate_function (global : bool) (d : fdef) : bool :=
  match move (f_body d) (initial_counts global d) with
  | Some c => all_zero c
  | None => false
  end.

(** lib/mir/src/analysis/reference_count/validation.rs 5-11. *)
Definition validate (m : mmodule) : bool := forallb (validate_function true) (m_defs m).

(** lib/mir/src/analysis/reference_count.rs 9-15. *)
Definition reference_count (m : mmodule) : option mmodule :=
  opt_bind (rc_module m) (fun m => if validate m then Some m else None).
