(** Lambda lifting. *)
From Coq Require Import String List Bool Arith.
From Verif Require Import Base Mir Names MirAlpha.
Import ListNotations.
Local Open Scope string_scope.
Local Open Scope list_scope.

(** Whether the function [f] is used in another way than by calling it:
    lib/mir/src/analysis/lambda_lifting/box_.rs 6-74.  The second test of the
    arguments of a call (line 34) repeats the first and is left out. *)
Fixpoint is_boxed (f : string) (e : expr) : bool :=
  match e with
  | Lit _ => false
  | Var x => String.eqb x f
  | Op o es =>
      match o, es with
      | OCall _ _, Var _ :: args => existsb (is_boxed f) args
      | _, _ => existsb (is_boxed f) es
      end
  | If c t e => is_boxed f c || is_boxed f t || is_boxed f e
  | Case a alts de =>
      is_boxed f a ||
      existsb (fun al => negb (String.eqb (a_name al) f) && is_boxed f (a_body al)) alts ||
      match de with
      | Some (x, e) => negb (String.eqb x f) && is_boxed f e
      | None => false
      end
  | Let x _ b e => is_boxed f b || negb (String.eqb x f) && is_boxed f e
  | LetRec d e =>
      mem f (map fst (f_env d)) || negb (String.eqb (f_name d) f) && is_boxed f e
  | Try o _ _ e => is_boxed f o || is_boxed f e
  | CloneVars _ e => is_boxed f e
  | DropVars _ e => is_boxed f e
  end.

(** Adds the variables [zs] to the arguments of the calls of [f]:
    lib/mir/src/analysis/lambda_lifting/call.rs 3-157. *)
Fixpoint add_arguments (f : string) (zs : arguments) (e : expr) : expr :=
  match e with
  | Lit l => Lit l
  | Var x => Var x
  | Op o es =>
      match o, es with
      | OCall ts t, Var x :: args =>
          if String.eqb x f
          then Op (OCall (ts ++ map snd zs) t)
                  (Var f :: map (add_arguments f zs) args ++ map (fun z => Var (fst z)) zs)
          else Op o (Var x :: map (add_arguments f zs) args)
      | _, _ => Op o (map (add_arguments f zs) es)
      end
  | If c t e => If (add_arguments f zs c) (add_arguments f zs t) (add_arguments f zs e)
  | Case a alts de =>
      Case (add_arguments f zs a)
           (map (fun al => Alt (a_types al) (a_name al)
                               (if String.eqb (a_name al) f then a_body al
                                else add_arguments f zs (a_body al))) alts)
           (match de with
            | Some (x, e) => Some (x, if String.eqb x f then e else add_arguments f zs e)
            | None => None
            end)
  | Let x t b e =>
      Let x t (add_arguments f zs b) (if String.eqb x f then e else add_arguments f zs e)
  | LetRec d e => LetRec d (if String.eqb (f_name d) f then e else add_arguments f zs e)
  | Try o x t e =>
      Try (add_arguments f zs o) x t (if String.eqb x f then e else add_arguments f zs e)
  | CloneVars xs e => CloneVars xs (add_arguments f zs e)
  | DropVars xs e => DropVars xs (add_arguments f zs e)
  end.

(** lib/mir/src/analysis/lambda_lifting/context.rs 3-15: the lifted functions
    so far, and the number of the next saved variable. *)
Record lift_context : Type := Lifted {
  l_defs : list fdef;
  l_index : nat
}.

Definition lift_name (k : nat) (f : string) : string := ("mir:lift:" ++ decimal k ++ ":" ++ f)%string.

Definition saved_name (x : string) (i : nat) : string := numbered ("fv:" ++ x)%string i.

(** lib/mir/src/analysis/lambda_lifting/context.rs 17-43. *)
Definition add_function (d : fdef) (cx : lift_context) : string * lift_context :=
  let g := lift_name (length (l_defs cx)) (f_name d) in
  (g, Lifted (l_defs cx ++
              [Fdef g (f_env d) (f_args d) (f_result d) (Let (f_name d) (f_type d) (Var g) (f_body d))
                    (f_thunk d)])
             (l_index cx)).

(** lib/mir/src/analysis/lambda_lifting.rs 128-138, 232-245 and
    lambda_lifting/context.rs 45-51.  Simplification: the code keeps the new
    names in a map from the old ones; here they are in the order of the
    environment, which is the same when its names are distinct. *)
Definition saved_variables (env : arguments) (i : nat) : arguments :=
  map (fun p => (saved_name (fst (fst p)) (snd p), snd (fst p))) (combine env (seq i (length env))).

(** lib/mir/src/analysis/lambda_lifting.rs 247-262. *)
Fixpoint save_variables (env zs : arguments) (e : expr) : expr :=
  match env, zs with
  | (x, t) :: env', (z, _) :: zs' => Let z t (Var x) (save_variables env' zs' e)
  | _, _ => e
  end.

(** lib/mir/src/analysis/lambda_lifting.rs 110-180 after its parts have been
    transformed. *)
Definition lift_letrec (d : fdef) (e : expr) (cx : lift_context) : expr * lift_context :=
  match f_env d with
  | [] =>
      let '(g, cx) := add_function d cx in
      (Let (f_name d) (f_type d) (Var g) e, cx)
  | _ =>
      if negb (f_thunk d) && negb (is_boxed (f_name d) (f_body d)) && negb (is_boxed (f_name d) e)
      then
        let zs := saved_variables (f_env d) (l_index cx) in
        let cx := Lifted (l_defs cx) (l_index cx + length (f_env d)) in
        let finish_ e := save_variables (f_env d) zs (add_arguments (f_name d) zs e) in
        let args := f_args d ++ f_env d in
        let '(g, cx) :=
          add_function (Fdef (f_name d) [] args (f_result d) (finish_ (f_body d)) (f_thunk d)) cx in
        (Let (f_name d) (TFunction (map snd args) (f_result d)) (Var g) (finish_ e), cx)
      else (LetRec d e, cx)
  end.

(** lib/mir/src/analysis/lambda_lifting.rs 52-230. *)
Fixpoint lift (e : expr) (cx : lift_context) : expr * lift_context :=
  match e with
  | Lit l => (Lit l, cx)
  | Var x => (Var x, cx)
  | Op o es =>
      let '(es, cx) := map_state lift es cx in
      (Op o es, cx)
  | If c t e =>
      let '(c, cx) := lift c cx in
      let '(t, cx) := lift t cx in
      let '(e, cx) := lift e cx in
      (If c t e, cx)
  | Case a alts de =>
      let '(a, cx) := lift a cx in
      let '(alts, cx) :=
        map_state (fun al cx =>
          let '(b, cx) := lift (a_body al) cx in
          (Alt (a_types al) (a_name al) b, cx)) alts cx in
      match de with
      | Some (x, e) =>
          let '(e, cx) := lift e cx in
          (Case a alts (Some (x, e)), cx)
      | None => (Case a alts None, cx)
      end
  | Let x t b e =>
      let '(b, cx) := lift b cx in
      let '(e, cx) := lift e cx in
      (Let x t b e, cx)
  | LetRec d e =>
      let '(b, cx) := lift (f_body d) cx in
      let '(e, cx) := lift e cx in
      lift_letrec (Fdef (f_name d) (f_env d) (f_args d) (f_result d) b (f_thunk d)) e cx
  | Try o x t e =>
      let '(o, cx) := lift o cx in
      let '(e, cx) := lift e cx in
      (Try o x t e, cx)
  | CloneVars xs e =>
      let '(e, cx) := lift e cx in
      (CloneVars xs e, cx)
  | DropVars xs e =>
      let '(e, cx) := lift e cx in
      (DropVars xs e, cx)
  end.

(** lib/mir/src/analysis/lambda_lifting.rs 38-50. *)
Definition lift_global (d : fdef) (cx : lift_context) : fdef * lift_context :=
  let '(b, cx) := lift (f_body d) cx in
  (set_body d b, cx).

(** lib/mir/src/analysis/lambda_lifting.rs 9-36. *)
Definition lift_module (m : mmodule) : mmodule :=
  let '(ds, cx) := map_state lift_global (m_defs m) (Lifted [] 0) in
  set_defs m (ds ++ l_defs cx).
