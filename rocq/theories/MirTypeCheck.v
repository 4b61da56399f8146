(** The type checker of the middle end. *)
From Coq Require Import String List Bool Arith.
From Verif Require Import Base Mir.
Import ListNotations.

(** The map of variables is a list with the latest insertion first. *)
Definition variables := arguments.

(** lib/mir/src/analysis/type_check.rs 403-409. *)
Definition same_type (a b : mtype) : bool := mtype_eqb a b.

Section Check.
  (** [types]: lib/mir/src/analysis/type_check.rs 18-22. *)
  Variable m : mmodule.

  Fixpoint field_types (indices : list nat) (fields : list mtype) : option (list mtype) :=
    match indices with
    | [] => Some []
    | i :: indices' =>
        match nth_error fields i, field_types indices' fields with
        | Some t, Some ts => Some (t :: ts)
        | _, _ => None
        end
    end.

  (** The types an operation expects of its [n] operands:
      lib/mir/src/analysis/type_check.rs 120-131, 141-152, 156-174, 208-214,
      217-258, 273-280, 282-293, 368-391.  For a RecordUpdate with an index out of bounds
      the code panics; here it is an error. *)
  Definition operand_types (o : operation) (n : nat) : option (list mtype) :=
    match o with
    | OArith _ | OCompare _ => Some [TNumber; TNumber]
    | OConcat => Some (repeat TByteString n)
    | ORecord name => lookup (m_types m) name
    | OField name _ => Some [TRecord name]
    | OUpdate name indices =>
        match lookup (m_types m) name with
        | Some fields => option_map (cons (TRecord name)) (field_types indices fields)
        | None => None
        end
    | OVariant TVariant => None
    | OVariant t => Some [t]
    | OTypeInfo => Some [TVariant]
    | OSync t => Some [t]
    | OCall ts t => Some (TFunction ts t :: ts)
    end.

  (** The type of its result (same lines). *)
  Definition operation_type (vars : variables) (o : operation) : option mtype :=
    match o with
    | OArith _ => Some TNumber
    | OCompare _ => Some TBoolean
    | OConcat => Some TByteString
    | ORecord name | OUpdate name _ => Some (TRecord name)
    | OField name i =>
        match lookup (m_types m) name with
        | Some ts => nth_error ts i
        | None => None
        end
    | OVariant _ => Some TVariant
    | OTypeInfo => lookup vars (m_fallback m)
    | OSync t => Some t
    | OCall _ t => Some t
    end.

  Section Parts.
    Variable check : variables -> expr -> option mtype.
    Variable vars : variables.

    (** Operands against their expected types, of the same number. *)
    Fixpoint check_all (es : list expr) (ts : list mtype) : bool :=
      match es, ts with
      | [], [] => true
      | e :: es', t :: ts' =>
          match check vars e with
          | Some t' => same_type t' t && check_all es' ts'
          | None => false
          end
      | _, _ => false
      end.

    (** lib/mir/src/analysis/type_check.rs 313-334: the type of the alternatives
        so far and of the rest. *)
    Fixpoint check_alternatives (alts : list alt) (sofar : option mtype) : option (option mtype) :=
      match alts with
      | [] => Some sofar
      | al :: alts' =>
          if List.existsb (mtype_eqb TVariant) (a_types al) then None
          else match a_types al with
               | [] => None
               | _ =>
                   match check ((a_name al, alt_type (a_types al)) :: vars) (a_body al), sofar with
                   | Some t, Some t' => if same_type t t' then check_alternatives alts' sofar else None
                   | Some t, None => check_alternatives alts' (Some t)
                   | None, _ => None
                   end
               end
      end.
  End Parts.

  (** lib/mir/src/analysis/type_check.rs 108-366.  [None] is an error.
      Operands of the wrong number, which the data types of the code rule out,
      are errors here. *)
  Fixpoint check_expr (result : mtype) (vars : variables) (e : expr) {struct e} : option mtype :=
    let check := check_expr result in
    match e with
    | Lit (LBool _) => Some TBoolean
    | Lit (LBytes _) => Some TByteString
    | Lit LNone => Some TNone
    | Lit (LNumber _) => Some TNumber
    | Var x => lookup vars x
    | Op o es =>
        match operand_types o (length es) with
        | Some ts => if check_all check vars es ts then operation_type vars o else None
        | None => None
        end
    | If c t e =>
        match check vars c, check vars t, check vars e with
        | Some tc, Some t1, Some t2 =>
            if same_type tc TBoolean && same_type t1 t2 then Some t1 else None
        | _, _, _ => None
        end
    | Case a alts de =>
        match check vars a with
        | Some ta =>
            if same_type ta TVariant then
              match check_alternatives check vars alts None with
              | Some sofar =>
                  match de with
                  | Some (x, e) =>
                      match check ((x, TVariant) :: vars) e, sofar with
                      | Some t, Some t' => if same_type t t' then Some t else None
                      | Some t, None => Some t
                      | None, _ => None
                      end
                  | None => sofar
                  end
              | None => None
              end
            else None
        | None => None
        end
    | Let x t b e =>
        match check vars b with
        | Some t' => if same_type t' t then check ((x, t) :: vars) e else None
        | None => None
        end
    | LetRec d e =>
        let vars := (f_name d, f_type d) :: vars in
        match check_expr (f_result d) (rev (f_env d ++ f_args d) ++ vars) (f_body d) with
        | Some t => if same_type t (f_result d) then check vars e else None
        | None => None
        end
    | Try o x t e =>
        match check ((x, t) :: vars) e, check vars o with
        | Some te, Some to => if same_type te result && same_type to TVariant then Some to else None
        | _, _ => None
        end
    | CloneVars xs e | DropVars xs e =>
        if forallb (fun p => match lookup vars (fst p) with Some t => same_type t (snd p) | None => false end) xs
        then check vars e else None
    end.

  (** lib/mir/src/analysis/type_check.rs 84-106. *)
  Definition check_definition (vars : variables) (d : fdef) : bool :=
    match check_expr (f_result d) (rev (f_env d ++ f_args d) ++ vars) (f_body d) with
    | Some t => same_type t (f_result d)
    | None => false
    end.

  (** lib/mir/src/analysis/type_check.rs 23-39. *)
  Definition module_variables : variables :=
    rev (m_declared m ++ map (fun d => (f_name d, f_type d)) (m_defs m)).

  (** lib/mir/src/analysis/type_check.rs 58-82. *)
  Definition check_info (g : string) : bool :=
    match lookup module_variables g, lookup module_variables (m_fallback m) with
    | Some t, Some t' => same_type t t'
    | _, _ => false
    end.

  (** lib/mir/src/analysis/type_check/name.rs 5-51. *)
  Fixpoint distinct_names (l : list string) : bool :=
    match l with
    | [] => true
    | x :: l' => negb (mem x l') && distinct_names l'
    end.

  (** lib/mir/src/analysis/type_check.rs 14-56.  Simplification: foreign
      definitions are not modelled. *)
  Definition type_check : bool :=
    distinct_names (map fst (m_types m)) &&
    distinct_names (map fst (m_declared m) ++ map f_name (m_defs m)) &&
    forallb (check_definition module_variables) (m_defs m) &&
    forallb (fun p => check_info (snd p)) (m_infos m) && check_info (m_fallback m).
End Check.
