(** Modules given as texts. *)
From Coq Require Import String Ascii List Bool ZArith NArith.
From Verif Require Import Base HirType Hir HirSpec Syntax Ast Resolve ResolveSpec DesugarSpec.
Import ListNotations.

(** ** Imports *)

(** What the names of an imported module are qualified with: the name after
    [as], or the last component of its path *)
Definition called (i : aimport) (x : string) : Prop :=
  match i_prefix i with
  | Some y => x = y
  | None => exists l, match i_path i with External _ p | Internal p => p end = (l ++ [x])%list
  end.
(** The modules that a module imports, given those there are *)
Definition imports_found (interfaces : apath -> option interface) (m : amodule) (is : list import) : Prop :=
  Forall2 (fun a i => interfaces (i_path a) = Some (im_interface i) /\ called a (im_prefix i) /\ im_unqualified i = i_names a) (m_imports m) is.

(** The imports are interfaces of compiled modules, whose names have colons, and
    no foreign import has the name of an imported function (finding 40). *)
Record clear_source (m : amodule) (is : list import) (prelude : list interface) : Prop := ClearSource {
  cs_functions : forall i d, In i is -> In d (i_functions (im_interface i)) -> mangled (if_name d);
  cs_types : forall i, In i (map im_interface is ++ prelude)%list ->
    (forall d, In d (i_types i) -> mangled (it_name d)) /\ (forall a, In a (i_aliases i) -> mangled (ia_name a));
  cs_foreign : forall f y, In f (m_foreign m) -> ~ imported_function is (f_name f) y
}.
(** No two imported functions go by the same name, nor two imported types. *)
Definition unambiguous (is : list import) : Prop :=
  (forall x y z, imported_function is x y -> imported_function is x z -> y = z) /\
  (forall x y z, imported_type is x y -> imported_type is x z -> y = z).
(** Interfaces agree on what they both mention. *)
Record agreeing (is : list interface) : Prop := Agreeing {
  ag_types : forall i j a b, In i is -> In j is -> In a (i_types i) -> In b (i_types j) -> it_name a = it_name b -> it_public a = it_public b -> a = b;
  ag_aliases : forall i j a b, In i is -> In j is -> In a (i_aliases i) -> In b (i_aliases j) -> ia_name a = ia_name b -> ia_public a = ia_public b -> a = b;
  ag_functions : forall i j a b, In i is -> In j is -> In a (i_functions i) -> In b (i_functions j) -> if_name a = if_name b -> if_type a = if_type b
}.

(** ** Programs *)

(** The same functions, and the same known types and declared functions of
    other modules, in some order *)
Definition same_program (a b : rmodule) : Prop :=
  rm_functions a = rm_functions b /\ rm_foreign a = rm_foreign b /\ (forall d, In d (rm_types a) <-> In d (rm_types b)) /\
  (forall d, In d (rm_aliases a) <-> In d (rm_aliases b)) /\ (forall d, In d (rm_declared a) <-> In d (rm_declared b)).
Definition same_result (a b : res rmodule) : Prop :=
  match a, b with
  | Ok a, Ok b => same_program a b
  | NotFound x, NotFound y => x = y
  | Panic, Panic | OutOfFuel, OutOfFuel => True
  | _, _ => False
  end.

(** ** Numbers *)

(** The value of digits, most significant first *)
Definition digit_value (c : ascii) : option N :=
  let n := N_of_ascii c in
  if ((48 <=? n) && (n <=? 57))%N then Some (n - 48)%N
  else if ((97 <=? n) && (n <=? 102))%N then Some (n - 87)%N
  else if ((65 <=? n) && (n <=? 70))%N then Some (n - 55)%N
  else None.
Inductive positional (radix : N) : string -> N -> Prop :=
| positional_one : forall c d, digit_value c = Some d -> (d < radix)%N -> positional radix (String c "") d
| positional_more : forall c d s n, digit_value c = Some d -> (d < radix)%N -> positional radix s n ->
    positional radix (String c s) (d * radix ^ N.of_nat (String.length s) + n).

(** The 64 bits of a double that is a whole number, not negative: the 52 lower
    ones are the fraction, and the next 11 the exponent plus 1023. *)
Definition whole_bits (b : Z) (z : Z) : Prop :=
  (0 <= b < 2047 * 2 ^ 52 /\ (b = 0 /\ z = 0 \/ 1 <= b / 2 ^ 52 /\ (2 ^ 52 + b mod 2 ^ 52) * 2 ^ (b / 2 ^ 52) = z * 2 ^ (1023 + 52)))%Z.

(** A number is written in an expression. *)
Inductive number_in (n : anumber) : aexpr -> Prop :=
| number_here : number_in n (XNumber n)
| number_part : forall e T p, In (T, p) (source_parts e) -> number_in n p -> number_in n e.
Definition number_of (n : anumber) (m : amodule) : Prop :=
  exists f T p, In f (m_functions m) /\ In (T, p) (block_parts [] (la_body (fn_lambda f))) /\ number_in n p.
