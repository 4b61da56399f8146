(** Model of packages/html. *)
From Coq Require Import String Ascii List ZArith Bool.
From Coq Require Import Floats.SpecFloat.
From Verif Require Import Base Float PkgBytes Utf8 PkgUtf8.
Import ListNotations.
Local Open Scope string_scope.

(** html/Node.pen 1-15.  Simplification: attributes are pairs of key and value. *)
Inductive node :=
| Text (s : string)
| Element (tag : string) (attributes : list (string * string)) (children : list node).

(** core/Number.pen 106-113 [Range].  Fuel: one more than the number of elements. *)
Fixpoint number_range (fuel : nat) (least most : number) : res (list number) :=
  match fuel with
  | O => OutOfFuel
  | S fuel => if lt most least then Ok [] else bind (number_range fuel (add least (of_int 1)) most) (fun ns => Ok (least :: ns))
  end.

(** core/Boolean.pen 4-14 [Any]; the list is lazy. *)
Fixpoint any (bs : list (res bool)) : res bool :=
  match bs with
  | [] => Ok false
  | b :: bs => bind b (fun b => if b then Ok true else any bs)
  end.

(** html/validate.pen 17-25 [validCharacters] *)
Definition valid_characters : res (list string) :=
  bind (number_range 30 (to_code_point "a") (to_code_point "z")) (fun ns => Ok ("-" :: map from_code_point ns)).

(** validate.pen 11-15 [nameView].  Fuel: one more than the length of the view. *)
Fixpoint name_view (fuel : nat) (v : view) : res bool :=
  match fuel with
  | O => OutOfFuel
  | S fuel =>
      if equal (view_length v) (of_int 0) then Ok true
      else
        bind valid_characters (fun cs =>
        bind (any (map (view_starts_with v) cs)) (fun b =>
        if b then name_view fuel (view_seek v (of_int 1)) else Ok false))
  end.

(** validate.pen 7-9 [Name] *)
Definition name (s : string) : res bool :=
  if negb (equal (utf8_length s) (of_int 0)) then name_view (S (String.length s)) (view_new s) else Ok false.

(** The crate html_escape is not in /repo: these follow its documentation. *)
Definition escape_text (c : ascii) : string :=
  match c with
  | "&"%char => "&amp;"
  | "<"%char => "&lt;"
  | ">"%char => "&gt;"
  | _ => String c ""
  end.
Definition escape_attribute (c : ascii) : string :=
  match c with
  | """"%char => "&quot;"
  | "'"%char => "&#x27;"
  | _ => escape_text c
  end.
Fixpoint escape (f : ascii -> string) (s : string) : string :=
  match s with
  | "" => ""
  | String c s => f c ++ escape f s
  end.

(** html/ffi/src/lib.rs 5-17 *)
Definition valid_or_default (s : string) : string := match chars s with Some _ => s | None => "" end.
Definition encode_text (s : string) : string := escape escape_text (valid_or_default s).
Definition encode_attribute (s : string) : string := escape escape_attribute (valid_or_default s).

(** html/Render.pen 45-66 [renderAttributes] *)
Fixpoint render_attributes (ats : list (string * string)) : res (list string) :=
  match ats with
  | [] => Ok []
  | (k, v) :: ats =>
      bind (name k) (fun b =>
      bind (if b then Ok k else NotFound ("invalid attribute key: " ++ k)) (fun k =>
      bind (render_attributes ats) (fun ats =>
      Ok ([k; "="""; encode_attribute v; """"] ++ ats)%list)))
  end.

(** Render.pen 10-43 [Render]; 68-77 [renderChildren] is [mapM render]. *)
Fixpoint render (n : node) : res string :=
  match n with
  | Text s => Ok (encode_text s)
  | Element tag ats ns =>
      bind (render_attributes ats) (fun ats =>
      bind (match ns with
            | [] => Ok ["/>"]
            | _ => bind (mapM render ns) (fun ns => Ok ([">"] ++ ns ++ ["</"; tag; ">"])%list)
            end) (fun ns =>
      bind (name tag) (fun b =>
      bind (if b then Ok tag else NotFound ("invalid tag: " ++ tag)) (fun tag =>
      Ok (concatenate (["<"; tag] ++ match ats with [] => [] | _ => " " :: ats end ++ ns)%list)))))
  end.
