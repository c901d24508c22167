(** The parts of the schema parser that decide what a declaration means.

    /repo/pj/parse.cpp: resolve l.162-186, FieldDecl l.392-399,
    StructDecl l.444-480, ExplicitTag l.484-500, handleVariantField l.510-532,
    handleVariant l.546-622, VarArrayModifier l.368-384, checkVariantPath l.692-737,
    DecoderDecl l.835-861; /repo/pj/validate.cpp; /repo/pj/type_support.cpp:
    PathAttr::fromString l.84-98; PathAttr::print (type_support.hpp l.329-339).
    Model only.

    The PEG grammar itself is not modelled: the functions below start from what
    the rules have matched. *)
From Coq Require Import Ascii.
From Verif Require Import Base Types Transcode.

(** ** Names *)

(** resolve: [space] is the list of enclosing namespaces, outermost first;
    [defs] the defined full names.  The loop tries i = size .. 0. *)
Definition scoped := list string.
Definition same_name (a b : scoped) : bool := if list_eq_dec string_dec a b then true else false.
Fixpoint resolve_from (i : nat) (space id : scoped) (defs : list scoped) : option scoped :=
  let full := firstn i space ++ id in
  if existsb (same_name full) defs then Some full
  else match i with O => None | S j => resolve_from j space id defs end.
Definition resolve (space id : scoped) (defs : list scoped) : option scoped :=
  resolve_from (List.length space) space id defs.

(** defineType l.188-194. *)
Definition define_type (name : scoped) (defs : list scoped) : option (list scoped) :=
  if existsb (same_name name) defs then None else Some (name :: defs).

(** ** Validation (validate.cpp); true is acceptance. *)

(** validate(Int) l.13-22, the width in bits. *)
Definition validate_int (bits : Z) : bool :=
  (bits mod 8 =? 0) &&
  ((bits / 8 =? 1) || (bits / 8 =? 2) || (bits / 8 =? 4) || (bits / 8 =? 8)).

(** validate(Struct) l.24-33: [seen] is the set of names so far. *)
Fixpoint fields_ok (seen : list string) (names : list string) : bool :=
  match names with
  | [] => true
  | n :: r => if existsb (String.eqb n) seen then false else fields_ok (n :: seen) r
  end.
Definition validate_struct (names : list string) : bool := fields_ok [] names.

(** validate(InlineVariant) l.35-53. *)
Fixpoint terms_ok (names : list string) (tags : list Z) (ts : list (string * Z)) : bool :=
  match ts with
  | [] => true
  | (n, g) :: r =>
      if existsb (String.eqb n) names then false
      else if existsb (Z.eqb g) tags then false
      else terms_ok (n :: names) (g :: tags) r
  end.
Definition validate_variant (ts : list (string * Z)) : bool := terms_ok [] [] ts.

(** VarArrayModifier l.368-384 and validate(Vector) l.61-69.  -1 is kNone: the
    bound was not written.  The result is (min_length, max_length). *)
Definition parse_vector (mn mx : Z) : option (Z * Z) :=
  let min_length := if mn <? 0 then 0 else mn in
  if min_length <? 0 then None
  else if (0 <=? mx) && (mx <? min_length) then None
  else Some (min_length, mx).

(** StructDecl l.444-480: the field names in order of declaration. *)
Definition parse_struct (names : list string) : option (list string) :=
  if validate_struct names then Some names else None.

(** ** Variants *)

(** One VariantFieldDecl: name, explicit tag (0 = none, ExplicitTag l.496-499
    rejects a written 0), marked default. *)
Record vfield := mkVfield { vf_name : string; vf_tag : Z; vf_default : bool }.

(** handleVariantField l.510-532 over all fields: explicit_tags (a map; later
    entries replace earlier ones) and default_term, "" if none. *)
Fixpoint field_state (fs : list vfield) (tags : list (string * Z)) (dflt : string)
  : option (list (string * Z) * string) :=
  match fs with
  | [] => Some (tags, dflt)
  | f :: r =>
      let tags := if vf_tag f =? 0 then tags else (vf_name f, vf_tag f) :: tags in
      if vf_default f then
        if String.eqb dflt "" then field_state r tags (vf_name f) else None
      else field_state r tags dflt
  end.

Fixpoint lookup (n : string) (l : list (string * Z)) : option Z :=
  match l with
  | [] => None
  | (k, v) :: r => if String.eqb n k then Some v else lookup n r
  end.

(** The entries of the map: those not replaced by a later one. *)
Definition map_tags (l : list (string * Z)) : list Z :=
  flat_map (fun n => match lookup n l with Some g => [g] | None => [] end) (map fst l).

(** while (reserved_tags.find(cur_tag) != end) cur_tag++;  None: out of fuel. *)
Fixpoint next_free (fuel : nat) (reserved : list Z) (cur : Z) : option Z :=
  if existsb (Z.eqb cur) reserved then
    match fuel with
    | O => None
    | S fuel => next_free fuel reserved (wrap64 (cur + 1))
    end
  else Some cur.

(** The loop l.577-600.  The set [reserved] has at most as many elements as the
    list, so the fuel is enough. *)
Fixpoint assign (names : list string) (tags : list (string * Z)) (reserved : list Z) (cur : Z)
  : option (list (string * Z)) :=
  match names with
  | [] => Some []
  | n :: r =>
      match lookup n tags with
      | Some g =>
          match assign r tags reserved (wrap64 (g + 1)) with
          | Some l => Some ((n, g) :: l)
          | None => None
          end
      | None =>
          match next_free (List.length reserved) reserved cur with
          | Some g =>
              match assign r tags (g :: reserved) g with
              | Some l => Some ((n, g) :: l)
              | None => None
              end
          | None => None
          end
      end
  end.

(** std::find for the default term. *)
Fixpoint index_of (n : string) (l : list string) : nat :=
  match l with
  | [] => O
  | m :: r => if String.eqb m n then O else S (index_of n r)
  end.

(** handleVariant l.546-622: the terms with their tags and the default's index;
    None is a parse error. *)
Definition parse_variant (fs : list vfield) : option (list (string * Z) * nat) :=
  match field_state fs [] "" with
  | None => None
  | Some (tags, dflt) =>
      let order := map vf_name fs in
      let '(order, d) :=
        if String.eqb dflt "" then ("undef"%string :: order, O)
        else (order, index_of dflt order) in
      match assign order tags (map_tags tags) 0 with
      | Some terms => if validate_variant terms then Some (terms, d) else None
      | None => None
      end
  end.

(** ** Paths *)

(** find(c, pos): the text before the first [c] and the rest from it on. *)
Fixpoint cut_at (c : ascii) (s : string) : string * string :=
  match s with
  | EmptyString => (EmptyString, EmptyString)
  | String a r =>
      if Ascii.eqb a c then (EmptyString, s)
      else let (x, y) := cut_at c r in (String a x, y)
  end.
Definition dot : ascii := "."%char.

(** PathAttr::fromString: each piece is one character (whatever it is) and all
    that follows up to the next dot, because the search starts at pos + 1. *)
Fixpoint path_pieces (fuel : nat) (s : string) : list string :=
  match fuel with
  | O => []
  | S fuel =>
      match s with
      | EmptyString => []
      | String a r =>
          let (x, y) := cut_at dot r in
          String a x :: match y with
                        | EmptyString => []
                        | String _ rest => path_pieces fuel rest
                        end
      end
  end.
Definition path_from_string (s : string) : path := path_pieces (String.length s) s.

(** PathAttr::print. *)
Fixpoint path_to_string (p : path) : string :=
  match p with
  | [] => EmptyString
  | [n] => n
  | n :: r => n ++ "." ++ path_to_string r
  end%string.

(** checkVariantPath l.692-737, for a non-empty path; true is acceptance. *)
Fixpoint check_variant_path (t : ty) (p : path) (check_term : bool) : bool :=
  match p with
  | [] => false
  | [last] =>
      match t with
      | TVar x ts => negb (x_outline x) &&
                     (negb check_term || existsb (fun u => String.eqb (t_name u) last) ts)
      | _ => false
      end
  | n :: r =>
      match t with
      | TStruct fs _ _ =>
          match find_field n fs with
          | Some f => check_variant_path (f_ty f) r check_term
          | None => false
          end
      | _ => false
      end
  end.

(** DecoderDecl l.840-852: the handlers of a decoder, numbered in order. *)
Definition same_path (a b : path) : bool := if list_eq_dec string_dec a b then true else false.
Fixpoint paths_distinct (ps : list path) : bool :=
  match ps with
  | [] => true
  | p :: r => negb (existsb (same_path p) r) && paths_distinct r
  end.
Definition parse_handlers (dst : ty) (ps : list path) : option (list path) :=
  if forallb (fun p => check_variant_path dst p true) ps && paths_distinct ps
  then Some ps else None.
(** The decoder's dispatch table (DispatchHandlerAttr: path and index, context.cpp l.274-283;
    the index is the position in the list). *)
Fixpoint number_from (i : Z) (ps : list path) : handlers :=
  match ps with
  | [] => []
  | p :: r => (p, i) :: number_from (i + 1) r
  end.
