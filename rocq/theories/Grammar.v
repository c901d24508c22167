(** The grammar of schema files.  Model only.

    /repo/pj/parse.cpp l.212-953, with the meaning the PEGTL library gives to its
    rules: ordered choice, greedy repetition without backtracking into it, and
    [must], which turns a failure into an error.  A parser returns what its rule
    matched; the actions are modelled elsewhere (Parse.v, Imports.v, Elab.v).
    Numbers stay texts here. *)
From Coq Require Import Ascii String List Bool Arith.
Import ListNotations.
Local Open Scope char_scope.

Definition text := list ascii.
Definition chars (s : string) : text := list_ascii_of_string s.

(** A rule matches and leaves the rest, fails without consuming, or raises
    parse_error. *)
Inductive pres (A : Type) := Yes (a : A) (r : text) | No | Abort.
Arguments Yes {A} _ _.
Arguments No {A}.
Arguments Abort {A}.
Definition andthen {A B} (x : pres A) (f : A -> text -> pres B) : pres B :=
  match x with Yes a r => f a r | No => No | Abort => Abort end.
Notation "'do' a , r <- x ; e" := (andthen x (fun a r => e))
  (at level 200, a name, r name, x at level 100, e at level 200).
(** must<R>, and what follows the condition of if_must. *)
Definition must {A} (x : pres A) : pres A := match x with No => Abort | _ => x end.
Definition opt {A} (p : text -> pres A) (s : text) : pres (option A) :=
  match p s with Yes a r => Yes (Some a) r | No => Yes None s | Abort => Abort end.
(** sor<P, Q>. *)
Definition orelse {A} (x y : pres A) : pres A := match x with No => y | _ => x end.
Fixpoint star_f {A} (fuel : nat) (p : text -> pres A) (s : text) : pres (list A) :=
  match fuel with
  | O => Yes [] s
  | S n =>
      match p s with
      | Yes a r => do l, r' <- star_f n p r; Yes (a :: l) r'
      | No => Yes [] s
      | Abort => Abort
      end
  end.
(** star<P>: every match of [P] takes a character, so the fuel is enough. *)
Definition star {A} (p : text -> pres A) (s : text) : pres (list A) := star_f (S (length s)) p s.

(** ** Characters (tao::pegtl::ascii) *)
Definition between (a b c : ascii) : bool :=
  Nat.leb (nat_of_ascii a) (nat_of_ascii c) && Nat.leb (nat_of_ascii c) (nat_of_ascii b).
Definition newline : ascii := "010".
Definition is_space (c : ascii) : bool := Ascii.eqb c " " || between "009" "013" c.
Definition is_digit (c : ascii) : bool := between "0" "9" c.
Definition ident_first (c : ascii) : bool := between "a" "z" c || between "A" "Z" c || Ascii.eqb c "_".
Definition ident_other (c : ascii) : bool := ident_first c || is_digit c.

(** ** Space and comments: l.214-228 *)
(** The text after the end of the line; a carriage return before it is part of it. *)
Fixpoint line (s : text) : option text :=
  match s with
  | [] => None
  | c :: r => if Ascii.eqb c newline then Some r else line r
  end.
Definition space_or_comment (s : text) : option text :=
  match s with
  | c :: r =>
      if is_space c then Some r
      else if Ascii.eqb c "/" then
        match r with
        | d :: r' => if Ascii.eqb d "/" then line r' else None
        | [] => None
        end
      else None
  | [] => None
  end.
Fixpoint skip_f (fuel : nat) (s : text) : text :=
  match fuel with
  | O => s
  | S n => match space_or_comment s with Some r => skip_f n r | None => s end
  end.
Definition skip (s : text) : text := skip_f (length s) s.

(** string<...> *)
Fixpoint lit (k : text) (s : text) : option text :=
  match k, s with
  | [], _ => Some s
  | a :: k', b :: s' => if Ascii.eqb a b then lit k' s' else None
  | _ :: _, [] => None
  end.
(** tok<C> = pad<string<C>, space_or_comment> *)
Definition tok (c : ascii) (s : text) : pres unit :=
  match lit [c] (skip s) with Some r => Yes tt (skip r) | None => No end.
Definition starts (p : ascii -> bool) (s : text) : bool :=
  match s with c :: _ => p c | [] => false end.
(** KEYWORD(X) = pad<seq<string<X>, not_at<identifier_other>>, space_or_comment> *)
Definition keyword (k : string) (s : text) : pres unit :=
  match lit (chars k) (skip s) with
  | Some r => if starts ident_other r then No else Yes tt (skip r)
  | None => No
  end.

Fixpoint span (p : ascii -> bool) (s : text) : text * text :=
  match s with
  | c :: r => if p c then let (a, b) := span p r in (c :: a, b) else ([], s)
  | [] => ([], [])
  end.
(** num = plus<digit> *)
Definition num (s : text) : pres text :=
  match span is_digit s with ([], _) => No | (d, r) => Yes d r end.
(** identifier = seq<identifier_first, star<identifier_other>>; Id: l.285-295 *)
Definition id (s : text) : pres text :=
  if starts ident_first s then let (a, r) := span ident_other s in Yes a r else No.
(** IdSuffix, ScopedId: l.297-299 *)
Definition id_suffix (s : text) : pres text := do x, r <- tok "." s; must (id r).
Definition scoped_id (s : text) : pres (list text) :=
  do a, r <- must (id s); do l, r2 <- star id_suffix r; Yes (a :: l) r2.

(** ** Types: l.248-388 *)
Inductive base :=
| BUint (d : text) | BInt (d : text) | BChar (d : text) | BFloat (d : text) | BAny
| BRef (n : list text).
Inductive modifier := Fixed (d : text) | Var (mn mx : option text).
Record texpr := mkT { t_base : base; t_mods : list modifier }.

Definition prefixed (k : string) (s : text) : pres text :=
  match lit (chars k) s with Some r => num r | None => No end.
Definition map_pres {A B} (f : A -> B) (x : pres A) : pres B := do a, r <- x; Yes (f a) r.
Definition base_type (s : text) : pres base :=
  orelse (map_pres BUint (prefixed "uint" s))
 (orelse (map_pres BInt (prefixed "int" s))
 (orelse (map_pres BChar (prefixed "char" s))
 (orelse (map_pres BFloat (prefixed "float" s))
 (orelse (map_pres (fun _ => BAny) (keyword "any" s))
         (map_pres BRef (scoped_id s)))))).
Definition fixed_mod (s : text) : pres modifier :=
  do x, r <- tok "[" s; do d, r2 <- num r; do y, r3 <- tok "]" r2; Yes (Fixed d) r3.
Definition var_mod (s : text) : pres modifier :=
  do x, r <- tok "[" s; do a, r2 <- opt num r; do y, r3 <- tok ":" r2;
  do b, r4 <- opt num r3; do z, r5 <- tok "]" r4; Yes (Var a b) r5.
Definition modif (s : text) : pres modifier := orelse (fixed_mod s) (var_mod s).
Definition type_expr (s : text) : pres texpr :=
  do b, r <- base_type s; do l, r2 <- star modif r; Yes (mkT b l) r2.

(** ** Declarations: l.390-953 *)
Inductive tagv := TagNum (d : text) | TagChar (c : ascii).
Record vfield := mkVF { vf_name : text; vf_type : option texpr; vf_tag : option tagv;
                        vf_default : bool }.
Inductive portal_fn :=
| Sizer (n : text) (round_up : bool) (src : list text) (p : option text)
| Encoder (n : text) (src : list text) (p : option text)
| Decoder (n : text) (dst : list text) (hs : option (list text)).
Inductive decl :=
| DImport (n : list text)
| DStruct (n : text) (ext : bool) (fs : list (text * texpr))
| DVariant (n : text) (ext : bool) (fs : list vfield)
| DEnum (n : text) (ext : bool) (fs : list vfield)
| DSpec (n : text) (head : list text) (p : option text)
| DType (n : text) (ext : bool) (t : texpr)
| DSpace (n : text) (ds : list decl)
| DLanguage (n : text) (body : text)
| DPortal (n : text) (proto : list text) (fs : list portal_fn)
| DPrecomp (n : text) (portal proto : list text).

Definition is_some {A} (o : option A) : bool := match o with Some _ => true | None => false end.
(** opt<KEYWORD(X)>, as a flag. *)
Definition flag (k : string) (s : text) : pres bool := map_pres is_some (opt (keyword k) s).

(** FieldDecl: l.390 *)
Definition field_decl (s : text) : pres (text * texpr) :=
  do n, r <- id s; do x, r2 <- must (tok ":" r); do t, r3 <- must (type_expr r2);
  do y, r4 <- must (tok ";" r3); Yes (n, t) r4.
(** ExplicitTag, ExplicitTagDecl: l.482, l.507 *)
Definition char_tag (s : text) : pres tagv :=
  match s with
  | a :: c :: b :: r =>
      if Ascii.eqb a "'" && Ascii.eqb b "'" then Yes (TagChar c) r else No
  | _ => No
  end.
Definition explicit_tag (s : text) : pres tagv := orelse (map_pres TagNum (num s)) (char_tag s).
Definition tag_decl (s : text) : pres (option tagv) :=
  opt (fun s => do x, r <- tok "=" s; must (explicit_tag r)) s.
(** VariantFieldDecl, EnumFieldDecl: l.534-541 *)
Definition variant_field (s : text) : pres vfield :=
  do n, r <- id s;
  do t, r2 <- must (opt (fun s => do x, r <- tok ":" s; type_expr r) r);
  do g, r3 <- must (tag_decl r2); do d, r4 <- must (flag "default" r3);
  do y, r5 <- must (tok ";" r4); Yes (mkVF n t g d) r5.
Definition enum_field (s : text) : pres vfield :=
  do n, r <- id s; do g, r3 <- must (tag_decl r); do d, r4 <- must (flag "default" r3);
  do y, r5 <- must (tok ";" r4); Yes (mkVF n None g d) r5.
(** StructDecl l.441, VariantDecl l.624, EnumDecl l.630 *)
Definition composite {A B} (k : string) (f : text -> pres A) (mk : text -> bool -> list A -> B)
           (s : text) : pres B :=
  do x, r <- keyword k s; do n, r2 <- must (id r); do e, r3 <- must (flag "external" r2);
  do y, r4 <- must (tok "{" r3); do l, r5 <- must (star f r4); do z, r6 <- must (tok "}" r5);
  Yes (mk n e l) r6.
(** TypeDecl l.408, ImportDecl l.650 *)
Definition type_decl (s : text) : pres decl :=
  do x, r <- keyword "type" s; do n, r2 <- must (id r); do e, r3 <- must (flag "external" r2);
  do y, r4 <- must (tok "=" r3); do t, r5 <- must (type_expr r4); do z, r6 <- must (tok ";" r5);
  Yes (DType n e t) r6.
Definition import_decl (s : text) : pres decl :=
  do x, r <- keyword "import" s; do n, r2 <- must (scoped_id r); do y, r3 <- must (tok ";" r2);
  Yes (DImport n) r3.
(** Path l.678: the text from the first to the last character matched. *)
Definition path_step (s : text) : pres unit := do n, r <- id s; tok "." r.
Definition path_text (s : text) : pres text :=
  do l, r <- star path_step s; do n, r2 <- id r; Yes (firstn (length s - length r2) s) r2.
(** PathDecl l.687 *)
Definition path_decl (s : text) : pres (option text) :=
  opt (fun s => do x, r <- tok "@" s; must (path_text r)) s.
(** SpecDecl l.739 *)
Definition spec_decl (s : text) : pres decl :=
  do x, r <- keyword "specification" s; do n, r2 <- must (id r); do y, r3 <- must (tok ":" r2);
  do h, r4 <- must (scoped_id r3); do p, r5 <- must (path_decl r4); do z, r6 <- must (tok ";" r5);
  Yes (DSpec n h p) r6.
(** SizerDecl l.816, EncoderDecl l.822, HandlersDecl l.828, DecoderDecl l.832 *)
Definition sizer_decl (s : text) : pres portal_fn :=
  do x, r <- keyword "sizer" s; do n, r2 <- must (id r); do u, r3 <- must (flag "round_up" r2);
  do y, r4 <- must (tok ":" r3); do t, r5 <- must (scoped_id r4); do p, r6 <- must (path_decl r5);
  do z, r7 <- must (tok ";" r6); Yes (Sizer n u t p) r7.
Definition encoder_decl (s : text) : pres portal_fn :=
  do x, r <- keyword "encoder" s; do n, r2 <- must (id r); do y, r4 <- must (tok ":" r2);
  do t, r5 <- must (scoped_id r4); do p, r6 <- must (path_decl r5);
  do z, r7 <- must (tok ";" r6); Yes (Encoder n t p) r7.
Definition handlers_decl (s : text) : pres (list text) :=
  do x, r <- tok "{" s; do y, r2 <- must (keyword "handlers" r); do z, r3 <- must (tok "[" r2);
  do p, r4 <- must (path_text r3);
  do l, r5 <- must (star (fun s => do c, r <- tok "," s; path_text r) r4);
  do c, r6 <- must (opt (tok ",") r5); do b, r7 <- must (tok "]" r6);
  do e, r8 <- must (tok ";" r7); do f, r9 <- must (tok "}" r8); Yes (p :: l) r9.
Definition decoder_decl (s : text) : pres portal_fn :=
  do x, r <- keyword "decoder" s; do n, r2 <- must (id r); do y, r3 <- must (tok ":" r2);
  do t, r4 <- must (scoped_id r3); do h, r5 <- must (opt handlers_decl r4);
  do z, r6 <- must (tok ";" r5); Yes (Decoder n t h) r6.
(** PrecompDecl l.871, PortalDecl l.897 *)
Definition precomp_decl (s : text) : pres decl :=
  do x, r <- keyword "precompile" s; do n, r2 <- must (id r); do y, r3 <- must (tok ":" r2);
  do t, r4 <- must (scoped_id r3); do a, r5 <- must (tok "(" r4); do p, r6 <- must (scoped_id r5);
  do b, r7 <- must (tok ")" r6); do z, r8 <- must (tok ";" r7); Yes (DPrecomp n t p) r8.
Definition portal_decl (s : text) : pres decl :=
  do x, r <- keyword "portal" s; do n, r2 <- must (id r); do y, r3 <- must (tok ":" r2);
  do p, r4 <- must (scoped_id r3); do a, r5 <- must (tok "{" r4);
  do l, r6 <- must (star (fun s => orelse (sizer_decl s) (orelse (encoder_decl s) (decoder_decl s))) r5);
  do b, r7 <- must (tok "}" r6); Yes (DPortal n p l) r7.
(** LanguageDecl l.927-936: one space or comment before the delimiter. *)
Definition quotes : text := [""""; """"; """"].
Fixpoint until_quotes (s : text) : option (text * text) :=
  match lit quotes s with
  | Some r => Some ([], r)
  | None =>
      match s with
      | [] => None
      | c :: r => match until_quotes r with Some (a, b) => Some (c :: a, b) | None => None end
      end
  end.
Definition literal (s : text) : pres text :=
  match space_or_comment s with
  | Some r =>
      match lit quotes r with
      | Some r2 => match until_quotes r2 with Some (a, b) => Yes a b | None => No end
      | None => No
      end
  | None => No
  end.
Definition language_decl (s : text) : pres decl :=
  do x, r <- keyword "language" s; do n, r2 <- must (id r); do b, r3 <- must (literal r2);
  Yes (DLanguage n b) r3.
(** TopDecl l.949, SpaceDecl l.647.  The fuel bounds the nesting of spaces. *)
Fixpoint top_decl (fuel : nat) (s : text) : pres decl :=
  orelse (import_decl s)
 (orelse (composite "struct" field_decl DStruct s)
 (orelse (composite "variant" variant_field DVariant s)
 (orelse (composite "enum" enum_field DEnum s)
 (orelse (spec_decl s)
 (orelse (type_decl s)
 (orelse
   (do x, r <- keyword "space" s; do n, r2 <- must (id r); do y, r3 <- must (tok "{" r2);
    do l, r4 <- must (match fuel with O => No | S f => star (top_decl f) r3 end);
    do z, r5 <- must (tok "}" r4); Yes (DSpace n l) r5)
 (orelse (language_decl s)
 (orelse (portal_decl s) (precomp_decl s))))))))).
(** ParseFile l.953 *)
Definition parse_text (s : text) : option (list decl) :=
  match star (top_decl (length s)) s with
  | Yes l [] => Some l
  | _ => None
  end.
