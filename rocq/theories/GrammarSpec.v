(** How a schema file is written: the tokens of each declaration, and the texts
    that hold these tokens with space and comments between them.  Independent of
    the rules of the parser. *)
From Coq Require Import Ascii String List Bool Arith.
From Verif Require Import Grammar.
Import ListNotations.
Local Open Scope char_scope.

(** ** Tokens *)
Definition kw (k : string) : list text := [chars k].
Definition p1 (c : ascii) : list text := [[c]].
Fixpoint dotted (l : list text) : list text :=
  match l with
  | [] => []
  | [a] => [a]
  | a :: r => a :: ["."] :: dotted r
  end.
Definition opt_toks {A} (f : A -> list text) (o : option A) : list text :=
  match o with Some a => f a | None => [] end.
Definition base_toks (b : base) : list text :=
  match b with
  | BUint d => [chars "uint" ++ d]
  | BInt d => [chars "int" ++ d]
  | BChar d => [chars "char" ++ d]
  | BFloat d => [chars "float" ++ d]
  | BAny => kw "any"
  | BRef n => dotted n
  end.
Definition mod_toks (m : modifier) : list text :=
  match m with
  | Fixed d => p1 "[" ++ [d] ++ p1 "]"
  | Var a b => p1 "[" ++ opt_toks (fun d => [d]) a ++ p1 ":" ++ opt_toks (fun d => [d]) b ++ p1 "]"
  end.
Definition type_toks (t : texpr) : list text := base_toks (t_base t) ++ flat_map mod_toks (t_mods t).
Definition field_toks (f : text * texpr) : list text :=
  [fst f] ++ p1 ":" ++ type_toks (snd f) ++ p1 ";".
Definition tag_toks (t : tagv) : list text :=
  p1 "=" ++ [match t with TagNum d => d | TagChar c => ["'"; c; "'"] end].
Definition flag_toks (k : string) (b : bool) : list text := if b then kw k else [].
Definition vfield_toks (f : vfield) : list text :=
  [vf_name f] ++ opt_toks (fun t => p1 ":" ++ type_toks t) (vf_type f)
  ++ opt_toks tag_toks (vf_tag f) ++ flag_toks "default" (vf_default f) ++ p1 ";".
Definition body_toks {A} (k : string) (f : A -> list text) (n : text) (e : bool) (l : list A)
  : list text :=
  kw k ++ [n] ++ flag_toks "external" e ++ p1 "{" ++ flat_map f l ++ p1 "}".
Definition at_toks (p : text) : list text := p1 "@" ++ [p].
Fixpoint commas (l : list text) : list text :=
  match l with
  | [] => []
  | [a] => [a]
  | a :: r => a :: [","] :: commas r
  end.
Definition handlers_toks (l : list text) : list text :=
  p1 "{" ++ kw "handlers" ++ p1 "[" ++ commas l ++ p1 "]" ++ p1 ";" ++ p1 "}".
Definition fn_toks (f : portal_fn) : list text :=
  match f with
  | Sizer n u t p =>
      kw "sizer" ++ [n] ++ flag_toks "round_up" u ++ p1 ":" ++ dotted t ++ opt_toks at_toks p ++ p1 ";"
  | Encoder n t p => kw "encoder" ++ [n] ++ p1 ":" ++ dotted t ++ opt_toks at_toks p ++ p1 ";"
  | Decoder n t h => kw "decoder" ++ [n] ++ p1 ":" ++ dotted t ++ opt_toks handlers_toks h ++ p1 ";"
  end.
Fixpoint decl_toks (d : decl) : list text :=
  match d with
  | DImport n => kw "import" ++ dotted n ++ p1 ";"
  | DStruct n e l => body_toks "struct" field_toks n e l
  | DVariant n e l => body_toks "variant" vfield_toks n e l
  | DEnum n e l => body_toks "enum" vfield_toks n e l
  | DSpec n h p => kw "specification" ++ [n] ++ p1 ":" ++ dotted h ++ opt_toks at_toks p ++ p1 ";"
  | DType n e t => kw "type" ++ [n] ++ flag_toks "external" e ++ p1 "=" ++ type_toks t ++ p1 ";"
  | DSpace n ds => kw "space" ++ [n] ++ p1 "{" ++ flat_map decl_toks ds ++ p1 "}"
  | DLanguage n b => kw "language" ++ [n] ++ [quotes ++ b ++ quotes]
  | DPortal n p l =>
      kw "portal" ++ [n] ++ p1 ":" ++ dotted p ++ p1 "{" ++ flat_map fn_toks l ++ p1 "}"
  | DPrecomp n t p =>
      kw "precompile" ++ [n] ++ p1 ":" ++ dotted t ++ p1 "(" ++ dotted p ++ p1 ")" ++ p1 ";"
  end.

(** ** What can be written *)
Definition name (n : text) : Prop := starts ident_first n = true /\ forallb ident_other n = true.
Definition digits (d : text) : Prop := d <> [] /\ forallb is_digit d = true.
Definition names (l : list text) : Prop := l <> [] /\ Forall name l.
(** A name a type can be referred to by. *)
Definition free (n : text) : Prop :=
  n <> chars "any" /\
  (forall k c r, In k ["uint"; "int"; "char"; "float"]%string -> is_digit c = true ->
                 n <> chars k ++ c :: r).
Definition ok_base (b : base) : Prop :=
  match b with
  | BUint d | BInt d | BChar d | BFloat d => digits d
  | BAny => True
  | BRef n => names n /\ free (hd [] n)
  end.
Definition ok_opt {A} (P : A -> Prop) (o : option A) : Prop :=
  match o with Some a => P a | None => True end.
Definition ok_mod (m : modifier) : Prop :=
  match m with Fixed d => digits d | Var a b => ok_opt digits a /\ ok_opt digits b end.
Definition ok_type (t : texpr) : Prop := ok_base (t_base t) /\ Forall ok_mod (t_mods t).
Definition ok_field (f : text * texpr) : Prop := name (fst f) /\ ok_type (snd f).
Definition ok_tag (t : tagv) : Prop := match t with TagNum d => digits d | TagChar _ => True end.
Definition ok_vfield (f : vfield) : Prop :=
  name (vf_name f) /\ ok_opt ok_type (vf_type f) /\ ok_opt ok_tag (vf_tag f).
(** The text of a path: names with a dot between them. *)
Fixpoint dot_text (l : list text) : text :=
  match l with
  | [] => []
  | [a] => a
  | a :: r => a ++ "." :: dot_text r
  end.
Definition path (p : text) : Prop := exists l, names l /\ p = dot_text l.
Definition ok_fn (f : portal_fn) : Prop :=
  match f with
  | Sizer n _ t p | Encoder n t p => name n /\ names t /\ ok_opt path p
  | Decoder n t h => name n /\ names t /\ ok_opt (fun l => l <> [] /\ Forall path l) h
  end.
(** A text that does not end its own literal. *)
Definition quotable (b : text) : Prop := forall x y, b ++ quotes = x ++ quotes ++ y -> y = [].
Definition All {A} (P : A -> Prop) : list A -> Prop :=
  fix all l := match l with [] => True | x :: r => P x /\ all r end.
Fixpoint ok_decl (d : decl) : Prop :=
  match d with
  | DImport n => names n
  | DStruct n _ l => name n /\ Forall ok_field l
  | DVariant n _ l => name n /\ Forall ok_vfield l
  | DEnum n _ l => name n /\ Forall (fun f => ok_vfield f /\ vf_type f = None) l
  | DSpec n h p => name n /\ names h /\ ok_opt path p
  | DType n _ t => name n /\ ok_type t
  | DSpace n ds => name n /\ All ok_decl ds
  | DLanguage n b => name n /\ quotable b
  | DPortal n p l => name n /\ names p /\ Forall ok_fn l
  | DPrecomp n t p => name n /\ names t /\ names p
  end.

(** ** Space between tokens *)
Inductive one_filler : text -> Prop :=
| One_space c : is_space c = true -> one_filler [c]
| One_comment b : ~ In newline b -> one_filler ("/" :: "/" :: b ++ [newline]).
Inductive filler : text -> Prop :=
| Filler_nil : filler []
| Filler_cons a g : one_filler a -> filler g -> filler (a ++ g).
Definition ends_word (t : text) : bool := starts ident_other (rev t).
Definition quoted (t : text) : bool := starts (Ascii.eqb """") t.
(** The gap between a token and the next: words are kept apart, and exactly one
    space or comment stands before the text of another language.  Such a text at
    the end of the file ends the file. *)
Definition apart (t g : text) (ts : list text) : Prop :=
  match ts with
  | [] => quoted t = true -> g = []
  | u :: _ => (ends_word t = true -> starts ident_other u = true -> g <> []) /\
              (quoted u = true -> one_filler g)
  end.
Inductive spaced : list text -> text -> Prop :=
| Spaced_nil : spaced [] []
| Spaced_cons t g ts s : filler g -> apart t g ts -> spaced ts s -> spaced (t :: ts) (t ++ g ++ s).
(** A file: space, then the tokens of the declarations. *)
Definition file_of (ds : list decl) (s : text) : Prop :=
  exists g r, s = g ++ r /\ filler g /\ (ds = [] -> g = []) /\ spaced (flat_map decl_toks ds) r.
