(** Importing schema files.

    /repo/pj/parse.cpp: ImportDecl l.646-670, parseProtoFile l.951-985, resolve l.162-186,
    defineType l.188-194, TypeRef l.297-303; /repo/pj/protogen.hpp ParsingScope l.92-104;
    /repo/pj/pjc.cpp l.75-77, l.98-103; /repo/pj/sourcegen.cpp generate l.1079-1081.
    Model only.

    Simplified: a file is the list of its import declarations and its definitions of types, in
    order; specifications, portals and language blocks, which have name tables of their own, are
    left out.  Paths are the texts std::filesystem::path compares. *)
From Coq Require Import Ascii.
From Verif Require Import Base Types Parse.
Local Open Scope string_scope.

(** [Declare space name uses]: struct, variant, enum or type [name] (its full name, popScopedId
    l.118-133) declared inside the namespaces [space]; [uses]: the names its body mentions, as
    written, each looked up where it stands (TypeRef). *)
Inductive item : Set :=
| Import (id : scoped)
| Declare (space name : scoped) (uses : list scoped).

(** The files that exist. *)
Definition files := list (string * list item).
Fixpoint contents (f : files) (p : string) : option (list item) :=
  match f with
  | [] => None
  | (q, c) :: r => if String.eqb q p then Some c else contents r p
  end.

(** path /= p puts a separator unless the path is empty or ends in one. *)
Fixpoint ends_slash (s : string) : bool :=
  match s with
  | "" => false
  | String a "" => Ascii.eqb a "/"%char
  | String _ r => ends_slash r
  end.
Definition join (p c : string) : string :=
  if String.eqb p "" || ends_slash p then p ++ c else p ++ "/" ++ c.
Definition import_path (dir : string) (id : scoped) : string :=
  fold_left join id dir ++ ".pj".

(** l.652-661: all directories are tried, in the order of the std::set (sorted by name); a later
    one replaces an earlier one. *)
Definition find_import (f : files) (dirs : list string) (id : scoped) : option string :=
  fold_left (fun found d =>
               let p := import_path d id in
               match contents f p with Some _ => Some p | None => found end) dirs None.

Inductive perr : Set := ECycle | ENotFound | EUnresolved | ERedefined | EFuel.
Inductive result (A : Type) : Type := Done (a : A) | Error (e : perr).
Arguments Done {A}. Arguments Error {A}.

(** ParsingScope: pending_files and the keys of type_defs. *)
Record scope := mkScope { sc_pending : list string; sc_defs : list scoped }.

(** A declaration: its uses are resolved while its body is read, then it is defined. *)
Definition declare (space name : scoped) (uses : list scoped) (defs : list scoped)
  : result (list scoped) :=
  if forallb (fun u => match resolve space u defs with Some _ => true | None => false end) uses
  then match define_type name defs with
       | Some d => Done d
       | None => Error ERedefined
       end
  else Error EUnresolved.

(** The declarations of one file in order; [sub] parses an imported file. *)
Fixpoint parse_items (f : files) (dirs : list string) (sub : string -> scope -> result scope)
         (l : list item) (s : scope) : result scope :=
  match l with
  | [] => Done s
  | Import id :: r =>
      match find_import f dirs id with
      | Some p =>
          match sub p s with
          | Done s' => parse_items f dirs sub r s'
          | Error e => Error e
          end
      | None => Error ENotFound
      end
  | Declare space name uses :: r =>
      match declare space name uses (sc_defs s) with
      | Done d => parse_items f dirs sub r (mkScope (sc_pending s) d)
      | Error e => Error e
      end
  end.

(** parseProtoFile l.951-985.  [EFuel] is not an outcome of the program; [C46_ends] shows that
    it is never reached. *)
Fixpoint parse_file (fuel : nat) (f : files) (dirs : list string) (p : string) (s : scope)
  : result scope :=
  match fuel with
  | O => Error EFuel
  | S fuel =>
      if existsb (String.eqb p) (sc_pending s) then Error ECycle
      else match contents f p with
           | None => Error ENotFound          (* file_input throws *)
           | Some l =>
               match parse_items f dirs (parse_file fuel f dirs) l
                                 (mkScope (p :: sc_pending s) (sc_defs s)) with
               | Done s' => Done (mkScope (sc_pending s) (sc_defs s'))
               | Error e => Error e
               end
           end
  end.

(** pjc.cpp l.75-77: the -import-dir options go into a std::set.  Paths are ordered by their
    parts; here by their text. *)
Fixpoint set_insert (d : string) (l : list string) : list string :=
  match l with
  | [] => [d]
  | x :: r => match String.compare d x with
              | Lt => d :: l
              | Eq => l
              | Gt => x :: set_insert d r
              end
  end.
Definition import_dirs (flags : list string) : list string :=
  fold_left (fun s d => set_insert d s) flags [].

(** pjc: parse the file given on the command line with an empty scope. *)
Definition pjc (f : files) (flags : list string) (root : string) : result (list scoped) :=
  match parse_file (S (List.length f)) f (import_dirs flags) root (mkScope [] []) with
  | Done s => Done (sc_defs s)
  | Error e => Error e
  end.
