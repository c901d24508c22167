(** What C53 asks of generated classes, without the text in between. *)
From Coq Require Import Ascii String List Bool.
From Verif Require Import Base Types Transcode Parse Elab Classes.
Import ListNotations.
Local Open Scope string_scope.

(** The function a declaration asks for, under a protocol; types are in the namespace [outer]. *)
Definition asked {P} (outer : scoped) (proto : P) (f : pfn) : built P :=
  match f with
  | PSizer _ src p up => BSize proto (outer ++ src)%list p up
  | PEncoder _ src p => BEncode proto (outer ++ src)%list p
  | PDecoder _ dst hs => BDecode proto (outer ++ dst)%list hs
  end.

(** [q] is the reading of some text, as every path of a schema file is. *)
Definition was_read (q : path) : Prop := exists s, q = path_from_string s.
Definition paths_read (f : pfn) : Prop :=
  match f with
  | PSizer _ _ p _ => was_read p
  | PEncoder _ _ p => was_read p
  | PDecoder _ _ hs => Forall was_read hs
  end.

Fixpoint no_char (c : ascii) (s : string) : Prop :=
  match s with EmptyString => True | String a r => a <> c /\ no_char c r end.
Definition bare_word (s : string) : Prop := no_char "_" s.
