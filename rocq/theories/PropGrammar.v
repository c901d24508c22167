(** The grammar of schema files: the property theorems. *)
From Verif Require Import Grammar GrammarSpec GrammarFacts GrammarDemo GrammarSound.
From Coq Require Import Ascii String List.
Import ListNotations.
Local Open Scope char_scope.

(** C49: any spacing and comments between the tokens.  Missing: references to types whose name starts
    like a built-in type ([C49_shadowed]), a comment that the file ends in ([C49_end_comment_refuted]),
    files of blanks only ([C49_blank_refuted]), and space after a language text at the end of the file
    ([C49_literal_end_refuted]). *)
Theorem C49_read_partial : forall ds s, All ok_decl ds -> file_of ds s -> parse_text s = Some ds.
Proof. exact C49_read_proof. Qed.
Print Assumptions C49_read_partial.

(** C49: whatever is read is made of identifiers and numbers. *)
Theorem C49_legible : forall s ds, parse_text s = Some ds -> All legible ds.
Proof. exact C49_legible_proof. Qed.
Print Assumptions C49_legible.

(** C49: a field of type [int8x], [float32_t], ... is never read, however it is spaced. *)
Theorem C49_shadowed : forall a f k d r s,
  name a -> name f -> In k ["uint"; "int"; "char"; "float"]%string -> digits d -> name r ->
  spaced (decl_toks (DStruct a false [(f, mkT (BRef [chars k ++ d ++ r]) [])])) s ->
  parse_text s = None.
Proof. exact C49_shadowed_proof. Qed.
Print Assumptions C49_shadowed.

Theorem C49_end_comment_refuted : exists ds s b,
  All ok_decl ds /\ spaced (flat_map decl_toks ds) s /\ ~ In newline b /\
  parse_text s = Some ds /\ parse_text (s ++ "/" :: "/" :: b) = None.
Proof. exact C49_end_comment_refuted_proof. Qed.
Print Assumptions C49_end_comment_refuted.

Theorem C49_blank_refuted : parse_text [] = Some [] /\ forall g, filler g -> g <> [] -> parse_text g = None.
Proof. exact C49_blank_refuted_proof. Qed.
Print Assumptions C49_blank_refuted.

Theorem C49_literal_end_refuted : exists ds s,
  All ok_decl ds /\ parse_text s = Some ds /\ parse_text (s ++ [newline]) = None.
Proof. exact C49_literal_end_refuted_proof. Qed.
Print Assumptions C49_literal_end_refuted.
