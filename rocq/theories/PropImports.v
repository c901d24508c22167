(** Imports: the property theorems. *)
From Verif Require Import Base Types Parse Imports ImportsFacts.
From Coq Require Import List.
Import ListNotations.

(** C46: parsing ends, whatever imports what. *)
Theorem C46_ends : forall f flags root, pjc f flags root <> Error EFuel.
Proof. exact C46_ends_proof. Qed.
Print Assumptions C46_ends.

(** C46: a file is accepted iff replacing its imports by what they import ends ([expands]), and in
    the text so obtained every name is defined once and before it is used ([well_defined]).
    Missing: a file imported along two routes is defined once; it is defined twice and rejected
    ([C46_twice], [C46_refuted]). *)
Theorem C46_accepts_partial : forall f flags root defs,
  pjc f flags root = Done defs <->
  exists l e, contents f root = Some l /\ expands f (import_dirs flags) l e /\
    well_defined e /\ defs = rev (map d_name e).
Proof. exact C46_accepts_proof. Qed.
Print Assumptions C46_accepts_partial.

(** C46: a cycle is reported only if there is one. *)
Theorem C46_cycle : forall f flags root, pjc f flags root = Error ECycle ->
  exists p, reaches f (import_dirs flags) p p.
Proof. exact C46_cycle_proof. Qed.
Print Assumptions C46_cycle.

Theorem C46_twice : forall f flags root l e1 e2 e3 d1 d2,
  contents f root = Some l -> expands f (import_dirs flags) l (e1 ++ d1 :: e2 ++ d2 :: e3) ->
  d_name d1 = d_name d2 -> forall defs, pjc f flags root <> Done defs.
Proof. exact C46_twice_proof. Qed.
Print Assumptions C46_twice.

Theorem C46_refuted : exists f flags root l e,
  contents f root = Some l /\ expands f (import_dirs flags) l e /\ NoDup (written f) /\
  pjc f flags root = Error ERedefined.
Proof. exact C46_refuted_proof. Qed.
Print Assumptions C46_refuted.

(** C46: a file can be accepted as an import although it is not acceptable by itself. *)
Theorem C46_alone_refuted : exists f flags root p defs,
  imports f (import_dirs flags) root p /\ pjc f flags root = Done defs /\
  pjc f flags p = Error EUnresolved.
Proof. exact C46_alone_refuted_proof. Qed.
Print Assumptions C46_alone_refuted.

(** C47.  Missing: imports found in several directories; the order of the options is then ignored
    ([C47_refuted]). *)
Theorem C47_only_partial : forall f flags id d,
  In d flags -> contents f (import_path d id) <> None ->
  (forall d', In d' flags -> contents f (import_path d' id) <> None ->
     import_path d' id = import_path d id) ->
  find_import f (import_dirs flags) id = Some (import_path d id).
Proof. exact C47_only_proof. Qed.
Print Assumptions C47_only_partial.

Theorem C47_missing : forall f flags id,
  find_import f (import_dirs flags) id = None <->
  forall d, In d flags -> contents f (import_path d id) = None.
Proof. exact C47_missing_proof. Qed.
Print Assumptions C47_missing.

Theorem C47_refuted : exists f id d1 d2,
  contents f (import_path d1 id) <> None /\ contents f (import_path d2 id) <> None /\
  import_path d1 id <> import_path d2 id /\
  find_import f (import_dirs [d1; d2]) id = Some (import_path d2 id) /\
  find_import f (import_dirs [d2; d1]) id = Some (import_path d2 id).
Proof. exact C47_refuted_proof. Qed.
Print Assumptions C47_refuted.
