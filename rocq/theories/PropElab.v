(** From schema files to types and portals: the property theorems. *)
From Verif Require Import Base Types Transcode Spec Api Plan Claims Schema GenFacts Ends MemFacts Round Space CoreFacts Cpp CppFacts CppClaims Grammar GrammarSpec Parse ParseFacts Imports ImportsFacts Elab ElabSpec ElabFacts ElabClaims PortalFacts ElabDemo.
From Coq Require Import Ascii String List ZArith.
Import ListNotations.
Local Open Scope string_scope.
Local Open Scope list_scope.
Local Open Scope Z_scope.

(** C50: every type comes from a declaration of that name in a file that is used, and is the type
    declared there ([declares]: names refer to the types declared before). *)
Theorem C50_declared : forall b f flags root w loc,
  front b f flags root = Good (w, loc) ->
  NoDup (map fst (w_types w)) /\
  forall later n t earlier, w_types w = later ++ (n, t) :: earlier ->
    exists p sp d, uses f flags root p /\ in_file f p sp d /\ declares earlier sp d n t.
Proof. exact C50_declared_proof. Qed.
Print Assumptions C50_declared.

(** C50: no declaration is dropped. *)
Theorem C50_all : forall b f flags root w loc p sp d n,
  front b f flags root = Good (w, loc) -> uses f flags root p -> in_file f p sp d ->
  type_name d = Some n -> exists t, In ((sp ++ [str n])%list, t) (w_types w).
Proof. exact C50_all_proof. Qed.
Print Assumptions C50_all.

Theorem C50_sane : forall b f flags root w loc n t,
  front b f flags root = Good (w, loc) -> In (n, t) (w_types w) -> sane t.
Proof. exact C50_sane_proof. Qed.
Print Assumptions C50_sane.

(** C50: every protocol comes from a specification, and is checked. *)
Theorem C50_specs : forall b f flags root w loc n t q,
  front b f flags root = Good (w, loc) -> In (n, (t, q)) (w_specs w) ->
  exists p sp k h pa m later earlier, uses f flags root p /\ in_file f p sp (DSpec k h pa) /\
    n = (sp ++ [str k])%list /\ w_types w = (later ++ earlier)%list /\
    refers earlier sp (strs h) m t /\ q = path_of pa /\
    (q = [] \/ last_piece q = "_"%string /\ check_variant_path t q false = true).
Proof. exact C50_specs_proof. Qed.
Print Assumptions C50_specs.

(** C50: from the text of the schema to the objects of a C++ program.  Missing: the protocols that
    are accepted but not [usable], for which it is false ([C50_transport_refuted]). *)
Theorem C50_round_trip_partial : forall fconv b f flags root w loc n t tp pr S m obj v,
  front b f flags root = Good (w, loc) -> In (n, (t, tp)) (w_specs w) ->
  usable t = true -> cpp_ok t = true -> strides_ok t = true ->
  planned (build t) tp pr ->
  holds S m t obj v -> known v = true -> msg_len pr v < 2 ^ 63 ->
  exists len, size_fn fconv pr (build t) [] false obj m = Some len /\
  forall buf, clear_of S buf len ->
  exists s, encode fconv pr (build t) [] obj buf m = Ok s /\
    forall m2 msg obj2 dbuf dsize,
      same_bytes len (s_mem s) buf m2 msg ->
      arena (build t) (inR msg len) obj2 dbuf dsize -> space (build t) v <= dsize ->
      exists o, decode fconv pr (build t) [] msg obj2 dbuf dsize m2 = DOk o /\
        0 <= o_size o /\
        holds (fun x => inR obj2 (csize t) x \/ inR dbuf dsize x) (o_mem o) t obj2 v /\
        forall R v2, holds R (o_mem o) t obj2 v2 -> v2 = v.
Proof. exact C50_round_trip_proof. Qed.
Print Assumptions C50_round_trip_partial.

(** C50: files that hold the same declarations mean the same. *)
Theorem C50_layout : forall b f f' flags root, same_files f f' ->
  front b f flags root = front b f' flags root.
Proof. exact C50_layout_proof. Qed.
Print Assumptions C50_layout.

(** C50: the bound on the depth of imports in [front] is never reached. *)
Theorem C50_depth : forall b f flags root n, (List.length f < n)%nat ->
  elab_file n b f (import_dirs flags) [] root no_world = front b f flags root.
Proof. exact C50_depth_proof. Qed.
Print Assumptions C50_depth.

(** C50: nothing undefined happens.  Missing: numbers from 2^63 on ([C50_number_refuted]). *)
Theorem C50_defined_partial : forall b f flags root,
  (forall p sp d x n, uses f flags root p -> in_file f p sp d -> In x (numbers d) -> Dec x n ->
     n < 2 ^ 63) ->
  front b f flags root <> Undefined.
Proof. exact C50_defined_proof. Qed.
Print Assumptions C50_defined_partial.

Theorem C50_number_refuted : exists f root, front false f [] root = Undefined.
Proof. exact C50_number_refuted_proof. Qed.
Print Assumptions C50_number_refuted.

(** C50: a vector of empty structs is accepted. *)
Theorem C50_transport_refuted : exists f root w loc n t tp,
  front false f [] root = Good (w, loc) /\ In (n, (t, tp)) (w_specs w) /\
  cpp_ok t = true /\ strides_ok t = true /\ schema t = false.
Proof. exact C50_transport_refuted_proof. Qed.
Print Assumptions C50_transport_refuted.

(** C51.  Missing: that functions and protocol come from the same declaration; if two files declare
    the portal it is false ([C51_merged_refuted]). *)
Theorem C51_portals_partial : forall b f flags root w loc n po,
  front b f flags root = Good (w, loc) -> In (n, po) (w_portals w) ->
  (exists p sp k proto fs later earlier,
     uses f flags root p /\ in_file f p sp (DPortal k proto fs) /\ n = (sp ++ [str k])%list /\
     w_types w = (later ++ earlier)%list /\ Forall2 (is_fn earlier sp) fs (po_fns po)) /\
  (exists p sp k proto fs later earlier a,
     uses f flags root p /\ in_file f p sp (DPortal k proto fs) /\ n = (sp ++ [str k])%list /\
     w_specs w = (later ++ earlier)%list /\ refers earlier sp (strs proto) (po_proto po) a).
Proof. exact C51_portals_proof. Qed.
Print Assumptions C51_portals_partial.

(** C51: with one declaration of the name, the portal is what it says. *)
Theorem C51_single_partial : forall b f flags root w loc n po p sp k proto fs,
  front b f flags root = Good (w, loc) -> In (n, po) (w_portals w) ->
  n = (sp ++ [str k])%list ->
  (forall p' sp' k' proto' fs', uses f flags root p' -> in_file f p' sp' (DPortal k' proto' fs') ->
     (sp' ++ [str k'])%list = n -> p' = p /\ proto' = proto /\ fs' = fs) ->
  exists types later specs slater a,
    w_types w = (later ++ types)%list /\ Forall2 (is_fn types sp) fs (po_fns po) /\
    w_specs w = (slater ++ specs)%list /\ refers specs sp (strs proto) (po_proto po) a.
Proof. exact C51_single_proof. Qed.
Print Assumptions C51_single_partial.

Theorem C51_merged_refuted : exists f flags root w loc po sp k proto fs,
  front false f flags root = Good (w, loc) /\ in_file f root sp (DPortal k proto fs) /\
  In ((sp ++ [str k])%list, po) (w_portals w) /\
  ~ Forall2 (is_fn (w_types w) sp) fs (po_fns po).
Proof. exact C51_merged_refuted_proof. Qed.
Print Assumptions C51_merged_refuted.

(** C51: a specification is refused although nothing has its name. *)
Theorem C51_new_name_refuted : exists s s' d w loc,
  parse_text (nested s) <> None /\ parse_text (nested s') <> None /\
  front false [("a.pj", nested s)] [] "a.pj" = Good (w, loc) /\
  front false [("a.pj", nested s')] [] "a.pj" = Rejected /\
  in_file [("a.pj", nested s')] "a.pj" ["a"] d /\
  (exists k h, d = DSpec k h None /\ ~ In ["a"; str k] (map fst (w_specs w)) /\
     exists t, In (strs h, t) (w_types w)).
Proof. exact C51_new_name_refuted_proof. Qed.
Print Assumptions C51_new_name_refuted.
