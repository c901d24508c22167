(** Generated classes: the property theorems. *)
From Verif Require Import Base Types Transcode Parse ParseFacts Elab Classes ClassSpec ClassFacts ClassDemo.
From Coq Require Import String List.
Import ListNotations.
Local Open Scope string_scope.

(** C53: the methods of a portal's class, for any protocol its constructors are given; the planned
    protocol is the declared one.  Missing: portals whose class declares a name twice
    ([C53_class_refuted]), and specifications whose head is not a class ([C53_head_refuted]). *)
Theorem C53_portal_partial : forall P b f flags root w loc n po t q outer h (proto : P) fn,
  front b f flags root = Good (w, loc) -> In (n, po) (w_portals w) ->
  In (po_proto po, (t, q)) (w_specs w) ->
  class_ok (portal_class outer n po h q) = true -> In fn (po_fns po) ->
  call (portal_class outer n po h q) proto (fn_name fn) = Some (asked outer proto fn) /\
  k_head (portal_class outer n po h q) = (outer ++ h)%list /\
  path_from_string (k_path (portal_class outer n po h q)) = q.
Proof. exact C53_portal_file_proof. Qed.
Print Assumptions C53_portal_partial.

(** C53: the methods and the schema of precompiled classes.  Missing: programs that define a symbol
    twice ([C53_symbols_refuted]). *)
Theorem C53_precompiled_partial : forall P b f flags root w loc outer spec_of (plan : scoped -> path -> P) ns l,
  front b f flags root = Good (w, loc) -> Forall (of_file w loc spec_of) l ->
  program_ok (program outer spec_of ns l) = true ->
  exists o, run_program plan (program outer spec_of ns l) [] = Some o /\
    forall x, In x l ->
      let proto := plan (outer ++ fst (spec_of (pr_proto x)))%list (snd (spec_of (pr_proto x))) in
      table (ptr_symbol outer (pr_name x)) o = Some (DProto proto) /\
      table (size_symbol outer (pr_name x)) o = Some (DLen proto) /\
      forall fn, In fn (pr_fns x) -> exists s,
        table (fn_name fn) (method_symbols outer x) = Some s /\
        table s o = Some (DFun (asked outer proto fn)).
Proof. exact C53_precompiled_file_proof. Qed.
Print Assumptions C53_precompiled_partial.

(** C53: without underscores in the names, the class declares no name twice, but for a few names.
    (Names C++ refuses for other reasons, such as keywords, are not considered.) *)
Theorem C53_class : forall outer name po h q,
  NoDup (map fn_name (po_fns po)) -> Forall bare_word (map fn_name (po_fns po)) ->
  bare_word (List.last name "") ->
  (forall s, In s [List.last name ""; "getProtocol"; "getContext"; "ctx"; "proto"; "portal"] ->
     ~ In s (map fn_name (po_fns po))) ->
  ~ In (List.last name "") ["getProtocol"; "getContext"] ->
  class_ok (portal_class outer name po h q) = true.
Proof. exact C53_class_proof. Qed.
Print Assumptions C53_class.

(** C53: without underscores in the names, no two symbols or variables are the same. *)
Theorem C53_distinct : forall outer spec_of ns l,
  (forall n, In n (ns ++ map pr_proto l) -> Forall bare_word n) ->
  Forall plain_pre l -> NoDup (map pr_name l) ->
  program_ok (program outer spec_of ns l) = true.
Proof. exact C53_distinct_proof. Qed.
Print Assumptions C53_distinct.

(** C53: names given to pjc as options mean what they say. *)
Theorem C53_option : forall n, n <> [] -> n <> [""] -> Forall (fun s => no_dot s = true) n ->
  decode_scoped (String.concat "." n) = n.
Proof. exact C53_option_proof. Qed.
Print Assumptions C53_option.

(** C53: an accepted file in which two functions have the same symbol. *)
Theorem C53_symbols_refuted : exists f root w loc x y fn gn,
  front false f [] root = Good (w, loc) /\ of_file w loc joined_spec x /\ of_file w loc joined_spec y /\
  pr_name x <> pr_name y /\ NoDup (map fn_name (pr_fns x)) /\ pr_fns x = pr_fns y /\
  In fn (pr_fns x) /\ In gn (pr_fns y) /\ asked [] tt fn <> asked [] tt gn /\
  symbol [] (pr_name x) fn = symbol [] (pr_name y) gn /\
  forall ns, program_ok (program [] joined_spec ns [x; y]) = false.
Proof. exact C53_symbols_refuted_proof. Qed.
Print Assumptions C53_symbols_refuted.

(** C53: an accepted portal whose class declares a member twice. *)
Theorem C53_class_refuted : exists f root w loc n po,
  front false f [] root = Good (w, loc) /\ In (n, po) (w_portals w) /\
  NoDup (map fn_name (po_fns po)) /\
  forall outer h q, class_ok (portal_class outer n po h q) = false.
Proof. exact C53_class_refuted_proof. Qed.
Print Assumptions C53_class_refuted.

(** C53: an accepted specification for which no class can be written. *)
Theorem C53_head_refuted : exists f root w loc n t q,
  front false f [] root = Good (w, loc) /\ In (n, (t, q)) (w_specs w) /\ nominal t = false.
Proof. exact C53_head_refuted_proof. Qed.
Print Assumptions C53_head_refuted.
