(** C53 for schema files, with examples and files whose classes do not work. *)
From Coq Require Import Ascii String List Bool ZArith.
From Verif Require Import Base Types Spec Grammar GrammarSpec Transcode Parse ParseFacts Imports
  Elab ElabSpec ElabFacts ElabClaims PortalFacts ElabDemo Classes ClassSpec ClassFacts.
Import ListNotations.
Local Open Scope string_scope.

(** ** Every path of an accepted file was read from text *)
Lemma path_of_read p : was_read (path_of p).
Proof. destruct p as [s|]; cbn [path_of]; [exists (str s); auto|exists ""; auto]. Qed.
Lemma fn_read tbl sp d f : is_fn tbl sp d f -> paths_read f.
Proof.
  intro H. destruct H; cbn [paths_read]; auto using path_of_read.
  unfold handler_paths. destruct hs as [l|]; auto. apply Forall_forall. intros q I.
  apply in_map_iff in I as (s & <- & _). exists (str s). auto.
Qed.
Lemma portal_read b f flags root w loc n po :
  front b f flags root = Good (w, loc) -> In (n, po) (w_portals w) -> Forall paths_read (po_fns po).
Proof.
  intros H I. destruct (C51_portals_proof _ _ _ _ _ _ _ _ H I) as [(p & sp & k & pr & fs & la & ea & _ & _ & _ & _ & F) _].
  clear - F. induction F; constructor; auto. eapply fn_read; eauto.
Qed.
Lemma spec_read b f flags root w loc n t q :
  front b f flags root = Good (w, loc) -> In (n, (t, q)) (w_specs w) -> was_read q.
Proof.
  intros H I. destruct (C50_specs_proof _ _ _ _ _ _ _ _ _ H I)
    as (p & sp & k & h & pa & m & la & ea & _ & _ & _ & _ & _ & -> & _). apply path_of_read.
Qed.

Lemma C53_portal_file_proof : forall P b f flags root w loc n po t q outer h (proto : P) fn,
  front b f flags root = Good (w, loc) -> In (n, po) (w_portals w) ->
  In (po_proto po, (t, q)) (w_specs w) ->
  class_ok (portal_class outer n po h q) = true -> In fn (po_fns po) ->
  call (portal_class outer n po h q) proto (fn_name fn) = Some (asked outer proto fn) /\
  k_head (portal_class outer n po h q) = (outer ++ h)%list /\
  path_from_string (k_path (portal_class outer n po h q)) = q.
Proof.
  intros P b f flags root w loc n po t q outer h proto fn H I S OK J.
  apply C53_portal_proof; auto; [|eapply spec_read; eauto].
  pose proof (portal_read _ _ _ _ _ _ _ _ H I) as R. rewrite Forall_forall in R. auto.
Qed.

(** [of_file w loc spec_of x]: [x] is a precompiled portal of the file, with the specification that
    [spec_of] gives for its protocol. *)
Definition of_file (w : world) (loc : local) (spec_of : scoped -> scoped * path) (x : pre) : Prop :=
  exists portal_name po t, In (pr_name x, (portal_name, pr_proto x)) (l_precomps loc) /\
    In (portal_name, po) (w_portals w) /\ pr_fns x = po_fns po /\
    In (pr_proto x, (t, snd (spec_of (pr_proto x)))) (w_specs w).
Lemma C53_precompiled_file_proof : forall P b f flags root w loc outer spec_of (plan : scoped -> path -> P) ns l,
  front b f flags root = Good (w, loc) -> Forall (of_file w loc spec_of) l ->
  program_ok (program outer spec_of ns l) = true ->
  exists o, run_program plan (program outer spec_of ns l) [] = Some o /\
    forall x, In x l ->
      let proto := plan (outer ++ fst (spec_of (pr_proto x)))%list (snd (spec_of (pr_proto x))) in
      table (ptr_symbol outer (pr_name x)) o = Some (DProto proto) /\
      table (size_symbol outer (pr_name x)) o = Some (DLen proto) /\
      forall fn, In fn (pr_fns x) -> exists s,
        table (fn_name fn) (method_symbols outer x) = Some s /\
        table s o = Some (DFun (asked outer proto fn)).
Proof.
  intros P b f flags root w loc outer spec_of plan ns l H F OK. apply C53_precompiled_proof; auto.
  intros x I. rewrite Forall_forall in F. destruct (F x I) as (pn & po & t & _ & B & C & D).
  split; [eapply spec_read; eauto|]. rewrite C. eapply portal_read; eauto.
Qed.

(** ** A file with two precompiled portals *)
Definition served_pj : text := lines
  ["struct M { x : int8; }"; "variant V { a : M; b : int16; }"; "struct N { v : V; }";
   "specification One : M;"; "specification Two : N @v._;";
   "portal Q : One { sizer size : M; encoder enc : N @v.a; decoder dec : N { handlers [v.a, v.b]; }; }";
   "precompile Fast : Q(One);"; "precompile Other : Q(Two);"].
Definition served : sources := [("a.pj", served_pj)].
Definition served_fns : list pfn :=
  [PSizer "size" ["M"] [] false; PEncoder "enc" ["N"] ["v"; "a"]; PDecoder "dec" ["N"] [["v"; "a"]; ["v"; "b"]]].
Definition served_spec (n : scoped) : scoped * path :=
  if same_name n ["One"] then (["M"], []) else (["N"], ["v"; "_"]).
Definition served_pre : list pre :=
  [Pre ["Fast"] served_fns ["One"]; Pre ["Other"] served_fns ["Two"]].
Example served_read : exists w loc, front false served [] "a.pj" = Good (w, loc) /\
  w_portals w = [(["Q"], mkPortal ["One"] served_fns)] /\
  class_ok (portal_class ["my"] ["Q"] (mkPortal ["One"] served_fns) ["M"] []) = true /\
  Forall (of_file w loc served_spec) served_pre /\
  program_ok (program ["my"] served_spec [["One"]; ["Two"]; ["One"]] served_pre) = true.
Proof.
  eexists. eexists. split; [vm_compute; reflexivity|]. split; [vm_compute; reflexivity|].
  split; [vm_compute; reflexivity|]. split; [|vm_compute; reflexivity].
  repeat constructor; eexists _, _, _; repeat split; vm_compute; eauto 6.
Qed.
Example served_plain : Forall plain_pre served_pre /\ NoDup (map pr_name served_pre).
Proof.
  split; [|repeat constructor; cbn; intuition discriminate].
  repeat constructor; cbn; repeat split; try discriminate; intuition discriminate.
Qed.
(** What the classes run. *)
Example served_runs : exists o,
  run_program (fun h p => (h, p)) (program ["my"] served_spec [["One"]; ["Two"]; ["One"]] served_pre) [] = Some o /\
  table "_my_Other_enc" o = Some (DFun (BEncode (["my"; "N"], ["v"; "_"]) ["my"; "N"] ["v"; "a"])) /\
  table "protocol_ptr__my_Fast" o = Some (DProto (["my"; "M"], [])) /\
  call (portal_class ["my"] ["Q"] (mkPortal ["One"] served_fns) ["M"] []) tt "dec" =
    Some (BDecode tt ["my"; "N"] [["v"; "a"]; ["v"; "b"]]).
Proof. eexists. split; [vm_compute; reflexivity|]. repeat split; vm_compute; reflexivity. Qed.
Example option_read : decode_scoped "app.Proto" = ["app"; "Proto"].
Proof. reflexivity. Qed.

(** ** Two precompiled portals of an accepted file that define the same symbol *)
Definition joined_pj : text := lines
  ["struct M { x : int8; }"; "specification P : M;";
   "portal Q : P { sizer b_c : M; encoder c : M; }";
   "precompile A : Q(P);"; "precompile A_b : Q(P);"].
Definition joined_spec (n : scoped) : scoped * path := (["M"], []).
Lemma C53_symbols_refuted_proof : exists f root w loc x y fn gn,
  front false f [] root = Good (w, loc) /\ of_file w loc joined_spec x /\ of_file w loc joined_spec y /\
  pr_name x <> pr_name y /\ NoDup (map fn_name (pr_fns x)) /\ pr_fns x = pr_fns y /\
  In fn (pr_fns x) /\ In gn (pr_fns y) /\ asked [] tt fn <> asked [] tt gn /\
  symbol [] (pr_name x) fn = symbol [] (pr_name y) gn /\
  forall ns, program_ok (program [] joined_spec ns [x; y]) = false.
Proof.
  set (fs := [PSizer "b_c" ["M"] [] false; PEncoder "c" ["M"] []]).
  exists [("a.pj", joined_pj)], "a.pj". eexists. eexists.
  exists (Pre ["A"] fs ["P"]), (Pre ["A_b"] fs ["P"]).
  exists (PSizer "b_c" ["M"] [] false), (PEncoder "c" ["M"] []).
  split; [vm_compute; reflexivity|].
  split; [eexists _, _, _; repeat split; vm_compute; eauto 6|].
  split; [eexists _, _, _; repeat split; vm_compute; eauto 6|].
  split; [discriminate|]. split; [repeat constructor; cbn; intuition discriminate|].
  split; [reflexivity|]. split; [left; reflexivity|]. split; [right; left; reflexivity|].
  split; [discriminate|]. split; [reflexivity|].
  intro ns. unfold program_ok. apply andb_false_iff. right. unfold program.
  destruct (protocols [] joined_spec ns []) as [a seen] eqn:E.
  pose proof (program_symbols [] joined_spec ns [Pre ["A"] fs ["P"]; Pre ["A_b"] fs ["P"]] []) as [A _].
  rewrite E in A. cbn [fst] in A. rewrite symbols_app, A.
  rewrite (proj2 (program_symbols [] joined_spec ns [Pre ["A"] fs ["P"]; Pre ["A_b"] fs ["P"]] seen)).
  vm_compute. reflexivity.
Qed.

(** ** An accepted portal whose class declares a name twice *)
Definition ctx_pj : text := lines
  ["struct M { x : int8; }"; "specification P : M;"; "portal Q : P { encoder ctx : M; }"].
Lemma C53_class_refuted_proof : exists f root w loc n po,
  front false f [] root = Good (w, loc) /\ In (n, po) (w_portals w) /\
  NoDup (map fn_name (po_fns po)) /\
  forall outer h q, class_ok (portal_class outer n po h q) = false.
Proof.
  exists [("a.pj", ctx_pj)], "a.pj". eexists. eexists. eexists. eexists.
  split; [vm_compute; reflexivity|]. split; [left; reflexivity|].
  split; [repeat constructor; cbn; tauto|]. intros. vm_compute. reflexivity.
Qed.

(** ** An accepted specification whose head is not a class: cast<NominalType> fails *)
Definition nominal (t : ty) : bool := match t with TStruct _ _ _ | TVar _ _ => true | _ => false end.
Definition number_pj : text := lines ["type T = int8;"; "specification P : T;"].
Lemma C53_head_refuted_proof : exists f root w loc n t q,
  front false f [] root = Good (w, loc) /\ In (n, (t, q)) (w_specs w) /\ nominal t = false.
Proof.
  exists [("a.pj", number_pj)], "a.pj". eexists. eexists. eexists. eexists. eexists.
  split; [vm_compute; reflexivity|]. split; [left; reflexivity|]. reflexivity.
Qed.
