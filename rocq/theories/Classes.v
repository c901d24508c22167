(** The classes pjc writes for portals and precompiled portals, and what their methods run.

    /repo/pj/sourcegen.hpp: getNameAsString l.105-110; /repo/pj/sourcegen.cpp: addProtocol
    l.233-241, addPortal l.728-913, addPrecompilation l.923-1066; /repo/pj/pjc.cpp:
    decodeScopedName l.42-58, main l.88-134; /repo/pj/context.cpp l.261-305;
    /repo/pj/include/pj/runtime.hpp (Context).  Model only.

    Simplified: the text of the C++ program is a list of statements; C++ types are their full names.
    Of the rules of C++ and of MLIR only those about names are kept: the names declared in a class
    differ ([class_ok]), as do the variables and the symbols of a program ([program_ok]). *)
From Coq Require Import Ascii String List Bool.
From Verif Require Import Base Types Transcode Parse Elab.
Import ListNotations.
Local Open Scope string_scope.

(** getNameAsString: the separator stands before every part; [n] has the outer namespace in front. *)
Fixpoint join (sep : string) (n : scoped) : string :=
  match n with [] => "" | a :: r => sep ++ a ++ join sep r end.

(** ** Statements on a context *)
Inductive cfn :=
| CSize (src : scoped) (path : string) (up : bool)
| CEncode (src : scoped) (path : string)
| CDecode (dst : scoped) (handlers : list string).
Inductive cstmt :=
| SPlan (var : string) (head : scoped) (path : string)
| SAdd (name : string) (f : cfn) (var : string)
| SDefine (ptr size : string) (var : string).

Definition fn_name (f : pfn) : string :=
  match f with PSizer n _ _ _ => n | PEncoder n _ _ => n | PDecoder n _ _ => n end.
(** Sizers, encoders and decoders are kept in three vectors, and visited in this order. *)
Definition is_sizer (f : pfn) := match f with PSizer _ _ _ _ => true | _ => false end.
Definition is_encoder (f : pfn) := match f with PEncoder _ _ _ => true | _ => false end.
Definition is_decoder (f : pfn) := match f with PDecoder _ _ _ => true | _ => false end.
Definition sorted (l : list pfn) : list pfn :=
  (filter is_sizer l ++ filter is_encoder l ++ filter is_decoder l)%list.

Section Generator.
(** outer_namespace_. *)
Variable outer : scoped.
Definition full (n : scoped) : scoped := (outer ++ n)%list.
Definition under (n : scoped) : string := join "_" (full n).

(** The arguments of add*Function, l.775-813 and l.993-1052: the type, the printed paths. *)
Definition cfn_of (f : pfn) : cfn :=
  match f with
  | PSizer _ src p up => CSize (full src) (path_to_string p) up
  | PEncoder _ src p => CEncode (full src) (path_to_string p)
  | PDecoder _ dst hs => CDecode (full dst) (map path_to_string hs)
  end.

(** ** The class of a portal, l.728-913.  Both constructors have the same body; they differ in the
    protocol, planned ([k_head], [k_path]) or given by the caller. *)
Record cls := Cls {
  k_name : string;
  k_head : scoped; k_path : string;          (** proto_(ctx_.plan<Head>("path")), l.825-827 *)
  k_adds : list (string * cfn);              (** adds, l.775-807 *)
  k_gets : list (string * string);           (** gets: member, name it is fetched by, l.781-810 *)
  k_members : list string;                   (** vars, l.856-895 *)
  k_methods : list (string * string) }.      (** method, member it calls, l.860-903 *)
Definition portal_class (name : scoped) (p : portal) (h : scoped) (q : path) : cls :=
  let fs := sorted (po_fns p) in
  Cls (List.last name "") (full h) (path_to_string q)
      (map (fun f => (fn_name f, cfn_of f)) fs)
      (map (fun f => (fn_name f ++ "_", fn_name f)) fs)
      ("ctx_" :: "proto_" :: "portal_" :: map (fun f => fn_name f ++ "_") fs)
      (map (fun f => (fn_name f, fn_name f ++ "_")) fs).

(** ** The precompiler's program *)
Definition symbol (name : scoped) (f : pfn) : string := under name ++ "_" ++ fn_name f.
Definition ptr_symbol (name : scoped) := "protocol_ptr_" ++ under name.
Definition size_symbol (name : scoped) := "protocol_size_" ++ under name.
(** A precompiled portal: its name, its functions and the name of its protocol. *)
Record pre := Pre { pr_name : scoped; pr_fns : list pfn; pr_proto : scoped }.
Definition pre_stmts (x : pre) : list cstmt :=
  SDefine (ptr_symbol (pr_name x)) (size_symbol (pr_name x)) (under (pr_proto x)) ::
  map (fun f => SAdd (symbol (pr_name x) f) (cfn_of f) (under (pr_proto x))) (sorted (pr_fns x)).
(** addProtocol; [seen] is protos_, [spec_of] the specification of a name: head and path. *)
Variable spec_of : scoped -> scoped * path.
Definition add_protocol (n : scoped) (seen : list scoped) : list cstmt * list scoped :=
  if existsb (same_name n) seen then ([], seen)
  else ([SPlan (under n) (full (fst (spec_of n))) (path_to_string (snd (spec_of n)))], n :: seen).
Fixpoint protocols (ns : list scoped) (seen : list scoped) : list cstmt * list scoped :=
  match ns with
  | [] => ([], seen)
  | n :: r => let (a, s1) := add_protocol n seen in
              let (b, s2) := protocols r s1 in ((a ++ b)%list, s2)
  end.
Fixpoint precompilations (l : list pre) (seen : list scoped) : list cstmt :=
  match l with
  | [] => []
  | x :: r => let (a, s1) := add_protocol (pr_proto x) seen in
              (a ++ pre_stmts x ++ precompilations r s1)%list
  end.
(** main, pjc.cpp:120-134: [ns] are the specifications of the file, then the protocols of its
    portals (addPortal calls addProtocol, l.730). *)
Definition program (ns : list scoped) (l : list pre) : list cstmt :=
  let (a, seen) := protocols ns [] in (a ++ precompilations l seen)%list.
(** The symbol a method of a precompiled class calls, l.978-1040. *)
Definition method_symbols (x : pre) : list (string * string) :=
  map (fun f => (fn_name f, symbol (pr_name x) f)) (sorted (pr_fns x)).
End Generator.

(** ** Names *)
Fixpoint distinct (l : list string) : bool :=
  match l with
  | [] => true
  | a :: r => negb (existsb (String.eqb a) r) && distinct r
  end.
(** No name is declared twice in the class; no member has the name of the class. *)
Definition class_ok (c : cls) : bool :=
  distinct (k_name c :: "getProtocol" :: "getContext" :: map fst (k_methods c) ++ k_members c).
Definition vars_of (l : list cstmt) : list string :=
  flat_map (fun s => match s with SPlan v _ _ => [v] | _ => [] end) l.
Definition symbols_of (l : list cstmt) : list string :=
  flat_map (fun s => match s with SPlan _ _ _ => [] | SAdd n _ _ => [n] | SDefine p z _ => [p; z] end) l.
(** No variable of main is declared twice, no symbol of the module defined twice. *)
Definition program_ok (l : list cstmt) : bool := distinct (vars_of l) && distinct (symbols_of l).

(** ** What runs *)

(** A compiled function: its protocol ([P]), type and paths. *)
Inductive built (P : Type) :=
| BSize (proto : P) (src : scoped) (p : path) (up : bool)
| BEncode (proto : P) (src : scoped) (p : path)
| BDecode (proto : P) (dst : scoped) (hs : list path).
Arguments BSize {P}. Arguments BEncode {P}. Arguments BDecode {P}.
(** add*Function, context.cpp:261-296: paths are read by PathAttr::fromString. *)
Definition build {P} (proto : P) (f : cfn) : built P :=
  match f with
  | CSize src p up => BSize proto src (path_from_string p) up
  | CEncode src p => BEncode proto src (path_from_string p)
  | CDecode dst hs => BDecode proto dst (map path_from_string hs)
  end.
Fixpoint table {A} (n : string) (l : list (string * A)) : option A :=
  match l with
  | [] => None
  | (k, a) :: r => if String.eqb n k then Some a else table n r
  end.
(** A member after the constructor: the last assignment counts; the name is looked up in the
    compiled module (ResolveTargetArtifact, portal.hpp). *)
Definition member {P} (c : cls) (proto : P) (m : string) : option (built P) :=
  match table m (rev (k_gets c)) with
  | Some n => option_map (build proto) (table n (k_adds c))
  | None => None
  end.
(** Calling a method of an object. *)
Definition call {P} (c : cls) (proto : P) (method : string) : option (built P) :=
  match table method (k_methods c) with Some m => member c proto m | None => None end.

(** The object file: functions, and the bytes of protocols with their number.  [plan] is
    Context::plan; a variable that is not declared is None. *)
Inductive def (P : Type) := DFun (f : built P) | DProto (p : P) | DLen (p : P).
Arguments DFun {P}. Arguments DProto {P}. Arguments DLen {P}.
Fixpoint run_program {P} (plan : scoped -> path -> P) (l : list cstmt) (env : list (string * P))
  : option (list (string * def P)) :=
  match l with
  | [] => Some []
  | SPlan v h p :: r => run_program plan r ((v, plan h (path_from_string p)) :: env)
  | SAdd n f v :: r =>
      match table v env, run_program plan r env with
      | Some p, Some o => Some ((n, DFun (build p f)) :: o)
      | _, _ => None
      end
  | SDefine a b v :: r =>
      match table v env, run_program plan r env with
      | Some p, Some o => Some ((a, DProto p) :: (b, DLen p) :: o)
      | _, _ => None
      end
  end.

(** ** decodeScopedName, pjc.cpp:42-58 *)
Fixpoint split_name (fuel : nat) (s : string) : scoped :=
  match fuel with
  | O => []
  | S n => match cut_at dot s with
           | (a, EmptyString) => [a]
           | (a, String _ r) => a :: split_name n r
           end
  end.
Definition decode_scoped (s : string) : scoped :=
  match s with EmptyString => [] | _ => split_name (S (String.length s)) s end.
