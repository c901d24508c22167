(** From the declarations of schema files to types, specifications and portals.

    The actions of /repo/pj/parse.cpp: parseInt l.229-246, FloatType l.265-283, Identifier and
    EndId l.287-293, TypeRef l.303-308, FixedArrayModifier l.332-342, VarArrayModifier l.368-384,
    TypeDecl l.411-438, StructDecl l.444-480, ExplicitTag l.484-500, handleVariantField
    l.510-532, handleVariant l.546-622, ScopeBegin and ScopeEnd l.636-645, ImportDecl l.652-676,
    SpecDecl l.742-769, handleSizerOrEncoderDecl l.779-814, DecoderDecl l.835-861, ProtoParam
    l.863-869, PrecompDecl l.873-895, PortalDecl l.901-925, parseProtoFile l.955-989.
    Model only.

    Simplified: the grammar is applied to a whole file before its actions run, so that a file
    with two faults may be reported for the other one.  A named type is a tree; its name is in
    the table only.  pj::Any and the externally defined classes of [type T external = ...] are
    outside of the model of types ([Beyond]). *)
From Coq Require Import Ascii String List Bool ZArith.
From Verif Require Import Base Types Transcode Grammar Parse Imports.
Import ListNotations.
Local Open Scope Z_scope.

(** [Undefined]: the program reads a variable it has not set.  [Beyond]: not modelled. *)
Inductive outcome (A : Type) := Good (a : A) | Rejected | Undefined | Beyond.
Arguments Good {A} _. Arguments Rejected {A}. Arguments Undefined {A}. Arguments Beyond {A}.
Definition bind {A B} (x : outcome A) (f : A -> outcome B) : outcome B :=
  match x with Good a => f a | Rejected => Rejected | Undefined => Undefined | Beyond => Beyond end.
Notation "'let!' a := x 'in' e" := (bind x (fun a => e)) (at level 200, a name, x at level 100).
Definition check (b : bool) : outcome unit := if b then Good tt else Rejected.
Fixpoint each {A B} (f : A -> outcome B) (l : list A) : outcome (list B) :=
  match l with
  | [] => Good []
  | a :: r => let! b := f a in let! bs := each f r in Good (b :: bs)
  end.

Definition str (t : text) : string := string_of_list_ascii t.
Definition strs (l : list text) : scoped := map str l.

(** std::from_chars on digits. *)
Definition digit_value (c : ascii) : Z := Z.of_nat (nat_of_ascii c) - 48.
Definition value (d : text) : Z := fold_left (fun n c => 10 * n + digit_value c) d 0.
(** Into an intptr_t without a value: too large a number leaves it unset. *)
Definition number (d : text) : outcome Z := if value d <? 2 ^ 63 then Good (value d) else Undefined.

(** ** Types *)
Definition int_of (d : text) (s : sign) : outcome ty :=
  let! bits := number d in let! u := check (validate_int bits) in
  Good (TInt (bits / 8) (bits / 8) s).
Definition types := list (scoped * ty).
Fixpoint type_at {A} (n : scoped) (l : list (scoped * A)) : option A :=
  match l with
  | [] => None
  | (k, t) :: r => if same_name n k then Some t else type_at n r
  end.
(** resolve over a map: the entry found. *)
Definition find_name {A} (space : scoped) (l : list (scoped * A)) (id : scoped) : outcome (scoped * A) :=
  match resolve space id (map fst l) with
  | Some n => match type_at n l with Some a => Good (n, a) | None => Rejected end
  | None => Rejected
  end.
Definition base_of (space : scoped) (l : types) (b : base) : outcome ty :=
  match b with
  | BUint d => int_of d Unsigned
  | BInt d => int_of d Signed
  | BChar d => int_of d Signless
  | BFloat d =>
      let! bits := number d in
      if (bits =? 32) || (bits =? 64) then Good (TFloat (bits / 8) (bits / 8)) else Rejected
  | BAny => Beyond
  | BRef n => let! e := find_name space l (strs n) in Good (snd e)
  end.
Definition opt_number (o : option text) : outcome Z :=
  match o with Some d => number d | None => Good (-1) end.
(** Vectors as the parser makes them: nothing but the bounds is set.  [v_wmin] is the minimum
    length. *)
Definition bare_vec (mn mx : Z) : vecinfo := mkVec 0 mx mn 0 0 0 0 0 RPointer 0 0 0 0 0.
Definition modified (t : ty) (m : modifier) : outcome ty :=
  match m with
  | Fixed d => let! n := number d in Good (TArr t n 0 0)
  | Var a b =>
      let! mn := opt_number a in let! mx := opt_number b in
      match parse_vector mn mx with
      | Some (x, y) => Good (TVec t (bare_vec x y))
      | None => Rejected
      end
  end.
Fixpoint modify (t : ty) (l : list modifier) : outcome ty :=
  match l with
  | [] => Good t
  | m :: r => let! t' := modified t m in modify t' r
  end.
Definition type_of (space : scoped) (l : types) (t : texpr) : outcome ty :=
  let! b := base_of space l (t_base t) in modify b (t_mods t).

(** ** Structs and variants *)
Definition field_of (space : scoped) (l : types) (f : text * texpr) : outcome (string * ty) :=
  let! t := type_of space l (snd f) in Good (str (fst f), t).
Definition struct_of (fs : list (string * ty)) : outcome ty :=
  match parse_struct (map fst fs) with
  | Some _ => Good (TStruct (map (fun f => mkField (fst f) (snd f) 0) fs) 0 0)
  | None => Rejected
  end.
(** [in.begin()[1]] is a char, which is signed.  A number from 2^64 on leaves explicit_tag 0. *)
Definition char_value (c : ascii) : Z :=
  let n := Z.of_nat (nat_of_ascii c) in if n <? 128 then n else n - 256 + 2 ^ 64.
Definition tag_of (o : option tagv) : outcome Z :=
  match o with
  | None => Good 0
  | Some g =>
      let v := match g with
               | TagNum d => if value d <? 2 ^ 64 then value d else 0
               | TagChar c => char_value c
               end in
      if v =? 0 then Rejected else Good v
  end.
(** The term, and the type of its payload. *)
Definition vfield_of (space : scoped) (l : types) (f : Grammar.vfield)
  : outcome (Parse.vfield * ty) :=
  let! t := match Grammar.vf_type f with
            | Some t => type_of space l t
            | None => Good TUnit
            end in
  let! g := tag_of (Grammar.vf_tag f) in
  Good (mkVfield (str (Grammar.vf_name f)) g (Grammar.vf_default f), t).
(** The map [fields], where undef is a unit if it was added. *)
Fixpoint payload (n : string) (fs : list (Parse.vfield * ty)) : ty :=
  match fs with
  | [] => TUnit
  | (f, t) :: r => if String.eqb n (Parse.vf_name f) then t else payload n r
  end.
Definition variant_of (fs : list (Parse.vfield * ty)) : outcome ty :=
  match parse_variant (map fst fs) with
  | Some (terms, d) =>
      Good (TVar (mkVar false d 0 0 0 0 0)
                 (map (fun t => mkTerm (fst t) (payload (fst t) (rev fs)) (snd t) []) terms))
  | None => Rejected
  end.

(** ** Specifications and portals *)
Definition path_of (p : option text) : path :=
  match p with Some p => path_from_string (str p) | None => [] end.
Definition spec := (ty * path)%type.
Inductive pfn :=
| PSizer (n : string) (src : scoped) (p : path) (up : bool)
| PEncoder (n : string) (src : scoped) (p : path)
| PDecoder (n : string) (dst : scoped) (hs : list path).
Record portal := mkPortal { po_proto : scoped; po_fns : list pfn }.

(** ParsingScope: what all files share; pending_files is held by [elab_file]. *)
Record world := mkWorld { w_types : types; w_specs : list (scoped * spec);
                          w_portals : list (scoped * portal) }.
(** ParsedProtoFile: what belongs to one file. *)
Record local := mkLocal { l_portals : list scoped; l_precomps : list (scoped * (scoped * scoped)) }.
Definition state := (world * local)%type.

Definition define (n : scoped) (t : ty) (w : world) : outcome world :=
  match define_type n (map fst (w_types w)) with
  | Some _ => Good (mkWorld ((n, t) :: w_types w) (w_specs w) (w_portals w))
  | None => Rejected
  end.
(** resolve for a full name: it is looked for in the enclosing spaces too. *)
Definition taken {A} (space : scoped) (n : scoped) (l : list (scoped * A)) : bool :=
  match resolve space n (map fst l) with Some _ => true | None => false end.
Definition last_piece (p : path) : string := List.last p ""%string.
Definition fn_of (space : scoped) (l : types) (f : portal_fn) : outcome pfn :=
  match f with
  | Sizer n up t p =>
      let! e := find_name space l (strs t) in
      let! u := check (match path_of p with [] => true | q => check_variant_path (snd e) q true end) in
      Good (PSizer (str n) (fst e) (path_of p) up)
  | Encoder n t p =>
      let! e := find_name space l (strs t) in
      let! u := check (match path_of p with [] => true | q => check_variant_path (snd e) q true end) in
      Good (PEncoder (str n) (fst e) (path_of p))
  | Decoder n t hs =>
      let! e := find_name space l (strs t) in
      let ps := match hs with Some l => map (fun p => path_from_string (str p)) l | None => [] end in
      match parse_handlers (snd e) ps with
      | Some ps => Good (PDecoder (str n) (fst e) ps)
      | None => Rejected
      end
  end.
(** portal_defs.emplace(name, ...) keeps an entry that is already there; its proto is then set. *)
Fixpoint emplace (n : scoped) (p : portal) (l : list (scoped * portal)) : list (scoped * portal) :=
  match l with
  | [] => [(n, p)]
  | (k, q) :: r =>
      if same_name n k then (k, mkPortal (po_proto p) (po_fns q)) :: r else (k, q) :: emplace n p r
  end.

(** ** Declarations *)
Section Elab.
(** parse_as_spec, and how an import is done. *)
Variable as_spec : bool.
Variable import : scoped -> world -> outcome world.

Fixpoint elab (space : scoped) (d : decl) (st : state) : outcome state :=
  let (w, loc) := st in
  match d with
  | DImport n => let! w' := import (space ++ strs n) w in Good (w', loc)
  | DStruct n _ fs =>
      let! l := each (field_of space (w_types w)) fs in let! t := struct_of l in
      let! w' := define (space ++ [str n]) t w in Good (w', loc)
  | DVariant n _ fs =>
      let! l := each (vfield_of space (w_types w)) fs in let! t := variant_of l in
      let! w' := define (space ++ [str n]) t w in Good (w', loc)
  | DEnum n _ fs =>
      let! l := each (vfield_of space (w_types w)) fs in
      let! t := variant_of (map (fun f => (fst f, TUnit)) l) in
      let! w' := define (space ++ [str n]) t w in Good (w', loc)
  | DType n e t =>
      let! t := type_of space (w_types w) t in
      if e && negb as_spec then Beyond
      else let! w' := define (space ++ [str n]) t w in Good (w', loc)
  | DSpec n h p =>
      if taken space (space ++ [str n]) (w_specs w) then Rejected
      else
        let! e := find_name space (w_types w) (strs h) in
        let q := path_of p in
        let! u := check (match q with
                         | [] => true
                         | _ => String.eqb (last_piece q) "_" && check_variant_path (snd e) q false
                         end) in
        Good (mkWorld (w_types w) ((space ++ [str n], (snd e, q)) :: w_specs w) (w_portals w), loc)
  | DSpace n ds =>
      (fix go ds st :=
         match ds with
         | [] => Good st
         | d :: r => let! st' := elab (space ++ [str n]) d st in go r st'
         end) ds st
  | DLanguage _ _ => Good st
  | DPortal n p fs =>
      let! pr := find_name space (w_specs w) (strs p) in
      let! l := each (fn_of space (w_types w)) fs in
      let name := space ++ [str n] in
      if existsb (same_name name) (l_portals loc) then Rejected
      else Good (mkWorld (w_types w) (w_specs w)
                         (emplace name (mkPortal (fst pr) l) (w_portals w)),
                 mkLocal (name :: l_portals loc) (l_precomps loc))
  | DPrecomp n t p =>
      let! pr := find_name space (w_specs w) (strs p) in
      match resolve space (strs t) (l_portals loc) with
      | None => Rejected
      | Some po =>
          let name := space ++ [str n] in
          if taken space name (l_precomps loc) ||
             match resolve space name (l_portals loc) with Some _ => true | None => false end
          then Rejected
          else Good (w, mkLocal (l_portals loc) ((name, (po, fst pr)) :: l_precomps loc))
      end
  end.
Fixpoint elab_all (space : scoped) (ds : list decl) (st : state) : outcome state :=
  match ds with
  | [] => Good st
  | d :: r => let! st' := elab space d st in elab_all space r st'
  end.
End Elab.

(** ** Files *)
Definition sources := list (string * text).
Fixpoint source (f : sources) (p : string) : option text :=
  match f with
  | [] => None
  | (q, c) :: r => if String.eqb q p then Some c else source r p
  end.
(** As Imports.v [find_import]. *)
Definition find_source (f : sources) (dirs : list string) (id : scoped) : option string :=
  fold_left (fun found d =>
               let p := import_path d id in
               match source f p with Some _ => Some p | None => found end) dirs None.
(** The fuel bounds the depth of imports. *)
Fixpoint elab_file (fuel : nat) (as_spec : bool) (f : sources) (dirs : list string)
         (pending : list string) (p : string) (w : world) : outcome state :=
  match fuel with
  | O => Rejected
  | S n =>
      if existsb (String.eqb p) pending then Rejected
      else match source f p with
           | None => Rejected
           | Some s =>
               match parse_text s with
               | None => Rejected
               | Some ds =>
                   elab_all as_spec
                     (fun id w =>
                        match find_source f dirs id with
                        | None => Rejected
                        | Some q => let! st := elab_file n as_spec f dirs (p :: pending) q w in
                                    Good (fst st)
                        end) [] ds (w, mkLocal [] [])
               end
           end
  end.
Definition no_world : world := mkWorld [] [] [].
(** pjc on one file. *)
Definition front (as_spec : bool) (f : sources) (flags : list string) (root : string) : outcome state :=
  elab_file (S (List.length f)) as_spec f (import_dirs flags) [] root no_world.
