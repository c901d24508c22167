(** The header written by [pjc --gen-proto]: C++ code that builds a planned
    protocol again, through the functions of runtime.cpp.  Model only.

    sourcegen.cpp l.143-231 (createTypeHandle), l.269-287 (addType), l.289-322
    (addWireProtocol), l.324-335 (addComposite), l.358-441 (structs), l.580-699
    (variants); runtime.cpp l.89-280 (PJCreate...).  The code is a list of tokens:
    an assignment up to the opening parenthesis of a call, an argument, the closing
    parenthesis with its semicolon, a return.  Class declarations, namespaces,
    comments and the array holding a name are left out.  Numbers of bits are eight
    times the bytes of the model. *)
From Verif Require Import Base Types Plan Api.

(** ** Types that share definitions by name *)
Definition qname := list string.
Definition qname_eqb (a b : qname) : bool := if list_eq_dec string_dec a b then true else false.
(** A nominal type: an outlined variant is a type of its own, although it has the
    name of the inline one (variant_outlining.cpp l.14-22). *)
Definition key := (bool * qname)%type.
Definition key_eqb (a b : key) : bool := Bool.eqb (fst a) (fst b) && qname_eqb (snd a) (snd b).

Inductive wty :=
| WInt (w al : Z) (s : sign)
| WFloat (w al : Z)
| WUnit
| WNamed (k : key)
| WArr (e : wty) (len esz al : Z)
| WVec (e : wty) (p : vecinfo).
Inductive wdef :=
| WStruct (fs : list (field wty)) (size al : Z)
| WVar (x : varinfo) (ts : list (term wty)).

(** The definitions in use, each before those it mentions: C++ and MLIR types are
    not recursive here, as a schema cannot declare recursive types. *)
Definition wenv := list (key * wdef).

(** ** Tokens *)
Inductive fn :=
| MkInt | MkFloat | MkUnit | MkArr | MkVec
| Build (n : qname)              (* BuildPJType<n>::build *)
| MkField | MkTerm | MkStruct | MkInline | MkOutline | MkProtocol.
Inductive arg :=
| ANum (z : Z) | AHandle (h : nat) | AStr (s : string) | AName (n : qname)
| ASign (s : sign) | AMode (m : refmode).
Inductive target :=
| ToHandle (h : nat)             (* const auto* _h = *)
| ToElem (k : nat)               (* fields[k] = , terms[k] = *)
| ToReturn.                      (* return *)
Inductive tok :=
| Open (t : target) (f : fn) | Arg (a : arg) | Semi
| Return (h : nat).

(** ** Writing *)

(** createTypeHandle in the wire domain (sourcegen.cpp l.143-231).  [c] is the
    counter of getUniqueName; the handle of the type is [c].  A float is printed
    without the closing parenthesis (l.172-179); wire_min_length is printed as
    min_length (l.202). *)
Definition bits (z : Z) : arg := ANum (8 * z).
Fixpoint handle (t : wty) (c : nat) : list tok * nat :=
  match t with
  | WNamed k => ([Open (ToHandle c) (Build (snd k)); Semi], S c)
  | WInt w al s =>
      ([Open (ToHandle c) MkInt; Arg (bits w); Arg (bits al); Arg (ASign s); Semi], S c)
  | WFloat w al => ([Open (ToHandle c) MkFloat; Arg (bits w); Arg (bits al)], S c)
  | WUnit => ([Open (ToHandle c) MkUnit; Semi], S c)
  | WArr e len esz al =>
      let (te, c') := handle e (S c) in
      (te ++ [Open (ToHandle c) MkArr; Arg (AHandle (S c)); Arg (ANum len);
              Arg (bits esz); Arg (bits al); Semi], c')
  | WVec e p =>
      let (te, c') := handle e (S c) in
      (te ++ [Open (ToHandle c) MkVec; Arg (AHandle (S c));
              Arg (ANum (v_min p)); Arg (ANum (v_max p)); Arg (ANum (v_min p));
              Arg (ANum (v_ppl p)); Arg (bits (v_len_off p)); Arg (bits (v_len_sz p));
              Arg (bits (v_ref_off p)); Arg (bits (v_ref_sz p)); Arg (AMode (v_mode p));
              Arg (bits (v_inl_off p)); Arg (bits (v_part_off p));
              Arg (bits (v_size p)); Arg (bits (v_align p)); Semi], c')
  end.

(** addStructBuilder (l.374-427).  The name array takes a number, too. *)
Fixpoint fields_code (k : nat) (fs : list (field wty)) (c : nat) : list tok * nat :=
  match fs with
  | [] => ([], c)
  | f :: r =>
      let (th, c1) := handle (f_ty f) c in
      let (tr, c2) := fields_code (S k) r c1 in
      (th ++ [Open (ToElem k) MkField; Arg (AStr (f_name f)); Arg (AHandle c);
              Arg (bits (f_off f)); Semi] ++ tr, c2)
  end.
(** addVariantBuilder (l.596-678): PJCreateTerm takes no attributes. *)
Fixpoint terms_code (k : nat) (ts : list (term wty)) (c : nat) : list tok * nat :=
  match ts with
  | [] => ([], c)
  | t :: r =>
      let (th, c1) := handle (t_ty t) c in
      let (tr, c2) := terms_code (S k) r c1 in
      (th ++ [Open (ToElem k) MkTerm; Arg (AStr (t_name t)); Arg (AHandle c);
              Arg (ANum (t_tag t)); Semi] ++ tr, c2)
  end.
Definition builder (n : qname) (d : wdef) (c : nat) : list tok * nat :=
  match d with
  | WStruct fs size al =>
      let (tf, c1) := fields_code 0 fs c in
      (tf ++ [Open (ToHandle (S c1)) MkStruct; Arg (AName n);
              Arg (ANum (Z.of_nat (List.length fs))); Arg (bits size); Arg (bits al); Semi;
              Return (S c1)], S (S c1))
  | WVar x ts =>
      let (tt, c1) := terms_code 0 ts c in
      (tt ++ [Open (ToHandle (S c1)) (if x_outline x then MkOutline else MkInline);
              Arg (AName n); Arg (ANum (Z.of_nat (List.length ts)));
              Arg (ANum (Z.of_nat (x_default x)))] ++
       (if x_outline x
        then [Arg (bits (x_tag_w x)); Arg (bits (x_align x)); Arg (bits (x_term_off x))]
        else [Arg (bits (x_term_off x)); Arg (bits (x_tag_off x)); Arg (bits (x_tag_w x));
              Arg (bits (x_size x)); Arg (bits (x_align x))]) ++
       [Semi; Return (S c1)], S (S c1))
  end.

(** addType and addComposite: what a definition mentions is written first, once
    for every type (generated_, l.272, l.333). *)
Record gst := mkG { g_done : list (key * list tok); g_next : nat }.
Definition written (k : key) (o : gst) : bool :=
  existsb (fun e => key_eqb (fst e) k) (g_done o).
Fixpoint add_type (comp : key -> gst -> gst) (t : wty) (o : gst) : gst :=
  match t with
  | WNamed k => if written k o then o else comp k o
  | WArr e _ _ _ => add_type comp e o
  | WVec e _ => add_type comp e o
  | _ => o
  end.
Definition parts (d : wdef) : list wty :=
  match d with
  | WStruct fs _ _ => map f_ty fs
  | WVar _ ts => map t_ty ts
  end.
Definition add_types (comp : key -> gst -> gst) (l : list wty) (o : gst) : gst :=
  fold_left (fun o t => add_type comp t o) l o.
Fixpoint add_named (env : wenv) (k : key) (o : gst) : gst :=
  match env with
  | [] => o
  | (m, d) :: r =>
      if key_eqb m k then
        let o1 := add_types (add_named r) (parts d) o in
        let (code, c) := builder (snd k) d (g_next o1) in
        mkG (g_done o1 ++ [(k, code)]) c
      else add_named r k o
  end.

(** addWireProtocol (l.289-322): the builders and the body of
    BuildPJProtocol::build. *)
Record header := mkHeader { h_types : list (qname * list tok); h_proto : list tok }.
Definition write (env : wenv) (head : wty) (off : Z) : header :=
  let o := add_type (add_named env) head (mkG [] 0) in
  let (th, _) := handle head (g_next o) in
  mkHeader (map (fun e => (snd (fst e), snd e)) (g_done o))
    (th ++ [Open ToReturn MkProtocol; Arg (AHandle (g_next o)); Arg (bits off); Semi]).

(** ** Compiling and running *)

(** Statements; [None] is a syntax error. *)
Inductive stmt := Do (t : target) (f : fn) (args : list arg) | Give (h : nat).
Fixpoint parse (cur : option (target * fn * list arg)) (l : list tok) : option (list stmt) :=
  match l with
  | [] => match cur with None => Some [] | Some _ => None end
  | Open t f :: r =>
      match cur with None => parse (Some (t, f, [])) r | Some _ => None end
  | Arg a :: r =>
      match cur with
      | Some (t, f, args) => parse (Some (t, f, args ++ [a])) r
      | None => None
      end
  | Semi :: r =>
      match cur with
      | Some (t, f, args) => option_map (cons (Do t f args)) (parse None r)
      | None => None
      end
  | Return h :: r =>
      match cur with None => option_map (cons (Give h)) (parse None r) | Some _ => None end
  end.

Inductive built := VTy (t : ty) | VField (f : field ty) | VTerm (t : term ty) | VProto (p : proto).

(** Elements [0 .. n-1] of the array [fields] or [terms]. *)
Fixpoint collect {A} (get : built -> option A) (es : nat -> option built) (k : nat) (n : nat)
  : option (list A) :=
  match n with
  | O => Some []
  | S n' =>
      match es k with
      | Some v =>
          match get v, collect get es (S k) n' with
          | Some a, Some r => Some (a :: r)
          | _, _ => None
          end
      | None => None
      end
  end.
Definition get_field (v : built) := match v with VField f => Some f | _ => None end.
Definition get_term (v : built) := match v with VTerm t => Some t | _ => None end.

(** runtime.cpp l.89-280.  PJCreateVectorType takes elem_width from the element
    (l.264); an outlined variant has its tag at the front, and a head of that size
    (types.hpp l.386-424). *)
Definition bytes (z : Z) : Z := z / 8.
Definition call (bld : qname -> option ty) (hs : nat -> option ty) (es : nat -> option built)
           (f : fn) (args : list arg) : option built :=
  match f, args with
  | Build n, [] => option_map VTy (bld n)
  | MkInt, [ANum w; ANum al; ASign s] => Some (VTy (TInt (bytes w) (bytes al) s))
  | MkFloat, [ANum w; ANum al] => Some (VTy (TFloat (bytes w) (bytes al)))
  | MkUnit, [] => Some (VTy TUnit)
  | MkArr, [AHandle h; ANum len; ANum esz; ANum al] =>
      option_map (fun e => VTy (TArr e len (bytes esz) (bytes al))) (hs h)
  | MkVec, [AHandle h; ANum mn; ANum mx; ANum wm; ANum ppl; ANum lo; ANum ls; ANum ro;
            ANum rs; AMode md; ANum io; ANum po; ANum size; ANum al] =>
      option_map (fun e =>
        VTy (TVec e (mkVec mn mx wm ppl (bytes lo) (bytes ls) (bytes ro) (bytes rs) md
                           (bytes io) (bytes po) (align_up (hsize e) (halign e))
                           (bytes size) (bytes al)))) (hs h)
  | MkField, [AStr n; AHandle h; ANum off] =>
      option_map (fun t => VField (mkField n t (bytes off))) (hs h)
  | MkTerm, [AStr n; AHandle h; ANum tag] =>
      option_map (fun t => VTerm (mkTerm n t tag [])) (hs h)
  | MkStruct, [AName _; ANum n; ANum size; ANum al] =>
      option_map (fun fs => VTy (TStruct fs (bytes size) (bytes al)))
                 (collect get_field es 0 (Z.to_nat n))
  | MkInline, [AName _; ANum n; ANum d; ANum off; ANum toff; ANum tw; ANum size; ANum al] =>
      option_map (fun ts =>
        VTy (TVar (mkVar false (Z.to_nat d) (bytes off) (bytes toff) (bytes tw) (bytes size)
                         (bytes al)) ts)) (collect get_term es 0 (Z.to_nat n))
  | MkOutline, [AName _; ANum n; ANum d; ANum tw; ANum tal; ANum off] =>
      option_map (fun ts =>
        VTy (TVar (mkVar true (Z.to_nat d) (bytes off) 0 (bytes tw) (bytes tw) (bytes tal)) ts))
        (collect get_term es 0 (Z.to_nat n))
  | MkProtocol, [AHandle h; ANum off] => option_map (fun t => VProto (mkProto t (bytes off))) (hs h)
  | _, _ => None
  end.

Definition upd {A} (f : nat -> option A) (k : nat) (v : A) (j : nat) : option A :=
  if Nat.eqb j k then Some v else f j.
Fixpoint run (bld : qname -> option ty) (hs : nat -> option ty) (es : nat -> option built)
         (l : list stmt) : option built :=
  match l with
  | [] => None
  | Give h :: _ => option_map VTy (hs h)
  | Do t f args :: r =>
      match call bld hs es f args with
      | None => None
      | Some v =>
          match t, v with
          | ToHandle h, VTy u => run bld (upd hs h u) es r
          | ToElem k, _ => run bld hs (upd es k v) r
          | ToReturn, _ => Some v
          | _, _ => None
          end
      end
  end.
Definition run_body (bld : qname -> option ty) (l : list tok) : option built :=
  match parse None l with
  | Some ss => run bld (fun _ => None) (fun _ => None) ss
  | None => None
  end.

(** A specialisation may be used only after it was defined, and defined once. *)
Fixpoint link (l : list (qname * list tok)) (bld : qname -> option ty)
  : option (qname -> option ty) :=
  match l with
  | [] => Some bld
  | (n, code) :: r =>
      match bld n, run_body bld code with
      | None, Some (VTy t) => link r (fun m => if qname_eqb n m then Some t else bld m)
      | _, _ => None
      end
  end.
(** [None]: the header does not compile. *)
Definition rebuild (h : header) : option proto :=
  match link (h_types h) (fun _ => None) with
  | Some bld =>
      match run_body bld (h_proto h) with
      | Some (VProto p) => Some p
      | _ => None
      end
  | None => None
  end.
