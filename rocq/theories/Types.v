(** The type tree with its byte layout.

    /repo/pj/types.hpp: Int l.40, Float l.100, Unit l.193, Struct l.235,
    TermAttribute l.279-312, Term l.314, InlineVariant l.338-378,
    OutlineVariant l.386-424, Array l.592-626, Vector l.704-808.

    Simplifications: nominal types are inlined (a type is a finite tree);
    [Any] is treated separately; display names of types are dropped. *)
From Verif Require Import Base.

Inductive sign := Signed | Unsigned | Signless.

Inductive refmode := RPointer | ROffset.

(** TermAttribute (types.hpp l.279-312). *)
Inductive attr :=
| AUndef (is_default : bool)
| ASplit (is_inline : bool) (inline_length : Z) (path : list string).

(** Vector (types.hpp l.704-808); lengths are counts, the rest bytes.
    [v_max = -1] means unbounded. *)
Record vecinfo := mkVec {
  v_min : Z;        (* min_length *)
  v_max : Z;        (* max_length *)
  v_wmin : Z;       (* wire_min_length *)
  v_ppl : Z;        (* ppl_count *)
  v_len_off : Z; v_len_sz : Z;
  v_ref_off : Z; v_ref_sz : Z;
  v_mode : refmode;
  v_inl_off : Z;    (* inline_payload_offset *)
  v_part_off : Z;   (* partial_payload_offset *)
  v_ew : Z;         (* elem_width *)
  v_size : Z; v_align : Z }.

(** InlineVariant and OutlineVariant.  For an outline variant the tag sits at
    offset 0 and the head is just the tag (types.hpp l.386-424, l.563-577). *)
Record varinfo := mkVar {
  x_outline : bool;
  x_default : nat;
  x_term_off : Z;
  x_tag_off : Z; x_tag_w : Z;
  x_size : Z; x_align : Z }.

Record field (T : Type) := mkField { f_name : string; f_ty : T; f_off : Z }.
Arguments mkField {T} _ _ _.
Arguments f_name {T} _.
Arguments f_ty {T} _.
Arguments f_off {T} _.

Record term (T : Type) := mkTerm {
  t_name : string; t_ty : T; t_tag : Z; t_attrs : list attr }.
Arguments mkTerm {T} _ _ _ _.
Arguments t_name {T} _.
Arguments t_ty {T} _.
Arguments t_tag {T} _.
Arguments t_attrs {T} _.

Inductive ty :=
| TInt (w al : Z) (s : sign)
| TFloat (w al : Z)
| TUnit
| TStruct (fs : list (field ty)) (size al : Z)
| TVar (x : varinfo) (ts : list (term ty))
| TArr (e : ty) (len esz al : Z)
| TVec (e : ty) (p : vecinfo).

(** headSize / headAlignment (types.hpp, one pair per type). *)
Definition hsize (t : ty) : Z :=
  match t with
  | TInt w _ _ => w
  | TFloat w _ => w
  | TUnit => 0
  | TStruct _ size _ => size
  | TVar x _ => x_size x
  | TArr _ len esz _ => esz * len
  | TVec _ p => v_size p
  end.

Definition halign (t : ty) : Z :=
  match t with
  | TInt _ al _ => al
  | TFloat _ al => al
  | TUnit => 1
  | TStruct _ _ al => al
  | TVar x _ => x_align x
  | TArr _ _ _ al => al
  | TVec _ p => v_align p
  end.

(** hasMaxSize (types.hpp l.59, l.117, l.209, l.357, l.406, l.652, l.843;
    types.cpp l.18-20). *)
Fixpoint has_max (t : ty) : bool :=
  match t with
  | TInt _ _ _ | TFloat _ _ | TUnit => true
  | TStruct fs _ _ => forallb (fun f => has_max (f_ty f)) fs
  | TVar _ _ => false
  | TArr e _ _ _ => has_max e
  | TVec e p => (0 <=? v_max p) && has_max e
  end.

(** Does the head contain an outline variant?  OutlineVariantType, or a struct
    whose [outline_variant] is set (types.cpp l.27-36). *)
Fixpoint has_outline (t : ty) : bool :=
  match t with
  | TVar x _ => x_outline x
  | TStruct fs _ _ => existsb (fun f => has_outline (f_ty f)) fs
  | _ => false
  end.

(** isUnit / isEnum (type_support.hpp l.89, type_support.cpp l.123-128,
    internVariant types.hpp l.427-469): an inline variant all of whose terms
    have an empty head. *)
Definition is_unit (t : ty) : bool := hsize t =? 0.
Definition is_enum (x : varinfo) (ts : list (term ty)) : bool :=
  negb (x_outline x) && forallb (fun t => is_unit (t_ty t)) ts.

Definition find_field (n : string) (fs : list (field ty)) : option (field ty) :=
  find (fun f => String.eqb (f_name f) n) fs.
Definition find_term (n : string) (ts : list (term ty)) : option (term ty) :=
  find (fun t => String.eqb (t_name t) n) ts.
Definition find_tag (g : Z) (ts : list (term ty)) : option (term ty) :=
  find (fun t => t_tag t =? g) ts.
Definition has_term (n : string) (ts : list (term ty)) : bool :=
  existsb (fun t => String.eqb (t_name t) n) ts.

(** maxLengthBound (types.hpp l.713): max_length, or "infinity" when
    unbounded; lengths are below 2^63 throughout. *)
Definition bound (p : vecinfo) : Z :=
  if v_max p <? 0 then 2 ^ 63 - 1 else v_max p.

(** Induction principle seeing through the nested lists. *)
Section ty_ind2.
  Variable P : ty -> Prop.
  Hypothesis HInt : forall w al s, P (TInt w al s).
  Hypothesis HFloat : forall w al, P (TFloat w al).
  Hypothesis HUnit : P TUnit.
  Hypothesis HStruct : forall fs size al,
      Forall (fun f => P (f_ty f)) fs -> P (TStruct fs size al).
  Hypothesis HVar : forall x ts,
      Forall (fun t => P (t_ty t)) ts -> P (TVar x ts).
  Hypothesis HArr : forall e len esz al, P e -> P (TArr e len esz al).
  Hypothesis HVec : forall e p, P e -> P (TVec e p).

  Fixpoint ty_ind2 (t : ty) : P t :=
    match t with
    | TInt w al s => HInt w al s
    | TFloat w al => HFloat w al
    | TUnit => HUnit
    | TStruct fs size al =>
        HStruct fs size al
          ((fix go fs : Forall (fun f => P (f_ty f)) fs :=
              match fs with
              | [] => Forall_nil _
              | f :: fs' => Forall_cons f (ty_ind2 (f_ty f)) (go fs')
              end) fs)
    | TVar x ts =>
        HVar x ts
          ((fix go ts : Forall (fun t => P (t_ty t)) ts :=
              match ts with
              | [] => Forall_nil _
              | t :: ts' => Forall_cons t (ty_ind2 (t_ty t)) (go ts')
              end) ts)
    | TArr e len esz al => HArr e len esz al (ty_ind2 e)
    | TVec e p => HVec e p (ty_ind2 e)
    end.
End ty_ind2.
