(** Host types as the generated C++ headers describe them.

    /repo/pj/sourcegen.cpp: printIntTypeRef l.30-62, printTypeRef l.89-143,
    addStructDef / addStructBuilder l.336-424, addVariantDef l.508-566,
    addVariantBuilder l.568-665, addVariant l.667-690; the templates
    BuildPJType in /repo/pj/include/pj: integer.hpp l.94-102, float.hpp l.8-28,
    unit.hpp, array.hpp l.20-33, span.hpp.  Model only.

    A declared type is a [ty] whose layout numbers are ignored: the parser leaves
    them unset.  [v_wmin] holds the minimum length written in the schema (the
    generator prints it as the span's inline hint).  The C++ side is the
    Itanium ABI on x86-64: fields in order, each at the next multiple of its
    alignment, sizes rounded up to the alignment, nothing has size 0.
    pj::Any, zero-length arrays and the 16-bit signless integer (whose wrapper
    is wchar_t, so that such a field does not compile) are left out, see
    [cpp_ok].  internVariant's sorting of the terms by name is left out too:
    nothing below depends on the order of terms with distinct names. *)
From Verif Require Import Base Types Transcode Spec Plan.

(** ** The C++ classes *)

(** alignof *)
Fixpoint calign (t : ty) : Z :=
  match t with
  | TInt w _ _ => w
  | TFloat w _ => w
  | TUnit => 1
  | TStruct fs _ _ => fold_right (fun f m => Z.max (calign (f_ty f)) m) 1 fs
  | TVar _ ts => fold_right (fun t m => Z.max (calign (t_ty t)) m) (tag_width ts) ts
  | TArr e _ _ _ => calign e
  | TVec _ _ => 8
  end.

(** has_value of addVariant: some term is not a plain unit. *)
Definition has_value (ts : list (term ty)) : bool :=
  negb (forallb (fun t => is_tunit (t_ty t)) ts).

(** The union of a variant class: size and alignment (it has a char member). *)
Definition union_align (ts : list (term ty)) : Z :=
  fold_right (fun t m => Z.max (calign (t_ty t)) m) 1 ts.
Definition union_of (csize : ty -> Z) (ts : list (term ty)) : Z :=
  align_up (fold_right (fun t m => Z.max (csize (t_ty t)) m) 1 ts) (union_align ts).

(** sizeof.  An enum class has the size of its tag; a variant class is the union
    followed by the tag. *)
Fixpoint csize (t : ty) : Z :=
  match t with
  | TInt w _ _ => w
  | TFloat w _ => w
  | TUnit => 1
  | TStruct fs _ _ =>
      Z.max 1 (align_up
        ((fix go off fs :=
            match fs with
            | [] => off
            | f :: r => go (align_up off (calign (f_ty f)) + csize (f_ty f)) r
            end) 0 fs) (calign t))
  | TVar _ ts =>
      let tw := tag_width ts in
      if has_value ts
      then align_up (align_up (union_of csize ts) tw + tw) (calign t)
      else tw
  | TArr e len _ _ => len * csize e
  | TVec _ _ => 16
  end.

(** offsetof the tag. *)
Definition tag_at (ts : list (term ty)) : Z :=
  if has_value ts then align_up (union_of csize ts) (tag_width ts) else 0.

(** ** What the generated builder tells the library *)

(** elem_size of array.hpp l.28 is sizeof(Elem), Elem being what printTypeRef
    wrote with wrap = true: the empty class pj::integer<...> for an integer, the
    stored type otherwise. *)
Definition told_stride (e : ty) : Z :=
  match e with TInt _ _ _ => 1 | _ => csize e end.

Fixpoint build (t : ty) : ty :=
  match t with
  | TInt w _ s => TInt w w s
  | TFloat w _ => TFloat w 4
  | TUnit => TUnit
  | TStruct fs _ _ =>
      TStruct ((fix go off fs :=
                  match fs with
                  | [] => []
                  | f :: r =>
                      let o := align_up off (calign (f_ty f)) in
                      mkField (f_name f) (build (f_ty f)) o :: go (o + csize (f_ty f)) r
                  end) 0 fs) (csize t) (calign t)
  | TVar x ts =>
      TVar (mkVar false (x_default x) (if has_value ts then 0 else -1)
                  (tag_at ts) (tag_width ts) (csize t) (calign t))
           (map (fun t => mkTerm (t_name t) (build (t_ty t)) (t_tag t) []) ts)
  | TArr e len _ _ => TArr (build e) len (told_stride e) (calign e)
  | TVec e p =>
      let e' := build e in
      TVec e' (mkVec 0 (v_max p) (v_wmin p) 0 8 8 0 8 RPointer (-1) (-1)
                     (align_up (hsize e') (halign e')) 16 8)
  end.

(** ** What a C++ object of a declared type holds *)
Fixpoint holds (R : Z -> Prop) (m : mem) (t : ty) (a : Z) (v : val) : Prop :=
  match t, v with
  | TInt w _ sg, VInt z => exists u, loadR R m a w u /\ z = interp w sg u
  | TFloat w _, VFloat w' b => w' = w /\ loadR R m a w b
  | TUnit, VUnit => True
  | TStruct fs _ _, VStruct l =>
      (fix go off fs l :=
         match fs, l with
         | [], [] => True
         | f :: fs', nv :: l' =>
             let o := align_up off (calign (f_ty f)) in
             (fst nv = f_name f /\ holds R m (f_ty f) (a + o) (snd nv)) /\
             go (o + csize (f_ty f)) fs' l'
         | _, _ => False
         end) 0 fs l
  | TVar _ ts, VVar n v' =>
      (fix go l :=
         match l with
         | [] => False
         | t :: r =>
             (t_name t = n /\ loadR R m (a + tag_at ts) (tag_width ts) (t_tag t) /\
              holds R m (t_ty t) a v')
             \/ go r
         end) ts
  | TVar _ ts, VUnk =>
      has_value ts = true /\
      exists g, loadR R m (a + tag_at ts) (tag_width ts) g /\ ~ In g (map t_tag ts)
  | TArr e len _ _, VArr l =>
      Z.of_nat (List.length l) = len /\
      forall i v, nth_error l i = Some v -> holds R m e (a + Z.of_nat i * csize e) v
  | TVec e p, VVec l =>
      let n := Z.of_nat (List.length l) in
      n < 2 ^ 63 /\ (0 <= v_max p -> n <= v_max p) /\
      loadR R m (a + 8) 8 n /\
      (n = 0 \/
       exists b, loadR R m a 8 b /\
         forall i v, nth_error l i = Some v -> holds R m e (b + Z.of_nat i * csize e) v)
  | _, _ => False
  end.

(** ** Declared types whose C++ compiles and agrees *)
Fixpoint cpp_ok (t : ty) : bool :=
  match t with
  | TInt w _ s => ((w =? 1) || (w =? 2) || (w =? 4) || (w =? 8)) &&
                  negb ((w =? 2) && match s with Signless => true | _ => false end)
  | TFloat w _ => (w =? 4) || (w =? 8)
  | TUnit => true
  | TStruct fs _ _ => forallb (fun f => cpp_ok (f_ty f)) fs
  | TVar x ts => forallb (fun t => cpp_ok (t_ty t)) ts
  | TArr e len _ _ => (1 <=? len) && cpp_ok e
  | TVec e _ => cpp_ok e
  end.
(** No array of integers wider than a byte. *)
Fixpoint strides_ok (t : ty) : bool :=
  match t with
  | TStruct fs _ _ => forallb (fun f => strides_ok (f_ty f)) fs
  | TVar x ts => forallb (fun t => strides_ok (t_ty t)) ts
  | TArr e _ _ _ => (match e with TInt w _ _ => w =? 1 | _ => true end) && strides_ok e
  | TVec e _ => strides_ok e
  | _ => true
  end.
