(** Types as data: reflect, unreflect, and the accessors of pj::Any.  Model only.

    /repo/pj/reflect.cpp, /repo/pj/reflect.pj, /repo/pj/include/pj/any.hpp,
    /repo/pj/generate_ir.cpp l.788-829 (getOrCreateReflectFn),
    /repo/pj/llvm_gen2.cpp l.1117-1196 (ReflectOp).

    Names of structs and variants are left out: types are trees here (Types.v), and
    two occurrences of a name have the same contents.  Of a vector the model has no
    inline_payload_size, partial_payload_size and outlined_payload_alignment, which
    nothing reads after planning; of a variant no term_size and term_alignment. *)
From Verif Require Import Base Types Transcode Gen Api Plan.
Local Open Scope Z_scope.

(** reflect::Type (reflect.pj l.42-166).  A type refers to another by the distance
    between their positions in the pool. *)
Inductive rtype :=
| RInt (w al : Z) (s : sign)
| RFloat (is32 : bool) (al : Z)
| RUnit
| RStruct (fs : list (field Z)) (size al : Z)
| RInline (ts : list (term Z)) (d : nat) (term_off tag_off tag_w size al : Z)
| ROutline (ts : list (term Z)) (d : nat) (tag_w tag_al term_off : Z)
| RArray (elem len esz al : Z)
| RVector (elem ew mn mx ppl len_off len_sz ref_off ref_sz : Z) (mode : refmode)
          (inl_off part_off size al : Z).

Definition pool := list rtype.
Definition cache := list (ty * Z).
Definition pool_len (l : pool) : Z := Z.of_nat (List.length l).

(** int32_t. *)
Definition int32 (z : Z) : Z := sgnw 4 z.

Section REFLECT.
(** The key of the cache (l.32-34, l.50): MLIR's pointer for the type. *)
Variable same : ty -> ty -> bool.

(** One after the other, keeping the positions. *)
Fixpoint visit (l : list (pool * cache -> (pool * cache) * Z)) (s : pool * cache)
  : (pool * cache) * list Z :=
  match l with
  | [] => (s, [])
  | f :: r => let (s1, i) := f s in
              let (s2, is) := visit r s1 in
              (s2, i :: is)
  end.

Definition push (r : rtype) (s : pool * cache) : pool * cache := (fst s ++ [r], snd s).

(** [fields[i].type - this_offset] (l.184-187, l.387-390); in both lists the position
    is the pool's size before the type itself is added. *)
Definition rel (s : pool * cache) (i : Z) : Z := int32 (i - pool_len (fst s)).

(** reflect(ValueType) l.28-52 and the reflect of each class: l.99-110, l.122-133,
    l.147-151, l.168-198, l.228-242, l.254-280, l.394-412, l.434-449. *)
Fixpoint reflect_ty (t : ty) (s : pool * cache) : (pool * cache) * Z :=
  match find (fun e => same (fst e) t) (snd s) with
  | Some e => (s, snd e)
  | None =>
      let s' :=
        match t with
        | TInt w al sg => push (RInt w al sg) s
        | TFloat w al => push (RFloat (w =? 4) al) s
        | TUnit => push RUnit s
        | TStruct fs size al =>
            let (s1, is) := visit (map (fun f => reflect_ty (f_ty f)) fs) s in
            push (RStruct (map (fun fi => mkField (f_name (fst fi)) (rel s1 (snd fi))
                                                  (f_off (fst fi))) (combine fs is))
                          size al) s1
        | TVar x ts =>
            let (s1, is) := visit (map (fun t => reflect_ty (t_ty t)) ts) s in
            let ts' := map (fun ti => mkTerm (t_name (fst ti)) (rel s1 (snd ti))
                                             (t_tag (fst ti)) (t_attrs (fst ti)))
                           (combine ts is) in
            if x_outline x
            then push (ROutline ts' (x_default x) (x_tag_w x) (x_align x) (x_term_off x)) s1
            else push (RInline ts' (x_default x) (x_term_off x) (x_tag_off x) (x_tag_w x)
                               (x_size x) (x_align x)) s1
        | TArr e len esz al =>
            let (s1, i) := reflect_ty e s in push (RArray (rel s1 i) len esz al) s1
        | TVec e p =>
            let (s1, i) := reflect_ty e s in
            push (RVector (rel s1 i) (v_ew p) (v_min p) (v_max p) (v_ppl p) (v_len_off p)
                          (v_len_sz p) (v_ref_off p) (v_ref_sz p) (v_mode p) (v_inl_off p)
                          (v_part_off p) (v_size p) (v_align p)) s1
        end in
      let i := pool_len (fst s') - 1 in
      ((fst s', (t, i) :: snd s'), i)
  end.

(** reflect(ProtocolType) l.73-89. *)
Record rproto := mkRProto { rp_head : Z; rp_bufoff : Z; rp_types : pool }.
Definition reflect (pr : proto) : rproto :=
  let '(s, i) := reflect_ty (p_head pr) ([], []) in
  mkRProto i (p_bufoff pr) (fst s).
End REFLECT.

Definition at_pool (l : pool) (i : Z) : option rtype :=
  if i <? 0 then None else nth_error l (Z.to_nat i).

Definition all {A B} (f : A -> option B) : list A -> option (list B) :=
  fix go l :=
    match l with
    | [] => Some []
    | x :: r => match f x, go r with
                | Some y, Some ys => Some (y :: ys)
                | _, _ => None
                end
    end.

(** unreflect: l.54-71, l.91-97 and one per class.  The recursion goes through the
    pool; [n] bounds it.  A vector comes back without its wire_min_length (l.282-305
    leaves it at its initial value). *)
Fixpoint unreflect_ty (n : nat) (l : pool) (i : Z) : option ty :=
  match n with
  | O => None
  | S n' =>
      let sub r := unreflect_ty n' l (i + r) in
      match at_pool l i with
      | None => None
      | Some (RInt w al s) => Some (TInt w al s)
      | Some (RFloat b al) => Some (TFloat (if b then 4 else 8) al)
      | Some RUnit => Some TUnit
      | Some (RStruct fs size al) =>
          match all (fun f => match sub (f_ty f) with
                              | Some t => Some (mkField (f_name f) t (f_off f))
                              | None => None end) fs with
          | Some fs' => Some (TStruct fs' size al)
          | None => None
          end
      | Some (RInline ts d o go gw size al) =>
          match all (fun t => match sub (t_ty t) with
                              | Some u => Some (mkTerm (t_name t) u (t_tag t) (t_attrs t))
                              | None => None end) ts with
          | Some ts' => Some (TVar (mkVar false d o go gw size al) ts')
          | None => None
          end
      | Some (ROutline ts d gw gal o) =>
          match all (fun t => match sub (t_ty t) with
                              | Some u => Some (mkTerm (t_name t) u (t_tag t) (t_attrs t))
                              | None => None end) ts with
          | Some ts' => Some (TVar (mkVar true d o 0 gw gw gal) ts')
          | None => None
          end
      | Some (RArray e len esz al) =>
          match sub e with Some t => Some (TArr t len esz al) | None => None end
      | Some (RVector e ew mn mx ppl lo ls ro rs m io po size al) =>
          match sub e with
          | Some t => Some (TVec t (mkVec mn mx 0 ppl lo ls ro rs m io po ew size al))
          | None => None
          end
      end
  end.

(** unreflect(Protocol) l.91-97. *)
Definition unreflect (r : rproto) : option proto :=
  match unreflect_ty (List.length (rp_types r)) (rp_types r) (rp_head r) with
  | Some t => Some (mkProto t (rp_bufoff r))
  | None => None
  end.

(** ** Decoding into an Any *)

(** reflectableTypeFor l.492-588. *)
Fixpoint reflectable (t : ty) : ty :=
  match t with
  | TInt _ _ _ | TFloat _ _ | TUnit => t
  | TArr e len _ _ =>
      let e' := reflectable e in
      TArr e' len (align_up (hsize e') (halign e')) (halign e')
  | TVec e p =>
      let e' := reflectable e in
      TVec e' (mkVec 0 (v_max p) 0 0 0 8 8 8 RPointer (-1) (-1)
                     (align_up (hsize e') (halign e')) 16 8)
  | TStruct fs _ _ =>
      let l := map (fun f => (f_name f, reflectable (f_ty f))) fs in
      let (fs', e) := lay_fields 0 l in
      TStruct fs' e (fold_right (fun nt m => Z.max (halign (snd nt)) m) 1 l)
  | TVar x ts =>
      let ts' := map (fun t => mkTerm (t_name t) (reflectable (t_ty t)) (t_tag t) []) ts in
      let sz := fold_right (fun t m => Z.max (hsize (t_ty t)) m) 0 ts' in
      TVar (mkVar false (x_default x) 0 sz (x_tag_w x) (sz + x_tag_w x)
                  (fold_right (fun t m => Z.max (halign (t_ty t)) m) 1 ts')) ts'
  end.

(** pj::Any (any.hpp l.61-71): where the data is and which type of the pool it has.
    [protocol_] is left out: it is the same for all Anys of one decode. *)
Record any := mkAny { y_data : Z; y_type : Z }.

(** A decoder whose host type is Any: align, allocate the head of the reflectable type,
    transcode, and point to it. *)
Inductive ares := AOk (a : any) (l : pool) (o : dec_out) | AFail (o : dec_out) | AUB | AStuck.
Definition decode_any (fconv : Z -> Z -> Z -> Z) (same : ty -> ty -> bool) (pr : proto)
           (msg dbuf dsize : Z) (m : mem) : ares :=
  let rt := reflectable (p_head pr) in
  if gen rt (p_head pr) [] [] then
    let out s := mkOut (s_mem s) 0 (-1) (s_cb s) in
    match align KBounded (halign rt) (mkSt m dbuf dsize None) with
    | Ok s1 =>
        match allocate KBounded (hsize rt) s1 with
        | Ok s2 =>
            match xc fconv rt KBounded (p_head pr) [] [] msg (s_ptr s1) s2 with
            | Ok s =>
                let '(st, i) := reflect_ty same rt ([], []) in
                AOk (mkAny (s_ptr s1) i) (fst st)
                    (mkOut (s_mem s) (s_ptr s) (s_rem s) (s_cb s))
            | Throw s => AFail (out s)
            | UB => AUB
            | Stuck => AStuck
            end
        | Throw s => AFail (out s)
        | UB => AUB
        | Stuck => AStuck
        end
    | Throw s => AFail (out s)
    | UB => AUB
    | Stuck => AStuck
    end
  else AStuck.

(** *** Accessors *)
Inductive akind := KInt | KFloat | KUnit | KStruct | KVariant | KSequence.
Section ANY.
Variable l : pool.
Variable m : mem.

Definition any_type (a : any) : option rtype := at_pool l (y_type a).

(** any.hpp l.31-50. *)
Definition kind_of (a : any) : option akind :=
  match any_type a with
  | Some (RInt _ _ _) => Some KInt
  | Some (RFloat _ _) => Some KFloat
  | Some RUnit => Some KUnit
  | Some (RStruct _ _ _) => Some KStruct
  | Some (RInline _ _ _ _ _ _ _) => Some KVariant
  | Some (ROutline _ _ _ _ _) => None
  | Some (RArray _ _ _ _) | Some (RVector _ _ _ _ _ _ _ _ _ _ _ _ _ _) => Some KSequence
  | None => None
  end.

(** AnyStruct l.78-101, AnyField l.103-130. *)
Definition num_fields (a : any) : option nat :=
  match any_type a with Some (RStruct fs _ _) => Some (List.length fs) | _ => None end.
Definition field_name (a : any) (i : nat) : option string :=
  match any_type a with
  | Some (RStruct fs _ _) => option_map f_name (nth_error fs i)
  | _ => None
  end.
Definition field_value (a : any) (i : nat) : option any :=
  match any_type a with
  | Some (RStruct fs _ _) =>
      option_map (fun f => mkAny (y_data a + f_off f) (y_type a + f_ty f)) (nth_error fs i)
  | _ => None
  end.

(** getIntValueSigned, getIntValueUnsigned, getIntValue l.142-177: only the four C
    widths.  The result type is taken wide enough for the value. *)
Definition c_width (w : Z) : bool := (w =? 1) || (w =? 2) || (w =? 4) || (w =? 8).
Definition get_unsigned (d w : Z) : option Z := if c_width w then load m d w else None.
Definition get_signed (d w : Z) : option Z :=
  if c_width w then option_map (sgnw w) (load m d w) else None.
(** AnyInt::getValue l.179-191. *)
Definition int_value (a : any) : option Z :=
  match any_type a with
  | Some (RInt w _ s) =>
      match s with Signed => get_signed (y_data a) w | _ => get_unsigned (y_data a) w end
  | _ => None
  end.
(** AnyFloat::getValue l.193-224: the bits, and the width they are read with. *)
Definition float_value (a : any) : option (Z * Z) :=
  match any_type a with
  | Some (RFloat b _) =>
      let w := if b then 4 else 8 in option_map (fun x => (w, x)) (load m (y_data a) w)
  | _ => None
  end.

(** AnyVariant l.226-272. *)
Definition term_tag (a : any) : option Z :=
  match any_type a with
  | Some (RInline _ _ _ go gw _ _) => get_unsigned (y_data a + go) gw
  | _ => None
  end.
Definition term_of (a : any) : option (term Z) :=
  match any_type a, term_tag a with
  | Some (RInline ts _ _ _ _ _ _), Some g => find (fun t => t_tag t =? g) ts
  | _, _ => None
  end.
Definition term_name (a : any) : option string := option_map t_name (term_of a).
Definition term_value (a : any) : option any :=
  match any_type a, term_of a with
  | Some (RInline _ _ o _ _ _ _), Some t => Some (mkAny (y_data a + o) (y_type a + t_ty t))
  | _, _ => None
  end.

(** AnySequence l.274-318. *)
Definition seq_size (a : any) : option Z :=
  match any_type a with
  | Some (RArray _ len _ _) => Some len
  | Some (RVector _ _ _ _ _ lo ls _ _ _ _ _ _ _) => get_unsigned (y_data a + lo) ls
  | _ => None
  end.
Definition seq_elem (a : any) (i : Z) : option any :=
  match any_type a with
  | Some (RArray e _ esz _) => Some (mkAny (y_data a + i * esz) (y_type a + e))
  | Some (RVector e ew mn _ ppl _ _ ro rs RPointer _ _ _ _) =>
      if (mn =? 0) && (ppl =? 0) then
        match get_unsigned (y_data a + ro) rs with
        | Some p => Some (mkAny (p + i * ew) (y_type a + e))
        | None => None
        end
      else None
  | _ => None
  end.
End ANY.
