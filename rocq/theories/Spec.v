(** What encode / decode / size are supposed to do, stated over values.

    Values know nothing about offsets, tags, references or buffers.  [rep]
    says when a memory holds a value at a given layout; [convt] is conversion
    between schemas by name. *)
From Verif Require Import Base Types Transcode.

Inductive val :=
| VInt (z : Z)                        (* mathematical value *)
| VFloat (w bits : Z)
| VUnit
| VStruct (l : list (string * val))
| VVar (n : string) (v : val)         (* term name and payload *)
| VUnk                                (* a variant whose tag is in no term *)
| VArr (l : list val)
| VVec (l : list val).

(** Integers: two's complement for signed types. *)
Definition interp (w : Z) (sg : sign) (u : Z) : Z :=
  match sg with Signed => sgnw w u | _ => wrapw w u end.

(** Byte ranges. *)
Definition inR (a n x : Z) : Prop := a <= x < a + n.

(** [loadR R m a w u]: the [w] bytes at [a] lie in region [R] and hold [u]. *)
Definition loadR (R : Z -> Prop) (m : mem) (a w u : Z) : Prop :=
  (forall x, inR a w x -> R x) /\ load m a w = Some u.

Definition ref_start (p : vecinfo) (a x : Z) : Z :=
  match v_mode p with
  | RPointer => x
  | ROffset => a + sgnw (v_ref_sz p) (x + v_ref_off p)
  end.

(** Address of element [i] of a vector of [n] elements, [b] being what the
    reference points at: inline when n <= min_length, otherwise the first
    [ppl] elements in the partial region and the rest behind the reference. *)
Definition elem_addr (p : vecinfo) (a b n i : Z) : Z :=
  if dst_inline p n then a + v_inl_off p + i * v_ew p
  else if i <? v_ppl p then a + v_part_off p + i * v_ew p
  else b + (i - v_ppl p) * v_ew p.

Definition vec_rep (R : Z -> Prop) (m : mem)
           (rep_e : Z -> val -> Prop) (p : vecinfo) (a : Z) (l : list val)
  : Prop :=
  let n := Z.of_nat (List.length l) in
  n < 2 ^ 63 /\ n <= bound p /\
  (v_max p <> 0 -> loadR R m (a + v_len_off p) (v_len_sz p) n) /\
  exists b,
    (dst_inline p n = false -> v_ppl p < n ->
     exists x, loadR R m (a + v_ref_off p) (v_ref_sz p) x /\
               b = ref_start p a x) /\
    forall i v, nth_error l i = Some v ->
                rep_e (elem_addr p a b n (Z.of_nat i)) v.

(** [rep R m t a v]: memory [m] holds value [v] at address [a] with layout [t],
    using only bytes of [R]. *)
Fixpoint rep (R : Z -> Prop) (m : mem) (t : ty) (a : Z) (v : val) : Prop :=
  match t, v with
  | TInt w _ sg, VInt z => exists u, loadR R m a w u /\ z = interp w sg u
  | TFloat w _, VFloat w' b => w' = w /\ loadR R m a w b
  | TUnit, VUnit => True
  | TStruct fs _ _, VStruct l =>
      (fix go fs l :=
         match fs, l with
         | [], [] => True
         | f :: fs', nv :: l' =>
             (fst nv = f_name f /\ rep R m (f_ty f) (a + f_off f) (snd nv))
             /\ go fs' l'
         | _, _ => False
         end) fs l
  | TVar x ts, VVar n v' =>
      (fix go ts :=
         match ts with
         | [] => False
         | t :: ts' =>
             (t_name t = n /\
              loadR R m (a + x_tag_off x) (x_tag_w x) (t_tag t) /\
              rep R m (t_ty t) (a + x_term_off x) v')
             \/ go ts'
         end) ts
  | TVar x ts, VUnk =>
      is_enum x ts = false /\
      exists g, loadR R m (a + x_tag_off x) (x_tag_w x) g /\
                ~ In g (map t_tag ts)
  | TArr e len esz _, VArr l =>
      Z.of_nat (List.length l) = len /\
      forall i v, nth_error l i = Some v -> rep R m e (a + Z.of_nat i * esz) v
  | TVec e p, VVec l => vec_rep R m (rep R m e) p a l
  | _, _ => False
  end.

(** ** Conversion by name *)
Definition assoc (n : string) (l : list (string * val)) : option val :=
  match find (fun nv => String.eqb (fst nv) n) l with
  | Some (_, v) => Some v
  | None => None
  end.

(** Split conditions on values. *)
Fixpoint proj_val (p : path) (v : val) : option val :=
  match p with
  | [] => None
  | n :: r =>
      match r with
      | [] => Some v
      | _ => match v with
             | VStruct l => match assoc n l with
                            | Some v' => proj_val r v' | None => None end
             | _ => None
             end
      end
  end.
Definition attr_val (v : val) (x : attr) : option bool :=
  match x with
  | AUndef b => Some b
  | ASplit isin n p =>
      match proj_val p v with
      | Some (VVec l) =>
          let c := Z.of_nat (List.length l) in
          Some (if isin then c <=? n else n <? c)
      | _ => None
      end
  end.
Fixpoint cond_val (v : val) (l : list attr) : option bool :=
  match l with
  | [] => Some true
  | x :: r => match attr_val v x, cond_val v r with
              | Some b, Some b' => Some (b && b')
              | _, _ => None
              end
  end.

(** The target terms for a source term named [n]: the ones of that name, or
    the default term. *)
Definition cands {A} (nm : A -> string) (x : varinfo) (n : string) (l : list A)
  : list A :=
  match filter (fun t => String.eqb (nm t) n) l with
  | [] => match nth_error l (x_default x) with Some t => [t] | None => [] end
  | l' => l'
  end.
Fixpoint first_match {A} (at_ : A -> list attr) (v : val) (l : list A)
  : option A :=
  match l with
  | [] => None
  | t :: r => match cond_val v (at_ t) with
              | Some true => Some t
              | Some false => first_match at_ v r
              | None => None
              end
  end.

Definition mapM {A B} (f : A -> option B) : list A -> option (list B) :=
  fix go l :=
    match l with
    | [] => Some []
    | x :: r => match f x, go r with
                | Some y, Some ys => Some (y :: ys)
                | _, _ => None
                end
    end.

Section CONV.
Variable fconv : Z -> Z -> Z -> Z.

(** [convt t v]: the value a target of type [t] should hold after receiving
    [v].  Struct fields and variant terms are matched by name; a missing field
    or an unknown tag takes the default; sequences are cut to the target's
    capacity; fixed arrays are padded with defaults.  [convt t VUnit] is the
    default value of [t]. *)
Fixpoint convt (t : ty) (v : val) : option val :=
  match t with
  | TUnit => Some VUnit
  | TInt w _ sg =>
      match v with
      | VInt z => Some (VInt (interp w sg (wrapw w z)))
      | VUnit => Some (VInt 0)
      | _ => None
      end
  | TFloat w _ =>
      match v with
      | VFloat w0 b => Some (VFloat w (if w0 =? w then b
                                       else wrapw w (fconv w0 w b)))
      | VUnit => Some (VFloat w (float_default w))
      | _ => None
      end
  | TStruct fs _ _ =>
      let get l :=
        match mapM (fun f =>
                match convt (f_ty f)
                            (match assoc (f_name f) l with
                             | Some v => v | None => VUnit end) with
                | Some v' => Some (f_name f, v')
                | None => None
                end) fs with
        | Some l' => Some (VStruct l')
        | None => None
        end in
      match v with
      | VStruct l => get l
      | VUnit => get []
      | _ => None
      end
  | TVar x ts =>
      let l := map (fun t => (t, convt (t_ty t))) ts in
      let go c v :=
        match first_match (fun tf => t_attrs (fst tf)) v c with
        | Some (t, f) =>
            match f v with Some v' => Some (VVar (t_name t) v') | None => None end
        | None => None
        end in
      let dflt :=
        match nth_error l (x_default x) with Some t => [t] | None => [] end in
      match v with
      | VVar n v0 => go (cands (fun tf => t_name (fst tf)) x n l) v0
      | VUnk => go dflt VUnit
      | VUnit => go dflt VUnit
      | _ => None
      end
  | TArr e len _ _ =>
      let get l :=
        match mapM (convt e) (firstn (Z.to_nat len) l), convt e VUnit with
        | Some l', Some dv =>
            Some (VArr (l' ++ repeat dv (Z.to_nat len - List.length l')))
        | Some l', None =>
            if (Z.to_nat len <=? List.length l')%nat then Some (VArr l') else None
        | None, _ => None
        end in
      match v with
      | VArr l => get l
      | VUnit => get []
      | _ => None
      end
  | TVec e p =>
      match v with
      | VVec l =>
          match mapM (convt e) (if v_max p <? 0 then l
                                else firstn (Z.to_nat (v_max p)) l) with
          | Some l' => Some (VVec l')
          | None => None
          end
      | VUnit => Some (VVec [])
      | _ => None
      end
  end.
End CONV.

(** ** How much buffer the conversion uses *)

Fixpoint seq_adv (f : val -> Z -> Z) (l : list val) (b : Z) : Z :=
  match l with [] => b | v :: r => seq_adv f r (f v b) end.

Definition vec_cut (p : vecinfo) (l : list val) : list val :=
  if v_max p <? 0 then l else firstn (Z.to_nat (v_max p)) l.

(** [oadv t v b]: buffer position after writing [v] (before conversion) into a
    [t], starting from position [b]. *)
Fixpoint oadv (t : ty) (v : val) (b : Z) : Z :=
  match v with
  | VUnit => b
  | _ =>
  match t with
  | TStruct fs _ _ =>
      match v with
      | VStruct l =>
          fold_left (fun b ff =>
                       match assoc (f_name (fst ff)) l with
                       | Some v' => snd ff v' b | None => b end)
            (outline_first (fun ff => has_outline (f_ty (fst ff)))
                           (map (fun f => (f, oadv (f_ty f))) fs)) b
      | _ => b
      end
  | TVar x ts =>
      let l := map (fun t => (t, oadv (t_ty t))) ts in
      let go c v b :=
        match first_match (fun tf => t_attrs (fst tf)) v c with
        | Some (t, f) =>
            f v (if x_outline x then b + hsize (t_ty t) else b)
        | None => b
        end in
      let dflt :=
        match nth_error l (x_default x) with Some t => [t] | None => [] end in
      match v with
      | VVar n v0 => go (cands (fun tf => t_name (fst tf)) x n l) v0 b
      | VUnk => go dflt VUnit b
      | _ => b
      end
  | TArr e len _ _ =>
      match v with
      | VArr l => seq_adv (oadv e) (firstn (Z.to_nat len) l) b
      | _ => b
      end
  | TVec e p =>
      match v with
      | VVec l =>
          let l' := vec_cut p l in
          let n := Z.of_nat (List.length l') in
          if dst_inline p n then seq_adv (oadv e) l' b
          else seq_adv (oadv e) l'
                       (align_up b (halign e) + v_ew p * (n - v_ppl p))
      | _ => b
      end
  | _ => b
  end
  end.

(** Where the body of the outlined variant lies, from the start of the head. *)
Fixpoint oloc (t : ty) : Z :=
  match t with
  | TVar x _ => x_term_off x
  | TStruct fs _ _ =>
      (fix go fs := match fs with
                    | [] => 0
                    | f :: r => if has_outline (f_ty f) then f_off f + oloc (f_ty f)
                                else go r
                    end) fs
  | _ => 0
  end.

(** ** The callback left in the slot *)
Fixpoint cbt (t src : ty) (hs : handlers) (v : val) (cb : option Z) : option Z :=
  match t with
  | TStruct fs _ _ =>
      let sub l sfs :=
        fold_left (fun cb ff =>
            let f := fst ff in
            snd ff (match last_field (f_name f) sfs with
                    | Some sf => f_ty sf | None => TUnit end)
                (handlers_into hs (f_name f))
                (match assoc (f_name f) l with Some v' => v' | None => VUnit end)
                cb)
          (outline_first (fun ff => has_outline (f_ty (fst ff)))
                         (map (fun f => (f, cbt (f_ty f))) fs)) cb in
      match v, src with
      | VStruct l, TStruct sfs _ _ => sub l sfs
      | VUnit, _ => sub [] []
      | _, _ => cb
      end
  | TVar x ts =>
      let fire c :=
        match c with
        | t :: _ => match find_handler (t_name t) hs with
                    | Some i => Some i | None => cb end
        | [] => cb
        end in
      let dflt :=
        match nth_error ts (x_default x) with Some t => [t] | None => [] end in
      match v, src with
      | VVar n _, TVar sx sts =>
          if use_copytag sx sts x ts then cb else fire (cands t_name x n ts)
      | VUnk, _ => fire dflt
      | VUnit, _ => fire dflt
      | _, _ => cb
      end
  | _ => cb
  end.

(** Handlers must name a term wherever they reach a variant. *)
Fixpoint handlers_fit (t : ty) (hs : handlers) : bool :=
  match t with
  | TStruct fs _ _ =>
      forallb (fun f => handlers_fit (f_ty f) (handlers_into hs (f_name f))) fs
  | TVar _ _ => handlers_ok hs
  | _ => true
  end.

(** ** The source path hint agrees with the value *)
Fixpoint pathv (v : val) (p : path) : bool :=
  match v with
  | VStruct l => forallb (fun nv => pathv (snd nv) (path_into p (fst nv))) l
  | VVar n _ => match p with [] => true | x :: _ => String.eqb x n end
  | VUnk => match p with [] => true | _ => false end
  | _ => true
  end.

Fixpoint nodup_str (l : list string) : bool :=
  match l with
  | [] => true
  | n :: r => negb (existsb (String.eqb n) r) && nodup_str r
  end.

(** Under a path the term is looked up by name only (generate_ir.cpp l.455-470),
    so the source's terms must have distinct names there; they do in any type
    that has not been through vector hoisting. *)
Fixpoint path_ty (t : ty) (p : path) : bool :=
  match t with
  | TStruct fs _ _ =>
      forallb (fun f => path_ty (f_ty f) (path_into p (f_name f))) fs
  | TVar _ ts => match p with [] => true | _ => nodup_str (map t_name ts) end
  | _ => true
  end.

(** ** Well-formed layouts *)
Definition disj (a n b m : Z) : bool :=
  (n <=? 0) || (m <=? 0) || (a + n <=? b) || (b + m <=? a).
Fixpoint disj_all (l : list (Z * Z)) : bool :=
  match l with
  | [] => true
  | (a, n) :: r => forallb (fun bm => disj a n (fst bm) (snd bm)) r && disj_all r
  end.
Fixpoint nodup_z (l : list Z) : bool :=
  match l with
  | [] => true
  | n :: r => negb (existsb (Z.eqb n) r) && nodup_z r
  end.

Definition align_ok (al : Z) : bool :=
  (al =? 1) || (al =? 2) || (al =? 4) || (al =? 8).

Definition vec_wf (e : ty) (p : vecinfo) : bool :=
  let es := hsize e in
  negb (has_outline e) && align_ok (halign e) &&
  (0 <=? v_min p) && (v_min p <? 2 ^ 63 - 1) && (-1 <=? v_max p) && (v_max p <? 2 ^ 63) &&
  (0 <=? v_ppl p) && (v_ppl p <=? v_min p) &&
  (es <=? v_ew p) && (v_ref_sz p =? 8) &&
  (1 <=? v_len_sz p) && (v_len_sz p <=? 8) &&
  (if v_max p <? 0 then v_len_sz p =? 8 else v_max p <? 2 ^ (8 * v_len_sz p)) &&
  (0 <=? v_len_off p) && (v_len_off p + v_len_sz p <=? v_size p) &&
  (0 <=? v_ref_off p) && (v_ref_off p + 8 <=? v_size p) &&
  disj (v_len_off p) (v_len_sz p) (v_ref_off p) 8 &&
  ((v_min p =? 0) ||
   ((0 <=? v_inl_off p) && (v_inl_off p + v_min p * v_ew p <=? v_size p) &&
    disj (v_len_off p) (v_len_sz p) (v_inl_off p) (v_min p * v_ew p))) &&
  ((v_ppl p =? 0) ||
   ((0 <=? v_part_off p) && (v_part_off p + v_ppl p * v_ew p <=? v_size p) &&
    disj (v_len_off p) (v_len_sz p) (v_part_off p) (v_ppl p * v_ew p) &&
    disj (v_ref_off p) 8 (v_part_off p) (v_ppl p * v_ew p))).

(** Generated headers describe an enum (no term carries data) with a term offset
    of -1 (sourcegen.cpp l.688-760), which is never used: a unit has no bytes. *)
Definition is_tunit (t : ty) : bool :=
  match t with TUnit => true | _ => false end.

Definition var_wf (x : varinfo) (ts : list (term ty)) : bool :=
  (1 <=? x_tag_w x) && (x_tag_w x <=? 8) &&
  (x_default x <? List.length ts)%nat &&
  nodup_z (map t_tag ts) &&
  forallb (fun t => (0 <=? t_tag t) && (t_tag t <? 2 ^ (8 * x_tag_w x)) &&
                    (t_tag t <? 2 ^ 63) && negb (has_outline (t_ty t))) ts &&
  (if x_outline x
   then (x_tag_off x =? 0) && (x_size x =? x_tag_w x) && (x_tag_w x <=? x_term_off x)
   else (0 <=? x_tag_off x) && (x_tag_off x + x_tag_w x <=? x_size x) &&
        ((0 <=? x_term_off x) || forallb (fun t => is_tunit (t_ty t)) ts) &&
        forallb (fun t => (x_term_off x + hsize (t_ty t) <=? x_size x) &&
                          disj (x_tag_off x) (x_tag_w x)
                               (x_term_off x) (hsize (t_ty t))) ts).

Definition count {A} (f : A -> bool) (l : list A) : nat :=
  List.length (filter f l).

Fixpoint wf (t : ty) : bool :=
  match t with
  | TInt w _ _ => (1 <=? w) && (w <=? 8)
  | TFloat w _ => (w =? 4) || (w =? 8)
  | TUnit => true
  | TStruct fs size _ =>
      (0 <=? size) &&
      forallb (fun f => (0 <=? f_off f) && (f_off f + hsize (f_ty f) <=? size)) fs &&
      disj_all (map (fun f => (f_off f, hsize (f_ty f))) fs) &&
      nodup_str (map f_name fs) &&
      (count (fun f => has_outline (f_ty f)) fs <=? 1)%nat &&
      forallb (fun f => wf (f_ty f)) fs
  | TVar x ts => var_wf x ts && forallb (fun t => wf (t_ty t)) ts
  | TArr e len esz _ =>
      (0 <=? len) && (len <? 2 ^ 63) && (hsize e <=? esz) &&
      negb (has_outline e) && wf e
  | TVec e p => vec_wf e p && wf e
  end.

(** ** When the generated code can be trusted for this pair of types *)

(** The enum fast path maps every source term as by-name conversion would. *)
Definition enum_ok (sx : varinfo) (sts : list (term ty))
           (x : varinfo) (ts : list (term ty)) : bool :=
  forallb (fun st =>
    match cands t_name x (t_name st) ts with
    | t :: _ =>
        match t_attrs t, t_ty t, copytag sx sts x ts (t_tag st) with
        | [], TUnit, Some g => g =? t_tag t
        | _, _, _ => false
        end
    | [] => false
    end) sts.

Definition default_name (x : varinfo) (ts : list (term ty)) : string :=
  match nth_error ts (x_default x) with Some t => t_name t | None => EmptyString end.

(** Side conditions under which the generated code converts correctly:
    - a vector with a partial region of [ppl] elements is only received by
      vectors able to hold that many;
    - the enum fast path agrees with the names;
    - an outlined variant is default-initialised only if its default term has no payload. *)
Fixpoint idle (t : ty) : bool :=
  match t with
  | TStruct fs _ _ => forallb (fun f => idle (f_ty f)) fs
  | TVar x ts =>
      negb (x_outline x) ||
      match nth_error ts (x_default x) with Some t => is_tunit (t_ty t) | None => false end
  | _ => true
  end.
Fixpoint compat (dst src : ty) : bool :=
  match dst with
  | TUnit => true
  | TInt _ _ _ | TFloat _ _ => true
  | TStruct fs _ _ =>
      match src with
      | TUnit => idle dst
      | TStruct sfs _ _ =>
          forallb (fun f =>
            match last_field (f_name f) sfs with
            | Some sf => compat (f_ty f) (f_ty sf)
            | None => idle (f_ty f)
            end) fs
      | _ => true
      end
  | TVar x ts =>
      match src with
      | TUnit => idle dst
      | TVar sx sts =>
          if use_copytag sx sts x ts then enum_ok sx sts x ts
          else
            forallb (fun t =>
              forallb (fun st =>
                if String.eqb (t_name t) (t_name st) ||
                   (negb (has_term (t_name st) ts) &&
                    String.eqb (t_name t) (default_name x ts))
                then compat (t_ty t) (t_ty st) else true) sts) ts
      | _ => true
      end
  | TArr e _ _ _ => match src with TArr se _ _ _ => compat e se | _ => true end
  | TVec e p =>
      match src with
      | TVec se q => (v_ppl q <=? bound p) && compat e se
      | _ => true
      end
  end.
