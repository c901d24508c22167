(** The code generated for encode / decode / size, as an interpreter.

    /repo/pj/generate_ir.cpp builds, for each pair (source type, target type),
    a function; /repo/pj/llvm_gen2.cpp gives each operation its meaning.  The
    interpreter [xc] runs the function for (src, dst) directly, by recursion on
    the target type.  [xc] is parametric in [fconv], the hardware float
    conversion (FPExt / FPTrunc, llvm_gen2.cpp l.405-414).

    Outcomes: [Ok], [Throw] (the generated code reports failure), [UB] (reads
    an undefined byte, violates an llvm.assume, or indexes outside a constant
    table) and [Stuck] (code generation itself fails: an assertion, a failed
    cast or a null function). *)
From Verif Require Import Base Types.

(** Buffer kinds: RawBuffer for encode, BoundedBuffer for decode, DummyBuffer
    for size; the flag is SizeFunctionOp's [round_up]. *)
Inductive kind := KRaw | KBounded | KDummy (round_up : bool).

Definition is_dummy (k : kind) : bool :=
  match k with KDummy _ => true | _ => false end.
Definition is_round (k : kind) : bool :=
  match k with KDummy r => r | _ => false end.

(** Machine state threaded through the generated code.  [s_ptr] is the buffer
    position, [s_rem] the bytes left (BoundedBuffer only), [s_cb] the callback
    slot. *)
Record st := mkSt { s_mem : mem; s_ptr : Z; s_rem : Z; s_cb : option Z }.

Inductive res := Ok (s : st) | Throw (s : st) | UB | Stuck.

Definition bind (r : res) (f : st -> res) : res :=
  match r with Ok s => f s | _ => r end.

Definition path := list string.
Definition handlers := list (path * Z).

(** PathAttr::startsWith / into (type_support.hpp l.349-362). *)
Definition starts_with (p : path) (n : string) : bool :=
  match p with [] => false | x :: _ => String.eqb x n end.
Definition path_into (p : path) (n : string) : path :=
  match p with [] => [] | x :: r => if String.eqb x n then r else [] end.
(** generate_ir.cpp l.354-363. *)
Definition handlers_into (hs : handlers) (n : string) : handlers :=
  map (fun h => (path_into (fst h) n, snd h))
      (filter (fun h => starts_with (fst h) n) hs).

Definition with_mem (s : st) (m : mem) : st :=
  mkSt m (s_ptr s) (s_rem s) (s_cb s).
Definition set_cb (s : st) (i : Z) : st :=
  mkSt (s_mem s) (s_ptr s) (s_rem s) (Some i).

(** Stores and poisons target UnitOp in the size function and are swept away
    (sizing.cpp l.104-134). *)
Definition do_store (k : kind) (a w v : Z) (s : st) : st :=
  if is_dummy k then s else with_mem s (store (s_mem s) a w v).
Definition do_poison (k : kind) (a n : Z) (s : st) : st :=
  if is_dummy k then s else with_mem s (poison (s_mem s) a n).

(** AllocateOp: llvm_gen2.cpp l.768-804. *)
Definition allocate (k : kind) (n : Z) (s : st) : res :=
  match k with
  | KBounded =>
      let r := wrap64 (s_rem s - n) in
      if sgn64 r <? 0 then Throw s
      else Ok (mkSt (s_mem s) (wrap64 (s_ptr s + n)) r (s_cb s))
  | KRaw | KDummy _ =>
      Ok (mkSt (s_mem s) (wrap64 (s_ptr s + n)) (s_rem s) (s_cb s))
  end.

(** AlignOp: llvm_gen2.cpp l.734-766; ((p - 1) | (a - 1)) + 1. *)
Definition align_ptr (al p : Z) : Z :=
  wrap64 (Z.lor (wrap64 (p - 1)) (al - 1) + 1).
Definition align (k : kind) (al : Z) (s : st) : res :=
  if al =? 1 then Ok s
  else allocate k (wrap64 (align_ptr al (s_ptr s) - s_ptr s)) s.

(** LengthOp: llvm_gen2.cpp l.806-831; under round_up, sizing.cpp l.84-99. *)
Definition length_op (k : kind) (e : ty) (p : vecinfo) (a : Z) (m : mem)
  : option Z :=
  if is_round k && has_max (TVec e p) then Some (v_max p)
  else if v_max p =? 0 then Some 0
  else match load m (a + v_len_off p) (v_len_sz p) with
       | None => None
       | Some n =>
           if (0 <=? v_max p) && (v_max p <? n) then None else Some n
       end.

(** VectorIndexOp: llvm_gen2.cpp l.682-732.  In a round_up size function the
    loaded reference decides nothing, so an undefined one is let pass here; that
    the sizing pass leaves some of these loads in place is in [Sizing]. *)
Inductive region := Inline | Partial | Reference.
Definition region_start (k : kind) (p : vecinfo) (r : region) (a : Z) (m : mem)
  : option Z :=
  match r with
  | Inline => Some (a + v_inl_off p)
  | Partial => Some (a + v_part_off p)
  | Reference =>
      match load m (a + v_ref_off p) (v_ref_sz p) with
      | None => if is_round k then Some 0 else None
      | Some x =>
          match v_mode p with
          | ROffset =>
              Some (a + sgnw (v_ref_sz p) (x + v_ref_off p))
          | RPointer => Some x
          end
      end
  end.

(** StoreRefOp: llvm_gen2.cpp l.849-879. *)
Definition store_ref (k : kind) (p : vecinfo) (d : Z) (s : st) : st :=
  do_store k (d + v_ref_off p) (v_ref_sz p)
    (match v_mode p with
     | RPointer => s_ptr s
     | ROffset => s_ptr s - (d + v_ref_off p)
     end) s.

(** TranscodePrimitiveOp on integers: llvm_gen2.cpp l.397-410. *)
Definition conv_int (w : Z) (sg : sign) (w' : Z) (v : Z) : Z :=
  if w <? w' then
    match sg with Signed => wrapw w' (sgnw w v) | _ => v end
  else wrapw w' v.

(** Default of a float: quiet NaN (types.hpp l.180-191). *)
Definition float_default (w : Z) : Z :=
  if w =? 8 then 9221120237041090560 else 2143289344.

(** generateTermCondition / projectPath: generate_ir.cpp l.195-236. *)
Fixpoint proj_path (t : ty) (p : path) (a : Z) : option (ty * Z) :=
  match p with
  | [] => None
  | n :: r =>
      match r with
      | [] => Some (t, a)
      | _ =>
          match t with
          | TStruct fs _ _ =>
              match find_field n fs with
              | Some f => proj_path (f_ty f) r (a + f_off f)
              | None => None
              end
          | _ => None
          end
      end
  end.

Inductive cres := CB (b : bool) | CUB | CStuck.

Definition attr_cond (k : kind) (t : ty) (a : Z) (m : mem) (at_ : attr) : cres :=
  match at_ with
  | AUndef b => CB b
  | ASplit isin n p =>
      match proj_path t p a with
      | Some (TVec e q, a') =>
          match length_op k e q a' m with
          | Some l => CB (if isin then l <=? n else n <? l)
          | None => CUB
          end
      | _ => CStuck
      end
  end.

Fixpoint term_cond (k : kind) (t : ty) (a : Z) (m : mem) (l : list attr) : cres :=
  match l with
  | [] => CB true
  | x :: r =>
      match attr_cond k t a m x, term_cond k t a m r with
      | CB b, CB b' => CB (b && b')
      | CStuck, _ | _, CStuck => CStuck
      | _, _ => CUB
      end
  end.

(** Stable insertion sort (std::sort on distinct keys). *)
Fixpoint insert_by {A} (key : A -> Z) (x : A) (l : list A) : list A :=
  match l with
  | [] => [x]
  | y :: r => if key x <=? key y then x :: l else y :: insert_by key x r
  end.
Definition sort_by {A} (key : A -> Z) (l : list A) : list A :=
  fold_right (insert_by key) [] l.

(** MatchOp: the blocks are sorted by the signed tag (generate_ir.cpp l.429,
    l.482), the case values by the unsigned tag (llvm_gen2.cpp l.567-573), and
    the two lists are zipped into a switch. *)
Definition dispatch {A} (tag : A -> Z) (l : list A) (g : Z) : option A :=
  let blocks := sort_by (fun t => sgn64 (tag t)) l in
  let cases := map tag (sort_by tag l) in
  match find (fun cb => fst cb =? g) (combine cases blocks) with
  | Some (_, b) => Some b
  | None => None
  end.

(** CopyTagOp: llvm_gen2.cpp l.445-542.  [None]: the table is indexed outside
    its bounds (the index is sign-extended by the GEP). *)
Definition last_term (n : string) (ts : list (term ty)) : option (term ty) :=
  find_term n (rev ts).
Definition tag_mapping (ts ts' : list (term ty)) : list (Z * Z) :=
  map (fun t => (t_tag t,
                 match last_term (t_name t) ts' with
                 | Some t' => t_tag t' | None => 0 end)) ts.
Definition copy_exact (ts ts' : list (term ty)) : bool :=
  forallb (fun t => match last_term (t_name t) ts' with
                    | Some t' => t_tag t' =? t_tag t | None => false end) ts.
Fixpoint build_table (t : Z) (l : list (Z * Z)) : list Z :=
  match l with
  | [] => []
  | (g, v) :: r => repeat 0 (Z.to_nat (g - t)) ++ v :: build_table (g + 1) r
  end.
Definition default_tag (x : varinfo) (ts : list (term ty)) : Z :=
  match nth_error ts (x_default x) with Some t => t_tag t | None => 0 end.
Definition copytag (x : varinfo) (ts : list (term ty))
           (x' : varinfo) (ts' : list (term ty)) (g : Z) : option Z :=
  if copy_exact ts ts' then Some g
  else
    let table := build_table 0 (sort_by fst (tag_mapping ts ts')) in
    if wrapw (x_tag_w x) (Z.of_nat (List.length table)) <=? g
    then Some (default_tag x' ts')
    else
      let i := sgnw (x_tag_w x) g in
      if i <? 0 then None else nth_error table (Z.to_nat i).

(** TranscodeOpLowering's enum test: generate_ir.cpp l.1100-1124. *)
Fixpoint pos_exact (ts ts' : list (term ty)) : bool :=
  match ts, ts' with
  | [], [] => true
  | t :: r, t' :: r' =>
      String.eqb (t_name t) (t_name t') && (t_tag t =? t_tag t') && pos_exact r r'
  | _, _ => false
  end.
Definition max_tag (ts : list (term ty)) : Z :=
  fold_right (fun t m => Z.max (t_tag t) m) 0 ts.
Definition use_copytag (x : varinfo) (ts : list (term ty))
           (x' : varinfo) (ts' : list (term ty)) : bool :=
  is_enum x ts && is_enum x' ts' &&
  (pos_exact ts ts' || (max_tag ts <=? 4 * Z.of_nat (List.length ts))).

(** A generated function: source type, source path, handlers, source address,
    target address, state. *)
Definition runner := ty -> path -> handlers -> Z -> Z -> st -> res.

(** Default-initialisation discards the buffer it returns
    (generate_ir.cpp l.377-384, l.1086-1091). *)
Definition keepbuf (r : res) (s0 : st) : res :=
  match r with
  | Ok s => Ok (mkSt (s_mem s) (s_ptr s0) (s_rem s0) (s_cb s))
  | _ => r
  end.

(** scf.for with a signed trip count. *)
Fixpoint loop (n : nat) (i : Z) (body : Z -> st -> res) (s : st) : res :=
  match n with
  | O => Ok s
  | S n' => bind (body i s) (loop n' (i + 1) body)
  end.
Definition for_loop (count : Z) (body : Z -> st -> res) (s : st) : res :=
  loop (Z.to_nat (sgn64 count)) 0 body s.

(** getOrCreateStructTranscodeFn: generate_ir.cpp l.307-392. *)
Definition outline_first {A} (t : A -> bool) (l : list A) : list A :=
  match rev (filter t l) with
  | o :: _ => o :: filter (fun x => negb (t x)) l
  | [] => l
  end.

(** [from_fields[field.name] = &field]: the last field of a name wins; names
    are distinct for validated types. *)
Definition last_field (n : string) (fs : list (field ty)) : option (field ty) :=
  find_field n (rev fs).

Definition field_run (sfs : list (field ty)) (fr : field ty * runner)
           (p : path) (hs : handlers) (a d : Z) (s : st) : res :=
  let (f, run) := fr in
  let hs' := handlers_into hs (f_name f) in
  match last_field (f_name f) sfs with
  | Some sf =>
      run (f_ty sf) (path_into p (f_name f)) hs' (a + f_off sf) (d + f_off f) s
  | None => keepbuf (run TUnit [] hs' 0 (d + f_off f) s) s
  end.

Fixpoint fields_run (sfs : list (field ty)) (l : list (field ty * runner))
         (p : path) (hs : handlers) (a d : Z) (s : st) : res :=
  match l with
  | [] => Ok s
  | fr :: r =>
      bind (field_run sfs fr p hs a d s) (fields_run sfs r p hs a d)
  end.

Definition struct_run (k : kind) (sfs : list (field ty))
           (l : list (field ty * runner)) (size : Z)
           (p : path) (hs : handlers) (a d : Z) (s : st) : res :=
  fields_run sfs (outline_first (fun fr => has_outline (f_ty (fst fr))) l)
             p hs a d (do_poison k d size s).

(** transcodeTerm: generate_ir.cpp l.238-305. *)
Fixpoint terms_run (k : kind) (x : varinfo) (sty : ty)
         (l : list (term ty * runner)) (a d : Z) (s : st) : res :=
  match l with
  | [] => Ok s
  | (t, run) :: r =>
      match term_cond k sty a (s_mem s) (t_attrs t) with
      | CB true =>
          let s1 := do_store k (d + x_tag_off x) (x_tag_w x) (t_tag t) s in
          let body s2 := run sty [] [] a (d + x_term_off x) s2 in
          if x_outline x
          then bind (allocate k (hsize (t_ty t)) s1) body
          else body s1
      | CB false => terms_run k x sty r a d s
      | CUB => UB
      | CStuck => Stuck
      end
  end.

(** handler_map: StringMap::insert keeps the first (generate_ir.cpp l.420-424);
    a handler with an empty path here reads past the end of an array. *)
Fixpoint find_handler (n : string) (hs : handlers) : option Z :=
  match hs with
  | [] => None
  | (x :: _, i) :: r => if String.eqb x n then Some i else find_handler n r
  | ([], _) :: r => find_handler n r
  end.
Definition handlers_ok (hs : handlers) : bool :=
  forallb (fun h => match fst h with [] => false | _ => true end) hs.

Definition term_run (k : kind) (x : varinfo) (sty : ty)
           (l : list (term ty * runner)) (hs : handlers) (a d : Z) (s : st)
  : res :=
  bind (terms_run k x sty l a d s)
       (fun s' =>
          match l with
          | [] => Ok s'
          | (t, _) :: _ =>
              match find_handler (t_name t) hs with
              | Some i => Ok (if is_dummy k then s' else set_cb s' i)
              | None => Ok s'
              end
          end).

(** The dst terms sharing a name; when there is none, the default term
    (generate_ir.cpp l.444-450, l.471-478). *)
Definition targets {R} (n : string) (x : varinfo) (l : list (term ty * R))
  : list (term ty * R) :=
  match filter (fun tr => String.eqb (t_name (fst tr)) n) l with
  | [] => match nth_error l (x_default x) with Some tr => [tr] | None => [] end
  | l' => l'
  end.
Definition default_target {R} (x : varinfo) (l : list (term ty * R))
  : list (term ty * R) :=
  match nth_error l (x_default x) with Some tr => [tr] | None => [] end.

(** getOrCreateVariantTranscodeFn: generate_ir.cpp l.394-496. *)
Definition variant_run (k : kind) (x : varinfo) (l : list (term ty * runner))
           (sx : varinfo) (sts : list (term ty))
           (p : path) (hs : handlers) (a d : Z) (s : st) : res :=
  if negb (handlers_ok hs) then Stuck
  else
    match p with
    | n :: _ =>
        match find_term n sts with
        | Some t =>
            term_run k x (t_ty t) (targets n x l) hs (a + x_term_off sx) d s
        | None => Stuck
        end
    | [] =>
        match load (s_mem s) (a + x_tag_off sx) (x_tag_w sx) with
        | None => UB
        | Some g =>
            match dispatch t_tag sts g with
            | Some t =>
                term_run k x (t_ty t) (targets (t_name t) x l) hs
                         (a + x_term_off sx) d s
            | None =>
                term_run k x TUnit (default_target x l) hs
                         (a + x_term_off sx) d s
            end
        end
    end.

(** generateVectorCopyLoop: generate_ir.cpp l.568-604.  The target start is an
    address: Inline, Partial or the buffer position. *)
Definition copy_loop (k : kind) (e : ty) (q : vecinfo) (r : region) (sstart : Z)
           (dbase dstart dew : Z) (count : Z) (run : runner) (a : Z) (s : st)
  : res :=
  for_loop count
    (fun i s =>
       match region_start k q r a (s_mem s) with
       | Some b =>
           run e [] [] (b + (sstart + i) * v_ew q) (dbase + (dstart + i) * dew) s
       | None => UB
       end) s.

Definition dst_inline (p : vecinfo) (n : Z) : bool :=
  negb (v_min p =? 0) && (n <=? v_min p).

(** transcodeInlineVector: generate_ir.cpp l.606-672. *)
Definition inline_vec_run (k : kind) (de : ty) (p : vecinfo) (run : runner)
           (e : ty) (q : vecinfo) (n : Z) (a d : Z) (s : st) : res :=
  if v_min q <? n then UB
  else if dst_inline p n then
    let s1 := do_poison k (d + v_inl_off p) (hsize de * v_min p) s in
    copy_loop k e q Inline 0 (d + v_inl_off p) 0 (v_ew p) n run a s1
  else
    bind (align k (halign de) s) (fun s1 =>
    let out := s_ptr s1 in
    let s2 := store_ref k p d s1 in
    bind (allocate k (wrap64 (v_ew p * wrap64 (n - v_ppl p))) s2) (fun s3 =>
    bind (copy_loop k e q Inline 0 (d + v_part_off p) 0 (v_ew p) (v_ppl p) run a s3)
         (copy_loop k e q Inline (v_ppl p) out 0 (v_ew p)
                    (wrap64 (n - v_ppl p)) run a))).

(** transcodeOutlineVector: generate_ir.cpp l.674-786. *)
Definition outline_vec_run (k : kind) (de : ty) (p : vecinfo) (run : runner)
           (e : ty) (q : vecinfo) (n : Z) (a d : Z) (s : st) : res :=
  if (0 <? v_min q) && (n <? Z.min (v_min q + 1) (bound p)) then UB
  else if dst_inline p n then
    let c := Z.min (v_ppl q) (bound p) in
    let s1 := do_poison k (d + v_inl_off p) (hsize de * v_min p) s in
    bind (copy_loop k e q Partial 0 (d + v_inl_off p) 0 (v_ew p) c run a s1)
         (copy_loop k e q Reference 0 (d + v_inl_off p) c (v_ew p)
                    (wrap64 (n - c)) run a)
  else
    bind (align k (halign de) s) (fun s1 =>
    let out := s_ptr s1 in
    let s2 := store_ref k p d s1 in
    if v_ppl q <=? v_ppl p then
      let left := v_ppl p - v_ppl q in
      bind (allocate k (wrap64 (v_ew p * wrap64 (n - v_ppl p))) s2) (fun s3 =>
      bind (copy_loop k e q Partial 0 (d + v_part_off p) 0 (v_ew p)
                      (v_ppl q) run a s3) (fun s4 =>
      bind (copy_loop k e q Reference 0 (d + v_part_off p) (v_ppl q) (v_ew p)
                      left run a s4)
           (copy_loop k e q Reference left out 0 (v_ew p)
                      (wrap64 (n - v_ppl p)) run a)))
    else
      let left := v_ppl q - v_ppl p in
      bind (allocate k (wrap64 (v_ew p * wrap64 (n - v_ppl p))) s2) (fun s3 =>
      bind (copy_loop k e q Partial 0 (d + v_part_off p) 0 (v_ew p)
                      (v_ppl p) run a s3) (fun s4 =>
      bind (copy_loop k e q Partial (v_ppl p) out 0 (v_ew p)
                      left run a s4)
           (copy_loop k e q Reference 0 out left (v_ew p)
                      (wrap64 (n - v_ppl q)) run a)))).

(** getOrCreateVectorTranscodeFn: generate_ir.cpp l.831-888. *)
Definition vec_run (k : kind) (de : ty) (p : vecinfo) (run : runner)
           (e : ty) (q : vecinfo) (a d : Z) (s : st) : res :=
  match length_op k e q a (s_mem s) with
  | None => UB
  | Some n0 =>
      let n := if v_max p <? 0 then n0 else Z.min n0 (v_max p) in
      let s1 := do_store k (d + v_len_off p) (v_len_sz p) n s in
      if negb (v_min q =? 0) && (n0 <=? v_min q)
      then inline_vec_run k de p run e q n a d s1
      else outline_vec_run k de p run e q n a d s1
  end.

Section XC.
Variable fconv : Z -> Z -> Z -> Z.

(** TranscodeOpLowering / DefaultOpLowering: generate_ir.cpp l.1068-1192,
    llvm_gen2.cpp l.383-427, l.1028-1058.  Source [TUnit] means "default". *)
Fixpoint xc (dst : ty) (k : kind) : runner :=
  fun src p hs a d s =>
  match dst with
  | TUnit => Ok s
  | TInt w _ _ =>
      match src with
      | TUnit => Ok (do_store k d w 0 s)
      | TInt sw _ sg =>
          if is_dummy k then Ok s
          else match load (s_mem s) a sw with
               | Some v => Ok (do_store k d w (conv_int sw sg w v) s)
               | None => UB
               end
      | _ => Stuck
      end
  | TFloat w _ =>
      match src with
      | TUnit => Ok (do_store k d w (float_default w) s)
      | TFloat sw _ =>
          if is_dummy k then Ok s
          else match load (s_mem s) a sw with
               | Some v =>
                   Ok (do_store k d w (if sw =? w then v else fconv sw w v) s)
               | None => UB
               end
      | _ => Stuck
      end
  | TStruct fs size _ =>
      let l := map (fun f => (f, xc (f_ty f) k)) fs in
      match src with
      | TUnit => keepbuf (struct_run k [] l size [] hs a d s) s
      | TStruct sfs _ _ => struct_run k sfs l size p hs a d s
      | _ => Stuck
      end
  | TVar x ts =>
      let l := map (fun t => (t, xc (t_ty t) k)) ts in
      match src with
      | TUnit =>
          if negb (handlers_ok hs) then Stuck
          else keepbuf (term_run k x TUnit (default_target x l) hs a d s) s
      | TVar sx sts =>
          if use_copytag sx sts x ts then
            if is_dummy k then Ok s
            else match load (s_mem s) (a + x_tag_off sx) (x_tag_w sx) with
                 | None => UB
                 | Some g =>
                     match copytag sx sts x ts g with
                     | Some g' =>
                         Ok (do_store k (d + x_tag_off x) (x_tag_w x) g' s)
                     | None => UB
                     end
                 end
          else variant_run k x l sx sts p hs a d s
      | _ => Stuck
      end
  | TArr e len esz _ =>
      let defs c s :=
        for_loop (len - c)
          (fun i s =>
             keepbuf (xc e k TUnit [] [] 0 (d + (c + i) * esz) s) s) s in
      match src with
      | TUnit => defs 0 s
      | TArr se slen sesz _ =>
          let c := Z.min slen len in
          bind (for_loop c
                  (fun i s => xc e k se [] [] (a + i * sesz) (d + i * esz) s) s)
               (defs c)
      | _ => Stuck
      end
  | TVec e p' =>
      match src with
      | TUnit => Ok (do_store k (d + v_len_off p') (v_len_sz p') 0 s)
      | TVec se q => vec_run k e p' (xc e k) se q a d s
      | _ => Stuck
      end
  end.

End XC.
