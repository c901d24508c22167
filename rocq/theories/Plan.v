(** Protocol planning: from a host type to the wire type.

    /repo/pj/plan.cpp l.61-106 (plan_protocol), convert_internal.cpp,
    variant_outlining.cpp, vector_hoisting.cpp, wire_layout.cpp, and
    internVariant / compute_tag_width of types.hpp.

    ConvertInternal only changes the domain of nominal types, so it is the
    identity on trees.  The input of planning is a host type, of which only
    names, tags, widths and lengths are used. *)
From Verif Require Import Base Types Transcode Api.

(** RoundUpToPowerOfTwo (util.hpp l.84-90); 0 is its own rounding. *)
Definition pow2_up (n : Z) : Z := if n <=? 0 then 0 else 2 ^ Z.log2_up n.

(** compute_tag_width (types.hpp l.493-502), in bytes.  The C++ computes
    ceil(log2(max+1)/8) in doubles; the two agree for every tag below 2^64-1
    (the boundaries 2^8, 2^16, 2^32 are exact in a double).  For tag 2^64-1 the
    sum wraps to 0 and the C++ converts -infinity to an integer; here that
    gives width 0. *)
Definition tag_width (ts : list (term ty)) : Z :=
  match ts with
  | [] => 1
  | _ => pow2_up (div_up (Z.log2_up (wrap64 (max_tag ts + 1))) 8)
  end.

(** internVariant (types.hpp l.427-469): terms sorted by name, default index
    remapped.  std::sort is modelled as stable; PlanFacts shows the order of
    terms of one name has no effect. *)
Fixpoint insert_name {A} (nm : A -> string) (x : A) (l : list A) : list A :=
  match l with
  | [] => [x]
  | y :: r => if String.leb (nm x) (nm y) then x :: l else y :: insert_name nm x r
  end.
Definition sort_name {A} (nm : A -> string) (l : list A) : list A :=
  fold_right (insert_name nm) [] l.

Fixpoint index_of (i : nat) (l : list nat) : nat :=
  match l with
  | [] => O
  | j :: r => if Nat.eqb i j then O else S (index_of i r)
  end.
Definition intern (ts : list (term ty)) (d : nat) : list (term ty) * nat :=
  let l := sort_name (fun it => t_name (snd it))
                     (combine (seq 0 (List.length ts)) ts) in
  (map snd l, index_of d (map fst l)).

(** ** WireLayout: wire_layout.cpp l.7-160 *)
Fixpoint lay_fields (off : Z) (l : list (string * ty))
  : list (field ty) * Z :=
  match l with
  | [] => ([], off)
  | (n, t) :: r =>
      let off := align_up off (halign t) in
      let (fs, e) := lay_fields (off + hsize t) r in
      (mkField n t off :: fs, e)
  end.

(** l.107-150. *)
Definition lay_vec (e : ty) (p : vecinfo) : vecinfo :=
  let al := halign e in
  let es := align_up (hsize e) al in
  let mn := v_wmin p in
  let ls := if v_max p <? 0 then 8
            else pow2_up (div_up (Z.log2_up (v_max p + 1)) 8) in
  let io := align_up ls al in
  let po := align_up (ls + 8) al in
  let ppl := Z.max 0 (io + es * mn - po) / es in
  mkVec mn (v_max p) mn ppl 0 ls ls 8 ROffset io po es
        (Z.max (io + es * mn) (if 0 <? ppl then po + es * ppl else ls + 8))
        (if (0 <? mn) || (0 <? ppl) then al else 1).

Definition lay_var (x : varinfo) (ts : list (term ty)) : ty :=
  let sz := fold_right (fun t m => Z.max (hsize (t_ty t)) m) 0 ts in
  let tw := tag_width ts in
  let '(ts', d) := intern ts (x_default x) in
  TVar (if x_outline x then mkVar true d 0 0 tw tw 1
        else mkVar false d 0 sz tw (sz + tw)
                   (fold_right (fun t m => Z.max (halign (t_ty t)) m) 1 ts))
       ts'.

Fixpoint layout (t : ty) : ty :=
  match t with
  | TInt w _ s => TInt w 1 s
  | TFloat w _ => TFloat w 1
  | TUnit => TUnit
  | TStruct fs _ _ =>
      let l := map (fun f => (f_name f, layout (f_ty f))) fs in
      let (fs', e) := lay_fields 0 l in
      TStruct fs' e (fold_right (fun nt m => Z.max (halign (snd nt)) m) 1 l)
  | TVar x ts =>
      lay_var x (map (fun t => mkTerm (t_name t) (layout (t_ty t)) (t_tag t)
                                      (t_attrs t)) ts)
  | TArr e len _ _ =>
      let e' := layout e in
      TArr e' len (align_up (hsize e') (halign e')) (halign e')
  | TVec e p => let e' := layout e in TVec e' (lay_vec e' p)
  end.

(** ** VariantOutlining: variant_outlining.cpp l.8-48 *)
Definition set_outline (x : varinfo) : varinfo :=
  mkVar true (x_default x) 0 (x_tag_off x) (x_tag_w x) (x_size x) (x_align x).

Fixpoint outline (t : ty) (p : path) : option ty :=
  match p with
  | [] => None
  | _ =>
      match t with
      | TVar x ts => Some (TVar (set_outline x) ts)
      | TStruct fs size al =>
          match (fix go fs :=
                   match fs with
                   | [] => None
                   | f :: r =>
                       match outline (f_ty f) (path_into p (f_name f)) with
                       | Some t' => Some (mkField (f_name f) t' (f_off f) :: r)
                       | None => match go r with
                                 | Some r' => Some (f :: r')
                                 | None => None
                                 end
                       end
                   end) fs with
          | Some fs' => Some (TStruct fs' size al)
          | None => None
          end
      | _ => None
      end
  end.

(** ** VectorHoisting: vector_hoisting.cpp *)

(** l.13-40: the two vectors a split makes. *)
Definition eligible (p : vecinfo) : bool :=
  negb (v_wmin p =? 0) && negb ((0 <? v_max p) && (v_wmin p =? v_max p)).
Definition bare_vec (mx wmin : Z) (ew : Z) : vecinfo :=
  mkVec 0 mx wmin 0 0 0 0 0 RPointer 0 0 ew 0 1.

Record split := mkSplit {
  sp_len : Z; sp_short : ty; sp_long : ty; sp_path : path }.

(** splitFirstEligibleVector: l.11-83. *)
Fixpoint split_first (t : ty) : option split :=
  match t with
  | TVec e p =>
      if eligible p
      then Some (mkSplit (v_wmin p)
                         (TVec e (bare_vec (v_wmin p) (v_wmin p)
                                           (align_up (hsize e) (halign e))))
                         (TVec e (bare_vec (v_max p) 0
                                           (align_up (hsize e) (halign e))))
                         ["_"%string])
      else None
  | TStruct fs size al =>
      match (fix go fs :=
               match fs with
               | [] => None
               | f :: r =>
                   match split_first (f_ty f) with
                   | Some sp =>
                       Some (sp_len sp,
                             mkField (f_name f) (sp_short sp) (f_off f) :: r,
                             mkField (f_name f) (sp_long sp) (f_off f) :: r,
                             f_name f :: sp_path sp)
                   | None =>
                       match go r with
                       | Some (n, rs, rl, q) => Some (n, f :: rs, f :: rl, q)
                       | None => None
                       end
                   end
               end) fs with
      | Some (n, fs1, fs2, q) =>
          Some (mkSplit n (TStruct fs1 size al) (TStruct fs2 size al) q)
      | None => None
      end
  | _ => None
  end.

(** l.108-112: the first tag from 1 up that is not taken. *)
Fixpoint fresh (fuel : nat) (g : Z) (tags : list Z) : Z :=
  match fuel with
  | O => g
  | S n => if existsb (Z.eqb g) tags then fresh n (g + 1) tags else g
  end.
Definition fresh_tag (ts : list (term ty)) : Z :=
  fresh (List.length ts) 1 (map t_tag ts).

(** hoistVectors, one round: l.85-151. *)
Fixpoint hoist_scan (g : Z) (ts : list (term ty))
  : option (list (term ty) * term ty) :=
  match ts with
  | [] => None
  | t :: r =>
      match split_first (t_ty t) with
      | Some sp =>
          let at_ b := t_attrs t ++ [ASplit b (sp_len sp) (sp_path sp)] in
          Some (mkTerm (t_name t) (sp_long sp) (t_tag t) (at_ false) :: r,
                mkTerm (t_name t) (sp_short sp) g (at_ true))
      | None =>
          match hoist_scan g r with
          | Some (r', s) => Some (t :: r', s)
          | None => None
          end
      end
  end.
Definition set_default (x : varinfo) (d : nat) : varinfo :=
  mkVar (x_outline x) d (x_term_off x) (x_tag_off x) (x_tag_w x) (x_size x)
        (x_align x).
Definition hoist_once (x : varinfo) (ts : list (term ty))
  : option (varinfo * list (term ty)) :=
  match hoist_scan (fresh_tag ts) ts with
  | Some (ts', s) =>
      let (ts'', d) := intern (ts' ++ [s]) (x_default x) in
      Some (set_default x d, ts'')
  | None => None
  end.

(** findVariantAndHoist's [while (hoistVectors(var))]: l.155-158.  [fuel] is the
    number of rounds; PlanFacts shows [rounds ts] is enough. *)
Fixpoint hoist_loop (fuel : nat) (x : varinfo) (ts : list (term ty))
  : varinfo * list (term ty) :=
  match fuel with
  | O => (x, ts)
  | S n => match hoist_once x ts with
           | Some (x', ts') => hoist_loop n x' ts'
           | None => (x, ts)
           end
  end.
Fixpoint eligibles (t : ty) : nat :=
  match t with
  | TVec _ p => if eligible p then 1%nat else 0%nat
  | TStruct fs _ _ => list_sum (map (fun f => eligibles (f_ty f)) fs)
  | _ => 0%nat
  end.
Definition rounds (ts : list (term ty)) : nat :=
  list_sum (map (fun t => Nat.pow 2 (eligibles (t_ty t)) - 1)%nat ts).
Definition hoist_var (x : varinfo) (ts : list (term ty)) : ty :=
  let (x', ts') := hoist_loop (rounds ts) x ts in TVar x' ts'.

(** findVariantAndHoist: l.153-170. *)
Fixpoint hoist_first (t : ty) : option ty :=
  match t with
  | TVar x ts => Some (hoist_var x ts)
  | TStruct fs size al =>
      match (fix go fs :=
               match fs with
               | [] => None
               | f :: r =>
                   match hoist_first (f_ty f) with
                   | Some t' => Some (mkField (f_name f) t' (f_off f) :: r)
                   | None => match go r with
                             | Some r' => Some (f :: r')
                             | None => None
                             end
                   end
               end) fs with
      | Some fs' => Some (TStruct fs' size al)
      | None => None
      end
  | _ => None
  end.

(** The pass edits the (nominal) variant type in place, so every occurrence of
    the type changes.  [hoist_where sel] hoists the variants at the positions
    [sel] picks, positions being paths of names; any set of occurrences is a
    choice of [sel]. *)
Fixpoint hoist_where (sel : list string -> bool) (t : ty) : ty :=
  match t with
  | TStruct fs size al =>
      TStruct (map (fun f => mkField (f_name f)
                 (hoist_where (fun q => sel (f_name f :: q)) (f_ty f))
                 (f_off f)) fs) size al
  | TVar x ts =>
      let ts' := map (fun t => mkTerm (t_name t)
                   (hoist_where (fun q => sel (t_name t :: q)) (t_ty t))
                   (t_tag t) (t_attrs t)) ts in
      if sel [] then hoist_var x ts' else TVar x ts'
  | TArr e len esz al => TArr (hoist_where (fun q => sel (""%string :: q)) e) len esz al
  | TVec e p => TVec (hoist_where (fun q => sel (""%string :: q)) e) p
  | _ => t
  end.

(** ** OutlineVariantOffsetGeneration: variant_outlining.cpp l.58-117 *)

(** Distance from the start of the outline variant to the end of [t]. *)
Fixpoint out_off (t : ty) : Z :=
  match t with
  | TVar x _ => if x_outline x then x_size x else 0
  | TStruct fs size _ =>
      (fix go fs :=
         match fs with
         | [] => 0
         | f :: r =>
             if has_outline (f_ty f)
             then out_off (f_ty f) +
                  (size - match r with g :: _ => f_off g | [] => size end)
             else go r
         end) fs
  | _ => 0
  end.
Fixpoint set_term_off (o : Z) (t : ty) : ty :=
  match t with
  | TVar x ts =>
      if x_outline x
      then TVar (mkVar true (x_default x) o (x_tag_off x) (x_tag_w x) (x_size x)
                       (x_align x)) ts
      else t
  | TStruct fs size al =>
      TStruct (map (fun f => mkField (f_name f) (set_term_off o (f_ty f))
                                     (f_off f)) fs) size al
  | _ => t
  end.
Definition gen_offsets (t : ty) : proto :=
  if has_outline t
  then
    (* term_alignment is 1 on the wire, so rounding up adds nothing *)
    let diff := align_up (hsize t) 1 - hsize t in
    mkProto (set_term_off (out_off t + diff) t) diff
  else mkProto t 0.

(** plan_protocol: plan.cpp l.61-106. *)
Definition outline_or (t : ty) (p : path) : ty :=
  match outline t p with Some t' => t' | None => t end.
Definition hoist (t : ty) : ty :=
  match hoist_first t with Some t' => t' | None => t end.
Definition plan (t : ty) (p : path) : proto :=
  gen_offsets (layout (hoist (outline_or t p))).

(** Planning with any set of variant occurrences hoisted. *)
Definition plan_where (sel : list string -> bool) (t : ty) (p : path) : proto :=
  gen_offsets (layout (hoist_where sel (outline_or t p))).
