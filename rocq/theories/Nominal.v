(** Planning of types that are shared by name.  Model only.

    Structs and variants are nominal types: all uses of a name refer to one
    object, which a pass edits in place (TypePass::replaceStructField, plan.cpp
    l.19-32; setTypeData in variant_outlining.cpp l.16-34 and vector_hoisting.cpp
    l.137-147).  A schema is a tree here, together with the name [nm] of the type
    at every position; positions are paths of names as in [hoist_where].  Editing
    the type at a position edits every position of that name. *)
From Verif Require Import Base Types Transcode Api Plan.

Definition pos := list string.
Definition pos_eqb (p q : pos) : bool := if list_eq_dec string_dec p q then true else false.

(** ** VariantOutlining: variant_outlining.cpp l.8-56 *)

(** The position of the variant tryOutlineVariant replaces. *)
Fixpoint outline_at (t : ty) (p : path) : option pos :=
  match p with
  | [] => None
  | _ =>
      match t with
      | TVar _ _ => Some []
      | TStruct fs _ _ =>
          (fix go fs :=
             match fs with
             | [] => None
             | f :: r =>
                 match outline_at (f_ty f) (path_into p (f_name f)) with
                 | Some q => Some (f_name f :: q)
                 | None => go r
                 end
             end) fs
      | _ => None
      end
  end.

(** Replacing a field edits the struct (l.40-44), that is all structs of its name;
    a variant at the head is replaced alone (l.50-54). *)
Definition outlined (nm : pos -> string) (t : ty) (p : path) (q : pos) : bool :=
  match outline_at t p with
  | None => false
  | Some [] => pos_eqb q []
  | Some (n :: r) =>
      match q with
      | [] => false
      | m :: s =>
          String.eqb (last (n :: r) ""%string) (last (m :: s) ""%string) &&
          String.eqb (nm (removelast (n :: r))) (nm (removelast (m :: s)))
      end
  end.

Fixpoint outline_where (sel : pos -> bool) (t : ty) : ty :=
  match t with
  | TStruct fs size al =>
      TStruct (map (fun f => mkField (f_name f)
                 (outline_where (fun q => sel (f_name f :: q)) (f_ty f))
                 (f_off f)) fs) size al
  | TVar x ts =>
      TVar (if sel [] then set_outline x else x)
           (map (fun t => mkTerm (t_name t)
                   (outline_where (fun q => sel (t_name t :: q)) (t_ty t))
                   (t_tag t) (t_attrs t)) ts)
  | TArr e len esz al => TArr (outline_where (fun q => sel (""%string :: q)) e) len esz al
  | TVec e p => TVec (outline_where (fun q => sel (""%string :: q)) e) p
  | _ => t
  end.

(** ** VectorHoisting: vector_hoisting.cpp l.153-174 *)

(** The position of the variant findVariantAndHoist edits. *)
Fixpoint hoist_at (t : ty) : option pos :=
  match t with
  | TVar _ _ => Some []
  | TStruct fs _ _ =>
      (fix go fs :=
         match fs with
         | [] => None
         | f :: r =>
             match hoist_at (f_ty f) with
             | Some q => Some (f_name f :: q)
             | None => go r
             end
         end) fs
  | _ => None
  end.
(** An outlined variant is a type of its own (variant_outlining.cpp l.14-22), so
    hoisting it leaves the inline variant of that name alone, and conversely. *)
Definition hoisted (nm : pos -> string) (out : pos -> bool) (t : ty) (q : pos) : bool :=
  match hoist_at t with
  | None => false
  | Some h => String.eqb (nm q) (nm h) && Bool.eqb (out q) (out h)
  end.

(** ** OutlineVariantOffsetGeneration: variant_outlining.cpp l.58-117 *)

(** The member [outline_] with the term offset collected so far.  There is one
    outlined variant type, so one number. *)
Definition plus (acc : option Z) (n : Z) : option Z :=
  match acc with Some a => Some (a + n) | None => None end.
Fixpoint off_run (t : ty) (acc : option Z) : option Z :=
  match t with
  | TVar x _ =>
      if x_outline x
      then Some (match acc with Some a => a | None => 0 end + x_size x) else acc
  | TStruct fs size _ =>
      if has_outline t then
        (fix go fs acc off (reached : bool) :=
           match fs with
           | [] => plus acc (size - off)
           | f :: r =>
               match acc, reached with
               | Some _, false => go r (off_run (f_ty f) acc) (f_off f) true
               | _, _ => go r (off_run (f_ty f) acc) off reached
               end
           end) fs acc size false
      else acc
  | _ => acc
  end.
(** Offsets are set in the type itself, hence also where it occurs inside arrays,
    vectors or terms. *)
Fixpoint set_offs (o : Z) (t : ty) : ty :=
  match t with
  | TStruct fs size al =>
      TStruct (map (fun f => mkField (f_name f) (set_offs o (f_ty f)) (f_off f)) fs) size al
  | TVar x ts =>
      let ts' := map (fun t => mkTerm (t_name t) (set_offs o (t_ty t)) (t_tag t) (t_attrs t)) ts in
      TVar (if x_outline x
            then mkVar true (x_default x) o (x_tag_off x) (x_tag_w x) (x_size x) (x_align x)
            else x) ts'
  | TArr e len esz al => TArr (set_offs o e) len esz al
  | TVec e p => TVec (set_offs o e) p
  | _ => t
  end.
Definition offsets (t : ty) : proto :=
  match off_run t None with
  | Some o =>
      let diff := align_up (hsize t) 1 - hsize t in
      mkProto (set_offs (o + diff) t) diff
  | None => mkProto t 0
  end.

(** plan_protocol, plan.cpp l.61-106, as it runs with assertions off. *)
Definition nplan (nm : pos -> string) (t : ty) (p : path) : proto :=
  let out := outlined nm t p in
  let t1 := outline_where out t in
  offsets (layout (hoist_where (hoisted nm out t1) t1)).

(** The assertions of types.cpp l.28 and l.32: no struct has two fields with an
    outlined variant. *)
Fixpoint one_outline (t : ty) : bool :=
  match t with
  | TStruct fs _ _ =>
      (List.length (filter (fun f => has_outline (f_ty f)) fs) <=? 1)%nat &&
      forallb (fun f => one_outline (f_ty f)) fs
  | TVar _ ts => forallb (fun t => one_outline (t_ty t)) ts
  | TArr e _ _ _ => one_outline e
  | TVec e _ => one_outline e
  | _ => true
  end.
Definition nplan_checked (nm : pos -> string) (t : ty) (p : path) : option proto :=
  let pr := nplan nm t p in
  if one_outline (p_head pr) then Some pr else None.
