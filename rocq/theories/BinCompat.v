(** isBinaryCompatibleWith.  Model only.

    /repo/pj/types.cpp l.77-153, /repo/pj/types.hpp l.55 (Int), l.111 (Float),
    l.211 (Unit: compatible with anything), /repo/pj/type_support.hpp l.163, l.232
    (the other type must be of the same class); /repo/pj/runtime.cpp l.312-315. *)
From Verif Require Import Base Types Transcode Api.

(** isBinaryCompatible(ArrayRef, ArrayRef, eq) l.77-93: each element of the first
    list takes the first element of the second that is still there. *)
Fixpoint erase_first {B} (p : B -> bool) (l : list B) : option (list B) :=
  match l with
  | [] => None
  | y :: r => if p y then Some r
              else match erase_first p r with Some r' => Some (y :: r') | None => None end
  end.
Fixpoint match_all {A B} (eq : A -> B -> bool) (a : list A) (b : list B) : bool :=
  match a with
  | [] => true
  | x :: r => match erase_first (eq x) b with
              | Some b' => match_all eq r b'
              | None => false
              end
  end.
Definition same_sets {A B} (eq : A -> B -> bool) (a : list A) (b : list B) : bool :=
  (List.length a =? List.length b)%nat && match_all eq a b.

Definition sign_eqb (a b : sign) : bool :=
  match a, b with
  | Signed, Signed | Unsigned, Unsigned | Signless, Signless => true
  | _, _ => false
  end.
Definition mode_eqb (a b : refmode) : bool :=
  match a, b with RPointer, RPointer | ROffset, ROffset => true | _, _ => false end.
Definition strs_eqb (a b : list string) : bool := if list_eq_dec string_dec a b then true else false.
Definition attr_eqb (a b : attr) : bool :=
  match a, b with
  | AUndef x, AUndef y => Bool.eqb x y
  | ASplit i n p, ASplit j k q => Bool.eqb i j && (n =? k) && strs_eqb p q
  | _, _ => false
  end.

(** l.95-148.  For an outline variant the tag's alignment is [x_align]; its
    term_alignment is always 1 on the wire and not modelled. *)
Fixpoint bin_compat (a b : ty) : bool :=
  match a with
  | TInt w al s => match b with
                   | TInt w' al' s' => (w =? w') && sign_eqb s s' && (al =? al')
                   | _ => false end
  | TFloat w al => match b with
                   | TFloat w' al' => (w =? w') && (al =? al')
                   | _ => false end
  | TUnit => true
  | TStruct fs size al =>
      match b with
      | TStruct gs size' al' =>
          same_sets (fun (fc : field ty * (ty -> bool)) g =>
                       snd fc (f_ty g) && String.eqb (f_name (fst fc)) (f_name g) &&
                       (f_off (fst fc) =? f_off g))
                    (map (fun f => (f, bin_compat (f_ty f))) fs) gs &&
          (size =? size') && (al =? al')
      | _ => false
      end
  | TVar x ts =>
      match b with
      | TVar y us =>
          Bool.eqb (x_outline x) (x_outline y) &&
          same_sets (fun (tc : term ty * bool) u =>
                       String.eqb (t_name (fst tc)) (t_name u) && snd tc &&
                       (t_tag (fst tc) =? t_tag u) &&
                       same_sets attr_eqb (t_attrs (fst tc)) (t_attrs u))
                    (map (fun t => (t, bin_compat (t_ty t) (t_ty t))) ts) us &&
          (if x_outline x
           then (x_tag_w x =? x_tag_w y) && (x_align x =? x_align y) &&
                (x_term_off x =? x_term_off y)
           else (x_term_off x =? x_term_off y) && (x_tag_off x =? x_tag_off y) &&
                (x_tag_w x =? x_tag_w y) && (x_size x =? x_size y) && (x_align x =? x_align y))
      | _ => false
      end
  | TArr e len esz al =>
      match b with
      | TArr e' len' esz' al' =>
          bin_compat e e' && (len =? len') && (esz =? esz') && (al =? al')
      | _ => false
      end
  | TVec e p =>
      match b with
      | TVec e' q =>
          bin_compat e e' && (v_min p =? v_min q) && (v_max p =? v_max q) &&
          (v_ppl p =? v_ppl q) && (v_len_off p =? v_len_off q) && (v_len_sz p =? v_len_sz q) &&
          (v_ref_off p =? v_ref_off q) && (v_ref_sz p =? v_ref_sz q) &&
          mode_eqb (v_mode p) (v_mode q) && (v_inl_off p =? v_inl_off q) &&
          (v_part_off p =? v_part_off q)
      | _ => false
      end
  end.

Definition proto_compat (a b : proto) : bool :=
  bin_compat (p_head a) (p_head b) && (p_bufoff a =? p_bufoff b).
