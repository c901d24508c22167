(** What a receiver with fields of type [any] is to find, and what is asked of it. *)
From Coq Require Import ZArith List String Bool Lia.
From Verif Require Import Base Types Transcode Spec Plan MemFacts PlanShape Schema Ends Claims Reflect
  AnyFacts AnyField.
Import ListNotations.
Local Open Scope Z_scope.

(** The sender's field of a name, or nothing. *)
Definition part (n : string) (sfs : list (field ty)) (l : list (string * val)) : ty * val :=
  match last_field n sfs with
  | Some sf => (f_ty sf, field_of n l)
  | None => (TUnit, VUnit)
  end.

(** What belongs to the receiver's term of a name, or to its default term. *)
Definition pick {A} (n : string) (x : varinfo) (l : list (string * A)) : option A :=
  match find (fun p => String.eqb (fst p) n) l with
  | Some p => Some (snd p)
  | None => option_map snd (nth_error l (x_default x))
  end.
Definition pick_default {A} (x : varinfo) (l : list (string * A)) : option A :=
  option_map snd (nth_error l (x_default x)).

(** The elements the receiver's vector has room for. *)
Definition cut (p : vecinfo) (l : list val) : list val :=
  if v_max p <? 0 then l else firstn (Z.to_nat (v_max p)) l.

Section SPEC.
Variable fconv : Z -> Z -> Z -> Z.
Variable same : ty -> ty -> bool.
Variable glob : ty -> Z.

(** [arrives R m dst s d v]: a sender with schema [s] sent [v]; the receiver's object at [d] has
    a plain field converted by name; an [any] points to aligned data and to a type description
    that show the very value sent, in the sender's schema. *)
Inductive arrives (R : Z -> Prop) (m : mem) : hty -> ty -> Z -> val -> Prop :=
| ar_plain : forall t s d v v', gets fconv t v v' -> rep R m t d v' -> arrives R m (HPlain t) s d v
| ar_any : forall y s d v data rt i,
    load m (d + n_data y) 8 = Some data -> load m (d + n_proto y) 8 = Some (glob rt) ->
    load m (d + n_off y) 4 = Some i -> data mod halign rt = 0 -> shows (pool_of same rt) m s (mkAny data i) v ->
    arrives R m (HAny y) s d v
| ar_struct : forall fs size al sfs ssz sal d l,
    (forall f, In f fs ->
       arrives R m (f_ty f) (fst (part (f_name f) sfs l)) (d + f_off f) (snd (part (f_name f) sfs l))) ->
    arrives R m (HStruct fs size al) (TStruct sfs ssz sal) d (VStruct l)
| ar_struct_none : forall fs size al d,
    (forall f, In f fs -> arrives R m (f_ty f) TUnit (d + f_off f) VUnit) ->
    arrives R m (HStruct fs size al) TUnit d VUnit
| ar_var : forall x ts sx sts d t st v, In t ts -> In st sts -> t_name t = t_name st ->
    load m (d + x_tag_off x) (x_tag_w x) = Some (t_tag t) ->
    arrives R m (t_ty t) (t_ty st) (d + x_term_off x) v ->
    arrives R m (HVar x ts) (TVar sx sts) d (VVar (t_name st) v)
| ar_var_unknown : forall x ts sx sts d t st v, In st sts ->
    (forall u, In u ts -> t_name u <> t_name st) -> nth_error ts (x_default x) = Some t ->
    load m (d + x_tag_off x) (x_tag_w x) = Some (t_tag t) ->
    arrives R m (t_ty t) (t_ty st) (d + x_term_off x) v ->
    arrives R m (HVar x ts) (TVar sx sts) d (VVar (t_name st) v)
| ar_var_none : forall x ts d t, nth_error ts (x_default x) = Some t ->
    load m (d + x_tag_off x) (x_tag_w x) = Some (t_tag t) ->
    arrives R m (t_ty t) TUnit (d + x_term_off x) VUnit ->
    arrives R m (HVar x ts) TUnit d VUnit
| ar_arr : forall e len esz se slen sesz sal d l,
    (forall i v, Z.of_nat i < len -> nth_error l i = Some v ->
       arrives R m e se (d + Z.of_nat i * esz) v) ->
    (forall i, Z.of_nat i < len -> nth_error l i = None ->
       arrives R m e TUnit (d + Z.of_nat i * esz) VUnit) ->
    arrives R m (HArr e len esz) (TArr se slen sesz sal) d (VArr l)
| ar_vec : forall e p se q d l b,
    load m (d + v_len_off p) (v_len_sz p) = Some (Z.of_nat (List.length (cut p l))) ->
    load m (d + v_ref_off p) 8 = Some b -> b mod hal e = 0 ->
    (forall i v, nth_error (cut p l) i = Some v -> arrives R m e se (b + Z.of_nat i * v_ew p) v) ->
    arrives R m (HVec e p) (TVec se q) d (VVec l)
| ar_vec_none : forall e p d, load m (d + v_len_off p) (v_len_sz p) = Some 0 ->
    arrives R m (HVec e p) TUnit d VUnit.
End SPEC.

(** The receiver [dst] can take what [s] describes: where it has an [any], the sender has a value. *)
Fixpoint takes (dst : hty) (s : ty) : bool :=
  match dst with
  | HPlain t => host t && receives t s
  | HAny _ => negb (is_tunit s)
  | HStruct fs _ _ =>
      match s with
      | TUnit => forallb (fun f => takes (f_ty f) TUnit) fs
      | TStruct sfs _ _ =>
          forallb (fun f => match last_field (f_name f) sfs with
                            | Some sf => takes (f_ty f) (f_ty sf)
                            | None => takes (f_ty f) TUnit
                            end) fs
      | _ => false
      end
  | HVar x ts =>
      let l := map (fun t => (t_name t, takes (t_ty t))) ts in
      match s with
      | TUnit => match pick_default x l with Some f => f TUnit | None => false end
      | TVar _ sts =>
          match pick_default x l with Some f => f TUnit | None => false end &&
          forallb (fun st => match pick (t_name st) x l with Some f => f (t_ty st) | None => false end) sts
      | _ => false
      end
  | HArr e _ _ =>
      match s with
      | TArr se _ _ _ => takes e se && takes e TUnit
      | _ => false
      end
  | HVec e p =>
      match s with
      | TUnit => true
      | TVec se q => (v_wmin q <=? bound p) && takes e se
      | _ => false
      end
  end.

(** The receiver's class is laid out as C++ lays out classes: members inside, not overlapping. *)
Fixpoint laid (t : hty) : bool :=
  match t with
  | HPlain t => true
  | HAny y =>
      forallb (fun ow => (0 <=? fst ow) && (fst ow + snd ow <=? n_size y))
        [(n_data y, 8); (n_proto y, 8); (n_off y, 4)] &&
      disj_all [(n_data y, 8); (n_proto y, 8); (n_off y, 4)]
  | HStruct fs size _ =>
      (0 <=? size) &&
      forallb (fun f => (0 <=? f_off f) && (f_off f + hsz (f_ty f) <=? size)) fs &&
      disj_all (map (fun f => (f_off f, hsz (f_ty f))) fs) &&
      forallb (fun f => laid (f_ty f)) fs
  | HVar x ts =>
      negb (x_outline x) && (1 <=? x_tag_w x) && (0 <=? x_tag_off x) && (x_tag_off x + x_tag_w x <=? x_size x) &&
      (0 <=? x_term_off x) &&
      forallb (fun t => (x_term_off x + hsz (t_ty t) <=? x_size x) &&
                        disj (x_tag_off x) (x_tag_w x) (x_term_off x) (hsz (t_ty t)) &&
                        (0 <=? t_tag t) && (t_tag t <? 2 ^ (8 * x_tag_w x)) &&
                        match t_attrs t with [] => true | _ => false end) ts &&
      nodup_str (map t_name ts) && existsb (fun t => 0 <? hsz (t_ty t)) ts &&
      forallb (fun t => laid (t_ty t)) ts
  | HArr e len esz => (0 <=? len) && (len <? 2 ^ 63) && (hsz e <=? esz) && laid e
  | HVec e p =>
      (v_min p =? 0) && (v_ppl p =? 0) && match v_mode p with RPointer => true | ROffset => false end &&
      vec_wf (elem_as e) p && (0 <=? hsz e) && laid e
  end.

(** Of the sender's terms that fill an [any], none was split.  (A split term has two forms of
    one name on the wire.) *)
Definition is_plain (t : hty) : bool := match t with HPlain _ => true | _ => false end.
Fixpoint whole (dst : hty) (src : ty) : bool :=
  match dst with
  | HPlain _ | HAny _ => true
  | HStruct fs _ _ =>
      match src with
      | TStruct sfs _ _ =>
          forallb (fun f => match last_field (f_name f) sfs with
                            | Some sf => whole (f_ty f) (f_ty sf)
                            | None => true
                            end) fs
      | _ => true
      end
  | HVar x ts =>
      let l := map (fun t => (t_name t, fun src n => is_plain (t_ty t) || ((n =? 1) && whole (t_ty t) src))) ts in
      match src with
      | TVar _ sts =>
          forallb (fun st => match pick (t_name st) x l with
                             | Some f => f (t_ty st) (Z.of_nat (count (fun u => String.eqb (t_name u) (t_name st)) sts))
                             | None => true
                             end) sts
      | _ => true
      end
  | HArr e _ _ => match src with TArr se _ _ _ => whole e se | _ => true end
  | HVec e _ => match src with TVec se _ => whole e se | _ => true end
  end.

(** Room the decoder may need. *)
Fixpoint hneed (dst : hty) (src : ty) (v : val) : Z :=
  match dst with
  | HPlain t => space t v
  | HAny _ => 7 + hsize (reflectable src) + space (reflectable src) v
  | HStruct fs _ _ =>
      match src, v with
      | TStruct sfs _ _, VStruct l =>
          fold_right (fun f n =>
            (match last_field (f_name f) sfs with
             | Some sf => hneed (f_ty f) (f_ty sf) (field_of (f_name f) l)
             | None => 0
             end) + n) 0 fs
      | _, _ => 0
      end
  | HVar x ts =>
      let l := map (fun t => (t_name t, hneed (t_ty t))) ts in
      match src, v with
      | TVar _ sts, VVar n w =>
          match find_term n sts, pick n x l with Some st, Some f => f (t_ty st) w | _, _ => 0 end
      | _, _ => 0
      end
  | HArr e _ _ =>
      match src, v with
      | TArr se _ _ _, VArr l => fold_right (fun w n => hneed e se w + n) 0 l
      | _, _ => 0
      end
  | HVec e p =>
      match src, v with
      | TVec se _, VVec l =>
          hal e - 1 + v_ew p * Z.of_nat (List.length (cut p l)) +
          fold_right (fun w n => hneed e se w + n) 0 (cut p l)
      | _, _ => 0
      end
  end.

(** The descriptions are small enough for their 32 bit indices. *)
Fixpoint indexed (same : ty -> ty -> bool) (dst : hty) (src : ty) : bool :=
  match dst with
  | HPlain _ => true
  | HAny _ => pool_len (pool_of same (reflectable src)) <? 2 ^ 31
  | HStruct fs _ _ =>
      match src with
      | TStruct sfs _ _ =>
          forallb (fun f => match last_field (f_name f) sfs with
                            | Some sf => indexed same (f_ty f) (f_ty sf)
                            | None => true
                            end) fs
      | _ => true
      end
  | HVar x ts =>
      let l := map (fun t => (t_name t, indexed same (t_ty t))) ts in
      match src with
      | TVar _ sts =>
          forallb (fun st => match pick (t_name st) x l with Some f => f (t_ty st) | None => true end) sts
      | _ => true
      end
  | HArr e _ _ => match src with TArr se _ _ _ => indexed same e se | _ => true end
  | HVec e _ => match src with TVec se _ => indexed same e se | _ => true end
  end.
