(** Receivers whose struct has fields of type [any].

    generate_ir.cpp l.788-829 (getOrCreateReflectFn), l.1068-1192 (TranscodeOpLowering,
    DefaultOpLowering), llvm_gen2.cpp l.1117-1188 (ReflectOpLowering), any.hpp l.349-358.
    Structs, variants, arrays and vectors, nested as one likes, of plain host types and [any]s;
    handlers are left out. *)
From Coq Require Import ZArith List String Bool Lia.
From Verif Require Import Base Types Transcode Gen Api Plan Reflect.
Import ListNotations.
Local Open Scope Z_scope.

(** types.hpp l.864-878: where a pj::Any has its members.  any.hpp l.349-358 takes them from the
    C++ class: words for [data_] and [protocol_], 4 bytes for [offset_]. *)
Record anyinfo := mkAnyInfo { n_data : Z; n_proto : Z; n_off : Z; n_size : Z; n_align : Z }.

Inductive hty :=
| HPlain (t : ty)
| HAny (y : anyinfo)
| HStruct (fs : list (field hty)) (size al : Z)
| HVar (x : varinfo) (ts : list (term hty))
| HArr (e : hty) (len esz : Z)
| HVec (e : hty) (p : vecinfo).

Definition hsz (t : hty) : Z :=
  match t with
  | HPlain t => hsize t
  | HAny y => n_size y
  | HStruct _ size _ => size
  | HVar x _ => x_size x
  | HArr _ len esz => esz * len
  | HVec _ p => v_size p
  end.
Fixpoint hal (t : hty) : Z :=
  match t with
  | HPlain t => halign t
  | HAny y => n_align y
  | HStruct _ _ al => al
  | HVar x _ => x_align x
  | HArr e _ _ => hal e
  | HVec _ p => v_align p
  end.

Fixpoint has_any (t : hty) : bool :=
  match t with
  | HPlain _ => false
  | HAny _ => true
  | HStruct fs _ _ => existsb (fun f => has_any (f_ty f)) fs
  | HVar _ ts => existsb (fun t => has_any (t_ty t)) ts
  | HArr e _ _ => has_any e
  | HVec e _ => has_any e
  end.

(** Of a term's type, all that [variant_run] and [use_copytag] look at is its size. *)
Definition sized (t : term hty) : term ty :=
  mkTerm (t_name t) (TStruct [] (hsz (t_ty t)) 1) (t_tag t) (t_attrs t).
(** And of an element's type, all that [vec_run] looks at is size and alignment. *)
Definition elem_as (e : hty) : ty := TStruct [] (hsz e) (hal e).

Section XH.
Variable fconv : Z -> Z -> Z -> Z.
Variable same : ty -> ty -> bool.
(** Where the constant with the reflected form of a type lies (buildGlobalConstant, l.1151-1162). *)
Variable glob : ty -> Z.

(** The pool that constant holds, and [rf_proto.head] (llvm_gen2.cpp l.1125-1131). *)
Definition pool_of (t : ty) : pool := fst (fst (reflect_ty same t ([], []))).
Definition head_of (t : ty) : Z := snd (reflect_ty same t ([], [])).

(** When generation succeeds.  DefaultOpLowering l.1158-1192 has no case for AnyType: a field
    [any] without a source, or whose source is unit, makes it fail.  An array without a source is
    filled from an empty array of the same elements (l.1179-1181), and the reflectable form of
    an [any] is not defined (reflect.cpp l.585). *)
Fixpoint hgen (dst : hty) (src : ty) : bool :=
  match dst with
  | HPlain t => gen t src [] []
  | HAny _ => match src with TUnit => false | _ => gen (reflectable src) src [] [] end
  | HStruct fs _ _ =>
      match src with
      | TUnit => forallb (fun f => hgen (f_ty f) TUnit) fs
      | TStruct sfs _ _ =>
          forallb (fun f => match last_field (f_name f) sfs with
                            | Some sf => hgen (f_ty f) (f_ty sf)
                            | None => hgen (f_ty f) TUnit
                            end) fs
      | _ => false
      end
  | HVar x ts =>
      let l := map (fun t => (sized t, fun src (_ : path) (_ : handlers) => hgen (t_ty t) src)) ts in
      match src with
      | TUnit => term_gen TUnit (default_target x l) []
      | TVar sx sts =>
          if use_copytag sx sts x (map sized ts) then true
          else term_gen TUnit (default_target x l) [] &&
               forallb (fun t => term_gen (t_ty t) (targets (t_name t) x l) []) sts
      | _ => false
      end
  | HArr e _ _ =>
      match src with
      | TUnit => negb (has_any e) && hgen e TUnit
      | TArr se _ _ _ => hgen e se && hgen e TUnit
      | _ => false
      end
  | HVec e _ =>
      match src with
      | TUnit => true
      | TVec se _ => hgen e se
      | _ => false
      end
  end.

(** ReflectOpLowering l.1165-1186: data, schema, index of the head. *)
Definition set_any (y : anyinfo) (rt : ty) (data d : Z) (s : st) : st :=
  do_store KBounded (d + n_off y) 4 (head_of rt)
    (do_store KBounded (d + n_proto y) 8 (glob rt)
       (do_store KBounded (d + n_data y) 8 data s)).

(** getOrCreateReflectFn l.788-829. *)
Definition any_run (y : anyinfo) (src : ty) (a d : Z) (s : st) : res :=
  let rt := reflectable src in
  bind (align KBounded (halign rt) s) (fun s1 =>
  bind (allocate KBounded (hsize rt) s1) (fun s2 =>
  bind (xc fconv rt KBounded src [] [] a (s_ptr s1) s2) (fun s3 =>
  Ok (set_any y rt (s_ptr s1) d s3)))).

(** getOrCreateStructTranscodeFn, as [struct_run]; the fields of a host struct are in order.
    getOrCreateVariantTranscodeFn l.394-496 is [variant_run] with these runners; a variant without
    payload has no [any], so the copied tag of an enum is left to [HPlain].
    getOrCreateArrayTranscodeFn l.498-566; getOrCreateVectorTranscodeFn l.831-888 is [vec_run];
    a vector without a source gets length 0 (llvm_gen2.cpp l.1028-1060). *)
Fixpoint xh (dst : hty) (src : ty) (a d : Z) (s : st) : res :=
  match dst with
  | HPlain t => xc fconv t KBounded src [] [] a d s
  | HAny y => match src with TUnit => Stuck | _ => any_run y src a d s end
  | HStruct fs size _ =>
      let go sfs :=
        (fix go (l : list (field hty)) (s : st) : res :=
           match l with
           | [] => Ok s
           | f :: r =>
               bind (match last_field (f_name f) sfs with
                     | Some sf => xh (f_ty f) (f_ty sf) (a + f_off sf) (d + f_off f) s
                     | None => keepbuf (xh (f_ty f) TUnit 0 (d + f_off f) s) s
                     end) (go r)
           end) fs (do_poison KBounded d size s) in
      match src with
      | TUnit => keepbuf (go []) s
      | TStruct sfs _ _ => go sfs
      | _ => Stuck
      end
  | HVar x ts =>
      let l := map (fun t => (sized t, fun src (_ : path) (_ : handlers) => xh (t_ty t) src)) ts in
      match src with
      | TUnit => keepbuf (term_run KBounded x TUnit (default_target x l) [] a d s) s
      | TVar sx sts =>
          if use_copytag sx sts x (map sized ts) then Stuck
          else variant_run KBounded x l sx sts [] [] a d s
      | _ => Stuck
      end
  | HArr e len esz =>
      let defs c s :=
        for_loop (len - c) (fun i s => keepbuf (xh e TUnit 0 (d + (c + i) * esz) s) s) s in
      match src with
      | TUnit => keepbuf (defs 0 s) s
      | TArr se slen sesz _ =>
          let c := Z.min slen len in
          bind (for_loop c (fun i s => xh e se (a + i * sesz) (d + i * esz) s) s) (defs c)
      | _ => Stuck
      end
  | HVec e p =>
      match src with
      | TUnit => Ok (do_store KBounded (d + v_len_off p) (v_len_sz p) 0 s)
      | TVec se q =>
          vec_run KBounded (elem_as e) p (fun src (_ : path) (_ : handlers) => xh e src) se q a d s
      | _ => Stuck
      end
  end.

(** DecodeFunctionLowering, as [decode], without handlers. *)
Definition decode_h (pr : proto) (dst : hty) (msg obj dbuf dsize : Z) (m : mem) : dres :=
  if hgen dst (p_head pr) then
    match xh dst (p_head pr) msg obj (mkSt m dbuf dsize None) with
    | Ok s => DOk (mkOut (s_mem s) (s_ptr s) (s_rem s) (s_cb s))
    | Throw s => DOk (mkOut (s_mem s) 0 (-1) (s_cb s))
    | UB => DUB
    | Stuck => DStuck
    end
  else DStuck.
End XH.
