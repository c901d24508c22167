(** The functions of one generated module.

    /repo/pj/generate_ir.cpp keeps the functions it has made in a table (cached_fns_, l.124), looks
    there before it makes another one (getOrCreateFn l.131-137, FnKey l.16-28), and lowers the
    operations of every function it makes, so that the functions called in it are made in turn.
    The functions of all the encoders, decoders and size functions of a module share one table.
    [IR] has a function for every key there may be; here a call finds one in the table or fails.

    Simplified: types are compared as trees.  The code compares structs and variants by domain and
    name (type_support.hpp; a name has one contents at a time, see C41 for what comes of that), so
    that it may make a function twice where this makes it once.
    The order in which operations are lowered is depth first.  A function enters the table before its
    operations are lowered, as in the code, where lowering them is left to the pattern driver
    (l.389, l.493, l.564, l.886).  Reflect functions are not part (l.788-829); size
    functions are at the end. *)
From Verif Require Import Base Types Transcode Gen Api IR Sizing.

(** ** Comparing keys *)
Definition sign_eqb (a b : sign) : bool :=
  match a, b with
  | Signed, Signed | Unsigned, Unsigned | Signless, Signless => true
  | _, _ => false
  end.
Definition mode_eqb (a b : refmode) : bool :=
  match a, b with RPointer, RPointer | ROffset, ROffset => true | _, _ => false end.
Fixpoint list_eqb {A} (f : A -> A -> bool) (l l' : list A) : bool :=
  match l, l' with
  | [], [] => true
  | x :: r, y :: r' => f x y && list_eqb f r r'
  | _, _ => false
  end.
Definition path_eqb : path -> path -> bool := list_eqb String.eqb.
(** TermAttribute::operator== (types.hpp l.287-309). *)
Definition attr_eqb (a b : attr) : bool :=
  match a, b with
  | AUndef x, AUndef y => Bool.eqb x y
  | ASplit i n p, ASplit i' n' p' => Bool.eqb i i' && (n =? n') && path_eqb p p'
  | _, _ => false
  end.
(** Vector::operator== (types.hpp l.794-806). *)
Definition vec_eqb (p q : vecinfo) : bool :=
  (v_min p =? v_min q) && (v_max p =? v_max q) && (v_wmin p =? v_wmin q) && (v_ppl p =? v_ppl q) &&
  (v_len_off p =? v_len_off q) && (v_len_sz p =? v_len_sz q) &&
  (v_ref_off p =? v_ref_off q) && (v_ref_sz p =? v_ref_sz q) && mode_eqb (v_mode p) (v_mode q) &&
  (v_inl_off p =? v_inl_off q) && (v_part_off p =? v_part_off q) && (v_ew p =? v_ew q) &&
  (v_size p =? v_size q) && (v_align p =? v_align q).
(** What InlineVariant and OutlineVariant hold (types.hpp l.338-424). *)
Definition var_eqb (x y : varinfo) : bool :=
  Bool.eqb (x_outline x) (x_outline y) && Nat.eqb (x_default x) (x_default y) &&
  (x_term_off x =? x_term_off y) && (x_tag_off x =? x_tag_off y) && (x_tag_w x =? x_tag_w y) &&
  (x_size x =? x_size y) && (x_align x =? x_align y).

(** The types: Int l.50, Float l.107, StructField l.228, Term l.323, Array l.609 of types.hpp. *)
Fixpoint ty_eqb (a b : ty) {struct a} : bool :=
  match a, b with
  | TInt w al s, TInt w' al' s' => (w =? w') && (al =? al') && sign_eqb s s'
  | TFloat w al, TFloat w' al' => (w =? w') && (al =? al')
  | TUnit, TUnit => true
  | TStruct fs size al, TStruct fs' size' al' =>
      (fix go (l l' : list (field ty)) : bool :=
         match l, l' with
         | [], [] => true
         | f :: r, f' :: r' =>
             String.eqb (f_name f) (f_name f') && ty_eqb (f_ty f) (f_ty f') &&
             (f_off f =? f_off f') && go r r'
         | _, _ => false
         end) fs fs' && (size =? size') && (al =? al')
  | TVar x ts, TVar x' ts' =>
      var_eqb x x' &&
      (fix go (l l' : list (term ty)) : bool :=
         match l, l' with
         | [], [] => true
         | t :: r, t' :: r' =>
             String.eqb (t_name t) (t_name t') && ty_eqb (t_ty t) (t_ty t') &&
             (t_tag t =? t_tag t') && list_eqb attr_eqb (t_attrs t) (t_attrs t') && go r r'
         | _, _ => false
         end) ts ts'
  | TArr e len esz al, TArr e' len' esz' al' =>
      ty_eqb e e' && (len =? len') && (esz =? esz') && (al =? al')
  | TVec e p, TVec e' p' => ty_eqb e e' && vec_eqb p p'
  | _, _ => false
  end.

(** FnKey::operator== (generate_ir.cpp l.23-26), DispatchHandlerStorage (types.hpp l.998-1003); the kind of the buffer is part of the key. *)
Definition mkey := (kind * fnkey)%type.
Definition kind_eqb (a b : kind) : bool :=
  match a, b with
  | KRaw, KRaw | KBounded, KBounded => true
  | KDummy r, KDummy r' => Bool.eqb r r'
  | _, _ => false
  end.
Definition handler_eqb (a b : path * Z) : bool := path_eqb (fst a) (fst b) && (snd a =? snd b).
Definition key_eqb (a b : mkey) : bool :=
  ty_eqb (k_src (snd a)) (k_src (snd b)) && ty_eqb (k_dst (snd a)) (k_dst (snd b)) &&
  path_eqb (k_path (snd a)) (k_path (snd b)) &&
  list_eqb handler_eqb (k_handlers (snd a)) (k_handlers (snd b)) &&
  kind_eqb (fst a) (fst b).

(** ** The functions a piece of code calls *)
Fixpoint callees (s : stmt) : list fnkey :=
  match s with
  | Let _ (OCall key _ _ _) | Let _ (OCallSize key _ _) => [key]
  | Let _ _ | Do _ => []
  | If _ _ th _ el _ => flat_map callees th ++ flat_map callees el
  | For _ _ _ _ _ _ body _ | Each _ _ _ body => flat_map callees body
  end.
Definition block_callees (b : block) : list fnkey := flat_map callees (fst b).
Definition fn_callees (f : fn) : list fnkey :=
  match f with
  | FBlock b => block_callees b
  | FMatch _ _ _ d cs => block_callees d ++ flat_map block_callees cs
  end.

(** ** The table *)
Definition module := list (mkey * fn).
Definition find_fn (M : module) (key : mkey) : option fn :=
  match find (fun e => key_eqb (fst e) key) M with Some (_, f) => Some f | None => None end.

(** getOrCreateFn and the functions that use it (l.131-193, l.307-888), for the operations still to
    be lowered, one after the other. *)
Fixpoint generate (fuel : nat) (pend : list mkey) (M : module) : option module :=
  match fuel with
  | O => None
  | S n =>
      match pend with
      | [] => Some M
      | key :: rest =>
          match find_fn M key with
          | Some _ => generate n rest M
          | None =>
              let f := gen_fn (snd key) in
              generate n (map (pair (fst key)) (fn_callees f) ++ rest) ((key, f) :: M)
          end
      end
  end.

(** What a user asks for: the kind of buffer, the two types, source path and handlers
    (EncodeFunctionLowering l.898-940, DecodeFunctionLowering l.950-1003, SizeFunctionLowering
    l.1013-1054). *)
Record request := mkRequest {
  q_kind : kind; q_src : ty; q_dst : ty; q_path : path; q_handlers : handlers }.
Definition request_block (q : request) : block :=
  top_block (q_src q) (q_dst q) (q_path q) (q_handlers q).
Definition request_keys (q : request) : list mkey :=
  map (pair (q_kind q)) (block_callees (request_block q)).

(** The module for some requests (GeneratePass::runOnOperation l.1194-1220); [gen]: nothing stops the
    compilation. *)
Definition request_gen (q : request) : bool := gen (q_dst q) (q_src q) (q_path q) (q_handlers q).
Definition module_of (fuel : nat) (qs : list request) : option module :=
  if forallb request_gen qs then generate fuel (flat_map request_keys qs) [] else None.

Section RUN.
Variable fconv : Z -> Z -> Z -> Z.
Variable M : module.

(** Running a function of the module; a call of a function that is not there is [Stuck].  [n] bounds
    the depth of calls. *)
Fixpoint run_mod (n : nat) (key : mkey) (a d : Z) (s : st) : res :=
  match n with
  | O => Stuck
  | S n' =>
      let k := fst key in
      match find_fn M key with
      | Some f => run_body fconv k k k (fun c => run_mod n' (k, c)) f a d s
      | None => Stuck
      end
  end.
Definition run_request (n : nat) (q : request) (a d : Z) (s : st) : res :=
  let k := q_kind q in
  run_body fconv k k k (fun c => run_mod n (k, c)) (FBlock (request_block q)) a d s.

(** Encode and decode out of the module (compare [Api]). *)
Definition encode_request (pr : proto) (host : ty) (p : path) : request :=
  mkRequest KRaw host (p_head pr) p [].
Definition decode_request (pr : proto) (host : ty) (hs : handlers) : request :=
  mkRequest KBounded (p_head pr) host [] hs.
Definition encode_mod (n : nat) (pr : proto) (host : ty) (p : path) (obj buf : Z) (m : mem) : res :=
  run_request n (encode_request pr host p) obj buf
    (mkSt m (wrap64 (buf + hsize (p_head pr) + p_bufoff pr)) 0 None).
Definition decode_mod (n : nat) (pr : proto) (host : ty) (hs : handlers)
           (msg obj dbuf dsize : Z) (m : mem) : dres :=
  match run_request n (decode_request pr host hs) msg obj (mkSt m dbuf dsize None) with
  | Ok s => DOk (mkOut (s_mem s) (s_ptr s) (s_rem s) (s_cb s))
  | Throw s => DOk (mkOut (s_mem s) 0 (-1) (s_cb s))
  | UB => DUB
  | Stuck => DStuck
  end.

(** Size functions: /repo/pj/sizing.cpp.  The functions with dummy buffers are made like the others;
    the pass then looks each one up by name and converts a copy of it, once for every name and
    [round_up] (findOrCreateConvertedFn l.39-66).  A copy depends on nothing else, so the copies are
    not kept in a table here.  DummyBufferType does not say whether to round up (types.hpp
    l.972-979). *)
Definition size_request (pr : proto) (host : ty) (p : path) : request :=
  mkRequest (KDummy false) host (p_head pr) p [].
Fixpoint run_size (r tol : bool) (n : nat) (key : fnkey) (a d : Z) (s : st) : res :=
  match n with
  | O => Stuck
  | S n' =>
      match find_fn M (KDummy false, key) with
      | Some f => run_body fconv (KDummy false) KRaw (left_kind tol) (run_size r tol n') (size_fn_of r f) a d s
      | None => Stuck
      end
  end.
Definition size_mod (tol : bool) (n : nat) (pr : proto) (host : ty) (p : path) (round_up : bool)
           (obj : Z) (m : mem) : option (Z * mem) :=
  match run_body fconv (KDummy false) KRaw (left_kind tol) (run_size round_up tol n)
          (size_fn_of round_up (FBlock (request_block (size_request pr host p)))) obj 0
          (mkSt m 0 0 None) with
  | Ok s => Some (wrap64 (s_ptr s + hsize (p_head pr)), s_mem s)
  | _ => None
  end.
End RUN.
