(** The operations that generate_ir.cpp builds, one by one, and their meaning.

    [Transcode] runs the generated code directly.  Here the functions of
    /repo/pj/generate_ir.cpp build operations in static single assignment form
    (/repo/pj/ir.td and the std and scf dialects), and [exec] gives each operation
    the meaning of its lowering in /repo/pj/llvm_gen2.cpp.  [IRFacts] proves that
    the two agree; [Sizing] rewrites the operations.

    Simplified: locations, types of values (an operation carries those it looks at),
    the constant 1 that every loop has as its step, ReflectOp. *)
From Verif Require Import Base Types Transcode.

(** A value is named by a number. *)
Definition var := nat.

(** VectorRegion (ir.td). *)
Inductive vregion := GInline | GPartial | GReference | GBuffer.
(** CmpIPredicate, as far as used. *)
Inductive pred := Ule | Ugt | Uge.

(** FnKey (generate_ir.cpp l.16-27); the buffer type is the same in all the functions of one
    program and is given to [exec].  [k_src = TUnit] stands for the types "<empty>" and the array
    of length 0 that DefaultOpLowering makes (l.1166-1186); a unit source has no key. *)
Record fnkey := mkKey { k_src : ty; k_dst : ty; k_path : path; k_handlers : handlers }.

(** Operations with a result (ir.td).  [OCallSize] is the call the sizing pass makes. *)
Inductive op :=
| OUnit
| OIndex (z : Z)
| OBool (b : bool)
| OProject (v : var) (off : Z)
| OAdd (a b : var)
| OSub (a b : var)
| OMul (a b : var)
| OCmp (c : pred) (a b : var)
| OSelect (c a b : var)
| OAnd (a b : var)
| OLength (e : ty) (p : vecinfo) (v : var)
| OVecIndex (p : vecinfo) (v i : var) (r : vregion) (buf : var)
| OArrIndex (esz : Z) (v i : var)
| OAlign (buf : var) (al : Z)
| OAllocate (buf n : var)
| OCall (key : fnkey) (src dst buf : var)
| OCallSize (key : fnkey) (src buf : var).

(** Operations without.  [ECrash]: building stops here with a failed assertion or cast. *)
Inductive eff :=
| EStoreLength (p : vecinfo) (v n : var)
| EStoreRef (p : vecinfo) (v buf : var)
| ETag (x : varinfo) (v : var) (tag : Z)
| ECopyTag (sx : varinfo) (sts : list (term ty)) (x : varinfo) (ts : list (term ty)) (src dst : var)
| EPrim (s t : ty) (src dst : var)
| EDefault (t : ty) (dst buf : var)
| EPoison (v : var) (n : Z)
| EAssume (c : var)
| ESetCallback (i : Z)
| ECrash.

(** A block is a list of these.  [If]: scf.if with a result; each region ends in a yield.
    [For]: scf.for that carries one value, [idx] and [acc] being its block arguments; [Each]:
    scf.for that carries none. *)
Inductive stmt :=
| Let (x : var) (o : op)
| Do (o : eff)
| If (x : var) (c : var) (th : list stmt) (tr : var) (el : list stmt) (er : var)
| For (x : var) (lo hi : var) (idx acc init : var) (body : list stmt) (yield : var)
| Each (lo hi : var) (idx : var) (body : list stmt).
Definition code := list stmt.

(** ** Meaning *)

(** What a value is at run time: index, i1, address, buffer (position and bytes left). *)
Inductive rval := RInd (z : Z) | RBit (b : bool) | RAddr (a : Z) | RBuf (p r : Z).
Definition env := var -> option rval.
Definition upd (e : env) (x : var) (v : rval) : env :=
  fun y => if Nat.eqb y x then Some v else e y.

(** Values, memory and callback slot after some operations.  [XThrow] leaves the function. *)
Inductive xres := XOk (e : env) (m : mem) (cb : option Z) | XThrow (s : st) | XUB | XStuck.

Definition ind (e : env) (v : var) (f : Z -> xres) : xres :=
  match e v with Some (RInd z) => f z | _ => XStuck end.
Definition bit (e : env) (v : var) (f : bool -> xres) : xres :=
  match e v with Some (RBit b) => f b | _ => XStuck end.
Definition addr (e : env) (v : var) (f : Z -> xres) : xres :=
  match e v with Some (RAddr a) => f a | _ => XStuck end.
Definition buff (e : env) (v : var) (f : Z -> Z -> xres) : xres :=
  match e v with Some (RBuf p r) => f p r | _ => XStuck end.

Definition cmp_op (c : pred) (a b : Z) : bool :=
  match c with Ule => a <=? b | Ugt => b <? a | Uge => b <=? a end.

(** VectorIndexOpLowering, llvm_gen2.cpp l.682-732. *)
Definition vec_index (k : kind) (p : vecinfo) (r : vregion) (a buf i : Z) (m : mem) : option Z :=
  match r with
  | GInline => Some (a + v_inl_off p + i * v_ew p)
  | GPartial => Some (a + v_part_off p + i * v_ew p)
  | GReference =>
      match region_start k p Reference a m with
      | Some b => Some (b + i * v_ew p)
      | None => None
      end
  | GBuffer => Some (buf + i * v_ew p)
  end.

(** Result of an operation that works on the state: a buffer. *)
Definition to_buf (e : env) (x : var) (r : res) : xres :=
  match r with
  | Ok s => XOk (upd e x (RBuf (s_ptr s) (s_rem s))) (s_mem s) (s_cb s)
  | Throw s => XThrow s
  | UB => XUB
  | Stuck => XStuck
  end.
(** No result. *)
Definition to_none (e : env) (r : res) : xres :=
  match r with
  | Ok s => XOk e (s_mem s) (s_cb s)
  | Throw s => XThrow s
  | UB => XUB
  | Stuck => XStuck
  end.

Section EXEC.
Variable fconv : Z -> Z -> Z -> Z.
(** [k]: the kind of the buffers (and of the lengths: [Transcode] gives the rounded lengths to
    [KDummy true]; the sizing pass makes constants of them).  [ke]: how operations without result
    work; [Transcode] lets them do nothing in a size function ([KDummy]), where the sizing pass
    erases them.  [kr]: how references are loaded; with [KDummy true] an undefined one is no
    error. *)
Variables k ke kr : kind.
(** The functions called. *)
Variable call : fnkey -> Z -> Z -> st -> res.

Definition exec_op (o : op) (x : var) (e : env) (m : mem) (cb : option Z) : xres :=
  let give v := XOk (upd e x v) m cb in
  match o with
  | OUnit => give (RAddr 0)
  | OIndex z => give (RInd z)
  | OBool b => give (RBit b)
  | OProject v off => addr e v (fun a => give (RAddr (a + off)))
  | OAdd a b => ind e a (fun u => ind e b (fun v => give (RInd (wrap64 (u + v)))))
  | OSub a b => ind e a (fun u => ind e b (fun v => give (RInd (wrap64 (u - v)))))
  | OMul a b => ind e a (fun u => ind e b (fun v => give (RInd (wrap64 (u * v)))))
  | OCmp c a b => ind e a (fun u => ind e b (fun v => give (RBit (cmp_op c u v))))
  | OSelect c a b =>
      bit e c (fun t => ind e a (fun u => ind e b (fun v => give (RInd (if t then u else v)))))
  | OAnd a b => bit e a (fun u => bit e b (fun v => give (RBit (u && v))))
  | OLength t p v =>
      addr e v (fun a =>
        match length_op k t p a m with Some n => give (RInd n) | None => XUB end)
  | OVecIndex p v i r buf =>
      addr e v (fun a => ind e i (fun n => buff e buf (fun b _ =>
        match vec_index kr p r a b n m with Some z => give (RAddr z) | None => XUB end)))
  | OArrIndex esz v i => addr e v (fun a => ind e i (fun n => give (RAddr (a + n * esz))))
  | OAlign buf al => buff e buf (fun p r => to_buf e x (align k al (mkSt m p r cb)))
  | OAllocate buf n =>
      buff e buf (fun p r => ind e n (fun c => to_buf e x (allocate k c (mkSt m p r cb))))
  | OCall key src dst buf =>
      addr e src (fun a => addr e dst (fun d => buff e buf (fun p r =>
        to_buf e x (call key a d (mkSt m p r cb)))))
  | OCallSize key src buf =>
      addr e src (fun a => buff e buf (fun p r => to_buf e x (call key a 0 (mkSt m p r cb))))
  end.

(** StoreLengthOp llvm_gen2.cpp l.833-847, StoreRefOp l.849-879, TagOp l.429-443, CopyTagOp
    l.445-542, TranscodePrimitiveOp l.383-427, DefaultOp l.1028-1058, SetCallbackOp l.641-659. *)
Definition exec_eff (o : eff) (e : env) (m : mem) (cb : option Z) : xres :=
  let s := mkSt m 0 0 cb in
  match o with
  | EStoreLength p v n =>
      addr e v (fun d => ind e n (fun c =>
        to_none e (Ok (do_store ke (d + v_len_off p) (v_len_sz p) c s))))
  | EStoreRef p v buf =>
      addr e v (fun d => buff e buf (fun b r =>
        to_none e (Ok (store_ref ke p d (mkSt m b r cb)))))
  | ETag x v tag =>
      addr e v (fun d => to_none e (Ok (do_store ke (d + x_tag_off x) (x_tag_w x) tag s)))
  | ECopyTag sx sts x ts src dst =>
      addr e src (fun a => addr e dst (fun d =>
        if is_dummy ke then XOk e m cb
        else match load m (a + x_tag_off sx) (x_tag_w sx) with
             | None => XUB
             | Some g =>
                 match copytag sx sts x ts g with
                 | Some g' => to_none e (Ok (do_store ke (d + x_tag_off x) (x_tag_w x) g' s))
                 | None => XUB
                 end
             end))
  | EPrim t t' src dst =>
      addr e src (fun a => addr e dst (fun d =>
        match t, t' with
        | TInt sw _ sg, TInt w _ _ =>
            if is_dummy ke then XOk e m cb
            else match load m a sw with
                 | Some v => to_none e (Ok (do_store ke d w (conv_int sw sg w v) s))
                 | None => XUB
                 end
        | TFloat sw _, TFloat w _ =>
            if is_dummy ke then XOk e m cb
            else match load m a sw with
                 | Some v => to_none e (Ok (do_store ke d w (if sw =? w then v else fconv sw w v) s))
                 | None => XUB
                 end
        | _, _ => XStuck
        end))
  | EDefault t dst _ =>
      addr e dst (fun d =>
        match t with
        | TInt w _ _ => to_none e (Ok (do_store ke d w 0 s))
        | TFloat w _ => to_none e (Ok (do_store ke d w (float_default w) s))
        | TVec _ p => to_none e (Ok (do_store ke (d + v_len_off p) (v_len_sz p) 0 s))
        | _ => XStuck
        end)
  | EPoison v n => addr e v (fun d => to_none e (Ok (do_poison ke d n s)))
  | EAssume c => bit e c (fun b => if b then XOk e m cb else XUB)
  | ESetCallback i => XOk e m (if is_dummy ke then cb else Some i)
  | ECrash => XStuck
  end.

(** scf.for with [n] rounds to go from index [i]; [acc]: the value carried. *)
Fixpoint for_rounds (body : env -> mem -> option Z -> xres) (idx acc yield : var)
         (n : nat) (i : Z) (v : rval) (e : env) (m : mem) (cb : option Z)
         (fin : rval -> mem -> option Z -> xres) : xres :=
  match n with
  | O => fin v m cb
  | S n' =>
      match body (upd (upd e idx (RInd i)) acc v) m cb with
      | XOk e' m' cb' =>
          match e' yield with
          | Some v' => for_rounds body idx acc yield n' (i + 1) v' e m' cb' fin
          | None => XStuck
          end
      | r => r
      end
  end.
Fixpoint each_rounds (body : env -> mem -> option Z -> xres) (idx : var)
         (n : nat) (i : Z) (e : env) (m : mem) (cb : option Z) : xres :=
  match n with
  | O => XOk e m cb
  | S n' =>
      match body (upd e idx (RInd i)) m cb with
      | XOk _ m' cb' => each_rounds body idx n' (i + 1) e m' cb'
      | r => r
      end
  end.
(** The trip count: bounds are compared as signed numbers. *)
Definition trips (lo hi : Z) : nat := Z.to_nat (sgn64 hi - sgn64 lo).

Fixpoint exec (s : stmt) (e : env) (m : mem) (cb : option Z) {struct s} : xres :=
  let run :=
    fix run (l : code) (e : env) (m : mem) (cb : option Z) : xres :=
      match l with
      | [] => XOk e m cb
      | t :: r =>
          match exec t e m cb with
          | XOk e' m' cb' => run r e' m' cb'
          | z => z
          end
      end in
  match s with
  | Let x o => exec_op o x e m cb
  | Do o => exec_eff o e m cb
  | If x c th tr el er =>
      bit e c (fun b =>
        match (if b then run th e m cb else run el e m cb) with
        | XOk e' m' cb' =>
            match e' (if b then tr else er) with
            | Some v => XOk (upd e x v) m' cb'
            | None => XStuck
            end
        | z => z
        end)
  | For x lo hi idx acc init body yield =>
      ind e lo (fun l => ind e hi (fun h =>
        match e init with
        | Some v =>
            for_rounds (run body) idx acc yield (trips l h) l v e m cb
                       (fun v' m' cb' => XOk (upd e x v') m' cb')
        | None => XStuck
        end))
  | Each lo hi idx body =>
      ind e lo (fun l => ind e hi (fun h =>
        each_rounds (run body) idx (trips l h) l e m cb))
  end.

Fixpoint exec_code (l : code) (e : env) (m : mem) (cb : option Z) : xres :=
  match l with
  | [] => XOk e m cb
  | t :: r =>
      match exec t e m cb with
      | XOk e' m' cb' => exec_code r e' m' cb'
      | z => z
      end
  end.
End EXEC.

(** A function: a block that returns a buffer, or a MatchOp and the blocks it leads to. *)
Definition block := (code * var)%type.
Inductive fn :=
| FBlock (b : block)
| FMatch (src : var) (sx : varinfo) (sts : list (term ty)) (dflt : block) (cases : list block).

(** The arguments of a function are the values 0, 1 and 2: source, target, buffer. *)
Definition args (a d : Z) (s : st) : env :=
  fun y => match y with
           | 0%nat => Some (RAddr a)
           | 1%nat => Some (RAddr d)
           | 2%nat => Some (RBuf (s_ptr s) (s_rem s))
           | _ => None
           end.

Section RUN.
Variable fconv : Z -> Z -> Z -> Z.
Variables k ke kr : kind.

Definition run_block (call : fnkey -> Z -> Z -> st -> res) (b : block)
           (e : env) (m : mem) (cb : option Z) : res :=
  match exec_code fconv k ke kr call (fst b) e m cb with
  | XOk e' m' cb' =>
      match e' (snd b) with
      | Some (RBuf p r) => Ok (mkSt m' p r cb')
      | _ => Stuck
      end
  | XThrow s => Throw s
  | XUB => UB
  | XStuck => Stuck
  end.

(** MatchOpLowering, llvm_gen2.cpp l.544-588. *)
Definition run_body (call : fnkey -> Z -> Z -> st -> res) (f : fn) (a d : Z) (s : st) : res :=
  let e := args a d s in
  let go b := run_block call b e (s_mem s) (s_cb s) in
  match f with
  | FBlock b => go b
  | FMatch src sx sts dflt cases =>
      match cases with
      | [] => go dflt
      | _ =>
          match e src with
          | Some (RAddr v) =>
              match load (s_mem s) (v + x_tag_off sx) (x_tag_w sx) with
              | None => UB
              | Some g =>
                  match find (fun cb => fst cb =? g)
                             (combine (map t_tag (sort_by t_tag sts)) cases) with
                  | Some (_, b) => go b
                  | None => go dflt
                  end
              end
          | _ => Stuck
          end
      end
  end.

(** A program gives a function for every key; [n] bounds the depth of calls. *)
Fixpoint run_fn (prog : fnkey -> fn) (n : nat) (key : fnkey) (a d : Z) (s : st) : res :=
  match n with
  | O => Stuck
  | S n' => run_body (run_fn prog n') (prog key) a d s
  end.
End RUN.

(** ** Building.  Every function takes the first unused number and gives the operations, the
    value with the result and the next unused number. *)
Definition built := (code * var * nat)%type.

(** DefaultOpLowering, generate_ir.cpp l.1151-1192. *)
Definition emit_default (n : nat) (t : ty) (hs : handlers) (vd vb : var) : code * nat :=
  match t with
  | TUnit => ([], n)
  | TInt _ _ _ | TFloat _ _ | TVec _ _ => ([Do (EDefault t vd vb)], n)
  | TStruct _ _ _ | TVar _ _ =>
      ([Let n OUnit; Let (S n) (OCall (mkKey TUnit t [] hs) n vd vb)], S (S n))
  | TArr _ _ _ _ =>
      ([Let n OUnit; Let (S n) (OCall (mkKey TUnit t [] []) n vd vb)], S (S n))
  end.

(** TranscodeOpLowering, l.1068-1149. *)
Definition emit_transcode (n : nat) (src dst : ty) (p : path) (hs : handlers) (vs vd vb : var)
  : built :=
  match dst with
  | TUnit => ([], vb, n)
  | _ =>
      match src, dst with
      | TUnit, _ => let (o, n') := emit_default n dst hs vd vb in (o, vb, n')
      | TInt _ _ _, TInt _ _ _ | TFloat _ _, TFloat _ _ => ([Do (EPrim src dst vs vd)], vb, n)
      | TStruct _ _ _, TStruct _ _ _ => ([Let n (OCall (mkKey src dst p hs) vs vd vb)], n, S n)
      | TVar sx sts, TVar x ts =>
          if use_copytag sx sts x ts
          then ([Do (ECopyTag sx sts x ts vs vd)], vb, n)
          else ([Let n (OCall (mkKey src dst p hs) vs vd vb)], n, S n)
      | TArr _ _ _ _, TArr _ _ _ _ | TVec _ _, TVec _ _ =>
          ([Let n (OCall (mkKey src dst [] []) vs vd vb)], n, S n)
      | _, _ => ([Do ECrash], vb, n)
      end
  end.

(** getOrCreateStructTranscodeFn, l.307-392. *)
Fixpoint emit_fields (n : nat) (sfs l : list (field ty)) (p : path) (hs : handlers) (vb : var)
  : built :=
  match l with
  | [] => ([], vb, n)
  | f :: r =>
      let hs' := handlers_into hs (f_name f) in
      match last_field (f_name f) sfs with
      | Some sf =>
          let '(o1, vb', n1) := emit_transcode (S (S n)) (f_ty sf) (f_ty f)
                                  (path_into p (f_name f)) hs' (S n) n vb in
          let '(o2, vb'', n2) := emit_fields n1 sfs r p hs vb' in
          (Let n (OProject 1 (f_off f)) :: Let (S n) (OProject 0 (f_off sf)) :: o1 ++ o2, vb'', n2)
      | None =>
          let (o1, n1) := emit_default (S n) (f_ty f) hs' n vb in
          let '(o2, vb'', n2) := emit_fields n1 sfs r p hs vb in
          (Let n (OProject 1 (f_off f)) :: o1 ++ o2, vb'', n2)
      end
  end%nat.
Definition struct_fn (sfs fs : list (field ty)) (size : Z) (p : path) (hs : handlers) : fn :=
  let '(o, v, _) :=
    emit_fields 3%nat sfs (outline_first (fun f => has_outline (f_ty f)) fs) p hs 2%nat in
  FBlock (Do (EPoison 1%nat size) :: o, v).

(** projectPath, l.195-209; [None]: the assertion or the cast fails. *)
Fixpoint emit_proj (n : nat) (t : ty) (p : path) (v : var) : option (code * var * nat * ty) :=
  match p with
  | [] => None
  | x :: r =>
      match r with
      | [] => Some ([], v, n, t)
      | _ =>
          match t with
          | TStruct fs _ _ =>
              match find_field x fs with
              | Some f =>
                  match emit_proj (S n) (f_ty f) r n with
                  | Some (o, v', n', t') => Some (Let n (OProject v (f_off f)) :: o, v', n', t')
                  | None => None
                  end
              | None => None
              end
          | _ => None
          end
      end
  end.
(** generateTermCondition, l.211-236; [c]: the condition so far. *)
Fixpoint emit_attrs (n : nat) (t : ty) (v c : var) (l : list attr) : option built :=
  match l with
  | [] => Some ([], c, n)
  | AUndef b :: r =>
      match emit_attrs (S (S n)) t v (S n) r with
      | Some (o, c', n') => Some (Let n (OBool b) :: Let (S n) (OAnd c n) :: o, c', n')
      | None => None
      end
  | ASplit isin len p :: r =>
      match emit_proj n t p v with
      | Some (o1, v1, n1, TVec e q) =>
          match emit_attrs (4 + n1) t v (3 + n1) r with
          | Some (o, c', n') =>
              Some (o1 ++ Let n1 (OLength e q v1) :: Let (1 + n1) (OIndex len) ::
                    Let (2 + n1) (OCmp (if isin then Ule else Ugt) n1 (1 + n1)) ::
                    Let (3 + n1) (OAnd c (2 + n1)) :: o, c', n')
          | None => None
          end
      | _ => None
      end
  end%nat.
Definition emit_cond (n : nat) (t : ty) (v : var) (l : list attr) : built :=
  match emit_attrs (S n) t v n l with
  | Some (o, c, n') => (Let n (OBool true) :: o, c, n')
  | None => ([Do ECrash], n, S n)
  end.

(** transcodeTerm, l.238-305: the chain of scf.if; [vs]: the source term, [vb]: the buffer.  The
    branch for no target term (l.293-295) is never taken: [emit_term] gets at least the
    default term. *)
Fixpoint emit_terms (n : nat) (x : varinfo) (sty : ty) (l : list (term ty)) (vs vb : var) : built :=
  match l with
  | [] => ([], vb, n)
  | t :: r =>
      let '(oc, c, n1) := emit_cond n sty vs (t_attrs t) in
      let oa := if x_outline x
                then [Let (1 + n1) (OIndex (hsize (t_ty t))); Let (2 + n1) (OAllocate vb (1 + n1))]
                else [] in
      let va := if x_outline x then 2 + n1 else vb in
      let '(ot, vt, n2) := emit_transcode (3 + n1) sty (t_ty t) [] [] vs n1 va in
      let '(oe, ve, n3) := emit_terms n2 x sty r vs vb in
      (oc ++ [If n3 c (Do (ETag x 1 (t_tag t)) :: Let n1 (OProject 1 (x_term_off x)) :: oa ++ ot) vt
                 oe ve], n3, S n3)
  end%nat.
Definition emit_term (n : nat) (soff : Z) (x : varinfo) (sty : ty) (l : list (term ty))
           (hs : handlers) : block * nat :=
  let '(o, v, n') := emit_terms (S n) x sty l n 2%nat in
  ((Let n (OProject 0%nat soff) :: o ++
      match l with
      | [] => []
      | t :: _ => match find_handler (t_name t) hs with
                  | Some i => [Do (ESetCallback i)]
                  | None => []
                  end
      end, v), n').
Fixpoint emit_cases (n : nat) (soff : Z) (x : varinfo) (l : list (ty * list (term ty)))
         (hs : handlers) : list block :=
  match l with
  | [] => []
  | (sty, ts) :: r =>
      let (b, n') := emit_term n soff x sty ts hs in b :: emit_cases n' soff x r hs
  end.

(** The target terms of a name, or the default term (l.409-413, l.444-450, l.471-478). *)
Definition default_for (x : varinfo) (ts : list (term ty)) : list (term ty) :=
  match nth_error ts (x_default x) with Some t => [t] | None => [] end.
Definition terms_for (nm : string) (x : varinfo) (ts : list (term ty)) : list (term ty) :=
  match filter (fun t => String.eqb (t_name t) nm) ts with
  | [] => default_for x ts
  | l => l
  end.

Definition crash : fn := FBlock ([Do ECrash], 2%nat).

(** getOrCreateVariantTranscodeFn, l.394-496. *)
Definition variant_fn (sx : varinfo) (sts : list (term ty)) (x : varinfo) (ts : list (term ty))
           (p : path) (hs : handlers) : fn :=
  if negb (handlers_ok hs) then crash
  else
    match p with
    | nm :: _ =>
        match find_term nm sts with
        | Some t => FBlock (fst (emit_term 3%nat (x_term_off sx) x (t_ty t) (terms_for nm x ts) hs))
        | None => crash
        end
    | [] =>
        let (b, n) := emit_term 3%nat (x_term_off sx) x TUnit (default_for x ts) hs in
        FMatch 0%nat sx sts b
          (emit_cases n (x_term_off sx) x
             (map (fun t => (t_ty t, terms_for (t_name t) x ts))
                  (sort_by (fun t => sgn64 (t_tag t)) sts)) hs)
    end.
(** The variant "<empty>" has no terms; its offsets are those of a fresh InlineVariant
    (types.hpp l.338-378). *)
Definition empty_var : varinfo := mkVar false 0 0 0 0 0 1.

(** getOrCreateArrayTranscodeFn, l.498-566. *)
Definition array_fn (se : ty) (slen sesz : Z) (e : ty) (len esz : Z) : fn :=
  let '(o, v, n) := emit_transcode 9%nat se e [] [] 7%nat 8%nat 6%nat in
  let (o', _) := emit_default (4 + n)%nat e [] (2 + n)%nat n in
  FBlock
    ([Let 3 (OIndex 0); Let 4 (OIndex (Z.min slen len));
      For n 3 4 5 6 2 (Let 7 (OArrIndex sesz 0 5) :: Let 8 (OArrIndex esz 1 5) :: o) v;
      Let (S n) (OIndex len);
      Each 4 (S n) (3 + n) (Let (2 + n) (OArrIndex esz 1 (3 + n)) :: o')], n)%nat.

(** generateVectorCopyLoop, l.568-604. *)
Definition emit_loop (n : nat) (se : ty) (q : vecinfo) (r : vregion) (sstart : var)
           (e : ty) (p : vecinfo) (r' : vregion) (dstart count out vb : var) : built :=
  let '(o, v, n1) := emit_transcode (7 + n)%nat se e [] [] (5 + n)%nat (6 + n)%nat (2 + n)%nat in
  ([Let n (OIndex 0);
    For n1 n count (1 + n) (2 + n) vb
        (Let (3 + n) (OAdd sstart (1 + n)) :: Let (4 + n) (OAdd dstart (1 + n)) ::
         Let (5 + n) (OVecIndex q 0 (3 + n) r out) :: Let (6 + n) (OVecIndex p 1 (4 + n) r' out) :: o)
        v], n1, S n1)%nat.

(** [is_dst_inline] and [is_src_inline], l.617-624, l.694-701, l.862-869. *)
Definition emit_is_inline (n : nat) (mn : Z) (len : var) : code :=
  if mn =? 0 then [Let (S n) (OBool false)]
  else [Let n (OIndex mn); Let (S n) (OCmp Ule len n)].

(** transcodeInlineVector, l.606-672; [len]: the number to copy. *)
Definition emit_inline (n : nat) (se : ty) (q : vecinfo) (e : ty) (p : vecinfo) (len : var)
  : built :=
  let zero := (4 + n)%nat in
  let '(l1, v1, n1) := (emit_loop (6 + n) se q GInline zero e p GInline zero len 2 2)%nat in
  let '(l2, v2, n2) := (emit_loop (6 + n1) se q GInline zero e p GPartial zero (1 + n1) n1 (5 + n1))%nat in
  let '(l3, v3, n3) := (emit_loop n2 se q GInline (1 + n1) e p GBuffer zero (2 + n1) n1 v2)%nat in
  ([Let n (OIndex (v_min q)); Let (1 + n) (OCmp Ule len n); Do (EAssume (1 + n))] ++
   emit_is_inline (2 + n) (v_min p) len ++
   [Let zero (OIndex 0);
    If n3 (3 + n)
       (Let (5 + n) (OVecIndex p 1 zero GInline 2) :: Do (EPoison (5 + n) (hsize e * v_min p)%Z) :: l1) v1
       (Let n1 (OAlign 2 (halign e)) :: Do (EStoreRef p 1 n1) ::
        Let (1 + n1) (OIndex (v_ppl p)) :: Let (2 + n1) (OSub len (1 + n1)) ::
        Let (3 + n1) (OIndex (v_ew p)) :: Let (4 + n1) (OMul (3 + n1) (2 + n1)) ::
        Let (5 + n1) (OAllocate n1 (4 + n1)) :: l2 ++ l3) v3], n3, S n3)%nat.

(** transcodeOutlineVector, l.674-786. *)
Definition emit_outline (n : nat) (se : ty) (q : vecinfo) (e : ty) (p : vecinfo) (len : var)
  : built :=
  let zero := (4 + n)%nat in
  let '(l1, v1, n1) := (emit_loop (8 + n) se q GPartial zero e p GInline zero (6 + n) 2 2)%nat in
  let '(l2, v2, n2) := (emit_loop n1 se q GReference zero e p GInline (6 + n) (7 + n) 2 v1)%nat in
  let small := v_ppl q <=? v_ppl p in
  let '(l3, v3, n3) :=
    (emit_loop (9 + n2) se q GPartial zero e p GPartial zero
               (if small then 1 + n2 else 2 + n2) n2 (8 + n2))%nat in
  let '(l4, v4, n4) :=
    if small
    then (emit_loop n3 se q GReference zero e p GPartial (1 + n2) (3 + n2) n2 v3)%nat
    else (emit_loop n3 se q GPartial (2 + n2) e p GBuffer zero (3 + n2) n2 v3)%nat in
  let '(l5, v5, n5) :=
    if small
    then (emit_loop n4 se q GReference (3 + n2) e p GBuffer zero (4 + n2) n2 v4)%nat
    else (emit_loop n4 se q GReference zero e p GBuffer (3 + n2) (7 + n2) n2 v4)%nat in
  ((if (0 <? v_min q)%Z
    then [Let n (OIndex (Z.min (v_min q + 1) (bound p))%Z); Let (1 + n) (OCmp Uge len n);
          Do (EAssume (1 + n))]
    else []) ++
   emit_is_inline (2 + n) (v_min p) len ++
   [Let zero (OIndex 0);
    If n5 (3 + n)
       (Let (5 + n) (OVecIndex p 1 zero GInline 2) :: Do (EPoison (5 + n) (hsize e * v_min p)%Z) ::
        Let (6 + n) (OIndex (Z.min (v_ppl q) (bound p))) :: Let (7 + n) (OSub len (6 + n)) ::
        l1 ++ l2) v2
       (Let n2 (OAlign 2 (halign e)) :: Do (EStoreRef p 1 n2) ::
        Let (1 + n2) (OIndex (v_ppl q)) :: Let (2 + n2) (OIndex (v_ppl p)) ::
        Let (3 + n2) (OIndex (if small then v_ppl p - v_ppl q else v_ppl q - v_ppl p)%Z) ::
        Let (4 + n2) (OSub len (2 + n2)) ::
        (if small then [] else [Let (7 + n2) (OSub len (1 + n2))]) ++
        Let (5 + n2) (OIndex (v_ew p)) :: Let (6 + n2) (OMul (5 + n2) (4 + n2)) ::
        Let (8 + n2) (OAllocate n2 (6 + n2)) :: l3 ++ l4 ++ l5) v5], n5, S n5)%nat.

(** getOrCreateVectorTranscodeFn, l.831-888. *)
Definition vector_fn (se : ty) (q : vecinfo) (e : ty) (p : vecinfo) : fn :=
  let len := if (v_max p <? 0)%Z then 3%nat else 6%nat in
  let '(l1, v1, n1) := emit_inline 9%nat se q e p len in
  let '(l2, v2, n2) := emit_outline n1 se q e p len in
  FBlock
    (Let 3 (OLength se q 0) ::
     (if (v_max p <? 0)%Z then []
      else [Let 4 (OIndex (v_max p)); Let 5 (OCmp Ule 3 4); Let 6 (OSelect 5 3 4)]) ++
     Do (EStoreLength p 1 len) ::
     emit_is_inline 7 (v_min q) 3 ++ [If n2 8 l1 v1 l2 v2], n2)%nat.

(** The function for a key. *)
Definition gen_fn (key : fnkey) : fn :=
  match k_src key, k_dst key with
  | TUnit, TStruct fs size _ => struct_fn [] fs size (k_path key) (k_handlers key)
  | TUnit, TVar x ts => variant_fn empty_var [] x ts (k_path key) (k_handlers key)
  | TUnit, TArr e len esz _ => array_fn e 0 0 e len esz
  | TStruct sfs _ _, TStruct fs size _ => struct_fn sfs fs size (k_path key) (k_handlers key)
  | TVar sx sts, TVar x ts => variant_fn sx sts x ts (k_path key) (k_handlers key)
  | TArr se slen sesz _, TArr e len esz _ => array_fn se slen sesz e len esz
  | TVec se q, TVec e p => vector_fn se q e p
  | _, _ => crash
  end.

(** The TranscodeOp of a user's function (EncodeFunctionLowering l.898-940, DecodeFunctionLowering
    l.950-1003, SizeFunctionLowering l.1013-1054). *)
Definition top_block (src dst : ty) (p : path) (hs : handlers) : block :=
  fst (emit_transcode 3 src dst p hs 0 1 2)%nat.

(** How deep calls nest: one call for every struct, variant, array and vector on the way. *)
Fixpoint depth (t : ty) : nat :=
  match t with
  | TStruct fs _ _ => S (fold_right (fun f n => Nat.max (depth (f_ty f)) n) O fs)
  | TVar _ ts => S (fold_right (fun t n => Nat.max (depth (t_ty t)) n) O ts)
  | TArr e _ _ _ | TVec e _ => S (depth e)
  | _ => O
  end.
