(** The pass that makes size functions: /repo/pj/sizing.cpp, on the operations of [IR].

    A size function is the code of an encode function in which a call gets no target, lengths
    with a bound may become constants, and every operation that feeds no returned buffer is
    erased.

    Simplified: the names of converted functions (l.41) and the table of them (l.36, l.43-46,
    l.64) are [run_fn]'s keys; the unit that takes the place of the target argument (l.54-57) is
    the address 0, which is what UnitOp gives in [IR]. *)
From Verif Require Import Base Types Transcode IR.

(** convertRegion's first walk, l.69-103. *)
Definition convert_op (r : bool) (o : op) : op :=
  match o with
  | OCall key s _ b => OCallSize key s b
  | OLength e p _ => if r && has_max (TVec e p) then OIndex (v_max p) else o
  | _ => o
  end.
Fixpoint convert (r : bool) (s : stmt) : stmt :=
  match s with
  | Let x o => Let x (convert_op r o)
  | Do o => Do o
  | If x c th tr el er => If x c (map (convert r) th) tr (map (convert r) el) er
  | For x lo hi idx acc init body y => For x lo hi idx acc init (map (convert r) body) y
  | Each lo hi idx body => Each lo hi idx (map (convert r) body)
  end.

(** Operands; those of an operation with regions are the ones it has itself. *)
Definition operands (o : op) : list var :=
  match o with
  | OUnit | OIndex _ | OBool _ => []
  | OProject v _ => [v]
  | OAdd a b | OSub a b | OMul a b | OCmp _ a b | OAnd a b => [a; b]
  | OSelect c a b => [c; a; b]
  | OLength _ _ v => [v]
  | OVecIndex _ v i _ buf => [v; i; buf]
  | OArrIndex _ v i => [v; i]
  | OAlign buf _ => [buf]
  | OAllocate buf n => [buf; n]
  | OCall _ s d b => [s; d; b]
  | OCallSize _ s b => [s; b]
  end.

(** Every operation with a result, at any depth, with its operands. *)
Fixpoint defs (s : stmt) : list (var * list var) :=
  match s with
  | Let x o => [(x, operands o)]
  | Do _ => []
  | If x c th _ el _ => (x, [c]) :: flat_map defs th ++ flat_map defs el
  | For x lo hi _ _ init body _ => (x, [lo; hi; init]) :: flat_map defs body
  | Each _ _ _ body => flat_map defs body
  end.
(** What the yields inside it yield (l.113-119). *)
Fixpoint yields (s : stmt) : list var :=
  match s with
  | Let _ _ | Do _ => []
  | If _ _ th tr el er => tr :: er :: flat_map yields th ++ flat_map yields el
  | For _ _ _ _ _ _ body y => y :: flat_map yields body
  | Each _ _ _ body => flat_map yields body
  end.

Definition has (l : list var) (x : var) : bool := existsb (Nat.eqb x) l.

(** The worklist, l.121-131: everything that is reached from [roots] through operands.  [univ]
    holds all the values there are; one round marks the operands of what is marked, until nothing
    is added. *)
Definition grow (ds : list (var * list var)) (univ l : list var) : list var :=
  filter (fun x => has l x || existsb (fun d => has l (fst d) && has (snd d) x) ds) univ.
Fixpoint rounds (ds : list (var * list var)) (univ : list var) (n : nat) (l : list var) : list var :=
  match n with
  | O => l
  | S n' =>
      let l' := grow ds univ l in
      if Nat.eqb (List.length l') (List.length l) then l' else rounds ds univ n' l'
  end.
Definition marks (ds : list (var * list var)) (roots : list var) : list var :=
  let univ := nodup Nat.eq_dec (roots ++ flat_map snd ds) in
  rounds ds univ (List.length univ) (grow ds univ roots).

(** The last walk, l.133-138.  An operation without result is nobody's operand. *)
Fixpoint sweep (l : list var) (s : stmt) : list stmt :=
  match s with
  | Let x o => if has l x then [Let x o] else []
  | Do _ => []
  | If x c th tr el er =>
      if has l x then [If x c (flat_map (sweep l) th) tr (flat_map (sweep l) el) er] else []
  | For x lo hi idx acc init body y =>
      if has l x then [For x lo hi idx acc init (flat_map (sweep l) body) y] else []
  | Each _ _ _ _ => []
  end.

(** convertRegion, l.68-139, on a function. *)
Definition blocks (f : fn) : list block :=
  match f with
  | FBlock b => [b]
  | FMatch _ _ _ d cs => d :: cs
  end.
Definition on_blocks (g : block -> block) (f : fn) : fn :=
  match f with
  | FBlock b => FBlock (g b)
  | FMatch src sx sts d cs => FMatch src sx sts (g d) (map g cs)
  end.
Definition convert_block (r : bool) (b : block) : block := (map (convert r) (fst b), snd b).
Definition sweep_block (l : list var) (b : block) : block := (flat_map (sweep l) (fst b), snd b).
Definition fn_marks (f : fn) : list var :=
  marks (flat_map (fun b => flat_map defs (fst b)) (blocks f))
        (match f with FMatch src _ _ _ _ => [src] | _ => [] end ++
         flat_map (fun b => snd b :: flat_map yields (fst b)) (blocks f)).
Definition size_fn_of (r : bool) (f : fn) : fn :=
  let f' := on_blocks (convert_block r) f in on_blocks (sweep_block (fn_marks f')) f'.

(** The program left, and the SizeOp's region (SizeFunctionLowering generate_ir.cpp l.1013-1054;
    SizeOpLowering llvm_gen2.cpp l.1083-1110): the buffer starts at 0.  What is left runs like any
    code: a store would happen ([KRaw]), and a reference is loaded as in an encode function, unless
    [tol] says that an undefined one is no error. *)
Definition size_prog (r : bool) (key : fnkey) : fn := size_fn_of r (gen_fn key).
Definition left_kind (tol : bool) : kind := KDummy tol.
Definition size_run (fconv : Z -> Z -> Z -> Z) (r tol : bool) (n : nat) (src dst : ty) (p : path)
           (a : Z) (m : mem) : res :=
  let s := mkSt m 0 0 None in
  run_body fconv (KDummy false) KRaw (left_kind tol)
           (run_fn fconv (KDummy false) KRaw (left_kind tol) (size_prog r) n)
           (size_fn_of r (FBlock (top_block src dst p []))) a 0 s.
