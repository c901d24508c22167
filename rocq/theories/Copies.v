(** Merging of copies: /repo/pj/copy_coalescing.cpp.

    Left out: LLVM itself.  A pointer is a root and an offset ([getRegionRoot],
    llvm_utils.cpp:44-46); [isSafeToRead] (l.79-110) and the alias analysis are parameters. *)
From Coq Require Import Bool List ZArith Lia.
Import ListNotations.
Local Open Scope Z_scope.

(** size_t arithmetic. *)
Definition add64 (a b : Z) : Z := (a + b) mod 2 ^ 64.

(** copy_coalescing.cpp:166-173.  [c_src = None] is the null source of a poison. *)
Record copy := Copy {
  c_src : option nat; c_dst : nat; c_sb : Z; c_db : Z; c_len : Z }.

(** copy_coalescing.cpp:350-354. *)
Record piece := Piece { p_poison : bool; p_ls : Z; p_ss : Z; p_len : Z }.

(** copy_coalescing.cpp:346-374.  [k_starts] is the map [store_starts] with the pieces it
    points to, in key order; [load_starts] is never read. *)
Record cset := CSet {
  k_src : option nat; k_dst : option nat; k_starts : list piece;
  k_load_end : Z; k_store_end : Z }.
Definition empty_set : cset := CSet None None [] 0 0.

(** [store_starts.lower_bound(k)]: the pieces before it and from it on. *)
Fixpoint split_at (k : Z) (l : list piece) : list piece * list piece :=
  match l with
  | [] => ([], [])
  | q :: l' => if p_ss q <? k then let '(a, b) := split_at k l' in (q :: a, b) else ([], l)
  end.

Definition lastp (l : list piece) : option piece := hd_error (rev l).

(** [store_starts.emplace]: does nothing if the key is there. *)
Definition emplace (q : piece) (l : list piece) : list piece :=
  let '(a, b) := split_at (p_ss q) l in
  match b with
  | r :: _ => if p_ss r =? p_ss q then l else a ++ q :: b
  | [] => a ++ [q]
  end.

Definition same_src (a b : option nat) : bool :=
  match a, b with
  | Some x, Some y => Nat.eqb x y
  | _, _ => true
  end.

(** copy_coalescing.cpp:211-233: the store region meets no other. *)
Definition no_overlap (starts : list piece) (c : copy) : bool :=
  let '(before, from) := split_at (c_db c) starts in
  match from with
  | f :: _ => negb (p_ss f <? add64 (c_db c) (c_len c))
  | [] => true
  end &&
  match lastp before with
  | Some q => negb (c_db c <? add64 (p_ss q) (p_len q))
  | None => true
  end.

(** [mergeWith], copy_coalescing.cpp:191-252.  The set can change although the answer is no. *)
Definition merge (k : cset) (c : copy) : cset * bool :=
  let k1 := match k_dst k with
            | None => CSet (c_src c) (Some (c_dst c)) (k_starts k) (k_load_end k) (k_store_end k)
            | Some _ => k
            end in
  if negb (same_src (k_src k1) (c_src c)) ||
     negb (match k_dst k1 with Some d => Nat.eqb d (c_dst c) | None => false end)
  then (k1, false)
  else
    let k2 := CSet (match k_src k1 with None => c_src c | s => s end) (k_dst k1)
                   (k_starts k1) (k_load_end k1) (k_store_end k1) in
    if no_overlap (k_starts k2) c then
      let isp := match c_src c with None => true | Some _ => false end in
      (CSet (k_src k2) (k_dst k2)
         (emplace (Piece isp (c_sb c) (c_db c) (c_len c)) (k_starts k2))
         (if isp then k_load_end k2 else Z.max (k_load_end k2) (add64 (c_sb c) (c_len c)))
         (Z.max (k_store_end k2) (add64 (c_db c) (c_len c))), true)
    else (k2, false).

(** llvm::isPowerOf2_64 and llvm::NextPowerOf2 (the least power of two above its argument). *)
Definition is_pow2 (n : Z) : bool := (0 <? n) && (Z.land n (n - 1) =? 0).
Definition next_pow2 (n : Z) : Z := if n =? 0 then 1 else 2 ^ (Z.log2 n + 1).

(** copy_coalescing.cpp:310-317: what is left of the extension that nothing will overwrite. *)
Fixpoint uncovered (rest : list piece) (fin left : Z) : Z :=
  match rest with
  | [] => left
  | q :: rest' =>
      if negb (0 <? left) then left
      else if fin <? p_ss q then left
      else uncovered rest' (add64 fin (p_len q)) (left - Z.min left (p_len q))
  end.

(** copy_coalescing.cpp:293-329.  [max]: [target.max_promotion_size]. *)
Definition extend (max : Z) (safe : Z -> Z -> bool) (q : piece) (rest : list piece) : piece :=
  if negb (p_poison q) && negb (is_pow2 (p_len q)) && (p_len q <? max) then
    let new_len := next_pow2 (p_len q) in
    if 0 <? uncovered rest (add64 (p_ss q) (p_len q)) (new_len - p_len q) then q
    else if safe (p_ls q) new_len then Piece (p_poison q) (p_ls q) (p_ss q) new_len
    else q
  else q.

(** A memcpy: offset in the destination, offset in the source, length. *)
Definition mcpy := (Z * Z * Z)%type.

(** [Piece::generate], copy_coalescing.cpp:356-367. *)
Definition emit (q : piece) : list mcpy :=
  if p_poison q then [] else [(p_ss q, p_ls q, p_len q)].

(** The loop of [generate], copy_coalescing.cpp:282-339. *)
Fixpoint gen (max : Z) (safe : Z -> Z -> bool) (q : piece) (rest : list piece) : list mcpy :=
  match rest with
  | [] => emit q
  | r :: rest' =>
      if Bool.eqb (p_poison q) (p_poison r) &&
         (add64 (p_ls q) (p_len q) =? p_ls r) && (add64 (p_ss q) (p_len q) =? p_ss r)
      then gen max safe (Piece (p_poison q) (p_ls q) (p_ss q) (add64 (p_len q) (p_len r))) rest'
      else emit (extend max safe q rest) ++ gen max safe r rest'
  end.

Definition generate (max : Z) (safe : Z -> Z -> bool) (k : cset) : list mcpy :=
  match k_starts k with
  | [] => []
  | q :: rest => gen max safe q rest
  end.

(** A block.  [ICopy c between]: a copy; a load and its store may have other instructions
    between them (matchLoadAndStore, l.118-163), a memcpy or a poison has none.  [IOther i]:
    any other instruction that does not end the block. *)
Inductive instr :=
| ICopy (c : copy) (between : list nat)
| IOther (i : nat).

(** The rewritten block: other instructions, and the memcpys of a set between two roots. *)
Inductive out :=
| OOther (i : nat)
| OCopies (src : option nat) (dst : nat) (l : list mcpy).

Definition flush (max : Z) (safe : nat -> Z -> Z -> bool) (k : cset) : list out :=
  match k_dst k with
  | None => []
  | Some d =>
      [OCopies (k_src k) d
         (generate max (match k_src k with Some s => safe s | None => fun _ _ => false end) k)]
  end.

(** What [getModRefInfo] says of an instruction and a region (root, length from its start). *)
Record aliasing := Aliasing {
  a_mod : nat -> nat -> Z -> bool;
  a_ref : nat -> nat -> Z -> bool }.

(** [canReorderWith], copy_coalescing.cpp:176-189. *)
Definition can_reorder (a : aliasing) (k : cset) (i : nat) : bool :=
  match k_dst k with
  | None => true
  | Some d =>
      match k_src k with
      | None => true
      | Some s => negb (a_mod a i s (k_load_end k))
      end && negb (a_ref a i d (k_store_end k))
  end.

(** [runOnBlock], copy_coalescing.cpp:413-442; the terminator ends every set (l.181).  After a
    load and a store the scan goes on behind the store: what was between is not looked at. *)
Fixpoint run_block (max : Z) (safe : nat -> Z -> Z -> bool) (a : aliasing)
  (k : cset) (l : list instr) : list out :=
  match l with
  | [] => flush max safe k
  | ICopy c between :: l' =>
      map OOther between ++
      match merge k c with
      | (k', true) => run_block max safe a k' l'
      | (k', false) =>
          flush max safe k' ++ run_block max safe a (fst (merge empty_set c)) l'
      end
  | IOther i :: l' =>
      if can_reorder a k i then OOther i :: run_block max safe a k l'
      else flush max safe k ++ OOther i :: run_block max safe a empty_set l'
  end.
