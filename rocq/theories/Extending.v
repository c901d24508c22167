(** Extension of copies: /repo/pj/copy_extending.cpp and the functions of /repo/pj/llvm_utils.cpp
    it uses.  Model only.

    Left out: LLVM itself.  A pointer is a root and an offset ([getRegionRoot],
    llvm_utils.cpp:40-42); the answers of LLVM's analyses are parameters.  Instructions other
    than poisons and copies are transformers of the state.  Addresses do not wrap. *)
From Coq Require Import Bool List ZArith.
From Verif Require Import Copies.
Import ListNotations.
Local Open Scope Z_scope.

(** ** Functions *)

(** The length of a copy: a register or a constant. *)
Inductive operand := Reg (r : nat) | Const (n : Z).

(** [Poison]: a memset with an undefined byte and a constant length (l.73-96; emitted by
    llvm_gen2.cpp:1068-1079).  [Memcpy]: l.36-54. *)
Inductive inst :=
| Poison (root : nat) (off len : Z)
| Memcpy (dst : nat) (doff : Z) (src : nat) (soff : Z) (len : operand)
| Other (i : nat).

(** The terminators: the two kinds of branch, and any other ([Many]: a jump to one of a list,
    a return if the number read is outside of it). *)
Inductive term := Jump (b : nat) | Cond (c : nat) (b1 b2 : nat) | Many (c : nat) (l : list nat).
Record block := Block { b_body : list inst; b_term : term }.
Definition func := list block.

(** A position: a block and a place in it; behind the last instruction is the terminator. *)
Definition loc := (nat * nat)%type.
Definition loc_eqb (a b : loc) : bool := Nat.eqb (fst a) (fst b) && Nat.eqb (snd a) (snd b).

Definition body_of (f : func) (b : nat) : list inst :=
  match nth_error f b with Some k => b_body k | None => [] end.
Definition inst_at (f : func) (l : loc) : option inst := nth_error (body_of f (fst l)) (snd l).

(** A poison region: root, offset and length. *)
Definition region := (nat * Z * Z)%type.

(** What LLVM says: [getModRefInfo] has Mod for the instruction there and the region; the
    instruction behind the poison dominates the block; the unsigned maximum of the length of a
    copy; [isSafeToRead] of the source of a copy and a length. *)
Record analyses := Analyses {
  a_mod : loc -> region -> bool;
  a_dom : loc -> nat -> bool;
  a_bound : loc -> Z;
  a_safe : loc -> Z -> bool }.

(** ** The frontier of a poison, l.105-167 *)

(** The loop over the instructions of a block, l.136-166: the first that may store there. *)
Fixpoint scan (a : analyses) (rg : region) (b k : nat) (l : list inst) : option loc :=
  match l with
  | [] => None
  | _ :: r => if a_mod a (b, k) rg then Some (b, k) else scan a rg b (S k) r
  end.

Definition memo := list (nat * list loc).
Fixpoint memo_at (b : nat) (m : memo) : option (list loc) :=
  match m with
  | [] => None
  | (c, fr) :: r => if Nat.eqb b c then Some fr else memo_at b r
  end.
Fixpoint memo_set (b : nat) (fr : list loc) (m : memo) : memo :=
  match m with
  | [] => []
  | (c, x) :: r => if Nat.eqb b c then (c, fr) :: r else (c, x) :: memo_set b fr r
  end.

(** [findFrontier], l.118-167.  [p]: the position of the poison.  Entries of blocks that are
    still being visited are empty. *)
Fixpoint find (fuel : nat) (f : func) (a : analyses) (rg : region) (p : loc) (b k : nat) (m : memo)
  : memo * list loc :=
  match fuel with
  | O => (m, [])
  | S n =>
      match memo_at b m with
      | Some fr => (m, fr)
      | None =>
          let m0 := (b, []) :: m in
          if negb (Nat.eqb b (fst p)) && negb (a_dom a p b) then (m0, [])
          else
            match nth_error f b with
            | None => (m0, [])
            | Some x =>
                match scan a rg b k (skipn k (b_body x)) with
                | Some l => (memo_set b [l] m0, [l])
                | None =>
                    match b_term x with
                    | Jump c =>
                        let '(m1, fr) := find n f a rg p c 0 m0 in (memo_set b fr m1, fr)
                    | Cond _ c d =>
                        let '(m1, fr1) := find n f a rg p c 0 m0 in
                        let '(m2, fr2) := find n f a rg p d 0 m1 in
                        (memo_set b (fr1 ++ fr2) m2, fr1 ++ fr2)
                    | Many _ _ => (m0, [])
                    end
                end
            end
      end
  end.
(** l.106-109: from the instruction behind the poison. *)
Definition frontier (f : func) (a : analyses) (rg : region) (p : loc) : list loc :=
  snd (find (S (length f)) f a rg p (fst p) (S (snd p)) []).

(** ** The pass, l.183-232 *)

Definition sub64 (a b : Z) : Z := (a - b) mod 2 ^ 64.

(** l.209-224. *)
Definition extends (a : analyses) (rg : region) (l : loc) (i : inst) : bool :=
  match i with
  | Memcpy d doff _ _ _ =>
      let '(root, off, len) := rg in
      Nat.eqb root d && negb (doff <? off) &&
      negb (sub64 (add64 off len) doff <? a_bound a l) &&
      negb (64 <? a_bound a l) && a_safe a l (a_bound a l)
  | _ => false
  end.

(** l.190-197: the poisons of the function. *)
Definition poison_of (i : inst) : option region :=
  match i with Poison r off len => Some (r, off, len) | _ => None end.
Definition poisons (f : func) : list (loc * region) :=
  flat_map (fun b =>
    flat_map (fun k =>
      match inst_at f (b, k) with
      | Some i => match poison_of i with Some rg => [((b, k), rg)] | None => [] end
      | None => []
      end) (seq 0 (length (body_of f b)))) (seq 0 (length f)).

(** l.204-229: the copies that get a constant length. *)
Definition extended (f : func) (a : analyses) (l : loc) : bool :=
  existsb (fun q => existsb (loc_eqb l) (frontier f a (snd q) (fst q)) &&
                    match inst_at f l with Some i => extends a (snd q) l i | None => false end)
          (poisons f).

Definition rewrite_inst (f : func) (a : analyses) (l : loc) (i : inst) : inst :=
  if extended f a l then
    match i with
    | Memcpy d doff s soff _ => Memcpy d doff s soff (Const (a_bound a l))
    | _ => i
    end
  else i.
Fixpoint rewrite_body (f : func) (a : analyses) (b k : nat) (l : list inst) : list inst :=
  match l with
  | [] => []
  | i :: r => rewrite_inst f a (b, k) i :: rewrite_body f a b (S k) r
  end.
Fixpoint rewrite_blocks (f : func) (a : analyses) (b : nat) (l : list block) : list block :=
  match l with
  | [] => []
  | x :: r => Block (rewrite_body f a b 0 (b_body x)) (b_term x) :: rewrite_blocks f a (S b) r
  end.
Definition extend_copies (f : func) (a : analyses) : func := rewrite_blocks f a 0 f.

(** ** Execution *)

(** Undefined registers and bytes have no value.  [s_log]: what the outside has seen. *)
Record state := State {
  s_reg : nat -> option Z; s_mem : Z -> option Z; s_log : list Z }.

Definition operand_of (s : state) (o : operand) : option Z :=
  match o with Reg r => s_reg s r | Const n => Some n end.
Definition put_bytes (m : Z -> option Z) (a n : Z) (g : Z -> option Z) : Z -> option Z :=
  fun x => if (a <=? x) && (x <? a + n) then g (x - a) else m x.
Definition readable (ok : Z -> bool) (a n : Z) : bool :=
  forallb (fun j => ok (a + Z.of_nat j)) (seq 0 (Z.to_nat n)).

(** [None]: undefined behaviour. *)
Definition exec (sem : nat -> state -> option state) (ok : Z -> bool) (i : inst) (s : state)
  : option state :=
  match i with
  | Poison r off len =>
      match s_reg s r with
      | Some a => Some (State (s_reg s) (put_bytes (s_mem s) (a + off) len (fun _ => None)) (s_log s))
      | None => None
      end
  | Memcpy d doff sr soff n =>
      match s_reg s d, s_reg s sr, operand_of s n with
      | Some a, Some c, Some n =>
          if readable ok (c + soff) n
          then Some (State (s_reg s)
                       (put_bytes (s_mem s) (a + doff) n (fun j => s_mem s (c + soff + j)))
                       (s_log s))
          else None
      | _, _, _ => None
      end
  | Other i => sem i s
  end.

Inductive config := At (l : loc) (s : state) | Ended (s : state) | Bad.

Definition leave (t : term) (s : state) : config :=
  match t with
  | Jump b => At (b, 0%nat) s
  | Cond c b1 b2 =>
      match s_reg s c with
      | Some v => At ((if v =? 0 then b2 else b1), 0%nat) s
      | None => Bad
      end
  | Many c l =>
      match s_reg s c with
      | Some v => match nth_error l (Z.to_nat v) with
                  | Some b => At (b, 0%nat) s
                  | None => Ended s
                  end
      | None => Bad
      end
  end.
Definition step (sem : nat -> state -> option state) (ok : Z -> bool) (f : func) (c : config)
  : config :=
  match c with
  | At l s =>
      match nth_error f (fst l) with
      | None => Bad
      | Some x =>
          match nth_error (b_body x) (snd l) with
          | Some i => match exec sem ok i s with
                      | Some s' => At (fst l, S (snd l)) s'
                      | None => Bad
                      end
          | None => leave (b_term x) s
          end
      end
  | _ => c
  end.
Fixpoint steps (sem : nat -> state -> option state) (ok : Z -> bool) (f : func) (n : nat)
  (c : config) : config :=
  match n with O => c | S k => steps sem ok f k (step sem ok f c) end.

(** ** [isSafeToRead], llvm_utils.cpp:18-110 *)

(** A pointer: a root, a cast of another, or another at an offset (none: not a constant).
    Pointers are numbered, operands first. *)
Inductive pdef := PRoot | PCast (p : nat) | PGep (p : nat) (off : option Z).
Definition def_of (ps : list pdef) (v : nat) : pdef := nth v ps PRoot.

(** [getRegionDerivation], l.18-38. *)
Fixpoint derivation (fuel : nat) (ps : list pdef) (v : nat) (off : Z) : list (nat * Z) :=
  (v, off) ::
  match fuel with
  | O => []
  | S n =>
      match def_of ps v with
      | PCast p => derivation n ps p off
      | PGep p (Some g) => derivation n ps p (add64 off g)
      | _ => []
      end
  end.
(** [getDerivedLocations], l.44-59. *)
Fixpoint derived (fuel : nat) (ps : list pdef) (cur : nat) (off : Z) : list (nat * Z) :=
  match fuel with
  | O => []
  | S n =>
      flat_map (fun u =>
        match def_of ps u with
        | PCast p => if Nat.eqb p cur then derived n ps u off ++ [(u, off)] else []
        | PGep p (Some g) =>
            if Nat.eqb p cur then derived n ps u (add64 off g) ++ [(u, add64 off g)] else []
        | _ => []
        end) (seq 0 (length ps))
  end.
(** [isMatchingFreeze], l.61-72, over the users of a pointer.  [fr]: the invariant.start's. *)
Definition frozen (fr : list (nat * Z)) (v : nat) (min_len : Z) : bool :=
  existsb (fun q => Nat.eqb (fst q) v && (min_len <=? snd q)) fr.
(** l.74-110. *)
Definition safe_to_read (ps : list pdef) (fr : list (nat * Z)) (src : nat) (offset len : Z) : bool :=
  existsb (fun q =>
    let total := add64 offset (snd q) in
    frozen fr (fst q) (add64 total len) ||
    existsb (fun d => negb (total <? snd d) && frozen fr (fst d) (add64 (sub64 total (snd d)) len))
            (derived (length ps) ps (fst q) 0))
    (derivation src ps src 0).
