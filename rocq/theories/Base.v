(** Machine words and byte memory.

    Everything is in bytes (the C++ [Width] counts bits; every width in the
    modelled code is a multiple of 8, see /repo/pj/include/pj/util.hpp). *)
From Coq Require Export ZArith List Lia Bool String.
Export ListNotations.
Open Scope Z_scope.

(** 64-bit words: [wrap64] is the bit pattern, [sgnw n] reads an n-byte pattern
    as two's complement. *)
Definition wrap64 (z : Z) : Z := z mod 2 ^ 64.
Definition wrapw (w z : Z) : Z := z mod 2 ^ (8 * w).
Definition sgnw (w z : Z) : Z :=
  let u := wrapw w z in
  if u <? 2 ^ (8 * w - 1) then u else u - 2 ^ (8 * w).
Definition sgn64 (z : Z) : Z := sgnw 8 z.

(** Memory: [None] is an undefined (poisoned or never written) byte. *)
Definition mem := Z -> option Z.

Definition upd (m : mem) (a : Z) (b : option Z) : mem :=
  fun x => if x =? a then b else m x.

(** Little-endian load/store of [n] bytes (the JIT targets x86-64; the wire
    format is host-endian, /repo/pj/llvm_gen2.cpp never byte-swaps). *)
Fixpoint load_n (m : mem) (a : Z) (n : nat) : option Z :=
  match n with
  | O => Some 0
  | S n' =>
      match m a, load_n m (a + 1) n' with
      | Some b, Some r => Some (b mod 256 + 256 * r)
      | _, _ => None
      end
  end.

Fixpoint store_n (m : mem) (a : Z) (n : nat) (v : Z) : mem :=
  match n with
  | O => m
  | S n' => store_n (upd m a (Some (v mod 256))) (a + 1) n' (v / 256)
  end.

Definition load (m : mem) (a w : Z) : option Z := load_n m a (Z.to_nat w).
Definition store (m : mem) (a w v : Z) : mem := store_n m a (Z.to_nat w) v.

(** PoisonOp: llvm_gen2.cpp l.1068-1080 (memset of an undef byte). *)
Definition poison (m : mem) (a n : Z) : mem :=
  fun x => if (a <=? x) && (x <? a + n) then None else m x.

(** Rounding helpers of util.hpp / arch_base.hpp. *)
Definition div_up (x m : Z) : Z := (x + m - 1) / m.
Definition align_up (x a : Z) : Z := (x + a - 1) / a * a.
