(** What the extension of copies ought to respect, on functions and their executions only. *)
From Coq Require Import Bool List ZArith.
From Verif Require Import Copies Extending.
Import ListNotations.
Local Open Scope Z_scope.

(** ** Paths *)
Definition targets (t : term) : list nat :=
  match t with Jump b => [b] | Cond _ b1 b2 => [b1; b2] | Many _ l => l end.
Definition edge (f : func) (x y : loc) : Prop :=
  exists k, nth_error f (fst x) = Some k /\
    ((snd x < length (b_body k))%nat /\ y = (fst x, S (snd x)) \/
     (length (b_body k) <= snd x)%nat /\ exists b, In b (targets (b_term k)) /\ y = (b, 0%nat)).
Definition entry : loc := (0%nat, 0%nat).

(** A path from [x] to [y]; [p] is not on it, except as its end. *)
Inductive around (f : func) (p : loc) (x : loc) : loc -> Prop :=
| around_here : around f p x x
| around_step y z : around f p x y -> y <> p -> edge f y z -> around f p x z.
(** Every path from the entry to [y] passes [p]. *)
Definition dominates (f : func) (p y : loc) : Prop := ~ around f p entry y.
(** Execution can get from behind [w] to [y] without passing [p]. *)
Definition then_reaches (f : func) (p w y : loc) : Prop :=
  exists z, edge f w z /\ around f p z y.

(** ** Refinement: an undefined value may become anything *)
Definition val_le (v w : option Z) : Prop := v = None \/ w = v.
Definition state_le (s t : state) : Prop :=
  (forall r, val_le (s_reg s r) (s_reg t r)) /\ (forall x, val_le (s_mem s x) (s_mem t x)) /\
  s_log t = s_log s.
(** Of a program that has no undefined behaviour: the same position, or the same end. *)
Definition config_le (c d : config) : Prop :=
  match c with
  | At l s => exists t, d = At l t /\ state_le s t
  | Ended s => exists t, d = Ended t /\ state_le s t
  | Bad => True
  end.

Definition reached (sem : nat -> state -> option state) (ok : Z -> bool) (f : func) (s0 : state)
  (l : loc) (s : state) : Prop := exists n, steps sem ok f n (At entry s0) = At l s.

Definition covers (rg : region) (s : state) (x : Z) : Prop :=
  let '(r, off, len) := rg in exists a, s_reg s r = Some a /\ a + off <= x < a + off + len.

(** Instructions see no more of undefined values than that they are undefined. *)
Definition monotone (sem : nat -> state -> option state) : Prop :=
  forall i s t s', state_le s t -> sem i s = Some s' -> exists t', sem i t = Some t' /\ state_le s' t'.

(** LLVM's analyses are right about the executions from [s0]. *)
Record right (sem : nat -> state -> option state) (ok : Z -> bool) (f : func) (s0 : state)
  (a : analyses) (sets : loc -> nat -> bool) : Prop := Right {
  r_mod : forall l s s' i rg, reached sem ok f s0 l s -> inst_at f l = Some i ->
    exec sem ok i s = Some s' -> a_mod a l rg = false ->
    forall x, covers rg s x -> s_mem s' x = s_mem s x;
  r_dom : forall p b i, inst_at f p = Some i -> a_dom a p b = true -> dominates f p (b, 0%nat);
  r_bound : forall l s d doff sr soff n v, reached sem ok f s0 l s ->
    inst_at f l = Some (Memcpy d doff sr soff n) -> operand_of s n = Some v -> 0 <= v <= a_bound a l;
  r_safe : forall l s d doff sr soff n n' c, reached sem ok f s0 l s ->
    inst_at f l = Some (Memcpy d doff sr soff n) -> a_safe a l n' = true -> s_reg s sr = Some c ->
    readable ok (c + soff) n' = true;
  (** A copy behind a region of the same root does not store there. *)
  r_apart : forall l d doff sr soff n off len, inst_at f l = Some (Memcpy d doff sr soff n) ->
    off + len <= doff -> a_mod a l (d, off, len) = false;
  (** A register is set by one instruction, which dominates its uses. *)
  r_set : forall l s s' i r, reached sem ok f s0 l s -> inst_at f l = Some i ->
    exec sem ok i s = Some s' -> sets l r = false -> s_reg s' r = s_reg s r;
  r_ssa : forall q p r off len, inst_at f p = Some (Poison r off len) -> sets q r = true ->
    dominates f q p }.

(** The numbers of a function are those of a program. *)
Definition sane (f : func) (a : analyses) : Prop :=
  (forall l r off len, inst_at f l = Some (Poison r off len) ->
     0 <= off /\ 0 <= len /\ off + len < 2 ^ 64) /\
  (forall l d doff sr soff n, inst_at f l = Some (Memcpy d doff sr soff n) -> 0 <= doff) /\
  forall l, 0 <= a_bound a l.

(** From an instruction that may store where an extended copy will, execution does not get to
    the copy without passing the poison. *)
Definition alone (f : func) (a : analyses) : Prop :=
  forall p r off len l d doff sr soff n w,
    inst_at f p = Some (Poison r off len) -> inst_at f l = Some (Memcpy d doff sr soff n) ->
    In l (frontier f a (r, off, len) p) -> w <> p ->
    a_mod a w (d, doff, a_bound a l) = true -> ~ then_reaches f p w l.

(** ** The frontier *)

(** The first instruction from place [k] of a block on that may store to the region. *)
Definition first_from (f : func) (a : analyses) (rg : region) (b k : nat) (l : loc) : Prop :=
  fst l = b /\ (k <= snd l < length (body_of f b))%nat /\ a_mod a l rg = true /\
  forall j, (k <= j < snd l)%nat -> a_mod a (b, j) rg = false.
Definition none_from (f : func) (a : analyses) (rg : region) (b k : nat) : Prop :=
  forall j, (k <= j < length (body_of f b))%nat -> a_mod a (b, j) rg = false.

(** The blocks entered from the poison, over branches, without a store to the region and without
    leaving what the poison dominates. *)
Inductive entered (f : func) (a : analyses) (rg : region) (p : loc) : nat -> nat -> Prop :=
| entered_first : entered f a rg p (fst p) (S (snd p))
| entered_next b k x c : entered f a rg p b k -> nth_error f b = Some x ->
    none_from f a rg b k ->
    match b_term x with Many _ _ => False | t => In c (targets t) end ->
    c <> fst p -> a_dom a p c = true -> entered f a rg p c 0.

Definition closed_func (f : func) : Prop :=
  forall b x c, nth_error f b = Some x -> In c (targets (b_term x)) -> (c < length f)%nat.

(** ** Pointers *)
Definition placed (ps : list pdef) (addr : nat -> Z) : Prop :=
  (forall v, 0 <= addr v < 2 ^ 64) /\
  forall v, match nth v ps PRoot with
            | PRoot => True
            | PCast p => (p < v)%nat /\ addr v = addr p
            | PGep p (Some g) => (p < v)%nat /\ 0 <= g /\ addr v = addr p + g
            | PGep p None => (p < v)%nat
            end.
