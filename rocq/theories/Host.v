(** The host-side helper classes and the retry loop of pjcat.

    /repo/pj/include/pj/span.hpp l.10-79, /repo/pj/include/pj/offset_span.hpp
    l.11-62 and l.64-95, /repo/pj/pjcat.cpp l.135-168.  Model only. *)
From Verif Require Import Base Types Transcode.

(** ** span *)

(** unbounded_length, l.10: size_t(-1). *)
Definition unbounded_length : Z := 2 ^ 64 - 1.

(** A span<T, max>: [sp_max] is the template argument, fixed with the type. *)
Record cspan := mkSpan { sp_max : Z; sp_ptr : Z; sp_size : Z }.

(** validate<other_max>, l.62-69; true is "no exception". *)
Definition validate (other_max max size : Z) : bool :=
  if max <? other_max
  then negb (negb (max =? unbounded_length) && (max <? size))
  else true.

(** The operations that make a span of type [span<T, max>].  The implicit copy
    constructor and copy assignment copy both members; the template operator=
    (l.43-48) does not compile when instantiated and is left out. *)
Inductive span_op :=
| MakeDefault (max : Z)                (* l.36 *)
| MakeData (max ptr size : Z)          (* l.18-34: string_view, char*, (data, size) *)
| MakeFrom (max : Z) (o : nat)         (* l.38-41: from the o-th span *)
| CopyOf (o : nat)                     (* implicit copy constructor *)
| AssignTo (d o : nat).                (* implicit copy assignment, same type *)

(** Running an operation; [None] is an exception (or code that does not
    compile: no such span, spans of different types). *)
Definition run_op (env : list cspan) (op : span_op) : option (list cspan) :=
  match op with
  | MakeDefault max => Some (env ++ [mkSpan max 0 0])
  | MakeData max ptr size =>
      if validate unbounded_length max size then Some (env ++ [mkSpan max ptr size]) else None
  | MakeFrom max o =>
      match nth_error env o with
      | Some s => if validate (sp_max s) max (sp_size s)
                  then Some (env ++ [mkSpan max (sp_ptr s) (sp_size s)]) else None
      | None => None
      end
  | CopyOf o => match nth_error env o with
                | Some s => Some (env ++ [s]) | None => None end
  | AssignTo d o =>
      match nth_error env d, nth_error env o with
      | Some t, Some s =>
          if sp_max t =? sp_max s
          then Some (firstn d env ++ s :: skipn (S d) env) else None
      | _, _ => None
      end
  end.
(** A program goes on after an exception with the spans it had. *)
Fixpoint run_ops (env : list cspan) (ops : list span_op) : list cspan :=
  match ops with
  | [] => env
  | op :: r => run_ops (match run_op env op with Some e => e | None => env end) r
  end.

(** The operations a compiler and a machine can be given: sizes are size_t. *)
Definition op_fits (op : span_op) : Prop :=
  match op with
  | MakeDefault max | MakeFrom max _ => 0 <= max < 2 ^ 64
  | MakeData max _ size => 0 <= max < 2 ^ 64 /\ 0 <= size < 2 ^ 64
  | _ => True
  end.

(** ** offset_span *)

(** offset_ and size_ of an object at address [this]; 64-bit arithmetic wraps. *)
Record ospan := mkOspan { os_off : Z; os_size : Z }.
(** l.16-19 *)
Definition os_make (this data size : Z) : ospan := mkOspan (wrap64 (data - this)) size.
(** base(), l.21-24 *)
Definition os_base (this : Z) (o : ospan) : Z := wrap64 (this + os_off o).
(** Copy and move construction and assignment, l.28-46: [other] at [from]. *)
Definition os_copy (this from : Z) (other : ospan) : ospan :=
  mkOspan (wrap64 (os_base from other - this)) (os_size other).

(** The same in memory: offset_ at 0, size_ at 8.  The members are read before
    they are written ([other] may be the object itself). *)
Definition os_copy_mem (m : mem) (from to : Z) : option mem :=
  match load m from 8, load m (from + 8) 8 with
  | Some off, Some n =>
      let o := os_copy to from (mkOspan off n) in
      Some (store (store m to 8 (os_off o)) (to + 8) 8 (os_size o))
  | _, _ => None
  end.

(** BuildPJType<offset_span<...>>, l.64-95. *)
Definition ospan_ty (e : ty) : ty :=
  TVec e (mkVec 0 (-1) 0 0 8 8 0 8 ROffset (-1) (-1)
                (align_up (hsize e) (halign e)) 16 8).

(** ** pjcat *)

(** One call of decode: the size announced and the size of the array behind the
    pointer. *)
Record dcall := mkCall { c_said : Z; c_real : Z }.
(** The inner loop, l.154-167, for a message whose decode fails [n] times: the
    declaration of l.166 makes a new array, which is freed at once, and leaves
    the outer variable alone. *)
Fixpoint retry (n : nat) (dec_size real : Z) : list dcall * Z :=
  match n with
  | O => ([mkCall dec_size real], dec_size)
  | S k => let '(l, d) := retry k (dec_size * 2) real in (mkCall dec_size real :: l, d)
  end.
(** The outer loop, l.138-168: the failures of each message. *)
Fixpoint messages (ns : list nat) (dec_size real : Z) : list dcall :=
  match ns with
  | [] => []
  | n :: r => let '(l, d) := retry n dec_size real in l ++ messages r d real
  end.
(** l.136-137 *)
Definition pjcat (ns : list nat) : list dcall := messages ns 1024 1024.
