(** The functions a user calls: encode, size and decode.

    /repo/pj/generate_ir.cpp: EncodeFunctionLowering l.898-940,
    DecodeFunctionLowering l.950-1003, SizeFunctionLowering l.1013-1054;
    /repo/pj/llvm_gen2.cpp: InvokeCallback l.590-639, DecodeCatch l.881-965,
    SizeOp l.1082-1115.

    The three are compiled from a protocol and a host type; here they take the
    same two types and run the generated code directly, provided it can be
    generated at all ([gen]). *)
From Verif Require Import Base Types Transcode Gen.

(** Protocol (types.hpp l.923). *)
Record proto := mkProto { p_head : ty; p_bufoff : Z }.

Section API.
Variable fconv : Z -> Z -> Z -> Z.

(** void encode(const Src* obj, char* buf): the head is written at [buf], the
    variable part from [buf + headSize + buffer_offset] on. *)
Definition encode (pr : proto) (host : ty) (p : path) (obj buf : Z) (m : mem)
  : res :=
  if gen (p_head pr) host p [] then
    xc fconv (p_head pr) KRaw host p [] obj buf
       (mkSt m (wrap64 (buf + hsize (p_head pr) + p_bufoff pr)) 0 None)
  else Stuck.

(** uintptr_t size(const Src* obj): head size plus what the dummy buffer
    counted from 0. *)
Definition size_fn (pr : proto) (host : ty) (p : path) (round_up : bool)
           (obj : Z) (m : mem) : option Z :=
  if gen (p_head pr) host p [] then
    match xc fconv (p_head pr) (KDummy round_up) host p [] obj 0
             (mkSt m 0 0 None) with
    | Ok s => Some (wrap64 (s_ptr s + hsize (p_head pr)))
    | _ => None
    end
  else None.

(** BoundedBuffer decode(const char* msg, Dst* obj, BoundedBuffer, handlers,
    state).  [o_called] is the handler run, if any; it runs on the memory
    [o_mem].  The callback slot is read, and the handler run, before the
    failure flag is looked at (generate_ir.cpp l.994-998 puts InvokeCallback in
    the DecodeCatch body; llvm_gen2.cpp l.1001 inserts the early exit after a
    call only when the enclosing operation is itself an effect function, which
    DecodeCatch is not). *)
Record dec_out := mkOut {
  o_mem : mem; o_ptr : Z; o_size : Z; o_called : option Z }.
Inductive dres := DOk (o : dec_out) | DUB | DStuck.

Definition decode (pr : proto) (host : ty) (hs : handlers)
           (msg obj dbuf dsize : Z) (m : mem) : dres :=
  if gen host (p_head pr) [] hs then
    match xc fconv host KBounded (p_head pr) [] hs msg obj
             (mkSt m dbuf dsize None) with
    | Ok s => DOk (mkOut (s_mem s) (s_ptr s) (s_rem s) (s_cb s))
    | Throw s => DOk (mkOut (s_mem s) 0 (-1) (s_cb s))
    | UB => DUB
    | Stuck => DStuck
    end
  else DStuck.
End API.
