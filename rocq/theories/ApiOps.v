(** Encode, decode and size as the operations generated for them run: [Api] with the operations of
    [IR] and [Sizing] in the place of [Transcode]'s interpreter.  [n]: how deep calls may nest. *)
From Verif Require Import Base Types Transcode Gen Api IR Sizing.

Section OPS.
Variable fconv : Z -> Z -> Z -> Z.

(** EncodeFunctionLowering, /repo/pj/generate_ir.cpp l.898-940. *)
Definition encode_ops (n : nat) (pr : proto) (host : ty) (p : path) (obj buf : Z) (m : mem) : res :=
  if gen (p_head pr) host p [] then
    run_body fconv KRaw KRaw KRaw (run_fn fconv KRaw KRaw KRaw gen_fn n)
      (FBlock (top_block host (p_head pr) p [])) obj buf
      (mkSt m (wrap64 (buf + hsize (p_head pr) + p_bufoff pr)) 0 None)
  else Stuck.

(** DecodeFunctionLowering, l.950-1003. *)
Definition decode_ops (n : nat) (pr : proto) (host : ty) (hs : handlers)
           (msg obj dbuf dsize : Z) (m : mem) : dres :=
  if gen host (p_head pr) [] hs then
    match run_body fconv KBounded KBounded KBounded (run_fn fconv KBounded KBounded KBounded gen_fn n)
            (FBlock (top_block (p_head pr) host [] hs)) msg obj (mkSt m dbuf dsize None) with
    | Ok s => DOk (mkOut (s_mem s) (s_ptr s) (s_rem s) (s_cb s))
    | Throw s => DOk (mkOut (s_mem s) 0 (-1) (s_cb s))
    | UB => DUB
    | Stuck => DStuck
    end
  else DStuck.

(** SizeFunctionLowering, l.1013-1054, after the sizing pass; the memory afterwards, too. *)
Definition size_ops (tol : bool) (n : nat) (pr : proto) (host : ty) (p : path) (round_up : bool)
           (obj : Z) (m : mem) : option (Z * mem) :=
  if gen (p_head pr) host p [] then
    match size_run fconv round_up tol n host (p_head pr) p obj m with
    | Ok s => Some (wrap64 (s_ptr s + hsize (p_head pr)), s_mem s)
    | _ => None
    end
  else None.
End OPS.
