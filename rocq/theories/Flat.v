(** The straight-line code of transcoding structs of numbers, as the pass that merges copies sees
    it.

    With every function inlined (context.cpp l.440-463 runs LLVM's inliner), transcoding a struct
    whose fields are numbers, units or such structs is one block: PoisonOp is a memset of an undef
    byte (llvm_gen2.cpp l.1068-1080), a number of the same width is a load and a store of the
    loaded value (l.396, l.420; IRBuilder folds a truncation to the same type, l.408), a number of
    another width is a load, a conversion and a store, a default is a store of a constant
    (l.1028-1045).

    Left out: what LLVM's own passes do to this block before the pass runs, and arrays, vectors and
    variants, whose code has loops or branches. *)
From Verif Require Import Base Types Transcode Api Copies.
From Verif Require CopiesFacts.
Notation bytes := CopiesFacts.bytes.

(** Offsets are those from the two arguments. *)
Inductive sop :=
| SPoison (d n : Z)
| SCopy (a d w : Z)
| SConv (a w : Z) (sg : sign) (d w' : Z)
| SFconv (a w d w' : Z)
| SConst (d w v : Z).

Definition seq_ops (a b : option (list sop)) : option (list sop) :=
  match a, b with Some x, Some y => Some (x ++ y) | _, _ => None end.

(** getOrCreateStructTranscodeFn: generate_ir.cpp l.354-386; see [field_run]. *)
Definition lower_field (sfs : list (field ty)) (fr : field ty * (ty -> Z -> Z -> option (list sop)))
           (a d : Z) : option (list sop) :=
  let (f, run) := fr in
  match last_field (f_name f) sfs with
  | Some sf => run (f_ty sf) (a + f_off sf) (d + f_off f)
  | None => run TUnit 0 (d + f_off f)
  end.
Fixpoint lower_fields (sfs : list (field ty))
         (l : list (field ty * (ty -> Z -> Z -> option (list sop)))) (a d : Z) : option (list sop) :=
  match l with
  | [] => Some []
  | fr :: r => seq_ops (lower_field sfs fr a d) (lower_fields sfs r a d)
  end.

(** TranscodeOpLowering, DefaultOpLowering: generate_ir.cpp l.1068-1192, llvm_gen2.cpp l.383-427,
    l.1028-1058; source [TUnit] means "default", as in [xc].  No field has an outline variant, so
    the order is the declared one. *)
Fixpoint lower (dst : ty) : ty -> Z -> Z -> option (list sop) :=
  fun src a d =>
  match dst with
  | TUnit => Some []
  | TInt w _ _ =>
      match src with
      | TUnit => Some [SConst d w 0]
      | TInt sw _ sg => Some [if sw =? w then SCopy a d w else SConv a sw sg d w]
      | _ => None
      end
  | TFloat w _ =>
      match src with
      | TUnit => Some [SConst d w (float_default w)]
      | TFloat sw _ => Some [if sw =? w then SCopy a d w else SFconv a sw d w]
      | _ => None
      end
  | TStruct fs size _ =>
      let l := map (fun f => (f, lower (f_ty f))) fs in
      match src with
      | TUnit => seq_ops (Some [SPoison d size]) (lower_fields [] l a d)
      | TStruct sfs _ _ => seq_ops (Some [SPoison d size]) (lower_fields sfs l a d)
      | _ => None
      end
  | _ => None
  end.

(** Numbers, units and structs of them. *)
Fixpoint numeric (t : ty) : bool :=
  match t with
  | TInt _ _ _ | TFloat _ _ | TUnit => true
  | TStruct fs _ _ => forallb (fun f => numeric (f_ty f)) fs
  | _ => false
  end.

(** The block.  Root 0 is the source, root 1 the destination; an instruction that is no copy has
    its position as number. *)
Fixpoint block_from (i : nat) (l : list sop) : list instr :=
  match l with
  | [] => []
  | o :: r =>
      match o with
      | SPoison d n => ICopy (Copy None 1 0 d n) []
      | SCopy a d w => ICopy (Copy (Some 0%nat) 1 a d w) []
      | _ => IOther i
      end :: block_from (S i) r
  end.
Definition roots (a d : Z) (r : nat) : Z := match r with O => a | _ => d end.

(** What the other instructions do. *)
Definition put (b : bytes) (a w v : Z) : bytes :=
  fun x => if CopiesFacts.within a w x then v / 256 ^ (x - a) mod 256 else b x.
Definition get (b : bytes) (a w : Z) : Z :=
  match load (fun x => Some (b x)) a w with Some v => v | None => 0 end.
Definition act_of (fconv : Z -> Z -> Z -> Z) (a d : Z) (l : list sop) (i : nat) (b : bytes) : bytes :=
  match nth_error l i with
  | Some (SConv so w sg do_ w') => put b (d + do_) w' (conv_int w sg w' (get b (a + so) w))
  | Some (SFconv so w do_ w') => put b (d + do_) w' (fconv w w' (get b (a + so) w))
  | Some (SConst do_ w v) => put b (d + do_) w v
  | _ => b
  end.

(** The block after the pass, run. *)
Definition merged_run (fconv : Z -> Z -> Z -> Z) (max : Z) (safe : nat -> Z -> Z -> bool)
           (al : aliasing) (a d : Z) (l : list sop) (b : bytes) : bytes :=
  CopiesFacts.run_out (roots a d) (act_of fconv a d l)
    (run_block max safe al empty_set (block_from 0 l)) b.

(** What alias analysis knows of two arguments marked noalias (generate_ir.cpp l.183-186) of [sa]
    and [sd] bytes: within these, a store goes to the destination and a load comes from the source. *)
Definition noalias (sa sd : Z) : aliasing :=
  Aliasing (fun _ r n => negb (Nat.eqb r 0) || (sa <? n)) (fun _ r n => Nat.eqb r 0 || (sd <? n)).

(** When the pass may be trusted with this block: after a struct inside the destination is
    poisoned, the first thing that is done to it is no store, or nothing before it is copied. *)
Definition place (o : sop) : Z * Z :=
  match o with
  | SPoison d n => (d, n)
  | SCopy _ d w => (d, w)
  | SConv _ _ _ d w | SFconv _ _ d w => (d, w)
  | SConst d w _ => (d, w)
  end.
Definition meets (p n : Z) (o : sop) : bool :=
  Z.max p (fst (place o)) <? Z.min (p + n) (fst (place o) + snd (place o)).
Definition stores (o : sop) : bool :=
  match o with SPoison _ _ | SCopy _ _ _ => false | _ => true end.
Fixpoint copied_first (p n : Z) (l : list sop) : bool :=
  match l with
  | [] => true
  | o :: r => if meets p n o then negb (stores o) else copied_first p n r
  end.
Definition none_below (p : Z) (l : list sop) : bool :=
  forallb (fun o => match o with SCopy _ d _ => p <? d | _ => true end) l.
Fixpoint orderly_from (all l : list sop) : bool :=
  match l with
  | [] => true
  | SPoison p n :: r => (copied_first p n r || none_below p all) && orderly_from all r
  | _ :: r => orderly_from all r
  end.
(** The destination itself, which is poisoned first, may start with a store. *)
Definition orderly (l : list sop) : bool :=
  match l with
  | SPoison _ _ :: r => orderly_from l r
  | _ => orderly_from l l
  end.

(** ** The functions a user calls, after the pass *)
Definition encode_merged (fconv : Z -> Z -> Z -> Z) (max : Z) (safe : nat -> Z -> Z -> bool)
           (al : aliasing) (pr : proto) (host : ty) (obj buf : Z) (b : bytes) : option bytes :=
  match lower (p_head pr) host 0 0 with
  | Some l => Some (merged_run fconv max safe al obj buf l b)
  | None => None
  end.
Definition decode_merged (fconv : Z -> Z -> Z -> Z) (max : Z) (safe : nat -> Z -> Z -> bool)
           (al : aliasing) (pr : proto) (host : ty) (msg obj : Z) (b : bytes) : option bytes :=
  match lower host (p_head pr) 0 0 with
  | Some l => Some (merged_run fconv max safe al msg obj l b)
  | None => None
  end.

(** The analysis [al] is right about the code for [dst] from [src]. *)
Definition al_sound (fconv : Z -> Z -> Z -> Z) (al : aliasing) (dst src : ty) (a d : Z) : Prop :=
  forall l, lower dst src 0 0 = Some l -> CopiesFacts.sound (roots a d) (act_of fconv a d l) al.
Definition code_orderly (dst src : ty) : bool :=
  match lower dst src 0 0 with Some l => orderly l | None => true end.
