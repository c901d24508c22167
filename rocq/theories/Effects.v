(** How a failure travels: /repo/pj/side_effect_analysis.cpp and the lowering of calls,
    throws, catches and callbacks in /repo/pj/llvm_gen2.cpp.

    The IR is reduced to what these passes look at: functions are graphs of blocks; an
    operation has an identity (its [Operation*]) and one of a few kinds.  Everything else an
    operation does is left open: the claims hold for whatever the other operations do, for
    whatever allocations fail and for whatever branches are taken. *)
From Coq Require Import Bool List Arith Lia.
Import ListNotations.

(** The kinds side_effect_analysis.cpp:31-43 tells apart.  [KAlloc], [KAlign]: [bounded] is
    whether the buffer has type BoundedBufferType. *)
Inductive kind :=
| KSetCallback (h : nat)
| KInvoke
| KThrow
| KAlloc (bounded : bool)
| KAlign (bounded : bool)
| KCall (callee : nat)
| KOther.

Record op := Op { o_id : nat; o_kind : kind }.

(** A DecodeCatchOp or SizeOp holds a region of one block (generate_ir.cpp:984, 1035); their
    own identity is [id]. *)
Inductive item :=
| Leaf (o : op)
| Catch (id : nat) (body : list op)
| Size (id : nat) (body : list op).

Definition func := list (list item).      (* blocks; block 0 is the entry *)
Definition prog := list func.             (* a module; a function is named by its index *)

(** [op->getParentOp()]. *)
Inductive place := InFn (f : nat) | InCatch (id : nat) | InSize (id : nat).

Definition item_ops (f : nat) (i : item) : list (op * place) :=
  match i with
  | Leaf o => [(o, InFn f)]
  | Catch id body => map (fun o => (o, InCatch id)) body
  | Size id body => map (fun o => (o, InSize id)) body
  end.

Definition func_ops (f : nat) (b : func) : list (op * place) :=
  flat_map (item_ops f) (concat b).

Fixpoint walk_from (f : nat) (p : prog) : list (op * place) :=
  match p with
  | [] => []
  | b :: p' => func_ops f b ++ walk_from (S f) p'
  end.

(** [root->walk], side_effect_analysis.cpp:31. *)
Definition walk (p : prog) : list (op * place) := walk_from 0 p.

(** side_effect_analysis.cpp:32-43: the operations that are looked at. *)
Definition looked_at (k : kind) : bool :=
  match k with
  | KSetCallback _ | KInvoke | KThrow | KCall _ => true
  | KAlloc b | KAlign b => b
  | KOther => false
  end.

Definition is_call (k : kind) : bool := match k with KCall _ => true | _ => false end.

(** side_effect_analysis.cpp:55-60: calls are collected per callee, the rest are roots. *)
Definition is_root (k : kind) : bool := looked_at k && negb (is_call k).

Definition mem (x : nat) (l : list nat) : bool := existsb (Nat.eqb x) l.

(** [enclosing_fns], side_effect_analysis.cpp:45-51. *)
Fixpoint enclosing (w : list (op * place)) (i : nat) : option nat :=
  match w with
  | [] => None
  | (o, InFn f) :: w' =>
      if Nat.eqb (o_id o) i && looked_at (o_kind o) then Some f else enclosing w' i
  | _ :: w' => enclosing w' i
  end.

(** [call_sites_per_fn], side_effect_analysis.cpp:55-57. *)
Fixpoint call_sites (w : list (op * place)) (f : nat) : list nat :=
  match w with
  | [] => []
  | (o, _) :: w' =>
      match o_kind o with
      | KCall g => if Nat.eqb g f then o_id o :: call_sites w' f else call_sites w' f
      | _ => call_sites w' f
      end
  end.

Inductive node := NOp (i : nat) | NFn (f : nat).

Definition root_nodes (w : list (op * place)) : list node :=
  map (fun x => NOp (o_id (fst x))) (filter (fun x => is_root (o_kind (fst x))) w).

(** side_effect_analysis.cpp:73-79: the loop over the call sites of a function. *)
Fixpoint visit (sites : list nat) (q : list node) (ps : list nat) : list node * list nat :=
  match sites with
  | [] => (q, ps)
  | s :: rest => if mem s ps then visit rest q ps else visit rest (q ++ [NOp s]) (s :: ps)
  end.

(** side_effect_analysis.cpp:65-82.  An operation without an enclosing function takes the
    else branch, where [call_sites_per_fn] has no entry for it. *)
Fixpoint bfs (fuel : nat) (w : list (op * place)) (q : list node) (fs ps : list nat)
  : option (list nat * list nat) :=
  match q with
  | [] => Some (fs, ps)
  | e :: q' =>
      match fuel with
      | O => None
      | S k =>
          match e with
          | NOp i =>
              match enclosing w i with
              | Some f => if mem f fs then bfs k w q' fs ps
                          else bfs k w (q' ++ [NFn f]) (f :: fs) ps
              | None => bfs k w q' fs ps
              end
          | NFn f => let '(q2, ps2) := visit (call_sites w f) q' ps in bfs k w q2 fs ps2
          end
      end
  end.

(** (effect_functions, effect_points). *)
Definition analysis (p : prog) : option (list nat * list nat) :=
  let w := walk p in
  bfs (length p + 2 * length w + 1) w (root_nodes w) [] [].

(** What the other operations do, which allocations fail and where blocks branch. *)
Record world := World {
  St : Type;
  act : nat -> St -> St;                       (* an operation that does not fail *)
  fails : nat -> St -> bool;                   (* whether this allocation fails *)
  next : nat -> nat -> St -> option nat;       (* function, block: successor or return *)
  handler : nat -> St -> St;                   (* calling the handler with this index *)
  caught : nat -> bool -> St -> St             (* the result of a catch: succeeded or not *)
}.

(** The lowered program.  A failure flag and a callback slot live in a cell allocated by the
    catch (llvm_gen2.cpp:886-897); functions with effects receive a reference to it
    (l.283-291, 303-306). *)
Definition cells := nat -> bool * nat.
Definition set_cell (c : nat) (x : bool * nat) (s : cells) : cells :=
  fun a => if Nat.eqb a c then x else s a.

Inductive lowered (A : Type) :=
| LNext (st : A) (s : cells) (n : nat)      (* go on; [n] is the first unused cell *)
| LRet (st : A) (s : cells) (n : nat)       (* the function returned *)
| LBad                                      (* the lowering fails or the call is ill-formed *)
| LOut.                                     (* out of fuel *)
Arguments LNext {A}. Arguments LRet {A}. Arguments LBad {A}. Arguments LOut {A}.

Section Lower.
Variable W : world.
Variable p : prog.
Variables fs ps : list nat.                 (* effect_functions, effect_points *)
Variable flat : nat -> bool.                (* [flattenedBufferArguments] is not empty *)

(** [run_fn k g env st s n]: run function [g] from its entry with [k] fuel; it returns with
    [LRet].  [env] is the pair of references it was passed, if any. *)
Variable run_fn : nat -> option nat -> St W -> cells -> nat -> lowered (St W).

(** One operation whose provider (llvm_gen2.cpp:69-73) has the references [env];
    [checked] is [hasEffects] of the provider. *)
Definition low_op (env : option nat) (checked : bool) (o : op)
  (st : St W) (s : cells) (n : nat) : lowered (St W) :=
  let throw :=                               (* ThrowOpLowering, l.641-653 *)
    match env with
    | Some c => LRet st (set_cell c (true, snd (s c)) s) n
    | None => LBad
    end in
  match o_kind o with
  | KOther | KAlloc false | KAlign false => LNext (act W (o_id o) st) s n
  | KThrow => throw
  | KAlloc true | KAlign true =>             (* l.769-792 *)
      if fails W (o_id o) st then throw
      else match env with
           | Some c => LNext (act W (o_id o) st) s n
           | None => LBad                    (* the throw block cannot be built *)
           end
  | KSetCallback h =>                        (* l.655-667 *)
      match env with
      | Some c => LNext st (set_cell c (fst (s c), S h) s) n
      | None => LBad
      end
  | KInvoke =>                               (* l.604-638 *)
      match env with
      | Some c => match snd (s c) with
                  | O => LNext st s n
                  | S h => LNext (handler W h st) s n
                  end
      | None => LBad
      end
  | KCall g =>                               (* l.966-1030 *)
      let passes := mem (o_id o) ps in
      let after r :=
        match r with
        | LRet st' s' n' =>
            if checked && (passes || flat g) then
              match env with
              | Some c => if fst (s' c) then LRet st' s' n' else LNext st' s' n'
              | None => LBad
              end
            else LNext st' s' n'
        | LNext _ _ _ => LBad
        | LBad => LBad
        | LOut => LOut
        end in
      (* the callee's signature has the two extra parameters iff it has effects (l.283) *)
      if Bool.eqb passes (mem g fs) then
        if passes then
          match env with
          | Some c => after (run_fn g (Some c) st s n)
          | None => LBad
          end
        else after (run_fn g None st s n)
      else LBad
  end.

Fixpoint low_ops (env : option nat) (checked : bool) (l : list op)
  (st : St W) (s : cells) (n : nat) : lowered (St W) :=
  match l with
  | [] => LNext st s n
  | o :: l' =>
      match low_op env checked o st s n with
      | LNext st' s' n' => low_ops env checked l' st' s' n'
      | r => r
      end
  end.

(** [me]: the function the item is in. *)
Definition low_item (me : nat) (env : option nat) (i : item)
  (st : St W) (s : cells) (n : nat) : lowered (St W) :=
  match i with
  | Leaf o =>
      (* a function has effect definitions only if it has effects, l.303-306 *)
      low_op (if mem me fs then env else None) (mem me fs) o st s n
  (* [hasEffects] of a catch or size operation: they are not functions *)
  | Catch id body =>                         (* l.881-963 *)
      match low_ops (Some n) (mem id ps) body st
                    (set_cell n (false, 0) s) (S n) with
      | LNext st' s' n' => LNext (caught W id (negb (fst (s' n))) st') s' n'
      | r => r                               (* a return here leaves the whole function *)
      end
  | Size id body => low_ops None (mem id ps) body st s n
  end.

Fixpoint low_block (me : nat) (env : option nat) (b : list item)
  (st : St W) (s : cells) (n : nat) : lowered (St W) :=
  match b with
  | [] => LNext st s n
  | i :: b' =>
      match low_item me env i st s n with
      | LNext st' s' n' => low_block me env b' st' s' n'
      | r => r
      end
  end.
End Lower.

(** Run function [me] from block [b]. *)
Fixpoint low_fn (fuel : nat) (W : world) (p : prog) (fs ps : list nat) (flat : nat -> bool)
  (me : nat) (b : nat) (env : option nat) (st : St W) (s : cells) (n : nat)
  : lowered (St W) :=
  match fuel with
  | O => LOut
  | S k =>
      match nth_error p me with
      | None => LBad
      | Some f =>
          match nth_error f b with
          | None => LBad
          | Some blk =>
              match low_block W fs ps flat
                      (fun g e st s n => low_fn k W p fs ps flat g 0 e st s n)
                      me env blk st s n with
              | LNext st' s' n' =>
                  match next W me b st' with
                  | Some b' => low_fn k W p fs ps flat me b' env st' s' n'
                  | None => LRet st' s' n'
                  end
              | r => r
              end
          end
      end
  end.
