(** When code generation succeeds.

    /repo/pj/generate_ir.cpp lowers every operation of every function it
    creates, whether or not a run would reach it, and stops the whole
    compilation on the first failure: a failed cast or assertion in projectPath
    (l.195-209), a LengthOp on something that is not a vector
    (llvm_gen2.cpp l.806-831), a handler for a term that is split in several
    (l.296-302), a call to a null function when the kinds differ (l.1144).
    [gen dst src p hs] says none of these happens for the function (src, dst)
    with source path [p] and handlers [hs]. *)
From Verif Require Import Base Types Transcode.

(** projectPath, types only: l.195-209. *)
Fixpoint proj_ty (t : ty) (p : path) : option ty :=
  match p with
  | [] => None
  | n :: r =>
      match r with
      | [] => Some t
      | _ =>
          match t with
          | TStruct fs _ _ =>
              match find_field n fs with
              | Some f => proj_ty (f_ty f) r
              | None => None
              end
          | _ => None
          end
      end
  end.

(** generateTermCondition: l.211-236. *)
Definition attr_gen (sty : ty) (a : attr) : bool :=
  match a with
  | AUndef _ => true
  | ASplit _ _ p => match proj_ty sty p with Some (TVec _ _) => true | _ => false end
  end.

Definition generator := ty -> path -> handlers -> bool.

(** transcodeTerm: l.238-305.  No target at all means the index of the default
    term is out of range. *)
Definition term_gen (sty : ty) (l : list (term ty * generator)) (hs : handlers)
  : bool :=
  match l with
  | [] => false
  | (t, _) :: r =>
      match find_handler (t_name t) hs, r with
      | Some _, _ :: _ => false
      | _, _ => true
      end
  end &&
  forallb (fun tg => forallb (attr_gen sty) (t_attrs (fst tg)) && snd tg sty [] []) l.

(** getOrCreateStructTranscodeFn l.307-392, getOrCreateVariantTranscodeFn
    l.394-496 (the default block and one block per source term are always
    generated unless the term is known), getOrCreateArrayTranscodeFn l.498-566
    (both loops always), getOrCreateVectorTranscodeFn l.831-888,
    TranscodeOpLowering l.1068-1148, DefaultOpLowering l.1159-1192 (an array is
    defaulted from an empty array of the same elements). *)
Fixpoint gen (dst : ty) : generator :=
  fun src p hs =>
  match dst with
  | TUnit => true
  | TInt _ _ _ => match src with TUnit | TInt _ _ _ => true | _ => false end
  | TFloat _ _ => match src with TUnit | TFloat _ _ => true | _ => false end
  | TStruct fs _ _ =>
      match src with
      | TUnit =>
          forallb (fun f => gen (f_ty f) TUnit [] (handlers_into hs (f_name f))) fs
      | TStruct sfs _ _ =>
          forallb (fun f =>
            match last_field (f_name f) sfs with
            | Some sf => gen (f_ty f) (f_ty sf) (path_into p (f_name f))
                             (handlers_into hs (f_name f))
            | None => gen (f_ty f) TUnit [] (handlers_into hs (f_name f))
            end) fs
      | _ => false
      end
  | TVar x ts =>
      let l := map (fun t => (t, gen (t_ty t))) ts in
      match src with
      | TUnit => handlers_ok hs && term_gen TUnit (default_target x l) hs
      | TVar sx sts =>
          if use_copytag sx sts x ts then true
          else
            handlers_ok hs &&
            match p with
            | n :: _ =>
                match find_term n sts with
                | Some t => term_gen (t_ty t) (targets n x l) hs
                | None => false
                end
            | [] =>
                term_gen TUnit (default_target x l) hs &&
                forallb (fun t => term_gen (t_ty t) (targets (t_name t) x l) hs) sts
            end
      | _ => false
      end
  | TArr e _ _ _ =>
      match src with
      | TUnit => gen e e [] [] && gen e TUnit [] []
      | TArr se _ _ _ => gen e se [] [] && gen e TUnit [] []
      | _ => false
      end
  | TVec e _ =>
      match src with
      | TUnit => true
      | TVec se _ => gen e se [] []
      | _ => false
      end
  end.
