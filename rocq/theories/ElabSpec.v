(** What the declarations of a schema file mean: the specification for C50. *)
From Coq Require Import Ascii String List Bool ZArith.
From Verif Require Import Base Types Spec PlanWf PlanLay Schema GenFacts Grammar Parse Imports Elab.
Import ListNotations.
Local Open Scope Z_scope.

(** ** Numbers *)
Inductive Dec : text -> Z -> Prop :=
| Dec_nil : Dec [] 0
| Dec_snoc d n c k : Dec d n -> nth_error (chars "0123456789") k = Some c ->
    Dec (d ++ [c]) (10 * n + Z.of_nat k).
(** Fits a signed 64-bit number. *)
Definition num63 (d : text) (n : Z) : Prop := Dec d n /\ n < 2 ^ 63.

(** ** Names *)
(** In [space], the written name [id] stands for the declaration [n] of the innermost enclosing
    space that has one. *)
Definition refers {A} (tbl : list (scoped * A)) (space id n : scoped) (a : A) : Prop :=
  In (n, a) tbl /\
  exists outer inner, space = (outer ++ inner)%list /\ n = (outer ++ id)%list /\
    forall o i, space = (o ++ i)%list -> (List.length outer < List.length o)%nat ->
      ~ In (o ++ id)%list (map fst tbl).

(** ** Types *)
Section Types.
Variable tbl : types.
Variable space : scoped.
Inductive is_base : base -> ty -> Prop :=
| Is_uint d n : num63 d n -> In n [8; 16; 32; 64] -> is_base (BUint d) (TInt (n / 8) (n / 8) Unsigned)
| Is_int d n : num63 d n -> In n [8; 16; 32; 64] -> is_base (BInt d) (TInt (n / 8) (n / 8) Signed)
| Is_char d n : num63 d n -> In n [8; 16; 32; 64] -> is_base (BChar d) (TInt (n / 8) (n / 8) Signless)
| Is_float d n : num63 d n -> In n [32; 64] -> is_base (BFloat d) (TFloat (n / 8) (n / 8))
| Is_ref id n t : refers tbl space (strs id) n t -> is_base (BRef id) t.
(** [n] and [[mn : mx]]; no minimum is 0, no maximum -1. *)
Inductive is_mod (t : ty) : modifier -> ty -> Prop :=
| Is_fixed d n : num63 d n -> is_mod t (Fixed d) (TArr t n 0 0)
| Is_var a b mn mx :
    match a with Some d => num63 d mn | None => mn = 0 end ->
    match b with Some d => num63 d mx /\ mn <= mx | None => mx = -1 end ->
    is_mod t (Var a b) (TVec t (bare_vec mn mx)).
Inductive is_mods : ty -> list modifier -> ty -> Prop :=
| Mods_nil t : is_mods t [] t
| Mods_cons t m t' l t'' : is_mod t m t' -> is_mods t' l t'' -> is_mods t (m :: l) t''.
Definition is_type (e : texpr) (t : ty) : Prop :=
  exists b, is_base (t_base e) b /\ is_mods b (t_mods e) t.

(** ** Fields and terms *)
Definition is_field (f : text * texpr) (g : field ty) : Prop :=
  f_name g = str (fst f) /\ is_type (snd f) (f_ty g) /\ f_off g = 0.
(** A number is written as it is, a character stands for its code, as a signed char. *)
Definition is_tag (g : tagv) (n : Z) : Prop :=
  match g with
  | TagNum d => Dec d n
  | TagChar c => let k := Z.of_nat (nat_of_ascii c) in
                 (k < 128 /\ n = k) \/ (128 <= k /\ n = k - 256 + 2 ^ 64)
  end.
Definition is_term (f : Grammar.vfield) (u : term ty) : Prop :=
  t_name u = str (Grammar.vf_name f) /\
  match Grammar.vf_type f with Some e => is_type e (t_ty u) | None => t_ty u = TUnit end /\
  (forall g, Grammar.vf_tag f = Some g -> is_tag g (t_tag u) /\ t_tag u <> 0) /\
  t_attrs u = [].
(** The term undef comes first, with tag 0, if no term is marked as the default. *)
Definition undef_term : term ty := mkTerm "undef" TUnit 0 [].
Definition is_variant (fs : list Grammar.vfield) (t : ty) : Prop :=
  exists d ts, t = TVar (mkVar false d 0 0 0 0 0) ts /\
  NoDup (map t_name ts) /\ NoDup (map t_tag ts) /\ (forall u, In u ts -> 0 <= t_tag u < 2 ^ 64) /\
  ((forall f, In f fs -> Grammar.vf_default f = false) /\ d = O /\
     (exists r, ts = undef_term :: r /\ Forall2 is_term fs r) \/
   (exists f, nth_error fs d = Some f /\ Grammar.vf_default f = true /\
      (forall i g, nth_error fs i = Some g -> Grammar.vf_default g = true -> i = d) /\
      Forall2 is_term fs ts)).

(** ** Declarations: [declares d n t]: [d] defines [n] as [t]. *)
Inductive declares : decl -> scoped -> ty -> Prop :=
| Declares_struct n e fs gs :
    Forall2 is_field fs gs -> NoDup (map f_name gs) ->
    declares (DStruct n e fs) (space ++ [str n]) (TStruct gs 0 0)
| Declares_variant n e fs t : is_variant fs t -> declares (DVariant n e fs) (space ++ [str n]) t
| Declares_enum n e fs t : is_variant fs t -> declares (DEnum n e fs) (space ++ [str n]) t
| Declares_type n e x t : is_type x t -> declares (DType n e x) (space ++ [str n]) t.
End Types.
Definition type_name (d : decl) : option text :=
  match d with
  | DStruct n _ _ | DVariant n _ _ | DEnum n _ _ | DType n _ _ => Some n
  | _ => None
  end.

(** A declaration in a file, with the spaces it is inside. *)
Inductive inside : list decl -> scoped -> decl -> Prop :=
| Inside_here ds d : In d ds -> (forall n l, d <> DSpace n l) -> inside ds [] d
| Inside_space ds n l sp d : In (DSpace n l) ds -> inside l sp d -> inside ds (str n :: sp) d.
Definition in_file (f : sources) (p : string) (sp : scoped) (d : decl) : Prop :=
  exists s ds, source f p = Some s /\ parse_text s = Some ds /\ inside ds sp d.
(** The files [root] imports, directly or not.  For [find_source] see C47. *)
Inductive uses (f : sources) (flags : list string) (root : string) : string -> Prop :=
| Uses_root : uses f flags root root
| Uses_import p sp id q : uses f flags root p -> in_file f p sp (DImport id) ->
    find_source f (import_dirs flags) (sp ++ strs id) = Some q -> uses f flags root q.

(** ** What holds of every accepted type *)
Fixpoint sane (t : ty) : Prop :=
  match t with
  | TInt w al _ => (w = 1 \/ w = 2 \/ w = 4 \/ w = 8) /\ al = w
  | TFloat w al => (w = 4 \/ w = 8) /\ al = w
  | TUnit => True
  | TStruct fs _ _ =>
      NoDup (map f_name fs) /\
      (fix all l := match l with [] => True | f :: r => sane (f_ty f) /\ all r end) fs
  | TVar x ts =>
      x_outline x = false /\ (x_default x < List.length ts)%nat /\
      NoDup (map t_name ts) /\ NoDup (map t_tag ts) /\
      (fix all l := match l with
                    | [] => True
                    | u :: r => (0 <= t_tag u < 2 ^ 64 /\ t_attrs u = [] /\ sane (t_ty u)) /\ all r
                    end) ts
  | TArr e n _ _ => 0 <= n < 2 ^ 63 /\ sane e
  | TVec e p =>
      0 <= v_wmin p < 2 ^ 63 /\ (v_max p = -1 \/ v_wmin p <= v_max p < 2 ^ 63) /\
      v_ppl p = 0 /\ sane e
  end.

(** ** What does not: the remaining conditions for C++ objects to be transported.

    Tags are below 2^63 and one is not 0; sequences are not bounded by 0, their minimum is below
    2^63 - 1 and their elements are not empty. *)
Fixpoint fits (t : ty) : bool :=
  match t with
  | TStruct fs _ _ => forallb (fun f => fits (f_ty f)) fs
  | TVar _ ts =>
      forallb (fun u => (t_tag u <? 2 ^ 63) && fits (t_ty u)) ts &&
      existsb (fun u => 1 <=? t_tag u) ts
  | TArr e _ _ _ => fits e
  | TVec e p => (v_wmin p <? 2 ^ 63 - 1) && negb (v_max p =? 0) && negb (empty e) && fits e
  | _ => true
  end.
(** [flat]: a variant with no data has only unit terms; [calm]: no sequences to hoist in a default
    term; [room]: not 2^62 terms after hoisting. *)
Definition usable (t : ty) : bool := fits t && flat t && calm t && room t.

(** ** Numbers in a declaration that the program converts to a signed 64-bit number *)
Definition base_numbers (b : base) : list text :=
  match b with BUint d | BInt d | BChar d | BFloat d => [d] | _ => [] end.
Definition opt_list {A} (o : option A) : list A := match o with Some a => [a] | None => [] end.
Definition mod_numbers (m : modifier) : list text :=
  match m with Fixed d => [d] | Var a b => opt_list a ++ opt_list b end.
Definition type_numbers (t : texpr) : list text :=
  base_numbers (t_base t) ++ flat_map mod_numbers (t_mods t).
Definition numbers (d : decl) : list text :=
  match d with
  | DStruct _ _ fs => flat_map (fun f => type_numbers (snd f)) fs
  | DVariant _ _ fs | DEnum _ _ fs =>
      flat_map (fun f => flat_map type_numbers (opt_list (Grammar.vf_type f))) fs
  | DType _ _ t => type_numbers t
  | _ => []
  end.
