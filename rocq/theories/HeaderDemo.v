(** C48: headers that do not bring the protocol back, and one that does. *)
From Verif Require Import Base Types Transcode Spec Api Plan Schema Ends Claims Check Demo
  Round Space CoreFacts Deaf Header HeaderFacts Gen.
Local Open Scope string_scope.
Local Open Scope Z_scope.

(** ** A protocol with a struct used three times, an enum, an outlined variant and
    a vector *)
Definition pt : ty := struct [("x", i16); ("y", u8)].
Definition shared : ty :=
  struct [("a", pt); ("c", color);
          ("body", variant 0 [tm "undef" TUnit 0; tm "b" pt 1; tm "l" (array u16 2) 2]);
          ("pts", span pt 5 0)].
Definition wtm (n : string) (t : wty) (g : Z) : term wty := mkTerm n t g [].
Definition inl (n : string) : key := (false, ["m"; n]).
Definition out (n : string) : key := (true, ["m"; n]).
Definition wcolor : key * wdef :=
  (inl "Color", WVar (mkVar false 2 0 0 1 1 1)
     [wtm "green" WUnit 2; wtm "red" WUnit 1; wtm "undef" WUnit 0]).
Definition wpt : key * wdef :=
  (inl "Pt", WStruct [mkField "x" (WInt 2 1 Signed) 0; mkField "y" (WInt 1 1 Unsigned) 2] 3 1).
Definition shared_env : wenv :=
  [(inl "Msg", WStruct
      [mkField "a" (WNamed (inl "Pt")) 0; mkField "c" (WNamed (inl "Color")) 3;
       mkField "body" (WNamed (out "Body")) 4;
       mkField "pts" (WVec (WNamed (inl "Pt"))
                           (mkVec 0 5 0 0 0 1 1 8 ROffset 1 9 3 9 1)) 5] 14 1);
   (out "Body", WVar (mkVar true 2 10 0 1 1 1)
      [wtm "b" (WNamed (inl "Pt")) 1; wtm "l" (WArr (WInt 2 1 Unsigned) 2 2 1) 2;
       wtm "undef" WUnit 0]);
   wcolor; wpt].

Example shared_meets : let pr := plan shared ["body"; "_"] in
  schema shared = true /\ planned shared ["body"; "_"] pr /\
  wtree (named shared_env) (WNamed (inl "Msg")) = Some (p_head pr) /\
  NoDup (names shared_env) /\ no_floats shared_env = true /\ unsplit (p_head pr).
Proof.
  intro pr. split; [vm_compute; reflexivity|]. split; [apply plan_planned; vm_compute; reflexivity|].
  split; [vm_compute; reflexivity|].
  split; [repeat constructor; vm_compute; intuition congruence|].
  split; [vm_compute; reflexivity|]. vm_compute. tauto.
Qed.
(** The struct is written first, and once. *)
Example shared_order :
  map fst (h_types (write shared_env (WNamed (inl "Msg")) 0)) =
  [["m"; "Pt"]; ["m"; "Color"]; ["m"; "Body"]; ["m"; "Msg"]].
Proof. vm_compute. reflexivity. Qed.

(** ** Two definitions of a split term *)
Definition short : ty :=
  struct [("id", u32); ("body", variant 0 [tm "undef" TUnit 0; tm "text" (span u8 (-1) 4) 1])].
Definition short_env : wenv :=
  [(inl "Msg", WStruct [mkField "id" (WInt 4 1 Unsigned) 0;
                           mkField "body" (WNamed (out "Body")) 4] 5 1);
   (out "Body", WVar (mkVar true 2 1 0 1 1 1)
      [mkTerm "text" (WVec (WInt 1 1 Unsigned)
                           (mkVec 0 (-1) 0 0 0 8 8 8 ROffset 8 16 1 16 1)) 1
              [ASplit false 4 ["_"]];
       mkTerm "text" (WVec (WInt 1 1 Unsigned)
                           (mkVec 4 4 4 0 0 1 1 8 ROffset 1 9 1 9 1)) 2
              [ASplit true 4 ["_"]];
       wtm "undef" WUnit 0])].
(** id = 7, body = text "hi". *)
Definition short_mem : mem :=
  bytes_at 1000 [7;0;0;0; 0;0;0;0; 208;7;0;0;0;0;0;0; 2;0;0;0;0;0;0;0; 1;0;0;0;0;0;0;0]
 (bytes_at 2000 [104;105] nomem).
Definition short_val : val :=
  VStruct [("id", VInt 7); ("body", VVar "text" (VVec (map VInt [104;105])))].

Theorem C48_encoder_refuted_proof :
  exists s tp pr env head pr' S m obj v,
    host s = true /\ planned s tp pr /\ wtree (named env) head = Some (p_head pr) /\
    NoDup (names env) /\ no_floats env = true /\ no_float head = true /\
    rebuild (write env head (p_bufoff pr)) = Some pr' /\
    rep S m s obj v /\ known v = true /\
    forall fconv, exists n n',
      size_fn fconv pr s [] false obj m = Some n /\
      size_fn fconv pr' s [] false obj m = Some n' /\ n < n'.
Proof.
  exists short, ["body"; "_"], (plan short ["body"; "_"]), short_env, (WNamed (inl "Msg")).
  eexists. exists dsrc, short_mem, 1000, short_val.
  split; [vm_compute; reflexivity|]. split; [apply plan_planned; vm_compute; reflexivity|].
  split; [vm_compute; reflexivity|].
  split; [repeat constructor; vm_compute; intuition congruence|].
  split; [vm_compute; reflexivity|]. split; [vm_compute; reflexivity|].
  split; [vm_compute; reflexivity|].
  split; [apply rep_b_rep; vm_compute; reflexivity|]. split; [vm_compute; reflexivity|].
  intro fconv. exists 14, 23. split; [vm_compute; reflexivity|]. split; vm_compute; reflexivity.
Qed.

Theorem C48_float_refuted_proof :
  exists s tp pr env head,
    host s = true /\ planned s tp pr /\ wtree (named env) head = Some (p_head pr) /\
    NoDup (names env) /\ unsplit (p_head pr) /\
    rebuild (write env head (p_bufoff pr)) = None.
Proof.
  exists (struct [("f", f64)]), [], (plan (struct [("f", f64)]) []),
    [(inl "Msg", WStruct [mkField "f" (WFloat 8 1) 0] 8 1)], (WNamed (inl "Msg")).
  split; [vm_compute; reflexivity|]. split; [apply plan_planned; vm_compute; reflexivity|].
  split; [vm_compute; reflexivity|].
  split; [repeat constructor; vm_compute; intuition congruence|].
  split; [vm_compute; tauto|]. vm_compute. reflexivity.
Qed.

(** ** A variant used twice, once on the tag path *)
Definition twice : ty :=
  let b := variant 0 [tm "undef" TUnit 0; tm "n" u8 1] in struct [("x", b); ("y", b)].
Definition twice_env : wenv :=
  [(inl "Msg", WStruct [mkField "x" (WNamed (out "Body")) 0;
                        mkField "y" (WNamed (inl "Body")) 1] 3 1);
   (out "Body", WVar (mkVar true 1 3 0 1 1 1) [wtm "n" (WInt 1 1 Unsigned) 1; wtm "undef" WUnit 0]);
   (inl "Body", WVar (mkVar false 1 0 1 1 2 1) [wtm "n" (WInt 1 1 Unsigned) 1; wtm "undef" WUnit 0])].
Theorem C48_twice_refuted_proof :
  exists s tp pr env head,
    host s = true /\ planned s tp pr /\ wtree (named env) head = Some (p_head pr) /\
    NoDup (map fst env) /\ no_floats env = true /\ no_float head = true /\ unsplit (p_head pr) /\
    rebuild (write env head (p_bufoff pr)) = None.
Proof.
  exists twice, ["x"; "_"], (plan twice ["x"; "_"]), twice_env, (WNamed (inl "Msg")).
  split; [vm_compute; reflexivity|]. split; [apply plan_planned; vm_compute; reflexivity|].
  split; [vm_compute; reflexivity|].
  split; [repeat constructor; vm_compute; intuition congruence|].
  split; [vm_compute; reflexivity|]. split; [vm_compute; reflexivity|].
  split; [vm_compute; tauto|]. vm_compute. reflexivity.
Qed.
