(** A concrete schema, object and message: every hypothesis of the property
    theorems is met by them. *)
From Verif Require Import Base Types Transcode Spec Api Plan Schema Ends Claims
  Round Space CoreFacts Check.

(** ** Building host types *)
Definition u8 := TInt 1 1 Unsigned.
Definition u16 := TInt 2 2 Unsigned.
Definition u32 := TInt 4 4 Unsigned.
Definition i16 := TInt 2 2 Signed.
Definition f64 := TFloat 8 8.

(** A span: pointer at 0, length at 8 (span.hpp l.12-108); [hint] is the
    schema's inline hint. *)
Definition span (e : ty) (mx hint : Z) : ty :=
  TVec e (mkVec 0 mx hint 0 8 8 0 8 RPointer 0 0 (align_up (hsize e) (halign e)) 16 8).

(** A generated variant class: payload first, then the tag; an enum class is just
    its tag (sourcegen.cpp, see Cpp.v). *)
Definition variant (d : nat) (ts : list (term ty)) : ty :=
  let sz := fold_right (fun t m => Z.max (hsize (t_ty t)) m) 0 ts in
  let al := fold_right (fun t m => Z.max (halign (t_ty t)) m) 1 ts in
  TVar (mkVar false d (if forallb (fun t => is_tunit (t_ty t)) ts then -1 else 0)
              sz 1 (align_up (sz + 1) al) al) ts.
Definition tm (n : string) (t : ty) (g : Z) : term ty := mkTerm n t g [].

(** A C++ struct. *)
Definition struct (l : list (string * ty)) : ty :=
  let (fs, e) := lay_fields 0 l in
  let al := fold_right (fun nt m => Z.max (halign (snd nt)) m) 1 l in
  TStruct fs (align_up e al) al.
Definition array (e : ty) (n : Z) : ty := TArr e n (align_up (hsize e) (halign e)) (halign e).

(** ** A message type *)
Local Open Scope string_scope.
Local Open Scope Z_scope.
Definition color : ty :=
  variant 0 [tm "undef" TUnit 0; tm "red" TUnit 1; tm "green" TUnit 2].
Definition body : ty :=
  variant 0 [tm "undef" TUnit 0;
             tm "text" (span u8 (-1) 4) 1;
             tm "num" (struct [("a", i16); ("b", f64)]) 2].
Definition demo : ty :=
  struct [("id", u32); ("body", body); ("list", array u8 3); ("c", color);
          ("pts", span (struct [("x", i16); ("y", u8)]) 5 0)].

Example demo_host : host demo = true.
Proof. vm_compute. reflexivity. Qed.

(** ** An object *)
Definition bytes_at (a : Z) (l : list Z) (m : mem) : mem :=
  fun x => if (a <=? x) && (x <? a + Z.of_nat (List.length l))
           then Some (nth (Z.to_nat (x - a)) l 0) else m x.
Definition nomem : mem := fun _ => None.

(** id = 7, body = text "hello!", list = [1, 2, 200], c = green,
    pts = [(-1, 9), (5, 6)], at address 1000. *)
Definition dobj : Z := 1000.
Definition dmem : mem :=
  bytes_at dobj [7;0;0;0; 0;0;0;0;
              208;7;0;0;0;0;0;0; 6;0;0;0;0;0;0;0; 1;0;0;0;0;0;0;0;
              1;2;200; 2; 0;0;0;0;
              8;8;0;0;0;0;0;0; 2;0;0;0;0;0;0;0]
 (bytes_at 2000 [104;101;108;108;111;33]
 (bytes_at 2056 [255;255;9;0; 5;0;6;0] nomem)).
Definition dval : val :=
  VStruct [("id", VInt 7);
           ("body", VVar "text" (VVec (map VInt [104;101;108;108;111;33])));
           ("list", VArr [VInt 1; VInt 2; VInt 200]);
           ("c", VVar "green" VUnit);
           ("pts", VVec [VStruct [("x", VInt (-1)); ("y", VInt 9)];
                         VStruct [("x", VInt 5); ("y", VInt 6)]])].
Definition dsrc : Z -> Prop := span_of 1000 2100.

Example demo_rep : rep dsrc dmem demo dobj dval.
Proof. apply rep_b_rep. vm_compute. reflexivity. Qed.
