(** C54 and C55: objects that meet the hypotheses, and a round_up size function that reads what is
    not there. *)
From Verif Require Import Base Types Transcode Gen Spec Api Plan Schema Ends Claims Check Demo
  Round Space CoreFacts Other Serve Inflate RoundUp RoundDemo IR Sizing ApiOps OpsFacts.
Local Open Scope string_scope.
Local Open Scope Z_scope.

(** ** The demo object of [Demo], function by function *)
(** What is written at 5000. *)
Definition written (r : res) (a : Z) (n : nat) : option (list Z * Z) :=
  match r with
  | Ok s => Some (map (fun i => match s_mem s (a + Z.of_nat i) with Some b => b | None => -1 end) (seq 0 n), s_ptr s)
  | _ => None
  end.
Example demo_ops : forall fconv, let pr := plan demo ["body"; "_"] in
  host demo = true /\ planned demo ["body"; "_"] pr /\ serves demo ["body"; "_"] demo = true /\
  rep dsrc dmem demo dobj dval /\ known dval = true /\ msg_len pr (infl demo dval) < 2 ^ 63 /\
  depth (p_head pr) = 3%nat /\ depth demo = 3%nat /\
  size_ops fconv false 3 pr demo [] false dobj dmem = Some (46, dmem) /\
  size_ops fconv true 3 pr demo [] true dobj dmem = Some (55, dmem) /\
  written (encode_ops fconv 3 pr demo [] dobj 5000 dmem) 5000 46 =
    Some ([7; 0; 0; 0; 1; 1; 2; 200; 2; 2; 30; 0; 0; 0; 0; 0; 0; 0; 6; 0; 0;
           0; 0; 0; 0; 0; 8; 0; 0; 0; 0; 0; 0; 0; 104; 101; 108; 108; 111;
           33; 255; 255; 9; 5; 0; 6], 5046).
Proof.
  intros fconv pr. split; [apply demo_host|]. split; [apply plan_planned; vm_compute; reflexivity|].
  destruct (demo_rounds fconv) as (_ & _ & V & R & K & L & A & B). fold pr in L, A, B.
  split; [exact V|]. split; [exact R|]. split; [exact K|]. split; [exact L|].
  assert (D : depth (p_head pr) = 3%nat) by (vm_compute; reflexivity).
  split; [exact D|]. split; [vm_compute; reflexivity|].
  assert (W : wf demo = true) by (vm_compute; reflexivity).
  assert (W' : wf (p_head pr) = true) by (vm_compute; reflexivity).
  split; [|split].
  - apply size_ops_ok; auto; now rewrite D.
  - apply size_ops_ok; auto; now rewrite D.
  - vm_compute. reflexivity.
Qed.

(** One call less is one too few: the nesting the theorems allow is needed. *)
Example demo_shallow : forall fconv,
  encode_ops fconv 1 (plan demo ["body"; "_"]) demo [] dobj 5000 dmem = Stuck.
Proof. intro fconv. vm_compute. reflexivity. Qed.

(** ** Lists of lists of one-byte structs, none there *)
Definition row : ty := TStruct [mkField "x" (TInt 1 1 Unsigned) 0] 1 1.
Definition rows : ty := span (span row 2 0) 2 0.
Definition rmem : mem := bytes_at 1000 [0;0;0;0;0;0;0;0; 0;0;0;0;0;0;0;0] nomem.

(** The size function reads the reference of the first list, at address 0, to get the address of a
    struct of which it then reads nothing. *)
Lemma C55_round_up_refuted_proof : exists h pr S obj m v,
  host h = true /\ planned h [] pr /\ serves h [] h = true /\ rep S m h obj v /\ known v = true /\
  msg_len pr (infl h v) < 2 ^ 63 /\ depth (p_head pr) = 3%nat /\
  forall fconv n,
    size_ops fconv false (3 + n) pr h [] false obj m = Some (9, m) /\
    size_run fconv true false (3 + n) h (p_head pr) [] obj m = UB.
Proof.
  exists rows, (plan rows []), (span_of 1000 1100), 1000, rmem, (VVec []).
  split; [vm_compute; reflexivity|]. split; [apply plan_planned; vm_compute; reflexivity|].
  split; [vm_compute; reflexivity|].
  split; [apply rep_b_rep; vm_compute; reflexivity|]. split; [reflexivity|].
  split; [vm_compute; reflexivity|]. split; [vm_compute; reflexivity|].
  intros fconv n. split.
  - vm_compute. reflexivity.
  - vm_compute. reflexivity.
Qed.
