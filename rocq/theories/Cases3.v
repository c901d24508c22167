(** The theorems at work, continued: framing, C++ objects, headers, handlers. *)
From Verif Require Import Base Types Transcode Spec Api Plan Schema Ends MemFacts Claims Round Space CoreFacts
  Cpp CppFacts CppClaims Check Demo Serve ServeDemo Framing FramingFacts Host HostFacts Parse ParseFacts
  Cases Cases2 PropCore PropSide PropHost.
Local Open Scope string_scope.
Local Open Scope Z_scope.

(** ** Framing: the object under an older and a newer protocol; the receiver knows both *)
Lemma vsize fconv k tp n ver : size_fn fconv (plan demo tp) demo [] false dobj dmem = Some n ->
  version_of fconv k (plan demo tp) demo dobj dmem = Some ver -> vn_size ver = n /\ vn_num ver = k.
Proof. intros E. unfold version_of. rewrite E. intro X. injection X as <-. auto. Qed.
Example C22_case : forall fconv, exists older newest v',
  vn_num older = 4 /\ version_of fconv 7 dpr demo dobj dmem = Some newest /\ gets fconv other dval v' /\
  exists m1, encode_proto [older; newest] 5000 dmem = Some m1 /\
    forall m2 at2, same_bytes (get_proto_size [older; newest]) m1 5000 m2 at2 ->
    exists data, decode_proto [4; 7] at2 m2 = Found 7 (vn_size newest) data.
Proof.
  intro.
  destruct (version_encodes fconv 4 demo [] (plan demo []) demo dsrc dmem dobj dval) as (older & v0 & E0 & _ & T0);
    [lia|calc|calc|apply plan_planned; calc|calc|apply demo_rep|calc|calc|].
  destruct (vsize fconv 4 [] 46 older) as [S0 N0]; [calc|exact E0|].
  edestruct (C22_round_trip fconv demo ["body"; "_"] dpr other dsrc dmem dobj dval 7 [older])
    as (newest & v' & E & G & K);
    [calc|calc|apply dpr_planned|calc|apply demo_rep|calc|apply dlen|lia| | |].
  { constructor; [exact T0|constructor]. }
  { cbn [map app]. rewrite N0. cbn. lia. }
  destruct (vsize fconv 7 ["body"; "_"] 46 newest) as [S1 N1]; [calc|exact E|].
  destruct (K 5000) as (m1 & E1 & _ & R).
  { unfold total_size. cbn [app fold_right]. rewrite S0, S1. split; [lia|]. split; [lia|].
    intro x. unfold dsrc, span_of, inR. lia. }
  exists older, newest, v'. split; auto. split; auto. split; auto. exists m1. split; auto.
  intros m2 at2 SB. destruct (R m2 at2 [4; 7]) as (data & D & _); eauto.
  intros w [<-|[<-|[]]]; cbn; auto.
Qed.

(** ** A C++ object: id = 7, pos = (0.0, -3), name = "abc", c = blue, body = text "hi" *)
Definition cmem0 : mem :=
  bytes_at 1000 [7;0;0;0; 0;0;0;0; 0;0;0;0;0;0;0;0; 0;0; 253;255; 0;0;0;0; 97;98;99; 0; 44;1; 0;0;
                 208;7;0;0;0;0;0;0; 2;0;0;0;0;0;0;0; 1;0;0;0;0;0;0;0]
  (bytes_at 2000 [104;105] nomem).
Definition cval : val :=
  VStruct [("id", VInt 7); ("pos", VStruct [("x", VFloat 8 0); ("u", VUnit); ("n", VInt (-3))]);
           ("name", VArr [VInt 97; VInt 98; VInt 99]); ("c", VVar "blue" VUnit);
           ("body", VVar "text" (VVec [VInt 104; VInt 105]))].
Lemma cholds : holds (span_of 1000 2100) cmem0 cdecl 1000 cval.
Proof.
  destruct (C32_host_described_partial cdecl) as (_ & _ & H); [calc|calc|calc|].
  apply H. apply rep_b_rep. calc.
Qed.
Example C32_case : forall fconv, exists n, n = 36 /\
  size_fn fconv (plan (build cdecl) ["body"; "_"]) (build cdecl) [] false 1000 cmem0 = Some n.
Proof.
  intro. destruct (C32_round_trip_partial fconv cdecl ["body"; "_"] (plan (build cdecl) ["body"; "_"])
    (span_of 1000 2100) cmem0 1000 cval) as (n & E & _);
    [calc|calc|calc|apply plan_planned; calc|apply cholds|calc|calc|].
  exists n. split; auto. assert (X : Some n = Some 36) by (rewrite <- E; calc). congruence.
Qed.

(** ** An offset_span with two elements behind it, copied elsewhere *)
Definition omem : mem := bytes_at 100 [16;0;0;0;0;0;0;0; 2;0;0;0;0;0;0;0; 5;6] nomem.
Example C34_read_case : exists m', os_copy_mem omem 100 300 = Some m' /\
  rep (fun x => span_of 100 118 x \/ inR 300 16 x) m' (ospan_ty u8) 300 (VVec [VInt 5; VInt 6]).
Proof.
  eexists. split; [reflexivity|].
  eapply (C34_copy_read (span_of 100 118) omem u8 100 300); [apply rep_b_rep; calc|reflexivity|lia| |].
  - intros x L. assert (X : Some x = Some 16) by (rewrite <- L; calc). injection X as ->.
    vm_compute. split; [discriminate|reflexivity].
  - intros x. unfold inR, span_of. lia.
Qed.

(** ** Handlers *)
Example C44_case : parse_handlers demo [["body"; "text"]; ["body"; "num"]] =
    Some [["body"; "text"]; ["body"; "num"]] /\
  handlers_fit demo (number_from 0 [["body"; "text"]; ["body"; "num"]]) = true.
Proof.
  split; [calc|]. eapply (C44_handlers_fit demo); calc.
Qed.

(** ** pjcat *)
Example C35_case : forall c, In c (pjcat [0; 0; 0]%nat) -> c_said c = c_real c.
Proof. apply C35_before_retry_partial. repeat constructor. Qed.
Example C35_retry_case : exists c, nth_error (pjcat [0; 2; 0]%nat) 3 = Some c /\ c_real c < c_said c.
Proof. eexists. split; [vm_compute; reflexivity|]. vm_compute. reflexivity. Qed.
