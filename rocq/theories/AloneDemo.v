(** C59: cases, and a message that keeps bytes of what the buffer held before. *)
From Verif Require Import Base Types Transcode Gen Spec Api Plan Schema Ends Claims Round Space MemFacts Other CoreFacts
  Handlers Check Demo ServeDemo Inflate RoundUp AloneFacts Cases Refuted.
Local Open Scope string_scope.
Local Open Scope Z_scope.

(** The bytes that hold the object of [Demo]: the object, without the padding behind [id], and
    the elements of its two vectors. *)
Definition aset (x : Z) : bool :=
  ((1000 <=? x) && (x <? 1004)) || ((1008 <=? x) && (x <? 1025)) || ((1032 <=? x) && (x <? 1036)) ||
  ((1040 <=? x) && (x <? 1056)) || ((2000 <=? x) && (x <? 2006)) ||
  ((2056 <=? x) && (x <? 2059)) || ((2060 <=? x) && (x <? 2063)).
(** Another memory with the same object: everything else is 7. *)
Definition amem : mem := fun x => if aset x then dmem x else Some 7.
Lemma aset_rep : rep (on aset) dmem demo dobj dval.
Proof.
  assert (X : rep (span_of 1000 2100) (only aset dmem) demo dobj dval) by (apply rep_b_rep; calc).
  apply rep_defined in X. eapply rep_agree; [|eapply rep_mono; [|exact X]].
  - intros x H. unfold only. red in H. rewrite H. auto.
  - intros x [_ H]. unfold only in H. red. destruct (aset x); tauto.
Qed.
Lemma amem_agree : agree (on aset) dmem amem.
Proof. intros x H. unfold amem. red in H. rewrite H. auto. Qed.
Lemma aclear : clear_of (on aset) 5000 46.
Proof.
  split; [lia|]. split; [lia|]. intros x H [Y _]. unfold on, aset in H.
  repeat rewrite orb_true_iff in H. repeat rewrite andb_true_iff in H. lia.
Qed.
Lemma asize : forall fconv, size_fn fconv dpr demo [] false dobj dmem = Some 46.
Proof. intro. calc. Qed.
Lemma alen : msg_len dpr dval < 2 ^ 63.
Proof. apply dlen. Qed.

(** All 46 bytes of this message are decided. *)
Definition in_both (fconv : Z -> Z -> Z -> Z) : list Z :=
  match encode fconv dpr demo [] dobj 5000 dmem, encode fconv dpr demo [] dobj 5000 amem with
  | Ok s, Ok s' =>
      filter (fun i => match s_mem s (5000 + i), s_mem s' (5000 + i) with
                       | Some b, Some b' => b =? b' | _, _ => false end)
             (map Z.of_nat (seq 0 46))
  | _, _ => []
  end.
Example C59_demo : forall fconv, exists D : Z -> option Z,
  (exists s, encode fconv dpr demo [] dobj 5000 amem = Ok s /\
     forall i, 0 <= i < 46 -> match D i with
       | Some b => s_mem s (5000 + i) = Some b
       | None => s_mem s (5000 + i) = None \/ s_mem s (5000 + i) = Some 7 end) /\
  exists v', gets fconv other dval v'.
Proof.
  intro. destruct (C59_message_decided_proof fconv demo ["body"; "_"] dpr aset dmem dobj dval 46 5000)
    as (D & X & Y); [calc|apply dpr_planned|apply aset_rep|calc|apply alen|apply asize|apply aclear|].
  exists D. split.
  - destruct (X amem amem_agree) as (_ & s & E & Z). exists s. split; [exact E|].
    intros i I. specialize (Z i I). destruct (D i); auto. destruct Z as [Z|Z]; auto. right. rewrite Z.
    unfold amem. replace (aset (5000 + i)) with false; auto. symmetry. apply not_true_is_false.
    intro A. apply (proj2 (proj2 aclear) _ A). unfold inR. lia.
  - destruct (Y other) as (v' & G & _); [calc|calc|]. eauto.
Qed.
Example C59_demo_bytes : forall fconv, List.length (in_both fconv) = 46%nat.
Proof. intro. calc. Qed.

(** A schema without gaps: a variant whose terms take the same room, an enum, an array. *)
Definition asolid : ty :=
  struct [("id", u32); ("c", color); ("v", variant 0 [tm "a" u32 0; tm "b" (array u16 2) 1]); ("l", array i16 2)].
Definition asolid_mem : mem := bytes_at 1000 [1;2;3;4; 2;9;9;9; 5;0;6;0; 1;9;9;9; 255;255;8;0] nomem.
Definition asolid_set (x : Z) : bool := (1000 <=? x) && (x <? 1020).
Definition asolid_val : val :=
  VStruct [("id", VInt 67305985); ("c", VVar "green" VUnit); ("v", VVar "b" (VArr [VInt 5; VInt 6])); ("l", VArr [VInt (-1); VInt 8])].
Example C59_solid : forall fconv, let pr := plan asolid [] in exists n,
  n = 14 /\ forall m', agree (on asolid_set) asolid_mem m' ->
  exists s s', encode fconv pr asolid [] 1000 3000 asolid_mem = Ok s /\ encode fconv pr asolid [] 1000 3000 m' = Ok s' /\
    forall i, 0 <= i < n -> exists b, s_mem s (3000 + i) = Some b /\ s_mem s' (3000 + i) = Some b.
Proof.
  intros fconv pr. exists 14. split; [auto|].
  apply (C59_all_decided_proof fconv asolid pr asolid_set asolid_mem 1000 asolid_val 14 3000);
    [calc|calc|apply plan_planned; calc| |calc|calc|calc|].
  - assert (X : rep (span_of 1000 1020) asolid_mem asolid 1000 asolid_val) by (apply rep_b_rep; calc).
    eapply rep_mono; [|exact X]. intros x [H1 H2]. red. unfold asolid_set. lia.
  - split; [lia|]. split; [lia|]. intros x H [Y _]. unfold on, asolid_set in H. lia.
Qed.

Example C59_receive : forall fconv, exists o o',
  decode fconv dpr other dhs 5000 7000 8000 20 mmem = DOk o /\
  decode fconv dpr other dhs 5000 7000 8000 20 (fun x => if (5000 <=? x) && (x <? 5046) then mmem x else Some 7) = DOk o' /\
  o_ptr o = o_ptr o' /\ o_size o = o_size o' /\ o_called o = o_called o' /\ o_size o = 6.
Proof.
  intro. set (M := fun x => (5000 <=? x) && (x <? 5046)).
  assert (ML : message demo dpr mmem (on M) 5000 dval).
  { destruct dmessage as [A B]. split; auto. eapply rep_mono; [|exact B]. intros x [H1 H2].
    unfold on, M. lia. }
  assert (AR : arena other (on M) 7000 8000 20).
  { constructor.
    - vm_compute. split; discriminate.
    - lia.
    - intros x [H1 H2] [H3 H4]. assert (hsize other <= 1000) by (vm_compute; discriminate). lia.
    - intros x H. unfold on, M in H. unfold inR. assert (0 <= hsize other) by (vm_compute; discriminate). lia. }
  edestruct (C59_received_decided_proof fconv demo ["body"; "_"] dpr other dhs 5000 7000 8000 20 mmem M dval)
    as (p & z & c & D & _ & X); [calc|calc|apply dpr_planned|calc|exact ML|calc|exact AR|calc|].
  destruct (X mmem) as (o & E & P1 & P2 & P3 & _); [intros x _; auto|].
  destruct (X (fun x => if (5000 <=? x) && (x <? 5046) then mmem x else Some 7)) as (o' & E' & Q1 & Q2 & Q3 & _).
  { intros x H. unfold on, M in H. rewrite H. auto. }
  exists o, o'. split; [exact E|]. split; [exact E'|]. split; [congruence|]. split; [congruence|]. split; [congruence|].
  assert (Y : match decode fconv dpr other dhs 5000 7000 8000 20 mmem with DOk o => o_size o | _ => 0 end = 6) by calc.
  rewrite E in Y. exact Y.
Qed.

(** The short term of a variant leaves the rest of its room as it was in the buffer. *)
Definition r59_s := variant 0 [tm "a" TUnit 0; tm "b" u32 1].
Definition r59_mem (stale : Z) : mem := bytes_at 1004 [0] (fun _ => Some stale).
Lemma C59_refuted_proof : exists h pr S m m' obj v n buf i, forall fconv,
  host h = true /\ planned h [] pr /\ rep (on S) m h obj v /\ known v = true /\
  size_fn fconv pr h [] false obj m = Some n /\ clear_of (on S) buf n /\ agree (on S) m m' /\
  0 <= i < n /\
  exists s s' b b', encode fconv pr h [] obj buf m = Ok s /\ encode fconv pr h [] obj buf m' = Ok s' /\
    s_mem s (buf + i) = Some b /\ s_mem s' (buf + i) = Some b' /\ b <> b'.
Proof.
  exists r59_s, (plan r59_s []), (fun x => x =? 1004), (r59_mem 11), (r59_mem 12), 1000, (VVar "a" VUnit), 5, 3000, 0.
  intro fconv. split; [calc|]. split; [apply plan_planned; calc|]. split.
  { assert (X : rep (span_of 1004 1005) (r59_mem 11) r59_s 1000 (VVar "a" VUnit)) by (apply rep_b_rep; calc).
    eapply rep_mono; [|exact X]. intros x [H1 H2]. red. lia. }
  split; [calc|]. split; [calc|]. split.
  { split; [lia|]. split; [lia|]. intros x H [Y _]. red in H. lia. }
  split.
  { intros x H. red in H. apply Z.eqb_eq in H. subst. calc. }
  split; [lia|].
  destruct (encode fconv (plan r59_s []) r59_s [] 1000 3000 (r59_mem 11)) as [s| | |] eqn:E; try (vm_compute in E; discriminate).
  destruct (encode fconv (plan r59_s []) r59_s [] 1000 3000 (r59_mem 12)) as [s'| | |] eqn:E'; try (vm_compute in E'; discriminate).
  exists s, s', 11, 12. split; [auto|]. split; [auto|].
  split; [|split; [|discriminate]].
  - apply (f_equal (fun r => encoded r 3000)) in E. cbn [encoded] in E.
    replace (3000 + 0) with 3000 by lia. rewrite <- E. calc.
  - apply (f_equal (fun r => encoded r 3000)) in E'. cbn [encoded] in E'.
    replace (3000 + 0) with 3000 by lia. rewrite <- E'. calc.
Qed.

(** The same value elsewhere, with other padding. *)
Definition asolid_mem2 : mem := bytes_at 9000 [1;2;3;4; 2;0;1;2; 5;0;6;0; 1;3;4;5; 255;255;8;0] (fun _ => Some 77).
Example C59_equal_case : forall fconv, let pr := plan asolid [] in
  exists s s', encode fconv pr asolid [] 1000 3000 asolid_mem = Ok s /\
    encode fconv pr asolid [] 9000 4001 asolid_mem2 = Ok s' /\
    forall i, 0 <= i < 14 ->
      exists b, load (s_mem s) (3000 + i) 1 = Some b /\ load (s_mem s') (4001 + i) 1 = Some b.
Proof.
  intros fconv pr.
  destruct (C59_equal_proof fconv asolid pr (span_of 1000 1020) asolid_mem 1000 (span_of 9000 9020) asolid_mem2 9000
              asolid_val 14) as (_ & X);
    [calc|calc|apply plan_planned; calc|apply rep_b_rep; calc|apply rep_b_rep; calc|calc|calc|calc|].
  apply (X 3000 4001); (split; [lia|]; split; [lia|]; intros x [H1 H2] [H3 H4]; lia).
Qed.
