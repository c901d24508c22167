(** The theorems at work: every hypothesis met by concrete schemas, objects and messages. *)
From Coq Require Import Permutation.
From Verif Require Import Base Types Transcode Spec Api Plan Schema Ends MemFacts Claims Round Space CoreFacts
  Handlers ApiFacts PlanHoist PlanLay PlanWf PlanConv PlanShape PlanKeep Check Demo Other Serve ServeDemo
  Inflate RoundUp
  PropCore PropConv PropPlan PropOther PropRound.
Local Open Scope string_scope.
Local Open Scope Z_scope.

Ltac calc := vm_compute; reflexivity.
Ltac met := first [exact eq_refl | calc | apply plan_planned; calc | apply rep_b_rep; calc | calc].

(** ** One protocol, one message *)
Definition dpr : proto := plan demo ["body"; "_"].
Lemma dpr_planned : planned demo ["body"; "_"] dpr.
Proof. apply plan_planned. calc. Qed.
Lemma dlen : msg_len dpr dval < 2 ^ 63.
Proof. calc. Qed.

Example C01_case : forall fconv, delivers fconv demo dpr demo dsrc dmem dobj dval dval.
Proof. intro. eapply C01_round_trip; [calc|apply dpr_planned|apply demo_rep|calc|apply dlen]. Qed.
(** Without a tag path: the text is then inline in the head. *)
Example C01_case_inline : forall fconv, delivers fconv demo (plan demo []) demo dsrc dmem dobj dval dval.
Proof. intro. eapply C01_round_trip; [calc|apply plan_planned; calc|apply demo_rep|calc|calc]. Qed.

(** What [other] gets: NaN for [extra], the id, green under another tag, the text in wider characters,
    and the points without x. *)
Definition oval : val :=
  VStruct [("extra", VFloat 8 9221120237041090560); ("id", VInt 7); ("c", VVar "green" VUnit);
           ("body", VVar "text" (VVec (map VInt [104;101;108;108;111;33])));
           ("pts", VVec [VStruct [("y", VInt 9)]; VStruct [("y", VInt 6)]])].
Example C02_case : forall fconv, gets fconv other dval oval /\ delivers fconv demo dpr other dsrc dmem dobj dval oval.
Proof.
  intro. assert (G : gets fconv other dval oval).
  { apply convt_gets; calc. }
  split; auto. destruct (C02_by_name fconv demo ["body"; "_"] dpr other dsrc dmem dobj dval) as (v' & G' & D);
    [calc|calc|apply dpr_planned|calc|apply demo_rep|calc|apply dlen|].
  replace oval with v'; auto. eapply C02_rules_determine; eauto; calc.
Qed.
Example C03_case : forall fconv, exists n, size_fn fconv dpr demo [] false dobj dmem = Some n /\ n = 46.
Proof.
  intro. destruct (C03_size_exact fconv demo ["body"; "_"] dpr dsrc dmem dobj dval) as (n & E & _);
    [calc|apply dpr_planned|apply demo_rep|calc|apply dlen|].
  exists n. split; auto. assert (Some n = Some 46) by (rewrite <- E; calc). congruence.
Qed.
Lemma dclear : clear_of dsrc 5000 46.
Proof. split; [lia|]. split; [lia|]. intros x. unfold dsrc, span_of, inR. lia. Qed.
Example C05_case : forall fconv, exists s, encode fconv dpr demo [] dobj 5000 dmem = Ok s /\
  forall x, ~ inR 5000 46 x -> s_mem s x = dmem x.
Proof.
  intro. eapply C05_encode_footprint;
    [calc|apply dpr_planned|apply demo_rep|calc|apply dlen|calc|apply dclear].
Qed.
Example C08_case : forall fconv, exists s, encode fconv dpr demo [] dobj 5000 dmem = Ok s /\
  (forall x, dsrc x -> s_mem s x = dmem x) /\ rep dsrc (s_mem s) demo dobj dval.
Proof.
  intro. eapply C08_encode_source_kept;
    [calc|apply dpr_planned|apply demo_rep|calc|apply dlen|calc|apply dclear].
Qed.
Example C11_case : forall fconv,
  size_fn fconv dpr demo ["body"; "text"] false dobj dmem = size_fn fconv dpr demo [] false dobj dmem /\
  encode fconv dpr demo ["body"; "text"] dobj 5000 dmem = encode fconv dpr demo [] dobj 5000 dmem.
Proof.
  intro. destruct (C11_path_same fconv demo ["body"; "_"] dpr ["body"; "text"] dsrc dmem dobj dval) as [A B];
    [calc|apply dpr_planned|apply demo_rep|calc|apply dlen|eexists; split; reflexivity|].
  split; [apply A|]. apply (B 5000 46); [calc|apply dclear].
Qed.

(** ** The message in memory and two receivers *)
Definition mmem : mem := bytes_at 5000
  [7;0;0;0; 1; 1;2;200; 2; 2; 30;0;0;0;0;0;0;0; 6;0;0;0;0;0;0;0; 8;0;0;0;0;0;0;0;
   104;101;108;108;111;33; 255;255;9;5;0;6] nomem.
Lemma mmem_encoded : forall fconv, exists s, encode fconv dpr demo [] dobj 5000 dmem = Ok s /\
  same_bytes 46 (s_mem s) 5000 mmem 5000.
Proof.
  intro. assert (X : match encode fconv dpr demo [] dobj 5000 dmem with
                     | Ok s => map (fun i => s_mem s (5000 + Z.of_nat i)) (seq 0 46) | _ => [] end =
                     map (fun i => mmem (5000 + Z.of_nat i)) (seq 0 46)) by calc.
  destruct (encode fconv dpr demo [] dobj 5000 dmem) as [s| | |]; try discriminate X.
  exists s. split; auto. intros i I. replace i with (Z.of_nat (Z.to_nat i)) by lia.
  assert (J : In (Z.to_nat i) (seq 0 46)) by (apply in_seq; lia).
  symmetry. rewrite <- map_id in X.
  revert J X. generalize (seq 0 46) (Z.to_nat i). clear. intros l k J X. rewrite map_id in X.
  induction l as [|a l IH]; [destruct J|]. cbn [map] in X. injection X as A B.
  destruct J as [->|J]; auto.
Qed.
Definition msrc : Z -> Prop := span_of 5000 5046.
Lemma dmessage : message demo dpr mmem msrc 5000 dval.
Proof.
  split.
  - intro fconv. apply convt_gets; calc.
  - apply rep_b_rep. calc.
Qed.
(** Room for the object at 7000 and a buffer of [n] bytes at 8000. *)
Lemma darena h n : hsize h <= 1000 -> 0 <= n <= 1000 -> arena h msrc 7000 8000 n.
Proof.
  intros H N. constructor; unfold inR, msrc, span_of; intros; try lia.
Qed.
Definition dhs : handlers := table_at ["body"] [("text", 1); ("num", 2)].
Ltac received :=
  lazymatch goal with
  | |- planned _ _ _ => apply dpr_planned
  | |- message _ _ _ _ _ _ => apply dmessage
  | |- arena _ _ _ _ _ => apply darena; [vm_compute; discriminate|lia]
  | |- _ = true => calc
  | |- _ < _ => calc
  end.
Example C06_case : forall fconv, exists o, decode fconv dpr demo dhs 5000 7000 8000 20 mmem = DOk o /\
  forall x, ~ inR 7000 (hsize demo) x -> ~ inR 8000 20 x -> o_mem o x = mmem x.
Proof. intro. eapply (C06_decode_footprint_partial fconv demo); received. Qed.
Example C06_case_other : forall fconv, exists o, decode fconv dpr other dhs 5000 7000 8000 20 mmem = DOk o /\
  forall x, ~ inR 7000 (hsize other) x -> ~ inR 8000 20 x -> o_mem o x = mmem x.
Proof. intro. eapply (C06_decode_footprint_partial fconv demo); received. Qed.
Example C06_needed_case : forall fconv, exists o, decode fconv dpr other dhs 5000 7000 8000 100 mmem = DOk o /\
  o_size o = 86 /\ forall x, ~ inR 7000 (hsize other) x -> ~ inR 8000 14 x -> o_mem o x = mmem x.
Proof.
  intro. edestruct (C06_only_needed_partial fconv demo ["body"; "_"] dpr other dhs 5000 7000 8000 100 mmem)
    as (o & E & K); try received.
  exists o. split; auto.
  assert (Z : o_size o = 86).
  { assert (X : match decode fconv dpr other dhs 5000 7000 8000 100 mmem with DOk o => o_size o | _ => 0 end = 86)
      by calc.
    rewrite E in X. exact X. }
  split; auto. rewrite Z in K. apply K. lia.
Qed.
(** The text takes 12 bytes and the points 2: [other] needs 14 bytes. *)
Example C07_case : forall fconv, exists need, need = 14 /\
  forall dsize, 0 <= dsize <= 1000 ->
  exists o, decode fconv dpr other dhs 5000 7000 8000 dsize mmem = DOk o /\
    (need <= dsize -> o_size o = dsize - need) /\ (dsize < need -> o_size o = -1).
Proof.
  intro. destruct (C07_threshold other dval) as (need & _ & T).
  assert (X : forall dsize, 0 <= dsize <= 1000 ->
    exists o, decode fconv dpr other dhs 5000 7000 8000 dsize mmem = DOk o /\
      (need 8000 <= dsize -> o_size o = dsize - need 8000) /\ (dsize < need 8000 -> o_size o = -1)).
  { intros dsize D.
    destruct (T fconv demo ["body"; "_"] dpr dhs 5000 7000 8000 dsize mmem msrc) as (_ & o & E & _ & A & B);
      try received. exists o. split; auto. split; auto. intro. apply A. auto. }
  exists (need 8000). split; auto. destruct (X 14 ltac:(lia)) as (o & E & A & B).
  destruct (X 13 ltac:(lia)) as (o' & E' & A' & B').
  assert (Y : match decode fconv dpr other dhs 5000 7000 8000 14 mmem with DOk o => o_size o | _ => 7 end = 0) by calc.
  assert (Y' : match decode fconv dpr other dhs 5000 7000 8000 13 mmem with DOk o => o_size o | _ => 7 end = -1) by calc.
  rewrite E in Y. rewrite E' in Y'. lia.
Qed.
Example C08_decode_case : forall fconv, exists o, decode fconv dpr demo dhs 5000 7000 8000 20 mmem = DOk o /\
  (forall x, msrc x -> o_mem o x = mmem x) /\ message demo dpr (o_mem o) msrc 5000 dval.
Proof. intro. eapply (C08_decode_message_kept fconv demo); received. Qed.
(** The handler of "text" is called. *)
Example C10_case : forall fconv, exists o, decode fconv dpr demo dhs 5000 7000 8000 20 mmem = DOk o /\
  o_called o = Some 1.
Proof.
  intro. edestruct (C10_dispatch fconv demo ["body"; "_"] dpr demo ["body"]) with (tbl := [("text", 1); ("num", 2)])
    as (o & E & K); [calc|calc|apply dpr_planned|calc|calc|calc|apply dmessage|
                     apply darena with (n := 20); [vm_compute; discriminate|lia]|calc|].
  exists o. split; auto.
  assert (X : match decode fconv dpr demo dhs 5000 7000 8000 20 mmem with DOk o => o_called o | _ => None end = Some 1)
    by calc.
  unfold dhs in X. rewrite E in X. exact X.
Qed.
