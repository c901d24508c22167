(** The theorems at work, continued: conversions, planning, other senders. *)
From Coq Require Import Permutation.
From Verif Require Import Base Types Transcode Spec Api Plan Schema Ends MemFacts Claims Round Space CoreFacts
  Handlers ApiFacts Conv PlanHoist PlanLay PlanWf PlanConv PlanShape PlanKeep Check Demo Enum CompileFacts
  Other Serve ServeDemo Rests Late Safe Layouts Cases
  PropCore PropConv PropPlan PropOther PropChange.
Local Open Scope string_scope.
Local Open Scope Z_scope.

(** ** Conversions *)
Ltac easy_goal :=
  lazymatch goal with
  | |- planned _ _ _ => apply plan_planned; calc
  | |- rep _ _ _ _ _ => apply rep_b_rep; calc
  | |- _ = true => calc
  | |- _ < _ => calc
  | |- _ <= _ <= _ => lia
  end.
(** 65534 as a signed 16-bit number, -2. *)
Definition imem : mem := bytes_at 100 [254; 255] nomem.
Example C12_case : forall fconv, exists z', (z' - 65534) mod 2 ^ 16 = 0 /\
  delivers fconv u16 (plan u16 []) i16 (span_of 100 102) imem 100 (VInt 65534) (VInt z').
Proof.
  intro. destruct (C12_int fconv 2 2 Unsigned 2 2 Signed [] (plan u16 []) (span_of 100 102) imem 100 65534)
    as (z' & _ & M & _ & D); try easy_goal. eauto.
Qed.
(** Three numbers into at most two, wider. *)
Definition vmem : mem :=
  bytes_at 100 [120;0;0;0;0;0;0;0; 3;0;0;0;0;0;0;0] (bytes_at 120 [1;2;3] nomem).
Definition v3 : val := VVec [VInt 1; VInt 2; VInt 3].
Example C13_case : forall fconv, exists l', List.length l' = 2%nat /\
  delivers fconv (span u8 (-1) 0) (plan (span u8 (-1) 0) []) (span u16 2 0) (span_of 100 123) vmem 100
    v3 (VVec l').
Proof.
  intro. destruct (C13_vector fconv u8 (mkVec 0 (-1) 0 0 8 8 0 8 RPointer 0 0 1 16 8) u16
    (mkVec 0 2 0 0 8 8 0 8 RPointer 0 0 2 16 8) [] (plan (span u8 (-1) 0) [])
    (span_of 100 123) vmem 100 [VInt 1; VInt 2; VInt 3]) as (l' & D & L & _); try easy_goal.
  exists l'. split; [|exact D].
  assert (X : Z.of_nat (List.length l') = 2) by (rewrite L; calc). lia.
Qed.
Definition amem : mem := bytes_at 100 [1;2;3] nomem.
Example C13_array_case : forall fconv, exists l', List.length l' = 5%nat /\
  delivers fconv (array u8 3) (plan (array u8 3) []) (array u16 5) (span_of 100 103) amem 100
    (VArr [VInt 1; VInt 2; VInt 3]) (VArr l').
Proof.
  intro. destruct (C13_array fconv u8 3 1 1 u16 5 2 2 [] (plan (array u8 3) [])
    (span_of 100 103) amem 100 [VInt 1; VInt 2; VInt 3]) as (l' & D & L & _); try easy_goal.
  exists l'. split; [|exact D]. lia.
Qed.
(** A receiver that has not heard of "num". *)
Definition bmem : mem := bytes_at 200 [5;0;0;0;0;0;0;0; 0;0;0;0;0;0;0;0; 2] nomem.
Definition fewer : ty := variant 1 [tm "text" (span u8 (-1) 0) 9; tm "none" TUnit 4].
Example C14_case : forall fconv,
  delivers fconv body (plan body []) fewer (span_of 200 217) bmem 200
    (VVar "num" (VStruct [("a", VInt 5); ("b", VFloat 8 0)])) (VVar "none" VUnit).
Proof.
  intro. unfold body, fewer, variant.
  eapply (C14_unit_default_partial fconv _ _ _ _ [] _ _ _ _ _ _ (tm "none" TUnit 4)); try easy_goal;
    try reflexivity.
  intros t [<-|[<-|[]]]; discriminate.
Qed.
(** Enums: green moves from tag 2 to tag 7, red is unknown and becomes undef. *)
Definition paint : list (term ty) := [tm "undef" TUnit 0; tm "red" TUnit 1; tm "green" TUnit 2].
Definition shade : list (term ty) := [tm "undef" TUnit 0; tm "green" TUnit 7; tm "blue" TUnit 9].
Definition cmem : mem := bytes_at 300 [1] nomem.
Ltac bare3 := intros t [<-|[<-|[<-|[]]]]; reflexivity.

Definition tiny : varinfo := mkVar false 0 (-1) 0 1 1 1.
Example C15_case : forall fconv,
  delivers fconv (TVar tiny paint) (plan (TVar tiny paint) []) (TVar tiny shade) (span_of 300 301) cmem 300
    (VVar "red" VUnit) (VVar "undef" VUnit).
Proof.
  intro. destruct (C15_by_name_partial fconv tiny paint tiny shade [] (plan (TVar tiny paint) [])
    (span_of 300 301) cmem 300 "red") as (n' & T & D); try easy_goal; try bare3.
  - right. left. split; [intros st [<-|[<-|[<-|[]]]]; calc|]. right. eexists. split; reflexivity.
  - destruct T as [[I _]|[_ (t & E & ->)]].
    + cbn in I. repeat destruct I as [I|I]; try discriminate; destruct I.
    + injection E as <-. exact D.
Qed.
(** Tag 77 belongs to no term. *)
Definition cmem' : mem := bytes_at 300 [77] nomem.
Example C15_unknown_case : forall fconv,
  exists o, decode fconv (mkProto (TVar tiny paint) 0) (TVar tiny shade) [] 300 400 500 0 cmem' = DOk o /\
    rep (inR 400 1) (o_mem o) (TVar tiny shade) 400 (VVar "undef" VUnit).
Proof.
  intro. destruct (C15_unknown_tag_partial fconv tiny paint 0 tiny shade (tm "undef" TUnit 0) 300 400 500 0
    cmem' 77) as (o & E & _ & _ & R); try easy_goal; try bare3; try reflexivity.
  - exists (tm "green" TUnit 2). split; [cbn; auto|]. intros t [<-|[<-|[<-|[]]]]; cbn; discriminate.
  - cbn. intros [H|[H|[H|[]]]]; discriminate.
  - eauto.
Qed.
(** Dispatch and tag widths. *)
Example C16_case : dispatch (fun z => z) [5; 300; 2; 77] 300 = Some 300 /\
  dispatch (fun z => z) [5; 300; 2; 77] 301 = None.
Proof.
  destruct (C16_dispatch_partial Z (fun z => z) [5; 300; 2; 77] 300) as [A _].
  { cbn. repeat constructor; cbn; lia. } { cbn. lia. }
  destruct (C16_dispatch_partial Z (fun z => z) [5; 300; 2; 77] 301) as [_ B].
  { cbn. repeat constructor; cbn; lia. } { cbn. lia. }
  split; [apply A; cbn; auto|apply B; cbn; lia].
Qed.
Example C18_case : tag_width [tm "a" TUnit 0; tm "b" TUnit 70000] = 4 /\
  wrapw (tag_width [tm "a" TUnit 0; tm "b" TUnit 70000]) 70000 = 70000.
Proof.
  split; [calc|]. eapply (C18_tag_width_partial _ (tm "b" TUnit 70000)); [|cbn; auto].
  intros t [<-|[<-|[]]]; cbn; lia.
Qed.
(** A buffer of 20 bytes at 1001: 8 aligned bytes, then 5 at any place. *)
Example C39_case : exists bl s', reserve [(3, 8); (0, 5)] (mkSt nomem 1001 20 None) = Some (bl, s') /\
  bl = [(1008, 8); (1016, 5)] /\
  ForallOrdPairs (fun a b => fst a + snd a <= fst b) bl.
Proof.
  eexists. eexists. split; [calc|]. split; [reflexivity|].
  eapply (C39_disjoint [(3, 8); (0, 5)] (mkSt nomem 1001 20 None)); [| |calc].
  - unfold in_space. cbn. lia.
  - repeat constructor; cbn; lia.
Qed.

(** ** Planning *)
Example C17_case : neat (p_head dpr) /\ hsize (p_head dpr) = 18.
Proof.
  split; [|calc]. eapply C17_layout; [|apply dpr_planned]. calc.
Qed.
(** The text "hi" is kept inline (tag 1), "hello!" is not (a new tag). *)
Example C19_case : forall fconv : Z -> Z -> Z -> Z, exists x' ts' t l,
  hoist_var (mkVar false 0 0 16 1 24 8) [tm "undef" TUnit 0; tm "text" (span u8 (-1) 4) 1] = TVar x' ts' /\
  Permutation (filter (fun t => String.eqb (t_name t) "text") ts') (t :: l) /\ List.length l = 1%nat /\
  Forall (meets (VVec (map VInt [104; 105]))) (t_attrs t).
Proof.
  intro. destruct (hoist_var (mkVar false 0 0 16 1 24 8) [tm "undef" TUnit 0; tm "text" (span u8 (-1) 4) 1])
    as [| | | |x' ts'| |] eqn:E; try discriminate E.
  destruct (C19_hoisting fconv (mkVar false 0 0 16 1 24 8)
    [tm "undef" TUnit 0; tm "text" (span u8 (-1) 4) 1] "text" (VVec (map VInt [104; 105])) x' ts')
    as ((t & l & P & M & _) & _).
  { calc. } { intro g. apply convt_gets; calc. } { exact E. }
  exists x', ts', t, l. split; auto. split; auto. split; auto.
  apply Permutation_length in P. cbn [List.length] in P.
  assert (X : List.length (filter (fun t => String.eqb (t_name t) "text") ts') = 2%nat).
  { replace ts' with (match hoist_var (mkVar false 0 0 16 1 24 8)
      [tm "undef" TUnit 0; tm "text" (span u8 (-1) 4) 1] with TVar _ l => l | _ => [] end)
      by (rewrite E; reflexivity). calc. }
  lia.
Qed.
Example C20_case : forall fconv, exists x ts o, ty_at ["body"] (p_head dpr) = Some (TVar x ts) /\
  x_outline x = true /\ offset_at ["body"] (p_head dpr) = Some o /\
  exists s t, encode fconv dpr demo [] dobj 5000 dmem = Ok s /\ In t ts /\ t_name t = "text" /\
    load (s_mem s) (5000 + o) (x_tag_w x) = Some (t_tag t).
Proof.
  intro. edestruct (C20_outlined fconv demo ["body"] "_") with (pr := dpr) as (x & ts & o & A & B & C & _ & _ & _ & K);
    [calc|reflexivity|apply dpr_planned|].
  exists x, ts, o. split; auto. split; auto. split; auto.
  destruct (K dsrc dmem dobj dval "text" (VVec (map VInt [104;101;108;108;111;33])) 5000)
    as (s & t & E & I & N & L & _); [apply demo_rep|calc|reflexivity|apply dclear|].
  exists s, t. auto.
Qed.
(** The same object, planned with and without inline hint and tag path. *)
Definition body0 : ty :=
  variant 0 [tm "undef" TUnit 0; tm "text" (span u8 (-1) 0) 1;
             tm "num" (struct [("a", i16); ("b", f64)]) 2].
Definition demo0 : ty :=
  struct [("id", u32); ("body", body0); ("list", array u8 3); ("c", color);
          ("pts", span (struct [("x", i16); ("y", u8)]) 5 0)].
Example C21_case : forall fconv, exists v', delivers fconv demo dpr other dsrc dmem dobj dval v' /\
  delivers fconv demo0 (plan demo0 []) other dsrc dmem dobj dval v'.
Proof.
  intro. apply (C21_plan_invisible fconv demo demo0 ["body"; "_"] []); easy_goal || reflexivity.
Qed.

(** ** Other senders *)
Definition sobj : Z := 1000.
Definition smem : mem :=
  bytes_at sobj [0;0;0;0;0;0;0;0; 57;1; 9; 0;0;0;0;0;
                 208;7;0;0;0;0;0;0; 2;0;0;0;0;0;0;0; 3;0;0;0;0;0;0;0;
                 224;7;0;0;0;0;0;0; 1;0;0;0;0;0;0;0]
  (bytes_at 2000 [104;1;105;0] (bytes_at 2016 [200] nomem)).
Definition sval : val :=
  VStruct [("extra", VFloat 8 0); ("id", VInt 313); ("c", VVar "blue" VUnit);
           ("body", VVar "text" (VVec [VInt 360; VInt 105]));
           ("pts", VVec [VStruct [("y", VInt 200)]])].
Definition ssrc : Z -> Prop := span_of 1000 2100.
Lemma other_rep : rep ssrc smem other sobj sval.
Proof. apply rep_b_rep. calc. Qed.
(** The receiver is of the protocol's own schema. *)
Example C43_case : forall fconv, exists v', gets fconv demo sval v' /\
  delivers fconv other dpr demo ssrc smem sobj v' v'.
Proof.
  intro. eapply C43_by_name_partial; try (apply dpr_planned || apply other_rep); try easy_goal.
Qed.
Example C43_value : forall fconv, gets fconv demo sval
  (VStruct [("id", VInt 313); ("body", VVar "text" (VVec [VInt 104; VInt 105]));
            ("list", VArr [VInt 0; VInt 0; VInt 0]); ("c", VVar "undef" VUnit);
            ("pts", VVec [VStruct [("x", VInt 0); ("y", VInt 200)]])]).
Proof. intro. apply convt_gets; calc. Qed.
(** Sender and receiver differ from the protocol's schema. *)
Example C43_relay_case : forall fconv, exists vw v', gets fconv demo sval vw /\ gets fconv other vw v' /\
  delivers fconv other dpr other ssrc smem sobj vw v'.
Proof.
  intro. eapply C43_relay_partial; try (apply dpr_planned || apply other_rep); try easy_goal.
Qed.
Example C37_sender_case : forall fconv, encodes fconv dpr other.
Proof. intro. eapply C37_sender_partial; try apply dpr_planned; easy_goal. Qed.

(** The sender has nothing for the outlined variant. *)
Definition bare : ty := struct [("id", u16); ("pts", span (struct [("y", u8)]) (-1) 0)].
Definition bare_mem : mem :=
  bytes_at sobj [57;1; 0;0;0;0;0;0; 224;7;0;0;0;0;0;0; 1;0;0;0;0;0;0;0] (bytes_at 2016 [200] nomem).
Definition bare_val : val := VStruct [("id", VInt 313); ("pts", VVec [VStruct [("y", VInt 200)]])].
Lemma bare_rep : rep ssrc bare_mem bare sobj bare_val.
Proof. apply rep_b_rep. calc. Qed.
Example C38_case : forall fconv, exists v', gets fconv demo bare_val v' /\ rests_at demo ["body"; "_"] v' /\
  delivers fconv bare dpr demo ssrc bare_mem sobj v' v'.
Proof.
  intro. eapply C38_resting_partial; try (apply dpr_planned || apply bare_rep); try easy_goal; calc.
Qed.
Example C38_value : forall fconv, gets fconv demo bare_val
  (VStruct [("id", VInt 313); ("body", VVar "undef" VUnit);
            ("list", VArr [VInt 0; VInt 0; VInt 0]); ("c", VVar "undef" VUnit);
            ("pts", VVec [VStruct [("x", VInt 0); ("y", VInt 200)]])]).
Proof. intro. apply convt_gets; calc. Qed.

(** ** Schema changes and hostile bytes *)
(** [demo] with a field and a term added. *)
Definition newer : ty :=
  struct [("id", u32); ("note", span u8 (-1) 0);
          ("body", variant 0 [tm "undef" TUnit 0; tm "text" (span u8 (-1) 4) 1;
             tm "num" (struct [("a", i16); ("b", f64); ("c", u8)]) 2; tm "more" u32 3]);
          ("list", array u8 3); ("c", color);
          ("pts", span (struct [("x", i16); ("y", u8)]) 5 0)].
Example C37_case : forall fconv, decodes fconv (plan newer ["body"; "_"]) demo /\ decodes fconv dpr newer.
Proof.
  intro. eapply (C37_additions_partial fconv newer demo ["body"; "_"] ["body"; "_"]);
    try apply dpr_planned; easy_goal.
Qed.
Example C42_case : forall fconv, encodes fconv dpr demo /\ decodes fconv dpr demo.
Proof. intro. eapply C42_compiles_partial; [|apply dpr_planned]. calc. Qed.
(** The variant stands last and nothing decoded after it allocates: a failed decode calls nobody.
    Here the text does not fit. *)
Definition tail : ty := struct [("id", u32); ("body", body)].
Example C09_case : forall fconv, exists o,
  decode fconv dpr tail dhs 5000 7000 8000 3 mmem = DOk o /\ o_size o = -1 /\ o_called o = None.
Proof.
  intro. destruct (decode fconv dpr tail dhs 5000 7000 8000 3 mmem) as [o| |] eqn:E.
  - assert (X : match decode fconv dpr tail dhs 5000 7000 8000 3 mmem with DOk o => o_size o | _ => 0 end = -1)
      by calc.
    rewrite E in X. exists o. split; auto. split; auto. eapply C09_last_partial; try exact E; auto; try calc. lia.
  - exfalso. assert (X : match decode fconv dpr tail dhs 5000 7000 8000 3 mmem with DOk _ => true | _ => false end = true) by calc.
    rewrite E in X. discriminate.
  - exfalso. assert (X : match decode fconv dpr tail dhs 5000 7000 8000 3 mmem with DOk _ => true | _ => false end = true) by calc.
    rewrite E in X. discriminate.
Qed.
(** Bounded vectors only.  The bytes are those of the message, but the points claim 2^40 elements. *)
Definition tight : ty :=
  struct [("id", u32); ("body", variant 0 [tm "undef" TUnit 0; tm "text" (span u8 100 0) 1]);
          ("pts", span (struct [("y", u8)]) 5 0)].
Definition evil : mem := bytes_at 5000
  [7;0;0;0; 1; 1;2;200; 2; 255; 30;0;0;0;0;0;0;0; 6;0;0;0;0;0;0;255; 8;0;0;0;0;0;0;0;
   104;101;108;108;111;33; 255;255;9;5;0;6] (fun _ => Some 3).
Example C36_case : forall fconv, capped tight = true /\
  forall o, decode fconv dpr tight dhs 5000 7000 8000 50 evil = DOk o ->
  forall x, ~ inR 7000 (hsize tight) x -> ~ inR 8000 50 x -> o_mem o x = evil x.
Proof.
  intro. split; [calc|]. intros o E.
  eapply (C36_bounded_partial fconv demo); try exact E; try apply dpr_planned; try easy_goal; lia.
Qed.
Example C36_case_runs : match decode (fun _ _ _ => 0) dpr tight dhs 5000 7000 8000 50 evil with
                        | DOk o => o_size o | _ => 7 end <> 7.
Proof. vm_compute. discriminate. Qed.
Definition fixed : ty := struct [("id", u32); ("list", array u16 2); ("c", color)].
Example C36_flat_case : forall fconv, exists o, decode fconv dpr fixed [] 5000 7000 8000 0 evil = DOk o /\
  forall x, ~ inR 7000 (hsize fixed) x -> o_mem o x = evil x.
Proof.
  intro. destruct (C36_flat_partial fconv demo ["body"; "_"] dpr fixed [] 5000 7000 8000 0 evil)
    as (o & E & _ & _ & K); try apply dpr_planned; try easy_goal; eauto.
  intros x X. split.
  - unfold evil, bytes_at. destruct (_ && _); discriminate.
  - revert X. unfold inR. assert (Y : reach (p_head dpr) < 1000) by calc.
    generalize dependent (reach (p_head dpr)). intros r Y X. lia.
Qed.
