(** C57 applied: a receiver with two [any]s, and one whose [any] the sender does not have. *)
From Verif Require Import Base Types Transcode Spec Api Plan Schema Ends Claims
  MemFacts Round Space CoreFacts Check Demo Reflect ReflectFacts AnyFacts AnyField AnyFieldSpec AnyFieldFacts.
Local Open Scope string_scope.
Local Open Scope Z_scope.

(** pj::Any as compiled: two words and an index, padded to three words. *)
Definition cany : hty := HAny (mkAnyInfo 0 8 16 24 8).
Definition viewer : hty :=
  HStruct [mkField "body" cany 0; mkField "id" (HPlain u16) 24; mkField "pts" cany 32;
           mkField "extra" (HStruct [mkField "z" (HPlain u32) 0] 4 4) 56] 64 8.
(** Some place for the constants. *)
Definition gplace (t : ty) : Z := 4096 + hsize t.

(** The sender's text has an inline hint: its term is split, and shown under one name. *)
Example C57_case : exists pr, planned demo [] pr /\ host demo = true /\ c_ints demo = true /\
  laid viewer = true /\ takes viewer demo = true /\ whole viewer (p_head pr) = true /\
  indexed same_leaf viewer (p_head pr) = true /\
  rep dsrc dmem demo dobj dval /\ known dval = true /\ msg_len pr dval < 2 ^ 63 /\
  hneed viewer (p_head pr) dval < 256.
Proof.
  exists (plan demo []). split; [apply plan_planned; vm_compute; auto|].
  split; [vm_compute; auto|]. split; [vm_compute; auto|]. split; [vm_compute; auto|].
  split; [vm_compute; auto|]. split; [vm_compute; auto|]. split; [vm_compute; auto|].
  split; [apply rep_b_rep; vm_compute; reflexivity|]. split; [vm_compute; auto|].
  split; vm_compute; auto.
Qed.

(** It runs: the number is converted, the [any]s point into the decode buffer and to constants. *)
Example C57_runs : exists st o, encode (fun _ _ b => b) (plan demo []) demo [] dobj 3000 dmem = Ok st /\
  decode_h (fun _ _ b => b) same_leaf gplace (plan demo []) viewer 3000 5000 6000 256 (s_mem st) = DOk o /\
  load (o_mem o) 5024 2 = Some 7 /\ load (o_mem o) 5056 4 = Some 0 /\
  load (o_mem o) 5000 8 = Some 6000 /\
  load (o_mem o) 5008 8 <> None /\ load (o_mem o) 5016 4 <> None.
Proof.
  eexists _, _. split; [vm_compute; reflexivity|]. split; [vm_compute; reflexivity|].
  split; [vm_compute; reflexivity|]. split; [vm_compute; reflexivity|]. split; [vm_compute; reflexivity|].
  split; vm_compute; discriminate.
Qed.

(** With less room it reports so, and leaves alone what follows the object and the buffer. *)
Example C57_runs_short : exists st o, encode (fun _ _ b => b) (plan demo []) demo [] dobj 3000 dmem = Ok st /\
  decode_h (fun _ _ b => b) same_leaf gplace (plan demo []) viewer 3000 5000 6000 16
    (bytes_at 6016 [170] (bytes_at 5064 [187] (s_mem st))) = DOk o /\
  o_size o = -1 /\ load (o_mem o) 6016 1 = Some 170 /\ load (o_mem o) 5064 1 = Some 187.
Proof.
  eexists _, _. split; [vm_compute; reflexivity|]. split; [vm_compute; reflexivity|].
  split; [vm_compute; reflexivity|]. split; vm_compute; reflexivity.
Qed.

(** [any]s in the terms of a variant, and in the elements of an array (test/any.pj has such a
    variant): the receiver's array is longer than the sender's. *)
Definition ev : ty := variant 0 [tm "undef" TUnit 0; tm "num" f64 1; tm "text" (span u8 (-1) 0) 2].
Definition feed : ty := struct [("last", ev); ("all", array ev 2)].
Definition hev : hty :=
  HVar (mkVar false 0 0 24 1 32 8)
       [mkTerm "undef" (HPlain TUnit) 0 []; mkTerm "text" cany 1 []; mkTerm "num" cany 3 []].
Definition reader : hty :=
  HStruct [mkField "all" (HArr hev 3 32) 0; mkField "last" hev 96] 128 8.
Definition fmem : mem :=
  bytes_at 1000 [208;7;0;0;0;0;0;0; 2;0;0;0;0;0;0;0; 2;0;0;0;0;0;0;0;
                 0;0;0;0;0;0;240;63; 0;0;0;0;0;0;0;0; 1;0;0;0;0;0;0;0;
                 0;0;0;0;0;0;0;0; 0;0;0;0;0;0;0;0; 0;0;0;0;0;0;0;0]
 (bytes_at 2000 [104;105] nomem).
Definition fval : val :=
  VStruct [("last", VVar "text" (VVec [VInt 104; VInt 105]));
           ("all", VArr [VVar "num" (VFloat 8 4607182418800017408); VVar "undef" VUnit])].
Example C57_case_nested : exists pr, planned feed [] pr /\ host feed = true /\ c_ints feed = true /\
  laid reader = true /\ takes reader feed = true /\ whole reader (p_head pr) = true /\
  indexed same_leaf reader (p_head pr) = true /\
  rep dsrc fmem feed 1000 fval /\ known fval = true /\ msg_len pr fval < 2 ^ 63 /\
  hneed reader (p_head pr) fval < 256.
Proof.
  exists (plan feed []). split; [apply plan_planned; vm_compute; auto|].
  split; [vm_compute; auto|]. split; [vm_compute; auto|]. split; [vm_compute; auto|].
  split; [vm_compute; auto|]. split; [vm_compute; auto|]. split; [vm_compute; auto|].
  split; [apply rep_b_rep; vm_compute; reflexivity|]. split; [vm_compute; auto|].
  split; vm_compute; auto.
Qed.
Example C57_runs_nested : exists st o, encode (fun _ _ b => b) (plan feed []) feed [] 1000 3000 fmem = Ok st /\
  decode_h (fun _ _ b => b) same_leaf gplace (plan feed []) reader 3000 5000 6000 256 (s_mem st) = DOk o /\
  load (o_mem o) 5024 1 = Some 3 /\ load (o_mem o) 5056 1 = Some 0 /\ load (o_mem o) 5088 1 = Some 0 /\
  load (o_mem o) 5120 1 = Some 1 /\
  load (o_mem o) 5000 8 = Some 6000 /\ load (o_mem o) 6000 8 = Some 4607182418800017408 /\
  load (o_mem o) 5096 8 = Some 6008.
Proof.
  eexists _, _. split; [vm_compute; reflexivity|]. split; [vm_compute; reflexivity|].
  repeat (split; [vm_compute; reflexivity|]). vm_compute. reflexivity.
Qed.

(** Vectors of [any]s and of variants with [any]s; the sender's [nums] has an inline hint, and
    the receiver takes two of its three elements. *)
Definition hspan (e : hty) (mx ew : Z) : hty := HVec e (mkVec 0 mx 0 0 8 8 0 8 RPointer 0 0 ew 16 8).
Definition feed2 : ty := struct [("nums", span u16 (-1) 2); ("evs", span ev (-1) 0)].
Definition lister : hty :=
  HStruct [mkField "evs" (hspan hev (-1) 32) 0; mkField "nums" (hspan cany 2 24) 16;
           mkField "more" (hspan cany (-1) 24) 32] 48 8.
Definition lmem : mem :=
  bytes_at 1000 [208;7;0;0;0;0;0;0; 3;0;0;0;0;0;0;0; 216;7;0;0;0;0;0;0; 1;0;0;0;0;0;0;0]
 (bytes_at 2000 [5;0;6;0;7;1]
 (bytes_at 2008 [0;0;0;0;0;0;240;63; 0;0;0;0;0;0;0;0; 1;0;0;0;0;0;0;0] nomem)).
Definition lval : val :=
  VStruct [("nums", VVec [VInt 5; VInt 6; VInt 263]);
           ("evs", VVec [VVar "num" (VFloat 8 4607182418800017408)])].
Example C57_case_vectors : exists pr, planned feed2 [] pr /\ host feed2 = true /\ c_ints feed2 = true /\
  laid lister = true /\ takes lister feed2 = true /\ whole lister (p_head pr) = true /\
  indexed same_leaf lister (p_head pr) = true /\
  rep dsrc lmem feed2 1000 lval /\ known lval = true /\ msg_len pr lval < 2 ^ 63 /\
  hneed lister (p_head pr) lval < 256.
Proof.
  exists (plan feed2 []). split; [apply plan_planned; vm_compute; auto|].
  split; [vm_compute; auto|]. split; [vm_compute; auto|]. split; [vm_compute; auto|].
  split; [vm_compute; auto|]. split; [vm_compute; auto|]. split; [vm_compute; auto|].
  split; [apply rep_b_rep; vm_compute; reflexivity|]. split; [vm_compute; auto|].
  split; vm_compute; auto.
Qed.
Example C57_runs_vectors : exists st o, encode (fun _ _ b => b) (plan feed2 []) feed2 [] 1000 3000 lmem = Ok st /\
  decode_h (fun _ _ b => b) same_leaf gplace (plan feed2 []) lister 3000 5000 6000 256 (s_mem st) = DOk o /\
  load (o_mem o) 5008 8 = Some 1 /\ load (o_mem o) 5000 8 = Some 6000 /\ load (o_mem o) 6024 1 = Some 3 /\
  load (o_mem o) 5024 8 = Some 2 /\ load (o_mem o) 5016 8 = Some 6040 /\
  load (o_mem o) 6064 8 = Some 6090 /\ load (o_mem o) 6090 2 = Some 6 /\ load (o_mem o) 5040 8 = Some 0.
Proof.
  eexists _, _. split; [vm_compute; reflexivity|]. split; [vm_compute; reflexivity|].
  repeat (split; [vm_compute; reflexivity|]). vm_compute. reflexivity.
Qed.

(** An [any] the sender does not have: no decoder is generated, although a plain field would get
    its default. *)
Definition wants (t : hty) : hty := HStruct [mkField "id" (HPlain u32) 0; mkField "note" t 8] 32 8.
Theorem C57_refuted_proof : exists s pr dst alt,
  host s = true /\ planned s [] pr /\ laid dst = true /\ laid alt = true /\
  dst = wants cany /\ alt = wants (HPlain f64) /\
  forall fconv same glob msg obj dbuf dsize m,
    decode_h fconv same glob pr dst msg obj dbuf dsize m = DStuck /\
    takes alt s = true /\ hgen alt (p_head pr) = true.
Proof.
  exists demo, (plan demo []), (wants cany), (wants (HPlain f64)).
  split; [vm_compute; auto|]. split; [apply plan_planned; vm_compute; auto|].
  split; [vm_compute; auto|]. split; [vm_compute; auto|]. split; [reflexivity|]. split; [reflexivity|].
  intros fconv same glob msg obj dbuf dsize m. split; [|split; vm_compute; reflexivity].
  unfold decode_h. replace (hgen (wants cany) (p_head (plan demo []))) with false by (vm_compute; reflexivity).
  reflexivity.
Qed.

(** Every array gets a loop that fills what is left with defaults (generate_ir.cpp l.498-566),
    whether anything is left or not; so an array of [any]s has no decoder, however many elements
    the sender has.  A number for each element is fine. *)
Definition board (t : hty) : hty := HStruct [mkField "list" (HArr t 3 24) 0] 72 8.
Theorem C57_array_refuted_proof : exists s pr dst alt,
  host s = true /\ planned s [] pr /\ laid dst = true /\ laid alt = true /\
  dst = board cany /\ alt = board (HPlain u32) /\
  (exists e w a, last_field "list" (match s with TStruct fs _ _ => fs | _ => [] end) =
     Some (mkField "list" (TArr e 3 w a) 32)) /\
  forall fconv same glob msg obj dbuf dsize m,
    decode_h fconv same glob pr dst msg obj dbuf dsize m = DStuck /\
    takes alt s = true /\ hgen alt (p_head pr) = true.
Proof.
  exists demo, (plan demo []), (board cany), (board (HPlain u32)).
  split; [vm_compute; auto|]. split; [apply plan_planned; vm_compute; auto|].
  split; [vm_compute; auto|]. split; [vm_compute; auto|]. split; [reflexivity|]. split; [reflexivity|].
  split; [eexists _, _, _; vm_compute; reflexivity|].
  intros fconv same glob msg obj dbuf dsize m. split; [|split; vm_compute; reflexivity].
  unfold decode_h. replace (hgen (board cany) (p_head (plan demo []))) with false by (vm_compute; reflexivity).
  reflexivity.
Qed.

(** Every variant gets a block that sets its default term (l.394-496), whether the sender's terms
    are all known or not; so a variant whose default term is an [any] has no decoder. *)
Definition held (d : nat) : hty :=
  HStruct [mkField "last" (HVar (mkVar false d 0 24 1 32 8)
    [mkTerm "undef" (HPlain TUnit) 0 []; mkTerm "text" cany 1 []; mkTerm "num" cany 3 []]) 0] 32 8.
Theorem C57_default_refuted_proof : exists s pr,
  host s = true /\ planned s [] pr /\ laid (held 1) = true /\ laid (held 0) = true /\
  forall fconv same glob msg obj dbuf dsize m,
    decode_h fconv same glob pr (held 1) msg obj dbuf dsize m = DStuck /\
    takes (held 0) s = true /\ hgen (held 0) (p_head pr) = true.
Proof.
  exists feed, (plan feed []).
  split; [vm_compute; auto|]. split; [apply plan_planned; vm_compute; auto|].
  split; [vm_compute; auto|]. split; [vm_compute; auto|].
  intros fconv same glob msg obj dbuf dsize m. split; [|split; vm_compute; reflexivity].
  unfold decode_h. replace (hgen (held 1) (p_head (plan feed []))) with false by (vm_compute; reflexivity).
  reflexivity.
Qed.
