(** Properties the code does not have, each shown by a computed case. *)
From Verif Require Import Base Types Transcode Spec Gen Api Plan PlanHoist PlanWf PlanLay PlanShape PlanKeep
  Schema Ends Claims Round Space CoreFacts CompileFacts Check Demo Enum.
Local Open Scope string_scope.
Local Open Scope Z_scope.

(** What a run of decode leaves in memory and reports. *)
Definition decoded (r : dres) : dec_out :=
  match r with DOk o => o | _ => mkOut (fun _ => None) 0 0 None end.
Definition encoded (r : res) : mem :=
  match r with Ok s => s_mem s | _ => fun _ => None end.

Ltac ranges := unfold inR, span_of in *; cbn in *; lia.

(** ** C06: across schemas, decode writes past the decode buffer.
    Sender: a vector of bytes with an inline hint of 16, 20 elements.  The plan
    keeps 8 of them in the head.  Receiver: at most 4 elements.  The receiver
    reserves 4 bytes and copies 8. *)
Definition r06_s := span u8 (-1) 16.
Definition r06_h := span u8 4 0.
Definition r06_val := VVec (map (fun i => VInt (Z.of_nat i)) (seq 1 20)).
Definition r06_mem := encoded (encode (fun _ _ x => x) (plan r06_s []) r06_s [] 1000 3000
  (bytes_at 1000 [208;7;0;0;0;0;0;0; 20;0;0;0;0;0;0;0]
    (bytes_at 2000 (map Z.of_nat (seq 1 20)) nomem))).

Lemma value_of_bytes : forall p l, v_max p < 0 ->
  (forall z, In z l -> 0 <= z < 256) -> value_of (TVec u8 p) (VVec (map VInt l)).
Proof.
  intros p l M H f. constructor. unfold cut. destruct (Z.ltb_spec (v_max p) 0); [|lia].
  induction l; constructor.
  - constructor; [|rewrite Z.sub_diag; reflexivity]. apply H; cbn; auto.
  - apply IHl. intros; apply H; cbn; auto.
Qed.

Lemma C06_refuted_proof : exists s h pr m msg v obj dbuf dsize x, forall fconv,
  schema s = true /\ host h = true /\ planned s [] pr /\ matches h s = true /\
  message s pr m (inR msg 36) msg v /\ arena h (inR msg 36) obj dbuf dsize /\
  exists o, decode fconv pr h [] msg obj dbuf dsize m = DOk o /\ 0 <= o_size o /\
    ~ inR obj (hsize h) x /\ ~ inR dbuf dsize x /\ o_mem o x <> m x.
Proof.
  exists r06_s, r06_h, (plan r06_s []), r06_mem, 3000, r06_val, 5000, 6000, 4, 6006.
  intro fconv. split; [reflexivity|]. split; [reflexivity|].
  split; [apply plan_planned; reflexivity|]. split; [reflexivity|]. split.
  { split.
    - change r06_val with (VVec (map VInt (map Z.of_nat (seq 1 20)))).
      apply value_of_bytes; [reflexivity|].
      intros z I. apply in_map_iff in I as (n & <- & I). apply in_seq in I. lia.
    - change (inR 3000 36) with (span_of 3000 3036). apply rep_b_rep. vm_compute. reflexivity. }
  split.
  { constructor; try ranges. all: intros; ranges. }
  exists (decoded (decode fconv (plan r06_s []) r06_h [] 3000 5000 6000 4 r06_mem)).
  split; [vm_compute; reflexivity|]. split; [vm_compute; discriminate|].
  split; [ranges|]. split; [ranges|]. vm_compute. discriminate.
Qed.

(** ** C09: a handler is called although the decode failed.
    The variant comes before the span in the head; its handler is recorded, the
    span does not fit, and the recorded handler is still run. *)
Definition r09_s := struct [("v", variant 0 [tm "undef" TUnit 0; tm "a" u8 1]);
                            ("s", span u8 (-1) 0)].
Definition r09_mem := encoded (encode (fun _ _ x => x) (plan r09_s []) r09_s [] 1000 3000
  (bytes_at 1000 [5;1;0;0;0;0;0;0; 208;7;0;0;0;0;0;0; 2;0;0;0;0;0;0;0]
    (bytes_at 2000 [1;2] nomem))).
Definition r09_val := VStruct [("v", VVar "a" (VInt 5)); ("s", VVec [VInt 1; VInt 2])].

Lemma C09_refuted_proof : exists s pr hs m msg v obj dbuf dsize i, forall fconv,
  host s = true /\ planned s [] pr /\ handlers_fit s hs = true /\
  message s pr m (inR msg 20) msg v /\ arena s (inR msg 20) obj dbuf dsize /\
  exists o, decode fconv pr s hs msg obj dbuf dsize m = DOk o /\
    o_size o = -1 /\ o_called o = Some i.
Proof.
  exists r09_s, (plan r09_s []), [(["v"; "a"], 7)], r09_mem, 3000, r09_val, 5000, 6000, 1, 7.
  intro fconv. split; [reflexivity|]. split; [apply plan_planned; reflexivity|].
  split; [reflexivity|]. split.
  { split.
    - intro f. constructor. repeat constructor; auto; try (cbn; lia); try reflexivity.
      cbn. refine (g_var f _ _ (tm "a" u8 1) (VInt 5) (VInt 5) _ _).
      + cbn. auto.
      + constructor; [cbn; lia|reflexivity].
    - change (inR 3000 20) with (span_of 3000 3020). apply rep_b_rep. vm_compute. reflexivity. }
  split.
  { constructor; try ranges. all: intros; ranges. }
  exists (decoded (decode fconv (plan r09_s []) r09_s [(["v"; "a"], 7)] 3000 5000 6000 1 r09_mem)).
  split; [vm_compute; reflexivity|]. split; reflexivity.
Qed.

(** ** C14: the payload of an unknown term ends up in the default term. *)
Definition r14_s := variant 0 [tm "a" TUnit 0; tm "b" u32 1].
Definition r14_h := variant 1 [tm "a" TUnit 0; tm "x" u32 1].
Definition r14_mem := encoded (encode (fun _ _ x => x) (plan r14_s []) r14_s [] 1000 3000
  (bytes_at 1000 [7;0;0;0;1;0;0;0] nomem)).

Lemma C14_refuted_proof : exists s h pr m msg n v0 obj dbuf dsize v1 d, forall fconv,
  host s = true /\ host h = true /\ planned s [] pr /\ receives h s = true /\
  message s pr m (inR msg 5) msg (VVar n v0) /\ arena h (inR msg 5) obj dbuf dsize /\
  gets fconv h VUnit d /\
  exists o, decode fconv pr h [] msg obj dbuf dsize m = DOk o /\ 0 <= o_size o /\
    rep (inR obj (hsize h)) (o_mem o) h obj v1 /\ v1 <> d.
Proof.
  exists r14_s, r14_h, (plan r14_s []), r14_mem, 3000, "b", (VInt 7), 5000, 6000, 0,
    (VVar "x" (VInt 7)), (VVar "x" (VInt 0)).
  intro fconv. split; [reflexivity|]. split; [reflexivity|].
  split; [apply plan_planned; reflexivity|]. split; [reflexivity|]. split.
  { split.
    - intro f. refine (g_var f _ _ (tm "b" u32 1) (VInt 7) (VInt 7) _ _).
      + cbn. auto.
      + constructor; [cbn; lia|reflexivity].
    - change (inR 3000 5) with (span_of 3000 3005). apply rep_b_rep. vm_compute. reflexivity. }
  split.
  { constructor; try ranges. all: intros; ranges. }
  split.
  { refine (g_var_none fconv _ _ (tm "x" u32 1) (VInt 0) _ _); [reflexivity|constructor]. }
  exists (decoded (decode fconv (plan r14_s []) r14_h [] 3000 5000 6000 0 r14_mem)).
  split; [vm_compute; reflexivity|]. split; [vm_compute; discriminate|]. split; [|discriminate].
  change (inR 5000 (hsize r14_h)) with (span_of 5000 5008). apply rep_b_rep.
  vm_compute. reflexivity.
Qed.

(** ** C15: an enum term the receiver lacks becomes the term with tag 0, not the
    default. *)
Definition r15_x := mkVar false 0 0 0 1 1 1.
Definition r15_ts := [tm "undef" TUnit 0; tm "a" TUnit 1; tm "b" TUnit 2].
Definition r15_ts' := [tm "other" TUnit 3; tm "a" TUnit 1; tm "undef" TUnit 0].

Lemma C15_refuted_proof : exists x ts x' ts' pr m obj buf n n' obj2 dbuf dsize, forall fconv,
  host (TVar x ts) = true /\ host (TVar x' ts') = true /\ bare ts /\ bare ts' /\
  planned (TVar x ts) [] pr /\
  rep (inR obj 1) m (TVar x ts) obj (VVar n VUnit) /\
  exists s o, encode fconv pr (TVar x ts) [] obj buf m = Ok s /\
    decode fconv pr (TVar x' ts') [] buf obj2 dbuf dsize (s_mem s) = DOk o /\
    rep (inR obj2 1) (o_mem o) (TVar x' ts') obj2 (VVar n' VUnit) /\
    ~ enum_to x' ts' n n'.
Proof.
  exists r15_x, r15_ts, r15_x, r15_ts', (plan (TVar r15_x r15_ts) []),
    (bytes_at 1000 [2] nomem), 1000, 3000, "b", "undef", 5000, 6000, 0.
  intro fconv. split; [reflexivity|]. split; [reflexivity|].
  split; [intros t I; cbn in I; intuition subst; reflexivity|].
  split; [intros t I; cbn in I; intuition subst; reflexivity|].
  split; [apply plan_planned; reflexivity|]. split.
  { change (inR 1000 1) with (span_of 1000 1001). apply rep_b_rep. vm_compute. reflexivity. }
  set (r := encode fconv (plan (TVar r15_x r15_ts) []) (TVar r15_x r15_ts) [] 1000 3000
              (bytes_at 1000 [2] nomem)).
  exists (mkSt (encoded r) 3001 0 None).
  exists (decoded (decode fconv (plan (TVar r15_x r15_ts) []) (TVar r15_x r15_ts') [] 3000 5000
            6000 0 (encoded r))).
  split; [vm_compute; reflexivity|]. split; [vm_compute; reflexivity|]. split.
  { change (inR 5000 1) with (span_of 5000 5001). apply rep_b_rep. vm_compute. reflexivity. }
  intros [[I _]|[_ (t & E & N)]].
  - cbn in I. intuition discriminate.
  - vm_compute in E. injection E as <-. discriminate.
Qed.

(** And a sender tag of 128 or more makes the receiver read outside its table:
    a one byte tag is sign-extended when it indexes the table.  130 terms, which
    the receiver has too, numbered one higher. *)
Definition r15_ts130 (k : nat) :=
  map (fun i => tm (String (Ascii.ascii_of_nat i) "") TUnit (Z.of_nat (k + i))) (seq 0 130).

Lemma C15_table_refuted_proof : exists x ts x' ts' pr m obj buf n obj2 dbuf dsize, forall fconv,
  host (TVar x ts) = true /\ host (TVar x' ts') = true /\ bare ts /\ bare ts' /\
  map t_name ts = map t_name ts' /\
  planned (TVar x ts) [] pr /\
  rep (inR obj 1) m (TVar x ts) obj (VVar n VUnit) /\
  exists s, encode fconv pr (TVar x ts) [] obj buf m = Ok s /\
    decode fconv pr (TVar x' ts') [] buf obj2 dbuf dsize (s_mem s) = DUB.
Proof.
  set (T := TVar r15_x (r15_ts130 0)). set (T' := TVar r15_x (r15_ts130 1)).
  exists r15_x, (r15_ts130 0), r15_x, (r15_ts130 1), (plan T []), (bytes_at 1000 [128] nomem),
    1000, 3000, (String (Ascii.ascii_of_nat 128) ""), 5000, 6000, 0.
  intro fconv. split; [vm_compute; reflexivity|]. split; [vm_compute; reflexivity|].
  split; [intros t I; apply in_map_iff in I as (j & <- & _); reflexivity|].
  split; [intros t I; apply in_map_iff in I as (j & <- & _); reflexivity|].
  split; [reflexivity|].
  split; [apply plan_planned; vm_compute; reflexivity|]. split.
  { change (inR 1000 1) with (span_of 1000 1001). apply rep_b_rep. vm_compute. reflexivity. }
  exists (mkSt (encoded (encode fconv (plan T []) T [] 1000 3000 (bytes_at 1000 [128] nomem)))
            3001 0 None).
  split; vm_compute; reflexivity.
Qed.

(** ** C36: bytes that are no message make decode write outside its buffer.
    The first vector claims 2^64 - 1 bytes: the reservation wraps around and
    succeeds, leaving the buffer one byte lower, and the copy loop, whose count
    is signed, copies nothing.  The second vector then writes one byte before
    the buffer. *)
Definition r36_s := struct [("a", span u8 (-1) 0); ("b", span u8 (-1) 0)].
Definition r36_bytes : list Z :=
  [255;255;255;255;255;255;255;255; 0;0;0;0;0;0;0;0; 1;0;0;0;0;0;0;0; 8;0;0;0;0;0;0;0; 77].

Lemma C36_refuted_proof : exists s pr l msg obj dbuf dsize x,
  Forall (fun b => 0 <= b < 256) l /\ forall fconv m,
  host s = true /\ planned s [] pr /\ 
  arena s (inR msg (Z.of_nat (List.length l))) obj dbuf dsize /\
  ~ inR obj (hsize s) x /\ ~ inR dbuf dsize x /\
  exists o, decode fconv pr s [] msg obj dbuf dsize (bytes_at msg l m) = DOk o /\
    0 <= o_size o /\ (bytes_at msg l m x <> Some 77 -> o_mem o x <> bytes_at msg l m x).
Proof.
  exists r36_s, (plan r36_s []), r36_bytes, 3000, 5000, 6000, 8, 5999.
  split; [vm_compute; repeat constructor; discriminate|].
  intros fconv m. split; [reflexivity|]. split; [apply plan_planned; reflexivity|].
  split.
  { constructor; try ranges. all: intros; ranges. }
  split; [ranges|]. split; [ranges|].
  exists (decoded (decode fconv (plan r36_s []) r36_s [] 3000 5000 6000 8
                     (bytes_at 3000 r36_bytes m))).
  split; [vm_compute; reflexivity|]. split; [vm_compute; discriminate|].
  intro H. replace (o_mem _ 5999) with (Some 77) by (vm_compute; reflexivity). congruence.
Qed.

(** ** C37: a receiver whose default term carries a payload cannot be compiled
    for a sender that adds a term of another kind. *)
Definition r37_old := variant 0 [tm "d" u8 0; tm "e" TUnit 1].
Definition r37_new := variant 0 [tm "d" u8 0; tm "e" TUnit 1; tm "s" (span u8 (-1) 0) 2].

Lemma C37_refuted_proof : exists new old pr, forall fconv,
  host new = true /\ host old = true /\ adds new old = true /\ planned new [] pr /\
  forall hs msg obj dbuf dsize m, decode fconv pr old hs msg obj dbuf dsize m = DStuck.
Proof.
  exists r37_new, r37_old, (plan r37_new []). intro fconv.
  split; [reflexivity|]. split; [reflexivity|]. split; [reflexivity|].
  split; [apply plan_planned; reflexivity|]. intros hs msg obj dbuf dsize m.
  unfold decode. replace (gen r37_old (p_head (plan r37_new [])) [] hs) with false; auto.
  symmetry. cbn [r37_old variant gen].
  change (p_head (plan r37_new [])) with
    (ltac:(let t := eval vm_compute in (p_head (plan r37_new [])) in exact t)).
  cbn. unfold term_gen. cbn.
  repeat (rewrite ?andb_false_r, ?andb_true_r; cbn). auto.
Qed.

(** A sender that does not have a vector the protocol was planned around cannot
    be compiled either: its old schema against the protocol of a peer. *)
Definition r37_text (l : list (string * ty)) :=
  variant 0 [tm "undef" TUnit 0; tm "t" (struct l) 1].
Definition r37_short := r37_text [("a", u8)].
Definition r37_long := r37_text [("a", u8); ("text", span u8 (-1) 4)].

Lemma C37_encode_refuted_proof : exists new old pr, forall fconv,
  host new = true /\ host old = true /\ adds new old = true /\ bare_defaults new = true /\
  bare_defaults old = true /\ planned new [] pr /\
  forall obj buf m, encode fconv pr old [] obj buf m = Stuck.
Proof.
  exists r37_long, r37_short, (plan r37_long []). intro fconv.
  split; [reflexivity|]. split; [reflexivity|]. split; [reflexivity|]. split; [reflexivity|].
  split; [reflexivity|]. split; [apply plan_planned; reflexivity|].
  intros obj buf m. unfold encode.
  replace (gen (p_head (plan r37_long [])) r37_short [] []) with false
    by (vm_compute; reflexivity). reflexivity.
Qed.

(** ** C38: a sender without the outlined variant overlaps its default payload
    with the next vector, and writes more bytes than size announced. *)
Definition r38_s := struct [("v", variant 0 [tm "d" u32 0; tm "e" TUnit 1]);
                            ("s", span u8 (-1) 0)].
Definition r38_h := struct [("s", span u8 (-1) 0)].
Definition r38_mem := bytes_at 1000 [208;7;0;0;0;0;0;0; 2;0;0;0;0;0;0;0]
                        (bytes_at 2000 [1;2] nomem).
Definition r38_val := VStruct [("s", VVec [VInt 1; VInt 2])].
Definition r38_got := VStruct [("v", VVar "d" (VInt 513)); ("s", VVec [VInt 1; VInt 2])].
Definition r38_want := VStruct [("v", VVar "d" (VInt 0)); ("s", VVec [VInt 1; VInt 2])].

Lemma C38_refuted_proof : exists s h pr m obj v buf n obj2 dbuf dsize got want, forall fconv,
  host s = true /\ host h = true /\ planned s ["v"; "_"] pr /\ receives s h = true /\
  rep (span_of 1000 2002) m h obj v /\ gets fconv s v want /\
  size_fn fconv pr h [] false obj m = Some n /\
  exists st o, encode fconv pr h [] obj buf m = Ok st /\
    (exists x, ~ inR buf n x /\ s_mem st x <> m x) /\
    decode fconv pr s [] buf obj2 dbuf dsize (s_mem st) = DOk o /\ 0 <= o_size o /\
    rep (span_of 5000 6008) (o_mem o) s obj2 got /\ got <> want.
Proof.
  exists r38_s, r38_h, (plan r38_s ["v"; "_"]), r38_mem, 1000, r38_val, 3000, 19, 5000, 6000, 8,
    r38_got, r38_want.
  intro fconv. split; [reflexivity|]. split; [reflexivity|].
  split; [apply plan_planned; reflexivity|]. split; [reflexivity|]. split.
  { apply rep_b_rep. vm_compute. reflexivity. }
  split.
  { constructor. constructor; [|constructor; [|constructor]]; (split; [reflexivity|]); cbn.
    - refine (g_var_none fconv _ _ (tm "d" u32 0) (VInt 0) _ _); [reflexivity|constructor].
    - constructor. cbn. repeat constructor; cbn; lia. }
  split; [vm_compute; reflexivity|].
  set (r := encode fconv (plan r38_s ["v"; "_"]) r38_h [] 1000 3000 r38_mem).
  exists (mkSt (encoded r) 3019 0 None).
  exists (decoded (decode fconv (plan r38_s ["v"; "_"]) r38_s [] 3000 5000 6000 8 (encoded r))).
  split; [vm_compute; reflexivity|]. split.
  { exists 3019. split; [ranges|]. vm_compute. discriminate. }
  split; [vm_compute; reflexivity|]. split; [vm_compute; discriminate|]. split; [|discriminate].
  apply rep_b_rep. vm_compute. reflexivity.
Qed.

(** ** C42: a schema the front end accepts that cannot be compiled: the default
    term carries a vector with an inline hint. *)
Definition accepted (t : ty) : bool :=
  lay_ok t && room t && names_ok t && plain t && no_outline t && fresh_ty t &&
  flat t && hints_ok t && wf t.
Definition r42_s := variant 0 [tm "d" (span u8 (-1) 4) 0; tm "e" TUnit 1].

Lemma C42_refuted_proof : exists s, accepted s = true /\
  forall fconv obj buf m, encode fconv (plan s []) s [] obj buf m = Stuck.
Proof.
  exists r42_s. split; [reflexivity|]. intros fconv obj buf m. unfold encode.
  replace (gen (p_head (plan r42_s [])) r42_s [] []) with false by (vm_compute; reflexivity).
  reflexivity.
Qed.
