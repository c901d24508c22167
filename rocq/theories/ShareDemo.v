(** C58: one module with a size function, encoders for two source paths and decoders for two receivers and three sets of
    handlers, and a type used in several places. *)
From Verif Require Import Base Types Transcode Gen Spec Api Plan Schema Ends Claims Round Space Other CoreFacts
  Handlers Check Demo ServeDemo Inflate RoundUp IR Share ShareFacts Cases.
Local Open Scope string_scope.
Local Open Scope Z_scope.

Definition dhs2 : handlers := table_at ["body"] [("text", 8); ("num", 9)].
Definition dqs : list request :=
  [size_request dpr demo []; encode_request dpr demo []; encode_request dpr demo ["body"; "text"];
   decode_request dpr demo []; decode_request dpr demo dhs; decode_request dpr demo dhs2;
   decode_request dpr other dhs].
Definition dmod : module := match module_of 200 dqs with Some M => M | None => [] end.
Definition call_count (M : module) : nat := List.length (flat_map (fun e => fn_callees (snd e)) M).

(** 36 functions for the 71 calls in them. *)
Example C58_module : (forall q, In q dqs -> gen (q_dst q) (q_src q) (q_path q) (q_handlers q) = true) /\
  module_of 200 dqs = Some dmod /\ List.length dmod = 36%nat /\ call_count dmod = 71%nat /\
  depth (p_head dpr) = 3%nat /\ depth demo = 3%nat /\ depth other = 3%nat.
Proof.
  split; [|vm_compute; auto 10].
  assert (G : forallb request_gen dqs = true) by calc. rewrite forallb_forall in G. exact G.
Qed.
(** Without the encoders' functions for vectors a call fails. *)
Definition no_vectors : module :=
  filter (fun e => match fst (fst e), k_dst (snd (fst e)) with KRaw, TVec _ _ => false | _, _ => true end) dmod.
Example C58_missing : forall fconv,
  encode_mod fconv no_vectors 3 dpr demo [] dobj 5000 dmem = Stuck /\
  (exists s, encode_mod fconv dmod 3 dpr demo [] dobj 5000 dmem = Ok s /\ s_ptr s = 5046).
Proof.
  intro. split; [calc|].
  assert (X : match encode_mod fconv dmod 3 dpr demo [] dobj 5000 dmem with Ok s => s_ptr s | _ => 0 end = 5046) by calc.
  destruct (encode_mod _ _ _ _ _ _ _ _ _) as [s| | |]; try discriminate. eauto.
Qed.
Lemma dmod_of : module_of 200 dqs = Some dmod.
Proof. calc. Qed.
Example C58_round_trip : forall fconv, exists v', gets fconv demo dval v' /\
  delivers_mod fconv dmod 3 demo dpr demo dsrc dmem dobj dval v'.
Proof.
  intro. apply (C58_delivers_proof fconv 200 dqs dmod demo ["body"; "_"] dpr demo dsrc dmem dobj dval 3);
    [apply dmod_of|now left|right; now left|right; right; right; now left|calc|calc|apply dpr_planned|calc|apply demo_rep|calc|apply dlen|
     apply Nat.leb_le; calc|apply Nat.leb_le; calc].
Qed.
Example C58_handlers : forall fconv,
  (exists o, decode_mod fconv dmod 3 dpr demo dhs 5000 7000 8000 20 mmem = DOk o /\ o_called o = Some 1) /\
  (exists o, decode_mod fconv dmod 3 dpr demo dhs2 5000 7000 8000 20 mmem = DOk o /\ o_called o = Some 8) /\
  (exists o, decode_mod fconv dmod 3 dpr demo [] 5000 7000 8000 20 mmem = DOk o /\ o_called o = None).
Proof.
  intro. split; [|split].
  - assert (X : match decode_mod fconv dmod 3 dpr demo dhs 5000 7000 8000 20 mmem with DOk o => o_called o | _ => None end = Some 1) by calc.
    destruct (decode_mod _ _ _ _ _ _ _ _ _ _ _) as [o| |]; try discriminate. eauto.
  - edestruct (C58_dispatch_proof fconv 200 dqs dmod 3 demo ["body"; "_"] dpr demo ["body"]) with (tbl := [("text", 8); ("num", 9)])
      as (o & E & K); [apply dmod_of|right; right; right; right; right; now left|calc|calc|apply dpr_planned|calc|calc|calc|apply dmessage|
                     apply darena with (n := 20); [vm_compute; discriminate|lia]|calc|apply Nat.leb_le; calc|].
    assert (X : match decode_mod fconv dmod 3 dpr demo dhs2 5000 7000 8000 20 mmem with DOk o => o_called o | _ => None end = Some 8) by calc.
    unfold dhs2 in *. rewrite E in X. eauto.
  - assert (X : match decode_mod fconv dmod 3 dpr demo [] 5000 7000 8000 20 mmem with DOk o => Some (o_called o) | _ => None end = Some None) by calc.
    destruct (decode_mod _ _ _ _ _ _ _ _ _ _ _) as [o| |]; try discriminate. injection X as X. eauto.
Qed.
Example C58_sizes : forall fconv,
  size_mod fconv dmod false 3 dpr demo [] false dobj dmem = Some (46, dmem) /\
  size_mod fconv dmod true 3 dpr demo [] true dobj dmem = Some (55, dmem).
Proof.
  intro. destruct (C58_same_proof fconv 200 dqs dmod demo ["body"; "_"] dpr demo 3) as (_ & _ & X);
    [apply dmod_of|calc|calc|apply dpr_planned|apply Nat.leb_le; calc|apply Nat.leb_le; calc|].
  split; apply X; [now left|calc|now left|calc].
Qed.
Example C58_paths : forall fconv,
  encode_mod fconv dmod 3 dpr demo ["body"; "text"] dobj 5000 dmem = encode_mod fconv dmod 3 dpr demo [] dobj 5000 dmem.
Proof.
  intro. apply (C58_paths_proof fconv 200 dqs dmod 3 demo ["body"; "_"] dpr ["body"; "text"] dsrc dmem dobj dval) with (z := 46);
    [apply dmod_of|right; right; now left|right; now left|calc|apply dpr_planned|apply demo_rep|calc|apply dlen|
     eexists; split; reflexivity|apply Nat.leb_le; calc|calc|apply dclear].
Qed.

(** Two places for one type: both calls lead to one function, and one for the lists of it. *)
Definition spot : ty := struct [("x", i16); ("y", u8)].
Definition spots : ty := struct [("left", spot); ("right", spot); ("many", span spot 5 0)].
Example C58_shared : exists M, module_of 50 [encode_request (plan spots []) spots []] = Some M /\
  List.length M = 3%nat /\ call_count M = 11%nat.
Proof. eexists. split; [calc|]. split; calc. Qed.
