(** The host side: the property theorems. *)
From Verif Require Import Base Types Transcode Spec Api Plan Claims Schema Ends MemFacts Round Space CoreFacts Cpp CppFacts CppClaims Host HostFacts.

(** C32.  [holds]: what a C++ object of the generated class holds, by the C++ layout rules;
    [build]: what the generated headers tell the library.  Missing: arrays of integers wider
    than a byte, for which it is false, see [C32_refuted]. *)
Theorem C32_host_described_partial : forall t, schema t = true -> cpp_ok t = true ->
  strides_ok t = true ->
  host (build t) = true /\ hsize (build t) <= csize t /\
  forall R m a v, holds R m t a v <-> rep R m (build t) a v.
Proof. exact C32_host_described_proof. Qed.
Print Assumptions C32_host_described_partial.

(** C32.  The round trip from C++ object to C++ object. *)
Theorem C32_round_trip_partial : forall fconv t tp pr S m obj v,
  schema t = true -> cpp_ok t = true -> strides_ok t = true ->
  planned (build t) tp pr ->
  holds S m t obj v -> known v = true -> msg_len pr v < 2 ^ 63 ->
  exists n, size_fn fconv pr (build t) [] false obj m = Some n /\
  forall buf, clear_of S buf n ->
  exists s, encode fconv pr (build t) [] obj buf m = Ok s /\
    forall m2 msg obj2 dbuf dsize,
      same_bytes n (s_mem s) buf m2 msg ->
      arena (build t) (inR msg n) obj2 dbuf dsize -> space (build t) v <= dsize ->
      exists o, decode fconv pr (build t) [] msg obj2 dbuf dsize m2 = DOk o /\
        0 <= o_size o /\
        holds (fun x => inR obj2 (csize t) x \/ inR dbuf dsize x) (o_mem o) t obj2 v /\
        forall R v2, holds R (o_mem o) t obj2 v2 -> v2 = v.
Proof. exact C32_round_trip_proof. Qed.
Print Assumptions C32_round_trip_partial.

Theorem C32_refuted : exists t m obj buf v w, forall fconv,
  schema t = true /\ cpp_ok t = true /\
  holds (inR obj (csize t)) m t obj v /\ w <> v /\
  exists s, encode fconv (plan (build t) []) (build t) [] obj buf m = Ok s /\
    rep (inR buf 4) (s_mem s) (p_head (plan (build t) [])) buf w.
Proof. exact C32_refuted_proof. Qed.
Print Assumptions C32_refuted.

(** C33. *)
Theorem C33_span_max : forall ops, Forall op_fits ops ->
  forall s, In s (run_ops [] ops) -> 0 <= sp_size s <= sp_max s.
Proof. exact C33_span_max_proof. Qed.
Print Assumptions C33_span_max.

(** C34, the class alone, all addresses modulo 2^64. *)
Theorem C34_copies : forall this data size places,
  0 <= data < 2 ^ 64 ->
  let '(at_, o) := os_chain this (os_make this data size) places in
  os_base at_ o = data /\ os_size o = size.
Proof. exact C34_copies_proof. Qed.
Print Assumptions C34_copies.

(** C34, what the library reads. *)
Theorem C34_copy_read : forall R m e from to m' v,
  rep R m (ospan_ty e) from v ->
  os_copy_mem m from to = Some m' ->
  0 <= to < 2 ^ 63 ->
  (forall x, load m from 8 = Some x -> 0 <= from + sgnw 8 x < 2 ^ 63) ->
  (forall x, inR to 16 x -> ~ R x) ->
  rep (fun x => R x \/ inR to 16 x) m' (ospan_ty e) to v /\
  rep R m' (ospan_ty e) from v.
Proof. exact C34_copy_read_proof. Qed.
Print Assumptions C34_copy_read.

(** C35.  Missing: messages after the first failed decode; every later call is wrong. *)
Theorem C35_before_retry_partial : forall ns, Forall (fun n => n = 0%nat) ns ->
  forall c, In c (pjcat ns) -> c_said c = c_real c.
Proof. exact C35_before_retry_proof. Qed.
Print Assumptions C35_before_retry_partial.

Theorem C35_after_retry_wrong : forall n ns pre c post,
  pjcat (n :: ns) = pre ++ c :: post -> n <> 0%nat -> pre <> [] -> c_real c < c_said c.
Proof. exact C35_after_retry_proof. Qed.
Print Assumptions C35_after_retry_wrong.

Theorem C35_refuted : exists ns c, In c (pjcat ns) /\ c_real c < c_said c.
Proof. exact C35_refuted_proof. Qed.
Print Assumptions C35_refuted.
