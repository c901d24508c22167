(** C32: where C++ keeps the elements of a host type, stated for objects of the
    generated classes. *)
From Verif Require Import Base Types Transcode Spec Api Plan MemFacts Schema Ends Claims
  Round Space CoreFacts Check Demo Enum Refuted Cpp CppFacts.
Local Open Scope string_scope.
Local Open Scope Z_scope.

Lemma C32_host_described_proof : forall t, schema t = true -> cpp_ok t = true ->
  strides_ok t = true ->
  host (build t) = true /\ hsize (build t) <= csize t /\
  forall R m a v, holds R m t a v <-> rep R m (build t) a v.
Proof.
  intros t H C S. split; [apply build_host; auto|].
  apply schema_inv in H as [L _ _ _ _ _ _ _ _].
  split; [apply hsize_build_le; auto|]. intros. apply build_rep; auto.
Qed.

Lemma C32_round_trip_proof : forall fconv t tp pr S m obj v,
  schema t = true -> cpp_ok t = true -> strides_ok t = true ->
  planned (build t) tp pr ->
  holds S m t obj v -> known v = true -> msg_len pr v < 2 ^ 63 ->
  exists n, size_fn fconv pr (build t) [] false obj m = Some n /\
  forall buf, clear_of S buf n ->
  exists s, encode fconv pr (build t) [] obj buf m = Ok s /\
    forall m2 msg obj2 dbuf dsize,
      same_bytes n (s_mem s) buf m2 msg ->
      arena (build t) (inR msg n) obj2 dbuf dsize -> space (build t) v <= dsize ->
      exists o, decode fconv pr (build t) [] msg obj2 dbuf dsize m2 = DOk o /\
        0 <= o_size o /\
        holds (fun x => inR obj2 (csize t) x \/ inR dbuf dsize x) (o_mem o) t obj2 v /\
        forall R v2, holds R (o_mem o) t obj2 v2 -> v2 = v.
Proof.
  intros fconv t tp pr S m obj v H C ST P HO K ML.
  destruct (C32_host_described_proof t H C ST) as (HH & SZ & E).
  apply E in HO.
  destruct (C01_round_trip_proof fconv _ tp pr S m obj v HH P HO K ML) as (n & SN & X).
  exists n. split; auto. intros buf CL. destruct (X buf CL) as (s & EN & Y).
  exists s. split; auto. intros m2 msg obj2 dbuf dsize SB AR SP.
  destruct (Y m2 msg obj2 dbuf dsize SB AR SP) as (o & D & O & RP & U).
  exists o. split; auto. split; auto. split.
  - apply E. eapply rep_mono; [|exact RP]. intros x [I|I]; [left|auto].
    unfold inR in *. lia.
  - intros R v2 HO2. apply E in HO2. eauto.
Qed.

(** ** An array of two-byte integers *)
Definition r32_t := array u16 2.
Definition r32_mem := bytes_at 1000 [1; 0; 2; 0] nomem.

Lemma C32_refuted_proof : exists t m obj buf v w, forall fconv,
  schema t = true /\ cpp_ok t = true /\
  holds (inR obj (csize t)) m t obj v /\ w <> v /\
  exists s, encode fconv (plan (build t) []) (build t) [] obj buf m = Ok s /\
    rep (inR buf 4) (s_mem s) (p_head (plan (build t) [])) buf w.
Proof.
  exists r32_t, r32_mem, 1000, 3000, (VArr [VInt 1; VInt 2]), (VArr [VInt 1; VInt 512]).
  intro fconv. split; [reflexivity|]. split; [reflexivity|]. split.
  { cbn [holds r32_t array]. split; [reflexivity|]. intros i v N.
    destruct i as [|[|i]]; cbn in N; [| |destruct i; discriminate];
      injection N as <-; cbn [holds u16]; eexists; (split; [split; [|reflexivity]|reflexivity]);
      unfold inR; cbn; intros; lia. }
  split; [discriminate|].
  eexists. split; [vm_compute; reflexivity|].
  change (inR 3000 4) with (span_of 3000 3004). apply rep_b_rep. vm_compute. reflexivity.
Qed.

(** The element is also written in the wrong place: a decoder for the same type
    puts the second element one byte after the first. *)

(** ** A class of the generated headers *)
Definition cdecl : ty :=
  TStruct [mkField "id" (TInt 4 0 Unsigned) 0;
           mkField "pos" (TStruct [mkField "x" (TFloat 8 0) 0; mkField "u" TUnit 0;
                                   mkField "n" (TInt 2 0 Signed) 0] 0 0) 0;
           mkField "name" (TArr (TInt 1 0 Signless) 3 0 0) 0;
           mkField "c" (TVar (mkVar false 0 0 0 0 0 0)
              [tm "undef" TUnit 0; tm "red" TUnit 1; tm "blue" TUnit 300]) 0;
           mkField "body" (TVar (mkVar false 0 0 0 0 0 0)
              [tm "undef" TUnit 0;
               tm "text" (TVec (TInt 1 0 Signless) (mkVec 0 (-1) 4 0 0 0 0 0 RPointer 0 0 0 0 0)) 1;
               tm "num" (TInt 8 0 Signed) 2]) 0] 0 0.
Example cdecl_ok : schema cdecl = true /\ cpp_ok cdecl = true /\ strides_ok cdecl = true /\
  csize cdecl = 56 /\ calign cdecl = 8.
Proof. vm_compute. auto. Qed.
Example cdecl_layout :
  match build cdecl with
  | TStruct fs _ _ => map (fun f => (f_name f, f_off f, hsize (f_ty f))) fs
  | _ => []
  end = [("id", 0, 4); ("pos", 8, 16); ("name", 24, 3); ("c", 28, 2); ("body", 32, 24)].
Proof. vm_compute. reflexivity. Qed.
