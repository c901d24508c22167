(** The operations generated do what [Api] says. *)
From Verif Require Import Base Types Transcode Gen Spec Api Plan MemFacts Exec Main MainVar PlanHoist Claims Schema Ends Round Space Other CoreFacts
  Handlers ApiFacts PlanLay PlanWf PlanConv PlanHoist PlanShape PlanKeep Serve Inflate RoundUp
  IR IRFacts IRRun Sizing SizingFacts SizingRun ApiOps.
Require Import Lia.

Lemma head_wf : forall s tp pr, schema s = true -> planned s tp pr -> wf (p_head pr) = true.
Proof.
  intros s tp pr HS (sel & ->). apply proto_ok_inv, (pl_ok _ _ (plan_where_facts sel s tp HS)).
Qed.

Lemma encode_ops_ok : forall fconv n pr h p obj buf m,
  wf h = true -> wf (p_head pr) = true -> (depth (p_head pr) <= n)%nat ->
  encode_ops fconv n pr h p obj buf m = encode fconv pr h p obj buf m.
Proof.
  intros fconv n pr h p obj buf m Wh W L. unfold encode_ops, encode. destruct (gen _ _ _ _); auto.
  exact (top_ok fconv KRaw h (p_head pr) p [] n obj buf _ Wh W L).
Qed.
Lemma decode_ops_ok : forall fconv n pr h hs msg obj dbuf dsize m,
  wf h = true -> wf (p_head pr) = true -> (depth h <= n)%nat ->
  decode_ops fconv n pr h hs msg obj dbuf dsize m = decode fconv pr h hs msg obj dbuf dsize m.
Proof.
  intros fconv n pr h hs msg obj dbuf dsize m Wh W L. unfold decode_ops, decode. destruct (gen _ _ _ _); auto.
  cbn [run_body].
  now rewrite (top_ok fconv KBounded (p_head pr) h [] hs n msg obj (mkSt m dbuf dsize None) W Wh L).
Qed.
Lemma size_ops_ok : forall fconv r tol n pr h p obj m z,
  (r = true -> tol = true) ->
  wf h = true -> wf (p_head pr) = true -> (depth (p_head pr) <= n)%nat ->
  size_fn fconv pr h p r obj m = Some z ->
  size_ops fconv tol n pr h p r obj m = Some (z, m).
Proof.
  intros fconv r tol n pr h p obj m z Ht Wh W L E. unfold size_ops, size_fn in *.
  destruct (gen _ _ _ _); [|discriminate].
  destruct (xc _ _ _ _ _ _ _ _ _) as [s| | |] eqn:X; try discriminate.
  destruct (left_ok fconv r tol Ht _ _ _ _ _ _ _ Wh W L X) as [-> ->]. congruence.
Qed.

Lemma C54_same_proof : forall fconv s tp pr h,
  schema s = true -> host h = true -> planned s tp pr ->
  (forall n p obj buf m, (depth (p_head pr) <= n)%nat ->
     encode_ops fconv n pr h p obj buf m = encode fconv pr h p obj buf m) /\
  (forall n hs msg obj dbuf dsize m, (depth h <= n)%nat ->
     decode_ops fconv n pr h hs msg obj dbuf dsize m = decode fconv pr h hs msg obj dbuf dsize m).
Proof.
  intros fconv s tp pr h HS HH P. destruct (host_inv _ HH) as [_ W]. assert (Wh := head_wf _ _ _ HS P).
  split; intros; [now apply encode_ops_ok|now apply decode_ops_ok].
Qed.

(** The whole way of a message, operation by operation. *)
Definition delivers_ops (fconv : Z -> Z -> Z -> Z) (n : nat) (h1 : ty) (pr : proto) (h2 : ty)
           (S : Z -> Prop) (m : mem) (obj : Z) (v v' : val) : Prop :=
  exists z, size_ops fconv false n pr h1 [] false obj m = Some (z, m) /\
  forall buf, clear_of S buf z ->
  exists s, encode_ops fconv n pr h1 [] obj buf m = Ok s /\
    s_ptr s = buf + z /\ (forall x, ~ inR buf z x -> s_mem s x = m x) /\
    forall m2 msg obj2 dbuf dsize,
      same_bytes z (s_mem s) buf m2 msg ->
      arena h2 (inR msg z) obj2 dbuf dsize -> space h2 v <= dsize ->
      exists o, decode_ops fconv n pr h2 [] msg obj2 dbuf dsize m2 = DOk o /\
        0 <= o_size o /\
        (forall x, ~ inR obj2 (hsize h2) x -> ~ inR dbuf dsize x -> o_mem o x = m2 x) /\
        rep (fun x => inR obj2 (hsize h2) x \/ inR dbuf dsize x) (o_mem o) h2 obj2 v' /\
        forall R v2, rep R (o_mem o) h2 obj2 v2 -> v2 = v'.

Lemma delivered_ops : forall fconv h1 tp pr h2 S m obj v n,
  host h1 = true -> host h2 = true -> planned h1 tp pr -> receives h2 h1 = true ->
  rep S m h1 obj v -> known v = true -> msg_len pr v < 2 ^ 63 ->
  (depth (p_head pr) <= n)%nat -> (depth h2 <= n)%nat ->
  exists v', gets fconv h2 v v' /\ convt fconv h2 v = Some v' /\
    delivers_ops fconv n h1 pr h2 S m obj v v'.
Proof.
  intros fconv h1 tp pr h2 S m obj v n H1 H2 P RC R K FIN L1 L2.
  pose proof (host_schema _ H1) as HS. assert (W := head_wf _ _ _ HS P).
  destruct (host_inv _ H1) as [_ W1]. destruct (host_inv _ H2) as [_ W2].
  destruct P as (sel & ->).
  destruct (deliver fconv sel h1 tp h2 S m obj v H1 H2 RC R K FIN) as (SZ & v' & G & CV & X).
  exists v'. split; [exact G|]. split; [exact CV|].
  exists (msg_len (plan_where sel h1 tp) v). split.
  { apply size_ops_ok; auto. }
  intros buf CL. destruct (X buf CL) as (s & E & Q & F & Y).
  exists s. rewrite encode_ops_ok by auto. repeat split; auto.
  intros m2 msg obj2 dbuf dsize SB AR ND.
  pose proof (dec_need_space h2 v dbuf H2) as SP.
  destruct (Y m2 msg obj2 dbuf dsize [] SB AR) as (o & D & B & Z & _).
  { destruct AR. lia. }
  { apply handlers_fit_nil. }
  destruct Z as (_ & Z2 & _ & _ & Z5); [lia|].
  exists o. rewrite decode_ops_ok by auto. split; [exact D|]. split; [lia|]. split; [exact B|].
  assert (RR : rep (fun x => inR obj2 (hsize h2) x \/ inR dbuf dsize x) (o_mem o) h2 obj2 v').
  { eapply rep_mono; [|exact Z5]. intros x [Hx|Hx]; auto. right. unfold inR in *. lia. }
  split; [exact RR|]. intros R' v2 R2. eapply rep_det; eauto.
Qed.

Lemma C54_delivers_proof : forall fconv h1 tp pr h2 S m obj v n,
  host h1 = true -> host h2 = true -> planned h1 tp pr -> receives h2 h1 = true ->
  rep S m h1 obj v -> known v = true -> msg_len pr v < 2 ^ 63 ->
  (depth (p_head pr) <= n)%nat -> (depth h2 <= n)%nat ->
  exists v', gets fconv h2 v v' /\ delivers_ops fconv n h1 pr h2 S m obj v v'.
Proof.
  intros fconv h1 tp pr h2 S m obj v n H1 H2 P RC R K FIN L1 L2.
  destruct (delivered_ops fconv h1 tp pr h2 S m obj v n H1 H2 P RC R K FIN L1 L2) as (v' & A & _ & B). eauto.
Qed.
Lemma C54_round_trip_proof : forall fconv h tp pr S m obj v n,
  host h = true -> planned h tp pr ->
  rep S m h obj v -> known v = true -> msg_len pr v < 2 ^ 63 ->
  (depth (p_head pr) <= n)%nat -> (depth h <= n)%nat ->
  delivers_ops fconv n h pr h S m obj v v.
Proof.
  intros fconv h tp pr S m obj v n H P R K FIN L1 L2.
  destruct (delivered_ops fconv h tp pr h S m obj v n H H P (receives_self _ (host_schema _ H)) R K FIN L1 L2)
    as (v' & _ & CV & D).
  destruct P as (sel & ->).
  destruct (known_planned fconv sel h tp S m obj v H R K) as [A _].
  unfold PlanHoist.acc in A. congruence.
Qed.

(** ** C55 *)
Lemma C55_exact_proof : forall fconv h tp pr S m obj v n,
  host h = true -> planned h tp pr ->
  rep S m h obj v -> known v = true -> msg_len pr v < 2 ^ 63 ->
  (depth (p_head pr) <= n)%nat ->
  exists z, size_ops fconv false n pr h [] false obj m = Some (z, m) /\
  forall buf, clear_of S buf z ->
  exists s, encode_ops fconv n pr h [] obj buf m = Ok s /\
    s_ptr s = buf + z /\
    (forall x, ~ inR buf z x -> s_mem s x = m x) /\
    rep (inR buf z) (s_mem s) (p_head pr) buf v.
Proof.
  intros fconv h tp pr S m obj v n H P R K FIN L.
  destruct (host_inv _ H) as [_ W1]. assert (W := head_wf _ _ _ (host_schema _ H) P).
  destruct (C03_size_exact_proof fconv h tp pr S m obj v H P R K FIN) as (z & SZ & X).
  exists z. split. { now apply size_ops_ok. }
  intros buf CL. destruct (X buf CL) as (s & E & Q & _ & RP).
  destruct (C05_encode_footprint_proof fconv h tp pr S m obj v H P R K FIN buf z SZ CL) as (s' & E' & F).
  assert (s' = s) by congruence. subst s'.
  exists s. rewrite encode_ops_ok by auto. auto.
Qed.

Lemma C55_serves_proof : forall fconv s tp pr h q S m obj v n,
  schema s = true -> host h = true -> planned s tp pr -> serves s tp h = true ->
  rep S m h obj v -> known v = true -> pathv v q = true ->
  msg_len pr (infl h v) < 2 ^ 63 -> (depth (p_head pr) <= n)%nat ->
  exists z z',
    size_fn fconv pr h q false obj m = Some z /\
    size_ops fconv false n pr h q false obj m = Some (z, m) /\
    size_ops fconv true n pr h q true obj m = Some (z', m) /\ z <= z'.
Proof.
  intros fconv s tp pr h q S m obj v n SC H P V R K Q FIN L.
  destruct (host_inv _ H) as [_ W1]. assert (W := head_wf _ _ _ SC P).
  destruct (C04_round_up_proof fconv s tp pr h q S m obj v SC H P V R K Q FIN) as (z & z' & A & B & C).
  exists z, z'. split; auto. split; [|split; auto]; now apply size_ops_ok.
Qed.
