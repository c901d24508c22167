(** C45 and C56: concrete cases, and the one that goes wrong. *)
From Coq Require Import Lia.
From Verif Require Import Base Types Transcode Gen Spec Api Plan Schema Ends Claims MemFacts
  Round Space CoreFacts Check Demo Copies CopiesMore Flat FlatFacts FlatRun.
From Verif Require CopiesFacts.
Import CopiesFacts.
Local Open Scope string_scope.
Local Open Scope Z_scope.

Ltac calc := vm_compute; reflexivity.

(** Eight bytes are poisoned, another instruction stores the fourth, the last three are copied: the
    store writes what the poison covers, which C45_block_partial does not allow, but no copy can grow
    over it. *)
Definition late_block : list instr :=
  [ICopy (Copy None 1 0 0 8) []; IOther 7; ICopy (Copy (Some 0%nat) 1 5 5 3) []].
Example late_block_ok : forall max,
  sound ex_loc (fun _ => ex_store 103 1) (ex_alias 103) /\
  between_ok max ex_loc (fun _ => ex_store 103 1) late_block /\
  quiet max ex_loc (fun _ => ex_store 103 1) (ex_alias 103) empty_set late_block /\
  Forall cfit (copies_of late_block) /\ clear max ex_loc (copies_of late_block) /\
  (0 < max -> ~ trusted max ex_loc (fun _ => ex_store 103 1) late_block).
Proof.
  intros max. split; [apply ex_sound|]. split; [|split; [|split; [|split]]].
  - assert (N: forall c bs, In (ICopy c bs) late_block -> bs = []).
    { intros c bs I. simpl in I. destruct I as [I|[I|[I|[]]]]; try discriminate I; injection I as _ <-; auto. }
    constructor; intros; rewrite (N c bs) in *; auto; simpl in *; tauto.
  - simpl. split; auto. intros m x (d & r & Ed & Ir & H & R). exfalso.
    simpl in Ir. destruct Ir as [<-|[]]. unfold hot in H. simpl in H.
    rewrite andb_false_r in H. discriminate H.
  - repeat (apply Forall_cons; [unfold cfit; cbn [c_sb c_db c_len]; lia|]). apply Forall_nil.
  - intros c c' x I I' _ (s & Ss & X) T. unfold targets in T. simpl in I, I'.
    destruct I as [<-|[<-|[]]]; simpl in Ss; try discriminate; injection Ss as <-; simpl in X;
      destruct I' as [<-|[<-|[]]]; simpl in T; lia.
  - intros M [T _ _]. specialize (T 7%nat (fun _ => 0) 103). unfold ex_store in T. simpl in T.
    discriminate T; auto. exists (Copy None 1 0 0 8). unfold targets. simpl. split; auto. split; auto. lia.
Qed.

(** * A struct of numbers *)

Definition pt : ty := struct [("x", u16); ("y", f64)].
Definition rec : ty := struct [("a", u8); ("b", u32); ("p", pt); ("c", i16)].
Definition rpr : proto := plan rec [].
Definition row (a : Z) (l : list Z) (b : bytes) : bytes :=
  fun x => if (a <=? x) && (x <? a + Z.of_nat (List.length l)) then nth (Z.to_nat (x - a)) l 0 else b x.
(** Nothing is known of the other bytes: here they are all 170. *)
Definition rest : bytes := fun _ => 170.
Definition robj : Z := 1000.
Definition rmem : bytes :=
  row robj [7; 9;9;9; 1;2;3;4; 5;1; 9;9;9;9;9;9; 0;0;0;0;0;0;240;63; 254;255; 9;9;9;9;9;9] rest.
Definition rval : val :=
  VStruct [("a", VInt 7); ("b", VInt 67305985);
           ("p", VStruct [("x", VInt 261); ("y", VFloat 8 4607182418800017408)]); ("c", VInt (-2))].

Lemma span_inR : forall a n (R : Z -> Prop) m t x v, rep (span_of a n) m t x v ->
  (forall y, span_of a n y -> R y) -> rep R m t x v.
Proof. intros. eapply rep_mono; eauto. Qed.

Example rec_meets : host rec = true /\ numeric rec = true /\ planned rec [] rpr /\
  rep (inR robj (hsize rec)) (held rmem) rec robj rval /\
  away robj (hsize rec) 3000 (hsize (p_head rpr)).
Proof.
  split; [calc|]. split; [calc|]. split; [apply plan_planned; calc|]. split.
  - eapply span_inR with (a := 1000) (n := 1032).
    + apply rep_b_rep. calc.
    + intros y Y. unfold span_of in Y. unfold inR, robj. change (hsize rec) with 32. lia.
  - left. vm_compute. discriminate.
Qed.

(** Both directions: what encode writes, copied to 5000, is decoded to 7000. *)
Example rec_round_trip : forall fconv max safe, exists b' b3,
  encode_merged fconv max safe (noalias 32 17) rpr rec robj 3000 rmem = Some b' /\
  decode_merged fconv max safe (noalias 17 32) rpr rec 5000 7000
    (fun x => if (5000 <=? x) && (x <? 5017) then b' (x - 2000) else 170) = Some b3 /\
  (forall x, ~ inR 7000 32 x -> 5017 <= x -> b3 x = 170) /\
  rep (inR 7000 32) (held b3) rec 7000 rval.
Proof.
  intros fconv max safe. destruct rec_meets as (H1 & H2 & H3 & H4 & H5).
  assert (Hp: hsize (p_head rpr) = 17) by calc.
  assert (Hw: wf (p_head rpr) = true) by calc.
  destruct (C56_round_trip_proof fconv max safe (noalias 32 17) (noalias 17 32) rec [] rpr robj 3000 rmem rval)
    as (b' & E & O & D); auto; [calc|lia|rewrite Hp; calc| |].
  - change (noalias 32 17) with (noalias (hsize rec) (hsize (p_head rpr))).
    apply noalias_sound; auto; calc.
  - rewrite Hp in *.
    destruct (D (fun x => if (5000 <=? x) && (x <? 5017) then b' (x - 2000) else 170) 5000 7000)
      as (b3 & D1 & D2 & D3).
    + intros i I. unfold held. destruct (Z.leb_spec 5000 (5000 + i)); [|lia].
      destruct (Z.ltb_spec (5000 + i) 5017); [|lia]. cbn [andb].
      replace (5000 + i - 2000) with (3000 + i) by lia. auto.
    + lia.
    + change (hsize rec) with 32. lia.
    + left. change (hsize rec) with 32. lia.
    + change (noalias 17 32) with (noalias (hsize (p_head rpr)) (hsize rec)).
      apply noalias_sound; auto; calc.
    + exists b', b3. split; auto. split; auto. split; auto. intros x X Y.
      rewrite D2 by auto. destruct (Z.ltb_spec x 5017); [lia|]. rewrite andb_false_r. auto.
Qed.

(** A field of another width, and two the sender does not have, one of them a struct: the code is
    orderly, as nothing is copied to before that struct. *)
Definition newer : ty := struct [("q", pt); ("b", u32); ("a", u16); ("z", u8); ("c", i16)].
Definition npr : proto := plan (struct [("c", i16); ("b", u32); ("a", u8)]) [].
Definition nmem : bytes := row 5000 [254;255; 1;2;3;4; 7] rest.
Definition nval : val := VStruct [("c", VInt (-2)); ("b", VInt 67305985); ("a", VInt 7)].
Definition gval : val :=
  VStruct [("q", VStruct [("x", VInt 0); ("y", VFloat 8 (float_default 8))]); ("b", VInt 67305985);
           ("a", VInt 7); ("z", VInt 0); ("c", VInt (-2))].
Example newer_meets : let s := struct [("c", i16); ("b", u32); ("a", u8)] in
  schema s = true /\ host newer = true /\ numeric newer = true /\ planned s [] npr /\
  receives newer s = true /\ message s npr (held nmem) (inR 5000 (hsize (p_head npr))) 5000 nval /\
  code_orderly newer (p_head npr) = true.
Proof.
  intros s. split; [calc|]. split; [calc|]. split; [calc|]. split; [apply plan_planned; calc|].
  split; [calc|]. split; [|calc]. split.
  - intros fc. apply convt_gets; calc.
  - eapply span_inR with (a := 5000) (n := 5007).
    + apply rep_b_rep. calc.
    + intros y Y. unfold span_of in Y. unfold inR. change (hsize (p_head npr)) with 7. lia.
Qed.
Example newer_decoded : forall fconv max safe, exists b',
  decode_merged fconv max safe (noalias 7 32) npr newer 5000 7000 nmem = Some b' /\
  (forall x, ~ inR 7000 32 x -> b' x = nmem x) /\ rep (inR 7000 32) (held b') newer 7000 gval.
Proof.
  intros fconv max safe. destruct newer_meets as (H1 & H2 & H3 & H4 & H5 & H6 & H7).
  destruct (C56_decode_proof fconv max safe (noalias 7 32) _ [] npr newer 5000 7000 nmem nval H1 H2 H3 H4 H5 H6)
    as (v' & b' & G & D & O & R); auto; [calc|lia|calc| | |].
  - left. vm_compute. discriminate.
  - change (noalias 7 32) with (noalias (hsize (p_head npr)) (hsize newer)).
    apply noalias_sound; try calc. left. vm_compute. discriminate.
  - exists b'. split; auto. split; auto.
    replace gval with v'; auto. eapply C02_rules_determine_proof; [| |exact G|]; try calc.
    apply convt_gets; calc.
Qed.

(** * The struct that starts with a default *)

(** The sender has three numbers and a fourth; the receiver has a struct in between, whose one field
    is new to it.  The receiver should find 0 there. *)
Definition small : ty := struct [("a", u8); ("b", u8); ("c", u8); ("d", u8)].
Definition grown : ty := struct [("a", u8); ("b", u8); ("c", u8); ("in", struct [("n", u8)]); ("d", u8)].
Definition spr : proto := plan small [].
Definition smem : bytes := row 5000 [1; 2; 3; 4] rest.
Definition sval : val := VStruct [("a", VInt 1); ("b", VInt 2); ("c", VInt 3); ("d", VInt 4)].
Definition after (n : Z) : val :=
  VStruct [("a", VInt 1); ("b", VInt 2); ("c", VInt 3); ("in", VStruct [("n", VInt n)]); ("d", VInt 4)].

Lemma C56_decode_refuted_proof : exists max safe s pr h msg obj b v v' w,
  schema s = true /\ host h = true /\ numeric h = true /\ planned s [] pr /\ receives h s = true /\
  message s pr (held b) (inR msg (hsize (p_head pr))) msg v /\
  hsize (p_head pr) < 2 ^ 63 /\ 0 <= obj /\ obj + hsize h < 2 ^ 63 /\
  away msg (hsize (p_head pr)) obj (hsize h) /\
  forall fconv, exists b', al_sound fconv (noalias (hsize (p_head pr)) (hsize h)) h (p_head pr) msg obj /\
    gets fconv h v v' /\
    decode_merged fconv max safe (noalias (hsize (p_head pr)) (hsize h)) pr h msg obj b = Some b' /\
    rep (inR obj (hsize h)) (held b') h obj w /\ w <> v'.
Proof.
  exists 8, (fun _ _ _ => true), small, spr, grown, 5000, 7000, smem, sval, (after 0).
  exists (after 4).
  split; [calc|]. split; [calc|]. split; [calc|]. split; [apply plan_planned; calc|]. split; [calc|].
  split.
  { split.
    - intros fc. apply convt_gets; calc.
    - eapply span_inR with (a := 5000) (n := 5004).
      + apply rep_b_rep. calc.
      + intros y Y. unfold span_of in Y. unfold inR. change (hsize (p_head spr)) with 4. lia. }
  split; [calc|]. split; [lia|]. split; [calc|]. split; [left; vm_compute; discriminate|].
  intros fconv. eexists. split.
  { apply noalias_sound; try calc. left. vm_compute. discriminate. }
  split; [apply convt_gets; calc|]. split; [reflexivity|].
  split; [|discriminate].
  eapply span_inR with (a := 7000) (n := 7005).
  + apply rep_b_rep. calc.
  + intros y Y. unfold span_of in Y. unfold inR. change (hsize grown) with 5. lia.
Qed.
