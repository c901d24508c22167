(** C04: an object that meets the hypotheses, and one whose largest size does not
    fit the size type. *)
From Verif Require Import Base Types Transcode Spec Api Plan Schema Ends Claims Check Demo
  Round Space CoreFacts Other Serve Gen Inflate RoundUp.

(** ** The demo object: the list of points is filled up to its bound *)
Local Open Scope string_scope.
Local Open Scope Z_scope.
Example demo_rounds : forall fconv, let pr := plan demo ["body"; "_"] in
  schema demo = true /\ host demo = true /\ serves demo ["body"; "_"] demo = true /\
  rep dsrc dmem demo dobj dval /\ known dval = true /\
  msg_len pr (infl demo dval) < 2 ^ 63 /\
  size_fn fconv pr demo [] false dobj dmem = Some 46 /\
  size_fn fconv pr demo [] true dobj dmem = Some 55.
Proof.
  intros fconv pr. split; [vm_compute; reflexivity|]. split; [apply demo_host|].
  split; [vm_compute; reflexivity|]. split; [apply demo_rep|].
  split; [vm_compute; reflexivity|]. split; [vm_compute; reflexivity|].
  split; vm_compute; reflexivity.
Qed.

(** The same object with five points. *)
Example demo_filled :
  let m := bytes_at dobj [7;0;0;0; 0;0;0;0;
              208;7;0;0;0;0;0;0; 6;0;0;0;0;0;0;0; 1;0;0;0;0;0;0;0;
              1;2;200; 2; 0;0;0;0;
              8;8;0;0;0;0;0;0; 5;0;0;0;0;0;0;0]
 (bytes_at 2000 [104;101;108;108;111;33]
 (bytes_at 2056 [255;255;9;0; 5;0;6;0; 0;0;0;0; 0;0;0;0; 0;0;0;0] nomem)) in
  rep dsrc m demo dobj (infl demo dval).
Proof. apply rep_b_rep; vm_compute; reflexivity. Qed.

(** ** A vector of 8-byte numbers, at most 2^61 of them *)
Definition big : ty := span (TInt 8 8 Unsigned) 2305843009213693952 0.
Definition bmem : mem :=
  bytes_at 1000 [208;7;0;0;0;0;0;0; 2;0;0;0;0;0;0;0]
 (bytes_at 2000 [1;0;0;0;0;0;0;0; 2;0;0;0;0;0;0;0] nomem).
Definition bval : val := VVec [VInt 1; VInt 2].

Lemma loop_id : forall n i body s, (forall i, body i s = Ok s) -> loop n i body s = Ok s.
Proof. induction n; intros i body s H; cbn [loop]; auto. rewrite H. cbn [bind]. auto. Qed.

Lemma copy_id : forall e q r c f d n m run a s,
  (forall a d s, run e [] [] a d s = Ok s) ->
  (forall s, exists b, region_start (KDummy true) q r a (s_mem s) = Some b) ->
  copy_loop (KDummy true) e q r c f d n m run a s = Ok s.
Proof.
  intros e q r c f d n m run a s R H. unfold copy_loop, for_loop. apply loop_id. intro i.
  destruct (H s) as (b & ->). apply R.
Qed.

Lemma region_round : forall q r a s,
  exists b, region_start (KDummy true) q r a (s_mem s) = Some b.
Proof.
  intros q r a s. unfold region_start. destruct r; eauto.
  destruct (load _ _ _); [destruct (v_mode q)|]; cbn [is_round]; eauto.
Qed.

Lemma vec_round : forall de p run e q a d s n s1 s2,
  (forall a d s, run e [] [] a d s = Ok s) -> v_min q = 0 -> v_ppl q = 0 -> v_ppl p = 0 ->
  length_op (KDummy true) e q a (s_mem s) = Some n -> v_max p = n -> (n <? 0) = false ->
  dst_inline p n = false -> align (KDummy true) (halign de) s = Ok s1 ->
  allocate (KDummy true) (wrap64 (v_ew p * wrap64 n)) s1 = Ok s2 ->
  vec_run (KDummy true) de p run e q a d s = Ok s2.
Proof.
  intros de p run e q a d s n s1 s2 R M Q P L X N D A B.
  unfold vec_run. rewrite L, X, N, Z.min_id, M. cbn [negb andb Z.eqb do_store is_dummy].
  unfold outline_vec_run. rewrite M, D, Q, P, Z.sub_0_r. cbn [Z.ltb Z.compare andb Z.leb].
  change (do_store (KDummy true) (d + v_len_off p) (v_len_sz p) n s) with s.
  rewrite A. cbn [bind]. change (store_ref (KDummy true) p d s1) with s1.
  rewrite B. cbn [bind].
  rewrite copy_id; [|auto|intro; apply region_round]. cbn [bind].
  rewrite copy_id; [|auto|intro; apply region_round]. cbn [bind].
  apply copy_id; [auto|intro; apply region_round].
Qed.

Lemma size_of : forall fconv pr h obj m s,
  gen (p_head pr) h [] [] = true ->
  xc fconv (p_head pr) (KDummy true) h [] [] obj 0 (mkSt m 0 0 None) = Ok s ->
  size_fn fconv pr h [] true obj m = Some (wrap64 (s_ptr s + hsize (p_head pr))).
Proof. intros fconv pr h obj m s G X. unfold size_fn. rewrite G, X. reflexivity. Qed.

Definition bhead : ty := TVec (TInt 8 1 Unsigned)
  (mkVec 0 2305843009213693952 0 0 0 8 8 8 ROffset 8 16 8 16 1).
Lemma bhead_ok : plan big [] = mkProto bhead 0.
Proof. vm_compute. reflexivity. Qed.

Lemma big_round : forall fconv,
  size_fn fconv (plan big []) big [] true 1000 bmem = Some 16.
Proof.
  intro fconv. rewrite bhead_ok.
  rewrite (size_of fconv _ _ _ _ (mkSt bmem 0 0 None)).
  - vm_compute. reflexivity.
  - vm_compute. reflexivity.
  - cbn [p_head]. unfold bhead, big, span. cbn [xc].
    apply vec_round with (n := 2305843009213693952) (s1 := mkSt bmem 0 0 None);
      try reflexivity; vm_compute; reflexivity.
Qed.

Lemma C04_refuted_proof : exists h pr obj m v S,
  host h = true /\ planned h [] pr /\ serves h [] h = true /\
  rep S m h obj v /\ known v = true /\
  forall fconv, size_fn fconv pr h [] false obj m = Some 32 /\
                size_fn fconv pr h [] true obj m = Some 16.
Proof.
  exists big, (plan big []), 1000, bmem, bval, (span_of 1000 2100).
  split; [vm_compute; reflexivity|]. split; [exists (fun _ => false); vm_compute; reflexivity|].
  split; [vm_compute; reflexivity|].
  split; [apply rep_b_rep; vm_compute; reflexivity|]. split; [reflexivity|].
  intro fconv. split; [vm_compute; reflexivity|apply big_round].
Qed.
