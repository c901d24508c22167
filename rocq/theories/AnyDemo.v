(** C30 applied: a message whose variant planning splits, a width no accessor reads, and
    the types of schema files. *)
From Verif Require Import Base Types Transcode Spec Api Plan Schema Ends Claims
  MemFacts Round Space CoreFacts Check Demo Reflect ReflectFacts AnyFacts AnySplit Grammar Elab ElabSpec ElabClaims.

(** The demonstration object: the text has an inline hint, so its term is split. *)
Example C30_case : exists pr, planned demo [] pr /\ host demo = true /\ c_ints demo = true /\
  rep dsrc dmem demo dobj dval /\ known dval = true /\ msg_len pr dval < 2 ^ 63 /\
  pool_len (fst (fst (reflect_ty same_leaf (reflectable (p_head pr)) ([], [])))) < 2 ^ 31 /\
  7 + hsize (reflectable (p_head pr)) + space (reflectable (p_head pr)) dval < 256 /\
  exists fs x ts sz al, p_head pr = TStruct fs sz al /\ In (TVar x ts) (map f_ty fs) /\
    map t_name ts = ["num"; "text"; "text"; "undef"]%string.
Proof.
  exists (plan demo []). split; [apply plan_planned; vm_compute; auto|].
  split; [vm_compute; auto|]. split; [vm_compute; auto|].
  split; [apply rep_b_rep; vm_compute; reflexivity|]. split; [vm_compute; auto|].
  split; [vm_compute; auto|]. split; [vm_compute; auto|]. split; [vm_compute; auto|].
  cbv [plan]. eexists _, _, _, _, _. split; [vm_compute; reflexivity|].
  split; [right; left; reflexivity|]. reflexivity.
Qed.

(** An integer of 24 bits, as PJCreateIntType makes it (runtime.cpp l.89-97): it is sent and
    received, and AnyInt throws. *)
Definition u24 : ty := TInt 3 1 Unsigned.
Theorem C30_refuted_proof : exists s pr m obj v buf st dbuf dsize,
  host s = true /\ planned s [] pr /\ rep (inR obj 3) m s obj v /\ known v = true /\
  forall fconv same, (forall a b, same a b = true -> a = b) ->
    encode fconv pr s [] obj buf m = Ok st /\
    exists a l o, decode_any fconv same pr buf dbuf dsize (s_mem st) = AOk a l o /\
      ~ shows l (o_mem o) s a v.
Proof.
  exists u24, (plan u24 []), (bytes_at 1000 [5; 0; 1] nomem), 1000, (VInt 65541), 2000.
  eexists. exists 3000, 64.
  split; [vm_compute; auto|]. split; [apply plan_planned; vm_compute; auto|].
  split; [apply rep_b_rep; vm_compute; reflexivity|]. split; [vm_compute; auto|].
  intros fconv same E. split; [vm_compute; reflexivity|]. 
  eexists _, _, _. split; [vm_compute; reflexivity|].
  intro S. inversion S; subst. discriminate.
Qed.

(** Schema files have no such integers. *)
Lemma sane_c_ints : forall t, sane t -> c_ints t = true.
Proof.
  induction t as [w al sg|w al| |fs size al IH|x ts IH|e len esz al IH|e p IH]
    using ty_ind2; intro S; auto.
  - cbn [sane] in S. destruct S as [[-> | [-> | [-> | ->]]] _]; auto.
  - apply sane_struct in S as [_ S]. cbn [c_ints]. rewrite Forall_forall in *.
    apply forallb_forall. auto.
  - apply sane_var in S. destruct S as (_ & _ & _ & _ & S). cbn [c_ints]. rewrite Forall_forall in *.
    apply forallb_forall. intros t I. apply IH; auto. apply S; auto.
  - cbn [sane c_ints] in *. apply IH. tauto.
  - cbn [sane c_ints] in *. apply IH. tauto.
Qed.
Theorem C30_files_proof : forall b f flags root w loc n t,
  front b f flags root = Good (w, loc) -> In (n, t) (w_types w) -> c_ints t = true.
Proof. intros. eapply sane_c_ints, C50_sane_proof; eauto. Qed.
