(** C41: types used in several places. *)
From Verif Require Import Base Types Transcode Spec Gen Api Plan MemFacts Exec Main PlanConv PlanHoist
  PlanWf PlanLay PlanShape PlanKeep Schema Ends Claims
  Round Space CoreFacts Handlers Layouts Check Demo Refuted Nominal NominalFacts.
Local Open Scope string_scope.
Local Open Scope Z_scope.

(** The type at a position. *)
Fixpoint sub (t : ty) (q : pos) : option ty :=
  match q with
  | [] => Some t
  | n :: r =>
      match t with
      | TStruct fs _ _ =>
          match find_field n fs with Some f => sub (f_ty f) r | None => None end
      | TVar _ ts =>
          match find (fun t => String.eqb (t_name t) n) ts with
          | Some t => sub (t_ty t) r | None => None end
      | TArr e _ _ _ | TVec e _ => if String.eqb n "" then sub e r else None
      | _ => None
      end
  end.
(** A name stands for one type. *)
Definition names_agree (nm : pos -> string) (t : ty) : Prop :=
  forall q q', In q (positions t) -> In q' (positions t) -> nm q = nm q' -> sub t q = sub t q'.

Lemma C41_shared_proof : forall fconv h tp tp' nm nm' h2 S m obj v,
  host h = true -> host h2 = true -> used_once nm h tp -> used_once nm' h tp' ->
  receives h2 h = true -> rep S m h obj v -> known v = true ->
  msg_len (nplan nm h tp) v < 2 ^ 63 -> msg_len (nplan nm' h tp') v < 2 ^ 63 ->
  exists v', delivers fconv h (nplan nm h tp) h2 S m obj v v' /\
             delivers fconv h (nplan nm' h tp') h2 S m obj v v'.
Proof.
  intros fconv h tp tp' nm nm' h2 S m obj v H H2 U U' R P K L L'.
  assert (SC : schema h = true) by (unfold host in H; apply andb_true_iff in H; tauto).
  apply (C21_plan_invisible_proof fconv h h tp tp' _ _ h2 S m obj v); auto;
    apply nplan_planned; auto.
Qed.

(** The assertions hold. *)
Lemma no_outline_one : forall t, no_outline t = true -> one_outline t = true.
Proof.
  induction t as [w al s|w al| |fs size al IH|x ts IH|e len esz al IH|e p IH]
    using ty_ind2; intro H; auto; cbn [no_outline one_outline] in *; try rewrite Forall_forall in IH.
  - rewrite forallb_forall in H. apply andb_true_iff. split.
    + replace (filter (fun f => has_outline (f_ty f)) fs) with (@nil (field ty)); auto.
      symmetry. induction fs as [|f r IHr]; auto. cbn [filter].
      rewrite PlanLay.no_outline_has by (apply H; left; auto).
      apply IHr; intros; [apply IH|apply H]; try right; auto.
    + apply forallb_forall. auto.
  - apply andb_true_iff in H as [_ H]. rewrite forallb_forall in H. apply forallb_forall. auto.
Qed.

Lemma has_outline_set : forall o t, has_outline (set_term_off o t) = has_outline t.
Proof.
  intro o. induction t as [w al s|w al| |fs size al IH|x ts IH|e len esz al IH|e p IH]
    using ty_ind2; auto; cbn [set_term_off has_outline].
  - induction IH as [|f r Hf Hr IHr]; auto. cbn [map existsb f_ty]. rewrite Hf, IHr. auto.
  - destruct (x_outline x) eqn:X; cbn [has_outline x_outline]; auto.
Qed.

Lemma tame_one : forall o t, tame t = true -> one_outline (set_term_off o t) = true.
Proof.
  intro o. induction t as [w al s|w al| |fs size al IH|x ts IH|e len esz al IH|e p IH]
    using ty_ind2; intro H; auto; cbn [set_term_off tame] in *.
  - apply andb_true_iff in H as [C H]. rewrite forallb_forall in H. rewrite Forall_forall in IH.
    cbn [one_outline]. apply andb_true_iff. split.
    + unfold count in C. rewrite <- C. f_equal. clear. induction fs as [|f r IHr]; auto.
      cbn [map filter f_ty]. rewrite has_outline_set.
      destruct (has_outline (f_ty f)); cbn [List.length]; auto.
    + apply forallb_forall. intros f I. apply in_map_iff in I as (g & <- & I). cbn [f_ty]. auto.
  - assert (E : forallb (fun t => one_outline (t_ty t)) ts = true).
    { rewrite forallb_forall in *. intros t I. apply no_outline_one; auto. }
    destruct (x_outline x); auto.
  - cbn [one_outline]. apply no_outline_one; auto.
  - cbn [one_outline]. apply no_outline_one; auto.
Qed.

Lemma C41_checked_proof : forall nm h tp, schema h = true -> used_once nm h tp ->
  nplan_checked nm h tp = Some (nplan nm h tp).
Proof.
  intros nm h tp SC U. unfold nplan_checked.
  assert (O : one_outline (p_head (nplan nm h tp)) = true); [|rewrite O; auto].
  unfold schema in SC. repeat rewrite andb_true_iff in SC.
  destruct SC as [[[[[[[[L R] NM] PL] NO] FR] FL] HO] CA].
  unfold nplan. rewrite outlined_once by auto.
  destruct (outline_or_keeps h tp NO) as (K1 & K2 & K3 & K4).
  set (t := hoist_where _ _).
  assert (T : lay_ok t = true) by (apply hoist_where_lay; auto).
  rewrite offsets_ok by auto. unfold gen_offsets.
  pose proof (layout_tame t T) as TM. destruct (has_outline (layout t)) eqn:X; cbn [p_head].
  - apply tame_one; auto.
  - rewrite <- (set_off_none 0 (layout t)) by auto. apply tame_one; auto.
Qed.

(** ** The same struct twice, the tag path through one of them *)
Definition r41_v := variant 0 [tm "undef" TUnit 0; tm "n" u32 1; tm "m" u16 2].
Definition r41_a := struct [("v", r41_v)].
Definition r41_h := struct [("f", r41_a); ("g", r41_a)].
Definition r41_nm (q : pos) : string :=
  match q with [] => "H" | [_] => "A" | [_; _] => "V" | [_; _; n] => n | _ => "" end.
Definition r41_p := ["f"; "v"; "_"].
Definition r41_mem := bytes_at 1000 [1;0;0;0; 1;0;0;0; 2;0;0;0; 1;0;0;0] nomem.
Definition r41_val :=
  VStruct [("f", VStruct [("v", VVar "n" (VInt 1))]); ("g", VStruct [("v", VVar "n" (VInt 2))])].

Lemma C41_refuted_proof : exists nm h p m obj v, forall fconv,
  host h = true /\ names_agree nm h /\ rep (inR obj (hsize h)) m h obj v /\ known v = true /\
  (* with assertions the program stops here *)
  nplan_checked nm h p = None /\
  (* without, encode writes behind the size it announced, and decode goes wrong *)
  exists n buf s x,
    size_fn fconv (nplan nm h p) h [] false obj m = Some n /\
    encode fconv (nplan nm h p) h [] obj buf m = Ok s /\
    ~ inR buf n x /\ s_mem s x <> m x /\
    exists dst dbuf dsize, arena h (inR buf n) dst dbuf dsize /\
      decode fconv (nplan nm h p) h [] buf dst dbuf dsize (s_mem s) = DUB.
Proof.
  exists r41_nm, r41_h, r41_p, r41_mem, 1000, r41_val. intro fconv.
  split; [reflexivity|]. split.
  { intros q q' I I'. cbn in I, I'.
    repeat destruct I as [<-|I]; try contradiction;
      repeat destruct I' as [<-|I']; try contradiction; cbn; intro E; try discriminate E; reflexivity. }
  split.
  { change (inR 1000 (hsize r41_h)) with (span_of 1000 1016). apply rep_b_rep. vm_compute. reflexivity. }
  split; [reflexivity|]. split; [vm_compute; reflexivity|].
  exists 6, 3000, (mkSt (encoded (encode fconv (nplan r41_nm r41_h r41_p) r41_h [] 1000 3000 r41_mem)) 3006 0 None), 3008.
  split; [vm_compute; reflexivity|]. split; [vm_compute; reflexivity|].
  split; [ranges|]. split; [vm_compute; discriminate|].
  exists 5000, 6000, 100. split.
  { constructor; try ranges. all: intros; ranges. }
  vm_compute. reflexivity.
Qed.

(** ** A shared type next to the tag path: the hypotheses can be met *)
Definition ex41_h := struct [("f", r41_a); ("g", struct [("w", r41_v); ("l", span r41_v (-1) 0)])].
Definition ex41_nm (q : pos) : string :=
  match sub ex41_h q with
  | Some (TVar _ _) => "V" | Some (TVec _ _) => "vec" | Some TUnit => "unit"
  | Some (TInt w _ _) => if w =? 4 then "int" else "short"
  | _ => match q with [] => "H" | ["f"] => "A" | _ => "B" end
  end.
Example ex41_agree : names_agree ex41_nm ex41_h.
Proof.
  intros q q' I I'. cbn in I, I'.
  repeat destruct I as [<-|I]; try contradiction;
    repeat destruct I' as [<-|I']; try contradiction; cbn; intro E; try discriminate E; reflexivity.
Qed.
Example ex41_once : used_once ex41_nm ex41_h ["f"; "v"; "_"].
Proof.
  intros n r q E I. cbn in E. injection E as <- <-. cbn in I.
  repeat destruct I as [<-|I]; try contradiction; cbn; intro N; try discriminate N; reflexivity.
Qed.
(** The variant at f.v is outlined, the other two uses of its type are not. *)
Example ex41_plan : has_outline (p_head (nplan ex41_nm ex41_h ["f"; "v"; "_"])) = true /\
  host ex41_h = true.
Proof. split; vm_compute; reflexivity. Qed.
