(** A checker for [rep], so that concrete objects can be given by computation. *)
From Verif Require Import Base Types Transcode Spec.

Section CHECK.
Variables (lo hi : Z) (m : mem).

Definition within (a w : Z) : bool := (lo <=? a) && (a + w <=? hi).
Definition loadb (a w u : Z) : bool :=
  within a w && match load m a w with Some x => x =? u | None => false end.

Fixpoint each_b (f : Z -> val -> bool) (i : Z) (l : list val) : bool :=
  match l with [] => true | v :: r => f i v && each_b f (i + 1) r end.

Definition vec_b (f : Z -> val -> bool) (p : vecinfo) (a : Z) (l : list val) : bool :=
  let n := Z.of_nat (List.length l) in
  (n <? 2 ^ 63) && (n <=? bound p) &&
  ((v_max p =? 0) || loadb (a + v_len_off p) (v_len_sz p) n) &&
  if dst_inline p n || (n <=? v_ppl p)
  then each_b (fun i v => f (elem_addr p a 0 n i) v) 0 l
  else match load m (a + v_ref_off p) (v_ref_sz p) with
       | Some x =>
           within (a + v_ref_off p) (v_ref_sz p) &&
           each_b (fun i v => f (elem_addr p a (ref_start p a x) n i) v) 0 l
       | None => false
       end.

Fixpoint rep_b (t : ty) (a : Z) (v : val) : bool :=
  match t, v with
  | TInt w _ sg, VInt z =>
      within a w && match load m a w with Some u => z =? interp w sg u | None => false end
  | TFloat w _, VFloat w' b => (w' =? w) && loadb a w b
  | TUnit, VUnit => true
  | TStruct fs _ _, VStruct l =>
      (fix go fs l :=
         match fs, l with
         | [], [] => true
         | f :: fs', nv :: l' =>
             String.eqb (fst nv) (f_name f) && rep_b (f_ty f) (a + f_off f) (snd nv) &&
             go fs' l'
         | _, _ => false
         end) fs l
  | TVar x ts, VVar n v' =>
      (fix go ts :=
         match ts with
         | [] => false
         | t :: ts' =>
             (String.eqb (t_name t) n &&
              loadb (a + x_tag_off x) (x_tag_w x) (t_tag t) &&
              rep_b (t_ty t) (a + x_term_off x) v')
             || go ts'
         end) ts
  | TArr e len esz _, VArr l =>
      (Z.of_nat (List.length l) =? len) &&
      each_b (fun i v => rep_b e (a + i * esz) v) 0 l
  | TVec e p, VVec l => vec_b (rep_b e) p a l
  | _, _ => false
  end.

Definition span_of (x : Z) : Prop := lo <= x < hi.

Lemma within_R : forall a w, within a w = true -> forall x, inR a w x -> span_of x.
Proof.
  unfold within, inR, span_of. intros a w H x X. apply andb_true_iff in H as [H1 H2]. lia.
Qed.
Lemma loadb_R : forall a w u, loadb a w u = true -> loadR span_of m a w u.
Proof.
  unfold loadb. intros a w u H. apply andb_true_iff in H as [H1 H2].
  split; [apply within_R; auto|]. destruct (load m a w); [|discriminate].
  apply Z.eqb_eq in H2. subst. auto.
Qed.
Lemma each_b_nth : forall f l k, each_b f k l = true ->
  forall i v, nth_error l i = Some v -> f (k + Z.of_nat i) v = true.
Proof.
  intros f. induction l as [|x l IH]; intros k H i v N; [destruct i; discriminate|].
  cbn in H. apply andb_true_iff in H as [H1 H2]. destruct i as [|i].
  - injection N as <-. replace (k + Z.of_nat 0) with k by lia. auto.
  - replace (k + Z.of_nat (S i)) with (k + 1 + Z.of_nat i) by lia. apply IH; auto.
Qed.

Theorem rep_b_rep : forall t a v, rep_b t a v = true -> rep span_of m t a v.
Proof.
  induction t as [w al sg|w al| |fs size al IH|x ts IH|e len esz al IH|e p IH]
    using ty_ind2; intros a v H; destruct v; try discriminate H.
  - cbn in H. apply andb_true_iff in H as [H1 H2].
    destruct (load m a w) as [u|] eqn:L; [|discriminate]. apply Z.eqb_eq in H2. cbn.
    exists u. split; auto. split; auto. apply within_R; auto.
  - cbn in H. apply andb_true_iff in H as [H1 H2]. apply Z.eqb_eq in H1. cbn.
    split; auto. apply loadb_R; auto.
  - exact I.
  - cbn in *. revert l H. induction IH as [|f fs Hf IH IHr]; intros l H; destruct l as [|nv l];
      try discriminate; auto.
    apply andb_true_iff in H as [H H2]. apply andb_true_iff in H as [H0 H1].
    apply String.eqb_eq in H0. split; [auto|apply IHr; exact H2].
  - cbn in *. induction IH as [|t ts Ht IH IHr]; [discriminate|].
    apply orb_true_iff in H as [H|H]; [left|right; apply IHr; exact H].
    apply andb_true_iff in H as [H H2]. apply andb_true_iff in H as [H0 H1].
    apply String.eqb_eq in H0. split; auto. split; auto. apply loadb_R; auto.
  - cbn in *. apply andb_true_iff in H as [H0 H]. apply Z.eqb_eq in H0. split; auto.
    intros i v N. apply IH. apply (each_b_nth _ _ _ H i v N).
  - cbn [rep rep_b] in *. unfold vec_b in H. unfold vec_rep. cbv zeta in *.
    set (n := Z.of_nat (List.length l)) in *.
    apply andb_true_iff in H as [H H3]. apply andb_true_iff in H as [H H2].
    apply andb_true_iff in H as [H0 H1]. split; [lia|]. split; [lia|]. split.
    { intro Z0. apply loadb_R. destruct (Z.eqb_spec (v_max p) 0); [congruence|]. auto. }
    destruct (dst_inline p n || (n <=? v_ppl p)) eqn:D.
    + exists 0. split.
      * intros A B. rewrite A in D. cbn in D. lia.
      * intros i v N. apply IH. apply (each_b_nth _ _ _ H3 i v N).
    + destruct (load m _ _) as [x|] eqn:L; [|discriminate].
      apply andb_true_iff in H3 as [H3 H4]. exists (ref_start p a x). split.
      * intros _ _. exists x. split; auto. split; auto. apply within_R; auto.
      * intros i v N. apply IH. apply (each_b_nth _ _ _ H4 i v N).
Qed.
End CHECK.
