(** Merging copies leaves the result alone: proofs about [Copies]. *)
From Coq Require Import Bool List ZArith Lia.
From Verif Require Import Copies.
Import ListNotations.
Local Open Scope Z_scope.

(** * The reading of the property *)

Definition bytes := Z -> Z.
Definition within (a n x : Z) : bool := (a <=? x) && (x <? a + n).

Definition do_copy (dst src len : Z) (m : bytes) : bytes :=
  fun x => if within dst len x then m (src + (x - dst)) else m x.

(** The emitted memcpys, source root at [s], destination root at [d]. *)
Fixpoint run_copies (s d : Z) (l : list mcpy) (m : bytes) : bytes :=
  match l with
  | [] => m
  | (od, os, n) :: l' => run_copies s d l' (do_copy (d + od) (s + os) n m)
  end.

(** [loc]: where the roots are; [act]: what the other instructions do. *)
Definition runs (act : nat -> bytes -> bytes) (l : list nat) (m : bytes) : bytes :=
  fold_left (fun m i => act i m) l m.

Fixpoint run_out (loc : nat -> Z) (act : nat -> bytes -> bytes) (l : list out) (m : bytes)
  : bytes :=
  match l with
  | [] => m
  | OOther i :: l' => run_out loc act l' (act i m)
  | OCopies s d c :: l' =>
      run_out loc act l' (run_copies (match s with Some r => loc r | None => 0 end) (loc d) c m)
  end.

(** The block as written: each copy on its own, in order.  A poison leaves anything in its
    region. *)
Inductive block_runs (loc : nat -> Z) (act : nat -> bytes -> bytes)
  : list instr -> bytes -> bytes -> Prop :=
| br_end : forall m m', (forall x, m' x = m x) -> block_runs loc act [] m m'
| br_copy : forall c s between l m m1 m', c_src c = Some s ->
    (forall x, m1 x = if within (loc (c_dst c) + c_db c) (c_len c) x
                      then m (loc s + c_sb c + (x - (loc (c_dst c) + c_db c)))
                      else runs act between m x) ->
    block_runs loc act l m1 m' -> block_runs loc act (ICopy c between :: l) m m'
| br_poison : forall c between l m m1 m', c_src c = None ->
    (forall x, within (loc (c_dst c) + c_db c) (c_len c) x = false ->
       m1 x = runs act between m x) ->
    block_runs loc act l m1 m' -> block_runs loc act (ICopy c between :: l) m m'
| br_other : forall i l m m1 m', (forall x, m1 x = act i m x) ->
    block_runs loc act l m1 m' -> block_runs loc act (IOther i :: l) m m'.

(** Offsets are positions inside objects. *)
Definition cfit (c : copy) : Prop :=
  0 <= c_sb c /\ 0 <= c_db c /\ 0 <= c_len c /\
  c_sb c + c_len c < 2 ^ 63 /\ c_db c + c_len c < 2 ^ 63.

Definition targets (loc : nat -> Z) (c : copy) (x : Z) : Prop :=
  loc (c_dst c) + c_db c <= x < loc (c_dst c) + c_db c + c_len c.
Definition sources (loc : nat -> Z) (c : copy) (x : Z) : Prop :=
  exists s, c_src c = Some s /\ loc s + c_sb c <= x < loc s + c_sb c + c_len c.

Fixpoint merge_all (k : cset) (l : list copy) : option cset :=
  match l with
  | [] => Some k
  | c :: l' => match merge k c with (k', true) => merge_all k' l' | _ => None end
  end.

(** * Pieces *)

Lemma within_true : forall a n x, within a n x = true <-> a <= x < a + n.
Proof. intros. unfold within. rewrite andb_true_iff, Z.leb_le, Z.ltb_lt. tauto. Qed.
Lemma within_false : forall a n x, within a n x = false <-> ~ (a <= x < a + n).
Proof.
  intros. rewrite <- within_true. destruct (within a n x); split; intros; congruence.
Qed.

Lemma add64_small : forall a b, 0 <= a -> 0 <= b -> a + b < 2 ^ 64 -> add64 a b = a + b.
Proof. intros. apply Z.mod_small. lia. Qed.

Definition pfit (q : piece) : Prop :=
  0 <= p_ls q /\ 0 <= p_ss q /\ 0 <= p_len q /\
  p_ls q + p_len q < 2 ^ 63 /\ p_ss q + p_len q < 2 ^ 63.
Definition rng (q : piece) (z : Z) : Prop := p_ss q <= z < p_ss q + p_len q.

Fixpoint chain (lo : Z) (l : list piece) : Prop :=
  match l with
  | [] => True
  | q :: l' => lo <= p_ss q /\ 0 <= p_len q /\ chain (p_ss q + p_len q) l'
  end.

Lemma chain_lo : forall l lo q z, chain lo l -> In q l -> rng q z -> lo <= z.
Proof.
  induction l as [|r l IH]; simpl; intros lo q z C I R; [tauto|].
  destruct C as (A & B & C). destruct I as [<-|I]; [destruct R; lia|].
  specialize (IH _ _ _ C I R). lia.
Qed.
Lemma chain_weak : forall l lo lo', lo' <= lo -> chain lo l -> chain lo' l.
Proof. destruct l; simpl; intros; auto. intuition lia. Qed.

Lemma split_spec : forall k l a b, split_at k l = (a, b) ->
  l = a ++ b /\ (forall q, In q a -> p_ss q < k) /\
  match b with [] => True | r :: _ => k <= p_ss r end.
Proof.
  induction l as [|q l IH]; simpl; intros a b H.
  - injection H as <- <-. simpl. tauto.
  - destruct (p_ss q <? k) eqn:E.
    + destruct (split_at k l) as [a' b'] eqn:E'. injection H as <- <-.
      destruct (IH _ _ eq_refl) as (-> & P & Q). split; [reflexivity|]. split; auto.
      intros r [<-|I]; auto. apply Z.ltb_lt; auto.
    + injection H as <- <-. split; [reflexivity|]. split; [intros ? []|]. apply Z.ltb_ge; auto.
Qed.

Fixpoint chain_end (lo : Z) (l : list piece) : Z :=
  match l with [] => lo | q :: l' => chain_end (p_ss q + p_len q) l' end.
Lemma chain_app : forall a b lo, chain lo (a ++ b) <-> chain lo a /\ chain (chain_end lo a) b.
Proof. induction a as [|q a IH]; simpl; intros; [tauto|]. rewrite IH. tauto. Qed.
Lemma chain_end_last : forall a lo, chain_end lo a =
  match lastp a with Some q => p_ss q + p_len q | None => lo end.
Proof.
  intros a. induction a as [|q a IH] using rev_ind; intros lo; [reflexivity|].
  unfold lastp. rewrite rev_app_distr. simpl.
  assert (X: forall l lo, chain_end lo (l ++ [q]) = p_ss q + p_len q).
  { clear. induction l; simpl; intros; auto. }
  apply X.
Qed.
Lemma chain_end_fit : forall a lo, 0 <= lo < 2 ^ 63 -> chain lo a -> Forall pfit a ->
  0 <= chain_end lo a < 2 ^ 63.
Proof.
  induction a as [|q a IH]; simpl; intros lo L C F; auto. inversion F; subst.
  apply IH; tauto || (destruct H1; destruct C; lia).
Qed.

Lemma lastp_In : forall l q, lastp l = Some q -> In q l.
Proof.
  unfold lastp. intros l q H. apply in_rev. destruct (rev l); simpl in *; [discriminate|].
  injection H as ->. auto.
Qed.

(** Adding a copy keeps the pieces apart. *)
Lemma emplace_spec : forall l c isp, chain 0 l -> Forall pfit l -> cfit c ->
  no_overlap l c = true ->
  let q := Piece isp (c_sb c) (c_db c) (c_len c) in
  chain 0 (emplace q l) /\ Forall pfit (emplace q l) /\
  (forall r, In r l -> In r (emplace q l)) /\
  (forall r, In r (emplace q l) -> In r l \/ r = q) /\
  (In q (emplace q l) \/ c_len c = 0).
Proof.
  intros l c isp C F Fc N q. unfold no_overlap in N. unfold emplace. simpl.
  destruct (split_at (c_db c) l) as [a b] eqn:E.
  destruct (split_spec _ _ _ _ E) as (-> & La & Lb).
  apply andb_true_iff in N. destruct N as [N1 N2].
  assert (Fa: Forall pfit a /\ Forall pfit b) by (apply Forall_app; auto).
  destruct Fa as [Fa Fb].
  apply chain_app in C. destruct C as [Ca Cb].
  destruct Fc as (F1 & F2 & F3 & F4 & F5).
  assert (pow: 2 ^ 63 < 2 ^ 64) by (vm_compute; reflexivity).
  assert (Pq: pfit q) by (unfold q, pfit; simpl; tauto).
  assert (End: chain_end 0 a <= c_db c).
  { rewrite chain_end_last. destruct (lastp a) as [r|] eqn:El; [|lia].
    apply lastp_In in El. rewrite Forall_forall in Fa. destruct (Fa _ El) as (G1 & G2 & G3 & G4 & G5).
    rewrite add64_small in N2 by lia. apply negb_true_iff, Z.ltb_ge in N2. lia. }
  rewrite add64_small in N1 by lia.
  assert (Ins: chain 0 (a ++ q :: b)).
  { apply chain_app. split; auto. simpl. split; [exact End|]. split; [exact F3|].
    destruct b as [|r b]; simpl; auto. simpl in Cb.
    apply negb_true_iff, Z.ltb_ge in N1. tauto. }
  assert (FI: Forall pfit (a ++ q :: b)) by (apply Forall_app; split; auto).
  destruct b as [|r b].
  - split; auto. split; auto. split.
    + intros r I. apply in_app_or in I. apply in_or_app. destruct I as [I|[]]. auto.
    + split.
      * intros r I. apply in_app_or in I. destruct I as [I|[<-|[]]]; auto.
        left. apply in_or_app; auto.
      * left. apply in_or_app. simpl; auto.
  - destruct (p_ss r =? c_db c) eqn:Er.
    + apply Z.eqb_eq in Er. apply negb_true_iff, Z.ltb_ge in N1.
      split; [apply chain_app; auto|]. split; [apply Forall_app; auto|].
      split; auto. split; auto. right. lia.
    + split; auto. split; auto. split.
      * intros x I. apply in_app_or in I. apply in_or_app. simpl in *. tauto.
      * split.
        -- intros x I. apply in_app_or in I. simpl in I.
           destruct I as [I|[<-|I]]; auto; left; apply in_or_app; simpl; auto.
        -- left. apply in_or_app. simpl; auto.
Qed.

(** * What the emitted copies do *)

Lemma uncovered_spec : forall rest fin left, chain fin rest -> Forall pfit rest ->
  0 <= fin -> fin < 2 ^ 63 -> 0 <= left -> uncovered rest fin left <= 0 ->
  forall y, fin <= y < fin + left -> exists r, In r rest /\ rng r y.
Proof.
  assert (pow: 2 ^ 63 < 2 ^ 64) by (vm_compute; reflexivity).
  induction rest as [|q rest IH]; simpl; intros fin left C F P S L U y Y; [lia|].
  destruct C as (C1 & C2 & C3). inversion F as [|? ? Fq Fr]; subst.
  destruct Fq as (F1 & F2 & F3 & F4 & F5).
  destruct (0 <? left) eqn:E; simpl in U; [|apply Z.ltb_ge in E; lia].
  destruct (fin <? p_ss q) eqn:E2; [apply Z.ltb_lt in E; lia|].
  apply Z.ltb_ge in E2. assert (Eq: fin = p_ss q) by lia. clear E2 C1. subst fin.
  rewrite add64_small in U by lia.
  destruct (Z.lt_ge_cases y (p_ss q + p_len q)) as [Hy|Hy].
  - exists q. split; auto. unfold rng. lia.
  - destruct (IH (p_ss q + p_len q) (left - Z.min left (p_len q))) with (y := y)
      as (r & I & R); auto; try lia.
    exists r. auto.
Qed.

Lemma next_pow2_gt : forall n, 0 <= n -> n < next_pow2 n.
Proof.
  intros n H. unfold next_pow2. destruct (n =? 0) eqn:E.
  - apply Z.eqb_eq in E. lia.
  - apply Z.eqb_neq in E. apply Z.log2_spec. lia.
Qed.

Definition live (max : Z) (q : piece) : bool := negb (p_poison q) || (0 <? max).

(** The extended piece writes its own bytes and bytes of the pieces behind it. *)
Lemma extend_spec : forall max safe q rest, chain 0 (q :: rest) -> Forall pfit (q :: rest) ->
  let e := extend max safe q rest in
  p_poison e = p_poison q /\ p_ls e = p_ls q /\ p_ss e = p_ss q /\ p_len q <= p_len e /\
  (forall z, p_ss q + p_len q <= z < p_ss q + p_len e ->
     exists r, In r rest /\ live max r = true /\ rng r z) /\
  (p_len e = p_len q \/ safe (p_ls q) (p_len e) = true).
Proof.
  intros max safe q rest C F. simpl in C. destruct C as (C1 & C2 & C3).
  inversion F as [|? ? Fq Fr]; subst. destruct Fq as (F1 & F2 & F3 & F4 & F5).
  assert (pow: 2 ^ 63 < 2 ^ 64) by (vm_compute; reflexivity).
  assert (T: p_poison q = p_poison q /\ p_ls q = p_ls q /\ p_ss q = p_ss q /\
    p_len q <= p_len q /\
    (forall z, p_ss q + p_len q <= z < p_ss q + p_len q ->
     exists r, In r rest /\ live max r = true /\ rng r z) /\
    (p_len q = p_len q \/ safe (p_ls q) (p_len q) = true)).
  { repeat split; auto; try lia. }
  unfold extend. simpl.
  destruct (negb (p_poison q) && negb (is_pow2 (p_len q)) && (p_len q <? max)) eqn:E; auto.
  destruct (0 <? uncovered rest (add64 (p_ss q) (p_len q)) (next_pow2 (p_len q) - p_len q))
    eqn:U; auto.
  destruct (safe (p_ls q) (next_pow2 (p_len q))) eqn:Sf; auto.
  assert (G := next_pow2_gt (p_len q) F3).
  simpl. split; auto. split; auto. split; auto. split; [lia|]. split; auto.
  intros z Z1. rewrite add64_small in U by lia. apply Z.ltb_ge in U.
  destruct (uncovered_spec rest (p_ss q + p_len q) (next_pow2 (p_len q) - p_len q))
    with (y := z) as (r & I & R); auto; try lia.
  exists r. split; auto. split; auto. unfold live.
  apply andb_true_iff in E. destruct E as [_ E]. apply Z.ltb_lt in E.
  replace (0 <? max) with true by (symmetry; apply Z.ltb_lt; lia). apply orb_true_r.
Qed.

Definition apart (max s d : Z) (l : list piece) : Prop :=
  forall r r' y z, In r l -> In r' l -> p_poison r = false -> live max r' = true ->
    p_ls r <= y < p_ls r + p_len r -> rng r' z -> s + y <> d + z.

Definition settled (max s d : Z) (l : list piece) (m m' : bytes) : Prop :=
  (forall x, (forall r z, In r l -> live max r = true -> rng r z -> x <> d + z) -> m' x = m x) /\
  (forall r z, In r l -> p_poison r = false -> rng r z ->
     m' (d + z) = m (s + (p_ls r + (z - p_ss r)))).

Lemma run_copies_app : forall s d a b m,
  run_copies s d (a ++ b) m = run_copies s d b (run_copies s d a m).
Proof.
  induction a as [|[[x y] n] a IH]; simpl; intros; auto.
Qed.

Lemma emit_run : forall s d q m,
  (p_poison q = true /\ run_copies s d (emit q) m = m) \/
  (p_poison q = false /\ forall x, run_copies s d (emit q) m x =
     if within (d + p_ss q) (p_len q) x then m (s + p_ls q + (x - (d + p_ss q))) else m x).
Proof.
  intros s d q m. unfold emit. destruct (p_poison q); [left|right]; split; auto.
Qed.

Lemma gen_settled : forall max safe s d rest q lo m, 0 <= lo -> chain lo (q :: rest) ->
  Forall pfit (q :: rest) -> apart max s d (q :: rest) ->
  settled max s d (q :: rest) m (run_copies s d (gen max safe q rest) m).
Proof.
  assert (pow: 2 ^ 63 < 2 ^ 64) by (vm_compute; reflexivity).
  intros max safe s d rest. induction rest as [|r rest IH]; intros q lo m L C F A.
  - simpl. destruct (emit_run s d q m) as [[P ->]|[P E]].
    + split; auto. intros r z [<-|[]] N. congruence.
    + split.
      * intros x X. rewrite E. destruct (within (d + p_ss q) (p_len q) x) eqn:W; auto.
        apply within_true in W. exfalso. apply (X q (x - d)); simpl; auto.
        { unfold live. rewrite P. reflexivity. } { unfold rng. lia. } { lia. }
      * intros r z [<-|[]] N R. rewrite E.
        replace (within (d + p_ss q) (p_len q) (d + z)) with true.
        -- f_equal. lia.
        -- symmetry. apply within_true. unfold rng in R. lia.
  - simpl gen. simpl in C. destruct C as (C1 & C2 & C3 & C4 & C5).
    inversion F as [|? ? Fq Fr]; subst. inversion Fr as [|? ? Fr1 Fr2]; subst.
    assert (Fq' := Fq). assert (Fr1' := Fr1).
    destruct Fq as (F1 & F2 & F3 & F4 & F5). destruct Fr1 as (G1 & G2 & G3 & G4 & G5).
    destruct (Bool.eqb (p_poison q) (p_poison r) && (add64 (p_ls q) (p_len q) =? p_ls r) &&
              (add64 (p_ss q) (p_len q) =? p_ss r)) eqn:E.
    + apply andb_true_iff in E. destruct E as [E E3]. apply andb_true_iff in E.
      destruct E as [E1 E2]. apply eqb_prop in E1. apply Z.eqb_eq in E2, E3.
      rewrite add64_small in E2, E3 by lia. rewrite (add64_small (p_len q) (p_len r)) by lia.
      set (q' := Piece (p_poison q) (p_ls q) (p_ss q) (p_len q + p_len r)).
      assert (LV: live max q = live max q' /\ live max r = live max q').
      { unfold live. simpl. rewrite E1. auto. }
      destruct LV as [LV1 LV2].
      destruct (IH q' lo m) as [S1 S2]; auto.
      { simpl. replace (p_ss q + (p_len q + p_len r)) with (p_ss r + p_len r) by lia.
        split; auto. split; [lia|auto]. }
      { constructor; auto. unfold pfit. simpl. lia. }
      { intros a a' y z Ia Ia' Pa La Ya Za.
        assert (X: forall b w, In b (q' :: rest) -> rng b w -> exists b', In b' (q :: r :: rest) /\
          live max b' = live max b /\ rng b' w).
        { intros b w [<-|I] R; [|exists b; simpl; auto]. unfold rng in R. simpl in R.
          destruct (Z.lt_ge_cases w (p_ss q + p_len q)).
          - exists q. simpl. split; auto. split; auto. unfold rng. lia.
          - exists r. simpl. split; auto. split; auto. unfold rng. lia. }
        assert (Y: exists b', In b' (q :: r :: rest) /\ p_poison b' = false /\
          p_ls b' <= y < p_ls b' + p_len b').
        { destruct Ia as [<-|I]; [|exists a; simpl; auto]. simpl in Ya, Pa.
          destruct (Z.lt_ge_cases y (p_ls q + p_len q)).
          - exists q. simpl. split; auto. split; auto. lia.
          - exists r. simpl. split; auto. split; [congruence|]. lia. }
        destruct (X a' z Ia' Za) as (b & Ib & Lb & Rb). destruct Y as (c & Ic & Pc & Yc).
        apply (A c b y z); auto. congruence. }
      split.
      * intros x X. apply S1. intros b z [<-|I] Lb R.
        -- unfold rng in R. simpl in R. destruct (Z.lt_ge_cases z (p_ss q + p_len q)).
           ++ apply (X q z); [left; auto|congruence|unfold rng; lia].
           ++ apply (X r z); [right; left; auto|congruence|unfold rng; lia].
        -- apply (X b z); simpl; auto.
      * intros b z [<-|[<-|I]] P R; unfold rng in R.
        -- rewrite (S2 q' z); simpl; auto. unfold rng. simpl. lia.
        -- rewrite (S2 q' z); simpl; auto; [|congruence|unfold rng; simpl; lia].
           f_equal. lia.
        -- apply S2; simpl; auto.
    + rewrite run_copies_app.
      set (e := extend max safe q (r :: rest)).
      destruct (extend_spec max safe q (r :: rest)) as (X1 & X2 & X3 & X4 & X5 & _); auto.
      { simpl. repeat split; auto; lia. }
      fold e in X1, X2, X3, X4, X5.
      set (m1 := run_copies s d (emit e) m).
      assert (M1: (forall x, (forall b z, In b (q :: r :: rest) -> live max b = true ->
          rng b z -> x <> d + z) -> m1 x = m x) /\
        (p_poison q = false -> forall z, rng q z ->
           m1 (d + z) = m (s + (p_ls q + (z - p_ss q))))).
      { unfold m1. destruct (emit_run s d e m) as [[P ->]|[P Ee]].
        - split; auto. intros N. congruence.
        - split.
          + intros x X. rewrite Ee. destruct (within (d + p_ss e) (p_len e) x) eqn:W; auto.
            apply within_true in W. exfalso. rewrite X3 in W.
            destruct (Z.lt_ge_cases x (d + p_ss q + p_len q)).
            * apply (X q (x - d)); simpl; auto.
              { unfold live. rewrite <- X1, P. reflexivity. } { unfold rng. lia. } lia.
            * destruct (X5 (x - d)) as (b & Ib & Lb & Rb); [lia|].
              apply (X b (x - d)); simpl; auto. lia.
          + intros _ z R. rewrite Ee. rewrite X3, X2. unfold rng in R.
            replace (within (d + p_ss q) (p_len e) (d + z)) with true.
            * f_equal. lia.
            * symmetry. apply within_true. lia. }
      destruct M1 as [M1 M2].
      destruct (IH r (p_ss q + p_len q) m1) as [S1 S2]; auto; try lia.
      { simpl. auto. }
      { intros a a' y z Ia Ia'. apply A; simpl; auto. }
      assert (Src: forall b y, In b (q :: r :: rest) -> p_poison b = false ->
        p_ls b <= y < p_ls b + p_len b -> m1 (s + y) = m (s + y)).
      { intros b y Ib Pb Yb. apply M1. intros b' z Ib' Lb' R. apply (A b b'); auto. }
      split.
      * intros x X. rewrite S1; [apply M1; auto|]. intros b z I Lb R. apply (X b z); auto.
        right; exact I.
      * intros b z [<-|I] P R.
        -- rewrite S1; [apply M2; auto|]. intros b' z' I' Lb' R' Ex.
           assert (z = z') by lia. subst z'.
           assert (p_ss q + p_len q <= z).
           { apply (chain_lo (r :: rest) _ b'); auto. simpl. auto. }
           unfold rng in R. lia.
        -- rewrite (S2 b z); auto. apply (Src b); auto; [right; exact I|].
           unfold rng in R. lia.
Qed.

(** * Sets *)

Definition piece_of (c : copy) : piece :=
  Piece (match c_src c with None => true | Some _ => false end) (c_sb c) (c_db c) (c_len c).

(** [B]: the copies the set was made from. *)
Record set_ok (B : list copy) (k : cset) : Prop := {
  so_chain : chain 0 (k_starts k);
  so_fit : Forall pfit (k_starts k);
  so_none : k_dst k = None -> k_starts k = [] /\ k_src k = None;
  so_load : forall r, In r (k_starts k) -> p_poison r = false ->
    p_ls r + p_len r <= k_load_end k;
  so_store : forall r, In r (k_starts k) -> p_ss r + p_len r <= k_store_end k;
  so_from : forall r, In r (k_starts k) -> exists c, In c B /\ k_dst k = Some (c_dst c) /\
    r = piece_of c /\ (c_src c <> None -> c_src c = k_src k)
}.

Lemma empty_ok : forall B, set_ok B empty_set.
Proof. intros. constructor; simpl; intros; try tauto; auto. Qed.

Lemma merge_ok : forall B k c k' b, set_ok B k -> In c B -> cfit c -> merge k c = (k', b) ->
  set_ok B k' /\
  if b then
    k_dst k' = Some (c_dst c) /\ (c_src c <> None -> c_src c = k_src k') /\
    (k_dst k <> None -> k_dst k = Some (c_dst c)) /\
    (forall s, k_src k = Some s -> k_src k' = Some s) /\
    (forall r, In r (k_starts k) -> In r (k_starts k')) /\
    (forall r, In r (k_starts k') -> In r (k_starts k) \/ r = piece_of c) /\
    (In (piece_of c) (k_starts k') \/ c_len c = 0)
  else
    k_starts k' = k_starts k /\ k_dst k' = k_dst k /\ k_dst k <> None /\
    (forall s, k_src k = Some s -> k_src k' = Some s).
Proof.
  intros B k c k' b K I Fc M.
  assert (pow: 2 ^ 63 < 2 ^ 64) by (vm_compute; reflexivity).
  destruct K as [K1 K2 K3 K4 K5 K6]. unfold merge in M.
  destruct Fc as (F1 & F2 & F3 & F4 & F5).
  set (k1 := match k_dst k with
            | None => CSet (c_src c) (Some (c_dst c)) (k_starts k) (k_load_end k) (k_store_end k)
            | Some _ => k
            end) in M.
  assert (S1: k_starts k1 = k_starts k /\ k_load_end k1 = k_load_end k /\
    k_store_end k1 = k_store_end k /\
    (k_dst k = None -> k_src k1 = c_src c /\ k_dst k1 = Some (c_dst c)) /\
    (k_dst k <> None -> k1 = k)).
  { unfold k1. destruct (k_dst k) eqn:E; simpl; repeat split; auto; congruence. }
  destruct S1 as (S1 & S2 & S3 & S4 & S5).
  destruct (negb (same_src (k_src k1) (c_src c)) ||
     negb (match k_dst k1 with Some d => Nat.eqb d (c_dst c) | None => false end)) eqn:E.
  - injection M as <- <-.
    assert (N: k_dst k <> None).
    { intro N. destruct (S4 N) as [X Y]. rewrite X, Y in E. rewrite Nat.eqb_refl in E. simpl in E.
      rewrite orb_false_r in E. apply negb_true_iff in E. unfold same_src in E.
      destruct (c_src c); [rewrite Nat.eqb_refl in E|]; discriminate. }
    rewrite (S5 N). split; [constructor; auto|]. auto.
  - apply orb_false_iff in E. destruct E as [Es Ed]. apply negb_false_iff in Es, Ed.
    assert (D1: k_dst k1 = Some (c_dst c)).
    { destruct (k_dst k1); [|discriminate]. apply Nat.eqb_eq in Ed. congruence. }
    simpl in M. rewrite S1 in M.
    set (src2 := match k_src k1 with None => c_src c | s => s end) in M.
    assert (Sc: c_src c <> None -> c_src c = src2).
    { intros N. unfold src2. destruct (k_src k1) as [x|] eqn:X; auto.
      unfold same_src in Es. destruct (c_src c); [|congruence]. apply Nat.eqb_eq in Es. congruence. }
    assert (Sk: forall s, k_src k = Some s -> src2 = Some s).
    { intros s X. destruct (k_dst k) eqn:Ek.
      - unfold src2. rewrite S5 by congruence. rewrite X. auto.
      - destruct (K3 eq_refl). congruence. }
    assert (Old: forall r, In r (k_starts k) -> exists c0, In c0 B /\ Some (c_dst c) = Some (c_dst c0) /\
       r = piece_of c0 /\ (c_src c0 <> None -> c_src c0 = src2)).
    { intros r R. destruct (K6 r R) as (c0 & I0 & D0 & P0 & Q0). exists c0.
      split; auto. split; [|split; auto].
      - rewrite <- D1, <- D0. rewrite S5; congruence.
      - intros N. rewrite (Q0 N). destruct (k_src k) eqn:X; [symmetry; apply Sk; auto|].
        exfalso. apply N. auto. }
    destruct (no_overlap (k_starts k) c) eqn:NO.
    + injection M as <- <-. simpl.
      destruct (emplace_spec (k_starts k) c
        (match c_src c with None => true | Some _ => false end) K1 K2) as (E1 & E2 & E3 & E4 & E5);
        auto; [unfold cfit; tauto|]. fold (piece_of c) in *.
      rewrite S2, S3.
      split; [constructor; simpl; auto|].
      * congruence.
      * intros r R P. destruct (E4 r R) as [Y|Y].
        -- specialize (K4 r Y P). destruct (c_src c); lia.
        -- subst r. simpl in P |- *. destruct (c_src c); [|discriminate].
           rewrite add64_small by lia. lia.
      * intros r R. destruct (E4 r R) as [Y|Y].
        -- specialize (K5 r Y). lia.
        -- subst r. simpl. rewrite add64_small by lia. lia.
      * intros r R. rewrite D1. destruct (E4 r R) as [Y|Y].
        -- auto.
        -- exists c. auto.
      * split; auto. split; auto. split; auto.
        intros N. rewrite <- D1. rewrite S5; auto.
    + injection M as <- <-.
      assert (N: k_dst k <> None).
      { intro N. destruct (K3 N) as [X _]. rewrite X in NO. unfold no_overlap in NO.
        simpl in NO. discriminate. }
      assert (Dk: k_dst k1 = k_dst k) by (rewrite S5; auto). rewrite S2, S3.
      split; [constructor; simpl; auto|].
      * congruence.
      * intros r R. rewrite D1. auto.
      * simpl. rewrite Dk. auto.
Qed.

Lemma merge_empty : forall c, exists k, merge empty_set c = (k, true).
Proof.
  intros c. unfold merge. simpl. rewrite Nat.eqb_refl.
  replace (same_src (c_src c) (c_src c)) with true.
  - simpl. destruct (c_src c); eauto.
  - unfold same_src. destruct (c_src c); auto. rewrite Nat.eqb_refl. auto.
Qed.

(** What is done once the set has been flushed. *)
Definition pending (max : Z) (loc : nat -> Z) (k : cset) (x : Z) : Prop :=
  exists d r, k_dst k = Some d /\ In r (k_starts k) /\ live max r = true /\ rng r (x - loc d).

Definition consistent (max : Z) (loc : nat -> Z) (k : cset) (m m' : bytes) : Prop :=
  (forall x, ~ pending max loc k x -> m' x = m x) /\
  (forall s d r z, k_src k = Some s -> k_dst k = Some d -> In r (k_starts k) ->
     p_poison r = false -> rng r z ->
     m' (loc d + z) = m (loc s + (p_ls r + (z - p_ss r)))).

Definition clear (max : Z) (loc : nat -> Z) (B : list copy) : Prop :=
  forall c c' x, In c B -> In c' B -> (c_src c' <> None \/ 0 < max) ->
    sources loc c x -> targets loc c' x -> False.

Lemma live_of : forall max c, live max (piece_of c) = true -> c_src c <> None \/ 0 < max.
Proof.
  intros max c H. unfold live, piece_of in H. simpl in H. destruct (c_src c); [left; congruence|].
  right. simpl in H. apply Z.ltb_lt; auto.
Qed.

Lemma pending_target : forall max loc B k x, set_ok B k -> pending max loc k x ->
  exists c, In c B /\ targets loc c x /\ (c_src c <> None \/ 0 < max).
Proof.
  intros max loc B k x K (d & r & D & I & L & R).
  destruct (so_from _ _ K r I) as (c & Ic & Dc & -> & _). exists c. split; auto.
  split; [|apply live_of; auto]. rewrite D in Dc. injection Dc as ->.
  unfold targets, rng in *. simpl in R. lia.
Qed.

Lemma flush_consistent : forall max safe loc act B k m, set_ok B k -> clear max loc B ->
  consistent max loc k m (run_out loc act (flush max safe k) m).
Proof.
  intros max safe loc act B k m K A. unfold flush.
  destruct (k_dst k) as [d|] eqn:D.
  2:{ split; simpl; auto. congruence. }
  unfold generate. simpl.
  destruct (k_starts k) as [|q rest] eqn:E.
  - split; simpl; auto. intros s d0 r z _ _ I. rewrite E in I. destruct I.
  - set (sf := match k_src k with Some s => safe s | None => fun _ _ => false end).
    set (sl := match k_src k with Some r => loc r | None => 0 end).
    destruct (gen_settled max sf sl (loc d) rest q 0 m) as [S1 S2]; try lia.
    + rewrite <- E. apply K.
    + rewrite <- E. apply K.
    + intros r r' y z I I' P L Y R Ex. rewrite <- E in I, I'.
      destruct (so_from _ _ K r I) as (c & Ic & Dc & -> & Sc).
      destruct (so_from _ _ K r' I') as (c' & Ic' & Dc' & -> & Sc').
      simpl in P, Y. unfold rng in R. simpl in R.
      destruct (c_src c) as [s|] eqn:Es; [|discriminate].
      apply (A c c' (sl + y)); auto.
      * apply live_of; auto.
      * exists s. split; auto. unfold sl. rewrite <- Sc by congruence. lia.
      * unfold targets. rewrite D in Dc'. injection Dc' as <-. lia.
    + split.
      * intros x N. apply S1. intros r z I L R Ex. apply N. exists d, r. rewrite E.
        split; auto. split; auto. split; auto. unfold rng in *. lia.
      * intros s d0 r z Ss Dd I P R. rewrite D in Dd. injection Dd as <-. rewrite E in I.
        rewrite S2 with (r := r); auto. unfold sl. rewrite Ss. auto.
Qed.

Lemma merge_all_ok : forall B l k k', set_ok B k -> Forall cfit l -> incl l B ->
  merge_all k l = Some k' ->
  set_ok B k' /\ (forall r, In r (k_starts k) -> In r (k_starts k')) /\
  (forall c, In c l -> (In (piece_of c) (k_starts k') \/ c_len c = 0) /\
     k_dst k' = Some (c_dst c) /\ (c_src c <> None -> c_src c = k_src k')) /\
  (forall d, k_dst k = Some d -> k_dst k' = Some d) /\
  (forall s, k_src k = Some s -> k_src k' = Some s).
Proof.
  intros B l. induction l as [|c l IH]; simpl; intros k k' K F I H.
  - injection H as <-. split; auto. split; auto. split; [intros ? []|auto].
  - inversion F as [|? ? Fc Fl]; subst.
    destruct (merge k c) as [k1 []] eqn:M; [|discriminate].
    destruct (merge_ok B k c k1 true K) as (K1 & D1 & S1 & Dk & Sk & R1 & R2 & P1); auto.
    { apply I. simpl; auto. }
    destruct (IH k1 k' K1 Fl) as (K' & R' & P' & D' & S'); auto.
    { intros x X. apply I. simpl; auto. }
    split; auto. split; auto. split; [|split; auto].
    + intros c' [<-|I']; auto. split; [|split]; auto.
      * destruct P1; auto.
      * intros N. rewrite (S1 N). destruct (k_src k1) eqn:X; [symmetry; auto|].
        exfalso. apply N. rewrite (S1 N). auto.
    + intros d Dd. apply D'. rewrite D1. rewrite <- Dk; congruence.
Qed.

Lemma C31_set_proof : forall max safe loc cs k m,
  Forall cfit cs -> merge_all empty_set cs = Some k ->
  (forall c c' x, In c cs -> In c' cs -> sources loc c x -> targets loc c' x -> False) ->
  let m' := run_out loc (fun _ m => m) (flush max safe k) m in
  (forall x, (forall c, In c cs -> ~ targets loc c x) -> m' x = m x) /\
  (forall c s x, In c cs -> c_src c = Some s -> targets loc c x ->
     m' x = m (loc s + c_sb c + (x - (loc (c_dst c) + c_db c)))).
Proof.
  intros max safe loc cs k m F M A m'.
  destruct (merge_all_ok cs cs empty_set k (empty_ok cs) F (incl_refl cs) M)
    as (K & _ & P & _ & _).
  destruct (flush_consistent max safe loc (fun _ m => m) cs k m K) as [S1 S2].
  { intros c c' x I I' _. apply A; auto. }
  fold m' in S1, S2. split.
  - intros x N. apply S1. intros Q. destruct (pending_target _ _ _ _ _ K Q) as (c & I & T & _).
    apply (N c); auto.
  - intros c s x I Sc T. destruct (P c I) as ([Q|Q] & D & Ss).
    + unfold targets in T.
      replace x with (loc (c_dst c) + (x - loc (c_dst c))) at 1 by lia.
      rewrite (S2 s (c_dst c) (piece_of c) (x - loc (c_dst c))); auto.
      * f_equal. simpl. lia.
      * rewrite <- Ss; congruence.
      * simpl. rewrite Sc. auto.
      * unfold rng. simpl. lia.
    + unfold targets in T. lia.
Qed.

(** No byte is read that the copies did not read, unless [isSafeToRead] allows it. *)
Definition read_ok (safe : Z -> Z -> bool) (l : list piece) (x : mcpy) : Prop :=
  let '(_, os, n) := x in
  (exists q, In q l /\ p_poison q = false /\ safe (p_ls q) n = true /\ os = p_ls q) \/
  forall y, os <= y < os + n ->
    exists q, In q l /\ p_poison q = false /\ p_ls q <= y < p_ls q + p_len q.

Lemma read_ok_incl : forall safe l l' x, incl l l' -> read_ok safe l x -> read_ok safe l' x.
Proof.
  intros safe l l' [[od os] n] I [(q & H & R)|H]; [left; exists q; auto|right].
  intros y Y. destruct (H y Y) as (q & Iq & R). exists q. auto.
Qed.

Lemma gen_reads : forall max safe rest q lo, 0 <= lo -> chain lo (q :: rest) ->
  Forall pfit (q :: rest) -> Forall (read_ok safe (q :: rest)) (gen max safe q rest).
Proof.
  assert (pow: 2 ^ 63 < 2 ^ 64) by (vm_compute; reflexivity).
  intros max safe rest. induction rest as [|r rest IH]; intros q lo L C F; simpl.
  - unfold emit. destruct (p_poison q) eqn:P; constructor; auto. right.
    intros y Y. exists q. simpl. auto.
  - simpl in C. destruct C as (C1 & C2 & C3 & C4 & C5).
    inversion F as [|? ? Fq Fr]; subst. inversion Fr as [|? ? Fr1 Fr2]; subst.
    assert (Fq' := Fq). assert (Fr1' := Fr1).
    destruct Fq as (F1 & F2 & F3 & F4 & F5). destruct Fr1 as (G1 & G2 & G3 & G4 & G5).
    destruct (Bool.eqb (p_poison q) (p_poison r) && (add64 (p_ls q) (p_len q) =? p_ls r) &&
              (add64 (p_ss q) (p_len q) =? p_ss r)) eqn:E.
    + apply andb_true_iff in E. destruct E as [E E3]. apply andb_true_iff in E.
      destruct E as [E1 E2]. apply eqb_prop in E1. apply Z.eqb_eq in E2, E3.
      rewrite add64_small in E2, E3 by lia. rewrite (add64_small (p_len q) (p_len r)) by lia.
      set (q' := Piece (p_poison q) (p_ls q) (p_ss q) (p_len q + p_len r)).
      assert (H := IH q' lo L).
      assert (H': Forall (read_ok safe (q' :: rest)) (gen max safe q' rest)).
      { apply H.
        - simpl. replace (p_ss q + (p_len q + p_len r)) with (p_ss r + p_len r) by lia.
          split; auto. split; [lia|auto].
        - constructor; auto. unfold pfit. simpl. lia. }
      apply Forall_forall. intros [[od os] n] I. rewrite Forall_forall in H'.
      specialize (H' _ I). simpl in H'. destruct H' as [(b & Ib & Pb & Sb & Ob)|H'].
      * destruct Ib as [<-|Ib].
        -- left. exists q. simpl in *. auto.
        -- left. exists b. simpl in *. auto.
      * right. intros y Y. destruct (H' y Y) as (b & [<-|Ib] & Pb & Rb).
        -- simpl in Pb, Rb. destruct (Z.lt_ge_cases y (p_ls q + p_len q)).
           ++ exists q. simpl. split; auto. split; auto. lia.
           ++ exists r. simpl. split; auto. split; [congruence|]. lia.
        -- exists b. simpl. auto.
    + apply Forall_app. split.
      * destruct (extend_spec max safe q (r :: rest)) as (X1 & X2 & X3 & X4 & X5 & X6); auto.
        { simpl. repeat split; auto; lia. }
        unfold emit. rewrite X1. destruct (p_poison q) eqn:P; constructor; auto.
        rewrite X2. destruct X6 as [X6|X6].
        -- right. rewrite X6. intros y Y. exists q. simpl. auto.
        -- left. exists q. simpl. auto.
      * eapply Forall_impl; [|apply (IH r (p_ss q + p_len q)); auto; try lia; simpl; auto].
        intros x. apply read_ok_incl. intros y. simpl. auto.
Qed.

Lemma C31_reads_proof : forall max safe cs k od os n,
  Forall cfit cs -> merge_all empty_set cs = Some k ->
  In (od, os, n) (generate max safe k) ->
  safe os n = true \/
  forall y, os <= y < os + n -> exists c s, In c cs /\ c_src c = Some s /\
    k_src k = Some s /\ c_sb c <= y < c_sb c + c_len c.
Proof.
  intros max safe cs k od os n F M I.
  destruct (merge_all_ok cs cs empty_set k (empty_ok cs) F (incl_refl cs) M)
    as (K & _ & _).
  unfold generate in I. destruct (k_starts k) as [|q rest] eqn:E; [destruct I|].
  assert (H := gen_reads max safe rest q 0 (Z.le_refl 0)).
  rewrite <- E in H. specialize (H (so_chain _ _ K) (so_fit _ _ K)).
  rewrite Forall_forall in H. specialize (H _ I). simpl in H.
  destruct H as [(b & Ib & Pb & Sb & ->)|H]; auto.
  right. intros y Y. destruct (H y Y) as (b & Ib & Pb & Rb).
  destruct (so_from _ _ K b Ib) as (c & Ic & Dc & -> & Sc). simpl in Pb, Rb.
  destruct (c_src c) as [s|] eqn:Es; [|discriminate].
  exists c, s. rewrite <- Sc by congruence. auto.
Qed.

(** * Blocks *)

Definition copies_of (l : list instr) : list copy :=
  flat_map (fun i => match i with ICopy c _ => [c] | IOther _ => [] end) l.

(** A byte that some copy, or the extension of one, may write. *)
Definition kept (max : Z) (loc : nat -> Z) (B : list copy) (x : Z) : Prop :=
  exists c, In c B /\ targets loc c x /\ (c_src c <> None \/ 0 < max).

(** [act i] reads nothing where the two memories differ: the same bytes are written with the
    same values. *)
Definition same_writes (f : bytes -> bytes) (m m' : bytes) : Prop :=
  forall x, f m x = f m' x \/ (f m x = m x /\ f m' x = m' x).

(** The alias analysis is right. *)
Record sound (loc : nat -> Z) (act : nat -> bytes -> bytes) (a : aliasing) : Prop := {
  s_mod : forall i r n m x, a_mod a i r n = false -> loc r <= x < loc r + n -> act i m x = m x;
  s_ref : forall i r n m m', a_ref a i r n = false ->
    (forall x, ~ (loc r <= x < loc r + n) -> m x = m' x) -> same_writes (act i) m m';
  s_ext : forall i m m', (forall x, m x = m' x) -> forall x, act i m x = act i m' x
}.

(** What the pass does not check. *)
Record trusted (max : Z) (loc : nat -> Z) (act : nat -> bytes -> bytes) (l : list instr) : Prop := {
  t_other : forall i m x, In (IOther i) l -> kept max loc (copies_of l) x -> act i m x = m x;
  t_between : forall c bs i m x, In (ICopy c bs) l -> In i bs ->
    (kept max loc (copies_of l) x \/ exists c', In c' (copies_of l) /\ sources loc c' x) ->
    act i m x = m x;
  t_between_ref : forall c bs i m m', In (ICopy c bs) l -> In i bs ->
    (forall x, ~ kept max loc (copies_of l) x -> m x = m' x) -> same_writes (act i) m m'
}.

Lemma steps_agree : forall act (P : Z -> Prop) (dec : forall x, P x \/ ~ P x) bs m m',
  (forall i m m', In i bs -> (forall x, ~ P x -> m x = m' x) -> same_writes (act i) m m') ->
  (forall i m x, In i bs -> P x -> act i m x = m x) ->
  (forall x, ~ P x -> m x = m' x) ->
  (forall x, ~ P x -> runs act bs m x = runs act bs m' x) /\
  (forall x, P x -> runs act bs m x = m x).
Proof.
  intros act P dec bs. induction bs as [|i bs IH]; intros m m' R W A.
  - split; simpl; auto.
  - destruct (IH (act i m) (act i m')) as [H1 H2].
    + intros j. intros. apply R; simpl; auto.
    + intros j. intros. apply W; simpl; auto.
    + intros x N. destruct (R i m m' (or_introl eq_refl) A x) as [E|[E1 E2]]; auto.
      rewrite E1, E2. auto.
    + split; simpl.
      * intros x N. apply (H1 x N).
      * intros x Px. change (runs act bs (act i m) x = m x). rewrite H2 by auto.
        apply W; simpl; auto.
Qed.

Lemma runs_kept : forall act (Q : Z -> Prop) bs m,
  (forall i m x, In i bs -> Q x -> act i m x = m x) ->
  forall x, Q x -> runs act bs m x = m x.
Proof.
  intros act Q bs. induction bs as [|i bs IH]; intros m W x X; simpl; auto.
  change (runs act bs (act i m) x = m x). rewrite IH; auto. apply W; simpl; auto.
  intros. apply W; simpl; auto.
Qed.

Lemma run_out_app : forall loc act a b m,
  run_out loc act (a ++ b) m = run_out loc act b (run_out loc act a m).
Proof. induction a as [|[i|s d c] a IH]; simpl; intros; auto. Qed.
Lemma run_out_map : forall loc act bs m,
  run_out loc act (map OOther bs) m = runs act bs m.
Proof. intros loc act bs. induction bs as [|i bs IH]; simpl; intros; auto. Qed.

Lemma pending_dec : forall max loc k x, pending max loc k x \/ ~ pending max loc k x.
Proof.
  intros. unfold pending. destruct (k_dst k) as [d|].
  2:{ right. intros (d & r & X & _). discriminate. }
  destruct (existsb (fun r => live max r && within (p_ss r) (p_len r) (x - loc d)) (k_starts k)) eqn:E.
  - left. apply existsb_exists in E. destruct E as (r & I & E). apply andb_true_iff in E.
    destruct E as [L W]. apply within_true in W. exists d, r. auto.
  - right. intros (d' & r & D & I & L & R). injection D as <-.
    assert (existsb (fun r => live max r && within (p_ss r) (p_len r) (x - loc d)) (k_starts k) = true).
    { apply existsb_exists. exists r. split; auto. rewrite L. apply within_true. auto. }
    congruence.
Qed.

(** Take [m'] where the set is going to write, [m] elsewhere. *)
Definition blend (max : Z) (loc : nat -> Z) (k : cset) (m m' : bytes) : bytes :=
  fun x => match k_dst k with
           | None => m x
           | Some d =>
               if existsb (fun r => live max r && within (p_ss r) (p_len r) (x - loc d)) (k_starts k)
               then m' x else m x
           end.
Lemma blend_in : forall max loc k m m' x, pending max loc k x -> blend max loc k m m' x = m' x.
Proof.
  intros max loc k m m' x (d & r & D & I & L & R). unfold blend. rewrite D.
  replace (existsb _ _) with true; auto. symmetry. apply existsb_exists. exists r.
  split; auto. rewrite L. apply within_true. auto.
Qed.
Lemma blend_out : forall max loc k m m' x, ~ pending max loc k x -> blend max loc k m m' x = m x.
Proof.
  intros max loc k m m' x N. unfold blend. destruct (k_dst k) as [d|] eqn:D; auto.
  destruct (existsb _ _) eqn:E; auto. exfalso. apply N. apply existsb_exists in E.
  destruct E as (r & I & E). apply andb_true_iff in E. destruct E as [L W].
  apply within_true in W. exists d, r. auto.
Qed.

Lemma pending_piece : forall max loc k d r z, k_dst k = Some d -> In r (k_starts k) ->
  p_poison r = false -> rng r z -> pending max loc k (loc d + z).
Proof.
  intros max loc k d r z D I P R. exists d, r. split; auto. split; auto. split.
  - unfold live. rewrite P. auto.
  - replace (loc d + z - loc d) with z by lia. auto.
Qed.

Lemma source_free : forall max loc B k c s x, set_ok B k -> clear max loc B -> In c B ->
  c_src c = Some s -> loc s + c_sb c <= x < loc s + c_sb c + c_len c ->
  ~ pending max loc k x.
Proof.
  intros max loc B k c s x K A I Sc X P.
  destruct (pending_target _ _ _ _ _ K P) as (c' & I' & T & L).
  apply (A c c' x); auto. exists s. auto.
Qed.

Lemma piece_source : forall max loc B k s r z, set_ok B k -> clear max loc B ->
  k_src k = Some s -> In r (k_starts k) -> p_poison r = false -> rng r z ->
  let x := loc s + (p_ls r + (z - p_ss r)) in
  ~ pending max loc k x /\ exists c, In c B /\ sources loc c x.
Proof.
  intros max loc B k s r z K A Ss I P R x.
  destruct (so_from _ _ K r I) as (c & Ic & Dc & -> & Sc). simpl in P.
  destruct (c_src c) as [s'|] eqn:Es; [|discriminate].
  assert (s' = s) by (rewrite Ss in Sc; assert (Q: Some s' = Some s) by (apply Sc; discriminate); congruence). subst s'.
  unfold rng in R. simpl in R.
  assert (X: loc s + c_sb c <= x < loc s + c_sb c + c_len c).
  { unfold x. simpl. lia. }
  split.
  - eapply source_free; eauto.
  - exists c. split; auto. exists s. auto.
Qed.

Section Block.
Variables (max : Z) (safe : nat -> Z -> Z -> bool) (a : aliasing).
Variables (loc : nat -> Z) (act : nat -> bytes -> bytes).
Variable whole : list instr.
Let B := copies_of whole.
Hypothesis Sound : sound loc act a.
Hypothesis Trust : trusted max loc act whole.
Hypothesis Fits : Forall cfit B.
Hypothesis Clear : clear max loc B.

Lemma pending_kept : forall k x, set_ok B k -> pending max loc k x -> kept max loc B x.
Proof. intros k x K P. eapply pending_target; eauto. Qed.

(** An instruction between a load and its store. *)
Lemma between_agree : forall c bs k m m', In (ICopy c bs) whole -> set_ok B k ->
  (forall x, ~ pending max loc k x -> m x = m' x) ->
  (forall x, ~ pending max loc k x -> runs act bs m x = runs act bs m' x) /\
  (forall x, pending max loc k x -> runs act bs m x = m x).
Proof.
  intros c bs k m m' I K A. apply (steps_agree act (pending max loc k)); auto.
  - apply pending_dec.
  - intros i m1 m2 Ib E. apply (t_between_ref _ _ _ _ Trust c bs); auto.
    intros x N. apply E. intro P. apply N. eapply pending_kept; eauto.
  - intros i m1 x Ib P. apply (t_between _ _ _ _ Trust c bs); auto. left.
    eapply pending_kept; eauto.
Qed.

(** Before [bs], given the state after it. *)
Lemma blend_back : forall c bs k m m1, In (ICopy c bs) whole -> set_ok B k ->
  consistent max loc k (runs act bs m) m1 ->
  consistent max loc k m (blend max loc k m m1) /\
  (forall x, runs act bs (blend max loc k m m1) x = m1 x).
Proof.
  intros c bs k m m1 I K [C1 C2].
  assert (W: forall x, (exists c', In c' B /\ sources loc c' x) -> runs act bs m x = m x).
  { apply (runs_kept act (fun x => exists c', In c' B /\ sources loc c' x)).
    intros i m2 x Ib S. apply (t_between _ _ _ _ Trust c bs); auto. }
  split.
  - split.
    + intros x N. apply blend_out; auto.
    + intros s d r z Ss D Ir P R.
      rewrite blend_in by (eapply pending_piece; eauto).
      rewrite (C2 s d r z); auto. apply W.
      destruct (piece_source max loc B k s r z K Clear Ss Ir P R) as [_ X]. auto.
  - intros x.
    destruct (between_agree c bs k m (blend max loc k m m1) I K) as [A1 _].
    { intros y N. symmetry. apply blend_out; auto. }
    destruct (between_agree c bs k (blend max loc k m m1) m I K) as [_ A2].
    { intros y N. apply blend_out; auto. }
    destruct (pending_dec max loc k x) as [P|N].
    + rewrite A2 by auto. apply blend_in; auto.
    + rewrite <- A1 by auto. symmetry. apply C1; auto.
Qed.

Lemma block_sim : forall l k m, incl l whole -> set_ok B k ->
  exists m0, consistent max loc k m m0 /\
    block_runs loc act l m0 (run_out loc act (run_block max safe a k l) m).
Proof.
  intros l. induction l as [|[c bs|i] l IH]; intros k m Inc K.
  - simpl. exists (run_out loc act (flush max safe k) m). split.
    + eapply flush_consistent; eauto.
    + constructor. auto.
  - assert (Iw: In (ICopy c bs) whole) by (apply Inc; simpl; auto).
    assert (Ic: In c B).
    { unfold B, copies_of. apply in_flat_map. exists (ICopy c bs). simpl; auto. }
    assert (Fc: cfit c) by (rewrite Forall_forall in Fits; auto).
    assert (Inc': incl l whole) by (intros x X; apply Inc; simpl; auto).
    simpl. rewrite run_out_app, run_out_map.
    assert (Bs: forall x, (exists c', In c' B /\ sources loc c' x) -> runs act bs m x = m x).
    { apply (runs_kept act (fun x => exists c', In c' B /\ sources loc c' x)).
      intros i m2 x Ib S. apply (t_between _ _ _ _ Trust c bs); auto. }
    destruct (merge k c) as [k' b] eqn:M.
    destruct (merge_ok B k c k' b K Ic Fc M) as [K' H]. destruct b.
    + destruct H as (D & Sc & Dk & Sk & R1 & R2 & P1).
      destruct (IH k' (runs act bs m) Inc' K') as (m1 & [C1 C2] & Br).
      (* the state the old set left *)
      assert (Pk: forall x, pending max loc k' x -> pending max loc k x \/
        (within (loc (c_dst c) + c_db c) (c_len c) x = true /\ (c_src c <> None \/ 0 < max))).
      { intros x (d & r & Dd & I & L & R). rewrite D in Dd. injection Dd as <-.
        destruct (R2 r I) as [Y| ->].
        - left. exists (c_dst c), r. split; auto. apply Dk.
          intro N. destruct (so_none _ _ K N) as [E _]. rewrite E in Y. destruct Y.
        - right. split; [|apply live_of; auto]. unfold rng in R. simpl in R.
          apply within_true. lia. }
      assert (Pk': forall x, pending max loc k x -> pending max loc k' x).
      { intros x (d & r & Dd & I & L & R). exists d, r. split; [|auto].
        rewrite D. rewrite <- Dk; congruence. }
      set (m1' := blend max loc k (runs act bs m) m1).
      assert (Cm: consistent max loc k (runs act bs m) m1').
      { split.
        - intros x N. apply blend_out; auto.
        - intros s d r z Ss Dd Ir P R. unfold m1'.
          rewrite blend_in by (eapply pending_piece; eauto).
          apply C2; auto. rewrite D, <- Dd. symmetry. apply Dk. congruence. }
      destruct (blend_back c bs k m m1' Iw K Cm) as [G1 G2].
      exists (blend max loc k m m1'). split; auto.
      destruct (c_src c) as [s|] eqn:Es.
      * apply (br_copy loc act c s bs l _ m1); auto. intros x.
        destruct (within (loc (c_dst c) + c_db c) (c_len c) x) eqn:W.
        -- apply within_true in W. destruct P1 as [P1|P1]; [|lia].
           replace x with (loc (c_dst c) + (x - loc (c_dst c))) at 1 by lia.
           rewrite (C2 s (c_dst c) (piece_of c) (x - loc (c_dst c))); auto.
           ++ simpl. replace (loc s + (c_sb c + (x - loc (c_dst c) - c_db c)))
                with (loc s + c_sb c + (x - (loc (c_dst c) + c_db c))) by lia.
              rewrite blend_out.
              ** apply Bs. exists c. split; auto. exists s. split; auto. lia.
              ** apply (source_free max loc B k c s); auto. lia.
           ++ rewrite <- Sc; auto. congruence.
           ++ simpl. rewrite Es. auto.
           ++ unfold rng. simpl. lia.
        -- rewrite G2. unfold m1'. destruct (pending_dec max loc k x) as [P|N].
           ++ rewrite blend_in; auto.
           ++ rewrite blend_out by auto. apply C1. intros Q. destruct (Pk x Q) as [|[Y _]]; auto.
              congruence.
      * apply (br_poison loc act c bs l _ m1); auto. intros x W. rewrite G2. unfold m1'.
        destruct (pending_dec max loc k x) as [P|N].
        -- rewrite blend_in; auto.
        -- rewrite blend_out by auto. apply C1. intros Q. destruct (Pk x Q) as [|[Y _]]; auto.
           congruence.
    + destruct H as (St & Dk & Dn & Sk).
      rewrite run_out_app.
      assert (Fl := flush_consistent max safe loc act B k' (runs act bs m) K' Clear).
      set (mf := run_out loc act (flush max safe k') (runs act bs m)) in *.
      destruct (merge_empty c) as [k2 M2]. rewrite M2. simpl.
      destruct (merge_ok B empty_set c k2 true (empty_ok B) Ic Fc M2)
        as (K2 & D2 & S2 & _ & _ & _ & R2 & P2).
      destruct (IH k2 mf Inc' K2) as (m1 & [C1 C2] & Br).
      assert (Pe: forall x, pending max loc k' x <-> pending max loc k x).
      { intros x. unfold pending. rewrite St, Dk. tauto. }
      assert (Cm: consistent max loc k (runs act bs m) mf).
      { destruct Fl as [F1 F2]. split.
        - intros x N. apply F1. rewrite Pe. auto.
        - intros s d r z Ss Dd Ir P R. apply F2; auto; [congruence|]. rewrite St. auto. }
      destruct (blend_back c bs k m mf Iw K Cm) as [G1 G2].
      exists (blend max loc k m mf). split; auto.
      destruct (c_src c) as [s|] eqn:Es.
      * apply (br_copy loc act c s bs l _ m1); auto. intros x.
        destruct (within (loc (c_dst c) + c_db c) (c_len c) x) eqn:W.
        -- apply within_true in W. destruct P2 as [P2|P2]; [|lia].
           replace x with (loc (c_dst c) + (x - loc (c_dst c))) at 1 by lia.
           rewrite (C2 s (c_dst c) (piece_of c) (x - loc (c_dst c))); auto.
           ++ simpl. replace (loc s + (c_sb c + (x - loc (c_dst c) - c_db c)))
                with (loc s + c_sb c + (x - (loc (c_dst c) + c_db c))) by lia.
              assert (N: ~ pending max loc k (loc s + c_sb c + (x - (loc (c_dst c) + c_db c)))).
              { apply (source_free max loc B k c s); auto. lia. }
              rewrite blend_out by auto. destruct Cm as [Cm _]. rewrite Cm by auto.
              apply Bs. exists c. split; auto. exists s. split; auto. lia.
           ++ rewrite <- S2; auto. congruence.
           ++ simpl. rewrite Es. auto.
           ++ unfold rng. simpl. lia.
        -- rewrite G2. apply C1. intros (d & r & Dd & I & L & R). rewrite D2 in Dd.
           injection Dd as <-. destruct (R2 r I) as [[]| ->]. unfold rng in R. simpl in R.
           apply within_false in W. lia.
      * apply (br_poison loc act c bs l _ m1); auto. intros x W. rewrite G2. apply C1.
        intros (d & r & Dd & I & L & R). rewrite D2 in Dd.
        injection Dd as <-. destruct (R2 r I) as [[]| ->]. unfold rng in R. simpl in R.
        apply within_false in W. lia.
  - assert (Iw: In (IOther i) whole) by (apply Inc; simpl; auto).
    assert (Inc': incl l whole) by (intros x X; apply Inc; simpl; auto).
    simpl. destruct (can_reorder a k i) eqn:Cr.
    + simpl. destruct (IH k (act i m) Inc' K) as (m1 & [C1 C2] & Br).
      exists (blend max loc k m m1).
      assert (Sm: forall s, k_src k = Some s -> forall x, loc s <= x < loc s + k_load_end k ->
        act i m x = m x).
      { intros s Ss x X. unfold can_reorder in Cr. destruct (k_dst k) as [d|] eqn:D.
        - rewrite Ss in Cr. apply andb_true_iff in Cr. destruct Cr as [Cr _].
          apply negb_true_iff in Cr. eapply s_mod; eauto.
        - destruct (so_none _ _ K D). congruence. }
      assert (Rm: same_writes (act i) m (blend max loc k m m1)).
      { unfold can_reorder in Cr. destruct (k_dst k) as [d|] eqn:D.
        - apply andb_true_iff in Cr. destruct Cr as [_ Cr]. apply negb_true_iff in Cr.
          apply (s_ref _ _ _ Sound i d (k_store_end k)); auto.
          intros x N. symmetry. apply blend_out. intros (d' & r & D' & I & L & R).
          assert (X := so_store _ _ K r I). assert (Fr := so_fit _ _ K).
          rewrite Forall_forall in Fr. destruct (Fr r I) as (F1 & F2 & F3 & _).
          rewrite D in D'. injection D' as <-. unfold rng in R. apply N. lia.
        - intros x. left. apply (s_ext _ _ _ Sound). intros y. symmetry. apply blend_out.
          intros (d' & r & D' & _). congruence. }
      split.
      * split.
        -- intros x N. apply blend_out; auto.
        -- intros s d r z Ss D Ir P R.
           rewrite blend_in by (eapply pending_piece; eauto).
           rewrite (C2 s d r z); auto. apply (Sm s Ss).
           assert (X := so_load _ _ K r Ir P). assert (Fr := so_fit _ _ K).
           rewrite Forall_forall in Fr. destruct (Fr r Ir) as (F1 & F2 & F3 & _).
           unfold rng in R. lia.
      * apply (br_other loc act i l _ m1); auto. intros x.
        destruct (pending_dec max loc k x) as [P|N].
        -- rewrite (t_other _ _ _ _ Trust i); auto.
           ++ symmetry. apply blend_in; auto.
           ++ eapply pending_kept; eauto.
        -- rewrite C1 by auto. destruct (Rm x) as [E|[E1 E2]]; auto.
           rewrite E1, E2. symmetry. apply blend_out; auto.
    + rewrite run_out_app.
      assert (Fl := flush_consistent max safe loc act B k m K Clear).
      set (mf := run_out loc act (flush max safe k) m) in *. simpl.
      destruct (IH empty_set (act i mf) Inc' (empty_ok B)) as (m1 & [C1 _] & Br).
      exists mf. split; auto. apply (br_other loc act i l _ m1); auto. intros x. apply C1.
      intros (d & r & D & _). discriminate.
Qed.
End Block.

Lemma C45_block_proof : forall max safe a loc act l m,
  sound loc act a -> trusted max loc act l ->
  Forall cfit (copies_of l) -> clear max loc (copies_of l) ->
  block_runs loc act l m (run_out loc act (run_block max safe a empty_set l) m).
Proof.
  intros max safe a loc act l m S T F C.
  destruct (block_sim max safe a loc act l S T F C l empty_set m (incl_refl l)
    (empty_ok _)) as (m0 & [C1 _] & Br).
  assert (E: forall x, m0 x = m x).
  { intros x. apply C1. intros (d & r & D & _). discriminate. }
  clear C1. set (m' := run_out _ _ _ _) in *. clearbody m'. clear F C T.
  assert (Ru: forall bs n n', (forall x, n x = n' x) -> forall x, runs act bs n x = runs act bs n' x).
  { induction bs as [|i bs IH]; simpl; intros n n' H x; auto. apply IH.
    apply (s_ext _ _ _ S); auto. }
  inversion Br as [mm mm' H|c s between l0 mm m1 mm' Hs H H'|c between l0 mm m1 mm' Hs H H'|
    i l0 mm m1 mm' H H']; subst.
  - constructor. intros x. rewrite <- E. auto.
  - apply (br_copy loc act c s between l0 m m1); auto. intros x. rewrite H.
    destruct (within _ _ x); auto.
  - apply (br_poison loc act c between l0 m m1); auto. intros x W. rewrite H; auto.
  - apply (br_other loc act i l0 m m1); auto. intros x. rewrite H.
    apply (s_ext _ _ _ S); auto.
Qed.

(** * What the pass gets wrong *)

(** A struct is poisoned (generate_ir.cpp:352), three bytes are copied to its start, the
    struct behind them is poisoned, and its one field, unknown to the sender, gets the default
    0 by a store.  The store does not read the destination, so the pending copy moves behind
    it; the poison lets the copy grow to four bytes. *)
Definition ex_loc (r : nat) : Z := match r with O => 0 | _ => 100 end.
Definition ex_store (at_ v : Z) (m : bytes) : bytes := fun x => if x =? at_ then v else m x.
Definition ex_alias (at_ : Z) : aliasing :=
  Aliasing (fun _ r n => within (ex_loc r) n at_) (fun _ _ _ => false).
Definition ex_block : list instr :=
  [ICopy (Copy None 1 0 0 8) []; ICopy (Copy (Some 0%nat) 1 0 0 3) [];
   ICopy (Copy None 1 0 3 1) []; IOther 7].

Lemma ex_sound : forall at_ v, sound ex_loc (fun _ => ex_store at_ v) (ex_alias at_).
Proof.
  intros. constructor; unfold ex_store.
  - intros i r n m x H X. simpl in H. apply within_false in H.
    destruct (Z.eqb_spec x at_); auto. subst. tauto.
  - intros i r n m m' _ H x. destruct (x =? at_); auto.
  - intros i m m' H x. destruct (x =? at_); auto.
Qed.

Lemma block_runs_last : forall loc act i l m m', block_runs loc act (l ++ [IOther i]) m m' ->
  exists m1, forall x, m' x = act i m1 x.
Proof.
  intros loc act i l. induction l as [|j l IH]; simpl; intros m m' H.
  - inversion H as [| | |i0 l0 mm m1 mm' Hw Hr]; subst.
    inversion Hr as [mm mm' He| | |]; subst. exists m. intros x. rewrite He. auto.
  - inversion H; subst; eauto.
Qed.

Lemma C45_refuted_proof : exists max safe a loc act l m x,
  sound loc act a /\ Forall cfit (copies_of l) /\ clear max loc (copies_of l) /\
  (forall m', block_runs loc act l m m' -> m' x = 0) /\
  run_out loc act (run_block max safe a empty_set l) m x = 9.
Proof.
  exists 8, (fun _ _ _ => true), (ex_alias 103), ex_loc, (fun _ => ex_store 103 0), ex_block,
    (fun x => if x =? 3 then 9 else 0), 103.
  split; [apply ex_sound|]. split; [|split; [|split]].
  - repeat (apply Forall_cons; [unfold cfit; cbn [c_sb c_db c_len]; lia|]). apply Forall_nil.
  - intros c c' x I I' _ (s & Ss & X) T. unfold ex_block in I, I'. simpl in I, I'.
    unfold targets in T.
    destruct I as [<-|[<-|[<-|[]]]]; simpl in Ss; try discriminate. injection Ss as <-.
    simpl in X. destruct I' as [<-|[<-|[<-|[]]]]; simpl in T; lia.
  - intros m' H.
    destruct (block_runs_last ex_loc (fun _ => ex_store 103 0) 7
      [ICopy (Copy None 1 0 0 8) []; ICopy (Copy (Some 0%nat) 1 0 0 3) [];
       ICopy (Copy None 1 0 3 1) []] _ _ H) as [m1 E].
    rewrite E. reflexivity.
  - vm_compute. reflexivity.
Qed.

(** A load, a store to the loaded address, and only then the store of the loaded value: what
    is between a load and its store is not looked at. *)
Lemma C45_between_refuted_proof : exists max safe a loc act l m x,
  sound loc act a /\ Forall cfit (copies_of l) /\ clear max loc (copies_of l) /\
  (forall m', block_runs loc act l m m' -> m' x = 9) /\
  run_out loc act (run_block max safe a empty_set l) m x = 5.
Proof.
  exists 0, (fun _ _ _ => false), (ex_alias 2), ex_loc, (fun _ => ex_store 2 5),
    [ICopy (Copy (Some 0%nat) 1 0 0 4) [7%nat]], (fun x => if x =? 2 then 9 else 0), 102.
  split; [apply ex_sound|]. split; [|split; [|split]].
  - repeat (apply Forall_cons; [unfold cfit; cbn [c_sb c_db c_len]; lia|]). apply Forall_nil.
  - intros c c' x I I' _ (s & Ss & X) T. simpl in I, I'. unfold targets in T.
    destruct I as [<-|[]]; simpl in Ss. injection Ss as <-.
    simpl in X. destruct I' as [<-|[]]; simpl in T; lia.
  - intros m' H.
    inversion H as [|c s between l0 mm m1 mm' Hs Hw Hr|c between l0 mm m1 mm' Hs Hw Hr|];
      subst; try discriminate.
    inversion Hr as [mm mm' He| | |]; subst. simpl in Hs. injection Hs as <-.
    rewrite He, Hw. vm_compute. reflexivity.
  - vm_compute. reflexivity.
Qed.

(** The hypotheses of [C31_set] and [C45_block] on a struct of five fields: two neighbours
    merge, one copy of three bytes grows into the padding. *)
Definition ex_copies : list copy :=
  [Copy (Some 0%nat) 1 0 0 4; Copy (Some 0%nat) 1 4 4 8; Copy (Some 0%nat) 1 20 16 3;
   Copy None 1 0 19 5; Copy (Some 0%nat) 1 30 24 1].
Example ex_set : exists k, merge_all empty_set ex_copies = Some k /\
  generate 16 (fun _ n => n <=? 4) k = [(0, 0, 12); (16, 20, 4); (24, 30, 1)] /\
  Forall cfit ex_copies /\
  (forall c c' x, In c ex_copies -> In c' ex_copies -> sources ex_loc c x ->
     targets ex_loc c' x -> False).
Proof.
  exists (match merge_all empty_set ex_copies with Some k => k | None => empty_set end).
  split; [vm_compute; reflexivity|]. split; [vm_compute; reflexivity|]. split.
  - repeat (apply Forall_cons; [unfold cfit; cbn [c_sb c_db c_len]; lia|]). apply Forall_nil.
  - intros c c' x I I' (s & Ss & X) T. unfold targets in T. simpl in I, I'.
    repeat match type of I with _ \/ _ => destruct I as [<-|I] | False => destruct I end;
      simpl in Ss; try discriminate; injection Ss as <-; simpl in X;
      repeat match type of I' with _ \/ _ => destruct I' as [<-|I'] | False => destruct I' end;
      simpl in T; lia.
Qed.

(** A block with a store elsewhere between the copies, with and without extensions. *)
Example ex_block_ok : forall max, let l :=
    [ICopy (Copy (Some 0%nat) 1 0 0 4) []; IOther 7; ICopy (Copy (Some 0%nat) 1 4 4 4) [7%nat]] in
  sound ex_loc (fun _ => ex_store 120 1) (ex_alias 120) /\
  trusted max ex_loc (fun _ => ex_store 120 1) l /\
  Forall cfit (copies_of l) /\ clear max ex_loc (copies_of l) /\
  run_block max (fun _ _ _ => false) (ex_alias 120) empty_set l =
    [OOther 7; OOther 7; OCopies (Some 0%nat) 1 [(0, 0, 8)]].
Proof.
  intros max l. split; [apply ex_sound|].
  assert (K: forall x, kept max ex_loc (copies_of l) x -> 100 <= x < 108).
  { intros x (c & I & T & _). unfold targets in T. simpl in I.
    destruct I as [<-|[<-|[]]]; simpl in T; lia. }
  split; [|split; [|split]].
  - constructor.
    + intros i m x _ Q. apply K in Q. unfold ex_store. destruct (Z.eqb_spec x 120); auto. lia.
    + intros c bs i m x _ _ [Q|(c' & I & (s & Ss & X))].
      * apply K in Q. unfold ex_store. destruct (Z.eqb_spec x 120); auto. lia.
      * simpl in I. unfold ex_store. destruct (Z.eqb_spec x 120); auto. exfalso.
        destruct I as [<-|[<-|[]]]; simpl in Ss, X; injection Ss as <-; simpl in X; lia.
    + intros c bs i m m' _ _ H x. unfold ex_store. destruct (Z.eqb_spec x 120); auto.
  - repeat (apply Forall_cons; [unfold cfit; cbn [c_sb c_db c_len]; lia|]). apply Forall_nil.
  - intros c c' x I I' _ (s & Ss & X) T. unfold targets in T. simpl in I, I'.
    destruct I as [<-|[<-|[]]]; simpl in Ss; injection Ss as <-; simpl in X;
      destruct I' as [<-|[<-|[]]]; simpl in T; lia.
  - unfold l. vm_compute. reflexivity.
Qed.
