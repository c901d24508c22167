(** Concrete functions for the extension of copies: one it is right about, two it is wrong
    about. *)
From Coq Require Import Bool List ZArith Lia PeanoNat.
From Verif Require Import Copies Extending ExtendSpec ExtendFacts.
Import ListNotations.
Local Open Scope Z_scope.

(** Instructions of a concrete function, one by one. *)
Ltac places I :=
  unfold inst_at, body_of in I; cbn [fst snd] in I;
  repeat match type of I with
         | context [nth_error _ ?x] => is_var x; destruct x; cbn in I; try discriminate I
         end.

Lemma from_entry f y : around f entry entry y -> y = entry.
Proof. induction 1 as [|y z A IH N E]; [reflexivity|congruence]. Qed.

Definition mem_of (l : list (Z * Z)) : Z -> option Z :=
  fun x => match List.find (fun q => fst q =? x) l with Some q => Some (snd q) | None => None end.
Definition fill (a v : Z) : list (Z * Z) := map (fun j => (a + Z.of_nat j, v)) (seq 0 8).
Definition overlap (lo hi off len : Z) : bool := (off <? hi) && (lo <? off + len).

(** ** Two vectors of a structure, the first one only copied if there is any

    Both copies are in the frontier, and from the first execution gets to the second; but they
    store to different places. *)
Definition two_vectors : func :=
  [Block [Poison 0 0 16] (Cond 4 1 2);
   Block [Memcpy 0 0 1 0 (Reg 3)] (Jump 2);
   Block [Memcpy 0 8 2 0 (Reg 5)] (Many 6 [])].
Definition two_answers : analyses :=
  Analyses
    (fun l rg => let '(r, off, len) := rg in
       match l with
       | (0, 0)%nat => true
       | (1, 0)%nat => if Nat.eqb r 0 then overlap 0 8 off len else true
       | (2, 0)%nat => if Nat.eqb r 0 then overlap 8 16 off len else true
       | _ => false
       end)
    (fun p b => loc_eqb p (0%nat, 0%nat) && (Nat.eqb b 1 || Nat.eqb b 2))
    (fun l => if loc_eqb l (1%nat, 0%nat) || loc_eqb l (2%nat, 0%nat) then 8 else 0)
    (fun _ n => n <=? 8).
Definition two_ok (x : Z) : bool :=
  (1000 <=? x) && (x <? 1016) || (2000 <=? x) && (x <? 2008) || (3000 <=? x) && (x <? 3008).
Definition two_regs (r : nat) : option Z := nth r [Some 1000; Some 2000; Some 3000; Some 3; Some 1; Some 5; Some 0] None.
Definition two_start : state := State two_regs (mem_of (fill 2000 17 ++ fill 3000 42)) [].
Definition no_others (i : nat) (s : state) : option state := None.

Lemma two_regs_keep l s : reached no_others two_ok two_vectors two_start l s -> s_reg s = two_regs.
Proof.
  intros [n R]. revert l s R. induction n as [|n IH]; intros l s R.
  - cbn in R. now injection R as <- <-.
  - rewrite steps_S in R. destruct (steps no_others two_ok two_vectors n (At entry two_start)) as [l1 s1| |];
      [|discriminate|discriminate].
    specialize (IH _ _ eq_refl). destruct (step_at _ _ _ _ _ _ _ R) as [_ [(i & I & X & _)|[_ ->]]]; [|exact IH].
    destruct i as [r o ln|d do' sr so nn|j]; cbn in X.
    + destruct (s_reg s1 r); [|discriminate]. now injection X as <-.
    + destruct (s_reg s1 d), (s_reg s1 sr), (operand_of s1 nn); try discriminate.
      destruct (readable _ _ _); [|discriminate]. now injection X as <-.
    + discriminate.
Qed.

Lemma reg_eq s v : s_reg s = two_regs -> forall r, two_regs r = v -> s_reg s r = v.
Proof. intros E r H. now rewrite E. Qed.

Lemma two_right : right no_others two_ok two_vectors two_start two_answers (fun _ _ => false).
Proof.
  constructor.
  - intros [b k] s s' i [[r off] len] R I X M x (c & C & B). pose proof (two_regs_keep _ _ R) as RG.
    places I; injection I as <-; cbn in M, X; rewrite RG in *; cbn in X;
      try discriminate M; injection X as <-; cbn; rewrite ?RG;
      (destruct (Nat.eqb_spec r 0); [subst r; cbn in C; injection C as <-|discriminate M]);
      unfold overlap in M; unfold put_bytes;
      (destruct (_ && _) eqn:Q in |- *; [|reflexivity]);
      apply andb_true_iff in Q; destruct Q as [Q1 Q2]; apply Z.leb_le in Q1; apply Z.ltb_lt in Q2;
      apply andb_false_iff in M; destruct M as [M|M]; apply Z.ltb_ge in M; lia.
  - intros p b i I D A. cbn in D. apply andb_true_iff in D. destruct D as [D E].
    apply loc_eqb_eq in D. subst p. apply from_entry in A. injection A as ->. discriminate E.
  - intros [b k] s d doff sr soff n v R I V. pose proof (two_regs_keep _ _ R) as RG.
    places I; injection I as <- <- <- <- <-; cbn in V; rewrite RG in V; cbn in V; injection V as <-; cbn; lia.
  - intros [b k] s d doff sr soff n n' c R I S C. pose proof (two_regs_keep _ _ R) as RG.
    cbn in S. apply Z.leb_le in S. unfold readable. apply forallb_forall. intros j J. apply in_seq in J.
    places I; injection I as <- <- <- <- <-; rewrite RG in C; cbn in C; injection C as <-;
      unfold two_ok; rewrite !orb_true_iff, !andb_true_iff, !Z.leb_le, !Z.ltb_lt; lia.
  - intros [b k] d doff sr soff n off len I L.
    places I; injection I as <- <- <- <- <-; cbn; unfold overlap; apply andb_false_iff; right;
      apply Z.ltb_ge; lia.
  - intros [b k] s s' i r R I X _. pose proof (two_regs_keep _ _ R) as RG.
    places I; injection I as <-; cbn in X; rewrite RG in X; cbn in X; injection X as <-; cbn; now rewrite RG.
  - discriminate.
Qed.
Lemma two_closed : closed_func two_vectors.
Proof.
  intros b x c X I. destruct b as [|[|[|b]]]; cbn in X; try (destruct b; discriminate X);
    injection X as <-; cbn in I; intuition; subst; cbn; lia.
Qed.
Lemma two_sane : sane two_vectors two_answers.
Proof.
  split; [|split].
  - intros [b k] r off len I. places I; injection I as <- <- <-; lia.
  - intros [b k] d doff sr soff n I. places I; injection I as <- <- <- <- <-; lia.
  - intros l. cbn. destruct (_ || _); lia.
Qed.
Lemma two_alone : alone two_vectors two_answers.
Proof.
  intros [pb pk] r off len [b k] d doff sr soff n w P I F W M (z & E & A).
  places P. places I.
  - (* the first copy: only itself stores there, and nothing leads back to it *)
    injection I as <- <- <- <- <-. cbn in M.
    destruct w as [[|[|[|w]]] [|j]]; cbn in M; try discriminate M; [now apply W|].
    destruct E as (x & X & E). cbn in X. injection X as <-. cbn in E.
    destruct E as [[_ ->]|[L _]]; [|lia].
    assert (G : forall q, around two_vectors (0%nat, 0%nat) (1%nat, 1%nat) q -> (1 <= fst q)%nat /\ q <> (1%nat, 0%nat)).
    { clear. intros q. induction 1 as [|y z A [IH1 IH2] N (x & X & E)]; [now split|].
      destruct y as [[|[|[|y]]] j]; cbn in *; [lia| | |destruct y; discriminate X]; injection X as <-; cbn in E.
      - destruct E as [[L ->]|(_ & b & [<-|[]] & ->)]; cbn; split; try lia; try congruence.
      - destruct E as [[L ->]|(_ & b & [] & ->)]; cbn; split; try lia; congruence. }
    destruct (G _ A) as [_ G2]. now apply G2.
  - injection I as <- <- <- <- <-. cbn in M.
    destruct w as [[|[|[|w]]] [|j]]; cbn in M; try discriminate M; [now apply W|].
    destruct E as (x & X & E). cbn in X. injection X as <-. cbn in E.
    destruct E as [[_ ->]|[L _]]; [|lia].
    assert (G : forall q, around two_vectors (0%nat, 0%nat) (2%nat, 1%nat) q -> q = (2%nat, 1%nat)).
    { clear. intros q. induction 1 as [|y z A IH N (x & X & E)]; [reflexivity|]. subst y.
      cbn in X. injection X as <-. cbn in E. destruct E as [[L _]|(_ & b & [] & _)]. lia. }
    discriminate (G _ A).
Qed.
Example two_extended :
  extend_copies two_vectors two_answers =
  [Block [Poison 0 0 16] (Cond 4 1 2);
   Block [Memcpy 0 0 1 0 (Const 8)] (Jump 2);
   Block [Memcpy 0 8 2 0 (Const 8)] (Many 6 [])].
Proof. vm_compute. reflexivity. Qed.
Example two_same : forall n,
  config_le (steps no_others two_ok two_vectors n (At entry two_start))
            (steps no_others two_ok (extend_copies two_vectors two_answers) n (At entry two_start)).
Proof.
  apply (extend_sim no_others two_ok two_vectors two_start two_answers (fun _ _ => false));
    [discriminate|exact two_right|exact two_closed|exact two_sane|exact two_alone].
Qed.
Example two_ends : exists s,
  steps no_others two_ok two_vectors 6 (At entry two_start) = Ended s /\
  map (s_mem s) [1000; 1002; 1003; 1008; 1012; 1013] = [Some 17; Some 17; None; Some 42; Some 42; None].
Proof. eexists. split; [cbv; reflexivity|vm_compute; reflexivity]. Qed.

(** ** A store on one path

    [poison; if (c) store; memcpy]: the copy is in the frontier because of the other path. *)
Definition branch : func :=
  [Block [Poison 0 0 8] (Cond 2 1 2);
   Block [Other 0] (Jump 2);
   Block [Memcpy 0 0 1 0 (Reg 3)] (Many 4 [])].
Definition branch_answers : analyses :=
  Analyses
    (fun l rg => let '(r, off, len) := rg in
       match l with
       | (0, 0)%nat => true
       | (1, 0)%nat => if Nat.eqb r 0 then overlap 4 5 off len else true
       | (2, 0)%nat => if Nat.eqb r 0 then overlap 0 8 off len else true
       | _ => false
       end)
    (fun p b => loc_eqb p (0%nat, 0%nat) && (Nat.eqb b 1 || Nat.eqb b 2))
    (fun l => if loc_eqb l (2%nat, 0%nat) then 8 else 0)
    (fun _ n => n <=? 8).
(** The store of 7 to the fifth byte. *)
Definition branch_sem (i : nat) (s : state) : option state :=
  match s_reg s 0 with
  | Some a => Some (State (s_reg s) (put_bytes (s_mem s) (a + 4) 1 (fun _ => Some 7)) (s_log s))
  | None => None
  end.
Definition branch_regs (r : nat) : option Z := nth r [Some 1000; Some 2000; Some 1; Some 2; Some 0] None.
Definition branch_start : state := State branch_regs (mem_of (fill 2000 17)) [].

Lemma branch_mono : monotone branch_sem.
Proof.
  intros i s t s' (R & M & L) X. unfold branch_sem in *. destruct (s_reg s 0) as [b|] eqn:B; [|discriminate].
  injection X as <-. rewrite (le_some _ _ _ (R 0%nat) B). eexists. split; [reflexivity|].
  repeat split; cbn; auto. intros x. unfold put_bytes. destruct (_ && _); [now right|apply M].
Qed.
Lemma branch_regs_keep l s : reached branch_sem two_ok branch branch_start l s -> s_reg s = branch_regs.
Proof.
  intros [n R]. revert l s R. induction n as [|n IH]; intros l s R.
  - cbn in R. now injection R as <- <-.
  - rewrite steps_S in R. destruct (steps branch_sem two_ok branch n (At entry branch_start)) as [l1 s1| |];
      [|discriminate|discriminate].
    specialize (IH _ _ eq_refl). destruct (step_at _ _ _ _ _ _ _ R) as [_ [(i & I & X & _)|[_ ->]]]; [|exact IH].
    destruct i as [r o ln|d do' sr so nn|j]; cbn in X.
    + destruct (s_reg s1 r); [|discriminate]. now injection X as <-.
    + destruct (s_reg s1 d), (s_reg s1 sr), (operand_of s1 nn); try discriminate.
      destruct (readable _ _ _); [|discriminate]. now injection X as <-.
    + unfold branch_sem in X. destruct (s_reg s1 0); [|discriminate]. now injection X as <-.
Qed.
Lemma branch_right : right branch_sem two_ok branch branch_start branch_answers (fun _ _ => false).
Proof.
  constructor.
  - intros [b k] s s' i [[r off] len] R I X M x (c & C & B). pose proof (branch_regs_keep _ _ R) as RG.
    places I; injection I as <-; cbn in M, X; unfold branch_sem in X; rewrite RG in *; cbn in X;
      try discriminate M; injection X as <-; cbn; rewrite ?RG;
      (destruct (Nat.eqb_spec r 0); [subst r; cbn in C; injection C as <-|discriminate M]);
      unfold overlap in M; unfold put_bytes;
      (destruct (_ && _) eqn:Q in |- *; [|reflexivity]);
      apply andb_true_iff in Q; destruct Q as [Q1 Q2]; apply Z.leb_le in Q1; apply Z.ltb_lt in Q2;
      apply andb_false_iff in M; destruct M as [M|M]; apply Z.ltb_ge in M; lia.
  - intros p b i I D A. cbn in D. apply andb_true_iff in D. destruct D as [D E].
    apply loc_eqb_eq in D. subst p. apply from_entry in A. injection A as ->. discriminate E.
  - intros [b k] s d doff sr soff n v R I V. pose proof (branch_regs_keep _ _ R) as RG.
    places I; injection I as <- <- <- <- <-; cbn in V; rewrite RG in V; cbn in V; injection V as <-; cbn; lia.
  - intros [b k] s d doff sr soff n n' c R I S C. pose proof (branch_regs_keep _ _ R) as RG.
    cbn in S. apply Z.leb_le in S. unfold readable. apply forallb_forall. intros j J. apply in_seq in J.
    places I; injection I as <- <- <- <- <-; rewrite RG in C; cbn in C; injection C as <-;
      unfold two_ok; rewrite !orb_true_iff, !andb_true_iff, !Z.leb_le, !Z.ltb_lt; lia.
  - intros [b k] d doff sr soff n off len I L.
    places I; injection I as <- <- <- <- <-; cbn; unfold overlap; apply andb_false_iff; right;
      apply Z.ltb_ge; lia.
  - intros [b k] s s' i r R I X _. pose proof (branch_regs_keep _ _ R) as RG.
    places I; injection I as <-; cbn in X; unfold branch_sem in X; rewrite RG in X; cbn in X;
      injection X as <-; cbn; now rewrite ?RG.
  - discriminate.
Qed.
Lemma branch_closed : closed_func branch.
Proof.
  intros b x c X I. destruct b as [|[|[|b]]]; cbn in X; try (destruct b; discriminate X);
    injection X as <-; cbn in I; intuition; subst; cbn; lia.
Qed.
Lemma branch_sane : sane branch branch_answers.
Proof.
  split; [|split].
  - intros [b k] r off len I. places I; injection I as <- <- <-; lia.
  - intros [b k] d doff sr soff n I. places I; injection I as <- <- <- <- <-; lia.
  - intros l. cbn. destruct (loc_eqb _ _); lia.
Qed.

Lemma C52_branch_refuted_proof :
  exists sem ok f s0 a sets n,
    monotone sem /\ right sem ok f s0 a sets /\ closed_func f /\ sane f a /\
    ~ config_le (steps sem ok f n (At entry s0)) (steps sem ok (extend_copies f a) n (At entry s0)).
Proof.
  exists branch_sem, two_ok, branch, branch_start, branch_answers, (fun _ _ => false), 6%nat.
  split; [exact branch_mono|]. split; [exact branch_right|]. split; [exact branch_closed|].
  split; [exact branch_sane|]. intros H.
  change (steps branch_sem two_ok branch 6 (At entry branch_start)) with
    (steps branch_sem two_ok branch 6 (At entry branch_start)) in H.
  destruct (steps branch_sem two_ok branch 6 (At entry branch_start)) as [l s|s|] eqn:E1.
  1: cbv in E1; discriminate E1. 2: cbv in E1; discriminate E1.
  destruct H as (t & T & (_ & M & _)). specialize (M 1004).
  assert (S1 : s_mem s 1004 = Some 7).
  { assert (Q : (match steps branch_sem two_ok branch 6 (At entry branch_start) with
                 | Ended s => s_mem s 1004 | _ => None end) = Some 7) by (vm_compute; reflexivity).
    now rewrite E1 in Q. }
  assert (T1 : s_mem t 1004 = Some 17).
  { assert (Q : (match steps branch_sem two_ok (extend_copies branch branch_answers) 6 (At entry branch_start) with
                 | Ended s => s_mem s 1004 | _ => None end) = Some 17) by (vm_compute; reflexivity).
    now rewrite T in Q. }
  rewrite S1, T1 in M. destruct M as [M|M]; discriminate M.
Qed.

(** ** A copy in a loop

    [poison; do { memcpy(n); n = 1; ... } while (c)]: the second time the copy is short. *)
Definition loop : func :=
  [Block [Poison 0 0 8] (Jump 1);
   Block [Memcpy 0 0 1 0 (Reg 3); Other 0] (Cond 4 1 2);
   Block [] (Many 6 [])].
Definition loop_answers : analyses :=
  Analyses
    (fun l rg => let '(r, off, len) := rg in
       match l with
       | (0, 0)%nat => true
       | (1, 0)%nat => if Nat.eqb r 0 then overlap 0 8 off len else true
       | (1, 1)%nat => negb (Nat.eqb r 0 && (off + len <=? 8))
       | _ => false
       end)
    (fun p b => loc_eqb p (0%nat, 0%nat) && (Nat.eqb b 1 || Nat.eqb b 2))
    (fun l => if loc_eqb l (1%nat, 0%nat) then 8 else 0)
    (fun _ n => n <=? 8).
(** The rest of the loop: the next length is 1, and there is other data to copy. *)
Definition loop_sem (i : nat) (s : state) : option state :=
  Some (State (fun r => match r with
                        | 3%nat => Some 1
                        | 4%nat => s_reg s 5
                        | 5%nat => Some 0
                        | _ => s_reg s r
                        end)
              (put_bytes (s_mem s) 2000 8 (fun _ => Some 2)) (s_log s)).
Definition loop_regs (r : nat) : option Z :=
  nth r [Some 1000; Some 2000; None; Some 8; None; Some 1; Some 0] None.
Definition loop_start : state := State loop_regs (mem_of (fill 2000 1)) [].

Lemma loop_mono : monotone loop_sem.
Proof.
  intros i s t s' (R & M & L) X. injection X as <-. eexists. split; [reflexivity|].
  repeat split; cbn [s_reg s_mem s_log]; auto.
  - intros r. do 6 (destruct r as [|r]; [try apply R; now right|]). apply R.
  - intros x. unfold put_bytes. destruct (_ && _); [now right|apply M].
Qed.
Lemma loop_regs_keep l s : reached loop_sem two_ok loop loop_start l s ->
  s_reg s 0%nat = Some 1000 /\ s_reg s 1%nat = Some 2000 /\ (s_reg s 3%nat = Some 8 \/ s_reg s 3%nat = Some 1).
Proof.
  intros [n R]. revert l s R. induction n as [|n IH]; intros l s R.
  - cbn in R. injection R as <- <-. cbn. auto.
  - rewrite steps_S in R. destruct (steps loop_sem two_ok loop n (At entry loop_start)) as [l1 s1| |];
      [|discriminate|discriminate].
    specialize (IH _ _ eq_refl). destruct (step_at _ _ _ _ _ _ _ R) as [_ [(i & I & X & _)|[_ ->]]]; [|exact IH].
    destruct i as [r o ln|d do' sr so nn|j]; cbn in X.
    + destruct (s_reg s1 r); [|discriminate]. now injection X as <-.
    + destruct (s_reg s1 d), (s_reg s1 sr), (operand_of s1 nn); try discriminate.
      destruct (readable _ _ _); [|discriminate]. now injection X as <-.
    + injection X as <-. cbn. destruct IH as (A & B & _). auto.
Qed.
Definition loop_sets (l : loc) (r : nat) : bool :=
  loc_eqb l (1%nat, 1%nat) && (Nat.eqb r 3 || Nat.eqb r 4 || Nat.eqb r 5).
Lemma loop_right : right loop_sem two_ok loop loop_start loop_answers loop_sets.
Proof.
  constructor.
  - intros [b k] s s' i [[r off] len] R I X M x (c & C & B).
    destruct (loop_regs_keep _ _ R) as (R0 & R1 & R3).
    places I; injection I as <-; cbn in M, X; try discriminate M.
    + rewrite R0, R1 in X. destruct (s_reg s 3) as [n|] eqn:N; [|discriminate].
      destruct (readable _ _ _); [|discriminate]. injection X as <-. cbn.
      (destruct (Nat.eqb_spec r 0); [subst r; rewrite R0 in C; injection C as <-|discriminate M]).
      unfold overlap in M; unfold put_bytes.
      assert (n <= 8) by (destruct R3 as [R3|R3]; injection R3 as ->; lia).
      (destruct (_ && _) eqn:Q in |- *; [|reflexivity]).
      apply andb_true_iff in Q; destruct Q as [Q1 Q2]; apply Z.leb_le in Q1; apply Z.ltb_lt in Q2.
      apply andb_false_iff in M; destruct M as [M|M]; apply Z.ltb_ge in M; lia.
    + apply negb_false_iff, andb_true_iff in M. destruct M as [M1 M2].
      apply Nat.eqb_eq in M1. apply Z.leb_le in M2. subst r. rewrite R0 in C. injection C as <-.
      injection X as <-. cbn. unfold put_bytes.
      destruct (Z.leb_spec 2000 x); [lia|reflexivity].
  - intros p b i I D A. cbn in D. apply andb_true_iff in D. destruct D as [D E].
    apply loc_eqb_eq in D. subst p. apply from_entry in A. injection A as ->. discriminate E.
  - intros [b k] s d doff sr soff n v R I V. destruct (loop_regs_keep _ _ R) as (R0 & R1 & R3).
    places I; injection I as <- <- <- <- <-; cbn in V. cbn. destruct R3 as [R3|R3]; rewrite R3 in V;
      injection V as <-; lia.
  - intros [b k] s d doff sr soff n n' c R I S C. destruct (loop_regs_keep _ _ R) as (R0 & R1 & R3).
    cbn in S. apply Z.leb_le in S. unfold readable. apply forallb_forall. intros j J. apply in_seq in J.
    places I; injection I as <- <- <- <- <-; rewrite R1 in C; injection C as <-;
      unfold two_ok; rewrite !orb_true_iff, !andb_true_iff, !Z.leb_le, !Z.ltb_lt; lia.
  - intros [b k] d doff sr soff n off len I L.
    places I; injection I as <- <- <- <- <-; cbn; unfold overlap; apply andb_false_iff; right;
      apply Z.ltb_ge; lia.
  - intros [b k] s s' i r R I X S. destruct (loop_regs_keep _ _ R) as (R0 & R1 & R3).
    places I; injection I as <-; cbn in X.
    + rewrite R0 in X. now injection X as <-.
    + rewrite R0, R1 in X. destruct (s_reg s 3) as [n|]; [|discriminate].
      destruct (readable _ _ _); [|discriminate]. now injection X as <-.
    + injection X as <-. cbn. do 6 (destruct r as [|r]; [try reflexivity; discriminate S|]). reflexivity.
  - intros q [pb pk] r off len P S. places P. injection P as <- <- <-. unfold loop_sets in S.
    apply andb_true_iff in S. destruct S as [_ S]. discriminate S.
Qed.
Lemma loop_closed : closed_func loop.
Proof.
  intros b x c X I. destruct b as [|[|[|b]]]; cbn in X; try (destruct b; discriminate X);
    injection X as <-; cbn in I; intuition; subst; cbn; lia.
Qed.
Lemma loop_sane : sane loop loop_answers.
Proof.
  split; [|split].
  - intros [b k] r off len I. places I; injection I as <- <- <-; lia.
  - intros [b k] d doff sr soff n I. places I; injection I as <- <- <- <- <-; lia.
  - intros l. cbn. destruct (loc_eqb _ _); lia.
Qed.
(** The copy is in the frontier as the comment of the code defines it (l.98-104): no other
    instruction that may store there is on any path from the poison to it. *)
Lemma C52_loop_refuted_proof :
  exists sem ok f s0 a sets n,
    monotone sem /\ right sem ok f s0 a sets /\ closed_func f /\ sane f a /\
    (forall p r off len l w, inst_at f p = Some (Poison r off len) ->
       In l (frontier f a (r, off, len) p) -> w <> p -> w <> l ->
       a_mod a w (r, off, len) = true -> ~ then_reaches f p w l) /\
    ~ config_le (steps sem ok f n (At entry s0)) (steps sem ok (extend_copies f a) n (At entry s0)).
Proof.
  exists loop_sem, two_ok, loop, loop_start, loop_answers, loop_sets, 10%nat.
  split; [exact loop_mono|]. split; [exact loop_right|]. split; [exact loop_closed|].
  split; [exact loop_sane|]. split.
  { intros [pb pk] r off len l w P F W1 W2 M _. places P. injection P as <- <- <-.
    assert (L : frontier loop loop_answers (0%nat, 0, 8) (0%nat, 0%nat) = [(1%nat, 0%nat)])
      by (vm_compute; reflexivity).
    rewrite L in F. destruct F as [<-|[]]. destruct w as [[|[|w]] [|[|j]]]; cbn in M; try discriminate M; congruence. }
  intros H.
  destruct (steps loop_sem two_ok loop 10 (At entry loop_start)) as [l s|s|] eqn:E1.
  1: cbv in E1; discriminate E1. 2: cbv in E1; discriminate E1.
  destruct H as (t & T & (_ & M & _)). specialize (M 1001).
  assert (S1 : s_mem s 1001 = Some 1).
  { assert (Q : (match steps loop_sem two_ok loop 10 (At entry loop_start) with
                 | Ended s => s_mem s 1001 | _ => None end) = Some 1) by (vm_compute; reflexivity).
    now rewrite E1 in Q. }
  assert (T1 : s_mem t 1001 = Some 2).
  { assert (Q : (match steps loop_sem two_ok (extend_copies loop loop_answers) 10 (At entry loop_start) with
                 | Ended s => s_mem s 1001 | _ => None end) = Some 2) by (vm_compute; reflexivity).
    now rewrite T in Q. }
  rewrite S1, T1 in M. destruct M as [M|M]; discriminate M.
Qed.

(** ** A read that is safe: a frozen message of 24 bytes, a cast of it and two offsets. *)
Definition some_pointers : list pdef := [PRoot; PCast 0; PGep 1 (Some 8); PGep 2 (Some 4); PGep 0 None].
Example safe_case : safe_to_read some_pointers [(1%nat, 24)] 3 2 10 = true /\
  safe_to_read some_pointers [(1%nat, 24)] 3 2 11 = false /\
  safe_to_read some_pointers [(1%nat, 24)] 4 0 1 = false.
Proof. vm_compute. auto. Qed.
Definition some_addr (v : nat) : Z := nth v [4096; 4096; 4104; 4108; 5000] 0.
Lemma some_placed : placed some_pointers some_addr.
Proof.
  split.
  - intros v. unfold some_addr. do 5 (destruct v as [|v]; [cbn; lia|]). destruct v; cbn; lia.
  - intros v. do 5 (destruct v as [|v]; [cbn; try split; try lia; exact I|]). destruct v; exact I.
Qed.
Example safe_applied : exists v n, In (v, n) [(1%nat, 24)] /\ some_addr v <= some_addr 3 + 2 /\
  some_addr 3 + 2 + 10 <= some_addr v + n.
Proof.
  apply (C52_read_proof some_pointers _ some_addr 3%nat 2 10 some_placed); [lia|lia|cbn; lia|exact (proj1 safe_case)].
Qed.
Example two_frontier : forall l, In l (frontier two_vectors two_answers (0%nat, 0, 16) (0%nat, 0%nat)) <->
  exists b k, entered two_vectors two_answers (0%nat, 0, 16) (0%nat, 0%nat) b k /\
              first_from two_vectors two_answers (0%nat, 0, 16) b k l.
Proof. apply (C52_frontier_proof _ _ _ _ (Poison 0 0 16) two_closed). reflexivity. Qed.
