(** * matrix_structure and the initial state *)
From Coq Require Import ZArith Lia List Bool Arith.
From Coq Require Import ZifyBool ZifyNat.
From Verif Require Import Base Spec Mat FP Hlll IntSteps LinDep.
Import ListNotations.

Lemma last_nz_le v n : last_nz v n <= n.
Proof. induction n as [|n IH]; cbn; [lia|]. destruct (v n =? 0)%Z; lia. Qed.

Lemma last_nz_zero v n i : last_nz v n <= i < n -> v i = 0%Z.
Proof.
  induction n as [|n IH]; cbn; intros H; [lia|].
  destruct (v n =? 0)%Z eqn:E; [|lia].
  destruct (Nat.eq_dec i n) as [->|N]; [now apply Z.eqb_eq|]. apply IH. lia.
Qed.

Lemma last_nz_pred v n : 0 < last_nz v n -> v (last_nz v n - 1) <> 0%Z.
Proof.
  induction n as [|n IH]; cbn; intros H; [lia|].
  destruct (v n =? 0)%Z eqn:E; [auto|]. cbn. rewrite Nat.sub_0_r. now apply Z.eqb_neq.
Qed.

Lemma last_nz_least v n r : (forall i, r <= i < n -> v i = 0%Z) -> last_nz v n <= r.
Proof.
  intros H. destruct (Nat.le_gt_cases (last_nz v n) r) as [L|L]; [assumption|exfalso].
  apply (last_nz_pred v n); [lia|]. apply H. pose proof (last_nz_le v n). lia.
Qed.

Lemma run_max_length m l : length (run_max m l) = length l.
Proof. revert m. induction l as [|x l IH]; intros m; cbn; auto. Qed.

Lemma run_max_ge m l j : j < length l -> m <= nth j (run_max m l) 0 /\ nth j l 0 <= nth j (run_max m l) 0.
Proof.
  revert m j. induction l as [|x l IH]; intros m j H; cbn in *; [lia|].
  destruct j as [|j]; [lia|]. specialize (IH (max m x) j ltac:(lia)). lia.
Qed.

Lemma run_max_mono m l i j : i <= j < length l -> nth i (run_max m l) 0 <= nth j (run_max m l) 0.
Proof.
  revert m i j. induction l as [|x l IH]; intros m i j H; cbn in *; [lia|].
  destruct i as [|i]; destruct j as [|j]; try lia.
  - apply (run_max_ge (max m x) l j). lia.
  - apply IH. lia.
Qed.

Lemma run_max_attained m l j : j < length l ->
  nth j (run_max m l) 0 = m \/ exists k, k <= j /\ nth j (run_max m l) 0 = nth k l 0.
Proof.
  revert m j. induction l as [|x l IH]; intros m j H; cbn in *; [lia|].
  destruct j as [|j].
  - destruct (Nat.max_spec m x) as [[_ ->]|[_ ->]]; [right; exists 0; auto|auto].
  - destruct (IH (max m x) j ltac:(lia)) as [E|(k & Hk & E)].
    + rewrite E. destruct (Nat.max_spec m x) as [[_ ->]|[_ ->]]; [right; exists 0; split; [lia|reflexivity]|auto].
    + right. exists (S k). split; [lia|assumption].
Qed.

Section S.
Variables (B : mat Z) (n d : nat).

Notation ms := (matrix_structure B n d).

Lemma ms_length : length ms = d.
Proof. unfold matrix_structure. now rewrite run_max_length, map_length, seq_length. Qed.

Lemma ms_raw j : j < d ->
  nth j (map (fun j => last_nz (fun i => mget 0%Z B i j) n) (seq 0 d)) 0 = last_nz (fun i => mget 0%Z B i j) n.
Proof. intros H. now rewrite nth_map_seq. Qed.

Lemma ms_zero j i : j < d -> nth j ms 0 <= i < n -> fn B i j = 0%Z.
Proof.
  intros Hj Hi. unfold fn. apply (last_nz_zero (fun i => mget 0%Z B i j) n).
  unfold matrix_structure in Hi.
  pose proof (run_max_ge 0 (map (fun j => last_nz (fun i => mget 0%Z B i j) n) (seq 0 d)) j) as G.
  rewrite map_length, seq_length in G. specialize (G Hj). rewrite ms_raw in G by assumption. lia.
Qed.

Lemma ms_mono i j : i <= j < d -> nth i ms 0 <= nth j ms 0.
Proof. intros H. apply run_max_mono. now rewrite map_length, seq_length. Qed.

Lemma ms_attained j : j < d ->
  nth j ms 0 = 0 \/ exists k, k <= j /\ 0 < nth j ms 0 <= n /\ fn B (nth j ms 0 - 1) k <> 0%Z.
Proof.
  intros Hj. unfold matrix_structure.
  pose proof (run_max_attained 0 (map (fun j => last_nz (fun i => mget 0%Z B i j) n) (seq 0 d)) j) as G.
  rewrite map_length, seq_length in G. specialize (G Hj).
  destruct G as [G|(k & Hk & G)]; [now left|].
  rewrite ms_raw in G by lia. rewrite G.
  pose proof (last_nz_le (fun i => mget 0%Z B i k) n).
  destruct (Nat.eq_dec (last_nz (fun i => mget 0%Z B i k) n) 0) as [E|E]; [now left|].
  right. exists k. split; [assumption|]. split; [lia|].
  apply (last_nz_pred (fun i => mget 0%Z B i k) n). lia.
Qed.

Lemma ms_le j : j < d -> nth j ms 0 <= n.
Proof. intros Hj. destruct (ms_attained j Hj) as [->|(k & _ & H & _)]; lia. Qed.

(** least bound: any bound of the non-zeros of the first j+1 columns is at least structure[j]+1 *)
Lemma ms_least j r : j < d -> (forall k i, k <= j -> r <= i < n -> fn B i k = 0%Z) -> nth j ms 0 <= r.
Proof.
  intros Hj H. destruct (ms_attained j Hj) as [->|(k & Hk & L & N)]; [lia|].
  destruct (Nat.le_gt_cases (nth j ms 0) r) as [G|G]; [assumption|exfalso].
  apply N. apply H; lia.
Qed.

Lemma ms_independent j : independent n d (fn B) -> j < d -> j < nth j ms 0.
Proof.
  intros HI Hj. apply (independent_support n d (fn B)); try assumption.
  - now apply ms_le.
  - intros k i Hk Hi. apply ms_zero; [lia|].
    pose proof (ms_mono k j). lia.
Qed.
End S.

Lemma fn_mtab n d g : meq n d (fn (mtab n d g)) g.
Proof. intros i j Hi Hj. unfold fn. now apply mget_mtab. Qed.

Lemma id_mat_fn d : meq d d (fn (id_mat d)) mid.
Proof. intros i j Hi Hj. unfold fn, id_mat. now rewrite mget_mtab. Qed.

(** initial integer state *)
Lemma bok_init c B U : wfm (cn c) (cd c) B -> bok c (mkI B U (matrix_structure B (cn c) (cd c))).
Proof.
  intros W. split; cbn [iB iS].
  - assumption.
  - apply ms_length.
  - apply ms_le.
  - intros i j H. now apply ms_mono.
  - intros j Hj i Hi. now apply (ms_zero B (cn c) (cd c)).
Qed.

Lemma ms_staircase B n d j : staircase n d (fn B) -> j < d -> j < nth j (matrix_structure B n d) 0.
Proof.
  intros HS Hj. destruct (HS j Hj) as (i & k & Hi & Hk & N).
  destruct (Nat.lt_ge_cases j (nth j (matrix_structure B n d) 0)) as [L|L]; [assumption|exfalso].
  apply N. apply (ms_zero B n d); [lia|]. pose proof (ms_mono B n d k j ltac:(lia)). lia.
Qed.

Lemma staircase_ext n d A B : meq n d A B -> staircase n d A -> staircase n d B.
Proof.
  intros E H j Hj. destruct (H j Hj) as (i & k & Hi & Hk & N). exists i, k. repeat split; try lia.
  rewrite <- E by lia. exact N.
Qed.

Lemma independent_staircase n d A : independent n d A -> staircase n d A.
Proof.
  intros HI j Hj.
  assert (HI' : independent n d (fn (mtab n d A))).
  { intros c Hc. apply HI. intros i Hi. rewrite <- (Hc i Hi). apply sumZ_ext. intros k Hk. now rewrite fn_mtab. }
  pose proof (ms_independent (mtab n d A) n d j HI' Hj) as G.
  destruct (ms_attained (mtab n d A) n d j Hj) as [E|(k & Hk & L & N)]; [lia|].
  exists (nth j (matrix_structure (mtab n d A) n d) 0 - 1), k. split; [lia|]. split; [exact Hk|].
  rewrite fn_mtab in N by lia. exact N.
Qed.

Lemma uok_init c B : staircase (cn c) (cd c) (fn B) ->
  uok c (mkI B (id_mat (cd c)) (matrix_structure B (cn c) (cd c))).
Proof.
  intros HI. split; cbn [iU iS].
  - apply mtab_wfm.
  - intros j Hj i Hi. rewrite id_mat_fn by lia. apply mid_neq.
    pose proof (ms_staircase B (cn c) (cd c) j HI Hj). lia.
Qed.

Lemma independent_ext n d A B : meq n d A B -> independent n d A -> independent n d B.
Proof.
  intros E H c Hc. apply H. intros i Hi. rewrite <- (Hc i Hi). apply sumZ_ext.
  intros j Hj. now rewrite E.
Qed.

(** ** full column rank below the first row: kept by the lifting (no truncation) *)
Definition lower (A : zmat) : zmat := fun i j => A (S i) j.

Lemma independent_mul n d A U : independent n d A -> unimodular d U -> independent n d (mmul d A U).
Proof.
  intros HI (W & HW1 & HW2) c Hc j Hj.
  assert (Z0 : forall k, k < d -> sumZ d (fun l => U k l * c l)%Z = 0%Z).
  { apply HI. intros i Hi. rewrite <- (Hc i Hi). unfold mmul.
    rewrite (sumZ_ext d (fun j0 => A i j0 * sumZ d (fun l => U j0 l * c l))%Z (fun j0 => sumZ d (fun l => A i j0 * (U j0 l * c l)))%Z)
      by (intros; now rewrite sumZ_mul_l).
    rewrite sumZ_swap. apply sumZ_ext. intros l Hl. rewrite <- sumZ_mul_r. apply sumZ_ext. intros; ring. }
  transitivity (sumZ d (fun k => W j k * sumZ d (fun l => U k l * c l)))%Z.
  - rewrite (sumZ_ext d (fun k => W j k * sumZ d (fun l => U k l * c l))%Z (fun k => sumZ d (fun l => W j k * U k l * c l))%Z)
      by (intros; rewrite <- sumZ_mul_l; apply sumZ_ext; intros; ring).
    rewrite sumZ_swap.
    rewrite (sumZ_ext d (fun l => sumZ d (fun k => W j k * U k l * c l))%Z (fun l => mid j l * c l)%Z).
    + now rewrite sumZ_mid_l.
    + intros l Hl. rewrite sumZ_mul_r. f_equal. apply (HW2 j l Hj Hl).
  - apply sumZ_0. intros k Hk. rewrite Z0 by assumption. ring.
Qed.

Lemma independent_lower n d A : independent (n - 1) d (lower A) -> independent n d A.
Proof. intros HI c Hc. apply HI. intros i Hi. apply (Hc (S i)). lia. Qed.
