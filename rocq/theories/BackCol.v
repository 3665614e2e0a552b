(** * Backward error of the triangular factor, from the equations that hlll leaves between its matrices *)
From Coq Require Import ZArith Lia Reals Lra Psatz Arith List Bool.
From Verif Require Import Base FP SpecReal SpecBack Fresh Cache Exact HHMath LcondFacts BackErr.
Import ListNotations.
Local Open Scope R_scope.

Section Inv.
Variables (n : nat) (W : nat -> nat -> R).

Lemma refl_invol k w i : unit2 n W k -> (i < n)%nat -> refl n W k (refl n W k w) i = w i.
Proof.
  intros U Hi. unfold refl at 1.
  assert (E : dot n (vk W k) (refl n W k w) = - dot n (vk W k) w).
  { unfold refl. set (p := dot n (vk W k) w). transitivity (dot n (vk W k) w - p * dot n (vk W k) (vk W k)).
    - unfold dot. rewrite <- sumR_mul_l, <- sumR_minus. apply sumR_ext. intros; ring.
    - rewrite U. fold p. ring. }
  rewrite E. unfold refl. ring.
Qed.

Lemma Hs_onto K : (forall k, (k < K)%nat -> unit2 n W k) -> forall e, exists e', (forall i, (i < n)%nat -> Hs n W K e' i = e i) /\ sq n e' = sq n e.
Proof.
  induction K as [|k IH]; intros U e.
  - exists e. split; [reflexivity|reflexivity].
  - destruct (IH ltac:(intros; apply U; lia) (refl n W k e)) as (e' & E1 & E2). exists e'. split.
    + intros i Hi. cbn [Hs]. rewrite (refl_ext n W k _ (refl n W k e)) by auto. apply refl_invol; auto.
    + rewrite E2. apply (refl_dot n W k e e). apply U. lia.
Qed.

Lemma Hs_add K v w i : (i < n)%nat -> Hs n W K (fun i => v i + w i) i = Hs n W K v i + Hs n W K w i.
Proof.
  intros Hi. rewrite (Hs_ext n W K _ (fun i => v i - (-1) * w i)) by (auto; intros; ring).
  rewrite Hs_sub by assumption. ring.
Qed.
End Inv.

Section Col.
Variable u : R.
Hypothesis U0 : 0 <= u < 1.
Context {F : Type} (fp : fpops F) (val : F -> R).
Hypothesis ST : standard u fp val.
Notation fz := (fzero fp).
Variables (n d : nat) (B : nat -> nat -> Z) (Sj : nat -> nat) (V r : nat -> nat -> F).
Let b (j i : nat) : F := fset_z fp (B i j).
Let x (j : nat) : nat -> F := wch fp V (Sj j) (b j) j.
Hypothesis S_gt : forall j, (j < d)%nat -> (j < Sj j)%nat.
Hypothesis S_le : forall j, (j < d)%nat -> (Sj j <= n)%nat.
Hypothesis S_mono : forall j l, (j <= l < d)%nat -> (Sj j <= Sj l)%nat.
Hypothesis B_zero : forall j i, (j < d)%nat -> (Sj j <= i < n)%nat -> B i j = 0%Z.
Hypothesis R_up : forall i j, (i < j < d)%nat -> r i j = x j i.
Hypothesis R_diag : forall j, (j < d)%nat -> r j j = hv_diag fp (x j) j (Sj j).
Hypothesis V_col : forall j i, (j < d)%nat -> (j <= i < Sj j)%nat -> V i j = hv_vec fp (x j) j (Sj j) i.
Hypothesis V_zero : forall j i, (j < d)%nat -> (Sj j <= i < n)%nat -> V i j = fz.
Hypothesis R_nz : forall j, (j < d)%nat -> val (r j j) <> 0.

Lemma val_set0 : val (fset_z fp 0) = 0.
Proof. destruct (s_setz u fp val ST 0) as (e & _ & ->). ring. Qed.

Lemma wch_tail j K i : (j < d)%nat -> (Sj j <= i < n)%nat -> val (wch fp V (Sj j) (b j) K i) = 0.
Proof.
  intros Hj Hi. induction K as [|k IH]; cbn [wch].
  - unfold b. rewrite B_zero by assumption. apply val_set0.
  - replace (i <? Sj j)%nat with false by (symmetry; apply Nat.ltb_ge; lia). now rewrite andb_false_r.
Qed.

(** the exact reflector of column k *)
Definition W (i k : nat) : R := if (i <? Sj k)%nat then ex_v n (fun i => val (x k i)) k i else 0.

Lemma exv_zero k i : (k < d)%nat -> (Sj k <= i < n)%nat -> ex_v n (fun i => val (x k i)) k i = 0.
Proof.
  intros Hk Hi. unfold ex_v. pose proof (S_gt k Hk). replace (i =? k)%nat with false by (symmetry; apply Nat.eqb_neq; lia).
  unfold x at 1. rewrite (wch_tail k k i) by assumption. unfold Rdiv. ring.
Qed.

Lemma hv_col k : (k < d)%nat ->
  near u (Sj k + 2) (- ex_sg n (fun i => val (x k i)) k) (val (r k k)) /\ 0 < ex_q n (fun i => val (x k i)) k /\
  (forall i, (k <= i < Sj k)%nat -> near u (2 * Sj k + 8) (W i k) (val (V i k))).
Proof.
  intros Hk. destruct (hv_near u U0 fp val ST n (x k) k (Sj k)) as [A1 A2]; auto.
  { intros i Hi. now apply wch_tail. }
  rewrite <- R_diag in * by assumption. destruct (A2 (R_nz k Hk)) as [A3 A4]. split; [exact A1|]. split; [exact A3|].
  intros i Hi. unfold W. replace (i <? Sj k)%nat with true by (symmetry; apply Nat.ltb_lt; lia).
  rewrite V_col by auto. now apply A4.
Qed.

Lemma W_good k : (k < d)%nat -> unit2 n W k /\
  (forall i, (k < i < n)%nat -> refl n W k (fun i => val (x k i)) i = 0) /\
  refl n W k (fun i => val (x k i)) k = - ex_sg n (fun i => val (x k i)) k /\
  ex_sg n (fun i => val (x k i)) k ^ 2 = ex_q n (fun i => val (x k i)) k.
Proof.
  intros Hk. destruct (hv_col k Hk) as (_ & Q & _).
  pose proof (S_gt k Hk). pose proof (S_le k Hk).
  destruct (hh_vector n W k (fun i => val (x k i)) ltac:(lia) Q) as (H1 & H2 & H3 & H4).
  { intros i Hi. unfold W. destruct (Nat.ltb_spec i (Sj k)).
    - reflexivity.
    - symmetry. apply (exv_zero k i); [assumption|lia]. }
  split; [exact H1|]. split; [exact H2|]. split; [exact H3|]. cbn [pow]. rewrite Rmult_1_r. exact H4.
Qed.

Notation bz j := (fun i => IZR (B i j)).
Definition gamK (K : nat) : R := / (1 - u) * (1 + eta u n) ^ K - 1.

Lemma eta_pos : 0 <= eta u n.
Proof. unfold eta. pose proof (acc_pos u U0 (5 * n + 19)). lra. Qed.
Lemma gamK_pos K : 0 <= gamK K.
Proof.
  unfold gamK. pose proof eta_pos. assert (1 <= (1 + eta u n) ^ K) by (apply pow_R1_Rle; lra).
  pose proof (iw_ge1 u U0 1) as I. cbn [pow] in I. rewrite Rmult_1_r in I. nra.
Qed.
Lemma gamK_S K : gamK (S K) = gamK K + eta u n * (1 + gamK K).
Proof. unfold gamK. cbn [pow]. ring. Qed.

(** one more reflector: the error is moved to the column of the basis *)
Lemma push j K E y e : (K < d)%nat -> (forall k, (k <= K)%nat -> unit2 n W k) ->
  sq n E <= gamK K ^ 2 * sq n (bz j) ->
  (forall i, (i < n)%nat -> y i = refl n W K (Hs n W K (fun i => IZR (B i j) + E i)) i + e i) ->
  sq n e <= eta u n ^ 2 * sq n (Hs n W K (fun i => IZR (B i j) + E i)) ->
  exists E', sq n E' <= gamK (S K) ^ 2 * sq n (bz j) /\ forall i, (i < n)%nat -> y i = Hs n W (S K) (fun i => IZR (B i j) + E' i) i.
Proof.
  intros HK U HE HY He. destruct (Hs_onto n W (S K) ltac:(intros; apply U; lia) e) as (e' & P1 & P2).
  exists (fun i => E i + e' i). pose proof (gamK_pos K) as G0. pose proof eta_pos as H0. pose proof (sq_nonneg n (bz j)) as B0.
  split.
  - rewrite gamK_S. apply sq_triangle; auto; [nra|]. rewrite P2. eapply Rle_trans; [exact He|].
    replace ((eta u n * (1 + gamK K)) ^ 2 * sq n (bz j)) with (eta u n ^ 2 * ((1 + gamK K) ^ 2 * sq n (bz j))) by ring.
    apply Rmult_le_compat_l; [apply pow2_ge_0|].
    replace (sq n (Hs n W K (fun i => IZR (B i j) + E i))) with (sq n (fun i => IZR (B i j) + E i))
      by (symmetry; apply (Hs_dot n W K); intros; apply U; lia).
    apply sq_triangle; auto; lra.
  - intros i Hi. rewrite HY by assumption.
    rewrite (Hs_ext n W (S K) _ (fun i => (IZR (B i j) + E i) + e' i)) by (auto; intros; ring).
    rewrite Hs_add by assumption. rewrite P1 by assumption. reflexivity.
Qed.

Lemma col_mid j K : (j < d)%nat -> (K <= j)%nat ->
  exists E, sq n E <= gamK K ^ 2 * sq n (bz j) /\
    forall i, (i < n)%nat -> val (wch fp V (Sj j) (b j) K i) = Hs n W K (fun i => IZR (B i j) + E i) i.
Proof.
  intros Hj. induction K as [|K IH]; intros HK.
  - exists (fun i => val (b j i) - IZR (B i j)). split.
    + apply Rle_trans with (sq n (fun i => gamK 0 * IZR (B i j))); [|rewrite sq_scale; lra].
      apply sq_le. intros i Hi. unfold b. destruct (s_setz u fp val ST (B i j)) as (e & E & ->).
      replace (IZR (B i j) * (1 + e) - IZR (B i j)) with (e * IZR (B i j)) by ring. rewrite !Rabs_mult.
      apply Rmult_le_compat_r; [apply Rabs_pos|]. rewrite (Rabs_pos_eq (gamK 0)) by apply gamK_pos.
      eapply Rle_trans; [exact E|]. eapply Rle_trans; [apply acc_1; exact U0|]. unfold gamK, acc. cbn [pow]. rewrite !Rmult_1_r. lra.
    + intros i Hi. cbn [wch Hs]. ring.
  - destruct IH as (E & HE & EQ); [lia|].
    pose proof (S_gt K ltac:(lia)) as SK. pose proof (S_mono K j ltac:(lia)) as SM. pose proof (S_le j Hj) as SL.
    apply (push j K E _ (fun i => val (wch fp V (Sj j) (b j) (S K) i) - refl n W K (Hs n W K (fun i => IZR (B i j) + E i)) i)); auto; [lia| | |].
    + intros k Hk. apply W_good. lia.
    + intros i Hi. ring.
    + destruct (W_good K ltac:(lia)) as (WU & _). destruct (hv_col K ltac:(lia)) as (_ & _ & NV).
      pose proof (apply_err u U0 fp val ST n K (Sj j) (vk W K) (fun i => V i K) (wch fp V (Sj j) (b j) K) (2 * n + 8)) as AE.
      cbv zeta in AE.
      rewrite (sq_ext n (Hs n W K (fun i => IZR (B i j) + E i)) (fun i => val (wch fp V (Sj j) (b j) K i))) by (intros; now rewrite EQ).
      eapply Rle_trans; [|apply AE]; try lia.
      * apply Req_le. apply sq_ext. intros i Hi. cbn [wch]. f_equal. unfold refl.
        rewrite EQ by assumption. f_equal. f_equal. apply dot_ext; auto. intros; now rewrite EQ.
      * intros i Hi. unfold vk. now replace (K <=? i)%nat with false by (symmetry; apply Nat.leb_gt; lia).
      * intros i Hi. split; [|now apply wch_tail]. unfold vk. replace (K <=? i)%nat with true by (symmetry; apply Nat.leb_le; lia).
        unfold W. now replace (i <? Sj K)%nat with false by (symmetry; apply Nat.ltb_ge; lia).
      * exact WU.
      * intros i Hi. unfold vk. replace (K <=? i)%nat with true by (symmetry; apply Nat.leb_le; lia).
        destruct (Nat.lt_ge_cases i (Sj K)).
        -- apply (near_mono u U0 (2 * Sj K + 8)); [pose proof (S_le K ltac:(lia)); lia|]. apply NV. lia.
        -- unfold W. replace (i <? Sj K)%nat with false by (symmetry; apply Nat.ltb_ge; lia).
           rewrite V_zero by lia. rewrite (s_zero u fp val ST). apply (near_mono u U0 0); [lia|apply near_refl; exact U0].
Qed.

(** the whole column *)
Lemma col_final j : (j < d)%nat ->
  exists E, sq n E <= gam u n j ^ 2 * sq n (bz j) /\
    forall i, (i < n)%nat -> Hs n W (S j) (fun i => IZR (B i j) + E i) i = if (i <=? j)%nat then val (r i j) else 0.
Proof.
  intros Hj. destruct (col_mid j j Hj ltac:(lia)) as (E & HE & EQ).
  pose proof (S_gt j Hj) as SK. pose proof (S_le j Hj) as SL.
  destruct (W_good j Hj) as (WU & WZ & WD & WQ). destruct (hv_col j Hj) as (ND & Q & _).
  set (y := fun i => if (i <=? j)%nat then val (r i j) else 0).
  assert (RE : forall i, (i < n)%nat -> refl n W j (Hs n W j (fun i => IZR (B i j) + E i)) i = refl n W j (fun i => val (x j i)) i).
  { intros i Hi. apply refl_ext; auto. intros l Hl. symmetry. now apply EQ. }
  destruct (push j j E y (fun i => if (i =? j)%nat then val (r j j) + ex_sg n (fun i => val (x j i)) j else 0)) as (E' & P1 & P2); auto.
  - intros k Hk. apply W_good. lia.
  - intros i Hi. unfold y. rewrite RE by assumption. destruct (Nat.eqb_spec i j) as [->|N].
    + rewrite Nat.leb_refl, WD. ring.
    + destruct (Nat.leb_spec i j).
      * rewrite refl_below by lia. rewrite R_up by lia. ring.
      * rewrite WZ by lia. ring.
  - assert (SS : sq n (fun i => if (i =? j)%nat then val (r j j) + ex_sg n (fun i => val (x j i)) j else 0) =
              (val (r j j) - - ex_sg n (fun i => val (x j i)) j) ^ 2).
    { unfold sq. rewrite (sumR_single n j).
      - rewrite Nat.eqb_refl. ring.
      - lia.
      - intros i Hi N. apply Nat.eqb_neq in N. rewrite N. ring. }
    rewrite SS. rewrite (sq_ext n (Hs n W j (fun i => IZR (B i j) + E i)) (fun i => val (x j i))).
    2:{ intros i Hi. symmetry. now apply EQ. }
    apply near_err in ND; [|exact U0].
    rewrite Rabs_Ropp in ND. set (D := val (r j j) - - ex_sg n (fun i => val (x j i)) j) in *.
    set (sg := ex_sg n (fun i => val (x j i)) j) in *.
    assert (QS : sg ^ 2 <= sq n (fun i => val (x j i))).
    { rewrite WQ. apply sumR_le. intros i Hi. destruct (j <=? i)%nat; [lra|apply Rle_0_sqr]. }
    assert (DA : Rabs D <= eta u n * Rabs sg).
    { eapply Rle_trans; [exact ND|]. apply Rmult_le_compat_r; [apply Rabs_pos|]. unfold eta.
      pose proof (acc_mono u U0 (Sj j + 2) (5 * n + 19) ltac:(lia)). pose proof (acc_pos u U0 (5 * n + 19)). lra. }
    rewrite <- (pow2_abs D).
    apply Rle_trans with ((eta u n * Rabs sg) ^ 2); [apply pow_incr; split; [apply Rabs_pos|exact DA]|].
    rewrite Rpow_mult_distr. apply Rmult_le_compat_l; [apply pow2_ge_0|].
    rewrite (pow2_abs sg). exact QS.
  - exists E'. split; [exact P1|]. intros i Hi. symmetry. now apply P2.
Qed.

Theorem backward : (d <= n)%nat -> exists E : nat -> nat -> R,
  (forall j, (j < d)%nat -> sq n (fun i => E i j) <= gam u n j ^ 2 * sq n (bz j)) /\
  R_factor_of n d (fun i j => IZR (B i j) + E i j) (fun i j => if (i <=? j)%nat then val (r i j) else 0).
Proof.
  intros ND.
  assert (G : forall m, (m <= d)%nat -> exists E : nat -> nat -> R, forall j, (j < m)%nat ->
     sq n (fun i => E i j) <= gam u n j ^ 2 * sq n (bz j) /\
     forall i, (i < n)%nat -> Hs n W (S j) (fun i => IZR (B i j) + E i j) i = if (i <=? j)%nat then val (r i j) else 0).
  { induction m as [|m IH]; intros Hm.
    - exists (fun _ _ => 0). intros; lia.
    - destruct IH as (E & HE); [lia|]. destruct (col_final m ltac:(lia)) as (e & H1 & H2).
      exists (fun i j => if (j =? m)%nat then e i else E i j). intros j Hj. destruct (Nat.eqb_spec j m) as [->|N]; [auto|].
      apply HE. lia. }
  destruct (G d ltac:(lia)) as (E & HE). exists E. split; [intros j Hj; now apply HE|]. split.
  - intros i j Hij. now replace (i <=? j)%nat with false by (symmetry; apply Nat.leb_gt; lia).
  - intros j l Hj Hl.
    assert (HH : forall j, (j < d)%nat -> forall i, (i < n)%nat -> Hs n W d (fun i => IZR (B i j) + E i j) i = if (i <=? j)%nat then val (r i j) else 0).
    { intros q Hq i Hi. destruct (HE q Hq) as [_ H]. rewrite (Hs_stable n W q d); [now apply H|lia|].
      intros z Hz. rewrite H by lia. now replace (z <=? q)%nat with false by (symmetry; apply Nat.leb_gt; lia). }
    change (sumR n (fun i => (IZR (B i j) + E i j) * (IZR (B i l) + E i l))) with (dot n (fun i => IZR (B i j) + E i j) (fun i => IZR (B i l) + E i l)).
    rewrite <- (Hs_dot n W d) by (intros; now apply W_good).
    unfold dot. rewrite (sumR_cut n d) by
      (auto; intros i Hi; rewrite (HH j) by lia; replace (i <=? j)%nat with false by (symmetry; apply Nat.leb_gt; lia); ring).
    apply sumR_ext. intros i Hi. now rewrite !HH by lia.
Qed.
End Col.
