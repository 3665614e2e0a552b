(** * The bound computed by lcond(TRIANGULAR_PROPER), exact arithmetic *)
From Coq Require Import ZArith Lia Reals Lra List Bool Arith Psatz.
From Verif Require Import Base Spec Mat FP Hlll Hlll2 SpecReal Structure Exact Lcond LcondFacts.
Import ListNotations.
Local Open Scope R_scope.

Lemma sumR_rev n f : sumR n (fun m => f (n - 1 - m)%nat) = sumR n f.
Proof.
  induction n as [|n IH]; [reflexivity|].
  transitivity (f n + sumR n f); [|cbn; ring]. rewrite <- IH.
  change (S n) with (1 + n)%nat at 1. rewrite sumR_split. cbn [sumR]. rewrite Rplus_0_l.
  f_equal; [f_equal; lia|]. apply sumR_ext. intros i Hi. f_equal. lia.
Qed.

Lemma sumR_const n K : sumR n (fun _ => K) = INR n * K.
Proof. induction n as [|n IH]; [cbn; ring|]. rewrite S_INR. cbn [sumR]. rewrite IH. ring. Qed.

Lemma Rabs_sumR n f : Rabs (sumR n f) <= sumR n (fun i => Rabs (f i)).
Proof.
  induction n as [|n IH]; cbn; [rewrite Rabs_R0; lra|]. eapply Rle_trans; [apply Rabs_triang|]. lra.
Qed.

Section Tri.
Variables (d : nat) (r X : nat -> nat -> R) (eta Q : R).
Hypothesis U : forall i j, (j < i < d)%nat -> r i j = 0.
Hypothesis D : forall i, (i < d)%nat -> r i i <> 0.
Hypothesis I : inverse d r X.
Hypothesis E0 : 0 <= eta.
Hypothesis HE : forall i j, (i < j < d)%nat -> Rabs (r i j / r i i) <= eta.
Hypothesis HQ : forall i j, (i < d)%nat -> (j < d)%nat -> Rabs (r j j / r i i) <= Q.

Definition w (m : nat) : R := match m with O => 1 | S p => eta * (1 + eta) ^ p end.

Lemma w_nonneg m : 0 <= w m.
Proof. destruct m; cbn [w]; [lra|]. apply Rmult_le_pos; auto. apply pow_le. lra. Qed.

Lemma w_sum M : sumR (S M) w = (1 + eta) ^ M.
Proof.
  induction M as [|M IH]; [cbn; ring|]. change (sumR (S (S M)) w) with (sumR (S M) w + w (S M)). rewrite IH. cbn [w pow]. ring.
Qed.

Lemma W_bound j k : (j <= k < d)%nat -> Rabs (X j k * r k k) <= w (k - j).
Proof.
  induction k as [k IH] using lt_wf_ind. intros H. destruct (Nat.eq_dec k j) as [->|N].
  - rewrite (inverse_diag d r U D X j I) by lia. rewrite Nat.sub_diag. cbn. rewrite Rabs_R1. lra.
  - pose proof (inverse_row d r U D X j k I ltac:(lia)) as E.
    assert (E' : X j k * r k k = - sumR (k - j) (fun m => X j (j + m)%nat * r (j + m)%nat k)).
    { replace (X j k * r k k) with (- (X j j * r j k + sumR k (fun i => if (j <? i)%nat then X j i * r i k else 0))) by lra. f_equal.
      replace k with (j + (k - j))%nat at 2 by lia. rewrite sumR_split.
      rewrite (sumR_0 j) by (intros i Hi; now replace (j <? i)%nat with false by (symmetry; apply Nat.ltb_ge; lia)).
      replace (k - j)%nat with (1 + (k - j - 1))%nat by lia. rewrite !sumR_split. cbn [sumR].
      rewrite !Nat.add_0_r, Nat.ltb_irrefl. rewrite (sumR_ext _ _ (fun m => X j (j + (1 + m))%nat * r (j + (1 + m))%nat k)); [ring|].
      intros i Hi. now replace (j <? j + (1 + i))%nat with true by (symmetry; apply Nat.ltb_lt; lia). }
    rewrite E', Rabs_Ropp. eapply Rle_trans; [apply Rabs_sumR|].
    replace (k - j)%nat with (S (k - j - 1)) by lia. cbn [w]. rewrite <- w_sum, <- sumR_mul_l.
    apply sumR_le. intros m Hm. set (i := (j + m)%nat).
    assert (Di := D i ltac:(unfold i; lia)).
    replace (X j i * r i k) with (X j i * r i i * (r i k / r i i)) by (field; auto).
    rewrite Rabs_mult. pose proof (HE i k ltac:(unfold i; lia)) as H1. pose proof (IH i ltac:(unfold i; lia) ltac:(unfold i; lia)) as H2.
    replace (i - j)%nat with m in H2 by (unfold i; lia).
    pose proof (Rabs_pos (X j i * r i i)). pose proof (Rabs_pos (r i k / r i i)). pose proof (w_nonneg m).
    rewrite Rmult_comm. apply Rmult_le_compat; auto.
Qed.

Lemma entry_bound i j : (i < d)%nat -> (j < d)%nat ->
  sumR d (fun k => Rabs (r i k) * Rabs (X k j)) <= 2 * Q * (1 + eta) ^ (d - 1).
Proof.
  intros Hi Hj.
  assert (Q1 : 1 <= Q). { pose proof (HQ i i Hi Hi) as H. unfold Rdiv in H. rewrite Rinv_r in H by (now apply D). now rewrite Rabs_R1 in H. }
  assert (P1 : forall m, 1 <= (1 + eta) ^ m) by (intros m; apply pow_R1_Rle; lra).
  destruct (Nat.lt_ge_cases j i) as [L|L].
  - rewrite sumR_0; [specialize (P1 (d - 1)%nat); nra|]. intros k Hk. destruct (Nat.lt_ge_cases k i).
    + rewrite U by lia. rewrite Rabs_R0. ring.
    + rewrite (inverse_upper d r U D X I) by lia. rewrite Rabs_R0. ring.
  - set (M := (j - i)%nat).
    assert (XB : forall k, (k <= j)%nat -> Rabs (X k j) <= w (j - k) / Rabs (r j j)).
    { intros k Hk. pose proof (W_bound k j ltac:(lia)) as H. rewrite Rabs_mult in H.
      assert (0 < Rabs (r j j)) by (apply Rabs_pos_lt; now apply D).
      apply (Rmult_le_reg_r (Rabs (r j j))); auto. unfold Rdiv. rewrite Rmult_assoc, Rinv_l by lra. lra. }
    assert (RQ : Rabs (r i i) / Rabs (r j j) <= Q).
    { unfold Rdiv. rewrite <- Rabs_inv, <- Rabs_mult. apply HQ; auto. }
    assert (RJ : 0 < Rabs (r j j)) by (apply Rabs_pos_lt; now apply D).
    rewrite (sumR_cut d (i + (1 + M))) by (unfold M; try lia; intros k Hk; rewrite (inverse_upper d r U D X I) by lia; rewrite Rabs_R0; ring).
    rewrite sumR_split. rewrite (sumR_0 i) by (intros k Hk; rewrite U by lia; rewrite Rabs_R0; ring). rewrite Rplus_0_l.
    rewrite sumR_split. cbn [sumR]. rewrite Nat.add_0_r, Rplus_0_l.
    eapply Rle_trans with (Rabs (r i i) / Rabs (r j j) * (w M + eta * sumR M w)).
    + rewrite Rmult_plus_distr_l. apply Rplus_le_compat.
      * eapply Rle_trans; [apply Rmult_le_compat_l; [apply Rabs_pos|apply XB; lia]|]. unfold M. right. unfold Rdiv. ring.
      * rewrite <- (sumR_rev M w). rewrite <- !sumR_mul_l. apply sumR_le. intros m Hm.
        pose proof (XB (i + (1 + m))%nat ltac:(unfold M in Hm; lia)) as H1.
        pose proof (HE i (i + (1 + m))%nat ltac:(unfold M in Hm; lia)) as H2.
        assert (Di := D i Hi). assert (RI : 0 < Rabs (r i i)) by (now apply Rabs_pos_lt).
        assert (H3 : Rabs (r i (i + (1 + m))%nat) <= eta * Rabs (r i i)).
        { replace (r i (i + (1 + m))%nat) with (r i (i + (1 + m))%nat / r i i * r i i) by (field; auto). rewrite Rabs_mult.
          apply Rmult_le_compat_r; lra. }
        eapply Rle_trans; [apply Rmult_le_compat; [apply Rabs_pos|apply Rabs_pos|exact H3|exact H1]|].
        replace (j - (i + (1 + m)))%nat with (M - 1 - m)%nat by (unfold M; lia). right. unfold Rdiv. ring.
    + assert (B : w M + eta * sumR M w <= 2 * (1 + eta) ^ (d - 1)).
      { destruct M as [|M'] eqn:EM.
        - cbn [w sumR]. specialize (P1 (d - 1)%nat). lra.
        - rewrite w_sum. cbn [w]. 
          assert (eta * (1 + eta) ^ M' <= (1 + eta) ^ (d - 1)); [|lra].
          eapply Rle_trans with ((1 + eta) ^ (S M')); [cbn [pow]; specialize (P1 M'); nra|].
          apply Rle_pow; [lra|unfold M in EM; lia]. }
      assert (0 <= w M + eta * sumR M w).
      { pose proof (w_nonneg M). assert (0 <= sumR M w) by (apply sumR_nonneg; intros; apply w_nonneg). nra. }
      replace (2 * Q * (1 + eta) ^ (d - 1)) with (Q * (2 * (1 + eta) ^ (d - 1))) by ring.
      apply Rmult_le_compat; auto. apply Rmult_le_pos; [apply Rabs_pos|]. left. now apply Rinv_0_lt_compat.
Qed.

Lemma cond_bound : (1 <= d)%nat -> cond_F d r X <= INR d * (2 * Q * (1 + eta) ^ (d - 1)).
Proof.
  intros Hd. set (K := 2 * Q * (1 + eta) ^ (d - 1)).
  assert (KP : 0 <= K).
  { eapply Rle_trans; [|apply (entry_bound 0 0); lia]. apply sumR_nonneg. intros. apply Rmult_le_pos; apply Rabs_pos. }
  unfold cond_F. rewrite <- (sqrt_square (INR d * K)) by (apply Rmult_le_pos; auto; apply pos_INR).
  apply sqrt_le_1_alt. eapply Rle_trans with (sumR d (fun _ => sumR d (fun _ => K * K))).
  - apply sumR_le. intros i Hi. apply sumR_le. intros j Hj. pose proof (entry_bound i j Hi Hj) as H. fold K in H.
    assert (0 <= sumR d (fun k => Rabs (r i k) * Rabs (X k j))) by (apply sumR_nonneg; intros; apply Rmult_le_pos; apply Rabs_pos).
    apply Rmult_le_compat; auto.
  - rewrite !sumR_const. right. ring.
Qed.
End Tri.
