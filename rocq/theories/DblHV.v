(** * The Householder vector of one column over IEEE doubles *)
From Coq Require Import ZArith Lia Floats Reals Lra Psatz Arith List Bool.
From Flocq Require Import Core BinarySingleNaN PrimFloat.
From Verif Require Import Base FP Double DblReal SpecReal SpecBack Fresh Cache Exact HHMath LcondFacts BackErr DblErr.
Import ListNotations.
Local Open Scope R_scope.

Lemma dval_sqrt_all x : dval (PrimFloat.sqrt x) = rnd (R_sqrt.sqrt (dval x)).
Proof.
  unfold dval. rewrite sqrt_equiv. pose proof (Bsqrt_correct _ _ Hprec Hmax mode_NE (Prim2B x)) as (C1 & _). exact C1.
Qed.

Lemma sqrt_up x e : x <= bpow radix2 (e + e) -> R_sqrt.sqrt x <= bpow radix2 e.
Proof.
  intros H. rewrite <- (sqrt_square (bpow radix2 e)) by apply bpow_ge_0. apply sqrt_le_1_alt. rewrite <- bpow_plus. exact H.
Qed.
Lemma sqrt_lo x e : bpow radix2 (e + e) <= x -> bpow radix2 e <= R_sqrt.sqrt x.
Proof.
  intros H. rewrite <- (sqrt_square (bpow radix2 e)) by apply bpow_ge_0. apply sqrt_le_1_alt. rewrite <- bpow_plus. exact H.
Qed.

(** a quotient of numbers within given binades *)
Lemma quot_up x y a b : Rabs x <= bpow radix2 a -> bpow radix2 b <= Rabs y -> Rabs (x / y) <= bpow radix2 (a - b).
Proof.
  intros HX HY. pose proof (bpow_gt_0 radix2 b). unfold Rdiv. rewrite Rabs_mult, Rabs_inv. unfold Zminus. rewrite bpow_plus, bpow_opp.
  apply Rmult_le_compat; auto using Rabs_pos.
  - left. apply Rinv_0_lt_compat. lra.
  - apply Rinv_le_contravar; lra.
Qed.
Lemma quot_lo x y a b : bpow radix2 a <= Rabs x -> 0 < Rabs y <= bpow radix2 b -> bpow radix2 (a - b) <= Rabs (x / y).
Proof.
  intros HX HY. unfold Rdiv. rewrite Rabs_mult, Rabs_inv. unfold Zminus. rewrite bpow_plus, bpow_opp.
  apply Rmult_le_compat; auto using bpow_ge_0.
  - left. apply Rinv_0_lt_compat, bpow_gt_0.
  - apply Rinv_le_contravar; lra.
Qed.

Lemma hv_d n (x : nat -> df) k m : (k < m)%nat -> (m <= n)%nat -> (Z.of_nat n <= 2 ^ 53)%Z -> acc du (5 * n + 19) <= 1 ->
  (forall i, (m <= i < n)%nat -> dval (x i) = 0) ->
  (forall i, (k <= i < m)%nat -> dfin (x i) /\ Rabs (dval (x i)) <= bpow radix2 450) ->
  bpow radix2 (-400) <= Rabs (dval (hv_diag dbl x k m)) ->
  let xr i := dval (x i) in
  nr (m + 2) (- ex_sg n xr k) (dval (hv_diag dbl x k m)) /\ 0 < ex_q n xr k /\
  forall i, (k <= i < m)%nat -> dfin (hv_vec dbl x k m i) /\
    exists t e, rg (2 * m + 8) t /\ Rabs e <= deta /\ dval (hv_vec dbl x k m i) = ex_v n xr k i * t + e.
Proof.
  intros Hk Hm HN AC Z FX NT xr. pose proof du_pos as U. pose proof U0 as UU. pose proof deta_pos as ETA.
  set (q := ex_q n xr k). assert (Q0 : 0 <= q).
  { apply sumR_nonneg. intros i _. destruct (k <=? i)%nat; [|lra]. apply Rle_0_sqr. }
  destruct (dotf_d x x k m 900 ltac:(lia) Hk ltac:(lia)) as (FD & BD & t & h & T & HH & ED).
  1,2: intros i Hi; now apply FX.
  { intros i Hi. change 900%Z with (450 + 450)%Z. rewrite bpow_plus, Rabs_mult. apply Rmult_le_compat; auto using Rabs_pos; now apply FX. }
  set (D := dotf dbl x x k m) in *.
  assert (NTn : bpow radix2 (-400) <= Rabs (dval (hv_nr dbl x k m))).
  { unfold hv_diag in NT. destruct (fle dbl _ _); [|exact NT]. change (fneg dbl ?a) with (- a)%float in NT. rewrite dval_opp, Rabs_Ropp in NT. exact NT. }
  assert (EN : dval (hv_nr dbl x k m) = rnd (R_sqrt.sqrt (dval D))) by apply dval_sqrt_all.
  assert (SD : bpow radix2 (-401) <= R_sqrt.sqrt (dval D)).
  { destruct (Rle_lt_dec (bpow radix2 (-401)) (R_sqrt.sqrt (dval D))) as [L|L]; auto. exfalso.
    assert (Rabs (rnd (R_sqrt.sqrt (dval D))) <= bpow radix2 (-401)).
    { apply rnd_abs_le; [lia|]. rewrite Rabs_pos_eq by apply sqrt_pos. lra. }
    rewrite EN in NTn. assert (bpow radix2 (-401) < bpow radix2 (-400)) by (apply bpow_lt; lia). lra. }
  assert (DP : 0 < dval D).
  { destruct (Rle_lt_dec (dval D) 0) as [L|L]; auto. exfalso. rewrite (sqrt_neg_0 _ L) in SD. pose proof (bpow_gt_0 radix2 (-401)). lra. }
  assert (DL : bpow radix2 (-802) <= dval D).
  { rewrite <- (sqrt_sqrt (dval D)) by lra. change (-802)%Z with (-401 + -401)%Z. rewrite bpow_plus. pose proof (bpow_ge_0 radix2 (-401)).
    apply Rmult_le_compat; auto. }
  assert (H1 : Rabs h <= bpow radix2 (-1021)).
  { assert (IW : / w ^ m <= 2).
    { pose proof (acc_mono du UU m (5 * n + 19) ltac:(lia)) as AM. unfold acc in *. lra. }
    assert (IM : INR m <= bpow radix2 53).
    { rewrite INR_IZR_INZ. change (bpow radix2 53) with (IZR (2 ^ 53)). apply IZR_le. lia. }
    eapply Rle_trans; [exact HH|]. apply Rle_trans with (bpow radix2 53 * deta * 2).
    - apply Rmult_le_compat; [apply Rmult_le_pos; [apply pos_INR|lra]|pose proof (iw_ge1 du UU m); lra| |exact IW].
      apply Rmult_le_compat_r; lra.
    - unfold deta. rewrite <- bpow_plus, Rmult_comm, <- bpow_dbl. apply bpow_le. lia. }
  set (s := sumR m (fun i => if (k <=? i)%nat then dval (x i) * dval (x i) * t i else 0)) in *.
  assert (NQS : nr (m + 1) q s).
  { unfold q. rewrite (ex_q_cut n m) by auto. unfold s, ex_q, xr.
    rewrite (sumR_ext m (fun i => if (k <=? i)%nat then dval (x i) * dval (x i) * t i else 0)
     (fun i => (if (k <=? i)%nat then dval (x i) * dval (x i) else 0) * t i)) by (intros; destruct (k <=? i)%nat; ring).
    apply (near_sum du UU); auto. intros i Hi. destruct (k <=? i)%nat; [nra|lra]. }
  assert (B803 : bpow radix2 (-1021) <= du * bpow radix2 (-803)).
  { unfold du. rewrite <- bpow_plus. apply bpow_le. lia. }
  assert (B802 : bpow radix2 (-802) = 2 * bpow radix2 (-803)) by (rewrite <- bpow_dbl; reflexivity).
  pose proof (bpow_gt_0 radix2 (-803)) as P803.
  assert (SL : bpow radix2 (-803) <= s).
  { apply Rabs_le_inv in H1. nra. }
  assert (NQ : nr (m + 2) q (dval D)).
  { replace (m + 2)%nat with (m + 1 + 1)%nat by lia. eapply (near_rnd du UU); [exact NQS|]. exists (h / s). split.
    - unfold Rdiv. rewrite Rabs_mult, Rabs_inv, (Rabs_pos_eq s) by lra. apply Rmult_le_reg_r with s; [lra|].
      rewrite Rmult_assoc, Rinv_l by lra. nra.
    - rewrite ED. field. lra. }
  assert (DU : R_sqrt.sqrt (dval D) <= bpow radix2 477).
  { apply sqrt_up. apply Rle_trans with (Rabs (dval D)); [apply Rle_abs|]. eapply Rle_trans; [exact BD|].
    eapply Rle_trans; [apply mult_le; lia|]. apply bpow_le. lia. }
  assert (FN : dfin (hv_nr dbl x k m)) by (apply (dval_sqrt D FD); lra).
  assert (NN : nr (m + 2) (sqrt q) (dval (hv_nr dbl x k m))).
  { replace (m + 2)%nat with (m + 1 + 1)%nat by lia. rewrite EN. eapply (near_rnd du UU); [ |apply rnd_normal].
    - apply (near_sqrt du UU); auto. apply (near_mono du UU (m + 2)); [lia|exact NQ].
    - rewrite Rabs_pos_eq by apply sqrt_pos. eapply Rle_trans; [|exact SD]. apply bpow_le. lia. }
  assert (BN : Rabs (dval (hv_nr dbl x k m)) <= bpow radix2 477).
  { rewrite EN. apply rnd_abs_le; [lia|]. rewrite Rabs_pos_eq by apply sqrt_pos. exact DU. }
  assert (NS : nr (m + 2) (ex_sg n xr k) (dval (hv_s dbl x k m)) /\ nr (m + 2) (- ex_sg n xr k) (dval (hv_diag dbl x k m))).
  { unfold ex_sg, hv_s, hv_diag. fold q. destruct dval_zero as [Z1 Z2].
    pose proof (dval_leb 0%float (x k) Z1 (proj1 (FX k ltac:(lia)))) as LE. rewrite Z2 in LE.
    change (fle dbl (fzero dbl) (x k)) with (PrimFloat.leb 0 (x k)). change (fneg dbl ?a) with (- a)%float.
    unfold xr. destruct (Rle_dec 0 (dval (x k))) as [L|L].
    - replace (PrimFloat.leb 0 (x k)) with true by (symmetry; now apply LE).
      rewrite dval_opp. split; auto. now apply (near_opp du).
    - replace (PrimFloat.leb 0 (x k)) with false by (symmetry; apply not_true_is_false; intros C; apply L; now apply LE).
      rewrite dval_opp, Ropp_involutive. split; auto. now apply (near_opp du). }
  destruct NS as [NS ND]. split; [exact ND|].
  assert (FS : dfin (hv_s dbl x k m) /\ Rabs (dval (hv_s dbl x k m)) = Rabs (dval (hv_nr dbl x k m))).
  { unfold hv_s. destruct (fle dbl _ _); [auto|]. change (fneg dbl ?a) with (- a)%float. rewrite dval_opp, Rabs_Ropp. split; auto. now apply dfin_opp. }
  destruct FS as [FS ES]. set (sd := hv_s dbl x k m) in *. pose proof (bpow_gt_0 radix2 (-400)) as P400.
  assert (SL' : bpow radix2 (-400) <= Rabs (dval sd)) by (rewrite ES; exact NTn).
  assert (SU' : Rabs (dval sd) <= bpow radix2 477) by (rewrite ES; exact BN).
  assert (SN : dval sd <> 0) by (intros C; rewrite C, Rabs_R0 in SL'; lra).
  assert (SG : ex_sg n xr k <> 0).
  { intros C. apply SN. apply (near_nz du UU _ _ _ NS). exact C. }
  assert (Q : 0 < q).
  { destruct Q0 as [|Q0]; auto. exfalso. apply SG. unfold ex_sg. fold q. rewrite <- Q0, sqrt_0. destruct (Rle_dec 0 (xr k)); ring. }
  split; [exact Q|].
  set (sg := ex_sg n xr k) in *.
  assert (SW : 0 <= xr k * sg).
  { unfold sg, ex_sg. fold q. pose proof (sqrt_pos q). destruct (Rle_dec 0 (xr k)); nra. }
  assert (SWd : 0 <= xr k * dval sd).
  { destruct NS as (tt & T1 & ->). pose proof (rng_pos du UU _ _ T1). rewrite <- Rmult_assoc. apply Rmult_le_pos; lra. }
  destruct (fin_add 477 (x k) sd ltac:(lia) (proj1 (FX k ltac:(lia))) FS) as (FW & RW & EW); [|exact SU'|].
  { eapply Rle_trans; [apply FX; lia|]. apply bpow_le. lia. }
  set (wd := (x k + sd)%float) in *.
  assert (NW : nr (m + 3) (xr k + sg) (dval wd)).
  { replace (m + 3)%nat with (m + 2 + 1)%nat by lia. eapply (near_rnd du UU); [ |exact RW].
    apply (near_add du UU); auto. apply (near_mono du UU 0); [lia|apply near_refl; exact UU]. }
  assert (WL : bpow radix2 (-400) <= Rabs (dval wd)).
  { rewrite EW. apply rnd_abs_ge; [lia|]. eapply Rle_trans; [exact SL'|]. fold (xr k).
    destruct (Rle_lt_dec 0 (dval sd)) as [C|C].
    - rewrite (Rabs_pos_eq (dval sd)) by lra. assert (0 <= xr k) by nra. rewrite Rabs_pos_eq; lra.
    - rewrite (Rabs_left (dval sd)) by lra. assert (xr k <= 0) by nra. rewrite Rabs_left; lra. }
  assert (WU : Rabs (dval wd) <= bpow radix2 478).
  { rewrite EW. apply rnd_abs_le; [lia|]. eapply Rle_trans; [apply Rabs_triang|].
    assert (Rabs (dval (x k)) <= bpow radix2 477) by (eapply Rle_trans; [apply FX; lia|apply bpow_le; lia]).
    change 478%Z with (477 + 1)%Z. rewrite bpow_dbl. lra. }
  assert (P0 : 0 < sg * (xr k + sg)) by nra.
  assert (PU : Rabs (dval sd * dval wd) <= bpow radix2 955).
  { change 955%Z with (477 + 478)%Z. rewrite bpow_plus, Rabs_mult. apply Rmult_le_compat; auto using Rabs_pos. }
  assert (PL : bpow radix2 (-800) <= Rabs (dval sd * dval wd)).
  { change (-800)%Z with (-400 + -400)%Z. rewrite bpow_plus, Rabs_mult. apply Rmult_le_compat; auto; lra. }
  destruct (dval_mul sd wd FS FW) as [FP EP]. { eapply Rle_trans; [exact PU|apply bpow_le; lia]. }
  assert (NP : nr (2 * (m + 3)) (sg * (xr k + sg)) (dval (sd * wd)%float)).
  { replace (2 * (m + 3))%nat with (m + 2 + (m + 3) + 1)%nat by lia. rewrite EP. eapply (near_rnd du UU); [ |apply rnd_normal].
    - now apply (near_mul du UU).
    - eapply Rle_trans; [|exact PL]. apply bpow_le. lia. }
  assert (PP : 0 <= dval (sd * wd)%float) by (apply (near_sign du UU _ _ _ NP); lra).
  assert (PL2 : bpow radix2 (-800) <= dval (sd * wd)%float).
  { rewrite <- (Rabs_pos_eq _ PP), EP. apply rnd_abs_ge; [lia|exact PL]. }
  assert (PU2 : dval (sd * wd)%float <= bpow radix2 956).
  { rewrite <- (Rabs_pos_eq _ PP), EP. apply rnd_abs_le; [lia|]. eapply Rle_trans; [exact PU|apply bpow_le; lia]. }
  destruct (dval_sqrt _ FP PP) as [F2 E2]. change (PrimFloat.sqrt (sd * wd)) with (hv_s2 dbl x k m) in F2, E2.
  assert (QL : bpow radix2 (-400) <= R_sqrt.sqrt (dval (sd * wd)%float)) by (apply sqrt_lo; exact PL2).
  assert (QU : R_sqrt.sqrt (dval (sd * wd)%float) <= bpow radix2 478) by (apply sqrt_up; exact PU2).
  assert (S2L : bpow radix2 (-400) <= Rabs (dval (hv_s2 dbl x k m))).
  { rewrite E2. apply rnd_abs_ge; [lia|]. rewrite Rabs_pos_eq by apply sqrt_pos. exact QL. }
  assert (S2U : Rabs (dval (hv_s2 dbl x k m)) <= bpow radix2 478).
  { rewrite E2. apply rnd_abs_le; [lia|]. rewrite Rabs_pos_eq by apply sqrt_pos. exact QU. }
  assert (NS2 : nr (m + 4) (sqrt (sg * (xr k + sg))) (dval (hv_s2 dbl x k m))).
  { replace (m + 4)%nat with (m + 3 + 1)%nat by lia. rewrite E2. eapply (near_rnd du UU); [ |apply rnd_normal].
    - apply (near_sqrt du UU); [lra|exact NP].
    - rewrite Rabs_pos_eq by apply sqrt_pos. eapply Rle_trans; [|exact QL]. apply bpow_le. lia. }
  assert (N2 : sqrt (sg * (xr k + sg)) <> 0) by (pose proof (sqrt_lt_R0 _ P0); lra).
  assert (N3 : dval (hv_s2 dbl x k m) <> 0) by (intros C; rewrite C, Rabs_R0 in S2L; lra).
  intros i Hi. unfold ex_v, hv_vec. fold sg. destruct (Nat.eqb_spec i k) as [->|N].
  - change (fdiv dbl (fadd dbl (x k) (hv_s dbl x k m)) (hv_s2 dbl x k m)) with (wd / hv_s2 dbl x k m)%float.
    destruct (dval_div wd (hv_s2 dbl x k m) FW N3) as [FV EV].
    { eapply Rle_trans; [apply (quot_up _ _ 478 (-400)); auto|]. apply bpow_le. lia. }
    split; [exact FV|].
    assert (NV : nr (2 * m + 8) ((xr k + sg) / sqrt (sg * (xr k + sg))) (dval (wd / hv_s2 dbl x k m)%float)).
    { apply (near_mono du UU (m + 3 + (m + 4) + 1)); [lia|]. rewrite EV. eapply (near_rnd du UU); [ |apply rnd_normal].
      - now apply (near_div du UU).
      - eapply Rle_trans; [|apply (quot_lo _ _ (-400) 478); auto; split; auto; lra]. apply bpow_le. lia. }
    destruct NV as (tv & T1 & T2). exists tv, 0. rewrite Rabs_R0. split; [exact T1|]. split; [lra|]. rewrite T2. ring.
  - change (fdiv dbl (x i) (hv_s2 dbl x k m)) with (x i / hv_s2 dbl x k m)%float.
    destruct (FX i Hi) as [FXi BXi]. destruct (dval_div (x i) (hv_s2 dbl x k m) FXi N3) as [FV EV].
    { eapply Rle_trans; [apply (quot_up _ _ 450 (-400)); auto|]. apply bpow_le. lia. }
    split; [exact FV|].
    assert (NV : nr (0 + (m + 4)) (xr i / sqrt (sg * (xr k + sg))) (dval (x i) / dval (hv_s2 dbl x k m))).
    { apply (near_div du UU); auto. apply near_refl. }
    destruct NV as (tv & T1 & T2). destruct (rnd_ex (dval (x i) / dval (hv_s2 dbl x k m))) as (e & h0 & E1 & E3 & EE).
    exists (tv * (1 + e)), h0. split; [|split; [exact E3|]].
    + apply (rng_mono du UU (0 + (m + 4) + 1)); [lia|]. apply (rng_mul du UU); auto. now apply (rng_rnd du UU).
    + rewrite EV, EE, T2. ring.
Qed.
