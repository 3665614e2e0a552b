(** * Rounding error of one Householder reflector over IEEE doubles, underflow and overflow included

    The analysis of BackErr.v for [dbl]: a product has an absolute error of at most 2^-1075 besides
    the relative one, and every intermediate result is shown to be finite. *)
From Coq Require Import ZArith Lia Floats Reals Lra Psatz Arith List Bool.
From Flocq Require Import Core Relative Plus_error BinarySingleNaN PrimFloat.
From Verif Require Import Base FP Double DblReal SpecReal SpecBack Fresh Cache Exact HHMath LcondFacts BackErr.
Import ListNotations.
Local Open Scope R_scope.

Lemma U0 : 0 <= du < 1. Proof. pose proof du_pos. lra. Qed.
Notation w := (1 - du).
Notation rg := (rng du).
Notation nr := (near du).
Notation df := PrimFloat.float.

(** ** one operation *)
Lemma rnd_ex x : exists e h, Rabs e <= du /\ Rabs h <= deta /\ rnd x = x * (1 + e) + h.
Proof.
  destruct (error_N_FLT radix2 (-1074) 53 ltac:(lia) (fun x => negb (Z.even x)) x) as (e & h & H1 & H2 & _ & E).
  exists e, h. rewrite half_eta in H2. rewrite half_du in H1. auto.
Qed.

Lemma rnd_normal x : bpow radix2 (-1000) <= Rabs x -> rnd1 du x (rnd x).
Proof.
  intros H. destruct (relative_error_N_FLT_ex radix2 (-1074) 53 ltac:(lia) (fun x => negb (Z.even x)) x) as (e & H1 & E).
  - eapply Rle_trans; [|exact H]. apply bpow_le. lia.
  - exists e. rewrite half_du in H1. auto.
Qed.

Lemma dval_fmt x : generic_format radix2 (FLT_exp (-1074) 53) (dval x).
Proof. unfold dval. apply (generic_format_B2R prec emax). Qed.

Lemma rnd_plus x y : rnd1 du (dval x + dval y) (rnd (dval x + dval y)).
Proof.
  destruct (FLT_plus_error_N_ex radix2 (-1074) 53 (fun x => negb (Z.even x)) (dval x) (dval y) (dval_fmt x) (dval_fmt y)) as (e & H1 & E).
  exists e. split; [|exact E]. eapply Rle_trans; [exact H1|]. unfold u_ro. rewrite half_du. pose proof du_pos.
  apply Rmult_le_reg_r with (1 + du); [lra|]. unfold Rdiv. rewrite Rmult_assoc, Rinv_l by lra. nra.
Qed.

Lemma rnd_minus x y : rnd1 du (dval x - dval y) (rnd (dval x - dval y)).
Proof.
  unfold Rminus. rewrite <- (dval_opp y). apply (rnd_plus x (- y)%float).
Qed.

Lemma fin_add a x y : (0 <= a <= 1020)%Z -> dfin x -> dfin y -> Rabs (dval x) <= bpow radix2 a -> Rabs (dval y) <= bpow radix2 a ->
  dfin (x + y)%float /\ rnd1 du (dval x + dval y) (dval (x + y)%float) /\ dval (x + y)%float = rnd (dval x + dval y).
Proof.
  intros Ha FX FY BX BY. destruct (dval_add x y FX FY) as [F E].
  - unfold small. eapply Rle_trans; [apply Rabs_triang|]. apply Rle_trans with (bpow radix2 (a + 1)); [rewrite bpow_dbl; lra|apply bpow_le; lia].
  - split; [exact F|]. rewrite E. split; [apply rnd_plus|reflexivity].
Qed.

(** ** scalar products *)
Lemma inv_w_ge : 1 + du <= / w.
Proof. pose proof du_pos. apply Rmult_le_reg_r with w; [lra|]. rewrite Rinv_l by lra. nra. Qed.

Lemma fmt_mult (m : nat) a : (Z.of_nat m <= 2 ^ 53)%Z -> (-1074 <= a)%Z -> generic_format radix2 (FLT_exp (-1074) 53) (INR m * bpow radix2 a).
Proof. intros H Ha. rewrite INR_IZR_INZ. apply int_fmt; lia. Qed.

Lemma mult_le (m : nat) a : (Z.of_nat m <= 2 ^ 53)%Z -> INR m * bpow radix2 a <= bpow radix2 (53 + a).
Proof.
  intros H. rewrite INR_IZR_INZ, bpow_plus. apply Rmult_le_compat_r; [apply bpow_ge_0|].
  change (bpow radix2 53) with (IZR (2 ^ 53)). now apply IZR_le.
Qed.

Section Dot.
Variables (V x : nat -> df) (k m : nat) (a : Z).
Hypothesis Ha : (0 <= a <= 960)%Z.
Hypothesis Hk : (k < m)%nat.
Hypothesis Hm : (Z.of_nat m <= 2 ^ 53)%Z.
Hypothesis FV : forall i, (k <= i < m)%nat -> dfin (V i).
Hypothesis FX : forall i, (k <= i < m)%nat -> dfin (x i).
Hypothesis BX : forall i, (k <= i < m)%nat -> Rabs (dval (V i) * dval (x i)) <= bpow radix2 a.

Lemma prod_d i : (k <= i < m)%nat -> dfin (V i * x i)%float /\ Rabs (dval (V i * x i)%float) <= bpow radix2 a /\
  exists e h, Rabs e <= du /\ Rabs h <= deta /\ dval (V i * x i)%float = dval (V i) * dval (x i) * (1 + e) + h.
Proof.
  intros Hi. destruct (dval_mul (V i) (x i) (FV i Hi) (FX i Hi)) as [F E].
  { eapply Rle_trans; [apply BX; exact Hi|]. apply bpow_le. lia. }
  split; [exact F|]. rewrite E. split; [apply rnd_abs_le; [lia|now apply BX]|]. apply rnd_ex.
Qed.

Lemma dotf_d : dfin (dotf dbl V x k m) /\ Rabs (dval (dotf dbl V x k m)) <= INR m * bpow radix2 a /\
  exists t h, (forall i, rg (m + 1) (t i)) /\ Rabs h <= INR m * deta * / w ^ m /\
    dval (dotf dbl V x k m) = sumR m (fun i => if (k <=? i)%nat then dval (V i) * dval (x i) * t i else 0) + h.
Proof.
  pose proof du_pos as U. pose proof deta_pos as ETA. pose proof U0 as UU.
  assert (G : forall l, (S k + l <= m)%nat ->
     let p := fold_left (fun acc i => faddmul dbl acc (V i) (x i)) (seq (S k) l) (fmul dbl (V k) (x k)) in
     dfin p /\ Rabs (dval p) <= INR (S l) * bpow radix2 a /\
     exists t h, (forall i, rg (l + 2) (t i)) /\ Rabs h <= INR (S l) * deta * / w ^ S l /\
     dval p = sumR (S k + l) (fun i => if (k <=? i)%nat then dval (V i) * dval (x i) * t i else 0) + h).
  { induction l as [|l IH]; intros HL.
    - cbn [seq fold_left fmul dbl]. destruct (prod_d k ltac:(lia)) as (F & B & e & h & E1 & E2 & E). cbv zeta.
      split; [exact F|]. split; [change (INR 1) with 1; rewrite Rmult_1_l; exact B|].
      exists (fun _ => 1 + e), h. split; [intros _; apply (rng_mono du UU 1); [lia|now apply (rng_rnd du UU)]|]. split.
      + change (INR 1) with 1; rewrite Rmult_1_l. pose proof (iw_ge1 du UU 1). eapply Rle_trans; [exact E2|]. nra.
      + rewrite E, Nat.add_0_r. cbn [sumR]. rewrite Nat.leb_refl, sumR_0; [ring|].
        intros i Hi. now replace (k <=? i)%nat with false by (symmetry; apply Nat.leb_gt; lia).
    - destruct (IH ltac:(lia)) as (F & B & t & h & T & H & E). clear IH. cbv zeta in *. rewrite seq_S, fold_left_app. cbn [fold_left].
      set (p := fold_left (fun acc i => faddmul dbl acc (V i) (x i)) (seq (S k) l) (fmul dbl (V k) (x k))) in *.
      set (z := (S k + l)%nat) in *. destruct (prod_d z ltac:(lia)) as (F' & B' & e1 & h1 & E1 & H1 & EP).
      change (faddmul dbl p (V z) (x z)) with (p + V z * x z)%float.
      assert (SB : Rabs (dval p + dval (V z * x z)%float) <= INR (S (S l)) * bpow radix2 a).
      { eapply Rle_trans; [apply Rabs_triang|]. rewrite (S_INR (S l)). lra. }
      assert (HL2 : (Z.of_nat (S (S l)) <= 2 ^ 53)%Z) by lia.
      destruct (dval_add p (V z * x z)%float F F') as [FA EA].
      { eapply Rle_trans; [exact SB|]. eapply Rle_trans; [apply mult_le; exact HL2|]. apply bpow_le. lia. }
      split; [exact FA|]. split.
      { rewrite EA. apply abs_round_le_generic; try typeclasses eauto; [apply fmt_mult; [exact HL2|lia]|exact SB]. }
      destruct (rnd_plus p (V z * x z)%float) as (e2 & E2 & ER). rewrite <- EA in ER.
      exists (fun i => if (i =? z)%nat then (1 + e1) * (1 + e2) else t i * (1 + e2)), ((h + h1) * (1 + e2)). split; [|split].
      + intros i. destruct (i =? z)%nat.
        * apply (rng_mono du UU 2); [lia|]. apply (rng_mul du UU 1 1); now apply (rng_rnd du UU).
        * replace (S l + 2)%nat with (l + 2 + 1)%nat by lia. apply (rng_mul du UU); auto. now apply (rng_rnd du UU).
      + rewrite Rabs_mult. assert (R2 : Rabs (1 + e2) <= / w).
        { apply Rabs_le_inv in E2. pose proof inv_w_ge. apply Rabs_le. lra. }
        assert (R1 : Rabs (h + h1) <= INR (S (S l)) * deta * / w ^ S l).
        { eapply Rle_trans; [apply Rabs_triang|]. rewrite (S_INR (S l)). pose proof (iw_ge1 du UU (S l)) as I1.
          assert (deta * 1 <= deta * / w ^ S l) by (apply Rmult_le_compat_l; lra). lra. }
        change (w ^ S (S l)) with (w * w ^ S l). rewrite Rinv_mult. rewrite (Rmult_comm (/ w)), <- Rmult_assoc.
        apply Rmult_le_compat; auto using Rabs_pos.
      + rewrite ER, E, EP. replace (S k + S l)%nat with (S z) by (unfold z; lia).
        change (sumR (S z) ?f) with (sumR z f + f z). cbv beta.
        rewrite Nat.eqb_refl. replace (k <=? z)%nat with true by (symmetry; apply Nat.leb_le; unfold z; lia).
        rewrite (sumR_ext z (fun i => if (k <=? i)%nat then dval (V i) * dval (x i) * (if (i =? z)%nat then (1 + e1) * (1 + e2) else t i * (1 + e2)) else 0)
          (fun i => (if (k <=? i)%nat then dval (V i) * dval (x i) * t i else 0) * (1 + e2))).
        2:{ intros i Hi. replace (i =? z)%nat with false by (symmetry; apply Nat.eqb_neq; lia). destruct (k <=? i)%nat; ring. }
        rewrite sumR_mul_r. ring. }
  destruct (G (m - S k)%nat ltac:(lia)) as (F & B & t & h & T & H & E). cbv zeta in *. unfold dotf.
  replace (S k + (m - S k))%nat with m in E by lia.
  assert (IM : INR (S (m - S k)) <= INR m) by (apply le_INR; lia).
  split; [exact F|]. split.
  { eapply Rle_trans; [exact B|]. apply Rmult_le_compat_r; [apply bpow_ge_0|exact IM]. }
  exists t, h. split; [|split; [|exact E]].
  - intros i. apply (rng_mono du UU (m - S k + 2)); [lia|apply T].
  - eapply Rle_trans; [exact H|]. rewrite !Rmult_assoc. apply Rmult_le_compat; [apply pos_INR| |exact IM|].
    + apply Rmult_le_pos; [lra|]. pose proof (iw_ge1 du UU (S (m - S k))). lra.
    + apply Rmult_le_compat_l; [lra|]. apply Rinv_le_contravar; [apply (w_pos du UU)|].
      pose proof (acc_mono du UU (S (m - S k)) m ltac:(lia)) as AM. unfold acc in AM.
      pose proof (w_pos du UU m) as P1. pose proof (w_pos du UU (S (m - S k))) as P2.
      rewrite <- (Rinv_inv (w ^ m)), <- (Rinv_inv (w ^ S (m - S k))). apply Rinv_le_contravar; [now apply Rinv_0_lt_compat|lra].
Qed.
End Dot.

Lemma sum_abs n f g : (forall j, (j < n)%nat -> Rabs (f j) <= g j) -> Rabs (sumR n f) <= sumR n g.
Proof.
  induction n as [|n IH]; intros H; cbn [sumR]; [rewrite Rabs_R0; lra|].
  eapply Rle_trans; [apply Rabs_triang|]. apply Rplus_le_compat; [apply IH; intros; apply H; lia|apply H; lia].
Qed.
Lemma sum_const n c : sumR n (fun _ => c) = INR n * c.
Proof. induction n as [|n IH]; [cbn; ring|]. cbn [sumR]. rewrite IH, S_INR. ring. Qed.

Lemma acc_2 : 2 * du <= acc du 2.
Proof.
  unfold acc. cbn [pow]. rewrite Rmult_1_r, Rinv_mult. pose proof inv_w_ge. pose proof du_pos. nra.
Qed.

Lemma rng_le2 k t : acc du k <= 1 -> rg k t -> 0 < t <= 2.
Proof. intros A H. pose proof (rng_pos du U0 _ _ H). destruct H as [_ H]. unfold acc in A. lra. Qed.

Lemma tiny_du : bpow radix2 (-500) <= du. Proof. unfold du. apply bpow_le. lia. Qed.

(** ** application of an approximate reflector: V is v up to K roundings and an absolute 2^-1075 *)
Lemma apply_d n k m (v : nat -> R) (V x : nat -> df) K : (k < m)%nat -> (m <= n)%nat -> (K <= 2 * n + 8)%nat ->
  (Z.of_nat n <= 2 ^ 53)%Z -> acc du (5 * n + 19) <= 1 ->
  (forall i, (i < k)%nat -> v i = 0) -> (forall i, (m <= i < n)%nat -> v i = 0 /\ dval (x i) = 0) ->
  sq n v = 2 ->
  (forall i, (k <= i < m)%nat -> dfin (V i) /\ exists t e, rg K t /\ Rabs e <= deta /\ dval (V i) = v i * t + e) ->
  (forall i, (k <= i < m)%nat -> dfin (x i) /\ Rabs (dval (x i)) <= bpow radix2 450) ->
  / 16 <= sq n (fun i => dval (x i)) ->
  let p := dotf dbl V x k m in
  let y i := if (k <=? i)%nat && (i <? m)%nat then fsubmul dbl (x i) (V i) p else x i in
  (forall i, (k <= i < m)%nat -> dfin (y i)) /\
  sq n (fun i => dval (y i) - (dval (x i) - v i * sumR n (fun j => v j * dval (x j)))) <= eta du n ^ 2 * sq n (fun i => dval (x i)).
Proof.
  intros Hk Hm HK HN AC V0 VZ V2 VN FX X1 p y. pose proof du_pos as U. pose proof U0 as UU. pose proof deta_pos as ETA.
  assert (v2 : forall i, (i < n)%nat -> Rabs (v i) <= 2).
  { intros i Hi. assert (v i * v i <= 2).
    { rewrite <- V2. unfold sq. clear -Hi. induction n as [|n IH]; [lia|]. cbn [sumR].
      destruct (Nat.eq_dec i n) as [->|N]; [assert (0 <= sumR n (fun i => v i * v i)) by (apply sumR_nonneg; intros; nra); lra|].
      specialize (IH ltac:(lia)). nra. }
    apply Rabs_le. nra. }
  destruct (near_choose du UU n K v (fun i => if (k <=? i)%nat && (i <? m)%nat then v i else v i)) as (tau0 & TA0 & _).
  { intros i Hi. apply (near_mono du UU 0); [lia|]. destruct (_ && _)%bool; apply near_refl; exact UU. }
  assert (CH : forall q, (q <= n)%nat -> exists tau ep, (forall i, rg K (tau i)) /\ (forall i, Rabs (ep i) <= deta) /\
      forall i, (i < q)%nat -> (k <= i < m)%nat -> dval (V i) = v i * tau i + ep i).
  { induction q as [|q IH]; intros Hq.
    - exists tau0, (fun _ => 0). split; [exact TA0|]. split; [intros _; rewrite Rabs_R0; lra|intros; lia].
    - destruct (IH ltac:(lia)) as (tau & ep & A1 & A2 & A3). destruct (le_dec k q) as [L1|L1]; [destruct (lt_dec q m) as [L2|L2]|].
      2,3: exists tau, ep; split; [exact A1|]; split; [exact A2|]; intros i Hi1 Hi2; apply A3; lia.
      destruct (VN q ltac:(lia)) as (_ & t & e & T1 & T2 & T3).
      exists (fun i => if (i =? q)%nat then t else tau i), (fun i => if (i =? q)%nat then e else ep i).
      split; [intros i; now destruct (i =? q)%nat|]. split; [intros i; now destruct (i =? q)%nat|].
      intros i Hi1 Hi2. destruct (Nat.eqb_spec i q) as [->|]; [exact T3|]. apply A3; lia. }
  destruct (CH n ltac:(lia)) as (tau & ep & TA & EP & ET). clear CH tau0 TA0.
  assert (TB : forall i, 0 < tau i <= 2).
  { intros i. apply (rng_le2 K); [|apply TA]. eapply Rle_trans; [apply (acc_mono du UU K (5 * n + 19)); lia|exact AC]. }
  assert (deta1 : deta <= 1) by (pose proof deta_du; lra).
  assert (VB : forall i, (k <= i < m)%nat -> Rabs (dval (V i)) <= bpow radix2 3).
  { intros i Hi. rewrite ET by lia. eapply Rle_trans; [apply Rabs_triang|]. rewrite Rabs_mult, (Rabs_pos_eq (tau i)) by (pose proof (TB i); lra).
    pose proof (v2 i ltac:(lia)). pose proof (TB i). pose proof (EP i). pose proof (Rabs_pos (v i)). change (bpow radix2 3) with 8. nra. }
  assert (PB : forall i, (k <= i < m)%nat -> Rabs (dval (V i) * dval (x i)) <= bpow radix2 453).
  { intros i Hi. change 453%Z with (3 + 450)%Z. rewrite bpow_plus, Rabs_mult. apply Rmult_le_compat; auto using Rabs_pos. now apply FX. }
  destruct (dotf_d V x k m 453 ltac:(lia) Hk ltac:(lia)) as (FP & BP & t & h & T & HH & EQP); auto.
  { intros i Hi. now apply VN. } { intros i Hi. now apply FX. }
  fold p in FP, BP, EQP.
  assert (TT : forall i, 0 < t i <= 2).
  { intros i. apply (rng_le2 (m + 1)); [|apply T]. eapply Rle_trans; [apply (acc_mono du UU (m + 1) (5 * n + 19)); lia|exact AC]. }
  assert (BP' : Rabs (dval p) <= bpow radix2 506).
  { eapply Rle_trans; [exact BP|]. apply (mult_le m 453). lia. }
  (* the products with p, and the differences *)
  assert (SUB : forall i, (k <= i < m)%nat -> dfin (x i - V i * p)%float /\
     exists e1 h1 e2, Rabs e1 <= du /\ Rabs h1 <= deta /\ Rabs e2 <= du /\
       dval (x i - V i * p)%float = (dval (x i) - (dval (V i) * dval p * (1 + e1) + h1)) * (1 + e2)).
  { intros i Hi. destruct (FX i Hi) as [FXi BXi]. destruct (VN i Hi) as [FVi _].
    assert (B1 : Rabs (dval (V i) * dval p) <= bpow radix2 509).
    { change 509%Z with (3 + 506)%Z. rewrite bpow_plus, Rabs_mult. apply Rmult_le_compat; auto using Rabs_pos. }
    destruct (dval_mul (V i) p FVi FP) as [F1 E1]. { eapply Rle_trans; [exact B1|]. apply bpow_le. lia. }
    assert (B2 : Rabs (dval (V i * p)%float) <= bpow radix2 509) by (rewrite E1; now apply rnd_abs_le).
    destruct (dval_sub (x i) (V i * p)%float FXi F1) as [F2 E2].
    { unfold small, Rminus. eapply Rle_trans; [apply Rabs_triang|]. rewrite Rabs_Ropp.
      assert (bpow radix2 450 <= bpow radix2 509) by (apply bpow_le; lia).
      apply Rle_trans with (bpow radix2 (509 + 1)); [rewrite bpow_dbl; lra|apply bpow_le; lia]. }
    split; [exact F2|]. destruct (rnd_minus (x i) (V i * p)%float) as (e2 & A2 & EE). destruct (rnd_ex (dval (V i) * dval p)) as (e1 & h1 & A1 & A3 & EE1).
    exists e1, h1, e2. split; [exact A1|]. split; [exact A3|]. split; [exact A2|]. rewrite E2, EE, E1, EE1. reflexivity. }
  split.
  { intros i Hi. unfold y. replace (k <=? i)%nat with true by (symmetry; apply Nat.leb_le; lia).
    replace (i <? m)%nat with true by (symmetry; apply Nat.ltb_lt; lia). cbn [andb]. now apply SUB. }
  set (A := acc du (5 * n + 19)) in *. assert (A0 : 0 <= A) by apply (acc_pos du UU).
  set (P := sumR n (fun j => Rabs (v j) * Rabs (dval (x j)))).
  assert (P0 : 0 <= P) by (apply sumR_nonneg; intros; apply Rmult_le_pos; apply Rabs_pos).
  set (S0 := sumR n (fun j => v j * dval (x j))).
  (* p without its underflows *)
  set (p0 := sumR n (fun j => v j * dval (x j) * (tau j * t j))).
  assert (HP : exists h', dval p = p0 + h' /\ Rabs h' <= bpow radix2 (-560)).
  { exists (h + sumR m (fun i => if (k <=? i)%nat then ep i * dval (x i) * t i else 0)). split.
    - assert (P0M : p0 = sumR m (fun i => if (k <=? i)%nat then v i * dval (x i) * (tau i * t i) else 0)).
      { unfold p0. rewrite (sumR_cut n m _ Hm).
        - apply sumR_ext. intros j Hj. destruct (Nat.leb_spec k j); [reflexivity|]. rewrite V0 by assumption. ring.
        - intros j Hj. destruct (VZ j Hj) as [_ Z]. rewrite Z. ring. }
      rewrite P0M, EQP. rewrite (Rplus_comm h), <- Rplus_assoc, <- sumR_plus. f_equal. apply sumR_ext. intros j Hj.
      destruct (Nat.leb_spec k j); [|ring]. rewrite (ET j) by lia. ring.
    - eapply Rle_trans; [apply Rabs_triang|].
      assert (IM : INR m <= bpow radix2 53).
      { rewrite INR_IZR_INZ. change (bpow radix2 53) with (IZR (2 ^ 53)). apply IZR_le. lia. }
      assert (H1 : Rabs h <= bpow radix2 (-561)).
      { assert (IW : / w ^ m <= 2).
        { pose proof (acc_mono du UU m (5 * n + 19) ltac:(lia)) as AM. fold A in AM. unfold acc in AM. lra. }
        eapply Rle_trans; [exact HH|]. apply Rle_trans with (bpow radix2 53 * deta * 2).
        - apply Rmult_le_compat; [apply Rmult_le_pos; [apply pos_INR|lra]|pose proof (iw_ge1 du UU m); lra| |exact IW].
          apply Rmult_le_compat_r; lra.
        - unfold deta. rewrite <- bpow_plus, Rmult_comm, <- bpow_dbl. apply bpow_le. lia. }
      assert (H2 : Rabs (sumR m (fun i => if (k <=? i)%nat then ep i * dval (x i) * t i else 0)) <= bpow radix2 (-561)).
      { eapply Rle_trans; [apply (sum_abs m _ (fun _ => deta * bpow radix2 450 * 2))|].
        - intros j Hj. assert (Q : 0 <= deta * bpow radix2 450 * 2) by (pose proof (bpow_gt_0 radix2 450); nra).
          destruct (Nat.leb_spec k j); [|now rewrite Rabs_R0]. rewrite !Rabs_mult. destruct (FX j ltac:(lia)) as [_ B].
          pose proof (TT j). rewrite (Rabs_pos_eq (t j)) by lra.
          apply Rmult_le_compat; [apply Rmult_le_pos; apply Rabs_pos|lra| |lra]. apply Rmult_le_compat; auto using Rabs_pos.
        - rewrite sum_const. apply Rle_trans with (bpow radix2 53 * (deta * bpow radix2 450 * 2)).
          + apply Rmult_le_compat_r; [pose proof (bpow_gt_0 radix2 450); nra|exact IM].
          + unfold deta. rewrite <- bpow_plus, (Rmult_comm _ 2), <- bpow_dbl, <- bpow_plus. apply bpow_le. lia. }
      change (-560)%Z with (-561 + 1)%Z. rewrite bpow_dbl. lra. }
  destruct HP as (h' & EH & BH).
  set (Tn := bpow radix2 (-550)). assert (T0 : 0 < Tn) by apply bpow_gt_0.
  assert (BND : forall i, (i < n)%nat ->
    Rabs (dval (y i) - (dval (x i) - v i * S0)) <= Rabs ((du * Rabs (dval (x i)) + A * P * Rabs (v i)) + Tn)).
  { intros i Hi.
    assert (R0 : 0 <= du * Rabs (dval (x i)) + A * P * Rabs (v i)).
    { assert (0 <= du * Rabs (dval (x i))) by (apply Rmult_le_pos; [lra|apply Rabs_pos]).
      assert (0 <= A * P * Rabs (v i)) by (apply Rmult_le_pos; [now apply Rmult_le_pos|apply Rabs_pos]). lra. }
    rewrite (Rabs_pos_eq (_ + Tn)) by lra. unfold y.
    destruct (Nat.leb_spec k i) as [L|L]; cbn [andb].
    2:{ rewrite (V0 i) by assumption. replace (dval (x i) - (dval (x i) - 0 * S0)) with 0 by ring. rewrite (V0 i) in R0 by assumption. rewrite Rabs_R0 in *. lra. }
    destruct (Nat.ltb_spec i m) as [L'|L'].
    2:{ destruct (VZ i ltac:(lia)) as [Z1 Z2]. rewrite Z1. replace (dval (x i) - (dval (x i) - 0 * S0)) with 0 by ring. rewrite Z1 in R0. rewrite Rabs_R0 in *. lra. }
    change (fsubmul dbl (x i) (V i) p) with (x i - V i * p)%float.
    destruct (SUB i ltac:(lia)) as (_ & e1 & h1 & e2 & A1 & A2 & A3 & ES). rewrite ES.
    assert (F1 : rg 1 (1 + e1)) by now apply (rng_rnd du UU). assert (F2 : rg 1 (1 + e2)) by now apply (rng_rnd du UU).
    set (q := tau i * (1 + e1) * (1 + e2)).
    assert (Q : rg (K + 2) q).
    { unfold q. replace (K + 2)%nat with (K + 1 + 1)%nat by lia. apply (rng_mul du UU); [apply (rng_mul du UU); auto|]; assumption. }
    assert (Q2 : 0 < q <= 2).
    { apply (rng_le2 (K + 2)); [|exact Q]. eapply Rle_trans; [apply (acc_mono du UU (K + 2) (5 * n + 19)); lia|exact AC]. }
    assert (DP : Rabs (q * p0 - S0) <= A * P).
    { unfold p0, S0, P. rewrite <- !sumR_mul_l, <- sumR_minus. apply sum_abs. intros j Hj.
      replace (q * (v j * dval (x j) * (tau j * t j)) - v j * dval (x j)) with ((q * (tau j * t j) - 1) * (v j * dval (x j))) by ring.
      rewrite Rabs_mult, (Rabs_mult (v j)). apply Rmult_le_compat_r; [apply Rmult_le_pos; apply Rabs_pos|].
      apply (rng_err du UU). apply (rng_mono du UU (K + 2 + (K + (m + 1)))); [lia|]. apply (rng_mul du UU); auto. apply (rng_mul du UU); auto. }
    rewrite (ET i) by lia.
    replace ((dval (x i) - ((v i * tau i + ep i) * dval p * (1 + e1) + h1)) * (1 + e2) - (dval (x i) - v i * S0))
      with ((dval (x i) * e2 - v i * (q * p0 - S0)) - (v i * q * h' + ep i * dval p * ((1 + e1) * (1 + e2)) + h1 * (1 + e2)))
      by (rewrite EH; unfold q; ring).
    eapply Rle_trans; [apply Rabs_triang|]. rewrite Rabs_Ropp. apply Rplus_le_compat.
    - eapply Rle_trans; [apply (Rabs_triang (dval (x i) * e2) (- (v i * (q * p0 - S0))))|].
      rewrite Rabs_Ropp, !Rabs_mult. apply Rplus_le_compat.
      + rewrite Rmult_comm. apply Rmult_le_compat_r; [apply Rabs_pos|exact A3].
      + rewrite Rmult_comm. apply Rmult_le_compat_r; [apply Rabs_pos|exact DP].
    - assert (G1 : Rabs (v i * q * h') <= 4 * bpow radix2 (-560)).
      { rewrite !Rabs_mult, (Rabs_pos_eq q) by lra. apply Rmult_le_compat; auto; [apply Rmult_le_pos; [apply Rabs_pos|lra]|apply Rabs_pos|].
        pose proof (v2 i Hi). pose proof (Rabs_pos (v i)). nra. }
      assert (E12 : Rabs ((1 + e1) * (1 + e2)) <= 4).
      { rewrite Rabs_mult. apply Rabs_le_inv in A1, A3. rewrite !Rabs_pos_eq by lra. nra. }
      assert (G2 : Rabs (ep i * dval p * ((1 + e1) * (1 + e2))) <= 4 * bpow radix2 (-560)).
      { rewrite Rabs_mult, Rmult_comm. apply Rmult_le_compat; auto using Rabs_pos. rewrite Rabs_mult.
        apply Rle_trans with (deta * bpow radix2 506); [apply Rmult_le_compat; auto using Rabs_pos|].
        unfold deta. rewrite <- bpow_plus. apply bpow_le. lia. }
      assert (G3 : Rabs (h1 * (1 + e2)) <= 4 * bpow radix2 (-560)).
      { rewrite Rabs_mult, Rmult_comm. apply Rmult_le_compat; auto using Rabs_pos.
        - apply Rabs_le_inv in A3. rewrite Rabs_pos_eq by lra. lra.
        - eapply Rle_trans; [exact A2|]. unfold deta. apply bpow_le. lia. }
      assert (TE : Tn = 1024 * bpow radix2 (-560)) by (unfold Tn; change (-550)%Z with (10 + -560)%Z; rewrite bpow_plus; reflexivity).
      pose proof (bpow_gt_0 radix2 (-560)) as B560.
      eapply Rle_trans; [apply Rabs_triang|]. eapply Rle_trans; [apply Rplus_le_compat; [apply Rabs_triang|apply Rle_refl]|]. rewrite TE. lra. }
  eapply Rle_trans; [apply (sq_le n _ _ BND)|].
  set (X := sq n (fun i => dval (x i))) in *. assert (X0 : 0 <= X) by lra.
  assert (AB : forall f : nat -> R, sq n (fun i => Rabs (f i)) = sq n f).
  { intros f. apply sumR_ext. intros i _. rewrite <- Rabs_mult. apply Rabs_pos_eq. nra. }
  assert (PP : P ^ 2 <= 2 * X).
  { eapply Rle_trans; [apply cauchy|]. rewrite !AB, V2. unfold X. lra. }
  set (tn := bpow radix2 (-500)). assert (tn0 : 0 < tn) by apply bpow_gt_0.
  apply Rle_trans with ((du + 2 * A + tn) ^ 2 * X).
  - apply (sq_triangle n (fun i => du * Rabs (dval (x i)) + A * P * Rabs (v i)) (fun _ => Tn) (du + 2 * A) tn X); try lra.
    + apply (sq_triangle n (fun i => du * Rabs (dval (x i))) (fun i => A * P * Rabs (v i)) du (2 * A) X); try lra.
      * rewrite sq_scale, AB. unfold X. lra.
      * rewrite sq_scale, AB, V2. replace ((A * P) ^ 2 * 2) with (A ^ 2 * (2 * P ^ 2)) by ring.
        replace ((2 * A) ^ 2 * X) with (A ^ 2 * (2 * (2 * X))) by ring. apply Rmult_le_compat_l; [nra|lra].
    + unfold sq. rewrite sum_const. apply Rle_trans with (bpow radix2 53 * (Tn * Tn)).
      * apply Rmult_le_compat_r; [nra|]. rewrite INR_IZR_INZ. change (bpow radix2 53) with (IZR (2 ^ 53)). apply IZR_le. lia.
      * unfold Tn. rewrite <- !bpow_plus. apply Rle_trans with (tn ^ 2 * / 16); [|apply Rmult_le_compat_l; [nra|exact X1]].
        unfold tn. cbn [pow]. rewrite Rmult_1_r. change (/ 16) with (bpow radix2 (-4)). rewrite <- !bpow_plus. apply bpow_le. lia.
  - pose proof tiny_du as TD. fold tn in TD.
    assert (2 * du <= A). { eapply Rle_trans; [apply acc_2|]. unfold A. apply (acc_mono du UU). lia. }
    unfold eta. fold A. apply Rmult_le_compat_r; auto. apply pow_incr. lra.
Qed.
