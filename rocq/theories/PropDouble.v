(** * C92: what a 0 return of hlll over IEEE doubles certifies, as real inequalities

    [dbl] (Double.v) is the arithmetic of Lattice<..., double, ...>: IEEE binary64, rounding to
    nearest, with its overflows, underflows and NaNs.  C77 leaves the exponent range aside; here it
    is taken into account.  [dval x] is the real number that the double x stands for and
    u = 2^-53 (DblReal.v).  All the hypotheses are tests on what getR and getbase return, so that a
    caller can check them after the call. *)
From Coq Require Import ZArith Lia List Bool Arith Floats Reals Lra Psatz.
From Flocq Require Import Core BinarySingleNaN PrimFloat.
From Verif Require Import Base Spec Mat FP Hlll Hlll2 IntSteps HlllInt Structure Object Safety SpecReal SpecCert PropCert Double DblReal Examples.
Import ListNotations.
Local Open Scope R_scope.

(** |x| < 2^500 (so not NaN nor infinite), |x| > 2^-500 *)
Definition not_huge (x : PrimFloat.float) : Prop := PrimFloat.ltb (PrimFloat.abs x) 0x1p500%float = true.
Definition not_tiny (x : PrimFloat.float) : Prop := PrimFloat.ltb 0x1p-500%float (PrimFloat.abs x) = true.

Lemma not_huge_val x : not_huge x -> dfin x /\ Rabs (dval x) < bpow radix2 500.
Proof.
  intros H. destruct (dval_pow2 0x1p500%float 448 ltac:(vm_compute; reflexivity)) as [F E].
  apply ltb_abs_fin in H; [|exact F]. rewrite E in H. exact H.
Qed.

Lemma not_tiny_val x : dfin x -> not_tiny x -> bpow radix2 (-500) < Rabs (dval x).
Proof.
  intros FX H. destruct (dval_pow2 0x1p-500%float (-552) ltac:(vm_compute; reflexivity)) as [F E].
  unfold not_tiny in H. apply dval_ltb in H; [|exact F|now apply dfin_abs]. now rewrite E, dval_abs in H.
Qed.

Lemma bp_mul a b : bpow radix2 a * bpow radix2 b = bpow radix2 (a + b).
Proof. symmetry. apply bpow_plus. Qed.

Lemma prod_bound x y a b : Rabs x <= bpow radix2 a -> Rabs y <= bpow radix2 b -> Rabs (x * y) <= bpow radix2 (a + b).
Proof. intros H1 H2. rewrite Rabs_mult, bpow_plus. apply Rmult_le_compat; auto using Rabs_pos. Qed.

(** squares *)
Lemma sq_val x : not_huge x -> dfin (x * x)%float /\ 0 <= dval (x * x)%float <= bpow radix2 1000 /\
  (1 - du) * (dval x * dval x) - deta <= dval (x * x)%float <= (1 + du) * (dval x * dval x) + deta.
Proof.
  intros H. destruct (not_huge_val x H) as [F B].
  assert (BB : Rabs (dval x * dval x) <= bpow radix2 1000) by (apply (prod_bound _ _ 500 500); lra).
  destruct (dval_mul x x F F) as [F2 E].
  { eapply Rle_trans; [exact BB|]. apply bpow_le. lia. }
  split; [exact F2|]. rewrite E. pose proof (rnd_err (dval x * dval x)) as ER. pose proof (rnd_pos (dval x * dval x) ltac:(nra)) as RP.
  pose proof (rnd_abs_le _ 1000 ltac:(lia) BB) as RB. rewrite (Rabs_pos_eq (rnd _)) in RB by exact RP.
  rewrite (Rabs_pos_eq (dval x * dval x)) in ER by nra. apply Rabs_le_inv in ER. split; split; lra.
Qed.

Lemma lovasz_double delta r k : PrimFloat.leb 0 delta = true -> PrimFloat.leb delta 1 = true ->
  not_huge (r (k - 1)%nat (k - 1)%nat) -> not_huge (r k k) -> not_huge (r (k - 1)%nat k) ->
  lovasz_test dbl delta r k ->
  (1 - du) ^ 2 * (dval delta * dval (r (k - 1)%nat (k - 1)%nat) ^ 2) <=
    (1 + du) ^ 2 * (dval (r k k) ^ 2 + dval (r (k - 1)%nat k) ^ 2) + bpow radix2 (-1072).
Proof.
  intros D0 D1 HA HK HB (s & S1 & S2).
  assert (SS : not_huge s /\ dval (r k k) ^ 2 = dval s ^ 2).
  { destruct S1 as [<-|E]; [auto|]. cbn [fneg dbl] in E. unfold not_huge in *. rewrite E in *.
    rewrite dval_opp. split; [|ring]. rewrite ltb_equiv, abs_equiv, opp_equiv, Babs_Bopp in HK. rewrite ltb_equiv, abs_equiv. exact HK. }
  destruct SS as [HS ->]. clear S1 HK. cbn [fle fmul fadd dbl] in S2.
  set (a := r (k - 1)%nat (k - 1)%nat) in *. set (b := r (k - 1)%nat k) in *.
  destruct dval_one as [F1 V1]. destruct dval_zero as [F0 V0].
  assert (FD : dfin delta /\ 0 <= dval delta <= 1).
  { assert (FD : dfin delta).
    { rewrite leb_equiv in D0, D1. unfold dfin. destruct (Prim2B delta) as [t|t| |t m e B]; auto; try discriminate D0.
      destruct t; [discriminate D0|discriminate D1]. }
    split; [exact FD|]. apply dval_leb in D0; auto. apply dval_leb in D1; auto. lra. }
  destruct FD as (FD & DL & DU).
  destruct (sq_val a HA) as (FA & (A0 & A1) & A2 & A3). destruct (sq_val s HS) as (FS & (Q0 & Q1) & Q2 & Q3). destruct (sq_val b HB) as (FB & (B0 & B1) & B2 & B3).
  assert (P1000 : bpow radix2 1000 <= bpow radix2 1023) by (apply bpow_le; lia).
  destruct (dval_mul delta (a * a)%float FD FA) as [FM EM].
  { unfold small. rewrite Rabs_pos_eq by nra. nra. }
  destruct (dval_add (s * s)%float (b * b)%float FS FB) as [FP EP].
  { unfold small. rewrite Rabs_pos_eq by lra. apply Rle_trans with (bpow radix2 1001); [|apply bpow_le; lia].
    change 1001%Z with (1000 + 1)%Z. rewrite bpow_dbl. lra. }
  apply dval_leb in S2; auto. rewrite EM, EP in S2.
  pose proof (rnd_err (dval delta * dval (a * a)%float)) as E1. rewrite (Rabs_pos_eq (_ * _)) in E1 by nra. apply Rabs_le_inv in E1.
  pose proof (rnd_err (dval (s * s)%float + dval (b * b)%float)) as E2. rewrite (Rabs_pos_eq (_ + _)) in E2 by lra. apply Rabs_le_inv in E2.
  pose proof du_pos as U. pose proof deta_pos as ETA.
  assert (EE : bpow radix2 (-1072) = 8 * deta).
  { unfold deta. change (-1072)%Z with (3 + -1075)%Z. rewrite bpow_plus. reflexivity. }
  rewrite EE. set (u := du) in *. set (h := deta) in *. set (x := dval a) in *. set (y := dval s) in *. set (z := dval b) in *. set (dl := dval delta) in *.
  set (xa := dval (a * a)%float) in *. set (ya := dval (s * s)%float) in *. set (za := dval (b * b)%float) in *.
  assert (L1 : (1 - u) * (dl * ((1 - u) * (x * x) - h)) <= (1 - u) * (dl * xa)) by (apply Rmult_le_compat_l; [lra|apply Rmult_le_compat_l; lra]).
  assert (L2 : (1 + u) * (ya + za) <= (1 + u) * ((1 + u) * (y * y + z * z) + 2 * h)) by (apply Rmult_le_compat_l; lra).
  assert (L3 : (1 - u) * (dl * h) <= h). { assert (dl * h <= h) by nra. assert (0 <= dl * h) by nra. nra. }
  assert (L4 : (1 + u) * (2 * h) <= 4 * h) by nra.
  replace ((1 - u) ^ 2 * (dl * x ^ 2)) with ((1 - u) * (dl * ((1 - u) * (x * x) - h)) + (1 - u) * (dl * h)) by ring.
  replace ((1 + u) ^ 2 * (y ^ 2 + z ^ 2)) with ((1 + u) * ((1 + u) * (y * y + z * z) + 2 * h) - (1 + u) * (2 * h)) by ring.
  lra.
Qed.

(** ** the tolerance *)
Section Tol.
Variables (b : nat -> Z).
Hypothesis HB : forall i, (Z.abs (b i) <= 2 ^ 400)%Z.

Definition zero_or_ge1 (x : R) : Prop := x = 0 \/ 1 <= x.

Lemma entry_val i : let w := d_ofZ (b i) in
  dfin w /\ Rabs (dval w) <= bpow radix2 400 /\ zero_or_ge1 (dval w * dval w) /\
  dval w * dval w <= (1 + du) ^ 2 * (IZR (b i) * IZR (b i)).
Proof.
  cbv zeta. assert (B : Rabs (IZR (b i)) <= bpow radix2 400).
  { rewrite <- abs_IZR. change (bpow radix2 400) with (IZR (2 ^ 400)). apply IZR_le, HB. }
  destruct (dval_ofZ (b i)) as [F E]. { eapply Rle_trans; [exact B|]. apply bpow_le. lia. }
  split; [exact F|]. rewrite E. pose proof du_pos as U.
  assert (Z1 : IZR (b i) = 0 \/ 1 <= Rabs (IZR (b i))).
  { destruct (Z.eq_dec (b i) 0) as [->|N]; [left; reflexivity|right]. rewrite <- abs_IZR. apply (IZR_le 1). lia. }
  assert (P1 : bpow radix2 (-1000) <= bpow radix2 0) by (apply bpow_le; lia). change (bpow radix2 0) with 1 in P1.
  split; [now apply rnd_abs_le|]. split.
  - destruct Z1 as [->|Z1].
    + left. rewrite round_0 by typeclasses eauto. ring.
    + right. pose proof (rnd_abs_ge (IZR (b i)) 0 ltac:(lia) Z1) as G. change (bpow radix2 0) with 1 in G.
      rewrite <- (Rabs_pos_eq (_ * _)) by nra. rewrite Rabs_mult. nra.
  - assert (R1 : Rabs (rnd (IZR (b i))) <= (1 + du) * Rabs (IZR (b i))).
    { assert (R1 : Rabs (rnd (IZR (b i)) - IZR (b i)) <= du * Rabs (IZR (b i))) by (apply rnd_rel; destruct Z1; [auto|right; lra]).
      pose proof (Rabs_triang_inv (rnd (IZR (b i))) (IZR (b i))). lra. }
    assert (A1 : rnd (IZR (b i)) * rnd (IZR (b i)) = Rabs (rnd (IZR (b i))) * Rabs (rnd (IZR (b i)))) by (rewrite <- Rabs_mult; symmetry; apply Rabs_pos_eq; nra).
    assert (A2 : IZR (b i) * IZR (b i) = Rabs (IZR (b i)) * Rabs (IZR (b i))) by (rewrite <- Rabs_mult; symmetry; apply Rabs_pos_eq; nra).
    rewrite A1, A2. replace ((1 + du) ^ 2 * (Rabs (IZR (b i)) * Rabs (IZR (b i)))) with (((1 + du) * Rabs (IZR (b i))) * ((1 + du) * Rabs (IZR (b i)))) by ring.
    apply Rmult_le_compat; auto using Rabs_pos.
Qed.

Lemma rnd_pos_rel x : zero_or_ge1 x -> (1 - du) * x <= rnd x <= (1 + du) * x /\ zero_or_ge1 (rnd x).
Proof.
  intros H. assert (P1 : bpow radix2 (-1000) <= bpow radix2 0) by (apply bpow_le; lia). change (bpow radix2 0) with 1 in P1.
  assert (P : 0 <= x) by (destruct H; lra).
  assert (E : Rabs (rnd x - x) <= du * Rabs x). { apply rnd_rel. destruct H; [auto|right]. rewrite Rabs_pos_eq; lra. }
  rewrite (Rabs_pos_eq x) in E by exact P. apply Rabs_le_inv in E. split; [lra|].
  destruct H as [->|H]; [left; now rewrite round_0 by typeclasses eauto|right].
  pose proof (rnd_abs_ge x 0 ltac:(lia)) as G. change (bpow radix2 0) with 1 in G. rewrite Rabs_pos_eq in G by exact P.
  specialize (G H). rewrite Rabs_pos_eq in G by now apply rnd_pos. exact G.
Qed.

Lemma mult_fmt (m : nat) : (Z.of_nat m <= 2 ^ 53)%Z -> generic_format radix2 (FLT_exp (-1074) 53) (INR m * bpow radix2 800).
Proof. intros H. rewrite INR_IZR_INZ. apply int_fmt; lia. Qed.

Lemma INR_bound (m : nat) : (Z.of_nat m <= 2 ^ 53)%Z -> INR m * bpow radix2 800 <= bpow radix2 853.
Proof.
  intros H. rewrite INR_IZR_INZ. change 853%Z with (53 + 800)%Z. rewrite bpow_plus. apply Rmult_le_compat_r; [apply bpow_ge_0|].
  change (bpow radix2 53) with (IZR (2 ^ 53)). now apply IZR_le.
Qed.

Lemma sq_step i : let w := d_ofZ (b i) in dfin (w * w)%float /\ 0 <= dval (w * w)%float <= bpow radix2 800 /\ zero_or_ge1 (dval (w * w)%float) /\
  dval (w * w)%float <= (1 + du) ^ 3 * (IZR (b i) * IZR (b i)).
Proof.
  cbv zeta. destruct (entry_val i) as (F & B & Z1 & UB). cbv zeta in *. set (w := d_ofZ (b i)) in *.
  assert (PB : Rabs (dval w * dval w) <= bpow radix2 800) by now apply (prod_bound _ _ 400 400).
  destruct (dval_mul w w F F) as [F2 E]. { eapply Rle_trans; [exact PB|]. apply bpow_le. lia. }
  split; [exact F2|]. rewrite E. destruct (rnd_pos_rel _ Z1) as [R1 R2].
  assert (0 <= dval w * dval w) by nra. pose proof (rnd_pos _ H) as RP.
  split; [split; [exact RP|]|split; [exact R2|]].
  - pose proof (rnd_abs_le _ 800 ltac:(lia) PB) as RB. now rewrite Rabs_pos_eq in RB.
  - pose proof du_pos. eapply Rle_trans; [apply R1|]. replace ((1 + du) ^ 3 * (IZR (b i) * IZR (b i))) with ((1 + du) * ((1 + du) ^ 2 * (IZR (b i) * IZR (b i)))) by ring.
    apply Rmult_le_compat_l; lra.
Qed.

Lemma sumsq_double l : (1 <= l)%nat -> (Z.of_nat l <= 2 ^ 53)%Z ->
  let q := sumsq dbl (fun i => fset_z dbl (b i)) l in
  dfin q /\ 0 <= dval q <= INR l * bpow radix2 800 /\ zero_or_ge1 (dval q) /\
  dval q <= (1 + du) ^ (l + 2) * sumR l (fun i => IZR (b i) * IZR (b i)).
Proof.
  cbv zeta. pose proof du_pos as U.
  assert (PW : forall m, 1 <= (1 + du) ^ m) by (intros; apply pow_R1_Rle; lra).
  induction l as [|l IH]; [lia|]. intros _ HL. destruct l as [|l].
  - cbn [sumsq sumR INR fset_z fmul dbl]. destruct (sq_step 0) as (F & B & Z1 & UB). cbv zeta in *.
    split; [exact F|]. split; [lra|]. split; [exact Z1|]. rewrite Rplus_0_l. exact UB.
  - specialize (IH ltac:(lia) ltac:(lia)). destruct IH as (F & B & Z1 & UB).
    change (sumsq dbl (fun i => fset_z dbl (b i)) (S (S l))) with
      (sumsq dbl (fun i => fset_z dbl (b i)) (S l) + d_ofZ (b (S l)) * d_ofZ (b (S l)))%float.
    set (q := sumsq dbl (fun i => fset_z dbl (b i)) (S l)) in *.
    destruct (sq_step (S l)) as (F' & B' & Z1' & UB'). cbv zeta in *. set (w2 := (d_ofZ (b (S l)) * d_ofZ (b (S l)))%float) in *.
    assert (SB : dval q + dval w2 <= INR (S (S l)) * bpow radix2 800) by (rewrite (S_INR (S l)), Rmult_plus_distr_r; lra).
    pose proof (INR_bound _ HL) as IB. assert (P853 : bpow radix2 853 <= bpow radix2 1023) by (apply bpow_le; lia).
    destruct (dval_add q w2 F F') as [FA EA]. { unfold small. rewrite Rabs_pos_eq; lra. }
    split; [exact FA|]. rewrite EA.
    assert (ZZ : zero_or_ge1 (dval q + dval w2)). { destruct Z1 as [E1|E1], Z1' as [E2|E2]; unfold zero_or_ge1; lra. }
    destruct (rnd_pos_rel _ ZZ) as [R1 R2]. split; [split|split; [exact R2|]].
    + apply rnd_pos. lra.
    + rewrite <- (round_generic radix2 (FLT_exp (-1074) 53) ZnearestE (INR (S (S l)) * bpow radix2 800)) by (try typeclasses eauto; now apply mult_fmt).
      now apply rnd_mono.
    + change (sumR (S (S l)) (fun i => IZR (b i) * IZR (b i))) with (sumR (S l) (fun i => IZR (b i) * IZR (b i)) + IZR (b (S l)) * IZR (b (S l))).
      set (t := sumR (S l) (fun i => IZR (b i) * IZR (b i))) in *. set (z := IZR (b (S l))) in *.
      eapply Rle_trans; [apply R1|]. replace (S (S l) + 2)%nat with (S (S l + 2)) by lia. cbn [pow].
      rewrite Rmult_assoc. apply Rmult_le_compat_l; [lra|]. rewrite Rmult_plus_distr_l. apply Rplus_le_compat; [exact UB|].
      eapply Rle_trans; [exact UB'|]. apply Rmult_le_compat_r; [nra|]. apply Rle_pow; [lra|lia].
Qed.

Definition eps_double : PrimFloat.float := 0x1.5fd7fe1796495p-37%float.

Lemma eps_val : dfin eps_double /\ bpow radix2 (-37) <= dval eps_double <= bpow radix2 (-36).
Proof.
  assert (F : dfin eps_double) by (unfold dfin; vm_compute; reflexivity). split; [exact F|].
  destruct (dval_pow2 0x1p-37%float (-89) ltac:(vm_compute; reflexivity)) as [F1 E1].
  destruct (dval_pow2 0x1p-36%float (-88) ltac:(vm_compute; reflexivity)) as [F2 E2].
  change (52 + -89)%Z with (-37)%Z in E1. change (52 + -88)%Z with (-36)%Z in E2. rewrite <- E1, <- E2.
  split; apply dval_leb; auto; vm_compute; reflexivity.
Qed.

Lemma tolerance_double l : (1 <= l)%nat -> (Z.of_nat l <= 2 ^ 53)%Z ->
  let t := tolerance dbl b l in
  dfin t /\ 0 <= dval t <= bpow radix2 400 /\
  dval t ^ 2 <= dval eps_double ^ 2 * ((1 + du) ^ (l + 6) * sumR l (fun i => IZR (b i) * IZR (b i))).
Proof.
  intros Hl HL. cbv zeta. destruct (sumsq_double l Hl HL) as (F & (Q0 & Q1) & ZQ & UB). cbv zeta in *. unfold tolerance.
  set (q := sumsq dbl (fun i => fset_z dbl (b i)) l) in *. change (feps dbl) with eps_double. cbn [fmul fsqrt dbl].
  destruct eps_val as [FE [E0 E1]]. pose proof du_pos as U.
  destruct (dval_sqrt q F Q0) as [FS ES]. pose proof (INR_bound _ HL) as IB.
  assert (SB : R_sqrt.sqrt (dval q) <= bpow radix2 427).
  { rewrite <- (sqrt_square (bpow radix2 427)) by apply bpow_ge_0. rewrite bp_mul. change (427 + 427)%Z with 854%Z.
    apply sqrt_le_1_alt. eapply Rle_trans; [exact Q1|]. eapply Rle_trans; [exact IB|]. apply bpow_le. lia. }
  pose proof (sqrt_pos (dval q)) as SP.
  assert (ZS : zero_or_ge1 (R_sqrt.sqrt (dval q))).
  { destruct ZQ as [E|E]; [left; rewrite E; apply sqrt_0|right]. rewrite <- sqrt_1. now apply sqrt_le_1_alt. }
  destruct (rnd_pos_rel _ ZS) as [R1 R2]. rewrite <- ES in R1, R2.
  assert (B1 : Rabs (dval (PrimFloat.sqrt q)) <= bpow radix2 427).
  { rewrite ES. apply rnd_abs_le; [lia|]. now rewrite Rabs_pos_eq. }
  assert (SQ0 : 0 <= dval (PrimFloat.sqrt q)) by (destruct R2; lra).
  assert (PE : 0 < bpow radix2 (-37)) by apply bpow_gt_0.
  assert (PB : Rabs (dval (PrimFloat.sqrt q) * dval eps_double) <= bpow radix2 391).
  { apply (prod_bound _ _ 427 (-36)); [exact B1|]. rewrite Rabs_pos_eq; lra. }
  destruct (dval_mul (PrimFloat.sqrt q) eps_double FS FE) as [FM EM]. { eapply Rle_trans; [exact PB|]. apply bpow_le. lia. }
  split; [exact FM|]. rewrite EM.
  assert (P0 : 0 <= dval (PrimFloat.sqrt q) * dval eps_double) by (apply Rmult_le_pos; lra).
  pose proof (rnd_pos _ P0) as RP. split.
  { split; [exact RP|]. pose proof (rnd_abs_le _ 391 ltac:(lia) PB) as RB. rewrite Rabs_pos_eq in RB by exact RP.
    eapply Rle_trans; [exact RB|]. apply bpow_le. lia. }
  assert (RR : Rabs (rnd (dval (PrimFloat.sqrt q) * dval eps_double) - dval (PrimFloat.sqrt q) * dval eps_double) <= du * Rabs (dval (PrimFloat.sqrt q) * dval eps_double)).
  { apply rnd_rel. destruct R2 as [->|R2]; [left; ring|right]. rewrite Rabs_pos_eq by exact P0.
    apply Rle_trans with (1 * bpow radix2 (-37)); [rewrite Rmult_1_l; apply bpow_le; lia|]. apply Rmult_le_compat; lra. }
  rewrite (Rabs_pos_eq (_ * _)) in RR by exact P0. apply Rabs_le_inv in RR.
  set (rt := R_sqrt.sqrt (dval q)) in *. set (e := dval eps_double) in *. set (sq := dval (PrimFloat.sqrt q)) in *.
  assert (T1 : rnd (sq * e) <= (1 + du) * (((1 + du) * rt) * e)).
  { apply Rle_trans with ((1 + du) * (sq * e)); [lra|]. apply Rmult_le_compat_l; [lra|]. apply Rmult_le_compat_r; lra. }
  apply Rle_trans with (((1 + du) * (((1 + du) * rt) * e)) ^ 2). { apply pow_incr. split; assumption. }
  replace (((1 + du) * (((1 + du) * rt) * e)) ^ 2) with (e ^ 2 * ((1 + du) ^ 4 * (rt * rt))) by ring.
  unfold rt. rewrite sqrt_sqrt by assumption. apply Rmult_le_compat_l; [nra|].
  replace (l + 6)%nat with (4 + (l + 2))%nat by lia. rewrite pow_add, Rmult_assoc. apply Rmult_le_compat_l; [apply pow_le; lra|exact UB].
Qed.
End Tol.

Lemma size_double theta r k i : size_test dbl theta r k -> (i < k)%nat ->
  not_huge (r i i) -> not_tiny (r i i) -> not_huge (r i k) -> dfin theta -> 0 <= dval theta <= bpow radix2 400 ->
  (1 - du) * Rabs (dval (r i k)) <= (1 + 2 * du) * Rabs (dval (r i i)) + (1 + du) ^ 2 * dval theta.
Proof.
  intros H Hi HH HT HK FT BT. destruct (not_huge_val _ HH) as [FI BI]. destruct (not_huge_val _ HK) as [FK BK].
  pose proof (not_tiny_val _ FI HT) as LI. pose proof (bpow_gt_0 radix2 (-500)) as PT.
  assert (NZ : dval (r i i) <> 0). { intros E. rewrite E, Rabs_R0 in LI. lra. }
  set (p := Rabs (dval (r i i))) in *. assert (P : 0 < p) by lra. pose proof du_pos as U. pose proof deta_pos as ETA. pose proof deta_du as ED.
  assert (QE : forall x, Rabs (x / dval (r i i)) * p = Rabs x). { intros x. unfold p. rewrite <- Rabs_mult. f_equal. field. exact NZ. }
  assert (QA : forall x, Rabs (x / dval (r i i)) = Rabs x / p). { intros x. apply Rmult_eq_reg_r with p; [|lra]. rewrite QE. field. lra. }
  assert (M : dfin (r i k / r i i)%float /\ Rabs (dval (r i k / r i i)%float) <= (1 + du) * ((1 + du) * (dval theta / p) + deta + 1) + deta).
  { assert (T0 : 0 <= dval theta / p) by (apply Rmult_le_pos; [lra|left; now apply Rinv_0_lt_compat]).
    destruct H as [H|H]; specialize (H i Hi).
    - cbn [fnz frnd fdiv dbl] in H. apply rint_zero in H as [H1 H2]. split; [exact H1|]. nra.
    - cbn [fcmp1 fabs fdiv fadd fone dbl] in H. destruct dval_one as [F1 V1].
      assert (TB : Rabs (dval theta / dval (r i i)) <= bpow radix2 900).
      { rewrite QA, Rabs_pos_eq by lra. apply Rmult_le_reg_r with p; [exact P|]. unfold Rdiv. rewrite Rmult_assoc, Rinv_l, Rmult_1_r by lra.
        apply Rle_trans with (bpow radix2 900 * bpow radix2 (-500)); [rewrite bp_mul; apply BT|]. apply Rmult_le_compat_l; [apply bpow_ge_0|lra]. }
      destruct (dval_div theta (r i i) FT NZ) as [FD EDV]. { eapply Rle_trans; [exact TB|]. apply bpow_le. lia. }
      pose proof (rnd_abs_le _ 900 ltac:(lia) TB) as RB. rewrite <- EDV in RB.
      assert (P901 : bpow radix2 901 = 2 * bpow radix2 900) by apply (bpow_dbl 900). assert (P900 : bpow radix2 0 <= bpow radix2 900) by (apply bpow_le; lia). change (bpow radix2 0) with 1 in P900.
      destruct (dval_add (PrimFloat.abs (theta / r i i)) 1 (proj2 (dfin_abs _) FD) F1) as [FA EA].
      { unfold small. rewrite dval_abs, V1. rewrite Rabs_pos_eq by (pose proof (Rabs_pos (dval (theta / r i i)%float)); lra).
        apply Rle_trans with (bpow radix2 901); [lra|apply bpow_le; lia]. }
      destruct (ltb_false_fin _ _ FA (dval_div_nan _ _ FK NZ) H) as [FQ LQ]. split; [exact FQ|]. eapply Rle_trans; [exact LQ|].
      rewrite EA, dval_abs, V1. pose proof (Rabs_pos (dval (theta / r i i)%float)) as AP.
      pose proof (rnd_err (Rabs (dval (theta / r i i)%float) + 1)) as E1. rewrite (Rabs_pos_eq (Rabs _ + 1)) in E1 by lra. apply Rabs_le_inv in E1.
      pose proof (rnd_err (dval theta / dval (r i i))) as E2. rewrite <- EDV, QA, (Rabs_pos_eq (dval theta)) in E2 by lra.
      pose proof (Rabs_triang_inv (dval (theta / r i i)%float) (dval theta / dval (r i i))) as T. rewrite QA, (Rabs_pos_eq (dval theta)) in T by lra.
      assert ((1 + du) * (Rabs (dval (theta / r i i)%float) + 1) <= (1 + du) * ((1 + du) * (dval theta / p) + deta + 1)) by (apply Rmult_le_compat_l; lra).
      lra. }
  destruct M as [FQ M]. pose proof (dval_div_fin _ _ FK NZ FQ) as EQ. rewrite EQ in M.
  pose proof (rnd_err (dval (r i k) / dval (r i i))) as E. pose proof (Rabs_triang_inv (dval (r i k) / dval (r i i)) (rnd (dval (r i k) / dval (r i i)))) as T.
  rewrite Rabs_minus_sym in T.
  assert (F : (1 - du) * Rabs (dval (r i k) / dval (r i i)) * p <= ((1 + du) * ((1 + du) * (dval theta / p) + deta + 1) + 2 * deta) * p) by (apply Rmult_le_compat_r; lra).
  rewrite Rmult_assoc, QE in F.
  replace (((1 + du) * ((1 + du) * (dval theta / p) + deta + 1) + 2 * deta) * p) with ((1 + du) ^ 2 * dval theta + ((1 + du) * deta + 2 * deta + 1 + du) * p) in F by (field; lra).
  assert ((1 + du) * deta + 2 * deta + 1 + du <= 1 + 2 * du) by nra.
  assert (((1 + du) * deta + 2 * deta + 1 + du) * p <= (1 + 2 * du) * p) by (apply Rmult_le_compat_r; lra). lra.
Qed.

(** Lovasz's condition up to (1 +- 2^-53)^2 and 2^-1072; size reduction with 1 (and not 1/2) in front
    of |r(i,i)|, which is all that hlll tests, up to the tolerance 1e-11 |b_k| *)
Theorem C92_double_certifies :
  forall J n d A forU method long_flag depth (calls : list (call (F := PrimFloat.float))) L fuel delta verbose junk L',
    (2 <= d)%nat -> (d <= n)%nat -> (Z.of_nat n <= 2 ^ 53)%Z -> precisions_ok calls ->
    PrimFloat.leb 0 delta = true -> PrimFloat.leb delta 1 = true ->
    run dbl calls (new_lattice dbl J n d A forU method long_flag depth) = Ok L ->
    hlll dbl fuel delta verbose junk L = Ok (0%Z, L') ->
    (nblov (lc L') < cnblov_max (lcfg L'))%Z ->
    let r := Rentry dbl L' in
    forall k, (1 <= k < d)%nat ->
      (forall i, (i <= k)%nat -> not_huge (r i i) /\ not_huge (r i k)) ->
      (1 - du) ^ 2 * (dval delta * dval (r (k - 1)%nat (k - 1)%nat) ^ 2) <=
        (1 + du) ^ 2 * (dval (r k k) ^ 2 + dval (r (k - 1)%nat k) ^ 2) + bpow radix2 (-1072) /\
      ((method < 1)%Z -> (exists i, (i < n)%nat /\ Bentry L' i k <> 0%Z) ->
       (forall i, (i < n)%nat -> (Z.abs (Bentry L' i k) <= 2 ^ 400)%Z) ->
        exists theta, 0 <= theta /\
          theta ^ 2 <= dval eps_double ^ 2 * ((1 + du) ^ (n + 6) * sumR n (fun i => IZR (Bentry L' i k) * IZR (Bentry L' i k))) /\
          forall i, (i < k)%nat -> not_tiny (r i i) ->
            (1 - du) * Rabs (dval (r i k)) <= (1 + 2 * du) * Rabs (dval (r i i)) + (1 + du) ^ 2 * theta).
Proof.
  intros J n d A forU method lg depth calls L fuel delta verbose junk L' D2 ND NB PR DL0 DL1 HR H HQ r k Hk NH.
  destruct (C75_hlll_certifies PrimFloat.float dbl dbl_expo_nonneg J n d A forU method lg depth calls L fuel delta verbose junk L' D2 ND PR HR H HQ k Hk) as [P1 P2].
  split.
  { apply lovasz_double; auto; [apply (NH (k - 1)%nat); lia|apply (NH k); lia|apply (NH (k - 1)%nat); lia]. }
  intros Hm HN HB. specialize (P2 Hm HN). destruct P2 as (l & (LN & LZ) & P2).
  assert (L1 : (1 <= l)%nat). { destruct l; [|lia]. exfalso. destruct HN as (i0 & Hi0 & NZ). apply NZ, LZ. lia. }
  set (b := fun i => if (i <? n)%nat then Bentry L' i k else 0%Z).
  assert (BE : forall i, (i < n)%nat -> b i = Bentry L' i k) by (intros i Hi; unfold b; apply Nat.ltb_lt in Hi; now rewrite Hi).
  assert (BB : forall i, (Z.abs (b i) <= 2 ^ 400)%Z).
  { intros i. unfold b. destruct (Nat.ltb_spec i n); [now apply HB|]. change (Z.abs 0) with 0%Z. apply Z.pow_nonneg. lia. }
  assert (TE : tolerance dbl (fun i => Bentry L' i k) l = tolerance dbl b l).
  { unfold tolerance. f_equal. f_equal. clear - BE LN L1. induction l as [|l IH]; [lia|]. destruct l as [|l]; cbn [sumsq].
    - rewrite BE by lia. reflexivity.
    - cbn [sumsq] in IH. rewrite IH by lia. rewrite (BE (S l)) by lia. reflexivity. }
  rewrite TE in P2. destruct (tolerance_double b BB l L1 ltac:(lia)) as (FT & BT & UT). cbv zeta in *.
  exists (dval (tolerance dbl b l)). split; [apply BT|]. split.
  - eapply Rle_trans; [exact UT|]. apply Rmult_le_compat_l; [nra|]. pose proof du_pos.
    assert (BP : forall i, 0 <= IZR (Bentry L' i k) * IZR (Bentry L' i k)) by (intros; nra).
    assert (SE : forall m, (m <= n)%nat -> sumR m (fun i => IZR (b i) * IZR (b i)) = sumR m (fun i => IZR (Bentry L' i k) * IZR (Bentry L' i k))).
    { induction m as [|m IH]; intros Hmn; cbn [sumR]; [reflexivity|]. rewrite IH, BE by lia. reflexivity. }
    rewrite SE by exact LN.
    apply Rmult_le_compat.
    + apply pow_le; lra.
    + clear -BP. induction l as [|l IH]; cbn [sumR]; [lra|]. pose proof (BP l). lra.
    + apply Rle_pow; [lra|lia].
    + clear -LN BP. induction n as [|n IH]; [replace l with 0%nat by lia; apply Rle_refl|].
      destruct (Nat.eq_dec l (S n)) as [->|NE]; [apply Rle_refl|]. cbn [sumR]. pose proof (BP n). specialize (IH ltac:(lia)). lra.
  - intros i Hi NT. apply size_double; auto; apply NH; lia.
Qed.

(** what the certificate is about: the run of C75_case, all the hypotheses of C92 hold on it *)
Example C92_case :
  exists L', hlll dbl 200 d99 false 0%float (set_num_S 2 0 (new_lattice dbl Jz 4 3 A1 false 0 true 0)) = Ok (0%Z, L') /\
    (nblov (lc L') < cnblov_max (lcfg L'))%Z /\
    PrimFloat.leb 0 d99 = true /\ PrimFloat.leb d99 1 = true /\
    (forall k, (1 <= k < 3)%nat -> forall i, (i <= k)%nat -> not_huge (Rentry dbl L' i i) /\ not_huge (Rentry dbl L' i k) /\ not_tiny (Rentry dbl L' i i)) /\
    (forall k, (1 <= k < 3)%nat -> (exists i, (i < 4)%nat /\ Bentry L' i k <> 0%Z) /\ forall i, (i < 4)%nat -> (Z.abs (Bentry L' i k) <= 2 ^ 400)%Z).
Proof.
  eexists. split; [vm_compute; reflexivity|]. split; [vm_compute; reflexivity|]. split; [reflexivity|]. split; [vm_compute; reflexivity|]. split.
  - intros k Hk i Hi. assert (HK : k = 1%nat \/ k = 2%nat) by lia. assert (HI : i = 0%nat \/ i = 1%nat \/ i = 2%nat) by lia.
    destruct HK as [-> | ->], HI as [-> | [-> | ->]]; try lia; (split; [|split]); vm_compute; reflexivity.
  - intros k Hk. split.
    + exists 0%nat. split; [lia|]. assert (HK : k = 1%nat \/ k = 2%nat) by lia. destruct HK as [-> | ->]; vm_compute; discriminate.
    + intros i Hi. assert (HK : k = 1%nat \/ k = 2%nat) by lia. assert (HI : (i = 0 \/ i = 1 \/ i = 2 \/ i = 3)%nat) by lia.
      destruct HK as [-> | ->], HI as [-> | [-> | [-> | ->]]]; vm_compute; discriminate.
Qed.

Print Assumptions C92_double_certifies.
