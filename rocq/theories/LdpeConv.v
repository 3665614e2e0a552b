(** * Conversions of ldpe.h and nr-ld.cpp *)
From Coq Require Import ZArith Reals Lia Lra List Bool Floats.SpecFloat.
From Flocq Require Import Core.Core IEEE754.BinarySingleNaN.
From Verif Require Import Base Ldpe LdpeFacts.
Open Scope R_scope.

(** ** the decimal buffer *)
Lemma buffer_enough x : (sprintf_bytes x <= xc_len x)%Z <-> x <> (-1)%Z.
Proof.
  unfold sprintf_bytes, xc_len. destruct (Z.eqb_spec x 0) as [->|Hx].
  { cbn. lia. }
  pose proof (Zdigits_correct radix10 x) as [D1 _].
  pose proof (Zdigits_gt_0 radix10 x Hx) as D0.
  pose proof (Z.log2_spec (Z.abs x)) as [L1 L2]; [lia|].
  pose proof (Z.log2_nonneg (Z.abs x)) as L0.
  set (l := Z.log2 (Z.abs x)) in *. set (k := Zdigits radix10 x) in *.
  change (radix10 ^ (k - 1))%Z with (10 ^ (k - 1))%Z in D1.
  rewrite (Z.max_r 1 k) by lia.
  assert (K: (8 ^ (k - 1) < 2 ^ (l + 1))%Z).
  { apply Z.le_lt_trans with (10 ^ (k - 1))%Z; [apply Z.pow_le_mono_l; lia|].
    rewrite <- Z.add_1_r in L2. lia. }
  change 8%Z with (2 ^ 3)%Z in K. rewrite <- Z.pow_mul_r in K by lia.
  apply Z.pow_lt_mono_r_iff in K; [|lia|lia].
  assert (One: (l = 0 -> Z.abs x = 1)%Z).
  { intros E. rewrite E in L1, L2. cbn in L1, L2. lia. }
  assert (Two: (x = -1 -> l = 0)%Z) by (intros E; unfold l; rewrite E; reflexivity).
  destruct (Z.ltb_spec x 0); split; intros; try lia.
Qed.

(** ** rounding to integers *)
Lemma nearbyint_spec {p e} {Hp : Prec_gt_0 p} {He : Prec_lt_emax p e} md (x : binary_float p e) : is_finite x = true ->
  B2R (Bnearbyint md x) = IZR (round_mode md (B2R x)) /\ is_finite (Bnearbyint md x) = true.
Proof.
  intros F. destruct (Bnearbyint_correct p e He md x) as (C1 & C2 & _).
  rewrite C2, F. split; auto. rewrite C1. unfold round, scaled_mantissa, cexp, FIX_exp, F2R; cbn.
  now rewrite !Rmult_1_r.
Qed.

Lemma btrunc_IZR {p e} {He : Prec_lt_emax p e} (x : binary_float p e) k : B2R x = IZR k -> Btrunc x = k.
Proof.
  intros H. apply eq_IZR. rewrite (Btrunc_correct p e He x), H.
  unfold round, scaled_mantissa, cexp, FIX_exp, F2R; cbn. rewrite !Rmult_1_r, Ztrunc_IZR. auto.
Qed.
Lemma btrunc_Ztrunc {p e} {He : Prec_lt_emax p e} (x : binary_float p e) : Btrunc x = Ztrunc (B2R x).
Proof.
  apply eq_IZR. rewrite (Btrunc_correct p e He x).
  unfold round, scaled_mantissa, cexp, FIX_exp, F2R; cbn. now rewrite !Rmult_1_r.
Qed.

(** ** float conversions *)
Lemma fcvt_spec {p e} p' e' {Hp : Prec_gt_0 p'} {He : Prec_lt_emax p' e'} (x : binary_float p e) :
  is_finite x = true ->
  Rabs (round radix2 (SpecFloat.fexp p' e') ZnearestE (B2R x)) < bpow radix2 e' ->
  B2R (fcvt p' e' x) = round radix2 (SpecFloat.fexp p' e') ZnearestE (B2R x) /\ is_finite (fcvt p' e' x) = true.
Proof.
  intros F A. destruct x as [s| | |s m k Hb]; try discriminate.
  - cbn. rewrite round_0 by typeclasses eauto. auto.
  - cbn [fcvt]. pose proof (binary_normalize_correct p' e' Hp He mode_NE (cond_Zopp s (Zpos m)) k s) as C.
    cbn zeta in C. rewrite Rlt_bool_true in C.
    + destruct C as (C1 & C2 & _). auto.
    + exact A.
Qed.

Lemma int_format p e {Hp : Prec_gt_0 p} {He : Prec_lt_emax p e} k : (Z.abs k <= 2 ^ p)%Z ->
  generic_format radix2 (SpecFloat.fexp p e) (IZR k).
Proof.
  intros H. assert (P: (0 < p)%Z) by apply Hp. assert (PE: (p < e)%Z) by apply He.
  change (SpecFloat.fexp p e) with (FLT_exp (SpecFloat.emin p e) p).
  destruct (Z.eq_dec (Z.abs k) (2 ^ p)) as [E|E].
  - assert (X: IZR k = bpow radix2 p \/ IZR k = - bpow radix2 p).
    { rewrite <- (IZR_Zpower radix2) by lia. change (Z.pow radix2 p) with (2 ^ p)%Z.
      destruct (Z.abs_spec k) as [[_ A]|[_ A]].
      - left. f_equal; lia.
      - right. rewrite <- opp_IZR. f_equal. lia. }
    assert (G: generic_format radix2 (FLT_exp (SpecFloat.emin p e) p) (bpow radix2 p)).
    { apply generic_format_bpow. unfold FLT_exp. change (SpecFloat.emin p e) with (3 - e - p)%Z. lia. }
    destruct X as [->| ->]; auto. apply generic_format_opp; auto.
  - apply generic_format_FLT. exists (Float radix2 k 0).
    + unfold F2R; cbn. ring.
    + cbn. change (Z.pow_pos 2) with (fun q => (2 ^ Zpos q)%Z) || idtac. change (radix2 ^ p)%Z with (2 ^ p)%Z. lia.
    + cbn. change (SpecFloat.emin p e) with (3 - e - p)%Z. lia.
Qed.

Lemma int_bound p e {Hp : Prec_gt_0 p} {He : Prec_lt_emax p e} k : (Z.abs k <= 2 ^ p)%Z -> Rabs (IZR k) < bpow radix2 e.
Proof.
  intros H. assert (P: (0 < p)%Z) by apply Hp. assert (PE: (p < e)%Z) by apply He.
  rewrite <- abs_IZR. apply Rle_lt_trans with (bpow radix2 p).
  - rewrite <- (IZR_Zpower radix2) by lia. apply IZR_le. exact H.
  - now apply bpow_lt.
Qed.

Lemma fcvt_int {p e} p' e' {Hp : Prec_gt_0 p'} {He : Prec_lt_emax p' e'} (x : binary_float p e) k :
  is_finite x = true -> B2R x = IZR k -> (Z.abs k <= 2 ^ p')%Z ->
  B2R (fcvt p' e' x) = IZR k /\ is_finite (fcvt p' e' x) = true.
Proof.
  intros F E H. pose proof (int_format p' e' k H) as G.
  destruct (fcvt_spec p' e' x F) as [C1 C2].
  - rewrite E, round_generic by (typeclasses eauto || auto). now apply (int_bound p' e').
  - split; auto. rewrite C1, E. apply round_generic; [typeclasses eauto|auto].
Qed.

Lemma of_Z_int p e {Hp : Prec_gt_0 p} {He : Prec_lt_emax p e} k : (Z.abs k <= 2 ^ p)%Z ->
  B2R (of_Z p e k) = IZR k /\ is_finite (of_Z p e k) = true.
Proof.
  intros H. pose proof (int_format p e k H) as G.
  pose proof (binary_normalize_correct p e Hp He mode_NE k 0 false) as C. cbn zeta in C.
  replace (F2R {| Fnum := k; Fexp := 0 |}) with (IZR k) in C by (unfold F2R; cbn; ring).
  cbn [round_mode] in C. rewrite round_generic in C by (typeclasses eauto || auto).
  rewrite Rlt_bool_true in C by now apply (int_bound p e). destruct C as (C1 & C2 & _). auto.
Qed.

(** ** the 64-bit type *)
Notation D := ldpe_t.
Definition big64 : (2 * 64 + 2 <= 16384)%Z := ltac:(lia).
Notation normal64 := (@normal 64 16384).
Notation val64 := (@val 64 16384).

(** normalising an integer mantissa always works *)
Lemma normalize_int (m : ld) k : is_finite m = true -> B2R m = IZR k -> (Z.abs k <= 2 ^ 64)%Z ->
  exists r, normalize (mkD m 0) = Ok r /\ normal64 r /\ val64 r = IZR k.
Proof.
  intros F E H.
  destruct (normalize_ok 64 16384 big64 (mkD m 0)) as [r Hr]; auto; cbn [mant expn].
  - intros N. rewrite E in *. assert (K: k <> 0%Z) by (intros ->; now apply N).
    assert (1 <= mag radix2 (IZR k) <= 65)%Z.
    { split.
      - apply (mag_ge_bpow radix2 (IZR k) 1). change (bpow radix2 (1 - 1)) with 1.
        rewrite <- abs_IZR. apply (IZR_le 1). lia.
      - apply (mag_le_bpow radix2 (IZR k) 65); auto.
        rewrite <- abs_IZR, <- (IZR_Zpower radix2) by lia. apply IZR_lt.
        change (radix2 ^ 65)%Z with (2 ^ 65)%Z. assert (2 ^ 64 < 2 ^ 65)%Z by (vm_compute; auto). lia. }
    unfold INT_MIN, INT_MAX. lia.
  - exists r. split; auto. destruct (normalize_spec 64 16384 big64 (mkD m 0) r F Hr) as [V N].
    split; auto. rewrite V. unfold val; cbn [mant expn bpow]. rewrite E. ring.
Qed.

Lemma set_si_spec k : (Z.abs k <= 2 ^ 64)%Z ->
  exists r, set_si 64 16384 k = Ok r /\ normal64 r /\ val64 r = IZR k.
Proof.
  intros H. destruct (of_Z_int 64 16384 k H) as [E F]. exact (normalize_int _ k F E H).
Qed.

Lemma set_d_int (x : dbl) k : is_finite x = true -> B2R x = IZR k -> (Z.abs k <= 2 ^ 53)%Z ->
  exists r, set_d 64 16384 x = Ok r /\ normal64 r /\ val64 r = IZR k.
Proof.
  intros F E H. assert (2 ^ 53 <= 2 ^ 64)%Z by (vm_compute; discriminate).
  destruct (fcvt_int 64 16384 x k F E) as [E2 F2]; [lia|].
  apply (normalize_int _ k F2 E2). lia.
Qed.

(** [ldexp(mant, exp)] is exact in the range where it is used *)
Lemma ldexp_val (y : D) : normal64 y -> (0 <= expn y <= 64)%Z ->
  B2R (Bldexp mode_NE (mant y) (expn y)) = val64 y /\ is_finite (Bldexp mode_NE (mant y) (expn y)) = true.
Proof.
  intros N H. pose proof (Bldexp_correct _ _ _ _ mode_NE (mant y) (expn y)) as C.
  destruct N as (F & I & N).
  assert (G: generic_format radix2 (SpecFloat.fexp 64 16384) (B2R (mant y) * bpow radix2 (expn y))).
  { destruct N as [[-> _]|N].
    - rewrite Rmult_0_l. apply generic_format_0.
    - change (SpecFloat.fexp 64 16384) with (FLT_exp (SpecFloat.emin 64 16384) 64).
      apply generic_format_FLT_FLX.
      + rewrite Rabs_mult, (Rabs_pos_eq (bpow radix2 (expn y))) by apply bpow_ge_0.
        apply Rle_trans with (bpow radix2 (-1) * bpow radix2 0).
        * rewrite <- bpow_plus. apply bpow_le. vm_compute. discriminate.
        * change (bpow radix2 (-1)) with (/ 2). apply Rmult_le_compat; try lra.
          -- apply bpow_ge_0. -- apply bpow_le; lia.
      + apply FLX_bpow; [typeclasses eauto|]. apply B2R_FLX. }
  cbn [round_mode] in C. rewrite round_generic in C by (typeclasses eauto || auto).
  rewrite Rlt_bool_true in C.
  - destruct C as (C1 & C2 & _). rewrite C2. auto.
  - rewrite Rabs_mult, (Rabs_pos_eq (bpow radix2 (expn y))) by apply bpow_ge_0.
    apply Rle_lt_trans with (1 * bpow radix2 64).
    + apply Rmult_le_compat; try apply Rabs_pos; try apply bpow_ge_0.
      * destruct N as [[-> _]|N]; [rewrite Rabs_R0|]; lra.
      * apply bpow_le. lia.
    + rewrite Rmult_1_l. apply bpow_lt. lia.
Qed.

Lemma val_lt_exp (y : D) : normal64 y -> Rabs (val64 y) < bpow radix2 (expn y).
Proof.
  intros N. unfold val. rewrite Rabs_mult, (Rabs_pos_eq (bpow radix2 (expn y))) by apply bpow_ge_0.
  rewrite <- (Rmult_1_l (bpow radix2 (expn y))) at 2. apply Rmult_lt_compat_r; [apply bpow_gt_0|].
  apply (normal_le1 64 16384); auto.
Qed.

Lemma exp_le_val (y : D) : normal64 y -> val64 y <> 0 -> bpow radix2 (expn y - 1) <= Rabs (val64 y).
Proof.
  intros N V. unfold val. rewrite Rabs_mult, (Rabs_pos_eq (bpow radix2 (expn y))) by apply bpow_ge_0.
  destruct (normal_mant 64 16384 y N) as [E|M].
  - exfalso. apply V. unfold val. rewrite E. ring.
  - replace (expn y - 1)%Z with (-1 + expn y)%Z by lia. rewrite bpow_plus.
    apply Rmult_le_compat_r; [apply bpow_ge_0|]. change (bpow radix2 (-1)) with (/ 2). lra.
Qed.

(** an exponent bound from a bound on the value *)
Lemma expn_lt (y : D) b : normal64 y -> Rabs (val64 y) < bpow radix2 b -> (0 <= b)%Z -> (expn y <= b)%Z.
Proof.
  intros N V B. destruct (Req_dec (val64 y) 0) as [E|E].
  - destruct N as (_ & _ & [[_ ->]|M]); [unfold INT_MIN; lia|].
    exfalso. unfold val in E. apply Rmult_integral in E as [E|E].
    + rewrite E, Rabs_R0 in M. lra.
    + pose proof (bpow_gt_0 radix2 (expn y)). lra.
  - pose proof (exp_le_val y N E) as L. assert (X: bpow radix2 (expn y - 1) < bpow radix2 b) by lra.
    apply lt_bpow in X. lia.
Qed.

Lemma abs_near_bound f x b : (0 <= b)%Z -> Valid_rnd f -> Rabs x < bpow radix2 b -> (Z.abs (f x) <= 2 ^ b)%Z.
Proof.
  intros B V H. apply le_IZR. rewrite abs_IZR.
  change (2 ^ b)%Z with (radix2 ^ b)%Z. rewrite IZR_Zpower by auto.
  assert (R: IZR (f x) = round radix2 (FIX_exp 0) f x).
  { unfold round, scaled_mantissa, cexp, FIX_exp, F2R; cbn. now rewrite !Rmult_1_r. }
  rewrite R. apply abs_round_le_generic; try typeclasses eauto; [|lra].
  apply generic_format_bpow. unfold FIX_exp. auto.
Qed.

(** ZnearestA, Zfloor, Zceil on small values *)
Lemma near_small x : Rabs x < / 2 -> ZnearestA x = 0%Z.
Proof. intros H. apply Znearest_imp. rewrite Rminus_0_r. exact H. Qed.

(** the common path of round / floor / ceil: through a double *)
Lemma through_double md (y : D) : normal64 y -> (0 <= expn y <= 64)%Z -> Rabs (val64 y) < bpow radix2 53 ->
  exists r, set_d 64 16384 (fcvt 53 1024 (Bnearbyint md (Bldexp mode_NE (mant y) (expn y)))) = Ok r /\
    normal64 r /\ val64 r = IZR (round_mode md (val64 y)).
Proof.
  intros N I V. destruct (ldexp_val y N I) as [L1 L2].
  destruct (nearbyint_spec md _ L2) as [B1 B2]. rewrite L1 in B1.
  assert (K: (Z.abs (round_mode md (val64 y)) <= 2 ^ 53)%Z).
  { apply abs_near_bound; auto; [lia|]. destruct md; cbn; typeclasses eauto. }
  destruct (fcvt_int 53 1024 _ _ B2 B1 K) as [C1 C2].
  exact (set_d_int _ _ C2 C1 K).
Qed.

Lemma round_spec (y : D) : normal64 y -> Rabs (val64 y) < bpow radix2 53 ->
  exists r, round_ y = Ok r /\ normal64 r /\ val64 r = IZR (ZnearestA (val64 y)).
Proof.
  intros N V. unfold round_. pose proof (expn_lt y 53 N V) as E.
  destruct (Z.ltb_spec (expn y) 0) as [L|L].
  - destruct (set_si_spec 0) as (r & R1 & R2 & R3); [cbn; lia|]. exists r. split; auto. split; auto.
    rewrite R3, near_small; auto. pose proof (val_lt_exp y N).
    apply Rlt_le_trans with (bpow radix2 (expn y)); auto.
    change (/ 2) with (bpow radix2 (-1)). apply bpow_le. lia.
  - unfold bitsize. destruct (Z.leb_spec 64 (expn y)); [lia|].
    destruct (through_double mode_NA y N) as (r & R1 & R2 & R3); [lia|auto|]. exists r; auto.
Qed.

Lemma floor_spec (y : D) : normal64 y -> Rabs (val64 y) < bpow radix2 53 ->
  exists r, floor_ y = Ok r /\ normal64 r /\ val64 r = IZR (Zfloor (val64 y)).
Proof.
  intros N V. unfold floor_. pose proof (expn_lt y 53 N V) as E.
  destruct (Z.leb_spec (expn y) 0) as [L|L].
  - assert (A: Rabs (val64 y) < 1).
    { pose proof (val_lt_exp y N). apply Rlt_le_trans with (bpow radix2 (expn y)); auto.
      change 1 with (bpow radix2 0). apply bpow_le. lia. }
    apply Rabs_def2 in A. pose proof (bpow_gt_0 radix2 (expn y)) as Bp.
    destruct (sign_spec 64 16384 y (proj1 N)) as [[M ->]|[[M ->]|[M ->]]]; cbn [Z.leb Z.compare].
    + destruct (set_si_spec 0) as (r & R1 & R2 & R3); [cbn; lia|]. exists r. split; auto. split; auto.
      rewrite R3. f_equal. symmetry. apply Zfloor_imp. cbn.
      assert (0 < val64 y) by (unfold val; nra). lra.
    + destruct (set_si_spec 0) as (r & R1 & R2 & R3); [cbn; lia|]. exists r. split; auto. split; auto.
      rewrite R3. f_equal. symmetry. apply Zfloor_imp. cbn.
      assert (val64 y = 0) by (unfold val; rewrite M; ring). lra.
    + destruct (set_si_spec (-1)) as (r & R1 & R2 & R3); [cbn; lia|]. exists r. split; auto. split; auto.
      rewrite R3. f_equal. symmetry. apply Zfloor_imp. cbn.
      assert (val64 y < 0) by (unfold val; nra). lra.
  - unfold bitsize. destruct (Z.leb_spec 64 (expn y)); [lia|].
    destruct (through_double mode_DN y N) as (r & R1 & R2 & R3); [lia|auto|]. exists r; auto.
Qed.

Lemma ceil_spec (y : D) : normal64 y -> Rabs (val64 y) < bpow radix2 53 ->
  exists r, ceil_ y = Ok r /\ normal64 r /\ val64 r = IZR (Zceil (val64 y)).
Proof.
  intros N V. unfold ceil_. pose proof (expn_lt y 53 N V) as E.
  destruct (Z.leb_spec (expn y) 0) as [L|L].
  - assert (A: Rabs (val64 y) < 1).
    { pose proof (val_lt_exp y N). apply Rlt_le_trans with (bpow radix2 (expn y)); auto.
      change 1 with (bpow radix2 0). apply bpow_le. lia. }
    apply Rabs_def2 in A. pose proof (bpow_gt_0 radix2 (expn y)) as Bp.
    destruct (sign_spec 64 16384 y (proj1 N)) as [[M ->]|[[M ->]|[M ->]]]; cbn [Z.ltb Z.compare].
    + destruct (set_si_spec 1) as (r & R1 & R2 & R3); [cbn; lia|]. exists r. split; auto. split; auto.
      rewrite R3. f_equal. symmetry. apply Zceil_imp. cbn.
      assert (0 < val64 y) by (unfold val; nra). lra.
    + destruct (set_si_spec 0) as (r & R1 & R2 & R3); [cbn; lia|]. exists r. split; auto. split; auto.
      rewrite R3. f_equal. symmetry. apply Zceil_imp. cbn.
      assert (val64 y = 0) by (unfold val; rewrite M; ring). lra.
    + destruct (set_si_spec 0) as (r & R1 & R2 & R3); [cbn; lia|]. exists r. split; auto. split; auto.
      rewrite R3. f_equal. symmetry. apply Zceil_imp. cbn.
      assert (val64 y < 0) by (unfold val; nra). lra.
  - unfold bitsize. destruct (Z.leb_spec 64 (expn y)); [lia|].
    destruct (through_double mode_UP y N) as (r & R1 & R2 & R3); [lia|auto|]. exists r; auto.
Qed.

Lemma get_z_spec (y : D) : normal64 y -> Rabs (val64 y) < bpow radix2 53 ->
  get_z y = Ok (ZnearestA (val64 y)).
Proof.
  intros N V. unfold get_z, bitsize. pose proof (expn_lt y 53 N V) as E.
  destruct (Z.leb_spec 64 (expn y)); [lia|].
  destruct (Z.ltb_spec (expn y) 0) as [L|L].
  - rewrite near_small; auto. pose proof (val_lt_exp y N).
    apply Rlt_le_trans with (bpow radix2 (expn y)); auto.
    change (/ 2) with (bpow radix2 (-1)). apply bpow_le. lia.
  - destruct (ldexp_val y N) as [L1 L2]; [lia|].
    destruct (nearbyint_spec mode_NA _ L2) as [B1 B2]. rewrite L1 in B1.
    assert (K: (Z.abs (ZnearestA (val64 y)) <= 2 ^ 53)%Z).
    { apply abs_near_bound; auto; [lia|]. typeclasses eauto. }
    destruct (fcvt_int 53 1024 _ _ B2 B1 K) as [C1 C2].
    unfold mpz_set_d. rewrite C2. cbn [guard]. f_equal. apply btrunc_IZR. exact C1.
Qed.

(** ** set_f through the decimal string *)
Lemma via_string_ok z : z <> (-1)%Z -> via_string z = Ok z.
Proof.
  intros H. unfold via_string. rewrite (proj2 (Z.leb_le _ _)); auto. now apply buffer_enough.
Qed.

Lemma lround_spec (x : ld) : is_finite x = true -> is_long (ZnearestA (B2R x)) = true ->
  lround x = Ok (ZnearestA (B2R x)).
Proof.
  intros F L. unfold lround. destruct (nearbyint_spec mode_NA x F) as [B1 B2].
  rewrite (btrunc_IZR _ _ B1). cbn [round_mode]. rewrite F, L. auto.
Qed.

Lemma set_f_ld_spec (x : ld) : is_finite x = true -> is_long (ZnearestA (B2R x)) = true ->
  ZnearestA (B2R x) <> (-1)%Z -> set_f_ld x = Ok (ZnearestA (B2R x)).
Proof. intros F L N. unfold set_f_ld. rewrite lround_spec by auto. cbn. now apply via_string_ok. Qed.

Lemma set_f_ld_minus1 (x : ld) : is_finite x = true -> ZnearestA (B2R x) = (-1)%Z -> set_f_ld x = UB.
Proof.
  intros F E. unfold set_f_ld. rewrite lround_spec; auto; rewrite E; auto.
Qed.

(** [ldexp(mant,64)] of a normal number is an integer *)
Lemma mant64_int (y : D) : normal64 y -> exists k, B2R (mant y) * bpow radix2 64 = IZR k.
Proof.
  intros N. destruct (mult_of 64 16384 (mant y) (normal_mant 64 16384 y N)) as [k K].
  exists k. rewrite K, Rmult_assoc, <- bpow_plus. change (- (64) + 64)%Z with 0%Z. cbn [bpow]. ring.
Qed.

Lemma set_f_big (y : D) : normal64 y -> (64 <= expn y)%Z ->
  exists z, set_f_ldpe y = Ok z /\ IZR z = val64 y.
Proof.
  intros N H. unfold set_f_ldpe. rewrite (proj2 (Z.leb_le _ _)) by auto.
  destruct (mant64_int y N) as [k K].
  assert (Ny: normal64 (mkD (mant y) 64)).
  { destruct N as (F & I & N). split; auto. cbn [mant expn]. split; [unfold INT_MIN, INT_MAX; lia|].
    destruct N as [[_ E]|N]; auto. rewrite E in H. unfold INT_MIN in H. lia. }
  destruct (ldexp_val _ Ny) as [L1 L2]; [cbn; lia|]. cbn [mant expn] in L1, L2.
  unfold val in L1; cbn [mant expn] in L1. rewrite K in L1. rewrite (btrunc_IZR _ _ L1).
  assert (Nk: k <> (-1)%Z).
  { intros ->. destruct N as (F & I & N). destruct N as [[_ E]|N].
    - rewrite E in H. unfold INT_MIN in H. lia.
    - assert (A: Rabs (B2R (mant y) * bpow radix2 64) = 1) by (rewrite K, Rabs_left; lra).
      rewrite Rabs_mult, (Rabs_pos_eq (bpow radix2 64)) in A by apply bpow_ge_0.
      assert (P: 4 <= bpow radix2 64) by (change 4 with (bpow radix2 2); apply bpow_le; lia). nra. }
  rewrite via_string_ok by auto. cbn [bind]. eexists. split; [reflexivity|].
  rewrite mult_IZR. change (2 ^ (expn y - 64))%Z with (radix2 ^ (expn y - 64))%Z.
  rewrite IZR_Zpower by lia. rewrite <- K. unfold val.
  rewrite Rmult_assoc, <- bpow_plus. do 2 f_equal. lia.
Qed.

Lemma set_f_small (y : D) : normal64 y -> (expn y < 64)%Z ->
  is_long (ZnearestA (val64 y)) = true -> ZnearestA (val64 y) <> (-1)%Z ->
  set_f_ldpe y = Ok (ZnearestA (val64 y)).
Proof.
  intros N H L M. unfold set_f_ldpe. destruct (Z.leb_spec 64 (expn y)); [lia|].
  destruct (Z.ltb_spec (expn y) 0) as [E|E].
  - (* |y| < 1/2: whatever ldexp rounds it to, the nearest integer is 0 *)
    assert (Z0: ZnearestA (val64 y) = 0%Z).
    { apply near_small. pose proof (val_lt_exp y N). apply Rlt_le_trans with (bpow radix2 (expn y)); auto.
      change (/ 2) with (bpow radix2 (-1)). apply bpow_le. lia. }
    pose proof (Bldexp_correct _ _ _ _ mode_NE (mant y) (expn y)) as C.
    assert (A: Rabs (round radix2 (SpecFloat.fexp 64 16384) ZnearestE (B2R (mant y) * bpow radix2 (expn y))) < / 2).
    { pose proof (val_lt_exp y N) as X.
      destruct (Z.eq_dec (expn y) (-1)) as [E1|E1].
      - (* exact *)
        rewrite round_generic; [|typeclasses eauto|].
        + unfold val in X. rewrite E1 in *. exact X.
        + rewrite E1. destruct N as (F & I & N). destruct N as [[-> _]|N].
          * rewrite Rmult_0_l. apply generic_format_0.
          * change (SpecFloat.fexp 64 16384) with (FLT_exp (SpecFloat.emin 64 16384) 64).
            apply generic_format_FLT_FLX.
            -- rewrite Rabs_mult, (Rabs_pos_eq (bpow radix2 (-1))) by apply bpow_ge_0.
               apply Rle_trans with (bpow radix2 (-1) * bpow radix2 (-1)).
               ++ rewrite <- bpow_plus. apply bpow_le. vm_compute. discriminate.
               ++ change (bpow radix2 (-1)) with (/ 2). apply Rmult_le_compat; lra.
            -- apply FLX_bpow; [typeclasses eauto|]. apply B2R_FLX.
      - apply Rle_lt_trans with (bpow radix2 (-2)).
        + apply abs_round_le_generic; try typeclasses eauto.
          * apply generic_format_bpow. vm_compute. discriminate.
          * unfold val in X. apply Rlt_le. apply Rlt_le_trans with (1 := X). apply bpow_le. lia.
        + change (bpow radix2 (-2)) with (/ 4). lra. }
    cbn [round_mode] in C. rewrite Rlt_bool_true in C.
    2:{ apply Rlt_trans with (1 := A). change (/ 2) with (bpow radix2 (-1)). apply bpow_lt. lia. }
    destruct C as (C1 & C2 & _). rewrite (proj1 N) in C2.
    assert (Z1: ZnearestA (B2R (Bldexp mode_NE (mant y) (expn y))) = 0%Z).
    { rewrite C1. apply near_small. exact A. }
    rewrite lround_spec; auto; rewrite Z1; auto. cbn [bind]. rewrite Z0. apply via_string_ok. lia.
  - destruct (ldexp_val y N) as [L1 L2]; [lia|].
    rewrite lround_spec; auto; rewrite L1; auto. cbn [bind]. now apply via_string_ok.
Qed.

Lemma set_f_minus1 (y : D) : normal64 y -> ZnearestA (val64 y) = (-1)%Z -> set_f_ldpe y = UB.
Proof.
  intros N M.
  assert (A: / 2 <= Rabs (val64 y) < 2).
  { destruct (Rlt_or_le (Rabs (val64 y)) (/ 2)) as [L|L].
    - rewrite near_small in M; auto. lia.
    - split; auto. pose proof (Znearest_half (Z.leb 0) (val64 y)) as X. rewrite M in X.
      apply Rabs_le_inv in X. apply Rabs_def1; lra. }
  assert (E: (0 <= expn y <= 2)%Z).
  { split.
    - pose proof (val_lt_exp y N) as X. assert (Y: bpow radix2 (-1) < bpow radix2 (expn y)).
      { change (bpow radix2 (-1)) with (/ 2). lra. }
      apply lt_bpow in Y. lia.
    - apply expn_lt; auto; [|lia]. change (bpow radix2 2) with 4. lra. }
  unfold set_f_ldpe. destruct (Z.leb_spec 64 (expn y)); [lia|].
  destruct (ldexp_val y N) as [L1 L2]; [lia|].
  rewrite lround_spec; auto; rewrite L1, M; auto.
Qed.

(** ** get_si_exp *)
Lemma two63_spec : B2R (two63 64 16384) = bpow radix2 63 /\ is_finite (two63 64 16384) = true.
Proof.
  split; [|vm_compute; reflexivity].
  unfold two63. pose proof (Bldexp_correct 64 16384 _ _ mode_NE Bone 63) as C.
  rewrite Bone_correct, Rmult_1_l in C. cbn [round_mode] in C.
  rewrite round_generic in C; [|typeclasses eauto|apply generic_format_bpow; vm_compute; discriminate].
  rewrite Rlt_bool_true in C.
  - now destruct C.
  - rewrite Rabs_pos_eq by apply bpow_ge_0. apply bpow_lt. lia.
Qed.

Lemma ztrunc_abs_lt x b : (0 <= b)%Z -> Rabs x < bpow radix2 b -> (Z.abs (Ztrunc x) < 2 ^ b)%Z.
Proof.
  intros B H. rewrite <- Ztrunc_abs, Ztrunc_floor by apply Rabs_pos.
  apply lt_IZR. change (2 ^ b)%Z with (radix2 ^ b)%Z. rewrite IZR_Zpower by auto.
  apply Rle_lt_trans with (1 := Zfloor_lb _). auto.
Qed.

Lemma ztrunc_err x : Rabs (IZR (Ztrunc x)) <= Rabs x /\ Rabs (x - IZR (Ztrunc x)) < 1.
Proof.
  destruct (Rlt_or_le x 0) as [L|L].
  - rewrite Ztrunc_ceil by lra. pose proof (Zceil_ub x). pose proof (Zceil_lb x) as Q.
    assert (IZR (Zceil x) <= 0). { apply (IZR_le _ 0). apply Zceil_glb. cbn. lra. }
    rewrite (Rabs_left1 (IZR (Zceil x))), (Rabs_left1 x) by lra. split; [lra|].
    apply Rabs_def1; lra.
  - rewrite Ztrunc_floor by lra. pose proof (Zfloor_ub x). pose proof (Zfloor_lb x).
    assert (0 <= IZR (Zfloor x)). { apply (IZR_le 0). apply Zfloor_lub. cbn. lra. }
    rewrite !Rabs_pos_eq by lra. split; lra.
Qed.

(** nested truncation *)
Lemma ztrunc_nested x k : (0 <= k)%Z -> Ztrunc (IZR (Ztrunc (x * bpow radix2 k)) * bpow radix2 (- k)) = Ztrunc x.
Proof.
  intros Hk.
  assert (Pos: forall x, 0 <= x -> Zfloor (IZR (Zfloor (x * bpow radix2 k)) * bpow radix2 (- k)) = Zfloor x).
  { clear x. intros x Hx. pose proof (bpow_gt_0 radix2 k) as B. pose proof (bpow_gt_0 radix2 (- k)) as B'.
    assert (BB: bpow radix2 k * bpow radix2 (- k) = 1) by (rewrite <- bpow_plus; replace (k + - k)%Z with 0%Z by lia; auto).
    apply Zfloor_imp. split.
    - apply Rmult_le_reg_r with (bpow radix2 k); auto. rewrite Rmult_assoc, (Rmult_comm (bpow radix2 (- k))), BB, Rmult_1_r.
      rewrite <- (IZR_Zpower radix2 k Hk), <- mult_IZR. apply IZR_le. apply Zfloor_lub.
      rewrite mult_IZR, (IZR_Zpower radix2 k Hk). apply Rmult_le_compat_r; [lra|]. apply Zfloor_lb.
    - rewrite plus_IZR. apply Rle_lt_trans with x; [|apply Zfloor_ub].
      apply Rmult_le_reg_r with (bpow radix2 k); auto.
      rewrite Rmult_assoc, (Rmult_comm (bpow radix2 (- k))), BB, Rmult_1_r. apply Zfloor_lb. }
  pose proof (bpow_gt_0 radix2 k) as B. pose proof (bpow_gt_0 radix2 (- k)) as B'.
  destruct (Rlt_or_le x 0) as [L|L].
  - assert (N: forall a, Ztrunc a = (- Ztrunc (- a))%Z) by (intros a; rewrite Ztrunc_opp; lia).
    rewrite (N x), (N (x * _)), opp_IZR, (N (_ * _)).
    replace (- (- IZR (Ztrunc (- (x * bpow radix2 k))) * bpow radix2 (- k)))
      with (IZR (Ztrunc (- x * bpow radix2 k)) * bpow radix2 (- k)).
    2:{ replace (- (x * bpow radix2 k)) with (- x * bpow radix2 k) by ring. ring. }
    f_equal. rewrite !(Ztrunc_floor (- x * _)) by nra.
    rewrite !Ztrunc_floor; try lra.
    + apply Pos. lra.
    + apply Rmult_le_pos; [|lra]. apply (IZR_le 0). apply Zfloor_lub. cbn. nra.
  - rewrite (Ztrunc_floor (x * _)) by nra.
    rewrite !Ztrunc_floor; try lra.
    + apply Pos. lra.
    + apply Rmult_le_pos; [|lra]. apply (IZR_le 0). apply Zfloor_lub. cbn. nra.
Qed.

Lemma get_si_exp_spec (y : D) : normal64 y -> val64 y <> 0 -> (INT_MIN + 63 <= expn y)%Z ->
  exists x e, get_si_exp y = Ok (x, e) /\ (0 <= e)%Z /\
    ((expn y <= 63)%Z -> e = 0%Z /\ x = Ztrunc (val64 y)) /\
    ((63 < expn y)%Z -> e = (expn y - 63)%Z /\
       Rabs (IZR x * bpow radix2 e) <= Rabs (val64 y) /\ Rabs (val64 y - IZR x * bpow radix2 e) < bpow radix2 e).
Proof.
  intros N V HI. unfold get_si_exp, get_si_exp0.
  assert (M0: B2R (mant y) <> 0) by (intros E; apply V; unfold val; rewrite E; ring).
  destruct (normal_mant 64 16384 y N) as [E|M]; [contradiction|].
  pose proof (proj1 N) as F. pose proof (proj1 (proj2 N)) as I. unfold INT_MIN, INT_MAX in *.
  destruct two63_spec as [T1 T2].
  pose proof (Bmult_correct 64 16384 _ _ mode_NE (mant y) (two63 64 16384)) as C.
  rewrite T1, T2, F in C. cbn [andb round_mode] in C.
  assert (G: generic_format radix2 (SpecFloat.fexp 64 16384) (B2R (mant y) * bpow radix2 63)).
  { change (SpecFloat.fexp 64 16384) with (FLT_exp (SpecFloat.emin 64 16384) 64).
    apply generic_format_FLT_FLX.
    - rewrite Rabs_mult, (Rabs_pos_eq (bpow radix2 63)) by apply bpow_ge_0.
      apply Rle_trans with (bpow radix2 (-1) * bpow radix2 63).
      + rewrite <- bpow_plus. apply bpow_le. vm_compute. discriminate.
      + change (bpow radix2 (-1)) with (/ 2). apply Rmult_le_compat_r; [apply bpow_ge_0|lra].
    - apply FLX_bpow; [typeclasses eauto|]. apply B2R_FLX. }
  rewrite round_generic in C by (typeclasses eauto || auto).
  assert (A: Rabs (B2R (mant y) * bpow radix2 63) < bpow radix2 63).
  { rewrite Rabs_mult, (Rabs_pos_eq (bpow radix2 63)) by apply bpow_ge_0.
    rewrite <- (Rmult_1_l (bpow radix2 63)) at 2. apply Rmult_lt_compat_r; [apply bpow_gt_0|lra]. }
  rewrite Rlt_bool_true in C by (apply Rlt_trans with (1 := A); apply bpow_lt; lia).
  destruct C as (C1 & C2 & _).
  set (x0 := Ztrunc (B2R (mant y) * bpow radix2 63)).
  assert (X0: Btrunc (Bmult mode_NE (mant y) (two63 64 16384)) = x0).
  { rewrite btrunc_Ztrunc, C1. reflexivity. }
  assert (X1: (Z.abs x0 < 2 ^ 63)%Z) by (apply ztrunc_abs_lt; [lia|auto]).
  assert (P63: (2 ^ 63 = 9223372036854775808)%Z) by reflexivity.
  unfold to_long at 1. rewrite X0, C2.
  assert (IL: forall z, (Z.abs z < 2 ^ 63)%Z -> is_long z = true).
  { intros z Hz. unfold is_long. rewrite !(proj2 (Z.leb_le _ _)) by lia. auto. }
  rewrite (IL x0 X1). cbn [andb guard bind].
  unfold is_int. unfold INT_MIN, INT_MAX. rewrite !(proj2 (Z.leb_le _ _)) by lia. cbn [andb guard bind].
  assert (Z0: is0 (mant y) = false).
  { destruct (is0 (mant y)) eqn:E0; auto. apply (is0_spec 64 16384) in E0; auto. contradiction. }
  rewrite Z0. destruct (Z.ltb_spec (expn y - 63) 0) as [L|L].
  - (* negative exponent *)
    destruct (of_Z_int 64 16384 x0) as [O1 O2]. { assert (2 ^ 63 <= 2 ^ 64)%Z by (vm_compute; discriminate). lia. }
    assert (Bd: B2R (Bldexp mode_NE (of_Z 64 16384 x0) (expn y - 63)) =
                round radix2 (SpecFloat.fexp 64 16384) ZnearestE (IZR x0 * bpow radix2 (expn y - 63)) /\
                is_finite (Bldexp mode_NE (of_Z 64 16384 x0) (expn y - 63)) = true).
    { pose proof (Bldexp_correct 64 16384 _ _ mode_NE (of_Z 64 16384 x0) (expn y - 63)) as C.
      rewrite O1, O2 in C. cbn [round_mode] in C. rewrite Rlt_bool_true in C.
      - now destruct C as (? & ? & _).
      - apply Rle_lt_trans with (bpow radix2 63); [|apply bpow_lt; lia].
        apply abs_round_le_generic; try typeclasses eauto.
        + apply generic_format_bpow. vm_compute. discriminate.
        + rewrite Rabs_mult, (Rabs_pos_eq (bpow radix2 _)), <- abs_IZR by apply bpow_ge_0.
          rewrite <- (Rmult_1_r (bpow radix2 63)). apply Rmult_le_compat.
          * apply (IZR_le 0). lia. * apply bpow_ge_0.
          * rewrite <- (IZR_Zpower radix2) by lia. apply IZR_le. change (radix2 ^ 63)%Z with (2 ^ 63)%Z. lia.
          * change 1 with (bpow radix2 0). apply bpow_le. lia. }
    destruct Bd as [Bd1 Bd2].
    assert (TR: Ztrunc (round radix2 (SpecFloat.fexp 64 16384) ZnearestE (IZR x0 * bpow radix2 (expn y - 63))) = Ztrunc (val64 y)).
    { destruct (Z.ltb_spec (expn y) 0) as [L0|L0].
      - assert (S: Rabs (val64 y) <= / 2).
        { pose proof (val_lt_exp y N). apply Rlt_le, Rlt_le_trans with (bpow radix2 (expn y)); auto.
          change (/ 2) with (bpow radix2 (-1)). apply bpow_le. lia. }
        assert (Small: forall a, Rabs a <= / 2 -> Ztrunc a = 0%Z).
        { intros a Ha. pose proof (ztrunc_err a) as [Q _].
          assert (Q2: Rabs (IZR (Ztrunc a)) < 1) by lra. rewrite <- abs_IZR in Q2. apply (lt_IZR _ 1) in Q2. lia. }
        rewrite !Small; auto.
        apply abs_round_le_generic; try typeclasses eauto.
        + change (/ 2) with (bpow radix2 (-1)). apply generic_format_bpow. vm_compute. discriminate.
        + rewrite Rabs_mult, (Rabs_pos_eq (bpow radix2 _)) by apply bpow_ge_0.
          pose proof (ztrunc_err (B2R (mant y) * bpow radix2 63)) as [Q _]. fold x0 in Q.
          apply Rle_trans with (bpow radix2 63 * bpow radix2 (expn y - 63)).
          * apply Rmult_le_compat_r; [apply bpow_ge_0|lra].
          * rewrite <- bpow_plus. change (/ 2) with (bpow radix2 (-1)). apply bpow_le. lia.
      - rewrite round_generic; [|typeclasses eauto|].
        + unfold x0. replace (expn y - 63)%Z with (- (63 - expn y))%Z by lia.
          replace (B2R (mant y) * bpow radix2 63) with (val64 y * bpow radix2 (63 - expn y)).
          * apply ztrunc_nested. lia.
          * unfold val. rewrite Rmult_assoc, <- bpow_plus. do 2 f_equal. lia.
        + change (SpecFloat.fexp 64 16384) with (FLT_exp (SpecFloat.emin 64 16384) 64).
          apply generic_format_FLT. exists (Float radix2 x0 (expn y - 63)).
          * reflexivity.
          * cbn [Fnum]. change (radix2 ^ 64)%Z with (2 ^ 64)%Z. assert (2 ^ 63 <= 2 ^ 64)%Z by (vm_compute; discriminate). lia.
          * cbn [Fexp]. change (SpecFloat.emin 64 16384) with (-16445)%Z. lia. }
    unfold to_long. rewrite Bd2. cbn [andb].
    rewrite btrunc_Ztrunc, Bd1, TR.
    assert (VB: Rabs (val64 y) < bpow radix2 63).
    { pose proof (val_lt_exp y N) as Q. apply Rlt_le_trans with (1 := Q). apply bpow_le. lia. }
    rewrite IL by (apply ztrunc_abs_lt; [lia|auto]). cbn [guard bind].
    exists (Ztrunc (val64 y)), 0%Z. split; auto. split; [lia|]. split; auto. lia.
  - exists x0, (expn y - 63)%Z. split; auto. split; auto. split.
    + intros Q. assert (EE: expn y = 63%Z) by lia. split; [lia|]. unfold x0, val. now rewrite EE.
    + intros Q. split; auto. pose proof (ztrunc_err (B2R (mant y) * bpow radix2 63)) as [Q1 Q2]. fold x0 in Q1, Q2.
      assert (VV: val64 y = B2R (mant y) * bpow radix2 63 * bpow radix2 (expn y - 63)).
      { unfold val. rewrite Rmult_assoc, <- bpow_plus. do 2 f_equal. lia. }
      pose proof (bpow_gt_0 radix2 (expn y - 63)) as BP. split.
      * rewrite VV, !(Rabs_mult _ (bpow radix2 (expn y - 63))). apply Rmult_le_compat_r; [apply Rabs_pos|auto].
      * rewrite VV, <- Rmult_minus_distr_r, Rabs_mult, (Rabs_pos_eq (bpow radix2 (expn y - 63))) by lra.
        rewrite <- (Rmult_1_l (bpow radix2 (expn y - 63))) at 2. apply Rmult_lt_compat_r; auto.
Qed.
