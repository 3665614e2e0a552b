(** * Properties of the extended-exponent numbers ldpe_t (ldpe.h, nr-ld.cpp)

    [value x] is the real number an object represents; [normalized x] is the
    normal form the header's comments speak of; [nearest64] is rounding to the
    nearest number with a 64-bit mantissa (ties to even, no exponent bound). *)
From Coq Require Import ZArith Reals Lia Lra List Bool Floats.SpecFloat.
From Flocq Require Import Core.Core Relative IEEE754.BinarySingleNaN.
From Verif Require Import Base FP Ldpe LdpeFacts LdpeConv.
Open Scope R_scope.

Definition value (x : ldpe_t) : R := B2R (mant x) * bpow radix2 (expn x).

Definition normalized (x : ldpe_t) : Prop :=
  is_finite (mant x) = true /\ (-2147483648 <= expn x <= 2147483647)%Z /\
  (B2R (mant x) = 0 /\ expn x = (-2147483648)%Z \/ / 2 <= Rabs (B2R (mant x)) < 1).

Definition nearest64 (v : R) : R := round radix2 (FLX_exp 64) ZnearestE v.

Lemma normalized_normal x : normalized x <-> @normal 64 16384 x.
Proof. reflexivity. Qed.
Lemma value_val x : value x = @val 64 16384 x.
Proof. reflexivity. Qed.

Lemma value_zero s e : value (mkD (B754_zero s) e) = 0.
Proof. unfold value. cbn [mant B2R]. apply Rmult_0_l. Qed.

(** ** Reading computed numbers *)
Definition sf (x : ldpe_t) : spec_float * Z := (B2SF (mant x), expn x).
Definition sfr (x : res ldpe_t) : option (spec_float * Z) :=
  match x with Ok r => Some (sf r) | _ => None end.

Definition sfv (s : spec_float) : R :=
  match s with S754_finite b m e => IZR (cond_Zopp b (Zpos m)) * bpow radix2 e | _ => 0 end.

Lemma sf_value x s e : sf x = (s, e) -> B2R (mant x) = sfv s /\ expn x = e /\ value x = sfv s * bpow radix2 e.
Proof.
  intros H. assert (H1: B2SF (mant x) = s) by (change s with (fst (s, e)); rewrite <- H; auto).
  assert (H2: expn x = e) by (change e with (snd (s, e)); rewrite <- H; auto).
  assert (B2R (mant x) = sfv s) by (rewrite <- H1; destruct (mant x); reflexivity).
  unfold value. rewrite H0, H2. auto.
Qed.
Lemma sfr_value m s e : sfr m = Some (s, e) -> exists r, m = Ok r /\ sf r = (s, e) /\ value r = sfv s * bpow radix2 e.
Proof.
  destruct m as [r| |]; cbn [sfr]; intros H; try discriminate. exists r. split; auto.
  assert (X: sf r = (s, e)) by congruence. split; auto. now apply sf_value.
Qed.
Lemma sf_normalized x b m e k : sf x = (S754_finite b m e, k) ->
  (-2147483648 <= k <= 2147483647)%Z -> / 2 <= IZR (Zpos m) * bpow radix2 e < 1 -> normalized x.
Proof.
  intros H K I. destruct (sf_value _ _ _ H) as (A & B & _). rewrite <- B in K.
  split. { assert (H1: B2SF (mant x) = S754_finite b m e) by (change (S754_finite b m e) with (fst (S754_finite b m e, k)); rewrite <- H; auto).
    destruct (mant x); cbn in *; auto; discriminate. }
  split; auto. right. rewrite A. cbn [sfv]. rewrite Rabs_mult, (Rabs_pos_eq (bpow radix2 e)) by apply bpow_ge_0.
  rewrite <- abs_IZR. replace (Z.abs (cond_Zopp b (Zpos m))) with (Zpos m) by (now destruct b). exact I.
Qed.

(** an integer 0 < |k| < 2^64 as a normalised number, written out *)
Definition lit (k : Z) : ldpe_t :=
  let e := Zdigits radix2 k in mkD (Bldexp mode_NE (of_Z 64 16384 k) (- e)) e.

(** ** C60: the four operations and the square root *)

Theorem C60_add : forall y z r, normalized y -> normalized z -> add y z = Ok r ->
  normalized r /\
  Rabs (value r - (value y + value z)) <= bpow radix2 (-63) * Rabs (value y + value z) /\
  ((Z.abs (expn y - expn z) <= 64)%Z -> value r = nearest64 (value y + value z)).
Proof.
  intros y z r Ny Nz H. destruct (add_spec 64 16384 big64 y z r Ny Nz H) as (N & A & B & C).
  split; auto. split; auto.
  pose proof (bpow_gt_0 radix2 (-64)) as U. assert (U2: bpow radix2 (-64) <= / 2) by (change (/ 2) with (bpow radix2 (-1)); apply bpow_le; lia).
  assert (D: bpow radix2 (-63) = 2 * bpow radix2 (-64)) by (change 2 with (bpow radix2 1); rewrite <- bpow_plus; auto).
  rewrite D.
  destruct (Z.le_gt_cases (Z.abs (expn y - expn z)) 64) as [L|L].
  - specialize (A L). change (value r) with (val 64 16384 r). rewrite A.
    pose proof (relative_error_N_FLX radix2 64 p64 (fun x => negb (Z.even x)) (value y + value z)) as E.
    change (- (64) + 1)%Z with (-63)%Z in E. rewrite D in E. pose proof (Rabs_pos (value y + value z)).
    change (val 64 16384 y + val 64 16384 z) with (value y + value z). nra.
  - assert (T: forall a b : ldpe_t, normalized a -> normalized b -> (64 < expn a - expn b)%Z ->
              Rabs (value a - (value a + value b)) <= 2 * bpow radix2 (-64) * Rabs (value a + value b)).
    { intros a b Na Nb G. destruct (far_abs 64 16384 a b Na Nb) as [F1 _]; [lia|].
      change (- (64))%Z with (-64)%Z in F1. fold (value a) in F1. fold (value b) in F1.
      change (val 64 16384 b) with (value b) in F1. change (val 64 16384 a) with (value a) in F1.
      replace (value a - (value a + value b)) with (- value b) by ring. rewrite Rabs_Ropp.
      assert (Rabs (value a) - Rabs (value b) <= Rabs (value a + value b)).
      { pose proof (Rabs_triang_inv (value a) (- value b)) as X. rewrite Rabs_Ropp in X.
        replace (value a - - value b) with (value a + value b) in X by ring. exact X. }
      pose proof (Rabs_pos (value a)). pose proof (Rabs_pos (value b)). nra. }
    destruct (Z.le_gt_cases (expn y) (expn z)).
    + rewrite C by lia. rewrite (Rplus_comm (value y)). apply T; auto. lia.
    + rewrite B by lia. apply T; auto. lia.
Qed.

Theorem C60_sub : forall y z r, normalized y -> normalized z -> sub y z = Ok r ->
  normalized r /\
  Rabs (value r - (value y - value z)) <= bpow radix2 (-63) * Rabs (value y - value z) /\
  ((Z.abs (expn y - expn z) <= 64)%Z -> value r = nearest64 (value y - value z)).
Proof.
  intros y z r Ny Nz H. destruct (sub_spec 64 16384 big64 y z r Ny Nz H) as (N & A & B & C).
  split; auto. split; auto.
  pose proof (bpow_gt_0 radix2 (-64)) as U. assert (U2: bpow radix2 (-64) <= / 2) by (change (/ 2) with (bpow radix2 (-1)); apply bpow_le; lia).
  assert (D: bpow radix2 (-63) = 2 * bpow radix2 (-64)) by (change 2 with (bpow radix2 1); rewrite <- bpow_plus; auto).
  rewrite D.
  destruct (Z.le_gt_cases (Z.abs (expn y - expn z)) 64) as [L|L].
  - specialize (A L). change (value r) with (val 64 16384 r). rewrite A.
    pose proof (relative_error_N_FLX radix2 64 p64 (fun x => negb (Z.even x)) (value y - value z)) as E.
    change (- (64) + 1)%Z with (-63)%Z in E. rewrite D in E. pose proof (Rabs_pos (value y - value z)).
    change (val 64 16384 y - val 64 16384 z) with (value y - value z). nra.
  - assert (T: forall a b : ldpe_t, normalized a -> normalized b -> (64 < expn a - expn b)%Z ->
              Rabs (value b) <= 2 * bpow radix2 (-64) * Rabs (value a - value b)).
    { intros a b Na Nb G. destruct (far_abs 64 16384 a b Na Nb) as [F1 _]; [lia|].
      change (- (64))%Z with (-64)%Z in F1.
      change (val 64 16384 b) with (value b) in F1. change (val 64 16384 a) with (value a) in F1.
      pose proof (Rabs_triang_inv (value a) (value b)) as X.
      pose proof (Rabs_pos (value a)). pose proof (Rabs_pos (value b)). nra. }
    destruct (Z.le_gt_cases (expn y) (expn z)).
    + rewrite C by lia. change (value (ldpe_neg z)) with (val 64 16384 (ldpe_neg z)). rewrite val_neg.
      change (val 64 16384 z) with (value z).
      replace (- value z - (value y - value z)) with (- value y) by ring. rewrite Rabs_Ropp.
      rewrite (Rabs_minus_sym (value y)). apply T; auto. lia.
    + rewrite B by lia. replace (value y - (value y - value z)) with (value z) by ring. apply T; auto. lia.
Qed.

Theorem C60_mul : forall y z r, normalized y -> normalized z -> mul y z = Ok r ->
  normalized r /\ value r = nearest64 (value y * value z).
Proof. intros y z r Ny Nz H. exact (mul_spec 64 16384 big64 y z r Ny Nz H). Qed.

Theorem C60_div : forall y z r, normalized y -> normalized z -> value z <> 0 -> div y z = Ok r ->
  normalized r /\ value r = nearest64 (value y / value z).
Proof. intros y z r Ny Nz V H. exact (div_spec 64 16384 big64 y z r Ny Nz V H). Qed.

Theorem C60_sqrt : forall y r, normalized y -> 0 < value y -> sqrt_ y = Ok r ->
  normalized r /\ value r = nearest64 (sqrt (value y)).
Proof. intros y r Ny V H. exact (sqrt_spec 64 16384 big64 y r Ny V H). Qed.


(** Results are defined (no [int] leaves its range) away from the ends of the
    exponent range. *)
Lemma norm_defined (m : ld) e : (-2147400000 <= e <= 2147400000)%Z -> exists r, normalize (mkD m e) = Ok r.
Proof.
  intros H. destruct (is_finite m) eqn:F.
  - apply (normalize_ok 64 16384 big64); auto. cbn [mant expn]. intros N.
    assert (L: (mag radix2 (B2R m) <= 16384)%Z).
    { apply mag_le_bpow; auto. apply (abs_B2R_lt_emax 64 16384). }
    assert (G: (-16445 < mag radix2 (B2R m))%Z).
    { apply mag_gt_bpow. apply (abs_B2R_ge_emin 64 16384). now apply (strict_of 64 16384). }
    unfold INT_MIN, INT_MAX. lia.
  - unfold normalize; cbn [mant expn]. rewrite F. cbn [negb]. rewrite orb_true_r.
    destruct (is0 m); eauto.
Qed.

(** the numbers without exponent trouble: zero, or an exponent of at most 10^9 in size *)
Definition moderate (x : ldpe_t) : Prop := value x = 0 \/ (-1000000000 <= expn x <= 1000000000)%Z.

Lemma zero_mant x : normalized x -> value x = 0 -> (exists s, mant x = B754_zero s) /\ expn x = (-2147483648)%Z.
Proof.
  intros (F & I & N) V. assert (Z0: B2R (mant x) = 0).
  { unfold value in V. apply Rmult_integral in V as [V|V]; auto. pose proof (bpow_gt_0 radix2 (expn x)). lra. }
  split.
  - destruct (mant x) as [s| | |s m e Hb]; try discriminate; eauto.
    exfalso. cbn in Z0. apply (eq_0_F2R radix2) in Z0. destruct s; discriminate.
  - destruct N as [[_ N]|N]; auto. rewrite Z0, Rabs_R0 in N. lra.
Qed.

Lemma is_int_in z : (-2147483648 <= z <= 2147483647)%Z -> is_int z = true.
Proof. intros H. unfold is_int, INT_MIN, INT_MAX. rewrite !(proj2 (Z.leb_le _ _)) by lia. auto. Qed.

Theorem C60_defined : forall y z, normalized y -> normalized z -> moderate y -> moderate z ->
  (exists r, add y z = Ok r) /\ (exists r, sub y z = Ok r) /\
  (value y <> 0 -> value z <> 0 -> (exists r, mul y z = Ok r) /\ (exists r, div y z = Ok r)) /\
  (exists r, sqrt_ y = Ok r).
Proof.
  intros y z Ny Nz My Mz.
  assert (By: (-2147483648 <= expn y <= 1000000000)%Z).
  { destruct My as [V|M]; [|lia]. destruct (zero_mant y Ny V) as [_ ->]. lia. }
  assert (Bz: (-2147483648 <= expn z <= 1000000000)%Z).
  { destruct Mz as [V|M]; [|lia]. destruct (zero_mant z Nz V) as [_ ->]. lia. }
  assert (G1: is_int (expn z + 64) = true) by (apply is_int_in; lia).
  assert (G2: is_int (expn y + 64) = true) by (apply is_int_in; lia).
  assert (AS: (forall a, normalized a -> value a = 0 -> exists s, a = mkD (B754_zero s) (-2147483648))).
  { intros a Na V. destruct (zero_mant a Na V) as [[s E1] E2]. exists s. destruct a; cbn in *; congruence. }
  split; [|split; [|split]].
  - unfold add, bitsize. rewrite G1, G2. cbn [guard].
    destruct (Z.ltb_spec (expn z + 64) (expn y)); [eauto|].
    destruct (Z.ltb_spec (expn y + 64) (expn z)); [eauto|].
    destruct My as [Vy|My], Mz as [Vz|Mz].
    + destruct (AS y Ny Vy) as [sy ->], (AS z Nz Vz) as [sz ->]. destruct sy, sz; eexists; vm_compute; reflexivity.
    + destruct (zero_mant y Ny Vy) as [_ E]. lia.
    + destruct (zero_mant z Nz Vz) as [_ E]. lia.
    + destruct (Z.leb 0 (expn y - expn z)); apply norm_defined; lia.
  - unfold sub, bitsize. rewrite G1, G2. cbn [guard].
    destruct (Z.ltb_spec (expn z + 64) (expn y)); [eauto|].
    destruct (Z.ltb_spec (expn y + 64) (expn z)); [eauto|].
    destruct My as [Vy|My], Mz as [Vz|Mz].
    + destruct (AS y Ny Vy) as [sy ->], (AS z Nz Vz) as [sz ->]. destruct sy, sz; eexists; vm_compute; reflexivity.
    + destruct (zero_mant y Ny Vy) as [_ E]. lia.
    + destruct (zero_mant z Nz Vz) as [_ E]. lia.
    + destruct (Z.leb 0 (expn y - expn z)); apply norm_defined; lia.
  - intros Vy Vz. destruct My as [My|My]; [contradiction|]. destruct Mz as [Mz|Mz]; [contradiction|].
    unfold mul, div. split.
    + rewrite is_int_in by lia. cbn [guard]. apply norm_defined. lia.
    + rewrite is_int_in by lia. cbn [guard]. apply norm_defined. lia.
  - unfold sqrt_. destruct (negb (Z.rem (expn y) 2 =? 0)%Z); [|eauto].
    rewrite is_int_in by lia. cbn [guard]. eauto.
Qed.

(** a literal whose exponent is [e] instead *)
Definition lite (k e : Z) : ldpe_t := mkD (Bldexp mode_NE (of_Z 64 16384 k) (- Zdigits radix2 k)) e.

Ltac lit_normal := eapply sf_normalized; [vm_compute; reflexivity | lia |
  unfold bpow; cbn [Z.pow_pos Pos.iter Z.mul Pos.mul radix_val radix2]; lra].

Example lit_half_normal : normalized (lite 1 0).
Proof. lit_normal. Qed.

(** Rounding is not always to nearest beyond 64 bits of distance: with
    z = -(2^-65 + 2^-128) the sum 1 + z is 1, the nearest 64-bit number 1 - 2^-64. *)
Theorem C60_add_nearest_refuted : exists y z r, normalized y /\ normalized z /\ add y z = Ok r /\
  value r <> nearest64 (value y + value z).
Proof.
  assert (E: sfr (add (lite 1 1) (lite (-9223372036854775809) (-64))) =
             Some (S754_finite false 9223372036854775808 (-64), 1%Z)) by (vm_compute; reflexivity).
  apply sfr_value in E as (r & E1 & _ & E2).
  assert (Ny: sf (lite 1 1) = (S754_finite false 9223372036854775808 (-64), 1%Z)) by (vm_compute; reflexivity).
  assert (Nz: sf (lite (-9223372036854775809) (-64)) = (S754_finite true 9223372036854775809 (-64), (-64)%Z)) by (vm_compute; reflexivity).
  pose proof (proj2 (proj2 (sf_value _ _ _ Ny))) as Vy. pose proof (proj2 (proj2 (sf_value _ _ _ Nz))) as Vz.
  exists (lite 1 1), (lite (-9223372036854775809) (-64)), r.
  split; [lit_normal|]. split; [lit_normal|]. split; [exact E1|].
  rewrite Vy, Vz, E2. unfold nearest64.
  cbn [sfv cond_Zopp]. intros H.
  match type of H with _ = round _ _ _ ?v =>
    assert (P: Rnd_N_pt (generic_format radix2 (FLX_exp 64)) v (round radix2 (FLX_exp 64) ZnearestE v))
      by (apply round_N_pt; typeclasses eauto) end.
  rewrite <- H in P. destruct P as [_ P].
  specialize (P (IZR 18446744073709551615 * bpow radix2 (-64))).
  assert (G: generic_format radix2 (FLX_exp 64) (IZR 18446744073709551615 * bpow radix2 (-64))).
  { apply generic_format_FLX. exists (Float radix2 18446744073709551615 (-64)); [reflexivity|]. vm_compute. reflexivity. }
  specialize (P G). revert P. unfold bpow; cbn [Z.pow_pos Pos.iter Z.mul Pos.mul radix_val radix2 Z.opp].
  intros P. rewrite Rabs_pos_eq in P by lra. rewrite Rabs_left1 in P by lra. lra.
Qed.

Definition ldz : ldpe_t := mkD zerof (-2147483648).
Lemma ldz_normalized : normalized ldz.
Proof. split; [reflexivity|]. split; [cbn; lia|]. left. split; reflexivity. Qed.

(** Multiplying zero by a number below 1/2, or dividing zero by a number of at
    least 1, computes an exponent below INT_MIN. *)
Theorem C60_zero_product_refuted : exists y z, normalized y /\ normalized z /\ value y = 0 /\
  moderate z /\ mul y z = UB /\ exists w, normalized w /\ value w = 1 /\ div y w = UB.
Proof.
  exists ldz, (lite 1 (-1)). split; [exact ldz_normalized|]. split; [lit_normal|].
  split; [apply value_zero|]. split; [right; cbn; lia|]. split; [vm_compute; reflexivity|].
  exists (lite 1 1). split; [lit_normal|]. split; [|vm_compute; reflexivity].
  assert (E: sf (lite 1 1) = (S754_finite false 9223372036854775808 (-64), 1%Z)) by (vm_compute; reflexivity).
  rewrite (proj2 (proj2 (sf_value _ _ _ E))). unfold bpow; cbn [sfv cond_Zopp]. unfold bpow; cbn [Z.pow_pos Pos.iter Z.mul Pos.mul radix_val radix2]. lra.
Qed.

(** non-vacuity: 3 * 5 = 15, 1/3 rounded, sqrt 2 rounded *)
Example C60_mul_ex : exists r, mul (lit 3) (lit 5) = Ok r /\ normalized (lit 3) /\ normalized (lit 5) /\ sf r = sf (lit 15).
Proof.
  assert (E: sfr (mul (lit 3) (lit 5)) = Some (sf (lit 15))) by (vm_compute; reflexivity).
  apply sfr_value in E as (r & E1 & E2 & _). exists r. split; [exact E1|]. split; [lit_normal|]. split; [lit_normal|exact E2].
Qed.
Example C60_div_ex : sfr (div (lit 1) (lit 3)) = Some (S754_finite false 12297829382473034411 (-64), (-1)%Z).
Proof. vm_compute. reflexivity. Qed.
Example C60_sqrt_ex : sfr (sqrt_ (lit 2)) = Some (S754_finite false 13043817825332782212 (-64), 1%Z).
Proof. vm_compute. reflexivity. Qed.
Example C60_add_ex : sfr (add (lit 7) (lit (-3))) = Some (sf (lit 4)) /\ sfr (sub (lit 7) (lit (-3))) = Some (sf (lit 10)).
Proof. vm_compute. auto. Qed.

(** ** C61: comparisons *)

Theorem C61_cmp : forall x y, normalized x -> normalized y ->
  (value x < value y /\ (cmp x y < 0)%Z) \/ (value x = value y /\ cmp x y = 0%Z) \/
  (value y < value x /\ (0 < cmp x y)%Z).
Proof. intros x y Nx Ny. exact (cmp_spec 64 16384 x y Nx Ny). Qed.

Theorem C61_sgn : forall x, normalized x -> exists s, sgn x = Ok s /\
  ((0 < value x /\ (0 < s)%Z) \/ (value x = 0 /\ s = 0%Z) \/ (value x < 0 /\ (s < 0)%Z)).
Proof.
  intros x Nx. unfold sgn, cmp_d.
  assert (E: set_d 64 16384 (B754_zero false) = Ok ldz) by (vm_compute; reflexivity).
  rewrite E. cbn [bind]. eexists. split; [reflexivity|].
  assert (V0: value ldz = 0) by (apply value_zero).
  pose proof (C61_cmp x ldz Nx ldz_normalized) as C. rewrite V0 in C. tauto.
Qed.

(** Every operation whose result is normalised keeps to this; three do not
    normalise, and on zero they produce a zero that compares as negative. *)
Theorem C61_zero_refuted :
  (exists z0, set_z 64 16384 0 = Ok z0 /\ value z0 = 0 /\ sgn z0 = Ok (-1)%Z) /\
  (exists z0, set_si 64 16384 0 = Ok z0 /\ value z0 = 0 /\ sgn z0 = Ok 0%Z /\
     (exists z1, mul_2si z0 1 = Ok z1 /\ value z1 = 0 /\ sgn z1 = Ok (-1)%Z) /\
     (exists z2, sqrt_ z0 = Ok z2 /\ value z2 = 0 /\ sgn z2 = Ok (-1)%Z)).
Proof.
  split.
  - eexists. split; [vm_compute; reflexivity|]. split; [apply value_zero|vm_compute; reflexivity].
  - eexists. split; [vm_compute; reflexivity|]. split; [apply value_zero|]. split; [vm_compute; reflexivity|].
    split.
    + eexists. split; [vm_compute; reflexivity|]. split; [apply value_zero|vm_compute; reflexivity].
    + eexists. split; [vm_compute; reflexivity|]. split; [apply value_zero|vm_compute; reflexivity].
Qed.

(** ... and a zero read from an integer absorbs every number below 2^-65 *)
Theorem C61_absorb_refuted : exists y z r, normalized y /\ 0 < value y /\
  set_z 64 16384 0 = Ok z /\ value z = 0 /\ add y z = Ok r /\ value r = 0.
Proof.
  exists (lite 1 (-65)). eexists. eexists. split; [lit_normal|]. split.
  { assert (E: sf (lite 1 (-65)) = (S754_finite false 9223372036854775808 (-64), (-65)%Z)) by (vm_compute; reflexivity).
    rewrite (proj2 (proj2 (sf_value _ _ _ E))). cbn [sfv cond_Zopp].
    apply Rmult_lt_0_compat; [apply Rmult_lt_0_compat; [lra|]|]; apply bpow_gt_0. }
  split; [vm_compute; reflexivity|]. split; [apply value_zero|].
  split; [vm_compute; reflexivity|]. apply value_zero.
Qed.
Example C61_ex : cmp (lit 3) (lit 5) = (-1)%Z /\ cmp (lit (-3)) (lit (-5)) = 1%Z /\ cmp (lit 5) (lit 5) = 0%Z.
Proof. vm_compute. auto. Qed.

(** ** C62: rounding to integers *)

(** [k] is the integer nearest to [v], halves away from zero *)
Definition nearest_away (v : R) (k : Z) : Prop :=
  Rabs (v - IZR k) <= / 2 /\ (Rabs (v - IZR k) = / 2 -> Rabs v < Rabs (IZR k)).

Lemma nearest_away_ZnearestA v : nearest_away v (ZnearestA v).
Proof.
  split; [apply Znearest_half|]. intros H. unfold Znearest in *.
  pose proof (Zfloor_lb v) as L. pose proof (Zfloor_ub v) as U.
  destruct (Rcompare_spec (v - IZR (Zfloor v)) (/ 2)) as [C|C|C].
  - rewrite Rabs_pos_eq in H by lra. lra.
  - assert (CE: IZR (Zceil v) = IZR (Zfloor v) + 1).
    { rewrite Zceil_floor_neq by lra. now rewrite plus_IZR. }
    destruct (Z.leb_spec 0 (Zfloor v)) as [F|F].
    + apply IZR_le in F. rewrite CE in *. rewrite !Rabs_pos_eq by lra. lra.
    + assert (F2: IZR (Zfloor v) <= -1) by (apply IZR_le; lia). rewrite !Rabs_left1 by lra. lra.
  - assert (CE: IZR (Zceil v) = IZR (Zfloor v) + 1).
    { rewrite Zceil_floor_neq by lra. now rewrite plus_IZR. }
    rewrite CE in H. rewrite Rabs_left1 in H by lra. lra.
Qed.

Theorem C62_round : forall y, normalized y -> Rabs (value y) < bpow radix2 53 ->
  exists r k, round_ y = Ok r /\ normalized r /\ value r = IZR k /\ nearest_away (value y) k /\ get_z y = Ok k.
Proof.
  intros y N V. destruct (round_spec y N V) as (r & R1 & R2 & R3).
  exists r, (ZnearestA (value y)). split; auto. split; auto. split; auto.
  split; [apply nearest_away_ZnearestA|]. exact (get_z_spec y N V).
Qed.

Theorem C62_floor : forall y, normalized y -> Rabs (value y) < bpow radix2 53 ->
  exists r k, floor_ y = Ok r /\ normalized r /\ value r = IZR k /\ IZR k <= value y < IZR k + 1.
Proof.
  intros y N V. destruct (floor_spec y N V) as (r & R1 & R2 & R3).
  exists r, (Zfloor (value y)). split; auto. split; auto. split; auto.
  split; [apply Zfloor_lb|apply Zfloor_ub].
Qed.

Theorem C62_ceil : forall y, normalized y -> Rabs (value y) < bpow radix2 53 ->
  exists r k, ceil_ y = Ok r /\ normalized r /\ value r = IZR k /\ IZR k - 1 < value y <= IZR k.
Proof.
  intros y N V. destruct (ceil_spec y N V) as (r & R1 & R2 & R3).
  exists r, (Zceil (value y)). split; auto. split; auto. split; auto.
  split; [pose proof (Zceil_lb (value y)); lra|apply Zceil_ub].
Qed.

(** Beyond 2^53 the results pass through a double: on the integer 2^54+3 (55 bits of
    the 64 available) floor returns 2^54+4, larger than the argument, and get_z does
    not return the integer it was given. *)
Theorem C62_beyond_refuted : exists y r, normalized y /\ value y = IZR 18014398509481987 /\
  floor_ y = Ok r /\ value r = IZR 18014398509481988 /\
  get_z y = Ok 18014398509481988%Z.
Proof.
  assert (E: sfr (floor_ (lit 18014398509481987)) = Some (S754_finite false 9223372036854777856 (-64), 55%Z)) by (vm_compute; reflexivity).
  apply sfr_value in E as (r & E1 & _ & E2).
  assert (Y: sf (lit 18014398509481987) = (S754_finite false 9223372036854777344 (-64), 55%Z)) by (vm_compute; reflexivity).
  pose proof (proj2 (proj2 (sf_value _ _ _ Y))) as Vy.
  exists (lit 18014398509481987), r. split; [lit_normal|].
  rewrite Vy, E2. cbn [sfv cond_Zopp]. unfold bpow; cbn [Z.pow_pos Pos.iter Z.mul Pos.mul radix_val radix2].
  split; [lra|]. split; [exact E1|]. split; [lra|]. vm_compute. reflexivity.
Qed.

(** The fractional part too: of 3/2 + 2^-63 it is 1/2. *)
Theorem C62_frac_refuted : exists y r, normalized y /\ value y = IZR 3 / IZR 2 + bpow radix2 (-63) /\
  frac y = Ok r /\ value r = / 2.
Proof.
  assert (E: sfr (frac (lite 13835058055282163713 1)) = Some (S754_finite false 9223372036854775808 (-64), 0%Z)) by (vm_compute; reflexivity).
  apply sfr_value in E as (r & E1 & _ & E2).
  assert (Y: sf (lite 13835058055282163713 1) = (S754_finite false 13835058055282163713 (-64), 1%Z)) by (vm_compute; reflexivity).
  pose proof (proj2 (proj2 (sf_value _ _ _ Y))) as Vy.
  exists (lite 13835058055282163713 1), r. split; [lit_normal|].
  rewrite Vy, E2. cbn [sfv cond_Zopp]. unfold bpow; cbn [Z.pow_pos Pos.iter Z.mul Pos.mul radix_val radix2].
  split; [lra|]. split; [exact E1|]. lra.
Qed.

(** 5/2 *)
Example C62_ex : normalized (lite 5 2) /\ sfr (round_ (lite 5 2)) = Some (sf (lit 3)) /\
  sfr (floor_ (lite 5 2)) = Some (sf (lit 2)) /\ sfr (ceil_ (lite (-5) 2)) = Some (sf (lit (-2))) /\
  get_z (lite (-5) 2) = Ok (-3)%Z.
Proof. split; [lit_normal|]. vm_compute. auto. Qed.

(** ** C63: conversion to an integer through a decimal string *)

Lemma nearest_small_long v : Rabs v < bpow radix2 63 - 1 -> is_long (ZnearestA v) = true.
Proof.
  intros H. pose proof (Znearest_half (Z.leb 0) v) as X. apply Rabs_le_inv in X. apply Rabs_def2 in H.
  assert (B: bpow radix2 63 = IZR 9223372036854775808) by (rewrite <- (IZR_Zpower radix2) by lia; reflexivity).
  rewrite B in H.
  assert (A: IZR (-9223372036854775808) < IZR (ZnearestA v) < IZR 9223372036854775808) by lra.
  destruct A as [A1 A2]. apply lt_IZR in A1, A2.
  unfold is_long. rewrite !(proj2 (Z.leb_le _ _)) by lia. auto.
Qed.

Theorem C63_small : forall y, normalized y -> Rabs (value y) < bpow radix2 63 - 1 ->
  exists k, nearest_away (value y) k /\
    (k <> (-1)%Z -> set_f_ldpe y = Ok k) /\ (k = (-1)%Z -> set_f_ldpe y = UB).
Proof.
  intros y N V. exists (ZnearestA (value y)). split; [apply nearest_away_ZnearestA|].
  pose proof (nearest_small_long _ V) as L.
  assert (E: (expn y <= 63)%Z).
  { apply (expn_lt y 63 N); [|lia]. change (val 64 16384 y) with (value y). lra. }
  split.
  - intros M. apply (set_f_small y N); auto. lia.
  - intros M. exact (set_f_minus1 y N M).
Qed.

Theorem C63_large : forall y, normalized y -> (64 <= expn y)%Z ->
  exists k, set_f_ldpe y = Ok k /\ IZR k = value y.
Proof. intros y N E. exact (set_f_big y N E). Qed.

(** the long double version, 167-184 *)
Theorem C63_long_double : forall x : ld, is_finite x = true -> Rabs (B2R x) < bpow radix2 63 - 1 ->
  exists k, nearest_away (B2R x) k /\
    (k <> (-1)%Z -> set_f_ld x = Ok k) /\ (k = (-1)%Z -> set_f_ld x = UB).
Proof.
  intros x F V. exists (ZnearestA (B2R x)). split; [apply nearest_away_ZnearestA|].
  pose proof (nearest_small_long _ V) as L. split; intros M.
  - now apply set_f_ld_spec.
  - now apply set_f_ld_minus1.
Qed.

(** the value -1 overruns the buffer by one byte; 2^63 - 1/2 has no [long] result *)
Theorem C63_minus_one_refuted : exists y, normalized y /\ value y = -1 /\ set_f_ldpe y = UB.
Proof.
  exists (lit (-1)). split; [lit_normal|]. split; [|vm_compute; reflexivity].
  assert (Y: sf (lit (-1)) = (S754_finite true 9223372036854775808 (-64), 1%Z)) by (vm_compute; reflexivity).
  rewrite (proj2 (proj2 (sf_value _ _ _ Y))). cbn [sfv cond_Zopp]. unfold bpow; cbn [Z.pow_pos Pos.iter Z.mul Pos.mul radix_val radix2 Z.opp]. lra.
Qed.
Theorem C63_range_refuted : exists y, normalized y /\ value y = bpow radix2 63 - / 2 /\ set_f_ldpe y = UB.
Proof.
  exists (lite 18446744073709551615 63). split; [lit_normal|]. split; [|vm_compute; reflexivity].
  assert (Y: sf (lite 18446744073709551615 63) = (S754_finite false 18446744073709551615 (-64), 63%Z)) by (vm_compute; reflexivity).
  rewrite (proj2 (proj2 (sf_value _ _ _ Y))). cbn [sfv cond_Zopp]. unfold bpow; cbn [Z.pow_pos Pos.iter Z.mul Pos.mul radix_val radix2 Z.opp]. lra.
Qed.
Example C63_ex : set_f_ldpe (lit 12345) = Ok 12345%Z /\ set_f_ldpe (lite (-5) 2) = Ok (-3)%Z /\
  set_f_ldpe (lite 5 100) = Ok (5 * 2 ^ 97)%Z /\ set_f_ldpe (lit (-2)) = Ok (-2)%Z.
Proof. vm_compute. auto. Qed.

(** ** C64: integer and exponent *)

Theorem C64_get_si_exp : forall y, normalized y -> value y <> 0 -> (-2147483585 <= expn y)%Z ->
  exists x e, get_si_exp y = Ok (x, e) /\ (0 <= e)%Z /\ (Z.abs x < 2 ^ 63)%Z /\
    Rabs (IZR x * bpow radix2 e) <= Rabs (value y) /\
    Rabs (value y - IZR x * bpow radix2 e) < bpow radix2 e /\
    ((0 < e)%Z -> Rabs (value y - IZR x * bpow radix2 e) < bpow radix2 (-62) * Rabs (value y)).
Proof.
  intros y N V E.
  destruct (get_si_exp_spec y N V) as (x & e & G & P & A & B); [unfold INT_MIN; lia|].
  change (val 64 16384 y) with (value y) in *.
  exists x, e. split; [exact G|]. split; [exact P|].
  destruct (Z.le_gt_cases (expn y) 63) as [L|L].
  - destruct (A L) as [-> ->]. pose proof (val_lt_exp y N) as Q. change (val 64 16384 y) with (value y) in Q.
    destruct (ztrunc_err (value y)) as [T1 T2]. cbn [bpow]. rewrite Rmult_1_r.
    split; [|split; [auto|split; [auto|lia]]].
    apply ztrunc_abs_lt; [lia|]. apply Rlt_le_trans with (1 := Q). apply bpow_le. lia.
  - destruct (B L) as (-> & T1 & T2). pose proof (val_lt_exp y N) as Q. change (val 64 16384 y) with (value y) in Q.
    pose proof (exp_le_val y N V) as Q2. change (val 64 16384 y) with (value y) in Q2.
    split; [|split; [auto|split; [auto|]]].
    + apply lt_IZR. change (2 ^ 63)%Z with (radix2 ^ 63)%Z. rewrite IZR_Zpower by lia. rewrite abs_IZR.
      apply Rmult_lt_reg_r with (bpow radix2 (expn y - 63)); [apply bpow_gt_0|].
      rewrite <- bpow_plus. replace (63 + (expn y - 63))%Z with (expn y) by lia.
      rewrite Rabs_mult, (Rabs_pos_eq (bpow radix2 _)) in T1 by apply bpow_ge_0. lra.
    + intros _. apply Rlt_le_trans with (1 := T2).
      replace (expn y - 63)%Z with (-62 + (expn y - 1))%Z by lia. rewrite bpow_plus.
      apply Rmult_le_compat_l; [apply bpow_ge_0|auto].
Qed.

Theorem C64_integers : forall y k, normalized y -> value y = IZR k -> k <> 0%Z -> (Z.abs k < 2 ^ 63)%Z ->
  get_si_exp y = Ok (k, 0%Z).
Proof.
  intros y k N V K0 K.
  assert (V0: value y <> 0) by (rewrite V; intros X; apply (eq_IZR _ 0) in X; auto).
  assert (A1: 1 <= Rabs (value y)) by (rewrite V, <- abs_IZR; apply (IZR_le 1); lia).
  assert (E0: (0 < expn y)%Z).
  { pose proof (val_lt_exp y N) as Q. change (val 64 16384 y) with (value y) in Q.
    assert (X: bpow radix2 0 < bpow radix2 (expn y)) by (cbn [bpow] in *; lra). apply lt_bpow in X. lia. }
  assert (E1: (expn y <= 63)%Z).
  { apply (expn_lt y 63 N); [|lia]. change (val 64 16384 y) with (value y). rewrite V, <- abs_IZR.
    rewrite <- (IZR_Zpower radix2) by lia. apply IZR_lt. exact K. }
  destruct (get_si_exp_spec y N V0) as (x & e & G & _ & A & _); [unfold INT_MIN; lia|].
  destruct (A E1) as [-> ->]. rewrite G. change (val 64 16384 y) with (value y). rewrite V, Ztrunc_IZR. auto.
Qed.

(** 64-bit integers do not fit: 2^64 - 1 becomes (2^63 - 1) * 2; and on zero the
    exponent computed is below INT_MIN. *)
Theorem C64_truncates_refuted : exists y, normalized y /\ value y = IZR 18446744073709551615 /\
  get_si_exp y = Ok (9223372036854775807%Z, 1%Z).
Proof.
  exists (lit 18446744073709551615). split; [lit_normal|]. split; [|vm_compute; reflexivity].
  assert (Y: sf (lit 18446744073709551615) = (S754_finite false 18446744073709551615 (-64), 64%Z)) by (vm_compute; reflexivity).
  rewrite (proj2 (proj2 (sf_value _ _ _ Y))). cbn [sfv cond_Zopp]. unfold bpow; cbn [Z.pow_pos Pos.iter Z.mul Pos.mul radix_val radix2 Z.opp]. lra.
Qed.
Theorem C64_zero_refuted : exists z, set_si 64 16384 0 = Ok z /\ normalized z /\ get_si_exp z = UB.
Proof. exists ldz. split; [vm_compute; reflexivity|]. split; [exact ldz_normalized|vm_compute; reflexivity]. Qed.
Example C64_ex : get_si_exp (lite (-11) 3) = Ok (-5, 0)%Z /\ get_si_exp (lite 5 70) = Ok (5 * 2 ^ 60, 7)%Z.
Proof. vm_compute. auto. Qed.

Print Assumptions C60_add.
Print Assumptions C60_sub.
Print Assumptions C60_mul.
Print Assumptions C60_div.
Print Assumptions C60_sqrt.
Print Assumptions C60_defined.
Print Assumptions C60_add_nearest_refuted.
Print Assumptions C60_zero_product_refuted.
Print Assumptions C61_cmp.
Print Assumptions C61_sgn.
Print Assumptions C61_zero_refuted.
Print Assumptions C61_absorb_refuted.
Print Assumptions C62_round.
Print Assumptions C62_floor.
Print Assumptions C62_ceil.
Print Assumptions C62_beyond_refuted.
Print Assumptions C62_frac_refuted.
Print Assumptions C63_small.
Print Assumptions C63_large.
Print Assumptions C63_long_double.
Print Assumptions C63_minus_one_refuted.
Print Assumptions C63_range_refuted.
Print Assumptions C64_get_si_exp.
Print Assumptions C64_integers.
Print Assumptions C64_truncates_refuted.
Print Assumptions C64_zero_refuted.
