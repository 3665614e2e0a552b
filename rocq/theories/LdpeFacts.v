(** * Facts about the model of ldpe.h *)
From Coq Require Import ZArith Reals Lia Lra List Bool Floats.SpecFloat.
From Flocq Require Import Core.Core IEEE754.BinarySingleNaN.
From Verif Require Import Base Ldpe.
Open Scope R_scope.

Section Round.
Variable prec : Z.
Context {Hp : Prec_gt_0 prec}.
Notation fx := (FLX_exp prec).

Lemma round_FLX_bpow rnd {Hr : Valid_rnd rnd} x e :
  round radix2 fx rnd (x * bpow radix2 e) = round radix2 fx rnd x * bpow radix2 e.
Proof.
  destruct (Req_dec x 0) as [->|Hx].
  - rewrite Rmult_0_l, round_0 by auto. ring.
  - unfold round, scaled_mantissa, cexp, F2R; cbn [Fnum Fexp].
    rewrite mag_mult_bpow by auto. unfold FLX_exp.
    replace (mag radix2 x + e - prec)%Z with (mag radix2 x - prec + e)%Z by lia.
    rewrite Z.opp_add_distr, !bpow_plus, (bpow_opp _ e).
    replace (x * bpow radix2 e * (bpow radix2 (- (mag radix2 x - prec)) * / bpow radix2 e))
      with (x * bpow radix2 (- (mag radix2 x - prec))).
    2:{ field. apply Rgt_not_eq, bpow_gt_0. }
    ring.
Qed.

Lemma FLX_bpow x e : generic_format radix2 fx x -> generic_format radix2 fx (x * bpow radix2 e).
Proof.
  intros H. rewrite <- (round_generic radix2 fx ZnearestE x H), <- round_FLX_bpow by typeclasses eauto.
  apply generic_format_round; typeclasses eauto.
Qed.
End Round.

Section Facts.
Context (prec emax : Z) {Hp : Prec_gt_0 prec} {He : Prec_lt_emax prec emax}.
Hypothesis Hbig : (2 * prec + 2 <= emax)%Z.
Notation T := (binary_float prec emax).
Notation D := (ldpe prec emax).
Notation fexp := (SpecFloat.fexp prec emax).
Notation emin := (SpecFloat.emin prec emax).
Notation fx := (FLX_exp prec).
Notation rne := (round radix2 fx ZnearestE).

(** the real number represented *)
Definition val (x : D) : R := B2R (mant x) * bpow radix2 (expn x).

(** "normalized" of the comments of ldpe.h: mantissa in [1/2,1), or 0 with the
    smallest exponent *)
Definition normal (x : D) : Prop :=
  is_finite (mant x) = true /\ (INT_MIN <= expn x <= INT_MAX)%Z /\
  (B2R (mant x) = 0 /\ expn x = INT_MIN \/ / 2 <= Rabs (B2R (mant x)) < 1).

Lemma prec_pos : (0 < prec)%Z.
Proof. exact Hp. Qed.

Lemma B2R_FLX (x : T) : generic_format radix2 fx (B2R x).
Proof. apply generic_format_FLX_FLT with emin. apply generic_format_B2R. Qed.

Lemma emin_eq : emin = (3 - emax - prec)%Z.
Proof. reflexivity. Qed.

(** in the normal range the format of the mantissas rounds like an unbounded one *)
Lemma round_fexp v : v = 0 \/ bpow radix2 (2 - emax) <= Rabs v ->
  round radix2 fexp ZnearestE v = rne v.
Proof.
  intros [->|H].
  - now rewrite !round_0 by typeclasses eauto.
  - apply (round_FLT_FLX radix2 emin prec). rewrite emin_eq.
    replace (3 - emax - prec + prec - 1)%Z with (2 - emax)%Z by lia. exact H.
Qed.

Lemma round_lt_emax v : Rabs v <= bpow radix2 1 -> Rabs (round radix2 fexp ZnearestE v) < bpow radix2 emax.
Proof.
  intros H. apply Rle_lt_trans with (bpow radix2 1).
  - apply abs_round_le_generic; try typeclasses eauto; auto.
    apply generic_format_bpow. change (Z.max (1 + 1 - prec) emin <= 1)%Z.
    rewrite emin_eq. pose proof prec_pos. lia.
  - apply bpow_lt. pose proof prec_pos. lia.
Qed.

Lemma is0_spec (x : T) : is_finite x = true -> is0 x = true <-> B2R x = 0.
Proof.
  intros F. unfold is0. rewrite (Beqb_correct _ _ x zerof F eq_refl).
  cbn [B2R zerof]. destruct (Req_bool_spec (B2R x) 0); split; auto; try discriminate; contradiction.
Qed.

Lemma strict_of (x : T) : is_finite x = true -> B2R x <> 0 -> is_finite_strict x = true.
Proof. destruct x; cbn; intros; auto; discriminate. Qed.

Lemma frexp_finite (x : T) : is_finite_strict x = true -> is_finite (fst (Bfrexp x)) = true.
Proof.
  intros H. pose proof (Bfrexp_correct _ _ _ x H) as C.
  destruct (Bfrexp x) as [z e]. cbn. destruct C as [_ C].
  destruct C as [C _]. { pose proof prec_pos. lia. }
  destruct z; cbn in *; auto; rewrite Rabs_R0 in C; lra.
Qed.

Lemma normalize_spec (x r : D) : is_finite (mant x) = true -> normalize x = Ok r ->
  val r = val x /\ normal r.
Proof.
  intros F H. unfold normalize in H.
  destruct (is0 (mant x)) eqn:E0; cbn [orb] in H.
  - apply is0_spec in E0; auto. apply (f_equal (fun t => match t with Ok a => a | _ => r end)) in H.
    cbn in H. subst r. unfold val, normal; cbn [mant expn]. rewrite E0. split; [ring|].
    repeat split; auto; unfold EXPMIN, INT_MIN, INT_MAX; lia.
  - rewrite F in H. cbn [negb] in H.
    assert (N: B2R (mant x) <> 0).
    { intros N. apply is0_spec in N; auto. congruence. }
    pose proof (strict_of _ F N) as Fs.
    pose proof (Bfrexp_correct _ _ _ _ Fs) as C. pose proof (frexp_finite _ Fs) as Ff.
    destruct (Bfrexp (mant x)) as [m e]. cbn [fst] in Ff.
    apply guard_Ok in H as [Hg H].
    apply (f_equal (fun t => match t with Ok a => a | _ => r end)) in H. cbn in H. subst r.
    destruct C as [C1 C2]. destruct C2 as [C2 _]. { pose proof prec_pos. lia. }
    unfold val, normal; cbn [mant expn]. split.
    + rewrite C1. rewrite bpow_plus. ring.
    + split; auto. apply andb_prop in Hg as [G1 G2].
      apply Z.leb_le in G1, G2. split; [lia|]. right. exact C2.
Qed.

(** when does it succeed *)
Lemma normalize_ok (x : D) : is_finite (mant x) = true ->
  (B2R (mant x) <> 0 -> (INT_MIN <= expn x + mag radix2 (B2R (mant x)) <= INT_MAX)%Z) ->
  exists r, normalize x = Ok r.
Proof.
  intros F H. unfold normalize. destruct (is0 (mant x)) eqn:E0; cbn [orb]; [eauto|].
  rewrite F; cbn [negb].
  assert (N: B2R (mant x) <> 0).
  { intros N. apply is0_spec in N; auto. congruence. }
  pose proof (strict_of _ F N) as Fs.
  pose proof (Bfrexp_correct _ _ _ _ Fs) as C.
  destruct (Bfrexp (mant x)) as [m e]. destruct C as [_ C].
  destruct C as [_ C]. { pose proof prec_pos. lia. }
  specialize (H N). rewrite <- C in H. cbn [guard].
  unfold is_int. rewrite (proj2 (Z.leb_le _ _)), (proj2 (Z.leb_le _ _)) by lia. cbn. eauto.
Qed.

(** mantissas are multiples of 2^-prec *)
Lemma mult_of (x : T) : (B2R x = 0 \/ / 2 <= Rabs (B2R x) < 1) ->
  exists k : Z, B2R x = IZR k * bpow radix2 (- prec).
Proof.
  intros [H|H].
  - exists 0%Z. rewrite H. ring.
  - pose proof (B2R_FLX x) as G.
    assert (M: mag radix2 (B2R x) = 0%Z :> Z).
    { apply mag_unique. cbn [bpow Z.sub]. change (bpow radix2 (0 - 1)) with (/ 2). cbn. lra. }
    rewrite G. unfold F2R; cbn [Fnum Fexp]. unfold cexp, FLX_exp. rewrite M.
    eexists. f_equal.
Qed.

Lemma scale_spec (x : T) s : is_finite x = true -> (B2R x = 0 \/ / 2 <= Rabs (B2R x) < 1) ->
  (- prec <= s <= 0)%Z ->
  B2R (scale x s) = B2R x * bpow radix2 s /\ is_finite (scale x s) = true.
Proof.
  intros F H Hs. pose proof (Bldexp_correct _ _ _ _ mode_NE x s) as C.
  assert (A: Rabs (B2R x * bpow radix2 s) <= bpow radix2 1).
  { rewrite Rabs_mult, (Rabs_pos_eq (bpow radix2 s)) by apply bpow_ge_0.
    assert (Rabs (B2R x) <= 1) by (destruct H as [->|H]; [rewrite Rabs_R0|]; lra).
    assert (bpow radix2 s <= 1) by (change 1 with (bpow radix2 0); apply bpow_le; lia).
    pose proof (bpow_ge_0 radix2 s). pose proof (Rabs_pos (B2R x)).
    change (bpow radix2 1) with 2. nra. }
  rewrite Rlt_bool_true in C by (apply round_lt_emax; auto).
  destruct C as (C1 & C2 & _). unfold scale. rewrite C2. split; auto.
  rewrite C1. apply round_generic; [typeclasses eauto|].
  destruct H as [->|H].
  { rewrite Rmult_0_l. apply generic_format_0. }
  change fexp with (FLT_exp emin prec).
  apply generic_format_FLT_FLX.
  - rewrite emin_eq, Rabs_mult, (Rabs_pos_eq (bpow radix2 s)) by apply bpow_ge_0.
    replace (3 - emax - prec + prec - 1)%Z with (2 - emax)%Z by lia.
    apply Rle_trans with (bpow radix2 (-1) * bpow radix2 (- prec)).
    + rewrite <- bpow_plus. apply bpow_le. pose proof prec_pos. lia.
    + change (bpow radix2 (-1)) with (/ 2). apply Rmult_le_compat; try lra.
      * apply bpow_ge_0. * apply bpow_le; lia.
  - apply FLX_bpow; auto. apply B2R_FLX.
Qed.

(** one addition of aligned mantissas *)
Lemma plus_spec (x y : T) (k : Z) : is_finite x = true -> is_finite y = true ->
  Rabs (B2R x) <= 1 -> Rabs (B2R y) <= 1 ->
  B2R x + B2R y = IZR k * bpow radix2 (- (2 * prec)) ->
  B2R (Bplus mode_NE x y) = rne (B2R x + B2R y) /\ is_finite (Bplus mode_NE x y) = true.
Proof.
  intros F1 F2 A1 A2 K. pose proof (Bplus_correct _ _ _ _ mode_NE x y F1 F2) as C.
  assert (A: Rabs (B2R x + B2R y) <= bpow radix2 1).
  { pose proof (Rabs_triang (B2R x) (B2R y)). change (bpow radix2 1) with 2. lra. }
  rewrite Rlt_bool_true in C by (apply round_lt_emax; auto).
  destruct C as (C1 & C2 & _). split; auto. rewrite C1. apply round_fexp.
  destruct (Z.eq_dec k 0) as [->|Hk]. { left. rewrite K; ring. }
  right. rewrite K, Rabs_mult, (Rabs_pos_eq (bpow radix2 _)) by apply bpow_ge_0.
  apply Rle_trans with (1 * bpow radix2 (- (2 * prec))).
  - rewrite Rmult_1_l. apply bpow_le. pose proof prec_pos. lia.
  - apply Rmult_le_compat_r; [apply bpow_ge_0|]. rewrite <- abs_IZR. apply (IZR_le 1). lia.
Qed.

Lemma normal_mant x : normal x -> B2R (mant x) = 0 \/ / 2 <= Rabs (B2R (mant x)) < 1.
Proof. intros (_ & _ & [[H _]|H]); auto. Qed.

Lemma normal_le1 x : normal x -> Rabs (B2R (mant x)) < 1.
Proof. intros H. apply normal_mant in H as [->|H]; [rewrite Rabs_R0|]; lra. Qed.

(** mantissas aligned at distance s in [-prec,0]: the sum is a multiple of 2^-2prec *)
Lemma align_mult (a b : T) s : (B2R a = 0 \/ / 2 <= Rabs (B2R a) < 1) ->
  (B2R b = 0 \/ / 2 <= Rabs (B2R b) < 1) -> (- prec <= s <= 0)%Z ->
  exists k : Z, B2R a + B2R b * bpow radix2 s = IZR k * bpow radix2 (- (2 * prec)).
Proof.
  intros Ha Hb Hs. destruct (mult_of a Ha) as [ka Ea], (mult_of b Hb) as [kb Eb].
  exists (ka * 2 ^ prec + kb * 2 ^ (prec + s))%Z. pose proof prec_pos.
  rewrite plus_IZR, !mult_IZR, Ea, Eb.
  assert (Z2: forall e, (0 <= e)%Z -> IZR (2 ^ e) = bpow radix2 e) by (intros; apply (IZR_Zpower radix2); auto).
  rewrite !Z2 by lia.
  replace (- (2 * prec))%Z with (- prec - prec)%Z by lia.
  rewrite !Rmult_plus_distr_r, !Rmult_assoc, <- !bpow_plus.
  f_equal; (f_equal; (f_equal; lia)).
Qed.

Lemma far_abs (y z : D) : normal y -> normal z -> (expn z + prec < expn y)%Z ->
  Rabs (val z) <= bpow radix2 (- prec) * Rabs (val y) /\ val y <> 0.
Proof.
  intros Ny Nz H. destruct Ny as (Fy & Iy & Ny), Nz as (Fz & Iz & Nz). pose proof prec_pos.
  destruct Ny as [[_ Ny]|Ny]. { rewrite Ny in H. lia. }
  assert (Az: Rabs (B2R (mant z)) < 1).
  { destruct Nz as [[-> _]|]; [rewrite Rabs_R0|]; lra. }
  unfold val. rewrite !Rabs_mult, !(Rabs_pos_eq (bpow radix2 _)) by apply bpow_ge_0. split.
  - apply Rle_trans with (bpow radix2 (expn y - prec - 1)).
    + apply Rle_trans with (1 * bpow radix2 (expn z)).
      * apply Rmult_le_compat_r; [apply bpow_ge_0|lra].
      * rewrite Rmult_1_l. apply bpow_le. lia.
    + replace (expn y - prec - 1)%Z with (- prec + (-1 + expn y))%Z by lia.
      rewrite !bpow_plus. apply Rmult_le_compat_l; [apply bpow_ge_0|].
      apply Rmult_le_compat_r; [apply bpow_ge_0|]. change (bpow radix2 (-1)) with (/ 2). lra.
  - apply Rmult_integral_contrapositive_currified.
    + intros E. rewrite E, Rabs_R0 in Ny. lra.
    + apply Rgt_not_eq, bpow_gt_0.
Qed.

Lemma add_spec (y z r : D) : normal y -> normal z -> add y z = Ok r ->
  normal r /\
  ((Z.abs (expn y - expn z) <= prec)%Z -> val r = rne (val y + val z)) /\
  ((prec < expn y - expn z)%Z -> r = y) /\
  ((prec < expn z - expn y)%Z -> r = z).
Proof.
  intros Ny Nz H. unfold add, bitsize in H. apply guard_Ok in H as [_ H]. pose proof prec_pos.
  destruct (Z.ltb_spec (expn z + prec) (expn y)) as [L|L].
  { apply (f_equal (fun t => match t with Ok a => a | _ => r end)) in H. cbn in H. subst r.
    split; [auto|]. split; [lia|]. split; [auto|lia]. }
  apply guard_Ok in H as [_ H].
  destruct (Z.ltb_spec (expn y + prec) (expn z)) as [L2|L2].
  { apply (f_equal (fun t => match t with Ok a => a | _ => r end)) in H. cbn in H. subst r.
    split; [auto|]. split; [lia|]. split; [lia|auto]. }
  pose proof (normal_mant _ Ny) as My. pose proof (normal_mant _ Nz) as Mz.
  pose proof (normal_le1 _ Ny) as Ay. pose proof (normal_le1 _ Nz) as Az.
  destruct (Z.leb_spec 0 (expn y - expn z)) as [L3|L3].
  - set (s := (- (expn y - expn z))%Z) in H.
    destruct (scale_spec (mant z) s (proj1 Nz) Mz) as [S1 S2]; [unfold s; lia|].
    destruct (align_mult (mant y) (mant z) s My Mz) as [k K]; [unfold s; lia|].
    assert (As: Rabs (B2R (scale (mant z) s)) <= 1).
    { rewrite S1, Rabs_mult, (Rabs_pos_eq (bpow radix2 s)) by apply bpow_ge_0.
      assert (bpow radix2 s <= 1) by (change 1 with (bpow radix2 0); apply bpow_le; unfold s; lia).
      pose proof (bpow_ge_0 radix2 s). pose proof (Rabs_pos (B2R (mant z))). nra. }
    destruct (plus_spec (mant y) (scale (mant z) s) k) as [P1 P2]; auto.
    { exact (proj1 Ny). } { lra. } { now rewrite S1. }
    apply normalize_spec in H; [|exact P2]. destruct H as [V N]. split; auto.
    split; [|split; lia]. intros _. rewrite V. unfold val at 1; cbn [mant expn].
    rewrite P1, S1, <- round_FLX_bpow by typeclasses eauto. f_equal. unfold val.
    rewrite Rmult_plus_distr_r, Rmult_assoc, <- bpow_plus.
    f_equal; f_equal; f_equal; unfold s; lia.
  - set (s := (expn y - expn z)%Z) in *.
    destruct (scale_spec (mant y) s (proj1 Ny) My) as [S1 S2]; [unfold s; lia|].
    destruct (align_mult (mant z) (mant y) s Mz My) as [k K]; [unfold s; lia|].
    assert (As: Rabs (B2R (scale (mant y) s)) <= 1).
    { rewrite S1, Rabs_mult, (Rabs_pos_eq (bpow radix2 s)) by apply bpow_ge_0.
      assert (bpow radix2 s <= 1) by (change 1 with (bpow radix2 0); apply bpow_le; unfold s; lia).
      pose proof (bpow_ge_0 radix2 s). pose proof (Rabs_pos (B2R (mant y))). nra. }
    destruct (plus_spec (mant z) (scale (mant y) s) k) as [P1 P2]; auto.
    { exact (proj1 Nz). } { lra. } { now rewrite S1. }
    apply normalize_spec in H; [|exact P2]. destruct H as [V N]. split; auto.
    split; [|split; lia]. intros _. rewrite V. unfold val at 1; cbn [mant expn].
    rewrite P1, S1, <- round_FLX_bpow by typeclasses eauto. f_equal. unfold val.
    rewrite Rmult_plus_distr_r, Rmult_assoc, <- bpow_plus.
    rewrite Rplus_comm. f_equal; f_equal; f_equal; unfold s; lia.
Qed.

Lemma minus_spec (x y : T) (k : Z) : is_finite x = true -> is_finite y = true ->
  Rabs (B2R x) <= 1 -> Rabs (B2R y) <= 1 ->
  B2R x - B2R y = IZR k * bpow radix2 (- (2 * prec)) ->
  B2R (Bminus mode_NE x y) = rne (B2R x - B2R y) /\ is_finite (Bminus mode_NE x y) = true.
Proof.
  intros F1 F2 A1 A2 K. pose proof (Bminus_correct _ _ _ _ mode_NE x y F1 F2) as C.
  assert (A: Rabs (B2R x - B2R y) <= bpow radix2 1).
  { unfold Rminus. pose proof (Rabs_triang (B2R x) (- B2R y)). rewrite Rabs_Ropp in H.
    change (bpow radix2 1) with 2. lra. }
  rewrite Rlt_bool_true in C by (apply round_lt_emax; auto).
  destruct C as (C1 & C2 & _). split; auto. rewrite C1. apply round_fexp.
  destruct (Z.eq_dec k 0) as [->|Hk]. { left. rewrite K; ring. }
  right. rewrite K, Rabs_mult, (Rabs_pos_eq (bpow radix2 _)) by apply bpow_ge_0.
  apply Rle_trans with (1 * bpow radix2 (- (2 * prec))).
  - rewrite Rmult_1_l. apply bpow_le. pose proof prec_pos. lia.
  - apply Rmult_le_compat_r; [apply bpow_ge_0|]. rewrite <- abs_IZR. apply (IZR_le 1). lia.
Qed.

Lemma align_minus (a b : T) s : (B2R a = 0 \/ / 2 <= Rabs (B2R a) < 1) ->
  (B2R b = 0 \/ / 2 <= Rabs (B2R b) < 1) -> (- prec <= s <= 0)%Z ->
  exists k : Z, B2R a - B2R b * bpow radix2 s = IZR k * bpow radix2 (- (2 * prec)).
Proof.
  intros Ha Hb Hs. destruct (mult_of a Ha) as [ka Ea], (mult_of b Hb) as [kb Eb].
  exists (ka * 2 ^ prec - kb * 2 ^ (prec + s))%Z. pose proof prec_pos.
  rewrite minus_IZR, !mult_IZR, Ea, Eb.
  assert (Z2: forall e, (0 <= e)%Z -> IZR (2 ^ e) = bpow radix2 e) by (intros; apply (IZR_Zpower radix2); auto).
  rewrite !Z2 by lia.
  replace (- (2 * prec))%Z with (- prec - prec)%Z by lia.
  rewrite !Rmult_minus_distr_r, !Rmult_assoc, <- !bpow_plus.
  f_equal; (f_equal; (f_equal; lia)).
Qed.

Lemma normal_neg x : normal x -> normal (ldpe_neg x).
Proof.
  intros (F & I & N). unfold normal, ldpe_neg; cbn [mant expn].
  rewrite is_finite_Bopp, B2R_Bopp, Rabs_Ropp. split; auto. split; auto.
  destruct N as [[N1 N2]|N]; auto. left; split; auto. rewrite N1; ring.
Qed.
Lemma val_neg x : val (ldpe_neg x) = - val x.
Proof. unfold val, ldpe_neg; cbn [mant expn]. rewrite B2R_Bopp. ring. Qed.

Lemma sub_spec (y z r : D) : normal y -> normal z -> sub y z = Ok r ->
  normal r /\
  ((Z.abs (expn y - expn z) <= prec)%Z -> val r = rne (val y - val z)) /\
  ((prec < expn y - expn z)%Z -> r = y) /\
  ((prec < expn z - expn y)%Z -> r = ldpe_neg z).
Proof.
  intros Ny Nz H. unfold sub, bitsize in H. apply guard_Ok in H as [_ H]. pose proof prec_pos.
  destruct (Z.ltb_spec (expn z + prec) (expn y)) as [L|L].
  { apply (f_equal (fun t => match t with Ok a => a | _ => r end)) in H. cbn in H. subst r.
    split; [auto|]. split; [lia|]. split; [auto|lia]. }
  apply guard_Ok in H as [_ H].
  destruct (Z.ltb_spec (expn y + prec) (expn z)) as [L2|L2].
  { apply (f_equal (fun t => match t with Ok a => a | _ => r end)) in H. cbn beta iota in H. subst r.
    split; [apply normal_neg; auto|]. split; [lia|]. split; [lia|auto]. }
  pose proof (normal_mant _ Ny) as My. pose proof (normal_mant _ Nz) as Mz.
  pose proof (normal_le1 _ Ny) as Ay. pose proof (normal_le1 _ Nz) as Az.
  destruct (Z.leb_spec 0 (expn y - expn z)) as [L3|L3].
  - set (s := (- (expn y - expn z))%Z) in H.
    destruct (scale_spec (mant z) s (proj1 Nz) Mz) as [S1 S2]; [unfold s; lia|].
    destruct (align_minus (mant y) (mant z) s My Mz) as [k K]; [unfold s; lia|].
    assert (As: Rabs (B2R (scale (mant z) s)) <= 1).
    { rewrite S1, Rabs_mult, (Rabs_pos_eq (bpow radix2 s)) by apply bpow_ge_0.
      assert (bpow radix2 s <= 1) by (change 1 with (bpow radix2 0); apply bpow_le; unfold s; lia).
      pose proof (bpow_ge_0 radix2 s). pose proof (Rabs_pos (B2R (mant z))). nra. }
    destruct (minus_spec (mant y) (scale (mant z) s) k) as [P1 P2]; auto.
    { exact (proj1 Ny). } { lra. } { now rewrite S1. }
    apply normalize_spec in H; [|exact P2]. destruct H as [V N]. split; auto.
    split; [|split; lia]. intros _. rewrite V. unfold val at 1; cbn [mant expn].
    rewrite P1, S1, <- round_FLX_bpow by typeclasses eauto. f_equal. unfold val.
    rewrite Rmult_minus_distr_r, Rmult_assoc, <- bpow_plus.
    f_equal; f_equal; f_equal; unfold s; lia.
  - set (s := (expn y - expn z)%Z) in *.
    destruct (scale_spec (mant y) s (proj1 Ny) My) as [S1 S2]; [unfold s; lia|].
    destruct (align_minus (mant z) (mant y) s Mz My) as [k K]; [unfold s; lia|].
    assert (As: Rabs (B2R (scale (mant y) s)) <= 1).
    { rewrite S1, Rabs_mult, (Rabs_pos_eq (bpow radix2 s)) by apply bpow_ge_0.
      assert (bpow radix2 s <= 1) by (change 1 with (bpow radix2 0); apply bpow_le; unfold s; lia).
      pose proof (bpow_ge_0 radix2 s). pose proof (Rabs_pos (B2R (mant y))). nra. }
    destruct (minus_spec (scale (mant y) s) (mant z) (- k)) as [P1 P2]; auto.
    { exact (proj1 Nz). } { lra. } { rewrite S1, opp_IZR, Ropp_mult_distr_l_reverse, <- K. ring. }
    apply normalize_spec in H; [|exact P2]. destruct H as [V N]. split; auto.
    split; [|split; lia]. intros _. rewrite V. unfold val at 1; cbn [mant expn].
    rewrite P1, S1, <- round_FLX_bpow by typeclasses eauto. f_equal. unfold val.
    rewrite Rmult_minus_distr_r, Rmult_assoc, <- bpow_plus.
    f_equal; f_equal; f_equal; unfold s; lia.
Qed.

Lemma low_bound v : / 4 <= v -> bpow radix2 (2 - emax) <= v.
Proof.
  intros H. apply Rle_trans with (bpow radix2 (-2)).
  - apply bpow_le. pose proof prec_pos. lia.
  - change (bpow radix2 (-2)) with (/ 4). exact H.
Qed.

Lemma mul_spec (y z r : D) : normal y -> normal z -> mul y z = Ok r ->
  normal r /\ val r = rne (val y * val z).
Proof.
  intros Ny Nz H. unfold mul in H. apply guard_Ok in H as [_ H].
  pose proof (normal_mant _ Ny) as My. pose proof (normal_mant _ Nz) as Mz.
  pose proof (normal_le1 _ Ny) as Ay. pose proof (normal_le1 _ Nz) as Az.
  pose proof (Bmult_correct _ _ _ _ mode_NE (mant y) (mant z)) as C.
  assert (A: Rabs (B2R (mant y) * B2R (mant z)) <= bpow radix2 1).
  { rewrite Rabs_mult. pose proof (Rabs_pos (B2R (mant y))). pose proof (Rabs_pos (B2R (mant z))).
    change (bpow radix2 1) with 2. nra. }
  rewrite Rlt_bool_true in C by (apply round_lt_emax; auto).
  destruct C as (C1 & C2 & _). rewrite (proj1 Ny), (proj1 Nz) in C2. cbn [andb] in C2.
  apply normalize_spec in H; [|exact C2]. destruct H as [V N]. split; auto.
  rewrite V. unfold val at 1; cbn [mant expn]. rewrite C1.
  cbn [round_mode]. rewrite round_fexp.
  - rewrite <- round_FLX_bpow by typeclasses eauto. f_equal. unfold val. rewrite bpow_plus. ring.
  - destruct My as [E|My]; [left; rewrite E; ring|]. destruct Mz as [E|Mz]; [left; rewrite E; ring|].
    right. apply low_bound. rewrite Rabs_mult. nra.
Qed.

Lemma div_spec (y z r : D) : normal y -> normal z -> val z <> 0 -> div y z = Ok r ->
  normal r /\ val r = rne (val y / val z).
Proof.
  intros Ny Nz Vz H. unfold div in H. apply guard_Ok in H as [_ H].
  assert (Mz0: B2R (mant z) <> 0). { intros E. apply Vz. unfold val. rewrite E; ring. }
  pose proof (normal_mant _ Ny) as My. pose proof (normal_mant _ Nz) as Mz.
  destruct Mz as [E|Mz]; [contradiction|].
  pose proof (normal_le1 _ Ny) as Ay.
  pose proof (Bdiv_correct _ _ _ _ mode_NE (mant y) (mant z) Mz0) as C.
  assert (Az: 0 < Rabs (B2R (mant z))) by lra.
  assert (I1: 1 < / Rabs (B2R (mant z))).
  { rewrite <- Rinv_1 at 1. apply Rinv_lt_contravar; lra. }
  assert (I2: / Rabs (B2R (mant z)) <= 2).
  { replace 2 with (/ / 2) by lra. apply Rinv_le; lra. }
  assert (Q: Rabs (B2R (mant y) / B2R (mant z)) = Rabs (B2R (mant y)) * / Rabs (B2R (mant z))).
  { unfold Rdiv. rewrite Rabs_mult, Rabs_inv. auto. }
  assert (A: Rabs (B2R (mant y) / B2R (mant z)) <= bpow radix2 1).
  { rewrite Q. pose proof (Rabs_pos (B2R (mant y))). change (bpow radix2 1) with 2. nra. }
  rewrite Rlt_bool_true in C by (apply round_lt_emax; auto).
  destruct C as (C1 & C2 & _). rewrite (proj1 Ny) in C2.
  apply normalize_spec in H; [|exact C2]. destruct H as [V N]. split; auto.
  rewrite V. unfold val at 1; cbn [mant expn]. rewrite C1.
  cbn [round_mode]. rewrite round_fexp.
  - rewrite <- round_FLX_bpow by typeclasses eauto. f_equal. unfold val, Zminus.
    rewrite bpow_plus, bpow_opp. field. split; auto. apply Rgt_not_eq, bpow_gt_0.
  - destruct My as [E|My]; [left; rewrite E; unfold Rdiv; ring|].
    right. apply low_bound. rewrite Q. nra.
Qed.

(** the largest mantissa *)
Lemma mant_max (x : T) : Rabs (B2R x) < 1 -> Rabs (B2R x) <= 1 - bpow radix2 (- prec).
Proof.
  intros H. pose proof prec_pos.
  assert (F1: generic_format radix2 fx 1).
  { change 1 with (bpow radix2 0). apply generic_format_bpow. unfold FLX_exp. lia. }
  assert (Fx: generic_format radix2 fx (Rabs (B2R x))) by (apply generic_format_abs, B2R_FLX).
  pose proof (pred_ge_gt radix2 fx _ _ Fx F1 H) as P.
  change 1 with (bpow radix2 0) in P. rewrite pred_bpow in P. unfold FLX_exp in P.
  cbn [Z.sub Z.add] in P. rewrite Z.sub_0_l in P || idtac. exact P.
Qed.

(** square root of a mantissa in [1/4,1) *)
Lemma sqrt_mant (m : T) : is_finite m = true -> / 4 <= B2R m < 1 ->
  B2R (Bsqrt mode_NE m) = rne (sqrt (B2R m)) /\ is_finite (Bsqrt mode_NE m) = true /\
  / 2 <= B2R (Bsqrt mode_NE m) < 1.
Proof.
  intros F H. pose proof prec_pos as Hpp.
  destruct (Bsqrt_correct _ _ _ _ mode_NE m) as (C1 & C2 & _).
  assert (S: / 2 <= sqrt (B2R m)).
  { rewrite <- (sqrt_Rsqr (/ 2)) by lra. apply sqrt_le_1_alt. unfold Rsqr. lra. }
  assert (E: B2R (Bsqrt mode_NE m) = rne (sqrt (B2R m))).
  { rewrite C1. cbn [round_mode]. apply round_fexp. right. apply low_bound.
    rewrite Rabs_pos_eq; lra. }
  split; auto. split.
  { rewrite C2. destruct m as [| | |[] mm ee pf]; cbn in F; auto; try discriminate.
    exfalso. cbn in H. pose proof (F2R_lt_0 radix2 (Float radix2 (Zneg mm) ee)) as N.
    cbn in N. specialize (N eq_refl). unfold F2R in *; cbn in *. lra. }
  rewrite E. split.
  - apply round_ge_generic; try typeclasses eauto; auto.
    change (/ 2) with (bpow radix2 (-1)). apply generic_format_bpow. unfold FLX_exp. lia.
  - apply Rle_lt_trans with (1 - bpow radix2 (- prec)).
    2:{ pose proof (bpow_gt_0 radix2 (- prec)). lra. }
    assert (F1: generic_format radix2 fx 1).
    { change 1 with (bpow radix2 0). apply generic_format_bpow. unfold FLX_exp. lia. }
    assert (P: pred radix2 fx 1 = 1 - bpow radix2 (- prec)).
    { change 1 with (bpow radix2 0) at 1. rewrite pred_bpow. unfold FLX_exp. cbn [bpow].
      f_equal; f_equal; lia. }
    rewrite <- P. apply round_N_le_midp; try typeclasses eauto.
    + apply generic_format_pred; typeclasses eauto || auto.
    + rewrite succ_pred by (typeclasses eauto || auto). rewrite P.
      assert (M: B2R m <= 1 - bpow radix2 (- prec)).
      { pose proof (mant_max m) as X. rewrite Rabs_pos_eq in X by lra. apply X. lra. }
      set (u := bpow radix2 (- prec)) in *.
      assert (U: 0 < u <= / 2).
      { split; [apply bpow_gt_0|]. change (/ 2) with (bpow radix2 (-1)). apply bpow_le. lia. }
      assert (Q: sqrt (B2R m) < sqrt ((1 - u / 2) * (1 - u / 2))).
      { apply sqrt_lt_1_alt. split; [lra|]. nra. }
      rewrite sqrt_square in Q by lra. lra.
Qed.

Lemma sqrt_spec (y r : D) : normal y -> 0 < val y -> sqrt_ y = Ok r ->
  normal r /\ val r = rne (sqrt (val y)).
Proof.
  intros Ny Vy H. pose proof (normal_mant _ Ny) as My.
  assert (Py: 0 < B2R (mant y)).
  { unfold val in Vy. pose proof (bpow_gt_0 radix2 (expn y)). nra. }
  destruct My as [E|My]; [lra|]. rewrite Rabs_pos_eq in My by lra.
  destruct Ny as (Fy & Iy & _). unfold INT_MIN, INT_MAX in Iy.
  assert (SQ: forall k, sqrt (bpow radix2 (2 * k)) = bpow radix2 k).
  { intros k. replace (2 * k)%Z with (k + k)%Z by lia. rewrite bpow_plus. apply sqrt_square, bpow_ge_0. }
  unfold sqrt_ in H. destruct (Z.eqb_spec (Z.rem (expn y) 2) 0) as [R0|R0]; cbn [negb] in H.
  - assert (Ev: expn y = (2 * Z.quot (expn y) 2)%Z).
    { pose proof (Z.quot_rem' (expn y) 2). lia. }
    apply (f_equal (fun t => match t with Ok a => a | _ => r end)) in H. cbn beta iota in H. subst r.
    destruct (sqrt_mant (mant y) Fy) as (Q1 & Q2 & Q3); [lra|].
    split.
    + split; auto. cbn [mant expn]. split; [unfold INT_MIN, INT_MAX; lia|]. right. rewrite Rabs_pos_eq; lra.
    + unfold val at 1; cbn [mant expn]. rewrite Q1, <- round_FLX_bpow by typeclasses eauto. f_equal.
      unfold val. rewrite sqrt_mult_alt by lra. f_equal. rewrite Ev at 2. symmetry; apply SQ.
  - apply guard_Ok in H as [_ H].
    assert (Ev: (expn y + 1)%Z = (2 * Z.quot (expn y + 1) 2)%Z).
    { pose proof (Z.quot_rem' (expn y + 1) 2). pose proof (Z.quot_rem' (expn y) 2).
      pose proof (Z.rem_bound_abs (expn y) 2). pose proof (Z.rem_bound_abs (expn y + 1) 2). lia. }
    apply (f_equal (fun t => match t with Ok a => a | _ => r end)) in H. cbn beta iota in H. subst r.
    assert (Hh: B2R (half prec emax) = / 2 /\ is_finite (half prec emax) = true).
    { unfold half. pose proof (Bldexp_correct _ _ _ _ mode_NE (@Bone prec emax _ _) (-1)) as C.
      rewrite Bone_correct, Rmult_1_l in C. cbn [round_mode] in C.
      rewrite round_generic in C.
      2: typeclasses eauto.
      2:{ apply generic_format_bpow. change (Z.max (-1 + 1 - prec) emin <= -1)%Z.
          rewrite emin_eq. pose proof prec_pos. lia. }
      rewrite Rlt_bool_true in C.
      - destruct C as (C1 & C2 & _). rewrite is_finite_Bone in C2. split; auto.
      - rewrite Rabs_pos_eq by apply bpow_ge_0. apply bpow_lt. pose proof prec_pos. lia. }
    destruct Hh as [H1 H2].
    pose proof (Bmult_correct _ _ _ _ mode_NE (half prec emax) (mant y)) as C.
    rewrite H1, H2, Fy in C. cbn [andb round_mode] in C.
    assert (G: round radix2 fexp ZnearestE (/ 2 * B2R (mant y)) = / 2 * B2R (mant y)).
    { rewrite round_fexp. 2:{ right. apply low_bound. rewrite Rabs_pos_eq; lra. }
      apply round_generic; [typeclasses eauto|].
      rewrite Rmult_comm. change (/ 2) with (bpow radix2 (-1)). apply FLX_bpow; auto. apply B2R_FLX. }
    rewrite G in C. rewrite Rlt_bool_true in C.
    2:{ rewrite Rabs_pos_eq by lra. apply Rlt_trans with 1; [lra|].
        change 1 with (bpow radix2 0). apply bpow_lt. pose proof prec_pos. lia. }
    destruct C as (C1 & C2 & _).
    destruct (sqrt_mant _ C2) as (Q1 & Q2 & Q3); [rewrite C1; lra|].
    split.
    + split; auto. cbn [mant expn]. split; [unfold INT_MIN, INT_MAX; lia|]. right. rewrite Rabs_pos_eq; lra.
    + unfold val at 1; cbn [mant expn]. rewrite Q1, <- round_FLX_bpow by typeclasses eauto. f_equal.
      rewrite C1. unfold val. rewrite <- SQ, <- Ev, <- sqrt_mult_alt by lra. f_equal.
      rewrite bpow_plus. change (bpow radix2 1) with 2. field.
Qed.

(** comparison *)
Lemma sign_spec (x : D) : is_finite (mant x) = true ->
  (0 < B2R (mant x) /\ sign x = 1%Z) \/ (B2R (mant x) = 0 /\ sign x = 0%Z) \/ (B2R (mant x) < 0 /\ sign x = (-1)%Z).
Proof.
  intros F. unfold sign, ltf.
  rewrite (Bltb_correct _ _ (mant x) zerof F eq_refl), (Bltb_correct _ _ zerof (mant x) eq_refl F).
  cbn [B2R zerof]. destruct (Rlt_bool_spec (B2R (mant x)) 0); [auto|].
  destruct (Rlt_bool_spec 0 (B2R (mant x))); [auto|]. right; left. split; auto. lra.
Qed.

Lemma val_gt_exp (x y : D) : normal x -> normal y -> 0 < B2R (mant x) -> 0 < B2R (mant y) ->
  (expn y < expn x)%Z -> val y < val x.
Proof.
  intros Nx Ny Px Py H. pose proof (normal_le1 _ Ny) as Ay. rewrite Rabs_pos_eq in Ay by lra.
  destruct (normal_mant _ Nx) as [E|Mx]; [lra|]. rewrite Rabs_pos_eq in Mx by lra.
  unfold val. apply Rlt_le_trans with (1 * bpow radix2 (expn y)).
  - apply Rmult_lt_compat_r; [apply bpow_gt_0|auto].
  - rewrite Rmult_1_l. apply Rle_trans with (bpow radix2 (-1 + expn x)).
    + apply bpow_le. lia.
    + rewrite bpow_plus. apply Rmult_le_compat_r; [apply bpow_ge_0|]. change (bpow radix2 (-1)) with (/ 2). lra.
Qed.

Lemma cmp_spec (x y : D) : normal x -> normal y ->
  (val x < val y /\ (cmp x y < 0)%Z) \/ (val x = val y /\ cmp x y = 0%Z) \/ (val y < val x /\ (0 < cmp x y)%Z).
Proof.
  intros Nx Ny. unfold cmp.
  pose proof (sign_spec x (proj1 Nx)) as Sx. pose proof (sign_spec y (proj1 Ny)) as Sy.
  pose proof (bpow_gt_0 radix2 (expn x)) as Bx. pose proof (bpow_gt_0 radix2 (expn y)) as By.
  assert (Vp: forall z : D, 0 < B2R (mant z) -> 0 < val z).
  { intros z Hz. unfold val. pose proof (bpow_gt_0 radix2 (expn z)). nra. }
  assert (Vn: forall z : D, B2R (mant z) < 0 -> val z < 0).
  { intros z Hz. unfold val. pose proof (bpow_gt_0 radix2 (expn z)). nra. }
  assert (V0: forall z : D, B2R (mant z) = 0 -> val z = 0).
  { intros z Hz. unfold val. rewrite Hz. ring. }
  assert (Zex: forall z : D, normal z -> B2R (mant z) = 0 -> expn z = INT_MIN).
  { intros z (_ & _ & [[_ Hz]|Hz]) E; auto. rewrite E, Rabs_R0 in Hz. lra. }
  destruct Sx as [[Hx ->]|[[Hx ->]|[Hx ->]]], Sy as [[Hy ->]|[[Hy ->]|[Hy ->]]]; cbn [Z.sub Z.add Z.opp Z.pos_sub Z.eqb negb].
  2:{ right; right. rewrite (V0 y) by auto. split; [auto|lia]. }
  2:{ right; right. pose proof (Vp x Hx). pose proof (Vn y Hy). split; [lra|lia]. }
  2:{ left. rewrite (V0 x) by auto. split; [auto|lia]. }
  3:{ right; right. rewrite (V0 x) by auto. split; [apply Vn; auto|lia]. }
  3:{ left. pose proof (Vn x Hx). pose proof (Vp y Hy). split; [lra|lia]. }
  3:{ left. rewrite (V0 y) by auto. split; [apply Vn; auto|lia]. }
  2:{ right; left. rewrite !V0 by auto. split; auto.
      rewrite (Zex x Nx Hx), (Zex y Ny Hy), Z.ltb_irrefl. unfold ltf.
      rewrite !Bltb_correct by (apply Nx || apply Ny). rewrite Hx, Hy.
      rewrite Rlt_bool_false by lra. auto. }
  - (* both positive *)
    destruct (Z.ltb_spec (expn y) (expn x)) as [L|L]; [right; right; split; [apply val_gt_exp; auto|cbn; lia]|].
    destruct (Z.ltb_spec (expn x) (expn y)) as [L2|L2]; [left; split; [apply val_gt_exp; auto|cbn; lia]|].
    assert (E: expn x = expn y) by lia. unfold ltf.
    rewrite !Bltb_correct by (apply Nx || apply Ny).
    destruct (Rlt_bool_spec (B2R (mant x)) (B2R (mant y))).
    + left. split; [|lia]. unfold val. rewrite E. apply Rmult_lt_compat_r; auto.
    + destruct (Rlt_bool_spec (B2R (mant y)) (B2R (mant x))).
      * right; right. split; [|lia]. unfold val. rewrite E. apply Rmult_lt_compat_r; auto.
      * right; left. split; [|lia]. unfold val. rewrite E. f_equal. lra.
  - (* both negative *)
    assert (NN: forall a b : D, normal a -> normal b -> B2R (mant a) < 0 -> B2R (mant b) < 0 ->
               (expn b < expn a)%Z -> val a < val b).
    { intros a b Na Nb Ha Hb L.
      assert (X: val (ldpe_neg b) < val (ldpe_neg a)).
      { apply val_gt_exp; auto using normal_neg; cbn [mant expn ldpe_neg]; rewrite B2R_Bopp; lra. }
      rewrite !val_neg in X. lra. }
    destruct (Z.ltb_spec (expn y) (expn x)) as [L|L]; [left; split; [apply NN; auto|cbn; lia]|].
    destruct (Z.ltb_spec (expn x) (expn y)) as [L2|L2]; [right; right; split; [apply NN; auto|cbn; lia]|].
    assert (E: expn x = expn y) by lia. unfold ltf.
    rewrite !Bltb_correct by (apply Nx || apply Ny).
    destruct (Rlt_bool_spec (B2R (mant x)) (B2R (mant y))).
    + left. split; [|lia]. unfold val. rewrite E. apply Rmult_lt_compat_r; auto.
    + destruct (Rlt_bool_spec (B2R (mant y)) (B2R (mant x))).
      * right; right. split; [|lia]. unfold val. rewrite E. apply Rmult_lt_compat_r; auto.
      * right; left. split; [|lia]. unfold val. rewrite E. f_equal. lra.
Qed.
End Facts.
