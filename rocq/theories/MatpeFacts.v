(** * Accuracy of the operations of matpe.h *)
From Coq Require Import ZArith Reals Lia Lra List Bool Arith Floats.SpecFloat.
From Flocq Require Import Core.Core IEEE754.BinarySingleNaN Relative Plus_error.
From Verif Require Import Base Spec Mat FP Hlll HlllInt HlllM Ldpe LdpeFacts Matpe SpecReal.
Import ListNotations.
Open Scope R_scope.

Section Prim.
Context (prec emax : Z) {Hp : Prec_gt_0 prec} {He : Prec_lt_emax prec emax}.
Notation T := (binary_float prec emax).
Notation fexp := (SpecFloat.fexp prec emax).
Notation emin := (SpecFloat.emin prec emax).
Notation rnd := (round radix2 fexp ZnearestE).

(** unit roundoff, and half the smallest positive mantissa *)
Definition uro : R := bpow radix2 (- prec).
Definition eta : R := bpow radix2 (emin - 1).

Lemma uro_half : / 2 * bpow radix2 (- prec + 1) = uro.
Proof. unfold uro. rewrite bpow_plus. change (bpow radix2 1) with 2. field. Qed.
Lemma eta_half : / 2 * bpow radix2 emin = eta.
Proof. unfold eta. replace (emin - 1)%Z with (emin + -1)%Z by lia. rewrite bpow_plus. change (bpow radix2 (-1)) with (/ 2). ring. Qed.
Lemma uro_pos : 0 < uro. Proof. apply bpow_gt_0. Qed.
Lemma eta_pos : 0 < eta. Proof. apply bpow_gt_0. Qed.
Lemma uro_le : uro <= / 2.
Proof.
  unfold uro. change (/ 2) with (bpow radix2 (-1)). apply bpow_le.
  pose proof (prec_pos prec). lia.
Qed.

Lemma rnd_err x : Rabs (rnd x - x) <= uro * Rabs x + eta.
Proof.
  destruct (error_N_FLT radix2 emin prec (prec_pos prec) (fun z => negb (Z.even z)) x) as (eps & et & H1 & H2 & _ & H3).
  change (Znearest (fun z => negb (Z.even z))) with ZnearestE in H3.
  change (FLT_exp emin prec) with fexp in H3.
  rewrite H3. rewrite uro_half in H1. rewrite eta_half in H2.
  replace (x * (1 + eps) + et - x) with (x * eps + et) by ring.
  eapply Rle_trans; [apply Rabs_triang|]. rewrite Rabs_mult.
  pose proof (Rabs_pos x). nra.
Qed.

Lemma overflow_inf (x : T) m s : B2SF x = binary_overflow prec emax m s -> is_finite x = true -> m = mode_NE -> False.
Proof. intros H F ->. destruct x; cbn in H, F; try discriminate. Qed.

(** an infinity or a NaN never disappears *)
Lemma plus_fin m (x y : T) : is_finite (Bplus m x y) = true -> is_finite x = true /\ is_finite y = true.
Proof. destruct x as [[]|[]| |[]], y as [[]|[]| |[]]; cbn; auto; try discriminate; destruct m; try discriminate. Qed.
Lemma minus_fin m (x y : T) : is_finite (Bminus m x y) = true -> is_finite x = true /\ is_finite y = true.
Proof. destruct x as [[]|[]| |[]], y as [[]|[]| |[]]; cbn; auto; try discriminate; destruct m; try discriminate. Qed.
Lemma mult_fin m (x y : T) : is_finite (Bmult m x y) = true -> is_finite x = true /\ is_finite y = true.
Proof. destruct x as [[]|[]| |[]], y as [[]|[]| |[]]; cbn; auto; try discriminate. Qed.

Lemma mult_err (x y : T) : is_finite (Bmult mode_NE x y) = true ->
  Rabs (B2R (Bmult mode_NE x y) - B2R x * B2R y) <= uro * Rabs (B2R x * B2R y) + eta.
Proof.
  intros F. pose proof (Bmult_correct prec emax _ _ mode_NE x y) as C.
  destruct Rlt_bool.
  - destruct C as [C _]. rewrite C. apply rnd_err.
  - exfalso. eapply overflow_inf; eauto.
Qed.

Lemma plus_err (x y : T) : is_finite (Bplus mode_NE x y) = true ->
  Rabs (B2R (Bplus mode_NE x y) - (B2R x + B2R y)) <= uro * Rabs (B2R x + B2R y).
Proof.
  intros F. destruct (plus_fin _ _ _ F) as [Fx Fy].
  pose proof (Bplus_correct prec emax _ _ mode_NE x y Fx Fy) as C.
  destruct Rlt_bool.
  - destruct C as [C _]. rewrite C.
    destruct (FLT_plus_error_N_ex radix2 emin prec (fun z => negb (Z.even z)) (B2R x) (B2R y)) as (eps & H1 & H2).
    1,2: change (FLT_exp emin prec) with fexp; apply generic_format_B2R.
    change (Znearest (fun z => negb (Z.even z))) with ZnearestE in H2.
    change (FLT_exp emin prec) with fexp in H2. cbn [round_mode]. rewrite H2.
    replace ((B2R x + B2R y) * (1 + eps) - (B2R x + B2R y)) with (eps * (B2R x + B2R y)) by ring.
    rewrite Rabs_mult. apply Rmult_le_compat_r; [apply Rabs_pos|].
    eapply Rle_trans; [exact H1|]. unfold u_ro. rewrite uro_half.
    pose proof uro_pos. apply Rmult_le_reg_r with (1 + uro); [lra|].
    unfold Rdiv. rewrite Rmult_assoc, Rinv_l by lra. nra.
  - exfalso. destruct C as [C _]. eapply overflow_inf; eauto.
Qed.

Lemma minus_err (x y : T) : is_finite (Bminus mode_NE x y) = true ->
  Rabs (B2R (Bminus mode_NE x y) - (B2R x - B2R y)) <= uro * Rabs (B2R x - B2R y).
Proof.
  intros F. destruct (minus_fin _ _ _ F) as [Fx Fy].
  pose proof (Bminus_correct prec emax _ _ mode_NE x y Fx Fy) as C.
  destruct Rlt_bool.
  - destruct C as [C _]. rewrite C.
    destruct (FLT_plus_error_N_ex radix2 emin prec (fun z => negb (Z.even z)) (B2R x) (- B2R y)) as (eps & H1 & H2).
    { change (FLT_exp emin prec) with fexp; apply generic_format_B2R. }
    { change (FLT_exp emin prec) with fexp; apply generic_format_opp, generic_format_B2R. }
    change (Znearest (fun z => negb (Z.even z))) with ZnearestE in H2.
    change (FLT_exp emin prec) with fexp in H2. cbn [round_mode].
    unfold Rminus at 2. rewrite H2.
    replace ((B2R x + - B2R y) * (1 + eps) - (B2R x - B2R y)) with (eps * (B2R x - B2R y)) by ring.
    rewrite Rabs_mult. apply Rmult_le_compat_r; [apply Rabs_pos|].
    eapply Rle_trans; [exact H1|]. unfold u_ro. rewrite uro_half.
    pose proof uro_pos. apply Rmult_le_reg_r with (1 + uro); [lra|].
    unfold Rdiv. rewrite Rmult_assoc, Rinv_l by lra. nra.
  - exfalso. destruct C as [C _]. eapply overflow_inf; eauto.
Qed.

(** scaling down by a power of two: exact unless the result is subnormal *)
Lemma scale_err x e : generic_format radix2 fexp x -> Rabs (rnd (x * bpow radix2 e) - x * bpow radix2 e) <= eta.
Proof.
  intros Gx. destruct (Rle_or_lt (bpow radix2 (emin + prec - 1)) (Rabs (x * bpow radix2 e))) as [H|H].
  - change fexp with (FLT_exp emin prec). rewrite round_FLT_FLX by exact H.
    rewrite round_generic; [|typeclasses eauto|].
    + rewrite Rminus_diag_eq, Rabs_R0 by reflexivity. apply Rlt_le, eta_pos.
    + apply FLX_bpow; [exact Hp|]. apply generic_format_FLX_FLT with emin. exact Gx.
  - eapply Rle_trans; [apply (error_le_half_ulp radix2 fexp)|].
    rewrite <- eta_half. apply Rmult_le_compat_l; [lra|]. apply Req_le.
    change fexp with (FLT_exp emin prec). apply ulp_FLT_small; [exact Hp|].
    eapply Rlt_le_trans; [exact H|]. apply bpow_le. lia.
Qed.

Lemma ldexp_fin (x : T) e : (e <= 0)%Z -> is_finite (Bldexp mode_NE x e) = is_finite x /\
  (is_finite x = true -> Rabs (B2R (Bldexp mode_NE x e) - B2R x * bpow radix2 e) <= eta).
Proof.
  intros E. pose proof (Bldexp_correct prec emax _ _ mode_NE x e) as C.
  rewrite Rlt_bool_true in C.
  - destruct C as (C1 & C2 & _). split; [exact C2|]. intros _. rewrite C1. apply scale_err. apply generic_format_B2R.
  - eapply Rle_lt_trans; [|apply (abs_B2R_lt_emax prec emax x)].
    apply abs_round_le_generic; try typeclasses eauto.
    + apply generic_format_abs, generic_format_B2R.
    + rewrite Rabs_mult, (Rabs_pos_eq (bpow _ e)) by apply bpow_ge_0.
      assert (bpow radix2 e <= 1) by (change 1 with (bpow radix2 0); apply bpow_le; lia).
      pose proof (Rabs_pos (B2R x)). nra.
Qed.
Lemma ldexp_fin_back (x : T) e : is_finite (Bldexp mode_NE x e) = true -> (e <= 0)%Z -> is_finite x = true.
Proof. intros F E. destruct (ldexp_fin x e E) as [F' _]. congruence. Qed.
Lemma ldexp_err (x : T) e : (e <= 0)%Z -> is_finite x = true ->
  Rabs (B2R (Bldexp mode_NE x e) - B2R x * bpow radix2 e) <= eta.
Proof. intros E F. now apply ldexp_fin. Qed.

Lemma inv_err (x : T) : is_finite (Bdiv mode_NE Bone x) = true -> is_finite x = true ->
  B2R x <> 0 /\ Rabs (B2R (Bdiv mode_NE Bone x) - / B2R x) <= uro * Rabs (/ B2R x) + eta.
Proof.
  intros F Fx. assert (N : B2R x <> 0).
  { intros N. destruct x as [s|s| |s m e b]; cbn in Fx; try discriminate.
    - pose proof (Bone_correct prec emax _ _) as C. revert F C. generalize (Bone : T). intros o F C.
      destruct o; cbn in F, C; try discriminate; lra.
    - cbn in N. apply eq_0_F2R in N. destruct s; discriminate. }
  split; [exact N|].
  pose proof (Bdiv_correct prec emax _ _ mode_NE Bone x N) as C.
  destruct Rlt_bool.
  - destruct C as [C _]. rewrite C, Bone_correct. unfold Rdiv. rewrite Rmult_1_l. apply rnd_err.
  - exfalso. eapply overflow_inf; eauto.
Qed.
End Prim.

Section Comp.
Context (prec emax : Z) {Hp : Prec_gt_0 prec} {He : Prec_lt_emax prec emax}.
Notation T := (binary_float prec emax).
Notation u := (uro prec).
Notation eta := (eta prec emax).

Lemma near_abs a b e : Rabs (a - b) <= e -> Rabs a <= Rabs b + e.
Proof. intros H. replace a with (b + (a - b)) by ring. eapply Rle_trans; [apply Rabs_triang|]. lra. Qed.

Lemma minus_near (x y : T) X Y ex ey : is_finite (Bminus mode_NE x y) = true ->
  Rabs (B2R x - X) <= ex -> Rabs (B2R y - Y) <= ey ->
  Rabs (B2R (Bminus mode_NE x y) - (X - Y)) <= u * Rabs (X - Y) + (1 + u) * (ex + ey).
Proof.
  intros F Hx Hy. pose proof (minus_err prec emax x y F) as E. pose proof (uro_pos prec).
  assert (D : Rabs ((B2R x - B2R y) - (X - Y)) <= ex + ey).
  { replace ((B2R x - B2R y) - (X - Y)) with ((B2R x - X) + - (B2R y - Y)) by ring.
    eapply Rle_trans; [apply Rabs_triang|]. rewrite Rabs_Ropp. lra. }
  pose proof (near_abs _ _ _ D).
  replace (B2R (Bminus mode_NE x y) - (X - Y)) with
    ((B2R (Bminus mode_NE x y) - (B2R x - B2R y)) + ((B2R x - B2R y) - (X - Y))) by ring.
  eapply Rle_trans; [apply Rabs_triang|]. nra.
Qed.
Lemma plus_near (x y : T) X Y ex ey : is_finite (Bplus mode_NE x y) = true ->
  Rabs (B2R x - X) <= ex -> Rabs (B2R y - Y) <= ey ->
  Rabs (B2R (Bplus mode_NE x y) - (X + Y)) <= u * Rabs (X + Y) + (1 + u) * (ex + ey).
Proof.
  intros F Hx Hy. pose proof (plus_err prec emax x y F) as E. pose proof (uro_pos prec).
  assert (D : Rabs ((B2R x + B2R y) - (X + Y)) <= ex + ey).
  { replace ((B2R x + B2R y) - (X + Y)) with ((B2R x - X) + (B2R y - Y)) by ring.
    eapply Rle_trans; [apply Rabs_triang|]. lra. }
  pose proof (near_abs _ _ _ D).
  replace (B2R (Bplus mode_NE x y) - (X + Y)) with
    ((B2R (Bplus mode_NE x y) - (B2R x + B2R y)) + ((B2R x + B2R y) - (X + Y))) by ring.
  eapply Rle_trans; [apply Rabs_triang|]. nra.
Qed.
Lemma mult_near (x y : T) X ex : is_finite (Bmult mode_NE x y) = true ->
  Rabs (B2R x - X) <= ex ->
  Rabs (B2R (Bmult mode_NE x y) - X * B2R y) <= u * Rabs (X * B2R y) + (1 + u) * (ex * Rabs (B2R y)) + eta.
Proof.
  intros F Hx. pose proof (mult_err prec emax x y F) as E. pose proof (uro_pos prec).
  assert (D : Rabs (B2R x * B2R y - X * B2R y) <= ex * Rabs (B2R y)).
  { replace (B2R x * B2R y - X * B2R y) with ((B2R x - X) * B2R y) by ring.
    rewrite Rabs_mult. apply Rmult_le_compat_r; [apply Rabs_pos|assumption]. }
  pose proof (near_abs _ _ _ D).
  replace (B2R (Bmult mode_NE x y) - X * B2R y) with
    ((B2R (Bmult mode_NE x y) - B2R x * B2R y) + (B2R x * B2R y - X * B2R y)) by ring.
  eapply Rle_trans; [apply Rabs_triang|]. nra.
Qed.
Lemma Rabs_diag x e : 0 <= e -> Rabs (x - x) <= e.
Proof. intros. rewrite Rminus_diag_eq, Rabs_R0; auto. Qed.

(** w - ldexp(a,-d) * z and ldexp-scaled w - a*z *)
Lemma fms1 (w z m : T) M : is_finite (Bminus mode_NE w (Bmult mode_NE m z)) = true ->
  Rabs (B2R m - M) <= eta ->
  Rabs (B2R (Bminus mode_NE w (Bmult mode_NE m z)) - (B2R w - M * B2R z))
  <= 3 * u * (Rabs (B2R w) + Rabs (M * B2R z)) + 3 * eta * (1 + Rabs (B2R w) + Rabs (B2R z)).
Proof.
  intros F Hm. destruct (minus_fin _ _ _ _ _ F) as [_ Fm].
  pose proof (mult_near m z M eta Fm Hm) as P.
  eapply Rle_trans; [eapply minus_near; [exact F|apply (Rabs_diag _ 0); lra|exact P]|].
  pose proof (uro_pos prec). pose proof (uro_le prec). pose proof (eta_pos prec emax).
  pose proof (Rabs_triang (B2R w) (- (M * B2R z))) as Tr. rewrite Rabs_Ropp in Tr. fold (B2R w - M * B2R z) in Tr.
  pose proof (Rabs_pos (B2R w)). pose proof (Rabs_pos (M * B2R z)). pose proof (Rabs_pos (B2R z)).
  set (a := Rabs (B2R w)) in *. set (b := Rabs (M * B2R z)) in *. set (c := Rabs (B2R z)) in *.
  assert (u * Rabs (B2R w - M * B2R z) <= u * (a + b)) by (apply Rmult_le_compat_l; lra).
  assert (0 <= u * b) by nra. assert (0 <= u * a) by nra.
  assert ((1 + u) * (u * b) <= 2 * (u * b)) by (apply Rmult_le_compat_r; lra).
  assert ((1 + u) * (0 + ((1 + u) * (eta * c) + eta)) <= 3 * eta * (1 + c)).
  { assert ((1 + u) * (1 + u) <= 3) by nra. assert (0 <= eta * c) by nra. 
    replace ((1 + u) * (0 + ((1 + u) * (eta * c) + eta))) with (((1 + u) * (1 + u)) * (eta * c) + (1 + u) * eta) by ring.
    assert ((1 + u) * (1 + u) * (eta * c) <= 3 * (eta * c)) by (apply Rmult_le_compat_r; lra).
    assert ((1 + u) * eta <= 3 * eta) by (apply Rmult_le_compat_r; lra).
    lra. }
  assert (0 <= eta * a) by nra.
  replace ((1 + u) * (0 + (u * b + (1 + u) * (eta * c) + eta))) with
    ((1 + u) * (u * b) + (1 + u) * (0 + ((1 + u) * (eta * c) + eta))) by ring.
  lra.
Qed.
Lemma fms2 (w z a : T) W ew : is_finite (Bminus mode_NE w (Bmult mode_NE a z)) = true ->
  Rabs (B2R w - W) <= ew -> 0 <= ew ->
  Rabs (B2R (Bminus mode_NE w (Bmult mode_NE a z)) - (W - B2R a * B2R z))
  <= u * Rabs W + 3 * u * Rabs (B2R a * B2R z) + (1 + u) * (eta + ew).
Proof.
  intros F Hw Hew. destruct (minus_fin _ _ _ _ _ F) as [_ Fm].
  pose proof (mult_near a z (B2R a) 0 Fm ltac:(apply Rabs_diag; lra)) as P.
  eapply Rle_trans; [eapply minus_near; [exact F|exact Hw|exact P]|].
  pose proof (uro_pos prec). pose proof (uro_le prec). pose proof (eta_pos prec emax).
  pose proof (Rabs_triang W (- (B2R a * B2R z))) as Tr. rewrite Rabs_Ropp in Tr. fold (W - B2R a * B2R z) in Tr.
  pose proof (Rabs_pos W). pose proof (Rabs_pos (B2R a * B2R z)).
  set (b := Rabs (B2R a * B2R z)) in *. set (c := Rabs W) in *.
  assert (u * Rabs (W - B2R a * B2R z) <= u * (c + b)) by (apply Rmult_le_compat_l; lra).
  assert (0 <= u * b) by nra.
  assert ((1 + u) * (u * b) <= 2 * (u * b)) by (apply Rmult_le_compat_r; lra).
  replace ((1 + u) * (ew + (u * b + (1 + u) * (0 * Rabs (B2R z)) + eta)))
    with ((1 + u) * (u * b) + (1 + u) * (eta + ew)) by ring.
  lra.
Qed.

(** a sum of products, from left to right *)
Definition macc (v w : nat -> T) (l : list nat) (s : T) : T :=
  fold_left (fun s i => Bplus mode_NE s (Bmult mode_NE (v i) (w i))) l s.
Lemma macc_fin v w l : forall s, is_finite (macc v w l s) = true ->
  is_finite s = true /\ forall i, In i l -> is_finite (v i) = true /\ is_finite (w i) = true.
Proof.
  induction l as [|i l IH]; intros s H; cbn [macc fold_left] in H.
  - split; [exact H|intros i []].
  - apply IH in H as [H1 H2]. apply plus_fin in H1 as [H1 H3]. apply mult_fin in H3.
    split; [exact H1|]. intros k [<-|Hk]; auto.
Qed.
Definition asum (f : nat -> R) (l : list nat) : R := fold_right Rplus 0 (map f l).
Lemma asum_nonneg f l : (forall i, 0 <= f i) -> 0 <= asum f l.
Proof. intros H. induction l as [|i l IH]; cbn; [lra|]. fold (asum f l). pose proof (H i). lra. Qed.
Lemma asum_abs f l : Rabs (asum f l) <= asum (fun i => Rabs (f i)) l.
Proof.
  induction l as [|i l IH]; cbn; [rewrite Rabs_R0; lra|].
  fold (asum f l). fold (asum (fun i => Rabs (f i)) l).
  eapply Rle_trans; [apply Rabs_triang|]. lra.
Qed.
Lemma pow1u (k : nat) : 1 <= (1 + u) ^ k.
Proof. pose proof (uro_pos prec). apply pow_R1_Rle. lra. Qed.

Lemma macc_err v w l : forall s S0 A0 k (c : R),
  is_finite (macc v w l s) = true ->
  0 <= A0 -> Rabs S0 <= A0 -> (1 <= k)%nat -> 0 <= c ->
  Rabs (B2R s - S0) <= ((1 + u) ^ k - 1) * A0 + c * (1 + u) ^ k * eta ->
  Rabs (B2R (macc v w l s) - (S0 + asum (fun i => B2R (v i) * B2R (w i)) l))
  <= ((1 + u) ^ (k + length l) - 1) * (A0 + asum (fun i => Rabs (B2R (v i) * B2R (w i))) l)
     + (c + INR (length l)) * (1 + u) ^ (k + length l) * eta.
Proof.
  induction l as [|i l IH]; intros s S0 A0 k c F HA HS Hk Hc H.
  - cbn [macc fold_left asum map fold_right length INR]. rewrite !Rplus_0_r, Nat.add_0_r. exact H.
  - cbn [macc fold_left] in *. fold (macc v w l) in *.
    set (s' := Bplus mode_NE s (Bmult mode_NE (v i) (w i))) in *.
    set (p := B2R (v i) * B2R (w i)).
    pose proof (macc_fin _ _ _ _ F) as [Fs _].
    pose proof (plus_fin _ _ _ _ _ Fs) as [_ Fp].
    pose proof (mult_err _ _ _ _ Fp) as Ep. fold p in Ep.
    specialize (IH s' (S0 + p) (A0 + Rabs p) (k + 1)%nat (c + 1)).
    pose proof (uro_pos prec) as Hu. pose proof (eta_pos prec emax) as He'. pose proof (Rabs_pos p) as Hpp.
    assert (I1 : 0 <= A0 + Rabs p) by lra.
    assert (I2 : Rabs (S0 + p) <= A0 + Rabs p) by (eapply Rle_trans; [apply Rabs_triang|lra]).
    assert (I3 : Rabs (B2R s' - (S0 + p)) <= ((1 + u) ^ (k + 1) - 1) * (A0 + Rabs p) + (c + 1) * (1 + u) ^ (k + 1) * eta).
    { eapply Rle_trans; [eapply plus_near; [exact Fs|exact H|exact Ep]|].
      pose proof (pow1u k) as Q. rewrite pow_add, pow_1. set (q := (1 + u) ^ k) in *.
      assert (u * Rabs (S0 + p) <= u * (A0 + Rabs p)) by (apply Rmult_le_compat_l; lra).
      assert (Q2 : 1 + u <= q).
      { unfold q. replace k with (1 + (k - 1))%nat by lia. rewrite pow_add, pow_1. pose proof (pow1u (k - 1)). nra. }
      assert ((2 * u + u * u) * Rabs p <= (q * (1 + u) - 1) * Rabs p).
      { apply Rmult_le_compat_r; [lra|]. nra. }
      assert (1 + u <= q * (1 + u)) by nra.
      assert (Z1 : (1 + u) * eta <= q * (1 + u) * eta) by (apply Rmult_le_compat_r; lra).
      replace ((1 + u) * ((q - 1) * A0 + c * q * eta + (u * Rabs p + eta)))
        with ((q * (1 + u) - 1) * A0 - u * A0 + c * (q * (1 + u)) * eta + (u + u * u) * Rabs p + (1 + u) * eta) by ring.
      replace ((c + 1) * (q * (1 + u)) * eta) with (c * (q * (1 + u)) * eta + q * (1 + u) * eta) by ring.
      lra. }
    specialize (IH F I1 I2 ltac:(lia) ltac:(lra) I3).
    cbn [asum map fold_right length]. fold (asum (fun i => B2R (v i) * B2R (w i)) l).
    fold (asum (fun i => Rabs (B2R (v i) * B2R (w i))) l). fold p.
    rewrite S_INR. replace (k + S (length l))%nat with (k + 1 + length l)%nat by lia.
    replace (S0 + (p + asum (fun i0 : nat => B2R (v i0) * B2R (w i0)) l)) with (S0 + p + asum (fun i0 : nat => B2R (v i0) * B2R (w i0)) l) by ring.
    replace (c + (INR (length l) + 1)) with (c + 1 + INR (length l)) by ring.
    rewrite <- (Rplus_assoc A0). exact IH.
Qed.
End Comp.

Section Ops.
Context (prec emax : Z) {Hp : Prec_gt_0 prec} {He : Prec_lt_emax prec emax}.
Hypothesis Hbig : (2 * prec + 2 <= emax)%Z.
Context (ofz : Z -> binary_float prec emax * Z) (n d : nat).
Notation T := (binary_float prec emax).
Notation D := (ldpe prec emax).
Notation tp := (fl_tops prec emax ofz).
Notation u := (uro prec).
Notation eta := (eta prec emax).
Notation val := (val prec emax).
Notation normal := (normal prec emax).
Notation rowm A j i := (row tp A j i).
Notation two e := (bpow radix2 e).

Definition wfp (A : pe T) : Prop := wfm n d (pm A) /\ length (px A) = d.
(** the value of an entry *)
Definition pv (A : pe T) (i j : nat) : R := B2R (rowm A j i) * two (ex A j).
Definition finp (A : pe T) (j i : nat) : Prop := is_finite (rowm A j i) = true.
(** the other columns are not changed *)
Definition same_else (A A' : pe T) (j : nat) : Prop :=
  forall j', j' <> j -> ex A' j' = ex A j' /\ forall i, rowm A' j' i = rowm A j' i.

Lemma wcol_wfp A j f e : wfp A -> wfp (wcol n A j f e).
Proof using ofz Hp He.
  intros [H1 H2]. split; cbn [wcol pm px].
  - apply wfm_lupd; [assumption|]. now rewrite map_length, seq_length.
  - now rewrite lupd_length.
Qed.
Lemma wcol_row A j f e i : wfp A -> (j < d)%nat -> (i < n)%nat -> rowm (wcol n A j f e) j i = f i.
Proof using ofz Hp He.
  intros [[H1 _] H2] Hj Hi. unfold row, mget. cbn [wcol pm].
  rewrite col_lupd_eq by lia.
  rewrite nth_indep with (d' := f 0%nat) by (rewrite map_length, seq_length; lia).
  rewrite map_nth, seq_nth by lia. reflexivity.
Qed.
Lemma wcol_ex A j f e : wfp A -> (j < d)%nat -> ex (wcol n A j f e) j = e.
Proof using ofz Hp He. intros [_ H2] Hj. unfold ex. cbn [wcol px]. apply nth_lupd_eq. lia. Qed.
Lemma wcol_else A j f e : same_else A (wcol n A j f e) j.
Proof using ofz Hp He.
  intros j' Hj. split.
  - unfold ex. cbn [wcol px]. rewrite nth_lupd. destruct (Nat.eqb_spec j' j); [contradiction|reflexivity].
  - intros i. unfold row, mget. cbn [wcol pm]. rewrite col_lupd. destruct (Nat.eqb_spec j' j); [contradiction|reflexivity].
Qed.

Lemma scaled_bound x y b e : Rabs (x - y) <= b -> Rabs (x * two e - y * two e) <= b * two e.
Proof using ofz Hp He.
  intros H. replace (x * two e - y * two e) with ((x - y) * two e) by ring.
  rewrite Rabs_mult, (Rabs_pos_eq (two e)) by apply bpow_ge_0.
  apply Rmult_le_compat_r; [apply bpow_ge_0|exact H].
Qed.
Lemma two_split a e : two a = two (a - e) * two e.
Proof using ofz Hp He. rewrite <- bpow_plus. f_equal. lia. Qed.
Lemma abs_two x e : Rabs x * two e = Rabs (x * two e).
Proof using ofz Hp He. rewrite Rabs_mult, (Rabs_pos_eq (two e)) by apply bpow_ge_0. reflexivity. Qed.

(** get, get_non_normalized *)
Lemma get_spec A i j x : pe_get tp n d A i j = Ok x -> finp A j i -> val x = pv A i j /\ normal x.
Proof.
  intros H F. unfold pe_get in H. apply guard_Ok in H as [_ H]. cbn [t_mk fl_tops] in H.
  apply normalize_spec in H; auto.
Qed.
Lemma getnn_spec A i j x : pe_getnn tp n d A i j = Ok x -> val x = pv A i j.
Proof using ofz Hp He.
  intros H. unfold pe_getnn in H. apply guard_Ok in H as [_ H].
  apply (f_equal (fun t => match t with Ok a => a | _ => x end)) in H. cbn in H. subst x. reflexivity.
Qed.

Lemma int_strict_Ok z r : int_strict z = Ok r -> r = z /\ is_int z = true.
Proof using ofz Hp He. unfold int_strict. intros H. apply guard_Ok in H as [G H]. injection H as <-. auto. Qed.

(** set(i,j,x) *)
Lemma set_spec A i j x A' : pe_set tp n d i j x A = Ok A' -> wfp A ->
  is_finite (mant x) = true -> (forall k, (k < n)%nat -> finp A j k) ->
  wfp A' /\ same_else A A' j /\
  ex A' j = (if Req_EM_T (B2R (mant x)) 0 then ex A j else Z.max (expn x) (ex A j)) /\
  forall k, (k < n)%nat -> finp A' j k /\
    Rabs (pv A' k j - (if (k =? i)%nat then val x else pv A k j)) <= eta * two (ex A' j).
Proof using ofz Hp He.
  intros H W Fx FA. unfold pe_set in H. apply guard_Ok in H as [G H].
  apply andb_prop in G as [Gi Gj]. apply Nat.ltb_lt in Gi, Gj.
  pose proof (eta_pos prec emax) as Pe.
  assert (E0 : forall e, 0 <= eta * two e) by (intros e; pose proof (bpow_gt_0 radix2 e); nra).
  cbn [t_mant t_is0 t_int t_exp t_ldexp t_0 fl_tops] in H.
  destruct (is0 (mant x)) eqn:Z0.
  - apply is0_spec in Z0; auto.
    apply (f_equal (fun t => match t with Ok a => a | _ => A' end)) in H. cbn beta iota in H. subst A'.
    split; [now apply wcol_wfp|]. split; [apply wcol_else|].
    rewrite wcol_ex by auto. destruct Req_EM_T; [|contradiction]. split; [reflexivity|].
    intros k Hk. unfold finp, pv. rewrite wcol_row, wcol_ex by auto.
    destruct (Nat.eqb_spec k i).
    + split; [reflexivity|]. unfold LdpeFacts.val. rewrite Z0. cbn [B2R zerof]. rewrite !Rmult_0_l.
      apply Rabs_diag, E0.
    + split; [now apply FA|]. unfold pv. apply Rabs_diag, E0.
  - assert (Nz : B2R (mant x) <> 0).
    { intros N. apply is0_spec in N; auto. congruence. }
    binv H. apply int_strict_Ok in Ha as [-> _].
    destruct (Z.leb_spec 0 (expn x - ex A j)) as [L|L];
      apply (f_equal (fun t => match t with Ok a => a | _ => A' end)) in H; cbn beta iota in H; subst A'.
    + split; [now apply wcol_wfp|]. split; [apply wcol_else|].
      rewrite wcol_ex by auto. destruct Req_EM_T; [contradiction|]. split; [lia|].
      intros k Hk. unfold finp, pv. rewrite wcol_row, wcol_ex by auto.
      destruct (Nat.eqb_spec k i).
      * split; [exact Fx|]. apply Rabs_diag, E0.
      * destruct (ldexp_fin prec emax (rowm A j k) (- (expn x - ex A j)) ltac:(lia)) as [F1 F2].
        split; [rewrite F1; now apply FA|].
        rewrite (two_split (ex A j) (expn x)), <- Rmult_assoc.
        replace (ex A j - expn x)%Z with (- (expn x - ex A j))%Z by lia.
        apply scaled_bound, F2. now apply FA.
    + split; [now apply wcol_wfp|]. split; [apply wcol_else|].
      rewrite wcol_ex by auto. destruct Req_EM_T; [contradiction|]. split; [lia|].
      intros k Hk. unfold finp, pv. rewrite wcol_row, wcol_ex by auto.
      destruct (Nat.eqb_spec k i).
      * destruct (ldexp_fin prec emax (mant x) (expn x - ex A j) ltac:(lia)) as [F1 F2].
        split; [rewrite F1; exact Fx|].
        unfold LdpeFacts.val. rewrite (two_split (expn x) (ex A j)), <- Rmult_assoc.
        apply scaled_bound, F2, Fx.
      * split; [now apply FA|]. apply Rabs_diag, E0.
Qed.

(** set(i,j,0) *)
Lemma set0_spec A i j A' : pe_set0 tp n d i j A = Ok A' -> wfp A ->
  wfp A' /\ same_else A A' j /\ ex A' j = ex A j /\
  forall k, (k < n)%nat -> (rowm A' j k = if (k =? i)%nat then zerof else rowm A j k) /\ pv A' k j = if (k =? i)%nat then 0 else pv A k j.
Proof using ofz Hp He.
  intros H W. unfold pe_set0 in H. apply guard_Ok in H as [G H].
  apply andb_prop in G as [Gi Gj]. apply Nat.ltb_lt in Gi, Gj.
  apply (f_equal (fun t => match t with Ok a => a | _ => A' end)) in H. cbn beta iota in H. subst A'.
  split; [now apply wcol_wfp|]. split; [apply wcol_else|].
  rewrite wcol_ex by auto. split; [reflexivity|].
  intros k Hk. unfold pv. rewrite wcol_row, wcol_ex by auto.
  destruct (Nat.eqb_spec k i); split; auto. cbn [B2R zerof t_0 fl_tops]. ring.
Qed.

(** copy of a column *)
Lemma copycol_spec A j W jw l A' : pe_copycol tp n d j W jw l A = Ok A' -> wfp A -> l <> 0%nat ->
  wfp A' /\ same_else A A' j /\ ex A' j = ex W jw /\
  (forall i, (i < l)%nat -> (l <= n)%nat /\ rowm A' j i = rowm W jw i /\ pv A' i j = pv W i jw) /\
  (forall i, (l <= i < n)%nat -> rowm A' j i = rowm A j i).
Proof using ofz Hp He.
  intros H WA Hl. unfold pe_copycol in H. destruct (Nat.eqb_spec l 0); [contradiction|].
  apply guard_Ok in H as [G H]. apply andb_prop in G as [G G3]. apply andb_prop in G as [G1 G2].
  apply Nat.ltb_lt in G1. apply Nat.leb_le in G3.
  apply (f_equal (fun t => match t with Ok a => a | _ => A' end)) in H. cbn beta iota in H. subst A'.
  split; [now apply wcol_wfp|]. split; [apply wcol_else|].
  rewrite wcol_ex by auto. split; [reflexivity|]. split.
  - intros i Hi. split; [exact G3|]. unfold pv. rewrite wcol_row, wcol_ex by (auto; lia).
    destruct (Nat.ltb_spec i l); [auto|lia].
  - intros i Hi. rewrite wcol_row by (auto; lia). destruct (Nat.ltb_spec i l); [lia|reflexivity].
Qed.

(** exchange of two columns *)
Lemma colswap_spec A j k A' : pe_colswap d j k A = Ok A' -> wfp A ->
  wfp A' /\ forall c, (c < d)%nat -> let c' := if (c =? j)%nat then k else if (c =? k)%nat then j else c in
    ex A' c = ex A c' /\ forall i, rowm A' c i = rowm A c' i.
Proof using ofz Hp He.
  intros H W. unfold pe_colswap in H. apply guard_Ok in H as [G H].
  apply andb_prop in G as [Gi Gj]. apply Nat.ltb_lt in Gi, Gj.
  apply (f_equal (fun t => match t with Ok a => a | _ => A' end)) in H. cbn beta iota in H. subst A'.
  destruct W as [W1 W2]. split.
  - split; cbn [pm px]; [|now rewrite !lupd_length].
    now apply wfm_colswap.
  - intros c Hc c'. split.
    + unfold ex. cbn [px]. rewrite !nth_lupd, lupd_length, W2.
      unfold c'. destruct (Nat.eqb_spec c j); cbn [andb].
      * destruct (Nat.ltb_spec j d); [reflexivity|lia].
      * destruct (Nat.eqb_spec c k); cbn [andb]; [|reflexivity]. destruct (Nat.ltb_spec k d); [reflexivity|lia].
    + intros i. unfold row. cbn [pm]. rewrite (mget_colswap _ n d) by auto. reflexivity.
Qed.

(** addition and subtraction of columns *)
Lemma addsub_spec (f : T -> T -> T) (g : R -> R -> R) A j k l A' :
  (forall x y X Y ex ey, is_finite (f x y) = true ->
     Rabs (B2R x - X) <= ex -> Rabs (B2R y - Y) <= ey ->
     Rabs (B2R (f x y) - g X Y) <= u * Rabs (g X Y) + (1 + u) * (ex + ey)) ->
  (forall x y, is_finite (f x y) = true -> is_finite x = true /\ is_finite y = true) ->
  (forall x y e, g (x * e) (y * e) = g x y * e) ->
  pe_addsub tp n d f j k l A = Ok A' -> wfp A -> l <> 0%nat ->
  wfp A' /\ same_else A A' j /\ ex A' j = Z.max (ex A j) (ex A k) /\ (l <= n)%nat /\
  (forall i, (i < l)%nat -> finp A' j i ->
     Rabs (pv A' i j - g (pv A i j) (pv A i k)) <= u * Rabs (g (pv A i j) (pv A i k)) + 2 * eta * two (ex A' j)) /\
  (forall i, (l <= i < n)%nat -> rowm A' j i = rowm A j i).
Proof using ofz Hp He.
  intros Hf Hff Hg H W Hl. unfold pe_addsub in H. destruct (Nat.eqb_spec l 0); [contradiction|].
  apply guard_Ok in H as [G H]. apply andb_prop in G as [G G3]. apply andb_prop in G as [G1 G2].
  apply Nat.ltb_lt in G1, G2. apply Nat.leb_le in G3.
  pose proof (eta_pos prec emax) as Pe. pose proof (uro_pos prec) as Pu. pose proof (uro_le prec) as Pl.
  binv H. cbn [t_int fl_tops] in Ha. apply int_strict_Ok in Ha as [-> _].
  cbn [t_ldexp fl_tops] in H.
  assert (B2 : (1 + u) * eta <= 2 * eta) by nra.
  destruct (Z.leb_spec 0 (ex A j - ex A k)) as [L|L];
    apply (f_equal (fun t => match t with Ok a => a | _ => A' end)) in H; cbn beta iota in H; subst A';
    (split; [now apply wcol_wfp|]); (split; [apply wcol_else|]); rewrite wcol_ex by auto; (split; [lia|]); (split; [exact G3|]); split.
  - intros i Hi. unfold finp, pv. rewrite wcol_row, wcol_ex by (auto; lia).
    destruct (Nat.ltb_spec i l); [|lia]. intros F.
    destruct (Hff _ _ F) as [_ F2]. apply ldexp_fin_back in F2; [|lia].
    pose proof (Hf _ _ _ _ 0 eta F (Rabs_diag _ 0 ltac:(lra)) (ldexp_err prec emax (rowm A k i) (- (ex A j - ex A k)) ltac:(lia) F2)) as E.
    rewrite (two_split (ex A k) (ex A j)), <- Rmult_assoc.
    replace (ex A k - ex A j)%Z with (- (ex A j - ex A k))%Z by lia.
    rewrite Hg. set (gg := g _ _) in *. rewrite Rplus_0_l in E.
    eapply Rle_trans; [apply scaled_bound; exact E|]. rewrite Rmult_plus_distr_r, Rmult_assoc, abs_two.
    apply Rplus_le_compat_l. apply Rmult_le_compat_r; [apply bpow_ge_0|exact B2].
  - intros i Hi. rewrite wcol_row by (auto; lia). destruct (Nat.ltb_spec i l); [lia|reflexivity].
  - intros i Hi. unfold finp, pv. rewrite wcol_row, wcol_ex by (auto; lia).
    destruct (Nat.ltb_spec i l); [|lia]. intros F.
    destruct (Hff _ _ F) as [F2 _]. apply ldexp_fin_back in F2; [|lia].
    pose proof (Hf _ _ _ _ eta 0 F (ldexp_err prec emax (rowm A j i) (ex A j - ex A k) ltac:(lia) F2) (Rabs_diag _ 0 ltac:(lra))) as E.
    rewrite (two_split (ex A j) (ex A k)), <- Rmult_assoc.
    rewrite Hg. set (gg := g _ _) in *. rewrite Rplus_0_r in E.
    eapply Rle_trans; [apply scaled_bound; exact E|]. rewrite Rmult_plus_distr_r, Rmult_assoc, abs_two.
    apply Rplus_le_compat_l. apply Rmult_le_compat_r; [apply bpow_ge_0|exact B2].
  - intros i Hi. rewrite wcol_row by (auto; lia). destruct (Nat.ltb_spec i l); [lia|reflexivity].
Qed.

(** submulcol *)
Lemma submulcol_spec A j k a l A' :
  pe_submulcol tp n d j k a l A = Ok A' -> wfp A -> l <> 0%nat ->
  wfp A' /\ same_else A A' j /\ ex A' j = Z.max (ex A j) (expn a + ex A k) /\ (l <= n)%nat /\
  (forall i, (i < l)%nat -> finp A' j i -> is_finite (mant a) = true ->
     Rabs (pv A' i j - (pv A i j - val a * pv A i k))
     <= 3 * u * (Rabs (pv A i j) + Rabs (val a * pv A i k))
        + 3 * eta * (1 + Rabs (B2R (rowm A j i)) + Rabs (B2R (rowm A k i))) * two (ex A' j)) /\
  (forall i, (l <= i < n)%nat -> rowm A' j i = rowm A j i).
Proof using ofz Hp He.
  intros H W Hl. unfold pe_submulcol in H. destruct (Nat.eqb_spec l 0); [contradiction|].
  apply guard_Ok in H as [G H]. apply andb_prop in G as [G G3]. apply andb_prop in G as [G1 G2].
  apply Nat.ltb_lt in G1, G2. apply Nat.leb_le in G3.
  pose proof (eta_pos prec emax) as Pe. pose proof (uro_pos prec) as Pu. pose proof (uro_le prec) as Pl.
  binv H. binv H. cbn [t_int t_exp fl_tops] in Ha, Ha0. apply int_strict_Ok in Ha as [-> _]. apply int_strict_Ok in Ha0 as [-> _].
  cbn [t_ldexp t_sub t_mul t_mant fl_tops] in H.
  destruct (Z.leb_spec 0 (ex A j - (expn a + ex A k))) as [L|L];
    apply (f_equal (fun t => match t with Ok a => a | _ => A' end)) in H; cbn beta iota in H; subst A';
    (split; [now apply wcol_wfp|]); (split; [apply wcol_else|]); rewrite wcol_ex by auto; (split; [lia|]); (split; [exact G3|]); split.
  - intros i Hi. unfold finp, pv. rewrite wcol_row, wcol_ex by (auto; lia).
    destruct (Nat.ltb_spec i l); [|lia]. intros F Fa.
    set (dd := (ex A j - (expn a + ex A k))%Z) in *.
    pose proof (fms1 prec emax _ _ _ _ F (ldexp_err prec emax (mant a) (- dd) ltac:(lia) Fa)) as E.
    set (r := Bminus _ _ _) in *. set (w := B2R (rowm A j i)) in *. set (z := B2R (rowm A k i)) in *.
    assert (EQ : val a * (z * two (ex A k)) = B2R (mant a) * two (- dd) * z * two (ex A j)).
    { unfold LdpeFacts.val. replace (two (- dd)) with (two (expn a) * two (ex A k) * two (- ex A j)).
      - assert (two (- ex A j) * two (ex A j) = 1). { rewrite <- bpow_plus. replace (- ex A j + ex A j)%Z with 0%Z by lia. reflexivity. }
        transitivity (B2R (mant a) * z * two (expn a) * two (ex A k) * 1); [ring|]. rewrite <- H0. ring.
      - rewrite <- !bpow_plus. f_equal. unfold dd. lia. }
    rewrite EQ. rewrite <- Rmult_minus_distr_r.
    eapply Rle_trans; [apply scaled_bound; exact E|]. rewrite <- !abs_two. apply Req_le. ring.
  - intros i Hi. rewrite wcol_row by (auto; lia). destruct (Nat.ltb_spec i l); [lia|reflexivity].
  - intros i Hi. unfold finp, pv. rewrite wcol_row, wcol_ex by (auto; lia).
    destruct (Nat.ltb_spec i l); [|lia]. intros F Fa.
    set (dd := (ex A j - (expn a + ex A k))%Z) in *.
    destruct (minus_fin _ _ _ _ _ F) as [F2 _]. apply ldexp_fin_back in F2; [|lia].
    pose proof (fms2 prec emax _ _ _ _ eta F (ldexp_err prec emax (rowm A j i) dd ltac:(lia) F2) ltac:(lra)) as E.
    set (r := Bminus _ _ _) in *. set (w := B2R (rowm A j i)) in *. set (z := B2R (rowm A k i)) in *.
    set (ep := (expn a + ex A k)%Z) in *.
    assert (EQ : val a * (z * two (ex A k)) = B2R (mant a) * z * two ep).
    { unfold LdpeFacts.val, ep. rewrite bpow_plus. ring. }
    assert (EQ2 : w * two (ex A j) = w * two dd * two ep).
    { rewrite (two_split (ex A j) ep). unfold dd. ring. }
    rewrite EQ, EQ2, <- Rmult_minus_distr_r.
    eapply Rle_trans; [apply scaled_bound; exact E|]. rewrite <- !abs_two.
    rewrite (abs_two w dd).
    match goal with |- _ <= 3 * u * (?x * ?t + ?y * ?t) + ?b * ?t =>
      replace (3 * u * (x * t + y * t) + b * t) with ((3 * u * (x + y) + b) * t) by ring end.
    apply Rmult_le_compat_r; [apply bpow_ge_0|].
    pose proof (Rabs_pos (w * two dd)). pose proof (Rabs_pos w). pose proof (Rabs_pos z).
    assert ((1 + u) * (eta + eta) <= 3 * eta) by nra.
    assert (0 <= eta * Rabs w) by nra. assert (0 <= eta * Rabs z) by nra.
    assert (0 <= u * Rabs (w * two dd)) by nra. lra.
  - intros i Hi. rewrite wcol_row by (auto; lia). destruct (Nat.ltb_spec i l); [lia|reflexivity].
Qed.

(** column k..k+l-1 of j becomes w - a z *)
Lemma fmasub_spec A j k Wm jw kw Zm jz kz a l A' :
  pe_fmasub tp n d j k Wm jw kw Zm jz kz a l A = Ok A' -> wfp A -> l <> 0%nat -> is_finite (mant a) = true ->
  wfp A' /\ same_else A A' j /\ (k + l <= n)%nat /\
  ex A' j = (if Req_EM_T (B2R (mant a)) 0 then ex Wm jw else Z.max (ex Wm jw) (expn a + ex Zm jz)) /\
  (forall i, (i < l)%nat -> finp A' j (k + i) ->
     let w := pv Wm (kw + i) jw in let z := pv Zm (kz + i) jz in
     Rabs (pv A' (k + i) j - (w - val a * z))
     <= 3 * u * (Rabs w + Rabs (val a * z))
        + 3 * eta * (1 + Rabs (B2R (rowm Wm jw (kw + i))) + Rabs (B2R (rowm Zm jz (kz + i)))) * two (ex A' j)) /\
  (forall i, (k + l <= i < n)%nat -> rowm A' j i = rowm A j i).
Proof using ofz Hp He.
  intros H W Hl Fa. unfold pe_fmasub in H.
  apply guard_Ok in H as [_ H]. destruct (Nat.eqb_spec l 0); [contradiction|].
  apply guard_Ok in H as [G H]. apply andb_prop in G as [G _]. apply andb_prop in G as [G _]. apply andb_prop in G as [G1 G2].
  apply Nat.ltb_lt in G1. apply Nat.leb_le in G2.
  pose proof (eta_pos prec emax) as Pe. pose proof (uro_pos prec) as Pu. pose proof (uro_le prec) as Pl.
  assert (RG : forall i, (i < l)%nat -> (k <=? k + i)%nat && (k + i <? k + l)%nat = true).
  { intros i Hi. apply andb_true_intro. split; [apply Nat.leb_le; lia|apply Nat.ltb_lt; lia]. }
  assert (RO : forall i, (k + l <= i)%nat -> (k <=? i)%nat && (i <? k + l)%nat = false /\ (i <? k)%nat = false).
  { intros i Hi. split; [apply andb_false_iff; right|]; apply Nat.ltb_ge; lia. }
  cbn [t_is0 t_int t_exp t_pow2 t_ldexp t_sub t_mul t_mant fl_tops] in H.
  destruct (is0 (mant a)) eqn:Z0.
  { apply is0_spec in Z0; auto.
    apply (f_equal (fun t => match t with Ok a => a | _ => A' end)) in H; cbn beta iota in H; subst A'.
    split; [now apply wcol_wfp|]. split; [apply wcol_else|]. split; [exact G2|]. rewrite wcol_ex by auto.
    destruct Req_EM_T; [|contradiction]. split; [reflexivity|]. split.
    - intros i Hi _ w z. unfold finp, pv. rewrite wcol_row, wcol_ex by (auto; lia).
      rewrite RG by assumption. replace (k + i - k)%nat with i by lia.
      replace (val a) with 0 by (unfold LdpeFacts.val; rewrite Z0; ring).
      rewrite Rmult_0_l, Rminus_0_r, Rabs_R0. unfold w, pv. rewrite Rminus_diag_eq, Rabs_R0 by reflexivity.
      pose proof (bpow_gt_0 radix2 (ex Wm jw)). pose proof (Rabs_pos (B2R (rowm Wm jw (kw + i)) * two (ex Wm jw))).
      pose proof (Rabs_pos (B2R (rowm Wm jw (kw + i)))). pose proof (Rabs_pos (B2R (rowm Zm jz (kz + i)))).
      apply Rplus_le_le_0_compat; repeat apply Rmult_le_pos; lra.
    - intros i Hi. rewrite wcol_row by (auto; lia). destruct (RO i) as [-> _]; [lia|reflexivity]. }
  assert (Nz : B2R (mant a) <> 0).
  { intros N. apply is0_spec in N; auto. congruence. }
  binv H. binv H. apply int_strict_Ok in Ha as [-> _]. apply int_strict_Ok in Ha0 as [-> _].
  destruct (Z.leb_spec 0 (ex Wm jw - (expn a + ex Zm jz))) as [L|L];
    apply (f_equal (fun t => match t with Ok a => a | _ => A' end)) in H; cbn beta iota in H; subst A';
    (split; [now apply wcol_wfp|]); (split; [apply wcol_else|]); (split; [exact G2|]); rewrite wcol_ex by auto;
    (destruct Req_EM_T; [contradiction|]); (split; [lia|]); split.
  - intros i Hi. unfold finp, pv. rewrite wcol_row, wcol_ex by (auto; lia).
    rewrite RG by assumption. replace (k + i - k)%nat with i by lia. intros F.
    set (dd := (ex Wm jw - (expn a + ex Zm jz))%Z) in *.
    pose proof (fms1 prec emax _ _ _ _ F (ldexp_err prec emax (mant a) (- dd) ltac:(lia) Fa)) as E.
    set (r := Bminus _ _ _) in *. set (w := B2R (rowm Wm jw (kw + i))) in *. set (z := B2R (rowm Zm jz (kz + i))) in *.
    assert (EQ : val a * (z * two (ex Zm jz)) = B2R (mant a) * two (- dd) * z * two (ex Wm jw)).
    { unfold LdpeFacts.val. replace (two (- dd)) with (two (expn a) * two (ex Zm jz) * two (- ex Wm jw)).
      - assert (X : two (- ex Wm jw) * two (ex Wm jw) = 1). { rewrite <- bpow_plus. replace (- ex Wm jw + ex Wm jw)%Z with 0%Z by lia. reflexivity. }
        transitivity (B2R (mant a) * z * two (expn a) * two (ex Zm jz) * 1); [ring|]. rewrite <- X. ring.
      - rewrite <- !bpow_plus. f_equal. unfold dd. lia. }
    rewrite EQ. rewrite <- Rmult_minus_distr_r.
    eapply Rle_trans; [apply scaled_bound; exact E|]. rewrite <- !abs_two. apply Req_le. ring.
  - intros i Hi. rewrite wcol_row by (auto; lia). destruct (RO i) as [-> _]; [lia|reflexivity].
  - intros i Hi. unfold finp, pv. rewrite wcol_row, wcol_ex by (auto; lia).
    rewrite RG by assumption. replace (k + i - k)%nat with i by lia. intros F.
    set (dd := (ex Wm jw - (expn a + ex Zm jz))%Z) in *.
    destruct (minus_fin _ _ _ _ _ F) as [F2 _].
    pose proof (ldexp_err prec emax Bone dd ltac:(lia) (is_finite_Bone prec emax _ _)) as Ep.
    rewrite Bone_correct, Rmult_1_l in Ep.
    pose proof (mult_near prec emax _ _ _ _ F2 Ep) as E2.
    set (w := B2R (rowm Wm jw (kw + i))) in *. set (z := B2R (rowm Zm jz (kz + i))) in *.
    pose proof (Rabs_pos (two dd * w)). pose proof (Rabs_pos w). pose proof (Rabs_pos z).
    assert (0 <= eta * Rabs w) by nra. assert (0 <= eta * Rabs z) by nra.
    assert (Xw : 0 <= u * Rabs (two dd * w)) by nra.
    assert (Xp : 0 <= (1 + u) * (eta * Rabs w)) by nra.
    pose proof (fms2 prec emax _ _ _ _ _ F E2 ltac:(lra)) as E. fold z in E.
    set (r := Bminus _ _ _) in *.
    set (ep := (expn a + ex Zm jz)%Z) in *.
    assert (EQ : val a * (z * two (ex Zm jz)) = B2R (mant a) * z * two ep).
    { unfold LdpeFacts.val, ep. rewrite bpow_plus. ring. }
    assert (EQ2 : w * two (ex Wm jw) = two dd * w * two ep).
    { rewrite (two_split (ex Wm jw) ep). unfold dd. ring. }
    rewrite EQ, EQ2, <- Rmult_minus_distr_r.
    eapply Rle_trans; [apply scaled_bound; exact E|].
    rewrite <- (abs_two (two dd * w) ep), <- (abs_two (B2R (mant a) * z) ep).
    match goal with |- _ <= 3 * u * (?x * ?t + ?y * ?t) + ?b * ?t =>
      replace (3 * u * (x * t + y * t) + b * t) with ((3 * u * (x + y) + b) * t) by ring end.
    apply Rmult_le_compat_r; [apply bpow_ge_0|].
    assert (Y1 : (1 + u) * (u * Rabs (two dd * w)) <= 2 * (u * Rabs (two dd * w))) by (apply Rmult_le_compat_r; lra).
    assert (Y2 : (1 + u) * ((1 + u) * (eta * Rabs w)) <= 3 * (eta * Rabs w)).
    { rewrite <- Rmult_assoc. apply Rmult_le_compat_r; [lra|nra]. }
    assert (Y3 : (1 + u) * (eta + eta) <= 3 * eta) by nra.
    replace ((1 + u) * (eta + (u * Rabs (two dd * w) + (1 + u) * (eta * Rabs w) + eta)))
      with ((1 + u) * (u * Rabs (two dd * w)) + (1 + u) * ((1 + u) * (eta * Rabs w)) + (1 + u) * (eta + eta)) by ring.
    lra.
  - intros i Hi. rewrite wcol_row by (auto; lia). destruct (RO i) as [-> ->]; [lia|reflexivity].
Qed.

(** division of a column by a number *)
Lemma div_spec A j k Wm jw kw a len A' :
  pe_div tp n d j k Wm jw kw a len A = Ok A' -> wfp A -> (0 < len)%Z -> is_finite (mant a) = true ->
  wfp A' /\ same_else A A' j /\ ex A' j = (ex Wm jw - expn a)%Z /\ (k + Z.to_nat len <= n)%nat /\
  (forall i, (i < Z.to_nat len)%nat -> finp A' j (k + i) ->
     val a <> 0 /\
     Rabs (pv A' (k + i) j - pv Wm (kw + i) jw / val a)
     <= 3 * u * Rabs (pv Wm (kw + i) jw / val a)
        + 2 * eta * (1 + Rabs (B2R (rowm Wm jw (kw + i)))) * two (ex A' j)) /\
  (forall i, (i < k)%nat \/ (k + Z.to_nat len <= i < n)%nat -> rowm A' j i = rowm A j i).
Proof using ofz Hp He.
  intros H W Hl Fa. unfold pe_div in H.
  apply guard_Ok in H as [_ H]. destruct (Z.eqb_spec len 0); [lia|].
  set (l := Z.to_nat len) in *.
  apply guard_Ok in H as [G H]. apply andb_prop in G as [G _]. apply andb_prop in G as [G G3]. apply andb_prop in G as [G1 G2].
  apply Nat.ltb_lt in G1. apply Nat.leb_le in G2, G3.
  pose proof (eta_pos prec emax) as Pe. pose proof (uro_pos prec) as Pu. pose proof (uro_le prec) as Pl.
  cbn [t_int t_exp t_inv t_mul t_mant fl_tops] in H.
  binv H. apply int_strict_Ok in Ha as [-> _].
  apply (f_equal (fun t => match t with Ok a => a | _ => A' end)) in H; cbn beta iota in H; subst A'.
  split; [now apply wcol_wfp|]. split; [apply wcol_else|]. rewrite wcol_ex by auto. split; [reflexivity|]. split; [exact G3|]. split.
  - intros i Hi. unfold finp, pv. rewrite wcol_row, wcol_ex by (auto; lia).
    replace ((k <=? k + i)%nat && (k + i <? k + l)%nat) with true.
    2:{ symmetry. apply andb_true_intro. split; [apply Nat.leb_le; lia|apply Nat.ltb_lt; lia]. }
    replace (k + i - k)%nat with i by lia. intros F.
    destruct (mult_fin _ _ _ _ _ F) as [_ Fb].
    destruct (inv_err prec emax _ Fb Fa) as [Nz Ei].
    pose proof (mult_err prec emax _ _ F) as E.
    set (b := Bdiv mode_NE Bone (mant a)) in *. set (w := B2R (rowm Wm jw (kw + i))) in *.
    set (am := B2R (mant a)) in *.
    assert (Ew : Rabs (w * B2R b - w * / am) <= Rabs w * (u * Rabs (/ am) + eta)).
    { replace (w * B2R b - w * / am) with (w * (B2R b - / am)) by ring. rewrite Rabs_mult.
      apply Rmult_le_compat_l; [apply Rabs_pos|exact Ei]. }
    pose proof (near_abs _ _ _ Ew) as En.
    assert (Q : Rabs (B2R (Bmult mode_NE (rowm Wm jw (kw + i)) b) - w * / am)
              <= 3 * u * Rabs (w * / am) + 2 * eta * (1 + Rabs w)).
    { replace (B2R (Bmult mode_NE (rowm Wm jw (kw + i)) b) - w * / am) with
        ((B2R (Bmult mode_NE (rowm Wm jw (kw + i)) b) - w * B2R b) + (w * B2R b - w * / am)) by ring.
      eapply Rle_trans; [apply Rabs_triang|].
      fold w in E. rewrite (Rabs_mult w (/ am)) in En |- *. rewrite (Rabs_mult w (B2R b)) in En, E.
      set (x := Rabs w) in *. set (y := Rabs (/ am)) in *.
      pose proof (Rabs_pos w : 0 <= x). pose proof (Rabs_pos (/ am) : 0 <= y).
      assert (0 <= x * y) by nra. assert (0 <= u * (x * y)) by nra. assert (0 <= eta * x) by nra.
      assert (u * (x * Rabs (B2R b)) <= u * (x * y + x * (u * y + eta))) by (apply Rmult_le_compat_l; lra).
      assert (u * (u * (x * y)) <= / 2 * (u * (x * y))) by (apply Rmult_le_compat_r; lra).
      assert (u * (eta * x) <= / 2 * (eta * x)) by (apply Rmult_le_compat_r; lra).
      replace (u * (x * y + x * (u * y + eta))) with (u * (x * y) + u * (u * (x * y)) + u * (eta * x)) in * by ring.
      lra. }
    split. { unfold LdpeFacts.val. apply Rmult_integral_contrapositive_currified; [exact Nz|]. apply Rgt_not_eq, bpow_gt_0. }
    assert (EQ : w * two (ex Wm jw) / val a = w * / am * two (ex Wm jw - expn a)).
    { unfold LdpeFacts.val. fold am. unfold Zminus. rewrite bpow_plus, bpow_opp. field. split; [|exact Nz]. apply Rgt_not_eq, bpow_gt_0. }
    rewrite EQ. eapply Rle_trans; [apply scaled_bound; exact Q|]. rewrite <- abs_two. apply Req_le. ring.
  - intros i Hi. rewrite wcol_row by (auto; lia).
    replace ((k <=? i)%nat && (i <? k + l)%nat) with false; [reflexivity|].
    symmetry. apply andb_false_iff. destruct Hi; [left; apply Nat.leb_gt; lia|right; apply Nat.ltb_ge; lia].
Qed.

Lemma asum_sumR f l : forall a, asum f (seq a l) = sumR l (fun i => f (a + i)%nat).
Proof using Type.
  induction l as [|l IH]; intros a; [reflexivity|].
  rewrite seq_S. unfold asum in *. rewrite map_app, fold_right_app. cbn [map fold_right sumR].
  rewrite <- IH. generalize (map f (seq a l)). intros xs. clear.
  induction xs as [|x xs IH]; cbn; [ring|]. rewrite IH. ring.
Qed.
Lemma asum_scale f l e : asum (fun i => f i * e) l = asum f l * e.
Proof using Type. unfold asum. induction l as [|i l IH]; cbn; [ring|]. rewrite IH. ring. Qed.
Lemma asum_ext f g l : (forall i, f i = g i) -> asum f l = asum g l.
Proof using Type. intros H. unfold asum. f_equal. now apply map_ext. Qed.

Lemma is0_fin (x : T) : is0 x = true -> is_finite x = true.
Proof using Type. destruct x; cbn; auto; destruct s; discriminate. Qed.
Lemma normalize_fin_back (x r : D) : normalize x = Ok r -> is_finite (mant r) = true -> is_finite (mant x) = true.
Proof using Type.
  unfold normalize. intros H F. destruct (is_finite (mant x)) eqn:E; [reflexivity|].
  rewrite orb_true_r in H. destruct (is0 (mant x)) eqn:E0.
  - apply is0_fin in E0. congruence.
  - injection H as <-. congruence.
Qed.

(** scalar product *)
Lemma dot_spec V jv kv Wm jw kw len old x :
  pe_dot tp n d V jv kv Wm jw kw len old = Ok x -> (0 < len)%Z -> is_finite (mant x) = true ->
  let l := Z.to_nat len in
  let p i := pv V (kv + i) jv * pv Wm (kw + i) jw in
  normal x /\
  Rabs (val x - sumR l p)
  <= ((1 + u) ^ (l + 1) - 1) * sumR l (fun i => Rabs (p i))
     + INR l * (1 + u) ^ (l + 1) * eta * two (ex V jv + ex Wm jw).
Proof.
  intros H Hl Fx l p. unfold pe_dot in H. apply guard_Ok in H as [_ H].
  destruct (Z.eqb_spec len 0); [lia|]. fold l in H. apply guard_Ok in H as [_ H].
  cbn [t_int t_mk t_add t_mul t_0 fl_tops] in H. binv H. apply int_strict_Ok in Ha as [-> _].
  set (v i := rowm V jv (kv + i)) in *. set (w i := rowm Wm jw (kw + i)) in *.
  change (normalize (mkD (macc prec emax v w (seq 0 l) zerof) (ex V jv + ex Wm jw)) = Ok x) in H.
  set (s := macc prec emax v w (seq 0 l) zerof) in *.
  assert (Fs : is_finite s = true).
  { exact (normalize_fin_back _ _ H Fx). }
  apply normalize_spec in H as [Hv Hn]; auto. split; [exact Hn|].
  pose proof (macc_err prec emax v w (seq 0 l) zerof 0 0 1 0 Fs ltac:(lra) ltac:(rewrite Rabs_R0; lra) (le_n 1) ltac:(lra)
    ltac:(cbn [B2R zerof]; rewrite Rminus_0_r, Rabs_R0; lra)) as E.
  fold s in E. rewrite seq_length, !Rplus_0_l in E. replace (1 + l)%nat with (l + 1)%nat in E by lia.
  rewrite Hv. unfold LdpeFacts.val. cbn [mant expn].
  rewrite <- (Rplus_0_r (sumR l p)).
  assert (EQ : sumR l p = asum (fun i => B2R (v i) * B2R (w i)) (seq 0 l) * two (ex V jv + ex Wm jw)).
  { rewrite <- asum_scale, asum_sumR. apply sumR_ext. intros i _. unfold p, pv, v, w. rewrite bpow_plus. cbn [plus]. ring. }
  assert (EQ2 : sumR l (fun i => Rabs (p i)) = asum (fun i => Rabs (B2R (v i) * B2R (w i))) (seq 0 l) * two (ex V jv + ex Wm jw)).
  { rewrite <- asum_scale, asum_sumR. apply sumR_ext. intros i _. rewrite abs_two. f_equal. unfold p, pv, v, w. rewrite bpow_plus. cbn [plus]. ring. }
  rewrite Rplus_0_r, EQ, EQ2. eapply Rle_trans; [apply scaled_bound; exact E|]. apply Req_le. ring.
Qed.

(** squared norm *)
Lemma norm2_spec V jv kv len old x :
  pe_norm2 tp n d V jv kv len old = Ok x -> (0 < len)%Z -> is_finite (mant x) = true ->
  let l := Z.to_nat len in
  let p i := pv V (kv + i) jv * pv V (kv + i) jv in
  normal x /\
  Rabs (val x - sumR l p)
  <= ((1 + u) ^ l - 1) * sumR l p
     + INR l * (1 + u) ^ l * eta * two (2 * ex V jv).
Proof.
  intros H Hl Fx l p. unfold pe_norm2 in H. apply guard_Ok in H as [_ H].
  destruct (Z.eqb_spec len 0); [lia|]. fold l in H. apply guard_Ok in H as [_ H].
  cbn [t_int t_mk t_add t_mul t_0 fl_tops] in H. binv H. apply int_strict_Ok in Ha as [-> _].
  set (v i := rowm V jv (kv + i)) in *.
  set (s0 := Bmult mode_NE (rowm V jv kv) (rowm V jv kv)) in *.
  change (normalize (mkD (macc prec emax v v (seq 1 (l - 1)) s0) (2 * ex V jv)) = Ok x) in H.
  set (s := macc prec emax v v (seq 1 (l - 1)) s0) in *.
  assert (Fs : is_finite s = true).
  { exact (normalize_fin_back _ _ H Fx). }
  apply normalize_spec in H as [Hv Hn]; auto. split; [exact Hn|].
  pose proof (macc_fin _ _ _ _ _ _ Fs) as [F0 _].
  pose proof (mult_err _ _ _ _ F0) as E0. fold s0 in E0.
  set (q := B2R (rowm V jv kv) * B2R (rowm V jv kv)) in *.
  assert (Hq : 0 <= q) by (unfold q; nra).
  rewrite (Rabs_pos_eq q Hq) in E0.
  pose proof (eta_pos prec emax) as Pe. pose proof (uro_pos prec) as Pu.
  assert (Hl1 : (1 <= l)%nat) by (unfold l; lia).
  pose proof (macc_err prec emax v v (seq 1 (l - 1)) s0 q q 1 1 Fs Hq ltac:(rewrite Rabs_pos_eq; lra) (le_n 1) ltac:(lra)
    ltac:(rewrite pow_1; nra)) as E.
  fold s in E. rewrite seq_length in E. replace (1 + (l - 1))%nat with l in E by lia.
  replace (1 + INR (l - 1)) with (INR l) in E.
  2:{ rewrite minus_INR by lia. cbn [INR]. ring. }
  rewrite Hv. unfold LdpeFacts.val. cbn [mant expn].
  assert (SP : seq 0 l = 0%nat :: seq 1 (l - 1)) by (destruct l; [lia|cbn; f_equal; now rewrite Nat.sub_0_r]).
  assert (EQ : sumR l p = (q + asum (fun i => B2R (v i) * B2R (v i)) (seq 1 (l - 1))) * two (2 * ex V jv)).
  { replace q with (B2R (v 0%nat) * B2R (v 0%nat)) by (unfold v, q; now rewrite Nat.add_0_r).
    change (B2R (v 0%nat) * B2R (v 0%nat) + asum (fun i => B2R (v i) * B2R (v i)) (seq 1 (l - 1)))
      with (asum (fun i => B2R (v i) * B2R (v i)) (0%nat :: seq 1 (l - 1))).
    rewrite <- SP, <- asum_scale, asum_sumR. apply sumR_ext. intros i _. unfold p, pv, v.
    replace (2 * ex V jv)%Z with (ex V jv + ex V jv)%Z by lia. rewrite bpow_plus. cbn [plus]. ring. }
  rewrite (asum_ext (fun i => Rabs (B2R (v i) * B2R (v i))) (fun i => B2R (v i) * B2R (v i))) in E.
  2:{ intros i. apply Rabs_pos_eq. nra. }
  rewrite EQ. eapply Rle_trans; [apply scaled_bound; exact E|]. apply Req_le. ring.
Qed.

(** norm: the rounded square root of the computed squared norm *)
Lemma norm_spec V jv kv len old x :
  pe_norm tp n d V jv kv len old = Ok x -> (0 < len)%Z ->
  exists q, pe_norm2 tp n d V jv kv len old = Ok q /\
    (is_finite (mant q) = true -> 0 < val q -> normal x /\ Rabs (val x - sqrt (val q)) <= u * sqrt (val q)).
Proof.
  intros H Hl. unfold pe_norm in H. binv H. exists a. split; [exact Ha|].
  destruct (Z.eqb_spec len 0); [lia|]. intros Fq Pq.
  destruct (norm2_spec V jv kv len old a Ha Hl Fq) as [Nq _].
  cbn [t_sqrt fl_tops] in H. apply sqrt_spec in H as [Nx Ex]; auto. split; [exact Nx|].
  rewrite Ex. eapply Rle_trans; [apply relative_error_N_FLX; apply prec_pos; exact Hp|].
  rewrite uro_half, Rabs_pos_eq by apply sqrt_pos. lra.
Qed.

(** what the conversion from mpz provides *)
Definition ofz_ok : Prop := forall z, let '(y, e) := ofz z in
  is_finite y = true /\ Rabs (B2R y * two e - IZR z) <= two (1 - prec) * Rabs (IZR z) /\
  two e <= 4 * (1 + Rabs (IZR z)).

Lemma fold_max_ge l : forall a x, In x l \/ (x <= a)%Z -> (x <= fold_left Z.max l a)%Z.
Proof using ofz Hp He.
  induction l as [|y l IH]; intros a x H; cbn [fold_left].
  - destruct H as [[]|H]. exact H.
  - apply IH. destruct H as [[->|H]|H]; [right; lia|left; exact H|right; lia].
Qed.
Lemma fold_max_in l : forall a, fold_left Z.max l a = a \/ In (fold_left Z.max l a) l.
Proof using ofz Hp He.
  induction l as [|y l IH]; intros a; cbn [fold_left]; [left; reflexivity|].
  destruct (IH (Z.max a y)) as [E|E]; [|right; right; exact E].
  rewrite E. destruct (Z.max_spec a y) as [[_ ->]|[_ ->]]; [right; left; reflexivity|left; reflexivity].
Qed.

Lemma setcolz_spec A j b l A' :
  ofz_ok -> pe_setcolz tp n d j b l A = Ok A' -> wfp A -> l <> 0%nat ->
  wfp A' /\ same_else A A' j /\ (l <= n)%nat /\
  (ex A' j = INT_MIN \/ exists i, (i < l)%nat /\ two (ex A' j) <= 4 * (1 + Rabs (IZR (nth i b 0%Z)))) /\
  (forall i, (i < l)%nat -> finp A' j i /\
     Rabs (pv A' i j - IZR (nth i b 0%Z)) <= two (1 - prec) * Rabs (IZR (nth i b 0%Z)) + eta * two (ex A' j)) /\
  (forall i, (l <= i < n)%nat -> rowm A' j i = rowm A j i).
Proof using ofz Hp He.
  intros OK H W Hl. unfold pe_setcolz in H. destruct (Nat.eqb_spec l 0); [contradiction|].
  apply guard_Ok in H as [G H]. apply andb_prop in G as [G1 G2]. apply Nat.ltb_lt in G1. apply Nat.leb_le in G2.
  cbn [t_ofz t_int t_ldexp fl_tops] in H. binv H. apply int_strict_Ok in Ha as [-> _].
  set (m := max_exp _) in *.
  apply (f_equal (fun t => match t with Ok a => a | _ => A' end)) in H. cbn beta iota in H. subst A'.
  split; [now apply wcol_wfp|]. split; [apply wcol_else|]. split; [exact G2|]. rewrite wcol_ex by auto. split; [|split].
  - unfold m, max_exp. destruct (fold_max_in (map (fun i => snd (ofz (nth i b 0%Z))) (seq 0 l)) INT_MIN) as [E|E]; [left; exact E|].
    apply in_map_iff in E as (i & E & Hi). apply in_seq in Hi. right. exists i. split; [lia|].
    rewrite <- E. specialize (OK (nth i b 0%Z)). destruct (ofz (nth i b 0%Z)) as [y e]. apply OK.
  - intros i Hi. unfold finp, pv. rewrite wcol_row, wcol_ex by (auto; lia).
    destruct (Nat.ltb_spec i l); [|lia].
    assert (M : (snd (ofz (nth i b 0%Z)) <= m)%Z).
    { apply fold_max_ge. left. apply in_map_iff. exists i. split; [reflexivity|]. apply in_seq. lia. }
    specialize (OK (nth i b 0%Z)). destruct (ofz (nth i b 0%Z)) as [y e]. cbn [snd] in M.
    destruct OK as (F & E & _).
    destruct (ldexp_fin prec emax y (e - m) ltac:(lia)) as [F1 F2]. split; [now rewrite F1|].
    specialize (F2 F). pose proof (scaled_bound _ _ _ m F2) as S.
    replace (B2R y * two (e - m) * two m) with (B2R y * two e) in S by (rewrite (two_split e m); ring).
    set (X := B2R (Bldexp mode_NE y (e - m)) * two m) in *.
    replace (X - IZR (nth i b 0%Z)) with ((X - B2R y * two e) + (B2R y * two e - IZR (nth i b 0%Z))) by ring.
    eapply Rle_trans; [apply Rabs_triang|]. lra.
  - intros i Hi. rewrite wcol_row by (auto; lia). destruct (Nat.ltb_spec i l); [lia|reflexivity].
Qed.

Lemma setcolf_list e tt : forall acc dl,
  mfold (fun (x : D) l => let* y := int_strict (expn x - e) in Ok (l ++ [(mant x, y)])) tt acc = Ok dl ->
  dl = acc ++ map (fun x => (mant x, (expn x - e)%Z)) tt.
Proof using ofz Hp He.
  induction tt as [|x tt IH]; intros acc dl H; cbn [mfold] in H.
  - injection H as <-. cbn. now rewrite app_nil_r.
  - binv H. binv Ha. apply int_strict_Ok in Ha0 as [-> _]. injection Ha as <-. apply IH in H. subst dl.
    cbn [map]. now rewrite <- app_assoc.
Qed.

Lemma setcolf_spec A j t l A' x0 :
  pe_setcolf tp n d j t l A = Ok A' -> wfp A -> l <> 0%nat ->
  wfp A' /\ same_else A A' j /\ (l <= n)%nat /\
  (ex A' j = INT_MIN \/ exists i, (i < l)%nat /\ ex A' j = expn (nth i t x0)) /\
  (forall i, (i < l)%nat -> (expn (nth i t x0) <= ex A' j)%Z /\
     (is_finite (mant (nth i t x0)) = true -> finp A' j i /\ Rabs (pv A' i j - val (nth i t x0)) <= eta * two (ex A' j))) /\
  (forall i, (l <= i < n)%nat -> rowm A' j i = rowm A j i).
Proof using ofz Hp He.
  intros H W Hl. unfold pe_setcolf in H. destruct (Nat.eqb_spec l 0); [contradiction|].
  apply guard_Ok in H as [G H]. apply andb_prop in G as [G G3]. apply andb_prop in G as [G1 G2].
  apply Nat.ltb_lt in G1. apply Nat.leb_le in G2, G3.
  cbn [t_exp t_int t_ldexp t_mant fl_tops] in H. binv H.
  set (m := max_exp _) in *. apply setcolf_list in Ha. cbn [app] in Ha.
  apply (f_equal (fun t => match t with Ok a => a | _ => A' end)) in H. cbn beta iota in H. subst A'.
  assert (FN : forall i, (i < l)%nat -> nth i (firstn l t) x0 = nth i t x0).
  { intros i Hi. rewrite <- (firstn_skipn l t) at 2. rewrite app_nth1; [reflexivity|]. rewrite firstn_length. lia. }
  assert (FL : length (firstn l t) = l) by (rewrite firstn_length; lia).
  assert (NE : forall i, nth_error a i = if (i <? l)%nat then Some (mant (nth i t x0), (expn (nth i t x0) - m)%Z) else None).
  { intros i. rewrite Ha, nth_error_map. destruct (Nat.ltb_spec i l).
    - rewrite (nth_error_nth' _ x0) by lia. cbn [option_map]. now rewrite FN.
    - rewrite (proj2 (nth_error_None (firstn l t) i)); [reflexivity|lia]. }
  split; [now apply wcol_wfp|]. split; [apply wcol_else|]. split; [exact G2|]. rewrite wcol_ex by auto. split; [|split].
  - unfold m, max_exp. destruct (fold_max_in (map expn (firstn l t)) INT_MIN) as [E|E]; [left; exact E|].
    apply in_map_iff in E as (x & E & Hi). apply (In_nth _ _ x0) in Hi as (i & Hi & <-). right. exists i. rewrite FL in Hi.
    split; [exact Hi|]. rewrite <- E. now rewrite FN.
  - intros i Hi.
    assert (M : (expn (nth i t x0) <= m)%Z).
    { apply fold_max_ge. left. apply in_map_iff. exists (nth i t x0). split; [reflexivity|]. rewrite <- FN by assumption. apply nth_In. lia. }
    split; [exact M|]. intros F. unfold finp, pv. rewrite wcol_row, wcol_ex by (auto; lia).
    rewrite NE. destruct (Nat.ltb_spec i l); [|lia].
    destruct (ldexp_fin prec emax (mant (nth i t x0)) (expn (nth i t x0) - m) ltac:(lia)) as [F1 F2]. split; [now rewrite F1|].
    specialize (F2 F). unfold LdpeFacts.val. rewrite (two_split (expn _) m), <- Rmult_assoc. now apply scaled_bound.
  - intros i Hi. rewrite wcol_row by (auto; lia). rewrite NE. destruct (Nat.ltb_spec i l); [lia|reflexivity].
Qed.
End Ops.

(** the two conversions from mpz *)
Section Conv.
Context (prec emax : Z) {Hp : Prec_gt_0 prec} {He : Prec_lt_emax prec emax}.
Hypothesis Hbig : (2 * prec + 2 <= emax)%Z.
Notation two e := (bpow radix2 e).

Lemma digits_bounds z : z <> 0%Z -> two (Zdigits radix2 z - 1) <= Rabs (IZR z) < two (Zdigits radix2 z).
Proof using Type.
  intros Nz. pose proof (Zdigits_correct radix2 z) as [D1 D2]. pose proof (Zdigits_gt_0 radix2 z Nz) as D0.
  rewrite <- abs_IZR, <- !IZR_Zpower by lia. split; [apply IZR_le|apply IZR_lt]; assumption.
Qed.

Lemma norm_conv m z : z <> 0%Z ->
  let e := Zdigits radix2 z in
  let y := binary_normalize prec emax Hp He m z (- e) false in
  is_finite y = true /\ Rabs (B2R y * two e - IZR z) <= two (1 - prec) * Rabs (IZR z) /\ / 2 <= Rabs (B2R y) <= 1.
Proof using Hbig.
  intros Nz e y. pose proof (prec_pos prec) as Pp. pose proof (digits_bounds z Nz) as [B1 B2]. fold e in B1, B2.
  pose proof (binary_normalize_correct prec emax Hp He m z (- e) false) as C. cbn zeta in C. fold y in C.
  unfold F2R in C. cbn [Fnum Fexp] in C. set (x := IZR z * two (- e)) in *.
  assert (Ex : x * two e = IZR z).
  { unfold x. rewrite Rmult_assoc, <- bpow_plus. replace (- e + e)%Z with 0%Z by lia. cbn [bpow]. ring. }
  assert (Px : Rabs x = Rabs (IZR z) * two (- e)).
  { unfold x. rewrite Rabs_mult, (Rabs_pos_eq (two (- e))) by apply bpow_ge_0. reflexivity. }
  assert (X1 : two (-1) <= Rabs x).
  { rewrite Px. replace (two (-1)) with (two (e - 1) * two (- e)) by (rewrite <- bpow_plus; f_equal; lia).
    apply Rmult_le_compat_r; [apply bpow_ge_0|exact B1]. }
  assert (X2 : Rabs x <= two 0).
  { rewrite Px. replace (two 0) with (two e * two (- e)) by (rewrite <- bpow_plus; f_equal; lia).
    apply Rmult_le_compat_r; [apply bpow_ge_0|lra]. }
  assert (R2 : Rabs (round radix2 (SpecFloat.fexp prec emax) (round_mode m) x) <= two 0).
  { apply abs_round_le_generic; try typeclasses eauto; [|exact X2].
    apply generic_format_bpow. unfold SpecFloat.fexp. rewrite emin_eq. lia. }
  assert (R1 : two (-1) <= Rabs (round radix2 (SpecFloat.fexp prec emax) (round_mode m) x)).
  { apply abs_round_ge_generic; try typeclasses eauto; [|exact X1].
    apply generic_format_bpow. unfold SpecFloat.fexp. rewrite emin_eq. lia. }
  rewrite Rlt_bool_true in C.
  2:{ eapply Rle_lt_trans; [exact R2|]. apply bpow_lt. lia. }
  destruct C as (C1 & C2 & _). split; [exact C2|]. rewrite C1. split; [|split; [exact R1|exact R2]].
  rewrite <- Ex. replace (round radix2 (SpecFloat.fexp prec emax) (round_mode m) x * two e - x * two e)
    with ((round radix2 (SpecFloat.fexp prec emax) (round_mode m) x - x) * two e) by ring.
  rewrite !Rabs_mult, (Rabs_pos_eq (two e)), <- Rmult_assoc by apply bpow_ge_0.
  apply Rmult_le_compat_r; [apply bpow_ge_0|].
  apply Rlt_le. replace (1 - prec)%Z with (- prec + 1)%Z by lia.
  apply (relative_error_FLT radix2 (SpecFloat.emin prec emax) prec Pp); [typeclasses eauto|].
  eapply Rle_trans; [|exact X1]. apply bpow_le. rewrite emin_eq. lia.
Qed.
End Conv.

Lemma two_half e : bpow radix2 e = bpow radix2 (e - 1) * 2.
Proof. change 2 with (bpow radix2 1). rewrite <- bpow_plus. f_equal. lia. Qed.

Lemma dpe_ofz_ok : ofz_ok 53 1024 get_d_2exp.
Proof.
  intros z. unfold get_d_2exp. destruct z as [|p|p].
  - cbn [bpow]. split; [reflexivity|]. cbn [B2R]. rewrite Rmult_0_l, Rminus_0_r, Rabs_R0. split; [|lra]. rewrite Rmult_0_r. lra.
  - assert (Nz : Z.pos p <> 0%Z) by lia.
    pose proof (digits_bounds _ Nz) as [B1 _]. 
    destruct (norm_conv 53 1024 ltac:(lia) mode_ZR (Z.pos p) Nz) as (F & E & _).
    split; [exact F|]. split; [exact E|].
    rewrite two_half. pose proof (Rabs_pos (IZR (Z.pos p))). lra.
  - assert (Nz : Z.neg p <> 0%Z) by lia.
    pose proof (digits_bounds _ Nz) as [B1 _]. 
    destruct (norm_conv 53 1024 ltac:(lia) mode_ZR (Z.neg p) Nz) as (F & E & _).
    split; [exact F|]. split; [exact E|].
    rewrite two_half. pose proof (Rabs_pos (IZR (Z.neg p))). lra.
Qed.

Lemma ofz_ld_nz z : z <> 0%Z -> let '(y, e) := ofz_ld z in
  is_finite y = true /\ Rabs (B2R y * bpow radix2 e - IZR z) <= bpow radix2 (1 - 64) * Rabs (IZR z) /\
  bpow radix2 e <= 4 * (1 + Rabs (IZR z)).
Proof.
  intros Nz. pose proof (digits_bounds _ Nz) as [B1 _].
  destruct (norm_conv 64 16384 ltac:(lia) mode_NE z Nz) as (F & E & M1 & M2).
  assert (EQ : ofz_ld z = let e := Zdigits radix2 z in
         let m := binary_normalize 64 16384 _ _ mode_NE z (- e) false in
         let '(m', e') := Bfrexp m in (m', (e + e')%Z)) by (destruct z; [contradiction|reflexivity..]).
  rewrite EQ. clear EQ. cbv zeta. set (e := Zdigits radix2 z) in *.
  set (m := binary_normalize 64 16384 _ _ mode_NE z (- e) false) in *.
  assert (N0 : B2R m <> 0). { intros N. rewrite N, Rabs_R0 in M1. lra. }
  pose proof (strict_of _ _ m F N0) as Fs.
  pose proof (frexp_finite 64 16384 ltac:(lia) m Fs) as Ff.
  pose proof (Bfrexp_correct _ _ _ _ Fs) as C. destruct (Bfrexp m) as [m' e']. cbn [fst] in Ff.
  destruct C as [C1 C2]. destruct (C2 ltac:(lia)) as [[C3 C4] _].
  split; [exact Ff|]. split.
  - replace (B2R m' * bpow radix2 (e + e')) with (B2R m * bpow radix2 e); [exact E|].
    rewrite C1, bpow_plus. ring.
  - assert (T1 : bpow radix2 e' <= 2).
    { rewrite C1, Rabs_mult, (Rabs_pos_eq (bpow radix2 e')) in M2 by apply bpow_ge_0.
      pose proof (bpow_gt_0 radix2 e'). nra. }
    rewrite bpow_plus, (two_half e).
    pose proof (bpow_gt_0 radix2 (e - 1)). pose proof (bpow_gt_0 radix2 e'). nra.
Qed.
Lemma ldpe_ofz_ok : ofz_ok 64 16384 ofz_ld.
Proof.
  intros z. destruct (Z.eq_dec z 0) as [->|Nz]; [|now apply ofz_ld_nz].
  cbn [ofz_ld bpow]. split; [reflexivity|]. cbn [B2R]. rewrite Rmult_0_l, Rminus_0_r, Rabs_R0. split; [|lra]. rewrite Rmult_0_r. lra.
Qed.
