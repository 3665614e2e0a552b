(** * C77: the inequalities that a 0 return certifies, between real numbers

    [rounded u fp] (Rounded.v): every operation has relative error at most u, as MPFR at any
    precision has (exponent range left aside).  The matrix returned by getR then satisfies
    Lovasz's condition and size reduction up to explicit factors.  Note the 1 (and not 1/2) in
    front of |r(i,i)|: that is all that hlll tests before returning 0. *)
From Coq Require Import ZArith Lia Reals Lra Psatz List Bool Arith.
From Flocq Require Import Core.
From Verif Require Import Base Spec Mat FP Hlll Hlll2 IntSteps HlllInt Structure Object Safety SpecReal SpecCert Rounded PropCert Exact Cache7 Counters ExactPot PropExact Examples.
Import ListNotations.
Local Open Scope R_scope.

Section Bounds.
Variables (u : R) (fp : fpops R).
Hypothesis U0 : 0 <= u < 1.
Hypothesis RD : rounded u fp.

Lemma mul_lo a b : 0 <= a * b -> (1 - u) * (a * b) <= fmul fp a b <= (1 + u) * (a * b).
Proof. intros H. pose proof (r_mul u fp RD a b) as E. rewrite (Rabs_pos_eq (a * b)) in E by assumption. apply Rabs_le_inv in E. lra. Qed.

Lemma add_hi a b : 0 <= a + b -> (1 - u) * (a + b) <= fadd fp a b <= (1 + u) * (a + b).
Proof. intros H. pose proof (r_add u fp RD a b) as E. rewrite (Rabs_pos_eq (a + b)) in E by assumption. apply Rabs_le_inv in E. lra. Qed.

Lemma abs_div a b : b <> 0 -> (1 - u) * Rabs (a / b) <= Rabs (fdiv fp a b) <= (1 + u) * Rabs (a / b).
Proof.
  intros H. pose proof (r_div u fp RD a b H) as E.
  pose proof (Rabs_triang_inv (fdiv fp a b) (a / b)). pose proof (Rabs_triang_inv (a / b) (fdiv fp a b)) as T.
  rewrite (Rabs_minus_sym (a / b)) in T. lra.
Qed.

Lemma lovasz_real delta r k : 0 <= delta -> lovasz_test fp delta r k ->
  delta * ((1 - u) ^ 2 * r (k - 1)%nat (k - 1)%nat ^ 2) <= (1 + u) ^ 2 * (r k k ^ 2 + r (k - 1)%nat k ^ 2).
Proof.
  intros HD (s & S1 & S2). apply (r_le u fp RD) in S2.
  assert (SS : r k k ^ 2 = s * s) by (destruct S1 as [-> | ->]; [ring|rewrite (r_neg u fp RD); ring]).
  rewrite SS. clear SS S1. set (a := r (k - 1)%nat (k - 1)%nat) in *. set (b := r (k - 1)%nat k) in *.
  pose proof (mul_lo a a ltac:(nra)) as M1. pose proof (mul_lo s s ltac:(nra)) as M2. pose proof (mul_lo b b ltac:(nra)) as M3.
  assert (0 <= fmul fp a a) by (assert (0 <= (1 - u) * (a * a)) by (apply Rmult_le_pos; nra); lra).
  assert (0 <= fmul fp s s) by (assert (0 <= (1 - u) * (s * s)) by (apply Rmult_le_pos; nra); lra).
  assert (0 <= fmul fp b b) by (assert (0 <= (1 - u) * (b * b)) by (apply Rmult_le_pos; nra); lra).
  pose proof (mul_lo delta (fmul fp a a) ltac:(nra)) as M4.
  pose proof (add_hi (fmul fp s s) (fmul fp b b) ltac:(lra)) as M5.
  assert (A1 : (1 - u) * (delta * ((1 - u) * (a * a))) <= (1 - u) * (delta * fmul fp a a)).
  { apply Rmult_le_compat_l; [lra|]. apply Rmult_le_compat_l; lra. }
  assert (A2 : (1 + u) * (fmul fp s s + fmul fp b b) <= (1 + u) * ((1 + u) * (s * s) + (1 + u) * (b * b))).
  { apply Rmult_le_compat_l; lra. }
  replace (delta * ((1 - u) ^ 2 * a ^ 2)) with ((1 - u) * (delta * ((1 - u) * (a * a)))) by ring.
  replace ((1 + u) ^ 2 * (s * s + b ^ 2)) with ((1 + u) * ((1 + u) * (s * s) + (1 + u) * (b * b))) by ring.
  lra.
Qed.

Lemma size_real theta r k i : size_test fp theta r k -> (i < k)%nat -> r i i <> 0 ->
  (1 - u) * Rabs (r i k) <= (1 + u) * Rabs (r i i) + (1 + u) ^ 2 * Rabs theta.
Proof.
  intros H Hi NZ. pose proof (abs_div (r i k) (r i i) NZ) as D.
  assert (P : 0 < Rabs (r i i)) by now apply Rabs_pos_lt.
  assert (Q : Rabs (r i k / r i i) * Rabs (r i i) = Rabs (r i k)).
  { rewrite <- Rabs_mult. f_equal. field. assumption. }
  assert (T0 : 0 <= Rabs theta) by apply Rabs_pos.
  destruct H as [H|H]; specialize (H i Hi).
  - apply (r_rnd u fp RD) in H.
    assert (E : (1 - u) * Rabs (r i k / r i i) * Rabs (r i i) <= / 2 * Rabs (r i i)) by (apply Rmult_le_compat_r; lra).
    rewrite Rmult_assoc, Q in E. assert (0 <= (1 + u) ^ 2 * Rabs theta) by (apply Rmult_le_pos; nra). nra.
  - assert (C : ~ (fadd fp (fabs fp (fdiv fp theta (r i i))) (fone fp) < fabs fp (fdiv fp (r i k) (r i i)))).
    { intros C. apply (r_cmp u fp RD) in C. congruence. }
    rewrite !(r_abs u fp RD), (r_one u fp RD) in C. apply Rnot_lt_le in C.
    pose proof (Rabs_pos (fdiv fp theta (r i i))) as P1.
    pose proof (add_hi (Rabs (fdiv fp theta (r i i))) 1 ltac:(lra)) as A.
    pose proof (abs_div theta (r i i) NZ) as D2.
    assert (Q2 : Rabs (theta / r i i) * Rabs (r i i) = Rabs theta).
    { rewrite <- Rabs_mult. f_equal. field. assumption. }
    assert (E1 : (1 + u) * (Rabs (fdiv fp theta (r i i)) + 1) <= (1 + u) * ((1 + u) * Rabs (theta / r i i) + 1)).
    { apply Rmult_le_compat_l; lra. }
    assert (E : (1 - u) * Rabs (r i k / r i i) * Rabs (r i i) <= (1 + u) * ((1 + u) * Rabs (theta / r i i) + 1) * Rabs (r i i)).
    { apply Rmult_le_compat_r; lra. }
    rewrite Rmult_assoc, Q in E.
    replace ((1 + u) * ((1 + u) * Rabs (theta / r i i) + 1) * Rabs (r i i))
      with ((1 + u) ^ 2 * (Rabs (theta / r i i) * Rabs (r i i)) + (1 + u) * Rabs (r i i)) in E by ring.
    rewrite Q2 in E. lra.
Qed.

Lemma sumsq_real (b : nat -> Z) l : (1 <= l)%nat ->
  0 <= sumsq fp (fun i => fset_z fp (b i)) l <= (1 + u) ^ (l + 2) * sumR l (fun i => IZR (b i) * IZR (b i)).
Proof.
  assert (SZ : forall z, 0 <= fset_z fp z * fset_z fp z <= (1 + u) ^ 2 * (IZR z * IZR z)).
  { intros z. split; [nra|]. pose proof (r_setz u fp RD z) as E.
    assert (A : Rabs (fset_z fp z) <= (1 + u) * Rabs (IZR z)).
    { pose proof (Rabs_triang_inv (fset_z fp z) (IZR z)). lra. }
    replace (fset_z fp z * fset_z fp z) with (Rabs (fset_z fp z) * Rabs (fset_z fp z)) by (rewrite <- Rabs_mult; apply Rabs_pos_eq; nra).
    replace ((1 + u) ^ 2 * (IZR z * IZR z)) with (((1 + u) * Rabs (IZR z)) * ((1 + u) * Rabs (IZR z))).
    - apply Rmult_le_compat; auto using Rabs_pos.
    - replace (IZR z * IZR z) with (Rabs (IZR z) * Rabs (IZR z)) by (rewrite <- Rabs_mult; apply Rabs_pos_eq; nra). ring. }
  assert (BP : forall i, 0 <= IZR (b i) * IZR (b i)) by (intros; nra).
  assert (SP : forall m, 0 <= sumR m (fun i => IZR (b i) * IZR (b i))).
  { induction m as [|m IH]; cbn [sumR]; [lra|]. pose proof (BP m). lra. }
  assert (PW : forall m, 1 <= (1 + u) ^ m) by (intros; apply pow_R1_Rle; lra).
  induction l as [|l IH]; [lia|]. intros _. destruct l as [|l].
  - cbn [sumsq sumR]. pose proof (SZ (b 0%nat)) as SS. pose proof (mul_lo (fset_z fp (b 0%nat)) (fset_z fp (b 0%nat)) ltac:(lra)) as M.
    assert (0 <= (1 - u) * (fset_z fp (b 0%nat) * fset_z fp (b 0%nat))) by (apply Rmult_le_pos; lra).
    split; [lra|]. change (1 + 2)%nat with 3%nat. replace ((1 + u) ^ 3) with ((1 + u) * (1 + u) ^ 2) by ring.
    assert ((1 + u) * (fset_z fp (b 0%nat) * fset_z fp (b 0%nat)) <= (1 + u) * ((1 + u) ^ 2 * (IZR (b 0%nat) * IZR (b 0%nat)))) by (apply Rmult_le_compat_l; lra).
    lra.
  - specialize (IH ltac:(lia)).
    change (sumsq fp (fun i => fset_z fp (b i)) (S (S l))) with
      (faddmul fp (sumsq fp (fun i => fset_z fp (b i)) (S l)) (fset_z fp (b (S l))) (fset_z fp (b (S l)))).
    set (q := sumsq fp (fun i => fset_z fp (b i)) (S l)) in *. pose proof (SZ (b (S l))) as SS.
    pose proof (r_addmul u fp RD q (fset_z fp (b (S l))) (fset_z fp (b (S l))) ltac:(lra) ltac:(lra)) as [A1 A2].
    split; [exact A1|]. change (sumR (S (S l)) (fun i => IZR (b i) * IZR (b i))) with
      (sumR (S l) (fun i => IZR (b i) * IZR (b i)) + IZR (b (S l)) * IZR (b (S l))).
    set (s := sumR (S l) (fun i => IZR (b i) * IZR (b i))) in *. set (w := fset_z fp (b (S l))) in *. set (z := IZR (b (S l))) in *.
    replace (S (S l) + 2)%nat with (S (S l + 2)) by lia. cbn [pow].
    eapply Rle_trans; [exact A2|]. rewrite Rmult_assoc. apply Rmult_le_compat_l; [lra|]. rewrite Rmult_plus_distr_l.
    apply Rplus_le_compat; [lra|].
    apply Rle_trans with ((1 + u) * ((1 + u) ^ 2 * (z * z))); [apply Rmult_le_compat_l; lra|].
    replace (S l + 2)%nat with (3 + l)%nat by lia. rewrite pow_add.
    replace ((1 + u) * ((1 + u) ^ 2 * (z * z))) with ((1 + u) ^ 3 * 1 * (z * z)) by ring.
    apply Rmult_le_compat_r; [unfold z; apply BP|]. apply Rmult_le_compat_l; [apply Rle_trans with 1; [lra|apply PW]|apply PW].
Qed.

Lemma tolerance_real (b : nat -> Z) l : (1 <= l)%nat ->
  tolerance fp b l ^ 2 <= feps fp ^ 2 * ((1 + u) ^ (l + 6) * sumR l (fun i => IZR (b i) * IZR (b i))).
Proof.
  intros Hl. destruct (sumsq_real b l Hl) as [S0 S1]. unfold tolerance.
  set (q := sumsq fp (fun i => fset_z fp (b i)) l) in *. pose proof (r_eps u fp RD) as E0.
  pose proof (r_sqrt u fp RD q S0) as E1. pose proof (sqrt_pos q) as SQ. apply Rabs_le_inv in E1.
  assert (Q0 : 0 <= fsqrt fp q) by nra.
  pose proof (mul_lo (fsqrt fp q) (feps fp) ltac:(nra)) as M.
  assert (T0 : 0 <= fmul fp (fsqrt fp q) (feps fp)).
  { assert (0 <= (1 - u) * (fsqrt fp q * feps fp)) by (apply Rmult_le_pos; [lra|nra]). lra. }
  assert (T1 : fmul fp (fsqrt fp q) (feps fp) <= (1 + u) * (((1 + u) * sqrt q) * feps fp)).
  { eapply Rle_trans; [apply M|]. apply Rmult_le_compat_l; [lra|]. apply Rmult_le_compat_r; lra. }
  apply Rle_trans with (((1 + u) * (((1 + u) * sqrt q) * feps fp)) ^ 2).
  { apply pow_incr. split; assumption. }
  replace (((1 + u) * (((1 + u) * sqrt q) * feps fp)) ^ 2) with (feps fp ^ 2 * ((1 + u) ^ 4 * (sqrt q * sqrt q))) by ring.
  rewrite sqrt_sqrt by assumption. apply Rmult_le_compat_l; [nra|].
  replace (l + 6)%nat with (4 + (l + 2))%nat by lia. rewrite pow_add, Rmult_assoc. apply Rmult_le_compat_l; [apply pow_le; lra|exact S1].
Qed.
End Bounds.

Theorem C77_hlll_bounds :
  forall u (fp : fpops R), 0 <= u < 1 -> rounded u fp -> expo_nonneg fp ->
  forall J n d A forU method long_flag depth (calls : list (call (F := R))) L fuel delta verbose junk L',
    (2 <= d)%nat -> (d <= n)%nat -> precisions_ok calls -> 0 <= delta ->
    run fp calls (new_lattice fp J n d A forU method long_flag depth) = Ok L ->
    hlll fp fuel delta verbose junk L = Ok (0%Z, L') ->
    (nblov (lc L') < cnblov_max (lcfg L'))%Z ->
    let r := Rentry fp L' in
    forall k, (1 <= k < d)%nat ->
      delta * ((1 - u) ^ 2 * r (k - 1)%nat (k - 1)%nat ^ 2) <= (1 + u) ^ 2 * (r k k ^ 2 + r (k - 1)%nat k ^ 2) /\
      ((method < 1)%Z -> (exists i, (i < n)%nat /\ Bentry L' i k <> 0%Z) ->
        exists theta,
          theta ^ 2 <= feps fp ^ 2 * ((1 + u) ^ (n + 6) * sumR n (fun i => IZR (Bentry L' i k) * IZR (Bentry L' i k))) /\
          forall i, (i < k)%nat -> r i i <> 0 ->
            (1 - u) * Rabs (r i k) <= (1 + u) * Rabs (r i i) + (1 + u) ^ 2 * Rabs theta).
Proof.
  intros u fp U0 RD EX J n d A forU method lg depth calls L fuel delta verbose junk L' D2 ND PR HD HR H HQ r k Hk.
  destruct (C75_hlll_certifies R fp EX J n d A forU method lg depth calls L fuel delta verbose junk L' D2 ND PR HR H HQ k Hk) as [P1 P2].
  split; [now apply (lovasz_real u fp)|]. intros Hm HN. specialize (P2 Hm HN). destruct P2 as (l & (LN & LZ) & P2).
  exists (tolerance fp (fun i => Bentry L' i k) l). split; [|intros i Hi NZ; now apply (size_real u fp U0 RD _ r k)].
  destruct HN as (i0 & Hi0 & NZ).
  assert (L1 : (1 <= l)%nat). { destruct l; [|lia]. exfalso. apply NZ, LZ. lia. }
  eapply Rle_trans; [apply (tolerance_real u fp U0 RD); exact L1|].
  pose proof (r_eps u fp RD). apply Rmult_le_compat_l; [nra|].
  assert (BP : forall i, 0 <= IZR (Bentry L' i k) * IZR (Bentry L' i k)) by (intros; nra).
  apply Rmult_le_compat.
  - apply pow_le; lra.
  - clear -BP. induction l as [|l IH]; cbn [sumR]; [lra|]. pose proof (BP l). lra.
  - apply Rle_pow; [lra|lia].
  - clear -LN BP. induction n as [|n IH]; [replace l with 0%nat by lia; apply Rle_refl|].
    destruct (Nat.eq_dec l (S n)) as [->|NE]; [apply Rle_refl|]. cbn [sumR]. pose proof (BP n). specialize (IH ltac:(lia)). lra.
Qed.

(** MPFR with 53 bits, no bound on the exponents *)
Example C77_case : rounded (unit 53) (flx 53) /\ expo_nonneg (flx 53) /\ 0 <= unit 53 < 1.
Proof.
  split; [apply flx_rounded; lia|]. split; [apply flx_expo|].
  pose proof (unit_pos 53). pose proof (unit_half 53 ltac:(lia)). lra.
Qed.

Lemma exact_rounded fp : exact fp -> rounded 0 fp.
Proof.
  intros X. assert (Z0 : forall a b : R, a = b -> Rabs (a - b) <= 0 * Rabs b).
  { intros a b ->. rewrite Rminus_diag_eq, Rabs_R0 by reflexivity. lra. }
  split; try apply X; intros.
  - apply Z0, X.
  - apply Z0, X.
  - apply Z0, X.
  - rewrite (e_sqrt fp X). rewrite Rminus_diag_eq, Rabs_R0 by reflexivity. lra.
  - rewrite (e_addmul fp X). lra.
  - apply Z0, X.
  - destruct (e_rnd fp X a) as (k & E1 & E2).
    assert (frnd fp a = 0). { destruct (Req_dec (frnd fp a) 0); auto. apply (e_nz fp X) in H0. congruence. }
    rewrite <- E1, H0 in E2. now rewrite Rminus_0_r in E2.
Qed.

Lemma hlll_cfg {F} (fp : fpops F) fuel delta vb junk L r L' : hlll fp fuel delta vb junk L = Ok (r, L') -> lcfg L' = lcfg L.
Proof. unfold hlll. intros H. binv H. destruct a as [[[r0 s] f] q]. now injection H as _ <-. Qed.

(** a run that the theorem is about: exact arithmetic, u = 0 *)
Example C77_run : exists fuel nb L',
  run Rfp0 [CallSetNumS 1 1000000; CallSetNblovMax nb] (new_lattice Rfp0 JR 4 3 A1 true 0 false 0) =
    Ok (fresh_object Rfp0 JR 4 3 A1 true 0 false 0 1 1000000 nb) /\
  hlll Rfp0 fuel (99 / 100) false 0 (fresh_object Rfp0 JR 4 3 A1 true 0 false 0 1 1000000 nb) = Ok (0%Z, L') /\
  (nblov (lc L') < cnblov_max (lcfg L'))%Z.
Proof.
  set (fuel := Z.to_nat (2 * potential 4 3 (fn A1) + 4)). set (nb := (Z.of_nat fuel + 1)%Z).
  exists fuel, nb.
  destruct (C43_exact_terminates Rfp0 Rfp0_exact Rfp0_half JR 4 3 A1 true 0%Z false 0%Z 1000000%Z nb A1_independent ltac:(lia)
             fuel (99 / 100) false 0 ltac:(lra) ltac:(unfold fuel; lia)) as (L & H & _).
  exists L. split; [cbn [run mfold exec bind]; unfold fresh_object; reflexivity|]. split; [exact H|].
  pose proof (hlll_tests Rfp0 fuel (99 / 100) false 0 (fresh_object Rfp0 JR 4 3 A1 true 0 false 0 1 1000000 nb) _ _ H) as T.
  apply hlll_cfg in H. rewrite H.
  cbn [fresh_object set_nblov_max set_num_S new_lattice lc nblov] in T. cbn [fresh_object set_nblov_max lcfg cnblov_max]. unfold nb. lia.
Qed.

Print Assumptions C77_hlll_bounds.
