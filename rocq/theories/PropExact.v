(** * What hlll computes in exact arithmetic: C04, C38, C42, C43, C44

    [exact fp] (Exact.v): the floating-point operations are those of the real numbers
    and rnd rounds to a nearest integer.  [fresh_object] (Cache7.v) is a new Lattice
    (constructor, then set_num_S 1, then set_nblov_max nb).  R_factor, size_reduced,
    lovasz_ok, LLL_reduced, norm2 are in SpecReal.v. *)
From Coq Require Import ZArith Lia Reals Lra List Bool Arith.
From Verif Require Import Base Spec Mat FP Hlll Hlll2 IntSteps HlllInt Structure Object Counters SpecReal Det Fresh Cache Cache6 Cache7
  Exact ExactPot ExactTop PotBound ShortVec Examples.
Import ListNotations.
Local Open Scope R_scope.

(** an exact arithmetic that rounds +-1/2 to 0, as rint of mpfr and double do *)
Definition Rnear0 (x : R) : Z := if Rle_dec (Rabs x) (/ 2) then 0%Z else Rnear x.
Definition Rfp0 : fpops R := mk_fpops R 0 1 (/ 10) (/ 100) (/ 100000000000)
  Rplus Rminus Rmult Rdiv Ropp Rabs sqrt (fun x => IZR (Rnear0 x))
  (fun r a b => r + a * b) (fun r a b => r - a * b)
  Rleb Rltb (fun a b => Rltb b a) (fun a => negb (Rleb a 0 && Rleb 0 a)) IZR (fun x => (Rnear x, 0%Z)) Rnear.

Lemma Rfp0_exact : exact Rfp0.
Proof.
  destruct Rfp_exact. split; auto.
  intros x. cbn. unfold Rnear0. destruct (Rle_dec _ _) as [H|H].
  - exists 0%Z. split; [reflexivity|]. now rewrite Rminus_0_r.
  - exists (Rnear x). split; [reflexivity|apply Rnear_spec].
Qed.

Lemma Rfp0_half x : Rabs x <= / 2 -> frnd Rfp0 x = 0.
Proof. intros H. cbn. unfold Rnear0. destruct (Rle_dec _ _); [reflexivity|contradiction]. Qed.

Definition JR : junk_t (F := R) := mkJ (fun _ _ => 7) (fun _ _ => 7) (fun _ _ => 7) (fun _ _ => 7) (fun _ => 7) (fun _ => 7) 7 3.

(** ** C04: what hlll returns is LLL-reduced and getR is its R factor *)
Theorem C04_exact_hlll_reduces :
  forall (fp : fpops R), exact fp ->
  forall J n d A u m lg vd thr nb, (2 <= d)%nat -> independent n d (fn A) -> (m < 1)%Z ->
  forall fuel delta verbose junk L,
    hlll fp fuel delta verbose junk (fresh_object fp J n d A u m lg vd 1 thr nb) = Ok (0%Z, L) ->
    (nblov (lc L) < nb)%Z ->
    same_lattice n d (fn A) (fn (getbase L)) /\
    LLL_reduced n d delta (fn (getbase L)) /\
    forall junk', let r := fun i j => mget 0 (getR fp junk' L) i j in
      R_factor n d (fn (getbase L)) r /\ size_reduced d r /\ lovasz_ok d delta r.
Proof.
  intros fp X J n d A u m lg vd thr nb D2 I Hm fuel delta vb junk L H NB.
  pose proof (hlll_exact_fresh fp X J n d A u m lg vd thr nb fuel delta vb junk I Hm) as Q. rewrite H in Q.
  destruct Q as ([(_ & Q)|(Q & _)] & _); [|discriminate]. specialize (Q D2 NB). split; [|split; [|exact Q]].
  - change (current (fn A) (@nil (call (F := R)))) with (fn A).
    apply (run_lattice fp (e_expo fp X) J n d A u m lg vd [CallSetNumS 1 thr; CallSetNblovMax nb; CallHlll fuel delta vb junk] L).
    + intros fp' f0 d0 j0 J1 J2 [E|[E|[E|[]]]]; discriminate.
    + cbn [run mfold exec bind]. unfold fresh_object in H. rewrite H. reflexivity.
  - eexists. exact (Q (fun _ _ => 0)).
Qed.

(** ** C38: the first column of the reduced basis is short *)
Theorem C38_first_vector_short :
  forall (fp : fpops R), exact fp ->
  forall J n d A u m lg vd thr nb, (2 <= d)%nat -> independent n d (fn A) -> (m < 1)%Z ->
  forall fuel delta verbose junk L, / 4 < delta <= 1 ->
    hlll fp fuel delta verbose junk (fresh_object fp J n d A u m lg vd 1 thr nb) = Ok (0%Z, L) ->
    (nblov (lc L) < nb)%Z ->
    forall v, in_lattice n d (fn A) v -> (exists i, (i < n)%nat /\ v i <> 0%Z) ->
    IZR (norm2 n (fun i => fn (getbase L) i 0%nat)) <= (/ (delta - / 4)) ^ (d - 1) * IZR (norm2 n v).
Proof.
  intros fp X J n d A u m lg vd thr nb D2 I Hm fuel delta vb junk L HD H NB v Hv Nv.
  destruct (C04_exact_hlll_reduces fp X J n d A u m lg vd thr nb D2 I Hm fuel delta vb junk L H NB) as (SL & LR & _).
  pose proof (short_first n d delta (fn (getbase L)) ltac:(lia) HD LR v (proj1 (SL v) Hv) Nv) as S.
  assert (P : 0 < (delta - / 4) ^ (d - 1)) by (apply pow_lt; lra).
  rewrite pow_inv. apply Rmult_le_reg_l with (1 := P). rewrite <- Rmult_assoc, Rinv_r, Rmult_1_l by lra. exact S.
Qed.

(** ** C42: hlll gives up (-1) only on values of delta above 1, and never leaves its matrices *)
Theorem C42_exact_never_gives_up :
  forall (fp : fpops R), exact fp ->
  forall J n d A u m lg vd thr nb, independent n d (fn A) -> (m < 1)%Z ->
  forall fuel delta verbose junk, delta <= 1 ->
    match hlll fp fuel delta verbose junk (fresh_object fp J n d A u m lg vd 1 thr nb) with
    | Ok (r, _) => r = 0%Z
    | UB => False
    | NoFuel => True
    end.
Proof.
  intros fp X J n d A u m lg vd thr nb I Hm fuel delta vb junk HD.
  pose proof (hlll_exact_fresh fp X J n d A u m lg vd thr nb fuel delta vb junk I Hm) as Q.
  destruct (hlll _ _ _ _ _ _) as [[r L]| |]; auto. destruct Q as ([(Q & _)|(_ & Q)] & _); [exact Q|lra].
Qed.

(** ** C43: termination.  [potential n d A] (ExactPot.v) is the product over k of the
    determinants of the Gram matrices of the first k columns of A *)
Theorem C43_exact_terminates :
  forall (fp : fpops R), exact fp -> (forall x, Rabs x <= / 2 -> frnd fp x = 0) ->
  forall J n d A u m lg vd thr nb, independent n d (fn A) -> (m < 1)%Z ->
  forall fuel delta verbose junk, delta <= 1 ->
    (2 * potential n d (fn A) + Z.of_nat d + 1 <= Z.of_nat fuel)%Z ->
    exists L, hlll fp fuel delta verbose junk (fresh_object fp J n d A u m lg vd 1 thr nb) = Ok (0%Z, L) /\
      ((Z.of_nat fuel < nb)%Z -> (2 <= d)%nat -> LLL_reduced n d delta (fn (getbase L))).
Proof.
  intros fp X HH J n d A u m lg vd thr nb I Hm fuel delta vb junk HD HF.
  pose proof (hlll_exact_fresh fp X J n d A u m lg vd thr nb fuel delta vb junk I Hm) as Q.
  pose proof (hlll_tests fp fuel delta vb junk (fresh_object fp J n d A u m lg vd 1 thr nb)) as T.
  destruct (hlll fp fuel delta vb junk (fresh_object fp J n d A u m lg vd 1 thr nb)) as [[r L]| |] eqn:E.
  - destruct Q as ([(-> & _)|(_ & Q)] & _); [|lra]. exists L. split; [reflexivity|]. intros NB D2.
    specialize (T _ _ eq_refl). cbn [fresh_object set_nblov_max set_num_S new_lattice lc nblov] in T.
    now apply (C04_exact_hlll_reduces fp X J n d A u m lg vd thr nb D2 I Hm fuel delta vb junk L E ltac:(lia)).
  - contradiction.
  - specialize (Q HH HD). lia.
Qed.

(** ** C44: every swap divides the potential by 1/delta at least, and the potential of the result is at least 1:
    when delta < 1 the number of swaps is at most log(potential)/log(1/delta) *)
Theorem C44_exact_swaps :
  forall (fp : fpops R), exact fp ->
  forall J n d A u m lg vd thr nb, independent n d (fn A) -> (m < 1)%Z ->
  forall fuel delta verbose junk r L, 0 < delta ->
    hlll fp fuel delta verbose junk (fresh_object fp J n d A u m lg vd 1 thr nb) = Ok (r, L) ->
    (1 <= potential n d (fn (getbase L)))%Z /\
    (/ delta) ^ Z.to_nat (nbswaps (lc L)) * IZR (potential n d (fn (getbase L))) <= IZR (potential n d (fn A)).
Proof.
  intros fp X J n d A u m lg vd thr nb I Hm fuel delta vb junk r L HD H.
  pose proof (hlll_exact_fresh fp X J n d A u m lg vd thr nb fuel delta vb junk I Hm) as Q. rewrite H in Q.
  destruct Q as (_ & k & -> & K). specialize (K HD). rewrite Nat2Z.id.
  assert (P : 0 < delta ^ k) by (now apply pow_lt).
  destruct K as (K1 & K2). split; [now apply le_IZR|].
  rewrite pow_inv. apply Rmult_le_reg_l with (1 := P). rewrite <- Rmult_assoc, Rinv_r, Rmult_1_l by lra. exact K2.
Qed.

(** the hypotheses are met: a 4x3 matrix, delta = 0.99, and enough fuel *)
Example exact_case : exists fuel nb L,
  exact Rfp0 /\ (forall x, Rabs x <= / 2 -> frnd Rfp0 x = 0) /\ independent 4 3 (fn A1) /\
  hlll Rfp0 fuel (99 / 100) false 0 (fresh_object Rfp0 JR 4 3 A1 true 0 false 0 1 1000000 nb) = Ok (0%Z, L) /\
  (nblov (lc L) < nb)%Z /\ LLL_reduced 4 3 (99 / 100) (fn (getbase L)).
Proof.
  set (fuel := Z.to_nat (2 * potential 4 3 (fn A1) + 4)). set (nb := (Z.of_nat fuel + 1)%Z).
  destruct (C43_exact_terminates Rfp0 Rfp0_exact Rfp0_half JR 4 3 A1 true 0%Z false 0%Z 1000000%Z nb A1_independent ltac:(lia)
    fuel (99 / 100) false 0 ltac:(lra)) as (L & HL & RD).
  { unfold fuel. lia. }
  exists fuel, nb, L. split; [apply Rfp0_exact|]. split; [exact Rfp0_half|]. split; [apply A1_independent|]. split; [exact HL|]. split.
  - apply hlll_tests in HL. cbn [fresh_object set_nblov_max set_num_S new_lattice lc nblov] in HL. unfold nb. lia.
  - apply RD; [unfold nb|]; lia.
Qed.

(** ** C43, C44 from the lengths of the input columns only: with M a bound on the squared lengths, at most
    log(M) d(d+1)/2 / log(1/delta) swaps, and twice as many turns of the main loop plus d *)
Theorem C44_exact_swaps_length :
  forall (fp : fpops R), exact fp ->
  forall J n d A u m lg vd thr nb, independent n d (fn A) -> (m < 1)%Z ->
  forall fuel delta verbose junk r L M, 0 < delta ->
    hlll fp fuel delta verbose junk (fresh_object fp J n d A u m lg vd 1 thr nb) = Ok (r, L) ->
    (forall j, (j < d)%nat -> IZR (norm2 n (fun i => fn A i j)) <= M) ->
    (/ delta) ^ Z.to_nat (nbswaps (lc L)) <= M ^ (d * (d + 1) / 2).
Proof.
  intros fp X J n d A u m lg vd thr nb I Hm fuel delta vb junk r L M HD H HM.
  destruct (C44_exact_swaps fp X J n d A u m lg vd thr nb I Hm fuel delta vb junk r L HD H) as (P & Q).
  destruct (rf_independent fp X n d A I) as (rr & RF). pose proof (potential_le n d (fn A) rr M RF HM) as B.
  apply IZR_le in P. assert (D0 : 0 <= (/ delta) ^ Z.to_nat (nbswaps (lc L))) by (apply pow_le; left; now apply Rinv_0_lt_compat). nra.
Qed.

Theorem C43_exact_terminates_length :
  forall (fp : fpops R), exact fp -> (forall x, Rabs x <= / 2 -> frnd fp x = 0) ->
  forall J n d A u m lg vd thr nb, independent n d (fn A) -> (m < 1)%Z ->
  forall fuel delta verbose junk M K, 0 < delta <= 1 ->
    (forall j, (j < d)%nat -> IZR (norm2 n (fun i => fn A i j)) <= M) ->
    delta ^ K * M ^ (d * (d + 1) / 2) < 1 -> (2 * K + d + 1 <= fuel)%nat ->
    exists L, hlll fp fuel delta verbose junk (fresh_object fp J n d A u m lg vd 1 thr nb) = Ok (0%Z, L) /\
      ((Z.of_nat fuel < nb)%Z -> (2 <= d)%nat -> LLL_reduced n d delta (fn (getbase L))).
Proof.
  intros fp X HH J n d A u m lg vd thr nb I Hm fuel delta vb junk M K HD HM HK HF.
  destruct (rf_independent fp X n d A I) as (rr & RF). pose proof (potential_le n d (fn A) rr M RF HM) as B.
  pose proof (hlll_exact_fresh fp X J n d A u m lg vd thr nb fuel delta vb junk I Hm) as Q.
  pose proof (hlll_tests fp fuel delta vb junk (fresh_object fp J n d A u m lg vd 1 thr nb)) as T.
  destruct (hlll fp fuel delta vb junk (fresh_object fp J n d A u m lg vd 1 thr nb)) as [[r L]| |] eqn:E.
  - destruct Q as ([(-> & _)|(_ & Q)] & _); [|lra]. exists L. split; [reflexivity|]. intros NB D2.
    specialize (T _ _ eq_refl). cbn [fresh_object set_nblov_max set_num_S new_lattice lc nblov] in T.
    now apply (C04_exact_hlll_reduces fp X J n d A u m lg vd thr nb D2 I Hm fuel delta vb junk L E ltac:(lia)).
  - contradiction.
  - destruct (Q HH (proj2 HD)) as (_ & Q2). specialize (Q2 K (proj1 HD)).
    assert (P : 0 < delta ^ K) by (apply pow_lt; lra).
    assert (delta ^ K * IZR (potential n d (fn A)) < 1); [|specialize (Q2 H); lia].
    apply Rle_lt_trans with (2 := HK). apply Rmult_le_compat_l; lra.
Qed.

Lemma pow99 e : (99 / 100) ^ (69 * e) * 2 ^ e <= 1.
Proof.
  rewrite pow_mult, <- Rpow_mult_distr. rewrite <- (pow1 e). apply pow_incr.
  assert (H : (99 / 100) ^ 69 <= / 2).
  { unfold Rdiv. rewrite Rpow_mult_distr, pow_inv. apply Rmult_le_reg_r with (100 ^ 69); [apply pow_lt; lra|].
    rewrite Rmult_assoc, Rinv_l, Rmult_1_r by (apply pow_nonzero; lra). apply Rmult_le_reg_l with 2; [lra|].
    rewrite <- Rmult_assoc, Rinv_r, Rmult_1_l by lra. rewrite !pow_IZR, <- mult_IZR. apply IZR_le. vm_compute. discriminate. }
  split; [|lra]. assert (0 < (99 / 100) ^ 69) by (apply pow_lt; lra). lra.
Qed.

(** the hypotheses are met with a fuel far below the default limit 2^32 - 1 on the number of tests *)
Example exact_length_case : exists fuel L, (fuel < 50000)%Z /\
  hlll Rfp0 (Z.to_nat fuel) (99 / 100) false 0 (fresh_object Rfp0 JR 4 3 A1 true 0 false 0 1 1000000 4294967295) = Ok (0%Z, L) /\
  LLL_reduced 4 3 (99 / 100) (fn (getbase L)).
Proof.
  assert (M : forall j, (j < 3)%nat -> IZR (norm2 4 (fun i => fn A1 i j)) <= 2 ^ 20).
  { intros j Hj. rewrite pow_IZR. apply IZR_le. destruct j as [|[|[|j]]]; [| | |lia]; vm_compute; discriminate. }
  set (K := (69 * 121)%nat). set (fuel := 40000%Z).
  destruct (C43_exact_terminates_length Rfp0 Rfp0_exact Rfp0_half JR 4 3 A1 true 0%Z false 0%Z 1000000%Z 4294967295%Z A1_independent ltac:(lia)
    (Z.to_nat fuel) (99 / 100) false 0 (2 ^ 20) K ltac:(lra) M) as (L & HL & RD).
  - change (3 * (3 + 1) / 2)%nat with 6%nat. rewrite <- pow_mult. change (20 * 6)%nat with 120%nat.
    pose proof (pow99 121) as P. fold K in P. replace (2 ^ 121) with (2 * 2 ^ 120) in P by reflexivity.
    assert (0 < (99 / 100) ^ K) by (apply pow_lt; lra). assert (0 < 2 ^ 120) by (apply pow_lt; lra). nra.
  - unfold K, fuel. lia.
  - exists fuel, L. split; [reflexivity|]. split; [exact HL|]. apply RD; unfold fuel; lia.
Qed.

Print Assumptions C04_exact_hlll_reduces.
Print Assumptions C38_first_vector_short.
Print Assumptions C43_exact_terminates.
Print Assumptions C44_exact_swaps.
Print Assumptions C43_exact_terminates_length.
Print Assumptions C44_exact_swaps_length.
