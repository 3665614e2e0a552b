(** * C73: what hlll computes with Seysen's reduction in exact arithmetic

    The object is built with SEYSEN_REDUCTION (method >= 1) and the LONG representation of the
    coefficients.  [seysen_reduced] is in SpecSeysen.v, [exact] in Exact.v, [fresh_object] (a new
    Lattice, then set_num_S, then set_nblov_max) in Cache7.v. *)
From Coq Require Import ZArith Lia Reals Lra Floats List Bool Arith.
From Verif Require Import Base Spec Mat FP Hlll Hlll2 IntSteps HlllInt Structure Object Counters SpecReal SpecSeysen Det Fresh Cache Cache6 Cache7
  Exact ExactPot ExactTop PotBound SeysenTop ShortVec Double Examples PropExact.
Import ListNotations.
Local Open Scope R_scope.

Theorem C73_seysen_reduces :
  forall (fp : fpops R), exact fp ->
  forall J n d A u m vd thr nb, (2 <= d)%nat -> independent n d (fn A) -> (1 <= m)%Z ->
  forall fuel delta verbose junk L,
    hlll fp fuel delta verbose junk (fresh_object fp J n d A u m true vd 1 thr nb) = Ok (0%Z, L) ->
    (nblov (lc L) < nb)%Z ->
    same_lattice n d (fn A) (fn (getbase L)) /\
    Seysen_LLL_reduced n d delta (fn (getbase L)) /\
    forall junk', let r := fun i j => mget 0 (getR fp junk' L) i j in
      R_factor n d (fn (getbase L)) r /\ seysen_reduced d r /\ lovasz_ok d delta r.
Proof.
  intros fp X J n d A u m vd thr nb D2 I Hm fuel delta vb junk L H NB.
  pose proof (seysen_exact_fresh fp X J n d A u m vd thr nb fuel delta vb junk I Hm) as Q. rewrite H in Q.
  destruct Q as ([(_ & Q)|(Q & _)] & _); [|discriminate]. specialize (Q D2 NB). split; [|split; [|exact Q]].
  - change (current (fn A) (@nil (call (F := R)))) with (fn A).
    apply (run_lattice fp (e_expo fp X) J n d A u m true vd [CallSetNumS 1 thr; CallSetNblovMax nb; CallHlll fuel delta vb junk] L).
    + intros fp' f0 d0 j0 J1 J2 [E|[E|[E|[]]]]; discriminate.
    + cbn [run mfold exec bind]. unfold fresh_object in H. rewrite H. reflexivity.
  - eexists. exact (Q (fun _ _ => 0)).
Qed.

(** the entries next to the diagonal are size reduced, hence the usual bound on the first vector *)
Theorem C73_first_vector_short :
  forall n d delta B, (1 <= d)%nat -> / 4 < delta <= 1 -> Seysen_LLL_reduced n d delta B ->
  (exists r, R_factor n d B r /\ forall i, (S i < d)%nat -> Rabs (r i (S i)) <= Rabs (r i i) / 2) /\
  forall v, in_lattice n d B v -> (exists i, (i < n)%nat /\ v i <> 0%Z) ->
    IZR (norm2 n (fun i => B i 0%nat)) <= (/ (delta - / 4)) ^ (d - 1) * IZR (norm2 n v).
Proof.
  intros n d delta B Hd HD (r & RF & SR & LO).
  assert (HN : half_next d r) by (apply seysen_half_next; [exact SR|exact (proj1 RF)]).
  split; [now exists r|]. intros v Hv Nv.
  pose proof (short_first_next n d delta B r Hd HD RF HN LO v Hv Nv) as S.
  assert (P : 0 < (delta - / 4) ^ (d - 1)) by (apply pow_lt; lra).
  rewrite pow_inv. apply Rmult_le_reg_l with (1 := P). rewrite <- Rmult_assoc, Rinv_r, Rmult_1_l by lra. exact S.
Qed.

Theorem C73_never_gives_up :
  forall (fp : fpops R), exact fp ->
  forall J n d A u m vd thr nb, independent n d (fn A) -> (1 <= m)%Z ->
  forall fuel delta verbose junk, delta <= 1 ->
    match hlll fp fuel delta verbose junk (fresh_object fp J n d A u m true vd 1 thr nb) with
    | Ok (r, _) => r = 0%Z
    | UB => False
    | NoFuel => True
    end.
Proof.
  intros fp X J n d A u m vd thr nb I Hm fuel delta vb junk HD.
  pose proof (seysen_exact_fresh fp X J n d A u m vd thr nb fuel delta vb junk I Hm) as Q.
  destruct (hlll _ _ _ _ _ _) as [[r L]| |]; auto. destruct Q as ([(Q & _)|(_ & Q)] & _); [exact Q|lra].
Qed.

Theorem C73_terminates :
  forall (fp : fpops R), exact fp -> (forall x, Rabs x <= / 2 -> frnd fp x = 0) ->
  forall J n d A u m vd thr nb, independent n d (fn A) -> (1 <= m)%Z ->
  forall fuel delta verbose junk, delta <= 1 ->
    (2 * potential n d (fn A) + Z.of_nat d + 1 <= Z.of_nat fuel)%Z ->
    exists L, hlll fp fuel delta verbose junk (fresh_object fp J n d A u m true vd 1 thr nb) = Ok (0%Z, L) /\
      ((Z.of_nat fuel < nb)%Z -> (2 <= d)%nat -> Seysen_LLL_reduced n d delta (fn (getbase L))).
Proof.
  intros fp X HH J n d A u m vd thr nb I Hm fuel delta vb junk HD HF.
  pose proof (seysen_exact_fresh fp X J n d A u m vd thr nb fuel delta vb junk I Hm) as Q.
  pose proof (hlll_tests fp fuel delta vb junk (fresh_object fp J n d A u m true vd 1 thr nb)) as T.
  destruct (hlll fp fuel delta vb junk (fresh_object fp J n d A u m true vd 1 thr nb)) as [[r L]| |] eqn:E.
  - destruct Q as ([(-> & _)|(_ & Q)] & _); [|lra]. exists L. split; [reflexivity|]. intros NB D2.
    specialize (T _ _ eq_refl). cbn [fresh_object set_nblov_max set_num_S new_lattice lc nblov] in T.
    now apply (C73_seysen_reduces fp X J n d A u m vd thr nb D2 I Hm fuel delta vb junk L E ltac:(lia)).
  - contradiction.
  - specialize (Q HH HD). lia.
Qed.

(** both in terms of a bound M on the squared lengths of the input columns *)
Theorem C73_terminates_length :
  forall (fp : fpops R), exact fp -> (forall x, Rabs x <= / 2 -> frnd fp x = 0) ->
  forall J n d A u m vd thr nb, independent n d (fn A) -> (1 <= m)%Z ->
  forall fuel delta verbose junk M K, 0 < delta <= 1 ->
    (forall j, (j < d)%nat -> IZR (norm2 n (fun i => fn A i j)) <= M) ->
    delta ^ K * M ^ (d * (d + 1) / 2) < 1 -> (2 * K + d + 1 <= fuel)%nat ->
    exists L, hlll fp fuel delta verbose junk (fresh_object fp J n d A u m true vd 1 thr nb) = Ok (0%Z, L) /\
      ((Z.of_nat fuel < nb)%Z -> (2 <= d)%nat -> Seysen_LLL_reduced n d delta (fn (getbase L))).
Proof.
  intros fp X HH J n d A u m vd thr nb I Hm fuel delta vb junk M K HD HM HK HF.
  destruct (rf_independent fp X n d A I) as (rr & RF). pose proof (potential_le n d (fn A) rr M RF HM) as B.
  pose proof (seysen_exact_fresh fp X J n d A u m vd thr nb fuel delta vb junk I Hm) as Q.
  pose proof (hlll_tests fp fuel delta vb junk (fresh_object fp J n d A u m true vd 1 thr nb)) as T.
  destruct (hlll fp fuel delta vb junk (fresh_object fp J n d A u m true vd 1 thr nb)) as [[r L]| |] eqn:E.
  - destruct Q as ([(-> & _)|(_ & Q)] & _); [|lra]. exists L. split; [reflexivity|]. intros NB D2.
    specialize (T _ _ eq_refl). cbn [fresh_object set_nblov_max set_num_S new_lattice lc nblov] in T.
    now apply (C73_seysen_reduces fp X J n d A u m vd thr nb D2 I Hm fuel delta vb junk L E ltac:(lia)).
  - contradiction.
  - destruct (Q HH (proj2 HD)) as (_ & Q2). specialize (Q2 K (proj1 HD)).
    assert (P : 0 < delta ^ K) by (apply pow_lt; lra).
    assert (delta ^ K * IZR (potential n d (fn A)) < 1); [|specialize (Q2 H); lia].
    apply Rle_lt_trans with (2 := HK). apply Rmult_le_compat_l; lra.
Qed.

Theorem C73_swaps :
  forall (fp : fpops R), exact fp ->
  forall J n d A u m vd thr nb, independent n d (fn A) -> (1 <= m)%Z ->
  forall fuel delta verbose junk r L, 0 < delta ->
    hlll fp fuel delta verbose junk (fresh_object fp J n d A u m true vd 1 thr nb) = Ok (r, L) ->
    (1 <= potential n d (fn (getbase L)))%Z /\
    (/ delta) ^ Z.to_nat (nbswaps (lc L)) * IZR (potential n d (fn (getbase L))) <= IZR (potential n d (fn A)).
Proof.
  intros fp X J n d A u m vd thr nb I Hm fuel delta vb junk r L HD H.
  pose proof (seysen_exact_fresh fp X J n d A u m vd thr nb fuel delta vb junk I Hm) as Q. rewrite H in Q.
  destruct Q as (_ & k & -> & K). specialize (K HD). rewrite Nat2Z.id.
  assert (P : 0 < delta ^ k) by (now apply pow_lt).
  destruct K as (K1 & K2). split; [now apply le_IZR|].
  rewrite pow_inv. apply Rmult_le_reg_l with (1 := P). rewrite <- Rmult_assoc, Rinv_r, Rmult_1_l by lra. exact K2.
Qed.

Example C73_case : exists fuel nb L,
  exact Rfp0 /\ (forall x, Rabs x <= / 2 -> frnd Rfp0 x = 0) /\ independent 4 3 (fn A1) /\
  hlll Rfp0 fuel (99 / 100) false 0 (fresh_object Rfp0 JR 4 3 A1 true 1 true 0 1 1000000 nb) = Ok (0%Z, L) /\
  (nblov (lc L) < nb)%Z /\ Seysen_LLL_reduced 4 3 (99 / 100) (fn (getbase L)).
Proof.
  set (fuel := Z.to_nat (2 * potential 4 3 (fn A1) + 4)). set (nb := (Z.of_nat fuel + 1)%Z).
  destruct (C73_terminates Rfp0 Rfp0_exact Rfp0_half JR 4 3 A1 true 1%Z 0%Z 1000000%Z nb A1_independent ltac:(lia)
    fuel (99 / 100) false 0 ltac:(lra)) as (L & HL & RD).
  { unfold fuel. lia. }
  exists fuel, nb, L. split; [apply Rfp0_exact|]. split; [exact Rfp0_half|]. split; [apply A1_independent|]. split; [exact HL|]. split.
  - apply hlll_tests in HL. cbn [fresh_object set_nblov_max set_num_S new_lattice lc nblov] in HL. unfold nb. lia.
  - apply RD; [unfold nb|]; lia.
Qed.

(** ** The restriction to LONG is needed: with NO_LONG the coefficient subtracted is read from another
    variable.  Here the basis (1,0), (7,1) is returned with status 0 although it is not reduced. *)
Definition A71 : mat Z := [[1; 0]; [7; 1]]%Z.

Theorem C73_no_long_refuted :
  ~ (forall J n d A u m lg vd fuel delta verbose junk L, (2 <= d)%nat -> independent n d (fn A) -> (1 <= m)%Z ->
      hlll dbl fuel delta verbose junk (new_lattice dbl J n d A u m lg vd) = Ok (0%Z, L) ->
      exists r, R_factor n d (fn (getbase L)) r /\ forall i, (S i < d)%nat -> Rabs (r i (S i)) <= Rabs (r i i)).
Proof.
  intros H.
  assert (R0 : exists L, hlll dbl 20 d99 false 0%float (new_lattice dbl Jz 2 2 A71 false 1 false 0) = Ok (0%Z, L) /\ getbase L = A71)
    by (eexists; split; vm_compute; reflexivity).
  destruct R0 as (L & RL & GB).
  destruct (H Jz 2%nat 2%nat A71 false 1%Z false 0%Z 20%nat d99 false 0%float L ltac:(lia)) as (r & (U & _ & G) & Q); [|lia|exact RL|].
  - intros c0 K j Hj. pose proof (K 0%nat ltac:(lia)) as H0. pose proof (K 1%nat ltac:(lia)) as H1.
    cbv [sumZ fn mget col nth A71] in H0, H1. destruct j as [|[|j]]; lia.
  - rewrite GB in G. pose proof (G 0%nat 0%nat ltac:(lia) ltac:(lia)) as G0. pose proof (G 0%nat 1%nat ltac:(lia) ltac:(lia)) as G1.
    pose proof (U 1%nat 0%nat ltac:(lia)) as U1. pose proof (Q 0%nat ltac:(lia)) as Q0.
    cbn [sumR] in G0, G1. rewrite U1 in G0, G1.
    replace (sumZ 2 (fun i => fn A71 i 0%nat * fn A71 i 0%nat)%Z) with 1%Z in G0 by reflexivity.
    replace (sumZ 2 (fun i => fn A71 i 0%nat * fn A71 i 1%nat)%Z) with 7%Z in G1 by reflexivity.
    assert (E0 : Rabs (r 0%nat 0%nat) * Rabs (r 0%nat 0%nat) = 1) by (rewrite <- Rabs_mult; rewrite Rabs_right; lra).
    assert (E1 : Rabs (r 0%nat 0%nat) * Rabs (r 0%nat 1%nat) = 7) by (rewrite <- Rabs_mult; rewrite Rabs_right; lra).
    pose proof (Rabs_pos (r 0%nat 0%nat)).
    assert (Rabs (r 0%nat 0%nat) * Rabs (r 0%nat 1%nat) <= Rabs (r 0%nat 0%nat) * Rabs (r 0%nat 0%nat)) by (apply Rmult_le_compat_l; lra).
    lra.
Qed.

Print Assumptions C73_seysen_reduces.
Print Assumptions C73_first_vector_short.
Print Assumptions C73_terminates.
Print Assumptions C73_terminates_length.
Print Assumptions C73_swaps.
Print Assumptions C73_no_long_refuted.
