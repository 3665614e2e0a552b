(** * C93: backward stability of the R factor that hlll leaves over IEEE doubles

    C78 proves it for arithmetics without overflow nor underflow.  Here the arithmetic is [dbl], that of
    Lattice<..., double, ...>: IEEE binary64 with its exponent range.  All the hypotheses after the call
    are tests on what getbase and getR return.  [dval x] is the real number the double x stands for,
    du = 2^-53 (DblReal.v); [R_factor_of] and [sq] are in SpecBack.v. *)
From Coq Require Import ZArith Lia List Bool Arith Floats Reals Lra Psatz.
From Flocq Require Import Core BinarySingleNaN PrimFloat.
From Verif Require Import Base Spec Mat FP Hlll Hlll2 HlllInt Structure Object Safety Counters SpecReal SpecBack SpecCert Cache7 BackTop PropCert Double DblReal DblErr DblTop PropDouble PropRound Examples.
Import ListNotations.
Local Open Scope R_scope.

(** 2^-400 < |x| < 2^500 *)
Definition in_range (x : PrimFloat.float) : Prop := PrimFloat.ltb 0x1p-400%float (PrimFloat.abs x) = true /\ not_huge x.

Lemma in_range_val x : in_range x -> bpow radix2 (-400) <= Rabs (dval x).
Proof.
  intros [H1 H2]. apply not_huge_val in H2 as [F2 _]. destruct (dval_pow2 0x1p-400%float (-452) ltac:(vm_compute; reflexivity)) as [F E].
  apply dval_ltb in H1; [|exact F|now apply dfin_abs]. rewrite E, dval_abs in H1. left. exact H1.
Qed.

(** the computed R is the exact R factor of a matrix whose columns differ from those of the returned
    basis by a relative 12 (j+1)(5n+20) 2^-53 at most *)
Theorem C93_double_backward_stable :
  forall J n d A forU method long_flag depth nS thr nb,
    (2 <= d)%nat -> staircase n d (fn A) -> structure_ok dbl n d (fn A) ->
    (24 * Z.of_nat d * (5 * Z.of_nat n + 20) <= 2 ^ 53)%Z ->
  forall fuel delta verbose junk L',
    hlll dbl fuel delta verbose junk (fresh_object dbl J n d A forU method long_flag depth nS thr nb) = Ok (0%Z, L') ->
    (nblov (lc L') < nb)%Z ->
    (forall i j, (i < n)%nat -> (j < d)%nat -> (Z.abs (Bentry L' i j) <= 2 ^ 400)%Z) ->
    (forall j, (j < d)%nat -> exists i, (i < n)%nat /\ Bentry L' i j <> 0%Z) ->
    (forall j, (j < d)%nat -> in_range (Rentry dbl L' j j)) ->
    exists E : nat -> nat -> R,
      (forall j, (j < d)%nat ->
         sq n (fun i => E i j) <= (12 * (INR (S j) * INR (5 * n + 20) * du)) ^ 2 * sq n (fun i => IZR (Bentry L' i j))) /\
      R_factor_of n d (fun i j => IZR (Bentry L' i j) + E i j) (fun i j => dval (Rentry dbl L' i j)).
Proof.
  intros J n d A forU m lg vd nS thr nb D2 SC SO SZ fuel delta vb junk L' H HQ HB HZ NT.
  pose proof (ready_fresh dbl J n d A forU m lg vd nS thr nb SC SO) as RD.
  assert (EC : lcfg L' = lcfg (fresh_object dbl J n d A forU m lg vd nS thr nb)) by (eapply PropRound.hlll_cfg; exact H).
  assert (GL : forall j, (j < d)%nat -> gam du n j <= 12 * (INR (S j) * INR (5 * n + 20) * du)).
  { intros j Hj. apply gam_lin; [left; apply du_pos|]. now apply (gam_dbl n d). }
  destruct (ready_back_d (fresh_object dbl J n d A forU m lg vd nS thr nb) fuel delta vb junk L' RD H D2) as (E & E1 & E2).
  - rewrite EC. exact HQ.
  - change (cn (lcfg (fresh_object dbl J n d A forU m lg vd nS thr nb))) with n. nia.
  - apply (acc_dbl n d); [exact SZ|lia].
  - intros j Hj. eapply Rle_trans; [now apply GL|]. pose proof (gam_dbl n d j SZ Hj). lra.
  - intros i j Hi Hj. rewrite <- abs_IZR. change (bpow radix2 400) with (IZR (2 ^ 400)). apply IZR_le. now apply HB.
  - intros j Hj. now apply HZ.
  - intros j Hj. now apply in_range_val, NT.
  - exists E. split; [|exact E2]. intros j Hj. eapply Rle_trans; [apply (E1 j Hj)|].
    apply Rmult_le_compat_r; [apply sumR_nonneg; intros; nra|]. apply pow_incr. split; [|now apply GL].
    apply (BackCol.gamK_pos du U0 n (S j)).
Qed.

(** together with C92: a basis B, returned with 0 and passing these tests, is a relative
    12 d (5n+20) 2^-53 away, column by column, from a matrix whose exact R factor obeys the Lovasz
    inequalities and the size inequalities up to roundings *)
Theorem C93_double_certificate :
  forall J n d A forU method long_flag depth nS thr nb,
    (2 <= d <= n)%nat -> staircase n d (fn A) -> structure_ok dbl n d (fn A) ->
    (24 * Z.of_nat d * (5 * Z.of_nat n + 20) <= 2 ^ 53)%Z -> (method < 1)%Z ->
  forall fuel delta verbose junk L',
    PrimFloat.leb 0 delta = true -> PrimFloat.leb delta 1 = true ->
    hlll dbl fuel delta verbose junk (fresh_object dbl J n d A forU method long_flag depth nS thr nb) = Ok (0%Z, L') ->
    (nblov (lc L') < nb)%Z ->
    (forall i j, (i < n)%nat -> (j < d)%nat -> (Z.abs (Bentry L' i j) <= 2 ^ 400)%Z) ->
    (forall j, (j < d)%nat -> exists i, (i < n)%nat /\ Bentry L' i j <> 0%Z) ->
    (forall j, (j < d)%nat -> in_range (Rentry dbl L' j j)) ->
    (forall i j, (i < j < d)%nat -> not_huge (Rentry dbl L' i j)) ->
    exists E r : nat -> nat -> R,
      (forall j, (j < d)%nat ->
         sq n (fun i => E i j) <= (12 * (INR (S j) * INR (5 * n + 20) * du)) ^ 2 * sq n (fun i => IZR (Bentry L' i j))) /\
      R_factor_of n d (fun i j => IZR (Bentry L' i j) + E i j) r /\
      forall k, (1 <= k < d)%nat ->
        (1 - du) ^ 2 * (dval delta * r (k - 1)%nat (k - 1)%nat ^ 2) <=
          (1 + du) ^ 2 * (r k k ^ 2 + r (k - 1)%nat k ^ 2) + bpow radix2 (-1072) /\
        exists theta, 0 <= theta /\
          theta ^ 2 <= dval eps_double ^ 2 * ((1 + du) ^ (n + 6) * sq n (fun i => IZR (Bentry L' i k))) /\
          forall i, (i < k)%nat -> (1 - du) * Rabs (r i k) <= (1 + 2 * du) * Rabs (r i i) + (1 + du) ^ 2 * theta.
Proof.
  intros J n d A forU m lg vd nS thr nb [D2 DN] SC SO SZ HM fuel delta vb junk L' DL0 DL1 H HQ HB HZ NT NH.
  destruct (C93_double_backward_stable J n d A forU m lg vd nS thr nb D2 SC SO SZ fuel delta vb junk L' H HQ HB HZ NT) as (E & E1 & E2).
  assert (EC : lcfg L' = lcfg (fresh_object dbl J n d A forU m lg vd nS thr nb)) by (eapply PropRound.hlll_cfg; exact H).
  exists E, (fun i j => dval (Rentry dbl L' i j)). split; [exact E1|]. split; [exact E2|]. intros k Hk.
  destruct (C92_double_certifies J n d A forU m lg vd [CallSetNumS nS thr; CallSetNblovMax nb] (fresh_object dbl J n d A forU m lg vd nS thr nb)
    fuel delta vb junk L') with (k := k) as [P1 P2]; auto; try nia.
  - intros fp' f' dl' j' J1 J2 [C|[C|[]]]; discriminate.
  - rewrite EC. exact HQ.
  - intros i Hi. split; [apply NT; lia|]. destruct (Nat.eq_dec i k) as [->|N]; [apply NT; lia|apply NH; lia].
  - split; [exact P1|]. destruct (P2 HM) as (th & T0 & T1 & T2); [apply HZ; lia|intros i Hi; apply HB; lia|].
    exists th. split; [exact T0|]. split; [exact T1|]. intros i Hi. apply T2; [exact Hi|].
    destruct (NT i ltac:(lia)) as [I1 I2]. unfold not_tiny. pose proof (in_range_val _ (NT i ltac:(lia))) as I3.
    apply not_huge_val in I2 as [F2 _]. destruct (dval_pow2 0x1p-500%float (-552) ltac:(vm_compute; reflexivity)) as [F5 E5].
    apply dval_ltb; [exact F5|now apply dfin_abs|]. rewrite E5, dval_abs. eapply Rlt_le_trans; [|exact I3]. apply bpow_lt. lia.
Qed.

(** a call that passes all the tests *)
Example C93_case :
  staircase 4 3 (fn A1) /\ structure_ok dbl 4 3 (fn A1) /\ (24 * Z.of_nat 3 * (5 * Z.of_nat 4 + 20) <= 2 ^ 53)%Z /\
  exists L', hlll dbl 200 d99 false 0%float (fresh_object dbl Jz 4 3 A1 true 0 false 0 1 1000000 100000) = Ok (0%Z, L') /\
    (nblov (lc L') < 100000)%Z /\ nbswaps (lc L') = 6%Z /\ PrimFloat.leb 0 d99 = true /\ PrimFloat.leb d99 1 = true /\
    (forall i j, (i < 4)%nat -> (j < 3)%nat -> (Z.abs (Bentry L' i j) <= 2 ^ 400)%Z) /\
    (forall j, (j < 3)%nat -> exists i, (i < 4)%nat /\ Bentry L' i j <> 0%Z) /\
    (forall j, (j < 3)%nat -> in_range (Rentry dbl L' j j)) /\
    (forall i j, (i < j < 3)%nat -> not_huge (Rentry dbl L' i j)).
Proof.
  split; [intros j Hj; exists 3%nat, 0%nat; cbn; lia|].
  split; [left; exists 3%nat; split; [lia|]; split; [cbn; lia|]; intros; lia|].
  split; [cbn; lia|].
  eexists. split; [vm_compute; reflexivity|]. split; [vm_compute; reflexivity|]. split; [reflexivity|]. split; [vm_compute; reflexivity|].
  split; [vm_compute; reflexivity|]. split; [|split; [|split]].
  - intros i j Hi Hj. assert (HJ : (j = 0 \/ j = 1 \/ j = 2)%nat) by lia. assert (HI : (i = 0 \/ i = 1 \/ i = 2 \/ i = 3)%nat) by lia.
    destruct HJ as [-> | [-> | ->]], HI as [-> | [-> | [-> | ->]]]; vm_compute; discriminate.
  - intros j Hj. exists 0%nat. split; [lia|]. assert (HJ : (j = 0 \/ j = 1 \/ j = 2)%nat) by lia.
    destruct HJ as [-> | [-> | ->]]; vm_compute; discriminate.
  - intros j Hj. assert (HJ : (j = 0 \/ j = 1 \/ j = 2)%nat) by lia. destruct HJ as [-> | [-> | ->]]; split; vm_compute; reflexivity.
  - intros i j Hij. assert (HJ : (j = 1 \/ j = 2)%nat) by lia. assert (HI : (i = 0 \/ i = 1)%nat) by lia.
    destruct HJ as [-> | ->], HI as [-> | ->]; try lia; vm_compute; reflexivity.
Qed.

(** the size hypothesis holds up to dimension 1000000 *)
Example C93_dimensions : (24 * 1000000 * (5 * 1000000 + 20) <= 2 ^ 53)%Z.
Proof. vm_compute. discriminate. Qed.

Print Assumptions C93_double_backward_stable.
Print Assumptions C93_double_certificate.
