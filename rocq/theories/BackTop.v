(** * Backward error of a call of hlll; the certified inequalities in the standard model *)
From Coq Require Import ZArith Lia Reals Lra Psatz List Bool Arith.
From Flocq Require Import Core.
From Verif Require Import Base Spec Mat FP Hlll Hlll2 IntSteps HlllInt Structure Object Safety SpecReal SpecBack SpecCert Fresh Cache Cache2 Cache3 Cache4 Cache5 Cache6 Cache7 BackErr BackCol BackLoop PropCert.
Import ListNotations.
Local Open Scope R_scope.

Section Run.
Variables (u : R) (F : Type) (fp : fpops F) (val : F -> R).
Hypothesis U0 : 0 <= u < 1.
Hypothesis ST : standard u fp val.
Hypothesis EX : expo_nonneg fp.

Lemma ready_back L fuel delta vb junk L' : ready fp L ->
  hlll fp fuel delta vb junk L = Ok (0%Z, L') -> (2 <= cd (lcfg L))%nat -> (nblov (lc L') < cnblov_max (lcfg L'))%Z ->
  (forall j, (j < cd (lcfg L))%nat -> val (Rentry fp L' j j) <> 0) ->
  exists E : nat -> nat -> R,
    (forall j, (j < cd (lcfg L))%nat -> sq (cn (lcfg L)) (fun i => E i j) <= gam u (cn (lcfg L)) j ^ 2 * sq (cn (lcfg L)) (fun i => IZR (Bentry L' i j))) /\
    R_factor_of (cn (lcfg L)) (cd (lcfg L)) (fun i j => IZR (Bentry L' i j) + E i j) (fun i j => val (Rentry fp L' i j)).
Proof.
  intros RD H D2 HQ NZ. pose proof RD as (CK & G & W1 & Z1).
  rewrite <- hlll_g_real in H. unfold hlll_g in H. binv H. destruct a as [[[rv s] f] q]. injection H as -> <-.
  set (q0 := if vb then _ else _) in *. set (c := lcfg L) in *.
  assert (Wg : gwf c (hlll_reset c (lf L))) by (destruct W1; split; assumption).
  assert (X1 : relx c (lf L) (hlll_reset c (lf L))) by (right; right; reflexivity).
  pose proof (loop_vs_ref fp EX c (householder_r fp c) (li L) (lf L) _ fuel delta vb junk junk q0 (hr_sim_real fp c) CK G W1 Wg X1 Z1) as A1.
  rewrite Ha in A1.
  destruct (hlll_loop_g fp c (hr_ref fp) fuel delta vb (li L) _ 1 _ _ _) as [[[[r' s'] g] q']| |] eqn:ER; try contradiction.
  cbn [rsim finrel] in A1. destruct A1 as (<- & <- & <- & G' & R1). cbn [lc lcfg] in HQ.
  assert (C0 : CH fp c (lim 1) (li L) (hlll_reset c (lf L))) by (split; auto; unfold lim; cbn [Nat.eqb]; intros; lia).
  pose proof (loop_ch fp c EX CK fuel delta vb _ _ _ _ _ _ _ _ _ (le_n 1) C0 ER D2 HQ) as [CW CS CC].
  specialize (R1 D2 eq_refl HQ). destruct R1 as (R1 & _).
  pose proof (sgood_ND c s CS ltac:(lia)) as ND.
  assert (EB : forall i j, (i < cn c)%nat -> (j < cd c)%nat -> Bentry (mkL c s f q) i j = fn (iB s) i j).
  { intros i j Hi Hj. unfold Bentry, getbase. cbn [lcfg li]. rewrite mget_mtab by assumption. reflexivity. }
  assert (RE : forall i j, (i <= j < cd c)%nat -> Rentry fp (mkL c s f q) i j = mget (fzero fp) (fR g) i j).
  { intros i j Hij. unfold Rentry, getR. cbn [lcfg lf]. rewrite mget_mtab by lia.
    replace (j <? i)%nat with false by (symmetry; apply Nat.ltb_ge; lia).
    replace (i <? min (cn c) (cd c))%nat with true by (symmetry; apply Nat.ltb_lt; lia).
    apply R1; [lia|]. pose proof (g_gt c s CS j ltac:(lia)). lia. }
  assert (RL : forall i j, (j < i < cd c)%nat -> Rentry fp (mkL c s f q) i j = fzero fp).
  { intros i j Hij. unfold Rentry, getR. cbn [lcfg lf]. rewrite mget_mtab by lia.
    now replace (j <? i)%nat with true by (symmetry; apply Nat.ltb_lt; lia). }
  destruct (backward u U0 fp val ST (cn c) (cd c) (fn (iB s)) (fun j => nth j (iS s) 0%nat) (Vf fp g) (fun i j => mget (fzero fp) (fR g) i j)) as (E & E1 & E2 & E3).
  - intros j Hj. now apply (g_gt c s CS).
  - intros j Hj. now apply (g_le c s CS).
  - intros j l Hj. apply (b_mono c s (g_bok c s CS)). lia.
  - intros j i Hj Hi. apply (b_zero c s (g_bok c s CS) j Hj); lia.
  - intros i j Hij. now apply (CC j ltac:(lia)).
  - intros j Hj. now apply (CC j Hj).
  - intros j i Hj Hi. now apply (CC j Hj).
  - intros j i Hj Hi. now apply (CC j Hj).
  - intros j Hj. rewrite <- RE by lia. now apply NZ.
  - exact ND.
  - exists E. split; [|split].
    + intros j Hj. specialize (E1 j Hj).
      replace (sq (cn c) (fun i => IZR (Bentry (mkL c s f q) i j))) with (sq (cn c) (fun i => IZR (fn (iB s) i j))); [exact E1|].
      apply sumR_ext. intros i Hi. now rewrite EB.
    + intros i j Hij. rewrite RL by assumption. apply (s_zero u fp val ST).
    + intros j l Hj Hl. specialize (E3 j l Hj Hl). etransitivity; [|etransitivity; [exact E3|]]; apply sumR_ext; intros i Hi.
      * assert (VE : forall q', (q' < cd c)%nat -> val (Rentry fp (mkL c s f q) i q') = if (i <=? q')%nat then val (mget (fzero fp) (fR g) i q') else 0).
        { intros q' Hq. destruct (Nat.leb_spec i q'); [rewrite RE by lia; reflexivity|rewrite RL by lia; apply (s_zero u fp val ST)]. }
        rewrite !VE by assumption. reflexivity.
      * rewrite !EB by assumption. reflexivity.
Qed.

(** the inequalities that the tests certify *)
Lemma rnd1_abs x y : rnd1 u x y -> Rabs (y - x) <= u * Rabs x.
Proof.
  intros (e & He & ->). replace (x * (1 + e) - x) with (e * x) by ring. rewrite Rabs_mult.
  apply Rmult_le_compat_r; auto using Rabs_pos.
Qed.

Lemma rnd1_pos x y : rnd1 u x y -> 0 <= x -> (1 - u) * x <= y <= (1 + u) * x.
Proof. intros R P. apply rnd1_abs in R. rewrite (Rabs_pos_eq x) in R by assumption. apply Rabs_le_inv in R. lra. Qed.

Lemma rnd1_absb x y : rnd1 u x y -> (1 - u) * Rabs x <= Rabs y <= (1 + u) * Rabs x.
Proof.
  intros R. apply rnd1_abs in R. pose proof (Rabs_triang_inv y x). pose proof (Rabs_triang_inv x y) as T.
  rewrite (Rabs_minus_sym x) in T. lra.
Qed.

Lemma lovasz_val delta r k : 0 <= val delta -> lovasz_test fp delta r k ->
  val delta * ((1 - u) ^ 2 * val (r (k - 1)%nat (k - 1)%nat) ^ 2) <= (1 + u) ^ 2 * (val (r k k) ^ 2 + val (r (k - 1)%nat k) ^ 2).
Proof.
  intros HD (s & S1 & S2). apply (s_le u fp val ST) in S2.
  assert (SS : val (r k k) ^ 2 = val s * val s) by (destruct S1 as [-> | ->]; [ring|rewrite (s_neg u fp val ST); ring]).
  rewrite SS. clear SS S1. set (fa := r (k - 1)%nat (k - 1)%nat) in *. set (fb := r (k - 1)%nat k) in *.
  pose proof (rnd1_pos _ _ (s_mul u fp val ST fa fa) ltac:(nra)) as M1.
  pose proof (rnd1_pos _ _ (s_mul u fp val ST s s) ltac:(nra)) as M2.
  pose proof (rnd1_pos _ _ (s_mul u fp val ST fb fb) ltac:(nra)) as M3.
  set (a := val fa) in *. set (b := val fb) in *. set (v := val s) in *. set (dl := val delta) in *.
  set (qa := val (fmul fp fa fa)) in *. set (qb := val (fmul fp fb fb)) in *. set (qs := val (fmul fp s s)) in *.
  assert (0 <= qa) by (assert (0 <= (1 - u) * (a * a)) by (apply Rmult_le_pos; nra); lra).
  assert (0 <= qs) by (assert (0 <= (1 - u) * (v * v)) by (apply Rmult_le_pos; nra); lra).
  assert (0 <= qb) by (assert (0 <= (1 - u) * (b * b)) by (apply Rmult_le_pos; nra); lra).
  pose proof (rnd1_pos _ _ (s_mul u fp val ST delta (fmul fp fa fa)) ltac:(fold qa; fold dl; nra)) as M4.
  pose proof (rnd1_pos _ _ (s_add u fp val ST (fmul fp s s) (fmul fp fb fb)) ltac:(fold qs; fold qb; lra)) as M5.
  fold qa dl in M4. fold qs qb in M5.
  assert (A1 : (1 - u) * (dl * ((1 - u) * (a * a))) <= (1 - u) * (dl * qa)).
  { apply Rmult_le_compat_l; [lra|]. apply Rmult_le_compat_l; lra. }
  assert (A2 : (1 + u) * (qs + qb) <= (1 + u) * ((1 + u) * (v * v) + (1 + u) * (b * b))).
  { apply Rmult_le_compat_l; lra. }
  replace (dl * ((1 - u) ^ 2 * a ^ 2)) with ((1 - u) * (dl * ((1 - u) * (a * a)))) by ring.
  replace ((1 + u) ^ 2 * (v * v + b ^ 2)) with ((1 + u) * ((1 + u) * (v * v) + (1 + u) * (b * b))) by ring.
  lra.
Qed.

Lemma size_val theta r k i : size_test fp theta r k -> (i < k)%nat -> val (r i i) <> 0 ->
  (1 - u) * Rabs (val (r i k)) <= (1 + u) * Rabs (val (r i i)) + (1 + u) ^ 2 * Rabs (val theta).
Proof.
  intros H Hi NZ. pose proof (rnd1_absb _ _ (s_div u fp val ST (r i k) (r i i) NZ)) as D.
  set (x := val (r i k)) in *. set (a := val (r i i)) in *.
  assert (P : 0 < Rabs a) by now apply Rabs_pos_lt.
  assert (Q : Rabs (x / a) * Rabs a = Rabs x).
  { rewrite <- Rabs_mult. f_equal. field. assumption. }
  assert (T0 : 0 <= Rabs (val theta)) by apply Rabs_pos.
  destruct H as [H|H]; specialize (H i Hi).
  - apply (s_rnd u fp val ST) in H.
    assert (E : (1 - u) * Rabs (x / a) * Rabs a <= / 2 * Rabs a) by (apply Rmult_le_compat_r; lra).
    rewrite Rmult_assoc, Q in E. assert (0 <= (1 + u) ^ 2 * Rabs (val theta)) by (apply Rmult_le_pos; nra). nra.
  - assert (C : ~ (val (fadd fp (fabs fp (fdiv fp theta (r i i))) (fone fp)) < val (fabs fp (fdiv fp (r i k) (r i i))))).
    { intros C. apply (s_cmp u fp val ST) in C. congruence. }
    rewrite (s_abs u fp val ST (fdiv fp (r i k) (r i i))) in C. apply Rnot_lt_le in C.
    pose proof (rnd1_pos _ _ (s_add u fp val ST (fabs fp (fdiv fp theta (r i i))) (fone fp))) as A.
    rewrite (s_abs u fp val ST), (s_one u fp val ST) in A.
    pose proof (Rabs_pos (val (fdiv fp theta (r i i)))) as P1. specialize (A ltac:(lra)).
    pose proof (rnd1_absb _ _ (s_div u fp val ST theta (r i i) NZ)) as D2. fold a in D2. set (t := val theta) in *.
    assert (Q2 : Rabs (t / a) * Rabs a = Rabs t).
    { rewrite <- Rabs_mult. f_equal. field. assumption. }
    assert (E1 : (1 + u) * (Rabs (val (fdiv fp theta (r i i))) + 1) <= (1 + u) * ((1 + u) * Rabs (t / a) + 1)).
    { apply Rmult_le_compat_l; lra. }
    assert (E : (1 - u) * Rabs (x / a) * Rabs a <= (1 + u) * ((1 + u) * Rabs (t / a) + 1) * Rabs a).
    { apply Rmult_le_compat_r; lra. }
    rewrite Rmult_assoc, Q in E.
    replace ((1 + u) * ((1 + u) * Rabs (t / a) + 1) * Rabs a)
      with ((1 + u) ^ 2 * (Rabs (t / a) * Rabs a) + (1 + u) * Rabs a) in E by ring.
    rewrite Q2 in E. lra.
Qed.

Lemma sumsq_val (b : nat -> Z) l : (1 <= l)%nat ->
  0 <= val (sumsq fp (fun i => fset_z fp (b i)) l) <= (1 + u) ^ (l + 3) * sumR l (fun i => IZR (b i) * IZR (b i)).
Proof.
  assert (SZ : forall z, 0 <= val (fset_z fp z) * val (fset_z fp z) <= (1 + u) ^ 2 * (IZR z * IZR z)).
  { intros z. split; [nra|]. pose proof (rnd1_absb _ _ (s_setz u fp val ST z)) as [_ A].
    replace (val (fset_z fp z) * val (fset_z fp z)) with (Rabs (val (fset_z fp z)) * Rabs (val (fset_z fp z))) by (rewrite <- Rabs_mult; apply Rabs_pos_eq; nra).
    replace ((1 + u) ^ 2 * (IZR z * IZR z)) with (((1 + u) * Rabs (IZR z)) * ((1 + u) * Rabs (IZR z))).
    - apply Rmult_le_compat; auto using Rabs_pos.
    - replace (IZR z * IZR z) with (Rabs (IZR z) * Rabs (IZR z)) by (rewrite <- Rabs_mult; apply Rabs_pos_eq; nra). ring. }
  assert (BP : forall i, 0 <= IZR (b i) * IZR (b i)) by (intros; nra).
  assert (SP : forall m, 0 <= sumR m (fun i => IZR (b i) * IZR (b i))).
  { induction m as [|m IH]; cbn [sumR]; [lra|]. pose proof (BP m). lra. }
  assert (PW : forall m, 1 <= (1 + u) ^ m) by (intros; apply pow_R1_Rle; lra).
  induction l as [|l IH]; [lia|]. intros _. destruct l as [|l].
  - cbn [sumsq sumR]. pose proof (SZ (b 0%nat)) as SS.
    pose proof (rnd1_pos _ _ (s_mul u fp val ST (fset_z fp (b 0%nat)) (fset_z fp (b 0%nat))) ltac:(lra)) as M.
    set (w := val (fset_z fp (b 0%nat))) in *. set (z := IZR (b 0%nat)) in *.
    assert (0 <= (1 - u) * (w * w)) by (apply Rmult_le_pos; lra).
    split; [lra|]. change (1 + 3)%nat with 4%nat. 
    assert ((1 + u) * (w * w) <= (1 + u) * ((1 + u) ^ 2 * (z * z))) by (apply Rmult_le_compat_l; lra).
    assert ((1 + u) ^ 3 * (z * z) <= (1 + u) ^ 4 * (z * z)).
    { apply Rmult_le_compat_r; [unfold z; apply BP|]. apply Rle_pow; [lra|lia]. }
    replace ((1 + u) ^ 3 * (z * z)) with ((1 + u) * ((1 + u) ^ 2 * (z * z))) in * by ring. lra.
  - specialize (IH ltac:(lia)).
    change (sumsq fp (fun i => fset_z fp (b i)) (S (S l))) with
      (faddmul fp (sumsq fp (fun i => fset_z fp (b i)) (S l)) (fset_z fp (b (S l))) (fset_z fp (b (S l)))).
    set (fq := sumsq fp (fun i => fset_z fp (b i)) (S l)) in *. pose proof (SZ (b (S l))) as SS.
    destruct (s_addmul u fp val ST fq (fset_z fp (b (S l))) (fset_z fp (b (S l)))) as (pp & P1 & P2).
    apply rnd1_pos in P1; [|lra].
    set (w := val (fset_z fp (b (S l)))) in *. set (z := IZR (b (S l))) in *. set (q := val fq) in *.
    assert (0 <= (1 - u) * (w * w)) by (apply Rmult_le_pos; lra).
    apply rnd1_pos in P2; [|lra].
    change (sumR (S (S l)) (fun i => IZR (b i) * IZR (b i))) with
      (sumR (S l) (fun i => IZR (b i) * IZR (b i)) + z * z).
    set (s := sumR (S l) (fun i => IZR (b i) * IZR (b i))) in *.
    assert (0 <= (1 - u) * (q + pp)) by (apply Rmult_le_pos; lra).
    split; [lra|].
    replace (S (S l) + 3)%nat with (S (S l + 3)) by lia. cbn [pow].
    eapply Rle_trans; [apply P2|]. rewrite Rmult_assoc. apply Rmult_le_compat_l; [lra|]. rewrite Rmult_plus_distr_l.
    apply Rplus_le_compat; [lra|].
    apply Rle_trans with ((1 + u) * ((1 + u) ^ 2 * (z * z))); [eapply Rle_trans; [apply P1|apply Rmult_le_compat_l; lra]|].
    replace (S l + 3)%nat with (3 + S l)%nat by lia. rewrite pow_add.
    replace ((1 + u) * ((1 + u) ^ 2 * (z * z))) with ((1 + u) ^ 3 * 1 * (z * z)) by ring.
    apply Rmult_le_compat_r; [unfold z; apply BP|]. apply Rmult_le_compat_l; [apply Rle_trans with 1; [lra|apply PW]|apply PW].
Qed.

Lemma tolerance_val (b : nat -> Z) l : (1 <= l)%nat ->
  val (tolerance fp b l) ^ 2 <= val (feps fp) ^ 2 * ((1 + u) ^ (l + 7) * sumR l (fun i => IZR (b i) * IZR (b i))).
Proof.
  intros Hl. destruct (sumsq_val b l Hl) as [S0 S1]. unfold tolerance.
  set (fq := sumsq fp (fun i => fset_z fp (b i)) l) in *. pose proof (s_eps u fp val ST) as E0.
  pose proof (rnd1_pos _ _ (s_sqrt u fp val ST fq S0) (sqrt_pos _)) as E1. pose proof (sqrt_pos (val fq)) as SQ.
  set (q := val fq) in *. set (rq := val (fsqrt fp fq)) in *. set (ep := val (feps fp)) in *.
  assert (Q0 : 0 <= rq). { assert (0 <= (1 - u) * sqrt q) by (apply Rmult_le_pos; lra). lra. }
  pose proof (rnd1_pos _ _ (s_mul u fp val ST (fsqrt fp fq) (feps fp)) ltac:(fold rq; fold ep; nra)) as M. fold rq ep in M.
  assert (T0 : 0 <= val (fmul fp (fsqrt fp fq) (feps fp))).
  { assert (0 <= (1 - u) * (rq * ep)) by (apply Rmult_le_pos; [lra|nra]). lra. }
  assert (T1 : val (fmul fp (fsqrt fp fq) (feps fp)) <= (1 + u) * (((1 + u) * sqrt q) * ep)).
  { eapply Rle_trans; [apply M|]. apply Rmult_le_compat_l; [lra|]. apply Rmult_le_compat_r; lra. }
  apply Rle_trans with (((1 + u) * (((1 + u) * sqrt q) * ep)) ^ 2).
  { apply pow_incr. split; assumption. }
  replace (((1 + u) * (((1 + u) * sqrt q) * ep)) ^ 2) with (ep ^ 2 * ((1 + u) ^ 4 * (sqrt q * sqrt q))) by ring.
  rewrite sqrt_sqrt by assumption. apply Rmult_le_compat_l; [nra|].
  replace (l + 7)%nat with (4 + (l + 3))%nat by lia. rewrite pow_add, Rmult_assoc. apply Rmult_le_compat_l; [apply pow_le; lra|exact S1].
Qed.
End Run.

(** the error constant is of order j n u *)
Lemma acc_lin u k : 0 <= u -> INR k * u <= / 2 -> acc u k <= 2 * (INR k * u).
Proof.
  intros U K. unfold acc.
  assert (B : forall m, (m <= k)%nat -> 1 - INR m * u <= (1 - u) ^ m).
  { induction m as [|m IH]; intros Hm; [cbn; lra|]. specialize (IH ltac:(lia)). cbn [pow]. rewrite S_INR.
    assert (INR m <= INR k) by (apply le_INR; lia). pose proof (pos_INR m).
    assert (INR m * u <= / 2) by (apply Rle_trans with (INR k * u); auto; apply Rmult_le_compat_r; lra).
    destruct (Nat.eq_dec m 0) as [->|NZ]; [cbn in *; lra|].
    assert (1 <= INR m) by (change 1 with (INR 1); apply le_INR; lia).
    assert (0 <= INR m * u * u) by (apply Rmult_le_pos; nra).
    assert ((1 - u) * (1 - INR m * u) <= (1 - u) * (1 - u) ^ m) by (apply Rmult_le_compat_l; nra). nra. }
  specialize (B k ltac:(lia)). set (t := INR k * u) in *.
  assert (T : 0 <= t) by (unfold t; pose proof (pos_INR k); nra).
  assert (P : 0 < (1 - u) ^ k) by lra.
  assert (I : / (1 - u) ^ k <= / (1 - t)) by (apply Rinv_le; lra).
  assert (J : / (1 - t) <= 1 + 2 * t).
  { apply Rmult_le_reg_l with (1 - t); [lra|]. rewrite Rinv_r by lra. nra. }
  lra.
Qed.

Lemma gam_lin u n j : 0 <= u -> INR (S j) * INR (5 * n + 20) * u <= / 24 ->
  gam u n j <= 12 * (INR (S j) * INR (5 * n + 20) * u).
Proof.
  intros U K. set (N := INR (5 * n + 20)) in *. set (m := INR (S j)) in *.
  assert (N1 : 20 <= N). { replace 20 with (INR 20) by (cbn; lra). apply le_INR. lia. }
  assert (NE : INR (5 * n + 19) = N - 1). { unfold N. replace (5 * n + 20)%nat with (S (5 * n + 19)) by lia. rewrite S_INR. lra. }
  assert (M1 : 1 <= m). { change 1 with (INR 1). apply le_INR. lia. }
  assert (NU : 0 <= N * u) by nra.
  assert (NK : N * u <= / 24).
  { apply Rle_trans with (m * N * u); auto. replace (N * u) with (1 * (N * u)) by ring. rewrite (Rmult_assoc m).
    apply Rmult_le_compat_r; lra. }
  pose proof (acc_lin u (5 * n + 19) U) as A. rewrite NE in A. specialize (A ltac:(nra)).
  assert (A0 : 0 <= acc u (5 * n + 19)).
  { unfold acc. assert (0 < (1 - u) ^ (5 * n + 19) <= 1).
    { split; [apply pow_lt; nra|]. assert (Q : (1 - u) ^ (5 * n + 19) <= 1 ^ (5 * n + 19)) by (apply pow_incr; split; nra). now rewrite pow1 in Q. }
    assert (1 <= / (1 - u) ^ (5 * n + 19)); [|lra]. rewrite <- Rinv_1 at 1. apply Rinv_le; lra. }
  set (e := eta u n). assert (E0 : 0 <= e <= 6 * (N * u) - 6 * u) by (unfold e, eta; lra).
  assert (PW : forall k, (k <= S j)%nat -> (1 + e) ^ k * (1 - INR k * e) <= 1).
  { induction k as [|k IH]; intros Hk; [cbn; lra|]. specialize (IH ltac:(lia)). cbn [pow]. rewrite S_INR.
    pose proof (pos_INR k). assert (0 <= (1 + e) ^ k) by (apply pow_le; lra).
    assert ((1 + e) * (1 - (INR k + 1) * e) <= 1 - INR k * e) by nra.
    assert ((1 + e) ^ k * ((1 + e) * (1 - (INR k + 1) * e)) <= (1 + e) ^ k * (1 - INR k * e)) by (apply Rmult_le_compat_l; lra). lra. }
  specialize (PW (S j) ltac:(lia)). fold m in PW.
  unfold gam. fold e. set (p := (1 + e) ^ S j) in *. assert (P0 : 0 <= p) by (apply pow_le; lra).
  assert (ME : m * e <= 6 * (m * N * u) - 6 * u).
  { assert (m * e <= m * (6 * (N * u) - 6 * u)) by (apply Rmult_le_compat_l; lra). nra. }
  assert (ME0 : 0 <= m * e) by nra.
  set (t := m * N * u) in *.
  assert (U1 : u <= t / 20) by (unfold t; nra).
  assert (X : (1 - u) * (1 - m * e) >= 1 - 6 * t).
  { assert (0 <= u * (m * e)) by nra. nra. }
  assert (T0 : 0 <= t) by (unfold t; nra).
  assert (Y : / (1 - u) * p <= / ((1 - u) * (1 - m * e))).
  { rewrite Rinv_mult. apply Rmult_le_compat_l; [left; apply Rinv_0_lt_compat; lra|].
    apply Rmult_le_reg_r with (1 - m * e); [lra|]. rewrite Rinv_l by lra. exact PW. }
  assert (Z : / ((1 - u) * (1 - m * e)) <= / (1 - 6 * t)) by (apply Rinv_le; lra).
  assert (J : / (1 - 6 * t) <= 1 + 12 * t).
  { apply Rmult_le_reg_l with (1 - 6 * t); [lra|]. rewrite Rinv_r by lra. nra. }
  lra.
Qed.
