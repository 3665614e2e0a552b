(** * lcond: bounds for the triangular variant, and the witnesses *)
From Coq Require Import ZArith Lia Reals Lra List Bool Arith Floats.
From Verif Require Import Base Spec Mat FP Hlll Hlll2 IntSteps HlllInt Structure Object Safety SpecReal Cache4 Exact ExactLoop ExactHH Lcond LcondFacts LcondTri LcondTop.
From Verif Require PropExact.
Import ListNotations.
Local Open Scope R_scope.

(** an upper triangular integer matrix with nonzero diagonal is its own R factor *)
Definition triangular (n d : nat) (B : zmat) : Prop :=
  (forall i j, (j < d)%nat -> (j < i < n)%nat -> B i j = 0%Z) /\ forall i, (i < d)%nat -> B i i <> 0%Z.

Lemma triangular_R n d B : (d <= n)%nat -> triangular n d B -> R_factor n d B (fun i j => IZR (B i j)).
Proof.
  intros ND [U D]. split; [|split].
  - intros i j H. rewrite U by lia. reflexivity.
  - intros i Hi E. apply (D i Hi). now apply eq_IZR.
  - intros j l Hj Hl. rewrite sumZ_IZR. rewrite (sumR_cut n d).
    + apply sumR_ext. intros. now rewrite mult_IZR.
    + exact ND.
    + intros i Hi. rewrite U by lia. reflexivity.
Qed.

Lemma triangular_inverse n d B : (d <= n)%nat -> triangular n d B -> exists XX, inverse d (fun i j => IZR (B i j)) XX.
Proof.
  intros ND T. destruct (triangular_R n d B ND T) as (U & D & _).
  destruct (higham_exact PropExact.Rfp0 PropExact.Rfp0_exact d (mtab n d (fun i j => IZR (B i j)))
     (mtab d d (fun i j => Rabs (IZR (B i j)))) (mtab d d (fun _ _ => 0))) as [H1 _].
  - apply mtab_wfm.
  - intros i Hi. now rewrite !mget_mtab by lia.
  - set (M := mtab n d (fun i j => IZR (B i j))) in *. set (r1 := fun i j => mget (fzero PropExact.Rfp0) M i j) in *.
    assert (E : forall i j, (i < d)%nat -> (j < d)%nat -> r1 i j = IZR (B i j)) by (intros; unfold r1, M; now rewrite mget_mtab by lia).
    destruct (hrow_inverse d r1) with (Y := fun i j => mget (fzero PropExact.Rfp0) (higham PropExact.Rfp0 d M (mtab d d (fun i j => Rabs (IZR (B i j)))) (mtab d d (fun _ _ => 0))) i j) as (XX & HX).
    + intros i j H. rewrite E by lia. now apply U.
    + intros i H. rewrite E by lia. now apply D.
    + exact H1.
    + exists XX. intros i j Hi Hj. rewrite <- (HX i j Hi Hj). apply sumR_ext. intros k Hk. now rewrite E.
Qed.

Lemma zexpo_bound d : (1 <= d)%nat -> INR d < powerRZ 2 (zexpo (Z.of_nat d)).
Proof.
  intros H. unfold zexpo. replace (Z.of_nat d =? 0)%Z with false by (symmetry; apply Z.eqb_neq; lia).
  rewrite Z.abs_eq by lia. rewrite INR_IZR_INZ. rewrite <- (Z2Nat.id (Z.log2 (Z.of_nat d) + 1)) by (pose proof (Z.log2_nonneg (Z.of_nat d)); lia).
  rewrite <- pow_powerRZ. change 2 with (IZR 2). rewrite pow_IZR. apply IZR_lt.
  rewrite Z2Nat.id by (pose proof (Z.log2_nonneg (Z.of_nat d)); lia).
  pose proof (Z.log2_spec (Z.of_nat d) ltac:(lia)). rewrite <- Z.add_1_r in H0. lia.
Qed.

Lemma powerRZ2_le a b : (a <= b)%Z -> powerRZ 2 a <= powerRZ 2 b.
Proof.
  intros H. rewrite !powerRZ_Rpower by lra. apply Rle_Rpower; [lra|]. now apply IZR_le.
Qed.

Section P.
Variable fp : fpops R.
Hypothesis X : exact fp.
Variable fexpo : R -> Z.
Hypothesis EXP : expo_ok fexpo.

Lemma lcond_tri_bound n d (L : lattice R) : (1 <= d <= n)%nat -> lsafe n d L -> wfm n d (iB (li L)) ->
  triangular n d (fn (iB (li L))) ->
  (forall i j, (i < j < d)%nat -> (Z.abs (fn (iB (li L)) i j) <= Z.abs (fn (iB (li L)) i i))%Z) ->
  exists v L', lcond_tri fp fexpo L = Ok (v, L') /\ iB (li L') = iB (li L) /\ lcfg L' = lcfg L /\
    forall r XX, R_factor n d (fn (iB (li L))) r -> inverse d r XX -> cond_F d r XX < powerRZ 2 v.
Proof.
  intros [D1 ND] LS WB T PR. set (B := fn (iB (li L))) in *.
  destruct (lcond_tri_value fp X fexpo n d L D1 LS WB ND) as (eta & Q & L' & E & EB & EC & E0 & E1 & E2 & Q1 & Q2).
  { intros i Hi G. apply (proj2 T i Hi). now apply eq_IZR. }
  exists (fexpo Q + (Z.of_nat d - 1 + fexpo (1 + eta)) + (1 + zexpo (Z.of_nat d)))%Z, L'.
  split; [exact E|]. split; [exact EB|]. split; [exact EC|].
  intros r XX RF IX. pose proof (triangular_R n d B ND T) as RB. destruct (triangular_inverse n d B ND T) as (X0 & I0).
  rewrite (cond_F_unique n d B r (fun i j => IZR (B i j)) XX X0 RF RB IX I0).
  assert (NZ : forall i, (i < d)%nat -> IZR (B i i) <> 0) by (intros i Hi; apply (proj1 (proj2 RB)); exact Hi).
  assert (ETA : eta <= 1).
  { destruct E2 as [->|(i & j & H & ->)]; [lra|]. unfold Rdiv. rewrite Rabs_mult, Rabs_inv. fold B.
    assert (0 < Rabs (IZR (B i i))) by (apply Rabs_pos_lt, NZ; lia).
    apply (Rmult_le_reg_r (Rabs (IZR (B i i)))); [assumption|]. rewrite Rmult_assoc, Rinv_l, !Rmult_1_r, Rmult_1_l by lra.
    rewrite <- !abs_IZR. apply IZR_le. apply PR. exact H. }
  assert (QP : 0 < Q).
  { apply Rlt_le_trans with (2 := Q1 0%nat 0%nat ltac:(lia) ltac:(lia)). unfold Rdiv. rewrite Rinv_r by (apply NZ; lia). rewrite Rabs_R1. lra. }
  apply Rle_lt_trans with (INR d * (2 * Q * (1 + eta) ^ (d - 1))).
  { apply cond_bound with (eta := eta) (Q := Q); fold B; auto; try (destruct RB as (? & ? & _); assumption); try lra. }
  destruct (EXP Q QP) as [_ QB]. destruct (EXP (1 + eta) ltac:(lra)) as [_ EE].
  assert (F1 : (1 <= fexpo (1 + eta))%Z).
  { apply Znot_gt_le. intros G. assert (powerRZ 2 (fexpo (1 + eta)) <= powerRZ 2 0) by (apply powerRZ2_le; lia). cbn in H. lra. }
  assert (P1 : (1 + eta) ^ (d - 1) <= powerRZ 2 (Z.of_nat d - 1)).
  { replace (Z.of_nat d - 1)%Z with (Z.of_nat (d - 1)) by lia. rewrite <- pow_powerRZ. apply pow_incr. lra. }
  assert (P0 : 0 < (1 + eta) ^ (d - 1)) by (apply pow_lt; lra).
  pose proof (zexpo_bound d D1) as ZB. assert (DP : 0 < INR d) by (apply lt_0_INR; lia).
  apply Rlt_le_trans with (powerRZ 2 (zexpo (Z.of_nat d)) * (2 * powerRZ 2 (fexpo Q) * powerRZ 2 (Z.of_nat d - 1))).
  { apply Rmult_gt_0_lt_compat; try lra.
    - apply Rmult_lt_0_compat; [|assumption]. lra.
    - apply Rlt_le_trans with (2 * powerRZ 2 (fexpo Q) * (1 + eta) ^ (d - 1)).
      + apply Rmult_lt_compat_r; lra.
      + apply Rmult_le_compat_l; [|exact P1]. lra. }
  replace (2 * powerRZ 2 (fexpo Q)) with (powerRZ 2 (1 + fexpo Q)) by (rewrite powerRZ_add, powerRZ_1 by lra; reflexivity).
  rewrite <- !powerRZ_add by lra. apply powerRZ2_le. lia.
Qed.
End P.

(** ** unit diagonal and -3 above it, dimension 10 *)
Definition T3 : mat Z := map (fun j => map (fun i => if (i =? j)%nat then 1%Z else if (i <? j)%nat then (-3)%Z else 0%Z) (seq 0 10)) (seq 0 10).
Definition T3i (i j : nat) : Z := if (i =? j)%nat then 1%Z else if (i <? j)%nat then (3 * 4 ^ (Z.of_nat j - Z.of_nat i - 1))%Z else 0%Z.

Lemma T3_tri : triangular 10 10 (fn T3).
Proof.
  split.
  - intros i j Hj [H1 H2]. do 10 (destruct j as [|j]; [do 10 (destruct i as [|i]; [first [reflexivity|lia]|]); lia|]). lia.
  - intros i Hi. do 10 (destruct i as [|i]; [discriminate|]). lia.
Qed.

Lemma T3_inverse : inverse 10 (fun i j => IZR (fn T3 i j)) (fun i j => IZR (T3i i j)).
Proof.
  assert (G : forallb (fun i => forallb (fun j => (sumZ 10 (fun k => T3i i k * fn T3 k j) =? if (i =? j)%nat then 1 else 0)%Z) (seq 0 10)) (seq 0 10) = true)
    by (vm_compute; reflexivity).
  intros i j Hi Hj. rewrite forallb_forall in G. specialize (G i ltac:(apply in_seq; lia)). rewrite forallb_forall in G.
  specialize (G j ltac:(apply in_seq; lia)). apply Z.eqb_eq in G.
  rewrite <- (sumR_ext 10 (fun k => IZR (T3i i k * fn T3 k j))) by (intros; apply mult_IZR).
  rewrite <- sumZ_IZR, G. destruct (i =? j)%nat; reflexivity.
Qed.

Lemma T3_cond : powerRZ 2 18 < cond_F 10 (fun i j => IZR (fn T3 i j)) (fun i j => IZR (T3i i j)).
Proof.
  unfold cond_F. rewrite <- (sqrt_square (powerRZ 2 18)) by (apply powerRZ_le; lra).
  apply sqrt_lt_1_alt. split; [apply Rmult_le_pos; apply powerRZ_le; lra|].
  set (h := fun i => sumR 10 _). apply Rlt_le_trans with (h 0%nat).
  - unfold h. set (h' := fun j => _ * _). apply Rlt_le_trans with (h' 9%nat).
    + unfold h'. assert (E : sumR 10 (fun k => Rabs (IZR (fn T3 0%nat k)) * Rabs (IZR (T3i k 9%nat))) = 393216).
      { transitivity (IZR (sumZ 10 (fun k => Z.abs (fn T3 0%nat k) * Z.abs (T3i k 9%nat))%Z)).
        - rewrite sumZ_IZR. apply sumR_ext. intros. now rewrite mult_IZR, !abs_IZR.
        - apply f_equal. vm_compute. reflexivity. }
      rewrite !E. rewrite <- powerRZ_add by lra. change (18 + 18)%Z with (Z.of_nat 36). rewrite <- pow_powerRZ.
      change 2 with (IZR 2). rewrite pow_IZR, <- mult_IZR. apply IZR_lt. reflexivity.
    + apply sumR_term; [|lia]. intros. unfold h'. apply Rle_0_sqr.
  - apply sumR_term; [|lia]. intros. unfold h. apply sumR_nonneg. intros. apply Rle_0_sqr.
Qed.

(** the value is 18 *)
Lemma T3_value fp (X : exact fp) fexpo (EXP : expo_ok fexpo) (L : lattice R) :
  lsafe 10 10 L -> wfm 10 10 (iB (li L)) -> meq 10 10 (fn (iB (li L))) (fn T3) ->
  exists L', lcond_tri fp fexpo L = Ok (18%Z, L').
Proof.
  intros LS WB EB.
  assert (DG : forall i, (i < 10)%nat -> IZR (fn (iB (li L)) i i) = 1).
  { intros i Hi. rewrite EB by assumption. do 10 (destruct i as [|i]; [reflexivity|]). lia. }
  assert (UP : forall i j, (i < j < 10)%nat -> IZR (fn (iB (li L)) i j) = -3).
  { intros i j [H1 H2]. rewrite EB by lia. do 10 (destruct j as [|j]; [do 10 (destruct i as [|i]; [first [reflexivity|lia]|]); lia|]). lia. }
  destruct (lcond_tri_value fp X fexpo 10 10 L ltac:(lia) LS WB ltac:(lia)) as (eta & Q & L' & E & _ & _ & E0 & E1 & E2 & Q1 & Q2).
  { intros i Hi. rewrite DG by assumption. lra. }
  exists L'. rewrite E. do 2 f_equal.
  assert (A3 : Rabs (-3 / 1) = 3) by (replace (-3 / 1) with (- (3)) by field; rewrite Rabs_Ropp; apply Rabs_pos_eq; lra).
  assert (A1 : Rabs (1 / 1) = 1) by (replace (1 / 1) with 1 by field; apply Rabs_R1).
  assert (H3 : eta = 3).
  { specialize (E1 0%nat 1%nat ltac:(lia)). rewrite UP, DG, A3 in E1 by lia.
    destruct E2 as [E2|(i & j & H & E2)]; [lra|]. rewrite UP, DG, A3 in E2 by lia. lra. }
  assert (HQ : Q = 1).
  { specialize (Q1 0%nat 0%nat ltac:(lia) ltac:(lia)). rewrite !DG, A1 in Q1 by lia.
    destruct Q2 as [Q2|(i & j & Hi & Hj & Q2)]; [lra|]. rewrite !DG, A1 in Q2 by lia. lra. }
  rewrite H3, HQ.
  assert (W : forall m : nat, powerRZ 2 (Z.of_nat m) = 2 ^ m) by (intros m; symmetry; apply pow_powerRZ).
  rewrite (expo_unique fexpo 1 1 EXP) by (change (powerRZ 2 (Z.of_nat 0) <= 1 < powerRZ 2 (Z.of_nat 1)); rewrite !W; cbn [pow]; lra).
  rewrite (expo_unique fexpo (1 + 3) 3 EXP) by (change (powerRZ 2 (Z.of_nat 2) <= 1 + 3 < powerRZ 2 (Z.of_nat 3)); rewrite !W; cbn [pow]; lra).
  reflexivity.
Qed.
