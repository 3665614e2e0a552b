(** * Backward error of a call of hlll over IEEE doubles *)
From Coq Require Import ZArith Lia Floats Reals Lra Psatz List Bool Arith.
From Flocq Require Import Core BinarySingleNaN PrimFloat.
From Verif Require Import Base Spec Mat FP Hlll Hlll2 IntSteps HlllInt Structure Object Safety SpecReal SpecBack SpecCert Fresh Cache Cache2 Cache3 Cache4 Cache5 Cache6 Cache7 BackErr BackCol BackLoop BackTop PropCert Double DblReal DblErr DblHV DblCol.
Import ListNotations.
Local Open Scope R_scope.

Lemma ready_back_d L fuel delta vb junk L' : ready dbl L ->
  hlll dbl fuel delta vb junk L = Ok (0%Z, L') -> (2 <= cd (lcfg L))%nat -> (nblov (lc L') < cnblov_max (lcfg L'))%Z ->
  (Z.of_nat (cn (lcfg L)) <= 2 ^ 53)%Z -> acc du (5 * cn (lcfg L) + 19) <= 1 ->
  (forall j, (j < cd (lcfg L))%nat -> gam du (cn (lcfg L)) j <= / 2) ->
  (forall i j, (i < cn (lcfg L))%nat -> (j < cd (lcfg L))%nat -> Rabs (IZR (Bentry L' i j)) <= bpow radix2 400) ->
  (forall j, (j < cd (lcfg L))%nat -> exists i, (i < cn (lcfg L))%nat /\ Bentry L' i j <> 0%Z) ->
  (forall j, (j < cd (lcfg L))%nat -> bpow radix2 (-400) <= Rabs (dval (Rentry dbl L' j j))) ->
  exists E : nat -> nat -> R,
    (forall j, (j < cd (lcfg L))%nat -> sq (cn (lcfg L)) (fun i => E i j) <= gam du (cn (lcfg L)) j ^ 2 * sq (cn (lcfg L)) (fun i => IZR (Bentry L' i j))) /\
    R_factor_of (cn (lcfg L)) (cd (lcfg L)) (fun i j => IZR (Bentry L' i j) + E i j) (fun i j => dval (Rentry dbl L' i j)).
Proof.
  intros RD H D2 HQ HN AC GH HB HZ NZ. pose proof RD as (CK & G & W1 & Z1).
  pose proof dbl_expo_nonneg as EX.
  rewrite <- hlll_g_real in H. unfold hlll_g in H. binv H. destruct a as [[[rv s] f] q]. injection H as -> <-.
  set (q0 := if vb then _ else _) in *. set (c := lcfg L) in *.
  assert (Wg : gwf c (hlll_reset c (lf L))) by (destruct W1; split; assumption).
  assert (X1 : relx c (lf L) (hlll_reset c (lf L))) by (right; right; reflexivity).
  pose proof (loop_vs_ref dbl EX c (householder_r dbl c) (li L) (lf L) _ fuel delta vb junk junk q0 (hr_sim_real dbl c) CK G W1 Wg X1 Z1) as A1.
  rewrite Ha in A1.
  destruct (hlll_loop_g dbl c (hr_ref dbl) fuel delta vb (li L) _ 1 _ _ _) as [[[[r' s'] g] q']| |] eqn:ER; try contradiction.
  cbn [rsim finrel] in A1. destruct A1 as (<- & <- & <- & G' & R1). cbn [lc lcfg] in HQ.
  assert (C0 : CH dbl c (lim 1) (li L) (hlll_reset c (lf L))) by (split; auto; unfold lim; cbn [Nat.eqb]; intros; lia).
  pose proof (loop_ch dbl c EX CK fuel delta vb _ _ _ _ _ _ _ _ _ (le_n 1) C0 ER D2 HQ) as [CW CS CC].
  specialize (R1 D2 eq_refl HQ). destruct R1 as (R1 & _).
  pose proof (sgood_ND c s CS ltac:(lia)) as ND.
  assert (EB : forall i j, (i < cn c)%nat -> (j < cd c)%nat -> Bentry (mkL c s f q) i j = fn (iB s) i j).
  { intros i j Hi Hj. unfold Bentry, getbase. cbn [lcfg li]. rewrite mget_mtab by assumption. reflexivity. }
  assert (RE : forall i j, (i <= j < cd c)%nat -> Rentry dbl (mkL c s f q) i j = mget (fzero dbl) (fR g) i j).
  { intros i j Hij. unfold Rentry, getR. cbn [lcfg lf]. rewrite mget_mtab by lia.
    replace (j <? i)%nat with false by (symmetry; apply Nat.ltb_ge; lia).
    replace (i <? min (cn c) (cd c))%nat with true by (symmetry; apply Nat.ltb_lt; lia).
    apply R1; [lia|]. pose proof (g_gt c s CS j ltac:(lia)). lia. }
  assert (RL : forall i j, (j < i < cd c)%nat -> Rentry dbl (mkL c s f q) i j = fzero dbl).
  { intros i j Hij. unfold Rentry, getR. cbn [lcfg lf]. rewrite mget_mtab by lia.
    now replace (j <? i)%nat with true by (symmetry; apply Nat.ltb_lt; lia). }
  assert (D0 : dval (fzero dbl) = 0) by apply dval_zero.
  destruct (backward_d (cn c) (cd c) (fn (iB s)) (fun j => nth j (iS s) 0%nat) (Vf dbl g) (fun i j => mget (fzero dbl) (fR g) i j)) as (E & E1 & E2 & E3); auto.
  - intros j Hj. now apply (g_gt c s CS).
  - intros j Hj. now apply (g_le c s CS).
  - intros j l Hj. apply (b_mono c s (g_bok c s CS)). lia.
  - intros j i Hj Hi. apply (b_zero c s (g_bok c s CS) j Hj); lia.
  - intros i j Hij. now apply (CC j ltac:(lia)).
  - intros j Hj. now apply (CC j Hj).
  - intros j i Hj Hi. now apply (CC j Hj).
  - intros j i Hj Hi. now apply (CC j Hj).
  - intros j Hj. rewrite <- RE by lia. now apply NZ.
  - intros i j Hi Hj. rewrite <- EB by assumption. now apply HB.
  - intros j Hj. destruct (HZ j Hj) as (i & Hi & NE). exists i. split; [exact Hi|]. now rewrite <- EB.
  - exists E. split; [|split].
    + intros j Hj. specialize (E1 j Hj).
      replace (sq (cn c) (fun i => IZR (Bentry (mkL c s f q) i j))) with (sq (cn c) (fun i => IZR (fn (iB s) i j))); [exact E1|].
      apply sumR_ext. intros i Hi. now rewrite EB.
    + intros i j Hij. rewrite RL by assumption. exact D0.
    + intros j l Hj Hl. specialize (E3 j l Hj Hl). etransitivity; [|etransitivity; [exact E3|]]; apply sumR_ext; intros i Hi.
      * assert (VE : forall q', (q' < cd c)%nat -> dval (Rentry dbl (mkL c s f q) i q') = if (i <=? q')%nat then dval (mget (fzero dbl) (fR g) i q') else 0).
        { intros q' Hq. destruct (Nat.leb_spec i q'); [rewrite RE by lia; reflexivity|rewrite RL by lia; exact D0]. }
        rewrite !VE by assumption. reflexivity.
      * rewrite !EB by assumption. reflexivity.
Qed.

Lemma gam_dbl n d j : (24 * Z.of_nat d * (5 * Z.of_nat n + 20) <= 2 ^ 53)%Z -> (j < d)%nat ->
  INR (S j) * INR (5 * n + 20) * du <= / 24.
Proof.
  intros H Hj. rewrite !INR_IZR_INZ, <- mult_IZR. unfold du.
  assert (Z.of_nat (S j) * Z.of_nat (5 * n + 20) * 24 <= 2 ^ 53)%Z by nia.
  apply IZR_le in H0. rewrite mult_IZR in H0. change (IZR (2 ^ 53)) with (bpow radix2 53) in H0.
  apply Rmult_le_reg_r with (bpow radix2 53); [apply bpow_gt_0|]. rewrite Rmult_assoc, <- bpow_plus.
  change (bpow radix2 (-53 + 53)) with 1. lra.
Qed.

Lemma acc_dbl n d : (24 * Z.of_nat d * (5 * Z.of_nat n + 20) <= 2 ^ 53)%Z -> (0 < d)%nat -> acc du (5 * n + 19) <= 1.
Proof.
  intros H Hd. pose proof (gam_dbl n d 0 H Hd) as G. pose proof du_pos. change (INR 1) with 1 in G. rewrite Rmult_1_l in G.
  assert (INR (5 * n + 19) <= INR (5 * n + 20)) by (apply le_INR; lia).
  assert (INR (5 * n + 19) * du <= / 24) by nra.
  pose proof (acc_lin du (5 * n + 19) ltac:(lra) ltac:(lra)). lra.
Qed.
