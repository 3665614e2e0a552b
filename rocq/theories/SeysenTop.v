(** * hlll with Seysen's reduction in exact arithmetic: the whole call *)
From Coq Require Import ZArith Lia Reals Lra List Bool Arith.
From Verif Require Import Base Spec Mat FP Hlll IntSteps HlllInt Structure Object Safety SpecReal SpecSeysen Det Fresh Cache Cache6 Cache7
  Exact HHMath ExactLoop ExactLoop2 ExactPot ExactTop SeysenExact ShortVec.
Import ListNotations.
Local Open Scope R_scope.

(** the blocks in closed form *)
Lemma blocks_closed kappa fuel : forall e t, (e <= t)%nat -> (t < e + fuel)%nat -> (2 ^ t <= kappa)%nat ->
  In ((kappa mod 2 ^ t)%nat, (kappa mod 2 ^ (t + 1) - kappa mod 2 ^ t)%nat) (seysen_blocks fuel (2 ^ e) (kappa mod 2 ^ e) kappa).
Proof.
  induction fuel as [|fuel IH]; intros e t He Hf Ht; [lia|]. cbn [seysen_blocks].
  assert (LE : (2 ^ e <= 2 ^ t)%nat) by (apply Nat.pow_le_mono_r; lia).
  replace (2 ^ e <=? kappa)%nat with true by (symmetry; apply Nat.leb_le; lia).
  assert (P : (2 ^ e <> 0)%nat) by (apply Nat.pow_nonzero; lia).
  assert (D2 : (kappa mod 2 ^ (e + 1) = kappa mod 2 ^ e + 2 ^ e * ((kappa / 2 ^ e) mod 2))%nat).
  { rewrite Nat.pow_add_r. change (2 ^ 1)%nat with 2%nat. rewrite Nat.mod_mul_r by lia. reflexivity. }
  pose proof (Nat.mod_upper_bound (kappa / 2 ^ e) 2 ltac:(lia)) as M2.
  assert (BD : (if ((kappa / 2 ^ e) mod 2 =? 0)%nat then 0%nat else (2 ^ e)%nat) = (kappa mod 2 ^ (e + 1) - kappa mod 2 ^ e)%nat).
  { rewrite D2. destruct (Nat.eqb_spec ((kappa / 2 ^ e) mod 2) 0) as [->|N]; [lia|]. replace ((kappa / 2 ^ e) mod 2)%nat with 1%nat by lia. lia. }
  rewrite BD. destruct (Nat.eq_dec t e) as [->|N]; [now left|right].
  replace (2 ^ e * 2)%nat with (2 ^ (e + 1))%nat by (rewrite Nat.pow_add_r; reflexivity).
  replace (kappa mod 2 ^ e + (kappa mod 2 ^ (e + 1) - kappa mod 2 ^ e))%nat with (kappa mod 2 ^ (e + 1))%nat by (rewrite D2; lia).
  apply IH; lia.
Qed.

Definition seysen_pr (d : nat) (r : nat -> nat -> R) : Prop :=
  forall k p, (k < d)%nat -> In p (seysen_blocks (k + 1) 1 0 k) -> blockok r (fun i => r i k) (k - fst p - snd p) (k - fst p).

Lemma seysen_pr_reduced n d B r : R_factor n d B r -> seysen_pr d r -> seysen_reduced d r.
Proof.
  intros (U & _ & _) P k t Hk. cbv zeta.
  set (a := (k - k mod 2 ^ (t + 1))%nat). set (e := (k - k mod 2 ^ t)%nat).
  assert (M : (k mod 2 ^ t <= k)%nat) by (apply Nat.mod_le, Nat.pow_nonzero; lia).
  destruct (Nat.le_gt_cases (2 ^ t) k) as [L|L].
  2:{ exists (fun _ => 0). assert (E0 : e = 0%nat) by (unfold e; rewrite Nat.mod_small by assumption; lia). split; intros; lia. }
  assert (IN : In ((k mod 2 ^ t)%nat, (k mod 2 ^ (t + 1) - k mod 2 ^ t)%nat) (seysen_blocks (k + 1) 1 0 k)).
  { pose proof (blocks_closed k (k + 1) 0 t) as Q. cbn [Nat.pow] in Q. rewrite Nat.mod_1_r in Q. apply Q; try lia.
    pose proof (Nat.pow_gt_lin_r 2 t ltac:(lia)). lia. }
  destruct (P k _ Hk IN) as (y & Y1 & Y2). cbn [fst snd] in Y1, Y2.
  assert (MM : (k mod 2 ^ t <= k mod 2 ^ (t + 1))%nat).
  { rewrite Nat.pow_add_r. change (2 ^ 1)%nat with 2%nat. assert ((2 ^ t <> 0)%nat) by (apply Nat.pow_nonzero; lia). rewrite Nat.mod_mul_r by lia. lia. }
  assert (M1 : (k mod 2 ^ (t + 1) <= k)%nat) by (apply Nat.mod_le, Nat.pow_nonzero; lia).
  replace (k - k mod 2 ^ t - (k mod 2 ^ (t + 1) - k mod 2 ^ t))%nat with a in * by (unfold a; lia). fold e in Y1, Y2.
  exists y. split; [exact Y1|]. intros i Hi. rewrite Y2 by assumption. unfold psum.
  replace e with (a + (e - a))%nat at 1 by lia. rewrite sumR_split, (sumR_0 a).
  - rewrite Rplus_0_l. apply sumR_ext. intros j Hj. destruct (Nat.leb_spec i (a + j)); [reflexivity|]. rewrite (U i (a + j)%nat) by lia. ring.
  - intros j Hj. now replace (i <=? j)%nat with false by (symmetry; apply Nat.leb_gt; lia).
Qed.

(** the entry next to the diagonal *)
Lemma last_digit k : (1 <= k)%nat -> exists t, (k mod 2 ^ t = 0)%nat /\ (1 <= k mod 2 ^ (t + 1))%nat.
Proof.
  intros Hk. assert (Q : forall m, (k mod 2 ^ m <> 0)%nat -> exists t, (k mod 2 ^ t = 0)%nat /\ (1 <= k mod 2 ^ (t + 1))%nat).
  { induction m as [|m IH]; intros H.
    - cbn [Nat.pow] in H. rewrite Nat.mod_1_r in H. lia.
    - destruct (Nat.eq_dec (k mod 2 ^ m) 0) as [E|E]; [|now apply IH]. exists m. split; [exact E|].
      replace (m + 1)%nat with (S m) by lia. lia. }
  apply (Q k). rewrite Nat.mod_small; [lia|]. apply Nat.pow_gt_lin_r. lia.
Qed.

Lemma seysen_half_next d r : seysen_reduced d r -> (forall i j, (j < i < d)%nat -> r i j = 0) -> half_next d r.
Proof.
  intros SR U i Hi. destruct (last_digit (S i) ltac:(lia)) as (t & T1 & T2).
  destruct (SR (S i) t Hi) as (y & Y1 & Y2). cbv zeta in *. rewrite T1, Nat.sub_0_r in Y1, Y2.
  set (a := (S i - S i mod 2 ^ (t + 1))%nat) in *.
  rewrite (Y2 i ltac:(lia)). rewrite (sumR_single (S i - a) (i - a)%nat).
  - replace (a + (i - a))%nat with i by lia. rewrite Rabs_mult. pose proof (Y1 i ltac:(lia)). pose proof (Rabs_pos (r i i)).
    apply Rle_trans with (Rabs (r i i) * / 2); [now apply Rmult_le_compat_l|lra].
  - lia.
  - intros j Hj N. rewrite (U i (a + j)%nat) by lia. ring.
Qed.

Section Top.
Variable fp : fpops R.
Hypothesis X : exact fp.

Lemma seysen_all d g r : (forall j, (j < d)%nat -> seysen_col fp j g) ->
  (forall i j, (i <= j < d)%nat -> r i j = mget (fzero fp) (fR g) i j) -> seysen_pr d r.
Proof.
  intros A E k p Hk Hp. apply (blockok_ext (fun i j => mget (fzero fp) (fR g) i j) (fun i => mget (fzero fp) (fR g) i k)); [| |now apply A].
  - intros i j Hi Hj. apply E. lia.
  - intros i Hi. apply E. lia.
Qed.

Lemma seysen_exact_fresh J n d A u m vd thr nb fuel delta vb junk : independent n d (fn A) -> (1 <= m)%Z ->
  match hlll fp fuel delta vb junk (fresh_object fp J n d A u m true vd 1 thr nb) with
  | Ok (rv, L) =>
      ((rv = 0%Z /\ ((2 <= d)%nat -> (nblov (lc L) < nb)%Z -> 
         forall junk', let r := fun i j => mget 0 (getR fp junk' L) i j in
         R_factor n d (fn (getbase L)) r /\ seysen_reduced d r /\ lovasz_ok d delta r)) \/
      (rv = (-1)%Z /\ 1 < delta)) /\
      exists k : nat, nbswaps (lc L) = Z.of_nat k /\ (0 < delta -> 1 <= IZR (potential n d (fn (getbase L))) <= delta ^ k * IZR (potential n d (fn A)))
  | UB => False
  | NoFuel => (forall x, Rabs x <= / 2 -> frnd fp x = 0) -> delta <= 1 ->
      (Z.of_nat fuel < 2 * potential n d (fn A) + Z.of_nat d + 1)%Z /\
      forall K : nat, 0 < delta -> delta ^ K * IZR (potential n d (fn A)) < 1 -> (Z.of_nat fuel < 2 * Z.of_nat K + Z.of_nat d + 1)%Z
  end.
Proof.
  intros I Hm.
  assert (RO : reduces fp (seysen_col fp) (lcfg (fresh_object fp J n d A u m true vd 1 thr nb))).
  { intros fl s g kappa H1 Hk E. now apply seysen_reduce_exact. }
  pose proof (hlll_exact_fresh_any fp X (seysen_col fp) (seysen_ext fp) (seysen_0 fp) seysen_pr seysen_all
    J n d A u m true vd 1 thr nb fuel delta vb junk I RO) as H.
  destruct (hlll _ _ _ _ _ _) as [[rv L]| |]; auto.
  destruct H as (H & K). split; [|exact K]. destruct H as [(H1 & H2)|H]; [left|now right].
  split; [exact H1|]. intros D2 NB junk'. destruct (H2 D2 NB junk') as (A1 & A2 & A3). split; [exact A1|]. split; [|exact A3].
  now apply (seysen_pr_reduced n d (fn (getbase L))).
Qed.

End Top.
