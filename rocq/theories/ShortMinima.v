(** * The first vectors of an LLL-reduced basis: short independent lattice vectors bound them *)
From Coq Require Import ZArith Lia Reals Lra Psatz List Bool Arith.
From Verif Require Import Spec SpecReal ShortVec LinDep.
Local Open Scope R_scope.

(** k independent vectors of the lattice, written in the basis, use a column of index >= k-1 *)
Lemma lattice_coeffs n d (B X : zmat) k : (forall t, (t < k)%nat -> in_lattice n d B (fun i => X i t)) ->
  exists Z : zmat, forall t i, (t < k)%nat -> (i < n)%nat -> X i t = sumZ d (fun l => (B i l * Z l t)%Z).
Proof.
  induction k as [|k IH]; intros H; [exists (fun _ _ => 0%Z); intros; lia|].
  destruct IH as (Z & HZ); [intros; apply H; lia|]. destruct (H k ltac:(lia)) as (z & Hz).
  exists (fun l t => if (t =? k)%nat then z l else Z l t). intros t i Ht Hi. destruct (Nat.eqb_spec t k) as [->|N]; [now apply Hz|].
  apply HZ; lia.
Qed.

Lemma nonzero_above k a d (Z : zmat) :
  (forall t l, (t < k)%nat -> (a <= l < d)%nat -> Z l t = 0%Z) \/ exists t l, (t < k)%nat /\ (a <= l < d)%nat /\ Z l t <> 0%Z.
Proof.
  induction k as [|k [IH|IH]]; [left; intros; lia| |right; destruct IH as (t & l & ? & ? & ?); exists t, l; repeat split; auto; lia].
  destruct (nonzero_in_row (d - a) (fun l => Z (a + l)%nat k)) as [N|(p & Hp & N)].
  - left. intros t l Ht Hl. destruct (Nat.eq_dec t k) as [->|]; [|apply IH; lia]. specialize (N (l - a)%nat ltac:(lia)). cbn beta in N.
    now replace (a + (l - a))%nat with l in N by lia.
  - right. exists k, (a + p)%nat. repeat split; auto; lia.
Qed.

Lemma high_coeff n d (B X Z : zmat) k : (1 <= k)%nat -> independent n k X ->
  (forall t i, (t < k)%nat -> (i < n)%nat -> X i t = sumZ d (fun l => (B i l * Z l t)%Z)) ->
  exists t l, (t < k)%nat /\ (k - 1 <= l < d)%nat /\ Z l t <> 0%Z.
Proof.
  intros Hk I HX. destruct (nonzero_above k (k - 1) d Z) as [N|E]; [exfalso|exact E].
  destruct (dependent (k - 1) k Z ltac:(lia)) as (c & (q & Hq & Nq) & H). apply Nq. apply (I c); [|exact Hq]. intros i Hi.
  rewrite (sumZ_ext k _ (fun t => sumZ d (fun l => (B i l * Z l t * c t)%Z))) by (intros t Ht; rewrite HX by assumption; now rewrite <- sumZ_mul_r).
  rewrite sumZ_swap. apply sumZ_0. intros l Hl.
  rewrite (sumZ_ext k _ (fun t => (B i l * (Z l t * c t))%Z)) by (intros; ring). rewrite sumZ_mul_l.
  destruct (Nat.lt_ge_cases l (k - 1)) as [L|L]; [rewrite H by assumption; ring|].
  rewrite (sumZ_0 k); [ring|]. intros t Ht. rewrite N by (try lia; assumption). ring.
Qed.

Lemma norm_ge_diag n d B r (z : nat -> Z) l0 : R_factor n d B r -> (l0 < d)%nat -> z l0 <> 0%Z ->
  exists m, (l0 <= m < d)%nat /\ r m m * r m m <= IZR (norm2 n (fun i => sumZ d (fun j => (B i j * z j)%Z))).
Proof.
  intros RF Hl NZ0. destruct (last_nonzero d z) as (m & Hm & NZ & ZT); [now exists l0|].
  assert (l0 <= m)%nat by (destruct (Nat.le_gt_cases l0 m); [assumption|exfalso; apply NZ0, ZT; lia]).
  exists m. split; [lia|]. rewrite (norm_comb n d B r z RF).
  assert (T : sumR d (fun j => r m j * IZR (z j)) = r m m * IZR (z m)).
  { apply (sumR_single d m (fun j => r m j * IZR (z j))); [assumption|]. intros j Hj N. destruct RF as (U & _). destruct (Nat.lt_ge_cases j m).
    - rewrite U by lia. ring.
    - rewrite ZT by lia. ring. }
  pose proof (sumR_term d (fun i => sumR d (fun j => r i j * IZR (z j)) * sumR d (fun j => r i j * IZR (z j))) m (fun i _ => sq_pos _) Hm) as TM.
  cbn beta in TM. rewrite T in TM. apply Rle_trans with (2 := TM).
  assert (Z1 : 1 <= IZR (z m) * IZR (z m)) by (rewrite <- mult_IZR; apply IZR_le; nia).
  pose proof (sq_pos (r m m)). nra.
Qed.

Lemma half_sq a b : Rabs a <= Rabs b / 2 -> a * a <= / 4 * (b * b).
Proof.
  intros H. assert (E : forall x, x * x = Rabs x * Rabs x) by (intros x; rewrite <- Rabs_mult; symmetry; apply Rabs_right; apply Rle_ge, sq_pos).
  rewrite (E a), (E b). pose proof (Rabs_pos a). pose proof (Rabs_pos b). nra.
Qed.

Lemma diag_growth_from d delta r i : /4 < delta -> half_next d r -> lovasz_ok d delta r ->
  forall e, (i + e < d)%nat -> (delta - /4) ^ e * (r i i * r i i) <= r (i + e)%nat (i + e)%nat * r (i + e)%nat (i + e)%nat.
Proof.
  intros HD SR LO. induction e as [|e IH]; intros Hi; [rewrite Nat.add_0_r; cbn; lra|].
  specialize (IH ltac:(lia)). rewrite Nat.add_succ_r in *. specialize (LO (i + e)%nat Hi). specialize (SR (i + e)%nat Hi).
  apply half_sq in SR. cbn [pow].
  assert ((delta - /4) * ((delta - /4) ^ e * (r i i * r i i)) <= (delta - /4) * (r (i + e)%nat (i + e)%nat * r (i + e)%nat (i + e)%nat)) by (apply Rmult_le_compat_l; lra).
  lra.
Qed.

Lemma sumR_mono n f g : (forall i, (i < n)%nat -> f i <= g i) -> sumR n f <= sumR n g.
Proof.
  induction n as [|n IH]; intros H; cbn; [lra|]. assert (sumR n f <= sumR n g) by (apply IH; intros; apply H; lia).
  specialize (H n ltac:(lia)). lra.
Qed.

(** 1/4 (1 + q + ... + q^(j-1)) + q^j <= 1 *)
Lemma geo_le q j : 0 < q <= 3 / 4 -> / 4 * sumR j (fun i => q ^ i) + q ^ j <= 1.
Proof.
  intros Hq. induction j as [|j IH]; [cbn; lra|]. cbn [sumR pow]. assert (0 < q ^ j) by (apply pow_lt; lra). nra.
Qed.

Lemma norm_le_diag n d delta B r j : (j < d)%nat -> /4 < delta <= 1 -> R_factor n d B r -> size_reduced d r -> lovasz_ok d delta r ->
  (delta - /4) ^ j * IZR (norm2 n (fun i => B i j)) <= r j j * r j j.
Proof.
  intros Hj HD (U & _ & G) SR LO. set (q := delta - /4). assert (Hq : 0 < q <= 3/4) by (unfold q; lra).
  unfold norm2. rewrite <- (G j j) by assumption. rewrite (sumR_cut d (Datatypes.S j)) by (try lia; intros i Hi; rewrite (U i j) by lia; ring). cbn [sumR].
  assert (HN : half_next d r) by (intros i Hi; apply SR; lia).
  assert (E : q ^ j * sumR j (fun i => r i j * r i j) <= / 4 * sumR j (fun i => q ^ i) * (r j j * r j j)).
  { rewrite <- sumR_mul_l, <- sumR_mul_l, <- sumR_mul_r. apply sumR_mono. intros i Hi.
    pose proof (half_sq _ _ (SR i j ltac:(lia))) as H1.
    pose proof (diag_growth_from d delta r i (proj1 HD) HN LO (j - i)%nat ltac:(lia)) as H2. fold q in H2. replace (i + (j - i))%nat with j in H2 by lia.
    replace (q ^ j) with (q ^ i * q ^ (j - i)) by (rewrite <- pow_add; f_equal; lia).
    assert (0 < q ^ i) by (apply pow_lt; lra). assert (0 < q ^ (j - i)) by (apply pow_lt; lra).
    assert (q ^ i * (q ^ (j - i) * (r i j * r i j)) <= q ^ i * (/ 4 * (r j j * r j j))) by (apply Rmult_le_compat_l; [lra|]; nra). nra. }
  pose proof (geo_le q j Hq). pose proof (sq_pos (r j j)). nra.
Qed.

(** the k first vectors of a reduced basis against any k independent vectors of the lattice *)
Lemma short_minima n d delta B : /4 < delta <= 1 -> LLL_reduced n d delta B ->
  forall k (X : zmat) M, independent n k X -> (forall t, (t < k)%nat -> in_lattice n d B (fun i => X i t)) ->
  (forall t, (t < k)%nat -> IZR (norm2 n (fun i => X i t)) <= M) ->
  (k <= d)%nat /\ forall j, (j < k)%nat -> (delta - /4) ^ (d - 1) * IZR (norm2 n (fun i => B i j)) <= M.
Proof.
  intros HD (r & RF & SR & LO) k X M I HX HM.
  destruct (Nat.eq_dec k 0) as [->|Nk]; [split; [lia|intros; lia]|].
  destruct (lattice_coeffs n d B X k HX) as (Z & HZ).
  destruct (high_coeff n d B X Z k ltac:(lia) I HZ) as (t & l & Ht & Hl & NZ). split; [lia|]. intros j Hj.
  destruct (norm_ge_diag n d B r (fun l => Z l t) l RF ltac:(lia) NZ) as (m & Hm & NG).
  specialize (HM t Ht). assert (E : norm2 n (fun i => X i t) = norm2 n (fun i => sumZ d (fun j => (B i j * Z j t)%Z))).
  { unfold norm2. apply sumZ_ext. intros i Hi. now rewrite (HZ t i Ht Hi). }
  rewrite E in HM. assert (HN : half_next d r) by (intros i Hi; apply SR; lia).
  pose proof (norm_le_diag n d delta B r j ltac:(lia) HD RF SR LO) as H1.
  pose proof (diag_growth_from d delta r j (proj1 HD) HN LO (m - j)%nat ltac:(lia)) as H2. replace (j + (m - j))%nat with m in H2 by lia.
  set (q := delta - /4) in *. assert (Hq : 0 < q <= 3/4) by (unfold q; lra).
  assert (P0 : 0 <= IZR (norm2 n (fun i => B i j))).
  { apply IZR_le. unfold norm2. clear. induction n as [|n IH]; cbn [sumZ]; nia. }
  assert (PW : q ^ (d - 1) <= q ^ m).
  { replace (d - 1)%nat with (m + (d - 1 - m))%nat by lia. rewrite pow_add.
    assert (0 < q ^ m) by (apply pow_lt; lra).
    assert (q ^ (d - 1 - m) <= 1) by (rewrite <- (pow1 (d - 1 - m)); apply pow_incr; lra). nra. }
  apply Rle_trans with (q ^ m * IZR (norm2 n (fun i => B i j))); [now apply Rmult_le_compat_r|].
  replace (q ^ m) with (q ^ (m - j) * q ^ j) by (rewrite <- pow_add; f_equal; lia).
  assert (0 < q ^ (m - j)) by (apply pow_lt; lra).
  rewrite Rmult_assoc. apply Rle_trans with (q ^ (m - j) * (r j j * r j j)); [apply Rmult_le_compat_l; lra|]. lra.
Qed.
