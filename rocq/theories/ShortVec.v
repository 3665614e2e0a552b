(** * The first vector of an LLL-reduced basis *)
From Coq Require Import ZArith Lia Reals Lra List Bool Arith.
From Verif Require Import Spec SpecReal.
Local Open Scope R_scope.

Lemma norm_comb n d (B : zmat) r (z : nat -> Z) : R_factor n d B r ->
  IZR (norm2 n (fun i => sumZ d (fun j => B i j * z j)%Z)) =
  sumR d (fun i => sumR d (fun j => r i j * IZR (z j)) * sumR d (fun j => r i j * IZR (z j))).
Proof.
  intros (_ & _ & G). unfold norm2.
  transitivity (sumR d (fun j => sumR d (fun l => IZR (z j) * IZR (z l) * IZR (sumZ n (fun i => B i j * B i l)%Z)))).
  - rewrite sumZ_IZR.
    rewrite (sumR_ext n _ (fun i => sumR d (fun j => sumR d (fun l => IZR (z j) * IZR (z l) * IZR (B i j * B i l)%Z)))).
    + rewrite sumR_swap. apply sumR_ext. intros j Hj. rewrite sumR_swap. apply sumR_ext. intros l Hl.
      rewrite sumR_mul_l, sumZ_IZR. reflexivity.
    + intros i Hi. rewrite mult_IZR, sumZ_IZR, <- sumR_mul_r. apply sumR_ext. intros j Hj.
      rewrite <- sumR_mul_l. apply sumR_ext. intros l Hl. rewrite <- !mult_IZR. f_equal. ring.
  - rewrite (sumR_ext d (fun j => sumR d (fun l => IZR (z j) * IZR (z l) * IZR (sumZ n (fun i => B i j * B i l)%Z)))
      (fun j => sumR d (fun l => sumR d (fun i => IZR (z j) * IZR (z l) * (r i j * r i l))))).
    + rewrite (sumR_ext d _ (fun j => sumR d (fun i => sumR d (fun l => IZR (z j) * IZR (z l) * (r i j * r i l)))))
        by (intros j Hj; apply sumR_swap).
      rewrite sumR_swap. apply sumR_ext. intros i Hi. rewrite <- sumR_mul_r. apply sumR_ext. intros j Hj.
      rewrite <- sumR_mul_l. apply sumR_ext. intros l Hl. ring.
    + intros j Hj. apply sumR_ext. intros l Hl. rewrite <- G by assumption. now rewrite sumR_mul_l.
Qed.

Lemma last_nonzero d (z : nat -> Z) : (exists j, (j < d)%nat /\ z j <> 0%Z) ->
  exists m, (m < d)%nat /\ z m <> 0%Z /\ forall j, (m < j < d)%nat -> z j = 0%Z.
Proof.
  induction d as [|d IH]; intros (j & Hj & N); [lia|].
  destruct (Z.eq_dec (z d) 0) as [E|E].
  - destruct IH as (m & Hm & M1 & M2).
    + exists j. split; [|assumption]. destruct (Nat.eq_dec j d) as [->|]; [congruence|lia].
    + exists m. split; [lia|]. split; [assumption|]. intros l Hl. destruct (Nat.eq_dec l d) as [->|]; [assumption|apply M2; lia].
  - exists d. split; [lia|]. split; [assumption|]. intros; lia.
Qed.

Lemma sq_pos (a : R) : 0 <= a * a.
Proof. apply Rle_0_sqr. Qed.

(** only the entries next to the diagonal matter *)
Definition half_next (d : nat) (r : nat -> nat -> R) : Prop :=
  forall i, (S i < d)%nat -> Rabs (r i (S i)) <= Rabs (r i i) / 2.

Lemma diag_growth d delta r : /4 < delta -> half_next d r -> lovasz_ok d delta r ->
  forall i, (i < d)%nat -> (delta - /4) ^ i * (r 0%nat 0%nat * r 0%nat 0%nat) <= r i i * r i i.
Proof.
  intros HD SR LO. induction i as [|i IH]; intros Hi; [cbn; lra|].
  specialize (IH ltac:(lia)). specialize (LO i ltac:(lia)). specialize (SR i ltac:(lia)).
  assert (Q : r i (S i) * r i (S i) <= / 4 * (r i i * r i i)).
  { assert (H : forall x, x * x = Rabs x * Rabs x) by (intros x; rewrite <- Rabs_mult; symmetry; apply Rabs_right; apply Rle_ge, sq_pos).
    rewrite (H (r i (S i))), (H (r i i)). pose proof (Rabs_pos (r i (S i))). pose proof (Rabs_pos (r i i)).
    apply Rle_trans with (Rabs (r i i) / 2 * (Rabs (r i i) / 2)); [apply Rmult_le_compat; lra|lra]. }
  cbn [pow]. pose proof (sq_pos (r i i)) as P.
  assert ((delta - /4) * ((delta - /4) ^ i * (r 0%nat 0%nat * r 0%nat 0%nat)) <= (delta - /4) * (r i i * r i i)) by (apply Rmult_le_compat_l; lra).
  lra.
Qed.

Lemma first_norm n d B r : (1 <= d)%nat -> R_factor n d B r -> IZR (norm2 n (fun i => B i 0%nat)) = r 0%nat 0%nat * r 0%nat 0%nat.
Proof.
  intros Hd (U & _ & G). unfold norm2. rewrite <- (G 0%nat 0%nat) by lia. apply (sumR_single d 0 (fun i => r i 0%nat * r i 0%nat)); [lia|].
  intros i Hi N. rewrite (U i 0%nat) by lia. ring.
Qed.

Lemma short_first_next n d delta B r : (1 <= d)%nat -> /4 < delta <= 1 -> R_factor n d B r -> half_next d r -> lovasz_ok d delta r ->
  forall v, in_lattice n d B v -> (exists i, (i < n)%nat /\ v i <> 0%Z) ->
  (delta - /4) ^ (d - 1) * IZR (norm2 n (fun i => B i 0%nat)) <= IZR (norm2 n v).
Proof.
  intros Hd HD RF SR LO v (z & Hz) (i0 & Hi0 & Nv).
  assert (ZN : exists j, (j < d)%nat /\ z j <> 0%Z).
  { assert (EX : forall m, (exists j, (j < m)%nat /\ z j <> 0%Z) \/ forall j, (j < m)%nat -> z j = 0%Z).
    { induction m as [|m [IH|IH]]; [right; intros; lia|left; destruct IH as (j & ? & ?); exists j; split; [lia|assumption]|].
      destruct (Z.eq_dec (z m) 0) as [E|E]; [right|left; exists m; split; [lia|assumption]].
      intros j Hj. destruct (Nat.eq_dec j m) as [->|]; [assumption|apply IH; lia]. }
    destruct (EX d) as [E|E]; [exact E|]. exfalso. apply Nv. rewrite Hz by assumption. apply sumZ_0. intros j Hj. rewrite E by assumption. ring. }
  destruct (last_nonzero d z ZN) as (m & Hm & NZ & ZT).
  assert (NV : norm2 n v = norm2 n (fun i => sumZ d (fun j => B i j * z j)%Z)).
  { unfold norm2. apply sumZ_ext. intros i Hi. now rewrite Hz. }
  rewrite NV, (norm_comb n d B r z RF), (first_norm n d B r Hd RF).
  assert (T : sumR d (fun j => r m j * IZR (z j)) = r m m * IZR (z m)).
  { apply (sumR_single d m (fun j => r m j * IZR (z j))); [assumption|]. intros j Hj N. destruct RF as (U & _). destruct (Nat.lt_ge_cases j m).
    - rewrite U by lia. ring.
    - rewrite ZT by lia. ring. }
  pose proof (sumR_term d (fun i => sumR d (fun j => r i j * IZR (z j)) * sumR d (fun j => r i j * IZR (z j))) m (fun i _ => sq_pos _) Hm) as TM.
  cbn beta in TM. rewrite T in TM. apply Rle_trans with (2 := TM).
  pose proof (diag_growth d delta r (proj1 HD) SR LO m Hm) as DG.
  assert (Z1 : 1 <= IZR (z m) * IZR (z m)).
  { rewrite <- mult_IZR. apply IZR_le. nia. }
  assert (PW : (delta - /4) ^ (d - 1) <= (delta - /4) ^ m).
  { replace (d - 1)%nat with (m + (d - 1 - m))%nat by lia. rewrite pow_add.
    assert (0 <= (delta - /4) ^ m) by (apply pow_le; lra).
    assert ((delta - /4) ^ (d - 1 - m) <= 1) by (rewrite <- (pow1 (d - 1 - m)); apply pow_incr; lra).
    rewrite <- Rmult_1_r. now apply Rmult_le_compat_l. }
  pose proof (sq_pos (r 0%nat 0%nat)). pose proof (sq_pos (r m m)).
  apply Rle_trans with ((delta - /4) ^ m * (r 0%nat 0%nat * r 0%nat 0%nat)); [now apply Rmult_le_compat_r|].
  apply Rle_trans with (1 := DG).
  replace (r m m * IZR (z m) * (r m m * IZR (z m))) with (r m m * r m m * (IZR (z m) * IZR (z m))) by ring.
  rewrite <- Rmult_1_r at 1. now apply Rmult_le_compat_l.
Qed.

Lemma short_first n d delta B : (1 <= d)%nat -> /4 < delta <= 1 -> LLL_reduced n d delta B ->
  forall v, in_lattice n d B v -> (exists i, (i < n)%nat /\ v i <> 0%Z) ->
  (delta - /4) ^ (d - 1) * IZR (norm2 n (fun i => B i 0%nat)) <= IZR (norm2 n v).
Proof.
  intros Hd HD (r & RF & SR & LO). apply (short_first_next n d delta B r); auto. intros i Hi. apply SR. lia.
Qed.
