(** * RGram: R factors of real columns, and the potential of HJLS

    [rf d K F r]: r (row i, column j) is upper triangular on the columns < K and has the same scalar products as the
    columns F_0 .. F_(K-1) of R^d. *)
From Coq Require Import ZArith Lia List Bool Arith Reals Lra.
From Verif Require Import Base Spec SpecReal HHMath.
Local Open Scope R_scope.

Section G.
Variable d : nat.

Definition rf (K : nat) (F : nat -> nat -> R) (r : nat -> nat -> R) : Prop :=
  (forall i j, (j < i < d)%nat -> (j < K)%nat -> r i j = 0) /\
  forall j k, (j < K)%nat -> (k < K)%nat -> dot d (F j) (F k) = dot d (fun i => r i j) (fun i => r i k).

Lemma rf_less K K' F r : (K' <= K)%nat -> rf K F r -> rf K' F r.
Proof. intros L [A B]. split; [intros i j Hi Hj; apply A; lia|intros; apply B; lia]. Qed.

Lemma rf_ext K F F' r : (forall j i, (j < K)%nat -> (i < d)%nat -> F j i = F' j i) -> rf K F r -> rf K F' r.
Proof.
  intros E [A B]. split; [exact A|]. intros j k Hj Hk. rewrite <- B by assumption. apply dot_ext; intros; symmetry; now apply E.
Qed.

(** the products of the entries of a row depend on F only *)
Lemma rf_products K F r r' : (K <= d)%nat -> rf K F r -> rf K F r' ->
  forall i, (i < K)%nat -> (forall l, (l < i)%nat -> r l l <> 0) ->
  r' i i * r' i i = r i i * r i i /\ forall j, (j < K)%nat -> r' i i * r' i j = r i i * r i j.
Proof.
  intros KD [U B] [U' B'].
  assert (P : forall i, (i < K)%nat -> (forall l, (l < i)%nat -> r l l <> 0) ->
    (forall l j k, (l < i)%nat -> (j < K)%nat -> (k < K)%nat -> r' l j * r' l k = r l j * r l k) ->
    forall j, (j < K)%nat -> r' i i * r' i j = r i i * r i j).
  { intros i Hi NZ IH j Hj. pose proof (B i j Hi Hj) as E1. pose proof (B' i j Hi Hj) as E2. rewrite E1 in E2. unfold dot in E2.
    rewrite (sumR_cut d (S i) (fun l => r l i * r l j)) in E2; [|lia|intros l Hl; rewrite U by lia; ring].
    rewrite (sumR_cut d (S i) (fun l => r' l i * r' l j)) in E2; [|lia|intros l Hl; rewrite U' by lia; ring].
    cbn [sumR] in E2. rewrite (sumR_ext i (fun l => r' l i * r' l j) (fun l => r l i * r l j)) in E2 by (intros l Hl; apply IH; lia). lra. }
  assert (Q : forall i, (i <= K)%nat -> (forall l, (l < i)%nat -> r l l <> 0) ->
    forall l j k, (l < i)%nat -> (j < K)%nat -> (k < K)%nat -> r' l j * r' l k = r l j * r l k).
  { induction i as [|i IH]; intros Hi NZ l j k Hl Hj Hk; [lia|].
    specialize (IH ltac:(lia) (fun l H => NZ l (Nat.lt_lt_succ_r _ _ H))).
    destruct (Nat.eq_dec l i) as [->|N]; [|apply IH; lia].
    pose proof (P i ltac:(lia) (fun l H => NZ l (Nat.lt_lt_succ_r _ _ H)) IH) as PI.
    pose proof (PI i ltac:(lia)) as PII. pose proof (PI j Hj) as PJ. pose proof (PI k Hk) as PK.
    pose proof (NZ i ltac:(lia)) as N0.
    assert (N2 : r i i * r i i <> 0) by (apply Rmult_integral_contrapositive; tauto).
    apply Rmult_eq_reg_l with (r i i * r i i); [|exact N2].
    transitivity ((r' i i * r' i j) * (r' i i * r' i k)); [|rewrite PJ, PK; ring].
    rewrite <- PII. ring. }
  intros i Hi NZ. pose proof (P i Hi NZ (Q i ltac:(lia) NZ)) as PI. split; [now apply PI|exact PI].
Qed.

(** ** Operations on the columns *)
Definition addc (x : R) (i k : nat) (F : nat -> nat -> R) : nat -> nat -> R := fun j l => if (j =? k)%nat then F j l - x * F i l else F j l.

Lemma dot_sub_l a b c x : dot d (fun l => a l - x * b l) c = dot d a c - x * dot d b c.
Proof. unfold dot. rewrite <- sumR_mul_l, <- sumR_minus. apply sumR_ext. intros; ring. Qed.
Lemma dot_sym a b : dot d a b = dot d b a.
Proof. apply sumR_ext. intros; ring. Qed.

Lemma rf_addc K F r x i k : (i < k)%nat -> (k < K)%nat -> (K <= d)%nat -> rf K F r ->
  rf K (addc x i k F) (fun l j => if (j =? k)%nat then r l j - x * r l i else r l j).
Proof.
  intros Hi Hk KD [U B]. split.
  - intros l j Hl Hj. destruct (Nat.eqb_spec j k) as [->|N]; [rewrite !U by lia; ring|now apply U].
  - assert (D : forall (G : nat -> nat -> R) j c, dot d (fun l => if (j =? k)%nat then G j l - x * G i l else G j l) c =
       if (j =? k)%nat then dot d (G j) c - x * dot d (G i) c else dot d (G j) c).
    { intros G j c. destruct (j =? k)%nat; [apply dot_sub_l|reflexivity]. }
    intros j k' Hj Hk'. unfold addc.
    rewrite (D F j). rewrite (D (fun j l => r l j) j).
    rewrite !(dot_sym _ (fun l => if (k' =? k)%nat then F k' l - x * F i l else F k' l)), !(D F k').
    rewrite !(dot_sym _ (fun l => if (k' =? k)%nat then r l k' - x * r l i else r l k')), !(D (fun j l => r l j) k').
    rewrite !B by lia. reflexivity.
Qed.

Definition swapc (p q : nat) (F : nat -> nat -> R) : nat -> nat -> R := fun j l => F (if (j =? p)%nat then q else if (j =? q)%nat then p else j) l.

Lemma sumR_pair m (f g : nat -> R) k : (S k < m)%nat -> (forall i, (i < m)%nat -> i <> k -> i <> S k -> f i = g i) ->
  f k + f (S k) = g k + g (S k) -> sumR m f = sumR m g.
Proof.
  intros Hk E P. replace m with (k + (2 + (m - k - 2)))%nat in * by lia. rewrite !sumR_split.
  rewrite (sumR_ext k f g) by (intros i Hi; apply E; lia).
  rewrite (sumR_ext _ (fun i => f (k + (2 + i))%nat) (fun i => g (k + (2 + i))%nat)) by (intros i Hi; apply E; lia).
  cbn [sumR]. replace (k + 0)%nat with k by lia. replace (k + 1)%nat with (S k) by lia. lra.
Qed.

(** the exchange of two neighbours *)
Lemma rf_swap K F r m : (S m < K)%nat -> (K <= d)%nat -> rf K F r ->
  let a := r m (S m) in let b := r (S m) (S m) in
  0 < a * a + b * b ->
  exists r', rf K (swapc m (S m) F) r' /\ r' m m * r' m m = a * a + b * b /\
    (r' m m * r' m m) * (r' (S m) (S m) * r' (S m) (S m)) = (r m m * r m m) * (b * b) /\
    forall j, (j < K)%nat -> j <> m -> j <> S m -> r' j j = r j j.
Proof.
  intros Hm KD [U B] a b P. set (h := sqrt (a * a + b * b)).
  assert (H0 : 0 < h) by (now apply sqrt_lt_R0). assert (HH : h * h = a * a + b * b) by (apply sqrt_sqrt; lra).
  set (sg := fun j => if (j =? m)%nat then S m else if (j =? S m)%nat then m else j).
  set (r' := fun i j => if (i =? m)%nat then (a * r m (sg j) + b * r (S m) (sg j)) / h
                        else if (i =? S m)%nat then (b * r m (sg j) - a * r (S m) (sg j)) / h else r i (sg j)).
  assert (SM : sg m = S m) by (unfold sg; now rewrite Nat.eqb_refl).
  assert (SS : sg (S m) = m) by (unfold sg; rewrite Nat.eqb_refl; now replace (S m =? m)%nat with false by (symmetry; apply Nat.eqb_neq; lia)).
  assert (SO : forall j, j <> m -> j <> S m -> sg j = j).
  { intros j N1 N2. unfold sg. apply Nat.eqb_neq in N1, N2. now rewrite N1, N2. }
  assert (SK : forall j, (j < K)%nat -> (sg j < K)%nat) by (intros j Hj; unfold sg; destruct (j =? m)%nat; [lia|]; destruct (j =? S m)%nat; lia).
  assert (RM : forall j, r' m j = (a * r m (sg j) + b * r (S m) (sg j)) / h) by (intros; unfold r'; now rewrite Nat.eqb_refl).
  assert (RS : forall j, r' (S m) j = (b * r m (sg j) - a * r (S m) (sg j)) / h).
  { intros; unfold r'. rewrite Nat.eqb_refl. now replace (S m =? m)%nat with false by (symmetry; apply Nat.eqb_neq; lia). }
  assert (RO : forall i j, i <> m -> i <> S m -> r' i j = r i (sg j)).
  { intros i j N1 N2. unfold r'. apply Nat.eqb_neq in N1, N2. now rewrite N1, N2. }
  exists r'. split; [split|split; [|split]].
  - intros i j Hi Hj. destruct (Nat.eq_dec i m) as [->|N1].
    + rewrite RM, SO by lia. rewrite !U by lia. unfold Rdiv. ring.
    + destruct (Nat.eq_dec i (S m)) as [->|N2].
      * rewrite RS. destruct (Nat.eq_dec j m) as [->|N3].
        -- rewrite SM. fold a. fold b. unfold Rdiv. ring.
        -- rewrite SO by lia. rewrite !U by lia. unfold Rdiv. ring.
      * rewrite RO by assumption. apply U; [|now apply SK]. unfold sg. destruct (Nat.eqb_spec j m); [lia|]. destruct (Nat.eqb_spec j (S m)); lia.
  - intros j k Hj Hk. unfold swapc. fold (sg j). fold (sg k). rewrite B by (now apply SK). unfold dot. symmetry. apply (sumR_pair d _ _ m); [lia| |].
    + intros i Hi N1 N2. now rewrite !RO by assumption.
    + rewrite !RM, !RS. set (p := r m (sg j)). set (q := r (S m) (sg j)). set (p' := r m (sg k)). set (q' := r (S m) (sg k)).
      transitivity ((a * a + b * b) * (p * p' + q * q') / (h * h)); [field; lra|]. rewrite HH. field. lra.
  - rewrite RM, SM. fold a. fold b. transitivity ((a * a + b * b) * (a * a + b * b) / (h * h)); [field; lra|]. rewrite HH. field. lra.
  - rewrite RM, RS, SM, SS. fold a. fold b. rewrite (U (S m) m) by lia.
    transitivity ((a * a + b * b) * (a * a + b * b) * ((r m m * r m m) * (b * b)) / ((h * h) * (h * h))); [field; lra|].
    rewrite HH. field. lra.
  - intros j Hj N1 N2. now rewrite RO, SO by assumption.
Qed.

(** another last column *)
Lemma rf_last K F r F' w : (S K <= d)%nat -> rf (S K) F r -> (forall j, (j < K)%nat -> forall i, (i < d)%nat -> F' j i = F j i) ->
  (forall i, (K < i < d)%nat -> w i = 0) ->
  (forall j, (j < K)%nat -> dot d (F' K) (F j) = dot d w (fun i => r i j)) -> dot d (F' K) (F' K) = dot d w w ->
  rf (S K) F' (fun i j => if (j =? K)%nat then w i else r i j).
Proof.
  intros KD [U B] EF W C1 C2.
  assert (DJ : forall j c, (j < K)%nat -> dot d (F' j) c = dot d (F j) c) by (intros j c Hj; apply dot_ext; intros; auto).
  split.
  - intros i j Hi Hj. destruct (Nat.eqb_spec j K) as [->|N]; [now apply W|apply U; lia].
  - intros j k Hj Hk. destruct (Nat.eqb_spec j K) as [->|Nj]; destruct (Nat.eqb_spec k K) as [->|Nk].
    + exact C2.
    + rewrite dot_sym, DJ, dot_sym by lia. apply C1. lia.
    + rewrite DJ, dot_sym by lia. rewrite C1 by lia. apply dot_sym.
    + rewrite DJ, (dot_sym (F j)), DJ, (dot_sym (F k)) by lia. apply B; lia.
Qed.
End G.

(** ** The potential: the product over k of the products of max(x_j,b), j < k *)
Section P.
Variable b : R.
Hypothesis B0 : 0 < b.

Fixpoint qk (x : nat -> R) (k : nat) : R := match k with O => 1 | S k => qk x k * Rmax (x k) b end.
Fixpoint pot (x : nat -> R) (d : nat) : R := match d with O => 1 | S d => pot x d * qk x (S d) end.

Lemma ymax_pos v : 0 < Rmax v b.
Proof. pose proof (Rmax_r v b). lra. Qed.
Lemma qk_pos x k : 0 < qk x k.
Proof. induction k; cbn [qk]; [lra|]. apply Rmult_lt_0_compat; [assumption|apply ymax_pos]. Qed.
Lemma pot_pos x k : 0 < pot x k.
Proof. induction k; cbn [pot]; [lra|]. apply Rmult_lt_0_compat; [assumption|apply qk_pos]. Qed.

Lemma qk_ext x x' k : (forall j, (j < k)%nat -> x j = x' j) -> qk x k = qk x' k.
Proof. induction k as [|k IH]; intros E; cbn [qk]; [reflexivity|]. rewrite IH by auto. now rewrite E by lia. Qed.

Lemma pot_le x x' t : 0 <= t <= 1 -> forall d k0, (0 < k0 <= d)%nat ->
  (forall k, (k <= d)%nat -> qk x' k <= qk x k) -> qk x' k0 <= t * qk x k0 -> pot x' d <= t * pot x d.
Proof.
  intros T.
  assert (M : forall d, (forall k, (k <= d)%nat -> qk x' k <= qk x k) -> pot x' d <= pot x d).
  { induction d as [|d IH]; intros E; cbn [pot]; [lra|].
    apply Rmult_le_compat; [apply Rlt_le, pot_pos|apply Rlt_le, qk_pos|apply IH; auto|now apply E]. }
  induction d as [|d IH]; intros k0 Hk E H; [lia|]. cbn [pot]. destruct (Nat.eq_dec k0 (S d)) as [->|N].
  - replace (t * (pot x d * qk x (S d))) with (pot x d * (t * qk x (S d))) by ring.
    apply Rmult_le_compat; [apply Rlt_le, pot_pos|apply Rlt_le, qk_pos|apply M; auto|exact H].
  - replace (t * (pot x d * qk x (S d))) with (t * pot x d * qk x (S d)) by ring.
    apply Rmult_le_compat; [apply Rlt_le, pot_pos|apply Rlt_le, qk_pos|apply (IH k0); auto; lia|now apply E].
Qed.

(** a swap of the left part *)
Lemma pot_left x x' t d m : 0 < t <= 1 -> (S m < d)%nat -> (forall j, (j < d)%nat -> 0 <= x j) -> (forall j, (j < d)%nat -> 0 <= x' j) ->
  b <= t * x m -> x' m <= t * x m -> x (S m) <= x' m ->
  x' m * x' (S m) = x m * x (S m) -> (forall j, (j < d)%nat -> j <> m -> j <> S m -> x' j = x j) -> 0 < x' m ->
  pot x' d <= t * pot x d.
Proof.
  intros T Hm P P' LB H1 H2 H3 HO H4.
  assert (XM : 0 < x m). { pose proof (P m ltac:(lia)). destruct (Req_dec (x m) 0) as [E|N]; [rewrite E in LB; lra|lra]. }
  assert (TM : t * x m <= x m) by nra.
  assert (X2 : x' (S m) <= x m).
  { pose proof (P (S m) ltac:(lia)) as Q1. pose proof (P' (S m) ltac:(lia)) as Q2.
    apply Rmult_le_reg_l with (x' m); [exact H4|]. rewrite H3. rewrite Rmult_comm. now apply Rmult_le_compat_r; [lra|]. }
  assert (E0 : forall k, (k <= m)%nat -> qk x' k = qk x k) by (intros k Hk; apply qk_ext; intros j Hj; apply HO; lia).
  assert (YM : Rmax (x m) b = x m) by (apply Rmax_left; lra).
  assert (S1 : qk x' (S m) <= t * qk x (S m)).
  { cbn [qk]. rewrite E0, YM by lia. pose proof (qk_pos x m) as Q. replace (t * (qk x m * x m)) with (qk x m * (t * x m)) by ring.
    apply Rmult_le_compat_l; [lra|]. apply Rmax_lub; lra. }
  assert (S2 : qk x' (S (S m)) <= qk x (S (S m))).
  { cbn [qk]. rewrite E0, YM by lia. pose proof (qk_pos x m) as Q. rewrite !Rmult_assoc. apply Rmult_le_compat_l; [lra|].
    pose proof (Rmax_l (x (S m)) b) as L1. pose proof (Rmax_r (x (S m)) b) as L2. pose proof (P' (S m) ltac:(lia)) as Q2.
    assert (Q1 := P (S m) ltac:(lia)).
    unfold Rmax at 1. destruct (Rle_dec (x' m) b) as [C|C].
    - apply Rle_trans with (b * x m); [|nra]. apply Rmult_le_compat_l; [lra|]. apply Rmax_lub; lra.
    - unfold Rmax at 1. destruct (Rle_dec (x' (S m)) b) as [D|D].
      + apply Rle_trans with (x m * b); [|nra]. apply Rmult_le_compat_r; lra.
      + rewrite H3. apply Rmult_le_compat_l; lra. }
  assert (SL : forall k, (S (S m) <= k <= d)%nat -> qk x' k <= qk x k).
  { induction k as [|k IH]; intros Hk; [lia|]. destruct (Nat.eq_dec (S k) (S (S m))) as [E|N]; [now rewrite E|].
    change (qk x' k * Rmax (x' k) b <= qk x k * Rmax (x k) b). rewrite HO by lia. apply Rmult_le_compat_r; [apply Rlt_le, ymax_pos|]. apply IH; lia. }
  apply (pot_le x x' t ltac:(lra) d (S m)); [lia| |exact S1].
  intros k Hk. destruct (Nat.le_gt_cases k m) as [L|L]; [now rewrite E0; [apply Rle_refl|]|].
  destruct (Nat.eq_dec k (S m)) as [->|N]; [|apply SL; lia].
  pose proof (qk_pos x (S m)). nra.
Qed.

(** an exchange with the right part *)
Lemma pot_right x x' t d : 0 < t <= 1 -> b <= t * x d -> x' d <= t * x d -> (forall j, (j < d)%nat -> x' j = x j) ->
  pot x' (S d) <= t * pot x (S d).
Proof.
  intros T LB H1 HO.
  assert (E0 : forall k, (k <= d)%nat -> qk x' k = qk x k) by (intros k Hk; apply qk_ext; intros j Hj; apply HO; lia).
  assert (S1 : qk x' (S d) <= t * qk x (S d)).
  { cbn [qk]. rewrite E0 by lia. pose proof (qk_pos x d) as Q. replace (t * (qk x d * Rmax (x d) b)) with (qk x d * (t * Rmax (x d) b)) by ring.
    apply Rmult_le_compat_l; [lra|]. pose proof (Rmax_l (x d) b). apply Rmax_lub; nra. }
  apply (pot_le x x' t ltac:(lra) (S d) (S d)); [lia| |exact S1].
  intros k Hk. destruct (Nat.eq_dec k (S d)) as [->|N]; [|rewrite E0 by lia; lra]. pose proof (qk_pos x (S d)). nra.
Qed.

Lemma pot_lower x d : b <= 1 -> b ^ (d * d) <= pot x d.
Proof.
  intros B1. assert (Q : forall k, b ^ k <= qk x k).
  { induction k as [|k IH]; cbn [pow qk]; [lra|]. rewrite Rmult_comm. apply Rmult_le_compat; [apply pow_le; lra|lra|exact IH|apply Rmax_r]. }
  assert (MON : forall p q, (p <= q)%nat -> b ^ q <= b ^ p).
  { intros p q L. replace q with (p + (q - p))%nat by lia. rewrite pow_add. pose proof (pow_le b p ltac:(lra)) as Z.
    assert (b ^ (q - p) <= 1) by (rewrite <- (pow1 (q - p)); apply pow_incr; lra). nra. }
  induction d as [|k IH]; [cbn; lra|]. cbn [pot].
  apply Rle_trans with (b ^ (k * k) * b ^ (S k)).
  - rewrite <- pow_add. apply MON. lia.
  - apply Rmult_le_compat; [apply pow_le; lra|apply pow_le; lra|exact IH|apply Q].
Qed.

Lemma pot_upper x M d : 1 <= M -> b <= M -> (forall j, (j < d)%nat -> x j <= M) -> pot x d <= M ^ (d * d).
Proof.
  intros M1 BM. assert (Q : forall k, (forall j, (j < k)%nat -> x j <= M) -> qk x k <= M ^ k).
  { induction k as [|k IH]; intros E; cbn [pow qk]; [lra|]. rewrite Rmult_comm. apply Rmult_le_compat; [apply Rlt_le, ymax_pos|apply Rlt_le, qk_pos| |apply IH; auto].
    apply Rmax_lub; auto. }
  induction d as [|k IH]; intros E; [cbn; lra|]. cbn [pot].
  apply Rle_trans with (M ^ (k * k) * M ^ (S k)).
  - apply Rmult_le_compat; [apply Rlt_le, pot_pos|apply Rlt_le, qk_pos|apply IH; auto|now apply Q].
  - rewrite <- pow_add. apply Rle_pow; [assumption|lia].
Qed.
End P.
