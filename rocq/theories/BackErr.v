(** * Rounding error analysis of one Householder reflector *)
From Coq Require Import ZArith Lia Reals Lra Psatz Arith List Bool.
From Flocq Require Import Core.
From Verif Require Import Base FP SpecReal SpecBack Fresh Cache Exact HHMath LcondFacts.
Import ListNotations.
Local Open Scope R_scope.

(** ** real vectors *)
Lemma sq_nonneg n v : 0 <= sq n v.
Proof. apply sumR_nonneg. intros; nra. Qed.

Lemma cauchy n v w : sumR n (fun i => v i * w i) ^ 2 <= sq n v * sq n w.
Proof.
  set (p := sumR n (fun i => v i * w i)). pose proof (sq_nonneg n v) as A. pose proof (sq_nonneg n w) as C.
  assert (H : forall t, 0 <= sq n v * (t * t) - 2 * t * p + sq n w).
  { intros t. replace (sq n v * (t * t) - 2 * t * p + sq n w) with (sumR n (fun i => (t * v i - w i) * (t * v i - w i))).
    - apply sumR_nonneg. intros; apply Rle_0_sqr.
    - unfold sq, p. rewrite <- sumR_mul_r, <- sumR_mul_l, <- sumR_minus, <- sumR_plus. apply sumR_ext. intros; ring. }
  destruct (Req_dec (sq n v) 0) as [Z|N].
  - rewrite Z in *. assert (p = 0); [|subst p; nra].
    destruct (Req_dec p 0) as [|Np]; auto. specialize (H ((sq n w + 1) / (2 * p))).
    replace (2 * ((sq n w + 1) / (2 * p)) * p) with (sq n w + 1) in H by (field; assumption). lra.
  - specialize (H (p / sq n v)).
    replace (sq n v * (p / sq n v * (p / sq n v)) - 2 * (p / sq n v) * p + sq n w) with ((sq n v * sq n w - p ^ 2) / sq n v) in H by (field; assumption).
    assert (0 < sq n v) by lra. apply Rmult_le_compat_r with (r := sq n v) in H; [|lra].
    unfold Rdiv in H. rewrite Rmult_assoc, Rinv_l, Rmult_1_r, Rmult_0_l in H by assumption. lra.
Qed.

(** lengths: if |v| <= a |x| and |w| <= b |x| then |v + w| <= (a + b) |x| *)
Lemma sq_triangle n v w a b t : 0 <= a -> 0 <= b -> 0 <= t -> sq n v <= a ^ 2 * t -> sq n w <= b ^ 2 * t ->
  sq n (fun i => v i + w i) <= (a + b) ^ 2 * t.
Proof.
  intros A B T H1 H2. pose proof (cauchy n v w) as C. set (p := sumR n (fun i => v i * w i)) in *.
  replace (sq n (fun i => v i + w i)) with (sq n v + 2 * p + sq n w).
  2:{ unfold sq, p. rewrite <- sumR_mul_l, <- !sumR_plus. apply sumR_ext. intros; ring. }
  pose proof (sq_nonneg n v). pose proof (sq_nonneg n w).
  assert (P : p <= a * b * t).
  { destruct (Rle_dec p (a * b * t)) as [|N]; auto. exfalso. assert (0 <= a * b * t) by (apply Rmult_le_pos; [nra|lra]).
    assert (L : (a * b * t) ^ 2 < p ^ 2) by nra.
    assert (sq n v * sq n w <= (a ^ 2 * t) * (b ^ 2 * t)) by (apply Rmult_le_compat; lra).
    replace ((a * b * t) ^ 2) with (a ^ 2 * t * (b ^ 2 * t)) in L by ring. lra. }
  nra.
Qed.

Lemma sq_scale n v a : sq n (fun i => a * v i) = a ^ 2 * sq n v.
Proof. unfold sq. rewrite <- sumR_mul_l. apply sumR_ext. intros; ring. Qed.
Lemma sq_ext n v w : (forall i, (i < n)%nat -> v i = w i) -> sq n v = sq n w.
Proof. intros H. apply sumR_ext. intros i Hi. now rewrite H. Qed.
Lemma sq_le n v w : (forall i, (i < n)%nat -> Rabs (v i) <= Rabs (w i)) -> sq n v <= sq n w.
Proof.
  intros H. apply sumR_le. intros i Hi. specialize (H i Hi). pose proof (Rabs_pos (v i)).
  replace (v i * v i) with (Rabs (v i) * Rabs (v i)) by (rewrite <- Rabs_mult; apply Rabs_pos_eq; nra).
  replace (w i * w i) with (Rabs (w i) * Rabs (w i)) by (rewrite <- Rabs_mult; apply Rabs_pos_eq; nra).
  apply Rmult_le_compat; lra.
Qed.

Section Near.
Variable u : R.
Hypothesis U0 : 0 <= u < 1.
Notation w := (1 - u).

(** a factor made of k roundings *)
Definition rng (k : nat) (t : R) : Prop := w ^ k <= t <= / w ^ k.
Definition near (k : nat) (x y : R) : Prop := exists t, rng k t /\ y = x * t.

Lemma w_pos k : 0 < w ^ k.
Proof. apply pow_lt. lra. Qed.
Lemma w_le1 k : w ^ k <= 1.
Proof. induction k as [|k IH]; cbn [pow]; [lra|]. pose proof (w_pos k). nra. Qed.
Lemma iw_ge1 k : 1 <= / w ^ k.
Proof. pose proof (w_pos k). pose proof (w_le1 k). rewrite <- Rinv_1 at 1. now apply Rinv_le_contravar. Qed.
Lemma rng_pos k t : rng k t -> 0 < t.
Proof. intros [H _]. pose proof (w_pos k). lra. Qed.

Lemma rng_mono k l t : (k <= l)%nat -> rng k t -> rng l t.
Proof.
  intros H [A B]. assert (E : w ^ l <= w ^ k).
  { replace l with (k + (l - k))%nat by lia. rewrite pow_add. pose proof (w_pos k). pose proof (w_le1 (l - k)).
    rewrite <- (Rmult_1_r (w ^ k)) at 2. apply Rmult_le_compat_l; lra. }
  split; [lra|]. apply Rle_trans with (/ w ^ k); auto. apply Rinv_le_contravar; auto using w_pos.
Qed.
Lemma rng_1 : rng 0 1.
Proof. split; cbn; lra. Qed.
Lemma rng_one k : rng k 1.
Proof. apply (rng_mono 0); [lia|apply rng_1]. Qed.

Lemma rng_rnd e : Rabs e <= u -> rng 1 (1 + e).
Proof.
  intros H. apply Rabs_le_inv in H. split; cbn [pow]; rewrite Rmult_1_r; [lra|].
  apply Rle_trans with (1 + u); [lra|]. apply Rmult_le_reg_r with w; [lra|]. rewrite Rinv_l by lra. nra.
Qed.

Lemma rng_mul k l t s : rng k t -> rng l s -> rng (k + l) (t * s).
Proof.
  intros A B. pose proof (rng_pos _ _ A). pose proof (rng_pos _ _ B). destruct A as [A1 A2], B as [B1 B2].
  unfold rng. rewrite pow_add. pose proof (w_pos k). pose proof (w_pos l). rewrite Rinv_mult.
  split; apply Rmult_le_compat; lra.
Qed.
Lemma rng_inv k t : rng k t -> rng k (/ t).
Proof.
  intros A. pose proof (rng_pos _ _ A). destruct A as [A1 A2]. pose proof (w_pos k). split.
  - rewrite <- (Rinv_inv (w ^ k)). apply Rinv_le_contravar; lra.
  - apply Rinv_le_contravar; lra.
Qed.
Lemma rng_sqrt k t : rng (2 * k) t -> rng k (sqrt t).
Proof.
  intros A. pose proof (rng_pos _ _ A). destruct A as [A1 A2]. pose proof (w_pos k).
  replace (2 * k)%nat with (k + k)%nat in * by lia. rewrite pow_add in *. split.
  - rewrite <- (sqrt_square (w ^ k)) by lra. now apply sqrt_le_1_alt.
  - rewrite <- (sqrt_square (/ w ^ k)) by (apply Rlt_le, Rinv_0_lt_compat; lra).
    apply sqrt_le_1_alt. now rewrite <- Rinv_mult.
Qed.

Lemma rng_err k t : rng k t -> Rabs (t - 1) <= acc u k.
Proof.
  intros [A B]. unfold acc. pose proof (w_pos k) as P. pose proof (w_le1 k) as Q.
  apply Rabs_le. split; [|lra].
  assert (2 <= w ^ k + / w ^ k); [|lra].
  apply Rmult_le_reg_r with (w ^ k); auto. rewrite Rmult_plus_distr_r, Rinv_l by lra. nra.
Qed.
Lemma acc_pos k : 0 <= acc u k.
Proof. unfold acc. pose proof (iw_ge1 k). lra. Qed.
Lemma acc_mono k l : (k <= l)%nat -> acc u k <= acc u l.
Proof.
  intros H. assert (rng l (/ w ^ k)); [|unfold acc; destruct H0; lra].
  apply (rng_mono k); auto. split; [|lra]. pose proof (w_le1 k). pose proof (iw_ge1 k). lra.
Qed.
Lemma acc_1 : u <= acc u 1.
Proof.
  unfold acc. cbn [pow]. rewrite Rmult_1_r. apply Rmult_le_reg_r with w; [lra|].
  rewrite Rmult_minus_distr_r, Rinv_l by lra. nra.
Qed.

Lemma near_refl x : near 0 x x.
Proof. exists 1. split; [apply rng_1|ring]. Qed.
Lemma near_mono k l x y : (k <= l)%nat -> near k x y -> near l x y.
Proof. intros H (t & A & B). exists t. split; auto. now apply (rng_mono k). Qed.
Lemma near_rnd k x y z : near k x y -> rnd1 u y z -> near (k + 1) x z.
Proof. intros (t & A & ->) (e & E & ->). exists (t * (1 + e)). split; [|ring]. apply rng_mul; auto. now apply rng_rnd. Qed.
Lemma near_mul k l x y a b : near k x y -> near l a b -> near (k + l) (x * a) (y * b).
Proof. intros (t & A & ->) (s & B & ->). exists (t * s). split; [now apply rng_mul|ring]. Qed.
Lemma near_div k l x y a b : a <> 0 -> near k x y -> near l a b -> near (k + l) (x / a) (y / b).
Proof.
  intros N (t & A & ->) (s & B & ->). pose proof (rng_pos _ _ B). exists (t * / s). split; [apply rng_mul; auto; now apply rng_inv|].
  field. split; lra.
Qed.
Lemma near_sqrt k x y : 0 <= x -> near (2 * k) x y -> near k (sqrt x) (sqrt y).
Proof.
  intros X (t & A & ->). exists (sqrt t). split; [now apply rng_sqrt|]. apply sqrt_mult; auto. apply rng_pos in A. lra.
Qed.
Lemma near_opp k x y : near k x y -> near k (- x) (- y).
Proof. intros (t & A & ->). exists t. split; auto. ring. Qed.
Lemma near_add k x y a b : 0 <= x * a -> near k x y -> near k a b -> near k (x + a) (y + b).
Proof.
  intros P (t & [T1 T2] & ->) (s & [S1 S2] & ->).
  assert (G : forall x a, 0 <= x -> 0 <= a -> 0 < x + a -> rng k ((x * t + a * s) / (x + a))).
  { clear x a P. intros x a X A L. pose proof (w_pos k).
    assert (E : (x * t + a * s) / (x + a) * (x + a) = x * t + a * s) by (field; lra).
    split; apply Rmult_le_reg_r with (x + a); auto; rewrite E; nra. }
  destruct (Req_dec (x + a) 0) as [Z|N].
  - assert (x = 0 /\ a = 0) as [-> ->] by (assert (x * x <= 0) by nra; split; nra).
    exists 1. split; [apply rng_one|ring].
  - exists ((x * t + a * s) / (x + a)). split; [|field; assumption].
    destruct (Rlt_dec 0 (x + a)) as [L|L].
    + apply G; nra.
    + replace ((x * t + a * s) / (x + a)) with ((- x * t + - a * s) / (- x + - a)) by (field; split; lra). apply G; nra.
Qed.
Lemma near_sum n k (c t : nat -> R) : (forall i, (i < n)%nat -> 0 <= c i) -> (forall i, rng k (t i)) ->
  near k (sumR n c) (sumR n (fun i => c i * t i)).
Proof.
  induction n as [|n IH]; intros C T; cbn [sumR].
  - exists 1. split; [apply rng_one|ring].
  - apply near_add; [|apply IH; auto|exists (t n); auto].
    assert (0 <= sumR n c) by (apply sumR_nonneg; intros; apply C; lia). assert (0 <= c n) by (apply C; lia). nra.
Qed.
Lemma near_err k x y : near k x y -> Rabs (y - x) <= acc u k * Rabs x.
Proof.
  intros (t & A & ->). replace (x * t - x) with ((t - 1) * x) by ring. rewrite Rabs_mult.
  apply Rmult_le_compat_r; [apply Rabs_pos|now apply rng_err].
Qed.
Lemma near_nz k x y : near k x y -> (y = 0 <-> x = 0).
Proof. intros (t & A & ->). apply rng_pos in A. split; intros H; [|rewrite H; ring]. apply Rmult_integral in H as [|]; auto. lra. Qed.
Lemma near_sign k x y : near k x y -> (0 <= y <-> 0 <= x).
Proof. intros (t & A & ->). apply rng_pos in A. split; intros H; nra. Qed.

(** ** scalar products *)
Context {F : Type} (fp : fpops F) (val : F -> R).
Hypothesis ST : standard u fp val.

Lemma dotf_near (v x : nat -> F) k m : (k < m)%nat ->
  exists t, (forall i, rng (m + 1) (t i)) /\
    val (dotf fp v x k m) = sumR m (fun i => if (k <=? i)%nat then val (v i) * val (x i) * t i else 0).
Proof.
  intros Hk. unfold dotf.
  assert (G : forall l, exists t, (forall i, rng (l + 2) (t i)) /\
     val (fold_left (fun acc i => faddmul fp acc (v i) (x i)) (seq (S k) l) (fmul fp (v k) (x k))) =
     sumR (S k + l) (fun i => if (k <=? i)%nat then val (v i) * val (x i) * t i else 0)).
  { induction l as [|l IH].
    - cbn [seq fold_left]. destruct (s_mul u fp val ST (v k) (x k)) as (e & E & ->).
      exists (fun _ => 1 + e). split; [intros _; apply (rng_mono 1); [lia|now apply rng_rnd]|].
      rewrite Nat.add_0_r. cbn [sumR]. rewrite Nat.leb_refl, sumR_0; [ring|].
      intros i Hi. now replace (k <=? i)%nat with false by (symmetry; apply Nat.leb_gt; lia).
    - destruct IH as (t & T & E). rewrite seq_S, fold_left_app. cbn [fold_left].
      destruct (s_addmul u fp val ST (fold_left (fun acc i => faddmul fp acc (v i) (x i)) (seq (S k) l) (fmul fp (v k) (x k)))
                  (v (S k + l)%nat) (x (S k + l)%nat)) as (p & (e1 & E1 & ->) & (e2 & E2 & ->)).
      exists (fun i => if (i =? S k + l)%nat then (1 + e1) * (1 + e2) else t i * (1 + e2)). split.
      + intros i. destruct (i =? S k + l)%nat.
        * apply (rng_mono 2); [lia|]. apply (rng_mul 1 1); now apply rng_rnd.
        * replace (S l + 2)%nat with (l + 2 + 1)%nat by lia. apply rng_mul; auto. now apply rng_rnd.
      + replace (S k + S l)%nat with (S (S k + l)) by lia.
        change (sumR (S (S k + l)) ?f) with (sumR (S k + l) f + f (S k + l)%nat). cbv beta.
        rewrite Nat.eqb_refl. replace (k <=? S k + l)%nat with true by (symmetry; apply Nat.leb_le; lia).
        rewrite E, Rmult_plus_distr_r, <- sumR_mul_r. f_equal; [|ring].
        apply sumR_ext. intros i Hi. replace (i =? S k + l)%nat with false by (symmetry; apply Nat.eqb_neq; lia).
        destruct (k <=? i)%nat; ring. }
  destruct (G (m - S k)%nat) as (t & T & E). replace (S k + (m - S k))%nat with m in E by lia.
  exists t. split; [|exact E]. intros i. apply (rng_mono (m - S k + 2)); [lia|apply T].
Qed.

(** a sum of squares *)
Lemma norm_near (x : nat -> F) k m : (k < m)%nat ->
  near (m + 1) (sumR m (fun i => if (k <=? i)%nat then val (x i) * val (x i) else 0)) (val (dotf fp x x k m)).
Proof.
  intros Hk. destruct (dotf_near x x k m Hk) as (t & T & ->).
  rewrite (sumR_ext m (fun i => if (k <=? i)%nat then val (x i) * val (x i) * t i else 0)
     (fun i => (if (k <=? i)%nat then val (x i) * val (x i) else 0) * t i)) by (intros; destruct (k <=? i)%nat; ring).
  apply near_sum; auto. intros i Hi. destruct (k <=? i)%nat; [nra|lra].
Qed.

Lemma near_choose n k (v v' : nat -> R) : (forall i, (i < n)%nat -> near k (v i) (v' i)) ->
  exists t, (forall i, rng k (t i)) /\ forall i, (i < n)%nat -> v' i = v i * t i.
Proof.
  induction n as [|n IH]; intros H.
  - exists (fun _ => 1). split; [intros; apply rng_one|intros; lia].
  - destruct IH as (t & T & E); [intros; apply H; lia|]. destruct (H n ltac:(lia)) as (s & S & E').
    exists (fun i => if (i =? n)%nat then s else t i). split.
    + intros i. now destruct (i =? n)%nat.
    + intros i Hi. destruct (Nat.eqb_spec i n) as [->|]; auto. apply E. lia.
Qed.

(** ** application of an approximate reflector *)
Lemma apply_err n k m (v : nat -> R) (V x : nat -> F) K : (k < m)%nat -> (m <= n)%nat -> (K <= 2 * n + 8)%nat ->
  (forall i, (i < k)%nat -> v i = 0) -> (forall i, (m <= i < n)%nat -> v i = 0 /\ val (x i) = 0) ->
  sq n v = 2 -> (forall i, (k <= i < m)%nat -> near K (v i) (val (V i))) ->
  let p := dotf fp V x k m in
  let y i := if (k <=? i)%nat && (i <? m)%nat then fsubmul fp (x i) (V i) p else x i in
  sq n (fun i => val (y i) - (val (x i) - v i * sumR n (fun j => v j * val (x j)))) <= eta u n ^ 2 * sq n (fun i => val (x i)).
Proof.
  intros Hk Hm HK V0 VZ V2 VN p y.
  destruct (dotf_near V x k m Hk) as (t & T & EP). fold p in EP.
  destruct (near_choose n K v (fun i => if (k <=? i)%nat && (i <? m)%nat then val (V i) else v i)) as (tau & TA & ET).
  { intros i Hi. destruct (Nat.leb_spec k i), (Nat.ltb_spec i m); cbn [andb]; try (apply (near_mono 0); [lia|apply near_refl]).
    apply VN. lia. }
  set (A := acc u (5 * n + 19)). assert (A0 : 0 <= A) by apply acc_pos.
  set (P := sumR n (fun j => Rabs (v j) * Rabs (val (x j)))).
  assert (BND : forall i, (i < n)%nat ->
    Rabs (val (y i) - (val (x i) - v i * sumR n (fun j => v j * val (x j)))) <= Rabs (u * Rabs (val (x i)) + A * P * Rabs (v i))).
  { intros i Hi. assert (P0 : 0 <= P) by (apply sumR_nonneg; intros; apply Rmult_le_pos; apply Rabs_pos).
    assert (R0 : 0 <= u * Rabs (val (x i)) + A * P * Rabs (v i)).
    { assert (0 <= u * Rabs (val (x i))) by (apply Rmult_le_pos; [lra|apply Rabs_pos]).
      assert (0 <= A * P * Rabs (v i)) by (apply Rmult_le_pos; [now apply Rmult_le_pos|apply Rabs_pos]). lra. }
    rewrite (Rabs_pos_eq _ R0). unfold y.
    destruct (Nat.leb_spec k i) as [L|L]; cbn [andb].
    2:{ rewrite V0 by assumption. replace (val (x i) - (val (x i) - _)) with 0 by ring. rewrite V0 in R0 by assumption. rewrite Rabs_R0 in *. exact R0. }
    destruct (Nat.ltb_spec i m) as [L'|L'].
    2:{ destruct (VZ i ltac:(lia)) as [Z1 Z2]. rewrite Z1 in *. replace (val (x i) - (val (x i) - _)) with 0 by ring. rewrite Rabs_R0 in *. exact R0. }
    destruct (s_submul u fp val ST (x i) (V i) p) as (pr & (e1 & E1 & ->) & (e2 & E2 & ->)).
    pose proof (ET i Hi) as Ei. replace (k <=? i)%nat with true in Ei by (symmetry; now apply Nat.leb_le).
    replace (i <? m)%nat with true in Ei by (symmetry; now apply Nat.ltb_lt). cbn [andb] in Ei. rewrite Ei.
    set (q := tau i * (1 + e1) * (1 + e2)).
    assert (Q : rng (K + 2) q).
    { unfold q. replace (K + 2)%nat with (K + 1 + 1)%nat by lia. apply rng_mul; [apply rng_mul; auto|]; now apply rng_rnd. }
    assert (EQ : val p = sumR n (fun j => v j * val (x j) * (tau j * t j))).
    { rewrite EP. rewrite <- (sumR_cut n m (fun i0 => if (k <=? i0)%nat then val (V i0) * val (x i0) * t i0 else 0) Hm).
      2:{ intros j Hj. destruct (VZ j Hj) as [_ Z]. rewrite Z. destruct (k <=? j)%nat; ring. }
      apply sumR_ext. intros j Hj. pose proof (ET j Hj) as Ej. destruct (Nat.leb_spec k j) as [M|M]; cbn [andb] in Ej.
      - destruct (Nat.ltb_spec j m); [rewrite Ej; ring|]. destruct (VZ j ltac:(lia)) as [_ Z]. rewrite Z. ring.
      - rewrite V0 by assumption. ring. }
    set (S0 := sumR n (fun j => v j * val (x j))).
    replace ((val (x i) - v i * tau i * val p * (1 + e1)) * (1 + e2) - (val (x i) - v i * S0))
      with (val (x i) * e2 - v i * (q * val p - S0)) by (unfold q; ring).
    assert (DP : Rabs (q * val p - S0) <= A * P).
    { rewrite EQ. unfold S0, P. rewrite <- !sumR_mul_l, <- sumR_minus.
      assert (G : forall f g, (forall j, (j < n)%nat -> Rabs (f j) <= g j) -> Rabs (sumR n f) <= sumR n g).
      { clear. induction n as [|n IH]; intros f g H; cbn [sumR]; [rewrite Rabs_R0; lra|].
        eapply Rle_trans; [apply Rabs_triang|]. apply Rplus_le_compat; [apply IH; intros; apply H; lia|apply H; lia]. }
      apply G. intros j Hj.
      replace (q * (v j * val (x j) * (tau j * t j)) - v j * val (x j)) with ((q * (tau j * t j) - 1) * (v j * val (x j))) by ring.
      rewrite Rabs_mult, (Rabs_mult (v j)). apply Rmult_le_compat_r; [apply Rmult_le_pos; apply Rabs_pos|].
      apply rng_err. apply (rng_mono (K + 2 + (K + (m + 1)))); [lia|]. apply rng_mul; auto. apply rng_mul; auto. }
    eapply Rle_trans; [apply (Rabs_triang (val (x i) * e2) (- (v i * (q * val p - S0))))|].
    rewrite Rabs_Ropp, !Rabs_mult. apply Rplus_le_compat.
    - rewrite Rmult_comm. apply Rmult_le_compat_r; [apply Rabs_pos|exact E2].
    - rewrite Rmult_comm. apply Rmult_le_compat_r; [apply Rabs_pos|exact DP]. }
  eapply Rle_trans; [apply (sq_le n _ _ BND)|].
  set (X := sq n (fun i => val (x i))). assert (X0 : 0 <= X) by apply sq_nonneg.
  assert (AB : forall f : nat -> R, sq n (fun i => Rabs (f i)) = sq n f).
  { intros f. apply sumR_ext. intros i _. rewrite <- Rabs_mult. apply Rabs_pos_eq. nra. }
  assert (PP : P ^ 2 <= 2 * X).
  { eapply Rle_trans; [apply cauchy|]. rewrite !AB, V2. unfold X. lra. }
  eapply Rle_trans; [apply (sq_triangle n (fun i => u * Rabs (val (x i))) (fun i => A * P * Rabs (v i)) u (2 * A) X); try lra|].
  - rewrite sq_scale, AB. unfold X. lra.
  - rewrite sq_scale, AB, V2. replace ((A * P) ^ 2 * 2) with (A ^ 2 * (2 * P ^ 2)) by ring.
    replace ((2 * A) ^ 2 * X) with (A ^ 2 * (2 * (2 * X))) by ring. apply Rmult_le_compat_l; [nra|lra].
  - assert (u <= A). { unfold A. eapply Rle_trans; [apply acc_1|apply acc_mono; lia]. }
    unfold eta. fold A. apply Rmult_le_compat_r; auto. apply pow_incr. split; [lra|lra].
Qed.

(** ** the vector and the diagonal entry computed by householder_v *)
Definition hv_nr (x : nat -> F) (k m : nat) : F := fsqrt fp (dotf fp x x k m).
Definition hv_s (x : nat -> F) (k m : nat) : F := if fle fp (fzero fp) (x k) then hv_nr x k m else fneg fp (hv_nr x k m).
Definition hv_diag (x : nat -> F) (k m : nat) : F := if fle fp (fzero fp) (x k) then fneg fp (hv_nr x k m) else hv_nr x k m.
Definition hv_s2 (x : nat -> F) (k m : nat) : F := fsqrt fp (fmul fp (hv_s x k m) (fadd fp (x k) (hv_s x k m))).
Definition hv_vec (x : nat -> F) (k m i : nat) : F :=
  if (i =? k)%nat then fdiv fp (fadd fp (x k) (hv_s x k m)) (hv_s2 x k m) else fdiv fp (x i) (hv_s2 x k m).

(** the exact reflector of the computed column *)
Definition ex_q (n : nat) (x : nat -> R) (k : nat) : R := sumR n (fun i => if (k <=? i)%nat then x i * x i else 0).
Definition ex_sg (n : nat) (x : nat -> R) (k : nat) : R := if Rle_dec 0 (x k) then sqrt (ex_q n x k) else - sqrt (ex_q n x k).
Definition ex_v (n : nat) (x : nat -> R) (k i : nat) : R :=
  let sg := ex_sg n x k in let s2 := sqrt (sg * (x k + sg)) in
  if (i =? k)%nat then (x k + sg) / s2 else x i / s2.

Lemma ex_q_cut n m x k : (m <= n)%nat -> (forall i, (m <= i < n)%nat -> x i = 0) -> ex_q n x k = ex_q m x k.
Proof. intros Hm Z. unfold ex_q. apply sumR_cut; auto. intros i Hi. rewrite Z by assumption. destruct (k <=? i)%nat; ring. Qed.

Lemma hv_near n (x : nat -> F) k m : (k < m)%nat -> (m <= n)%nat -> (forall i, (m <= i < n)%nat -> val (x i) = 0) ->
  let xr i := val (x i) in
  near (m + 2) (- ex_sg n xr k) (val (hv_diag x k m)) /\
  (val (hv_diag x k m) <> 0 -> 0 < ex_q n xr k /\
    forall i, (k <= i < m)%nat -> near (2 * m + 8) (ex_v n xr k i) (val (hv_vec x k m i))).
Proof.
  intros Hk Hm Z xr.
  set (q := ex_q n xr k). assert (Q0 : 0 <= q).
  { apply sumR_nonneg. intros i _. destruct (k <=? i)%nat; [|lra]. apply Rle_0_sqr. }
  assert (NQ : near (m + 1) q (val (dotf fp x x k m))).
  { unfold q. rewrite (ex_q_cut n m) by auto. now apply norm_near. }
  assert (D0 : 0 <= val (dotf fp x x k m)) by (apply (near_sign _ _ _ NQ); exact Q0).
  assert (NN : near (m + 2) (sqrt q) (val (hv_nr x k m))).
  { replace (m + 2)%nat with (m + 1 + 1)%nat by lia. unfold hv_nr.
    eapply near_rnd; [|apply (s_sqrt u fp val ST _ D0)]. apply near_sqrt; auto. apply (near_mono (m + 1)); [lia|exact NQ]. }
  assert (NS : near (m + 2) (ex_sg n xr k) (val (hv_s x k m)) /\ near (m + 2) (- ex_sg n xr k) (val (hv_diag x k m))).
  { unfold ex_sg, hv_s, hv_diag. fold q. pose proof (s_le u fp val ST (fzero fp) (x k)) as LE. rewrite (s_zero u fp val ST) in LE.
    unfold xr. destruct (Rle_dec 0 (val (x k))) as [L|L].
    - replace (fle fp (fzero fp) (x k)) with true by (symmetry; now apply LE).
      rewrite (s_neg u fp val ST). split; auto. now apply near_opp.
    - replace (fle fp (fzero fp) (x k)) with false by (symmetry; apply not_true_is_false; intros C; apply L; now apply LE).
      rewrite (s_neg u fp val ST), Ropp_involutive. split; auto. now apply near_opp. }
  destruct NS as [NS ND]. split; [exact ND|]. intros DN.
  assert (SG : ex_sg n xr k <> 0).
  { intros C. apply DN. apply (near_nz _ _ _ ND). rewrite C. ring. }
  assert (Q : 0 < q).
  { destruct Q0 as [|Q0]; auto. exfalso. apply SG. unfold ex_sg. fold q. rewrite <- Q0, sqrt_0. destruct (Rle_dec 0 (xr k)); ring. }
  split; [exact Q|].
  set (sg := ex_sg n xr k) in *.
  assert (SW : 0 <= xr k * sg).
  { unfold sg, ex_sg. fold q. pose proof (sqrt_pos q). destruct (Rle_dec 0 (xr k)); nra. }
  assert (NW : near (m + 3) (xr k + sg) (val (fadd fp (x k) (hv_s x k m)))).
  { replace (m + 3)%nat with (m + 2 + 1)%nat by lia. eapply near_rnd; [|apply (s_add u fp val ST)].
    apply near_add; auto. apply (near_mono 0); [lia|apply near_refl]. }
  assert (P0 : 0 < sg * (xr k + sg)) by nra.
  assert (NP : near (2 * (m + 3)) (sg * (xr k + sg)) (val (fmul fp (hv_s x k m) (fadd fp (x k) (hv_s x k m))))).
  { replace (2 * (m + 3))%nat with (m + 2 + (m + 3) + 1)%nat by lia. eapply near_rnd; [|apply (s_mul u fp val ST)]. now apply near_mul. }
  assert (NS2 : near (m + 4) (sqrt (sg * (xr k + sg))) (val (hv_s2 x k m))).
  { replace (m + 4)%nat with (m + 3 + 1)%nat by lia. unfold hv_s2. eapply near_rnd.
    - apply near_sqrt; [lra|exact NP].
    - apply (s_sqrt u fp val ST). apply (near_sign _ _ _ NP). lra. }
  assert (N2 : sqrt (sg * (xr k + sg)) <> 0) by (pose proof (sqrt_lt_R0 _ P0); lra).
  assert (N3 : val (hv_s2 x k m) <> 0) by (intros C; apply N2; now apply (near_nz _ _ _ NS2)).
  intros i Hi. unfold ex_v, hv_vec. fold sg. destruct (Nat.eqb_spec i k) as [->|N].
  - apply (near_mono (m + 3 + (m + 4) + 1)); [lia|]. eapply near_rnd; [|apply (s_div u fp val ST _ _ N3)]. now apply near_div.
  - apply (near_mono (0 + (m + 4) + 1)); [lia|]. eapply near_rnd; [|apply (s_div u fp val ST _ _ N3)]. apply near_div; auto. apply near_refl.
Qed.
End Near.
