(** * Powers of differences of roots are integer combinations of finitely many reals *)
From Coq Require Import ZArith Lia Reals Lra List Bool Arith.
From Verif Require Import Base Spec SpecReal LinDep Gen3r2s.
Import ListNotations.
Local Open Scope R_scope.

(** ** exponentials *)
Lemma exp_mul_pow x n : exp (INR n * x) = exp x ^ n.
Proof.
  induction n as [|n IH].
  - replace (INR 0 * x) with 0 by (cbn; ring). rewrite exp_0. reflexivity.
  - rewrite S_INR. replace ((INR n + 1) * x) with (INR n * x + x) by ring. rewrite exp_plus, IH. cbn [pow]. ring.
Qed.
Lemma root_pow b r : 0 < b -> (1 <= r)%nat -> exp (ln b / INR r) ^ r = b.
Proof.
  intros Hb Hr. rewrite <- exp_mul_pow. replace (INR r * (ln b / INR r)) with (ln b); [now apply exp_ln|].
  field. apply not_0_INR. lia.
Qed.
Lemma pow_lt_iff x y k : 0 <= x -> 0 <= y -> (1 <= k)%nat -> x < y <-> x ^ k < y ^ k.
Proof.
  intros Hx Hy Hk. assert (F : forall a b, 0 <= a -> a < b -> a ^ k < b ^ k).
  { intros a b Ha Hab. clear -Ha Hab Hk. induction k as [|k IH]; [lia|]. destruct k as [|k]; [cbn; lra|].
    specialize (IH ltac:(lia)). change (a * a ^ S k < b * b ^ S k). assert (0 <= a ^ S k) by (apply pow_le; lra). nra. }
  split; [now apply F|]. intros H. destruct (Rlt_le_dec x y) as [|[H2|H2]]; auto.
  - exfalso. pose proof (F y x Hy H2). lra.
  - subst. lra.
Qed.

(** compare the roots: b^(1/r) < c^(1/s) iff b^s < c^r *)
Lemma root_lt b r c s : (0 < b)%Z -> (0 < c)%Z -> (1 <= r)%nat -> (1 <= s)%nat ->
  exp (ln (IZR b) / INR r) < exp (ln (IZR c) / INR s) <-> (b ^ Z.of_nat s < c ^ Z.of_nat r)%Z.
Proof.
  intros Hb Hc Hr Hs. set (x := exp _). set (y := exp _).
  assert (Ex : x ^ (r * s) = IZR (b ^ Z.of_nat s)).
  { rewrite pow_mult. unfold x. rewrite root_pow by (auto; now apply IZR_lt). now rewrite <- pow_IZR. }
  assert (Ey : y ^ (r * s) = IZR (c ^ Z.of_nat r)).
  { rewrite Nat.mul_comm, pow_mult. unfold y. rewrite root_pow by (auto; now apply IZR_lt). now rewrite <- pow_IZR. }
  rewrite (pow_lt_iff x y (r * s)) by (try (left; apply exp_pos); nia). rewrite Ex, Ey.
  split; [apply lt_IZR|apply IZR_lt].
Qed.

(** ** coefficients of the powers of eps (X - Y), where X^r = b and Y^s = c *)
Fixpoint coef (eps b c : Z) (r s i : nat) : nat -> nat -> Z :=
  match i with
  | O => fun k l => if (k =? 0)%nat && (l =? 0)%nat then 1%Z else 0%Z
  | S i' => fun k l =>
      (eps * ((if (k =? 0)%nat then b * coef eps b c r s i' (r - 1)%nat l else coef eps b c r s i' (k - 1)%nat l) -
              (if (l =? 0)%nat then c * coef eps b c r s i' k (s - 1)%nat else coef eps b c r s i' k (l - 1)%nat)))%Z
  end.

Lemma sumR_first n f : sumR (S n) f = f 0%nat + sumR n (fun i => f (S i)).
Proof. change (S n) with (1 + n)%nat. rewrite sumR_split. cbn [sumR]. rewrite Rplus_0_l. reflexivity. Qed.
Lemma sumR_last n f : sumR (S n) f = sumR n f + f n.
Proof. reflexivity. Qed.
Lemma sumR_IZR n f : sumR n (fun i => IZR (f i)) = IZR (sumZ n f).
Proof. induction n as [|n IH]; [reflexivity|]. rewrite sumR_last, IH. cbn [sumZ]. now rewrite plus_IZR. Qed.
Lemma shift_sum X b r (a : nat -> R) : (1 <= r)%nat -> X ^ r = b ->
  sumR r (fun k => a k * X ^ k) * X = sumR r (fun k => (if (k =? 0)%nat then b * a (r - 1)%nat else a (k - 1)%nat) * X ^ k).
Proof.
  intros Hr HX. destruct r as [|r]; [lia|].
  assert (E : sumR (S r) (fun k => a k * X ^ k) = sumR r (fun k => a k * X ^ k) + a r * X ^ r) by apply sumR_last.
  rewrite E. clear E. rewrite sumR_first. replace (S r - 1)%nat with r by lia.
  rewrite (sumR_ext r (fun i => (if (S i =? 0)%nat then b * a r else a (S i - 1)%nat) * X ^ S i) (fun i => (a i * X ^ i) * X)) by (intros i Hi; cbn [Nat.eqb pow]; replace (S i - 1)%nat with i by lia; ring).
  rewrite sumR_mul_r. rewrite <- HX. cbn [Nat.eqb pow]. ring.
Qed.

Lemma coef_power eps b c r s X Y : (1 <= r)%nat -> (1 <= s)%nat -> X ^ r = IZR b -> Y ^ s = IZR c ->
  forall i, (IZR eps * (X - Y)) ^ i = sumR r (fun k => sumR s (fun l => IZR (coef eps b c r s i k l) * Y ^ l) * X ^ k).
Proof.
  intros Hr Hs HX HY. induction i as [|i IH].
  - rewrite (sumR_single r 0); [|lia|].
    + rewrite (sumR_single s 0); [cbn; ring|lia|]. intros l Hl Hne. cbn [coef]. destruct (Nat.eqb_spec l 0); [lia|]. rewrite andb_false_r. ring.
    + intros k Hk Hne. rewrite sumR_0; [ring|]. intros l Hl. cbn [coef]. destruct (Nat.eqb_spec k 0); [lia|]. cbn [andb]. ring.
  - cbn [pow]. rewrite IH. set (f := coef eps b c r s i).
    assert (E1 : sumR r (fun k => sumR s (fun l => IZR (f k l) * Y ^ l) * X ^ k) * X =
                 sumR r (fun k => sumR s (fun l => IZR (if (k =? 0)%nat then b * f (r - 1)%nat l else f (k - 1)%nat l) * Y ^ l) * X ^ k)).
    { rewrite (shift_sum X (IZR b) r (fun k => sumR s (fun l => IZR (f k l) * Y ^ l)) Hr HX). apply sumR_ext. intros k Hk.
      destruct (Nat.eqb_spec k 0); [|reflexivity]. rewrite <- sumR_mul_l. f_equal. apply sumR_ext. intros l Hl. rewrite mult_IZR. ring. }
    assert (E2 : sumR r (fun k => sumR s (fun l => IZR (f k l) * Y ^ l) * X ^ k) * Y =
                 sumR r (fun k => sumR s (fun l => IZR (if (l =? 0)%nat then c * f k (s - 1)%nat else f k (l - 1)%nat) * Y ^ l) * X ^ k)).
    { rewrite <- sumR_mul_r. apply sumR_ext. intros k Hk.
      replace (sumR s (fun l => IZR (f k l) * Y ^ l) * X ^ k * Y) with (sumR s (fun l => IZR (f k l) * Y ^ l) * Y * X ^ k) by ring. f_equal.
      rewrite (shift_sum Y (IZR c) s (fun l => IZR (f k l)) Hs HY). apply sumR_ext. intros l Hl.
      destruct (Nat.eqb_spec l 0); [|reflexivity]. rewrite mult_IZR. ring. }
    replace (IZR eps * (X - Y) * sumR r (fun k => sumR s (fun l => IZR (f k l) * Y ^ l) * X ^ k))
      with (IZR eps * (sumR r (fun k => sumR s (fun l => IZR (f k l) * Y ^ l) * X ^ k) * X - sumR r (fun k => sumR s (fun l => IZR (f k l) * Y ^ l) * X ^ k) * Y)) by ring.
    rewrite E1, E2, <- sumR_minus, <- sumR_mul_l. apply sumR_ext. intros k Hk. rewrite <- Rmult_minus_distr_r, <- Rmult_assoc. f_equal.
    rewrite <- sumR_minus, <- sumR_mul_l. apply sumR_ext. intros l Hl. cbn [coef]. fold f. rewrite mult_IZR, minus_IZR. ring.
Qed.

(** an integer relation kills every coefficient, hence the combination of powers *)
Lemma coef_relation eps b c r s X Y n (x : nat -> Z) : (1 <= r)%nat -> (1 <= s)%nat -> X ^ r = IZR b -> Y ^ s = IZR c ->
  (forall k l, (k < r)%nat -> (l < s)%nat -> sumZ n (fun i => coef eps b c r s i k l * x i)%Z = 0%Z) ->
  sumR n (fun i => IZR (x i) * (IZR eps * (X - Y)) ^ i) = 0.
Proof.
  intros Hr Hs HX HY H.
  rewrite (sumR_ext n _ (fun i => sumR r (fun k => sumR s (fun l => IZR (coef eps b c r s i k l * x i) * (Y ^ l * X ^ k))))).
  - rewrite sumR_swap. apply sumR_0. intros k Hk. rewrite sumR_swap. apply sumR_0. intros l Hl.
    rewrite sumR_mul_r, sumR_IZR, H by assumption. ring.
  - intros i Hi. rewrite (coef_power eps b c r s X Y Hr Hs HX HY). rewrite <- sumR_mul_l. apply sumR_ext. intros k Hk.
    rewrite <- Rmult_assoc, <- sumR_mul_l, <- sumR_mul_r. apply sumR_ext. intros l Hl. rewrite mult_IZR. ring.
Qed.

(** ** the model with exact real operations; None is NaN *)
Definition o1 (f : R -> option R) (x : option R) : option R := match x with Some a => f a | None => None end.
Definition o2 (f : R -> R -> option R) (x y : option R) : option R := match x, y with Some a, Some b => f a b | _, _ => None end.
Definition Rlt_b (a b : R) : bool := if Rlt_dec a b then true else false.
Definition xlops : lops (option R) :=
  mkLops (option R) (fun z => Some (IZR z)) (o1 (fun a => if Rlt_dec 0 a then Some (ln a) else None)) (o1 (fun a => Some (exp a)))
    (o2 (fun a b => Some (a + b))) (o2 (fun a b => Some (a - b))) (o2 (fun a b => if Req_EM_T b 0 then None else Some (a / b)))
    (o1 (fun a => Some (- a))) (o1 (fun a => Some (Rabs a))) (fun x => match x with Some a => Rlt_b a 0 | None => false end).

Lemma root_exact b r : (0 < b)%Z -> (1 <= r)%nat -> root xlops b (Z.of_nat r) = Some (exp (ln (IZR b) / INR r)).
Proof.
  intros Hb Hr. unfold root. cbn [xlops l_of l_log l_exp l_div o1 o2].
  destruct (Rlt_dec 0 (IZR b)) as [_|H]; [|exfalso; apply H; now apply IZR_lt]. cbn [o2].
  destruct (Req_EM_T (IZR (Z.of_nat r)) 0) as [E|_]; [apply eq_IZR in E; lia|]. cbn [o1]. now rewrite <- INR_IZR_INZ.
Qed.

Lemma powers_exact a : 0 < a -> forall k j i, (i < k)%nat ->
  nth i (powers xlops k (Some (ln a)) (Some (INR j * ln a))) None = Some (a ^ (j + i + 1)).
Proof.
  intros Ha. induction k as [|k IH]; intros j i Hi; [lia|]. cbn [powers xlops l_add l_exp o1 o2].
  replace (INR j * ln a + ln a) with (INR (S j) * ln a) by (rewrite S_INR; ring).
  destruct i as [|i]; cbn [nth].
  - rewrite exp_mul_pow, exp_ln by assumption. do 2 f_equal. lia.
  - rewrite IH by lia. do 2 f_equal. lia.
Qed.
Lemma powers_len {F} (lo : lops F) k : forall al be, List.length (powers lo k al be) = k.
Proof. induction k as [|k IH]; intros; cbn; [reflexivity|]. now rewrite IH. Qed.
Lemma powers_nan k : forall be i, (i < k)%nat -> nth i (powers xlops k None be) (Some 0) = None.
Proof.
  induction k as [|k IH]; intros be i Hi; [lia|]. cbn [powers]. destruct i as [|i]; cbn [nth].
  - cbn. destruct be; reflexivity.
  - apply IH. lia.
Qed.
