(** * C72: the test vectors of gen3r2s and gen3r2s7t5u carry an integer relation *)
From Coq Require Import ZArith Lia Reals Lra List Bool Arith.
From Verif Require Import Base Spec SpecReal LinDep Gen3r2s Gen3Facts.
Import ListNotations.
Local Open Scope R_scope.

(** an integer relation for a real vector of length n *)
Definition integer_relation (n : nat) (c : nat -> Z) (v : nat -> R) : Prop :=
  (exists i, (i < n)%nat /\ c i <> 0%Z) /\ sumR n (fun i => IZR (c i) * v i) = 0.

Lemma list_eq {T} (d : T) (l l' : list T) : List.length l = List.length l' ->
  (forall i, (i < List.length l)%nat -> nth i l d = nth i l' d) -> l = l'.
Proof. intros H1 H2. now apply (nth_ext l l' d d). Qed.

Lemma nth_map_seq {T} (f : nat -> T) n i d : (i < n)%nat -> nth i (map f (seq 0 n)) d = f i.
Proof.
  intros H. rewrite (nth_indep _ d (f 0%nat)) by (rewrite map_length, seq_length; lia).
  rewrite map_nth, seq_nth by lia. f_equal.
Qed.

Lemma powers_list a k : 0 < a ->
  Some 1 :: powers xlops k (Some (ln a)) (Some 0) = map (fun i => Some (a ^ i)) (seq 0 (S k)).
Proof.
  intros Ha. apply (list_eq None); [cbn [List.length]; now rewrite powers_len, map_length, seq_length|].
  intros i Hi. cbn [List.length] in Hi. rewrite powers_len in Hi. rewrite nth_map_seq by lia.
  destruct i as [|i]; [reflexivity|]. cbn [nth].
  replace (Some 0) with (Some (INR 0 * ln a)) by (f_equal; cbn; ring). rewrite powers_exact by (assumption || lia). do 2 f_equal. lia.
Qed.

Lemma pow_parity a b x y : Z.odd a = true -> Z.odd b = false -> (1 <= y)%nat -> (a ^ Z.of_nat x <> b ^ Z.of_nat y)%Z.
Proof.
  intros Ha Hb Hy E. apply (f_equal Z.odd) in E. assert (Oa : Z.odd (a ^ Z.of_nat x) = true).
  { clear -Ha. induction x as [|x IH]; [reflexivity|]. rewrite Nat2Z.inj_succ, Z.pow_succ_r by lia. now rewrite Z.odd_mul, Ha, IH. }
  rewrite Oa in E. destruct y as [|y]; [lia|]. rewrite Nat2Z.inj_succ, Z.pow_succ_r, Z.odd_mul, Hb in E by lia. discriminate.
Qed.

(** entry i is the i-th power of 3^(1/r) - 2^(1/s), when that number is positive *)
Theorem C72_powers : forall n r s, (1 <= n)%nat -> (1 <= r)%nat -> (1 <= s)%nat -> (2 ^ Z.of_nat r < 3 ^ Z.of_nat s)%Z ->
  exists X Y, 0 < Y < X /\ X ^ r = 3 /\ Y ^ s = 2 /\
    gen3r2s xlops n (Z.of_nat r) (Z.of_nat s) = Ok (map (fun i => Some ((X - Y) ^ i)) (seq 0 n)).
Proof.
  intros n r s Hn Hr Hs H. exists (exp (ln 3 / INR r)), (exp (ln 2 / INR s)).
  assert (L : exp (ln 2 / INR s) < exp (ln 3 / INR r)) by (apply (root_lt 2 s 3 r); lia || assumption).
  split; [split; [apply exp_pos|exact L]|]. split; [apply root_pow; lra || lia|]. split; [apply root_pow; lra || lia|].
  unfold gen3r2s. rewrite !root_exact by lia. cbn [xlops l_sub o2 o1 l_log l_of].
  destruct (Rlt_dec 0 (exp (ln 3 / INR r) - exp (ln 2 / INR s))) as [P|P]; [|lra].
  destruct n as [|k]; [lia|]. f_equal. now apply powers_list.
Qed.

(** with more than r s entries the vector has an integer relation, whatever r and s are *)
Theorem C72_relation : forall n r s v, (1 <= r)%nat -> (1 <= s)%nat -> (r * s < n)%nat ->
  gen3r2s xlops n (Z.of_nat r) (Z.of_nat s) = Ok (map (fun i => Some (v i)) (seq 0 n)) ->
  exists c, integer_relation n c v.
Proof.
  intros n r s v Hr Hs Hn E.
  destruct (dependent (r * s) n (fun p i => coef 1 3 2 r s i (p / s) (p mod s)) Hn) as (c & Hc & H).
  exists c. split; [assumption|].
  assert (Hv : forall i, (i < n)%nat -> v i = (IZR 1 * (exp (ln 3 / INR r) - exp (ln 2 / INR s))) ^ i).
  { revert E. unfold gen3r2s. rewrite !root_exact by lia. cbn [xlops l_sub o2 o1 l_log l_of].
    destruct (Rlt_dec 0 (exp (ln 3 / INR r) - exp (ln 2 / INR s))) as [P|P].
    - destruct n as [|k]; [discriminate|]. intros E i Hi. injection E as E1 E2.
      assert (E : Some 1 :: powers xlops k (Some (ln (exp (ln 3 / INR r) - exp (ln 2 / INR s)))) (Some 0) = map (fun i => Some (v i)) (seq 0 (S k))).
      { cbn [seq map]. now rewrite <- E1, <- E2. }
      rewrite powers_list in E by assumption. apply (f_equal (fun l => nth i l None)) in E. rewrite !nth_map_seq in E by assumption.
      injection E as E. now rewrite Rmult_1_l.
    - destruct n as [|k]; [discriminate|]. intros E i Hi. injection E as E1 E2. destruct k as [|k]; [nia|].
      exfalso. cbn in E2. discriminate. }
  rewrite (sumR_ext n _ (fun i => IZR (c i) * (IZR 1 * (exp (ln 3 / INR r) - exp (ln 2 / INR s))) ^ i)) by (intros i Hi; now rewrite Hv).
  apply (coef_relation 1 3 2 r s); auto; try (apply root_pow; lra || lia).
  intros k l Hk Hl. rewrite <- (H (k * s + l)%nat) by nia. apply sumZ_ext. intros i Hi.
  replace ((k * s + l) / s)%nat with k by (rewrite Nat.div_add_l, Nat.div_small by lia; lia).
  replace ((k * s + l) mod s)%nat with l by (rewrite Nat.add_comm, Nat.mod_add, Nat.mod_small by lia; lia). reflexivity.
Qed.

(** when 3^(1/r) < 2^(1/s) the logarithm of a negative number is taken: every entry but the first is NaN *)
Theorem C72_negative_difference : forall n r s, (1 <= n)%nat -> (1 <= r)%nat -> (1 <= s)%nat -> (3 ^ Z.of_nat s < 2 ^ Z.of_nat r)%Z ->
  gen3r2s xlops n (Z.of_nat r) (Z.of_nat s) = Ok (Some 1 :: repeat None (n - 1)).
Proof.
  intros n r s Hn Hr Hs H.
  assert (L : exp (ln 3 / INR r) < exp (ln 2 / INR s)) by (apply (root_lt 3 r 2 s); lia || assumption).
  unfold gen3r2s. rewrite !root_exact by lia. cbn [xlops l_sub o2 o1 l_log l_of].
  destruct (Rlt_dec 0 (exp (ln 3 / INR r) - exp (ln 2 / INR s))) as [P|P]; [lra|].
  destruct n as [|k]; [lia|]. do 2 f_equal. replace (S k - 1)%nat with k by lia.
  apply (list_eq (Some 0)); [now rewrite powers_len, repeat_length|]. intros i Hi. rewrite powers_len in Hi.
  rewrite powers_nan by assumption. symmetry. apply (nth_error_nth (repeat None k)). rewrite (nth_error_nth' _ None) by (rewrite repeat_length; lia).
  f_equal. apply nth_repeat.
Qed.

(** one of the two always holds *)
Lemma three_two r s : (1 <= r)%nat -> (1 <= s)%nat -> (2 ^ Z.of_nat r < 3 ^ Z.of_nat s \/ 3 ^ Z.of_nat s < 2 ^ Z.of_nat r)%Z.
Proof. intros Hr Hs. pose proof (pow_parity 3 2 s r eq_refl eq_refl Hr). lia. Qed.

Lemma gen_row_exact n b r c s : (1 <= n)%nat -> (0 < b)%Z -> (0 < c)%Z -> (1 <= r)%nat -> (1 <= s)%nat -> (b ^ Z.of_nat s <> c ^ Z.of_nat r)%Z ->
  gen_row xlops n b (Z.of_nat r) c (Z.of_nat s) =
    Ok (map (fun i => Some ((- Rabs (exp (ln (IZR b) / INR r) - exp (ln (IZR c) / INR s))) ^ i)) (seq 0 n)).
Proof.
  intros Hn Hb Hc Hr Hs Hne. set (X := exp (ln (IZR b) / INR r)). set (Y := exp (ln (IZR c) / INR s)).
  assert (NE : X <> Y).
  { intros E. apply Hne. pose proof (root_lt b r c s Hb Hc Hr Hs) as L1. pose proof (root_lt c s b r Hc Hb Hs Hr) as L2.
    fold X Y in L1, L2. rewrite E in L1, L2.
    assert (~ (b ^ Z.of_nat s < c ^ Z.of_nat r)%Z) by (intros C; apply L1 in C; lra).
    assert (~ (c ^ Z.of_nat r < b ^ Z.of_nat s)%Z) by (intros C; apply L2 in C; lra). lia. }
  unfold gen_row. rewrite !root_exact by assumption. fold X Y. cbn [xlops l_sub o2 o1 l_log l_of l_neg_p l_abs].
  assert (Ea : (if Rlt_b (X - Y) 0 then Some (Rabs (X - Y)) else Some (X - Y)) = Some (Rabs (X - Y))).
  { unfold Rlt_b. destruct (Rlt_dec (X - Y) 0); [reflexivity|]. f_equal. rewrite Rabs_right; lra. }
  rewrite Ea. cbn [o1]. assert (P : 0 < Rabs (X - Y)) by (apply Rabs_pos_lt; lra).
  destruct (Rlt_dec 0 (Rabs (X - Y))) as [_|C]; [|contradiction].
  destruct n as [|k]; [lia|]. f_equal. rewrite powers_list by assumption. set (a := Rabs (X - Y)).
  unfold alternate. apply (list_eq None).
  - now rewrite imap_length, !map_length, !seq_length.
  - intros i Hi. rewrite imap_length, map_length, seq_length in Hi.
    rewrite (nth_imap _ _ i None None) by (now rewrite map_length, seq_length). rewrite !nth_map_seq by assumption.
    cbn [l_neg o1]. assert (Ev : forall k, (- a) ^ (2 * k) = a ^ (2 * k)) by (intros; rewrite !pow_mult; f_equal; ring).
    destruct (Nat.odd i) eqn:O.
    + apply Nat.odd_spec in O. destruct O as (q & ->). cbn [xlops l_neg o1]. f_equal. rewrite !Nat.add_1_r, <- !tech_pow_Rmult, Ev. ring.
    + assert (O' : Nat.even i = true) by (rewrite <- Nat.negb_odd, O; reflexivity). apply Nat.even_spec in O'. destruct O' as (q & ->). now rewrite Ev.
Qed.

Lemma seven_five t u : (1 <= t)%nat -> (7 ^ Z.of_nat u <> 5 ^ Z.of_nat t)%Z.
Proof.
  intros Ht E. apply (f_equal (fun x => x mod 5)%Z) in E. destruct t as [|t]; [lia|].
  rewrite (Nat2Z.inj_succ t), Z.pow_succ_r, Z.mul_comm, Z.mod_mul in E by lia.
  assert (N : ((7 ^ Z.of_nat u) mod 5 = 1 \/ (7 ^ Z.of_nat u) mod 5 = 2 \/ (7 ^ Z.of_nat u) mod 5 = 3 \/ (7 ^ Z.of_nat u) mod 5 = 4)%Z).
  { clear. induction u as [|u IH]; [now left|]. rewrite Nat2Z.inj_succ, Z.pow_succ_r, Z.mul_mod by lia.
    destruct IH as [-> |[-> |[-> | ->]]]; cbn; auto. }
  lia.
Qed.

(** gen3r2s7t5u: powers of -|3^(1/r) - 2^(1/s)| and of -|7^(1/t) - 5^(1/u)|, for every choice of the exponents *)
Theorem C72_simultaneous_powers : forall n r s t u, (1 <= n)%nat -> (1 <= r)%nat -> (1 <= s)%nat -> (1 <= t)%nat -> (1 <= u)%nat ->
  exists X Y Z W, 0 < X /\ 0 < Y /\ 0 < Z /\ 0 < W /\ X ^ r = 3 /\ Y ^ s = 2 /\ Z ^ t = 7 /\ W ^ u = 5 /\
    gen3r2s7t5u xlops n (Z.of_nat r) (Z.of_nat s) (Z.of_nat t) (Z.of_nat u) =
      Ok (map (fun i => Some ((- Rabs (X - Y)) ^ i)) (seq 0 n), map (fun i => Some ((- Rabs (Z - W)) ^ i)) (seq 0 n)).
Proof.
  intros n r s t u Hn Hr Hs Ht Hu.
  exists (exp (ln 3 / INR r)), (exp (ln 2 / INR s)), (exp (ln 7 / INR t)), (exp (ln 5 / INR u)).
  do 4 (split; [apply exp_pos|]). do 4 (split; [apply root_pow; lra || lia|]).
  unfold gen3r2s7t5u. rewrite gen_row_exact; try lia; [|now apply pow_parity]. cbn [bind].
  rewrite gen_row_exact; try lia; [|now apply seven_five]. reflexivity.
Qed.

(** with more than r s + t u entries the two vectors have a common integer relation *)
Theorem C72_simultaneous_relation : forall n r s t u v w, (1 <= r)%nat -> (1 <= s)%nat -> (1 <= t)%nat -> (1 <= u)%nat ->
  (r * s + t * u < n)%nat ->
  gen3r2s7t5u xlops n (Z.of_nat r) (Z.of_nat s) (Z.of_nat t) (Z.of_nat u) =
    Ok (map (fun i => Some (v i)) (seq 0 n), map (fun i => Some (w i)) (seq 0 n)) ->
  exists c, integer_relation n c v /\ integer_relation n c w.
Proof.
  intros n r s t u v w Hr Hs Ht Hu Hn E.
  destruct (C72_simultaneous_powers n r s t u ltac:(lia) Hr Hs Ht Hu) as (X & Y & Z & W & _ & _ & _ & _ & HX & HY & HZ & HW & E').
  rewrite E' in E. injection E as E1 E2.
  assert (Hv : forall i, (i < n)%nat -> v i = (- Rabs (X - Y)) ^ i).
  { intros i Hi. apply (f_equal (fun l => nth i l None)) in E1. rewrite !nth_map_seq in E1 by assumption. now injection E1. }
  assert (Hw : forall i, (i < n)%nat -> w i = (- Rabs (Z - W)) ^ i).
  { intros i Hi. apply (f_equal (fun l => nth i l None)) in E2. rewrite !nth_map_seq in E2 by assumption. now injection E2. }
  set (e1 := (if Rlt_dec (X - Y) 0 then 1 else (-1))%Z). set (e2 := (if Rlt_dec (Z - W) 0 then 1 else (-1))%Z).
  destruct (dependent (r * s + t * u) n (fun p i => if (p <? r * s)%nat then coef e1 3 2 r s i (p / s) (p mod s)
     else coef e2 7 5 t u i ((p - r * s) / u) ((p - r * s) mod u)) Hn) as (c & Hc & H).
  exists c. split; (split; [exact Hc|]).
  - rewrite (sumR_ext n _ (fun i => IZR (c i) * (IZR e1 * (X - Y)) ^ i)).
    + apply (coef_relation _ 3 2 r s); auto. intros k l Hk Hl. rewrite <- (H (k * s + l)%nat) by nia. apply sumZ_ext. intros i Hi.
      destruct (Nat.ltb_spec (k * s + l) (r * s)) as [_|C]; [|nia].
      replace ((k * s + l) / s)%nat with k by (rewrite Nat.div_add_l, Nat.div_small by lia; lia).
      replace ((k * s + l) mod s)%nat with l by (rewrite Nat.add_comm, Nat.mod_add, Nat.mod_small by lia; lia). reflexivity.
    + intros i Hi. rewrite Hv by assumption. do 2 f_equal. unfold e1.
      destruct (Rlt_dec (X - Y) 0); [rewrite Rabs_left by assumption|rewrite Rabs_right by lra]; lra.
  - rewrite (sumR_ext n _ (fun i => IZR (c i) * (IZR e2 * (Z - W)) ^ i)).
    + apply (coef_relation _ 7 5 t u); auto. intros k l Hk Hl. rewrite <- (H (r * s + (k * u + l))%nat) by nia. apply sumZ_ext. intros i Hi.
      destruct (Nat.ltb_spec (r * s + (k * u + l)) (r * s)) as [C|_]; [lia|].
      replace (r * s + (k * u + l) - r * s)%nat with (k * u + l)%nat by lia.
      replace ((k * u + l) / u)%nat with k by (rewrite Nat.div_add_l, Nat.div_small by lia; lia).
      replace ((k * u + l) mod u)%nat with l by (rewrite Nat.add_comm, Nat.mod_add, Nat.mod_small by lia; lia). reflexivity.
    + intros i Hi. rewrite Hw by assumption. do 2 f_equal. unfold e2.
      destruct (Rlt_dec (Z - W) 0); [rewrite Rabs_left by assumption|rewrite Rabs_right by lra]; lra.
Qed.

(** non-vacuity: sqrt 3 - sqrt 2 has degree 4; r = s = 2 with five entries has a relation, r = 2, s = 1 is the NaN case *)
Example C72_case : exists c, exists v, gen3r2s xlops 5 2 2 = Ok (map (fun i => Some (v i)) (seq 0 5)) /\ integer_relation 5 c v.
Proof.
  destruct (C72_powers 5 2 2 ltac:(lia) ltac:(lia) ltac:(lia) ltac:(reflexivity)) as (X & Y & _ & _ & _ & E).
  destruct (C72_relation 5 2 2 (fun i => (X - Y) ^ i) ltac:(lia) ltac:(lia) ltac:(lia) E) as (c & Hc). exists c, (fun i => (X - Y) ^ i). now split.
Qed.
Example C72_case_nan : gen3r2s xlops 4 2 1 = Ok [Some 1; None; None; None].
Proof. apply (C72_negative_difference 4 2 1); lia || reflexivity. Qed.
Example C72_case_simultaneous : exists c v w, gen3r2s7t5u xlops 9 2 1 2 2 = Ok (map (fun i => Some (v i)) (seq 0 9), map (fun i => Some (w i)) (seq 0 9)) /\
  integer_relation 9 c v /\ integer_relation 9 c w.
Proof.
  destruct (C72_simultaneous_powers 9 2 1 2 2 ltac:(lia) ltac:(lia) ltac:(lia) ltac:(lia) ltac:(lia)) as (X & Y & Z & W & _ & _ & _ & _ & _ & _ & _ & _ & E).
  destruct (C72_simultaneous_relation 9 2 1 2 2 _ _ ltac:(lia) ltac:(lia) ltac:(lia) ltac:(lia) ltac:(lia) E) as (c & Hc & Hc').
  exists c. eexists. eexists. split; [exact E|]. now split.
Qed.

Print Assumptions C72_powers.
Print Assumptions C72_relation.
Print Assumptions C72_negative_difference.
Print Assumptions C72_simultaneous_powers.
Print Assumptions C72_simultaneous_relation.
