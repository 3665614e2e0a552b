(** * Integer kernels: counting and completeness (linear algebra over Z) *)
From Coq Require Import ZArith Lia List Bool Arith.
From Verif Require Import Spec LinDep Structure.
Import ListNotations.
Local Open Scope Z_scope.

(** ** Specification *)

(** the r columns of C are kernel vectors of the d x n matrix A, and distinct columns of a unimodular matrix
    (so they are independent and extend to a basis of Z^n) *)
Definition kernel_vectors (d n r : nat) (A C : zmat) : Prop :=
  (forall i k, (i < d)%nat -> (k < r)%nat -> mmul n A C i k = 0) /\
  exists (V : zmat) (s : nat -> nat), unimodular n V /\
    (forall k, (k < r)%nat -> (s k < n)%nat) /\
    (forall k l, (k < l < r)%nat -> (s k < s l)%nat) /\
    (forall i k, (i < n)%nat -> (k < r)%nat -> C i k = V i (s k)).

(** every integer kernel vector of A is an integer combination of the r columns of C *)
Definition generates_kernel (d n r : nat) (A C : zmat) : Prop :=
  forall x : nat -> Z, (forall i, (i < d)%nat -> sumZ n (fun j => A i j * x j) = 0) ->
    exists c : nat -> Z, forall j, (j < n)%nat -> x j = sumZ r (fun k => C j k * c k).

(** ** Sums over lists *)
Fixpoint sumL (l : list nat) (f : nat -> Z) : Z := match l with [] => 0 | a :: l => f a + sumL l f end.

Lemma sumL_app l1 l2 f : sumL (l1 ++ l2) f = sumL l1 f + sumL l2 f.
Proof. induction l1 as [|a l1 IH]; cbn; [lia|]. rewrite IH. ring. Qed.

Lemma sumL_seq n f : sumL (seq 0 n) f = sumZ n f.
Proof. induction n as [|n IH]; [reflexivity|]. rewrite seq_S, sumL_app, IH. cbn. ring. Qed.

Lemma sumL_filter p l f : sumL l f = sumL (filter p l) f + sumL (filter (fun x => negb (p x)) l) f.
Proof. induction l as [|a l IH]; [reflexivity|]. cbn. destruct (p a); cbn; rewrite IH; ring. Qed.

Lemma sumZ_S_l n f : sumZ (S n) f = f 0%nat + sumZ n (fun i => f (S i)).
Proof. change (S n) with (1 + n)%nat. rewrite sumZ_split. cbn. ring. Qed.

Lemma sumL_nth l f : sumL l f = sumZ (length l) (fun k => f (nth k l 0%nat)).
Proof. induction l as [|a l IH]; [reflexivity|]. cbn [length]. rewrite sumZ_S_l. cbn [sumL nth]. now rewrite IH. Qed.

Lemma sumZ_parts n p f : sumZ n f =
  sumZ (length (filter p (seq 0 n))) (fun k => f (nth k (filter p (seq 0 n)) 0%nat)) +
  sumZ (length (filter (fun x => negb (p x)) (seq 0 n))) (fun k => f (nth k (filter (fun x => negb (p x)) (seq 0 n)) 0%nat)).
Proof. now rewrite <- !sumL_nth, <- sumL_filter, sumL_seq. Qed.

Lemma filter_parts_length (p : nat -> bool) l : (length (filter p l) + length (filter (fun x => negb (p x)) l) = length l)%nat.
Proof. induction l as [|a l IH]; [reflexivity|]. cbn. destruct (p a); cbn; lia. Qed.

Lemma filter_nth_in (p : nat -> bool) n k : (k < length (filter p (seq 0 n)))%nat ->
  (nth k (filter p (seq 0 n)) 0 < n)%nat /\ p (nth k (filter p (seq 0 n)) 0%nat) = true.
Proof. intros H. apply (nth_In _ 0%nat) in H. apply filter_In in H as [H ->]. apply in_seq in H. split; [lia|reflexivity]. Qed.

Lemma filter_in_nth (p : nat -> bool) n j : (j < n)%nat -> p j = true ->
  exists k, (k < length (filter p (seq 0 n)))%nat /\ nth k (filter p (seq 0 n)) 0%nat = j.
Proof.
  intros Hj Hp. assert (I : In j (filter p (seq 0 n))) by (apply filter_In; split; [apply in_seq; lia|assumption]).
  apply In_nth with (d := 0%nat) in I. exact I.
Qed.

Lemma filter_seq_incr (p : nat -> bool) a n k l : (k < l < length (filter p (seq a n)))%nat ->
  (nth k (filter p (seq a n)) 0 < nth l (filter p (seq a n)) 0)%nat.
Proof.
  revert a k l. induction n as [|n IH]; intros a k l H; cbn [seq filter] in *; [cbn in H; lia|].
  destruct (p a) eqn:E; [|now apply IH]. cbn [length] in H. destruct l as [|l]; [lia|]. destruct k as [|k]; cbn [nth].
  - assert (I : In (nth l (filter p (seq (S a) n)) 0%nat) (filter p (seq (S a) n))) by (apply nth_In; lia).
    apply filter_In in I as [I _]. apply in_seq in I. lia.
  - apply IH. lia.
Qed.

(** a square matrix with independent rows has independent columns *)
Lemma square_columns d (M : zmat) :
  (forall c, (forall k, (k < d)%nat -> sumZ d (fun i => M i k * c i) = 0) -> forall i, (i < d)%nat -> c i = 0) ->
  forall y, (forall i, (i < d)%nat -> sumZ d (fun k => M i k * y k) = 0) -> forall k, (k < d)%nat -> y k = 0.
Proof.
  intros HI y Hy k Hk. destruct (Z.eq_dec (y k) 0) as [|Ny]; [assumption|exfalso].
  destruct d as [|d]; [lia|].
  destruct (dependent d (S d) (fun j i => M i (skip k j)) ltac:(lia)) as (c & (q & Hq & Nq) & H).
  apply Nq. apply HI; [|assumption]. intros j Hj.
  (* columns other than k *)
  assert (G : forall j', (j' < d)%nat -> sumZ (S d) (fun i => M i (skip k j') * c i) = 0) by (intros; now apply H).
  destruct (Nat.eq_dec j k) as [->|N].
  - assert (X : y k * sumZ (S d) (fun i => M i k * c i) = 0).
    { assert (Y : sumZ (S d) (fun i => c i * sumZ (S d) (fun l => M i l * y l)) = 0).
      { apply sumZ_0. intros i Hi. rewrite Hy by assumption. ring. }
      transitivity (sumZ (S d) (fun i => c i * sumZ (S d) (fun l => M i l * y l))); [|exact Y]. clear Y.
      rewrite (sumZ_ext (S d) (fun i => c i * sumZ (S d) (fun l => M i l * y l))
        (fun i => M i k * c i * y k + sumZ d (fun l => M i (skip k l) * c i * y (skip k l)))).
      2:{ intros i Hi. rewrite (sumZ_skip d k) by lia. rewrite Z.mul_add_distr_l. f_equal; [ring|].
          rewrite <- sumZ_mul_l. apply sumZ_ext. intros; ring. }
      rewrite sumZ_plus, sumZ_mul_r. rewrite sumZ_swap.
      rewrite (sumZ_0 d (fun l => sumZ (S d) (fun i => M i (skip k l) * c i * y (skip k l)))); [ring|].
      intros l Hl. rewrite sumZ_mul_r. rewrite G by assumption. ring. }
    apply Z.mul_eq_0 in X as [X|X]; [contradiction|exact X].
  - pose proof (G (if (j <? k)%nat then j else (j - 1)%nat)) as K. unfold skip in K.
    destruct (Nat.ltb_spec j k) as [L|L].
    + replace (j <? k)%nat with true in K by (symmetry; apply Nat.ltb_lt; lia). apply K. lia.
    + replace (j - 1 <? k)%nat with false in K by (symmetry; apply Nat.ltb_ge; lia).
      replace (S (j - 1)) with j in K by lia. apply K. lia.
Qed.

Section Kernel.
Variables (d n : nat) (A V : zmat) (null : nat -> bool).
Hypothesis HV : unimodular n V.
Hypothesis HN : forall j i, (j < n)%nat -> (i < d)%nat -> null j = true -> mmul n A V i j = 0.
Notation N := (filter null (seq 0 n)).
Notation P := (filter (fun x => negb (null x)) (seq 0 n)).

Hypothesis HR : independent n d (mtr A).

Lemma rows_mul c : (forall j, (j < n)%nat -> sumZ d (fun i => mmul n A V i j * c i) = 0) ->
  forall i, (i < d)%nat -> c i = 0.
Proof.
  destruct HV as (Vi & I1 & I2). intros H. apply HR. intros j Hj. unfold mtr.
  transitivity (sumZ n (fun l => sumZ d (fun i => mmul n A V i l * c i) * Vi l j)).
  2:{ apply sumZ_0. intros l Hl. rewrite H by assumption. ring. }
  rewrite (sumZ_ext n _ (fun l => sumZ d (fun i => mmul n A V i l * c i * Vi l j))).
  2:{ intros l Hl. now rewrite sumZ_mul_r. }
  rewrite sumZ_swap. apply sumZ_ext. intros i Hi.
  rewrite (sumZ_ext n _ (fun l => c i * (mmul n A V i l * Vi l j))) by (intros; ring).
  rewrite sumZ_mul_l. change (sumZ n (fun l => mmul n A V i l * Vi l j)) with (mmul n (mmul n A V) Vi i j).
  rewrite mmul_assoc.
  rewrite (mmul_ext (S i) n n A A (mmul n V Vi) mid (meq_refl _ _ _)); try lia; [|exact I1].
  rewrite (mmul_id_r (S i) n A) by lia. ring.
Qed.

Lemma rows_part c : (forall k, (k < length P)%nat -> sumZ d (fun i => mmul n A V i (nth k P 0%nat) * c i) = 0) ->
  forall i, (i < d)%nat -> c i = 0.
Proof.
  intros H. apply rows_mul. intros j Hj. destruct (null j) eqn:E.
  - apply sumZ_0. intros i Hi. rewrite HN by assumption. ring.
  - destruct (filter_in_nth (fun x => negb (null x)) n j Hj) as (k & Hk & <-); [now rewrite E|]. now apply H.
Qed.

Lemma kernel_count : (length N + d <= n)%nat.
Proof.
  pose proof (filter_parts_length null (seq 0 n)) as L. rewrite seq_length in L.
  destruct (Nat.le_gt_cases d (length P)) as [G|G]; [lia|exfalso].
  destruct (dependent (length P) d (fun k i => mmul n A V i (nth k P 0%nat)) G) as (c & (q & Hq & Nq) & H).
  apply Nq. now apply rows_part.
Qed.

Lemma kernel_complete (C : zmat) : (length N + d = n)%nat ->
  (forall i k, (i < n)%nat -> (k < length N)%nat -> C i k = V i (nth k N 0%nat)) ->
  generates_kernel d n (length N) A C.
Proof.
  intros L HC x Hx. destruct HV as (Vi & I1 & I2).
  pose proof (filter_parts_length null (seq 0 n)) as LP. rewrite seq_length in LP.
  assert (EP : length P = d) by lia.
  set (y := fun j => sumZ n (fun l => Vi j l * x l)).
  assert (XY : forall j, (j < n)%nat -> x j = sumZ n (fun l => V j l * y l)).
  { intros j Hj. unfold y. symmetry. 
    transitivity (mmul n V (mmul n Vi (fun l _ => x l)) j 0%nat); [reflexivity|].
    rewrite <- mmul_assoc.
    rewrite (mmul_ext n n 1 (mmul n V Vi) mid (fun l _ => x l) (fun l _ => x l)); try lia; auto using meq_refl.
    now rewrite (mmul_id_l n 1) by lia. }
  assert (AY : forall i, (i < d)%nat -> sumZ n (fun j => mmul n A V i j * y j) = 0).
  { intros i Hi. change (mmul n (mmul n A V) (fun l _ => y l) i 0%nat = 0). rewrite mmul_assoc.
    rewrite (mmul_ext d n 1 A A (mmul n V (fun l _ => y l)) (fun l _ => x l)); try lia; auto using meq_refl.
    - unfold mmul. now apply Hx.
    - intros j k Hj _. unfold mmul. now rewrite <- XY. }
  assert (YP : forall k, (k < d)%nat -> y (nth k P 0%nat) = 0).
  { apply (square_columns d (fun i k => mmul n A V i (nth k P 0%nat))).
    - intros c Hc. apply rows_part. intros k Hk. apply Hc. lia.
    - intros i Hi. specialize (AY i Hi). rewrite (sumZ_parts n null) in AY. rewrite EP in AY.
      rewrite (sumZ_0 (length N)) in AY; [lia|].
      intros k Hk. destruct (filter_nth_in null n k Hk) as [K1 K2]. rewrite HN by assumption. ring. }
  exists (fun k => y (nth k N 0%nat)). intros j Hj. rewrite XY by assumption.
  rewrite (sumZ_parts n null), EP.
  rewrite (sumZ_0 d (fun k => V j (nth k P 0%nat) * y (nth k P 0%nat))).
  2:{ intros k Hk. rewrite YP by assumption. ring. }
  rewrite Z.add_0_r. apply sumZ_ext. intros k Hk. now rewrite HC.
Qed.
End Kernel.
