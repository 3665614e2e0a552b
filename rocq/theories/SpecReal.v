(** * Specification vocabulary over the reals: R factors and LLL-reduced bases *)
From Coq Require Import ZArith Lia Reals Lra Arith Bool List.
From Verif Require Import Spec.
Local Open Scope R_scope.

(** [sumR n f = f 0 + ... + f (n-1)] *)
Fixpoint sumR (n : nat) (f : nat -> R) : R :=
  match n with O => 0 | S m => sumR m f + f m end.

(** the columns of the [n x d] integer matrix [B] have the upper triangular R factor
    [r]: B^T B = r^T r, [r] upper triangular ([d x d]) with nonzero diagonal *)
Definition R_factor (n d : nat) (B : zmat) (r : nat -> nat -> R) : Prop :=
  (forall i j, (j < i < d)%nat -> r i j = 0) /\
  (forall i, (i < d)%nat -> r i i <> 0) /\
  (forall j l, (j < d)%nat -> (l < d)%nat ->
     sumR d (fun i => r i j * r i l) = IZR (sumZ n (fun i => B i j * B i l)%Z)).

(** size reduced: |r_ij| <= |r_ii| / 2 *)
Definition size_reduced (d : nat) (r : nat -> nat -> R) : Prop :=
  forall i j, (i < j < d)%nat -> Rabs (r i j) <= Rabs (r i i) / 2.

(** Lovasz condition: delta r_{i,i}^2 <= r_{i,i+1}^2 + r_{i+1,i+1}^2 *)
Definition lovasz_ok (d : nat) (delta : R) (r : nat -> nat -> R) : Prop :=
  forall i, (S i < d)%nat -> delta * (r i i * r i i) <= r i (S i) * r i (S i) + r (S i) (S i) * r (S i) (S i).

(** (delta,1/2)-LLL-reduced *)
Definition LLL_reduced (n d : nat) (delta : R) (B : zmat) : Prop :=
  exists r, R_factor n d B r /\ size_reduced d r /\ lovasz_ok d delta r.

(** squared length of an integer vector *)
Definition norm2 (n : nat) (v : nat -> Z) : Z := sumZ n (fun i => v i * v i)%Z.

(** ** facts about sums *)
Lemma sumR_ext n f g : (forall i, (i < n)%nat -> f i = g i) -> sumR n f = sumR n g.
Proof.
  induction n as [|n IH]; intros H; cbn; [reflexivity|].
  rewrite IH by (intros; apply H; lia). rewrite (H n) by lia. reflexivity.
Qed.

Lemma sumR_0 n f : (forall i, (i < n)%nat -> f i = 0) -> sumR n f = 0.
Proof.
  induction n as [|n IH]; intros H; cbn; [reflexivity|].
  rewrite IH by (intros; apply H; lia). rewrite (H n) by lia. ring.
Qed.

Lemma sumR_plus n f g : sumR n (fun i => f i + g i) = sumR n f + sumR n g.
Proof. induction n as [|n IH]; cbn; [ring|]. rewrite IH. ring. Qed.
Lemma sumR_minus n f g : sumR n (fun i => f i - g i) = sumR n f - sumR n g.
Proof. induction n as [|n IH]; cbn; [ring|]. rewrite IH. ring. Qed.
Lemma sumR_mul_l n a f : sumR n (fun i => a * f i) = a * sumR n f.
Proof. induction n as [|n IH]; cbn; [ring|]. rewrite IH. ring. Qed.
Lemma sumR_mul_r n a f : sumR n (fun i => f i * a) = sumR n f * a.
Proof. induction n as [|n IH]; cbn; [ring|]. rewrite IH. ring. Qed.

Lemma sumR_swap n m (f : nat -> nat -> R) :
  sumR n (fun i => sumR m (f i)) = sumR m (fun j => sumR n (fun i => f i j)).
Proof.
  induction n as [|n IH]; cbn.
  - symmetry. apply sumR_0. reflexivity.
  - rewrite IH, <- sumR_plus. reflexivity.
Qed.

Lemma sumR_single n k f :
  (k < n)%nat -> (forall i, (i < n)%nat -> i <> k -> f i = 0) -> sumR n f = f k.
Proof.
  induction n as [|n IH]; intros Hk H; [lia|]. cbn.
  destruct (Nat.eq_dec k n) as [->|E].
  - rewrite sumR_0; [ring|]. intros i Hi. apply H; lia.
  - rewrite IH by (try lia; intros; apply H; lia). rewrite (H n) by lia. ring.
Qed.

Lemma sumR_split n m f : sumR (n + m) f = sumR n f + sumR m (fun i => f (n + i)%nat).
Proof.
  induction m as [|m IH]; cbn.
  - rewrite Nat.add_0_r. ring.
  - rewrite Nat.add_succ_r. cbn. rewrite IH. ring.
Qed.

Lemma sumR_cut n m f : (m <= n)%nat -> (forall i, (m <= i < n)%nat -> f i = 0) -> sumR n f = sumR m f.
Proof.
  intros H Z. replace n with (m + (n - m))%nat by lia. rewrite sumR_split.
  rewrite (sumR_0 (n - m)); [ring|]. intros i Hi. apply Z. lia.
Qed.

Lemma sumR_nonneg n f : (forall i, (i < n)%nat -> 0 <= f i) -> 0 <= sumR n f.
Proof.
  induction n as [|n IH]; intros H; cbn; [lra|].
  assert (0 <= sumR n f) by (apply IH; intros; apply H; lia). assert (0 <= f n) by (apply H; lia). lra.
Qed.

Lemma sumR_term n f k : (forall i, (i < n)%nat -> 0 <= f i) -> (k < n)%nat -> f k <= sumR n f.
Proof.
  induction n as [|n IH]; intros H Hk; [lia|]. cbn.
  assert (0 <= sumR n f) by (apply sumR_nonneg; intros; apply H; lia).
  assert (0 <= f n) by (apply H; lia).
  destruct (Nat.eq_dec k n) as [->|E]; [lra|].
  assert (f k <= sumR n f) by (apply IH; try lia; intros; apply H; lia). lra.
Qed.

Lemma sumR_sq_0 n f : sumR n (fun i => f i * f i) = 0 -> forall i, (i < n)%nat -> f i = 0.
Proof.
  intros E i Hi. pose proof (sumR_term n (fun i => f i * f i) i (fun j _ => Rle_0_sqr (f j)) Hi) as H.
  cbn in H. rewrite E in H. pose proof (Rle_0_sqr (f i)). unfold Rsqr in *.
  assert (f i * f i = 0) by lra. now apply Rmult_integral in H1 as [?|?].
Qed.

Lemma sumZ_IZR n f : IZR (sumZ n f) = sumR n (fun i => IZR (f i)).
Proof. induction n as [|n IH]; cbn; [reflexivity|]. rewrite plus_IZR, IH. reflexivity. Qed.

(** ** Independence over Z is independence over R *)

Section Elim.
Open Scope nat_scope.
Lemma elim n d : forall (A : zmat) (act : nat -> bool),
  (forall c : nat -> Z, (forall j, act j = false -> c j = 0%Z) ->
     (forall i, i < n -> sumZ d (fun j => A i j * c j)%Z = 0%Z) -> forall j, j < d -> c j = 0%Z) ->
  forall c : nat -> R, (forall j, act j = false -> c j = 0%R) ->
     (forall i, i < n -> sumR d (fun j => IZR (A i j) * c j)%R = 0%R) -> forall j, j < d -> c j = 0%R.
Proof.
  induction n as [|n IH]; intros A act HZ c Hc HA j Hj.
  - destruct (act j) eqn:E; [|now apply Hc]. exfalso.
    specialize (HZ (fun q => if q =? j then 1%Z else 0%Z)). cbn beta in HZ.
    assert (H : (if (j =? j)%nat then 1%Z else 0%Z) = 0%Z); [|rewrite Nat.eqb_refl in H; discriminate].
    apply (HZ); auto; [|intros; lia].
    intros q Hq. destruct (Nat.eqb_spec q j) as [->|]; congruence.
  - destruct (bool_dec (forallb (fun q => (negb (act q) || (A n q =? 0)%Z)%bool) (List.seq 0 d)) true) as [E|E].
    + rewrite List.forallb_forall in E.
      apply (IH A act); auto. intros c' H1 H2. apply HZ; auto.
      intros i Hi. destruct (Nat.eq_dec i n) as [->|N]; [|apply H2; lia].
      apply sumZ_0. intros q Hq. specialize (E q ltac:(apply List.in_seq; lia)).
      apply Bool.orb_true_iff in E as [E|E].
      * rewrite H1 by (now apply Bool.negb_true_iff). ring.
      * apply Z.eqb_eq in E. rewrite E. ring.
    + apply Bool.not_true_is_false in E.
      assert (P : exists p, p < d /\ act p = true /\ A n p <> 0%Z).
      { clear - E. assert (X : exists x, List.In x (List.seq 0 d) /\ (negb (act x) || (A n x =? 0)%Z)%bool = false).
        { induction (List.seq 0 d) as [|x l IH]; cbn in E; [discriminate|].
          apply Bool.andb_false_iff in E as [E|E]; [exists x; split; auto; now left|].
          destruct (IH E) as (y & Hy & Q). exists y. split; auto. now right. }
        destruct X as (p & Hp & Q). apply List.in_seq in Hp. apply Bool.orb_false_iff in Q as [Q1 Q2].
        exists p. split; [lia|]. split; [now apply Bool.negb_false_iff|now apply Z.eqb_neq]. }
      destruct P as (p & Hp & Ap & NZ).
      set (act' := fun q => (act q && negb (q =? p))%bool).
      set (a := A n p) in *.
      set (A' := fun i q => (a * A i q - A i p * A n q)%Z).
      assert (KEY : forall c' : nat -> R, (forall q, act' q = false -> c' q = 0%R) ->
                (forall i, i < n -> sumR d (fun q => IZR (A' i q) * c' q)%R = 0%R) -> forall q, q < d -> c' q = 0%R).
      { apply IH. intros z H1 H2.
        (* lift an integer solution *)
        set (s := sumZ d (fun q => A n q * z q)%Z).
        set (z' := fun q => if q =? p then (- s)%Z else (a * z q)%Z).
        assert (Zp : z p = 0%Z). { apply H1. unfold act'. rewrite Nat.eqb_refl. cbn. now rewrite Bool.andb_false_r. }
        assert (SP : forall i, sumZ d (fun q => A i q * z' q)%Z = (a * sumZ d (fun q => A i q * z q) - A i p * s)%Z).
        { intros i. rewrite <- sumZ_mul_l.
          transitivity (sumZ d (fun q => a * (A i q * z q) + (if (q =? p)%nat then - (A i p * s) else 0))%Z).
          - apply sumZ_ext. intros q Hq. unfold z'. destruct (Nat.eqb_spec q p) as [->|]; [rewrite Zp|]; ring.
          - rewrite sumZ_plus. rewrite (sumZ_single d p (fun q => if (q =? p)%nat then (- (A i p * s))%Z else 0%Z)); auto.
            + rewrite Nat.eqb_refl. ring.
            + intros q _ Nq. apply Nat.eqb_neq in Nq. now rewrite Nq. }
        assert (Z0 : forall q, q < d -> z' q = 0%Z).
        { apply HZ.
          - intros q Hq. unfold z'. destruct (Nat.eqb_spec q p) as [->|Nq]; [congruence|].
            rewrite H1; [ring|]. unfold act'. now rewrite Hq.
          - intros i Hi. rewrite SP. destruct (Nat.eq_dec i n) as [->|Ni].
            + fold a s. ring.
            + specialize (H2 i ltac:(lia)). unfold A' in H2.
              transitivity (sumZ d (fun q => (a * A i q - A i p * A n q) * z q)%Z); [|exact H2].
              unfold s. rewrite <- !sumZ_mul_l, <- sumZ_minus. apply sumZ_ext. intros; ring. }
        intros q Hq. specialize (Z0 q Hq). unfold z' in Z0. destruct (Nat.eqb_spec q p) as [Eq|Nq]; [now rewrite Eq|].
        apply Z.mul_eq_0 in Z0 as [Z0|Z0]; [contradiction|exact Z0]. }
      (* the real solution without the pivot *)
      set (c' := fun q => if q =? p then 0%R else c q).
      assert (C' : forall q, q < d -> c' q = 0%R).
      { apply KEY.
        - intros q Hq. unfold c', act' in *. destruct (Nat.eqb_spec q p) as [Eq|Nq]; [reflexivity|].
          cbn in Hq. rewrite Bool.andb_true_r in Hq. now apply Hc.
        - intros i Hi.
          assert (X : forall r, r < S n -> (sumR d (fun q => IZR (A r q) * c' q) = - (IZR (A r p) * c p))%R).
          { intros r Hr. pose proof (HA r Hr) as H0.
            assert (Y : (sumR d (fun q => IZR (A r q) * c q) = sumR d (fun q => IZR (A r q) * c' q) + IZR (A r p) * c p)%R).
            { transitivity (sumR d (fun q => IZR (A r q) * c' q + (if (q =? p)%nat then IZR (A r p) * c p else 0))%R).
              - apply sumR_ext. intros q Hq. unfold c'. destruct (Nat.eqb_spec q p) as [Eq|]; [rewrite Eq|]; ring.
              - rewrite sumR_plus. f_equal. rewrite (sumR_single d p); auto.
                + now rewrite Nat.eqb_refl.
                + intros q _ Nq. apply Nat.eqb_neq in Nq. now rewrite Nq. }
            rewrite H0 in Y. lra. }
          transitivity (sumR d (fun q => IZR a * (IZR (A i q) * c' q) - IZR (A i p) * (IZR (A n q) * c' q))%R).
          + apply sumR_ext. intros q Hq. unfold A'. rewrite minus_IZR, !mult_IZR. ring.
          + rewrite sumR_minus, !sumR_mul_l, !X by lia. fold a. ring. }
      destruct (Nat.eq_dec j p) as [->|Nj].
      * pose proof (HA n ltac:(lia)) as H0. rewrite (sumR_single d p) in H0; auto.
        -- fold a in H0. apply Rmult_integral in H0 as [H0|H0]; auto. apply eq_IZR in H0. contradiction.
        -- intros q Hq Nq. specialize (C' q Hq). unfold c' in C'. apply Nat.eqb_neq in Nq. rewrite Nq in C'. rewrite C'. ring.
      * specialize (C' j Hj). unfold c' in C'. apply Nat.eqb_neq in Nj. now rewrite Nj in C'.
Qed.
End Elim.

Lemma independent_real n d A : independent n d A -> forall c : nat -> R,
  (forall i, (i < n)%nat -> sumR d (fun j => IZR (A i j) * c j) = 0) -> forall j, (j < d)%nat -> c j = 0.
Proof.
  intros H c HA. apply (elim n d A (fun _ => true)); auto; try discriminate.
Qed.
