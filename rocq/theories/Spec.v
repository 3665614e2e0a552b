(** * Specification vocabulary (independent of the model)

    Integer matrices are total functions [row -> column -> Z]; the dimensions
    are given to each predicate, which only looks at entries in range. *)
From Coq Require Import ZArith Lia List Bool Arith.
Import ListNotations.
Local Open Scope Z_scope.

(** [sumZ n f = f 0 + ... + f (n-1)] *)
Fixpoint sumZ (n : nat) (f : nat -> Z) : Z :=
  match n with O => 0 | S m => sumZ m f + f m end.

Definition zmat := nat -> nat -> Z.

(** equality of the [n x d] parts *)
Definition meq (n d : nat) (A B : zmat) : Prop :=
  forall i j, (i < n)%nat -> (j < d)%nat -> A i j = B i j.

(** product, inner dimension [k] *)
Definition mmul (k : nat) (A B : zmat) : zmat :=
  fun i j => sumZ k (fun l => A i l * B l j).

Definition mid : zmat := fun i j => if Nat.eqb i j then 1 else 0.

Definition mtr (A : zmat) : zmat := fun i j => A j i.

(** [U] ([d x d]) is unimodular: it has an integer two-sided inverse *)
Definition unimodular (d : nat) (U : zmat) : Prop :=
  exists W : zmat, meq d d (mmul d U W) mid /\ meq d d (mmul d W U) mid.

(** [v] is an integer combination of the [d] columns of [A] *)
Definition in_lattice (n d : nat) (A : zmat) (v : nat -> Z) : Prop :=
  exists c : nat -> Z, forall i, (i < n)%nat -> v i = sumZ d (fun j => A i j * c j).

(** the columns of [A] and of [B] generate the same lattice *)
Definition same_lattice (n d : nat) (A B : zmat) : Prop :=
  forall v, in_lattice n d A v <-> in_lattice n d B v.

(** the columns of [A] are linearly independent *)
Definition independent (n d : nat) (A : zmat) : Prop :=
  forall c : nat -> Z,
    (forall i, (i < n)%nat -> sumZ d (fun j => A i j * c j) = 0) ->
    forall j, (j < d)%nat -> c j = 0.

(** for every j, one of the columns 0..j of [A] has a non-zero entry in a row >= j.
    Weaker than [independent] (Structure.v) and decidable by inspection: it holds, for instance, as soon as
    the first column has a non-zero entry in some row >= d-1. *)
Definition staircase (n d : nat) (A : zmat) : Prop :=
  forall j, (j < d)%nat -> exists i k, (j <= i < n)%nat /\ (k <= j)%nat /\ A i k <> 0.

(** ** Basic facts *)

Lemma sumZ_ext n f g : (forall i, (i < n)%nat -> f i = g i) -> sumZ n f = sumZ n g.
Proof.
  induction n as [|n IH]; intros H; cbn; [reflexivity|].
  rewrite IH by (intros; apply H; lia). rewrite (H n) by lia. reflexivity.
Qed.

Lemma sumZ_0 n f : (forall i, (i < n)%nat -> f i = 0) -> sumZ n f = 0.
Proof.
  induction n as [|n IH]; intros H; cbn; [reflexivity|].
  rewrite IH by (intros; apply H; lia). rewrite (H n) by lia. reflexivity.
Qed.

Lemma sumZ_plus n f g : sumZ n (fun i => f i + g i) = sumZ n f + sumZ n g.
Proof. induction n as [|n IH]; cbn; [reflexivity|]. rewrite IH. ring. Qed.

Lemma sumZ_minus n f g : sumZ n (fun i => f i - g i) = sumZ n f - sumZ n g.
Proof. induction n as [|n IH]; cbn; [reflexivity|]. rewrite IH. ring. Qed.

Lemma sumZ_mul_l n a f : sumZ n (fun i => a * f i) = a * sumZ n f.
Proof. induction n as [|n IH]; cbn; [ring|]. rewrite IH. ring. Qed.

Lemma sumZ_mul_r n a f : sumZ n (fun i => f i * a) = sumZ n f * a.
Proof. induction n as [|n IH]; cbn; [ring|]. rewrite IH. ring. Qed.

Lemma sumZ_swap n m (f : nat -> nat -> Z) :
  sumZ n (fun i => sumZ m (f i)) = sumZ m (fun j => sumZ n (fun i => f i j)).
Proof.
  induction n as [|n IH]; cbn.
  - symmetry. apply sumZ_0. reflexivity.
  - rewrite IH, <- sumZ_plus. reflexivity.
Qed.

(** a sum with a single possibly non-zero term *)
Lemma sumZ_single n k f :
  (k < n)%nat -> (forall i, (i < n)%nat -> i <> k -> f i = 0) -> sumZ n f = f k.
Proof.
  induction n as [|n IH]; intros Hk H; [lia|]. cbn.
  destruct (Nat.eq_dec k n) as [->|E].
  - rewrite sumZ_0; [ring|]. intros i Hi. apply H; lia.
  - rewrite IH by (try lia; intros; apply H; lia). rewrite (H n) by lia. ring.
Qed.

Lemma sumZ_split n m f : sumZ (n + m) f = sumZ n f + sumZ m (fun i => f (n + i)%nat).
Proof.
  induction m as [|m IH]; cbn.
  - rewrite Nat.add_0_r. ring.
  - rewrite Nat.add_succ_r. cbn. rewrite IH. ring.
Qed.

Lemma sumZ_opp n f : sumZ n (fun i => - f i) = - sumZ n f.
Proof. induction n as [|n IH]; cbn; [reflexivity|]. rewrite IH. ring. Qed.

Lemma mid_eq i : mid i i = 1.
Proof. unfold mid. now rewrite Nat.eqb_refl. Qed.

Lemma mid_neq i j : i <> j -> mid i j = 0.
Proof. intros H. unfold mid. apply Nat.eqb_neq in H. now rewrite H. Qed.

Lemma sumZ_mid_l n i f : (i < n)%nat -> sumZ n (fun l => mid i l * f l) = f i.
Proof.
  intros H. rewrite (sumZ_single n i).
  - rewrite mid_eq. ring.
  - exact H.
  - intros l _ N. rewrite mid_neq by congruence. ring.
Qed.

Lemma sumZ_mid_r n j f : (j < n)%nat -> sumZ n (fun l => f l * mid l j) = f j.
Proof.
  intros H. rewrite (sumZ_single n j).
  - rewrite mid_eq. ring.
  - exact H.
  - intros l _ N. rewrite mid_neq by congruence. ring.
Qed.

Lemma meq_refl n d A : meq n d A A.
Proof. intros i j _ _. reflexivity. Qed.

Lemma meq_sym n d A B : meq n d A B -> meq n d B A.
Proof. intros H i j Hi Hj. symmetry. now apply H. Qed.

Lemma meq_trans n d A B C : meq n d A B -> meq n d B C -> meq n d A C.
Proof. intros H K i j Hi Hj. rewrite H by assumption. now apply K. Qed.

Lemma mmul_ext n k d A A' B B' :
  meq n k A A' -> meq k d B B' -> meq n d (mmul k A B) (mmul k A' B').
Proof.
  intros HA HB i j Hi Hj. unfold mmul. apply sumZ_ext. intros l Hl.
  rewrite HA, HB by assumption. reflexivity.
Qed.

Lemma mmul_assoc k m A B C i j :
  mmul m (mmul k A B) C i j = mmul k A (mmul m B C) i j.
Proof.
  unfold mmul.
  rewrite (sumZ_ext m _ (fun l => sumZ k (fun p => A i p * B p l * C l j))).
  2:{ intros l _. now rewrite sumZ_mul_r. }
  rewrite sumZ_swap. apply sumZ_ext. intros p _.
  rewrite <- sumZ_mul_l. apply sumZ_ext. intros l _. ring.
Qed.

Lemma mmul_id_r n d A : meq n d (mmul d A mid) A.
Proof. intros i j _ Hj. unfold mmul. now apply (sumZ_mid_r d j (fun l => A i l)). Qed.

Lemma mmul_id_l n d A : meq n d (mmul n mid A) A.
Proof. intros i j Hi _. unfold mmul. now apply (sumZ_mid_l n i (fun l => A l j)). Qed.

Lemma unimodular_id d : unimodular d mid.
Proof. exists mid. split; apply mmul_id_l. Qed.

Lemma unimodular_ext d U V : meq d d U V -> unimodular d U -> unimodular d V.
Proof.
  intros E (W & H1 & H2). exists W. split.
  - apply meq_trans with (mmul d U W); [|assumption].
    apply mmul_ext; [now apply meq_sym | apply meq_refl].
  - apply meq_trans with (mmul d W U); [|assumption].
    apply mmul_ext; [apply meq_refl | now apply meq_sym].
Qed.

Lemma unimodular_mul d U V : unimodular d U -> unimodular d V -> unimodular d (mmul d U V).
Proof.
  intros (U' & HU1 & HU2) (V' & HV1 & HV2). exists (mmul d V' U'). split.
  - apply meq_trans with (mmul d U (mmul d (mmul d V V') U')).
    { intros i j Hi Hj. rewrite mmul_assoc. unfold mmul at 1 3. apply sumZ_ext.
      intros l Hl. f_equal. now rewrite mmul_assoc. }
    apply meq_trans with (mmul d U U'); [|assumption].
    apply mmul_ext; [apply meq_refl|].
    apply meq_trans with (mmul d mid U'); [|apply mmul_id_l].
    apply mmul_ext; [assumption|apply meq_refl].
  - apply meq_trans with (mmul d V' (mmul d (mmul d U' U) V)).
    { intros i j Hi Hj. rewrite mmul_assoc. unfold mmul at 1 3. apply sumZ_ext.
      intros l Hl. f_equal. now rewrite mmul_assoc. }
    apply meq_trans with (mmul d V' V); [|assumption].
    apply mmul_ext; [apply meq_refl|].
    apply meq_trans with (mmul d mid V); [|apply mmul_id_l].
    apply mmul_ext; [assumption|apply meq_refl].
Qed.

Lemma in_lattice_mul n d A B U v :
  meq n d B (mmul d A U) -> in_lattice n d B v -> in_lattice n d A v.
Proof.
  intros E (c & Hc). exists (fun j => sumZ d (fun l => U j l * c l)).
  intros i Hi. rewrite Hc by assumption.
  rewrite (sumZ_ext d _ (fun j => sumZ d (fun l => A i l * U l j * c j))).
  2:{ intros j Hj. rewrite E by assumption. unfold mmul. now rewrite sumZ_mul_r. }
  rewrite sumZ_swap. apply sumZ_ext. intros l _.
  rewrite <- sumZ_mul_l. apply sumZ_ext. intros j _. ring.
Qed.

(** multiplying by a unimodular matrix on the right keeps the lattice *)
Lemma same_lattice_unimodular n d A B U :
  unimodular d U -> meq n d B (mmul d A U) -> same_lattice n d A B.
Proof.
  intros (W & H1 & H2) E v. split; intros H.
  - apply (in_lattice_mul n d B A W); [|assumption].
    apply meq_sym, meq_trans with (mmul d (mmul d A U) W).
    { apply mmul_ext; [assumption|apply meq_refl]. }
    apply meq_trans with (mmul d A mid); [|apply mmul_id_r].
    intros i j Hi Hj. rewrite mmul_assoc. apply sumZ_ext. intros l Hl.
    f_equal. now apply H1.
  - now apply (in_lattice_mul n d A B U).
Qed.

Lemma same_lattice_refl n d A : same_lattice n d A A.
Proof. intros v. reflexivity. Qed.

Lemma same_lattice_trans n d A B C :
  same_lattice n d A B -> same_lattice n d B C -> same_lattice n d A C.
Proof. intros H K v. rewrite (H v). apply K. Qed.

Lemma same_lattice_sym n d A B : same_lattice n d A B -> same_lattice n d B A.
Proof. intros H v. symmetry. apply H. Qed.

Lemma same_lattice_ext n d A B : meq n d A B -> same_lattice n d A B.
Proof.
  intros E v. split; intros (c & Hc); exists c; intros i Hi; rewrite Hc by assumption;
    apply sumZ_ext; intros j Hj; rewrite E by assumption; reflexivity.
Qed.

Lemma independent_mul n d A U B :
  unimodular d U -> meq n d B (mmul d A U) -> independent n d A -> independent n d B.
Proof.
  intros (W & H1 & H2) E HA c Hc.
  assert (K : forall j, (j < d)%nat -> sumZ d (fun l => U j l * c l) = 0).
  { apply HA. intros i Hi. specialize (Hc i Hi).
    rewrite <- Hc.
    rewrite (sumZ_ext d (fun j => B i j * c j) (fun j => sumZ d (fun l => A i l * U l j * c j))).
    2:{ intros j Hj. rewrite E by assumption. unfold mmul. now rewrite sumZ_mul_r. }
    rewrite sumZ_swap. apply sumZ_ext. intros l _.
    rewrite <- sumZ_mul_l. apply sumZ_ext. intros j _. ring. }
  intros j Hj.
  transitivity (sumZ d (fun l => mid j l * c l)). { now rewrite sumZ_mid_l. }
  rewrite (sumZ_ext d _ (fun l => sumZ d (fun p => W j p * U p l * c l))).
  2:{ intros l Hl. rewrite <- H2 by assumption. unfold mmul. now rewrite sumZ_mul_r. }
  rewrite sumZ_swap. apply sumZ_0. intros p Hp.
  rewrite (sumZ_ext d _ (fun i => W j p * (U p i * c i))) by (intros; ring).
  rewrite sumZ_mul_l, K by assumption. ring.
Qed.

(** ** Elementary column operations as products *)

(** identity with the extra entry [c] at [(i0,k)]: adds [c] times column [i0] to column [k] *)
Definition elem_add (i0 k : nat) (c : Z) : zmat :=
  fun i j => mid i j + (if (Nat.eqb i i0 && Nat.eqb j k)%bool then c else 0).

Definition elem_swap (p q : nat) : zmat :=
  fun i j => mid i (if Nat.eqb j p then q else if Nat.eqb j q then p else j).

Lemma mmul_elem_add d A i0 k c i j : (i0 < d)%nat -> (j < d)%nat ->
  mmul d A (elem_add i0 k c) i j = A i j + (if Nat.eqb j k then c * A i i0 else 0).
Proof.
  intros H0 Hj. unfold mmul, elem_add.
  rewrite (sumZ_ext d _ (fun l => A i l * mid l j +
     A i l * (if (Nat.eqb l i0 && Nat.eqb j k)%bool then c else 0))) by (intros; ring).
  rewrite sumZ_plus, (sumZ_mid_r d j (fun l => A i l)) by assumption. f_equal.
  rewrite (sumZ_single d i0); [| assumption |].
  - rewrite Nat.eqb_refl. cbn. destruct (Nat.eqb j k); ring.
  - intros l _ N. apply Nat.eqb_neq in N. rewrite N. cbn. ring.
Qed.

Lemma unimodular_elem_add d i0 k c :
  (i0 < d)%nat -> (k < d)%nat -> i0 <> k -> unimodular d (elem_add i0 k c).
Proof.
  intros H0 Hk N. exists (elem_add i0 k (- c)).
  apply Nat.eqb_neq in N.
  split; intros i j Hi Hj; rewrite mmul_elem_add by assumption; unfold elem_add;
    rewrite N, andb_false_r, Z.add_0_r;
    destruct (Nat.eqb j k) eqn:Ej; rewrite ?andb_false_r, ?andb_true_r; cbn; try ring;
    unfold mid; destruct (Nat.eqb i i0) eqn:E; ring.
Qed.

Lemma mmul_elem_swap d A p q i j : (p < d)%nat -> (q < d)%nat -> (j < d)%nat ->
  mmul d A (elem_swap p q) i j = A i (if Nat.eqb j p then q else if Nat.eqb j q then p else j).
Proof.
  intros Hp Hq Hj. unfold mmul, elem_swap.
  apply (sumZ_mid_r d _ (fun l => A i l)).
  destruct (Nat.eqb j p); [assumption|]. destruct (Nat.eqb j q); assumption.
Qed.

Lemma unimodular_elem_swap d p q :
  (p < d)%nat -> (q < d)%nat -> unimodular d (elem_swap p q).
Proof.
  intros Hp Hq. exists (elem_swap p q).
  assert (H : meq d d (mmul d (elem_swap p q) (elem_swap p q)) mid).
  { intros i j Hi Hj. rewrite mmul_elem_swap by assumption. unfold elem_swap. f_equal.
    destruct (Nat.eqb j p) eqn:E1.
    - apply Nat.eqb_eq in E1. subst j. rewrite Nat.eqb_refl.
      destruct (Nat.eqb q p) eqn:E2; [apply Nat.eqb_eq in E2; congruence|reflexivity].
    - destruct (Nat.eqb j q) eqn:E2.
      + apply Nat.eqb_eq in E2. subst j. now rewrite Nat.eqb_refl.
      + now rewrite E1, E2. }
  split; exact H.
Qed.
