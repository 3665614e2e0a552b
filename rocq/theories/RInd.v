(** * RInd: the R factor of linearly independent columns has no zero on its diagonal *)
From Coq Require Import ZArith Lia List Bool Arith Reals Lra.
From Verif Require Import Base Spec SpecReal HHMath RGram.
Local Open Scope R_scope.

(** back substitution *)
Lemma tri_solve (rr : nat -> nat -> R) : forall k, (forall j, (j < k)%nat -> rr j j <> 0) -> (forall i j, (j < i)%nat -> (i < k)%nat -> rr i j = 0) ->
  forall b : nat -> R, exists c : nat -> R, forall i, (i < k)%nat -> sumR k (fun j => rr i j * c j) = b i.
Proof.
  induction k as [|k IH]; intros NZ UP b; [exists (fun _ => 0); intros; lia|].
  destruct (IH ltac:(intros; apply NZ; lia) ltac:(intros; apply UP; lia) (fun i => b i - rr i k * (b k / rr k k))) as (c & C).
  set (c' := fun j => if (j =? k)%nat then b k / rr k k else c j). exists c'. intros i Hi. cbn [sumR].
  assert (CK : c' k = b k / rr k k) by (unfold c'; now rewrite Nat.eqb_refl). rewrite CK.
  assert (CJ : forall j, (j < k)%nat -> c' j = c j) by (intros j Hj; unfold c'; replace (j =? k)%nat with false by (symmetry; apply Nat.eqb_neq; lia); reflexivity).
  destruct (Nat.eq_dec i k) as [->|N].
  - rewrite sumR_0; [field; apply NZ; lia|]. intros j Hj. rewrite UP by lia. ring.
  - rewrite (sumR_ext k _ (fun j => rr i j * c j)) by (intros j Hj; now rewrite CJ). rewrite C by lia. ring.
Qed.

Lemma comb_dot d K (c : nat -> R) (F : nat -> nat -> R) :
  sumR d (fun i => sumR K (fun j => F j i * c j) * sumR K (fun j => F j i * c j)) =
  sumR K (fun j => sumR K (fun k => c j * c k * dot d (F j) (F k))).
Proof.
  transitivity (sumR d (fun i => sumR K (fun j => sumR K (fun k => c j * c k * (F j i * F k i))))).
  - apply sumR_ext. intros i _. rewrite <- sumR_mul_r. apply sumR_ext. intros j _. rewrite <- sumR_mul_l. apply sumR_ext. intros; ring.
  - rewrite sumR_swap. apply sumR_ext. intros j _. rewrite sumR_swap. apply sumR_ext. intros k _. unfold dot. now rewrite <- sumR_mul_l.
Qed.

Definition indep (d K : nat) (F : nat -> nat -> R) : Prop :=
  forall c : nat -> R, (forall i, (i < d)%nat -> sumR K (fun j => F j i * c j) = 0) -> forall j, (j < K)%nat -> c j = 0.

Lemma rf_indep d K (F r : nat -> nat -> R) : (K <= d)%nat -> rf d K F r -> indep d K F -> forall k, (k < K)%nat -> r k k <> 0.
Proof.
  intros L [UP RF] IND k. induction k as [k IH] using lt_wf_ind. intros Hk E.
  destruct (tri_solve r k ltac:(intros; apply IH; lia) ltac:(intros; apply UP; lia) (fun i => r i k)) as (c & C).
  set (c' := fun j => if (j =? k)%nat then -1 else if (j <? k)%nat then c j else 0).
  assert (CK : c' k = -1) by (unfold c'; now rewrite Nat.eqb_refl).
  assert (CJ : forall j, (j < k)%nat -> c' j = c j).
  { intros j Hj; unfold c'; replace (j =? k)%nat with false by (symmetry; apply Nat.eqb_neq; lia). now replace (j <? k)%nat with true by (symmetry; apply Nat.ltb_lt; lia). }
  assert (CZ : forall j, (k < j)%nat -> c' j = 0).
  { intros j Hj; unfold c'; replace (j =? k)%nat with false by (symmetry; apply Nat.eqb_neq; lia). now replace (j <? k)%nat with false by (symmetry; apply Nat.ltb_ge; lia). }
  assert (Z : forall i, (i < d)%nat -> sumR K (fun j => r i j * c' j) = 0).
  { intros i Hi. rewrite (sumR_cut K (S k)) by (try lia; intros j Hj; rewrite CZ by lia; ring). cbn [sumR]. rewrite CK.
    destruct (Nat.lt_ge_cases i k) as [Lt|Ge].
    - rewrite (sumR_ext k _ (fun j => r i j * c j)) by (intros j Hj; now rewrite CJ). rewrite C by assumption. ring.
    - rewrite sumR_0 by (intros j Hj; rewrite UP by lia; ring). destruct (Nat.eq_dec i k) as [->|N]; [rewrite E; ring|rewrite UP by lia; ring]. }
  assert (Q : sumR d (fun i => sumR K (fun j => F j i * c' j) * sumR K (fun j => F j i * c' j)) = 0).
  { rewrite comb_dot. rewrite (sumR_ext K _ (fun j => sumR K (fun k => c' j * c' k * dot d ((fun j i => r i j) j) ((fun j i => r i j) k)))).
    - rewrite <- (comb_dot d K c' (fun j i => r i j)). apply sumR_0. intros i Hi. rewrite Z by assumption. ring.
    - intros j Hj. apply sumR_ext. intros l Hl. cbv beta. now rewrite RF. }
  pose proof (IND c' (sumR_sq_0 _ _ Q) k Hk). lra.
Qed.

(** a diagonal entry is at most as long as its column *)
Lemma rf_diag_le d K (F r : nat -> nat -> R) j : (K <= d)%nat -> rf d K F r -> (j < K)%nat -> r j j * r j j <= dot d (F j) (F j).
Proof.
  intros L [UP RF] Hj. rewrite RF by assumption. apply (sumR_term d (fun i => r i j * r i j) j); [|lia].
  intros i _. pose proof (Rle_0_sqr (r i j)) as Q. exact Q.
Qed.
