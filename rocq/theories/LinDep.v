(** * More vectors than coordinates are dependent (over Z) *)
From Coq Require Import ZArith Lia List Bool Arith.
From Verif Require Import Spec.
Local Open Scope Z_scope.

Definition skip (p j : nat) : nat := if (j <? p)%nat then j else S j.

Lemma sumZ_skip d p f : (p <= d)%nat ->
  sumZ (S d) f = f p + sumZ d (fun j => f (skip p j)).
Proof.
  revert p. induction d as [|d IH]; intros p Hp.
  - assert (p = 0%nat) by lia. subst. cbn. ring.
  - destruct (Nat.eq_dec p (S d)) as [->|N].
    + cbn [sumZ]. rewrite (Z.add_comm (f (S d))). f_equal.
      rewrite (sumZ_ext d (fun j => f (skip (S d) j)) f).
      2:{ intros j Hj. unfold skip. replace (j <? S d)%nat with true; [reflexivity|].
          symmetry. apply Nat.ltb_lt. lia. }
      f_equal. unfold skip. now rewrite (proj2 (Nat.ltb_lt d (S d)) (Nat.lt_succ_diag_r d)).
    + transitivity (sumZ (S d) f + f (S d)); [reflexivity|].
      rewrite (IH p) by lia.
      transitivity (f p + (sumZ d (fun j => f (skip p j)) + f (S d))); [ring|]. f_equal.
      cbn [sumZ]. f_equal. unfold skip. replace (d <? p)%nat with false; [reflexivity|].
      symmetry. apply Nat.ltb_ge. lia.
Qed.

Lemma nonzero_in_row d (r : nat -> Z) :
  (forall j, (j < d)%nat -> r j = 0) \/ exists p, (p < d)%nat /\ r p <> 0.
Proof.
  induction d as [|d IH].
  - left. intros j Hj. lia.
  - destruct (Z.eq_dec (r d) 0) as [E|E].
    + destruct IH as [H|(p & Hp & H)].
      * left. intros j Hj. destruct (Nat.eq_dec j d) as [->|]; [assumption|]. apply H. lia.
      * right. exists p. split; [lia|assumption].
    + right. exists d. split; [lia|assumption].
Qed.

Lemma dependent m d A : (m < d)%nat ->
  exists c : nat -> Z, (exists j, (j < d)%nat /\ c j <> 0) /\
    forall i, (i < m)%nat -> sumZ d (fun j => A i j * c j) = 0.
Proof.
  revert d A. induction m as [|m IH]; intros d A Hd.
  - exists (fun _ => 1). split; [exists 0%nat; split; [lia|discriminate]|]. intros i Hi. lia.
  - destruct (nonzero_in_row d (A m)) as [Z0|(p & Hp & Np)].
    + destruct (IH d A ltac:(lia)) as (c & Hc & H). exists c. split; [assumption|].
      intros i Hi. destruct (Nat.eq_dec i m) as [->|N]; [|apply H; lia].
      apply sumZ_0. intros j Hj. rewrite Z0 by assumption. ring.
    + destruct d as [|d]; [lia|].
      destruct (IH d (fun i j => A m p * A i (skip p j) - A m (skip p j) * A i p) ltac:(lia))
        as (c' & (q & Hq & Nq) & H).
      set (t := - sumZ d (fun j => A m (skip p j) * c' j)).
      exists (fun j => if Nat.eqb j p then t else A m p * c' (if (j <? p)%nat then j else (j - 1)%nat)).
      assert (Ep : forall j, (if Nat.eqb (skip p j) p then t
                   else A m p * c' (if (skip p j <? p)%nat then skip p j else (skip p j - 1)%nat)) = A m p * c' j).
      { intros j. unfold skip. destruct (j <? p)%nat eqn:E.
        - apply Nat.ltb_lt in E. replace (Nat.eqb j p) with false by (symmetry; apply Nat.eqb_neq; lia).
          apply Nat.ltb_lt in E. now rewrite E.
        - apply Nat.ltb_ge in E. replace (Nat.eqb (S j) p) with false by (symmetry; apply Nat.eqb_neq; lia).
          replace (S j <? p)%nat with false by (symmetry; apply Nat.ltb_ge; lia). do 2 f_equal. lia. }
      split.
      * exists (skip p q). split; [unfold skip; destruct (q <? p)%nat; lia|].
        cbv beta. rewrite Ep. intros E. apply Z.mul_eq_0 in E. tauto.
      * intros i Hi. rewrite (sumZ_skip d p) by lia. cbv beta. rewrite Nat.eqb_refl.
        rewrite (sumZ_ext d _ (fun j => A m p * A i (skip p j) * c' j)).
        2:{ intros j Hj. rewrite Ep. ring. }
        destruct (Nat.eq_dec i m) as [->|N].
        -- unfold t.
           rewrite (sumZ_ext d (fun j => A m p * A m (skip p j) * c' j)
                      (fun j => A m p * (A m (skip p j) * c' j))) by (intros; ring).
           rewrite sumZ_mul_l. ring.
        -- assert (K := H i ltac:(lia)). cbv beta in K.
           rewrite (sumZ_ext d _ (fun j => A m p * A i (skip p j) * c' j - A i p * (A m (skip p j) * c' j))) in K
             by (intros; ring).
           rewrite sumZ_minus, sumZ_mul_l in K. unfold t. lia.
Qed.

(** independent columns with the first [j+1] columns supported on the first [r] rows need r > j *)
Lemma independent_support n d A j r : independent n d A -> (j < d)%nat -> (r <= n)%nat ->
  (forall k i, (k <= j)%nat -> (r <= i < n)%nat -> A i k = 0) -> (j < r)%nat.
Proof.
  intros HI Hj Hr Hz. destruct (Nat.lt_ge_cases j r) as [L|L]; [assumption|exfalso].
  destruct (dependent r (S j) A ltac:(lia)) as (c & (q & Hq & Nq) & H).
  apply Nq. assert (K := HI (fun k => if (k <=? j)%nat then c k else 0)).
  cbv beta in K. specialize (fun P => K P q ltac:(lia)).
  replace (q <=? j)%nat with true in K by (symmetry; apply Nat.leb_le; lia).
  apply K. intros i Hi.
  replace d with (S j + (d - S j))%nat by lia. rewrite sumZ_split.
  rewrite (sumZ_0 (d - S j)).
  2:{ intros k _. replace (S j + k <=? j)%nat with false by (symmetry; apply Nat.leb_gt; lia). ring. }
  rewrite (sumZ_ext (S j) _ (fun k => A i k * c k)).
  2:{ intros k Hk. replace (k <=? j)%nat with true by (symmetry; apply Nat.leb_le; lia). reflexivity. }
  rewrite Z.add_0_r. destruct (Nat.lt_ge_cases i r) as [Li|Li].
  - now apply H.
  - apply sumZ_0. intros k Hk. rewrite Hz by lia. ring.
Qed.
