(** * Householder reflections over the reals *)
From Coq Require Import ZArith Lia Reals Lra Arith Bool List.
From Verif Require Import Base Spec Mat FP Hlll SpecReal Fresh Cache Exact.
Import ListNotations.
Local Open Scope R_scope.

Section H.
Variable n : nat.
Variable V : nat -> nat -> R.

Definition vk (k i : nat) : R := if (k <=? i)%nat then V i k else 0.
Definition dot (v w : nat -> R) : R := sumR n (fun i => v i * w i).
Definition refl (k : nat) (w : nat -> R) : nat -> R := fun i => w i - vk k i * dot (vk k) w.
Fixpoint Hs (K : nat) (w : nat -> R) : nat -> R :=
  match K with O => w | S k => refl k (Hs k w) end.
Definition unit2 (k : nat) : Prop := dot (vk k) (vk k) = 2.

Lemma dot_ext v w v' w' : (forall i, (i < n)%nat -> v i = v' i) -> (forall i, (i < n)%nat -> w i = w' i) -> dot v w = dot v' w'.
Proof. intros A B. apply sumR_ext. intros i Hi. now rewrite A, B. Qed.

Lemma refl_ext k w w' : (forall i, (i < n)%nat -> w i = w' i) -> forall i, (i < n)%nat -> refl k w i = refl k w' i.
Proof. intros E i Hi. unfold refl. rewrite E by assumption. rewrite (dot_ext (vk k) w (vk k) w'); auto. Qed.

Lemma Hs_ext K w w' : (forall i, (i < n)%nat -> w i = w' i) -> forall i, (i < n)%nat -> Hs K w i = Hs K w' i.
Proof. induction K as [|k IH]; intros E i Hi; cbn [Hs]; auto. apply refl_ext; auto. Qed.

Lemma refl_dot k v w : unit2 k -> dot (refl k v) (refl k w) = dot v w.
Proof.
  intros U. unfold unit2 in U.
  transitivity (dot v w - dot (vk k) w * dot (vk k) v - dot (vk k) v * dot (vk k) w
                + dot (vk k) v * dot (vk k) w * dot (vk k) (vk k)).
  - unfold refl. set (p := dot (vk k) v). set (q := dot (vk k) w).
    unfold p at 2, q at 3, dot. rewrite <- !sumR_mul_l, <- !sumR_minus, <- sumR_plus.
    apply sumR_ext. intros i Hi. ring.
  - rewrite U. ring.
Qed.

Lemma Hs_dot K v w : (forall k, (k < K)%nat -> unit2 k) -> dot (Hs K v) (Hs K w) = dot v w.
Proof.
  induction K as [|k IH]; intros U; cbn [Hs]; auto. rewrite refl_dot by (apply U; lia). apply IH. intros; apply U; lia.
Qed.

Lemma refl_sub k v w x i : refl k (fun i => v i - x * w i) i = refl k v i - x * refl k w i.
Proof.
  unfold refl. replace (dot (vk k) (fun i => v i - x * w i)) with (dot (vk k) v - x * dot (vk k) w); [ring|].
  unfold dot. rewrite <- sumR_mul_l, <- sumR_minus. apply sumR_ext. intros; ring.
Qed.

Lemma Hs_sub K : forall v w x i, (i < n)%nat -> Hs K (fun i => v i - x * w i) i = Hs K v i - x * Hs K w i.
Proof.
  induction K as [|k IH]; intros v w x i Hi; cbn [Hs]; auto.
  rewrite <- refl_sub. apply refl_ext; auto.
Qed.

Lemma refl_below k w i : (i < k)%nat -> refl k w i = w i.
Proof. intros H. unfold refl, vk at 1. replace (k <=? i)%nat with false by (symmetry; apply Nat.leb_gt; lia). ring. Qed.

Lemma refl_zero k w : (forall i, (k <= i < n)%nat -> w i = 0) -> forall i, refl k w i = w i.
Proof.
  intros Z i. unfold refl. replace (dot (vk k) w) with 0; [ring|]. symmetry. apply sumR_0. intros l Hl.
  unfold vk. destruct (Nat.leb_spec k l); [rewrite Z by lia|]; ring.
Qed.

Lemma Hs_stable j K w : (S j <= K)%nat -> (forall i, (j < i < n)%nat -> Hs (S j) w i = 0) ->
  forall i, Hs K w i = Hs (S j) w i.
Proof.
  intros HK Z. induction K as [|k IH]; intros i; [lia|].
  destruct (Nat.eq_dec k j) as [->|N]; [reflexivity|]. cbn [Hs]. rewrite refl_zero; [apply IH; lia|].
  intros l Hl. rewrite IH by lia. apply Z. lia.
Qed.

Lemma wch_Hs fp (X : exact fp) b K : (K <= n)%nat -> forall i, (i < n)%nat -> wch fp V n b K i = Hs K b i.
Proof.
  induction K as [|k IH]; intros HK i Hi; cbn [wch Hs]; auto.
  unfold refl. rewrite dotf_sum by (auto; lia).
  replace (sumR n _) with (dot (vk k) (Hs k b)).
  2:{ apply sumR_ext. intros l Hl. unfold vk. destruct (k <=? l)%nat; [rewrite IH by lia; ring|ring]. }
  unfold vk at 2. replace (i <? n)%nat with true by (symmetry; now apply Nat.ltb_lt). rewrite andb_true_r.
  rewrite !IH by lia. destruct (k <=? i)%nat; [rewrite (e_submul fp X)|]; ring.
Qed.

End H.

(** the reflector of householder_v *)
Lemma hh_vector n V k w : (k < n)%nat ->
  let q := sumR n (fun i => if (k <=? i)%nat then w i * w i else 0) in
  let sg := if Rle_dec 0 (w k) then sqrt q else - sqrt q in
  let s2 := sqrt (sg * (w k + sg)) in
  0 < q ->
  (forall i, (k <= i < n)%nat -> V i k = if (i =? k)%nat then (w k + sg) / s2 else w i / s2) ->
  unit2 n V k /\ (forall i, (k < i < n)%nat -> refl n V k w i = 0) /\ refl n V k w k = - sg /\ sg * sg = q.
Proof.
  intros Hk q sg s2 Q HV.
  assert (SQ : sqrt q * sqrt q = q) by (apply sqrt_sqrt; lra).
  assert (P : 0 < sqrt q) by (now apply sqrt_lt_R0).
  assert (SG : sg * sg = q) by (unfold sg; destruct (Rle_dec 0 (w k)); nra).
  assert (SW : 0 <= sg * w k).
  { unfold sg. destruct (Rle_dec 0 (w k)); nra. }
  assert (S2 : 0 < sg * (w k + sg)) by nra.
  assert (E2 : s2 * s2 = sg * (w k + sg)) by (apply sqrt_sqrt; lra).
  assert (N2 : s2 <> 0) by (assert (0 < s2) by (now apply sqrt_lt_R0); lra).
  (* sums split at k *)
  assert (SP : forall f g : nat -> R, (forall i, (i < n)%nat -> g i = if (i =? k)%nat then f i else 0) -> sumR n g = f k).
  { intros f g E. rewrite (sumR_single n k); auto.
    - rewrite E by assumption. now rewrite Nat.eqb_refl.
    - intros i Hi Ni. rewrite E by assumption. apply Nat.eqb_neq in Ni. now rewrite Ni. }
  assert (Q' : sumR n (fun i => if (k <? i)%nat then w i * w i else 0) = q - w k * w k).
  { unfold q. assert (H : sumR n (fun i => if (k <=? i)%nat then w i * w i else 0) =
       sumR n (fun i => if (k <? i)%nat then w i * w i else 0) + sumR n (fun i => if (i =? k)%nat then w i * w i else 0)).
    { rewrite <- sumR_plus. apply sumR_ext. intros i Hi.
      destruct (Nat.leb_spec k i), (Nat.ltb_spec k i), (Nat.eqb_spec i k); try lia; ring. }
    rewrite H, (SP (fun i => w i * w i) (fun i => if (i =? k)%nat then w i * w i else 0)); auto. ring. }
  assert (VV : dot n (vk V k) (vk V k) = 2).
  { unfold dot. transitivity (sumR n (fun i => (if (k <? i)%nat then w i * w i else 0) * / (s2 * s2)) +
       sumR n (fun i => if (i =? k)%nat then (w k + sg) * (w k + sg) * / (s2 * s2) else 0)).
    - rewrite <- sumR_plus. apply sumR_ext. intros i Hi. unfold vk.
      destruct (Nat.leb_spec k i), (Nat.ltb_spec k i); try lia.
      + rewrite HV by lia. replace (i =? k)%nat with false by (symmetry; apply Nat.eqb_neq; lia). field. assumption.
      + assert (i = k) as -> by lia. rewrite HV by lia. rewrite Nat.eqb_refl. field. assumption.
      + replace (i =? k)%nat with false by (symmetry; apply Nat.eqb_neq; lia). ring.
    - rewrite sumR_mul_r, Q', (SP (fun _ => (w k + sg) * (w k + sg) * / (s2 * s2))) by auto.
      rewrite E2, <- SG. field. split; nra. }
  assert (VW : dot n (vk V k) w = s2).
  { unfold dot. transitivity (sumR n (fun i => (if (k <? i)%nat then w i * w i else 0) * / s2) +
       sumR n (fun i => if (i =? k)%nat then (w k + sg) * w k * / s2 else 0)).
    - rewrite <- sumR_plus. apply sumR_ext. intros i Hi. unfold vk.
      destruct (Nat.leb_spec k i), (Nat.ltb_spec k i); try lia.
      + rewrite HV by lia. replace (i =? k)%nat with false by (symmetry; apply Nat.eqb_neq; lia). field. assumption.
      + assert (i = k) as -> by lia. rewrite HV by lia. rewrite Nat.eqb_refl. field. assumption.
      + replace (i =? k)%nat with false by (symmetry; apply Nat.eqb_neq; lia). ring.
    - rewrite sumR_mul_r, Q', (SP (fun _ => (w k + sg) * w k * / s2)) by auto.
      apply Rmult_eq_reg_r with s2; [|assumption]. rewrite E2, <- SG. field. assumption. }
  split; [exact VV|]. split; [|split; [|exact SG]].
  - intros i Hi. unfold refl. rewrite VW. unfold vk. replace (k <=? i)%nat with true by (symmetry; apply Nat.leb_le; lia).
    rewrite HV by lia. replace (i =? k)%nat with false by (symmetry; apply Nat.eqb_neq; lia). field. assumption.
  - unfold refl. rewrite VW. unfold vk. rewrite Nat.leb_refl, HV by lia. rewrite Nat.eqb_refl. field. assumption.
Qed.
