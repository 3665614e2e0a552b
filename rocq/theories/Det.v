(** * Determinants by expansion along the last column; Gram determinants *)
From Coq Require Import ZArith Lia Reals Lra List Bool Arith.
From Verif Require Import Spec SpecReal.
Local Open Scope R_scope.

Definition skip (u a : nat) : nat := if (a <? u)%nat then a else S a.
Definition sgR (m : nat) : R := if Nat.even m then 1 else -1.
Definition sgZ (m : nat) : Z := if Nat.even m then 1%Z else (-1)%Z.

Fixpoint detR (k : nat) (M : nat -> nat -> R) : R :=
  match k with
  | O => 1
  | S m => sumR (S m) (fun i => sgR (i + m) * M i m * detR m (fun a b => M (skip i a) b))
  end.

Fixpoint detZ (k : nat) (M : nat -> nat -> Z) : Z :=
  match k with
  | O => 1%Z
  | S m => sumZ (S m) (fun i => sgZ (i + m) * M i m * detZ m (fun a b => M (skip i a) b))%Z
  end.

Lemma detZ_IZR k : forall M, IZR (detZ k M) = detR k (fun i j => IZR (M i j)).
Proof.
  induction k as [|m IH]; intros M; [reflexivity|]. cbn [detZ detR]. rewrite sumZ_IZR. apply sumR_ext.
  intros i Hi. rewrite !mult_IZR, IH. f_equal. f_equal. unfold sgZ, sgR. now destruct (Nat.even _).
Qed.

Lemma skip_lt u a m : (u <= m)%nat -> (a < m)%nat -> (skip u a < S m)%nat.
Proof. unfold skip. destruct (Nat.ltb_spec a u); lia. Qed.

Lemma detR_ext k : forall M M', (forall i j, (i < k)%nat -> (j < k)%nat -> M i j = M' i j) -> detR k M = detR k M'.
Proof.
  induction k as [|m IH]; intros M M' H; [reflexivity|]. cbn [detR]. apply sumR_ext. intros i Hi.
  rewrite (H i m) by lia. f_equal. apply IH. intros a j Ha Hj. apply H; [|lia]. apply skip_lt; lia.
Qed.

(** last column linear *)
Definition lastcol (m : nat) (M : nat -> nat -> R) (v : nat -> R) : nat -> nat -> R :=
  fun i j => if (j =? m)%nat then v i else M i j.

Lemma lastcol_det m M v : detR (S m) (lastcol m M v) =
  sumR (S m) (fun i => sgR (i + m) * v i * detR m (fun a b => M (skip i a) b)).
Proof.
  cbn [detR]. apply sumR_ext. intros i Hi. unfold lastcol at 1. rewrite Nat.eqb_refl. f_equal.
  apply detR_ext. intros a j Ha Hj. unfold lastcol. now replace (j =? m)%nat with false by (symmetry; apply Nat.eqb_neq; lia).
Qed.

Lemma lastcol_sub m M v w x : detR (S m) (lastcol m M (fun i => v i - x * w i)) =
  detR (S m) (lastcol m M v) - x * detR (S m) (lastcol m M w).
Proof.
  rewrite !lastcol_det. rewrite <- sumR_mul_l, <- sumR_minus. apply sumR_ext. intros; ring.
Qed.

Lemma lastcol_same m M : detR (S m) (lastcol m M (fun i => M i m)) = detR (S m) M.
Proof. apply detR_ext. intros i j _ _. unfold lastcol. destruct (Nat.eqb_spec j m) as [->|]; reflexivity. Qed.

Lemma lastcol_corner m M x : detR (S m) (lastcol m M (fun i => if (i =? m)%nat then x else 0)) = x * detR m M.
Proof.
  rewrite lastcol_det, (sumR_single (S m) m).
  - rewrite Nat.eqb_refl. unfold sgR. replace (Nat.even (m + m)) with true.
    2:{ symmetry. apply Nat.even_spec. exists m. lia. }
    rewrite Rmult_1_l. f_equal. apply detR_ext. intros a j Ha Hj. unfold skip.
    now replace (a <? m)%nat with true by (symmetry; now apply Nat.ltb_lt).
  - lia.
  - intros i Hi N. apply Nat.eqb_neq in N. rewrite N. ring.
Qed.

(** *** swapping the last two columns *)
Lemma sum_skip m u f : (u <= m)%nat ->
  sumR m (fun a => f (skip u a)) = sumR (S m) (fun v => if (v =? u)%nat then 0 else f v).
Proof.
  intros Hu. replace m with (u + (m - u))%nat at 1 by lia. replace (S m) with (u + (1 + (m - u)))%nat by lia.
  rewrite !sumR_split. cbn [sumR].
  rewrite Nat.add_0_r, Nat.eqb_refl.
  rewrite (sumR_ext u (fun a => f (skip u a)) (fun v => if (v =? u)%nat then 0 else f v)).
  - rewrite (sumR_ext (m - u) (fun i => f (skip u (u + i))) (fun i => if (u + (1 + i) =? u)%nat then 0 else f (u + (1 + i))%nat)); [ring|].
    intros i Hi. unfold skip. replace (u + i <? u)%nat with false by (symmetry; apply Nat.ltb_ge; lia).
    replace (u + (1 + i) =? u)%nat with false by (symmetry; apply Nat.eqb_neq; lia). f_equal. lia.
  - intros i Hi. unfold skip. replace (i <? u)%nat with true by (symmetry; now apply Nat.ltb_lt).
    now replace (i =? u)%nat with false by (symmetry; apply Nat.eqb_neq; lia).
Qed.

(** position of v among the indices other than u *)
Definition pos (u v : nat) : nat := if (v <? u)%nat then v else (v - 1)%nat.

Lemma skip_pos u v : u <> v -> skip u (pos u v) = v.
Proof.
  intros N. unfold skip, pos. destruct (Nat.ltb_spec v u).
  - now replace (v <? u)%nat with true by (symmetry; now apply Nat.ltb_lt).
  - replace (v - 1 <? u)%nat with false by (symmetry; apply Nat.ltb_ge; lia). lia.
Qed.

Lemma pos_skip u a : pos u (skip u a) = a.
Proof.
  unfold skip, pos. destruct (Nat.ltb_spec a u).
  - now replace (a <? u)%nat with true by (symmetry; now apply Nat.ltb_lt).
  - replace (S a <? u)%nat with false by (symmetry; apply Nat.ltb_ge; lia). lia.
Qed.

Lemma skip_skip u v p : u <> v -> skip u (skip (pos u v) p) = skip v (skip (pos v u) p).
Proof.
  intros N. unfold skip, pos.
  destruct (Nat.ltb_spec v u), (Nat.ltb_spec u v); try lia;
  repeat match goal with |- context [if (?a <? ?b)%nat then _ else _] => destruct (Nat.ltb_spec a b) end; lia.
Qed.

Lemma sgR_S m : sgR (S m) = - sgR m.
Proof. unfold sgR. rewrite Nat.even_succ, <- Nat.negb_even. destruct (Nat.even m); cbn; ring. Qed.

Lemma sgR_add a b : sgR (a + b) = sgR a * sgR b.
Proof. induction a as [|a IH]; cbn [Nat.add]; [unfold sgR at 2; cbn; ring|]. rewrite !sgR_S, IH. ring. Qed.

Lemma sg_pos u v : u <> v -> sgR u * sgR (pos u v) = - (sgR v * sgR (pos v u)).
Proof.
  assert (H : forall u v, (v < u)%nat -> sgR u * sgR (pos u v) = - (sgR v * sgR (pos v u))).
  { intros a e L. unfold pos. replace (e <? a)%nat with true by (symmetry; now apply Nat.ltb_lt).
    replace (a <? e)%nat with false by (symmetry; apply Nat.ltb_ge; lia).
    replace a with (S (a - 1)) at 1 by lia. rewrite sgR_S. ring. }
  intros N. destruct (Nat.lt_total u v) as [L|[L|L]]; [|contradiction|now apply H].
  rewrite (H v u L). ring.
Qed.

Definition two (k : nat) (M : nat -> nat -> R) (x y : nat -> R) (u v : nat) : R :=
  if (v =? u)%nat then 0 else
  x u * y v * (sgR u * sgR (pos u v)) * detR k (fun p q => M (skip u (skip (pos u v) p)) q).

Lemma det_two k M : detR (S (S k)) M =
  - sumR (S (S k)) (fun u => sumR (S (S k)) (two k M (fun i => M i (S k)) (fun i => M i k) u)).
Proof.
  cbn [detR]. fold (detR k).
  rewrite <- (Rmult_1_l (sumR (S (S k)) (fun u => sumR (S (S k)) _))), Ropp_mult_distr_l, <- sumR_mul_l.
  apply sumR_ext. intros u Hu.
  set (f := fun v => sgR (pos u v + k) * M v k * detR k (fun p q => M (skip u (skip (pos u v) p)) q)).
  change (sumR (S k) _) with (sumR (S k) (fun a => sgR (a + k) * M (skip u a) k * detR k (fun p q => M (skip u (skip a p)) q))).
  rewrite (sumR_ext (S k) _ (fun a => f (skip u a))).
  2:{ intros a Ha. unfold f. now rewrite pos_skip. }
  rewrite (sum_skip (S k) u f) by lia. unfold f.
  rewrite <- !sumR_mul_l. apply sumR_ext. intros v Hv. unfold two. destruct (v =? u)%nat; [ring|].
  rewrite Nat.add_succ_r, sgR_S, !sgR_add.
  assert (Q : sgR k * sgR k = 1) by (unfold sgR; destruct (Nat.even k); ring).
  replace (- (sgR u * sgR k) * M u (S k) * (sgR (pos u v) * sgR k * M v k * detR k (fun p q => M (skip u (skip (pos u v) p)) q)))
    with (- (sgR k * sgR k) * (M u (S k) * M v k * (sgR u * sgR (pos u v)) * detR k (fun p q => M (skip u (skip (pos u v) p)) q))) by ring.
  rewrite Q. ring.
Qed.

Definition swap2 (k : nat) (M : nat -> nat -> R) : nat -> nat -> R :=
  fun i j => M i (if (j =? k)%nat then S k else if (j =? S k)%nat then k else j).

Lemma det_swap2 k M : detR (S (S k)) (swap2 k M) = - detR (S (S k)) M.
Proof.
  rewrite !det_two. rewrite (sumR_swap (S (S k)) (S (S k)) (two k M _ _)).
  f_equal. rewrite <- (Rmult_1_l (sumR (S (S k)) (fun j => sumR (S (S k)) (fun i => two k M _ _ i j)))), Ropp_mult_distr_l, <- sumR_mul_l.
  apply sumR_ext. intros u Hu. rewrite <- sumR_mul_l. apply sumR_ext. intros v Hv.
  unfold two. rewrite (Nat.eqb_sym u v). destruct (Nat.eqb_spec v u) as [E|N]; [ring|].
  rewrite (sg_pos u v) by congruence.
  rewrite (detR_ext k _ (fun p q => M (skip v (skip (pos v u) p)) q)).
  - unfold swap2. replace (S k =? k)%nat with false by (symmetry; apply Nat.eqb_neq; lia). rewrite !Nat.eqb_refl. ring.
  - intros p q Hp Hq. unfold swap2. replace (q =? k)%nat with false by (symmetry; apply Nat.eqb_neq; lia).
    replace (q =? S k)%nat with false by (symmetry; apply Nat.eqb_neq; lia). now rewrite skip_skip by congruence.
Qed.

(** *** equal columns *)
Lemma det_equal k : forall M l l', (l < l' < k)%nat -> (forall i, (i < k)%nat -> M i l = M i l') -> detR k M = 0.
Proof.
  induction k as [|m IH]; intros M l l' Hl HE; [lia|].
  assert (LOW : forall N p p', (p < p' < m)%nat -> (forall i, (i < S m)%nat -> N i p = N i p') -> detR (S m) N = 0).
  { intros N p p' Hp HN. cbn [detR]. apply sumR_0. intros i Hi.
    rewrite (IH (fun a b => N (skip i a) b) p p'); [ring|lia|]. intros a Ha. apply HN. apply skip_lt; lia. }
  destruct (Nat.eq_dec l' m) as [->|N]; [|apply (LOW M l l'); [lia|exact HE]].
  destruct m as [|k]; [lia|].
  destruct (Nat.eq_dec l k) as [->|Nl].
  - assert (Q : detR (S (S k)) (swap2 k M) = detR (S (S k)) M).
    { apply detR_ext. intros i j Hi Hj. unfold swap2. destruct (Nat.eqb_spec j k) as [->|]; [now rewrite HE|].
      destruct (Nat.eqb_spec j (S k)) as [->|]; [now rewrite HE|reflexivity]. }
    rewrite det_swap2 in Q. lra.
  - assert (Q : detR (S (S k)) (swap2 k M) = 0).
    { apply (LOW (swap2 k M) l k); [lia|]. intros i Hi. unfold swap2. rewrite Nat.eqb_refl.
      replace (l =? k)%nat with false by (symmetry; now apply Nat.eqb_neq).
      replace (l =? S k)%nat with false by (symmetry; apply Nat.eqb_neq; lia). now apply HE. }
    rewrite det_swap2 in Q. lra.
Qed.

Lemma lastcol_comb m M (cf : nat -> R) : forall q, (q <= m)%nat -> forall v,
  detR (S m) (lastcol m M (fun i => v i - sumR q (fun l => cf l * M i l))) = detR (S m) (lastcol m M v).
Proof.
  induction q as [|q IH]; intros Hq v.
  - apply detR_ext. intros i j _ _. unfold lastcol. destruct (j =? m)%nat; cbn [sumR]; ring.
  - rewrite <- (IH ltac:(lia) v). cbn [sumR].
    transitivity (detR (S m) (lastcol m M (fun i => (v i - sumR q (fun l => cf l * M i l)) - cf q * M i q))).
    + apply detR_ext. intros i j _ _. unfold lastcol. destruct (j =? m)%nat; ring.
    + rewrite (lastcol_sub m M _ (fun i => M i q)). rewrite (det_equal (S m) (lastcol m M (fun i => M i q)) q m); [ring|lia|].
      intros i Hi. unfold lastcol. rewrite Nat.eqb_refl. now replace (q =? m)%nat with false by (symmetry; apply Nat.eqb_neq; lia).
Qed.

(** *** triangular systems *)
Lemma solve_upper k (r : nat -> nat -> R) (y : nat -> R) :
  (forall i j, (j < i < k)%nat -> r i j = 0) -> (forall i, (i < k)%nat -> r i i <> 0) ->
  exists x, forall i, (i < k)%nat -> sumR k (fun l => r i l * x l) = y i.
Proof.
  revert y. induction k as [|k IH]; intros y U Dg.
  - exists (fun _ => 0). intros; lia.
  - set (xk := y k / r k k).
    destruct (IH (fun i => y i - r i k * xk)) as (x & Hx); [intros; apply U; lia|intros; apply Dg; lia|].
    exists (fun l => if (l =? k)%nat then xk else x l). intros i Hi. cbn [sumR]. rewrite Nat.eqb_refl.
    rewrite (sumR_ext k _ (fun l => r i l * x l)).
    2:{ intros l Hl. now replace (l =? k)%nat with false by (symmetry; apply Nat.eqb_neq; lia). }
    destruct (Nat.eq_dec i k) as [->|N].
    + rewrite sumR_0 by (intros l Hl; rewrite U by lia; ring). unfold xk. field. apply Dg. lia.
    + rewrite Hx by lia. ring.
Qed.

Fixpoint prodR (k : nat) (f : nat -> R) : R := match k with O => 1 | S m => prodR m f * f m end.

Lemma prodR_ext k f g : (forall i, (i < k)%nat -> f i = g i) -> prodR k f = prodR k g.
Proof. induction k as [|k IH]; intros H; cbn; auto. rewrite IH, H by (auto; lia). reflexivity. Qed.

Lemma prodR_pos k f : (forall i, (i < k)%nat -> 0 < f i) -> 0 < prodR k f.
Proof. induction k as [|k IH]; intros H; cbn; [lra|]. apply Rmult_lt_0_compat; [apply IH; intros; apply H; lia|apply H; lia]. Qed.

(** det(r^T r) = r_00^2 ... *)
Lemma det_gram k : forall (r G : nat -> nat -> R),
  (forall i j, (j < i < k)%nat -> r i j = 0) -> (forall i, (i < k)%nat -> r i i <> 0) ->
  (forall i j, (i < k)%nat -> (j < k)%nat -> G i j = sumR k (fun l => r l i * r l j)) ->
  detR k G = prodR k (fun i => r i i * r i i).
Proof.
  induction k as [|k IH]; intros r G U Dg HG; [reflexivity|]. cbn [prodR].
  rewrite <- (IH r G); [|intros; apply U; lia|intros; apply Dg; lia|].
  2:{ intros i j Hi Hj. rewrite HG by lia. cbn [sumR]. rewrite (U k i) by lia. ring. }
  destruct (solve_upper k r (fun i => r i k)) as (x & Hx); [intros; apply U; lia|intros; apply Dg; lia|].
  rewrite <- lastcol_same. rewrite <- (lastcol_comb k G x k (le_n k)).
  rewrite Rmult_comm, <- lastcol_corner. apply detR_ext. intros i j Hi Hj. unfold lastcol.
  destruct (Nat.eqb_spec j k) as [->|N]; [|reflexivity].
  rewrite HG by lia.
  rewrite (sumR_ext k _ (fun l => sumR (S k) (fun q => r q i * (r q l * x l)))).
  2:{ intros l Hl. rewrite HG by lia. rewrite Rmult_comm, <- sumR_mul_r. apply sumR_ext. intros; ring. }
  rewrite sumR_swap, <- sumR_minus. cbn [sumR].
  rewrite sumR_0.
  2:{ intros q Hq. rewrite sumR_mul_l, Hx by assumption. ring. }
  rewrite (sumR_0 k).
  2:{ intros l Hl. rewrite (U k l) by lia. ring. }
  destruct (Nat.eqb_spec i k) as [->|Ni]; [ring|]. rewrite (U k i) by lia. ring.
Qed.
