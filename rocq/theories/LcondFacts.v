(** * lcond and ratio in exact arithmetic *)
From Coq Require Import ZArith Lia Reals Lra List Bool Arith.
From Verif Require Import Base Spec Mat FP Hlll Hlll2 SpecReal Structure Exact Lcond.
Import ListNotations.
Local Open Scope R_scope.

(** [X] is the inverse of the d x d matrix [r] *)
Definition inverse (d : nat) (r X : nat -> nat -> R) : Prop :=
  forall i j, (i < d)%nat -> (j < d)%nat -> sumR d (fun k => X i k * r k j) = if (i =? j)%nat then 1 else 0.

(** the Frobenius norm of |r| |X| *)
Definition cond_F (d : nat) (r X : nat -> nat -> R) : R :=
  sqrt (sumR d (fun i => sumR d (fun j => sumR d (fun k => Rabs (r i k) * Rabs (X k j)) * sumR d (fun k => Rabs (r i k) * Rabs (X k j))))).

Lemma fold_seq_inv {A} (P : nat -> A -> Prop) f a m x : P a x ->
  (forall i y, (a <= i < a + m)%nat -> P i y -> P (S i) (f y i)) -> P (a + m)%nat (fold_left f (seq a m) x).
Proof.
  intros H0 HS. induction m as [|m IH].
  - cbn. now rewrite Nat.add_0_r.
  - rewrite seq_S, fold_left_app. cbn [fold_left]. rewrite Nat.add_succ_r. apply HS; [lia|]. apply IH. intros; apply HS; auto; lia.
Qed.

Lemma fold_range_inv {A} (P : nat -> A -> Prop) f a e x : (a <= e)%nat -> P a x ->
  (forall i y, (a <= i < e)%nat -> P i y -> P (S i) (f y i)) -> P e (fold_left f (seq a (e - a)) x).
Proof.
  intros L H0 HS. replace e with (a + (e - a))%nat at 1 by lia. apply fold_seq_inv; auto. intros; apply HS; auto; lia.
Qed.

Lemma sumR_le n f g : (forall i, (i < n)%nat -> f i <= g i) -> sumR n f <= sumR n g.
Proof.
  induction n as [|n IH]; intros H; cbn; [lra|]. assert (sumR n f <= sumR n g) by (apply IH; intros; apply H; lia).
  specialize (H n (Nat.lt_succ_diag_r n)). lra.
Qed.

(** ** triangular inverses *)
Section Tri.
Variables (d : nat) (r : nat -> nat -> R).
Hypothesis U : forall i j, (j < i < d)%nat -> r i j = 0.
Hypothesis D : forall i, (i < d)%nat -> r i i <> 0.

Lemma inverse_upper X : inverse d r X -> forall i k, (k < i < d)%nat -> X i k = 0.
Proof.
  intros I i k. induction k as [k IH] using lt_wf_ind. intros Hk.
  assert (E := I i k ltac:(lia) ltac:(lia)). replace (i =? k)%nat with false in E by (symmetry; apply Nat.eqb_neq; lia).
  rewrite (sumR_single d k) in E; [|lia|].
  - apply Rmult_integral in E as [E|E]; [exact E|]. exfalso. apply (D k); auto; lia.
  - intros l Hl Nl. destruct (Nat.lt_ge_cases l k).
    + rewrite IH by lia. ring.
    + rewrite U by lia. ring.
Qed.

Lemma inverse_diag X j : inverse d r X -> (j < d)%nat -> X j j * r j j = 1.
Proof.
  intros I Hj. assert (E := I j j Hj Hj). rewrite Nat.eqb_refl in E. rewrite <- E. symmetry. apply (sumR_single d j); [lia|].
  intros l Hl Nl. destruct (Nat.lt_ge_cases l j); [rewrite (inverse_upper X I) by lia|rewrite U by lia]; ring.
Qed.

Lemma inverse_row X j k : inverse d r X -> (j < k < d)%nat ->
  X j j * r j k + sumR k (fun i => if (j <? i)%nat then X j i * r i k else 0) + X j k * r k k = 0.
Proof.
  intros I H. assert (E := I j k ltac:(lia) ltac:(lia)). replace (j =? k)%nat with false in E by (symmetry; apply Nat.eqb_neq; lia).
  etransitivity; [|exact E]. rewrite (sumR_cut d (S k)) by (try lia; intros i Hi; rewrite U by lia; ring). cbn [sumR]. f_equal.
  rewrite (sumR_ext k (fun q => X j q * r q k) (fun q => (if (q =? j)%nat then X j j * r j k else 0) + (if (j <? q)%nat then X j q * r q k else 0))).
  - rewrite sumR_plus. apply (f_equal (fun z => z + _)). symmetry. rewrite (sumR_single k j); [now rewrite Nat.eqb_refl|lia|].
    intros i Hi Ni. apply Nat.eqb_neq in Ni. now rewrite Ni.
  - intros i Hi. destruct (Nat.eqb_spec i j) as [->|N].
    + rewrite Nat.ltb_irrefl. ring.
    + destruct (Nat.ltb_spec j i); [ring|]. rewrite (inverse_upper X I) by lia. ring.
Qed.

(** a matrix whose rows satisfy the recurrence of Higham's method 1 up to the sign of the first entry *)
Definition hrow (Y : nat -> nat -> R) : Prop :=
  forall j, (j < d)%nat -> Y j j = 1 / Rabs (r j j) /\
    forall k, (j < k < d)%nat -> Y j k = (- (Y j j * r j k) - sumR k (fun i => if (j <? i)%nat then Y j i * r i k else 0)) / r k k.

Lemma hrow_abs Y X : hrow Y -> inverse d r X -> forall j k, (j <= k < d)%nat -> Rabs (Y j k) = Rabs (X j k).
Proof.
  intros HY I j k H. destruct (HY j ltac:(lia)) as [Y0 Y1].
  assert (S : exists s, (s = 1 \/ s = -1) /\ forall k, (j <= k < d)%nat -> Y j k = s * X j k).
  { assert (D0 := D j ltac:(lia)). assert (X0 := inverse_diag X j I ltac:(lia)).
    assert (S0 : exists s, (s = 1 \/ s = -1) /\ Y j j = s * X j j).
    { assert (XE : X j j = / r j j) by (apply (Rmult_eq_reg_r (r j j)); auto; rewrite X0; field; auto).
      destruct (Rcase_abs (r j j)) as [N|N].
      - exists (-1). split; [now right|]. rewrite Y0, XE, Rabs_left by assumption. field. lra.
      - exists 1. split; [now left|]. rewrite Y0, XE, Rabs_right by assumption. field. lra. }
    destruct S0 as (s & Hs & E0). exists s. split; [exact Hs|]. intros q. induction q as [q IH] using lt_wf_ind. intros Hq.
    destruct (Nat.eq_dec q j) as [->|N]; [exact E0|]. rewrite Y1 by lia.
    assert (R1 := inverse_row X j q I ltac:(lia)). assert (Dq := D q ltac:(lia)).
    rewrite (sumR_ext q _ (fun i => s * (if (j <? i)%nat then X j i * r i q else 0))).
    - rewrite sumR_mul_l, E0.
      apply (Rmult_eq_reg_r (r q q)); auto. unfold Rdiv. rewrite Rmult_assoc, Rinv_l, Rmult_1_r by assumption.
      set (SS := sumR q _) in *. transitivity (s * (- (X j j * r j q) - SS)); [ring|].
      replace (- (X j j * r j q) - SS) with (X j q * r q q) by lra. ring.
    - intros i Hi. destruct (Nat.ltb_spec j i); [rewrite IH by lia|]; ring. }
  destruct S as (s & Hs & E). rewrite E by lia. rewrite Rabs_mult.
  replace (Rabs s) with 1; [ring|]. destruct Hs as [->| ->]; [rewrite Rabs_right|rewrite Rabs_left]; lra.
Qed.

(** the rows of the method give an inverse *)
Lemma hrow_inverse Y : hrow Y -> exists X, inverse d r X.
Proof.
  intros HY. exists (fun j k => if (j <=? k)%nat then (Rabs (r j j) / r j j) * Y j k else 0). intros j k Hj Hk.
  destruct (HY j Hj) as [Y0 Y1]. assert (D0 := D j Hj). assert (A0 : Rabs (r j j) <> 0) by (now apply Rabs_no_R0).
  set (s := Rabs (r j j) / r j j).
  destruct (Nat.lt_ge_cases k j) as [L|L].
  - replace (j =? k)%nat with false by (symmetry; apply Nat.eqb_neq; lia). apply sumR_0. intros i Hi.
    destruct (Nat.leb_spec j i); [rewrite U by lia|]; ring.
  - destruct (Nat.eqb_spec j k) as [<-|N].
    + rewrite (sumR_single d j); [|lia|intros i Hi Ni; destruct (Nat.leb_spec j i); [rewrite U by lia|]; ring].
      rewrite Nat.leb_refl, Y0. unfold s. field. auto.
    + rewrite (sumR_cut d (S k)) by (try lia; intros i Hi; rewrite U by lia; ring). cbn [sumR].
      replace (j <=? k)%nat with true by (symmetry; apply Nat.leb_le; lia). rewrite Y1 by lia.
      assert (Dk := D k Hk). unfold Rdiv at 1. rewrite !Rmult_assoc, Rinv_l, Rmult_1_r by assumption.
      rewrite (sumR_ext k _ (fun i => (if (i =? j)%nat then s * (Y j j * r j k) else 0) + s * (if (j <? i)%nat then Y j i * r i k else 0))).
      * rewrite sumR_plus, sumR_mul_l, (sumR_single k j); [rewrite Nat.eqb_refl; ring|lia|].
        intros i Hi Ni. apply Nat.eqb_neq in Ni. now rewrite Ni.
      * intros i Hi. destruct (Nat.eqb_spec i j) as [->|Ni].
        -- rewrite Nat.leb_refl, Nat.ltb_irrefl. ring.
        -- destruct (Nat.ltb_spec j i).
           ++ replace (j <=? i)%nat with true by (symmetry; apply Nat.leb_le; lia). ring.
           ++ replace (j <=? i)%nat with false by (symmetry; apply Nat.leb_gt; lia). ring.
Qed.

Lemma inverse_unique X X' : inverse d r X -> inverse d r X' -> forall i j, (i < d)%nat -> (j < d)%nat -> X i j = X' i j.
Proof.
  intros I I' i j Hi. induction j as [j IH] using lt_wf_ind. intros Hj.
  assert (E := I i j Hi Hj). assert (E' := I' i j Hi Hj). rewrite <- E' in E. clear E'.
  assert (DD := D j Hj). apply (Rmult_eq_reg_r (r j j)); auto.
  rewrite !(sumR_cut d (S j)) in E by (try lia; intros l Hl; rewrite U by lia; ring). cbn [sumR] in E.
  rewrite (sumR_ext j (fun k => X i k * r k j) (fun k => X' i k * r k j)) in E; [lra|].
  intros l Hl. rewrite IH by lia. reflexivity.
Qed.
End Tri.

(** ** R factors are unique up to the signs of the rows *)
Lemma R_factor_unique n d B r r' : R_factor n d B r -> R_factor n d B r' ->
  forall i, (i < d)%nat -> exists s, (s = 1 \/ s = -1) /\ forall j, (j < d)%nat -> r' i j = s * r i j.
Proof.
  intros (U & D & G) (U' & D' & G') i. induction i as [i IH] using lt_wf_ind. intros Hi.
  assert (E : forall j, (j < d)%nat -> r' i i * r' i j = r i i * r i j).
  { intros j Hj. assert (E := G i j Hi Hj). rewrite <- (G' i j Hi Hj) in E.
    rewrite !(sumR_cut d (S i)) in E by (try lia; intros l Hl; rewrite ?U, ?U' by lia; ring). cbn [sumR] in E.
    rewrite (sumR_ext i (fun l => r l i * r l j) (fun l => r' l i * r' l j)) in E; [lra|].
    intros l Hl. destruct (IH l Hl ltac:(lia)) as (s & Hs & Es). rewrite !Es by lia. destruct Hs as [->| ->]; ring. }
  assert (D1 := D i Hi). assert (D1' := D' i Hi). assert (E0 := E i Hi).
  assert (S : exists s, (s = 1 \/ s = -1) /\ r' i i = s * r i i).
  { assert (P : (r' i i - r i i) * (r' i i + r i i) = 0) by lra.
    apply Rmult_integral in P as [P|P]; [exists 1|exists (-1)]; split; auto; lra. }
  destruct S as (s & Hs & Es). exists s. split; [exact Hs|]. intros j Hj. assert (Ej := E j Hj). rewrite Es in Ej.
  apply (Rmult_eq_reg_l (r i i)); auto. destruct Hs as [->| ->]; lra.
Qed.

Lemma cond_F_unique n d B r r' X X' : R_factor n d B r -> R_factor n d B r' -> inverse d r X -> inverse d r' X' ->
  cond_F d r X = cond_F d r' X'.
Proof.
  intros F F' I I'. assert (UQ := R_factor_unique n d B r r' F F'). destruct F as (U & D & _). destruct F' as (U' & D' & _).
  assert (C : exists s : nat -> R, forall i, (i < d)%nat -> (s i = 1 \/ s i = -1) /\ forall j, (j < d)%nat -> r' i j = s i * r i j).
  { clear - UQ. induction d as [|m IH].
    - exists (fun _ => 1). intros; lia.
    - (* choice on a finite set *)
      assert (G : forall k, (k <= S m)%nat -> exists s : nat -> R, forall i, (i < k)%nat -> (s i = 1 \/ s i = -1) /\ forall j, (j < S m)%nat -> r' i j = s i * r i j).
      { induction k as [|k IHk]; intros Hk; [exists (fun _ => 1); intros; lia|].
        destruct (IHk ltac:(lia)) as (s & Es). destruct (UQ k ltac:(lia)) as (t & Ht & Et).
        exists (fun i => if (i =? k)%nat then t else s i). intros i Hi. destruct (Nat.eqb_spec i k) as [->|]; auto. apply Es. lia. }
      apply G. lia. }
  destruct C as (s & Hs).
  assert (AR : forall i j, (i < d)%nat -> (j < d)%nat -> Rabs (r' i j) = Rabs (r i j)).
  { intros i j Hi Hj. destruct (Hs i Hi) as [S E]. rewrite E by assumption. rewrite Rabs_mult.
    replace (Rabs (s i)) with 1; [ring|]. destruct S as [->| ->]; [rewrite Rabs_right|rewrite Rabs_left]; lra. }
  assert (AX : forall i j, (i < d)%nat -> (j < d)%nat -> Rabs (X' i j) = Rabs (X i j)).
  { intros i j Hi Hj. rewrite (inverse_unique d r U D X (fun i k => X' i k * s k) I); auto.
    - cbn beta. rewrite Rabs_mult. replace (Rabs (s j)) with 1; [ring|].
      destruct (Hs j Hj) as [[->| ->] _]; [rewrite Rabs_right|rewrite Rabs_left]; lra.
    - intros a b Ha Hb. rewrite <- (I' a b Ha Hb). apply sumR_ext. intros k Hk. destruct (Hs k Hk) as [_ E]. rewrite E by assumption. ring. }
  unfold cond_F. f_equal. apply sumR_ext. intros i Hi. apply sumR_ext. intros j Hj.
  f_equal; apply sumR_ext; intros k Hk; rewrite AR, AX by assumption; reflexivity.
Qed.

(** ** The code *)
Section Code.
Variable fp : fpops R.
Hypothesis X : exact fp.
Notation fz := (fzero fp).
Notation g M i j := (mget fz M i j).

Lemma hg_row_exact d R aR M j : wfm d d M -> (j < d)%nat ->
  let M' := hg_row fp d R aR M j in
  wfm d d M' /\ (forall i k, i <> j \/ (k < j)%nat -> g M' i k = g M i k) /\
  g M' j j = 1 / g aR j j /\
  forall k, (j < k < d)%nat ->
    g M' j k = (- (g M' j j * g R j k) - sumR k (fun i => if (j <? i)%nat then g M' j i * g R i k else 0)) / g R k k.
Proof.
  intros W Hj. unfold hg_row.
  set (M1 := mset M j j _).
  assert (W1 : wfm d d M1) by (now apply wfm_mset).
  assert (E1 : forall i k, g M1 i k = if ((i =? j)%nat && (k =? j)%nat)%bool then 1 / g aR j j else g M i k).
  { intros i k. unfold M1. rewrite (mget_mset fz d d) by auto. now rewrite (e_div fp X), (e_one fp X). }
  set (M2 := fold_left (hg_neg fp R j) _ M1).
  assert (P2 : wfm d d M2 /\ forall i k, g M2 i k = if ((i =? j)%nat && (j <? k)%nat && (k <? d)%nat)%bool then - (g M1 j j * g R j k) else g M1 i k).
  { unfold M2. 
    apply (fold_range_inv (fun K N => wfm d d N /\ forall i k, g N i k = if ((i =? j)%nat && (j <? k)%nat && (k <? K)%nat)%bool then - (g M1 j j * g R j k) else g M1 i k)).
    - lia.
    - split; [exact W1|]. intros i k. destruct (Nat.ltb_spec j k), (Nat.ltb_spec k (j + 1)); try lia; rewrite ?andb_false_r; reflexivity.
    - intros q N Hq [WN EN]. split; [now apply wfm_mset|]. intros i k. unfold hg_neg. rewrite (mget_mset fz d d) by (auto; lia).
      rewrite (e_neg fp X), (e_mul fp X). rewrite (EN j j). rewrite Nat.ltb_irrefl, andb_false_r. cbn [andb].
      destruct (Nat.eqb_spec i j) as [->|]; cbn [andb]; [|now rewrite EN; destruct (Nat.eqb_spec i j)].
      destruct (Nat.eqb_spec k q) as [->|].
      + replace (j <? q)%nat with true by (symmetry; apply Nat.ltb_lt; lia). replace (q <? S q)%nat with true by (symmetry; apply Nat.ltb_lt; lia). reflexivity.
      + rewrite EN, Nat.eqb_refl. cbn [andb]. destruct (Nat.ltb_spec j k), (Nat.ltb_spec k q), (Nat.ltb_spec k (S q)); try lia; reflexivity. }
  destruct P2 as [W2 E2]. 
  set (M3 := fold_left (hg_ent fp R j) _ M2).
  assert (P3 : wfm d d M3 /\ (forall i k, ~ (i = j /\ (j < k < d)%nat) -> g M3 i k = g M2 i k) /\
    forall k, (j < k < d)%nat -> g M3 j k = (- (g M3 j j * g R j k) - sumR k (fun i => if (j <? i)%nat then g M3 j i * g R i k else 0)) / g R k k).
  { unfold M3. 
    apply (fold_range_inv (fun K N => wfm d d N /\ (forall i k, ~ (i = j /\ (j < k < K)%nat) -> g N i k = g M2 i k) /\
      forall k, (j < k < K)%nat -> g N j k = (- (g N j j * g R j k) - sumR k (fun i => if (j <? i)%nat then g N j i * g R i k else 0)) / g R k k)).
    - lia.
    - split; [exact W2|]. split; [reflexivity|intros; lia].
    - intros q N Hq (WN & EN & FN). unfold hg_ent.
      set (N1 := fold_left (hg_sub fp R j q) _ N).
      assert (P4 : wfm d d N1 /\ (forall i k, ~ (i = j /\ k = q) -> g N1 i k = g N i k) /\
        g N1 j q = g N j q - sumR q (fun i => if (j <? i)%nat then g N j i * g R i q else 0)).
      { unfold N1. 
        apply (fold_range_inv (fun K N1 => wfm d d N1 /\ (forall i k, ~ (i = j /\ k = q) -> g N1 i k = g N i k) /\
           g N1 j q = g N j q - sumR K (fun i => if (j <? i)%nat then g N j i * g R i q else 0))).
        - lia.
        - split; [exact WN|]. split; [reflexivity|]. rewrite sumR_0; [ring|]. intros i Hi.
          now replace (j <? i)%nat with false by (symmetry; apply Nat.ltb_ge; lia).
        - intros p N2 Hp (WN2 & EN2 & FN2). unfold hg_sub. split; [now apply wfm_mset|]. split.
          + intros i k Nik. rewrite (mget_mset fz d d) by (auto; lia). destruct (Nat.eqb_spec i j), (Nat.eqb_spec k q); cbn [andb]; try (now apply EN2); now contradiction Nik.
          + rewrite (mget_mset fz d d) by (auto; lia). rewrite !Nat.eqb_refl. cbn [andb]. rewrite (e_sub fp X), (e_mul fp X), FN2, EN2 by lia.
            cbn [sumR]. replace (j <? p)%nat with true by (symmetry; apply Nat.ltb_lt; lia). ring. }
      destruct P4 as (WN1 & EN1 & FN1). set (N3 := mset N1 j q _).
      assert (G3 : forall i k, ~ (i = j /\ k = q) -> g N3 i k = g N i k).
      { intros i k Nik. unfold N3. rewrite (mget_mset fz d d) by (auto; lia). destruct (Nat.eqb_spec i j), (Nat.eqb_spec k q); cbn [andb]; try (now apply EN1); now contradiction Nik. }
      assert (SE : forall k, (k <= q)%nat -> sumR k (fun i => if (j <? i)%nat then g N3 j i * g R i k else 0) = sumR k (fun i => if (j <? i)%nat then g N j i * g R i k else 0)).
      { intros k Hk. apply sumR_ext. intros i Hi. destruct (j <? i)%nat; auto. rewrite G3 by lia. reflexivity. }
      split; [now apply wfm_mset|]. split.
      + intros i k Nik. rewrite G3 by lia. apply EN. lia.
      + intros k Hk. rewrite SE by lia. rewrite (G3 j j) by lia. destruct (Nat.eq_dec k q) as [->|].
        * unfold N3 at 1. rewrite (mget_mset fz d d) by (auto; lia). rewrite !Nat.eqb_refl. cbn [andb].
          rewrite (e_div fp X), FN1. f_equal. rewrite (EN j q), (EN j j) by lia. rewrite !E2, !Nat.eqb_refl, Nat.ltb_irrefl. cbn [andb].
          replace (j <? q)%nat with true by (symmetry; apply Nat.ltb_lt; lia). replace (q <? d)%nat with true by (symmetry; apply Nat.ltb_lt; lia). reflexivity.
        * rewrite G3 by lia. apply FN. lia. }
  destruct P3 as (W3 & E3 & F3). split; [exact W3|]. split; [|split; [|exact F3]].
  - intros i k H. rewrite E3 by lia. rewrite E2, !E1. destruct (Nat.eqb_spec i j), (Nat.ltb_spec j k), (Nat.eqb_spec k j); cbn [andb]; auto; lia.
  - rewrite E3 by lia. rewrite E2, Nat.ltb_irrefl, andb_false_r. cbn [andb]. rewrite E1, Nat.eqb_refl. reflexivity.
Qed.

(** the upper part of the result satisfies the recurrence; the lower part is what it was before the call *)
Lemma higham_exact d R aR M : wfm d d M -> (forall i, (i < d)%nat -> g aR i i = Rabs (g R i i)) ->
  let Y := higham fp d R aR M in
  hrow d (fun i j => g R i j) (fun i j => g Y i j) /\ forall i k, (k < i < d)%nat -> g Y i k = g M i k.
Proof.
  intros W HA Y.
  assert (P : forall m, (m <= d)%nat -> let Y := fold_left (hg_row fp d R aR) (seq 0 m) M in
    wfm d d Y /\ (forall i k, (m <= i)%nat \/ (k < i)%nat -> g Y i k = g M i k) /\
    forall j, (j < m)%nat -> g Y j j = 1 / g aR j j /\ forall k, (j < k < d)%nat ->
      g Y j k = (- (g Y j j * g R j k) - sumR k (fun i => if (j <? i)%nat then g Y j i * g R i k else 0)) / g R k k).
  { induction m as [|m IH]; intros Hm Z.
    - split; [exact W|]. split; [reflexivity|intros; lia].
    - unfold Z. rewrite seq_S, fold_left_app. cbn [fold_left Nat.add]. destruct (IH ltac:(lia)) as (W1 & E1 & F1).
      set (Z1 := fold_left _ _ _) in *. destruct (hg_row_exact d R aR Z1 m W1 ltac:(lia)) as (W2 & E2 & F2 & F3).
      split; [exact W2|]. split.
      + intros i k H. destruct (Nat.eq_dec i m) as [->|]; [rewrite E2 by lia; apply E1; lia|]. rewrite E2 by lia. apply E1. lia.
      + intros j Hj. destruct (Nat.eq_dec j m) as [->|N].
        * split; [exact F2|exact F3].
        * destruct (F1 j ltac:(lia)) as [A1 A2]. rewrite !E2 by lia. split; [exact A1|]. intros k Hk. rewrite !E2 by lia.
          rewrite A2 by lia. do 2 f_equal. apply sumR_ext. intros i Hi. rewrite E2 by lia. reflexivity. }
  destruct (P d (le_n d)) as (W1 & E1 & F1). fold (higham fp d R aR M) in *. fold Y in W1, E1, F1. split.
  - intros j Hj. destruct (F1 j Hj) as [A1 A2]. rewrite A1, HA by assumption. split; [reflexivity|]. intros k Hk. rewrite A2 by assumption.
    rewrite A1, HA by assumption. reflexivity.
  - intros i k H. apply E1. lia.
Qed.

Lemma fold_addmul (u v : nat -> R) m : forall a acc, fold_left (fun acc k => faddmul fp acc (u k) (v k)) (seq a m) acc = acc + sumR m (fun k => u (a + k)%nat * v (a + k)%nat).
Proof.
  induction m as [|m IH]; intros a acc; [cbn; ring|]. rewrite seq_S, fold_left_app, IH. cbn [fold_left sumR].
  rewrite (e_addmul fp X). ring.
Qed.

Lemma prod_exact d aR iR i j : (1 <= d)%nat -> prod_entry fp d aR iR i j = sumR d (fun k => g aR i k * g iR k j).
Proof.
  intros Hd. unfold prod_entry. rewrite fold_addmul. destruct d as [|m]; [lia|]. replace (S m - 1)%nat with m by lia.
  rewrite (e_mul fp X). change (S m) with (1 + m)%nat. rewrite sumR_split. cbn [sumR]. ring.
Qed.

Lemma frob_exact d P : frob fp d P = sqrt (sumR d (fun i => sumR d (fun j => g P i j * g P i j))).
Proof.
  unfold frob. rewrite (e_sqrt fp X). f_equal.
  assert (G : forall m acc, fold_left (fun acc i => fold_left (fun acc j => faddmul fp acc (g P i j) (g P i j)) (seq 0 d) acc) (seq 0 m) acc
    = acc + sumR m (fun i => sumR d (fun j => g P i j * g P i j))).
  { induction m as [|m IH]; intros acc; [cbn; ring|]. rewrite seq_S, fold_left_app, IH. cbn [fold_left sumR Nat.add].
    rewrite fold_addmul. cbn [Nat.add]. ring. }
  rewrite G, (e_zero fp X). ring.
Qed.

(** the value computed: |R| times |Y| with Y the inverse on and above the diagonal, [iR0] below *)
Lemma cond_value_exact d R iR0 XX : (1 <= d)%nat -> wfm d d iR0 ->
  (forall i j, (j < i < d)%nat -> g R i j = 0) -> (forall i, (i < d)%nat -> g R i i <> 0) ->
  inverse d (fun i j => g R i j) XX ->
  cond_value fp d R iR0 = cond_F d (fun i j => g R i j) (fun i k => if (i <=? k)%nat then XX i k else g iR0 i k).
Proof.
  intros Hd W U D I. unfold cond_value.
  set (aR := mtab d d (fun i j => fabs fp (g R i j))). set (M1 := fold_left (fun M i => mset M i i (fone fp)) (seq 0 d) iR0). set (Y := higham _ _ _ _ _).
  rewrite frob_exact. unfold cond_F. f_equal.
  assert (P1 : wfm d d M1 /\ forall i k, g M1 i k = if ((i =? k)%nat && (i <? d)%nat)%bool then 1 else g iR0 i k).
  { unfold M1. apply (fold_seq_inv (fun K N => wfm d d N /\ forall i k, g N i k = if ((i =? k)%nat && (i <? K)%nat)%bool then 1 else g iR0 i k) _ 0%nat d).
    - split; [exact W|]. intros i k. cbn. now rewrite andb_false_r.
    - intros q N Hq [WN EN]. split; [now apply wfm_mset|]. intros i k. rewrite (mget_mset fz d d) by (auto; lia). rewrite EN, (e_one fp X).
      destruct (Nat.eqb_spec i q), (Nat.eqb_spec k q), (Nat.eqb_spec i k), (Nat.ltb_spec i q), (Nat.ltb_spec i (S q)); cbn [andb]; auto; lia. }
  destruct P1 as [W1 E1].
  destruct (higham_exact d R aR M1 W1) as [H1 H2].
  { intros i Hi. unfold aR. rewrite mget_mtab by assumption. apply (e_abs fp X). }
  fold Y in H1, H2.
  assert (AY : forall i k, (i < d)%nat -> (k < d)%nat -> Rabs (g Y i k) = Rabs (if (i <=? k)%nat then XX i k else g iR0 i k)).
  { intros i k Hi Hk. destruct (Nat.leb_spec i k).
    - apply (hrow_abs d (fun i j => g R i j) U D (fun i j => g Y i j) XX H1 I). lia.
    - rewrite H2 by lia. rewrite E1. now replace (i =? k)%nat with false by (symmetry; apply Nat.eqb_neq; lia). }
  apply sumR_ext. intros i Hi. apply sumR_ext. intros j Hj. rewrite !mget_mtab by assumption. rewrite prod_exact by assumption.
  f_equal; apply sumR_ext; intros k Hk; unfold aR; rewrite !mget_mtab by assumption; rewrite !(e_abs fp X), AY by assumption; reflexivity.
Qed.

End Code.
