(** * The potential in terms of the lengths of the columns *)
From Coq Require Import ZArith Lia Reals Lra List Bool Arith.
From Verif Require Import Base Spec Mat FP Hlll Object Det LinDep Structure SpecReal ShortVec Cache Cache2 Cache5 Cache6 Cache7 Exact ExactPot ExactTop.
Local Open Scope R_scope.

Section PB.
Variable fp : fpops R.
Hypothesis X : exact fp.

Lemma rf_independent n d A : independent n d (fn A) -> exists r, R_factor n d (fn A) r.
Proof.
  intros I. set (L0 := fresh_object fp (mkJ (fun _ _ => 0) (fun _ _ => 0) (fun _ _ => 0) (fun _ _ => 0) (fun _ => 0) (fun _ => 0) 0 0) n d A true 0 true 0 1 0 0).
  assert (Rdy : ready fp L0).
  { apply ready_fresh; [now apply independent_staircase|]. right. now apply exact_zero_laws. }
  destruct Rdy as (_ & G & _).
  destruct (rf_exists fp X (lcfg L0) (li L0) G) as (r & RF).
  - eapply independent_ext; [|exact I]. apply meq_sym, fn_mtab.
  - exists r. change (cn (lcfg L0)) with n in RF. change (cd (lcfg L0)) with d in RF.
    destruct RF as (U & D & G2). split; [exact U|]. split; [exact D|]. intros j l Hj Hl. rewrite G2 by assumption.
    f_equal. apply sumZ_ext. intros i Hi. change (iB (li L0)) with (mtab n d (fn A)). now rewrite !fn_mtab.
Qed.
End PB.

Lemma diag_le_norm n d B r j : (j < d)%nat -> R_factor n d B r -> r j j * r j j <= IZR (norm2 n (fun i => B i j)).
Proof.
  intros Hj (_ & _ & G). unfold norm2. rewrite <- (G j j) by assumption.
  exact (sumR_term d (fun i => r i j * r i j) j (fun i _ => sq_pos _) Hj).
Qed.

Lemma prodR_bound k f M : 0 <= M -> (forall i, (i < k)%nat -> 0 <= f i <= M) -> 0 <= prodR k f <= M ^ k.
Proof.
  intros HM. induction k as [|k IH]; intros H; [cbn; lra|]. cbn [prodR pow].
  destruct IH as (A & B); [intros; apply H; lia|]. destruct (H k ltac:(lia)) as (C & D0). split; [now apply Rmult_le_pos|].
  rewrite Rmult_comm. apply Rmult_le_compat; assumption.
Qed.

Lemma prodZ_bound k (f : nat -> Z) M e : 0 <= M -> (forall i, (i < k)%nat -> 0 <= IZR (f i) <= M ^ (S i)) -> (e = k * (k + 1) / 2)%nat ->
  0 <= IZR (prodZ k f) <= M ^ e.
Proof.
  intros HM. revert e. induction k as [|k IH]; intros e H ->; [cbn; lra|]. cbn [prodZ]. rewrite mult_IZR.
  destruct (IH (k * (k + 1) / 2)%nat) as (A & B); [intros; apply H; lia|reflexivity|]. destruct (H k ltac:(lia)) as (C & D0).
  split; [now apply Rmult_le_pos|].
  replace (S k * (S k + 1) / 2)%nat with (k * (k + 1) / 2 + S k)%nat.
  - rewrite pow_add. apply Rmult_le_compat; assumption.
  - replace (S k * (S k + 1))%nat with (k * (k + 1) + S k * 2)%nat by lia. now rewrite Nat.div_add by lia.
Qed.

(** a product of Gram determinants is at most a power of the largest squared length *)
Lemma potential_le n d A r M : R_factor n d A r -> (forall j, (j < d)%nat -> IZR (norm2 n (fun i => A i j)) <= M) ->
  IZR (potential n d A) <= M ^ (d * (d + 1) / 2).
Proof.
  intros RF HM. destruct (Nat.eq_dec d 0) as [->|Nd]; [cbn; lra|].
  assert (M0 : 0 <= M). { apply Rle_trans with (2 := HM 0%nat ltac:(lia)). apply Rle_trans with (2 := diag_le_norm n d A r 0 ltac:(lia) RF). apply sq_pos. }
  apply (prodZ_bound d _ M); [exact M0| |reflexivity]. intros i Hi. rewrite (minor_rf n d A r (S i) RF) by lia.
  apply prodR_bound; [exact M0|]. intros j Hj. split; [apply sq_pos|].
  apply Rle_trans with (2 := HM j ltac:(lia)). now apply (diag_le_norm n d A r j ltac:(lia)).
Qed.
