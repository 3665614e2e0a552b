(** * The estimates printed by isreduced, in exact arithmetic *)
From Coq Require Import ZArith Lia Reals Lra List Bool Arith.
From Verif Require Import Base Spec Mat FP Hlll Hlll2 HlllInt Isred2 Safety SpecReal Det Fresh Cache4 Exact ExactLoop ExactPot SpecIsred LcondFacts.
Import ListNotations.
Local Open Scope R_scope.

Lemma mfold_seq_inv {St} (P : nat -> St -> Prop) (f : nat -> St -> res St) a n s :
  P a s -> (forall k t, (a <= k < a + n)%nat -> P k t -> exists t', f k t = Ok t' /\ P (k + 1)%nat t') ->
  exists t, mfold f (seq a n) s = Ok t /\ P (a + n)%nat t.
Proof.
  revert a s. induction n as [|n IH]; intros a s H0 H; cbn [seq mfold].
  - exists s. split; [reflexivity|]. now rewrite Nat.add_0_r.
  - destruct (H a s ltac:(lia) H0) as (t & E & P1). rewrite E. cbn [bind]. rewrite Nat.add_1_r in P1.
    destruct (IH (S a) t P1) as (t' & E' & P'); [intros; apply H; [lia|assumption]|]. exists t'. split; [exact E'|].
    now replace (a + S n)%nat with (S a + n)%nat by lia.
Qed.

Section Rep.
Variable fp : fpops R.
Hypothesis X : exact fp.
Variable c : cfg.
Notation n := (cn c).
Notation d := (cd c).
Notation r M i j := (mget (fzero fp) M i j).
Hypothesis ND : (d <= n)%nat.
Hypothesis D2 : (2 <= d)%nat.
Variable M : mat R.
Variable B : mat Z.
Hypothesis RF : R_factor n d (fn B) (fun i j => r M i j).

Definition quot (k : nat) : R := (r M k (k + 1) * r M k (k + 1) + r M (k + 1) (k + 1) * r M (k + 1) (k + 1)) / (r M k k * r M k k).

Lemma isr_quot_exact k : (k + 1 < d)%nat -> isr_quot fp c M k = Ok (quot k).
Proof.
  intros Hk. unfold isr_quot. rewrite !(gR_ok fp c) by lia. cbn [bind]. now rewrite (e_div fp X), (e_add fp X), !(e_mul fp X).
Qed.

Lemma diag_pos k : (k < d)%nat -> 0 < r M k k * r M k k.
Proof. intros Hk. pose proof (proj1 (proj2 RF) k Hk) as N. apply Rsqr_pos_lt in N. exact N. Qed.

Lemma quot_le k dl : (k + 1 < d)%nat ->
  (dl <= quot k <-> dl * (r M k k * r M k k) <= r M k (k + 1) * r M k (k + 1) + r M (k + 1) (k + 1) * r M (k + 1) (k + 1)).
Proof.
  intros Hk. pose proof (diag_pos k ltac:(lia)) as P.
  assert (Q : quot k * (r M k k * r M k k) = r M k (k + 1) * r M k (k + 1) + r M (k + 1) (k + 1) * r M (k + 1) (k + 1)).
  { unfold quot, Rdiv. rewrite Rmult_assoc, Rinv_l by lra. apply Rmult_1_r. }
  rewrite <- Q. split; intros H.
  - apply Rmult_le_compat_r; [left; exact P|exact H].
  - now apply Rmult_le_reg_r in H.
Qed.

Lemma isr_delta_exact : exists dl, isr_delta fp c M = Ok dl /\ best_delta d (fun i j => r M i j) dl.
Proof.
  unfold isr_delta. rewrite isr_quot_exact by lia. cbn [bind]. cbv zeta.
  set (d0 := if fle fp (fone fp) (quot 0) then _ else _).
  assert (Q0 : d0 <= 1 /\ d0 <= quot 0 /\ forall dl', dl' <= 1 -> dl' <= quot 0 -> dl' <= d0).
  { unfold d0. rewrite (e_one fp X). destruct (fle fp 1 (quot 0)) eqn:E.
    - apply (e_le fp X) in E. repeat split; intros; lra.
    - assert (~ 1 <= quot 0) by (intros Q; apply (e_le fp X) in Q; congruence). repeat split; intros; lra. }
  destruct (mfold_seq_inv (fun k dl => dl <= 1 /\ (forall l, (l < k)%nat -> dl <= quot l) /\
      forall dl', dl' <= 1 -> (forall l, (l < k)%nat -> dl' <= quot l) -> dl' <= dl)
    (fun k dl => let* s := isr_quot fp c M k in Ok (if flt fp s dl then s else dl)) 1 (d - 2) d0) as (dl & E & P).
  - destruct Q0 as (A1 & A2 & A3). split; [exact A1|]. split.
    + intros l Hl. now replace l with 0%nat by lia.
    + intros dl' H1 H2. apply A3; auto.
  - intros k t Hk (A1 & A2 & A3). rewrite isr_quot_exact by lia. cbn [bind]. eexists. split; [reflexivity|].
    destruct (flt fp (quot k) t) eqn:E.
    + apply (e_lt fp X) in E. split; [lra|]. split.
      * intros l Hl. destruct (Nat.eq_dec l k) as [->|]; [lra|]. specialize (A2 l ltac:(lia)). lra.
      * intros dl' H1 H2. apply H2. lia.
    + assert (~ quot k < t) by (intros Q; apply (e_lt fp X) in Q; congruence). split; [lra|]. split.
      * intros l Hl. destruct (Nat.eq_dec l k) as [->|]; [lra|]. apply A2. lia.
      * intros dl' H1 H2. apply A3; auto. intros l Hl. apply H2. lia.
  - exists dl. split; [exact E|]. replace (1 + (d - 2))%nat with (d - 1)%nat in P by lia. destruct P as (A1 & A2 & A3).
    split; [exact A1|]. split.
    + intros i Hi. replace (S i) with (i + 1)%nat by lia. apply quot_le; [lia|]. apply A2. lia.
    + intros dl' H1 H2. apply A3; auto. intros l Hl. apply quot_le; [lia|]. specialize (H2 l ltac:(lia)).
      now replace (S l) with (l + 1)%nat in H2 by lia.
Qed.

Lemma isr_norm_exact : isr_norm fp c B = sqrt (IZR (norm2 n (fun i => fn B i 0%nat))).
Proof.
  unfold isr_norm. rewrite (e_sqrt fp X), (e_setz fp X). do 2 f_equal. unfold norm2, fn, mget.
  assert (G : forall m a, fold_left (fun s i => (s + nth i (col B 0) 0 * nth i (col B 0) 0)%Z) (seq 0 m) a =
     (a + sumZ m (fun i => nth i (col B 0) 0 * nth i (col B 0) 0))%Z).
  { induction m as [|m IH]; intros a; [cbn; lia|]. rewrite seq_S, fold_left_app, IH. cbn [fold_left sumZ Nat.add]. lia. }
  rewrite G. reflexivity.
Qed.

Lemma isr_vol_exact : exists v, isr_vol fp c M = Ok v /\ 0 <= v /\ v * v = IZR (detZ d (gramZ n (fn B))).
Proof.
  unfold isr_vol. rewrite (gR_ok fp c) by lia. cbn [bind].
  destruct (mfold_seq_inv (fun k s => s * s = prodR k (fun i => r M i i * r M i i))
     (fun k s => let* rr := gR fp c M k k in Ok (fmul fp s rr)) 1 (d - 1) (r M 0%nat 0%nat)) as (s & E & P).
  - cbn. ring.
  - intros k t Hk Ht. rewrite (gR_ok fp c) by lia. cbn [bind]. eexists. split; [reflexivity|].
    rewrite (e_mul fp X). rewrite Nat.add_1_r. cbn [prodR]. rewrite <- Ht. ring.
  - rewrite E. cbn [bind]. eexists. split; [reflexivity|]. rewrite (e_abs fp X). split; [apply Rabs_pos|].
    rewrite <- Rabs_mult, Rabs_right by (pose proof (Rle_0_sqr s); unfold Rsqr in *; lra).
    rewrite P. replace (1 + (d - 1))%nat with d by lia. symmetry. apply (minor_rf n d (fn B) _ d RF). lia.
Qed.

Lemma isr_eta_exact theta : 0 <= theta ->
  exists e, isr_eta fp c theta M = Ok e /\ 0 <= e /\ weakly_size_reduced d e theta (fun i j => r M i j).
Proof.
  intros Ht. unfold isr_eta.
  set (ok := fun i j (e : R) => Rabs (r M i j) <= e * Rabs (r M i i) + theta * Rabs (r M j j)).
  assert (MONO : forall i j e e', e <= e' -> ok i j e -> ok i j e').
  { intros i j e e' He H. unfold ok in *. pose proof (Rabs_pos (r M i i)). nra. }
  destruct (mfold_seq_inv (fun i e => 0 <= e /\ forall p q, (p < i)%nat -> (p < q < d)%nat -> ok p q e)
    (fun i e => mfold (fun j e =>
      let* rij := gR fp c M i j in
      let* rjj := gR fp c M j j in
      let v := fsub fp (fabs fp rij) (fmul fp theta rjj) in
      if flt fp (fzero fp) v then
        let* rii := gR fp c M i i in
        let v2 := fabs fp (fdiv fp v rii) in
        Ok (if flt fp e v2 then v2 else e)
      else Ok e) (seq (i + 1) (d - (i + 1))) e) 0 (d - 1) (fzero fp)) as (e & E & P).
  - rewrite (e_zero fp X). split; [lra|]. intros; lia.
  - intros i e Hi (E0 & EP).
    destruct (mfold_seq_inv (fun j e' => e <= e' /\ forall q, (i < q < j)%nat -> ok i q e')
      (fun j e =>
      let* rij := gR fp c M i j in
      let* rjj := gR fp c M j j in
      let v := fsub fp (fabs fp rij) (fmul fp theta rjj) in
      if flt fp (fzero fp) v then
        let* rii := gR fp c M i i in
        let v2 := fabs fp (fdiv fp v rii) in
        Ok (if flt fp e v2 then v2 else e)
      else Ok e) (i + 1) (d - (i + 1)) e) as (e1 & E1 & P1a & P1b).
    + split; [lra|]. intros; lia.
    + intros j e2 Hj (H1 & H2). rewrite !(gR_ok fp c) by lia. cbn [bind]. cbv zeta.
      rewrite (e_sub fp X), (e_abs fp X), (e_mul fp X).
      set (v := Rabs (r M i j) - theta * r M j j).
      pose proof (proj1 (proj2 RF) i ltac:(lia)) as N. cbn beta in N.
      assert (AP : 0 < Rabs (r M i i)) by (now apply Rabs_pos_lt).
      pose proof (Rle_abs (r M j j)) as AJ. pose proof (Rabs_pos (r M j j)) as AJ0.
      destruct (flt fp (fzero fp) v) eqn:EV.
      * cbn [bind]. eexists. split; [reflexivity|].
        apply (e_lt fp X) in EV. rewrite (e_zero fp X) in EV.
        rewrite (e_abs fp X), (e_div fp X). set (v2 := Rabs (v / r M i i)).
        assert (V2 : v2 * Rabs (r M i i) = v).
        { unfold v2, Rdiv. rewrite Rabs_mult, Rabs_inv, Rmult_assoc, Rinv_l, Rmult_1_r by lra. apply Rabs_right. lra. }
        assert (OK2 : ok i j v2).
        { unfold ok. rewrite V2. unfold v. pose proof (Rmult_le_compat_l theta _ _ Ht AJ). lra. }
        destruct (flt fp e2 v2) eqn:EL.
        -- apply (e_lt fp X) in EL. split; [lra|]. intros q Hq. destruct (Nat.eq_dec q j) as [->|]; [exact OK2|].
           apply (MONO i q e2); [lra|]. apply H2. lia.
        -- assert (~ e2 < v2) by (intros Q; apply (e_lt fp X) in Q; congruence). split; [lra|]. intros q Hq.
           destruct (Nat.eq_dec q j) as [->|]; [apply (MONO i j v2); [lra|exact OK2]|]. apply H2. lia.
      * cbn [bind]. eexists. split; [reflexivity|]. split; [exact H1|]. intros q Hq. destruct (Nat.eq_dec q j) as [->|]; [|apply H2; lia].
        assert (NV : ~ 0 < v) by (intros Q; rewrite <- (e_zero fp X) in Q; apply (e_lt fp X) in Q; congruence).
        unfold ok, v in *. pose proof (Rmult_le_compat_l theta _ _ Ht AJ). assert (0 <= e2 * Rabs (r M i i)) by (apply Rmult_le_pos; lra). lra.
    + exists e1. split; [exact E1|]. split; [lra|]. intros p q Hp Hq. destruct (Nat.eq_dec p i) as [->|].
      * apply P1b. replace (i + 1 + (d - (i + 1)))%nat with d by lia. lia.
      * apply (MONO p q e); [lra|]. apply EP; lia.
  - exists e. split; [exact E|]. destruct P as (P0 & P1). split; [exact P0|]. intros i j Hij. apply P1; lia.
Qed.

Lemma isr_report_exact theta : 0 <= theta ->
  exists rep, isr_report fp c (isr_eta fp c) theta B M = Ok rep /\
    best_delta d (fun i j => r M i j) (rp_delta rep) /\
    rp_norm rep = sqrt (IZR (norm2 n (fun i => fn B i 0%nat))) /\
    0 <= rp_vol rep /\ rp_vol rep * rp_vol rep = IZR (detZ d (gramZ n (fn B))) /\
    0 <= rp_eta rep /\ weakly_size_reduced d (rp_eta rep) theta (fun i j => r M i j) /\
    rp_alpha rep = (rp_eta rep * theta + sqrt ((theta * theta + 1) * rp_delta rep - rp_eta rep * rp_eta rep)) /
                   (rp_delta rep - rp_eta rep * rp_eta rep).
Proof.
  intros Ht. destruct isr_delta_exact as (dl & E1 & P1). destruct isr_vol_exact as (v & E2 & P2 & P3).
  destruct (isr_eta_exact theta Ht) as (e & E3 & P4 & P5).
  unfold isr_report. rewrite E1. cbn [bind]. rewrite E2. cbn [bind]. rewrite E3. cbn [bind].
  eexists. split; [reflexivity|]. cbn [rp_delta rp_norm rp_vol rp_eta rp_alpha].
  split; [exact P1|]. split; [apply isr_norm_exact|]. split; [exact P2|]. split; [exact P3|]. split; [exact P4|]. split; [exact P5|].
  unfold isr_alpha. rewrite ?(e_div fp X), ?(e_sqrt fp X), ?(e_sub fp X), ?(e_add fp X), ?(e_mul fp X), ?(e_one fp X). reflexivity.
Qed.

End Rep.
