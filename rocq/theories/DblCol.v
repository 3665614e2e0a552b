(** * Backward error of the triangular factor over IEEE doubles, from the equations hlll leaves between its matrices *)
From Coq Require Import ZArith Lia Floats Reals Lra Psatz Arith List Bool.
From Flocq Require Import Core BinarySingleNaN PrimFloat.
From Verif Require Import Base FP Double DblReal SpecReal SpecBack Fresh Cache Exact HHMath LcondFacts BackErr BackCol DblErr DblHV.
Import ListNotations.
Local Open Scope R_scope.

Lemma sumR_one n f k : (forall i, (i < n)%nat -> 0 <= f i) -> (k < n)%nat -> f k <= sumR n f.
Proof.
  induction n as [|n IH]; intros H Hk; [lia|]. cbn [sumR]. pose proof (H n ltac:(lia)).
  destruct (Nat.eq_dec k n) as [->|N].
  - assert (0 <= sumR n f) by (apply sumR_nonneg; intros; apply H; lia). lra.
  - specialize (IH ltac:(intros; apply H; lia) ltac:(lia)). lra.
Qed.

Lemma abs_from_sq x e : x * x <= bpow radix2 (e + e) -> Rabs x <= bpow radix2 e.
Proof.
  intros H. rewrite bpow_plus in H. pose proof (bpow_gt_0 radix2 e). apply Rabs_le. nra.
Qed.

Section Col.
Variables (n d : nat) (B : nat -> nat -> Z) (Sj : nat -> nat) (V r : nat -> nat -> df).
Let b (j i : nat) : df := fset_z dbl (B i j).
Let x (j : nat) : nat -> df := wch dbl V (Sj j) (b j) j.
Hypothesis S_gt : forall j, (j < d)%nat -> (j < Sj j)%nat.
Hypothesis S_le : forall j, (j < d)%nat -> (Sj j <= n)%nat.
Hypothesis S_mono : forall j l, (j <= l < d)%nat -> (Sj j <= Sj l)%nat.
Hypothesis B_zero : forall j i, (j < d)%nat -> (Sj j <= i < n)%nat -> B i j = 0%Z.
Hypothesis R_up : forall i j, (i < j < d)%nat -> r i j = x j i.
Hypothesis R_diag : forall j, (j < d)%nat -> r j j = hv_diag dbl (x j) j (Sj j).
Hypothesis V_col : forall j i, (j < d)%nat -> (j <= i < Sj j)%nat -> V i j = hv_vec dbl (x j) j (Sj j) i.
Hypothesis V_zero : forall j i, (j < d)%nat -> (Sj j <= i < n)%nat -> V i j = fzero dbl.
Hypothesis R_nt : forall j, (j < d)%nat -> bpow radix2 (-400) <= Rabs (dval (r j j)).
Hypothesis HN : (Z.of_nat n <= 2 ^ 53)%Z.
Hypothesis AC : acc du (5 * n + 19) <= 1.
Hypothesis GH : forall j, (j < d)%nat -> gam du n j <= / 2.
Hypothesis B_le : forall i j, (i < n)%nat -> (j < d)%nat -> Rabs (IZR (B i j)) <= bpow radix2 400.
Hypothesis B_nz : forall j, (j < d)%nat -> exists i, (i < n)%nat /\ B i j <> 0%Z.

Notation Wd := (W dbl dval n B Sj V).
Notation bz j := (fun i => IZR (B i j)).
Notation gm := (gamK du n).

Lemma R_nz j : (j < d)%nat -> dval (r j j) <> 0.
Proof. intros Hj C. pose proof (R_nt j Hj) as H. rewrite C, Rabs_R0 in H. pose proof (bpow_gt_0 radix2 (-400)). lra. Qed.

Lemma bz_lo j : (j < d)%nat -> 1 <= sq n (bz j).
Proof.
  intros Hj. destruct (B_nz j Hj) as (i & Hi & NZ). eapply Rle_trans; [|apply (sumR_one n (fun i => IZR (B i j) * IZR (B i j)) i); auto].
  - rewrite <- mult_IZR. apply IZR_le. nia.
  - intros; nra.
Qed.
Lemma bz_up j : (j < d)%nat -> sq n (bz j) <= bpow radix2 853.
Proof.
  intros Hj. eapply Rle_trans; [apply (sumR_le n _ (fun _ => bpow radix2 800))|].
  - intros i Hi. change 800%Z with (400 + 400)%Z. rewrite bpow_plus. pose proof (B_le i j Hi Hj) as H.
    replace (IZR (B i j) * IZR (B i j)) with (Rabs (IZR (B i j)) * Rabs (IZR (B i j))) by (rewrite <- Rabs_mult; apply Rabs_pos_eq; nra).
    apply Rmult_le_compat; auto using Rabs_pos.
  - rewrite sum_const. apply (mult_le n 800). exact HN.
Qed.

Lemma gm_half K j : (K <= S j)%nat -> (j < d)%nat -> 0 <= gm K <= / 2.
Proof.
  intros HK Hj. split; [apply gamK_pos, U0|]. eapply Rle_trans; [|apply (GH j Hj)].
  change (gam du n j) with (gm (S j)). induction HK; [lra|]. eapply Rle_trans; [exact IHHK|]. rewrite gamK_S.
  pose proof (gamK_pos du U0 n m). pose proof (eta_pos du U0 n). nra.
Qed.

Lemma set_d j i : (i < n)%nat -> (j < d)%nat -> dfin (b j i) /\ rnd1 du (IZR (B i j)) (dval (b j i)).
Proof.
  intros Hi Hj. unfold b. change (fset_z dbl ?z) with (d_ofZ z). destruct (dval_ofZ (B i j)) as [F1 E1].
  { eapply Rle_trans; [apply B_le; assumption|]. apply bpow_le. lia. }
  split; [exact F1|]. rewrite E1. destruct (Z.eq_dec (B i j) 0) as [Z|Z].
  - rewrite Z, round_0 by typeclasses eauto. exists 0. rewrite Rabs_R0. split; [pose proof du_pos; lra|ring].
  - apply rnd_normal. apply Rle_trans with (bpow radix2 0); [apply bpow_le; lia|]. change (bpow radix2 0) with 1.
    rewrite <- abs_IZR. apply IZR_le. lia.
Qed.

Lemma tail_d j K i : (j < d)%nat -> (Sj j <= i < n)%nat -> dfin (wch dbl V (Sj j) (b j) K i) /\ dval (wch dbl V (Sj j) (b j) K i) = 0.
Proof.
  intros Hj Hi. induction K as [|k IH]; cbn [wch].
  - destruct (set_d j i ltac:(lia) Hj) as (F1 & e & E & E1). split; [exact F1|]. rewrite E1, B_zero by assumption. ring.
  - replace (i <? Sj j)%nat with false by (symmetry; apply Nat.ltb_ge; lia). rewrite andb_false_r. exact IH.
Qed.

Definition good (k : nat) : Prop := forall i, (i < n)%nat -> dfin (x k i) /\ Rabs (dval (x k i)) <= bpow radix2 450.

Lemma exv_zero_d k i : (k < d)%nat -> (Sj k <= i < n)%nat -> ex_v n (fun i => dval (x k i)) k i = 0.
Proof.
  intros Hk Hi. unfold ex_v. pose proof (S_gt k Hk). replace (i =? k)%nat with false by (symmetry; apply Nat.eqb_neq; lia).
  unfold x at 1. destruct (tail_d k k i Hk Hi) as [_ ->]. unfold Rdiv. ring.
Qed.

Lemma hv_col_d k : (k < d)%nat -> good k ->
  nr (Sj k + 2) (- ex_sg n (fun i => dval (x k i)) k) (dval (r k k)) /\ 0 < ex_q n (fun i => dval (x k i)) k /\
  (forall i, (k <= i < Sj k)%nat -> dfin (V i k) /\
    exists t e, rg (2 * Sj k + 8) t /\ Rabs e <= deta /\ dval (V i k) = Wd i k * t + e).
Proof.
  intros Hk G. pose proof (S_gt k Hk). pose proof (S_le k Hk).
  destruct (hv_d n (x k) k (Sj k)) as (A1 & A2 & A3); auto.
  - intros i Hi. now apply tail_d.
  - intros i Hi. apply G. lia.
  - rewrite <- R_diag by assumption. now apply R_nt.
  - rewrite <- R_diag in A1 by assumption. split; [exact A1|]. split; [exact A2|].
    intros i Hi. unfold W. replace (i <? Sj k)%nat with true by (symmetry; apply Nat.ltb_lt; lia).
    rewrite V_col by auto. now apply A3.
Qed.

Lemma W_good_d k : (k < d)%nat -> good k -> unit2 n Wd k /\
  (forall i, (k < i < n)%nat -> refl n Wd k (fun i => dval (x k i)) i = 0) /\
  refl n Wd k (fun i => dval (x k i)) k = - ex_sg n (fun i => dval (x k i)) k /\
  ex_sg n (fun i => dval (x k i)) k ^ 2 = ex_q n (fun i => dval (x k i)) k.
Proof.
  intros Hk G. destruct (hv_col_d k Hk G) as (_ & Q & _).
  pose proof (S_gt k Hk). pose proof (S_le k Hk).
  destruct (hh_vector n Wd k (fun i => dval (x k i)) ltac:(lia) Q) as (H1 & H2 & H3 & H4).
  { intros i Hi. unfold W. destruct (Nat.ltb_spec i (Sj k)).
    - reflexivity.
    - symmetry. apply (exv_zero_d k i); [assumption|lia]. }
  split; [exact H1|]. split; [exact H2|]. split; [exact H3|]. cbn [pow]. rewrite Rmult_1_r. exact H4.
Qed.

(** lengths along the reflections *)
Lemma len_d j K E (y : nat -> R) : (j < d)%nat -> (K <= j)%nat -> (forall k, (k < K)%nat -> unit2 n Wd k) ->
  sq n E <= gm K ^ 2 * sq n (bz j) ->
  (forall i, (i < n)%nat -> y i = Hs n Wd K (fun i => IZR (B i j) + E i) i) ->
  / 16 <= sq n y /\ forall i, (i < n)%nat -> Rabs (y i) <= bpow radix2 450.
Proof.
  intros Hj HK U HE EQ. destruct (gm_half K j ltac:(lia) Hj) as [G0 G1]. pose proof (bz_lo j Hj) as L1. pose proof (bz_up j Hj) as U1.
  assert (SY : sq n y = sq n (fun i => IZR (B i j) + E i)).
  { rewrite (sq_ext n y (Hs n Wd K (fun i => IZR (B i j) + E i))) by exact EQ. apply (Hs_dot n Wd K). exact U. }
  split.
  - rewrite SY. destruct (Rle_lt_dec (/ 16) (sq n (fun i => IZR (B i j) + E i))) as [L|L]; auto. exfalso.
    assert (T : sq n (fun i => (IZR (B i j) + E i) + - E i) <= (/ 4 + / 2) ^ 2 * sq n (bz j)).
    { apply sq_triangle; try lra.
      rewrite (sq_ext n (fun i => - E i) (fun i => (-1) * E i)) by (intros; ring). rewrite sq_scale.
      assert (gm K ^ 2 <= (/ 2) ^ 2) by (apply pow_incr; lra).
      assert (gm K ^ 2 * sq n (bz j) <= (/ 2) ^ 2 * sq n (bz j)) by (apply Rmult_le_compat_r; lra). lra. }
    rewrite (sq_ext n (fun i => IZR (B i j) + E i + - E i) (bz j)) in T by (intros; ring). nra.
  - assert (T : sq n (fun i => IZR (B i j) + E i) <= (1 + / 2) ^ 2 * sq n (bz j)).
    { apply sq_triangle; try lra. eapply Rle_trans; [exact HE|]. apply Rmult_le_compat_r; [lra|]. apply pow_incr; lra. }
    rewrite <- SY in T. intros i Hi. apply abs_from_sq.
    eapply Rle_trans; [apply (sumR_one n (fun i => y i * y i) i); auto; intros; nra|]. fold (sq n y).
    apply Rle_trans with (bpow radix2 (853 + 1 + 1)); [rewrite !bpow_dbl; lra|apply bpow_le; lia].
Qed.

Lemma col_mid_d j K : (j < d)%nat -> (K <= j)%nat -> (forall k, (k < K)%nat -> good k) ->
  exists E, sq n E <= gm K ^ 2 * sq n (bz j) /\
    (forall i, (i < n)%nat -> dval (wch dbl V (Sj j) (b j) K i) = Hs n Wd K (fun i => IZR (B i j) + E i) i) /\
    forall i, (i < n)%nat -> dfin (wch dbl V (Sj j) (b j) K i).
Proof.
  intros Hj. induction K as [|K IH]; intros HK GD.
  - exists (fun i => dval (b j i) - IZR (B i j)). split; [|split].
    + apply Rle_trans with (sq n (fun i => gm 0 * IZR (B i j))); [|rewrite sq_scale; lra].
      apply sq_le. intros i Hi. destruct (set_d j i Hi Hj) as (_ & e & E & ->).
      replace (IZR (B i j) * (1 + e) - IZR (B i j)) with (e * IZR (B i j)) by ring. rewrite !Rabs_mult.
      apply Rmult_le_compat_r; [apply Rabs_pos|]. rewrite (Rabs_pos_eq (gm 0)) by apply (gamK_pos du U0).
      eapply Rle_trans; [exact E|]. eapply Rle_trans; [apply acc_1; exact U0|]. unfold gamK, acc. cbn [pow]. rewrite !Rmult_1_r. lra.
    + intros i Hi. cbn [wch Hs]. ring.
    + intros i Hi. cbn [wch]. now apply set_d.
  - destruct IH as (E & HE & EQ & FI); [lia|intros; apply GD; lia|].
    pose proof (S_gt K ltac:(lia)) as SK. pose proof (S_mono K j ltac:(lia)) as SM. pose proof (S_le j Hj) as SL.
    assert (UK : forall k, (k < K)%nat -> unit2 n Wd k) by (intros k Hk; apply W_good_d; [lia|apply GD; lia]).
    destruct (len_d j K E _ Hj ltac:(lia) UK HE EQ) as [LX BX].
    destruct (W_good_d K ltac:(lia) (GD K ltac:(lia))) as (WU & _). destruct (hv_col_d K ltac:(lia) (GD K ltac:(lia))) as (_ & _ & NV).
    pose proof (apply_d n K (Sj j) (vk Wd K) (fun i => V i K) (wch dbl V (Sj j) (b j) K) (2 * n + 8)) as AE. cbv zeta in AE.
    destruct AE as [AF AE]; try lia; auto.
    * intros i Hi. unfold vk. now replace (K <=? i)%nat with false by (symmetry; apply Nat.leb_gt; lia).
    * intros i Hi. split; [|now apply tail_d]. unfold vk. replace (K <=? i)%nat with true by (symmetry; apply Nat.leb_le; lia).
      unfold W. now replace (i <? Sj K)%nat with false by (symmetry; apply Nat.ltb_ge; lia).
    * intros i Hi. unfold vk. replace (K <=? i)%nat with true by (symmetry; apply Nat.leb_le; lia).
      destruct (Nat.lt_ge_cases i (Sj K)).
      -- destruct (NV i ltac:(lia)) as (A1 & t & e & A2 & A3 & A4). split; [exact A1|]. exists t, e. split; [|auto].
         apply (rng_mono du U0 (2 * Sj K + 8)); [pose proof (S_le K ltac:(lia)); lia|exact A2].
      -- unfold W. replace (i <? Sj K)%nat with false by (symmetry; apply Nat.ltb_ge; lia).
         rewrite V_zero by lia. destruct dval_zero as [Z1 Z2]. split; [exact Z1|]. exists 1, 0. rewrite Rabs_R0.
         split; [apply rng_one, U0|]. split; [left; apply deta_pos|]. change (fzero dbl) with 0%float. rewrite Z2. ring.
    * intros i Hi. split; [apply FI; lia|apply BX; lia].
    * destruct (push du U0 dbl dval n d B Sj V r S_gt S_le S_mono B_zero R_up R_diag V_col V_zero R_nz j K E
         (fun i => dval (wch dbl V (Sj j) (b j) (S K) i))
         (fun i => dval (wch dbl V (Sj j) (b j) (S K) i) - refl n Wd K (Hs n Wd K (fun i => IZR (B i j) + E i)) i)) as (E' & P1 & P2); auto; [lia| | | |].
      -- intros k Hk. apply W_good_d; [lia|apply GD; lia].
      -- intros i Hi. ring.
      -- rewrite (sq_ext n (Hs n Wd K (fun i => IZR (B i j) + E i)) (fun i => dval (wch dbl V (Sj j) (b j) K i))) by (intros; now rewrite EQ).
         eapply Rle_trans; [|apply AE]. apply Req_le. apply sq_ext. intros i Hi. cbn [wch]. f_equal. unfold refl.
         rewrite EQ by assumption. f_equal. f_equal. apply dot_ext; auto. intros; now rewrite EQ.
      -- exists E'. split; [exact P1|]. split; [exact P2|]. intros i Hi. cbn [wch].
         destruct ((K <=? i)%nat && (i <? Sj j)%nat) eqn:C; [|now apply FI].
         apply andb_true_iff in C as [C1 C2]. apply Nat.leb_le in C1. apply Nat.ltb_lt in C2.
         specialize (AF i ltac:(lia)). replace (K <=? i)%nat with true in AF by (symmetry; apply Nat.leb_le; lia).
         replace (i <? Sj j)%nat with true in AF by (symmetry; apply Nat.ltb_lt; lia). exact AF.
Qed.

Lemma all_good k : (k < d)%nat -> good k.
Proof.
  induction k as [k IH] using lt_wf_ind. intros Hk.
  destruct (col_mid_d k k Hk (le_n k) ltac:(intros; apply IH; lia)) as (E & HE & EQ & FI).
  destruct (len_d k k E _ Hk (le_n k) ltac:(intros; apply W_good_d; [lia|apply IH; lia]) HE EQ) as [_ BX].
  intros i Hi. split; [now apply FI|now apply BX].
Qed.

(** the whole column *)
Lemma col_final_d j : (j < d)%nat ->
  exists E, sq n E <= gam du n j ^ 2 * sq n (bz j) /\
    forall i, (i < n)%nat -> Hs n Wd (S j) (fun i => IZR (B i j) + E i) i = if (i <=? j)%nat then dval (r i j) else 0.
Proof.
  intros Hj. destruct (col_mid_d j j Hj ltac:(lia) ltac:(intros; apply all_good; lia)) as (E & HE & EQ & _).
  pose proof (S_gt j Hj) as SK. pose proof (S_le j Hj) as SL.
  destruct (W_good_d j Hj (all_good j Hj)) as (WU & WZ & WD & WQ). destruct (hv_col_d j Hj (all_good j Hj)) as (ND & Q & _).
  set (y := fun i => if (i <=? j)%nat then dval (r i j) else 0).
  assert (RE : forall i, (i < n)%nat -> refl n Wd j (Hs n Wd j (fun i => IZR (B i j) + E i)) i = refl n Wd j (fun i => dval (x j i)) i).
  { intros i Hi. apply refl_ext; auto. intros l Hl. symmetry. now apply EQ. }
  destruct (push du U0 dbl dval n d B Sj V r S_gt S_le S_mono B_zero R_up R_diag V_col V_zero R_nz j j E y
    (fun i => if (i =? j)%nat then dval (r j j) + ex_sg n (fun i => dval (x j i)) j else 0)) as (E' & P1 & P2); auto.
  - intros k Hk. apply W_good_d; [lia|apply all_good; lia].
  - intros i Hi. unfold y. rewrite RE by assumption. destruct (Nat.eqb_spec i j) as [->|N].
    + rewrite Nat.leb_refl, WD. ring.
    + destruct (Nat.leb_spec i j).
      * rewrite refl_below by lia. rewrite R_up by lia. ring.
      * rewrite WZ by lia. ring.
  - assert (SS : sq n (fun i => if (i =? j)%nat then dval (r j j) + ex_sg n (fun i => dval (x j i)) j else 0) =
              (dval (r j j) - - ex_sg n (fun i => dval (x j i)) j) ^ 2).
    { unfold sq. rewrite (sumR_single n j).
      - rewrite Nat.eqb_refl. ring.
      - lia.
      - intros i Hi N. apply Nat.eqb_neq in N. rewrite N. ring. }
    rewrite SS. rewrite (sq_ext n (Hs n Wd j (fun i => IZR (B i j) + E i)) (fun i => dval (x j i))).
    2:{ intros i Hi. symmetry. now apply EQ. }
    apply near_err in ND; [|exact U0].
    rewrite Rabs_Ropp in ND. set (D := dval (r j j) - - ex_sg n (fun i => dval (x j i)) j) in *.
    set (sg := ex_sg n (fun i => dval (x j i)) j) in *.
    assert (QS : sg ^ 2 <= sq n (fun i => dval (x j i))).
    { rewrite WQ. apply sumR_le. intros i Hi. destruct (j <=? i)%nat; [lra|apply Rle_0_sqr]. }
    assert (DA : Rabs D <= eta du n * Rabs sg).
    { eapply Rle_trans; [exact ND|]. apply Rmult_le_compat_r; [apply Rabs_pos|]. unfold eta.
      pose proof (acc_mono du U0 (Sj j + 2) (5 * n + 19) ltac:(lia)). pose proof (acc_pos du U0 (5 * n + 19)). lra. }
    rewrite <- (pow2_abs D).
    apply Rle_trans with ((eta du n * Rabs sg) ^ 2); [apply pow_incr; split; [apply Rabs_pos|exact DA]|].
    rewrite Rpow_mult_distr. apply Rmult_le_compat_l; [apply pow2_ge_0|].
    rewrite (pow2_abs sg). exact QS.
  - exists E'. split; [exact P1|]. intros i Hi. symmetry. now apply P2.
Qed.

Theorem backward_d : (d <= n)%nat -> exists E : nat -> nat -> R,
  (forall j, (j < d)%nat -> sq n (fun i => E i j) <= gam du n j ^ 2 * sq n (bz j)) /\
  R_factor_of n d (fun i j => IZR (B i j) + E i j) (fun i j => if (i <=? j)%nat then dval (r i j) else 0).
Proof.
  intros ND.
  assert (G : forall m, (m <= d)%nat -> exists E : nat -> nat -> R, forall j, (j < m)%nat ->
     sq n (fun i => E i j) <= gam du n j ^ 2 * sq n (bz j) /\
     forall i, (i < n)%nat -> Hs n Wd (S j) (fun i => IZR (B i j) + E i j) i = if (i <=? j)%nat then dval (r i j) else 0).
  { induction m as [|m IH]; intros Hm.
    - exists (fun _ _ => 0). intros; lia.
    - destruct IH as (E & HE); [lia|]. destruct (col_final_d m ltac:(lia)) as (e & H1 & H2).
      exists (fun i j => if (j =? m)%nat then e i else E i j). intros j Hj. destruct (Nat.eqb_spec j m) as [->|N]; [auto|].
      apply HE. lia. }
  destruct (G d ltac:(lia)) as (E & HE). exists E. split; [intros j Hj; now apply HE|]. split.
  - intros i j Hij. now replace (i <=? j)%nat with false by (symmetry; apply Nat.leb_gt; lia).
  - intros j l Hj Hl.
    assert (HH : forall j, (j < d)%nat -> forall i, (i < n)%nat -> Hs n Wd d (fun i => IZR (B i j) + E i j) i = if (i <=? j)%nat then dval (r i j) else 0).
    { intros q Hq i Hi. destruct (HE q Hq) as [_ H]. rewrite (Hs_stable n Wd q d); [now apply H|lia|].
      intros z Hz. rewrite H by lia. now replace (z <=? q)%nat with false by (symmetry; apply Nat.leb_gt; lia). }
    change (sumR n (fun i => (IZR (B i j) + E i j) * (IZR (B i l) + E i l))) with (dot n (fun i => IZR (B i j) + E i j) (fun i => IZR (B i l) + E i l)).
    rewrite <- (Hs_dot n Wd d) by (intros; apply W_good_d; [lia|apply all_good; lia]).
    unfold dot. rewrite (sumR_cut n d) by
      (auto; intros i Hi; rewrite (HH j) by lia; replace (i <=? j)%nat with false by (symmetry; apply Nat.leb_gt; lia); ring).
    apply sumR_ext. intros i Hi. now rewrite !HH by lia.
Qed.
End Col.
