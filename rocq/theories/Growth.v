(** * Size of the vectors during hlll in exact arithmetic *)
From Coq Require Import ZArith Lia Reals Lra List Bool Arith.
From Verif Require Import Base Spec Mat FP Hlll IntSteps HlllInt Structure Object Safety SpecReal Det Fresh Cache Cache2 Cache4 Cache5
  Exact HHMath ExactLoop ExactLoop2 ExactPot ExactTop LcondFacts.
Import ListNotations.
Local Open Scope R_scope.

Lemma geo94 m : sumR m (fun i => (9/4) ^ (m - 1 - i)) = 4/5 * ((9/4) ^ m - 1).
Proof.
  induction m as [|m IH]; [cbn; lra|]. cbn [sumR]. replace (S m - 1 - m)%nat with 0%nat by lia.
  rewrite (sumR_ext m _ (fun i => 9/4 * (9/4) ^ (m - 1 - i))).
  - rewrite sumR_mul_l, IH. cbn [pow]. lra.
  - intros i Hi. replace (S m - 1 - i)%nat with (S (m - 1 - i)) by lia. reflexivity.
Qed.

Lemma pow_sq (x : R) k : x ^ k * x ^ k = (x * x) ^ k.
Proof. now rewrite Rpow_mult_distr. Qed.

Lemma sumR_const k (x : R) : sumR k (fun _ => x) = INR k * x.
Proof. induction k as [|k IH]; [cbn; lra|]. cbn [sumR]. rewrite IH, S_INR. lra. Qed.

Section Growth.
Variable fp : fpops R.
Hypothesis X : exact fp.
Variable c : cfg.
Notation n := (cn c).
Notation d := (cd c).
Notation fz := (fzero fp).
Notation Sj s j := (nth j (iS s) 0%nat).
Notation b s j := (bval fp s j).
Notation V g := (Vf fp g).
Notation r g i j := (mget fz (fR g) i j).
Notation sgood := (sgood c).
Notation EI := (EI fp c).
Notation cur := (cur fp c).
Notation tail := (tail fp c).
Notation Red := (Red fp (sizered_col fp)).
Variable M : R.

(** every diagonal entry of every R factor is at most the square root of M *)
Definition diagM (B : zmat) : Prop := forall rr, R_factor n d B rr -> forall j, (j < d)%nat -> rr j j * rr j j <= M.

Lemma diagM_of B rr : R_factor n d B rr -> (forall j, (j < d)%nat -> rr j j * rr j j <= M) -> diagM B.
Proof.
  intros F H r' F' j Hj. destruct (R_factor_unique n d B rr r' F F' j Hj) as (s & Hs & E). rewrite E by assumption.
  specialize (H j Hj). destruct Hs as [-> | ->]; lra.
Qed.

Lemma diag_red s s' : sgood s -> independent n d (fn (iB s)) -> redto c s s' -> diagM (fn (iB s)) -> diagM (fn (iB s')).
Proof.
  intros G I H D0. induction H as [|s1 k i a H1 IH Hi Hk]; [assumption|].
  destruct (redto_good c s s1 G H1) as [G1 I1]. specialize (I1 I).
  destruct (rf_exists fp X c s1 G1 I1) as (rr & RF).
  destruct (rf_red n d (fn (iB s1)) (fn (colop 0%Z (redf a) 0 (Sj s1 i) (iB s1) k i)) rr k i a Hi Hk) as (r' & RF' & E); auto.
  - intros l j Hl Hj. unfold fn. rewrite (mget_colop 0%Z _ n d) by (try apply (g_bok c s1 G1); auto). cbn [Nat.leb andb Nat.add].
    destruct (Nat.eqb_spec j k) as [->|]; cbn [andb]; [|ring]. destruct (Nat.ltb_spec l (Sj s1 i)).
    + unfold redf. ring.
    + pose proof (b_zero c s1 (g_bok c s1 G1) i ltac:(lia) l ltac:(lia)) as Z. unfold fn in Z. rewrite Z. ring.
  - cbn [iB]. apply (diagM_of _ r' RF'). intros j Hj. rewrite E by assumption. now apply (IH rr).
Qed.

(** the data of the run, completed to an R factor *)
Lemma complete kappa s g : EI kappa s g -> cur s g kappa -> (kappa < d)%nat ->
  exists rr, R_factor n d (fn (iB s)) rr /\
    (forall i j, (i <= j < kappa)%nat -> rr i j = r g i j) /\
    (forall i, (i < kappa)%nat -> rr i kappa = r g i kappa) /\
    rr kappa kappa * rr kappa kappa = tail s g kappa.
Proof.
  intros E C Hk. pose proof (EI_ND fp c _ _ _ E Hk) as ND.
  pose proof (ei_s _ _ _ _ _ E) as G. pose proof (g_gt c s G kappa Hk) as GT.
  destruct (hr_cur fp X c kappa s g E Hk) as (E2 & C2 & M2 & _ & V2 & R2).
  destruct (hv_exact fp X c kappa s _ E2 Hk C2 M2) as (g3 & _ & E3 & R3 & T3 & _).
  destruct (extend fp X c (d - S kappa) (S kappa) s g3 E3 ltac:(lia)) as (g4 & E4 & R4).
  replace (S kappa + (d - S kappa))%nat with d in E4 by lia.
  pose proof (EI_R_factor fp X c s g4 E4 ND) as RF. set (rr := fun i j => if (i <=? j)%nat then r g4 i j else 0) in RF.
  exists rr. split; [exact RF|]. split; [|split].
  - intros i j Hij. unfold rr. replace (i <=? j)%nat with true by (symmetry; apply Nat.leb_le; lia).
    rewrite R4, R3, R2 by lia. reflexivity.
  - intros i Hi. unfold rr. replace (i <=? kappa)%nat with true by (symmetry; apply Nat.leb_le; lia). rewrite R4, R3 by lia.
    pose proof (C i ltac:(lia)) as A1. pose proof (C2 i ltac:(lia)) as A2. rewrite V2, A1 in A2.
    replace (i <? Sj s kappa)%nat with true in A2 by (symmetry; apply Nat.ltb_lt; lia). symmetry. exact A2.
  - unfold rr. rewrite Nat.leb_refl, R4 by lia. rewrite T3. unfold ExactLoop2.tail. now rewrite V2.
Qed.

Lemma diag_swap kappa s g : EI kappa s g -> cur s g kappa -> (1 <= kappa)%nat -> (kappa < d)%nat ->
  tail s g kappa + r g (kappa - 1) kappa * r g (kappa - 1) kappa < r g (kappa - 1) (kappa - 1) * r g (kappa - 1) (kappa - 1) ->
  diagM (fn (iB s)) -> diagM (fn (iB (swap_i c s kappa))).
Proof.
  intros E C H1 Hk L D0. pose proof (ei_s _ _ _ _ _ E) as G.
  destruct (complete kappa s g E C Hk) as (rr & RF & Q1 & Q2 & Q3).
  destruct (rf_swap n d (fn (iB s)) (fn (iB (swap_i c s kappa))) rr kappa H1 Hk) as (r' & RF' & A1 & A2 & A3); auto.
  { intros l j Hl Hj. unfold fn, mget. rewrite swap_B by auto. reflexivity. }
  apply (diagM_of _ r' RF'). intros j Hj.
  pose proof (D0 rr RF (kappa - 1)%nat ltac:(lia)) as B1. pose proof (D0 rr RF j Hj) as B2.
  rewrite <- Q3, <- (Q2 (kappa - 1)%nat), <- (Q1 (kappa - 1)%nat (kappa - 1)%nat) in L by lia.
  destruct (Nat.eq_dec j (kappa - 1)) as [->|N1]; [rewrite A2; lra|].
  destruct (Nat.eq_dec j kappa) as [->|N2]; [|now rewrite A1].
  set (p := rr (kappa - 1)%nat kappa) in *. set (q := rr kappa kappa) in *. set (a := rr (kappa - 1)%nat (kappa - 1)%nat) in *.
  set (u := r' (kappa - 1)%nat (kappa - 1)%nat) in *. set (v := r' kappa kappa) in *.
  assert (Q : q <> 0) by (apply RF; lia). assert (0 < q * q) by (apply Rsqr_pos_lt; assumption).
  pose proof (Rle_0_sqr p) as P0. unfold Rsqr in P0. pose proof (Rle_0_sqr a) as P1. unfold Rsqr in P1.
  assert (U : 0 < u * u) by lra. apply Rle_trans with (a * a); [|exact B1].
  apply Rmult_le_reg_l with (u * u); [exact U|]. rewrite A3, Rmult_comm. apply Rmult_le_compat_r; lra.
Qed.

Lemma EI_diag kappa s g : EI kappa s g -> cur s g kappa -> (kappa < d)%nat -> diagM (fn (iB s)) ->
  (forall i, (i < kappa)%nat -> r g i i * r g i i <= M) /\ tail s g kappa <= M.
Proof.
  intros E C Hk D0. destruct (complete kappa s g E C Hk) as (rr & RF & Q1 & Q2 & Q3). split.
  - intros i Hi. rewrite <- Q1 by lia. apply (D0 rr RF). lia.
  - rewrite <- Q3. now apply (D0 rr RF).
Qed.

Lemma col_norm kappa s g : EI kappa s g -> cur s g kappa -> (kappa < d)%nat ->
  dot n (b s kappa) (b s kappa) = sumR kappa (fun i => r g i kappa * r g i kappa) + tail s g kappa.
Proof.
  intros E C Hk. pose proof (EI_ND fp c _ _ _ E Hk) as ND. pose proof (g_gt c s (ei_s _ _ _ _ _ E) kappa Hk) as GT.
  rewrite <- (Hs_dot n (V g) kappa) by (intros k Hkk; apply (ei_v _ _ _ _ _ E k Hkk)).
  unfold ExactLoop2.tail, dot. set (w := Hs n (V g) kappa (b s kappa)).
  rewrite (sumR_ext n (fun i => w i * w i) (fun i => (if (i <? kappa)%nat then w i * w i else 0) + (if (kappa <=? i)%nat then w i * w i else 0))).
  2:{ intros i Hi. destruct (Nat.ltb_spec i kappa), (Nat.leb_spec kappa i); try lia; ring. }
  rewrite sumR_plus. f_equal. rewrite (sumR_cut n kappa); [|lia|].
  - apply sumR_ext. intros i Hi. replace (i <? kappa)%nat with true by (symmetry; now apply Nat.ltb_lt).
    unfold w. rewrite (C i) by lia. now replace (i <? Sj s kappa)%nat with true by (symmetry; apply Nat.ltb_lt; lia).
  - intros i Hi. now replace (i <? kappa)%nat with false by (symmetry; apply Nat.ltb_ge; lia).
Qed.

Definition N2 : R := (INR d + 3) / 4 * M.

(** a reduced column is short *)
Lemma red_norm kappa s g : EI kappa s g -> cur s g kappa -> (kappa < d)%nat -> diagM (fn (iB s)) -> redd fp g 0 kappa ->
  dot n (b s kappa) (b s kappa) <= N2.
Proof.
  intros E C Hk D0 Rd. destruct (EI_diag kappa s g E C Hk D0) as [A T]. rewrite (col_norm kappa s g E C Hk).
  assert (S1 : sumR kappa (fun i => r g i kappa * r g i kappa) <= INR kappa * (M / 4)).
  { rewrite <- sumR_const. apply sumR_le. intros i Hi. specialize (Rd i ltac:(lia)). specialize (A i Hi). cbn beta in Rd.
    rewrite <- (Rabs_right (r g i kappa * r g i kappa)) by (pose proof (Rle_0_sqr (r g i kappa)); unfold Rsqr in *; lra).
    rewrite Rabs_mult. apply Rle_trans with (Rabs (r g i i) / 2 * (Rabs (r g i i) / 2)).
    - apply Rmult_le_compat; auto using Rabs_pos.
    - replace (Rabs (r g i i) / 2 * (Rabs (r g i i) / 2)) with (Rabs (r g i i * r g i i) / 4) by (rewrite Rabs_mult; field).
      rewrite Rabs_right by (pose proof (Rle_0_sqr (r g i i)); unfold Rsqr in *; lra). lra. }
  assert (M0 : 0 <= M).
  { destruct kappa as [|k]; [|specialize (A 0%nat ltac:(lia)); pose proof (Rle_0_sqr (r g 0 0)); unfold Rsqr in *; lra].
    pose proof (tail_pos fp X c 0 s g E Hk). unfold ExactLoop2.tail in T. lra. }
  assert (KD : INR kappa + 1 <= INR d) by (rewrite <- S_INR; apply le_INR; lia).
  assert (INR kappa * (M / 4) <= (INR d - 1) * (M / 4)) by (apply Rmult_le_compat_r; lra).
  unfold N2. lra.
Qed.

(** the diagonal cannot drop fast *)
Variable delta : R.
Hypothesis D7 : 7/10 <= delta.

Lemma drop kappa g : Red delta kappa g -> forall k i, (k + i < kappa)%nat -> Rabs (r g i i) <= (3/2) ^ k * Rabs (r g (k + i) (k + i)).
Proof.
  intros [A B]. induction k as [|k IH]; intros i Hi; cbn [pow Nat.add].
  - rewrite Rmult_1_l. apply Rle_refl.
  - apply Rle_trans with ((3/2) ^ k * Rabs (r g (k + i) (k + i))); [apply IH; lia|].
    rewrite (Rmult_comm (3/2)), Rmult_assoc. apply Rmult_le_compat_l; [apply pow_le; lra|].
    assert (Hk : (S (k + i) < kappa)%nat) by lia. specialize (B (k + i)%nat Hk).
    specialize (A (S (k + i)) Hk). unfold sizered_col, redd in A. specialize (A (k + i)%nat ltac:(lia)). cbn beta in A.
    set (u := r g (k + i) (k + i)) in *. set (v := r g (S (k + i)) (S (k + i))) in *. set (w := r g (k + i) (S (k + i))) in *.
    apply Rsqr_incr_0_var; [|pose proof (Rabs_pos v); lra]. unfold Rsqr.
    assert (W : w * w <= u * u / 4).
    { rewrite <- (Rabs_right (w * w)) by (pose proof (Rle_0_sqr w); unfold Rsqr in *; lra). rewrite Rabs_mult.
      apply Rle_trans with (Rabs u / 2 * (Rabs u / 2)); [apply Rmult_le_compat; auto using Rabs_pos|].
      replace (Rabs u / 2 * (Rabs u / 2)) with (Rabs (u * u) / 4) by (rewrite Rabs_mult; field).
      rewrite Rabs_right by (pose proof (Rle_0_sqr u); unfold Rsqr in *; lra). lra. }
    rewrite <- Rabs_mult. replace (3 / 2 * Rabs v * (3 / 2 * Rabs v)) with (9/4 * (Rabs v * Rabs v)) by field. rewrite <- Rabs_mult.
    rewrite !Rabs_right by (try (pose proof (Rle_0_sqr u)); try (pose proof (Rle_0_sqr v)); unfold Rsqr in *; lra).
    pose proof (Rle_0_sqr u) as U0. unfold Rsqr in U0.
    assert (7/10 * (u * u) <= delta * (u * u)) by (apply Rmult_le_compat_r; lra). lra.
Qed.

(** *** inside one pass *)
Variable N : R.
Hypothesis NN : N * N = N2.
Hypothesis N0 : 0 <= N.
Hypothesis M0 : 0 <= M.

Lemma N2_M : (1 <= d)%nat -> M <= N2.
Proof.
  intros Hd. unfold N2. assert (1 <= INR d) by (apply (le_INR 1); assumption).
  assert (4 / 4 * M <= (INR d + 3) / 4 * M) by (apply Rmult_le_compat_r; lra). lra.
Qed.

Definition stage (kappa m : nat) (g : fst_ R) : Prop :=
  forall j, (j < m)%nat -> Rabs (r g j kappa) <= N * ((3/2) ^ (m - 1 - j) * (5/2) ^ (kappa - m)).

Lemma stage_init kappa s g : EI kappa s g -> cur s g kappa -> (kappa < d)%nat ->
  dot n (b s kappa) (b s kappa) <= N2 -> stage kappa kappa g.
Proof.
  intros E C Hk HN j Hj. rewrite Nat.sub_diag. cbn [pow]. rewrite Rmult_1_r.
  rewrite (col_norm kappa s g E C Hk) in HN.
  pose proof (tail_pos fp X c kappa s g E Hk) as TP. fold (tail s g kappa) in TP.
  assert (R1 : Rabs (r g j kappa) <= N).
  { apply Rsqr_incr_0_var; [|exact N0]. unfold Rsqr. rewrite NN, <- Rabs_mult.
    rewrite Rabs_right by (pose proof (Rle_0_sqr (r g j kappa)); unfold Rsqr in *; lra).
    assert (r g j kappa * r g j kappa <= sumR kappa (fun i => r g i kappa * r g i kappa)); [|lra].
    apply Rle_trans with (sumR kappa (fun i => if (i =? j)%nat then r g i kappa * r g i kappa else 0)).
    - rewrite (sumR_single kappa j) by (auto; intros i Hi Ni; apply Nat.eqb_neq in Ni; now rewrite Ni). rewrite Nat.eqb_refl. lra.
    - apply sumR_le. intros i Hi. destruct (i =? j)%nat; [lra|]. pose proof (Rle_0_sqr (r g i kappa)). unfold Rsqr in *. lra. }
  assert (1 <= (3/2) ^ (kappa - 1 - j)) by (apply pow_R1_Rle; lra).
  apply Rle_trans with (N * 1); [lra|]. apply Rmult_le_compat_l; lra.
Qed.

Lemma step_R kappa m s g dn s' g' dn' : (m < kappa)%nat -> (kappa < d)%nat -> EI kappa s g ->
  size_update_step fp c kappa m (s, g, dn) = Ok (s', g', dn') ->
  exists k, Rabs (r g m kappa / r g m m - IZR k) <= / 2 /\
    (forall j, (j <= m)%nat -> r g' j kappa = r g j kappa - IZR k * r g j m).
Proof.
  intros Hm Hk E Run. pose proof (EI_ND fp c _ _ _ E Hk) as ND. pose proof (ei_w _ _ _ _ _ E) as W.
  unfold size_update_step in Run. rewrite !gR_ok in Run by lia. cbn [bind] in Run. rewrite (e_div fp X) in Run.
  destruct (e_rnd fp X (r g m kappa / r g m m)) as (k & Ek & Hkk). exists k.
  destruct (fnz fp _) eqn:NZk.
  - rewrite Ek in *. destruct (fgse fp (IZR k)) as [lx ex] eqn:GS. unfold guard in Run.
    destruct (_ <=? n)%nat; [|discriminate Run]. setf. injection Run as <- <- <-. split; [exact Hkk|].
    intros j Hj. setf. rewrite (mget_colop fz _ n d) by (try apply W; auto; lia). rewrite Nat.eqb_refl. cbn [Nat.leb andb Nat.add].
    replace (j <? m + 1)%nat with true by (symmetry; apply Nat.ltb_lt; lia).
    pose proof (rop_exact fp X k (r g j kappa) (r g j m)) as RO. rewrite GS in RO. exact RO.
  - injection Run as <- <- <-. split; [exact Hkk|]. intros j Hj. setf.
    assert (K0 : IZR k = 0).
    { destruct (Req_dec (IZR k) 0) as [Z|Z]; auto. exfalso. rewrite Ek in NZk.
      assert (fnz fp (IZR k) = true) by (now apply (e_nz fp X)). congruence. }
    rewrite K0. ring.
Qed.

Lemma stage_step kappa m s0 g0 s g dn s' g' dn' : (m < kappa)%nat -> (kappa < d)%nat ->
  pinv fp c kappa (S m) s0 g0 s g -> Red delta kappa g -> (forall i, (i < kappa)%nat -> r g i i * r g i i <= M) ->
  stage kappa (S m) g -> size_update_step fp c kappa m (s, g, dn) = Ok (s', g', dn') -> stage kappa m g'.
Proof.
  intros Hm Hk P Rd Dg St Run j Hj. pose proof (pi_e _ _ _ _ _ _ _ _ P) as E.
  destruct (step_R kappa m s g dn s' g' dn' Hm Hk E Run) as (k & HK & HR). rewrite HR by lia. clear HR Run.
  destruct (ei_c _ _ _ _ _ E m Hm) as [_ NZ].
  pose proof (St j ltac:(lia)) as Sj0. pose proof (St m ltac:(lia)) as Sm.
  replace (S m - 1 - j)%nat with (m - j)%nat in Sj0 by lia. replace (S m - 1 - m)%nat with 0%nat in Sm by lia. cbn [pow] in Sm.
  rewrite Rmult_1_l in Sm.
  set (q := (5/2) ^ (kappa - S m)) in *. set (p := (3/2) ^ (m - 1 - j)).
  assert (Eq : (5/2) ^ (kappa - m) = 5/2 * q) by (unfold q; replace (kappa - m)%nat with (S (kappa - S m)) by lia; reflexivity).
  assert (Ep : (3/2) ^ (m - j) = 3/2 * p) by (unfold p; replace (m - j)%nat with (S (m - 1 - j)) by lia; reflexivity).
  rewrite Eq, Ep in *. fold p.
  assert (q1 : 1 <= q) by (apply pow_R1_Rle; lra). assert (p1 : 1 <= p) by (apply pow_R1_Rle; lra).
  destruct Rd as [A B]. pose proof (drop kappa g (conj A B) (m - j) j ltac:(lia)) as DR.
  replace (m - j + j)%nat with m in DR by lia. rewrite Ep in DR.
  pose proof (A m Hm j ltac:(lia)) as RJ. cbn beta in RJ.
  assert (RN : Rabs (r g j j) <= N).
  { apply Rsqr_incr_0_var; [|exact N0]. unfold Rsqr. rewrite NN, <- Rabs_mult.
    rewrite Rabs_right by (pose proof (Rle_0_sqr (r g j j)); unfold Rsqr in *; lra).
    pose proof (Dg j ltac:(lia)). pose proof (N2_M ltac:(lia)). lra. }
  set (rjj := Rabs (r g j j)) in *. set (rmm := Rabs (r g m m)) in *.
  assert (R0 : 0 < rmm) by (now apply Rabs_pos_lt). assert (RJ0 : 0 <= rjj) by apply Rabs_pos.
  assert (KB : Rabs (IZR k) <= Rabs (r g m kappa) / rmm + / 2).
  { replace (IZR k) with (r g m kappa / r g m m - (r g m kappa / r g m m - IZR k)) by ring.
    eapply Rle_trans; [apply Rabs_triang|]. rewrite Rabs_Ropp. unfold Rdiv at 1. rewrite Rabs_mult, Rabs_inv. fold rmm. 
    apply Rplus_le_compat; [unfold Rdiv; lra|exact HK]. }
  assert (T : Rabs (IZR k) * Rabs (r g j m) <= N * (3/4 * p * q + / 4)).
  { apply Rle_trans with ((Rabs (r g m kappa) / rmm + / 2) * (rjj / 2)).
    - apply Rmult_le_compat; auto using Rabs_pos.
    - replace ((Rabs (r g m kappa) / rmm + / 2) * (rjj / 2)) with (/ 2 * (Rabs (r g m kappa) * (rjj / rmm)) + rjj / 4) by (field; lra).
      assert (rjj / rmm <= 3/2 * p) by (apply Rmult_le_reg_r with rmm; auto; unfold Rdiv; rewrite Rmult_assoc, Rinv_l by lra; lra).
      assert (0 <= rjj / rmm) by (apply Rmult_le_pos; [assumption|apply Rlt_le, Rinv_0_lt_compat; assumption]).
      assert (Rabs (r g m kappa) * (rjj / rmm) <= N * q * (3/2 * p)) by (apply Rmult_le_compat; auto using Rabs_pos).
      lra. }
  unfold Rminus. eapply Rle_trans; [apply Rabs_triang|]. rewrite Rabs_Ropp, Rabs_mult.
  assert (PQ : 1 <= p * q) by (replace 1 with (1 * 1) by ring; apply Rmult_le_compat; lra).
  apply Rle_trans with (N * (3 / 2 * p * q) + N * (3/4 * p * q + / 4)); [apply Rplus_le_compat; lra|].
  replace (N * (p * (5 / 2 * q))) with (N * (5/2 * (p * q))) by ring. rewrite <- Rmult_plus_distr_l. apply Rmult_le_compat_l; lra.
Qed.

Lemma stage_norm kappa m s g : (m <= kappa)%nat -> (1 <= kappa)%nat -> (kappa < d)%nat -> EI kappa s g -> cur s g kappa ->
  redd fp g m kappa -> (forall i, (i < kappa)%nat -> r g i i * r g i i <= M) -> tail s g kappa <= M -> stage kappa m g ->
  dot n (b s kappa) (b s kappa) <= N2 * (25/4) ^ kappa.
Proof.
  intros Hm H1 Hk E C Rd Dg T St. rewrite (col_norm kappa s g E C Hk).
  set (q := (25/4) ^ (kappa - m)).
  assert (S1 : sumR kappa (fun i => r g i kappa * r g i kappa) <= N2 * q * (4/5 * ((9/4) ^ m - 1)) + INR (kappa - m) * (M / 4)).
  { rewrite <- geo94, <- sumR_mul_l, <- sumR_const. replace kappa with (m + (kappa - m))%nat at 1 by lia. rewrite sumR_split.
    apply Rplus_le_compat; apply sumR_le; intros i Hi.
    - specialize (St i ltac:(lia)). rewrite <- (Rabs_right (r g i kappa * r g i kappa)) by (pose proof (Rle_0_sqr (r g i kappa)); unfold Rsqr in *; lra).
      rewrite Rabs_mult. eapply Rle_trans; [apply Rmult_le_compat; try apply Rabs_pos; exact St|]. apply Req_le.
      transitivity (N * N * (((3/2) ^ (m - 1 - i) * (3/2) ^ (m - 1 - i)) * ((5/2) ^ (kappa - m) * (5/2) ^ (kappa - m)))); [ring|].
      rewrite NN, !pow_sq. unfold q. replace (3/2 * (3/2)) with (9/4) by field. replace (5/2 * (5/2)) with (25/4) by field. ring.
    - specialize (Rd (m + i)%nat ltac:(lia)). specialize (Dg (m + i)%nat ltac:(lia)). cbn beta in Rd.
      set (u := r g (m + i) (m + i)) in *. set (w := r g (m + i) kappa) in *.
      rewrite <- (Rabs_right (w * w)) by (pose proof (Rle_0_sqr w); unfold Rsqr in *; lra).
      rewrite Rabs_mult. apply Rle_trans with (Rabs u / 2 * (Rabs u / 2)).
      + apply Rmult_le_compat; auto using Rabs_pos.
      + replace (Rabs u / 2 * (Rabs u / 2)) with (Rabs (u * u) / 4) by (rewrite Rabs_mult; field).
        rewrite Rabs_right by (pose proof (Rle_0_sqr u); unfold Rsqr in *; lra). lra. }
  assert (KD : INR (kappa - m) + 1 <= INR d) by (rewrite <- S_INR; apply le_INR; lia).
  assert (S2 : INR (kappa - m) * (M / 4) + M <= N2).
  { assert (INR (kappa - m) * (M / 4) <= (INR d - 1) * (M / 4)) by (apply Rmult_le_compat_r; lra). unfold N2. lra. }
  assert (P0 : 0 <= N2) by (rewrite <- NN; apply Rmult_le_pos; assumption).
  set (Q := (25/4) ^ kappa).
  assert (EQ : Q = q * (25/4) ^ m) by (unfold Q, q; rewrite <- pow_add; f_equal; lia).
  assert (q1 : 1 <= q) by (apply pow_R1_Rle; lra).
  assert (Q25 : 25/4 <= Q).
  { unfold Q. replace kappa with (S (kappa - 1)) by lia. cbn [pow].
    assert (1 <= (25/4) ^ (kappa - 1)) by (apply pow_R1_Rle; lra). lra. }
  assert (S3 : q * (4/5 * ((9/4) ^ m - 1)) <= 36/125 * Q).
  { destruct m as [|m]; [cbn [pow]; lra|].
    assert (A : (9/4) ^ S m <= 9/25 * (25/4) ^ S m).
    { cbn [pow]. assert ((9/4) ^ m <= (25/4) ^ m) by (apply pow_incr; lra). lra. }
    rewrite EQ. apply Rle_trans with (q * (36/125 * (25/4) ^ S m)); [|lra].
    apply Rmult_le_compat_l; lra. }
  assert (S4 : N2 * q * (4 / 5 * ((9 / 4) ^ m - 1)) <= N2 * (36/125 * Q)) by (rewrite Rmult_assoc; apply Rmult_le_compat_l; assumption).
  assert (S5 : N2 * (36/125 * Q + 1) <= N2 * Q) by (apply Rmult_le_compat_l; lra).
  lra.
Qed.

End Growth.
