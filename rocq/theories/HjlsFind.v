(** * HjlsFind: dec = 1, what Fgas::decomp returns when the gap test recognises the zeros, in exact arithmetic *)
From Coq Require Import ZArith Lia List Bool Arith Reals Lra.
From Verif Require Import Base Spec SpecReal Mat FP Hlll IntSteps HlllInt LinDep Structure Safety MatOpsFacts ZFgas Fgas FgasInt FgasExact FgasSafe FgasSafe2
  Cache Exact HHMath HjlsBound RGram HjlsTurn HjlsTurn2 HjlsEnd RInd HjlsHit MachInt.
Import ListNotations.
Local Open Scope R_scope.

Section HT.
Variables (fp : fpops R) (rt : rtops R R).
Hypothesis X : exact fp.
Hypothesis XR : rt_exact rt.
Hypothesis TF : forall x, tfp rt x = x.
Hypothesis HALF : forall x, Rabs x <= / 2 -> frnd fp x = 0.
Variables (d n dec : nat) (transf : bool) (gap : R -> bool) (epsilon : R) (ubound : Z).
Hypothesis DN : (d <= n)%nat.
Notation fz := (fzero fp).
Notation tz := (tzero rt).
Notation r z i j := (mget fz (gR z) i j).
Notation Vz := (Vz fp).
Notation Fz := (Fz rt).
Notation gwf := (FgasSafe.gwf d n).
Notation ghouseholder := (ghouseholder fp rt d n).
Notation ghsizereduce := (ghsizereduce fp rt d n dec transf).
Notation colok := (colok fp rt d).
Notation frame := (frame fp rt).
Notation fwf := (fwf d n).
Notation good := (good fp rt d n).
Notation gelim := (gelim fp rt d n dec transf).
Notation sred := (sred fp d).
Notation tracks := (tracks fp rt d).
Notation seen := (seen fp rt d).
Notation keeps := (keeps rt d).
Notation H_ghouse := (ghouse_fwf fp rt X TF d n dec gap epsilon DN).
Notation H_ghsize := (ghsize_frame fp rt X TF d n dec transf gap epsilon DN).
Notation H_good := (ghsize_good fp rt X TF d n dec transf gap epsilon DN).
Notation H_cokf := (colok_frame fp rt TF d n gap epsilon DN).
Notation H_keeps := (ghsize_keeps fp rt X XR TF d n dec transf gap epsilon DN).
Notation H_sred := (ghsize_sred fp rt X XR TF d n dec transf gap epsilon DN).
Notation H_pass := (ghs_pass fp rt X XR TF d n dec transf gap epsilon DN).
Notation H_tracks := (ghouse_tracks fp rt X TF d n dec gap epsilon DN).
Notation H_gx := (ghouse_gx fp rt X TF d n dec gap epsilon DN).
Notation GLP := (glist_pow fp rt X TF HALF d n gap epsilon DN).
Notation H_rf := (good_rf fp rt TF d n dec gap epsilon DN).

Notation Q := (Q fp rt d n).
Notation xsteps := (@xsteps R R rt d n dec transf).
Notation gdecomp := (gdecomp fp rt d n dec transf gap epsilon ubound).

Notation gloop := (gloop fp rt d n dec transf gap epsilon ubound).
Notation Inv1 := (Inv1 d n dec transf).
Hypothesis D1 : dec = 1%nat.
Hypothesis NE : n = (d + dec)%nat.
Hypothesis D2 : (1 < d)%nat.
Variable a : nat -> R.

(** ** The last entry of Y: column operations on the columns up to d do not change it *)
Notation yl x := (mget 0 (xY x) (d - 1) 0).
Lemma xcol_yl kappa i xz x x' : (i < kappa)%nat -> (kappa <= d)%nat -> xcol rt d n dec transf kappa i xz x = Ok x' -> yl x' = yl x.
Proof.
  intros Hi Hk H. unfold xcol in H. cbv zeta in H. apply guard_Ok in H as [_ H]. binv H. injection H as <-. cbn [xY].
  destruct ((dec <=? i)%nat && (0 <? dec)%nat)%bool eqn:E; [|injection Ha as <-; reflexivity].
  unfold yrow in Ha. apply guard_Ok in Ha as [_ Ha]. injection Ha as <-. rewrite mget_mtab by lia.
  replace (d - 1 =? i - dec)%nat with false by (symmetry; apply Nat.eqb_neq; apply andb_true_iff in E as [E _]; apply Nat.leb_le in E; lia).
  now rewrite (te_zero _ XR).
Qed.
Lemma xswap_yl p q x x' : (p < d)%nat -> (q < d)%nat -> xswap rt d n dec transf p q x = Ok x' -> yl x' = yl x.
Proof.
  intros Hp Hq H. unfold xswap in H. apply guard_Ok in H as [_ H]. binv H. injection H as <-. cbn [xY].
  destruct (0 <? dec)%nat; [|injection Ha as <-; reflexivity]. apply guard_Ok in Ha as [G Ha]. apply andb_true_iff in G as [G1 G2].
  apply Nat.leb_le in G1, G2. unfold yswap in Ha. apply guard_Ok in Ha as [_ Ha]. injection Ha as <-. rewrite mget_mtab by lia.
  replace (d - 1 =? p - dec)%nat with false by (symmetry; apply Nat.eqb_neq; lia).
  replace (d - 1 =? q - dec)%nat with false by (symmetry; apply Nat.eqb_neq; lia). now rewrite (te_zero _ XR).
Qed.
Lemma gelims_yl kappa l : (kappa <= d)%nat -> (forall i, In i l -> (i < kappa)%nat) -> forall z b z' b',
  mfold (gelim kappa) l (z, b) = Ok (z', b') -> yl (gx z') = yl (gx z).
Proof.
  intros Hk. induction l as [|i l IH]; intros Hl z b z' b' H; cbn [mfold] in H.
  - injection H as <- _. reflexivity.
  - binv H. destruct a0 as [z1 b1]. apply IH in H; [|intros j Hj; apply Hl; now right]. rewrite H. clear H.
    unfold Fgas.gelim in Ha. binv Ha. binv Ha. destruct (fnz fp _).
    + binv Ha. injection Ha as <- _. cbn [gx set_gx set_gR]. eapply xcol_yl; [apply Hl; now left|exact Hk|eassumption].
    + injection Ha as <- _. reflexivity.
Qed.
Lemma ghouse_yl kappa z z' : ghouseholder kappa z = Ok z' -> yl (gx z') = yl (gx z).
Proof. intros H. apply ghouseholder_same in H as [-> _]. reflexivity. Qed.
Lemma ghs_loop_yl fuel kappa : (kappa <= d)%nat -> forall z z', ghs_loop fp rt d n dec transf fuel kappa z = Ok z' -> yl (gx z') = yl (gx z).
Proof.
  intros Hk. induction fuel as [|fuel IH]; intros z z' H; cbn [ghs_loop] in H; [discriminate|].
  binv H. destruct a0 as [z1 sd]. apply gelims_yl in Ha; [|exact Hk|intros i Hi; eapply elim_list_lt; eauto]. destruct sd.
  - binv H. apply ghouse_yl in Ha0. destruct (flt fp _ _); [apply IH in H|injection H as <-]; congruence.
  - injection H as <-. exact Ha.
Qed.
Lemma ghsize_yl fuel kappa z z' : (kappa <= d)%nat -> ghsizereduce fuel kappa z = Ok z' -> yl (gx z') = yl (gx z).
Proof. intros Hk H. unfold Fgas.ghsizereduce in H. binv H. apply ghouse_yl in Ha. apply ghs_loop_yl in H; [congruence|exact Hk]. Qed.
Lemma ghsizes_yl fuel l : (forall i, In i l -> (i <= d)%nat) -> forall z z', mfold (ghsizereduce fuel) l z = Ok z' -> yl (gx z') = yl (gx z).
Proof.
  induction l as [|i l IH]; intros Hl z z' H; cbn [mfold] in H; [injection H as <-; reflexivity|].
  binv H. apply IH in H; [|intros j Hj; apply Hl; now right]. apply ghsize_yl in Ha; [congruence|apply Hl; now left].
Qed.

(** ** The largest diagonal entry *)
Lemma gmaxdiag_all (M : mat R) mx : (dec < d)%nat -> gmaxdiag fp d n dec M d = Ok mx -> forall l, (dec <= l < d)%nat -> Rabs (mget fz M l l) <= mx.
Proof.
  intros Hd H. unfold gmaxdiag in H. binv H. apply (rget_Ok fp d n) in Ha. subst a0.
  assert (K : forall k mx, (dec + S k <= d)%nat ->
    mfold (fun i m => let* r := rget fp d n M i i in let t := fabs fp r in Ok (if fcmp1 fp t m then t else m)) (seq (dec + 1) k) (fabs fp (mget fz M dec dec)) = Ok mx ->
    forall l, (dec <= l < dec + S k)%nat -> Rabs (mget fz M l l) <= mx).
  { clear H mx. induction k as [|k IH]; intros mx L H l Hl.
    - cbn [seq mfold] in H. injection H as <-. replace l with dec by lia. rewrite (e_abs fp X). lra.
    - rewrite seq_S, mfold_app in H. binv H. specialize (IH _ ltac:(lia) Ha). cbn [mfold] in H. binv H. injection H as ->.
      binv Ha0. apply (rget_Ok fp d n) in Ha1. subst a1. rewrite (e_abs fp X) in Ha0.
      destruct (fcmp1 fp _ _) eqn:E; injection Ha0 as <-.
      + apply (e_cmp fp X) in E. destruct (Nat.eq_dec l (dec + 1 + k)) as [->|N]; [lra|]. specialize (IH l ltac:(lia)). lra.
      + destruct (Nat.eq_dec l (dec + 1 + k)) as [->|N]; [|apply IH; lia].
        apply Rnot_gt_le. intros G. assert (T : fcmp1 fp (Rabs (mget fz M (dec + 1 + k) (dec + 1 + k))) a0 = true) by (apply (e_cmp fp X); lra). congruence. }
  intros l Hl. eapply K; [|exact H|]; lia.
Qed.

Variable ts : Z.
Hypothesis FSF : forall x, Rabs (x - IZR (fset_f fp x)) <= 1.
Lemma mx_upper mx : 0 < mx -> (ts < sizeinbase2 (fset_f fp (fdiv fp (fone fp) mx)))%Z -> mx * (2 ^ Z.to_nat ts - 1) <= 1.
Proof.
  intros P H. rewrite (e_div fp X), (e_one fp X) in H. set (k := fset_f fp (1 / mx)) in *. specialize (FSF (1 / mx)). fold k in FSF.
  destruct (Z.lt_ge_cases 0 ts) as [T|T].
  - assert (K : (2 ^ ts <= Z.abs k)%Z). { apply Z.nlt_ge. intros L. apply sizeinbase2_lt in L; lia. }
    apply IZR_le in K. rewrite abs_IZR in K. replace (IZR (2 ^ ts)) with (2 ^ Z.to_nat ts) in K by (rewrite pow_IZR, Z2Nat.id by lia; reflexivity).
    assert (0 < 1 / mx) by (apply Rdiv_lt_0_compat; lra).
    assert (B : 2 ^ Z.to_nat ts - 1 <= 1 / mx) by (revert FSF K; unfold Rabs; repeat destruct (Rcase_abs _); lra).
    apply Rmult_le_compat_l with (r := mx) in B; [|lra]. replace (mx * (1 / mx)) with 1 in B by (field; lra). exact B.
  - replace (Z.to_nat ts) with 0%nat by lia. cbn [pow]. lra.
Qed.

(** ** The loop *)
Variable target : Z.
Hypothesis T1 : target = 1%Z.
Hypothesis EPS : epsilon <= 0.
Hypothesis TR : transf = false.
Hypothesis TZ : forall y, tgap rt (tdiv rt 0 y) = true.
Hypothesis TN : forall x y, y <> 0 -> tgap rt (tdiv rt x y) = true -> x = 0.
Definition found (ret : Z) (z : fgas R R) : Prop := ret = 0%Z /\ Inv1 a (gx z) /\ yl (gx z) = 0.
Definition none (ret : Z) (z : fgas R R) : Prop :=
  ret = (-1)%Z /\ gldim z = 0%nat /\ good d z /\ (forall i, (i < d)%nat -> r z i i <> 0) /\
  (exists mx, (forall l, (dec <= l < d)%nat -> Rabs (r z l l) <= mx) /\ mx * (2 ^ Z.to_nat ts - 1) <= 1).

Lemma ymax_nn (Y : mat R) m0 : 0 <= m0 -> forall l m, ymax rt d dec Y l m0 = Ok m -> 0 <= m.
Proof.
  intros P l m H. unfold ymax in H. eapply (mfold_inv (fun m => 0 <= m)); [|exact P|exact H].
  intros i m1 m2 _ P1 H1. cbv beta in H1. eapply (mfold_inv (fun m => 0 <= m)); [|exact P1|exact H1].
  intros j m3 m4 _ Q3 H3. cbv beta in H3. binv H3. cbv zeta in H3. rewrite (te_abs _ XR) in H3. injection H3 as <-. destruct (tgt rt _ _); [apply Rabs_pos|exact Q3].
Qed.
Lemma hit_val z dg mY p : hitc fp rt d n dec gap z dg mY = Ok p -> snd p = Rabs (yl (gx z)) /\ fst p = tgap rt (tdiv rt (Rabs (yl (gx z))) mY).
Proof.
  intros H. unfold hitc in H. rewrite D1 in H. change (0 <? 1)%nat with true in H. cbv iota in H. binv H. unfold yget in Ha.
  apply guard_Ok in Ha as [_ Ha]. injection Ha as <-. rewrite (te_zero _ XR) in H. unfold ymax, yget in H. cbn [mfold seq] in H.
  replace ((d - 1 <? d)%nat && (0 <? 1)%nat)%bool with true in H by (symmetry; apply andb_true_iff; split; [apply Nat.ltb_lt; lia|reflexivity]).
  cbn [guard bind] in H. rewrite (te_zero _ XR), (te_abs _ XR) in H. cbn [guard bind] in H. injection H as <-. cbn [fst snd].
  destruct (tgt rt _ _); auto.
Qed.

Lemma gloop_find g : forall fuel z maxh dg mY x ret z', gldim z = 0%nat -> Inv1 a (gx z) -> Q x d z -> (forall j, (j < d - 1)%nat -> x j <> 0) ->
  (yl (gx z) <> 0 \/ (d <= maxh)%nat) -> mY <> 0 ->
  gloop fuel g target ts z maxh dg mY = Ok (ret, z') -> found ret z' \/ none ret z'.
Proof.
  induction fuel as [|fuel IH]; intros z maxh dg mY x ret z' L I QZ NZ0 YM MN H; [discriminate|].
  set (SF := S fuel) in *.
  unfold SF in H at 1. cbn [Fgas.gloop] in H. fold SF in H. cbv zeta in H. apply guard_Ok in H as [_ H].
  change (gldim (inc_gn z)) with (gldim z) in H. change (gx (inc_gn z)) with (gx z) in H. change (gR (inc_gn z)) with (gR z) in H.
  rewrite L, !Nat.sub_0_r in H. apply bind_Ok in H as (p & Hp & H). pose proof (hit_val z dg mY p Hp) as [HV HF].
  pose proof (hit1 fp rt XR TF HALF d n dec transf gap epsilon DN D1 NE a TZ D2 z x dg mY p I QZ NZ0) as HIT.
  destruct p as [hit mY']. cbn [fst snd] in *. destruct hit.
  { left. symmetry in HF. apply TN in HF; [|exact MN]. assert (Y0 : yl (gx z) = 0) by (revert HF; unfold Rabs; destruct (Rcase_abs _); lra).
    destruct YM as [YM|YM]; [congruence|]. replace (Z.of_nat maxh <? Z.of_nat n - Z.of_nat 0 - 1)%Z with false in H by (symmetry; apply Z.ltb_ge; lia).
    cbn [bind] in H. cbn [gldim set_gl inc_gn] in H. rewrite L, T1 in H. cbn [Nat.add Z.of_nat] in H. cbn in H. injection H as <- <-.
    split; [reflexivity|]. split; [exact I|exact Y0]. }
  assert (NZ : forall j, (j < d)%nat -> x j <> 0).
  { intros j Hj. destruct (Nat.eq_dec j (d - 1)) as [->|N]; [|apply NZ0; lia]. intros E. specialize (HIT E Hp). discriminate. }
  assert (Y0 : yl (gx z) <> 0).
  { intros E. rewrite E, Rabs_R0, TZ in HF. discriminate. }
  assert (MN' : mY' <> 0) by (rewrite HV; now apply Rabs_no_R0).
  assert (NR : forall l, (l < d)%nat -> r z l l <> 0).
  { intros l Hl. apply (Q_nz fp rt TF HALF d n dec gap epsilon DN x d z l QZ Hl Hl). intros; apply NZ; lia. }
  cbn [bind] in H. change (gldim (inc_gn z)) with (gldim z) in H. change (gx (inc_gn z)) with (gx z) in H. change (gR (inc_gn z)) with (gR z) in H.
  rewrite L, !Nat.sub_0_r in H. replace (target <=? Z.of_nat 0)%Z with false in H by (symmetry; apply Z.leb_gt; lia).
  apply bind_Ok in H as (dg' & _ & H). apply bind_Ok in H as (mx & HM & H).
  destruct (ts <? _)%Z eqn:EB in H.
  { right. injection H as <- <-. apply Z.ltb_lt in EB. pose proof (Q_inc fp rt TF d n gap epsilon DN x d z QZ) as QI.
    split; [reflexivity|]. split; [exact L|]. split; [exact (proj1 QI)|]. split; [exact NR|]. exists mx.
    split; [intros l Hl; apply (gmaxdiag_all (gR z) mx ltac:(lia) HM); exact Hl|].
    apply mx_upper; [|exact EB]. pose proof (gmaxdiag_all (gR z) mx ltac:(lia) HM (d - 1)%nat ltac:(lia)) as B. 
    pose proof (Rabs_pos_lt _ (NR (d - 1)%nat ltac:(lia))). lra. }
  apply bind_Ok in H as (ex & Hex & H). destruct ex.
  { exfalso. rewrite D1 in Hex. change (0 <? 1)%nat with true in Hex. cbv iota in Hex. apply bind_Ok in Hex as (r1 & Hr1 & Hex).
    injection Hex as Hex. apply (te_gt _ XR) in Hex. rewrite <- D1, (te_zero _ XR) in Hr1. apply ymax_nn in Hr1; lra. }
  apply bind_Ok in H as (la & Hla & H). destruct la.
  { exfalso. unfold keepU in Hla. rewrite TR, D1 in Hla. discriminate. }
  apply bind_Ok in H as (m & Hm & H).
  assert (Dm : (dec <= m)%nat) by (eapply (gleft_ge fp rt TF d n dec gap DN); exact Hm).
  destruct (Z.ltb_spec (Z.of_nat m) (Z.of_nat d - Z.of_nat 0 - 1)) as [C|C].
  - assert (SM : (S m < d)%nat) by lia. apply bind_Ok in H as (x2 & Hx2 & H). apply bind_Ok in H as (z3 & Hz3 & H).
    destruct (turn_left fp rt X XR TF HALF d n dec transf gap epsilon DN SF x (inc_gn z) m x2 z3 (Q_inc fp rt TF d n gap epsilon DN _ _ _ QZ) NZ SM Hx2)
      as (x' & P1 & P2 & _ & _ & _ & _ & _ & P8). specialize (P8 Hz3).
    pose proof (greds_steps fp rt d n dec transf SF (seq m (d - m)) _ _ Hz3) as [G3 L3].
    apply (IH z3 m dg' mY' x' ret z'); auto.
    + rewrite L3. exact L.
    + eapply (Inv1_steps rt XR d n dec transf NE a); [|exact I]. eapply xsteps_trans; [apply xsteps_one; eapply step_swap; exact Hx2|exact G3].
    + intros j Hj. apply P2. lia.
    + left. rewrite (ghsizes_yl SF (seq m (d - m)) ltac:(intros i Hi; apply in_seq in Hi; lia) _ _ Hz3).
      cbn [gx set_gx]. rewrite (xswap_yl m (m + 1) _ _ ltac:(lia) ltac:(lia) Hx2). exact Y0.
  - apply bind_Ok in H as (z2 & Hz2 & H). apply guard_Ok in H as [_ H].
    apply bind_Ok in H as (m2 & Hm2 & H). apply bind_Ok in H as (x3 & Hx3 & H). apply bind_Ok in H as (z4 & Hz4 & H).
    pose proof (greds_steps fp rt d n dec transf SF _ _ _ Hz2) as [G2 L2].
    assert (QN : Q x n z2).
    { assert (EN : (d + (n - d))%nat = n) by lia.
      assert (QE : Q x (d + (n - d)) z2); [|now rewrite EN in QE].
      apply (Q_steps fp rt X XR TF HALF d n dec transf gap epsilon DN SF x (n - d) d (inc_gn z) z2); [lia|now apply (Q_inc fp rt TF d n gap epsilon DN)| |exact Hz2]. auto. }
    apply (gright_ge fp rt TF d n gap DN) in Hm2.
    destruct (turn_right fp rt X XR TF HALF d n dec transf gap epsilon DN SF x z2 m2 x3 z4 QN NZ ltac:(lia) Hm2 Hx3) as (x' & P1 & P2 & P3 & P4 & P5).
    specialize (P5 Hz4). pose proof (ghsizereduce_steps fp rt d n dec transf SF _ _ _ Hz4) as [G4 L4].
    apply (IH z4 m2 dg' mY' x' ret z'); auto.
    + rewrite L4. cbn [set_gx gldim]. rewrite L2. exact L.
    + eapply (Inv1_steps rt XR d n dec transf NE a); [|exact I]. eapply xsteps_trans; [exact G2|]. eapply xsteps_trans; [apply xsteps_one; eapply step_swap; exact Hx3|exact G4].
    + intros j Hj. rewrite P3 by exact Hj. apply NZ. lia.
Qed.

(** ** decomp *)
Lemma ymax_ge (Y : mat R) m0 : forall l m, ymax rt d dec Y l m0 = Ok m -> m0 <= m /\ forall i, In i l -> Rabs (mget 0 Y i 0) <= m.
Proof.
  unfold ymax. rewrite D1. intros l. revert m0. induction l as [|i l IH]; intros m0 m H; cbn [mfold] in H; [injection H as ->; split; [lra|intros ? []]|].
  apply bind_Ok in H as (m1 & H1 & H). apply IH in H as [A B]. cbn [seq mfold] in H1. binv H1. injection H1 as ->. binv Ha. unfold yget in Ha0.
  apply guard_Ok in Ha0 as [_ Ha0]. injection Ha0 as <-. rewrite (te_zero _ XR), (te_abs _ XR) in Ha. injection Ha as <-.
  assert (K : m0 <= (if tgt rt (Rabs (mget 0 Y i 0)) m0 then Rabs (mget 0 Y i 0) else m0) /\
              Rabs (mget 0 Y i 0) <= (if tgt rt (Rabs (mget 0 Y i 0)) m0 then Rabs (mget 0 Y i 0) else m0)).
  { destruct (tgt rt _ _) eqn:E; [apply (te_gt _ XR) in E; lra|]. split; [lra|]. apply Rnot_gt_le. intros G.
    assert (T : tgt rt (Rabs (mget 0 Y i 0)) m0 = true) by (apply (te_gt _ XR); lra). congruence. }
  split; [lra|]. intros j [->|Hj]; [lra|auto].
Qed.

Lemma gdecomp_find gamma fuel z x ret z' : gldim z = 0%nat -> Inv1 a (gx z) -> Q x 0 z -> (forall j, (j < d)%nat -> x j <> 0) -> yl (gx z) <> 0 ->
  gdecomp fuel gamma target ts z = Ok (ret, z') -> found ret z' \/ none ret z'.
Proof.
  intros L I QZ NZ Y0 H. unfold Fgas.gdecomp in H. apply guard_Ok in H as [_ H]. cbv zeta in H. apply bind_Ok in H as (z1 & Hz1 & H).
  pose proof (greds_steps fp rt d n dec transf fuel _ _ _ Hz1) as [G2 L2].
  assert (QN : Q x n z1) by (apply (Q_steps fp rt X XR TF HALF d n dec transf gap epsilon DN fuel x n 0 z z1); [lia|exact QZ|auto|exact Hz1]).
  assert (QD : Q x d z1).
  { destruct QN as (A & B & C). split; [split; [apply A|intros; apply A; lia]|]. split; [exact B|]. intros j Hj. apply C. lia. }
  assert (L1 : gldim z1 = 0%nat) by congruence. assert (I1 : Inv1 a (gx z1)) by (eapply (Inv1_steps rt XR d n dec transf NE a); eauto).
  assert (Y1 : yl (gx z1) <> 0) by (rewrite (ghsizes_yl fuel (seq 0 n) ltac:(intros i Hi; apply in_seq in Hi; lia) _ _ Hz1); exact Y0).
  replace (0 <? dec)%nat with true in H by (rewrite D1; reflexivity).
  apply bind_Ok in H as (y0 & Hy0 & H). apply bind_Ok in H as (mY & HmY & H). apply bind_Ok in H as (r1 & Hr1 & H).
  destruct (tgt rt epsilon r1) eqn:E.
  { exfalso. apply (te_gt _ XR) in E. rewrite (te_zero _ XR) in Hr1. apply ymax_nn in Hr1; lra. }
  rewrite L1, Nat.sub_0_r in HmY. apply ymax_ge in HmY as [_ HmY]. specialize (HmY (d - 1)%nat ltac:(apply in_seq; lia)).
  eapply gloop_find; [exact L1|exact I1|exact QD| |left; exact Y1| |exact H].
  - intros j Hj. apply NZ. lia.
  - pose proof (Rabs_pos_lt _ Y1). lra.
Qed.
End HT.
