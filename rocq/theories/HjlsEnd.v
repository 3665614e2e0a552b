(** * HjlsEnd: a bound on the number of turns of Fgas::decomp, in exact arithmetic *)
From Coq Require Import ZArith Lia List Bool Arith Reals Lra.
From Verif Require Import Base Spec SpecReal Mat FP Hlll IntSteps HlllInt Structure Safety MatOpsFacts ZFgas Fgas FgasExact FgasSafe
  Cache Exact HHMath HjlsBound RGram HjlsTurn HjlsTurn2 MachInt.
Import ListNotations.
Local Open Scope R_scope.

Section HT.
Variables (fp : fpops R) (rt : rtops R R).
Hypothesis X : exact fp.
Hypothesis XR : rt_exact rt.
Hypothesis TF : forall x, tfp rt x = x.
Hypothesis HALF : forall x, Rabs x <= / 2 -> frnd fp x = 0.
Variables (d n dec : nat) (transf : bool) (gap : R -> bool) (epsilon : R) (ubound : Z).
Hypothesis DN : (d <= n)%nat.
Notation fz := (fzero fp).
Notation tz := (tzero rt).
Notation r z i j := (mget fz (gR z) i j).
Notation Vz := (Vz fp).
Notation Fz := (Fz rt).
Notation gwf := (FgasSafe.gwf d n).
Notation ghouseholder := (ghouseholder fp rt d n).
Notation ghsizereduce := (ghsizereduce fp rt d n dec transf).
Notation colok := (colok fp rt d).
Notation frame := (frame fp rt).
Notation fwf := (fwf d n).
Notation good := (good fp rt d n).
Notation gelim := (gelim fp rt d n dec transf).
Notation sred := (sred fp d).
Notation tracks := (tracks fp rt d).
Notation seen := (seen fp rt d).
Notation keeps := (keeps rt d).
Notation H_ghouse := (ghouse_fwf fp rt X TF d n dec gap epsilon DN).
Notation H_ghsize := (ghsize_frame fp rt X TF d n dec transf gap epsilon DN).
Notation H_good := (ghsize_good fp rt X TF d n dec transf gap epsilon DN).
Notation H_cokf := (colok_frame fp rt TF d n gap epsilon DN).
Notation H_keeps := (ghsize_keeps fp rt X XR TF d n dec transf gap epsilon DN).
Notation H_sred := (ghsize_sred fp rt X XR TF d n dec transf gap epsilon DN).
Notation H_pass := (ghs_pass fp rt X XR TF d n dec transf gap epsilon DN).
Notation H_tracks := (ghouse_tracks fp rt X TF d n dec gap epsilon DN).
Notation H_rf := (good_rf fp rt TF d n dec gap epsilon DN).

Notation Q := (Q fp rt d n).
Notation xsteps := (@xsteps R R rt d n dec transf).

(** ** Nothing but the loops runs out of fuel *)
Lemma yget_nf (Y : mat R) i j : yget rt d dec Y i j <> NoFuel.
Proof. apply guard_nf. discriminate. Qed.
Lemma ymax_nf (Y : mat R) l m : ymax rt d dec Y l m <> NoFuel.
Proof. apply mfold_nf. intros i a _. apply mfold_nf. intros j b _. apply bind_nf; [apply yget_nf|discriminate]. Qed.
Lemma xswap_nf p q (x : gex R) : xswap rt d n dec transf p q x <> NoFuel.
Proof.
  apply guard_nf. apply bind_nf; [|discriminate]. destruct (0 <? dec)%nat; [|discriminate]. apply guard_nf. apply guard_nf. discriminate.
Qed.
Lemma gmindiag_nf (M : mat R) hi : gmindiag fp d n dec M hi <> NoFuel.
Proof. apply bind_nf; [apply rget_nf|]. intros. apply mfold_nf. intros. apply bind_nf; [apply rget_nf|discriminate]. Qed.
Lemma gmaxdiag_nf (M : mat R) hi : gmaxdiag fp d n dec M hi <> NoFuel.
Proof. apply bind_nf; [apply rget_nf|]. intros. apply mfold_nf. intros. apply bind_nf; [apply rget_nf|discriminate]. Qed.
Lemma gleft_nf (M : mat R) g hi : gleft fp d n dec M g hi <> NoFuel.
Proof.
  apply guard_nf. apply bind_nf; [apply rget_nf|]. intros. apply bind_nf; [|intros [? ?]; discriminate]. apply mfold_nf. intros ? [? ?] _. apply guard_nf.
  apply bind_nf; [apply rget_nf|discriminate].
Qed.
Lemma gright_nf (M : mat R) row lo hi : gright fp d n M row lo hi <> NoFuel.
Proof.
  apply bind_nf; [apply rget_nf|]. intros. apply bind_nf; [|intros [? ?]; discriminate]. apply mfold_nf. intros ? [? ?] _.
  apply bind_nf; [apply rget_nf|discriminate].
Qed.
Lemma ubits_nf (U : mat Z) : ubits n U <> NoFuel.
Proof. apply guard_nf. discriminate. Qed.

(** ** The position of the swap *)
Variable gamma : R.
Hypothesis G1 : 1 <= gamma.
Lemma glist_pow : forall k l, (0 < length l)%nat -> (forall j, (j < length l)%nat -> nth j l fz = gamma ^ (j + 1)) ->
  let r := fold_left (fun g i => g ++ [fmul fp (nth (i - 1) g fz) gamma]) (seq (length l) k) l in
  length r = (length l + k)%nat /\ forall j, (j < length l + k)%nat -> nth j r fz = gamma ^ (j + 1).
Proof.
  induction k as [|k IH]; intros l L H; cbn [seq fold_left]; cbv zeta.
  - rewrite Nat.add_0_r. auto.
  - set (l' := l ++ [fmul fp (nth (length l - 1) l fz) gamma]). assert (L' : length l' = S (length l)) by (unfold l'; rewrite app_length; cbn; lia).
    specialize (IH l'). rewrite L' in IH. replace (length l + S k)%nat with (S (length l) + k)%nat by lia. apply IH; [lia|].
    intros j Hj. unfold l'. destruct (Nat.eq_dec j (length l)) as [->|N].
    + rewrite app_nth2, Nat.sub_diag by lia. cbn [nth]. rewrite (e_mul fp X), H by lia. replace (length l + 1)%nat with (S (length l - 1 + 1)) by lia.
      cbn [pow]. ring.
    + rewrite app_nth1 by lia. apply H. lia.
Qed.

Variable g : list R.
Hypothesis GL : length g = d.
Hypothesis GN : forall j, (j < d)%nat -> nth j g fz = gamma ^ (j + 1).
Definition wt (j : nat) : R := if (j =? dec)%nat then gamma else gamma ^ (j + 1).

Lemma pow_ge1 k : 1 <= gamma ^ k.
Proof. now apply pow_R1_Rle. Qed.
Lemma wt_lo j : gamma <= wt j.
Proof. unfold wt. destruct (j =? dec)%nat; [lra|]. rewrite pow_add. pose proof (pow_ge1 j). simpl pow. nra. Qed.
Lemma wt_hi j : wt j <= gamma ^ (j + 1).
Proof. unfold wt. destruct (j =? dec)%nat; [|lra]. rewrite pow_add. pose proof (pow_ge1 j). simpl pow. nra. Qed.

Lemma rget_Ok (M : mat R) i j v : rget fp d n M i j = Ok v -> v = mget fz M i j.
Proof. unfold rget. intros H. apply guard_Ok in H as [_ H]. now injection H. Qed.

Definition lbody (M : mat R) (j : nat) (st : nat * R) : res (nat * R) :=
  let '(m, t1) := st in
  guard (j <? length g)%nat
    (let* r := rget fp d n M j j in let t2 := fabs fp (fmul fp (nth j g fz) r) in Ok (if flt fp t1 t2 then (j, t2) else (m, t1))).
Lemma lbody_max (M : mat R) : forall k m t, (dec + S k <= d)%nat ->
  mfold (lbody M) (seq (dec + 1) k) (dec, wt dec * Rabs (mget fz M dec dec)) = Ok (m, t) ->
  (dec <= m < dec + S k)%nat /\ t = wt m * Rabs (mget fz M m m) /\
  forall j, (dec <= j < dec + S k)%nat -> wt j * Rabs (mget fz M j j) <= t.
Proof.
  induction k as [|k IH]; intros m t L H.
  - cbn [seq mfold] in H. injection H as <- <-. split; [lia|]. split; [reflexivity|]. intros j Hj. replace j with dec by lia. lra.
  - rewrite seq_S, mfold_app in H. binv H. destruct a as [m0 t0]. apply IH in Ha as (A & B & C); [|lia].
    cbn [mfold] in H. binv H. injection H as ->. unfold lbody in Ha. apply guard_Ok in Ha as [_ Ha]. binv Ha. apply rget_Ok in Ha0. subst a.
    set (j0 := (dec + 1 + k)%nat) in *. rewrite GN in Ha by (unfold j0; lia). rewrite (e_abs fp X), (e_mul fp X), Rabs_mult in Ha.
    rewrite (Rabs_pos_eq (gamma ^ _)) in Ha by (pose proof (pow_ge1 (j0 + 1)); lra).
    assert (W : wt j0 = gamma ^ (j0 + 1)) by (unfold wt; replace (j0 =? dec)%nat with false by (symmetry; apply Nat.eqb_neq; unfold j0; lia); reflexivity).
    rewrite <- W in Ha.
    destruct (flt fp t0 _) eqn:E; injection Ha as <- <-.
    + apply (e_lt fp X) in E. split; [unfold j0; lia|]. split; [reflexivity|]. intros j Hj.
      destruct (Nat.eq_dec j j0) as [->|N]; [lra|]. specialize (C j). unfold j0 in N. assert (wt j * Rabs (mget fz M j j) <= t0) by (apply C; lia). lra.
    + assert (E' : ~ t0 < wt j0 * Rabs (mget fz M j0 j0)) by (intros Q; apply (e_lt fp X) in Q; congruence).
      split; [lia|]. split; [exact B|]. intros j Hj. destruct (Nat.eq_dec j j0) as [->|N]; [lra|]. apply C. unfold j0 in N. lia.
Qed.

Lemma gleft_max (M : mat R) m : (dec < d)%nat -> gleft fp d n dec M g d = Ok m ->
  (dec <= m < d)%nat /\ forall j, (dec <= j < d)%nat -> wt j * Rabs (mget fz M j j) <= wt m * Rabs (mget fz M m m).
Proof.
  intros Hd H. unfold gleft in H. apply guard_Ok in H as [_ H]. binv H. apply rget_Ok in Ha. subst a. binv H. destruct a as [m' t]. injection H as ->.
  change (mfold (lbody M) (seq (dec + 1) (d - (dec + 1))) (dec, fabs fp (fmul fp (nth 0 g fz) (mget fz M dec dec))) = Ok (m, t)) in Ha.
  replace (fabs fp (fmul fp (nth 0 g fz) (mget fz M dec dec))) with (wt dec * Rabs (mget fz M dec dec)) in Ha.
  - apply lbody_max in Ha as (A & B & C); [|lia]. split; [lia|]. intros j Hj. rewrite <- B. apply C. lia.
  - rewrite (e_abs fp X), (e_mul fp X), Rabs_mult, GN by lia. simpl pow. rewrite Rmult_1_r, (Rabs_pos_eq gamma) by lra.
    unfold wt. now rewrite Nat.eqb_refl.
Qed.

(** the largest diagonal entry is attained *)
Lemma gmaxdiag_att (M : mat R) mx : (dec < d)%nat -> gmaxdiag fp d n dec M d = Ok mx -> exists l, (dec <= l < d)%nat /\ mx = Rabs (mget fz M l l).
Proof.
  intros Hd H. unfold gmaxdiag in H. binv H. apply rget_Ok in Ha. subst a.
  assert (Q : forall k mx, (dec + S k <= d)%nat ->
    mfold (fun i m => let* r := rget fp d n M i i in let t := fabs fp r in Ok (if fcmp1 fp t m then t else m)) (seq (dec + 1) k) (fabs fp (mget fz M dec dec)) = Ok mx ->
    exists l, (dec <= l < dec + S k)%nat /\ mx = Rabs (mget fz M l l)).
  { clear H mx. induction k as [|k IH]; intros mx L H.
    - cbn [seq mfold] in H. injection H as <-. exists dec. rewrite (e_abs fp X). split; [lia|reflexivity].
    - rewrite seq_S, mfold_app in H. binv H. apply IH in Ha as (l & A & B); [|lia]. cbn [mfold] in H. binv H. injection H as ->.
      binv Ha. apply rget_Ok in Ha0. subst a0. destruct (fcmp1 fp _ _); injection Ha as <-.
      + exists (dec + 1 + k)%nat. rewrite (e_abs fp X). split; [lia|reflexivity].
      + exists l. split; [lia|exact B]. }
  apply Q in H as (l & A & B); [|lia]. exists l. split; [lia|exact B].
Qed.

(** ** The bounds *)
Variable ts : Z.
Hypothesis FSF : forall x, Rabs (x - IZR (fset_f fp x)) <= 1.
Hypothesis G43 : 4 / 3 <= gamma * gamma.
Definition beta : R := / ((2 ^ Z.to_nat ts + 1) * gamma ^ d) * / ((2 ^ Z.to_nat ts + 1) * gamma ^ d).
Definition tau : R := / 4 + / (gamma * gamma).
Lemma den_ge1 : 1 <= (2 ^ Z.to_nat ts + 1) * gamma ^ d.
Proof. pose proof (pow_ge1 d). assert (1 <= 2 ^ Z.to_nat ts) by (apply pow_R1_Rle; lra). nra. Qed.
Lemma beta_bounds : 0 < beta <= 1.
Proof.
  unfold beta. pose proof den_ge1 as D. set (q := (_ + 1) * _) in *. pose proof (Rinv_0_lt_compat q ltac:(lra)) as P.
  assert (I1 : / q <= 1) by (rewrite <- Rinv_1; apply Rinv_le_contravar; lra). split; nra.
Qed.
Lemma tau_bounds : 0 < tau <= 1.
Proof.
  unfold tau. pose proof (Rinv_0_lt_compat (gamma * gamma) ltac:(lra)) as P.
  assert (/ (gamma * gamma) <= / (4 / 3)) by (apply Rinv_le_contravar; lra). replace (/ (4 / 3)) with (3 / 4) in * by field. lra.
Qed.

Lemma mx_lower mx : 0 < mx -> (sizeinbase2 (fset_f fp (fdiv fp (fone fp) mx)) <= ts)%Z -> 1 <= mx * (2 ^ Z.to_nat ts + 1).
Proof.
  intros P H. rewrite (e_div fp X), (e_one fp X) in H. set (k := fset_f fp (1 / mx)) in *. specialize (FSF (1 / mx)). fold k in FSF.
  assert (T : (0 < ts)%Z).
  { unfold sizeinbase2 in H. destruct (k =? 0)%Z; [lia|]. pose proof (Z.log2_nonneg (Z.abs k)). lia. }
  apply sizeinbase2_lt in H; [|exact T]. assert (K : IZR k <= 2 ^ Z.to_nat ts).
  { rewrite pow_IZR. apply IZR_le. rewrite Z2Nat.id by lia. lia. }
  assert (1 / mx <= 2 ^ Z.to_nat ts + 1).
  { revert FSF. unfold Rabs. destruct (Rcase_abs _); lra. }
  apply Rmult_le_compat_l with (r := mx) in H0; [|lra]. replace (mx * (1 / mx)) with 1 in H0 by (field; lra). exact H0.
Qed.

(** consequences for the column to be swapped *)
Lemma left_facts (M : mat R) m mx : (dec < d)%nat -> gleft fp d n dec M g d = Ok m -> gmaxdiag fp d n dec M d = Ok mx ->
  (forall l, (l < d)%nat -> mget fz M l l <> 0) -> (sizeinbase2 (fset_f fp (fdiv fp (fone fp) mx)) <= ts)%Z ->
  (dec <= m < d)%nat /\ beta <= tau * (mget fz M m m * mget fz M m m) /\
  ((S m < d)%nat -> gamma * gamma * (mget fz M (S m) (S m) * mget fz M (S m) (S m)) <= mget fz M m m * mget fz M m m).
Proof.
  intros Hd HL HM NZ HB. apply gmaxdiag_att in HM as (l & Hl & ->); [|exact Hd]. apply gleft_max in HL as (Hm & MX); [|exact Hd].
  apply mx_lower in HB; [|apply Rabs_pos_lt, NZ; lia]. split; [exact Hm|].
  set (p := Rabs (mget fz M m m)) in *. assert (PP : mget fz M m m * mget fz M m m = p * p) by (unfold p, Rabs; destruct (Rcase_abs _); ring).
  assert (P0 : 0 < p) by (apply Rabs_pos_lt, NZ; lia). rewrite PP. split.
  - pose proof (MX l Hl) as A. set (q := Rabs (mget fz M l l)) in *. assert (Q0 : 0 < q) by (apply Rabs_pos_lt, NZ; lia).
    pose proof (wt_lo l) as B. pose proof (wt_hi m) as C. pose proof (pow_ge1 m) as D. rewrite pow_add in C. simpl pow in C. rewrite Rmult_1_r in C.
    assert (E : gamma * q <= gamma * (gamma ^ m * p)) by nra. assert (E2 : q <= gamma ^ m * p) by (apply Rmult_le_reg_l with gamma; lra).
    set (T := 2 ^ Z.to_nat ts + 1) in *. assert (T1 : 1 < T) by (unfold T; pose proof (pow_lt 2 (Z.to_nat ts) ltac:(lra)); lra).
    assert (E3 : gamma <= p * (T * gamma ^ d)).
    { replace d with (m + 1 + (d - m - 1))%nat by lia. rewrite !pow_add. simpl pow. rewrite Rmult_1_r. pose proof (pow_ge1 (d - m - 1)) as E3.
      assert (1 <= gamma ^ m * p * T) by nra. assert (gamma <= gamma ^ m * p * T * gamma) by nra. nra. }
    pose proof den_ge1 as D1. fold T in D1. unfold beta. fold T. set (w := T * gamma ^ d) in *. pose proof (Rinv_0_lt_compat w ltac:(lra)) as IW.
    assert (E4 : gamma * / w <= p) by (apply Rmult_le_reg_r with w; [lra|]; rewrite Rmult_assoc, Rinv_l by lra; lra).
    assert (E5 : gamma * gamma * (/ w * / w) <= p * p) by (replace (gamma * gamma * (/ w * / w)) with ((gamma * / w) * (gamma * / w)) by ring; apply Rmult_le_compat; nra).
    unfold tau. set (y := / w * / w) in *. assert (Y0 : 0 < y) by (unfold y; nra).
    assert (E6 : y <= / (gamma * gamma) * (p * p)).
    { apply Rmult_le_reg_l with (gamma * gamma); [lra|]. rewrite <- Rmult_assoc, Rinv_r by lra. lra. }
    pose proof (Rle_0_sqr p) as P2. unfold Rsqr in P2. lra.
  - intros Hs. pose proof (MX (S m) ltac:(lia)) as A. set (q := Rabs (mget fz M (S m) (S m))) in *.
    replace (mget fz M (S m) (S m) * mget fz M (S m) (S m)) with (q * q) by (unfold q, Rabs; destruct (Rcase_abs _); ring).
    pose proof (Rabs_pos (mget fz M (S m) (S m))) as Q0. fold q in Q0. pose proof (wt_hi m) as C. pose proof (pow_ge1 (m + 1)) as D.
    assert (W : wt (S m) = gamma * gamma ^ (m + 1)).
    { unfold wt. replace (S m =? dec)%nat with false by (symmetry; apply Nat.eqb_neq; lia). replace (S m + 1)%nat with (S (m + 1)) by lia. reflexivity. }
    rewrite W in A. assert (gamma ^ (m + 1) * (gamma * q) <= gamma ^ (m + 1) * p) by nra.
    assert (E : gamma * q <= p) by (apply Rmult_le_reg_l with (gamma ^ (m + 1)); lra).
    replace (gamma * gamma * (q * q)) with ((gamma * q) * (gamma * q)) by ring. apply Rmult_le_compat; nra.
Qed.

(** ** The loop *)
Lemma bind_NF {A B} (m : res A) (f : A -> res B) : bind m f = NoFuel -> m <> NoFuel -> exists a, m = Ok a /\ f a = NoFuel.
Proof. destruct m; cbn; intros H N; try discriminate; [eauto|congruence]. Qed.
Lemma guard_NF {A} b (m : res A) : guard b m = NoFuel -> b = true /\ m = NoFuel.
Proof. destruct b; cbn; intros H; [auto|discriminate]. Qed.

Variable Inv : gex R -> Prop.
Hypothesis INV : forall x x', xsteps x x' -> Inv x -> Inv x'.
Definition hitc (z : fgas R R) (dg mY : R) : res (bool * R) :=
  if (0 <? dec)%nat then
    let* y0 := yget rt d dec (xY (gx z)) (d - 1) 0 in
    let* mY' := ymax rt d dec (xY (gx z)) [(d - 1)%nat] (tabs rt y0) in Ok (tgap rt (tdiv rt mY' mY), mY')
  else
    let* rl := rget fp d n (gR z) (d - 1) (d - 1) in Ok (gap (fabs fp (fdiv fp rl dg)), mY).
Hypothesis HIT : forall z x dg mY p, Inv (gx z) -> Q x d z -> (forall j, (j < d - 1)%nat -> x j <> 0) -> x (d - 1)%nat = 0 ->
  hitc z dg mY = Ok p -> fst p = true.
Lemma hitc_nf z dg mY : hitc z dg mY <> NoFuel.
Proof.
  unfold hitc. destruct (0 <? dec)%nat.
  - apply bind_nf; [apply yget_nf|]. intros. apply bind_nf; [apply ymax_nf|discriminate].
  - apply bind_nf; [apply rget_nf|discriminate].
Qed.
Notation gloop := (gloop fp rt d n dec transf gap epsilon ubound).
Variable target : Z.
Hypothesis T1 : (target <= 1)%Z.
Hypothesis Hd : (dec < d)%nat.

Lemma Q_inc x a z : Q x a z -> Q x a (inc_gn z).
Proof.
  intros (([W1 [W2 W3]] & G) & SH & T). split; [|split; [exact SH|exact T]]. split; [split; [exact W1|split; [exact W2|exact W3]]|].
  intros j Hj Hjd. apply (colok_eq fp rt TF d n gap epsilon DN z); [exact Hjd|reflexivity|reflexivity|reflexivity|auto].
Qed.

(** one turn, when the last column is not set aside *)
Lemma gloop_hit fuel z dg mY maxh x : gldim z = 0%nat -> Inv (gx z) -> Q x d z -> (forall j, (j < d - 1)%nat -> x j <> 0) -> x (d - 1)%nat = 0 ->
  gloop (S fuel) g target ts z maxh dg mY <> NoFuel.
Proof.
  intros L I QZ NZ Z0 H. cbn [Fgas.gloop] in H. cbv zeta in H. apply guard_NF in H as [_ H].
  change (gldim (inc_gn z)) with (gldim z) in H. change (gx (inc_gn z)) with (gx z) in H. change (gR (inc_gn z)) with (gR z) in H.
  rewrite L, Nat.sub_0_r in H. 
  apply bind_NF in H as (p & Hp & H); [|exact (hitc_nf z dg mY)]. pose proof (HIT z x dg mY p I QZ NZ Z0 Hp) as E. destruct p as [hit mY']. cbn [fst] in E. subst hit.
  apply bind_NF in H as (z1 & Hz1 & H).
  - binv Hz1. injection Hz1 as <-. cbn [gldim set_gl] in H.
    assert (EL : gldim a = 0%nat).
    { destruct (_ <? _)%Z in Ha; [binv Ha|]; injection Ha as <-; exact L. }
    rewrite EL in H. replace (target <=? Z.of_nat (0 + 1))%Z with true in H by (symmetry; apply Z.leb_le; lia). discriminate.
  - apply bind_nf; [|discriminate]. destruct (_ <? _)%Z; [|discriminate]. apply bind_nf; [apply xswap_nf|discriminate].
Qed.

Notation D := (d - dec)%nat.
Definition y (x : nat -> R) (j : nat) : R := x (dec + j)%nat.

Lemma gloop_pot : forall fuel z maxh dg mY x, gldim z = 0%nat -> Inv (gx z) -> Q x d z -> (forall j, (j < d)%nat -> x j <> 0) ->
  gloop fuel g target ts z maxh dg mY = NoFuel -> beta ^ (D * D) <= tau ^ (fuel - 1) * pot beta (y x) D.
Proof.
  pose proof beta_bounds as [B0 B1]. pose proof tau_bounds as [U0 U1].
  induction fuel as [|fuel IH]; intros z maxh dg mY x L I QZ NZ H.
  { cbn [Nat.sub pow]. rewrite Rmult_1_l. now apply pot_lower. }
  destruct (Nat.eq_dec fuel 0) as [->|F1].
  { cbn [Nat.sub pow]. rewrite Rmult_1_l. now apply pot_lower. }
  replace (S fuel - 1)%nat with (S (fuel - 1)) by lia.
  set (SF := S fuel) in *. assert (S2 : (2 <= SF)%nat) by (unfold SF; lia).
  assert (XP : forall j, (j < d)%nat -> 0 < x j).
  { intros j Hj. pose proof (Q_diag fp rt TF HALF d n dec gap epsilon DN x d z j QZ Hj Hj ltac:(intros; apply NZ; lia)) as E.
    pose proof (Rle_0_sqr (r z j j)) as T. unfold Rsqr in T. rewrite E in T. specialize (NZ j Hj). lra. }
  assert (NR : forall l, (l < d)%nat -> r z l l <> 0).
  { intros l Hl. apply (Q_nz fp rt TF HALF d n dec gap epsilon DN x d z l QZ Hl Hl). intros; apply NZ; lia. }
  (* a turn multiplies the potential by tau at most *)
  assert (STEP : forall x', pot beta (y x') D <= tau * pot beta (y x) D -> beta ^ (D * D) <= tau ^ (fuel - 1) * pot beta (y x') D ->
            beta ^ (D * D) <= tau ^ S (fuel - 1) * pot beta (y x) D).
  { intros x' P1 P2. assert (0 < tau ^ (fuel - 1)) by (apply pow_lt; lra). cbn [pow]. nra. }
  unfold SF in H at 1. cbn [Fgas.gloop] in H. fold SF in H. cbv zeta in H. apply guard_NF in H as [_ H].
  change (gldim (inc_gn z)) with (gldim z) in H. change (gx (inc_gn z)) with (gx z) in H. change (gR (inc_gn z)) with (gR z) in H.
  rewrite L, !Nat.sub_0_r in H.
  apply bind_NF in H as (p & Hp & H); [|exact (hitc_nf z dg mY)]. destruct p as [hit mY']. destruct hit.
  { exfalso. apply bind_NF in H as (z1 & Hz1 & H).
    - binv Hz1. injection Hz1 as <-. cbn [gldim set_gl] in H.
      assert (EL : gldim a = 0%nat).
      { destruct (_ <? _)%Z in Ha; [binv Ha|]; injection Ha as <-; exact L. }
      rewrite EL in H. replace (target <=? Z.of_nat (0 + 1))%Z with true in H by (symmetry; apply Z.leb_le; lia). discriminate.
    - apply bind_nf; [|discriminate]. destruct (_ <? _)%Z; [|discriminate]. apply bind_nf; [apply xswap_nf|discriminate]. }
  cbn [bind] in H. change (gldim (inc_gn z)) with (gldim z) in H. change (gx (inc_gn z)) with (gx z) in H. change (gR (inc_gn z)) with (gR z) in H.
  rewrite L, !Nat.sub_0_r in H. destruct (target <=? Z.of_nat 0)%Z; [discriminate|].
  apply bind_NF in H as (dg' & _ & H); [|destruct (0 <? dec)%nat; [discriminate|apply gmindiag_nf]].
  apply bind_NF in H as (mx & HM & H); [|apply gmaxdiag_nf].
  destruct (ts <? _)%Z eqn:EB in H; [discriminate|]. apply Z.ltb_ge in EB.
  apply bind_NF in H as (ex & _ & H); [|destruct (0 <? dec)%nat; [|discriminate]; apply bind_nf; [apply ymax_nf|discriminate]]. destruct ex; [discriminate|].
  apply bind_NF in H as (la & _ & H); [|destruct (keepU dec transf); [|discriminate]; apply bind_nf; [apply ubits_nf|discriminate]]. destruct la; [discriminate|].
  apply bind_NF in H as (m & Hm & H); [|apply gleft_nf].
  destruct (left_facts (gR z) m mx Hd Hm HM NR EB) as (MM & BT & LV).
  assert (XM := Q_diag fp rt TF HALF d n dec gap epsilon DN x d z m QZ ltac:(lia) ltac:(lia) ltac:(intros; apply NZ; lia)).
  rewrite XM in BT, LV.
  destruct (Z.ltb_spec (Z.of_nat m) (Z.of_nat d - Z.of_nat 0 - 1)) as [C|C].
  - (* left *)
    assert (SM : (S m < d)%nat) by lia. specialize (LV SM).
    rewrite (Q_diag fp rt TF HALF d n dec gap epsilon DN x d z (S m) QZ ltac:(lia) ltac:(lia) ltac:(intros; apply NZ; lia)) in LV.
    apply bind_NF in H as (x2 & Hx2 & H); [|apply xswap_nf].
    assert (TL := fun z3 => turn_left fp rt X XR TF HALF d n dec transf gap epsilon DN SF x (inc_gn z) m x2 z3 (Q_inc _ _ _ QZ) NZ SM Hx2).
    apply bind_NF in H as (z3 & Hz3 & H).
    + destruct (TL z3) as (x' & P1 & P2 & P3 & P4 & P5 & P6 & P7 & P8). specialize (P8 Hz3).
      apply (STEP x').
      * set (k := (m - dec)%nat). assert (EK : m = (dec + k)%nat) by (unfold k; lia).
        apply (pot_left beta B0 (y x) (y x') tau D k); unfold y; try (intros j Hj); rewrite <- ?EK; replace (dec + S k)%nat with (S m) by lia.
        -- lra.
        -- lia.
        -- apply Rlt_le, XP. lia.
        -- apply P1. lia.
        -- exact BT.
        -- eapply Rle_trans; [exact P3|]. unfold tau. assert (x (S m) <= / (gamma * gamma) * x m); [|lra].
           apply Rmult_le_reg_l with (gamma * gamma); [lra|]. rewrite <- Rmult_assoc, Rinv_r by lra. lra.
        -- exact P4.
        -- exact P5.
        -- intros N1 N2. apply P6; lia.
        -- pose proof (XP (S m) SM). lra.
      * pose proof (greds_steps fp rt d n dec transf SF (seq m (d - m)) _ _ Hz3) as [G3 L3]. eapply IH; [| | | |exact H].
        -- rewrite L3. exact L.
        -- eapply INV; [|exact I]. eapply xsteps_trans; [apply xsteps_one; eapply step_swap; exact Hx2|exact G3].
        -- exact P8.
        -- exact P2.
    + destruct (TL z) as (x' & P1 & P2 & P3 & P4 & P5 & P6 & P7 & P8).
      apply (Q_steps_nf fp rt X XR TF HALF d n dec transf gap epsilon DN SF x' S2); [lia|exact P7|]. intros i _ Hi. now apply P2.
  - (* right *)
    assert (EM : m = (d - 1)%nat) by lia. subst m.
    apply bind_NF in H as (z2 & Hz2 & H).
    + pose proof (greds_steps fp rt d n dec transf SF _ _ _ Hz2) as [G2 L2].
      assert (QN : Q x n z2).
      { assert (EN : (d + (n - d))%nat = n) by lia.
        assert (QE : Q x (d + (n - d)) z2); [|now rewrite EN in QE].
        apply (Q_steps fp rt X XR TF HALF d n dec transf gap epsilon DN SF x (n - d) d (inc_gn z) z2); [lia|now apply Q_inc| |exact Hz2]. auto. }
      apply guard_NF in H as [_ H]. apply bind_NF in H as (m2 & Hm2 & H); [|apply gright_nf].
      apply bind_NF in H as (x3 & Hx3 & H); [|apply xswap_nf].
      apply (gright_ge fp rt TF d n gap DN) in Hm2.
      assert (TR := fun z4 => turn_right fp rt X XR TF HALF d n dec transf gap epsilon DN SF x z2 m2 x3 z4 QN NZ ltac:(lia) Hm2 Hx3).
      apply bind_NF in H as (z4 & Hz4 & H).
      * destruct (TR z4) as (x' & P1 & P2 & P3 & P4 & P5). specialize (P5 Hz4).
        pose proof (ghsizereduce_steps fp rt d n dec transf SF _ _ _ Hz4) as [G4 L4].
        assert (LD : gldim z4 = 0%nat) by (rewrite L4; cbn [set_gx gldim]; rewrite L2; exact L).
        assert (IV : Inv (gx z4)).
        { eapply INV; [|exact I]. eapply xsteps_trans; [exact G2|]. eapply xsteps_trans; [apply xsteps_one; eapply step_swap; exact Hx3|exact G4]. }
        destruct (Req_dec (x' (d - 1)%nat) 0) as [Z0|N0].
        -- exfalso. destruct fuel as [|f]; [congruence|]. revert H. apply (gloop_hit f z4 _ _ _ x' LD IV P5); [|exact Z0].
           intros j Hj. rewrite P3 by lia. apply NZ. lia.
        -- apply (STEP x').
           ++ replace D with (S (d - 1 - dec)) by lia. assert (ED : (dec + (d - 1 - dec))%nat = (d - 1)%nat) by lia. apply pot_right; unfold y; rewrite ?ED; try lra.
              ** eapply Rle_trans; [exact P2|].
                 unfold tau. pose proof (XP (d - 1)%nat ltac:(lia)). pose proof (Rinv_0_lt_compat (gamma * gamma) ltac:(lra)). nra.
              ** intros j Hj. apply P3. lia.
           ++ eapply IH; [exact LD|exact IV|exact P5| |exact H]. intros j Hj.
              destruct (Nat.eq_dec j (d - 1)) as [->|N]; [exact N0|]. rewrite P3 by lia. apply NZ. lia.
      * destruct (TR z2) as (x' & P1 & P2 & P3 & P4 & P5).
        apply (ghsize_nf fp rt X XR TF HALF d n dec transf gap epsilon DN SF); [exact S2|lia| |].
        -- replace (Init.Nat.min (d - 1) d) with (d - 1)%nat by lia. apply P4.
        -- intros i Hi. apply (Q_nz fp rt TF HALF d n dec gap epsilon DN x' (d - 1) _ i P4); try lia. intros l Hl. rewrite P3 by lia. apply NZ. lia.
    + apply (Q_steps_nf fp rt X XR TF HALF d n dec transf gap epsilon DN SF x S2); [lia|now apply Q_inc|]. intros i _ Hi. now apply NZ.
Qed.

(** ** decomp *)
Hypothesis EG : g = fold_left (fun g i => g ++ [fmul fp (nth (i - 1) g fz) gamma]) (seq 1 (d - 1)) [gamma].
Notation gdecomp := (gdecomp fp rt d n dec transf gap epsilon ubound).
Lemma gdecomp_nf fuel z x M : (2 <= fuel)%nat -> gldim z = 0%nat -> Inv (gx z) -> Q x 0 z -> (forall j, (j < d)%nat -> x j <> 0) ->
  1 <= M -> (forall j, (j < d)%nat -> x j <= M) -> tau ^ (fuel - 1) * M ^ (D * D) < beta ^ (D * D) ->
  gdecomp fuel gamma target ts z <> NoFuel.
Proof.
  intros F2 L I QZ NZ M1 XM LT H. unfold Fgas.gdecomp in H. apply guard_NF in H as [_ H]. cbv zeta in H. rewrite <- EG in H.
  apply bind_NF in H as (z1 & Hz1 & H).
  - pose proof (greds_steps fp rt d n dec transf fuel _ _ _ Hz1) as [G2 L2].
    assert (QN : Q x n z1) by (apply (Q_steps fp rt X XR TF HALF d n dec transf gap epsilon DN fuel x n 0 z z1); [lia|exact QZ|auto|exact Hz1]).
    assert (QD : Q x d z1).
    { destruct QN as (A & B & C). split; [split; [apply A|intros; apply A; lia]|]. split; [exact B|]. intros j Hj. apply C. lia. }
    assert (L1 : gldim z1 = 0%nat) by congruence. assert (I1 : Inv (gx z1)) by (eapply INV; eauto).
    assert (K : forall dg mY, gloop fuel g target ts z1 dec dg mY <> NoFuel).
    { intros dg mY K. apply (gloop_pot fuel z1 dec dg mY x L1 I1 QD NZ) in K. pose proof beta_bounds. pose proof tau_bounds.
      pose proof (pot_upper beta ltac:(lra) (y x) M D M1 ltac:(lra) ltac:(intros j Hj; apply XM; lia)) as P.
      assert (0 < tau ^ (fuel - 1)) by (apply pow_lt; lra). nra. }
    destruct (0 <? dec)%nat.
    + apply bind_NF in H as (y0 & _ & H); [|apply yget_nf]. apply bind_NF in H as (mY & _ & H); [|apply ymax_nf].
      apply bind_NF in H as (r1 & _ & H); [|apply ymax_nf]. destruct (tgt rt epsilon r1); [discriminate|]. now apply K in H.
    + apply bind_NF in H as (dg & _ & H); [|apply gmindiag_nf]. now apply K in H.
  - apply (Q_steps_nf fp rt X XR TF HALF d n dec transf gap epsilon DN fuel x F2); [lia|exact QZ|auto].
Qed.
End HT.
