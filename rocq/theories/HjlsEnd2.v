(** * HjlsEnd2: Fgas::decomp returns, in exact arithmetic *)
From Coq Require Import ZArith Lia List Bool Arith Reals Lra.
From Verif Require Import Base Spec SpecReal Mat FP Hlll IntSteps HlllInt LinDep Structure Safety MatOpsFacts ZFgas Fgas FgasInt FgasExact FgasSafe FgasSafe2
  Cache Exact HHMath HjlsBound RGram HjlsTurn HjlsTurn2 HjlsEnd RInd MachInt.
Import ListNotations.
Local Open Scope R_scope.

Section HT.
Variables (fp : fpops R) (rt : rtops R R).
Hypothesis X : exact fp.
Hypothesis XR : rt_exact rt.
Hypothesis TF : forall x, tfp rt x = x.
Hypothesis HALF : forall x, Rabs x <= / 2 -> frnd fp x = 0.
Variables (d n dec : nat) (transf : bool) (gap : R -> bool) (epsilon : R) (ubound : Z).
Hypothesis DN : (d <= n)%nat.
Notation fz := (fzero fp).
Notation tz := (tzero rt).
Notation r z i j := (mget fz (gR z) i j).
Notation Vz := (Vz fp).
Notation Fz := (Fz rt).
Notation gwf := (FgasSafe.gwf d n).
Notation ghouseholder := (ghouseholder fp rt d n).
Notation ghsizereduce := (ghsizereduce fp rt d n dec transf).
Notation colok := (colok fp rt d).
Notation frame := (frame fp rt).
Notation fwf := (fwf d n).
Notation good := (good fp rt d n).
Notation gelim := (gelim fp rt d n dec transf).
Notation sred := (sred fp d).
Notation tracks := (tracks fp rt d).
Notation seen := (seen fp rt d).
Notation keeps := (keeps rt d).
Notation H_ghouse := (ghouse_fwf fp rt X TF d n dec gap epsilon DN).
Notation H_ghsize := (ghsize_frame fp rt X TF d n dec transf gap epsilon DN).
Notation H_good := (ghsize_good fp rt X TF d n dec transf gap epsilon DN).
Notation H_cokf := (colok_frame fp rt TF d n gap epsilon DN).
Notation H_keeps := (ghsize_keeps fp rt X XR TF d n dec transf gap epsilon DN).
Notation H_sred := (ghsize_sred fp rt X XR TF d n dec transf gap epsilon DN).
Notation H_pass := (ghs_pass fp rt X XR TF d n dec transf gap epsilon DN).
Notation H_tracks := (ghouse_tracks fp rt X TF d n dec gap epsilon DN).
Notation H_gx := (ghouse_gx fp rt X TF d n dec gap epsilon DN).
Notation GLP := (glist_pow fp rt X TF HALF d n gap epsilon DN).
Notation H_rf := (good_rf fp rt TF d n dec gap epsilon DN).

Notation Q := (Q fp rt d n).
Notation xsteps := (@xsteps R R rt d n dec transf).
Notation gdecomp := (gdecomp fp rt d n dec transf gap epsilon ubound).

(** any d columns have an R factor: Householder's reduction computes one *)
Lemma rf_exists z : (0 < d)%nat -> fwf z -> exists rr, rf d d (Fz z) rr.
Proof.
  intros D0 W. assert (K : forall K, (K <= d)%nat -> exists z', good K z' /\ gx z' = gx z).
  { induction K as [|K IH]; intros L; [exists z; split; [split; [exact W|intros; lia]|reflexivity]|].
    destruct (IH ltac:(lia)) as (z1 & G & E). pose proof (ghouseholder_safe fp rt d n D0 DN (gldim z1) K z1 (conj (proj1 (proj1 G)) eq_refl) ltac:(lia)) as SA.
    destruct (ghouseholder K z1) as [z2| |] eqn:H; [|destruct SA|].
    - exists z2. pose proof (H_gx K z1 z2 ltac:(lia) (proj1 G) H) as E2. apply H_ghouse in H as (W2 & F & _ & C); [|lia|exact (proj1 G)].
      split; [|congruence]. split; [exact W2|]. intros j Hj Hd. destruct (Nat.eq_dec j K) as [->|N]; [now apply C|].
      apply (H_cokf (fun j => j = K) z1 z2 j Hd F); [intros k Lk; lia|]. apply G; lia.
    - exfalso. revert H. apply (ghouse_nf fp rt d n). }
  destruct (K d (le_n _)) as (z' & G & E). exists (fun i j => r z' i j). pose proof (H_rf z' d (le_n _) G) as RF.
  eapply rf_ext; [|exact RF]. intros j i _ _. unfold HjlsBound.Fz. now rewrite E.
Qed.

Lemma start_Q J A res M : (0 < d)%nat -> indep d d (fun j i => mget 0 A i j) ->
  (forall j, (j < d)%nat -> sumR d (fun i => mget 0 A i j * mget 0 A i j) <= M) ->
  let z := new_fgas rt d n dec transf J A res in
  exists x, Q x 0 z /\ (forall j, (j < d)%nat -> x j <> 0) /\ (forall j, (j < d)%nat -> x j <= M).
Proof.
  intros D0 IND CM z. assert (W : fwf z).
  { split; [apply new_fgas_wf|]. split; [apply mtab_wfm|reflexivity]. }
  assert (EF : forall j i, (j < d)%nat -> (i < d)%nat -> Fz z j i = mget 0 A i j).
  { intros j i Hj Hi. unfold HjlsBound.Fz, z, new_fgas. cbn [gx xF]. rewrite mget_mtab by lia. now rewrite (te_zero _ XR). }
  destruct (rf_exists z D0 W) as (rr & RF). exists (fun j => rr j j * rr j j).
  assert (IND' : indep d d (Fz z)).
  { intros c Hc. apply IND. intros i Hi. eapply eq_trans; [|exact (Hc i Hi)]. apply sumR_ext. intros j Hj. now rewrite EF. }
  split; [|split].
  - split; [split; [exact W|intros; lia]|]. split; [exists rr; split; [exact RF|reflexivity]|]. intros; lia.
  - intros j Hj E. apply (rf_indep d d (Fz z) rr (le_n _) RF IND' j Hj). apply Rmult_integral in E. tauto.
  - intros j Hj. eapply Rle_trans; [apply (rf_diag_le d d (Fz z) rr j (le_n _) RF Hj)|]. eapply Rle_trans; [|apply (CM j Hj)].
    right. unfold dot. apply sumR_ext. intros i Hi. now rewrite EF.
Qed.

(** dec = 0: a zero on the last diagonal entry is a gap *)
Lemma hit0 : dec = 0%nat -> gap 0 = true -> (0 < d)%nat -> forall z x dg mY p, Q x d z -> (forall j, (j < d - 1)%nat -> x j <> 0) -> x (d - 1)%nat = 0 ->
  hitc fp rt d n dec gap z dg mY = Ok p -> fst p = true.
Proof.
  intros D E0 D0 z x dg mY p QZ NZ Z0 H. unfold hitc in H. rewrite D in H. cbn [Nat.ltb Nat.leb] in H. binv H. injection H as <-. cbn [fst].
  unfold rget in Ha. apply guard_Ok in Ha as [_ Ha]. injection Ha as <-.
  pose proof (Q_diag fp rt TF HALF d n dec gap epsilon DN x d z (d - 1) QZ ltac:(lia) ltac:(lia) ltac:(intros; apply NZ; lia)) as E.
  rewrite Z0 in E. assert (E1 : r z (d - 1)%nat (d - 1)%nat = 0) by (apply Rmult_integral in E; tauto).
  rewrite E1, (e_abs fp X), (e_div fp X). unfold Rdiv. rewrite Rmult_0_l, Rabs_R0. exact E0.
Qed.

Lemma glist_d gamma : (0 < d)%nat -> 1 <= gamma ->
  let g := fold_left (fun g i => g ++ [fmul fp (nth (i - 1) g fz) gamma]) (seq 1 (d - 1)) [gamma] in
  length g = d /\ forall j, (j < d)%nat -> nth j g fz = gamma ^ (j + 1).
Proof.
  intros D0 G1 g. destruct (GLP gamma (d - 1)%nat [gamma]) as [A B].
  - cbn. lia.
  - intros j Hj. cbn in Hj. replace j with 0%nat by lia. cbn. ring.
  - cbn [length] in A, B. replace (1 + (d - 1))%nat with d in A, B by lia. split; assumption.
Qed.
End HT.
