(** * C98: the search for an integer relation by Fgas::decomp, in exact arithmetic: found, or none is short *)
From Coq Require Import ZArith Lia List Bool Arith Reals Lra Floats.
From Verif Require Import Double Examples.
From Verif Require Import Base Spec SpecReal Mat FP Hlll HlllInt LinDep Structure Safety ZFgas Fgas FgasInt FgasExact FgasSafe FgasSafe2 Exact HHMath
  HjlsBound RGram HjlsTurn HjlsTurn2 HjlsEnd HjlsEnd2 HjlsHit HjlsFind RInd Nullspace NullHjls Hjls Restart PropKernel PropFgas PropExact PropHjls PropHjlsEnd.
Import ListNotations.
Local Open Scope R_scope.

(** the comparison with the confidence gap recognises the zeros and nothing else *)
Definition exact_gap (rt : rtops R R) : Prop :=
  (forall y, tgap rt (tdiv rt 0 y) = true) /\ (forall x y, y <> 0 -> tgap rt (tdiv rt x y) = true -> x = 0).

(** m is an integer relation for the vector a of d reals *)
Definition relation (d : nat) (a : nat -> R) (m : nat -> Z) : Prop :=
  sumR d (fun i => a i * IZR (m i)) = 0 /\ exists i, (i < d)%nat /\ m i <> 0%Z.
(** its coordinates have no common divisor: some integer combination of them is 1 *)
Definition primitive (d : nat) (m : nat -> Z) : Prop := exists u : nat -> Z, sumZ d (fun i => u i * m i)%Z = 1%Z.

Lemma sumZ_nz k (f : nat -> Z) : sumZ k f <> 0%Z -> exists i, (i < k)%nat /\ f i <> 0%Z.
Proof.
  induction k as [|k IH]; intros N; cbn [sumZ] in N; [congruence|]. destruct (Z.eq_dec (f k) 0) as [E|E].
  - destruct IH as (i & A & B); [rewrite E, Z.add_0_r in N; exact N|]. exists i. split; [lia|exact B].
  - exists k. split; [lia|exact E].
Qed.

(** the first d columns of [a | I] are independent *)
Lemma rel_indep d (a : nat -> R) A res : rel_input d a A res -> a (d - 1)%nat <> 0 -> indep d d (fun j i => mget 0 A i j).
Proof.
  intros (HA & HR) AN c Hc. destruct (Nat.eq_dec d 0) as [D0|D0]; [intros; lia|].
  assert (C0 : c 0%nat = 0).
    { pose proof (Hc (d - 1)%nat ltac:(lia)) as E. rewrite (sumR_single d 0) in E; [|lia|].
      - rewrite HA in E by lia. cbn [Nat.eqb] in E. apply Rmult_integral in E. tauto.
      - intros l Hl N. rewrite HA by lia. replace (l =? 0)%nat with false by (symmetry; now apply Nat.eqb_neq).
        replace (l =? 1 + (d - 1))%nat with false by (symmetry; apply Nat.eqb_neq; lia). ring. }
    intros j Hj. destruct (Nat.eq_dec j 0) as [->|N]; [exact C0|]. pose proof (Hc (j - 1)%nat ltac:(lia)) as E. rewrite (sumR_single d j) in E; [|lia|].
    - rewrite HA in E by lia. replace (j =? 0)%nat with false in E by (symmetry; now apply Nat.eqb_neq).
      replace (j =? 1 + (j - 1))%nat with true in E by (symmetry; apply Nat.eqb_eq; lia). lra.
    - intros l Hl Nl. destruct (Nat.eq_dec l 0) as [->|N0]; [rewrite C0; ring|]. rewrite HA by lia.
      replace (l =? 0)%nat with false by (symmetry; now apply Nat.eqb_neq). replace (l =? 1 + (j - 1))%nat with false by (symmetry; apply Nat.eqb_neq; lia). ring.
Qed.

Theorem C98_found_or_none :
  forall (fp : fpops R) (rt : rtops R R) d gap epsilon ubound,
  exact_types fp rt -> exact_gap rt -> (1 < d)%nat -> epsilon <= 0 ->
  forall (a : nat -> R) J A res fuel gamma size ret z,
  rel_input d a A res -> a (d - 1)%nat <> 0 ->
  gdecomp fp rt d (d + 1) 1 false gap epsilon ubound fuel gamma 1 size (new_fgas rt d (d + 1) 1 false J A res) = Ok (ret, z) ->
  (ret = 0%Z /\ relation d a (fun i => fn (ggetV (d + 1) z) (1 + i)%nat d) /\ primitive d (fun i => fn (ggetV (d + 1) z) (1 + i)%nat d)) \/
  (ret = (-1)%Z /\ forall m, relation d a m -> (2 ^ Z.to_nat size - 1) * (2 ^ Z.to_nat size - 1) <= IZR (sumZ d (fun i => m i * m i)%Z)).
Proof.
  intros fp rt d gap epsilon ubound (X & XR & TF & HALF & FSF) (TZ & TN) D2 EPS a J A res fuel gamma size ret z (HA & HR) AN H.
  assert (DN : (d <= d + 1)%nat) by lia. assert (D0 : (0 < d)%nat) by lia.
  pose proof (rel_indep d a A res (conj HA HR) AN) as IND.
  set (M := 1 + sumR d (fun j => sumR d (fun i => mget 0 A i j * mget 0 A i j))).
  destruct (start_Q fp rt X XR TF HALF d (d + 1) 1 false gap epsilon DN J A res M D0 IND) as (x & QZ & NZ & _).
  { intros j Hj. unfold M. assert (SQ : forall j, (j < d)%nat -> 0 <= sumR d (fun i => mget 0 A i j * mget 0 A i j)).
    { intros k _. apply sumR_nonneg. intros i _. pose proof (Rle_0_sqr (mget 0 A i k)) as Q. exact Q. }
    pose proof (sumR_term d (fun j => sumR d (fun i => mget 0 A i j * mget 0 A i j)) j SQ Hj) as Q. cbv beta in Q. lra. }
  pose proof H as ST. apply gdecomp_steps in ST as [ST _].
  set (z0 := new_fgas rt d (d + 1) 1 false J A res) in *.
  assert (E0 : einv d (d + 1) 1 (A1 a) (fun i _ => a i) mid (gx z0)).
  { apply (start_einv rt d (d + 1) 1 false); try assumption; try reflexivity.
    - apply mtab_wfm.
    - intros _. apply mtab_wfm.
    - apply new_tinv.
    - intros i j Hi Hj. now apply id_mat_fn.
    - intros i j Hi Hj. unfold z0. cbn [new_fgas gx xF]. rewrite mget_mtab by lia. rewrite (te_zero _ XR). now apply HA.
    - intros i j Hi Hj. replace j with 0%nat by lia. unfold z0. cbn [new_fgas gx xY]. change (0 <? 1)%nat with true. cbv iota. rewrite mget_mtab by lia.
      rewrite (te_zero _ XR). now apply HR. }
  assert (Y0 : mget 0 (xY (gx z0)) (d - 1) 0 <> 0).
  { unfold z0. cbn [new_fgas gx xY]. change (0 <? 1)%nat with true. cbv iota. rewrite mget_mtab by lia. rewrite (te_zero _ XR), HR by lia. exact AN. }
  destruct (gdecomp_find fp rt X XR TF HALF d (d + 1) 1 false gap epsilon ubound DN eq_refl eq_refl D2 a size FSF 1%Z eq_refl EPS eq_refl TZ TN gamma
              fuel z0 x ret z) as [F|F]; auto.
  - exists mid. split; [apply new_tinv|exact E0].
  - left. destruct F as (-> & (P & T & E) & YZ). split; [reflexivity|].
    pose proof (block_unimodular (d + 1) 1 false P _ ltac:(lia) T) as [B1 B2]. replace (d + 1 - 1)%nat with d in B1, B2 by lia.
    destruct E as (_ & _ & _ & EY). set (W := fn (xW (gx z))) in *.
    set (m := fun i => W (1 + i)%nat d).
    assert (EM : forall i, (i < d)%nat -> fn (ggetV (d + 1) z) (1 + i)%nat d = m i) by (intros i Hi; now rewrite V_eq by lia).
    assert (RS : sumR d (fun i => a i * IZR (m i)) = 0).
    { rewrite EY in YZ by lia. rewrite <- YZ. apply sumR_ext. intros s Hs. unfold m. replace (1 + (d - 1))%nat with d by lia. ring. }
    assert (PR : sumZ d (fun i => P (1 + i)%nat d * m i)%Z = 1%Z).
    { specialize (B2 (d - 1)%nat (d - 1)%nat ltac:(lia) ltac:(lia)). unfold mid in B2. rewrite Nat.eqb_refl in B2. rewrite <- B2. unfold mmul, m.
      apply sumZ_ext. intros i Hi. replace (1 + (d - 1))%nat with d by lia. reflexivity. }
    assert (NZm : exists i, (i < d)%nat /\ m i <> 0%Z).
    { assert (N : sumZ d (fun i => P (1 + i)%nat d * m i)%Z <> 0%Z) by (rewrite PR; discriminate).
      apply sumZ_nz in N as (i & Hi & Ni). exists i. split; [exact Hi|]. intros E. apply Ni. rewrite E. ring. }
    split; [split|].
    + eapply eq_trans; [|exact RS]. apply sumR_ext. intros i Hi. now rewrite EM.
    + destruct NZm as (i & Hi & Ni). exists i. split; [exact Hi|]. now rewrite EM.
    + exists (fun i => P (1 + i)%nat d). eapply eq_trans; [|exact PR]. apply sumZ_ext. intros i Hi. now rewrite EM.
  - right. destruct F as (-> & L0 & G & NR & mx & MX & MB). split; [reflexivity|]. intros m (RE & RN).
    assert (NR' : forall i, (i < d)%nat -> mget 0 (ggetR fp d (d + 1) z) i i <> 0).
    { intros i Hi. rewrite (getR_upper fp X), Nat.leb_refl by lia. now apply NR. }
    assert (HA' : forall i j, (i < d)%nat -> (j < d + 1)%nat -> mget 0 A i j = if (j <? 1)%nat then a i else if (j =? 1 + i)%nat then 1 else 0).
    { intros i j Hi Hj. rewrite HA by assumption. destruct j; reflexivity. }
    pose proof (C96_relation_bound fp rt d (d + 1) 1 false gap epsilon ubound X XR TF eq_refl (fun _ => a) J A res fuel gamma 1 size (-1) z HA' H L0 NR' m mx
                  ltac:(intros j _; exact RE) RN) as B.
    specialize (B ltac:(intros i Hi; rewrite (getR_upper fp X), Nat.leb_refl by lia; now apply MX)).
    set (N2 := IZR (sumZ d (fun i => m i * m i)%Z)) in *. set (K := 2 ^ Z.to_nat size - 1) in *.
    assert (K0 : 0 <= K) by (unfold K; pose proof (pow_R1_Rle 2 (Z.to_nat size) ltac:(lra)); lra).
    assert (M0 : 0 <= mx) by (pose proof (MX (d - 1)%nat ltac:(lia)) as Q; pose proof (Rabs_pos (mget (fzero fp) (gR z) (d - 1) (d - 1))); lra).
    assert (N0 : 0 <= N2) by (unfold N2; apply IZR_le; clear; induction d as [|k IH]; cbn [sumZ]; [lia|nia]).
    assert (T1 : (mx * K) * (mx * K) <= 1) by (assert (0 <= mx * K) by nra; nra).
    apply (Rle_trans _ (K * K * (mx * mx * N2))); [nra|]. replace (K * K * (mx * mx * N2)) with ((mx * K) * (mx * K) * N2) by ring. nra.
Qed.

(** with the conditions of C97: decomp answers, and when a relation shorter than 2^size - 1 exists the answer is a relation *)
Theorem C98_complete :
  forall (fp : fpops R) (rt : rtops R R) d gap epsilon ubound,
  exact_types fp rt -> exact_gap rt -> (1 < d)%nat -> epsilon <= 0 ->
  forall (a : nat -> R) J A res gamma size m,
  rel_input d a A res -> a (d - 1)%nat <> 0 -> 1 <= gamma -> 4 / 3 < gamma * gamma ->
  relation d a m -> IZR (sumZ d (fun i => m i * m i)%Z) < (2 ^ Z.to_nat size - 1) * (2 ^ Z.to_nat size - 1) ->
  exists N, forall fuel, (N <= fuel)%nat -> exists z,
    gdecomp fp rt d (d + 1) 1 false gap epsilon ubound fuel gamma 1 size (new_fgas rt d (d + 1) 1 false J A res) = Ok (0%Z, z) /\
    relation d a (fun i => fn (ggetV (d + 1) z) (1 + i)%nat d) /\ primitive d (fun i => fn (ggetV (d + 1) z) (1 + i)%nat d).
Proof.
  intros fp rt d gap epsilon ubound XT XG D2 EPS a J A res gamma size m RI AN G1 G43 RM LT.
  destruct (C97_relation_returns fp rt d false gap epsilon ubound XT (proj1 XG) D2 a J A res gamma size 1 RI AN G1 G43 ltac:(lia)) as (N & HN).
  exists N. intros fuel Hf. destruct (HN fuel Hf) as (ret & z & H & _). exists z.
  destruct (C98_found_or_none fp rt d gap epsilon ubound XT XG D2 EPS a J A res fuel gamma size ret z RI AN H) as [(-> & B)|(_ & B)]; [split; assumption|].
  exfalso. specialize (B m RM). lra.
Qed.

(** relations_hjls for one vector of n reals.  jB: the entries of the work matrix that hjls.cc 77-81 leaves uninitialised; here they
    hold 0 (C98_uninitialised_refuted: what happens with the NaNs of new mpfr variables).  The bound on the bit size is 2^63 - 1. *)
Lemma hj_prod_sum {F} (rt : rtops F R) n A C i j : rt_exact rt -> (0 < n)%nat ->
  hj_prod rt n A C i j = sumR n (fun k => mget 0 A i k * IZR (fn C k j)).
Proof.
  intros X Dn. unfold hj_prod. destruct X as [x0 _ _ xm xam _ _ _ xz0]. rewrite x0.
  assert (Q : forall m a, fold_left (fun acc k => taddmul rt acc (mget 0%R A i k) (tofz rt (fn C k j))) (seq 1 m) a
                 = (a + sumR m (fun k => mget 0 A i (S k) * IZR (fn C (S k) j)))%R).
  { induction m as [|m IH]; intros a; [cbn; lra|]. rewrite seq_S, fold_left_app, IH. cbn [fold_left sumR].
    rewrite xam, xz0. cbn [Nat.add]. lra. }
  rewrite Q, xm, xz0. replace n with (1 + (n - 1))%nat at 2 by lia. rewrite sumR_split. cbn [sumR Nat.add]. lra.
Qed.

Theorem C98_relations_hjls :
  forall (fp : fpops R) (rt : rtops R R) n gap ubound,
  exact_types fp rt -> exact_gap rt -> (1 < n)%nat ->
  forall J A gamma m k,
  1 <= gamma -> 4 / 3 < gamma * gamma -> mget 0 A 0 (n - 1) <> 0 ->
  relation n (mget 0 A 0) m -> (Z.of_nat k <= 2 ^ 63 - 1)%Z -> IZR (sumZ n (fun i => m i * m i)%Z) < (2 ^ k - 1) * (2 ^ k - 1) ->
  exists N, forall fuel, (N <= fuel)%nat -> exists C,
    relations_hjls fp rt 1 n 1 gap 0 ubound fuel gamma J (fun _ _ => 0) A = Ok (1%Z, C) /\
    relation n (mget 0 A 0) (fun i => fn C i 0%nat) /\ primitive n (fun i => fn C i 0%nat).
Proof.
  intros fp rt n gap ubound XT XG N2 J A gamma m k G1 G43 AN RM HK LT.
  destruct XT as (X & XR & TF & HALF & FSF). pose proof (te_zero _ XR) as T0.
  set (B := hj_input rt 1 n (fun _ _ => 0) A). remember (2 ^ 63 - 1)%Z as size eqn:ES.
  assert (RI : rel_input n (mget 0 A 0) B B).
  { split.
    - intros i j Hi Hj. unfold B, hj_input. rewrite mget_mtab by lia. rewrite T0, (te_ofz _ XR). destruct j; reflexivity.
    - intros i Hi. unfold B, hj_input. rewrite mget_mtab by lia. now rewrite T0. }
  assert (BND : IZR (sumZ n (fun i => m i * m i)%Z) < (2 ^ Z.to_nat size - 1) * (2 ^ Z.to_nat size - 1)).
  { eapply Rlt_le_trans; [exact LT|]. assert (P : 2 ^ k <= 2 ^ Z.to_nat size) by (apply Rle_pow; [lra|lia]).
    pose proof (pow_R1_Rle 2 k ltac:(lra)) as P1. apply Rmult_le_compat; lra. }
  destruct (C98_complete fp rt n gap 0 ubound (conj X (conj XR (conj TF (conj HALF FSF)))) XG N2 ltac:(lra) (mget 0 A 0) J B B gamma size m RI AN G1 G43 RM BND)
    as (N & HN).
  exists N. intros fuel Hf. destruct (HN fuel Hf) as (z & H & (RE & RN) & PR).
  set (C := mtab n 1 (fun i j => fn (ggetV (n + 1) z) (1 + i)%nat (n + 1 - 1 + j)%nat)). exists C.
  assert (CV : forall i, (i < n)%nat -> fn C i 0%nat = fn (ggetV (n + 1) z) (1 + i)%nat n).
  { intros i Hi. unfold C. rewrite fn_mtab by lia. f_equal. lia. }
  assert (RC : sumR n (fun i => mget 0 A 0 i * IZR (fn C i 0%nat)) = 0).
  { eapply eq_trans; [|exact RE]. apply sumR_ext. intros i Hi. now rewrite CV. }
  split; [|split].
  - unfold relations_hjls. cbv zeta. fold B. change (Z.of_nat 1) with 1%Z. 
    rewrite <- ES.
    rewrite H. cbn [bind]. change (0 =? -1)%Z with false. cbv iota.
    replace (1 <=? n + 1)%nat with true by (symmetry; apply Nat.leb_le; lia). unfold guard. fold C.
    cbn [seq filter forallb]. rewrite (hj_prod_sum rt n A C 0 0 XR ltac:(lia)), RC, (te_abs _ XR), Rabs_R0.
    assert (E : tgt rt 0 0 = false). { destruct (tgt rt 0 0) eqn:E; [|reflexivity]. apply (te_gt _ XR) in E. lra. }
    rewrite E. reflexivity.
  - split; [exact RC|]. destruct RN as (i & Hi & Ni). exists i. split; [exact Hi|]. now rewrite CV.
  - destruct PR as (u & U). exists u. eapply eq_trans; [|exact U]. apply sumZ_ext. intros i Hi. now rewrite CV.
Qed.

(** ** The hypotheses are met: the vector (3, 5), gamma = 2, a bound of 3 bits; the relation (5, -3) has length sqrt 34 < 2^3 - 1,
    and decomp returns a primitive relation *)
Definition rt3 : rtops R R := mkRT R R 0%R Rplus Rminus Rmult (fun r a b => r + a * b)%R (fun r a b => r - a * b)%R
  Rdiv Rabs (fun a b => if Rgt_dec a b then true else false) (fun x => if Req_EM_T x 0 then true else false) IZR (fun x => x).
Lemma exact_gap_case : exact_types Rfp0 rt3 /\ exact_gap rt3.
Proof.
  destruct exact_types_case as [(X & _ & _ & H & F) _]. split; [split; [exact X|]; split; [|split; [reflexivity|split; [exact H|exact F]]]|split].
  - constructor; try reflexivity. intros a b. cbn. destruct (Rgt_dec a b); split; intros; try assumption; congruence.
  - intros y. cbn. destruct (Req_EM_T _ _) as [|N]; [reflexivity|]. elim N. unfold Rdiv. ring.
  - intros x y N. cbn. destruct (Req_EM_T _ _) as [E|]; [|discriminate]. intros _. unfold Rdiv in E. apply Rmult_integral in E as [E|E]; [exact E|].
    apply Rinv_neq_0_compat in N. tauto.
Qed.
Definition m98 (i : nat) : Z := if (i =? 0)%nat then 5%Z else (-3)%Z.
Example C98_case : forall J, exists N, forall fuel, (N <= fuel)%nat -> exists z,
  gdecomp Rfp0 rt3 2 3 1 false (fun _ => false) 0 1000 fuel 2 1 3 (new_fgas rt3 2 3 1 false J A97 [[3; 5]]) = Ok (0%Z, z) /\
  relation 2 a97 (fun i => fn (ggetV 3 z) (1 + i)%nat 2%nat) /\ primitive 2 (fun i => fn (ggetV 3 z) (1 + i)%nat 2%nat).
Proof.
  intros J. destruct exact_gap_case as [XT XG].
  apply (C98_complete Rfp0 rt3 2 (fun _ => false) 0 1000 XT XG ltac:(lia) ltac:(lra) a97 J A97 [[3; 5]] 2 3 m98); try lra.
  - split; intros i.
    + intros j Hi Hj. destruct i as [|[|i]]; [| |lia]; (destruct j as [|[|[|j]]]; [| | |lia]); reflexivity.
    + intros Hi. destruct i as [|[|i]]; [reflexivity|reflexivity|lia].
  - unfold a97. cbn [Nat.eqb Nat.sub]. lra.
  - split; [unfold a97, m98; cbn [sumR Nat.eqb]; lra|]. exists 0%nat. split; [lia|discriminate].
  - replace (sumZ 2 (fun i => m98 i * m98 i)%Z) with 34%Z by reflexivity. replace (Z.to_nat 3) with 3%nat by reflexivity. cbn [pow]. lra.
Qed.

Example C98_hjls_case : forall J, exists N, forall fuel, (N <= fuel)%nat -> exists C,
  relations_hjls Rfp0 rt3 1 2 1 (fun _ => false) 0 1000 fuel 2 J (fun _ _ => 0) [[3]; [5]] = Ok (1%Z, C) /\
  relation 2 (mget 0 [[3]; [5]] 0) (fun i => fn C i 0%nat) /\ primitive 2 (fun i => fn C i 0%nat).
Proof.
  intros J. destruct exact_gap_case as [XT XG]. apply (C98_relations_hjls Rfp0 rt3 2 (fun _ => false) 1000 XT XG ltac:(lia) J [[3]; [5]] 2 m98 3); try lra.
  - cbn. lra.
  - split; [unfold m98; cbn; lra|]. exists 0%nat. split; [lia|discriminate].
  - reflexivity || discriminate || lia.
  - replace (sumZ 2 (fun i => m98 i * m98 i)%Z) with 34%Z by reflexivity. cbn [pow]. lra.
Qed.

(** with the entries that hjls.cc 77-81 leaves uninitialised holding 0, as assumed above, the relation (-2,-1,1) of (2,3,7) is found in
    at most 60 turns; holding NaN, as new mpfr variables do, the search is not finished after 1000 turns (both over doubles) *)
Theorem C98_uninitialised_refuted :
  ~ (forall F T (fp : fpops F) (rt : rtops F T) d n nbrel gap epsilon ubound fuel fuel' gamma J jB jB' A r C,
       relations_hjls fp rt d n nbrel gap epsilon ubound fuel gamma J jB A = Ok (r, C) -> (fuel <= fuel')%nat ->
       relations_hjls fp rt d n nbrel gap epsilon ubound fuel' gamma J jB' A = Ok (r, C)).
Proof.
  intros H.
  pose proof (H _ _ dbl rtd 1%nat 3%nat 1%nat gapd 0x1p-40%float 1000%Z 60%nat 1000%nat g11 Jz Z2 (fun _ _ => PrimFloat.nan) Arow 1%Z [[-2; -1; 1]]%Z
    ltac:(vm_compute; reflexivity) ltac:(lia)) as E.
  assert (N : match relations_hjls dbl rtd 1 3 1 gapd 0x1p-40%float 1000 1000 g11 Jz (fun _ _ => PrimFloat.nan) Arow with NoFuel => True | _ => False end)
    by (vm_compute; exact I).
  rewrite E in N. exact N.
Qed.

Print Assumptions C98_found_or_none.
Print Assumptions C98_complete.
Print Assumptions C98_relations_hjls.

Print Assumptions C98_uninitialised_refuted.
