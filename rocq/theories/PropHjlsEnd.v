(** * C97: Fgas::decomp returns (exact arithmetic), and after how many turns *)
From Coq Require Import ZArith Lia List Bool Arith Reals Lra.
From Verif Require Import Base Spec SpecReal Mat FP Hlll LinDep Structure Safety ZFgas Fgas FgasInt FgasExact FgasSafe FgasSafe2 Exact HHMath
  HjlsBound RGram HjlsTurn HjlsTurn2 HjlsEnd HjlsEnd2 HjlsHit RInd Nullspace NullHjls Hjls Restart PropKernel PropFgas PropExact PropHjls.
Import ListNotations.
Local Open Scope R_scope.

(** the floating-point types do not round: [exact], [rt_exact]; the conversion from FP_NR<RT> to FP_NR<FT> is the identity;
    the rounding to the nearest integer sends [-1/2, 1/2] to 0; the conversion to an integer is off by at most one. *)
Definition exact_types (fp : fpops R) (rt : rtops R R) : Prop :=
  exact fp /\ rt_exact rt /\ (forall x, tfp rt x = x) /\ (forall x, Rabs x <= / 2 -> frnd fp x = 0) /\
  (forall x, Rabs (x - IZR (fset_f fp x)) <= 1).

(** fuel: a bound on the number of turns of each loop.  [turns_enough d D gamma size M fuel] says that it exceeds
    about log (M^(D^2) ((2^size + 1) gamma^d)^(2 D^2)) / log (1 / (1/4 + 1/gamma^2)). *)
Definition turns_enough (d D : nat) (gamma : R) (size : Z) (M : R) (fuel : nat) : Prop :=
  (2 <= fuel)%nat /\
  (/ 4 + / (gamma * gamma)) ^ (fuel - 1) * M ^ (D * D) <
  (/ ((2 ^ Z.to_nat size + 1) * gamma ^ d) * / ((2 ^ Z.to_nat size + 1) * gamma ^ d)) ^ (D * D).

(** ** One column *)
(** no residue (dec = 0): the search for one element of the kernel dimension (target dimension 1).  If the first d
    columns are independent and of squared length at most M, decomp ends within that number of turns. *)
Theorem C97_decomp_ends :
  forall (fp : fpops R) (rt : rtops R R) d n transf gap epsilon ubound,
  exact_types fp rt -> gap 0 = true -> (0 < d <= n)%nat ->
  forall J A res gamma size target M fuel,
  1 <= gamma -> 4 / 3 <= gamma * gamma -> (target <= 1)%Z -> 1 <= M ->
  (forall c : nat -> R, (forall i, (i < d)%nat -> sumR d (fun j => mget 0 A i j * c j) = 0) -> forall j, (j < d)%nat -> c j = 0) ->
  (forall j, (j < d)%nat -> sumR d (fun i => mget 0 A i j * mget 0 A i j) <= M) ->
  turns_enough d d gamma size M fuel ->
  gdecomp fp rt d n 0 transf gap epsilon ubound fuel gamma target size (new_fgas rt d n 0 transf J A res) <> NoFuel.
Proof.
  intros fp rt d n transf gap epsilon ubound (X & XR & TF & HALF & FSF) G0 (D0 & DN) J A res gamma size target M fuel G1 G43 T1 M1 IND CM (F2 & B).
  destruct (start_Q fp rt X XR TF HALF d n 0 transf gap epsilon DN J A res M D0 IND CM) as (x & QZ & NZ & XM).
  set (g := fold_left (fun g i => g ++ [fmul fp (nth (i - 1) g (fzero fp)) gamma]) (seq 1 (d - 1)) [gamma]).
  destruct (glist_d fp rt X TF HALF d n 0 gap epsilon DN gamma D0 G1) as [GL GN].
  apply (gdecomp_nf fp rt X XR TF HALF d n 0 transf gap epsilon ubound DN gamma G1 g GL GN size FSF G43 (fun _ => True) ltac:(auto)
           (fun z x dg mY p _ => hit0 fp rt X TF HALF d n 0 gap epsilon DN eq_refl G0 D0 z x dg mY p) target T1 ltac:(lia) eq_refl fuel _ x M); auto.
  now rewrite Nat.sub_0_r.
Qed.

(** ** The search for an integer relation *)
(** dec = 1, the matrix [a | I] of the vector a of d reals whose last coordinate is not zero, and the residue a *)
Definition rel_input (d : nat) (a : nat -> R) (A res : mat R) : Prop :=
  (forall i j, (i < d)%nat -> (j < d + 1)%nat -> mget 0 A i j = if (j =? 0)%nat then a i else if (j =? 1 + i)%nat then 1 else 0) /\
  (forall i, (i < d)%nat -> mget 0 res i 0 = a i).

Theorem C97_relation_ends :
  forall (fp : fpops R) (rt : rtops R R) d transf gap epsilon ubound,
  exact_types fp rt -> (forall y, tgap rt (tdiv rt 0 y) = true) -> (1 < d)%nat ->
  forall (a : nat -> R) J A res gamma size target M fuel,
  rel_input d a A res -> a (d - 1)%nat <> 0 ->
  1 <= gamma -> 4 / 3 <= gamma * gamma -> (target <= 1)%Z -> 1 <= M -> sumR d (fun i => a i * a i) <= M ->
  turns_enough d (d - 1) gamma size M fuel ->
  gdecomp fp rt d (d + 1) 1 transf gap epsilon ubound fuel gamma target size (new_fgas rt d (d + 1) 1 transf J A res) <> NoFuel.
Proof.
  intros fp rt d transf gap epsilon ubound (X & XR & TF & HALF & FSF) TG D2 a J A res gamma size target M fuel (HA & HR) AN G1 G43 T1 M1 CM (F2 & B).
  assert (DN : (d <= d + 1)%nat) by lia. assert (D0 : (0 < d)%nat) by lia.
  assert (IND : indep d d (fun j i => mget 0 A i j)).
  { intros c Hc. assert (C0 : c 0%nat = 0).
    { pose proof (Hc (d - 1)%nat ltac:(lia)) as E. rewrite (sumR_single d 0) in E; [|lia|].
      - rewrite HA in E by lia. cbn [Nat.eqb] in E. apply Rmult_integral in E. tauto.
      - intros l Hl N. rewrite HA by lia. replace (l =? 0)%nat with false by (symmetry; now apply Nat.eqb_neq).
        replace (l =? 1 + (d - 1))%nat with false by (symmetry; apply Nat.eqb_neq; lia). ring. }
    intros j Hj. destruct (Nat.eq_dec j 0) as [->|N]; [exact C0|]. pose proof (Hc (j - 1)%nat ltac:(lia)) as E. rewrite (sumR_single d j) in E; [|lia|].
    - rewrite HA in E by lia. replace (j =? 0)%nat with false in E by (symmetry; now apply Nat.eqb_neq).
      replace (j =? 1 + (j - 1))%nat with true in E by (symmetry; apply Nat.eqb_eq; lia). lra.
    - intros l Hl Nl. destruct (Nat.eq_dec l 0) as [->|N0]; [rewrite C0; ring|]. rewrite HA by lia.
      replace (l =? 0)%nat with false by (symmetry; now apply Nat.eqb_neq). replace (l =? 1 + (j - 1))%nat with false by (symmetry; apply Nat.eqb_neq; lia). ring. }
  assert (CM' : forall j, (j < d)%nat -> sumR d (fun i => mget 0 A i j * mget 0 A i j) <= M).
  { intros j Hj. destruct (Nat.eq_dec j 0) as [->|N].
    - eapply Rle_trans; [|exact CM]. right. apply sumR_ext. intros i Hi. rewrite HA by lia. reflexivity.
    - eapply Rle_trans; [|exact M1]. right. rewrite (sumR_single d (j - 1)); [|lia|].
      + rewrite HA by lia. replace (j =? 0)%nat with false by (symmetry; now apply Nat.eqb_neq).
        replace (j =? 1 + (j - 1))%nat with true by (symmetry; apply Nat.eqb_eq; lia). ring.
      + intros i Hi Ni. rewrite HA by lia. replace (j =? 0)%nat with false by (symmetry; now apply Nat.eqb_neq).
        replace (j =? 1 + i)%nat with false by (symmetry; apply Nat.eqb_neq; lia). ring. }
  destruct (start_Q fp rt X XR TF HALF d (d + 1) 1 transf gap epsilon DN J A res M D0 IND CM') as (x & QZ & NZ & XM).
  set (g := fold_left (fun g i => g ++ [fmul fp (nth (i - 1) g (fzero fp)) gamma]) (seq 1 (d - 1)) [gamma]).
  destruct (glist_d fp rt X TF HALF d (d + 1) 1 gap epsilon DN gamma D0 G1) as [GL GN].
  apply (gdecomp_nf fp rt X XR TF HALF d (d + 1) 1 transf gap epsilon ubound DN gamma G1 g GL GN size FSF G43 (Inv1 d (d + 1) 1 transf a)
           ltac:(intros u v; apply (Inv1_steps rt XR d (d + 1) 1 transf eq_refl a))
           (fun z x dg mY p => hit1 fp rt XR TF HALF d (d + 1) 1 transf gap epsilon DN eq_refl eq_refl a TG D2 z x dg mY p) target T1 D2 eq_refl fuel _ x M); auto.
  (* the new object *)
  exists mid. split; [apply new_tinv|]. apply (start_einv rt d (d + 1) 1 transf); try assumption; try reflexivity.
  - apply mtab_wfm.
  - intros _. apply mtab_wfm.
  - apply new_tinv.
  - intros i j Hi Hj. now apply id_mat_fn.
  - intros i j Hi Hj. cbn [new_fgas gx xF]. rewrite mget_mtab by lia. rewrite (te_zero _ XR). now apply HA.
  - intros i j Hi Hj. replace j with 0%nat by lia. cbn [new_fgas gx xY]. change (0 <? 1)%nat with true. cbv iota. rewrite mget_mtab by lia.
    rewrite (te_zero _ XR). now apply HR.
Qed.

(** ** In both cases a number of turns is enough, and the function returns *)
Lemma enough_exists d D gamma size M : 4 / 3 < gamma * gamma -> 1 <= gamma -> 1 <= M -> exists N, forall fuel, (N <= fuel)%nat -> turns_enough d D gamma size M fuel.
Proof.
  intros G43 G1 M1. set (L := (/ ((2 ^ Z.to_nat size + 1) * gamma ^ d) * / ((2 ^ Z.to_nat size + 1) * gamma ^ d)) ^ (D * D)).
  pose proof (pow_lt 2 (Z.to_nat size) ltac:(lra)) as P2. pose proof (pow_lt gamma d ltac:(lra)) as PG.
  assert (L0 : 0 < L).
  { unfold L. apply pow_lt. assert (0 < / ((2 ^ Z.to_nat size + 1) * gamma ^ d)) by (apply Rinv_0_lt_compat; nra). nra. }
  assert (M0 : 0 < M ^ (D * D)) by (apply pow_lt; lra).
  set (t := / 4 + / (gamma * gamma)). pose proof (Rinv_0_lt_compat (gamma * gamma) ltac:(lra)) as I0.
  assert (I1 : / (gamma * gamma) < / (4 / 3)) by (apply Rinv_lt_contravar; nra). replace (/ (4 / 3)) with (3 / 4) in I1 by field.
  destruct (pow_lt_1_zero t ltac:(rewrite Rabs_pos_eq; unfold t; lra) (L / M ^ (D * D)) ltac:(apply Rdiv_lt_0_compat; assumption)) as (N & HN).
  exists (N + 2)%nat. intros fuel Hf. split; [lia|]. fold t. fold L. specialize (HN (fuel - 1)%nat ltac:(lia)).
  rewrite Rabs_pos_eq in HN by (apply pow_le; unfold t; lra). apply Rmult_lt_compat_r with (r := M ^ (D * D)) in HN; [|exact M0].
  unfold Rdiv in HN. rewrite Rmult_assoc, Rinv_l, Rmult_1_r in HN by lra. exact HN.
Qed.

Lemma gdecomp_out (fp : fpops R) (rt : rtops R R) d n dec transf gap epsilon ubound fuel gamma target size (J : junk_t (F := R)) A res :
  (dec < d < n)%nat -> (target <= 1)%Z ->
  let r := gdecomp fp rt d n dec transf gap epsilon ubound fuel gamma target size (new_fgas rt d n dec transf J A res) in
  (dec = 0 \/ n = d + dec)%nat -> r <> NoFuel -> exists ret z, r = Ok (ret, z) /\ ((ret = 0 /\ target <= Z.of_nat (gldim z)) \/ ret = -1)%Z.
Proof.
  intros Hd T1 r Hn NF. destruct r as [[ret z]| |] eqn:E; [|exfalso|now elim NF].
  - exists ret, z. split; [reflexivity|]. unfold r in E. apply gdecomp_steps in E as (_ & [(A1 & A2 & _)|B1]); auto.
  - revert E. unfold r. eapply safe_no_UB. apply gdecomp_safe; try lia; [apply new_fgas_wf|cbn; lia].
Qed.

Theorem C97_decomp_returns :
  forall (fp : fpops R) (rt : rtops R R) d n transf gap epsilon ubound,
  exact_types fp rt -> gap 0 = true -> (0 < d < n)%nat ->
  forall J A res gamma size target, 1 <= gamma -> 4 / 3 < gamma * gamma -> (target <= 1)%Z ->
  (forall c : nat -> R, (forall i, (i < d)%nat -> sumR d (fun j => mget 0 A i j * c j) = 0) -> forall j, (j < d)%nat -> c j = 0) ->
  exists N, forall fuel, (N <= fuel)%nat -> exists ret z,
    gdecomp fp rt d n 0 transf gap epsilon ubound fuel gamma target size (new_fgas rt d n 0 transf J A res) = Ok (ret, z) /\
    ((ret = 0 /\ target <= Z.of_nat (gldim z)) \/ ret = -1)%Z.
Proof.
  intros fp rt d n transf gap epsilon ubound XT G0 Hd J A res gamma size target G1 G43 T1 IND.
  set (M := 1 + sumR d (fun j => sumR d (fun i => mget 0 A i j * mget 0 A i j))).
  assert (SQ : forall j, 0 <= sumR d (fun i => mget 0 A i j * mget 0 A i j)).
  { intros j. apply sumR_nonneg. intros i _. pose proof (Rle_0_sqr (mget 0 A i j)) as Q. exact Q. }
  assert (SS : 0 <= sumR d (fun j => sumR d (fun i => mget 0 A i j * mget 0 A i j))) by (apply sumR_nonneg; auto).
  destruct (enough_exists d d gamma size M G43 G1 ltac:(unfold M; lra)) as (N & HN). exists N. intros fuel Hf.
  apply gdecomp_out; auto. apply (C97_decomp_ends fp rt d n transf gap epsilon ubound XT G0 ltac:(lia) J A res gamma size target M fuel); auto; try lra.
  - unfold M. lra.
  - intros j Hj. unfold M. pose proof (sumR_term d (fun j => sumR d (fun i => mget 0 A i j * mget 0 A i j)) j (fun j _ => SQ j) Hj) as Q. cbv beta in Q. lra.
Qed.

Theorem C97_relation_returns :
  forall (fp : fpops R) (rt : rtops R R) d transf gap epsilon ubound,
  exact_types fp rt -> (forall y, tgap rt (tdiv rt 0 y) = true) -> (1 < d)%nat ->
  forall (a : nat -> R) J A res gamma size target,
  rel_input d a A res -> a (d - 1)%nat <> 0 -> 1 <= gamma -> 4 / 3 < gamma * gamma -> (target <= 1)%Z ->
  exists N, forall fuel, (N <= fuel)%nat -> exists ret z,
    gdecomp fp rt d (d + 1) 1 transf gap epsilon ubound fuel gamma target size (new_fgas rt d (d + 1) 1 transf J A res) = Ok (ret, z) /\
    ((ret = 0 /\ target <= Z.of_nat (gldim z)) \/ ret = -1)%Z.
Proof.
  intros fp rt d transf gap epsilon ubound XT TG D2 a J A res gamma size target RI AN G1 G43 T1.
  set (M := 1 + sumR d (fun i => a i * a i)).
  assert (SQ : 0 <= sumR d (fun i => a i * a i)) by (apply sumR_nonneg; intros i _; pose proof (Rle_0_sqr (a i)) as Q; exact Q).
  destruct (enough_exists d (d - 1) gamma size M G43 G1 ltac:(unfold M; lra)) as (N & HN). exists N. intros fuel Hf.
  apply gdecomp_out; try lia. apply (C97_relation_ends fp rt d transf gap epsilon ubound XT TG D2 a J A res gamma size target M fuel); auto; try lra; unfold M; lra.
Qed.

(** ** The hypotheses are met: exact arithmetic, gap = 0 detected; the vector (3, 5), gamma = 2, a bound of 3 bits: 17 turns *)
Definition rt2 : rtops R R := mkRT R R 0%R Rplus Rminus Rmult (fun r a b => r + a * b)%R (fun r a b => r - a * b)%R
  Rdiv Rabs (fun a b => if Rgt_dec a b then true else false) (fun x => if Rlt_dec (Rabs x) (/ 1000) then true else false) IZR (fun x => x).
Lemma exact_types_case : exact_types Rfp0 rt2 /\ forall y, tgap rt2 (tdiv rt2 0 y) = true.
Proof.
  split; [split; [exact Rfp0_exact|]; split; [|split; [reflexivity|split; [exact Rfp0_half|]]]|].
  - constructor; try reflexivity. intros a b. cbn. destruct (Rgt_dec a b); split; intros; try assumption; congruence.
  - intros x. change (fset_f Rfp0 x) with (Rnear x). pose proof (Rnear_spec x). lra.
  - intros y. cbn. destruct (Rlt_dec _ _) as [|N]; [reflexivity|]. elim N. unfold Rdiv. rewrite Rmult_0_l, Rabs_R0. lra.
Qed.

Definition a97 (i : nat) : R := if (i =? 0)%nat then 3 else 5.
Definition A97 : mat R := [[3; 5]; [1; 0]; [0; 1]].
Example C97_case : forall transf J, exists ret z,
  gdecomp Rfp0 rt2 2 3 1 transf (fun _ => false) 0 1000 17 2 1 3 (new_fgas rt2 2 3 1 transf J A97 [[3; 5]]) = Ok (ret, z) /\
  ((ret = 0 /\ 1 <= Z.of_nat (gldim z)) \/ ret = -1)%Z.
Proof.
  intros transf J. destruct exact_types_case as [XT TG]. apply gdecomp_out; try lia.
  apply (C97_relation_ends Rfp0 rt2 2 transf (fun _ => false) 0 1000 XT TG ltac:(lia) a97 J A97 [[3; 5]] 2 3 1 34 17); try lra; try lia.
  - split; intros i.
    + intros j Hi Hj. destruct i as [|[|i]]; [| |lia]; (destruct j as [|[|[|j]]]; [| | |lia]); reflexivity.
    + intros Hi. destruct i as [|[|i]]; [reflexivity|reflexivity|lia].
  - unfold a97. cbn [Nat.eqb Nat.sub]. lra.
  - unfold a97. cbn [sumR Nat.eqb]. lra.
  - split; [lia|]. replace (Z.to_nat 3) with 3%nat by reflexivity. cbn [Nat.sub Nat.mul Nat.add pow]. lra.
Qed.

Print Assumptions C97_decomp_ends.
Print Assumptions C97_relation_ends.
Print Assumptions C97_decomp_returns.
Print Assumptions C97_relation_returns.
