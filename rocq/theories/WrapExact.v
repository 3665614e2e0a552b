(** * The staged wrapper in exact arithmetic: it ends and what it returns is reduced *)
From Coq Require Import ZArith Lia Reals Lra List Bool Arith.
From Verif Require Import Base Spec Mat FP Hlll Hlll2 IntSteps HlllInt Structure Object Counters SpecReal SpecSeysen Det Fresh Cache Cache6 Cache7
  Exact ExactPot ExactTop SeysenTop SlllInt Wrap WrapFacts Fuel PropExact PropSeysen.
Import ListNotations.
Local Open Scope R_scope.

(** [red] on real numbers is the first parametrised definition of Wrap.v *)
Lemma new_fresh (fp : fpops R) J n d A u m : new_lattice fp J n d A u m true 0 = fresh_object fp J n d A u m true 0 1 1000000 4294967295.
Proof. reflexivity. Qed.

Section Red.
Variable fp : fpops R.
Hypothesis X : exact fp.

Lemma red_indep fuel delta junk J n d A m C : red fp fuel delta junk J n d A m = Ok C -> independent n d (fn A) ->
  independent n d (fn C) /\ exists U, unimodular d U /\ meq n d (fn C) (mmul d (fn A) U).
Proof using X.
  intros H I. unfold red in H. binv H. destruct a as [r L]. apply Okinj in H. subst C.
  set (L0 := new_lattice fp J n d A false m true 0) in *.
  apply hlll_inv in Ha as (E & SP & _); [|apply (e_expo fp X)|apply mtab_wfm].
  assert (B0 : bok (lcfg L0) (li L0)) by apply bok_init, mtab_wfm.
  destruct (istepsP_bok (lcfg L0) (li L0) (li L) SP B0) as (_ & U & UU & EU).
  change (cn (lcfg L0)) with n in EU. change (cd (lcfg L0)) with d in EU, UU.
  assert (EC : meq n d (fn (getbase L)) (mmul d (fn A) U)).
  { intros i j Hi Hj. unfold getbase. rewrite E. change (cn (lcfg L0)) with n. change (cd (lcfg L0)) with d. rewrite fn_mtab by assumption.
    rewrite EU by assumption. unfold mmul. apply sumZ_ext. intros k Hk. f_equal. unfold L0, new_lattice. cbn [li iB]. now rewrite fn_mtab. }
  split; [|now exists U]. now apply (Spec.independent_mul n d (fn A) U).
Qed.

Lemma red_ok fuel delta junk J n d A m : independent n d (fn A) -> delta <= 1 ->
  match red fp fuel delta junk J n d A m with
  | Ok C => (2 <= d)%nat -> (Z.of_nat fuel < 4294967295)%Z ->
      ((m < 1)%Z -> LLL_reduced n d delta (fn C)) /\ ((1 <= m)%Z -> Seysen_LLL_reduced n d delta (fn C))
  | UB => False
  | NoFuel => (forall x, Rabs x <= / 2 -> frnd fp x = 0) -> (Z.of_nat fuel < 2 * potential n d (fn A) + Z.of_nat d + 1)%Z
  end.
Proof using X.
  intros I HD. unfold red. rewrite new_fresh. set (L0 := fresh_object _ _ _ _ _ _ _ _ _ _ _ _).
  pose proof (hlll_tests fp fuel delta true junk L0) as T. destruct (Z_lt_le_dec m 1) as [Hm|Hm].
  - pose proof (hlll_exact_fresh fp X J n d A false m true 0 1000000 4294967295 fuel delta true junk I Hm) as Q.
    fold L0 in Q. destruct (hlll fp fuel delta true junk L0) as [[r L]| |] eqn:E; cbn [bind]; [|contradiction|intros HH; now apply Q].
    destruct Q as ([(-> & _)|(_ & Q)] & _); [|lra]. intros D2 FU. split; [|lia]. intros _.
    specialize (T _ _ eq_refl). cbn [L0 fresh_object set_nblov_max set_num_S new_lattice lc nblov] in T.
    apply (C04_exact_hlll_reduces fp X J n d A false m true 0 1000000 4294967295 D2 I Hm fuel delta true junk L E ltac:(lia)).
  - pose proof (seysen_exact_fresh fp X J n d A false m 0 1000000 4294967295 fuel delta true junk I Hm) as Q.
    fold L0 in Q. destruct (hlll fp fuel delta true junk L0) as [[r L]| |] eqn:E; cbn [bind]; [|contradiction|intros HH; now apply Q].
    destruct Q as ([(-> & _)|(_ & Q)] & _); [|lra]. intros D2 FU. split; [lia|]. intros _.
    specialize (T _ _ eq_refl). cbn [L0 fresh_object set_nblov_max set_num_S new_lattice lc nblov] in T.
    apply (C73_seysen_reduces fp X J n d A false m 0 1000000 4294967295 D2 I Hm fuel delta true junk L E ltac:(lia)).
Qed.

Lemma red_fuel m' m delta junk J n d A me : (m <= m')%nat ->
  upto (red fp m delta junk J n d A me) (red fp m' delta junk J n d A me).
Proof using. intros H. unfold red. apply upto_bind; [now apply hlll_fuel|]. intros [r L]. apply upto_refl. Qed.

Lemma red_total delta junk J n d A m : independent n d (fn A) -> delta <= 1 -> (forall x, Rabs x <= / 2 -> frnd fp x = 0) ->
  exists f0 C, forall fuel, (f0 <= fuel)%nat -> red fp fuel delta junk J n d A m = Ok C.
Proof using X.
  intros I HD HH. set (f0 := Z.to_nat (2 * potential n d (fn A) + Z.of_nat d + 1)).
  pose proof (red_ok f0 delta junk J n d A m I HD) as H. pose proof (fun f => red_fuel f f0 delta junk J n d A m) as U.
  destruct (red fp f0 delta junk J n d A m) as [C| |].
  - exists f0, C. intros fuel Hf. apply (U fuel Hf). discriminate.
  - contradiction.
  - specialize (H HH). unfold f0 in H. lia.
Qed.
End Red.

(** the first columns of an independent family are independent, and so is [C | rest] when C is a basis of their lattice *)
Lemma indep_first n k d A : (k <= d)%nat -> independent n d A -> independent n k A.
Proof.
  intros Hk I c Hc j Hj. assert (Q := I (fun j => if (j <? k)%nat then c j else 0%Z)). cbn beta in Q.
  assert (j < k)%nat as Hj' by exact Hj. specialize (Q) . transitivity (if (j <? k)%nat then c j else 0%Z).
  { apply Nat.ltb_lt in Hj'. now rewrite Hj'. }
  apply Q; [|lia]. intros i Hi. rewrite (sumZ_parts k d) by assumption. rewrite (sumZ_ext k _ (fun j => (A i j * c j)%Z)).
  - rewrite (Hc i Hi). rewrite sumZ_0; [reflexivity|]. intros q Hq. replace (k + q <? k)%nat with false by (symmetry; apply Nat.ltb_ge; lia). lia.
  - intros q Hq. apply Nat.ltb_lt in Hq. now rewrite Hq.
Qed.

Lemma indep_cat n k d A C U : (k <= d)%nat -> independent n d A -> unimodular k U -> meq n k C (mmul k A U) ->
  independent n d (cat k C A).
Proof.
  intros Hk I UU EC c Hc.
  set (e := fun l => if (l <? k)%nat then sumZ k (fun j => U l j * c j)%Z else c l).
  assert (Z0 : forall l, (l < d)%nat -> e l = 0%Z).
  { apply I. intros i Hi. rewrite <- (Hc i Hi). rewrite !(sumZ_parts k d) by assumption. f_equal.
    - transitivity (sumZ k (fun l => sumZ k (fun j => A i l * U l j * c j)%Z)).
      { apply sumZ_ext. intros l Hl. unfold e. replace (l <? k)%nat with true by (symmetry; now apply Nat.ltb_lt).
        rewrite <- sumZ_mul_l. apply sumZ_ext. intros j Hj. ring. }
      rewrite sumZ_swap. apply sumZ_ext. intros j Hj. unfold cat. replace (j <? k)%nat with true by (symmetry; now apply Nat.ltb_lt).
      rewrite EC by assumption. unfold mmul. rewrite <- sumZ_mul_r. reflexivity.
    - apply sumZ_ext. intros j Hj. unfold e, cat. now replace (k + j <? k)%nat with false by (symmetry; apply Nat.ltb_ge; lia). }
  assert (IC : independent n k C) by (apply (Spec.independent_mul n k A U); auto; now apply (indep_first n k d)).
  assert (R0 : forall j, (k <= j < d)%nat -> c j = 0%Z).
  { intros j Hj. specialize (Z0 j ltac:(lia)). unfold e in Z0. now replace (j <? k)%nat with false in Z0 by (symmetry; apply Nat.ltb_ge; lia). }
  intros j Hj. destruct (Nat.lt_ge_cases j k) as [L|L]; [|apply R0; lia].
  revert j L Hj. assert (Q : forall j, (j < k)%nat -> c j = 0%Z); [|auto].
  apply IC. intros i Hi. specialize (Hc i Hi). rewrite (sumZ_parts k d) in Hc by assumption.
  rewrite (sumZ_0 (d - k)) in Hc by (intros q Hq; rewrite (R0 (k + q)%nat) by lia; lia).
  rewrite <- Hc, Z.add_0_r. apply sumZ_ext. intros j Hj. unfold cat. now replace (j <? k)%nat with true by (symmetry; now apply Nat.ltb_lt).
Qed.

(** ** The stages *)
Section Stages.
Variables fp gp : fpops R.
Hypothesis X : exact fp.
Hypothesis XG : exact gp.
Variables (W WG : list nat -> junk_t (F := R)).

(** the second and third stages work on an independent family *)
Lemma append_indep fuel delta junk J n k d A C m : (k <= d)%nat -> independent n d (fn A) ->
  red fp fuel delta junk J n k (firstcols n k A) m = Ok C -> independent n d (fn (append n k d C A)).
Proof using X.
  intros Hk I H. assert (E1 : independent n k (fn (firstcols n k A))).
  { apply (independent_ext n k (fn A)); [apply meq_sym, firstcols_fn|now apply (indep_first n k d)]. }
  destruct (red_indep fp X fuel delta junk J n k _ m C H E1) as (_ & U & UU & EU).
  apply (independent_ext n d (cat k (fn C) (fn A))); [apply meq_sym, append_fn|]. apply (indep_cat n k d (fn A) (fn C) U); auto.
  intros i j Hi Hj. rewrite EU by assumption. unfold mmul. apply sumZ_ext. intros l Hl. now rewrite firstcols_fn.
Qed.

Lemma append2_indep fuel delta junk J J' n d1 d2 d A C0 C1 m m' : (d1 <= d2 <= d)%nat -> independent n d (fn A) ->
  red fp fuel delta junk J n d1 (firstcols n d1 A) m = Ok C0 -> 
  red fp fuel delta junk J' n d2 (append n d1 d2 C0 A) m' = Ok C1 -> 
  independent n d (fn (append n d2 d C1 A)).
Proof using X.
  intros Hk I H H1.
  assert (I2 : independent n d2 (fn A)) by (apply (indep_first n d2 d); [lia|exact I]).
  pose proof (append_indep fuel delta junk J n d1 d2 A C0 m ltac:(lia) I2 H) as IA.
  assert (E1 : independent n d1 (fn (firstcols n d1 A))).
  { apply (independent_ext n d1 (fn A)); [apply meq_sym, firstcols_fn|apply (indep_first n d1 d); [lia|exact I]]. }
  pose proof (append_indep fuel delta junk J n d1 d A C0 m ltac:(lia) I H) as IAd.
  destruct (red_indep fp X fuel delta junk J' n d2 _ m' C1 H1 IA) as (_ & U & UU & EU).
  apply (independent_ext n d (cat d2 (fn C1) (fn (append n d1 d C0 A)))).
  - intros i j Hi Hj. rewrite append_fn by assumption. unfold cat. destruct (Nat.ltb_spec j d2); [reflexivity|].
    rewrite append_fn by assumption. unfold cat. now replace (j <? d1)%nat with false by (symmetry; apply Nat.ltb_ge; lia).
  - apply (indep_cat n d2 d _ _ U); auto; [lia|].
    intros i j Hi Hj. rewrite EU by assumption. unfold mmul. apply sumZ_ext. intros l Hl. rewrite !append_fn by lia. reflexivity.
Qed.

Lemma stages_reduced fuel delta junk deltaG junkG d1 d2 n d A C : (d1 <= d2)%nat -> (2 <= d)%nat -> independent n d (fn A) ->
  delta <= 1 -> deltaG <= 1 -> (Z.of_nat fuel < 4294967295)%Z ->
  hlll_stages fp gp W WG fuel delta junk deltaG junkG d1 d2 n d A = Ok C ->
  ((d <= d1)%nat -> LLL_reduced n d delta (fn C)) /\
  ((d1 < d)%nat -> Seysen_LLL_reduced n d (if (d <=? d2)%nat then delta else deltaG) (fn C)).
Proof using X XG.
  intros D12 D2 I HD HG FU H. unfold hlll_stages in H. destruct (Nat.leb_spec d d1) as [L1|L1].
  { assert (I' : independent n d (fn (mtab n d (fn A)))) by (apply (independent_ext n d (fn A)); [apply meq_sym, fn_mtab|exact I]).
    pose proof (red_ok fp X fuel delta junk (W [0%nat]) n d _ 0 I' HD) as Q. rewrite H in Q. split; [|lia]. intros _. now apply Q. }
  split; [lia|]. intros _. destruct (Nat.leb_spec d d2) as [L2|L2].
  - binv H. pose proof (append_indep _ _ _ _ n d1 d A a 0 ltac:(lia) I Ha) as IA.
    pose proof (red_ok fp X fuel delta junk (W [1%nat]) n d _ 1 IA HD) as Q. rewrite H in Q. now apply Q.
  - binv H. binv H. pose proof (append2_indep _ _ _ _ _ n d1 d2 d A a a0 0 1 ltac:(lia) I Ha Ha0) as IA.
    pose proof (red_ok gp XG fuel deltaG junkG (WG [2%nat]) n d _ 1 IA HG) as Q. unfold redG in H. unfold red in Q. rewrite H in Q. now apply Q.
Qed.

Lemma stages_defined fuel delta junk deltaG junkG d1 d2 n d A : (d1 <= d2)%nat -> independent n d (fn A) ->
  delta <= 1 -> deltaG <= 1 -> hlll_stages fp gp W WG fuel delta junk deltaG junkG d1 d2 n d A <> UB.
Proof using X XG.
  intros D12 I HD HG. unfold hlll_stages. destruct (Nat.leb_spec d d1) as [L1|L1].
  { assert (I' : independent n d (fn (mtab n d (fn A)))) by (apply (independent_ext n d (fn A)); [apply meq_sym, fn_mtab|exact I]).
    pose proof (red_ok fp X fuel delta junk (W [0%nat]) n d _ 0 I' HD) as Q. intros EU. rewrite EU in Q. exact Q. }
  assert (E1 : independent n d1 (fn (firstcols n d1 A))).
  { apply (independent_ext n d1 (fn A)); [apply meq_sym, firstcols_fn|apply (indep_first n d1 d); [lia|exact I]]. }
  pose proof (red_ok fp X fuel delta junk (W [0%nat]) n d1 _ 0 E1 HD) as Q0.
  destruct (red fp fuel delta junk (W [0%nat]) n d1 _ 0) as [C0| |] eqn:R0; cbn [bind]; [|contradiction|destruct (d <=? d2)%nat; discriminate].
  destruct (Nat.leb_spec d d2) as [L2|L2].
  - pose proof (append_indep _ _ _ _ n d1 d A C0 0 ltac:(lia) I R0) as IA.
    pose proof (red_ok fp X fuel delta junk (W [1%nat]) n d _ 1 IA HD) as Q. intros EU. rewrite EU in Q. exact Q.
  - assert (I2 : independent n d2 (fn A)) by (apply (indep_first n d2 d); [lia|exact I]).
    pose proof (append_indep _ _ _ _ n d1 d2 A C0 0 ltac:(lia) I2 R0) as IA.
    pose proof (red_ok fp X fuel delta junk (W [1%nat]) n d2 _ 1 IA HD) as Q.
    destruct (red fp fuel delta junk (W [1%nat]) n d2 _ 1) as [C1| |] eqn:R1; cbn [bind]; [|contradiction|discriminate].
    pose proof (append2_indep _ _ _ _ _ n d1 d2 d A C0 C1 0 1 ltac:(lia) I R0 R1) as IA2.
    pose proof (red_ok gp XG fuel deltaG junkG (WG [2%nat]) n d _ 1 IA2 HG) as Q2. unfold redG. unfold red in Q2.
    intros EU. rewrite EU in Q2. exact Q2.
Qed.

Lemma stages_total delta junk deltaG junkG d1 d2 n d A : (d1 <= d2)%nat -> independent n d (fn A) ->
  delta <= 1 -> deltaG <= 1 -> (forall x, Rabs x <= / 2 -> frnd fp x = 0) -> (forall x, Rabs x <= / 2 -> frnd gp x = 0) ->
  exists f0 C, forall fuel, (f0 <= fuel)%nat -> hlll_stages fp gp W WG fuel delta junk deltaG junkG d1 d2 n d A = Ok C.
Proof using X XG.
  intros D12 I HD HG H1 H2. unfold hlll_stages. destruct (Nat.leb_spec d d1) as [L1|L1].
  { apply red_total; auto. apply (independent_ext n d (fn A)); [apply meq_sym, fn_mtab|exact I]. }
  assert (E1 : independent n d1 (fn (firstcols n d1 A))).
  { apply (independent_ext n d1 (fn A)); [apply meq_sym, firstcols_fn|apply (indep_first n d1 d); [lia|exact I]]. }
  destruct (red_total fp X delta junk (W [0%nat]) n d1 _ 0 E1 HD H1) as (f0 & C0 & R0).
  destruct (Nat.leb_spec d d2) as [L2|L2].
  - pose proof (append_indep _ _ _ _ n d1 d A C0 0 ltac:(lia) I (R0 f0 ltac:(lia))) as IA.
    destruct (red_total fp X delta junk (W [1%nat]) n d _ 1 IA HD H1) as (f1 & C1 & R1).
    exists (max f0 f1), C1. intros fuel Hf. rewrite R0 by lia. cbn [bind]. apply R1. lia.
  - assert (I2 : independent n d2 (fn A)) by (apply (indep_first n d2 d); [lia|exact I]).
    pose proof (append_indep _ _ _ _ n d1 d2 A C0 0 ltac:(lia) I2 (R0 f0 ltac:(lia))) as IA.
    destruct (red_total fp X delta junk (W [1%nat]) n d2 _ 1 IA HD H1) as (f1 & C1 & R1).
    pose proof (append2_indep _ _ _ _ _ n d1 d2 d A C0 C1 0 1 ltac:(lia) I (R0 (max f0 f1) ltac:(lia)) (R1 (max f0 f1) ltac:(lia))) as IA2.
    destruct (red_total gp XG deltaG junkG (WG [2%nat]) n d _ 1 IA2 HG H2) as (f2 & C2 & R2).
    exists (max f0 (max f1 f2)), C2. intros fuel Hf. rewrite R0 by lia. cbn [bind]. rewrite R1 by lia. cbn [bind]. apply R2. lia.
Qed.
End Stages.
