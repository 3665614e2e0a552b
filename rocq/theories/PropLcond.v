(** * lcond, isreduced, ratio: C35, C50, C51, C52

    [lcond] and [ratio] are modelled in Lcond.v.  The specification: [R_factor] (SpecReal.v) is the R factor of the
    basis, [inverse d r X] says that X r is the identity, [cond_F d r X] (LcondFacts.v) is the Frobenius norm of
    |r| |X|, [expo_ok] (LcondTop.v): exponent() is the e with 2^(e-1) <= x < 2^e. *)
From Coq Require Import ZArith Lia Reals Lra List Bool Arith Floats.
From Verif Require Import Base Spec Mat FP Hlll Hlll2 IntSteps HlllInt Structure Object Safety SpecReal Exact Lcond LcondFacts LcondTop LcondCases RatioExact Double Examples.
From Verif Require PropExact.
Import ListNotations.
Local Open Scope R_scope.

Definition Rexp := PropExact.Rfp0_exact.

(** an object after any sequence of calls *)
Lemma history (fp : fpops R) (X : exact fp) J n d A u m lg vd qs L : (2 <= d <= n)%nat -> precisions_ok qs ->
  run fp qs (new_lattice fp J n d A u m lg vd) = Ok L -> independent n d (current (fn A) qs) ->
  lsafe n d L /\ wfm n d (iB (li L)) /\ independent n d (fn (iB (li L))) /\ meq n d (fn (getbase L)) (fn (iB (li L))).
Proof.
  intros [D2 ND] PR H I.
  pose proof (run_safe fp n d qs _ ND D2 (new_lsafe fp J n d A u m lg vd)) as S. rewrite H in S. cbn in S.
  eapply run_pres in H as [D (Hb & V & UV & EV)]; eauto; [|apply (e_expo fp X)|apply new_dims|apply new_pres].
  split; [exact S|]. split; [destruct D as (<- & <- & _); apply Hb|]. split; [|eapply getbase_fn; eassumption].
  eapply independent_ext; [intros i j Hi Hj; symmetry; now apply EV|]. now apply independent_mul.
Qed.

Lemma R_factor_meq n d B B' r : meq n d B B' -> R_factor n d B r -> R_factor n d B' r.
Proof.
  intros E (U & D & G). split; [exact U|split; [exact D|]]. intros j l Hj Hl. rewrite (G j l Hj Hl). f_equal.
  apply sumZ_ext. intros i Hi. now rewrite !E.
Qed.

Lemma getbase_same (L L' : lattice R) : iB (li L') = iB (li L) -> lcfg L' = lcfg L -> getbase L' = getbase L.
Proof. intros E1 E2. unfold getbase. now rewrite E1, E2. Qed.

(** ** C50: lcond(ANY, DEFAULT_PREC) in exact arithmetic *)
Theorem C50_lcond_exact :
  forall (fp : fpops R), exact fp -> forall fexpo, expo_ok fexpo ->
  forall J n d A u m lg vd qs L, (2 <= d <= n)%nat -> precisions_ok qs ->
  run fp qs (new_lattice fp J n d A u m lg vd) = Ok L -> independent n d (current (fn A) qs) ->
  forall M (mp : Z -> fpops M) mexpo getprec Jm mjunk fuel junk bits flagheur dprec,
  exists v L',
    lcond fp fexpo mp mexpo getprec Jm mjunk fuel junk bits 0 0 flagheur dprec L = Ok (v, L', dprec) /\
    getbase L' = getbase L /\
    (exists r X, R_factor n d (fn (getbase L)) r /\ inverse d r X) /\
    forall r X, R_factor n d (fn (getbase L)) r -> inverse d r X ->
      cond_F d r X < powerRZ 2 v /\
      ((forall i j, junk i j = 0) -> powerRZ 2 (v - 1) <= cond_F d r X).
Proof.
  intros fp X fexpo EX J n d A u m lg vd qs L D PR H I M mp mexpo getprec Jm mjunk fuel junk bits fh dprec.
  destruct (history fp X J n d A u m lg vd qs L D PR H I) as (LS & WB & IB & GB).
  destruct (lcond_any_exact fp X fexpo EX junk n d L ltac:(lia) LS WB IB ltac:(lia)) as (v & L' & E & EB & EC & (r0 & X0 & R0 & I0) & Q).
  exists v, L'. split; [unfold lcond, lcond_default; cbn [Z.eqb]; rewrite E; reflexivity|].
  split; [now apply getbase_same|]. split.
  - exists r0, X0. split; [|exact I0]. eapply R_factor_meq; [|exact R0]. intros i j Hi Hj. symmetry. now apply GB.
  - intros r XX RF IX. apply Q; [|exact IX]. eapply R_factor_meq; eassumption.
Qed.

(** the value depends on memory that is never initialised: doubles, the basis A1, two contents of that memory *)
Definition d_expo (x : float) : Z := snd (Z.frexp x).
Lemma two_values A (a b : res (Z * A)) :
  match a, b with Ok (v, _), Ok (v', _) => (v =? v')%Z = false | _, _ => False end ->
  exists v L v' L', a = Ok (v, L) /\ b = Ok (v', L') /\ v <> v'.
Proof.
  destruct a as [[v L]| |]; try contradiction. destruct b as [[v' L']| |]; try contradiction. intros E.
  exists v, L, v', L'. split; [reflexivity|split; [reflexivity|]]. now apply Z.eqb_neq.
Qed.

Lemma lcond_A1_differ : exists v L v' L',
  lcond_any dbl d_expo (fun _ _ => 0%float) (new_lattice dbl Jz 4 3 A1 false 0 true 0) = Ok (v, L) /\
  lcond_any dbl d_expo (fun _ _ => 1000%float) (new_lattice dbl Jz 4 3 A1 false 0 true 0) = Ok (v', L') /\ v <> v'.
Proof. apply two_values. vm_compute. reflexivity. Qed.

Theorem C50_lcond_uninitialised_refuted :
  ~ forall J (n d : nat) A junk junk' v v' L L',
      lcond_any dbl d_expo junk (new_lattice dbl J n d A false 0 true 0) = Ok (v, L) ->
      lcond_any dbl d_expo junk' (new_lattice dbl J n d A false 0 true 0) = Ok (v', L') -> v = v'.
Proof.
  intros H.
  destruct lcond_A1_differ as (v & L & v' & L' & E1 & E2 & N). apply N.
  exact (H Jz 4%nat 3%nat A1 (fun _ _ => 0%float) (fun _ _ => 1000%float) v v' L L' E1 E2).
Qed.

(** ** C51: lcond(TRIANGULAR_PROPER, DEFAULT_PREC) *)
Theorem C51_lcond_triangular :
  forall (fp : fpops R), exact fp -> forall fexpo, expo_ok fexpo ->
  forall J n d A u m lg vd qs L, (2 <= d <= n)%nat -> precisions_ok qs ->
  run fp qs (new_lattice fp J n d A u m lg vd) = Ok L -> independent n d (current (fn A) qs) ->
  triangular n d (fn (getbase L)) ->
  (forall i j, (i < j < d)%nat -> (Z.abs (fn (getbase L) i j) <= Z.abs (fn (getbase L) i i))%Z) ->
  forall M (mp : Z -> fpops M) mexpo getprec Jm mjunk fuel junk bits flagheur dprec,
  exists v L',
    lcond fp fexpo mp mexpo getprec Jm mjunk fuel junk bits 1 0 flagheur dprec L = Ok (v, L', dprec) /\
    getbase L' = getbase L /\
    forall r X, R_factor n d (fn (getbase L)) r -> inverse d r X -> cond_F d r X < powerRZ 2 v.
Proof.
  intros fp X fexpo EX J n d A u m lg vd qs L D PR H I T SR M mp mexpo getprec Jm mjunk fuel junk bits fh dprec.
  destruct (history fp X J n d A u m lg vd qs L D PR H I) as (LS & WB & IB & GB).
  destruct (lcond_tri_bound fp X fexpo EX n d L ltac:(lia) LS WB) as (v & L' & E & EB & EC & Q).
  - destruct T as [T1 T2]. split; [intros i j Hj Hi; rewrite <- GB by lia; now apply T1|intros i Hi; rewrite <- GB by lia; now apply T2].
  - intros i j Hij. rewrite <- !GB by lia. now apply SR.
  - exists v, L'. split; [unfold lcond, lcond_default; cbn [Z.eqb]; rewrite E; reflexivity|].
    split; [now apply getbase_same|]. intros r XX RF IX. apply Q; [|exact IX]. eapply R_factor_meq; eassumption.
Qed.

(** ... and the bound is wrong when the entries above the diagonal may exceed the diagonal *)
Theorem C51_lcond_triangular_refuted :
  ~ forall (fp : fpops R), exact fp -> forall fexpo, expo_ok fexpo ->
    forall J n d A v L', (2 <= d <= n)%nat -> triangular n d (fn A) ->
    lcond_tri fp fexpo (new_lattice fp J n d A false 0 true 0) = Ok (v, L') ->
    forall r X, R_factor n d (fn A) r -> inverse d r X -> cond_F d r X < powerRZ 2 v.
Proof.
  intros H. destruct (T3_value PropExact.Rfp0 Rexp Rexpo Rexpo_ok (new_lattice PropExact.Rfp0 PropExact.JR 10 10 T3 false 0 true 0)) as (L' & E).
  - apply new_lsafe.
  - apply mtab_wfm.
  - apply fn_mtab.
  - pose proof (H _ Rexp _ Rexpo_ok PropExact.JR 10%nat 10%nat T3 18%Z L' ltac:(lia) T3_tri E _ _
      (triangular_R 10 10 (fn T3) (le_n _) T3_tri) T3_inverse). pose proof T3_cond. lra.
Qed.

(** ** C35: the default precision.  [getprec] = R(0,0).get_prec() as a function of the default precision: the
    identity for mpfr_t *)
Theorem C35_lcond_restores :
  forall F M (fp : fpops F) fexpo (mp : Z -> fpops M) mexpo getprec Jm mjunk fuel junk bits tproper flagprec flagheur dprec L v L' p,
  (flagprec <= 0 \/ (2 <= flagprec /\ flagheur <> 0))%Z -> (getprec dprec = dprec) ->
  lcond fp fexpo mp mexpo getprec Jm mjunk fuel junk bits tproper flagprec flagheur dprec L = Ok (v, L', p) -> p = dprec.
Proof.
  intros F M fp fexpo mp mexpo getprec Jm mjunk fuel junk bits tproper flagprec flagheur dprec L v L' p HF HG H. unfold lcond in H.
  destruct (Z.eqb_spec flagprec 0) as [E0|E0].
  { binv H. destruct a. injection H as _ _ <-. reflexivity. }
  destruct (Z.leb_spec 2 flagprec); cbn [andb] in H.
  - destruct (Z.eqb_spec flagheur 0) as [E1|E1]; [exfalso; lia|]. destruct (Z.eqb_spec flagheur 1) as [E2|E2].
    + binv H. injection H as _ _ <-. exact HG.
    + destruct (Z.eqb_spec flagprec 1); [lia|]. injection H as _ _ <-. reflexivity.
  - destruct (Z.eqb_spec flagprec 1); [lia|]. injection H as _ _ <-. reflexivity.
Qed.

(** exactly which default precision is left, flag by flag: restored only for DEFAULT_PREC (0), CHECK with a type whose
    precision is the default one, and the flags that do nothing *)
Theorem C35_lcond_leaves :
  forall F M (fp : fpops F) fexpo (mp : Z -> fpops M) mexpo getprec Jm mjunk fuel junk bits tproper flagprec flagheur dprec L v L' p,
  lcond fp fexpo mp mexpo getprec Jm mjunk fuel junk bits tproper flagprec flagheur dprec L = Ok (v, L', p) ->
  ((flagprec = 0 -> p = dprec) /\
   (flagprec = 1 -> p = 2 * Z.of_nat (cd (lcfg L)) * bits) /\
   (2 <= flagprec -> flagheur = 0 -> p = flagprec) /\
   (2 <= flagprec -> flagheur = 1 -> p = getprec dprec) /\
   (2 <= flagprec -> flagheur <> 0 -> flagheur <> 1 -> p = dprec) /\
   (flagprec < 0 -> p = dprec))%Z.
Proof.
  intros F M fp fexpo mp mexpo getprec Jm mjunk fuel junk bits tproper flagprec flagheur dprec L v L' p H. unfold lcond in H.
  destruct (Z.eqb_spec flagprec 0) as [E0|E0].
  { binv H. destruct a. injection H as _ _ <-. repeat split; intros; (reflexivity || lia). }
  destruct (Z.leb_spec 2 flagprec); cbn [andb] in H.
  - destruct (Z.eqb_spec flagheur 0) as [E1|E1].
    { binv H. injection H as _ _ <-. repeat split; intros; (reflexivity || lia). }
    destruct (Z.eqb_spec flagheur 1) as [E2|E2].
    { binv H. injection H as _ _ <-. repeat split; intros; (reflexivity || lia). }
    destruct (Z.eqb_spec flagprec 1); [lia|]. injection H as _ _ <-. repeat split; intros; (reflexivity || lia).
  - destruct (Z.eqb_spec flagprec 1).
    + binv H. injection H as _ _ <-. repeat split; intros; (reflexivity || lia).
    + injection H as _ _ <-. repeat split; intros; (reflexivity || lia).
Qed.

(** the other flags leave the default precision changed even for mpfr_t *)
Lemma third_value A (B : Type) (a : res (A * B * Z)) k :
  match a with Ok (_, p) => (p =? k)%Z = false | _ => False end -> exists v L p, a = Ok (v, L, p) /\ p <> k.
Proof. destruct a as [[[v L] p]| |]; try contradiction. intros E. exists v, L, p. split; [reflexivity|]. now apply Z.eqb_neq. Qed.

Lemma lcond_prec_A1_53 : exists v L p, 
  lcond dbl d_expo (fun _ => dbl) (fun _ => d_expo) (fun p => p) (fun _ => Jz) (fun _ _ _ => 0%float) 1
    (fun _ _ => 0%float) 7 0 200 0 53 (new_lattice dbl Jz 4 3 A1 false 0 true 0) = Ok (v, L, p) /\ p <> 53%Z.
Proof. apply third_value. vm_compute. reflexivity. Qed.

Theorem C35_lcond_prec_refuted :
  ~ forall fuel bits tproper flagprec flagheur dprec L v L' p,
      lcond dbl d_expo (fun _ => dbl) (fun _ => d_expo) (fun p => p) (fun _ => Jz) (fun _ _ _ => 0%float) fuel (fun _ _ => 0%float)
            bits tproper flagprec flagheur dprec L = Ok (v, L', p) -> p = dprec.
Proof.
  intros H. destruct lcond_prec_A1_53 as (v & L & p & E & N). apply N.
  exact (H 1%nat 7%Z 0%Z 200%Z 0%Z 53%Z _ v L p E).
Qed.

Theorem C35_isreduced_restores :
  forall F (mpf : Z -> fpops F) getprec fuel delta junk J1 J2 dprec L r st L' p, getprec dprec = dprec ->
  isreduced_prec mpf getprec fuel delta junk J1 J2 dprec L = Ok (r, st, L', p) -> p = dprec.
Proof.
  intros F mpf getprec fuel delta junk J1 J2 dprec L r st L' p G H. unfold isreduced_prec in H. binv H. destruct a as [[? ?] ?].
  injection H as _ _ _ <-. exact G.
Qed.

(** with a type whose precision is constant (double: 53) a caller that works with another default precision finds it
    changed after isreduced *)
Lemma fourth_value A (B C : Type) (a : res (A * B * C * Z)) k :
  match a with Ok (_, p) => (p =? k)%Z = false | _ => False end -> exists v s L p, a = Ok (v, s, L, p) /\ p <> k.
Proof. destruct a as [[[[v s] L] p]| |]; try contradiction. intros E. exists v, s, L, p. split; [reflexivity|]. now apply Z.eqb_neq. Qed.

Lemma isreduced_prec_A1 : exists v s L p,
  isreduced_prec (fun _ => dbl) (fun _ => 53%Z) 40 d99 0%float Jz Jz 200 (new_lattice dbl Jz 4 3 A1 false 0 true 0) = Ok (v, s, L, p) /\ p <> 200%Z.
Proof. apply fourth_value. vm_compute. reflexivity. Qed.

Theorem C35_isreduced_prec_refuted :
  ~ forall fuel delta junk J1 J2 dprec L r st L' p,
      isreduced_prec (fun _ => dbl) (fun _ => 53%Z) fuel delta junk J1 J2 dprec L = Ok (r, st, L', p) -> p = dprec.
Proof.
  intros H. destruct isreduced_prec_A1 as (v & s & L & p & E & N). apply N.
  exact (H 40%nat d99 0%float Jz Jz 200%Z _ v s L p E).
Qed.

(** ** C52: ratio.  [ratio_ok] (RatioExact.v): lfcond = log2 of cond_F, av_ratio = (sum of |r(i,i)/r(i+1,i+1)|) / d,
    max_ratio their maximum, c = (norm of the first vector / volume^(1/d))^(1/d) *)
Theorem C52_ratio_exact :
  forall (fp : fpops R), exact fp -> forall J n d A, (1 <= d <= n)%nat -> independent n d (fn A) ->
  exists lf av mx c, ratio fp log2R (Rpower 2) J n d A = Ok (lf, av, mx, c) /\
    (exists r X, R_factor n d (fn A) r /\ inverse d r X) /\
    forall r X, R_factor n d (fn A) r -> inverse d r X -> ratio_ok n d (fn A) r X lf av mx c.
Proof. exact ratio_exact. Qed.

(** the "average ratio" is not the average of the d-1 ratios: it is 1/2 on the identity of dimension 2 *)
Theorem C52_average_refuted :
  ~ forall (fp : fpops R), exact fp -> forall J n d A lf av mx c, (2 <= d <= n)%nat -> independent n d (fn A) ->
    ratio fp log2R (Rpower 2) J n d A = Ok (lf, av, mx, c) ->
    forall r, R_factor n d (fn A) r -> av * INR (d - 1) = sumR (d - 1) (fun i => Rabs (r i i / r (S i) (S i))).
Proof.
  intros H. set (A := [[1; 0]; [0; 1]]%Z).
  assert (T : triangular 2 2 (fn A)).
  { split; [intros i j Hj Hi|intros i Hi].
    - assert (i = 1%nat) as -> by lia. assert (j = 0%nat) as -> by lia. reflexivity.
    - destruct i as [|[|i]]; [discriminate|discriminate|lia]. }
  assert (I : independent 2 2 (fn A)).
  { intros c Hc j Hj. pose proof (Hc 0%nat ltac:(lia)) as H0. pose proof (Hc 1%nat ltac:(lia)) as H1. cbv [sumZ fn mget col nth A] in H0, H1.
    destruct j as [|[|j]]; lia. }
  destruct (C52_ratio_exact _ Rexp PropExact.JR 2 2 A ltac:(lia) I) as (lf & av & mx & c & E & (r & XX & RF & IX) & Q).
  specialize (Q r XX RF IX). destruct Q as [_ Q _ _ _].
  pose proof (H _ Rexp PropExact.JR 2%nat 2%nat A lf av mx c ltac:(lia) I E r RF) as H1. rewrite <- Q in H1.
  assert (av = 0) by (cbn in H1; lra). subst av. rewrite Rmult_0_l in Q. cbn [sumR Nat.sub] in Q.
  destruct RF as (_ & D & _). rewrite Rplus_0_l in Q. symmetry in Q. revert Q. apply Rabs_no_R0.
  apply Rmult_integral_contrapositive_currified; [apply D; lia|apply Rinv_neq_0_compat, D; lia].
Qed.

(** ** the hypotheses are met *)
Example lcond_case : exists L, (2 <= 3 <= 4)%nat /\ precisions_ok (@nil (call (F := R))) /\
  run PropExact.Rfp0 [] (new_lattice PropExact.Rfp0 PropExact.JR 4 3 A1 false 0 true 0) = Ok L /\
  independent 4 3 (current (fn A1) (@nil (call (F := R)))) /\ expo_ok Rexpo.
Proof.
  eexists. split; [lia|]. split; [intros ? ? ? ? ? ? []|]. split; [reflexivity|]. split; [exact A1_independent|exact Rexpo_ok].
Qed.

Example lcond_tri_case : exists L,
  run PropExact.Rfp0 [] (new_lattice PropExact.Rfp0 PropExact.JR 2 2 [[5; 0]; [-4; 7]]%Z false 0 true 0) = Ok L /\
  triangular 2 2 (fn (getbase L)) /\
  (forall i j, (i < j < 2)%nat -> (Z.abs (fn (getbase L) i j) <= Z.abs (fn (getbase L) i i))%Z).
Proof.
  eexists. split; [reflexivity|]. split; [split|].
  - intros i j Hj Hi. assert (i = 1%nat) as -> by lia. assert (j = 0%nat) as -> by lia. reflexivity.
  - intros i Hi. destruct i as [|[|i]]; [discriminate|discriminate|lia].
  - intros i j Hi. assert (i = 0%nat) as -> by lia. assert (j = 1%nat) as -> by lia. discriminate.
Qed.

(** lcond with the precision check finds a value and restores the precision (mpfr replaced by doubles) *)
Example lcond_check_case : exists v L,
  lcond dbl d_expo (fun _ => dbl) (fun _ => d_expo) (fun p => p) (fun _ => Jz) (fun _ _ _ => 0%float) 3
    (fun _ _ => 0%float) 7 0 20 1 53 (new_lattice dbl Jz 4 3 A1 false 0 true 0) = Ok (v, L, 53%Z) /\ (v > 0)%Z.
Proof.
  assert (G : forall a : res (Z * lattice float * Z), match a with Ok (v, L, p) => p = 53%Z /\ (v > 0)%Z | _ => False end ->
     exists v L, a = Ok (v, L, 53%Z) /\ (v > 0)%Z).
  { intros [[[v L] p]| |]; try contradiction. intros [-> Hv]. now exists v, L. }
  apply G. vm_compute. split; reflexivity.
Qed.

Print Assumptions C50_lcond_exact.
Print Assumptions C50_lcond_uninitialised_refuted.
Print Assumptions C51_lcond_triangular.
Print Assumptions C51_lcond_triangular_refuted.
Print Assumptions C35_lcond_restores.
Print Assumptions C35_lcond_leaves.
Print Assumptions C35_lcond_prec_refuted.
Print Assumptions C52_ratio_exact.
Print Assumptions C52_average_refuted.
