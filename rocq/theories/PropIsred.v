(** * C68, C69: the verdict and the report of isreduced

    [isreduced] (Hlll2.v) and [isreduced_out] (Isred2.v, with the printed numbers) model Lattice::isreduced;
    LLL_up_to_size, best_delta, weakly_size_reduced are in SpecIsred.v. *)
From Coq Require Import ZArith Lia Reals Lra List Bool Arith.
From Verif Require Import Base Spec Mat FP Hlll Hlll2 HlllInt Structure Object Safety Isred2 SpecReal Det Fresh Cache Cache2 Cache3 Cache4 Cache5 Cache6 Cache7 Exact HHMath ExactLoop ExactLoop2 ExactPot ExactTop
  ExactHH PropExact LcondFacts SpecIsred IsredExact IsredTop IsredRep Double Examples ExIsred.
Import ListNotations.
Local Open Scope R_scope.

(** ** C68: in exact arithmetic isreduced returns 0 exactly on the bases that are reduced up to size reduction;
    otherwise it returns -1; it never leaves its matrices *)
Theorem C68_isreduced_decides :
  forall (fp : fpops R), exact fp ->
  forall J n d A u m lg vd thr nb, independent n d (fn A) -> (m < 1)%Z -> (2 <= d)%nat -> (Z.of_nat d <= nb)%Z ->
  forall fuel delta junk J1 J2, delta <= 1 ->
    match isreduced fp fuel delta junk J1 J2 (fresh_object fp J n d A u m lg vd 1 thr nb) with
    | Ok (_, status, _) =>
        (status = 0%Z /\ LLL_up_to_size n d delta (fn A)) \/ (status = (-1)%Z /\ ~ LLL_up_to_size n d delta (fn A))
    | UB => False
    | NoFuel => True
    end.
Proof.
  intros fp X J n d A u m lg vd thr nb I Hm D2 NB fuel delta junk J1 J2 HD.
  pose proof (isreduced_exact_fresh fp X J n d A u m lg vd thr nb fuel delta junk J1 J2 I Hm D2 NB HD) as H.
  destruct (isreduced _ _ _ _ _ _ _) as [[[r s] L]| |]; auto.
  destruct H as (_ & [-> | ->] & E); [left|right]; (split; [reflexivity|]).
  - now apply E.
  - intros Q. apply E in Q. discriminate.
Qed.

(** it always answers *)
Theorem C68_isreduced_terminates :
  forall (fp : fpops R), exact fp -> (forall x, Rabs x <= / 2 -> frnd fp x = 0) ->
  forall J n d A u m lg vd thr nb, independent n d (fn A) -> (m < 1)%Z -> (2 <= d)%nat -> (Z.of_nat d <= nb)%Z ->
  forall fuel delta junk J1 J2, delta <= 1 -> (2 * potential n d (fn A) + Z.of_nat d + 1 <= Z.of_nat fuel)%Z ->
    exists status L, isreduced fp fuel delta junk J1 J2 (fresh_object fp J n d A u m lg vd 1 thr nb) = Ok (0%Z, status, L).
Proof.
  intros fp X HH J n d A u m lg vd thr nb I Hm D2 NB fuel delta junk J1 J2 HD HF.
  pose proof (isreduced_exact_fresh fp X J n d A u m lg vd thr nb fuel delta junk J1 J2 I Hm D2 NB HD) as H.
  destruct (isreduced _ _ _ _ _ _ _) as [[[r s] L]| |]; try contradiction.
  - destruct H as (-> & _). eauto.
  - specialize (H HH). lia.
Qed.

(** a second form of the criterion: with the R factor of A itself *)
Theorem C68_criterion :
  forall n d delta A r, R_factor n d A r -> (LLL_up_to_size n d delta A -> lovasz_any d delta r).
Proof. intros. eapply up_to_size_any; eauto. Qed.

(** both answers occur: a basis that becomes reduced by size reduction only, and one that needs a swap *)
Definition Bsize : mat Z := [[2;0;0];[7;3;0]]%Z.   (* columns (2,0,0), (7,3,0) *)
Definition Bswap : mat Z := [[5;0;0];[0;1;0]]%Z.

Lemma indep_upper (a b c' : Z) : a <> 0%Z -> c' <> 0%Z -> independent 3 2 (fn [[a;0;0];[b;c';0]]%Z).
Proof.
  intros Ha Hc c H j Hj. pose proof (H 0%nat ltac:(lia)) as H0. pose proof (H 1%nat ltac:(lia)) as H1.
  cbv [sumZ fn mget col nth] in H0, H1.
  assert (c 1%nat = 0%Z) by nia. destruct j as [|[|]]; try lia; nia.
Qed.

Lemma rf_upper (a b c' : Z) : a <> 0%Z -> c' <> 0%Z ->
  R_factor 3 2 (fn [[a;0;0];[b;c';0]]%Z) (fun i j => IZR (fn [[a;0;0];[b;c';0]]%Z i j)).
Proof.
  intros Ha Hc. split; [|split].
  - intros i j Hij. replace i with 1%nat by lia. replace j with 0%nat by lia. reflexivity.
  - intros i Hi. destruct i as [|[|]]; try lia; cbv [fn mget col nth]; now apply not_0_IZR.
  - intros j l Hj Hl. destruct j as [|[|]]; try lia; destruct l as [|[|]]; try lia;
      cbv [fn mget col nth sumR sumZ]; rewrite ?plus_IZR, ?mult_IZR; ring.
Qed.

Lemma Bsize_reduced : LLL_up_to_size 3 2 (3 / 4) (fn Bsize).
Proof.
  exists (fun i j => if (i =? j)%nat then 1%Z else if (i <? j)%nat then (-3)%Z else 0%Z). split.
  - intros i j Hi Hj. split; intros H.
    + destruct (Nat.eqb_spec i j); [lia|]. destruct (Nat.ltb_spec i j); [lia|reflexivity].
    + subst. now rewrite Nat.eqb_refl.
  - exists (fun i j => IZR (fn [[2;0;0];[1;3;0]]%Z i j)). split.
    + eapply rf_meq; [|apply rf_upper; discriminate].
      intros i j Hi Hj. destruct i as [|[|[|]]]; try lia; destruct j as [|[|]]; try lia; vm_compute; reflexivity.
    + split.
      * intros i j Hij. replace i with 0%nat by lia. replace j with 1%nat by lia. cbv [fn mget col nth].
        rewrite !Rabs_right; lra.
      * intros i Hi. replace i with 0%nat by lia. cbv [fn mget col nth]. lra.
Qed.

Lemma Bswap_not : ~ LLL_up_to_size 3 2 (3 / 4) (fn Bswap).
Proof.
  intros H. pose proof (up_to_size_any 3 2 (3 / 4) (fn Bswap) _ (rf_upper 5 0 1 ltac:(discriminate) ltac:(discriminate)) H 0%nat 0%Z ltac:(lia)) as Q.
  cbv [fn mget col nth] in Q. lra.
Qed.

Example C68_case : forall A, A = Bsize \/ A = Bswap -> exists fuel status L,
  isreduced Rfp0 fuel (3 / 4) 0 JR JR (fresh_object Rfp0 JR 3 2 A false 0 false 0 1 5 1000) = Ok (0%Z, status, L) /\
  status = (if Z.eqb (fn A 0%nat 0%nat) 2 then 0 else -1)%Z.
Proof.
  intros A HA. assert (I : independent 3 2 (fn A)) by (destruct HA as [-> | ->]; apply indep_upper; discriminate).
  set (fuel := Z.to_nat (2 * potential 3 2 (fn A) + 3)).
  destruct (C68_isreduced_terminates Rfp0 Rfp0_exact Rfp0_half JR 3 2 A false 0 false 0 5 1000 I ltac:(lia) ltac:(lia) ltac:(lia)
    fuel (3 / 4) 0 JR JR ltac:(lra) ltac:(unfold fuel; lia)) as (st & L & E).
  exists fuel, st, L. split; [exact E|].
  pose proof (C68_isreduced_decides Rfp0 Rfp0_exact JR 3 2 A false 0 false 0 5 1000 I ltac:(lia) ltac:(lia) ltac:(lia)
    fuel (3 / 4) 0 JR JR ltac:(lra)) as H. rewrite E in H.
  destruct HA as [-> | ->]; destruct H as [(-> & H)|(-> & H)]; try reflexivity; exfalso.
  - apply H, Bsize_reduced.
  - now apply Bswap_not.
Qed.

(** ** C69: the printed estimates *)

(** the first report: delta is the largest factor for which the Lovasz conditions hold as the basis stands,
    ||b_1|| and Vol(L) are exact, and eta makes the basis weakly size reduced *)
Theorem C69_first_report :
  forall (fp : fpops R), exact fp ->
  forall J n d A u m lg vd nS thr nb, independent n d (fn A) -> (2 <= d)%nat ->
  forall th1 th2 fuel delta junk J1 J2 rep status rep2 L, 0 <= th1 ->
    isreduced_out fp th1 th2 fuel delta junk J1 J2 (fresh_object fp J n d A u m lg vd nS thr nb) = Ok (rep, status, rep2, L) ->
    forall r, R_factor n d (fn A) r ->
      best_delta d r (rp_delta rep) /\
      rp_norm rep = sqrt (IZR (norm2 n (fun i => fn A i 0%nat))) /\
      (0 <= rp_vol rep /\ rp_vol rep * rp_vol rep = IZR (detZ d (gramZ n (fn A)))) /\
      (0 <= rp_eta rep /\ weakly_size_reduced d (rp_eta rep) th1 r) /\
      rp_alpha rep = (rp_eta rep * th1 + sqrt ((th1 * th1 + 1) * rp_delta rep - rp_eta rep * rp_eta rep)) /
                     (rp_delta rep - rp_eta rep * rp_eta rep).
Proof.
  intros fp X J n d A u m lg vd nS thr nb I D2 th1 th2 fuel delta junk J1 J2 rep status rep2 L Ht H r RF.
  set (L0 := fresh_object _ _ _ _ _ _ _ _ _ _ _ _) in H.
  assert (EB : meq n d (fn (iB (li L0))) (fn A)) by (cbn [L0 fresh_object set_nblov_max set_num_S new_lattice li iB]; apply fn_mtab).
  assert (I0 : independent n d (fn (iB (li L0)))).
  { eapply independent_ext; [|exact I]. now apply meq_sym. }
  assert (Rdy : ready fp L0).
  { apply ready_fresh; [now apply independent_staircase|]. right. now apply exact_zero_laws. }
  destruct Rdy as (CK & G & W & _).
  assert (ND : (d <= n)%nat) by (apply (sgood_ND (lcfg L0) (li L0) G); cbn; lia).
  unfold isreduced_out in H. cbv zeta in H. change (cd (lcfg L0)) with d in H.
  set (c := lcfg L0) in *. set (f1 := setprec fp c J1 (lf L0)) in H.
  assert (W1 : fwf c (set_nmax 0 f1)) by (now apply fwf_setprec').
  destruct (householder_exact fp X c (iB (li L0)) f1) as (f2 & H2 & E2 & RF2); auto.
  { apply (g_bok c _ G). }
  { destruct W1; split; assumption. }
  rewrite H2 in H. cbn [bind] in H.
  destruct (isr_report_exact fp X c ND D2 (fR f2) (iB (li L0)) RF2 th1 Ht) as (rep' & ER & P1 & P2 & P3 & P4 & P5 & P6 & P7).
  rewrite ER in H. cbn [bind] in H. binv H. destruct a as [rr L3].
  assert (ERR : rep' = rep).
  { destruct (_ =? _)%Z; [injection H as H _ _ _; exact H|]. binv H. injection H as H _ _ _. exact H. }
  subst rep'. change (cn c) with n in *. change (cd c) with d in *.
  pose proof (rf_meq n d _ _ _ EB RF2) as RF3.
  assert (UQ : forall i, (i < d)%nat -> exists s, (s = 1 \/ s = -1) /\ forall j, (j < d)%nat -> r i j = s * mget (fzero fp) (fR f2) i j)
    by (intros i Hi; apply (R_factor_unique n d (fn A) _ _ RF3 RF i Hi)).
  assert (SQ : forall i j, (i < d)%nat -> (j < d)%nat -> r i j * r i j = mget (fzero fp) (fR f2) i j * mget (fzero fp) (fR f2) i j).
  { intros i j Hi Hj. destruct (UQ i Hi) as (s & Hs & Es). rewrite Es by assumption. destruct Hs as [-> | ->]; ring. }
  assert (AB : forall i j, (i < d)%nat -> (j < d)%nat -> Rabs (r i j) = Rabs (mget (fzero fp) (fR f2) i j)).
  { intros i j Hi Hj. apply Rsqr_eq_abs_0. unfold Rsqr. now apply SQ. }
  assert (LO : forall dl, lovasz_ok d dl r <-> lovasz_ok d dl (fun i j => mget (fzero fp) (fR f2) i j)).
  { intros dl. split; intros Q i Hi; specialize (Q i Hi); [rewrite <- !SQ by lia|rewrite !SQ by lia]; exact Q. }
  split; [|split; [|split; [|split]]]; auto.
  - destruct P1 as (Q1 & Q2 & Q3). split; [exact Q1|]. split; [now apply LO|]. intros dl' H1 H3. apply Q3; auto. now apply LO.
  - rewrite P2. do 2 f_equal. unfold norm2. apply sumZ_ext. intros i Hi. now rewrite !EB by lia.
  - split; [exact P3|]. rewrite P4. apply f_equal. apply eq_IZR. rewrite !detZ_IZR. apply detR_ext. intros i j Hi Hj. apply f_equal.
    unfold gramZ. apply sumZ_ext. intros l Hl. now rewrite !EB by lia.
  - split; [exact P5|]. intros i j Hij. rewrite !AB by lia. now apply P6.
Qed.

(** the report and the verdict belong to the same call: isreduced is isreduced_out without its output *)
Theorem C69_same_verdict :
  forall (F : Type) (fp : fpops F) th1 th2 fuel delta junk J1 J2 L rep status rep2 L',
    isreduced_out fp th1 th2 fuel delta junk J1 J2 L = Ok (rep, status, rep2, L') ->
    (exists inner, isreduced fp fuel delta junk J1 J2 L = Ok (inner, status, L')) /\
    (rep2 = None <-> status = 0%Z).
Proof.
  intros F fp th1 th2 fuel delta junk J1 J2 L rep status rep2 L' H. unfold isreduced_out in H. cbv zeta in H.
  binv H. binv H. binv H. destruct a1 as [r L3]. unfold isreduced. cbv zeta. rewrite Ha. cbn [bind].
  unfold isr_report in Ha0. binv Ha0. unfold isr_delta in Ha2. binv Ha2. unfold isr_quot in Ha3. binv Ha3. binv Ha3.
  cbn [Nat.add] in Ha4, Ha5. rewrite Ha4. cbn [bind]. rewrite Ha5. cbn [bind]. rewrite Ha1. cbn [bind].
  destruct (_ =? _)%Z.
  - injection H as <- <- <- <-. split; [eauto|]. tauto.
  - binv H. injection H as <- <- <- <-. split; [eauto|]. split; discriminate.
Qed.

(** the second report (printed when the basis was not reduced) divides by R(i,i) with its sign: the eta it prints can be 0
    for a basis whose first two vectors have mu = 1/3, so the printed numbers do not bound the size reduction *)
Definition second_eta_sound (F : Type) (fp : fpops F) (th1 th2 : F) : Prop :=
  forall fuel delta junk J J1 J2 n d A rep status rep2 L,
    isreduced_out fp th1 th2 fuel delta junk J1 J2 (new_lattice fp J n d A false 0 true 0) = Ok (rep, status, Some rep2, L) ->
    rp_eta rep2 = fzero fp ->
    forall r, R_factor n d (fn (getbase L)) r -> weakly_size_reduced d 0 (1 / 1000) r.

Theorem C69_second_report_refuted : ~ second_eta_sound _ dbl theta1 theta2.
Proof.
  intros H.
  assert (E : exists rep st rep2 L,
    isreduced_out dbl theta1 theta2 100 d75 z0 Jz Jz
      (new_lattice dbl Jz 3 2 [[1;5;0];[3;0;0]]%Z false 0 true 0) = Ok (rep, st, Some rep2, L) /\
    rp_eta rep2 = fzero dbl /\ getbase L = [[3;0;0];[1;5;0]]%Z).
  { do 4 eexists. split; [vm_compute; reflexivity|]. split; vm_compute; reflexivity. }
  destruct E as (rep & st & rep2 & L & E & E0 & EB).
  specialize (H _ _ _ _ _ _ _ _ _ _ _ _ _ E E0). rewrite EB in H.
  specialize (H _ (rf_upper 3 1 5 ltac:(discriminate) ltac:(discriminate)) 0%nat 1%nat ltac:(lia)).
  cbv [fn mget col nth] in H. rewrite !Rabs_right in H; lra.
Qed.

(** a call as in C69_first_report, on doubles: it prints, answers -1 and prints again *)
Example C69_case : exists rep rep2 L,
  isreduced_out dbl theta1 theta2 100 d75 z0 Jz Jz
      (new_lattice dbl Jz 3 2 [[1;5;0];[3;0;0]]%Z false 0 true 0) = Ok (rep, (-1)%Z, Some rep2, L).
Proof. do 3 eexists. vm_compute. reflexivity. Qed.

Example C69_case_exact : exists fuel rep status rep2 L,
  isreduced_out Rfp0 (1 / 100000) (1 / 1000) fuel (3 / 4) 0 JR JR (fresh_object Rfp0 JR 3 2 Bsize false 0 false 0 1 5 1000)
    = Ok (rep, status, rep2, L).
Proof.
  destruct (C68_case Bsize (or_introl eq_refl)) as (fuel & st & L & E & Es). cbn in Es. subst st.
  exists fuel. unfold isreduced_out. unfold isreduced in E. cbv zeta in *. binv E. rewrite Ha. cbn [bind].
  binv E. binv E. binv E. destruct a2 as [r L3].
  set (L0 := fresh_object _ _ _ _ _ _ _ _ _ _ _ _) in *.
  assert (EB : meq 3 2 (fn (iB (li L0))) (fn Bsize)) by (cbn [L0 fresh_object set_nblov_max set_num_S new_lattice li iB]; apply fn_mtab).
  assert (I0 : independent 3 2 (fn (iB (li L0)))).
  { eapply independent_ext; [apply meq_sym, EB|]. apply indep_upper; discriminate. }
  assert (Rdy : ready Rfp0 L0).
  { apply ready_fresh; [apply independent_staircase, indep_upper; discriminate|]. right. apply exact_zero_laws, Rfp0_exact. }
  destruct Rdy as (CK & G & W & _).
  assert (ND : (cd (lcfg L0) <= cn (lcfg L0))%nat) by (cbn; lia).
  destruct (householder_exact Rfp0 Rfp0_exact (lcfg L0) (iB (li L0)) (setprec Rfp0 (lcfg L0) JR (lf L0))) as (f2 & H2 & E2 & RF2); auto.
  { apply (g_bok (lcfg L0) _ G). }
  { assert (W1 : fwf (lcfg L0) (set_nmax 0 (setprec Rfp0 (lcfg L0) JR (lf L0)))) by (now apply fwf_setprec'). destruct W1; split; assumption. }
  rewrite Ha in H2. injection H2 as <-.
  destruct (isr_report_exact Rfp0 Rfp0_exact (lcfg L0) ltac:(cbn; lia) ltac:(cbn; lia) (fR a) (iB (li L0)) RF2 (1 / 100000) ltac:(lra)) as (rep & ER & _).
  rewrite ER. cbn [bind]. rewrite Ha2. cbn [bind].
  destruct (nblov (lc L3) =? Z.of_nat (cd (lcfg L0)) - 1)%Z; [do 4 eexists; reflexivity|discriminate E].
Qed.

Print Assumptions C68_isreduced_decides.
Print Assumptions C68_isreduced_terminates.
Print Assumptions C68_criterion.
Print Assumptions C69_first_report.
Print Assumptions C69_same_verdict.
Print Assumptions C69_second_report_refuted.
