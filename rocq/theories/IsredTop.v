(** * isreduced in exact arithmetic: the whole call *)
From Coq Require Import ZArith Lia Reals Lra List Bool Arith.
From Verif Require Import Base Spec Mat FP Hlll Hlll2 IntSteps HlllInt Structure Object Safety Counters SpecReal Det Fresh Cache Cache2 Cache3 Cache4 Cache5
  Cache6 Cache7 Exact HHMath ExactLoop ExactLoop2 ExactPot ExactTop ExactHH LcondFacts SpecIsred IsredExact.
Import ListNotations.
Local Open Scope R_scope.

(** householder() only changes R and V *)
Lemma hh_keeps {F} (fp : fpops F) c B f f' : householder fp c B f = Ok f' -> f' = set_R (fR f') (set_V (fV f') f).
Proof.
  unfold householder. intros H.
  refine (mfold_inv (fun g => g = set_R (fR g) (set_V (fV g) f)) _ _ _ _ _ _ H); [|now destruct f].
  clear H f'. intros k g g' Hk IH H. unfold hh_col in H. binv H. binv H. binv H. binv H.
  destruct (if fle fp (fzero fp) a0 then _ else _) as [s rkk]. binv H.
  assert (E : a = set_R (fR a) g).
  { refine (mfold_inv (fun x => x = set_R (fR x) g) _ _ _ _ _ _ Ha); [|reflexivity].
    intros k' x x' Hk' IHx Hx. unfold hh_reflect in Hx. binv Hx. binv Hx. binv Hx. binv Hx. injection Hx as <-. rewrite IHx. reflexivity. }
  injection H as <-. rewrite E, IH. reflexivity.
Qed.

Section Top.
Variable fp : fpops R.
Hypothesis X : exact fp.

Lemma isreduced_exact L fuel delta junk J1 J2 :
  let c := lcfg L in let n := cn c in let d := cd c in
  ckmax c = d -> sgood c (li L) -> fwf c (set_nmax 0 (lf L)) -> (cS c = 1)%nat -> (cseysen c < 1)%Z ->
  independent n d (fn (iB (li L))) -> (2 <= d)%nat -> (Z.of_nat d <= cnblov_max c)%Z -> delta <= 1 ->
  match isreduced fp fuel delta junk J1 J2 L with
  | Ok (inner, status, L') =>
      inner = 0%Z /\ (status = 0%Z \/ status = (-1)%Z) /\
      (status = 0%Z <-> LLL_up_to_size n d delta (fn (iB (li L))))
  | UB => False
  | NoFuel => (forall x, Rabs x <= / 2 -> frnd fp x = 0) ->
      (Z.of_nat fuel < 2 * potential n d (fn (iB (li L))) + Z.of_nat d + 1)%Z
  end.
Proof.
  intros c n d CK G W ST SEY I D2 NB HD.
  assert (ND : (d <= n)%nat) by (apply (sgood_ND c (li L) G); unfold d in *; lia).
  unfold isreduced. cbv zeta. fold c.
  set (f1 := setprec fp c J1 (lf L)).
  assert (W1 : fwf c (set_nmax 0 f1)) by (now apply fwf_setprec').
  assert (GW : gwf c f1) by (destruct W1; split; assumption).
  destruct (householder_exact fp X c (iB (li L)) f1) as (f2 & H2 & E2 & RF2); auto.
  { apply (g_bok c _ G). }
  rewrite H2. cbn [bind]. rewrite !gR_ok by (fold n d; lia). cbn [bind].
  pose proof (hh_keeps fp c _ _ _ H2) as K2.
  set (L2 := mkL c (li L) f2 (mkC 0 (nbswaps (lc L)) (vdepth (lc L)))).
  assert (Rdy : ready fp L2).
  { unfold ready, L2. cbn [lcfg li lf]. split; [exact CK|]. split; [exact G|]. split.
    - pose proof (ei_w _ _ _ _ _ E2) as [V1 V2 V3]. rewrite K2. destruct W1. split; setf; assumption.
    - right. split; [now apply exact_zero_laws|]. intros j i Hj Hi. rewrite K2. unfold f1, setprec. setf. fold n d.
      unfold mget. unfold col, mtab. rewrite nth_map_seq by assumption. rewrite nth_map_seq by (fold n in Hi; lia). reflexivity. }
  pose proof (hlll_exact fp X L2 fuel delta false junk Rdy ST SEY I) as HX.
  pose proof (hlll_g_ref fp (e_expo fp X) (householder_r fp (lcfg L2)) L2 fuel delta false junk (hr_sim_real fp (lcfg L2)) Rdy) as SO.
  rewrite hlll_g_real in SO. change (lcfg L2) with c in HX, SO. fold n d in HX. change (li L2) with (li L) in HX.
  destruct (hlll fp fuel delta false junk L2) as [[rv L3]| |] eqn:HL; cbn [bind]; [|contradiction|].
  2:{ intros H. apply HX; auto. }
  destruct HX as (C3 & [(-> & HR)|(_ & HR)] & _); [|lra].
  split; [reflexivity|]. split; [destruct (_ =? _)%Z; auto|].
  (* what the reference program says *)
  destruct (hlll_g fp (hr_ref fp) fuel delta false junk L2) as [[rv2 L4]| |] eqn:HG; cbn in SO; try contradiction.
  destruct SO as (_ & Eb & _ & Enb & Ens & _).
  unfold hlll_g in HG. cbn [lcfg li lf lc L2] in HG. 
  assert (E : EI fp c (lim 1) (li L) (hlll_reset c f2)).
  { rewrite lim1. pose proof (ei_w _ _ _ _ _ E2) as [V1 V2 V3]. split; auto; try (intros; lia). split; assumption. }
  pose proof (loop_noswap fp X c ST SEY CK delta false (li L) G fuel (li L) (hlll_reset c f2) 1 (-1)%Z (repeat junk (cd c))
    (mkC 0 (nbswaps (lc L)) (vdepth (lc L))) ltac:(lia) ltac:(auto) E (red_refl c (li L)) ltac:(cbn [nblov]; fold d; lia)) as NS.
  destruct (hlll_loop_g _ _ _ _ _ _ _ _ _ _ _ _) as [[[[r s] g] q]| |]; cbn [bind] in HG; try discriminate.
  injection HG as <- <-. cbn [lcfg li lf lc] in *. cbn [nblov nbswaps] in NS. unfold getbase in Eb. cbn [lcfg li] in Eb.
  pose proof (hlll_cnt fp fuel delta false junk L2 _ _ HL) as CT. cbn [lcfg L2 lc nblov nbswaps] in CT.
  specialize (CT ltac:(rewrite CK; fold d; lia)). destruct CT as (_ & CB & _ & CS & _ & CC). specialize (CC eq_refl).
  fold d in NS. rewrite CK in CC. fold d in CC. 
  destruct NS as [(S1 & S2 & S3)|(S1 & S2)].
  - (* no swap *)
    assert (NB3 : (nblov (lc L3) < cnblov_max c)%Z) by lia.
    specialize (CC NB3).
    assert (NL : nblov (lc L3) = (Z.of_nat d - 1)%Z) by lia.
    rewrite NL, Z.eqb_refl. split; [intros _|reflexivity].
    specialize (HR D2 NB3 (fun _ _ => 0)). cbv zeta in HR.
    destruct (redto_T c (li L) s G S2) as (T & HT & EM). exists T. split; [exact HT|].
    eexists. destruct HR as (R1 & R2 & R3). split; [|split; [exact R2|exact R3]].
    eapply rf_meq; [|exact R1]. unfold getbase. rewrite Eb. fold n d.
    intros i j Hi Hj. fold n d in EM. rewrite <- EM by assumption. now apply fn_mtab.
  - (* a swap *)
    split.
    + intros Q. exfalso. fold d in Q. destruct (Z.eqb_spec (nblov (lc L3)) (Z.of_nat d - 1)) as [E3|]; [|discriminate].
      specialize (CC ltac:(lia)). lia.
    + intros Q. exfalso. apply (S2 _ RF2). now apply (up_to_size_any n d delta (fn (iB (li L))) _ RF2).
Qed.

Lemma isreduced_exact_fresh J n d A u m lg vd thr nb fuel delta junk J1 J2 :
  independent n d (fn A) -> (m < 1)%Z -> (2 <= d)%nat -> (Z.of_nat d <= nb)%Z -> delta <= 1 ->
  match isreduced fp fuel delta junk J1 J2 (fresh_object fp J n d A u m lg vd 1 thr nb) with
  | Ok (inner, status, L') =>
      inner = 0%Z /\ (status = 0%Z \/ status = (-1)%Z) /\ (status = 0%Z <-> LLL_up_to_size n d delta (fn A))
  | UB => False
  | NoFuel => (forall x, Rabs x <= / 2 -> frnd fp x = 0) -> (Z.of_nat fuel < 2 * potential n d (fn A) + Z.of_nat d + 1)%Z
  end.
Proof.
  intros I Hm D2 NB HD. set (L0 := fresh_object _ _ _ _ _ _ _ _ _ _ _ _).
  assert (Rdy : ready fp L0).
  { apply ready_fresh; [now apply independent_staircase|]. right. now apply exact_zero_laws. }
  assert (EB : meq n d (fn (iB (li L0))) (fn A)) by (cbn [L0 fresh_object set_nblov_max set_num_S new_lattice li iB]; apply fn_mtab).
  assert (I0 : independent n d (fn (iB (li L0)))).
  { eapply independent_ext; [|exact I]. now apply meq_sym. }
  destruct Rdy as (CK & G & W & _).
  pose proof (isreduced_exact L0 fuel delta junk J1 J2 CK G W eq_refl Hm I0 D2 NB HD) as H.
  change (cn (lcfg L0)) with n in H. change (cd (lcfg L0)) with d in H.
  assert (PE : potential n d (fn (iB (li L0))) = potential n d (fn A)).
  { unfold potential. apply prodZ_ext. intros k Hk. apply eq_IZR. rewrite !detZ_IZR. apply detR_ext. intros i j Hi Hj. apply f_equal. unfold gramZ. apply sumZ_ext. intros l Hl.
    rewrite !EB by lia. reflexivity. }
  assert (ES : LLL_up_to_size n d delta (fn (iB (li L0))) <-> LLL_up_to_size n d delta (fn A)).
  { assert (EM : forall T, meq n d (mmul d (fn (iB (li L0))) T) (mmul d (fn A) T)).
    { intros T i j Hi Hj. unfold mmul. apply sumZ_ext. intros l Hl. now rewrite EB by lia. }
    split; intros (T & HT & r & RF & Q); exists T; (split; [exact HT|]); exists r; (split; [|exact Q]).
    - eapply rf_meq; [apply EM|exact RF].
    - eapply rf_meq; [apply meq_sym, EM|exact RF]. }
  destruct (isreduced _ _ _ _ _ _ L0) as [[[inner status] L']| |]; auto.
  - rewrite <- ES. exact H.
  - now rewrite <- PE.
Qed.

End Top.
