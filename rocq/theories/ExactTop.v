(** * hlll in exact arithmetic: the whole call *)
From Coq Require Import ZArith Lia Reals Lra List Bool Arith.
From Verif Require Import Base Spec Mat FP Hlll IntSteps HlllInt Structure Object Safety SpecReal Det Fresh Cache Cache2 Cache3 Cache4 Cache5
  Cache6 Cache7 Exact HHMath ExactLoop ExactLoop2 ExactPot.
Import ListNotations.
Local Open Scope R_scope.

Section Top.
Variable fp : fpops R.
Hypothesis X : exact fp.

Lemma lim1 : lim 1 = 0%nat.
Proof. reflexivity. Qed.

Lemma getR_at junk L i j : (i < cd (lcfg L))%nat -> (j < cd (lcfg L))%nat -> (cd (lcfg L) <= cn (lcfg L))%nat ->
  mget (fzero fp) (getR fp junk L) i j = if (i <=? j)%nat then mget (fzero fp) (fR (lf L)) i j else fzero fp.
Proof.
  intros Hi Hj ND. unfold getR. rewrite mget_mtab by assumption.
  replace (i <? min (cn (lcfg L)) (cd (lcfg L)))%nat with true by (symmetry; apply Nat.ltb_lt; lia).
  destruct (Nat.ltb_spec j i), (Nat.leb_spec i j); try lia; reflexivity.
Qed.

Lemma potential_ext n d A B : meq n d A B -> potential n d A = potential n d B.
Proof.
  intros E. unfold potential. apply prodZ_ext. intros k Hk. apply eq_IZR. rewrite !detZ_IZR. apply detR_ext. intros i j Hi Hj.
  apply f_equal. unfold gramZ. apply sumZ_ext. intros l Hl. now rewrite !E by lia.
Qed.

(** the number of swaps is at most logarithmic in the product of the Gram determinants of the
    first columns, which every swap divides by 1/delta at least *)
Definition swapbound (L L' : lattice R) (delta : R) : Prop :=
  exists k : nat, (nbswaps (lc L') = nbswaps (lc L) + Z.of_nat k)%Z /\
    (0 < delta -> 1 <= IZR (potential (cn (lcfg L)) (cd (lcfg L)) (fn (getbase L'))) <=
       delta ^ k * IZR (potential (cn (lcfg L)) (cd (lcfg L)) (fn (iB (li L))))).

(** *** for any way of reducing a column.  [Pk j]: column j is reduced, [Pr]: the same, said of
    all the columns of the upper triangular matrix that getR returns *)
Section AnyReduction.
Variable Pk : nat -> fst_ R -> Prop.
Hypothesis Pk_ext : forall kappa g g',
  (forall i j, (i <= j <= kappa)%nat -> ~ (i = kappa /\ j = kappa) ->
     mget (fzero fp) (fR g') i j = mget (fzero fp) (fR g) i j) -> Pk kappa g -> Pk kappa g'.
Hypothesis Pk0 : forall g, Pk 0 g.

Definition reduces (c : cfg) : Prop := forall fuel s g kappa, (1 <= kappa)%nat -> (kappa < cd c)%nat -> EI fp c kappa s g ->
  match reduce_g fp c (hr_ref fp) fuel s g kappa with
  | Ok (s', g', bad) => bad = false /\ done fp c (Pk kappa) kappa s g s' g'
  | UB => False
  | NoFuel => (forall x, Rabs x <= / 2 -> frnd fp x = 0) -> (fuel < 2)%nat
  end.

(** the reference program *)
Lemma ref_exact L fuel delta vb junk : ready fp L -> reduces (lcfg L) ->
  independent (cn (lcfg L)) (cd (lcfg L)) (fn (iB (li L))) ->
  match hlll_g fp (hr_ref fp) fuel delta vb junk L with
  | Ok (rv, L') =>
      lcfg L' = lcfg L /\
      ((rv = 0%Z /\ ((2 <= cd (lcfg L))%nat -> (nblov (lc L') < cnblov_max (lcfg L))%Z -> 
         EI fp (lcfg L) (cd (lcfg L)) (li L') (lf L') /\ Red fp Pk delta (cd (lcfg L)) (lf L'))) \/
       (rv = (-1)%Z /\ 1 < delta)) /\ 
      swapbound L L' delta
  | UB => False
  | NoFuel => (forall x, Rabs x <= / 2 -> frnd fp x = 0) -> delta <= 1 ->
      (Z.of_nat fuel < 2 * potential (cn (lcfg L)) (cd (lcfg L)) (fn (iB (li L))) + Z.of_nat (cd (lcfg L)) + 1)%Z /\
      forall K : nat, 0 < delta -> delta ^ K * IZR (potential (cn (lcfg L)) (cd (lcfg L)) (fn (iB (li L)))) < 1 -> (Z.of_nat fuel < 2 * Z.of_nat K + Z.of_nat (cd (lcfg L)) + 1)%Z
  end.
Proof.
  intros (CK & G & W & _) RO I. unfold hlll_g. set (c := lcfg L) in *.
  set (q0 := if vb then _ else _).
  assert (E : EI fp c (lim 1) (li L) (hlll_reset c (lf L))).
  { rewrite lim1. split; auto; try (intros; lia). destruct W; split; assumption. }
  assert (Rd : Red fp Pk delta (lim 1) (hlll_reset c (lf L))) by (rewrite lim1; split; intros; lia).
  assert (PR : prevE fp c delta 1 (-1)%Z (repeat junk (cd c)) (li L) (hlll_reset c (lf L))).
  { split; [apply repeat_length|]. split; intros; lia. }
  pose proof (loop_exact fp X c Pk Pk_ext RO Pk0 CK delta vb (D c) (D_pos fp X c) (D_red fp X c)
    (D_swap fp X c) (D_ratio fp X c) fuel (li L) _ 1 (-1)%Z _ q0 ltac:(lia) ltac:(auto) E Rd PR) as H.
  destruct (hlll_loop_g _ _ _ _ _ _ _ _ _ _ _ _) as [[[[r s] g] q]| |]; cbn [bind lcfg li lf lc]; auto.
  { destruct H as (H & k & K1 & K2 & K3). split; [reflexivity|]. split; [exact H|]. exists k. cbn [lc]. split.
    - rewrite K1. unfold q0. destruct vb; reflexivity.
    - intros HD. specialize (K3 ltac:(lra)). unfold D in K2, K3. unfold getbase. cbn [lcfg li].
      rewrite (potential_ext (cn c) (cd c) _ (fn (iB s))) by apply fn_mtab. split; [|exact K3]. apply IZR_le. lia. }
  intros H1 H2. destruct (H H1 H2) as (HA & HB). unfold budget, D in HA, HB. split; [lia|].
  intros K D0 DK. specialize (HB K D0 DK). lia.
Qed.

(** the real program *)
Variable Pr : nat -> (nat -> nat -> R) -> Prop.
Hypothesis Pr_Pk : forall d g r, (forall j, (j < d)%nat -> Pk j g) ->
  (forall i j, (i <= j < d)%nat -> r i j = mget (fzero fp) (fR g) i j) -> Pr d r.

Lemma hlll_exact_any L fuel delta vb junk : ready fp L -> reduces (lcfg L) ->
  independent (cn (lcfg L)) (cd (lcfg L)) (fn (iB (li L))) ->
  match hlll fp fuel delta vb junk L with
  | Ok (rv, L') =>
      lcfg L' = lcfg L /\
      ((rv = 0%Z /\ ((2 <= cd (lcfg L))%nat -> (nblov (lc L') < cnblov_max (lcfg L))%Z -> 
         forall junk', let r := fun i j => mget 0 (getR fp junk' L') i j in
         R_factor (cn (lcfg L)) (cd (lcfg L)) (fn (getbase L')) r /\ 
         Pr (cd (lcfg L)) r /\ lovasz_ok (cd (lcfg L)) delta r)) \/
       (rv = (-1)%Z /\ 1 < delta)) /\ 
      swapbound L L' delta
  | UB => False
  | NoFuel => (forall x, Rabs x <= / 2 -> frnd fp x = 0) -> delta <= 1 ->
      (Z.of_nat fuel < 2 * potential (cn (lcfg L)) (cd (lcfg L)) (fn (iB (li L))) + Z.of_nat (cd (lcfg L)) + 1)%Z /\
      forall K : nat, 0 < delta -> delta ^ K * IZR (potential (cn (lcfg L)) (cd (lcfg L)) (fn (iB (li L)))) < 1 -> (Z.of_nat fuel < 2 * Z.of_nat K + Z.of_nat (cd (lcfg L)) + 1)%Z
  end.
Proof.
  intros Rdy RO I. pose proof (ref_exact L fuel delta vb junk Rdy RO I) as H.
  pose proof (hlll_g_ref fp (e_expo fp X) (householder_r fp (lcfg L)) L fuel delta vb junk (hr_sim_real fp (lcfg L)) Rdy) as SO.
  rewrite hlll_g_real in SO.
  assert (CF : forall r L', hlll fp fuel delta vb junk L = Ok (r, L') -> lcfg L' = lcfg L).
  { intros r L' HL. destruct Rdy as (_ & G & _). eapply (hlll_inv fp); [apply (e_expo fp X)|eassumption|apply (g_bok _ _ G)]. }
  destruct (hlll fp fuel delta vb junk L) as [[rv L']| |] eqn:HL;
    destruct (hlll_g fp (hr_ref fp) fuel delta vb junk L) as [[rv2 L2]| |]; cbn in SO; try contradiction; auto.
  specialize (CF _ _ eq_refl). split; [exact CF|].
  destruct SO as (-> & Eb & _ & Enb & Ens & ER). destruct H as (C2 & H & SW).
  split; [|destruct SW as (k & K1 & K2); exists k; split; [congruence|rewrite Eb; exact K2]].
  destruct H as [(-> & H)|H]; [left|now right].
  split; [reflexivity|]. intros D2 NB junk'. rewrite Enb in NB. rewrite CF in ER.
  destruct (H D2 NB) as (E & R1 & R2).
  assert (ND : (cd (lcfg L) <= cn (lcfg L))%nat) by (destruct Rdy as (_ & G & _); apply (sgood_ND _ _ G); lia).
  specialize (ER D2 eq_refl ltac:(now rewrite Enb) junk'). rewrite ER.
  cbv zeta. rewrite Eb. unfold getbase.
  assert (A : forall i j, (i < cd (lcfg L))%nat -> (j < cd (lcfg L))%nat ->
     mget 0 (getR fp junk' L2) i j = if (i <=? j)%nat then mget (fzero fp) (fR (lf L2)) i j else 0).
  { intros i j Hi Hj. rewrite <- (e_zero fp X). apply getR_at; rewrite C2; assumption. }
  assert (A' : forall i j, (i <= j)%nat -> (j < cd (lcfg L))%nat ->
     mget 0 (getR fp junk' L2) i j = mget (fzero fp) (fR (lf L2)) i j).
  { intros i j Hi Hj. rewrite A by lia. apply Nat.leb_le in Hi. now rewrite Hi. }
  split; [|split].
  - pose proof (EI_R_factor fp X (lcfg L) (li L2) (lf L2) E ND) as (U & Dg & G). split; [|split].
    + intros i j Hij. rewrite A by lia. now apply U.
    + intros i Hi. rewrite A by lia. now apply Dg.
    + intros j l Hj Hl. transitivity (IZR (sumZ (cn (lcfg L)) (fun i => fn (iB (li L2)) i j * fn (iB (li L2)) i l)%Z)).
      * rewrite <- G by assumption. apply sumR_ext. intros i Hi. now rewrite !A by assumption.
      * apply f_equal, sumZ_ext. intros i Hi. rewrite C2, !fn_mtab by assumption. reflexivity.
  - apply (Pr_Pk _ (lf L2)); [exact R1|]. intros i j Hij. apply A'; lia.
  - intros i Hi. rewrite !A' by lia. now apply R2.
Qed.

Lemma hlll_exact_fresh_any J n d A u m lg vd S thr nb fuel delta vb junk : independent n d (fn A) ->
  reduces (lcfg (fresh_object fp J n d A u m lg vd S thr nb)) ->
  match hlll fp fuel delta vb junk (fresh_object fp J n d A u m lg vd S thr nb) with
  | Ok (rv, L) =>
      ((rv = 0%Z /\ ((2 <= d)%nat -> (nblov (lc L) < nb)%Z -> 
         forall junk', let r := fun i j => mget 0 (getR fp junk' L) i j in
         R_factor n d (fn (getbase L)) r /\ Pr d r /\ lovasz_ok d delta r)) \/
      (rv = (-1)%Z /\ 1 < delta)) /\
      exists k : nat, nbswaps (lc L) = Z.of_nat k /\ (0 < delta -> 1 <= IZR (potential n d (fn (getbase L))) <= delta ^ k * IZR (potential n d (fn A)))
  | UB => False
  | NoFuel => (forall x, Rabs x <= / 2 -> frnd fp x = 0) -> delta <= 1 ->
      (Z.of_nat fuel < 2 * potential n d (fn A) + Z.of_nat d + 1)%Z /\
      forall K : nat, 0 < delta -> delta ^ K * IZR (potential n d (fn A)) < 1 -> (Z.of_nat fuel < 2 * Z.of_nat K + Z.of_nat d + 1)%Z
  end.
Proof.
  intros I RO. set (L0 := fresh_object _ _ _ _ _ _ _ _ _ _ _ _) in *.
  assert (Rdy : ready fp L0).
  { apply ready_fresh; [now apply independent_staircase|]. right. now apply exact_zero_laws. }
  assert (I0 : independent n d (fn (iB (li L0)))).
  { eapply independent_ext; [|exact I]. cbn [L0 fresh_object set_nblov_max set_num_S new_lattice li iB]. apply meq_sym, fn_mtab. }
  pose proof (hlll_exact_any L0 fuel delta vb junk Rdy RO I0) as H.
  change (cn (lcfg L0)) with n in H. change (cd (lcfg L0)) with d in H.
  assert (PE : potential n d (fn (iB (li L0))) = potential n d (fn A)).
  { unfold potential. apply prodZ_ext. intros k Hk. apply eq_IZR. rewrite !detZ_IZR. apply detR_ext. intros i j Hi Hj. apply f_equal. unfold gramZ. apply sumZ_ext. intros l Hl.
    cbn [L0 fresh_object set_nblov_max set_num_S new_lattice li iB]. rewrite !fn_mtab by lia. reflexivity. }
  destruct (hlll _ _ _ _ _ L0) as [[rv L]| |]; auto.
  - destruct H as (C & H & k & K1 & K2). split; [exact H|]. exists k. split; [exact K1|]. now rewrite <- PE.
  - intros H1 H2. specialize (H H1 H2). now rewrite PE in H.
Qed.

End AnyReduction.

(** *** with size reduction *)
Definition sizered_col (kappa : nat) (g : fst_ R) : Prop := redd fp g 0 kappa.

Lemma sizered_ext kappa g g' :
  (forall i j, (i <= j <= kappa)%nat -> ~ (i = kappa /\ j = kappa) ->
     mget (fzero fp) (fR g') i j = mget (fzero fp) (fR g) i j) -> sizered_col kappa g -> sizered_col kappa g'.
Proof. intros H P i Hi. rewrite !H by lia. now apply P. Qed.

Lemma sizered_0 g : sizered_col 0 g.
Proof. intros i Hi. lia. Qed.

Lemma sizered_all d g r : (forall j, (j < d)%nat -> sizered_col j g) ->
  (forall i j, (i <= j < d)%nat -> r i j = mget (fzero fp) (fR g) i j) -> size_reduced d r.
Proof. intros A E i j Hij. rewrite !E by lia. apply (A j); lia. Qed.

Lemma reduces_size c : (cS c = 1)%nat -> (cseysen c < 1)%Z -> reduces sizered_col c.
Proof. intros ST SEY fuel s g kappa H1 Hk E. now apply reduce_exact. Qed.

Lemma hlll_exact L fuel delta vb junk : ready fp L -> (cS (lcfg L) = 1)%nat -> (cseysen (lcfg L) < 1)%Z ->
  independent (cn (lcfg L)) (cd (lcfg L)) (fn (iB (li L))) ->
  match hlll fp fuel delta vb junk L with
  | Ok (rv, L') =>
      lcfg L' = lcfg L /\
      ((rv = 0%Z /\ ((2 <= cd (lcfg L))%nat -> (nblov (lc L') < cnblov_max (lcfg L))%Z -> 
         forall junk', let r := fun i j => mget 0 (getR fp junk' L') i j in
         R_factor (cn (lcfg L)) (cd (lcfg L)) (fn (getbase L')) r /\ 
         size_reduced (cd (lcfg L)) r /\ lovasz_ok (cd (lcfg L)) delta r)) \/
       (rv = (-1)%Z /\ 1 < delta)) /\ 
      swapbound L L' delta
  | UB => False
  | NoFuel => (forall x, Rabs x <= / 2 -> frnd fp x = 0) -> delta <= 1 ->
      (Z.of_nat fuel < 2 * potential (cn (lcfg L)) (cd (lcfg L)) (fn (iB (li L))) + Z.of_nat (cd (lcfg L)) + 1)%Z /\
      forall K : nat, 0 < delta -> delta ^ K * IZR (potential (cn (lcfg L)) (cd (lcfg L)) (fn (iB (li L)))) < 1 -> (Z.of_nat fuel < 2 * Z.of_nat K + Z.of_nat (cd (lcfg L)) + 1)%Z
  end.
Proof.
  intros Rdy ST SEY. apply (hlll_exact_any sizered_col sizered_ext sizered_0 size_reduced sizered_all); auto.
  now apply reduces_size.
Qed.

Lemma hlll_exact_fresh J n d A u m lg vd thr nb fuel delta vb junk : independent n d (fn A) -> (m < 1)%Z ->
  match hlll fp fuel delta vb junk (fresh_object fp J n d A u m lg vd 1 thr nb) with
  | Ok (rv, L) =>
      ((rv = 0%Z /\ ((2 <= d)%nat -> (nblov (lc L) < nb)%Z -> 
         forall junk', let r := fun i j => mget 0 (getR fp junk' L) i j in
         R_factor n d (fn (getbase L)) r /\ size_reduced d r /\ lovasz_ok d delta r)) \/
      (rv = (-1)%Z /\ 1 < delta)) /\
      exists k : nat, nbswaps (lc L) = Z.of_nat k /\ (0 < delta -> 1 <= IZR (potential n d (fn (getbase L))) <= delta ^ k * IZR (potential n d (fn A)))
  | UB => False
  | NoFuel => (forall x, Rabs x <= / 2 -> frnd fp x = 0) -> delta <= 1 ->
      (Z.of_nat fuel < 2 * potential n d (fn A) + Z.of_nat d + 1)%Z /\
      forall K : nat, 0 < delta -> delta ^ K * IZR (potential n d (fn A)) < 1 -> (Z.of_nat fuel < 2 * Z.of_nat K + Z.of_nat d + 1)%Z
  end.
Proof.
  intros I Hm. apply (hlll_exact_fresh_any sizered_col sizered_ext sizered_0 size_reduced sizered_all); auto.
  now apply reduces_size.
Qed.

End Top.
