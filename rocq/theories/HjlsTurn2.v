(** * HjlsTurn2: the number of turns of Fgas::decomp before the first column is set aside, in exact arithmetic *)
From Coq Require Import ZArith Lia List Bool Arith Reals Lra.
From Verif Require Import Base Spec SpecReal Mat FP Hlll IntSteps HlllInt Structure Safety MatOpsFacts ZFgas Fgas FgasExact FgasSafe
  Cache Exact HHMath HjlsBound RGram HjlsTurn MachInt.
Import ListNotations.
Local Open Scope R_scope.

Section HT.
Variables (fp : fpops R) (rt : rtops R R).
Hypothesis X : exact fp.
Hypothesis XR : rt_exact rt.
Hypothesis TF : forall x, tfp rt x = x.
Hypothesis HALF : forall x, Rabs x <= / 2 -> frnd fp x = 0.
Variables (d n dec : nat) (transf : bool) (gap : R -> bool) (epsilon : R) (ubound : Z).
Hypothesis DN : (d <= n)%nat.
Notation fz := (fzero fp).
Notation tz := (tzero rt).
Notation r z i j := (mget fz (gR z) i j).
Notation Vz := (Vz fp).
Notation Fz := (Fz rt).
Notation gwf := (FgasSafe.gwf d n).
Notation ghouseholder := (ghouseholder fp rt d n).
Notation ghsizereduce := (ghsizereduce fp rt d n dec transf).
Notation colok := (colok fp rt d).
Notation frame := (frame fp rt).
Notation fwf := (fwf d n).
Notation good := (good fp rt d n).
Notation gelim := (gelim fp rt d n dec transf).
Notation sred := (sred fp d).
Notation tracks := (tracks fp rt d).
Notation seen := (seen fp rt d).
Notation keeps := (keeps rt d).
Notation H_ghouse := (ghouse_fwf fp rt X TF d n dec gap epsilon DN).
Notation H_ghsize := (ghsize_frame fp rt X TF d n dec transf gap epsilon DN).
Notation H_good := (ghsize_good fp rt X TF d n dec transf gap epsilon DN).
Notation H_cokf := (colok_frame fp rt TF d n gap epsilon DN).
Notation H_keeps := (ghsize_keeps fp rt X XR TF d n dec transf gap epsilon DN).
Notation H_sred := (ghsize_sred fp rt X XR TF d n dec transf gap epsilon DN).
Notation H_pass := (ghs_pass fp rt X XR TF d n dec transf gap epsilon DN).
Notation H_tracks := (ghouse_tracks fp rt X TF d n dec gap epsilon DN).
Notation H_rf := (good_rf fp rt TF d n dec gap epsilon DN).

(** ** ghsizereduce ends *)
Lemma rget_nf M i j : rget fp d n M i j <> NoFuel.
Proof. apply guard_nf. discriminate. Qed.
Lemma xcol_nf kappa i xz x : xcol rt d n dec transf kappa i xz x <> NoFuel.
Proof.
  apply guard_nf. apply bind_nf; [|discriminate]. destruct (_ && _)%bool; [|discriminate]. apply guard_nf. discriminate.
Qed.
Lemma gelim_nf kappa i s : gelim kappa i s <> NoFuel.
Proof.
  destruct s as [z b]. unfold Fgas.gelim. apply bind_nf; [apply rget_nf|intros]. apply bind_nf; [apply rget_nf|intros].
  cbv zeta. destruct (fnz fp _); [|discriminate]. apply bind_nf; [apply xcol_nf|discriminate].
Qed.
Lemma scalarprod_nf v w l : scalarprod fp v w l <> NoFuel.
Proof. unfold scalarprod. destruct v, w; try discriminate. apply guard_nf. discriminate. Qed.
Lemma gh_step_nf kappa k (z : fgas R R) : gh_step fp d n kappa k z <> NoFuel.
Proof. apply guard_nf. cbv zeta. apply bind_nf; [apply scalarprod_nf|discriminate]. Qed.
Lemma ghouse_nf kappa z : ghouseholder kappa z <> NoFuel.
Proof.
  unfold Fgas.ghouseholder. apply guard_nf. cbv zeta. apply bind_nf; [apply scalarprod_nf|intros]. destruct (_ <? _)%nat.
  - apply bind_nf; [apply mfold_nf; intros; apply gh_step_nf|intros]. apply bind_nf; [apply rget_nf|intros].
    apply bind_nf; [unfold fp_norm, fp_norm_sq; apply bind_nf; [apply scalarprod_nf|discriminate]|intros].
    destruct (fle fp fz _); discriminate.
  - apply mfold_nf. intros. apply gh_step_nf.
Qed.

(** when the column is reduced, a pass changes nothing *)
Lemma pass_idle kappa l z b : (forall i, In i l -> (i < min kappa d)%nat) -> (forall i, (i < min kappa d)%nat -> r z i i <> 0) ->
  sred z kappa -> forall z' b', mfold (gelim kappa) l (z, b) = Ok (z', b') -> z' = z /\ b' = b.
Proof.
  intros Hl NZ SR. induction l as [|i l IH]; intros z' b' H; cbn [mfold] in H; [injection H; auto|].
  binv H. destruct a as [z1 b1]. assert (E : z1 = z /\ b1 = b).
  { unfold Fgas.gelim in Ha. binv Ha. binv Ha. unfold rget in Ha0, Ha1.
    apply guard_Ok in Ha0 as [_ Ha0]. apply guard_Ok in Ha1 as [_ Ha1]. injection Ha0 as <-. injection Ha1 as <-.
    specialize (Hl i ltac:(now left)). rewrite (e_div fp X), HALF in Ha.
    - destruct (fnz fp 0) eqn:E; [apply (e_nz fp X) in E; lra|]. injection Ha; auto.
    - unfold Rdiv. rewrite Rabs_mult, Rabs_inv. pose proof (Rabs_pos_lt _ (NZ i Hl)) as P. specialize (SR i Hl).
      apply Rmult_le_reg_r with (Rabs (r z i i)); [exact P|]. rewrite Rmult_assoc, Rinv_l by lra. lra. }
  destruct E as [-> ->]. apply IH; auto. intros j Hj. apply Hl. now right.
Qed.

Lemma elim_list_min kappa i : In i (elim_list d kappa 0) -> (i < min kappa d)%nat.
Proof.
  destruct (Nat.eq_dec (min kappa d) 0) as [E|N]; [rewrite (elim_list_nil rt TF d n gap epsilon DN kappa E); intros []|].
  rewrite (elim_list_down rt TF d n gap epsilon DN) by lia. rewrite in_down. lia.
Qed.

Lemma ghsize_nf fuel kappa z : (2 <= fuel)%nat -> (kappa < n)%nat -> good (min kappa d) z -> (forall i, (i < min kappa d)%nat -> r z i i <> 0) ->
  ghsizereduce fuel kappa z <> NoFuel.
Proof.
  intros F2 Hk G NZ. unfold Fgas.ghsizereduce. apply bind_nf; [apply ghouse_nf|]. intros a Ha.
  pose proof (H_tracks kappa z a Hk (proj1 G) Ha) as T2.
  apply H_ghouse in Ha as (W2 & F & _ & _); [|exact Hk|exact (proj1 G)].
  assert (P : pre fp rt d n a kappa).
  { split; [|split; [|exact T2]].
    - split; [exact W2|]. intros j Hj Hd. apply (H_cokf (fun j => j = kappa) z a); auto; [intros k L ->; lia|now apply G].
    - intros i Hi. replace (r a i i) with (r z i i) by (symmetry; apply (fr_R _ _ _ _ _ F); lia). auto. }
  destruct fuel as [|[|f]]; try lia. cbn [ghs_loop].
  apply bind_nf; [apply mfold_nf; intros; apply gelim_nf|]. intros [z1 sd] Hm. destruct sd; [|discriminate].
  pose proof (proj1 P) as GP. destruct P as (_ & NZa & Ta).
  apply H_pass in Hm as (G1 & F1 & Q1 & _); [|exact Hk|split; [exact GP|split; assumption]].
  apply bind_nf; [apply ghouse_nf|]. intros z2 Hz2. destruct (flt fp _ _); [|discriminate].
  pose proof (H_tracks kappa z1 z2 Hk (proj1 G1) Hz2) as T3.
  assert (EX : gx z2 = gx z1) by (apply (ghouse_gx fp rt X TF d n dec gap epsilon DN kappa); auto; apply G1).
  apply H_ghouse in Hz2 as (W3 & F3 & _ & _); [|exact Hk|exact (proj1 G1)].
  assert (RD : forall i, (i < min kappa d)%nat -> r z2 i i = r a i i).
  { intros i Hi. transitivity (r z1 i i); [apply (fr_R _ _ _ _ _ F3); lia|apply (fr_R _ _ _ _ _ F1); lia]. }
  assert (SR : sred z2 kappa).
  { intros i Hi. rewrite T3, RD by assumption. replace (seen z2 kappa i) with (seen z1 kappa i); [now apply Q1|].
    unfold HjlsTurn.seen. rewrite (Hs_ext d (Vz z2) (min kappa d) (Fz z2 kappa) (Fz z1 kappa)) by (unfold HjlsBound.Fz; rewrite ?EX; auto; lia).
    apply Hs_V_ext; [|lia]. intros k l K1 K2. symmetry. apply (fr_V _ _ _ _ _ F3). lia. }
  apply bind_nf; [apply mfold_nf; intros; apply gelim_nf|]. intros [z3 sd] Hm.
  replace (gldim z2) with 0%nat in Hm by (symmetry; apply W3).
  apply pass_idle in Hm as [_ ->]; [discriminate|intros; now apply elim_list_min| |exact SR].
  intros i Hi. rewrite RD by assumption. auto.
Qed.

(** ** Several columns *)
(** columns < a are reduced; the columns of F have an R factor whose squared diagonal is x *)
Definition shad (x : nat -> R) (z : fgas R R) : Prop := exists rr, rf d d (Fz z) rr /\ forall j, (j < d)%nat -> rr j j * rr j j = x j.
Definition Q (x : nat -> R) (a : nat) (z : fgas R R) : Prop :=
  good a z /\ shad x z /\ forall j, (j < a)%nat -> sred z j /\ tracks z j (min j d).

Lemma Q_diag x a z j : Q x a z -> (j < a)%nat -> (j < d)%nat -> (forall l, (l < j)%nat -> x l <> 0) -> r z j j * r z j j = x j.
Proof.
  intros (G & (rr & RF & RX) & _) Ha Hd NZ. rewrite <- RX by assumption.
  assert (G' : good (S j) z) by (split; [apply G|intros; apply G; lia]).
  pose proof (H_rf z (S j) ltac:(lia) G') as R1. apply (rf_less d d (S j)) in RF; [|lia].
  apply (rf_products d (S j) (Fz z) rr (fun i j => r z i j)); auto; try lia.
  intros l Hl E. apply (NZ l Hl). rewrite <- RX, E by lia. ring.
Qed.
Lemma Q_nz x a z j : Q x a z -> (j < a)%nat -> (j < d)%nat -> (forall l, (l <= j)%nat -> x l <> 0) -> r z j j <> 0.
Proof. intros H Ha Hd NZ E. apply (NZ j (le_n _)). rewrite <- (Q_diag x a z j); auto; [rewrite E; ring|]. intros; apply NZ; lia. Qed.

Lemma shad_keeps x z z' : shad x z -> keeps z z' -> shad x z'.
Proof.
  intros (rr & RF & RX) K. destruct (K d rr (le_n _) RF) as (r' & A & B). exists r'. split; [exact A|]. intros j Hj. rewrite B by assumption. auto.
Qed.

Lemma Q_step fuel x a z z' : (a < n)%nat -> Q x a z -> (forall i, (i < min a d)%nat -> x i <> 0) -> ghsizereduce fuel a z = Ok z' -> Q x (S a) z'.
Proof.
  intros Hn QZ NZ H. pose proof QZ as (G & SH & SR).
  assert (GM : good (min a d) z) by (split; [apply G|intros; apply G; lia]).
  assert (NR : forall i, (i < min a d)%nat -> r z i i <> 0) by (intros i Hi; apply (Q_nz x a z i QZ); try lia; intros l Hl; apply NZ; lia).
  destruct (H_sred fuel a z z' Hn GM NR H) as (S1 & S2). split; [|split].
  - eapply H_good; eauto.
  - eapply shad_keeps; [exact SH|]. eapply H_keeps; eauto. apply G.
  - apply H_ghsize in H as (W' & F & FV & _); [|exact Hn|apply G]. intros j Hj.
    destruct (Nat.eq_dec j a) as [->|N]; [auto|]. destruct (SR j ltac:(lia)) as [A B]. split.
    + intros i Hi. rewrite !(fr_R _ _ _ _ _ F) by lia. now apply A.
    + intros i Hi. rewrite (fr_R _ _ _ _ _ F) by lia. rewrite B by assumption. unfold HjlsTurn.seen.
      rewrite (Hs_ext d (Vz z') (min j d) (Fz z' j) (Fz z j)); [|intros l _; apply (fr_F _ _ _ _ _ F); lia|lia].
      apply Hs_V_ext; [|lia]. intros k l K1 K2. symmetry. apply (fr_V _ _ _ _ _ F). lia.
Qed.

Lemma Q_steps fuel x : forall k a z z', (a + k <= n)%nat -> Q x a z -> (forall i, (S i < a + k)%nat -> (i < d)%nat -> x i <> 0) ->
  mfold (ghsizereduce fuel) (seq a k) z = Ok z' -> Q x (a + k) z'.
Proof.
  induction k as [|k IH]; intros a z z' L QZ NZ H; cbn [seq mfold] in H.
  - injection H as <-. now rewrite Nat.add_0_r.
  - binv H. apply (Q_step fuel x) in Ha; [|lia|exact QZ|intros i Hi; apply NZ; lia].
    replace (a + S k)%nat with (S a + k)%nat by lia. eapply IH; eauto; [lia|]. intros i H1 H2. apply NZ; lia.
Qed.
Lemma Q_steps_nf fuel x : (2 <= fuel)%nat -> forall k a z, (a + k <= n)%nat -> Q x a z -> (forall i, (S i < a + k)%nat -> (i < d)%nat -> x i <> 0) ->
  mfold (ghsizereduce fuel) (seq a k) z <> NoFuel.
Proof.
  intros F2. induction k as [|k IH]; intros a z L QZ NZ; cbn [seq mfold]; [discriminate|].
  assert (NX : forall i, (i < min a d)%nat -> x i <> 0) by (intros i Hi; apply NZ; lia).
  apply bind_nf.
  - apply ghsize_nf; [exact F2|lia|split; [apply QZ|intros; apply QZ; lia]|].
    intros i Hi. apply (Q_nz x a z i QZ); try lia. intros l Hl. apply NX. lia.
  - intros z1 H1. apply IH; [lia| |intros i A B; apply NZ; lia]. eapply Q_step; eauto. lia.
Qed.

(** ** A turn on the left part *)
Lemma set_gx_good z x2 m : good d z -> (m <= d)%nat -> wfm d n (xF x2) -> (forall i j, (j < m)%nat -> mget tz (xF x2) i j = Fz z j i) -> good m (set_gx x2 z).
Proof.
  intros [(W1 & W2 & W3) G] Hm W E. split; [split; [exact W1|split; [exact W|exact W3]]|]. intros j Hj Hd.
  apply (colok_eq fp rt TF d n gap epsilon DN z); [exact Hd|reflexivity|reflexivity| |apply G; lia].
  intros i. unfold HjlsBound.Fz at 1. cbn [set_gx gx]. now apply E.
Qed.

Lemma swap_Q x z p q x2 : Q x d z -> (p <= q)%nat -> (p <= d)%nat -> xswap rt d n dec transf p q (gx z) = Ok x2 ->
  (p < n)%nat /\ (q < n)%nat /\
  good p (set_gx x2 z) /\ (forall j i, Fz (set_gx x2 z) j i = swapc p q (Fz z) j i) /\
  forall j, (j < p)%nat -> sred (set_gx x2 z) j /\ tracks (set_gx x2 z) j (min j d).
Proof.
  intros (G & _ & SR) L Hp H. pose proof G as [(W1 & W2 & W3) _]. pose proof H as H'. apply xswap_F in H' as (A & B & C & D); [|exact W2].
  split; [exact A|]. split; [exact B|].
  assert (FS : forall j i, Fz (set_gx x2 z) j i = swapc p q (Fz z) j i).
  { intros j i. unfold xswap in H. apply guard_Ok in H as [_ H]. binv H. injection H as <-. unfold HjlsBound.Fz. cbn [set_gx gx xF].
    rewrite (mget_colswap tz d n) by assumption. reflexivity. }
  split; [|split; [exact FS|]].
  - apply set_gx_good; auto. intros i j Hj. apply D; lia.
  - intros j Hj. destruct (SR j ltac:(lia)) as [S1 S2]. split; [exact S1|]. intros i Hi.
    change (r (set_gx x2 z) i j) with (r z i j). rewrite S2 by assumption. unfold HjlsTurn.seen.
    apply Hs_ext; [|lia]. intros l _. rewrite FS. unfold swapc.
    replace (j =? p)%nat with false by (symmetry; apply Nat.eqb_neq; lia). now replace (j =? q)%nat with false by (symmetry; apply Nat.eqb_neq; lia).
Qed.

Lemma turn_left fuel x z m x2 z3 : Q x d z -> (forall j, (j < d)%nat -> x j <> 0) -> (S m < d)%nat ->
  xswap rt d n dec transf m (m + 1) (gx z) = Ok x2 ->
  exists x', (forall j, (j < d)%nat -> 0 <= x' j) /\ (forall j, (j < d)%nat -> x' j <> 0) /\
    x' m <= x m / 4 + x (S m) /\ x (S m) <= x' m /\ x' m * x' (S m) = x m * x (S m) /\
    (forall j, (j < d)%nat -> j <> m -> j <> S m -> x' j = x j) /\
    Q x' m (set_gx x2 z) /\
    (mfold (ghsizereduce fuel) (seq m (d - m)) (set_gx x2 z) = Ok z3 -> Q x' d z3).
Proof.
  intros QZ NZ Hm H. replace (m + 1)%nat with (S m) in H by lia.
  destruct (swap_Q x z m (S m) x2 QZ ltac:(lia) ltac:(lia) H) as (Hm1 & Hm2 & G' & FS & SR').
  pose proof (H_rf z d (le_n _) (proj1 QZ)) as RF.
  assert (XD : forall j, (j < d)%nat -> r z j j * r z j j = x j) by (intros j Hj; apply (Q_diag x d z j QZ); auto; intros l Hl; apply NZ; lia).
  assert (XP : forall j, (j < d)%nat -> 0 < x j).
  { intros j Hj. pose proof (Rle_0_sqr (r z j j)) as T. unfold Rsqr in T. rewrite XD in T by assumption. specialize (NZ j Hj). lra. }
  pose proof (rf_swap d d (Fz z) _ m Hm (le_n _) RF) as SW. cbv zeta beta in SW.
  set (a := r z m (S m)) in *. rewrite !XD in SW by lia.
  assert (A2 : a * a <= x m / 4).
  { destruct QZ as (_ & _ & SR). destruct (SR (S m) ltac:(lia)) as [S1 _]. specialize (S1 m ltac:(lia)). fold a in S1.
    rewrite <- (XD m) by lia. replace (a * a) with (Rabs a * Rabs a) by (unfold Rabs; destruct (Rcase_abs a); ring).
    replace (r z m m * r z m m) with (Rabs (r z m m) * Rabs (r z m m)) by (unfold Rabs; destruct (Rcase_abs (r z m m)); ring).
    pose proof (Rabs_pos a). pose proof (Rabs_pos (r z m m)). nra. }
  pose proof (Rle_0_sqr a) as A0. unfold Rsqr in A0.
  destruct SW as (rr & RF' & E1 & E2 & E3); [pose proof (XP (S m) Hm); lra|].
  set (x' := fun j => rr j j * rr j j).
  assert (X0 : forall j, (j < d)%nat -> 0 <= x' j) by (intros j _; unfold x'; pose proof (Rle_0_sqr (rr j j)) as T; exact T).
  assert (XO : forall j, (j < d)%nat -> j <> m -> j <> S m -> x' j = x j) by (intros j Hj N1 N2; unfold x'; rewrite E3 by assumption; now apply XD).
  assert (QM : Q x' m (set_gx x2 z)).
  { split; [exact G'|]. split; [|exact SR']. exists rr. split; [|reflexivity]. eapply rf_ext; [|exact RF']. intros; symmetry; apply FS. }
  assert (NX : forall j, (j < d)%nat -> x' j <> 0).
  { intros j Hj. destruct (Nat.eq_dec j m) as [->|N1]; [unfold x'; rewrite E1; pose proof (XP (S m) Hm); lra|].
    destruct (Nat.eq_dec j (S m)) as [->|N2]; [|rewrite XO by assumption; auto].
    unfold x'. intros E. rewrite E, Rmult_0_r in E2. symmetry in E2. apply Rmult_integral in E2. pose proof (XP (S m) Hm). pose proof (XP m ltac:(lia)). lra. }
  exists x'. split; [exact X0|]. split; [exact NX|]. split; [unfold x'; lra|]. split; [unfold x'; lra|]. split; [exact E2|]. split; [exact XO|].
  split; [exact QM|]. intros HZ. apply (Q_steps fuel x') in HZ; [|lia|exact QM|intros; now apply NX]. now replace (m + (d - m))%nat with d in HZ by lia.
Qed.

(** ** A turn on the right part *)
Lemma turn_right fuel x z2 m2 x3 z4 : Q x n z2 -> (forall j, (j < d)%nat -> x j <> 0) -> (0 < d)%nat -> (d <= m2)%nat ->
  xswap rt d n dec transf (d - 1) m2 (gx z2) = Ok x3 ->
  exists x', (forall j, (j < d)%nat -> 0 <= x' j) /\ x' (d - 1)%nat <= x (d - 1)%nat / 4 /\
    (forall j, (j < d - 1)%nat -> x' j = x j) /\ Q x' (d - 1) (set_gx x3 z2) /\
    (ghsizereduce fuel (d - 1) (set_gx x3 z2) = Ok z4 -> Q x' d z4).
Proof.
  intros QN NZ D0 Hm H.
  assert (QZ : Q x d z2).
  { destruct QN as (A & B & C). split; [split; [apply A|intros; apply A; lia]|]. split; [exact B|]. intros j Hj. apply C. lia. }
  destruct (swap_Q x z2 (d - 1) m2 x3 QZ ltac:(lia) ltac:(lia) H) as (Hm1 & Hm2 & G' & FS & SR').
  pose proof (H_rf z2 d (le_n _) (proj1 QZ)) as RF.
  assert (XD : forall j, (j < d)%nat -> r z2 j j * r z2 j j = x j) by (intros j Hj; apply (Q_diag x d z2 j QZ); auto; intros l Hl; apply NZ; lia).
  destruct QN as (GN & _ & SRN). destruct (SRN m2 Hm2) as [SM TM]. rewrite Nat.min_r in TM by lia.
  assert (SM' := SM (d - 1)%nat ltac:(lia)).
  assert (HW : forall i, (i < d)%nat -> Hs d (Vz z2) d (Fz z2 m2) i = r z2 i m2).
  { intros i Hi. rewrite TM by assumption. unfold HjlsTurn.seen. now rewrite Nat.min_r by lia. }
  assert (ISO : forall u v, dot d (Hs d (Vz z2) d u) (Hs d (Vz z2) d v) = dot d u v).
  { apply (iso_Hs fp rt TF d n gap DN). intros k Hk. apply (colok_iso fp rt TF d n dec gap DN z2 k Hk). destruct QZ as ((_ & G) & _). now apply G. }
  assert (HJ : forall j i, (j < d)%nat -> (i < d)%nat -> Hs d (Vz z2) d (Fz z2 j) i = r z2 i j).
  { intros j i Hj Hi. rewrite (good_Hs fp rt TF d n dec gap epsilon DN z2 d (le_n _) (proj1 QZ) j i Hj Hi). destruct (Nat.leb_spec i j); [reflexivity|].
    symmetry. apply (proj1 RF); lia. }
  set (rr := fun i j => if (j =? d - 1)%nat then r z2 i m2 else r z2 i j).
  assert (RF' : rf d d (Fz (set_gx x3 z2)) rr).
  { assert (SW1 : forall i, swapc (d - 1) m2 (Fz z2) (d - 1) i = Fz z2 m2 i) by (intros i; unfold swapc; now rewrite Nat.eqb_refl).
    assert (SW2 : forall j i, (j < d - 1)%nat -> swapc (d - 1) m2 (Fz z2) j i = Fz z2 j i).
    { intros j i Hj. unfold swapc. replace (j =? d - 1)%nat with false by (symmetry; apply Nat.eqb_neq; lia).
      now replace (j =? m2)%nat with false by (symmetry; apply Nat.eqb_neq; lia). }
    pose proof (rf_last d (d - 1) (Fz z2) (fun i j => r z2 i j) (swapc (d - 1) m2 (Fz z2)) (fun i => r z2 i m2)) as L.
    replace (S (d - 1)) with d in L by lia.
    eapply rf_ext; [intros j i _ _; symmetry; apply FS|]. apply L; clear L; auto.
    - intros i Hi. lia.
    - intros j Hj. rewrite (dot_ext d _ (Fz z2 j) (Fz z2 m2) (Fz z2 j)) by auto. rewrite <- ISO. apply dot_ext; intros i Hi; [now apply HW|apply HJ; lia].
    - rewrite (dot_ext d _ _ (Fz z2 m2) (Fz z2 m2)) by auto. rewrite <- ISO. apply dot_ext; intros i Hi; now apply HW. }
  set (x' := fun j => rr j j * rr j j).
  assert (QM : Q x' (d - 1) (set_gx x3 z2)).
  { split; [exact G'|]. split; [|exact SR']. exists rr. split; [exact RF'|reflexivity]. }
  assert (XO : forall j, (j < d - 1)%nat -> x' j = x j).
  { intros j Hj. unfold x', rr. replace (j =? d - 1)%nat with false by (symmetry; apply Nat.eqb_neq; lia). apply XD. lia. }
  exists x'. split; [intros j _; unfold x'; pose proof (Rle_0_sqr (rr j j)) as T; exact T|]. split; [|split; [exact XO|split; [exact QM|]]].
  - unfold x', rr. rewrite Nat.eqb_refl, <- XD by lia. set (p := r z2 (d - 1)%nat m2) in *. set (q := r z2 (d - 1)%nat (d - 1)%nat) in *.
    replace (p * p) with (Rabs p * Rabs p) by (unfold Rabs; destruct (Rcase_abs p); ring).
    replace (q * q) with (Rabs q * Rabs q) by (unfold Rabs; destruct (Rcase_abs q); ring).
    pose proof (Rabs_pos p). pose proof (Rabs_pos q). nra.
  - intros HZ. apply (Q_step fuel x') in HZ; [|lia|exact QM|intros i Hi; rewrite XO by lia; apply NZ; lia]. now replace (S (d - 1)) with d in HZ by lia.
Qed.
End HT.
