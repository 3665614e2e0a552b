(** * ratio (src/ratio.h) in exact arithmetic *)
From Coq Require Import ZArith Lia Reals Lra List Bool Arith.
From Verif Require Import Base Spec Mat FP Hlll Hlll2 Structure Object Safety SpecReal Cache4 Exact ExactTop ExactHH Lcond LcondFacts LcondTri LcondTop.
Import ListNotations.
Local Open Scope R_scope.

Fixpoint prodR (n : nat) (f : nat -> R) : R := match n with O => 1 | S m => prodR m f * f m end.

Definition log2R (x : R) : R := ln x / ln 2.

(** what the four outputs mean: [r] is an R factor of the basis, [XX] its inverse *)
Record ratio_ok (n d : nat) (B : zmat) (r XX : nat -> nat -> R) (lf av mx c : R) : Prop := {
  ro_cond : lf = log2R (cond_F d r XX);
  ro_av : av * INR d = sumR (d - 1) (fun i => Rabs (r i i / r (S i) (S i)));
  ro_max : forall i, (S i < d)%nat -> Rabs (r i i / r (S i) (S i)) <= mx;
  ro_max_att : (d = 1%nat /\ mx = 0) \/ exists i, (S i < d)%nat /\ mx = Rabs (r i i / r (S i) (S i));
  ro_c : c = Rpower (sqrt (IZR (norm2 n (fun i => B i 0%nat))) / Rpower (prodR d (fun i => Rabs (r i i))) (/ INR d)) (/ INR d) }.

Lemma prodR_pos d f : (forall i, (i < d)%nat -> 0 < f i) -> 0 < prodR d f.
Proof. induction d as [|d IH]; intros H; cbn; [lra|]. apply Rmult_lt_0_compat; [apply IH; intros; apply H; lia|apply H; lia]. Qed.

Lemma prodR_ext d f g : (forall i, (i < d)%nat -> f i = g i) -> prodR d f = prodR d g.
Proof. induction d as [|d IH]; intros H; cbn; [reflexivity|]. rewrite IH, H by (intros; try apply H; lia). reflexivity. Qed.

(** the record depends only on the absolute values of the diagonal *)
Lemma ratio_ok_unique n d B r r' XX XX' lf av mx c : R_factor n d B r -> R_factor n d B r' -> inverse d r XX -> inverse d r' XX' ->
  ratio_ok n d B r XX lf av mx c -> ratio_ok n d B r' XX' lf av mx c.
Proof.
  intros F F' I I' [A1 A2 A3 A4 A5].
  assert (U : forall i, (i < d)%nat -> Rabs (r' i i) = Rabs (r i i)).
  { intros i Hi. destruct (R_factor_unique n d B r r' F F' i Hi) as (s & Hs & E). rewrite E by assumption.
    rewrite Rabs_mult. destruct Hs as [->| ->]; [|replace (-1) with (- (1)) by ring; rewrite Rabs_Ropp]; rewrite Rabs_R1; ring. }
  assert (Q : forall i, (S i < d)%nat -> Rabs (r' i i / r' (S i) (S i)) = Rabs (r i i / r (S i) (S i))).
  { intros i Hi. unfold Rdiv. rewrite !Rabs_mult, !Rabs_inv, !U by lia. reflexivity. }
  split.
  - rewrite A1. now rewrite (cond_F_unique n d B r r' XX XX').
  - rewrite A2. apply sumR_ext. intros i Hi. symmetry. apply Q. lia.
  - intros i Hi. rewrite Q by assumption. now apply A3.
  - destruct A4 as [A4|(i & Hi & A4)]; [now left|right]. exists i. split; [assumption|]. now rewrite Q.
  - rewrite A5. do 3 f_equal. apply prodR_ext. intros. symmetry. now apply U.
Qed.

Section P.
Variable fp : fpops R.
Hypothesis X : exact fp.
Notation fz := (fzero fp).

Lemma fold_sum (q : nat -> R) m : forall a acc, fold_left (fun s i => fadd fp s (q i)) (seq a m) acc = acc + sumR m (fun k => q (a + k)%nat).
Proof using X.
  induction m as [|m IH]; intros a acc; cbn [seq fold_left sumR]; [ring|]. rewrite IH, (e_add fp X).
  replace (sumR m (fun k => q (S a + k)%nat)) with (sumR (S m) (fun k => q (a + k)%nat) - q a).
  - cbn [sumR]. ring.
  - change (S m) with (1 + m)%nat. rewrite sumR_split. cbn [sumR]. rewrite Nat.add_0_r.
    replace (sumR m (fun i => q (a + (1 + i))%nat)) with (sumR m (fun k => q (S a + k)%nat)) by (apply sumR_ext; intros; f_equal; lia). ring.
Qed.

Lemma fold_prod (q : nat -> R) m : forall a acc, fold_left (fun v i => fmul fp v (q i)) (seq a m) acc = acc * prodR m (fun k => q (a + k)%nat).
Proof using X.
  intros a acc. induction m as [|m IH]; [cbn; ring|]. rewrite seq_S, fold_left_app. cbn [fold_left prodR]. rewrite IH, (e_mul fp X). ring.
Qed.

Lemma fold_max (q : nat -> R) l :
  (forall i, In i l -> q i <= fold_left (fun m i => if flt fp m (q i) then q i else m) l fz) /\
  ((forall i, In i l -> 0 <= q i) -> fold_left (fun m i => if flt fp m (q i) then q i else m) l fz = 0 \/
     exists i, In i l /\ fold_left (fun m i => if flt fp m (q i) then q i else m) l fz = q i).
Proof using X.
  assert (G : forall l acc, let m := fold_left (fun m i => if flt fp m (q i) then q i else m) l acc in
     acc <= m /\ (forall p, In p l -> q p <= m) /\ (m = acc \/ exists p, In p l /\ m = q p)).
  { clear l. induction l as [|p l IH]; intros acc m.
    - split; [unfold m; cbn; lra|]. split; [intros ? []|now left].
    - unfold m. cbn [fold_left]. set (acc' := if flt fp acc (q p) then q p else acc).
      assert (A : acc <= acc' /\ q p <= acc' /\ (acc' = acc \/ acc' = q p)).
      { unfold acc'. destruct (flt fp acc (q p)) eqn:E.
        - apply (e_lt fp X) in E. (split; [lra|split; [lra|now right]]).
        - assert (~ acc < q p) by (intros G; apply (e_lt fp X) in G; congruence). (split; [lra|split; [lra|now left]]). }
      destruct (IH acc') as (B1 & B2 & B3). destruct A as (A1 & A2 & A3). split; [lra|]. split.
      + intros p' [<-|Hp]; [lra|now apply B2].
      + destruct B3 as [B3|(p' & Hp & B3)]; [|right; exists p'; split; [now right|exact B3]].
        destruct A3 as [A3|A3]; [left; congruence|right; exists p; split; [now left|congruence]]. }
  rewrite (e_zero fp X). destruct (G l 0) as (A & B & C). auto.
Qed.

Lemma ratio_exact J n d A : (1 <= d <= n)%nat -> independent n d (fn A) ->
  exists lf av mx c, ratio fp log2R (Rpower 2) J n d A = Ok (lf, av, mx, c) /\
    (exists r XX, R_factor n d (fn A) r /\ inverse d r XX) /\
    forall r XX, R_factor n d (fn A) r -> inverse d r XX -> ratio_ok n d (fn A) r XX lf av mx c.
Proof using X.
  intros [D1 ND] I. unfold ratio. set (L := new_lattice fp J n d A false 0 true 0).
  assert (EB : meq n d (fn (iB (li L))) (fn A)) by (apply fn_mtab).
  assert (WB : wfm n d (iB (li L))) by (apply mtab_wfm).
  pose proof (lsafe_gwf n d L (new_lsafe fp J n d A false 0%Z true 0%Z)) as GW.
  destruct (householder_exact fp X (lcfg L) (iB (li L)) (lf L)) as (f & Hf & _ & RF); try assumption.
  { eapply independent_ext; [|exact I]. intros i j Hi Hj. symmetry. now apply EB. }
  rewrite Hf. cbn [bind]. unfold guard.
  replace (d <=? n)%nat with true by (symmetry; now apply Nat.leb_le). replace (1 <=? d)%nat with true by (symmetry; now apply Nat.leb_le). cbn [andb].
  set (Rg := getR fp (jR J) _).
  assert (GA : forall i j, (i < d)%nat -> (j < d)%nat -> mget fz Rg i j = if (i <=? j)%nat then mget fz (fR f) i j else 0).
  { intros i j Hi Hj. unfold Rg. rewrite <- (e_zero fp X). apply getR_at; cbn [lcfg]; assumption. }
  set (r0 := fun i j => mget fz Rg i j).
  assert (RA : R_factor n d (fn A) r0).
  { destruct RF as (U & D & G). split; [|split].
    - intros i j H. unfold r0. rewrite GA by lia. destruct (Nat.leb_spec i j); [lia|reflexivity].
    - intros i H. unfold r0. rewrite GA, Nat.leb_refl by lia. apply D. exact H.
    - intros j l Hj Hl. specialize (G j l Hj Hl).
      etransitivity; [|etransitivity; [exact G|]].
      + apply sumR_ext. intros i Hi. unfold r0. rewrite !GA by assumption.
        destruct (Nat.leb_spec i j), (Nat.leb_spec i l); try reflexivity; rewrite ?(U i j), ?(U i l) by (split; assumption); ring.
      + f_equal. apply sumZ_ext. intros i Hi. now rewrite !EB. }
  assert (INV : exists XX, inverse d r0 XX).
  { destruct RA as (U & D & _).
    destruct (higham_exact fp X d Rg (mtab d d (fun i j => Rabs (mget fz Rg i j))) (mtab d d (fun _ _ => 0))) as [H1 _].
    - apply mtab_wfm.
    - intros i Hi. now rewrite mget_mtab.
    - exact (hrow_inverse d r0 U D _ H1). }
  do 4 eexists. split; [reflexivity|]. split; [destruct INV as (XX & HX); exists r0, XX; now split|].
  destruct INV as (X0 & I0). intros r XX F IX. apply (ratio_ok_unique n d (fn A) r0 r X0 XX); try assumption. clear r XX F IX.
  assert (D : forall i, (i < d)%nat -> 0 < Rabs (r0 i i)) by (intros i Hi; apply Rabs_pos_lt; apply (proj1 (proj2 RA)); exact Hi).
  assert (DP : 0 < INR d) by (apply lt_0_INR; lia).
  assert (ED : fset_z fp (Z.of_nat d) = INR d) by (rewrite (e_setz fp X), INR_IZR_INZ; reflexivity).
  set (q := fun i => fdiv fp (fabs fp (mget fz Rg (i - 1) (i - 1))) (fabs fp (mget fz Rg i i))).
  assert (EQ : forall i, q (S i) = Rabs (r0 i i / r0 (S i) (S i))).
  { intros i. unfold q. rewrite (e_div fp X), !(e_abs fp X). unfold Rdiv. rewrite Rabs_mult, Rabs_inv.
    replace (S i - 1)%nat with i by lia. reflexivity. }
  split.
  - f_equal. rewrite (cond_value_exact fp X d Rg (mtab d d (fun _ _ => fz)) X0 D1 (mtab_wfm _ _ _)); [| | |exact I0].
    + destruct RA as (U & DD & _). pose proof (inverse_upper d r0 U DD X0 I0) as UP. unfold cond_F. f_equal.
      apply sumR_ext. intros i Hi. apply sumR_ext. intros j Hj.
      f_equal; apply sumR_ext; intros k Hk; fold (r0 i k); f_equal; f_equal; (destruct (Nat.leb_spec k j); [reflexivity|]);
        rewrite mget_mtab, (e_zero fp X), UP by lia; reflexivity.
    + apply (proj1 RA).
    + apply (proj1 (proj2 RA)).
  - rewrite (e_div fp X), ED. unfold Rdiv at 1. rewrite Rmult_assoc, Rinv_l, Rmult_1_r by lra.
    change (fold_left (fun s i => fadd fp s (q i)) (seq 1 (d - 1)) fz = sumR (d - 1) (fun i => Rabs (r0 i i / r0 (S i) (S i)))).
    rewrite fold_sum, (e_zero fp X), Rplus_0_l. apply sumR_ext. intros i Hi. apply EQ.
  - intros i Hi. rewrite <- EQ. apply (proj1 (fold_max q (seq 1 (d - 1)))). apply in_seq. lia.
  - assert (QN : forall i, In i (seq 1 (d - 1)) -> 0 <= q i).
    { intros i Hi. unfold q. rewrite (e_div fp X), !(e_abs fp X). apply in_seq in Hi. apply Rlt_le, Rdiv_lt_0_compat; apply D; lia. }
    destruct (proj2 (fold_max q (seq 1 (d - 1))) QN) as [E|(i & Hi & E)].
    + left. destruct (Nat.eq_dec d 1) as [E1|N]; [split; [exact E1|exact E]|exfalso].
      assert (P := proj1 (fold_max q (seq 1 (d - 1))) 1%nat ltac:(apply in_seq; lia)).
      assert (0 < q 1%nat).
      { unfold q. rewrite (e_div fp X), !(e_abs fp X). apply Rdiv_lt_0_compat; apply D; lia. }
      fold q in E. lra.
    + right. apply in_seq in Hi. exists (i - 1)%nat. split; [lia|]. rewrite <- EQ. replace (S (i - 1)) with i by lia. exact E.
  - rewrite (fold_prod (fun i => fabs fp (r0 i i))), !(e_div fp X), (e_sub fp X), ED, !(e_abs fp X).
    assert (N0 : sqrt (IZR (norm2 n (fun i => fn A i 0%nat))) = Rabs (r0 0%nat 0%nat)).
    { destruct RA as (U & _ & G). unfold norm2. rewrite <- (G 0%nat 0%nat) by lia. rewrite (sumR_single d 0).
      - apply sqrt_Rsqr_abs.
      - lia.
      - intros i Hi Ni. rewrite U by lia. ring. }
    rewrite N0. set (V := prodR d (fun i => Rabs (r0 i i))).
    replace (Rabs (r0 0%nat 0%nat) * prodR (d - 1) (fun k => fabs fp (r0 (1 + k)%nat (1 + k)%nat))) with V.
    +
      assert (VP : 0 < V) by (apply prodR_pos; exact D). specialize (D 0%nat ltac:(lia)). set (a := Rabs (r0 0%nat 0%nat)) in *.
      assert (L2 : 0 < ln 2) by (rewrite <- ln_1; apply ln_increasing; lra).
      assert (LD : ln (a / Rpower V (/ INR d)) = ln a - / INR d * ln V).
      { unfold Rdiv. rewrite ln_mult, ln_Rinv; [|apply exp_pos|exact D|apply Rinv_0_lt_compat, exp_pos]. unfold Rpower. rewrite ln_exp. ring. }
      unfold Rpower at 1. unfold Rpower at 1. rewrite LD. f_equal. unfold log2R. field. lra.
    + unfold V. replace d with (S (d - 1)) at 1 by lia. generalize (d - 1)%nat. intros m. induction m as [|m IH].
      * cbn. unfold r0. ring.
      * cbn [prodR] in *. rewrite IH. rewrite (e_abs fp X). unfold r0. cbn [Nat.add]. ring.
Qed.
End P.
