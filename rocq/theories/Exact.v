(** * Exact real arithmetic *)
From Coq Require Import ZArith Lia Reals Lra Arith Bool List.
From Verif Require Import Base Spec Mat FP Hlll SpecReal Fresh Cache.
Import ListNotations.
Local Open Scope R_scope.

(** the operations are those of the reals, [rnd] rounds to a nearest integer (ties
    either way), the conversions to integers are exact on integers *)
Record exact (fp : fpops R) : Prop := {
  e_zero : fzero fp = 0;
  e_one : fone fp = 1;
  e_01 : f01 fp = / 10;
  e_001 : f001 fp = / 100;
  e_eps : 0 <= feps fp;
  e_add : forall a b, fadd fp a b = a + b;
  e_sub : forall a b, fsub fp a b = a - b;
  e_mul : forall a b, fmul fp a b = a * b;
  e_div : forall a b, fdiv fp a b = a / b;
  e_neg : forall a, fneg fp a = - a;
  e_abs : forall a, fabs fp a = Rabs a;
  e_sqrt : forall a, fsqrt fp a = sqrt a;
  e_addmul : forall r a b, faddmul fp r a b = r + a * b;
  e_submul : forall r a b, fsubmul fp r a b = r - a * b;
  e_le : forall a b, fle fp a b = true <-> a <= b;
  e_lt : forall a b, flt fp a b = true <-> a < b;
  e_cmp : forall a b, fcmp1 fp a b = true <-> b < a;
  e_nz : forall a, fnz fp a = true <-> a <> 0;
  e_setz : forall z, fset_z fp z = IZR z;
  e_rnd : forall x, exists k, frnd fp x = IZR k /\ Rabs (x - IZR k) <= / 2;
  e_setf : forall k, fset_f fp (IZR k) = k;
  e_gse : forall k, (fst (fgse fp (IZR k)) * 2 ^ snd (fgse fp (IZR k)))%Z = k;
  e_expo : expo_nonneg fp }.

(** an instance *)
Definition Rleb (a b : R) : bool := if Rle_dec a b then true else false.
Definition Rltb (a b : R) : bool := if Rlt_dec a b then true else false.
Definition Rnear (x : R) : Z := (up (x + / 2) - 1)%Z.

Lemma Rnear_spec x : Rabs (x - IZR (Rnear x)) <= / 2.
Proof.
  unfold Rnear. pose proof (archimed (x + / 2)) as [H1 H2]. rewrite minus_IZR.
  apply Rabs_le. lra.
Qed.

Lemma Rnear_IZR k : Rnear (IZR k) = k.
Proof.
  unfold Rnear. pose proof (archimed (IZR k + / 2)) as [H1 H2].
  assert (up (IZR k + / 2) = k + 1)%Z; [|lia].
  assert (k < up (IZR k + / 2))%Z by (apply lt_IZR; lra).
  assert (up (IZR k + / 2) < k + 2)%Z by (apply lt_IZR; rewrite plus_IZR; lra). lia.
Qed.

Definition Rfp : fpops R := mk_fpops R 0 1 (/ 10) (/ 100) (/ 100000000000)
  Rplus Rminus Rmult Rdiv Ropp Rabs sqrt (fun x => IZR (Rnear x))
  (fun r a b => r + a * b) (fun r a b => r - a * b)
  Rleb Rltb (fun a b => Rltb b a) (fun a => negb (Rleb a 0 && Rleb 0 a)) IZR (fun x => (Rnear x, 0%Z)) Rnear.

Lemma Rfp_exact : exact Rfp.
Proof.
  split; cbn; auto; try lra; intros.
  - unfold Rleb. destruct (Rle_dec a b); split; intros; try lra; discriminate.
  - unfold Rltb. destruct (Rlt_dec a b); split; intros; try lra; discriminate.
  - unfold Rltb. destruct (Rlt_dec b a); split; intros; try lra; discriminate.
  - unfold Rleb. destruct (Rle_dec a 0), (Rle_dec 0 a); cbn; split; intros; try discriminate; try reflexivity; lra.
  - exists (Rnear x). split; [reflexivity|apply Rnear_spec].
  - apply Rnear_IZR.
  - rewrite Rnear_IZR. lia.
  - intros a. cbn. lia.
Qed.

Section E.
Variable fp : fpops R.
Hypothesis X : exact fp.

Lemma exact_zero_laws : zero_laws fp.
Proof.
  split; [rewrite (e_setz fp X), (e_zero fp X); reflexivity|].
  split; intros; rewrite ?(e_addmul fp X), ?(e_submul fp X), ?(e_zero fp X); ring.
Qed.

Lemma fold_sum (f : nat -> R) l : forall a, fold_left (fun acc i => acc + f i) l a = a + fold_left (fun acc i => acc + f i) l 0.
Proof.
  induction l as [|x l IH]; intros a; cbn [fold_left]; [ring|]. rewrite (IH (a + f x)), (IH (0 + f x)). ring.
Qed.

Lemma fold_sumR (f : nat -> R) k m : fold_left (fun acc i => acc + f i) (seq k m) 0 = sumR m (fun i => f (k + i)%nat).
Proof.
  induction m as [|m IH]; [reflexivity|].
  rewrite seq_S, fold_left_app. cbn [fold_left sumR]. now rewrite IH.
Qed.

Lemma dotf_sum v w k m : (k < m)%nat ->
  dotf fp v w k m = sumR m (fun i => if (k <=? i)%nat then v i * w i else 0).
Proof.
  intros H. unfold dotf. rewrite (e_mul fp X).
  rewrite (fold_left_ext_in _ (fun acc i => acc + v i * w i)) by (intros; apply (e_addmul fp X)).
  rewrite fold_sum, fold_sumR.
  replace m with (k + (1 + (m - S k)))%nat at 2 by lia. rewrite !sumR_split.
  rewrite (sumR_0 k) by (intros i Hi; replace (k <=? i)%nat with false by (symmetry; apply Nat.leb_gt; lia); reflexivity).
  cbn [sumR]. rewrite Nat.add_0_r, Nat.leb_refl.
  rewrite (sumR_ext (m - S k) (fun i => if (k <=? k + (1 + i))%nat then _ else _) (fun i => v (S k + i)%nat * w (S k + i)%nat)); [ring|].
  intros i Hi. replace (k + (1 + i))%nat with (S k + i)%nat by lia.
  replace (k <=? S k + i)%nat with true by (symmetry; apply Nat.leb_le; lia). reflexivity.
Qed.

End E.
