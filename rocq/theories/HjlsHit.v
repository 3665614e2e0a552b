(** * HjlsHit: dec = 1, a zero on the last diagonal entry of R makes the last entry of Y vanish *)
From Coq Require Import ZArith Lia List Bool Arith Reals Lra.
From Verif Require Import Base Spec SpecReal Mat FP Hlll IntSteps HlllInt LinDep Structure Safety MatOpsFacts ZFgas Fgas FgasInt FgasExact FgasSafe FgasSafe2
  Cache Exact HHMath HjlsBound RGram HjlsTurn HjlsTurn2 HjlsEnd RInd MachInt.
Import ListNotations.
Local Open Scope R_scope.

(** ** Sums of reflected vectors; the reflections can be inverted *)
Section HS.
Variables (d : nat) (V : nat -> nat -> R).
Lemma Hs_0 K i : (i < d)%nat -> Hs d V K (fun _ => 0) i = 0.
Proof.
  intros Hi. transitivity (Hs d V K (fun i => 0 - 1 * 0) i); [apply Hs_ext; [intros; ring|exact Hi]|].
  rewrite (Hs_sub d V K (fun _ => 0) (fun _ => 0) 1 i Hi). ring.
Qed.
Lemma Hs_sum K (F : nat -> nat -> R) (c : nat -> R) : forall m i, (i < d)%nat ->
  Hs d V K (fun i => sumR m (fun j => F j i * c j)) i = sumR m (fun j => Hs d V K (F j) i * c j).
Proof.
  induction m as [|m IH]; intros i Hi; cbn [sumR]; [now apply Hs_0|].
  transitivity (Hs d V K (fun i => sumR m (fun j => F j i * c j) - (- c m) * F m i) i); [apply Hs_ext; [intros; ring|exact Hi]|].
  rewrite (Hs_sub d V K _ (F m) (- c m) i Hi), IH by assumption. ring.
Qed.
Lemma refl_inv k : (forall u v, dot d (refl d V k u) (refl d V k v) = dot d u v) -> forall u i, (i < d)%nat -> refl d V k (refl d V k u) i = u i.
Proof.
  intros ISO u i Hi. set (v := vk V k). set (q := dot d v v).
  assert (E : forall w, dot d v (refl d V k w) = dot d v w * (1 - q)).
  { intros w. unfold q, dot, refl. fold v. set (s := dot d v w). transitivity (sumR d (fun i => v i * w i - s * (v i * v i))); [apply sumR_ext; intros; ring|].
    rewrite sumR_minus, sumR_mul_l. change (sumR d (fun i => v i * w i)) with s. ring. }
  assert (Q : q * (1 - q) * (1 - q) = q).
  { specialize (ISO v v). fold q in ISO. transitivity (dot d (refl d V k v) (refl d V k v)); [|exact ISO]. 
    unfold q at 1, dot. rewrite <- !sumR_mul_r. apply sumR_ext. intros l _. unfold refl. fold v. fold q. ring. }
  assert (Q0 : forall w, q = 0 -> dot d v w = 0).
  { intros w Z. apply sumR_0. intros l Hl. rewrite (sumR_sq_0 d v Z l Hl). ring. }
  unfold refl at 1. fold v. rewrite E. unfold refl. fold v. set (s := dot d v u).
  destruct (Req_dec q 0) as [Z|NZ].
  - assert (S0 : s = 0) by now apply Q0. rewrite S0. ring.
  - assert (q = 2).
    { assert (T : q * (q * (q - 2)) = 0) by lra. apply Rmult_integral in T as [T|T]; [tauto|]. apply Rmult_integral in T as [T|T]; [tauto|lra]. }
    rewrite H. ring.
Qed.
Lemma Hs_surj K : (forall k, (k < K)%nat -> forall u v, dot d (refl d V k u) (refl d V k v) = dot d u v) ->
  forall w, exists u, forall i, (i < d)%nat -> Hs d V K u i = w i.
Proof.
  induction K as [|K IH]; intros ISO w; [exists w; reflexivity|].
  destruct (IH ltac:(intros; apply ISO; lia) (refl d V K w)) as (u & U). exists u. intros i Hi. cbn [Hs].
  rewrite (refl_ext d V K _ (refl d V K w)) by auto. apply refl_inv; [apply ISO; lia|exact Hi].
Qed.
End HS.

Lemma sumR_mmul_r n (f : nat -> R) (P W : zmat) l : meq n n (mmul n P (mtr W)) mid -> (l < n)%nat ->
  sumR n (fun j => sumR n (fun k => f k * IZR (P k j)) * IZR (W l j)) = f l.
Proof.
  intros I Hl. transitivity (sumR n (fun k => f k * IZR (mid k l))).
  - rewrite (sumR_ext n _ (fun j => sumR n (fun k => f k * IZR (P k j * W l j)))).
    + rewrite sumR_swap. apply sumR_ext. intros k Hk. rewrite sumR_mul_l. f_equal. rewrite <- (I k l Hk Hl). unfold mmul, mtr. now rewrite sumZ_IZR.
    + intros j Hj. rewrite <- sumR_mul_r. apply sumR_ext. intros k Hk. rewrite mult_IZR. ring.
  - rewrite (sumR_single n l); [unfold mid; rewrite Nat.eqb_refl; ring|exact Hl|].
    intros k Hk N. unfold mid. replace (Nat.eqb k l) with false by (symmetry; now apply Nat.eqb_neq). ring.
Qed.

Section HT.
Variables (fp : fpops R) (rt : rtops R R).
Hypothesis X : exact fp.
Hypothesis XR : rt_exact rt.
Hypothesis TF : forall x, tfp rt x = x.
Hypothesis HALF : forall x, Rabs x <= / 2 -> frnd fp x = 0.
Variables (d n dec : nat) (transf : bool) (gap : R -> bool) (epsilon : R) (ubound : Z).
Hypothesis DN : (d <= n)%nat.
Notation fz := (fzero fp).
Notation tz := (tzero rt).
Notation r z i j := (mget fz (gR z) i j).
Notation Vz := (Vz fp).
Notation Fz := (Fz rt).
Notation gwf := (FgasSafe.gwf d n).
Notation ghouseholder := (ghouseholder fp rt d n).
Notation ghsizereduce := (ghsizereduce fp rt d n dec transf).
Notation colok := (colok fp rt d).
Notation frame := (frame fp rt).
Notation fwf := (fwf d n).
Notation good := (good fp rt d n).
Notation gelim := (gelim fp rt d n dec transf).
Notation sred := (sred fp d).
Notation tracks := (tracks fp rt d).
Notation seen := (seen fp rt d).
Notation keeps := (keeps rt d).
Notation H_ghouse := (ghouse_fwf fp rt X TF d n dec gap epsilon DN).
Notation H_ghsize := (ghsize_frame fp rt X TF d n dec transf gap epsilon DN).
Notation H_good := (ghsize_good fp rt X TF d n dec transf gap epsilon DN).
Notation H_cokf := (colok_frame fp rt TF d n gap epsilon DN).
Notation H_keeps := (ghsize_keeps fp rt X XR TF d n dec transf gap epsilon DN).
Notation H_sred := (ghsize_sred fp rt X XR TF d n dec transf gap epsilon DN).
Notation H_pass := (ghs_pass fp rt X XR TF d n dec transf gap epsilon DN).
Notation H_tracks := (ghouse_tracks fp rt X TF d n dec gap epsilon DN).
Notation H_gx := (ghouse_gx fp rt X TF d n dec gap epsilon DN).
Notation GLP := (glist_pow fp rt X TF HALF d n gap epsilon DN).
Notation H_rf := (good_rf fp rt TF d n dec gap epsilon DN).

Notation Q := (Q fp rt d n).
Notation xsteps := (@xsteps R R rt d n dec transf).
Notation gdecomp := (gdecomp fp rt d n dec transf gap epsilon ubound).

Hypothesis D1 : dec = 1%nat.
Hypothesis NE : n = (d + dec)%nat.
Variable a : nat -> R.
Definition A1 (i j : nat) : R := if (j =? 0)%nat then a i else if (j =? 1 + i)%nat then 1 else 0.
Definition Inv1 (x : gex R) : Prop := exists P, tinv n dec transf P x /\ einv d n dec A1 (fun i _ => a i) P x.
Lemma Inv1_steps x x' : xsteps x x' -> Inv1 x -> Inv1 x'.
Proof. intros S (P & T & E). exact (xsteps_einv rt XR d n dec transf NE A1 (fun i _ => a i) P x x' S T E). Qed.

Lemma last_Y0 z x : (1 < d)%nat -> Inv1 (gx z) -> Q x d z -> (forall j, (j < d - 1)%nat -> x j <> 0) -> x (d - 1)%nat = 0 ->
  mget 0 (xY (gx z)) (d - 1) 0 = 0.
Proof.
  intros D2 (P & (_ & _ & PW & WP & _ & Z0) & (_ & _ & EF & EY)) QZ NZ X0. pose proof (te_zero _ XR) as T0.
  pose proof (proj1 QZ) as G. set (W := fn (xW (gx z))) in *.
  set (phi := fun v : nat -> R => Hs d (Vz z) d v (d - 1)%nat).
  assert (D0 : (d - 1 < d)%nat) by lia.
  assert (EFz : forall j i, (i < d)%nat -> (j < n)%nat -> Fz z j i = sumR n (fun k => A1 i k * IZR (P k j))).
  { intros j i Hi Hj. unfold HjlsBound.Fz. rewrite T0. now apply EF. }
  assert (PE : forall v w, (forall i, (i < d)%nat -> v i = w i) -> phi v = phi w) by (intros v w E; apply Hs_ext; auto).
  assert (PS : forall m F c, phi (fun i => sumR m (fun j => F j i * c j)) = sumR m (fun j => phi (F j) * c j)) by (intros; now apply Hs_sum).
  (* the columns of the left part vanish *)
  assert (PL : forall j, (j < d)%nat -> phi (Fz z j) = 0).
  { intros j Hj. unfold phi. rewrite (good_Hs fp rt TF d n dec gap epsilon DN z d (le_n _) G j (d - 1) Hj D0).
    destruct (Nat.leb_spec (d - 1) j); [|reflexivity]. replace j with (d - 1)%nat by lia.
    pose proof (Q_diag fp rt TF HALF d n dec gap epsilon DN x d z (d - 1) QZ ltac:(lia) ltac:(lia) ltac:(intros; apply NZ; lia)) as E.
    rewrite X0 in E. apply Rmult_integral in E. tauto. }
  (* the columns of [a | I] from those of F *)
  assert (AF : forall l, (l < n)%nat -> phi (fun i => A1 i l) = sumR n (fun j => phi (Fz z j) * IZR (W l j))).
  { intros l Hl. rewrite <- PS. apply PE. intros i Hi. symmetry. rewrite <- (sumR_mmul_r n (fun k => A1 i k) P W l PW Hl).
    apply sumR_ext. intros j Hj. now rewrite EFz. }
  assert (AL : forall l, (l < n)%nat -> phi (fun i => A1 i l) = phi (Fz z d) * IZR (W l d)).
  { intros l Hl. rewrite AF by assumption. replace n with (S d) by lia. cbn [sumR]. rewrite sumR_0; [ring|]. intros j Hj. rewrite PL by assumption. ring. }
  (* the functional is not zero *)
  assert (N : phi (Fz z d) <> 0).
  { intros E. destruct (Hs_surj d (Vz z) d) with (w := fun i : nat => 1) as (u & U).
    - intros k Hk. apply (colok_iso fp rt TF d n dec gap DN z k Hk). apply G; exact Hk.
    - assert (phi u = 1) by (apply U; lia). assert (phi u = 0); [|lra].
      rewrite (PE u (fun i => sumR d (fun l => (fun l i => A1 i (1 + l)) l i * u l))).
      + rewrite PS. apply sumR_0. intros l Hl. cbv beta. rewrite AL by lia. rewrite E. ring.
      + intros i Hi. symmetry. rewrite (sumR_single d i); [|exact Hi|].
        * unfold A1. cbn [Nat.add Nat.eqb]. rewrite Nat.eqb_refl. ring.
        * intros l Hl Hli. unfold A1. cbn [Nat.add Nat.eqb]. replace (l =? i)%nat with false by (symmetry; apply Nat.eqb_neq; lia). ring. }
  (* the first column of F is +-a *)
  assert (PA : phi a = 0).
  { assert (F0 : forall i, (i < d)%nat -> Fz z 0%nat i = a i * IZR (P 0%nat 0%nat)).
    { intros i Hi. rewrite EFz by lia. rewrite (sumR_single n 0); [reflexivity|lia|]. intros k Hk Nk. destruct (Z0 k 0%nat ltac:(lia) ltac:(lia)) as [-> _]. ring. }
    assert (P00 : IZR (P 0%nat 0%nat) <> 0).
    { intros E. pose proof (WP 0%nat 0%nat ltac:(lia) ltac:(lia)) as E1. apply eq_IZR in E. unfold mmul, mtr, mid in E1. rewrite (sumZ_0 n) in E1; [discriminate|].
      intros l Hl. destruct (Nat.eq_dec l 0) as [->|Nl]; [rewrite E; ring|]. destruct (Z0 l 0%nat ltac:(lia) ltac:(lia)) as [-> _]. ring. }
    assert (E : phi a * IZR (P 0%nat 0%nat) = 0).
    { transitivity (phi (Fz z 0%nat)); [|apply PL; lia]. transitivity (phi (fun i => sumR 1 (fun j => (fun _ => a) j i * IZR (P 0%nat 0%nat)))).
      - rewrite (PS 1%nat (fun _ => a) (fun _ => IZR (P 0%nat 0%nat))). cbn [sumR]. ring.
      - apply PE. intros i Hi. rewrite F0 by assumption. cbn [sumR]. ring. }
    apply Rmult_integral in E. tauto. }
  rewrite EY by lia.
  (* a = sum of the columns of [a|I] of index 1+s times a_s *)
  assert (E : phi a = phi (Fz z d) * sumR d (fun s => IZR (W (1 + s)%nat d) * a s)).
  { transitivity (phi (fun i => sumR d (fun s => (fun s i => A1 i (1 + s)) s i * a s))).
    - apply PE. intros i Hi. symmetry. rewrite (sumR_single d i); [|exact Hi|].
      + unfold A1. cbn [Nat.add Nat.eqb]. rewrite Nat.eqb_refl. ring.
      + intros l Hl Hli. unfold A1. cbn [Nat.add Nat.eqb]. replace (l =? i)%nat with false by (symmetry; apply Nat.eqb_neq; lia). ring.
    - rewrite PS. rewrite <- sumR_mul_l. apply sumR_ext. intros s Hs. cbv beta. rewrite AL by lia. ring. }
  rewrite PA in E. symmetry in E. apply Rmult_integral in E as [E|E]; [tauto|].
  transitivity (sumR d (fun s => IZR (W (1 + s)%nat d) * a s)); [|exact E]. apply sumR_ext. intros s Hs. rewrite D1. replace (1 + (d - 1))%nat with d by lia. reflexivity.
Qed.

Lemma hit1 : (forall y, tgap rt (tdiv rt 0 y) = true) -> (1 < d)%nat -> forall z x dg mY p, Inv1 (gx z) -> Q x d z -> (forall j, (j < d - 1)%nat -> x j <> 0) ->
  x (d - 1)%nat = 0 -> hitc fp rt d n dec gap z dg mY = Ok p -> fst p = true.
Proof.
  intros TG D2 z x dg mY p I QZ NZ X0 H. pose proof (last_Y0 z x D2 I QZ NZ X0) as Y0. unfold hitc in H. rewrite D1 in H.
  change (0 <? 1)%nat with true in H. cbv iota in H. binv H. unfold yget in Ha. apply guard_Ok in Ha as [_ Ha]. injection Ha as <-.
  rewrite (te_zero _ XR), Y0 in H. unfold ymax, yget in H. cbn [mfold seq] in H.
  replace ((d - 1 <? d)%nat && (0 <? 1)%nat)%bool with true in H by (symmetry; apply andb_true_iff; split; [apply Nat.ltb_lt; lia|reflexivity]).
  cbn [guard bind] in H. rewrite (te_zero _ XR), Y0, (te_abs _ XR), Rabs_R0 in H. cbn [guard bind] in H. injection H as <-. cbn [fst].
  destruct (tgt rt 0 0); apply TG.
Qed.
End HT.
