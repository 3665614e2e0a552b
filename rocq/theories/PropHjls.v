(** * Fgas::decomp in exact arithmetic: C96

    F: the d x n matrix of getfgas(), R: the matrix of getR(), after a call of decomp() on a new object that has set no
    column aside (ldim = 0), whatever the call returned. *)
From Coq Require Import ZArith Lia List Bool Arith Reals Lra Floats.
From Verif Require Import Base Spec SpecReal Mat FP Hlll HlllInt LinDep Structure MatOps ZFgas Fgas FgasInt FgasExact FgasSafe NullHjls Hjls HHMath
  Exact PropExact HjlsBound Double Examples PropKernel PropFgas.
Import ListNotations.
Local Open Scope R_scope.

Section Setting.
Variables (fp : fpops R) (rt : rtops R R).
Hypotheses (X : exact fp) (XR : rt_exact rt) (TF : forall x, tfp rt x = x).
Variables (d n dec : nat) (transf : bool) (gap : R -> bool) (epsilon : R) (ubound : Z).
Hypothesis DN : n = (d + dec)%nat.
Variables (J : junk_t (F := R)) (A res0 : mat R) (fuel : nat) (gamma : R) (target size ret : Z) (z : fgas R R).
Hypothesis RUN : gdecomp fp rt d n dec transf gap epsilon ubound fuel gamma target size (new_fgas rt d n dec transf J A res0) = Ok (ret, z).
Hypothesis L0 : gldim z = 0%nat.

Lemma run_good : good fp rt d n d z.
Proof.
  eapply (gdecomp_good fp rt X TF d n dec transf gap epsilon ubound ltac:(lia)); [|exact RUN|exact L0].
  split; [apply new_fgas_wf|]. split; [apply mtab_wfm|reflexivity].
Qed.

Lemma getR_upper i j : (i < d)%nat -> (j < n)%nat ->
  mget 0 (ggetR fp d n z) i j = if (i <=? j)%nat then mget (fzero fp) (gR z) i j else 0.
Proof. intros Hi Hj. unfold ggetR. rewrite mget_mtab by assumption. rewrite (e_zero fp X). reflexivity. Qed.

Lemma getF i j : (i < d)%nat -> (j < n)%nat -> mget 0 (ggetfgas rt d n z) i j = Fz rt z j i.
Proof. intros Hi Hj. unfold ggetfgas, Fz. now rewrite mget_mtab. Qed.
End Setting.

(** when the diagonal of R has no zero, R is the R factor of the first d columns of F: upper triangular with the same scalar
    products *)
Theorem C96_R_factor :
  forall (fp : fpops R) (rt : rtops R R) d n dec transf gap epsilon ubound,
  exact fp -> rt_exact rt -> (forall x, tfp rt x = x) -> n = (d + dec)%nat ->
  forall J A res fuel gamma target size ret z,
    gdecomp fp rt d n dec transf gap epsilon ubound fuel gamma target size (new_fgas rt d n dec transf J A res) = Ok (ret, z) ->
    gldim z = 0%nat -> (forall i, (i < d)%nat -> mget 0 (ggetR fp d n z) i i <> 0) ->
    (forall i j, (j < i < d)%nat -> mget 0 (ggetR fp d n z) i j = 0) /\
    forall j k, (j < d)%nat -> (k < d)%nat ->
      sumR d (fun i => mget 0 (ggetfgas rt d n z) i j * mget 0 (ggetfgas rt d n z) i k)
      = sumR d (fun i => mget 0 (ggetR fp d n z) i j * mget 0 (ggetR fp d n z) i k).
Proof.
  intros fp rt d n dec transf gap epsilon ubound X XR TF DN J A res fuel gamma target size ret z RUN L0 NZ.
  pose proof (run_good fp rt X TF d n dec transf gap epsilon ubound DN J A res fuel gamma target size ret z RUN L0) as G.
  split.
  - intros i j H. rewrite (getR_upper fp X) by lia. now replace (i <=? j)%nat with false by (symmetry; apply Nat.leb_gt; lia).
  - intros j k Hj Hk.
    rewrite (sumR_ext d _ (fun i => Fz rt z j i * Fz rt z k i)) by (intros i Hi; rewrite !getF by (lia || assumption); reflexivity).
    fold (dot d (Fz rt z j) (Fz rt z k)).
    assert (NZ' : forall i, (i < d)%nat -> mget (fzero fp) (gR z) i i <> 0).
    { intros i Hi. specialize (NZ i Hi). rewrite (getR_upper fp X), Nat.leb_refl in NZ by lia. exact NZ. }
    pose proof (good_reflects fp rt TF d n gap epsilon ltac:(lia) z G NZ') as U.
    rewrite <- (Hs_dot d (Vz fp z) d (Fz rt z j) (Fz rt z k)) by (intros l Hl; now apply (U l Hl)).
    unfold dot. apply sumR_ext. intros i Hi. rewrite !(getR_upper fp X) by lia.
    destruct (U j Hj) as [_ Uj]. destruct (U k Hk) as [_ Uk]. now rewrite Uj, Uk by assumption.
Qed.

(** the lower bound: a non-zero real vector u that has an integer product with every column of the input, and product 0 with
    its first dec columns, is at least as long as the inverse of the largest diagonal entry of R of index >= dec *)
Theorem C96_lower_bound :
  forall (fp : fpops R) (rt : rtops R R) d n dec transf gap epsilon ubound,
  exact fp -> rt_exact rt -> (forall x, tfp rt x = x) -> n = (d + dec)%nat ->
  forall J A res fuel gamma target size ret z,
    gdecomp fp rt d n dec transf gap epsilon ubound fuel gamma target size (new_fgas rt d n dec transf J A res) = Ok (ret, z) ->
    gldim z = 0%nat -> (forall i, (i < d)%nat -> mget 0 (ggetR fp d n z) i i <> 0) ->
  forall u : nat -> R,
    (forall j, (j < n)%nat -> exists k : Z, sumR d (fun i => u i * mget 0 A i j) = IZR k) ->
    (forall j, (j < dec)%nat -> sumR d (fun i => u i * mget 0 A i j) = 0) ->
    (exists i, (i < d)%nat /\ u i <> 0) ->
    exists i, (dec <= i < d)%nat /\ 1 <= mget 0 (ggetR fp d n z) i i * mget 0 (ggetR fp d n z) i i * sumR d (fun i => u i * u i).
Proof.
  intros fp rt d n dec transf gap epsilon ubound X XR TF DN J A res fuel gamma target size ret z RUN L0 NZ u IN ZD (i0 & Hi0 & U0).
  pose proof (run_good fp rt X TF d n dec transf gap epsilon ubound DN J A res fuel gamma target size ret z RUN L0) as G.
  pose proof RUN as ST. apply gdecomp_steps in ST as [ST _].
  set (z0 := new_fgas rt d n dec transf J A res) in *. pose proof (te_zero _ XR) as X0.
  assert (E0 : einv d n dec (mget 0%R A) (mget 0%R res) mid (gx z0)).
  { apply (start_einv rt d n dec transf); try assumption.
    - apply mtab_wfm.
    - intros D. unfold z0, new_fgas. cbn [gx xY]. apply Nat.ltb_lt in D. rewrite D. apply mtab_wfm.
    - apply new_tinv.
    - intros i j Hi Hj. now apply id_mat_fn.
    - intros i j Hi Hj. unfold z0, new_fgas. cbn [gx xF]. rewrite mget_mtab by assumption. now rewrite X0.
    - intros i j Hi Hj. unfold z0, new_fgas. cbn [gx xY]. assert (D : (0 <? dec)%nat = true) by (apply Nat.ltb_lt; lia).
      rewrite D, mget_mtab by assumption. now rewrite X0. }
  destruct (xsteps_einv rt XR d n dec transf DN _ _ mid _ _ ST (new_tinv rt d n dec transf J A res) E0) as (P & I & E).
  destruct I as (_ & _ & _ & _ & _ & Z0). destruct E as (_ & _ & EF & _).
  assert (UF : forall j, (j < n)%nat -> dot d u (Fz rt z j) = sumR n (fun k => sumR d (fun i => u i * mget 0 A i k) * IZR (P k j))).
  { intros j Hj. unfold dot. rewrite (sumR_ext d _ (fun i => sumR n (fun k => u i * mget 0 A i k * IZR (P k j)))).
    - rewrite sumR_swap. apply sumR_ext. intros k Hk. rewrite sumR_mul_r. reflexivity.
    - intros i Hi. unfold Fz. rewrite X0, EF by (lia || assumption). rewrite <- sumR_mul_l. apply sumR_ext. intros; ring. }
  assert (SI : forall m j, (m <= n)%nat -> exists k : Z, sumR m (fun k => sumR d (fun i => u i * mget 0 A i k) * IZR (P k j)) = IZR k).
  { induction m as [|m IH]; intros j Hm; cbn [sumR]; [now exists 0%Z|]. destruct (IH j ltac:(lia)) as (a & Ea).
    destruct (IN m ltac:(lia)) as (b & Eb). exists (a + b * P m j)%Z. rewrite Ea, Eb, plus_IZR, mult_IZR. reflexivity. }
  destruct (dual_bound fp rt TF d n dec gap epsilon ltac:(lia) z u G) as (i & Hi & B).
  - intros i Hi. specialize (NZ i Hi). rewrite (getR_upper fp X), Nat.leb_refl in NZ by lia. exact NZ.
  - intros j Hj. rewrite UF by lia. apply SI. lia.
  - intros j Hj1 Hj. rewrite UF by lia. apply sumR_0. intros k Hk. destruct (Nat.lt_ge_cases k dec) as [L|L].
    + rewrite ZD by assumption. ring.
    + destruct (Z0 k j ltac:(lia) Hj1) as [-> _]. ring.
  - pose proof (sumR_le_one d u i0 Hi0) as Q. fold (dot d u u) in Q. pose proof (Rsqr_pos_lt _ U0) as Q2. unfold Rsqr in Q2. lra.
  - exists i. split; [exact Hi|]. rewrite (getR_upper fp X), Nat.leb_refl by lia. exact B.
Qed.

(** hence for the search of integer relations, the object built on [a^T | I] (a: dec x d, here called by columns of a^T) *)
Theorem C96_relation_bound :
  forall (fp : fpops R) (rt : rtops R R) d n dec transf gap epsilon ubound,
  exact fp -> rt_exact rt -> (forall x, tfp rt x = x) -> n = (d + dec)%nat ->
  forall (a : nat -> nat -> R) J A res fuel gamma target size ret z,
    (forall i j, (i < d)%nat -> (j < n)%nat -> mget 0 A i j = if (j <? dec)%nat then a j i else if (j =? dec + i)%nat then 1 else 0) ->
    gdecomp fp rt d n dec transf gap epsilon ubound fuel gamma target size (new_fgas rt d n dec transf J A res) = Ok (ret, z) ->
    gldim z = 0%nat -> (forall i, (i < d)%nat -> mget 0 (ggetR fp d n z) i i <> 0) ->
  forall (m : nat -> Z) (M : R),
    (forall j, (j < dec)%nat -> sumR d (fun i => a j i * IZR (m i)) = 0) ->
    (exists i, (i < d)%nat /\ m i <> 0%Z) ->
    (forall i, (dec <= i < d)%nat -> Rabs (mget 0 (ggetR fp d n z) i i) <= M) ->
    1 <= M * M * IZR (sumZ d (fun i => m i * m i)%Z).
Proof.
  intros fp rt d n dec transf gap epsilon ubound X XR TF DN a J A res fuel gamma target size ret z HA RUN L0 NZ m M RE (i0 & Hi0 & M0) HM.
  assert (PZ : forall j, (j < dec)%nat -> sumR d (fun i => IZR (m i) * mget 0 A i j) = 0).
  { intros j Hj. transitivity (sumR d (fun i => a j i * IZR (m i))); [|now apply RE]. apply sumR_ext. intros i Hi. rewrite HA by lia.
    replace (j <? dec)%nat with true by (symmetry; now apply Nat.ltb_lt). ring. }
  destruct (C96_lower_bound fp rt d n dec transf gap epsilon ubound X XR TF DN J A res fuel gamma target size ret z RUN L0 NZ
              (fun i => IZR (m i))) as (i & Hi & B).
  - intros j Hj. destruct (Nat.lt_ge_cases j dec) as [L|L]; [exists 0%Z; now apply PZ|].
    exists (m (j - dec)%nat). rewrite (sumR_single d (j - dec)%nat); [|lia|].
    + rewrite HA by lia. replace (j <? dec)%nat with false by (symmetry; apply Nat.ltb_ge; lia).
      replace (j =? dec + (j - dec))%nat with true by (symmetry; apply Nat.eqb_eq; lia). ring.
    + intros l Hl N. rewrite HA by lia. replace (j <? dec)%nat with false by (symmetry; apply Nat.ltb_ge; lia).
      replace (j =? dec + l)%nat with false by (symmetry; apply Nat.eqb_neq; lia). ring.
  - exact PZ.
  - exists i0. split; [exact Hi0|]. now apply IZR_neq.
  - specialize (HM i Hi). set (x := mget 0 (ggetR fp d n z) i i) in *.
    assert (S : sumR d (fun i => IZR (m i) * IZR (m i)) = IZR (sumZ d (fun i => m i * m i)%Z)).
    { rewrite sumZ_IZR. apply sumR_ext. intros; now rewrite mult_IZR. }
    rewrite S in B. assert (XX : x * x <= M * M).
    { pose proof (Rabs_pos x). replace (x * x) with (Rabs x * Rabs x) by (unfold Rabs; destruct (Rcase_abs x); ring). nra. }
    assert (P : 0 <= IZR (sumZ d (fun i => m i * m i)%Z)).
    { rewrite <- S. clear. induction d as [|k IH]; cbn [sumR]; [lra|]. pose proof (Rle_0_sqr (IZR (m k))) as Q. unfold Rsqr in Q. lra. }
    nra.
Qed.

(** ** Cases *)
(** exact arithmetic: F = [3 5], a call with target dimension 0; the column of 5 becomes 5 - 2*3 *)
Definition rt1 : rtops R R := mkRT R R 0%R Rplus Rminus Rmult (fun r a b => r + a * b)%R (fun r a b => r - a * b)%R
  Rdiv Rabs (fun a b => if Rgt_dec a b then true else false) (fun _ => false) IZR (fun x => x).
Lemma rt1_exact : rt_exact rt1.
Proof. constructor; try reflexivity. intros a b. cbn. destruct (Rgt_dec a b); split; intros; try assumption; congruence. Qed.


Definition z96 (r r1 v q q1 : R) : fgas R R :=
  mkG (mkX [[3]; [5]] [] [[1; 0]; [0; 1]]%Z [[1; 0]; [0; 1]]%Z) [[r]; [r1]] [[v]] [q; q1] 0 0%Z.
Local Ltac run := lazy -[Rplus Rminus Rmult Rdiv Rabs IZR Rle_dec Rlt_dec Rgt_dec R_sqrt.sqrt Ropp Rinv Rnear Rnear0].
Lemma s96_0 : ghsizereduce Rfp0 rt1 1 2 0 false 2 0 (new_fgas rt1 1 2 0 false JR [[3]; [5]] [])
  = Ok (z96 (- R_sqrt.sqrt (3 * 3)) 7 ((3 + R_sqrt.sqrt (3 * 3)) / R_sqrt.sqrt (R_sqrt.sqrt (3 * 3) * (3 + R_sqrt.sqrt (3 * 3)))) (3 * 3) 7).
Proof. run. destruct (Rle_dec 0 3); [|lra]. reflexivity. Qed.
Lemma rnear2 x : x = 5 / 3 -> Rnear x = 2%Z.
Proof. intros ->. pose proof (Rnear_spec (5 / 3)) as H. revert H; unfold Rabs; destruct (Rcase_abs _); intros H;
  (assert (1 < Rnear (5 / 3) < 3)%Z; [|lia]; split; apply lt_IZR; lra). Qed.
Lemma rnear02 x : x = 5 / 3 -> Rnear0 x = 2%Z.
Proof. intros E. unfold Rnear0. destruct (Rle_dec _ _) as [H|H]; [|now apply rnear2]. revert H; unfold Rabs; destruct (Rcase_abs _); intros H; lra. Qed.
Lemma s96_1 r v q : r = -3 -> v * v = 2 -> exists z, ghsizereduce Rfp0 rt1 1 2 0 false 2 1 (z96 r 7 v q 7) = Ok z /\
  gldim z = 0%nat /\ gR z = [[r]; [-1 - v * (v * -1)]] /\ xF (gx z) = [[3]; [-1]].
Proof.
  intros E1 E2. 
  assert (Q : (5 - v * (v * 5)) / r = 5 / 3) by (rewrite E1; replace (v * (v * 5)) with (v * v * 5) by ring; rewrite E2; field).
  eexists. run. rewrite !(rnear02 _ Q). rewrite !(Rnear_IZR 2 : Rnear 2 = 2%Z). destruct (Rle_dec 2 0); [lra|]. run.
  repeat match goal with |- context [Rlt_dec ?a ?b] => destruct (Rlt_dec a b); [exfalso; lra|] end.
  split; [reflexivity|]. split; [reflexivity|]. split; [|].
  - cbn [gR]. f_equal. f_equal. f_equal. ring.
  - cbn [gx xF]. repeat f_equal. ring.
Qed.

Example C96_case : exists z,
  gdecomp Rfp0 rt1 1 2 0 false (fun _ => false) 0 1000 2 1 0 1000 (new_fgas rt1 1 2 0 false JR [[3]; [5]] []) = Ok (0%Z, z) /\
  gldim z = 0%nat /\ mget 0 (ggetR Rfp0 1 2 z) 0 0 = -3 /\ mget 0 (ggetR Rfp0 1 2 z) 0 1 = 1 /\
  ggetfgas rt1 1 2 z = [[3]; [-1]].
Proof.
  set (s9 := R_sqrt.sqrt (3 * 3)). assert (E9 : s9 = 3) by (apply sqrt_square; lra).
  set (v := (3 + s9) / R_sqrt.sqrt (s9 * (3 + s9))).
  assert (EV : v * v = 2).
  { unfold v. rewrite E9. replace (3 * (3 + 3)) with 18 by ring. pose proof (sqrt_sqrt 18 ltac:(lra)) as Q. pose proof (sqrt_lt_R0 18 ltac:(lra)) as P.
    replace ((3 + 3) / R_sqrt.sqrt 18 * ((3 + 3) / R_sqrt.sqrt 18)) with (36 / (R_sqrt.sqrt 18 * R_sqrt.sqrt 18)) by (field; lra). rewrite Q. field. }
  destruct (s96_1 (- s9) v (3 * 3) ltac:(lra) EV) as (z1 & H1 & H2 & H3 & H4).
  exists (inc_gn z1). split; [|].
  - unfold gdecomp. cbn -[Rplus Rminus Rmult Rdiv Rabs IZR R_sqrt.sqrt Rfp0 ghsizereduce gloop new_fgas].
    rewrite s96_0. fold s9. fold v. cbn -[Rplus Rminus Rmult Rdiv Rabs IZR R_sqrt.sqrt Rfp0 ghsizereduce gloop new_fgas].
    rewrite H1. cbn -[Rplus Rminus Rmult Rdiv Rabs IZR R_sqrt.sqrt Rfp0 ghsizereduce gloop new_fgas].
    unfold gmindiag, rget. rewrite H3. cbn -[Rplus Rminus Rmult Rdiv Rabs IZR R_sqrt.sqrt Rfp0 ghsizereduce new_fgas inc_gn].
    unfold inc_gn, rget. cbn [gldim gR]. rewrite H2, H3. cbn -[Rplus Rminus Rmult Rdiv Rabs IZR R_sqrt.sqrt Rfp0].
    reflexivity.
  - unfold inc_gn, ggetR, ggetfgas. cbn [gldim gR gx]. rewrite H2, H3, H4. cbn -[Rplus Rminus Rmult Rdiv Rabs IZR R_sqrt.sqrt Rfp0].
    split; [reflexivity|]. split; [lra|]. split; [|reflexivity]. transitivity (-1 + v * v); [ring|rewrite EV; ring].
Qed.

(** in double precision: the search for the relations of (2,3,7) stopped by the bound on their bit size before it finds
    one.  The largest diagonal entry (in absolute value) of index >= 1 is 0.4579.., so that a relation has at least the
    squared length 4.76; the shortest ones have 6. *)
Example C96_dbl_case : match gdecomp dbl rtd 3 4 1 true gapd 0x1p-40%float 1000 60 g11 2 1
      (new_fgas rtd 3 4 1 true Jz (hj_input rtd 1 3 Z2 Arow) (hj_input rtd 1 3 Z2 Arow)) with
  | Ok (r, z) => (r, gldim z, forallb (fun i => negb (PrimFloat.eqb (mget 0%float (ggetR dbl 3 4 z) i i) 0%float)) (seq 0 3),
                  forallb (fun i => PrimFloat.leb (PrimFloat.abs (mget 0%float (ggetR dbl 3 4 z) i i)) 0.458%float) (seq 1 2))
                 = ((-1)%Z, 0%nat, true, true)
  | _ => False end.
Proof. vm_compute. reflexivity. Qed.

Print Assumptions C96_R_factor.
Print Assumptions C96_lower_bound.
Print Assumptions C96_relation_bound.
