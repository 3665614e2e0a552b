(** * Growth of the vectors and machine integers: C79, C80, C81

    [hlll_m fp zt] (Machine.v) is hlll over the integer type [zt]; [zword w] is a signed
    word of w bits with undefined overflow (long: 64, __int128_t: 128), [zldouble] an
    integer kept in a long double, [zmpz] an mpz_t.  [exact fp] (Exact.v): the
    floating-point operations are those of the real numbers. *)
From Coq Require Import Floats ZArith Lia Reals Lra List Bool Arith.
From Verif Require Import Base Spec Mat FP Hlll IntSteps Structure Object SpecReal Fresh Cache Cache2 Cache6 Cache7
  Exact HHMath ExactLoop ExactTop Machine MachRef Growth GrowthM Double Examples PropExact.
Import ListNotations.

Lemma dot_norm2 (fp : fpops R) (X : exact fp) n s j : dot n (bval fp s j) (bval fp s j) = IZR (norm2 n (fun i => fn (iB s) i j)).
Proof.
  unfold norm2. rewrite sumZ_IZR. apply sumR_ext. intros i Hi. rewrite !bval_IZR by assumption. now rewrite mult_IZR.
Qed.

(** what is common to C79 and C81 *)
Lemma fresh_bound fp (X : exact fp) J n d A u m lg vd thr nb M delta zt vb fuel junk :
  independent n d (fn A) -> (m < 1)%Z -> (delta <= 1)%R -> (0 <= M)%Z ->
  (forall j, j < d -> (norm2 n (fun i => fn A i j) <= M)%Z) ->
  let L := fresh_object fp J n d A u m lg vd 1 thr nb in
  (forall rv L', hlll fp fuel delta vb junk L = Ok (rv, L') -> lcfg L' = lcfg L /\ bnd fp (lcfg L) (IZR M) (li L')) /\
  (mach (lcfg L) (IZR M) delta zt -> hlll_m fp zt fuel delta vb junk L = hlll fp fuel delta vb junk L).
Proof.
  intros I Hm HD HM HB L. apply hlll_bound; auto.
  - apply ready_fresh; [now apply independent_staircase|]. right. now apply exact_zero_laws.
  - now apply IZR_le.
  - eapply independent_ext; [|exact I]. apply meq_sym, fn_mtab.
  - intros j Hj. rewrite dot_norm2 by assumption. apply IZR_le. etransitivity; [|now apply (HB j)].
    apply Z.eq_le_incl. apply sumZ_ext. intros i Hi. change (iB (li L)) with (mtab n d (fn A)). now rewrite !fn_mtab.
Qed.

(** ** C79: no vector of the output is much longer than the longest vector of the input *)
Theorem C79_output_no_longer :
  forall (fp : fpops R), exact fp ->
  forall J n d A u m lg vd thr nb, independent n d (fn A) -> (m < 1)%Z ->
  forall M, (0 <= M)%Z -> (forall j, j < d -> (norm2 n (fun i => fn A i j) <= M)%Z) ->
  forall fuel delta verbose junk rv L, (delta <= 1)%R ->
    hlll fp fuel delta verbose junk (fresh_object fp J n d A u m lg vd 1 thr nb) = Ok (rv, L) ->
    forall j, j < d -> (4 * norm2 n (fun i => fn (getbase L) i j) <= (Z.of_nat d + 3) * M)%Z.
Proof.
  intros fp X J n d A u m lg vd thr nb I Hm M HM HB fuel delta vb junk rv L HD H j Hj.
  destruct (fresh_bound fp X J n d A u m lg vd thr nb M delta zmpz vb fuel junk I Hm HD HM HB) as [Q _].
  destruct (Q rv L H) as (CF & _ & Q2). specialize (Q2 j Hj). rewrite dot_norm2 in Q2 by assumption.
  apply le_IZR. rewrite !mult_IZR, plus_IZR, <- INR_IZR_INZ. unfold N2 in Q2.
  change (cd (lcfg (fresh_object fp J n d A u m lg vd 1 thr nb))) with d in Q2.
  change (cn (lcfg (fresh_object fp J n d A u m lg vd 1 thr nb))) with n in Q2.
  replace (norm2 n (fun i => fn (getbase L) i j)) with (norm2 n (fun i => fn (iB (li L)) i j)); [lra|].
  apply sumZ_ext. intros i Hi. unfold getbase. rewrite CF. cbn [lcfg cn cd fresh_object set_nblov_max set_num_S new_lattice].
  now rewrite !fn_mtab by assumption.
Qed.

(** ** C80: over a machine word, hlll is hlll over mpz_t or undefined *)
Theorem C80_word_right_or_undefined :
  forall (F : Type) (fp : fpops F) (w : Z) fuel delta verbose junk (L : lattice F),
    hlll_m fp (zword w) fuel delta verbose junk L = hlll fp fuel delta verbose junk L \/
    hlll_m fp (zword w) fuel delta verbose junk L = UB.
Proof.
  intros. destruct (hlll_rle True fp (zword w) fuel delta verbose junk L (zword_res w) (zword_shl w)) as [H|[_ H]]; auto.
Qed.

Theorem C80_mpz_is_hlll :
  forall (F : Type) (fp : fpops F) fuel delta verbose junk (L : lattice F),
    hlll_m fp zmpz fuel delta verbose junk L = hlll fp fuel delta verbose junk L.
Proof.
  intros. destruct (hlll_rle False fp zmpz fuel delta verbose junk L) as [H|[[] _]]; auto; intros; now left.
Qed.

(** ** C81: enough bits *)
Lemma faithful_word w : (2 <= w)%Z -> faithful (zword w) (2 ^ (w - 1) - 1).
Proof.
  intros Hw. assert (W : forall z, (Z.abs z <= 2 ^ (w - 1) - 1)%Z -> in_word w z = true).
  { intros z Hz. unfold in_word. apply andb_true_iff. split; [apply Z.leb_le|apply Z.ltb_lt]; lia. }
  split; cbn [zword zres zshl].
  - intros z Hz. now rewrite W.
  - intros a e He H2 Ha. replace (0 <=? e)%Z with true by (symmetry; now apply Z.leb_le). rewrite W by assumption.
    replace (e <? w)%Z with true; [reflexivity|]. symmetry. apply Z.ltb_lt.
    destruct (Z.lt_ge_cases e w) as [|G]; auto. exfalso.
    assert (2 ^ (w - 1) <= 2 ^ e)%Z by (apply Z.pow_le_mono_r; lia). lia.
Qed.

Lemma faithful_ldouble : faithful zldouble (2 ^ 64).
Proof.
  split; cbn [zldouble zres zshl]; [|reflexivity]. intros z Hz. f_equal. unfold zround64.
  destruct (Z.leb_spec (Z.log2 (Z.abs z) - 63) 0) as [|G]; [reflexivity|].
  assert (NZ : (0 < Z.abs z)%Z).
  { destruct (Z.eq_dec z 0) as [->|]; [cbn in G; lia|lia]. }
  assert (L : Z.log2 (Z.abs z) = 64%Z).
  { apply Z.le_antisymm; [|lia]. change 64%Z with (Z.log2 (2 ^ 64)). now apply Z.log2_le_mono. }
  assert (A : (Z.abs z = 2 ^ 64)%Z).
  { apply Z.le_antisymm; [assumption|]. pose proof (Z.log2_spec (Z.abs z) NZ) as [Q _]. now rewrite L in Q. }
  rewrite L. destruct (Z.abs_spec z) as [[_ E]|[_ E]]; [replace z with (2 ^ 64)%Z by lia|replace z with (- 2 ^ 64)%Z by lia]; reflexivity.
Qed.

Lemma faithful_mpz X : faithful zmpz X.
Proof. split; cbn; auto. intros a e He _ _. now rewrite Z.shiftl_mul_pow2. Qed.

Theorem C81_no_overflow :
  forall (fp : fpops R), exact fp ->
  forall (zt : zty) (X : Z), (0 <= X)%Z -> faithful zt X ->
  forall J n d A m lg vd thr nb, independent n d (fn A) -> (m < 1)%Z ->
  forall M, (0 <= M)%Z -> (forall j, j < d -> (norm2 n (fun i => fn A i j) <= M)%Z) ->
  ((Z.of_nat d + 3) * M * 25 ^ Z.of_nat (d - 1) <= 4 ^ Z.of_nat (d - 1) * X ^ 2)%Z ->
  forall fuel delta verbose junk, (7/10 <= delta <= 1)%R ->
    hlll_m fp zt fuel delta verbose junk (fresh_object fp J n d A false m lg vd 1 thr nb) =
    hlll fp fuel delta verbose junk (fresh_object fp J n d A false m lg vd 1 thr nb).
Proof.
  intros fp X zt XB X0 FA J n d A m lg vd thr nb I Hm M HM HB ROOM fuel delta vb junk [HD1 HD2].
  destruct (fresh_bound fp X J n d A false m lg vd thr nb M delta zt vb fuel junk I Hm HD2 HM HB) as [_ Q].
  apply Q. exists XB. split; [exact FA|]. split; [reflexivity|]. split; [exact HD1|]. split; [exact X0|].
  unfold N2. cbn [lcfg cd fresh_object set_nblov_max set_num_S new_lattice].
  change (cd (lcfg (fresh_object fp J n d A false m lg vd 1 thr nb))) with d.
  apply IZR_le in ROOM. rewrite !mult_IZR, plus_IZR, <- !pow_IZR, <- INR_IZR_INZ in ROOM.
  assert (P4 : (0 < 4 ^ (d - 1))%R) by (apply pow_lt; lra).
  replace ((25 / 4) ^ (d - 1))%R with (25 ^ (d - 1) / 4 ^ (d - 1))%R by (unfold Rdiv; now rewrite <- pow_inv, Rpow_mult_distr).
  apply Rmult_le_reg_l with (1 := P4).
  replace (4 ^ (d - 1) * (4 * ((INR d + 3) / 4 * IZR M * (25 ^ (d - 1) / 4 ^ (d - 1)))))%R with ((INR d + 3) * IZR M * 25 ^ (d - 1))%R by (field; lra).
  replace (IZR XB * IZR XB)%R with (IZR (XB ^ 2)) by (rewrite Z.pow_2_r; apply mult_IZR). exact ROOM.
Qed.

(** *** the hypotheses hold: three columns, long *)
Example C79_C81_hypotheses :
  exact Rfp0 /\ independent 4 3 (fn A1) /\ (forall j, j < 3 -> (norm2 4 (fun i => fn A1 i j) <= 10001)%Z) /\
  faithful (zword 64) (2 ^ 63 - 1) /\ faithful (zword 128) (2 ^ 127 - 1) /\ faithful zldouble (2 ^ 64) /\
  ((Z.of_nat 3 + 3) * 10001 * 25 ^ Z.of_nat (3 - 1) <= 4 ^ Z.of_nat (3 - 1) * (2 ^ 63 - 1) ^ 2)%Z.
Proof.
  split; [apply Rfp0_exact|]. split; [apply A1_independent|]. split.
  - intros [|[|[|j]]] Hj; try lia; vm_compute; discriminate.
  - split; [apply (faithful_word 64); lia|]. split; [apply (faithful_word 128); lia|]. split; [apply faithful_ldouble|]. vm_compute. discriminate.
Qed.

(** *** a word that is too short: IEEE doubles, 64 bits *)
Definition W1 : mat Z := [[4097;1639];[2 ^ 63 - 1; 2 ^ 63 - 7]]%Z.
Definition obj1 := fresh_object dbl Jz 2 2 W1 false 0 false 0 1 0 1000.

Example C80_word_example :
  hlll_m dbl (zword 128) 100 d99 false 0%float obj1 = hlll dbl 100 d99 false 0%float obj1 /\
  hlll_m dbl (zword 64) 100 d99 false 0%float obj1 = UB /\
  exists L, hlll dbl 100 d99 false 0%float obj1 = Ok (0%Z, L).
Proof. split; [vm_compute; reflexivity|]. split; [vm_compute; reflexivity|]. eexists. vm_compute. reflexivity. Qed.

(** *** over long double nothing is undefined, but hlll can return 0 with a basis of another lattice *)
Definition W2 : mat Z := [[4097;1639];[2 ^ 64 - 1048577; 2 ^ 64 - 7]]%Z.

Theorem C80_long_double_refuted :
  exists (A : mat Z) L, independent 2 2 (fn A) /\
    (forall i j, i < 2 -> j < 2 -> zres zldouble (fn A i j) = Ok (fn A i j)) /\
    hlll_m dbl zldouble 100 d99 false 0%float (fresh_object dbl Jz 2 2 A false 0 false 0 1 0 1000) = Ok (0%Z, L) /\
    ~ same_lattice 2 2 (fn A) (fn (getbase L)).
Proof.
  exists W2. eexists. split; [|split; [|split; [vm_compute; reflexivity|]]].
  - intros c H j Hj. pose proof (H 0 ltac:(lia)) as H0. pose proof (H 1 ltac:(lia)) as H1.
    cbv [sumZ fn mget col nth W2] in H0, H1. destruct j as [|[|j]]; lia.
  - intros [|[|i]] [|[|j]] Hi Hj; try lia; vm_compute; reflexivity.
  - intros SL. specialize (SL (fun i => nth i [-3816594461482451845; 9540321847891153988]%Z 0%Z)).
    destruct SL as [_ SL]. destruct SL as (c & Hc).
    + exists (fun j => Z.of_nat j). intros [|[|i]] Hi; try lia; vm_compute; reflexivity.
    + pose proof (Hc 0 ltac:(lia)) as H0. pose proof (Hc 1 ltac:(lia)) as H1. cbv [sumZ fn mget col nth W2] in H0, H1.
      assert (E : ((4097 * (2 ^ 64 - 7) - 1639 * (2 ^ 64 - 1048577)) * c 1%nat = 4097 * 9540321847891153988 + 1639 * 3816594461482451845)%Z) by lia.
      vm_compute (4097 * (2 ^ 64 - 7) - 1639 * (2 ^ 64 - 1048577))%Z in E.
      vm_compute (4097 * 9540321847891153988 + 1639 * 3816594461482451845)%Z in E.
      lia.
Qed.

Print Assumptions C79_output_no_longer.
Print Assumptions C80_word_right_or_undefined.
Print Assumptions C80_mpz_is_hlll.
Print Assumptions C80_long_double_refuted.
Print Assumptions C81_no_overflow.
