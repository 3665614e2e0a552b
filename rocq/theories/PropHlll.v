(** * Properties of the Lattice class (hlll): C01-C03, C07-C10, C23-C25, C31, C34

    Each theorem is stated with the vocabulary of Spec.v (lattices, unimodular
    matrices, independence) and the API-level functions of the model
    ([new_lattice] = constructor, [run] = a sequence of calls, [getbase], [getU],
    [hlll], [isreduced]); [F] and [fp] are an arbitrary type and arbitrary
    operations for the floating-point numbers. *)
From Coq Require Import ZArith Lia List Bool Arith Floats.
From Verif Require Import Base Spec Mat FP Hlll Hlll2 IntSteps HlllInt LinDep Structure Object Counters Safety
  BlocksSeysen LongFlag Double DoubleAgree Examples.
Import ListNotations.

(** ** C01 *)
Theorem C01_hlll_preserves_lattice :
  forall (F : Type) (fp : fpops F), expo_nonneg fp ->
  forall J n d A forU method long_flag depth (calls : list (call (F := F))) L,
    precisions_ok calls ->
    run fp calls (new_lattice fp J n d A forU method long_flag depth) = Ok L ->
    same_lattice n d (current (fn A) calls) (fn (getbase L)).
Proof. intros. eapply run_lattice; eassumption. Qed.

(** a history that reduces, reduces again with two threads, assigns another basis,
    and tests it; A1 is really changed *)
Example C01_case :
  let calls := [CallHlll 200 d99 false 0%float; CallSetNumS 2 0; CallHlll 200 d99 true 0%float;
                CallAssign A1; CallIsreduced dbl 200 d99 0%float Jz Jz] in
  precisions_ok calls /\
  (exists L, run dbl calls (new_lattice dbl Jz 4 3 A1 true 0 true 0) = Ok L /\
             getbase L = [[-1; 1; 1; -4]; [2; 1; -4; 1]; [3; -5; -2; -3]]%Z).
Proof.
  cbv zeta. split.
  - intros fp' fuel delta junk J1 J2 I. repeat (destruct I as [I|I]; [try discriminate|]); [|contradiction].
    injection I as <- _ _ _ _ _. apply dbl_expo_nonneg.
  - eexists. split; [vm_compute; reflexivity|]. reflexivity.
Qed.

(** ** C02 *)
Theorem C02_transformation_exact :
  forall (F : Type) (fp : fpops F), expo_nonneg fp ->
  forall J n d A method long_flag depth (calls : list (call (F := F))) L,
    precisions_ok calls ->
    run fp calls (new_lattice fp J n d A true method long_flag depth) = Ok L ->
    independent n d (current (fn A) calls) ->
    single_thread calls ->
    unimodular d (fn (getU L)) /\
    meq n d (fn (getbase L)) (mmul d (current (fn A) calls) (fn (getU L))).
Proof. intros. eapply run_transform; eauto using independent_staircase. Qed.

Example C02_case :
  independent 4 3 (fn A1) /\
  exists L, run dbl [CallHlll 200 d99 false 0%float] (new_lattice dbl Jz 4 3 A1 true 0 true 0) = Ok L /\
            getU L = [[-1; 1; 1]; [2; 1; -4]; [3; -5; -2]]%Z.
Proof. split; [apply A1_independent|]. eexists. split; [vm_compute; reflexivity|]. reflexivity. Qed.

(** ** C03: refuted for several threads and for dependent columns *)
Theorem C03_transformation_parallel_refuted :
  exists A S thr L, independent 4 3 (fn A) /\
    run dbl [CallSetNumS S thr; CallHlll 200 d99 false 0%float] (new_lattice dbl Jz 4 3 A true 0 true 0) = Ok L /\
    ~ meq 4 3 (fn (getbase L)) (mmul 3 (fn A) (fn (getU L))).
Proof.
  exists A1, 2, 0%Z. eexists. split; [apply A1_independent|]. split; [vm_compute; reflexivity|].
  intros H. specialize (H 0 0 ltac:(lia) ltac:(lia)). vm_compute in H. discriminate.
Qed.

Theorem C03_transformation_dependent_refuted :
  exists A L, run dbl [CallSetNblovMax 2; CallHlll 200 d99 false 0%float] (new_lattice dbl Jz 3 3 A true 0 true 0) = Ok L /\
    ~ meq 3 3 (fn (getbase L)) (mmul 3 (fn A) (fn (getU L))).
Proof.
  exists A2. eexists. split; [vm_compute; reflexivity|].
  intros H. specialize (H 0 0 ltac:(lia) ltac:(lia)). vm_compute in H. discriminate.
Qed.

(** ** C07 *)
Theorem C07_verbose_depth_balanced :
  forall (F : Type) (fp : fpops F) fuel delta verbose junk L r L',
    1 <= ckmax (lcfg L) ->
    hlll fp fuel delta verbose junk L = Ok (r, L') -> vdepth (lc L') = vdepth (lc L).
Proof. intros. eapply hlll_cnt; eassumption. Qed.

Example C07_case : exists r L', hlll dbl 200 d99 true 0%float (new_lattice dbl Jz 4 3 A1 true 0 true 5) = Ok (r, L') /\
  vdepth (lc L') = 5%Z.
Proof. do 2 eexists. split; [vm_compute; reflexivity|]. reflexivity. Qed.

(** ** C08 *)
Theorem C08_test_budget :
  forall (F : Type) (fp : fpops F) fuel delta verbose junk J n d A forU method long_flag depth budget r L',
    1 <= d ->
    hlll fp fuel delta verbose junk
      (set_nblov_max budget (new_lattice fp J n d A forU method long_flag depth)) = Ok (r, L') ->
    let tests := nblov (lc L') in let swaps := nbswaps (lc L') in
    (tests <= Z.max 0 budget /\ 0 <= swaps <= tests /\ (r = 0 \/ r = -1) /\
     (r = 0 -> tests < budget -> Z.of_nat d - 1 + swaps <= tests <= Z.of_nat d - 1 + 2 * swaps))%Z.
Proof.
  intros F fp fuel delta verbose junk J n d A forU method long_flag depth budget r L' Hd H.
  apply hlll_cnt in H; [|exact Hd].
  cbn [set_nblov_max new_lattice lcfg lc ckmax cnblov_max nblov nbswaps] in H.
  destruct H as (_ & H2 & H3 & H4 & H5 & H6). cbv zeta.
  split; [lia|]. split; [lia|]. split; [exact H5|]. intros R T. specialize (H6 R T). lia.
Qed.

(** the same count on any object (several calls, nblov not reset) *)
Theorem C08_test_budget_any_state :
  forall (F : Type) (fp : fpops F) fuel delta verbose junk L r L',
    1 <= ckmax (lcfg L) ->
    hlll fp fuel delta verbose junk L = Ok (r, L') ->
    (nblov (lc L) <= nblov (lc L') <= Z.max (nblov (lc L)) (cnblov_max (lcfg L)) /\
     0 <= nbswaps (lc L') - nbswaps (lc L) <= nblov (lc L') - nblov (lc L))%Z.
Proof. intros F fp fuel delta verbose junk L r L' K H. apply hlll_cnt in H; [|exact K]. lia. Qed.

Example C08_case : exists r L', hlll dbl 200 d99 false 0%float
    (set_nblov_max 1000 (new_lattice dbl Jz 4 3 A1 true 0 true 0)) = Ok (r, L') /\
    r = 0%Z /\ nblov (lc L') = 10%Z /\ nbswaps (lc L') = 6%Z.
Proof. do 2 eexists. split; [vm_compute; reflexivity|]. auto. Qed.

(** ** C09 *)
Theorem C09_isreduced_meaning :
  forall (F : Type) (fp : fpops F) fuel delta junk J1 J2 L inner status L',
    1 <= cd (lcfg L) -> ckmax (lcfg L) = cd (lcfg L) ->
    isreduced fp fuel delta junk J1 J2 L = Ok (inner, status, L') ->
    inner = 0%Z -> (Z.of_nat (cd (lcfg L)) <= cnblov_max (lcfg L))%Z ->
    (status = 0%Z <-> (nbswaps (lc L') = nbswaps (lc L) /\ (nblov (lc L') < cnblov_max (lcfg L))%Z)).
Proof.
  intros F fp fuel delta junk J1 J2 L inner status L' Hd Hm H Hi Hb.
  unfold isreduced in H. do 4 binv H. destruct a2 as [r3 L3]. injection H as <- <- <-.
  subst r3. apply hlll_cnt in Ha2; [|cbn [lcfg]; lia]. cbn [lcfg lc nblov nbswaps] in *.
  destruct Ha2 as (_ & H2 & H3 & H4 & _ & H6). specialize (H6 eq_refl).
  destruct (Z.eqb_spec (nblov (lc L3)) (Z.of_nat (cd (lcfg L)) - 1)) as [E|E].
  - split; [intros _|reflexivity]. specialize (H6 ltac:(lia)). lia.
  - split; [discriminate|]. intros [E1 E2]. specialize (H6 E2). lia.
Qed.

Example C09_case_reduced : exists inner L', isreduced dbl 200 0.75%float 0%float Jz Jz
   (new_lattice dbl Jz 4 3 [[-1; 1; 1; -4]; [2; 1; -4; 1]; [3; -5; -2; -3]]%Z true 0 true 0) = Ok (inner, 0%Z, L') /\ inner = 0%Z.
Proof. do 2 eexists. split; [vm_compute; reflexivity|]. reflexivity. Qed.
Example C09_case_unreduced : exists inner L', isreduced dbl 200 0.75%float 0%float Jz Jz
   (new_lattice dbl Jz 4 3 A1 true 0 true 0) = Ok (inner, (-1)%Z, L') /\ inner = 0%Z.
Proof. do 2 eexists. split; [vm_compute; reflexivity|]. reflexivity. Qed.

(** The return value of the inner hlll is ignored by isreduced: here (genuine
    doubles, delta = 1.5) the inner hlll swaps once and returns -1, and isreduced
    answers 0 ("reduced"). *)
Theorem C09_isreduced_ignores_failure_refuted :
  exists A delta inner L', isreduced dbl 200 delta 0%float Jz Jz (new_lattice dbl Jz 4 4 A true 0 true 0)
                     = Ok (inner, 0%Z, L') /\ inner = (-1)%Z /\ nbswaps (lc L') = 1%Z.
Proof.
  exists [[1;0;0;0];[0;10;0;0];[0;0;11;0];[0;0;0;100]]%Z, 1.5%float. do 2 eexists.
  split; [vm_compute; reflexivity|]. auto.
Qed.

(** ** C10 *)
Theorem C10_no_out_of_bounds :
  forall (F : Type) (fp : fpops F) J n d A forU method long_flag depth (calls : list (call (F := F))),
    d <= n -> 2 <= d ->
    run fp calls (new_lattice fp J n d A forU method long_flag depth) <> UB.
Proof.
  intros. eapply safe_no_UB. eapply (run_safe fp n d); [assumption|assumption|]. apply new_lsafe.
Qed.

(** one column (or none): hlll alone is safe as well *)
Theorem C10_no_out_of_bounds_hlll :
  forall (F : Type) (fp : fpops F) J n d A forU method long_flag depth fuel delta verbose junk,
    d <= n -> hlll fp fuel delta verbose junk (new_lattice fp J n d A forU method long_flag depth) <> UB.
Proof. intros. eapply safe_no_UB. eapply (hlll_safe fp n d); [assumption|]. apply new_lsafe. Qed.

(** more columns than rows: no run completes (the real program reads out of bounds) *)
Theorem C10_wide_never_completes :
  forall (F : Type) (fp : fpops F) J n d A forU method long_flag depth fuel delta verbose junk L',
    n < d -> 2 <= d ->
    hlll fp fuel delta verbose junk (new_lattice fp J n d A forU method long_flag depth) = Ok (0%Z, L') ->
    (4294967295 <= nblov (lc L'))%Z.
Proof.
  intros F fp J n d A forU method lf0 depth fuel delta verbose junk L' Hn Hd H.
  destruct (Z.lt_ge_cases (nblov (lc L')) 4294967295) as [K|K]; [exfalso|assumption].
  unfold hlll in H. binv H. destruct a as [[[r s] f] q']. injection H as -> <-. cbn [lc lcfg new_lattice] in *.
  eapply hlll_loop_wide; [exact Ha| | | |]; cbn; auto; lia.
Qed.

Theorem C10_isreduced_one_column_refuted :
  exists A, isreduced dbl 200 d99 0%float Jz Jz (new_lattice dbl Jz 3 1 A false 0 true 0) = UB.
Proof. exists [[1;2;3]]%Z. vm_compute. reflexivity. Qed.

Example C10_case : hlll dbl 200 d99 false 0%float (new_lattice dbl Jz 1 2 [[3];[5]]%Z false 0 true 0) = UB.
Proof. vm_compute. reflexivity. Qed.

(** ** C23: matrix_structure; entry j is (structure[j] + 1) *)
Theorem C23_matrix_structure :
  forall (B : mat Z) n d j, j < d ->
    let st := matrix_structure B n d in
    length st = d /\
    nth j st 0 <= n /\
    (forall k, k <= j -> nth k st 0 <= nth j st 0) /\
    (forall k i, k <= j -> nth j st 0 <= i < n -> fn B i k = 0%Z) /\
    (forall r, (forall k i, k <= j -> r <= i < n -> fn B i k = 0%Z) -> nth j st 0 <= r).
Proof.
  intros B n d j Hj. cbv zeta. repeat split.
  - apply ms_length.
  - now apply ms_le.
  - intros k Hk. apply ms_mono. lia.
  - intros k i Hk Hi. apply (ms_zero B n d); [lia|].
    pose proof (ms_mono B n d k j ltac:(lia)). lia.
  - intros r Hr. now apply ms_least.
Qed.

Example C23_case : matrix_structure [[0;0;0];[4;0;0];[0;0;0];[0;7;0]]%Z 3 4 = [0;1;1;2].
Proof. reflexivity. Qed.

(** ** C24 *)
Theorem C24_seysen_blocks_cover :
  forall kappa,
    concat (map (fun b => block_rows kappa (fst b) (snd b)) (seysen_blocks (kappa + 1) 1 0 kappa))
    = rev (seq 0 kappa).
Proof. exact seysen_rows. Qed.

Example C24_case : map (fun b => block_rows 6 (fst b) (snd b)) (seysen_blocks 7 1 0 6) = [[];[5;4];[3;2;1;0]].
Proof. reflexivity. Qed.

(** ** C25: the LONG / NO_LONG flag *)
Theorem C25_long_flag_transparent_default :
  forall (F : Type) (fp : fpops F), conv_agree fp ->
  forall J n d A forU method depth fuel delta verbose junk, (method < 1)%Z ->
  match hlll fp fuel delta verbose junk (new_lattice fp J n d A forU method true depth),
        hlll fp fuel delta verbose junk (new_lattice fp J n d A forU method false depth) with
  | Ok (r, L), Ok (r', L') => r = r' /\ getbase L = getbase L' /\ getU L = getU L' /\ lc L = lc L'
  | UB, UB => True | NoFuel, NoFuel => True | _, _ => False
  end.
Proof. intros. now apply hlll_long. Qed.

Example C25_case : conv_agree dbl. Proof. apply dbl_conv_agree. Qed.

(** Seysen reduction: NO_LONG subtracts a stale coefficient from B *)
Theorem C25_long_flag_seysen_refuted :
  exists A r1 L1 r2 L2,
    hlll dbl 200 d99 false 0%float (new_lattice dbl Jz 4 3 A true 1 true 0) = Ok (r1, L1) /\
    hlll dbl 200 d99 false 0%float (new_lattice dbl Jz 4 3 A true 1 false 0) = Ok (r2, L2) /\
    r1 = 0%Z /\ r2 = 0%Z /\
    getbase L1 = [[-1; 1; 1; -4]; [2; 1; -4; 1]; [3; -5; -2; -3]]%Z /\
    getbase L2 = [[-1; 1; 1; -4]; [0; 1; 0; 37]; [0; 1; 1; 96]]%Z.
Proof.
  exists A1. do 4 eexists. split; [vm_compute; reflexivity|]. split; [vm_compute; reflexivity|].
  repeat split; vm_compute; reflexivity.
Qed.

(** ** C34 *)
Theorem C34_getU_getR_shape :
  forall (F : Type) (fp : fpops F) (junk : nat -> nat -> F) (L : lattice F),
    (ctransf (lcfg L) = true -> wfm (cd (lcfg L)) (cd (lcfg L)) (getU L)) /\
    (ctransf (lcfg L) = false -> getU L = []) /\
    wfm (cd (lcfg L)) (cd (lcfg L)) (getR fp junk L) /\
    wfm (cn (lcfg L)) (cd (lcfg L)) (getbase L) /\
    (forall i j, j < i -> i < cd (lcfg L) -> mget (fzero fp) (getR fp junk L) i j = fzero fp) /\
    (forall i j, i <= j -> j < cd (lcfg L) -> i < cn (lcfg L) ->
       mget (fzero fp) (getR fp junk L) i j = mget (fzero fp) (fR (lf L)) i j).
Proof.
  intros F fp junk L. unfold getU, getR, getbase. repeat split.
  - rewrite H. apply mtab_wfm.
  - rewrite H. apply mtab_wfm.
  - intros H. now rewrite H.
  - apply mtab_wfm.
  - apply mtab_wfm.
  - apply mtab_wfm.
  - apply mtab_wfm.
  - intros i j H1 H2. rewrite mget_mtab by lia. apply Nat.ltb_lt in H1. now rewrite H1.
  - intros i j H1 H2 H3. rewrite mget_mtab by lia.
    destruct (Nat.ltb_spec j i); [lia|]. destruct (Nat.ltb_spec i (min (cn (lcfg L)) (cd (lcfg L)))); [reflexivity|lia].
Qed.

Print Assumptions C01_hlll_preserves_lattice.
Print Assumptions C02_transformation_exact.
Print Assumptions C03_transformation_parallel_refuted.
Print Assumptions C03_transformation_dependent_refuted.
Print Assumptions C07_verbose_depth_balanced.
Print Assumptions C08_test_budget.
Print Assumptions C08_test_budget_any_state.
Print Assumptions C09_isreduced_meaning.
Print Assumptions C09_isreduced_ignores_failure_refuted.
Print Assumptions C10_no_out_of_bounds.
Print Assumptions C10_no_out_of_bounds_hlll.
Print Assumptions C10_wide_never_completes.
Print Assumptions C10_isreduced_one_column_refuted.
Print Assumptions C23_matrix_structure.
Print Assumptions C24_seysen_blocks_cover.
Print Assumptions C25_long_flag_transparent_default.
Print Assumptions C25_long_flag_seysen_refuted.
Print Assumptions C34_getU_getR_shape.
