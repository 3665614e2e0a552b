(** * C89: hlll<mpz_t> (and hlll<long>) in exact arithmetic: it ends, never leaves its arrays, and the basis it returns is
    reduced: LLL-reduced when one stage is enough (d <= DIM_PREC_1), Seysen- and Lovasz-reduced otherwise.

    LLL_reduced, Seysen_LLL_reduced, norm2: SpecReal.v, SpecSeysen.v; [exact]: Exact.v.  4294967295 is the largest number
    of Lovasz tests of a Lattice (nblov_max, never changed by the wrappers); a run that follows less than this number of turns
    of the loops cannot reach it. *)
From Coq Require Import ZArith Lia Reals Lra List Bool Arith.
From Verif Require Import Base Spec Mat FP Hlll Hlll2 IntSteps HlllInt Structure Object Counters SpecReal SpecSeysen Fresh Cache Cache6 Cache7
  Exact ExactPot ExactTop SeysenTop MachInt ShortVec Wrap WrapFacts Fuel WrapExact Examples PropExact PropSeysen.
Import ListNotations.
Local Open Scope R_scope.

(** an arithmetic that is exact and rounds the numbers of absolute value at most 1/2 to 0 *)
Definition exact0 (fp : fpops R) : Prop := exact fp /\ forall x, Rabs x <= / 2 -> frnd fp x = 0.

Lemma mpz_stages (fp gp : fpops R) W WG fuel delta junk deltaG junkG d1 d2 n d A :
  hlll_mpz fp gp W WG fuel delta junk deltaG junkG d1 d2 n d A =
  let* C := hlll_stages fp gp W WG fuel delta junk deltaG junkG d1 d2 n d (mtab n d (fn A)) in Ok (mtab n d (fn C)).
Proof. reflexivity. Qed.

Lemma mtab_indep n d A : independent n d (fn A) -> independent n d (fn (mtab n d (fn A))).
Proof. intros I. apply (independent_ext n d (fn A)); [apply meq_sym, fn_mtab|exact I]. Qed.

(** the call ends, with a result that does not depend on how far the loops are followed *)
Theorem C89_ends :
  forall fp gp, exact0 fp -> exact0 gp ->
  forall W WG delta junk deltaG junkG d1 d2 n d A, (d1 <= d2)%nat -> independent n d (fn A) -> delta <= 1 -> deltaG <= 1 ->
  exists fuel0 C, same_lattice n d (fn A) (fn C) /\
    forall fuel, (fuel0 <= fuel)%nat -> hlll_mpz fp gp W WG fuel delta junk deltaG junkG d1 d2 n d A = Ok C.
Proof.
  intros fp gp (X & H1) (XG & H2) W WG delta junk deltaG junkG d1 d2 n d A D12 I HD HG.
  destruct (stages_total fp gp X XG W WG delta junk deltaG junkG d1 d2 n d _ D12 (mtab_indep n d A I) HD HG H1 H2) as (f0 & C & HC).
  exists f0, (mtab n d (fn C)). split.
  - pose proof (hlll_stages_lattice fp gp (e_expo fp X) (e_expo gp XG) W WG f0 delta junk deltaG junkG d1 d2 n d _ C D12 (HC f0 (le_n _))) as S.
    eapply same_lattice_trans; [apply same_lattice_ext, meq_sym, fn_mtab|]. eapply same_lattice_trans; [exact S|].
    apply same_lattice_ext, meq_sym, fn_mtab.
  - intros fuel Hf. rewrite mpz_stages, HC by assumption. reflexivity.
Qed.

Theorem C89_defined :
  forall fp gp, exact fp -> exact gp ->
  forall W WG fuel delta junk deltaG junkG d1 d2 n d A, (d1 <= d2)%nat -> independent n d (fn A) -> delta <= 1 -> deltaG <= 1 ->
  hlll_mpz fp gp W WG fuel delta junk deltaG junkG d1 d2 n d A <> UB.
Proof.
  intros fp gp X XG W WG fuel delta junk deltaG junkG d1 d2 n d A D12 I HD HG E. rewrite mpz_stages in E.
  apply (stages_defined fp gp X XG W WG fuel delta junk deltaG junkG d1 d2 n d _ D12 (mtab_indep n d A I) HD HG).
  destruct (hlll_stages _ _ _ _ _ _ _ _ _ _ _ _ _ _); [discriminate|reflexivity|discriminate].
Qed.

Lemma R_factor_ext n d B B' r : meq n d B B' -> R_factor n d B r -> R_factor n d B' r.
Proof.
  intros E (U & P & G). split; [exact U|]. split; [exact P|]. intros j l Hj Hl. rewrite G by assumption.
  apply f_equal, sumZ_ext. intros i Hi. now rewrite !E.
Qed.

Theorem C89_reduced :
  forall fp gp, exact fp -> exact gp ->
  forall W WG fuel delta junk deltaG junkG d1 d2 n d A C, (d1 <= d2)%nat -> (2 <= d)%nat -> independent n d (fn A) ->
  delta <= 1 -> deltaG <= 1 -> (Z.of_nat fuel < 4294967295)%Z ->
  hlll_mpz fp gp W WG fuel delta junk deltaG junkG d1 d2 n d A = Ok C ->
  same_lattice n d (fn A) (fn C) /\
  ((d <= d1)%nat -> LLL_reduced n d delta (fn C)) /\
  ((d1 < d <= d2)%nat -> Seysen_LLL_reduced n d delta (fn C)) /\
  ((d2 < d)%nat -> Seysen_LLL_reduced n d deltaG (fn C)).
Proof.
  intros fp gp X XG W WG fuel delta junk deltaG junkG d1 d2 n d A C D12 D2 I HD HG FU H.
  pose proof H as H0. rewrite mpz_stages in H. binv H. apply (f_equal (fun x => match x with Ok y => y | _ => [] end)) in H. subst C.
  destruct (stages_reduced fp gp X XG W WG fuel delta junk deltaG junkG d1 d2 n d _ a D12 D2 (mtab_indep n d A I) HD HG FU Ha) as (Q1 & Q2).
  assert (EX : meq n d (fn a) (fn (mtab n d (fn a)))) by apply meq_sym, fn_mtab.
  split; [|split; [|split]].
  - eapply same_lattice_trans; [apply same_lattice_ext, meq_sym, fn_mtab|].
    eapply same_lattice_trans; [exact (hlll_stages_lattice fp gp (e_expo fp X) (e_expo gp XG) W WG fuel delta junk deltaG junkG d1 d2 n d _ a D12 Ha)|].
    now apply same_lattice_ext.
  - intros L. destruct (Q1 L) as (r & RF & Q). exists r. split; [now apply (R_factor_ext n d (fn a))|exact Q].
  - intros [L1 L2]. specialize (Q2 L1). apply Nat.leb_le in L2. rewrite L2 in Q2.
    destruct Q2 as (r & RF & Q). exists r. split; [now apply (R_factor_ext n d (fn a))|exact Q].
  - intros L2. specialize (Q2 ltac:(lia)). replace (d <=? d2)%nat with false in Q2 by (symmetry; apply Nat.leb_gt; lia).
    destruct Q2 as (r & RF & Q). exists r. split; [now apply (R_factor_ext n d (fn a))|exact Q].
Qed.

(** the first column of the result is short, whatever the number of stages *)
Theorem C89_first_vector_short :
  forall fp gp, exact fp -> exact gp ->
  forall W WG fuel delta junk junkG d1 d2 n d A C, (d1 <= d2)%nat -> (2 <= d)%nat -> independent n d (fn A) ->
  / 4 < delta <= 1 -> (Z.of_nat fuel < 4294967295)%Z ->
  hlll_mpz fp gp W WG fuel delta junk delta junkG d1 d2 n d A = Ok C ->
  forall v, in_lattice n d (fn A) v -> (exists i, (i < n)%nat /\ v i <> 0%Z) ->
    IZR (norm2 n (fun i => fn C i 0%nat)) <= (/ (delta - / 4)) ^ (d - 1) * IZR (norm2 n v).
Proof.
  intros fp gp X XG W WG fuel delta junk junkG d1 d2 n d A C D12 D2 I HD FU H v Hv Nv.
  destruct (C89_reduced fp gp X XG W WG fuel delta junk delta junkG d1 d2 n d A C D12 D2 I ltac:(lra) ltac:(lra) FU H) as (SL & R1 & R2 & R3).
  destruct (le_lt_dec d d1) as [L|L].
  - pose proof (short_first n d delta (fn C) ltac:(lia) HD (R1 L) v (proj1 (SL v) Hv) Nv) as S.
    assert (P : 0 < (delta - / 4) ^ (d - 1)) by (apply pow_lt; lra).
    rewrite pow_inv. apply Rmult_le_reg_l with (1 := P). rewrite <- Rmult_assoc, Rinv_r, Rmult_1_l by lra. exact S.
  - assert (SR : Seysen_LLL_reduced n d delta (fn C)) by (destruct (le_lt_dec d d2); [now apply R2|now apply R3]).
    apply (C73_first_vector_short n d delta (fn C) ltac:(lia) HD SR); [now apply SL|exact Nv].
Qed.

(** hlll<long> on 64 bit entries is the same computation *)
Theorem C89_long :
  forall (F G : Type) (fp : fpops F) (gp : fpops G) W WG fuel delta junk deltaG junkG d1 d2 n d A,
    (forall i j, (i < n)%nat -> (j < d)%nat -> int64 (fn A i j)) ->
    hlll_long fp gp W WG fuel delta junk deltaG junkG d1 d2 n d A = hlll_mpz fp gp W WG fuel delta junk deltaG junkG d1 d2 n d A.
Proof.
  intros F G fp gp W WG fuel delta junk deltaG junkG d1 d2 n d A R. unfold hlll_long, hlll_mpz, hlll_wrapper.
  assert (E : mtab n d (fun i j => get_si (fn A i j)) = mtab n d (fun i j => fn A i j)).
  { unfold mtab. apply map_ext_in. intros j Hj. apply in_seq in Hj. apply map_ext_in. intros i Hi. apply in_seq in Hi.
    apply get_si_id. apply R; lia. }
  now rewrite E.
Qed.

(** the model's bound on the loops never changes an outcome (any arithmetic) *)
Theorem C89_fuel :
  forall (F : Type) (fp : fpops F) fuel fuel' delta verbose junk L, (fuel <= fuel')%nat ->
    hlll fp fuel delta verbose junk L <> NoFuel ->
    hlll fp fuel' delta verbose junk L = hlll fp fuel delta verbose junk L.
Proof. intros F fp fuel fuel' delta vb junk L H. exact (hlll_fuel fp fuel fuel' delta vb junk L H). Qed.

(** one and two stages on the 4 x 3 matrix AW *)
Definition AW : mat Z := [[1;0;0;20];[0;1;0;7];[0;0;1;11]]%Z.
Lemma AW_independent : independent 4 3 (fn AW).
Proof.
  intros c H j Hj. pose proof (H 0%nat ltac:(lia)) as H0. pose proof (H 1%nat ltac:(lia)) as H1. pose proof (H 2%nat ltac:(lia)) as H2.
  cbv [sumZ fn mget col nth AW] in H0, H1, H2. destruct j as [|[|[|j]]]; lia.
Qed.

Example C89_case : exists fuel C C',
  exact0 Rfp0 /\ independent 4 3 (fn AW) /\ (Z.of_nat fuel < 4294967295)%Z /\
  hlll_mpz Rfp0 Rfp0 (fun _ => JR) (fun _ => JR) fuel (99 / 100) 0 (99 / 100) 0 3 5 4 3 AW = Ok C /\
  hlll_mpz Rfp0 Rfp0 (fun _ => JR) (fun _ => JR) fuel (99 / 100) 0 (99 / 100) 0 1 3 4 3 AW = Ok C' /\
  LLL_reduced 4 3 (99 / 100) (fn C) /\ Seysen_LLL_reduced 4 3 (99 / 100) (fn C').
Proof.
  set (fuel := Z.to_nat (2 * potential 4 3 (fn AW) + 4)).
  assert (FU : (Z.of_nat fuel < 4294967295)%Z).
  { unfold fuel. assert (E : (2 * potential 4 3 (fn AW) + 4 <? 4294967295)%Z = true) by (vm_compute; reflexivity). apply Z.ltb_lt in E.
    assert (E2 : (0 <? potential 4 3 (fn AW))%Z = true) by (vm_compute; reflexivity). apply Z.ltb_lt in E2. lia. }
  assert (BF : (2 * potential 4 3 (fn (mtab 4 3 (fn AW))) + Z.of_nat 3 + 1 <= Z.of_nat fuel)%Z).
  { rewrite (potential_ext 4 3 (fn (mtab 4 3 (fn AW))) (fn AW)) by apply fn_mtab. unfold fuel. lia. }
  assert (H1 : exists C, hlll_mpz Rfp0 Rfp0 (fun _ => JR) (fun _ => JR) fuel (99 / 100) 0 (99 / 100) 0 3 5 4 3 AW = Ok C).
  { rewrite mpz_stages. unfold hlll_stages. change (3 <=? 3)%nat with true. cbv iota.
    assert (I2 : independent 4 3 (fn (mtab 4 3 (fn (mtab 4 3 (fn AW)))))) by apply mtab_indep, mtab_indep, AW_independent.
    pose proof (red_ok Rfp0 Rfp0_exact fuel (99 / 100) 0 JR 4 3 _ 0 I2 ltac:(lra)) as Q.
    destruct (red _ _ _ _ _ _ _ _ _) as [C| |]; [|contradiction|]; [cbn [bind]; eexists; reflexivity|].
    specialize (Q Rfp0_half). rewrite (potential_ext 4 3 (fn (mtab 4 3 (fn (mtab 4 3 (fn AW))))) (fn (mtab 4 3 (fn AW)))) in Q by apply fn_mtab. lia. }
  assert (H2 : exists C, hlll_mpz Rfp0 Rfp0 (fun _ => JR) (fun _ => JR) fuel (99 / 100) 0 (99 / 100) 0 1 3 4 3 AW = Ok C).
  { rewrite mpz_stages. unfold hlll_stages. change (3 <=? 1)%nat with false. change (3 <=? 3)%nat with true. cbv iota.
    set (B := mtab 4 3 (fn AW)) in *.
    assert (E1 : exists C0, red Rfp0 fuel (99 / 100) 0 JR 4 1 (firstcols 4 1 B) 0 = Ok C0 /\ meq 4 1 (fn C0) (fn B)).
    { unfold red, hlll. cbn [lcfg new_lattice]. destruct fuel as [|m]; cbn [hlll_loop ckmax Nat.ltb Nat.leb andb negb bind];
        (eexists; split; [reflexivity|]; unfold getbase; cbn [lcfg li cn cd iB new_lattice];
         intros i j Hi Hj; rewrite fn_mtab by assumption; unfold new_lattice; cbn [li iB]; rewrite fn_mtab by assumption; now apply firstcols_fn). }
    destruct E1 as (C0 & -> & EC). cbn [bind].
    assert (EA : meq 4 3 (fn (append 4 1 3 C0 B)) (fn B)).
    { intros i j Hi Hj. rewrite append_fn by assumption. unfold cat. destruct (Nat.ltb_spec j 1) as [L|L]; [now apply EC|reflexivity]. }
    assert (I2 : independent 4 3 (fn (append 4 1 3 C0 B))) by (apply (independent_ext 4 3 (fn B)); [apply meq_sym, EA|apply mtab_indep, AW_independent]).
    pose proof (red_ok Rfp0 Rfp0_exact fuel (99 / 100) 0 JR 4 3 _ 1 I2 ltac:(lra)) as Q.
    destruct (red _ _ _ _ _ _ _ _ _) as [C| |]; [|contradiction|]; [cbn [bind]; eexists; reflexivity|].
    specialize (Q Rfp0_half). rewrite (potential_ext 4 3 _ _ EA) in Q. lia. }
  destruct H1 as (C & H1). destruct H2 as (C' & H2). exists fuel, C, C'.
  split; [split; [apply Rfp0_exact|exact Rfp0_half]|]. split; [apply AW_independent|]. split; [exact FU|]. split; [exact H1|]. split; [exact H2|].
  split.
  - destruct (C89_reduced Rfp0 Rfp0 Rfp0_exact Rfp0_exact (fun _ => JR) (fun _ => JR) fuel (99 / 100) 0 (99 / 100) 0 3 5 4 3 AW C
      ltac:(lia) ltac:(lia) AW_independent ltac:(lra) ltac:(lra) FU H1) as (_ & Q & _). apply Q. lia.
  - destruct (C89_reduced Rfp0 Rfp0 Rfp0_exact Rfp0_exact (fun _ => JR) (fun _ => JR) fuel (99 / 100) 0 (99 / 100) 0 1 3 4 3 AW C'
      ltac:(lia) ltac:(lia) AW_independent ltac:(lra) ltac:(lra) FU H2) as (_ & _ & Q & _). apply Q. lia.
Qed.

Print Assumptions C89_ends.
Print Assumptions C89_defined.
Print Assumptions C89_reduced.
Print Assumptions C89_first_vector_short.
Print Assumptions C89_fuel.
