(** * C78: the result of hlll is backward stable

    For every arithmetic that obeys the standard model with unit roundoff u ([standard], SpecBack.v):
    when hlll returns 0 on a new object, the matrix returned by getR is the exact R factor of
    B + E, where B is the basis returned by getbase and every column of E is tiny compared with the
    same column of B; and this exact R factor satisfies Lovasz's condition and size reduction up to
    explicit factors. *)
From Coq Require Import ZArith Lia Reals Lra Psatz List Bool Arith Eqdep_dec.
From Flocq Require Import Core.
From Verif Require Import Base Spec Mat FP Hlll Hlll2 IntSteps HlllInt Structure Object Safety SpecReal SpecBack SpecCert Fresh Cache Cache6 Cache7 BackErr BackTop PropCert Rounded Exact Counters ExactPot PropExact PropRound Examples.
Import ListNotations.
Local Open Scope R_scope.

Theorem C78_backward_stable :
  forall u (F : Type) (fp : fpops F) (val : F -> R), 0 <= u < 1 -> standard u fp val -> expo_nonneg fp ->
  forall J n d A forU method long_flag depth nS thr nb,
    (2 <= d)%nat -> staircase n d (fn A) -> structure_ok fp n d (fn A) ->
  forall fuel delta verbose junk L',
    hlll fp fuel delta verbose junk (fresh_object fp J n d A forU method long_flag depth nS thr nb) = Ok (0%Z, L') ->
    (nblov (lc L') < nb)%Z ->
    (forall j, (j < d)%nat -> val (Rentry fp L' j j) <> 0) ->
    exists E : nat -> nat -> R,
      (forall j, (j < d)%nat -> sq n (fun i => E i j) <= gam u n j ^ 2 * sq n (fun i => IZR (Bentry L' i j))) /\
      R_factor_of n d (fun i j => IZR (Bentry L' i j) + E i j) (fun i j => val (Rentry fp L' i j)).
Proof.
  intros u F fp val U0 ST EX J n d A forU m lg vd nS thr nb D2 SC SO fuel delta vb junk L' H HQ NZ.
  pose proof (ready_fresh fp J n d A forU m lg vd nS thr nb SC SO) as RD.
  assert (EC : lcfg L' = lcfg (fresh_object fp J n d A forU m lg vd nS thr nb)) by (eapply hlll_cfg; exact H).
  apply (ready_back u F fp val U0 ST EX _ fuel delta vb junk L' RD H D2); [|exact NZ].
  rewrite EC. exact HQ.
Qed.

(** the constant: 12 (j + 1)(5 n + 20) u at most *)
Theorem C78_error_size :
  forall u n j, 0 <= u -> INR (S j) * INR (5 * n + 20) * u <= / 24 -> gam u n j <= 12 * (INR (S j) * INR (5 * n + 20) * u).
Proof. exact gam_lin. Qed.

(** the inequalities satisfied by the computed R, hence by the exact R factor of B + E *)
Theorem C78_nearly_reduced :
  forall u (F : Type) (fp : fpops F) (val : F -> R), 0 <= u < 1 -> standard u fp val -> expo_nonneg fp ->
  forall J n d A forU method long_flag depth (calls : list (call (F := F))) L fuel delta verbose junk L',
    (2 <= d)%nat -> (d <= n)%nat -> precisions_ok calls -> 0 <= val delta ->
    run fp calls (new_lattice fp J n d A forU method long_flag depth) = Ok L ->
    hlll fp fuel delta verbose junk L = Ok (0%Z, L') ->
    (nblov (lc L') < cnblov_max (lcfg L'))%Z ->
    let r := fun i j => val (Rentry fp L' i j) in
    forall k, (1 <= k < d)%nat ->
      val delta * ((1 - u) ^ 2 * r (k - 1)%nat (k - 1)%nat ^ 2) <= (1 + u) ^ 2 * (r k k ^ 2 + r (k - 1)%nat k ^ 2) /\
      ((method < 1)%Z -> (exists i, (i < n)%nat /\ Bentry L' i k <> 0%Z) ->
        exists theta,
          theta ^ 2 <= val (feps fp) ^ 2 * ((1 + u) ^ (n + 7) * sq n (fun i => IZR (Bentry L' i k))) /\
          forall i, (i < k)%nat -> r i i <> 0 ->
            (1 - u) * Rabs (r i k) <= (1 + u) * Rabs (r i i) + (1 + u) ^ 2 * Rabs theta).
Proof.
  intros u F fp val U0 ST EX J n d A forU method lg depth calls L fuel delta verbose junk L' D2 ND PR HD HR H HQ r k Hk.
  destruct (C75_hlll_certifies F fp EX J n d A forU method lg depth calls L fuel delta verbose junk L' D2 ND PR HR H HQ k Hk) as [P1 P2].
  split; [now apply (lovasz_val u F fp val U0 ST)|]. intros Hm HN. specialize (P2 Hm HN). destruct P2 as (l & (LN & LZ) & P2).
  exists (val (tolerance fp (fun i => Bentry L' i k) l)). split; [|intros i Hi NZ; now apply (size_val u F fp val U0 ST _ (Rentry fp L') k)].
  destruct HN as (i0 & Hi0 & NZ).
  assert (L1 : (1 <= l)%nat). { destruct l; [|lia]. exfalso. apply NZ, LZ. lia. }
  eapply Rle_trans; [apply (tolerance_val u F fp val U0 ST); exact L1|].
  pose proof (s_eps u fp val ST). apply Rmult_le_compat_l; [nra|].
  assert (BP : forall i, 0 <= IZR (Bentry L' i k) * IZR (Bentry L' i k)) by (intros; nra).
  unfold sq. apply Rmult_le_compat.
  - apply pow_le; lra.
  - clear -BP. induction l as [|l IH]; cbn [sumR]; [lra|]. pose proof (BP l). lra.
  - apply Rle_pow; [lra|lia].
  - clear -LN BP. induction n as [|n IH]; [replace l with 0%nat by lia; apply Rle_refl|].
    destruct (Nat.eq_dec l (S n)) as [->|NE]; [apply Rle_refl|]. cbn [sumR]. pose proof (BP n). specialize (IH ltac:(lia)). lra.
Qed.

(** ** Arithmetics that obey the standard model *)

Lemma rnd1_refl u x : 0 <= u -> rnd1 u x x.
Proof. intros U. exists 0. rewrite Rabs_R0. split; [exact U|ring]. Qed.

(** exact arithmetic, for every u *)
Lemma exact_standard u fp : 0 <= u -> exact fp -> standard u fp (fun x => x).
Proof.
  intros U X. split; try apply X; intros.
  - rewrite (e_add fp X). now apply rnd1_refl.
  - rewrite (e_mul fp X). now apply rnd1_refl.
  - rewrite (e_div fp X). now apply rnd1_refl.
  - rewrite (e_sqrt fp X). now apply rnd1_refl.
  - rewrite (e_addmul fp X). exists (a * b). split; now apply rnd1_refl.
  - rewrite (e_submul fp X). exists (a * b). split; now apply rnd1_refl.
  - rewrite (e_setz fp X). now apply rnd1_refl.
  - now apply (r_rnd 0 fp (exact_rounded fp X)).
Qed.

(** p-bit numbers (MPFR), round to nearest even, no bound on the exponent *)
Section Fmt.
Variable p : Z.
Hypothesis Hp : (1 < p)%Z.
Notation rd := (round radix2 (FLX_exp p) ZnearestE).
Notation fmt := (generic_format radix2 (FLX_exp p)).

Definition pnum : Type := { x : R | fmt x }.
Definition pval (a : pnum) : R := proj1_sig a.

Instance pp : Prec_gt_0 p. Proof. unfold Prec_gt_0. lia. Qed.
Lemma rd_fmt x : fmt (rd x).
Proof. apply generic_format_round; auto using FLX_exp_valid, valid_rnd_N with typeclass_instances. Qed.
Definition prd (x : R) : pnum := exist _ (rd x) (rd_fmt x).

Lemma p_eq (a b : pnum) : pval a = pval b -> a = b.
Proof.
  destruct a as [x hx], b as [y hy]. cbn [pval proj1_sig]. intros E. subst y. f_equal.
  unfold generic_format in *. apply UIP_dec. intros s t. destruct (Req_EM_T s t); [left|right]; assumption.
Qed.

Lemma rd_id (a : pnum) : rd (pval a) = pval a.
Proof. destruct a as [x hx]. cbn [pval proj1_sig]. apply round_generic; auto with typeclass_instances. Qed.

Lemma opp_fmt (a : pnum) : fmt (- pval a). Proof. destruct a. now apply generic_format_opp. Qed.
Lemma abs_fmt (a : pnum) : fmt (Rabs (pval a)). Proof. destruct a. now apply generic_format_abs. Qed.

Definition pfp : fpops pnum := mk_fpops pnum (prd 0) (prd 1) (prd (/ 10)) (prd (/ 100)) (prd (/ 100000000000))
  (fun a b => prd (pval a + pval b)) (fun a b => prd (pval a - pval b)) (fun a b => prd (pval a * pval b)) (fun a b => prd (pval a / pval b))
  (fun a => exist _ (- pval a) (opp_fmt a)) (fun a => exist _ (Rabs (pval a)) (abs_fmt a)) (fun a => prd (sqrt (pval a)))
  (fun a => prd (IZR (ZnearestE (pval a))))
  (fun r a b => prd (pval r + pval a * pval b)) (fun r a b => prd (pval r - pval a * pval b))
  (fun a b => Rleb (pval a) (pval b)) (fun a b => Rltb (pval a) (pval b)) (fun a b => Rltb (pval b) (pval a))
  (fun a => negb (Rleb (pval a) 0 && Rleb 0 (pval a))) (fun z => prd (IZR z))
  (fun a => (ZnearestE (pval a), 0%Z)) (fun a => ZnearestE (pval a)).

Lemma rd_rnd1 x : rnd1 (unit p) x (rd x).
Proof.
  pose proof (rd_err p Hp x) as E. destruct (Req_dec x 0) as [->|N].
  - exists 0. rewrite round_0 by auto with typeclass_instances. rewrite Rabs_R0. split; [left; apply unit_pos|ring].
  - exists ((rd x - x) / x). split; [|field; assumption]. unfold Rdiv. rewrite Rabs_mult, Rabs_inv.
    apply Rmult_le_reg_r with (Rabs x); [now apply Rabs_pos_lt|]. rewrite Rmult_assoc, Rinv_l by (now apply Rabs_no_R0). lra.
Qed.

Lemma pfp_standard : standard (unit p) pfp pval.
Proof.
  pose proof (unit_pos p) as UP.
  split; cbn [pfp fzero fone feps fadd fmul fdiv fsqrt fneg fabs faddmul fsubmul fset_z fle fcmp1 frnd fnz pval prd proj1_sig]; intros; auto using rd_rnd1.
  - apply round_0; auto with typeclass_instances.
  - apply round_generic; auto with typeclass_instances. apply generic_format_FLX.
    exists (Float radix2 1 0); [unfold F2R; cbn; lra|]. cbn [Fnum]. apply (Z.pow_gt_1 2 p); lia.
  - apply (rd_pos p Hp). lra.
  - exists (pval a * pval b). split; [apply rnd1_refl; lra|apply rd_rnd1].
  - exists (pval a * pval b). split; [apply rnd1_refl; lra|apply rd_rnd1].
  - apply Rleb_iff.
  - apply Rltb_iff.
  - apply (r_rnd (unit p) (flx p) (flx_rounded p Hp)). exact H.
Qed.

Lemma pfp_expo : expo_nonneg pfp. Proof. intros a. cbn. lia. Qed.

Lemma pfp_zero_laws : zero_laws pfp.
Proof.
  assert (Z0 : rd 0 = 0) by (apply round_0; auto with typeclass_instances).
  split; [reflexivity|]. split; intros; apply p_eq; cbn [pfp fzero faddmul fsubmul pval prd proj1_sig]; rewrite ?Z0.
  - rewrite Rmult_0_l, Rplus_0_r. apply rd_id.
  - rewrite Rmult_0_l, Rminus_0_r. exact Z0.
Qed.
End Fmt.

(** MPFR with 53 bits: every matrix with a staircase structure is covered *)
Lemma p53 : (1 < 53)%Z. Proof. lia. Qed.

Example C78_case : standard (unit 53) (pfp 53 p53) (pval 53) /\ expo_nonneg (pfp 53 p53) /\ 0 <= unit 53 < 1 /\
  forall n d A, structure_ok (pfp 53 p53) n d A.
Proof.
  split; [apply pfp_standard|]. split; [apply pfp_expo|]. split.
  - pose proof (unit_pos 53). pose proof (unit_half 53 ltac:(lia)). lra.
  - intros n d A. right. apply pfp_zero_laws.
Qed.

(** 100 x 100 matrices with 53 bits: the relative perturbation of a column is below 10^-10 *)
Example C78_small : forall j, (j < 100)%nat -> gam (unit 53) 100 j <= / 10 ^ 10.
Proof.
  intros j Hj. assert (U : unit 53 = / 2 ^ 53).
  { unfold unit. change (- (53) + 1)%Z with (- (52))%Z. rewrite bpow_opp. rewrite <- Rinv_mult. f_equal.
    change 2 with (bpow radix2 1) at 1. rewrite <- bpow_plus. rewrite <- (IZR_Zpower radix2) by lia.
    change (1 + 52)%Z with (Z.of_nat 53). change (IZR (2 ^ Z.of_nat 53) = 2 ^ 53). rewrite <- (pow_IZR 2 53). reflexivity. }
  assert (I : INR (S j) <= 100) by (replace 100 with (INR 100) by (rewrite INR_IZR_INZ; reflexivity); apply le_INR; lia).
  assert (P : 0 < unit 53) by apply unit_pos.
  assert (N : INR (5 * 100 + 20) = 520) by (rewrite INR_IZR_INZ; reflexivity).
  assert (B : INR (S j) * INR (5 * 100 + 20) * unit 53 <= 52000 * unit 53) by (rewrite N; nra).
  assert (V : unit 53 <= / 10 ^ 15). { rewrite U. apply Rinv_le; [apply pow_lt; lra|]. lra. }
  eapply Rle_trans; [apply C78_error_size|]; [lra| |]; lra.
Qed.

(** a run that meets the hypotheses *)
Example C78_run : exists fuel nb L',
  standard (unit 53) Rfp0 (fun x => x) /\ expo_nonneg Rfp0 /\ staircase 4 3 (fn A1) /\ structure_ok Rfp0 4 3 (fn A1) /\
  hlll Rfp0 fuel (99 / 100) false 0 (fresh_object Rfp0 JR 4 3 A1 true 0 false 0 1 1000000 nb) = Ok (0%Z, L') /\
  (nblov (lc L') < nb)%Z /\ forall j, (j < 3)%nat -> Rentry Rfp0 L' j j <> 0.
Proof.
  set (fuel := Z.to_nat (2 * potential 4 3 (fn A1) + 4)). set (nb := (Z.of_nat fuel + 1)%Z).
  exists fuel, nb.
  destruct (C43_exact_terminates Rfp0 Rfp0_exact Rfp0_half JR 4 3 A1 true 0%Z false 0%Z 1000000%Z nb A1_independent ltac:(lia)
             fuel (99 / 100) false 0 ltac:(lra) ltac:(unfold fuel; lia)) as (L & H & _).
  exists L. split; [apply exact_standard; [left; apply unit_pos|apply Rfp0_exact]|]. split; [apply Rfp0_exact|].
  split; [apply independent_staircase, A1_independent|]. split; [right; apply exact_zero_laws, Rfp0_exact|]. split; [exact H|].
  assert (HQ : (nblov (lc L) < nb)%Z).
  { pose proof (hlll_tests Rfp0 fuel (99 / 100) false 0 (fresh_object Rfp0 JR 4 3 A1 true 0 false 0 1 1000000 nb) _ _ H) as T.
    cbn [fresh_object set_nblov_max set_num_S new_lattice lc nblov] in T. unfold nb. lia. }
  split; [exact HQ|]. intros j Hj.
  destruct (C04_exact_hlll_reduces Rfp0 Rfp0_exact JR 4 3 A1 true 0%Z false 0%Z 1000000%Z nb ltac:(lia) A1_independent ltac:(lia)
    fuel (99 / 100) false 0 L H HQ) as (_ & _ & RF).
  destruct (RF (fun _ _ => 0)) as ((_ & RF1 & _) & _). exact (RF1 j Hj).
Qed.

Print Assumptions C78_backward_stable.
Print Assumptions C78_error_size.
Print Assumptions C78_nearly_reduced.
