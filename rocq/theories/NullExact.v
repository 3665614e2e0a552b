(** * nullspace_lll with a unique shift, exact arithmetic: how the run goes and what the columns of C are *)
From Coq Require Import ZArith Lia List Bool Arith Reals Lra Psatz.
From Verif Require Import Base Spec Mat FP Hlll Hlll2 LinDep Structure Object Counters MatOps MatOpsFacts Trunc10 Lehmer KernelLA Nullspace SpecReal ShortVec ShortMinima
  Cache7 Exact ExactPot ExactTop WrapExact PropExact.
Import ListNotations.
Local Open Scope R_scope.

Lemma filter_prefix (p : nat -> bool) n k : (k <= n)%nat -> (forall j, (j < k)%nat -> p j = true) ->
  filter p (seq 0 n) = seq 0 k ++ filter p (seq k (n - k)).
Proof.
  intros Hk H. replace n with (k + (n - k))%nat at 1 by lia. rewrite seq_app, filter_app. f_equal.
  induction k as [|k IH]; [reflexivity|]. rewrite seq_S, filter_app, IH by (try lia; intros; apply H; lia). cbn. now rewrite H by lia.
Qed.

Lemma R_factor_part d n k (B C : zmat) r : (k <= n)%nat -> R_factor (d + n) n B r ->
  (forall i j, (i < d)%nat -> (j < k)%nat -> B i j = 0%Z) -> (forall i j, (i < n)%nat -> (j < k)%nat -> C i j = B (d + i)%nat j) ->
  R_factor n k C r.
Proof.
  intros Hk (U & D & G) Hz HC. split; [intros; apply U; lia|]. split; [intros; apply D; lia|]. intros j l Hj Hl.
  rewrite <- (sumR_cut n k) by (try lia; intros i Hi; rewrite (U i j) by lia; ring). rewrite G by lia.
  f_equal. rewrite sumZ_split, (sumZ_0 d) by (intros i Hi; rewrite Hz by assumption; ring). rewrite Z.add_0_l.
  apply sumZ_ext. intros i Hi. now rewrite !HC by assumption.
Qed.

Lemma LLL_reduced_part d n k delta (B C : zmat) : (k <= n)%nat -> LLL_reduced (d + n) n delta B ->
  (forall i j, (i < d)%nat -> (j < k)%nat -> B i j = 0%Z) -> (forall i j, (i < n)%nat -> (j < k)%nat -> C i j = B (d + i)%nat j) ->
  LLL_reduced n k delta C.
Proof.
  intros Hk (r & RF & SR & LO) Hz HC. exists r. split; [now apply (R_factor_part d n k B)|]. split; intros i; intros; [apply SR|apply LO]; lia.
Qed.

Lemma norm2_nonneg n v : (0 <= norm2 n v)%Z.
Proof. unfold norm2. induction n as [|n IH]; cbn [sumZ]; nia. Qed.

Lemma norm2_entry n v i : (i < n)%nat -> (v i * v i <= norm2 n v)%Z.
Proof.
  unfold norm2. induction n as [|n IH]; intros Hi; [lia|]. cbn [sumZ]. pose proof (norm2_nonneg n v) as P. unfold norm2 in P.
  destruct (Nat.eq_dec i n) as [->|]; [nia|]. specialize (IH ltac:(lia)). nia.
Qed.

Section NE.
Variable fp : fpops R.
Hypothesis X : exact fp.
Variable J : junk_t (F := R).
Variables junk delta1 delta2 : R.
Variable e10 : Z -> Z.
Variable e10' : Z -> Z -> Z.
Variable ext : dmat -> res dmat.

(** the run: one call of hlll on [2^lalpha A; I] *)
Lemma null_run fuel fh A lalpha r oC : dwf A -> (0 < dc A)%nat -> (0 <= lalpha)%Z -> delta1 <= 1 ->
  nullspace_lll fp J junk delta1 delta2 e10 e10' ext fuel fh A lalpha 0 HLLL = Ok (r, oC) ->
  exists B L B2 V null, initial A lalpha = Ok B /\
    hlll fp fh delta1 true junk (fresh_object fp J (dr A + dc A) (dc A) (de B) false 0 true 0 1 1000000 4294967295) = Ok (0%Z, L) /\
    ns_inv A lalpha B2 V /\ (forall i j, (i < dr A + dc A)%nat -> (j < dc A)%nat -> ent B2 i j = fn (getbase L) i j) /\
    length null = dc A /\ (forall j, (j < dc A)%nat -> (nth j null false = true <-> forall i, (i < dr A)%nat -> ent B2 i j = 0%Z)) /\
    ((Z.of_nat (count_true null) < Z.of_nat (dc A) - Z.of_nat (dr A))%Z /\ r = (-1)%Z /\ oC = None \/
     (Z.of_nat (dc A) - Z.of_nat (dr A) <= Z.of_nat (count_true null))%Z /\ r = Z.of_nat (count_true null) /\
     exists C, extract (fun i j => gget B2 (i + dr A)%nat j) (dc A) null (dc A) (resize0 (dc A) (count_true null)) = Ok C /\ oC = Some C).
Proof.
  intros WA Hn Hl HD H. unfold nullspace_lll in H. cbv zeta in H. cbn [Z.eqb] in H.
  apply bind_Ok in H as (B & HB & H). exists B. pose proof (ns_inv_init A lalpha B Hl HB) as HI. pose proof HI as (W & D1 & D2 & _).
  pose proof (initial_independent A lalpha B Hl HB) as ID.
  apply bind_Ok in H as ([B' null] & HL & H).
  apply bind_Ok in HL as (B1 & HB1 & HL). apply bind_Ok in HB1 as ([r0 L] & HH & HB1). cbv zeta in HH.
  pose proof HH as HH0. rewrite new_fresh in HH.
  pose proof (C42_exact_never_gives_up fp X J (dr A + dc A) (dc A) (de B) false 0 true 0 1000000 4294967295 ID ltac:(lia) fh delta1 true junk HD) as Q.
  rewrite HH in Q. subst r0.
  assert (PR : precisions_ok (F := R) [CallHlll fh delta1 true junk]).
  { intros fp' fu de ju J1 J2 [I|[]]. discriminate. }
  destruct (run_pres fp (e_expo fp X) (dr A + dc A) (dc A) false 0 [CallHlll fh delta1 true junk] PR (fn (de B))
     (new_lattice fp J (dr A + dc A) (dc A) (de B) false 0 true 0) L) as [D (Hb & V & UV & EV)].
  { cbn [run mfold exec]. rewrite HH0. reflexivity. }
  { apply new_dims. } { apply new_pres. }
  pose proof (getbase_fn _ _ _ _ _ D) as GB. destruct D as (C1 & C2 & _).
  destruct (transpose_to_ok (resize0 (dc A) (dr A + dc A)) (dbase L) (resize0_wf _ _)) as (T & ET & WT & T1 & T2 & VT & _);
    [cbn; lia|cbn; lia|]. rewrite ET in HB1. cbn [bind] in HB1. cbn [dr dc resize0] in T1, T2.
  destruct (transpose_to_ok B T W ltac:(lia) ltac:(lia)) as (B2 & E2 & W2 & B21 & B22 & VB & _).
  rewrite E2 in HB1. injection HB1 as <-.
  assert (VB2 : forall i j, (i < dr A + dc A)%nat -> (j < dc A)%nat -> ent B2 i j = fn (getbase L) i j).
  { intros i j Hi Hj. rewrite VB by lia. rewrite VT by (unfold dbase; cbn [dr dc]; lia). reflexivity. }
  assert (NI : ns_inv A lalpha B2 (mmul (dc A) mid V)).
  { apply (ns_inv_mul A lalpha B mid B2 V); auto. rewrite D1, D2. intros i j Hi Hj. cbn [current] in EV.
    change (ent B2 i j = mmul (dc A) (fn (de B)) V i j). rewrite <- (EV i j Hi Hj). rewrite <- (GB i j Hi Hj). now apply VB2. }
  pose proof NI as (_ & M1 & M2 & _).
  destruct (null_flags_ok (gget B2) (dr A) (dc A) (ent B2)) as (l & El & Ll & Pl); [intros; apply gget_ok; lia|].
  rewrite El in HL. cbn [bind] in HL. injection HL as <- <-.
  exists L, B2, (mmul (dc A) mid V), l. do 6 (split; [assumption|]).
  cbn [andb Z.eqb] in H. destruct (Z.ltb_spec (Z.of_nat (count_true l)) (Z.of_nat (dc A) - Z.of_nat (dr A))) as [G|G].
  - injection H as <- <-. left. auto.
  - right. apply bind_Ok in H as (C & EC & H). injection H as <- <-. split; [exact G|]. split; [reflexivity|]. exists C. split; [exact EC|reflexivity].
Qed.

Section Short.
Variables (fuel fh : nat) (A : dmat) (lalpha r : Z) (oC : option dmat).
Hypothesis WA : dwf A.
Hypothesis Hn : (2 <= dc A)%nat.
Hypothesis Hl : (0 <= lalpha)%Z.
Hypothesis HD : / 4 < delta1 <= 1.
Hypothesis HF : (Z.of_nat fh < 4294967295)%Z.
Hypothesis HR : nullspace_lll fp J junk delta1 delta2 e10 e10' ext fuel fh A lalpha 0 HLLL = Ok (r, oC).
Variables (k : nat) (Xs : zmat) (M : R).
Hypothesis IX : independent (dc A) k Xs.
Hypothesis KX : forall i t, (i < dr A)%nat -> (t < k)%nat -> mmul (dc A) (ent A) Xs i t = 0%Z.
Hypothesis MX : forall t, (t < k)%nat -> IZR (norm2 (dc A) (fun i => Xs i t)) <= M.
Hypothesis Hk : (dc A <= k + dr A)%nat.
Hypothesis HM : M < (delta1 - / 4) ^ (dc A - 1) * IZR (4 ^ lalpha).

Lemma null_short : exists p C, r = Z.of_nat p /\ oC = Some C /\ dr C = dc A /\ dc C = p /\ (k <= p <= dc A)%nat /\
  (forall j, (j < k)%nat -> (delta1 - / 4) ^ (dc A - 1) * IZR (norm2 (dc A) (fun i => ent C i j)) <= M) /\
  LLL_reduced (dc A) k delta1 (ent C).
Proof.
  destruct (null_run fuel fh A lalpha r oC WA ltac:(lia) Hl (proj2 HD) HR) as (B & L & B2 & V & null & HB & HH & NI & VB & Ln & PN & ALT).
  pose proof (initial_independent A lalpha B Hl HB) as ID.
  pose proof (hlll_tests fp fh delta1 true junk _ _ _ HH) as T. cbn [fresh_object set_nblov_max set_num_S new_lattice lc nblov] in T.
  destruct (C04_exact_hlll_reduces fp X J (dr A + dc A) (dc A) (de B) false 0 true 0 1000000 4294967295 Hn ID ltac:(lia) fh delta1 true junk L HH ltac:(lia)) as (SL & LR & _).
  destruct (initial_ok A lalpha Hl) as (B' & HB' & WB & E1 & E2 & V1 & V2). rewrite HB in HB'. injection HB' as <-.
  set (n := dc A) in *. set (d := dr A) in *.
  (* the kernel vectors, with zeros on top, are in the lattice *)
  set (XX := fun i t => if (i <? d)%nat then 0%Z else Xs (i - d)%nat t).
  assert (IXX : independent (d + n) k XX).
  { intros c Hc. apply IX. intros i Hi. specialize (Hc (d + i)%nat ltac:(lia)). unfold XX in Hc.
    replace (d + i <? d)%nat with false in Hc by (symmetry; apply Nat.ltb_ge; lia). now replace (d + i - d)%nat with i in Hc by lia. }
  assert (LX : forall t, (t < k)%nat -> in_lattice (d + n) n (fn (getbase L)) (fun i => XX i t)).
  { intros t Ht. apply SL. exists (fun l => Xs l t). intros i Hi. unfold XX. destruct (Nat.ltb_spec i d) as [Li|Li].
    - rewrite (sumZ_ext n _ (fun l => (2 ^ lalpha * (ent A i l * Xs l t))%Z)).
      + rewrite sumZ_mul_l. specialize (KX i t Li Ht). unfold mmul in KX. rewrite KX. ring.
      + intros l Hl0. change (fn (de B) i l) with (ent B i l). rewrite V1 by assumption. ring.
    - rewrite (sumZ_ext n _ (fun l => (mid (i - d)%nat l * Xs l t)%Z)).
      + rewrite sumZ_mid_l by lia. reflexivity.
      + intros l Hl0. change (fn (de B) i l) with (ent B i l). replace (ent B i l) with (ent B (d + (i - d))%nat l) by (f_equal; lia).
        rewrite V2 by lia. reflexivity. }
  assert (NX : forall t, (t < k)%nat -> IZR (norm2 (d + n) (fun i => XX i t)) <= M).
  { intros t Ht. replace (norm2 (d + n) (fun i => XX i t)) with (norm2 n (fun i => Xs i t)); [now apply MX|].
    unfold norm2. rewrite sumZ_split, (sumZ_0 d).
    - rewrite Z.add_0_l. apply sumZ_ext. intros i Hi. unfold XX. replace (d + i <? d)%nat with false by (symmetry; apply Nat.ltb_ge; lia). now replace (d + i - d)%nat with i by lia.
    - intros i Hi. unfold XX. replace (i <? d)%nat with true by (symmetry; apply Nat.ltb_lt; lia). reflexivity. }
  destruct (short_minima (d + n) n delta1 _ HD LR k XX M IXX LX NX) as (Kn & SM).
  (* the k first columns are zero on top *)
  pose proof NI as (W2 & F1 & F2 & UV & V1' & V2'). fold n d in F1, F2, V1', V2'.
  assert (Q0 : 0 < (delta1 - / 4) ^ (n - 1)) by (apply pow_lt; lra).
  assert (N2 : forall j, (j < n)%nat -> norm2 (d + n) (fun i => fn (getbase L) i j) = norm2 (d + n) (fun i => ent B2 i j)).
  { intros j Hj. unfold norm2. apply sumZ_ext. intros i Hi. now rewrite VB. }
  assert (TOP : forall i j, (i < d)%nat -> (j < k)%nat -> ent B2 i j = 0%Z).
  { intros i j Hi Hj. destruct (Z.eq_dec (ent B2 i j) 0) as [|NZ]; [assumption|exfalso].
    specialize (SM j Hj). rewrite N2 in SM by lia.
    assert (G : (4 ^ lalpha <= norm2 (d + n) (fun i => ent B2 i j))%Z).
    { apply Z.le_trans with (2 := norm2_entry (d + n) (fun i => ent B2 i j) i ltac:(lia)). rewrite V1' in * by lia.
      set (y := mmul n (ent A) V i j) in *. change 4%Z with (2 * 2)%Z. rewrite Z.pow_mul_l.
      assert (0 < 2 ^ lalpha)%Z by (apply Z.pow_pos_nonneg; lia). assert (y <> 0)%Z by nia.
      set (a := (2 ^ lalpha)%Z) in *. assert (1 <= y * y)%Z by nia. assert (0 < a * a)%Z by nia. nia. }
    apply IZR_le in G. apply (Rmult_le_compat_l _ _ _ (Rlt_le _ _ Q0)) in G. lra. }
  set (p := fun j => nth j null false) in *.
  assert (PT : forall j, (j < k)%nat -> p j = true).
  { intros j Hj. apply PN; [lia|]. intros i Hi. now apply TOP. }
  assert (CT : count_true null = length (filter p (seq 0 n))) by (rewrite count_true_filter, Ln; reflexivity).
  pose proof (filter_prefix p n k Kn PT) as FP.
  assert (GE : (k <= count_true null <= n)%nat).
  { split; [rewrite CT, FP, app_length, seq_length; lia|]. rewrite CT. clear. pose proof (filter_parts_length p (seq 0 n)) as Q. rewrite seq_length in Q. lia. }
  destruct ALT as [(G & _)|(_ & -> & C & EC & ->)]; [exfalso; lia|].
  destruct (extract_ok (fun i j => gget B2 (i + d)%nat j) n null n (resize0 n (count_true null)) (fun i j => ent B2 (i + d)%nat j) (resize0_wf _ _))
    as (C' & E & WC & C1 & C2 & VC); cbn [dr dc resize0]; try lia.
  { fold p. rewrite <- CT. apply le_n. }
  { intros i j Hi Hj. apply gget_ok; lia. }
  rewrite EC in E. injection E as <-. cbn [dr dc resize0] in C1, C2. fold p in VC.
  assert (VC' : forall i j, (i < n)%nat -> (j < k)%nat -> ent C i j = fn (getbase L) (d + i)%nat j).
  { intros i j Hi Hj. rewrite VC by (try rewrite <- CT; lia). rewrite FP, app_nth1 by (rewrite seq_length; lia).
    rewrite seq_nth by lia. cbn [plus]. rewrite VB by lia. f_equal. lia. }
  exists (count_true null), C. split; [reflexivity|]. split; [reflexivity|]. do 2 (split; [assumption|]). split; [exact GE|]. split.
  - intros j Hj. specialize (SM j Hj). replace (norm2 n (fun i => ent C i j)) with (norm2 (d + n) (fun i => fn (getbase L) i j)); [exact SM|].
    unfold norm2. rewrite sumZ_split, (sumZ_0 d).
    + rewrite Z.add_0_l. apply sumZ_ext. intros i Hi. now rewrite VC'.
    + intros i Hi. rewrite <- VB by lia. rewrite TOP by assumption. reflexivity.
  - apply (LLL_reduced_part d n k delta1 (fn (getbase L))); auto. intros i j Hi Hj. rewrite <- VB by lia. now apply TOP.
Qed.
End Short.

Lemma null_after fuel fh A lalpha B L : dwf A -> (0 < dc A)%nat -> initial A lalpha = Ok B -> dwf B -> dr B = (dr A + dc A)%nat -> dc B = dc A ->
  hlll fp fh delta1 true junk (fresh_object fp J (dr A + dc A) (dc A) (de B) false 0 true 0 1 1000000 4294967295) = Ok (0%Z, L) ->
  exists r oC, nullspace_lll fp J junk delta1 delta2 e10 e10' ext fuel fh A lalpha 0 HLLL = Ok (r, oC).
Proof.
  intros WA Hn HB W D1 D2 HL.
  unfold nullspace_lll. cbv zeta. cbn [Z.eqb]. rewrite HB. cbn [bind]. rewrite new_fresh, HL. cbn [bind].
  assert (CB : cn (lcfg L) = (dr A + dc A)%nat /\ cd (lcfg L) = dc A).
  { apply (hlll_inv fp) in HL as (EC & _); [|apply (e_expo fp X)|apply mtab_wfm]. rewrite EC. split; reflexivity. }
  destruct CB as (C1 & C2).
  destruct (transpose_to_ok (resize0 (dc A) (dr A + dc A)) (dbase L) (resize0_wf _ _)) as (T & ET & WT & T1 & T2 & VT & _);
    [cbn; lia|cbn; lia|]. rewrite ET. cbn [bind]. cbn [dr dc resize0] in T1, T2.
  destruct (transpose_to_ok B T W ltac:(lia) ltac:(lia)) as (B2 & E2 & W2 & B21 & B22 & VB & _).
  rewrite E2. cbn [bind].
  destruct (null_flags_ok (gget B2) (dr A) (dc A) (ent B2)) as (l & El & Ll & Pl); [intros; apply gget_ok; lia|].
  rewrite El. cbn [bind]. destruct (_ && _)%bool; [do 2 eexists; reflexivity|].
  destruct (extract_ok (fun i j => gget B2 (i + dr A)%nat j) (dc A) l (dc A) (resize0 (dc A) (count_true l)) (fun i j => ent B2 (i + dr A)%nat j) (resize0_wf _ _))
    as (C & E & _); cbn [dr dc resize0]; try lia.
  { rewrite count_true_filter, Ll. apply le_n. }
  { intros i j Hi Hj. apply gget_ok; lia. }
  rewrite E. cbn [bind]. do 2 eexists. reflexivity.
Qed.

Lemma null_ends fuel A lalpha : dwf A -> (0 < dc A)%nat -> (0 <= lalpha)%Z -> delta1 <= 1 -> (forall x, Rabs x <= / 2 -> frnd fp x = 0) ->
  exists fuel0, forall fh, (fuel0 <= fh)%nat -> exists r oC,
    nullspace_lll fp J junk delta1 delta2 e10 e10' ext fuel fh A lalpha 0 HLLL = Ok (r, oC).
Proof.
  intros WA Hn Hl HD HH. destruct (initial_ok A lalpha Hl) as (B & HB & W & D1 & D2 & V1 & V2).
  pose proof (initial_independent A lalpha B Hl HB) as ID.
  exists (Z.to_nat (2 * potential (dr A + dc A) (dc A) (fn (de B)) + Z.of_nat (dc A) + 1)). intros fh Hfh.
  destruct (C43_exact_terminates fp X HH J (dr A + dc A) (dc A) (de B) false 0 true 0 1000000 4294967295 ID ltac:(lia) fh delta1 true junk HD ltac:(lia))
    as (L & HL & _).
  now apply (null_after fuel fh A lalpha B L).
Qed.

Lemma null_ends_length fuel fh A lalpha M K : dwf A -> (0 < dc A)%nat -> (0 <= lalpha)%Z -> 0 < delta1 <= 1 -> (forall x, Rabs x <= / 2 -> frnd fp x = 0) ->
  (forall j, (j < dc A)%nat -> IZR (4 ^ lalpha * norm2 (dr A) (fun i => ent A i j) + 1) <= M) ->
  delta1 ^ K * M ^ (dc A * (dc A + 1) / 2) < 1 -> (2 * K + dc A + 1 <= fh)%nat ->
  exists r oC, nullspace_lll fp J junk delta1 delta2 e10 e10' ext fuel fh A lalpha 0 HLLL = Ok (r, oC).
Proof.
  intros WA Hn Hl HD HH HM HK HF. destruct (initial_ok A lalpha Hl) as (B & HB & W & D1 & D2 & V1 & V2).
  pose proof (initial_independent A lalpha B Hl HB) as ID.
  destruct (C43_exact_terminates_length fp X HH J (dr A + dc A) (dc A) (de B) false 0 true 0 1000000 4294967295 ID ltac:(lia) fh delta1 true junk M K HD)
    as (L & HL & _); [|exact HK|exact HF|now apply (null_after fuel fh A lalpha B L)].
  intros j Hj. apply Rle_trans with (2 := HM j Hj). apply IZR_le. apply Z.eq_le_incl.
  change (norm2 (dr A + dc A) (fun i => ent B i j) = 4 ^ lalpha * norm2 (dr A) (fun i => ent A i j) + 1)%Z.
  unfold norm2. rewrite sumZ_split. f_equal.
  - rewrite <- sumZ_mul_l. apply sumZ_ext. intros i Hi. rewrite V1 by assumption. change 4%Z with (2 * 2)%Z. rewrite Z.pow_mul_l. ring.
  - rewrite (sumZ_single (dc A) j).
    + rewrite V2, mid_eq by assumption. reflexivity.
    + exact Hj.
    + intros i Hi Ni. rewrite V2 by assumption. unfold mid. replace (i =? j)%nat with false by (symmetry; now apply Nat.eqb_neq). reflexivity.
Qed.
End NE.
