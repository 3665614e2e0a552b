(** * C90: integer relations of real numbers, FPTuple::relation and FPTuple::lll, from the real numbers to the vector returned

    The numbers x_0, ..., x_(d-1) are mpfr numbers ([mp_val], FPTuple.v) that fit in the default precision p ([fits]); L is
    the row of integers the program reduces ([tuple_row]). *)
From Coq Require Import ZArith Lia List Bool Arith Floats Reals Lra Psatz.
From Verif Require Import Base Spec Mat FP Hlll Hlll2 LinDep Structure Object Counters MatOps MatOpsFacts Trunc10 Lehmer Nullspace Relation SpecReal ShortVec
  Cache7 Exact ExactPot ExactTop FPTuple WrapExact Double DoubleAgree Examples PropExact PropKernel.
Import ListNotations.
Local Open Scope R_scope.

(** every entry of the row is 2^alpha x_j rounded to a nearest integer *)
Theorem C90_row :
  forall p xs alpha, fits p xs -> dc (tuple_row p (tuple_fpv p xs) alpha) = length xs /\
    forall j, (j < length xs)%nat -> Rabs (IZR (ent (tuple_row p (tuple_fpv p xs) alpha) 0%nat j) - powerRZ 2 alpha * xnth xs j) <= / 2.
Proof. intros p xs alpha H. rewrite fpv_id by assumption. split; [apply row_dims|]. intros j Hj. now apply row_err. Qed.

(** an integer relation of the x_j is almost one of the integers L_j *)
Theorem C90_true_relation :
  forall p xs alpha (m : nat -> Z), fits p xs -> sumR (length xs) (fun j => xnth xs j * IZR (m j)) = 0 ->
  Rabs (IZR (sumZ (length xs) (fun j => ent (tuple_row p (tuple_fpv p xs) alpha) 0%nat j * m j)%Z)) <= / 2 * IZR (sumZ (length xs) (fun j => Z.abs (m j))).
Proof.
  intros p xs alpha m H E. rewrite fpv_id by assumption. pose proof (comb_err p xs alpha m H) as Q. cbv zeta in Q.
  now rewrite E, Rmult_0_r, Rminus_0_r in Q.
Qed.

Lemma value_bound p xs alpha (C : nat -> Z) : fits p xs ->
  Rabs (sumR (length xs) (fun j => xnth xs j * IZR (C j))) <=
    powerRZ 2 (- alpha) * (IZR (Z.abs (sumZ (length xs) (fun j => ent (tuple_row p (tuple_fpv p xs) alpha) 0%nat j * C j)%Z)) + / 2 * IZR (sumZ (length xs) (fun j => Z.abs (C j)))).
Proof.
  intros H. rewrite fpv_id by assumption. pose proof (comb_err p xs alpha C H) as Q. cbv zeta in Q. rewrite abs_IZR.
  rewrite powerRZ_neg'. set (a := powerRZ 2 alpha) in *. assert (P : 0 < a) by (apply powerRZ_lt; lra).
  set (S1 := IZR (sumZ _ _)) in *. set (S2 := sumR _ _) in *. set (S3 := / 2 * IZR _) in *.
  apply Rmult_le_reg_l with a; [exact P|]. rewrite <- Rmult_assoc, Rinv_r, Rmult_1_l by lra.
  rewrite <- (Rabs_pos_eq a) at 1 by lra. rewrite <- Rabs_mult.
  replace (a * S2) with (S1 - (S1 - a * S2)) by ring. eapply Rle_trans; [apply Rabs_triang|]. rewrite Rabs_Ropp. lra.
Qed.

(** what lll returns: a primitive vector C (never zero), and the size of the combination of the x_j it gives.
    [candidate]: C is a column of a unimodular matrix that minimises |L.C| over its columns *)
Theorem C90_lll_value :
  forall (F : Type) (fp : fpops F) J junk delta, expo_nonneg fp ->
  forall p fh xs alpha r C, fits p xs -> xs <> [] -> tuple_lll fp J junk delta p fh xs alpha = Ok (r, C) ->
  let d := length xs in let L := ent (tuple_row p (tuple_fpv p xs) alpha) 0%nat in let c := fun j => ent C j 0%nat in
  r = 0%Z /\ primitive d c /\ candidate d L c /\
  Rabs (sumR d (fun j => xnth xs j * IZR (c j))) <=
    powerRZ 2 (- alpha) * (IZR (Z.abs (sumZ d (fun j => L j * c j)%Z)) + / 2 * IZR (sumZ d (fun j => Z.abs (c j)))).
Proof.
  intros F fp J junk delta EX p fh xs alpha r C H NE R d L c. unfold tuple_lll in R.
  destruct (row_dims p (tuple_fpv p xs) alpha) as (D1 & D2 & W). unfold tuple_fpv in D2 at 2; rewrite map_length in D2.
  assert (D0 : (0 < length xs)%nat) by (destruct xs; [contradiction|cbn; lia]).
  apply (C47_fptuple_lll F fp J junk delta EX) in R as (E & _ & _ & CA & PR); auto; [|lia]. rewrite D2 in CA, PR.
  split; [exact E|]. split; [exact PR|]. split; [exact CA|]. now apply value_bound.
Qed.

(** the same for relation(), when it returns 1, under the conditions of C18 *)
Theorem C90_relation_value :
  forall (F : Type) (fp : fpops F) (Q : Type) (fq : fpops Q) J junk delta ext, expo_nonneg fp ->
  forall p zexp fuel fh lm xs alpha shift truncate sizemethod q0 confidence oC truncated, fits p xs -> xs <> [] ->
  let d := length xs in let L := ent (tuple_row p (tuple_fpv p xs) alpha) 0%nat in
    tuple_relation fp fq J junk delta ext p zexp fuel fh lm xs alpha shift truncate sizemethod q0 confidence = Ok (1%Z, oC, truncated) ->
    (lm = RHLLL -> (truncate = -1)%Z \/ forall T, In T truncated -> staircase (1 + d) d (ent T)) ->
    (lm = RFPLLL -> ext_unimodular ext) ->
    exists C, oC = Some C /\ let c := fun j => ent C j 0%nat in
      primitive d c /\ candidate d L c /\
      Rabs (sumR d (fun j => xnth xs j * IZR (c j))) <=
        powerRZ 2 (- alpha) * (IZR (Z.abs (sumZ d (fun j => L j * c j)%Z)) + / 2 * IZR (sumZ d (fun j => Z.abs (c j)))).
Proof.
  intros F fp Q fq J junk delta ext EX p zexp fuel fh lm xs alpha shift truncate sm q0 conf oC ts H NE d L R H1 H2.
  unfold tuple_relation in R. destruct (row_dims p (tuple_fpv p xs) alpha) as (D1 & D2 & W). unfold tuple_fpv in D2 at 2; rewrite map_length in D2.
  assert (D0 : (0 < length xs)%nat) by (destruct xs; [contradiction|cbn; lia]).
  apply (C18_relation_candidate F fp Q fq J junk delta ext EX) in R as [(R & _)|(_ & C & E & _ & _ & R)]; [discriminate| |lia|lia].
  rewrite D1, D2 in R. specialize (R H1 H2). destruct R as (CA & PR & _).
  exists C. split; [exact E|]. split; [exact PR|]. split; [exact CA|]. now apply value_bound.
Qed.

Lemma norm2_split d (v : nat -> Z) : norm2 (1 + d) v = (v 0%nat * v 0%nat + norm2 d (fun i => v (S i)))%Z.
Proof. unfold norm2. rewrite (sumZ_split 1 d). cbn [sumZ Nat.add]. ring. Qed.

(** in exact arithmetic, when the x_j have an integer relation m, |L.C| is bounded in terms of the size of m only, whatever alpha *)
Theorem C90_lll_bound :
  forall fp, exact fp ->
  forall J junk delta p fh xs alpha r C, / 4 < delta <= 1 -> (Z.of_nat fh < 4294967295)%Z -> fits p xs -> (2 <= length xs)%nat ->
  tuple_lll fp J junk delta p fh xs alpha = Ok (r, C) ->
  let d := length xs in let L := ent (tuple_row p (tuple_fpv p xs) alpha) 0%nat in
  forall m, sumR d (fun j => xnth xs j * IZR (m j)) = 0 -> (exists j, (j < d)%nat /\ m j <> 0%Z) ->
  let w := IZR (sumZ d (fun j => L j * ent C j 0%nat)%Z) in let s := IZR (sumZ d (fun j => Z.abs (m j))) in
  w * w <= (/ (delta - / 4)) ^ (d - 1) * (s * s / 4 + IZR (norm2 d m)).
Proof.
  intros fp X J junk delta p fh xs alpha r C HD FU H D2 R d L m Hm Nm w s.
  unfold tuple_lll in R. set (row := tuple_row p (tuple_fpv p xs) alpha) in *.
  destruct (row_dims p (tuple_fpv p xs) alpha) as (E1 & E2 & W). fold row in E1, E2, W. unfold tuple_fpv in E2; rewrite map_length in E2. fold d in E2.
  assert (D2' : (2 <= d)%nat) by exact D2.
  apply (fptuple_basis fp J junk delta (e_expo fp X)) in R as (A & r0 & B & f & A1 & A2 & V1 & V2 & HH & Hf & VC & VB & Hmin); auto; [|lia].
  rewrite E2 in *.
  assert (I : independent (1 + d) d (fn (de A))).
  { intros c Hc j Hj. specialize (Hc (1 + j)%nat ltac:(lia)). rewrite (sumZ_single d j) in Hc.
    - change (fn (de A) (1 + j)%nat j) with (ent A (1 + j)%nat j) in Hc. rewrite V2, mid_eq in Hc by assumption. lia.
    - exact Hj.
    - intros l Hl Nl. change (fn (de A) (1 + j)%nat l) with (ent A (1 + j)%nat l). rewrite V2 by assumption. unfold mid.
      replace (j =? l)%nat with false by (symmetry; apply Nat.eqb_neq; lia). lia. }
  rewrite new_fresh in HH. pose proof (C42_exact_never_gives_up fp X J (1 + d) d (de A) false 0 true 0 1000000 4294967295 I ltac:(lia) fh delta false junk ltac:(lra)) as Q.
  rewrite HH in Q. subst r0.
  pose proof (hlll_tests fp fh delta false junk _ _ _ HH) as T. cbn [fresh_object set_nblov_max set_num_S new_lattice lc nblov] in T.
  set (v := fun i => match i with O => sumZ d (fun j => L j * m j)%Z | S i => m i end).
  assert (Lv : in_lattice (1 + d) d (fn (de A)) v).
  { exists m. intros i Hi. destruct i as [|i]; cbn [v].
    - apply sumZ_ext. intros j Hj. change (fn (de A) 0%nat j) with (ent A 0%nat j). now rewrite V1.
    - rewrite (sumZ_single d i); [|lia|].
      + change (fn (de A) (S i) i) with (ent A (1 + i)%nat i). rewrite V2, mid_eq by lia. lia.
      + intros l Hl Nl. change (fn (de A) (S i) l) with (ent A (1 + i)%nat l). rewrite V2 by lia. unfold mid.
        replace (i =? l)%nat with false by (symmetry; apply Nat.eqb_neq; lia). lia. }
  assert (Nv : exists i, (i < 1 + d)%nat /\ v i <> 0%Z). { destruct Nm as (j & Hj & Nj). exists (S j). split; [lia|exact Nj]. }
  pose proof (C38_first_vector_short fp X J (1 + d) d (de A) false 0 true 0 1000000 4294967295 D2' I ltac:(lia) fh delta false junk B HD HH ltac:(lia) v Lv Nv) as SH.
  rewrite norm2_split in SH. rewrite (norm2_split d v), !plus_IZR in SH. cbn [v] in SH.
  assert (K : 0 <= (/ (delta - / 4)) ^ (d - 1)) by (apply pow_le; left; apply Rinv_0_lt_compat; lra).
  assert (LC : w = IZR (fn (getbase B) 0%nat f)).
  { unfold w. apply f_equal. rewrite VB by assumption. apply sumZ_ext. intros j Hj. rewrite VC by assumption. reflexivity. }
  assert (LE : w * w <= IZR (fn (getbase B) 0%nat 0%nat * fn (getbase B) 0%nat 0%nat)).
  { rewrite LC, <- mult_IZR. apply IZR_le. specialize (Hmin 0%nat ltac:(lia)). nia. }
  assert (PN : 0 <= IZR (norm2 d (fun i => fn (getbase B) (S i) 0%nat))).
  { apply IZR_le. unfold norm2. clear. induction d as [|k IH]; cbn [sumZ]; nia. }
  pose proof (C90_true_relation p xs alpha m H Hm) as TR. fold d row L s in TR.
  change (fun i : nat => m i) with m in SH. rewrite (mult_IZR (sumZ d (fun j => L j * m j)%Z)) in SH.
  set (lm := IZR (sumZ d (fun j => L j * m j)%Z)) in *.
  assert (LM : lm * lm <= s * s / 4).
  { pose proof (Rabs_pos lm). replace (lm * lm) with (Rabs lm * Rabs lm) by (rewrite <- Rabs_mult; apply Rabs_pos_eq; nra). nra. }
  apply Rle_trans with (1 := LE). apply Rle_trans with (2 := Rmult_le_compat_l _ _ _ K (Rplus_le_compat_r (IZR (norm2 d m)) _ _ LM)). lra.
Qed.

Lemma tuple_after fp J junk delta fh row A B : exact fp -> dwf row -> dr row = 1%nat -> (0 < dc row)%nat ->
  rel_initial row = Ok A -> dwf A -> dr A = (1 + dc row)%nat -> dc A = dc row ->
  hlll fp fh delta false junk (fresh_object fp J (1 + dc row) (dc row) (de A) false 0 true 0 1 1000000 4294967295) = Ok (0%Z, B) ->
  exists C, fptuple_lll fp J junk delta fh row = Ok (0%Z, C).
Proof.
  intros X W E1 D0 HA WA A1 A2 HB.
  unfold fptuple_lll. rewrite HA. cbn [bind]. rewrite new_fresh, HB. cbn [bind].
  assert (CB : cn (lcfg B) = (1 + dc row)%nat /\ cd (lcfg B) = dc row).
  { apply (hlll_inv fp) in HB as (EC & _); [|apply (e_expo fp X)|apply mtab_wfm]. rewrite EC. split; reflexivity. }
  destruct CB as (C1 & C2). assert (W2 : dwf (dbase B)) by (unfold dbase, dwf, getbase; cbn [dr dc de]; apply mtab_wfm).
  destruct (for2_simple (dc row) (dc row) (fun i j M => let* a := gget (dbase B) (i + 1)%nat j in gset M i j a)
    (fun i j => ent (dbase B) (i + 1)%nat j) (resize0 (dc row) (dc row)) (resize0_wf _ _)) as (U & EU & WU & U1 & U2 & VU & _); cbn [dr dc resize0]; try lia.
  { intros i j N Hi Hj _ _ _ _. rewrite gget_ok by (cbn [dbase dr dc]; lia). reflexivity. }
  rewrite EU. cbn [bind]. cbn [dr dc resize0] in U1, U2.
  destruct (matprod_in_ok row U W ltac:(lia) ltac:(lia) ltac:(lia)) as (L' & EL & WL' & L1 & L2 & VL). rewrite EL. cbn [bind].
  assert (SM : exists f tz, smallest false L' (dc row) = Ok (f, tz) /\ (f < dc row)%nat).
  { unfold smallest. rewrite gget_ok by lia. cbn [bind andb].
    assert (G : forall n f0 t0, (S n <= dc row)%nat -> (f0 < dc row)%nat -> exists f tz, mfold (fun i st => let '(f, tz) := st in let* a := gget L' 0 i in
           Ok (if (Z.abs a <? tz)%Z then (i, Z.abs a) else (f, tz))) (seq 1 n) (f0, t0) = Ok (f, tz) /\ (f < dc row)%nat).
    { induction n as [|n IH]; intros f0 t0 Hn Hf; [exists f0, t0; split; [reflexivity|exact Hf]|].
      destruct (IH f0 t0 ltac:(lia) Hf) as (f1 & t1 & Q1 & Q2). rewrite seq_S, mfold_app, Q1. cbn [bind mfold]. rewrite gget_ok by lia. cbn [bind].
      destruct (_ <? _)%Z; eexists; eexists; (split; [reflexivity|lia]). }
    apply G; lia. }
  destruct SM as (f & tz & -> & Hf). cbn [bind].
  destruct (out_col_ok (fun _ => UB) (dbase B) 1 (dc row) f) as (C & E & _); [cbn [dbase dr]; lia|cbn [dbase dc]; lia|]. rewrite E. cbn [bind]. now exists C.
Qed.

(** the bound is reached by a computation that ends: exact arithmetic, any numbers with relations or not *)
Theorem C90_lll_ends :
  forall fp, exact fp -> (forall x, Rabs x <= / 2 -> frnd fp x = 0) ->
  forall J junk delta p xs alpha, delta <= 1 -> xs <> [] ->
  exists fuel0, forall fh, (fuel0 <= fh)%nat -> exists C, tuple_lll fp J junk delta p fh xs alpha = Ok (0%Z, C).
Proof.
  intros fp X HH J junk delta p xs alpha HD NE. unfold tuple_lll. set (row := tuple_row p (tuple_fpv p xs) alpha).
  destruct (row_dims p (tuple_fpv p xs) alpha) as (E1 & E2 & W). fold row in E1, E2, W. unfold tuple_fpv in E2; rewrite map_length in E2.
  assert (D0 : (0 < dc row)%nat) by (rewrite E2; destruct xs; [contradiction|cbn; lia]).
  destruct (rel_initial_ok (fun _ => UB) row ltac:(lia) D0) as (A & HA & WA & A1 & A2 & V1 & V2). rewrite E1 in A1, V2.
  assert (I : independent (1 + dc row) (dc row) (fn (de A))).
  { intros c Hc j Hj. specialize (Hc (1 + j)%nat ltac:(lia)). rewrite (sumZ_single (dc row) j) in Hc.
    - change (fn (de A) (1 + j)%nat j) with (ent A (1 + j)%nat j) in Hc. rewrite V2, mid_eq in Hc by assumption. lia.
    - exact Hj.
    - intros l Hl Nl. change (fn (de A) (1 + j)%nat l) with (ent A (1 + j)%nat l). rewrite V2 by assumption. unfold mid.
      replace (j =? l)%nat with false by (symmetry; apply Nat.eqb_neq; lia). lia. }
  exists (Z.to_nat (2 * potential (1 + dc row) (dc row) (fn (de A)) + Z.of_nat (dc row) + 1)). intros fh Hfh.
  destruct (C43_exact_terminates fp X HH J (1 + dc row) (dc row) (de A) false 0 true 0 1000000 4294967295 I ltac:(lia) fh delta false junk HD ltac:(lia))
    as (B & HB & _).
  now apply (tuple_after fp J junk delta fh row A B).
Qed.

(** after a number of turns that depends on the size of the integers L_j only *)
Theorem C90_lll_ends_length :
  forall fp, exact fp -> (forall x, Rabs x <= / 2 -> frnd fp x = 0) ->
  forall J junk delta p fh xs alpha M K, 0 < delta <= 1 -> xs <> [] ->
  let d := length xs in let L := ent (tuple_row p (tuple_fpv p xs) alpha) 0%nat in
  (forall j, (j < d)%nat -> IZR (L j * L j + 1) <= M) -> delta ^ K * M ^ (d * (d + 1) / 2) < 1 -> (2 * K + d + 1 <= fh)%nat ->
  exists C, tuple_lll fp J junk delta p fh xs alpha = Ok (0%Z, C).
Proof.
  intros fp X HH J junk delta p fh xs alpha M K HD NE d L HM HK HF. unfold tuple_lll. set (row := tuple_row p (tuple_fpv p xs) alpha) in *.
  destruct (row_dims p (tuple_fpv p xs) alpha) as (E1 & E2 & W). fold row in E1, E2, W. unfold tuple_fpv in E2; rewrite map_length in E2. fold d in E2.
  assert (D0 : (0 < dc row)%nat) by (rewrite E2; unfold d; destruct xs; [contradiction|cbn; lia]).
  destruct (rel_initial_ok (fun _ => UB) row ltac:(lia) D0) as (A & HA & WA & A1 & A2 & V1 & V2). rewrite E1 in A1, V2. rewrite <- E2 in HM, HK, HF.
  assert (I : independent (1 + dc row) (dc row) (fn (de A))).
  { intros c Hc j Hj. specialize (Hc (1 + j)%nat ltac:(lia)). rewrite (sumZ_single (dc row) j) in Hc.
    - change (fn (de A) (1 + j)%nat j) with (ent A (1 + j)%nat j) in Hc. rewrite V2, mid_eq in Hc by assumption. lia.
    - exact Hj.
    - intros l Hl Nl. change (fn (de A) (1 + j)%nat l) with (ent A (1 + j)%nat l). rewrite V2 by assumption. unfold mid.
      replace (j =? l)%nat with false by (symmetry; apply Nat.eqb_neq; lia). lia. }
  destruct (C43_exact_terminates_length fp X HH J (1 + dc row) (dc row) (de A) false 0 true 0 1000000 4294967295 I ltac:(lia) fh delta false junk M K HD)
    as (B & HB & _); [|exact HK|exact HF|now apply (tuple_after fp J junk delta fh row A B)].
  intros j Hj. apply Rle_trans with (2 := HM j Hj). apply IZR_le. apply Z.eq_le_incl.
  change (norm2 (1 + dc row) (fun i => ent A i j) = L j * L j + 1)%Z. rewrite norm2_split, V1 by (auto; lia). f_equal.
  unfold norm2. rewrite (sumZ_single (dc row) j).
  - change (S j) with (1 + j)%nat. rewrite V2, mid_eq by assumption. reflexivity.
  - exact Hj.
  - intros i Hi Ni. change (S i) with (1 + i)%nat. rewrite V2 by assumption. unfold mid. replace (i =? j)%nat with false by (symmetry; now apply Nat.eqb_neq). reflexivity.
Qed.

(** x = (0.0465..., 0.3567..., 0.3102...): x_0 - x_1 + x_2 = 0 *)
Definition x3 : list mpn := [mkMp 49936092 (-30); mkMp 383058226 (-30); mkMp 333122134 (-30)].
Lemma x3_fits : fits 53 x3.
Proof. split; [lia|]. intros x [<-|[<-|[<-|[]]]]; cbn [man]; reflexivity. Qed.
Lemma x3_sum m : sumR 3 (fun j => xnth x3 j * IZR (m j)) = powerRZ 2 (-30) * IZR (sumZ 3 (fun j => man (nth j x3 (mkMp 0 0)) * m j)%Z).
Proof. unfold xnth, mp_val, x3. cbn [sumR sumZ nth man ex]. rewrite !plus_IZR, !mult_IZR. ring. Qed.

(** with alpha = 20 the relation is found *)
Example C90_lll_case : fits 53 x3 /\ expo_nonneg dbl /\
  tuple_lll dbl Jz 0%float d99 53 200 x3 20 = Ok (0%Z, mkD 3 1 [[1; -1; 1]]%Z) /\
  sumR 3 (fun j => xnth x3 j * IZR (ent (mkD 3 1 [[1; -1; 1]]%Z) j 0%nat)) = 0.
Proof.
  split; [exact x3_fits|]. split; [apply dbl_expo_nonneg|]. split; [vm_compute; reflexivity|]. rewrite x3_sum.
  replace (sumZ 3 _) with 0%Z by (vm_compute; reflexivity). ring.
Qed.
Example C90_relation_case : exists ts,
  tuple_relation dbl dbl Jz 0%float d99 no_ext 53 0 20 200 RHLLL x3 30 5 (-1) 0 0x1p30%float 0x1p-6%float = Ok (1%Z, Some (mkD 3 1 [[1; -1; 1]]%Z), ts).
Proof. eexists. vm_compute. reflexivity. Qed.
Example C90_exact_case : exists fh C, (Z.of_nat fh < 4294967295)%Z /\ exact Rfp0 /\ fits 53 x3 /\ (2 <= length x3)%nat /\
  tuple_lll Rfp0 JR 0 (99 / 100) 53 fh x3 20 = Ok (0%Z, C) /\
  sumR 3 (fun j => xnth x3 j * IZR (nth j [1; -1; 1]%Z 0%Z)) = 0.
Proof.
  set (k := (69 * 241)%nat). set (fh := Z.to_nat 40000).
  destruct (C90_lll_ends_length Rfp0 Rfp0_exact Rfp0_half JR 0 (99 / 100) 53 fh x3 20 (2 ^ 40) k ltac:(lra) ltac:(discriminate)) as (C & HC).
  - intros j Hj. rewrite pow_IZR. apply IZR_le. cbn [x3 length] in Hj. destruct j as [|[|[|j]]]; [| | |lia]; vm_compute; discriminate.
  - change (length x3 * (length x3 + 1) / 2)%nat with 6%nat. rewrite <- pow_mult. change (40 * 6)%nat with 240%nat.
    pose proof (pow99 241) as P. fold k in P. replace (2 ^ 241) with (2 * 2 ^ 240) in P by reflexivity.
    assert (0 < (99 / 100) ^ k) by (apply pow_lt; lra). assert (0 < 2 ^ 240) by (apply pow_lt; lra). nra.
  - cbn [x3 length]. unfold k, fh. lia.
  - exists fh, C. split; [unfold fh; lia|]. split; [apply Rfp0_exact|]. split; [exact x3_fits|]. split; [cbn; lia|]. split; [exact HC|].
    rewrite x3_sum. replace (sumZ 3 _) with 0%Z by (vm_compute; reflexivity). ring.
Qed.

(** ** The column is chosen by |L.C| alone: with alpha = 10 the first column of the reduced basis is the relation (1,-1,1), and
    lll returns (-14,-6,9), which is not a relation: L.C = 0 for it and 1 for (1,-1,1) *)
Theorem C90_lll_refuted :
  exists xs alpha fh A B C, fits 53 xs /\ length xs = 3%nat /\
    rel_initial (tuple_row 53 (tuple_fpv 53 xs) alpha) = Ok A /\
    hlll dbl fh d99 false 0%float (new_lattice dbl Jz 4 3 (de A) false 0 true 0) = Ok (0%Z, B) /\
    sumR 3 (fun j => xnth xs j * IZR (fn (getbase B) (S j) 0%nat)) = 0 /\
    tuple_lll dbl Jz 0%float d99 53 fh xs alpha = Ok (0%Z, C) /\
    sumR 3 (fun j => xnth xs j * IZR (ent C j 0%nat)) <> 0 /\
    (norm2 3 (fun j => fn (getbase B) (S j) 0%nat) = 3%Z /\ norm2 3 (fun j => ent C j 0%nat) = 313%Z).
Proof.
  assert (H : exists A B C, rel_initial (tuple_row 53 (tuple_fpv 53 x3) 10) = Ok A /\
    hlll dbl 200 d99 false 0%float (new_lattice dbl Jz 4 3 (de A) false 0 true 0) = Ok (0%Z, B) /\
    getbase B = [[1; 1; -1; 1]; [-12; -1; -6; 7]; [0; -14; -6; 9]]%Z /\
    tuple_lll dbl Jz 0%float d99 53 200 x3 10 = Ok (0%Z, C) /\ C = mkD 3 1 [[-14; -6; 9]]%Z).
  { eexists. eexists. eexists. split; [vm_compute; reflexivity|]. split; [vm_compute; reflexivity|]. split; [vm_compute; reflexivity|].
    split; [vm_compute; reflexivity|]. reflexivity. }
  destruct H as (A & B & C & H1 & H2 & H3 & H4 & ->). exists x3, 10%Z, 200%nat, A, B, (mkD 3 1 [[-14; -6; 9]]%Z).
  split; [exact x3_fits|]. split; [reflexivity|]. split; [exact H1|]. split; [exact H2|]. split; [|split; [exact H4|split]].
  - rewrite x3_sum, H3. replace (sumZ 3 _) with 0%Z by (vm_compute; reflexivity). ring.
  - rewrite x3_sum. apply Rmult_integral_contrapositive_currified.
    + apply powerRZ_NOR. lra.
    + apply IZR_neq. vm_compute. discriminate.
  - rewrite H3. split; reflexivity.
Qed.

Print Assumptions C90_row.
Print Assumptions C90_lll_value.
Print Assumptions C90_relation_value.
Print Assumptions C90_lll_bound.
Print Assumptions C90_lll_ends.
Print Assumptions C90_lll_ends_length.
Print Assumptions C90_lll_refuted.
