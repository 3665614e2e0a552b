(** * FPTuple<ZT,FT,MatrixFT> from the real numbers to the candidate, src/relations_z.cc: constructor 213-240, relation
    272-305, lll 684-800 (HLLL).  The matrix part is in Relation.v ([relation_lll], [fptuple_lll]).

    An mpfr number is man * 2^exp.  [p] is the default precision when the object is created and when t is declared (276, 694):
    mpfr_set and mpfr_mul_2si round to nearest even to p bits, mpfr_get_z to the nearest integer, even.  NaN and
    infinities are not modelled. *)
From Coq Require Import ZArith Lia List Bool Arith Reals Lra Psatz.
From Verif Require Import Base Spec Mat FP Hlll IntSteps HlllInt LinDep Structure Hlll2 Object UOnly
  MatOps MatOpsFacts MachInt Trunc Trunc10 Lehmer Nullspace Relation SpecReal.
Import ListNotations.

Record mpn := mkMp { man : Z; ex : Z }.

(** m / 2^k to the nearest integer, even when half-way *)
Definition rne (m k : Z) : Z :=
  let q := (m / 2 ^ k)%Z in let r := (m mod 2 ^ k)%Z in
  if (2 * r <? 2 ^ k)%Z then q else if (2 ^ k <? 2 * r)%Z then (q + 1)%Z else if Z.even q then q else (q + 1)%Z.

(** rounding to p bits *)
Definition mp_round (p : Z) (x : mpn) : mpn :=
  let b := (Z.log2 (Z.abs (man x)) + 1)%Z in
  if (b <=? p)%Z then x else mkMp (rne (man x) (b - p)) (ex x + (b - p)).
Definition mp_mul_2si (p : Z) (x : mpn) (alpha : Z) : mpn := mp_round p (mkMp (man x) (ex x + alpha)).
(** Z_NR<mpz_t>::set_f (fplll): mpfr_get_z, GMP_RNDN *)
Definition mp_get_z (x : mpn) : Z := if (0 <=? ex x)%Z then (man x * 2 ^ ex x)%Z else rne (man x) (- ex x).
(** FP_NR::exponent (mpfr_get_exp); [zexp]: what it gives on zero *)
Definition mp_exponent (zexp : Z) (x : mpn) : Z := if (man x =? 0)%Z then zexp else (Z.log2 (Z.abs (man x)) + 1 + ex x)%Z.

(** the constructor 213-240: fpv and inputgap *)
Definition tuple_fpv (p : Z) (xs : list mpn) : list mpn := map (mp_round p) xs.
Definition tuple_gap (zexp : Z) (fpv : list mpn) : Z :=
  let es := map (mp_exponent zexp) fpv in (fold_right Z.max (hd 0%Z es) es - fold_right Z.min (hd 0%Z es) es)%Z.

(** the row L, 278-284 and 696-699 *)
Definition tuple_row (p : Z) (fpv : list mpn) (alpha : Z) : dmat :=
  mkD 1 (length fpv) (map (fun x => [mp_get_z (mp_mul_2si p x alpha)]) fpv).

Section Model.
Context {F : Type} (fp : fpops F) {Q : Type} (fq : fpops Q).
Variables (J : junk_t (F := F)) (junk delta : F) (ext : dmat -> res dmat).

Definition tuple_lll (p : Z) (fh : nat) (xs : list mpn) (alpha : Z) : res (Z * dmat) :=
  fptuple_lll fp J junk delta fh (tuple_row p (tuple_fpv p xs) alpha).

Definition tuple_relation (p zexp : Z) (fuel fh : nat) (lm : lllmethod) (xs : list mpn) (alpha shift truncate sizemethod : Z) (q0 confidence : Q)
  : res (Z * option dmat * list dmat) :=
  relation_lll fp fq J junk delta ext fuel fh lm (tuple_row p (tuple_fpv p xs) alpha) alpha shift truncate
    (tuple_gap zexp (tuple_fpv p xs)) sizemethod q0 confidence.
End Model.

(** ** Specification *)
Local Open Scope R_scope.
Definition mp_val (x : mpn) : R := IZR (man x) * powerRZ 2 (ex x).
Definition xnth (xs : list mpn) (j : nat) : R := mp_val (nth j xs (mkMp 0 0)).

(** ** Facts *)
Lemma rne_spec m k : (0 < k)%Z -> (2 * Z.abs (rne m k * 2 ^ k - m) <= 2 ^ k)%Z.
Proof.
  intros Hk. unfold rne. assert (P : (0 < 2 ^ k)%Z) by (apply Z.pow_pos_nonneg; lia).
  pose proof (Z.div_mod m (2 ^ k) ltac:(lia)) as D. pose proof (Z.mod_pos_bound m (2 ^ k) P) as B.
  set (q := (m / 2 ^ k)%Z) in *. set (r := (m mod 2 ^ k)%Z) in *. cbv zeta.
  destruct (Z.ltb_spec (2 * r) (2 ^ k)); [nia|]. destruct (Z.ltb_spec (2 ^ k) (2 * r)); [nia|]. destruct (Z.even q); nia.
Qed.

Lemma mp_round_id p x : (Z.abs (man x) < 2 ^ p)%Z -> (0 < p)%Z -> mp_round p x = x.
Proof.
  intros H Hp. unfold mp_round. replace (Z.log2 (Z.abs (man x)) + 1 <=? p)%Z with true; [reflexivity|]. symmetry. apply Z.leb_le.
  destruct (Z.eq_dec (man x) 0) as [E|E]; [rewrite E; cbn; lia|].
  assert (Z.log2 (Z.abs (man x)) < p)%Z by (apply Z.log2_lt_pow2; lia). lia.
Qed.

Lemma powerRZ2_IZR k : (0 <= k)%Z -> powerRZ 2 k = IZR (2 ^ k).
Proof. intros H. rewrite <- (Z2Nat.id k) by assumption. rewrite <- pow_powerRZ. rewrite <- pow_IZR. reflexivity. Qed.

Lemma get_z_err x : Rabs (IZR (mp_get_z x) - mp_val x) <= / 2.
Proof.
  unfold mp_get_z, mp_val. destruct (Z.leb_spec 0 (ex x)) as [H|H].
  - rewrite mult_IZR, powerRZ2_IZR by assumption. rewrite Rminus_diag_eq by reflexivity. rewrite Rabs_R0. lra.
  - pose proof (rne_spec (man x) (- ex x) ltac:(lia)) as E. apply IZR_le in E.
    rewrite mult_IZR, abs_IZR, minus_IZR, mult_IZR in E.
    assert (P2 : powerRZ 2 (ex x) = / IZR (2 ^ (- ex x))).
    { rewrite <- powerRZ2_IZR by lia. rewrite powerRZ_neg', Rinv_inv. reflexivity. }
    assert (P : 0 < IZR (2 ^ (- ex x))) by (apply IZR_lt, Z.pow_pos_nonneg; lia).
    rewrite P2. set (t := IZR (2 ^ (- ex x))) in *. set (z := IZR (rne (man x) (- ex x))) in *. set (m := IZR (man x)) in *.
    replace (z - m * / t) with ((z * t - m) * / t) by (field; lra). rewrite Rabs_mult, (Rabs_pos_eq (/ t)) by (left; now apply Rinv_0_lt_compat).
    apply Rmult_le_reg_r with t; [exact P|]. rewrite Rmult_assoc, Rinv_l by lra. lra.
Qed.

Lemma mul_2si_val p x alpha : (Z.abs (man x) < 2 ^ p)%Z -> (0 < p)%Z -> mp_val (mp_mul_2si p x alpha) = powerRZ 2 alpha * mp_val x.
Proof.
  intros H Hp. unfold mp_mul_2si. rewrite mp_round_id by assumption. unfold mp_val. cbn [man ex]. rewrite powerRZ_add by lra. ring.
Qed.

Definition fits (p : Z) (xs : list mpn) : Prop := (0 < p)%Z /\ forall x, In x xs -> (Z.abs (man x) < 2 ^ p)%Z.

Lemma fpv_id p xs : fits p xs -> tuple_fpv p xs = xs.
Proof.
  intros (Hp & H). unfold tuple_fpv. rewrite <- (map_id xs) at 2. apply map_ext_in. intros x Hx. apply mp_round_id; auto.
Qed.

Lemma row_dims p xs alpha : dr (tuple_row p xs alpha) = 1%nat /\ dc (tuple_row p xs alpha) = length xs /\ dwf (tuple_row p xs alpha).
Proof.
  split; [reflexivity|]. split; [reflexivity|]. unfold dwf, tuple_row. cbn [dr dc de]. split; [apply map_length|].
  apply Forall_forall. intros x Hx. apply in_map_iff in Hx as (y & <- & _). reflexivity.
Qed.

Lemma row_err p xs alpha j : fits p xs -> (j < length xs)%nat ->
  Rabs (IZR (ent (tuple_row p xs alpha) 0%nat j) - powerRZ 2 alpha * xnth xs j) <= / 2.
Proof.
  intros (Hp & H) Hj. unfold xnth. rewrite <- (mul_2si_val p) by (auto; apply H, nth_In, Hj).
  replace (ent (tuple_row p xs alpha) 0%nat j) with (mp_get_z (mp_mul_2si p (nth j xs (mkMp 0 0)) alpha)); [apply get_z_err|].
  unfold ent, tuple_row, fn, mget, col. cbn [de].
  rewrite (nth_indep _ [] [mp_get_z (mp_mul_2si p (mkMp 0 0) alpha)]) by (now rewrite map_length).
  rewrite (map_nth (fun x => [mp_get_z (mp_mul_2si p x alpha)])). reflexivity.
Qed.

(** the integer combination and the real one *)
Lemma comb_err p xs alpha (C : nat -> Z) : fits p xs ->
  let d := length xs in let row := ent (tuple_row p xs alpha) 0%nat in
  Rabs (IZR (sumZ d (fun j => row j * C j)%Z) - powerRZ 2 alpha * sumR d (fun j => xnth xs j * IZR (C j)))
  <= / 2 * IZR (sumZ d (fun j => Z.abs (C j))).
Proof.
  intros H d row.
  assert (G : forall k, (k <= d)%nat -> Rabs (IZR (sumZ k (fun j => row j * C j)%Z) - powerRZ 2 alpha * sumR k (fun j => xnth xs j * IZR (C j)))
    <= / 2 * IZR (sumZ k (fun j => Z.abs (C j)))); [|now apply G].
  induction k as [|k IH]; intros Hk.
  - cbn [sumZ sumR]. rewrite Rmult_0_r, Rminus_0_r, Rabs_R0. lra.
  - cbn [sumZ sumR]. rewrite !plus_IZR, mult_IZR, abs_IZR. specialize (IH ltac:(lia)).
    pose proof (row_err p xs alpha k H ltac:(unfold d in Hk; lia)) as E. fold row in E.
    set (S1 := IZR (sumZ k (fun j => row j * C j)%Z)) in *. set (S2 := sumR k (fun j => xnth xs j * IZR (C j))) in *.
    replace (S1 + IZR (row k) * IZR (C k) - powerRZ 2 alpha * (S2 + xnth xs k * IZR (C k)))
      with ((S1 - powerRZ 2 alpha * S2) + (IZR (row k) - powerRZ 2 alpha * xnth xs k) * IZR (C k)) by ring.
    eapply Rle_trans; [apply Rabs_triang|]. rewrite Rabs_mult.
    assert (Rabs (IZR (row k) - powerRZ 2 alpha * xnth xs k) * Rabs (IZR (C k)) <= / 2 * Rabs (IZR (C k)))
      by (apply Rmult_le_compat_r; [apply Rabs_pos|exact E]). lra.
Qed.

(** the reduced basis behind fptuple_lll *)
Section Basis.
Context {F : Type} (fp : fpops F) (J : junk_t (F := F)) (junk delta : F).
Hypothesis EX : expo_nonneg fp.

Lemma fptuple_basis fh L r C : dr L = 1%nat -> (0 < dc L)%nat -> dwf L -> fptuple_lll fp J junk delta fh L = Ok (r, C) ->
  exists A r0 B f, dr A = (1 + dc L)%nat /\ dc A = dc L /\
    (forall j, (j < dc L)%nat -> ent A 0%nat j = ent L 0%nat j) /\
    (forall i j, (i < dc L)%nat -> (j < dc L)%nat -> ent A (1 + i)%nat j = mid i j) /\
    hlll fp fh delta false junk (new_lattice fp J (1 + dc L) (dc L) (de A) false 0 true 0) = Ok (r0, B) /\
    (f < dc L)%nat /\ (forall j, (j < dc L)%nat -> ent C j 0%nat = fn (getbase B) (1 + j)%nat f) /\
    (forall k, (k < dc L)%nat -> fn (getbase B) 0%nat k = sumZ (dc L) (fun j => ent L 0%nat j * fn (getbase B) (1 + j)%nat k)%Z) /\
    (forall k, (k < dc L)%nat -> (Z.abs (fn (getbase B) 0%nat f) <= Z.abs (fn (getbase B) 0%nat k))%Z).
Proof using EX.
  intros HL Hd WL H. unfold fptuple_lll in H. cbv zeta in H. apply bind_Ok in H as (A & HA & H).
  pose proof (rel_inv_init (fun _ => UB) L A ltac:(lia) Hd HA) as HI. pose proof HI as (W & D1 & D2 & _). rewrite HL in D1.
  destruct (rel_initial_ok (fun _ => UB) L ltac:(lia) Hd) as (A' & HA' & _ & _ & _ & Q1 & Q2). rewrite HA in HA'. injection HA' as <-. rewrite HL in Q2.
  apply bind_Ok in H as ([r0 B] & HH & H). exists A, r0, B.
  assert (PR : precisions_ok (F := F) [CallHlll fh delta false junk]).
  { intros fp' fu de0 ju J1 J2 [I|[]]. discriminate. }
  destruct (run_pres fp EX (1 + dc L) (dc L) false 0 [CallHlll fh delta false junk] PR (fn (de A))
     (new_lattice fp J (1 + dc L) (dc L) (de A) false 0 true 0) B) as [D (Hb & V & UV & EV)].
  { cbn [run mfold exec]. rewrite HH. reflexivity. }
  { apply new_dims. } { apply new_pres. }
  pose proof (getbase_fn _ _ _ _ _ D) as GB. destruct D as (C1 & C2 & _). cbn [current] in EV.
  assert (HI2 : rel_inv L (dbase B) (mmul (dc L) mid V)).
  { apply (rel_inv_mul (fun _ => UB) L A mid (dbase B) V); auto; try lia.
    - unfold dbase, dwf, getbase. cbn [dr dc de]. apply mtab_wfm.
    - unfold dbase. cbn [dr]. congruence.
    - unfold dbase. cbn [dc]. congruence.
    - rewrite D1, D2. intros i j Hi Hj. change (fn (getbase B) i j = mmul (dc L) (fn (de A)) V i j).
      rewrite <- (EV i j Hi Hj). apply GB; assumption. }
  pose proof HI2 as (W2 & M1 & M2 & UV2 & X1 & X2). rewrite HL in M1, X2.
  destruct (for2_simple (dc L) (dc L) (fun i j M => let* a := gget (dbase B) (i + 1)%nat j in gset M i j a)
    (fun i j => ent (dbase B) (i + 1)%nat j) (resize0 (dc L) (dc L)) (resize0_wf _ _)) as (U & EU & WU & U1 & U2 & VU & _); cbn [dr dc resize0]; try lia.
  { intros i j N Hi Hj _ _ _ _. rewrite gget_ok by lia. reflexivity. }
  rewrite EU in H. cbn [bind] in H. cbn [dr dc resize0] in U1, U2.
  destruct (matprod_in_ok L U WL ltac:(lia) ltac:(lia) ltac:(lia)) as (L' & EL & WL' & L1 & L2 & VL).
  rewrite EL in H. cbn [bind] in H. apply bind_Ok in H as ([f tz] & HS & H). apply bind_Ok in H as (C' & HC & H). injection H as <- <-.
  apply (smallest_ok (fun _ => UB)) in HS as [Hf Hmin]; try lia.
  destruct (out_col_ok (fun _ => UB) (dbase B) 1 (dc L) f) as (C2' & E & P1 & P2 & VC); [lia|lia|]. rewrite E in HC. injection HC as <-.
  assert (Y : forall k, (k < dc L)%nat -> ent L' 0%nat k = fn (getbase B) 0%nat k).
  { intros k Hk. rewrite VL by lia. change (fn (getbase B) 0%nat k) with (ent (dbase B) 0%nat k). rewrite X1 by assumption.
    unfold mmul at 1. apply sumZ_ext. intros l Hl. rewrite VU by assumption.
    replace (l + 1)%nat with (1 + l)%nat by lia. now rewrite X2. }
  exists f. split; [exact D1|]. split; [exact D2|]. split; [exact Q1|]. split; [exact Q2|]. split; [exact HH|]. split; [exact Hf|].
  split; [intros j Hj; now apply VC|]. split.
  - intros k Hk. change (fn (getbase B) 0%nat k) with (ent (dbase B) 0%nat k). rewrite X1 by assumption. apply sumZ_ext. intros l Hl.
    change (fn (getbase B) (1 + l)%nat k) with (ent (dbase B) (1 + l)%nat k). now rewrite X2.
  - intros k Hk. rewrite <- !Y by assumption. now apply Hmin.
Qed.
End Basis.
