(** * C91: the basis lehmer_lll returns is LLL-reduced (exact arithmetic) *)
From Coq Require Import ZArith Lia Reals Lra List Bool Arith.
From Verif Require Import Base Spec Mat FP Hlll SpecReal ShortVec Det Structure MatOps MatOpsFacts MachInt Trunc Trunc10 IntSteps Lehmer ExactTop LehmerExact Exact ExactPot PropDrivers PropExact PropWrapExact.
Import ListNotations.
Local Open Scope R_scope.

(** Without truncation, on a matrix whose rows below the first have independent columns (the shape
    [a ; Id] the driver is used for): what is returned is a reduced basis of the lattice of A.
    Whatever [delta] was asked for, the factor is 0.99 (d99), see lehmer.cc 169. *)
Theorem C91_lehmer_reduced :
  forall fp, exact fp ->
  forall J junk d99 fuel fh A delta lshift C cts, d99 <= 1 ->
    dwf A -> (2 <= dc A)%nat -> (0 < dr A)%nat -> (0 < lshift)%Z -> (Z.of_nat fh < 4294967295)%Z ->
    independent (dr A - 1) (dc A) (fun i j => ent A (S i) j) ->
    lehmer_lll fp J junk d99 fuel fh A delta lshift false = Ok (C, cts) ->
    same_lattice (dr A) (dc A) (ent A) (ent C) /\ LLL_reduced (dr A) (dc A) d99 (ent C).
Proof.
  intros fp X J junk d99 fuel fh A delta lshift C cts HD WA D2 Hn Hs HF HI H. split.
  - apply (C21_lehmer_lattice_full_rank R fp (e_expo fp X) J junk d99 fuel fh A delta lshift C cts WA Hn ltac:(lia) Hs HI H).
  - pose proof (lehmer_exact fp X J junk d99 HD fuel fh A delta lshift WA D2 Hn Hs HF HI) as Q. rewrite H in Q. exact Q.
Qed.

(** so its first column is short *)
Theorem C91_first_vector_short :
  forall fp, exact fp ->
  forall J junk d99 fuel fh A delta lshift C cts, / 4 < d99 <= 1 ->
    dwf A -> (2 <= dc A)%nat -> (0 < dr A)%nat -> (0 < lshift)%Z -> (Z.of_nat fh < 4294967295)%Z ->
    independent (dr A - 1) (dc A) (fun i j => ent A (S i) j) ->
    lehmer_lll fp J junk d99 fuel fh A delta lshift false = Ok (C, cts) ->
    forall v, in_lattice (dr A) (dc A) (ent A) v -> (exists i, (i < dr A)%nat /\ v i <> 0%Z) ->
      (d99 - / 4) ^ (dc A - 1) * IZR (norm2 (dr A) (fun i => ent C i 0%nat)) <= IZR (norm2 (dr A) v).
Proof.
  intros fp X J junk d99 fuel fh A delta lshift C cts HD WA D2 Hn Hs HF HI H v Hv Nv.
  destruct (C91_lehmer_reduced fp X J junk d99 fuel fh A delta lshift C cts ltac:(lra) WA D2 Hn Hs HF HI H) as (SL & RR).
  apply (short_first (dr A) (dc A) d99 (ent C) ltac:(lia) HD RR v (proj1 (SL v) Hv) Nv).
Qed.

(** it ends, without undefined behaviour: with bits / lshift + 1 steps for the lifting loop, and with a bound fh on the
    loops of the inner reductions above 2 x potential + d + 1 for the matrices the loop visits *)
Theorem C91_lehmer_ends :
  forall fp, exact0 fp ->
  forall J junk d99 fuel fh A delta lshift bits, d99 <= 1 ->
    dwf A -> (2 <= dc A)%nat -> (0 < dr A)%nat -> (0 < lshift)%Z -> (Z.of_nat fh < 4294967295)%Z ->
    independent (dr A - 1) (dc A) (fun i j => ent A (S i) j) ->
    maxbitsize A = Ok bits -> (bits <= Z.of_nat fuel * lshift)%Z ->
    (forall e B, visited (dr A) (dc A) (ent A) bits lshift d99 e B -> (0 < e)%Z ->
       (2 * potential (dr A) (dc A) (row0_div B (Z.max 0 (e - lshift))) + Z.of_nat (dc A) + 1 <= Z.of_nat fh)%Z) ->
    exists C cts, lehmer_lll fp J junk d99 fuel fh A delta lshift false = Ok (C, cts).
Proof.
  intros fp (X & HH) J junk d99 fuel fh A delta lshift bits HD WA D2 Hn Hs HF HI Eb Hb HP.
  pose proof (lehmer_exact fp X J junk d99 HD fuel fh A delta lshift WA D2 Hn Hs HF HI) as Q.
  destruct (lehmer_lll fp J junk d99 fuel fh A delta lshift false) as [[C cts]| |]; [now exists C, cts|contradiction|exfalso].
  destruct (Q HH bits Eb Hb) as (e & B & HV & He & HB). specialize (HP e B HV He). lia.
Qed.

(** whatever the bound, the only other outcome is that the bound was too small *)
Theorem C91_lehmer_defined :
  forall fp, exact fp ->
  forall J junk d99 fuel fh A delta lshift, d99 <= 1 ->
    dwf A -> (2 <= dc A)%nat -> (0 < dr A)%nat -> (0 < lshift)%Z -> (Z.of_nat fh < 4294967295)%Z ->
    independent (dr A - 1) (dc A) (fun i j => ent A (S i) j) ->
    lehmer_lll fp J junk d99 fuel fh A delta lshift false <> UB.
Proof.
  intros fp X J junk d99 fuel fh A delta lshift HD WA D2 Hn Hs HF HI H.
  pose proof (lehmer_exact fp X J junk d99 HD fuel fh A delta lshift WA D2 Hn Hs HF HI) as Q. now rewrite H in Q.
Qed.

(** [delta] plays no part when lshift > 0 *)
Theorem C91_delta_ignored :
  forall (F : Type) (fp : fpops F) J junk d99 fuel fh A delta delta' lshift truncate, lshift <> 0%Z ->
    lehmer_lll fp J junk d99 fuel fh A delta lshift truncate = lehmer_lll fp J junk d99 fuel fh A delta' lshift truncate.
Proof. intros. unfold lehmer_lll. now destruct (Z.eqb_spec lshift 0). Qed.

(** two lifting steps on [3 2; 1 0; 0 1] *)
Definition K2 : dmat := mkD 3 2 [[3;1;0];[2;0;1]]%Z.

Lemma K2_visited e B : visited 3 2 (ent K2) 2 1 (99/100) e B -> (0 < e)%Z ->
  (2 * potential 3 2 (row0_div B (Z.max 0 (e - 1))) + 2 + 1 <= 1000)%Z.
Proof.
  intros H He. inversion H as [C E Ee|e0 C U C' H0 He0 UU RR E Ee]; subst.
  - rewrite (potential_ext 3 2 _ (row0_div (ent K2) 1)).
    + vm_compute. discriminate.
    + intros [|i] j Hi Hj; unfold row0_div; cbn [Nat.eqb]; rewrite E by lia; reflexivity.
  - inversion H0 as [C1 E1 Ee|e1 C1 U1 C1' H1 He1 UU1 RR1 E1 Ee]; subst.
    2:{ inversion H1 as [|e2 C2 U2 C2' H2 He2]; subst; [vm_compute in He0; discriminate|].
        assert (HH : forall e B, visited 3 2 (ent K2) 2 1 (99/100) e B -> (e <= 2)%Z).
        { clear. intros e B V. induction V; lia. }
        apply HH in H2. lia. }
    change (Z.max 0 (2 - 1)) with 1%Z in *. change (Z.max 0 (1 - 1)) with 0%Z in *.
    set (a := U 0%nat 0%nat). set (b := U 1%nat 0%nat). set (p := U 0%nat 1%nat). set (q := U 1%nat 1%nat).
    assert (DT : ((a * q - p * b) * (a * q - p * b) = 1)%Z).
    { destruct UU as (W & W1 & W2). set (D := (a * q - p * b)%Z). set (D' := (W 0%nat 0%nat * W 1%nat 1%nat - W 0%nat 1%nat * W 1%nat 0%nat)%Z).
      assert (DD : (D * D' = 1)%Z).
      { pose proof (W1 0%nat 0%nat ltac:(lia) ltac:(lia)) as A1. pose proof (W1 0%nat 1%nat ltac:(lia) ltac:(lia)) as A2.
        pose proof (W1 1%nat 0%nat ltac:(lia) ltac:(lia)) as A3. pose proof (W1 1%nat 1%nat ltac:(lia) ltac:(lia)) as A4.
        unfold mmul, mid in A1, A2, A3, A4. cbn [sumZ Nat.eqb] in A1, A2, A3, A4.
        fold a p in A1, A2. fold b q in A3, A4. rewrite !Z.add_0_l in *.
        transitivity ((a * W 0%nat 0%nat + p * W 1%nat 0%nat) * (b * W 0%nat 1%nat + q * W 1%nat 1%nat) -
                      (a * W 0%nat 1%nat + p * W 1%nat 1%nat) * (b * W 0%nat 0%nat + q * W 1%nat 0%nat))%Z; [unfold D, D'; ring|].
        rewrite A1, A2, A3, A4. reflexivity. }
      apply Z.mul_eq_1 in DD as [-> | ->]; reflexivity. }
    assert (SH : (norm2 3 (fun i => mmul 2 (row0_div C 1) U i 0%nat) <= 2)%Z).
    { assert (HDD : / 4 < 99 / 100 <= 1) by lra.
      pose proof (short_first 3 2 (99/100) _ ltac:(lia) HDD RR (fun i => row0_div C 1 i 0%nat)) as S.
      assert (N2 : norm2 3 (fun i => row0_div C 1 i 0%nat) = 2%Z).
      { unfold norm2. rewrite (sumZ_ext 3 _ (fun i => row0_div (ent K2) 1 i 0%nat * row0_div (ent K2) 1 i 0%nat)%Z); [reflexivity|].
        intros [|i] Hi; unfold row0_div; cbn [Nat.eqb]; rewrite E1 by lia; reflexivity. }
      rewrite N2 in S. cbn [Nat.sub pow] in S.
      apply le_IZR. apply Rnot_lt_le. intros G. 
      assert (G2 : 3 <= IZR (norm2 3 (fun i => mmul 2 (row0_div C 1) U i 0%nat))).
      { apply lt_IZR in G. apply IZR_le. lia. }
      assert (S' : (99/100 - / 4) * 1 * IZR (norm2 3 (fun i => mmul 2 (row0_div C 1) U i 0%nat)) <= 2).
      { apply S.
        - destruct UU as (W & W1 & W2). exists (fun j => W j 0%nat). intros i Hi.
          change (row0_div C 1 i 0%nat = mmul 2 (mmul 2 (row0_div C 1) U) W i 0%nat).
          rewrite <- (mmul_id_r 3 2 (row0_div C 1) i 0%nat Hi ltac:(lia)).
          rewrite (mmul_ext 3 2 2 _ (row0_div C 1) _ (mmul 2 U W) (meq_refl _ _ _) (meq_sym _ _ _ _ W1)) by lia.
          symmetry. apply mmul_mul_r with (n := 3%nat) (M := mmul 2 (mmul 2 (row0_div C 1) U) W); [apply meq_refl|exact Hi|lia].
        - exists 1%nat. split; [lia|]. unfold row0_div. cbn [Nat.eqb]. rewrite E1 by lia. vm_compute. discriminate. }
      lra. }
    assert (C1' : forall i j, (i < 3)%nat -> (j < 2)%nat -> C i j = ent K2 i j) by (intros; now apply E1).
    assert (SH2 : ((a + b) * (a + b) + a * a + b * b <= 2)%Z).
    { replace ((a + b) * (a + b) + a * a + b * b)%Z with (norm2 3 (fun i => mmul 2 (row0_div C 1) U i 0%nat)); [exact SH|].
      unfold norm2, mmul, row0_div. cbn [sumZ Nat.eqb]. rewrite !C1' by lia. fold a b.
      change (ent K2 0%nat 0%nat) with 3%Z. change (ent K2 0%nat 1%nat) with 2%Z. change (ent K2 1%nat 0%nat) with 1%Z. change (ent K2 1%nat 1%nat) with 0%Z.
      change (ent K2 2%nat 0%nat) with 0%Z. change (ent K2 2%nat 1%nat) with 1%Z. change (3 / 2 ^ 1)%Z with 1%Z. change (2 / 2 ^ 1)%Z with 1%Z. ring. }
    set (N := fun i j => match i, j with
      | O, O => 3 * a + 2 * b | O, _ => 3 * p + 2 * q | S O, O => a | S O, _ => p | _, O => b | _, _ => q end%Z).
    rewrite (potential_ext 3 2 _ N).
    + assert (PE : potential 3 2 N = (((3*a+2*b)*(3*a+2*b) + a*a + b*b) * (14 * ((a*q-p*b)*(a*q-p*b))))%Z).
      { unfold potential, gramZ. cbn [prodZ detZ sumZ N skip sgZ Nat.add]. cbv [sgZ skip Nat.even Nat.ltb Nat.leb Nat.add]. cbn [N]. ring. }
      rewrite PE, DT. nia.
    + intros i j Hi Hj. unfold row0_div. rewrite !E by lia. unfold mmul. cbn [sumZ]. rewrite !C1' by lia.
      destruct i as [|[|[|i]]]; [| | |lia]; (destruct j as [|[|j]]; [| |lia]); cbn [Nat.eqb N];
      change (2 ^ 0)%Z with 1%Z; rewrite ?Z.div_1_r; 
      change (ent K2 0%nat 0%nat) with 3%Z; change (ent K2 0%nat 1%nat) with 2%Z; change (ent K2 1%nat 0%nat) with 1%Z; change (ent K2 1%nat 1%nat) with 0%Z;
      change (ent K2 2%nat 0%nat) with 0%Z; change (ent K2 2%nat 1%nat) with 1%Z; unfold a, b, p, q; ring.
Qed.

Example C91_case :
  dwf K2 /\ independent (dr K2 - 1) (dc K2) (fun i j => ent K2 (S i) j) /\
  exists C cts, lehmer_lll Rfp0 JR 0 (99/100) 2 1000 K2 0 1 false = Ok (C, cts) /\
    same_lattice 3 2 (ent K2) (ent C) /\ LLL_reduced 3 2 (99/100) (ent C) /\ length cts = 2%nat.
Proof.
  assert (WK : dwf K2) by (split; [reflexivity|]; cbn [de K2]; repeat constructor).
  assert (IK : independent (dr K2 - 1) (dc K2) (fun i j => ent K2 (S i) j)).
  { intros c H j Hj. cbn [dr dc K2 Nat.sub] in *. pose proof (H 0%nat ltac:(lia)) as H0. pose proof (H 1%nat ltac:(lia)) as H1.
    cbv [sumZ ent fn mget col nth K2 de] in H0, H1. destruct j as [|[|j]]; lia. }
  assert (EB : maxbitsize K2 = Ok 2%Z) by (vm_compute; reflexivity).
  split; [exact WK|]. split; [exact IK|].
  destruct (C91_lehmer_ends Rfp0 (conj Rfp0_exact Rfp0_half) JR 0 (99/100) 2 1000 K2 0 1%Z 2%Z ltac:(lra) WK ltac:(cbn; lia) ltac:(cbn; lia) ltac:(lia)
    ltac:(lia) IK EB ltac:(lia) K2_visited) as (C & cts & H).
  exists C, cts. split; [exact H|].
  destruct (C91_lehmer_reduced Rfp0 Rfp0_exact JR 0 (99/100) 2 1000 K2 0 1%Z C cts ltac:(lra) WK ltac:(cbn; lia) ltac:(cbn; lia) ltac:(lia) ltac:(lia) IK H) as (S1 & S2).
  split; [exact S1|]. split; [exact S2|].
  destruct (C21_lehmer_lattice R Rfp0 (e_expo Rfp0 Rfp0_exact) JR 0 (99/100) 2 1000 K2 0 1%Z false C cts WK ltac:(cbn; lia) ltac:(cbn; lia) ltac:(lia) H) as (b & Eb & N & _).
  rewrite EB in Eb. injection Eb as <-. apply Nat2Z.inj. rewrite N. reflexivity.
Qed.

Print Assumptions C91_lehmer_reduced.
Print Assumptions C91_first_vector_short.
Print Assumptions C91_lehmer_ends.
Print Assumptions C91_lehmer_defined.
Print Assumptions C91_delta_ignored.
