(** * Lift: lift_z and lift_f_z, src/lift.cc (ZT = long, one row: "m = 1 for the moment")

    Same conventions as RelationF.v: the inner reduction (Lattice<FT,FT> or fplll) is an arbitrary function [red]. *)
From Coq Require Import ZArith Lia List Bool Arith.
From Verif Require Import Base Spec Mat FP Hlll IntSteps HlllInt LinDep Structure MachInt Trunc RelationF.
Import ListNotations.
Local Open Scope nat_scope.

Section Model.
Context {X Q D : Type}.
Variable sib : Z -> Z.                       (* size_in_bits of a long *)
(** lift L by 2^new_def, assign, reduce, convert U to long: 263-308; arguments: lllmethod, 0, delta, new_def, L *)
Variable red : Z -> Z -> D -> Z -> mat Z -> X -> res (X * mat Z).
(** the copy of the lower part of A_in in FT and the new Lattice: 108-110, 186-200, 247 *)
Variable mkx : mat Z -> X.
(** the gap test 327-372: exponent of the confidence, previous quotient, |L(0,0)| (1 for 0), the reduced matrix *)
Variable gtest : Z -> Q -> Z -> X -> Q * bool.
Variable q1 : Q.                             (* 1.0, 86-87 *)

(** lift_f_z, 165-386: the loop is that of detect_lift_f_z (relations_f.cc 394-509) with the confidence 2^-confidence_gap,
    221-225; returns (found, new_def, U, new_quot) *)
Definition lift_f_z (fuel d : nat) (L low : mat Z) (def : Z) (q : Q) (conf sh inc lm : Z) (delta : D) :=
  dl_loop sib red gtest fuel d lm 0 delta (- conf) sh inc 0 def L (id_mat d) (mkx low) q.

(** main loop of lift_z, 93-132; A_in: (1+d) x d *)
Fixpoint lift_loop (fuel fd d : nat) (conf shift ish inc lm target : Z) (delta : D) (A_in : mat Z) (def : Z) (q : Q)
  : res (Z * mat Z) :=
  if (def <? target)%Z then
    match fuel with
    | O => NoFuel
    | S fuel' =>
        let ish' := if (target - def <=? shift)%Z then (target - def)%Z else ish in
        let L := mtab 1 d (fun _ j => fn A_in 0 j) in
        let low := mtab d d (fun i j => fn A_in (1 + i) j) in
        let* (rs, q') := lift_f_z fd d L low def q conf ish' inc lm delta in
        let '(found, nd, U) := rs in
        let A' := zprod (1 + d) d A_in U in
        if (found =? 1)%Z then Ok (1%Z, mtab d 1 (fun j _ => fn A' (1 + j) 0))
        else lift_loop fuel' fd d conf shift ish' inc lm target delta A' nd q'
    end
  else Ok (0%Z, []).

(** lift_z(C, A, alpha, ...), 38-157, A: 1 x d; the bound computed at the end (134-151) is only printed, C keeps its
    contents when no relation is found *)
Definition lift_z (fuel fd d : nat) (A : mat Z) (alpha conf shift inc lm : Z) (delta : D) : res (Z * mat Z) :=
  let A_in := mtab (1 + d) d (fun i j => if i =? 0 then fn A 0 j else if i =? 1 + j then 1%Z else 0%Z) in
  let bs := fold_left (fun l j => Z.max l (sizeinbase2 (fn A 0 j))) (seq 0 d) 0%Z in
  lift_loop fuel fd d conf shift shift inc lm (- bs + alpha) delta A_in (- bs) q1.

(** ** Facts *)
Lemma lift_candidate d A conf shift inc lm target delta : forall fuel fd ish A_in def q r C,
  lift_loop fuel fd d conf shift ish inc lm target delta A_in def q = Ok (r, C) -> rf_inv d A A_in ->
  r = 0%Z \/ r = 1%Z /\ wfm d 1 C /\ accepted gtest (sumZ d (fun j => A 0%nat j * fn C j 0%nat)%Z).
Proof.
  induction fuel as [|fuel IH]; intros fd ish A_in def q r C H I; cbn [lift_loop] in H.
  - destruct (def <? target)%Z; [discriminate|]. injection H as <- <-. auto.
  - destruct (def <? target)%Z; [|injection H as <- <-; auto].
    cbv zeta in H. binv H. destruct a as [[[f nd] U] q']. unfold lift_f_z in Ha.
    apply (dl_inv sib red (fun _ => mkx) gtest (fun _ : D => 0%Z) d (mtab 1 d (fun _ j => fn A_in 0 j))) in Ha.
    + destruct Ha as [W [->|(-> & Hd & Acc)]].
      * cbn [Z.eqb] in H. eapply IH; [exact H|]. now apply rf_inv_mul.
      * change (1 =? 1)%Z with true in H. cbv iota in H. apply Okpair in H as [-> ->]. right. split; [reflexivity|]. split; [apply mtab_wfm|].
        pose proof (rf_inv_mul d A A_in U I) as [W' E'].
        assert (EQ : mmul d (fn (mtab 1 d (fun _ j => fn A_in 0 j))) (fn U) 0 0
                   = sumZ d (fun j => A 0%nat j * fn (mtab d 1 (fun j0 _ => fn (zprod (1 + d) d A_in U) (1 + j0)%nat 0%nat)) j 0%nat)%Z).
        { transitivity (fn (zprod (1 + d) d A_in U) 0 0).
          - unfold zprod. rewrite fn_mtab by lia. unfold mmul. apply sumZ_ext. intros k Hk. f_equal. now rewrite fn_mtab by lia.
          - rewrite E' by lia. unfold mmul. apply sumZ_ext. intros k Hk. f_equal. now rewrite fn_mtab by lia. }
        rewrite <- EQ. exact Acc.
    + apply mtab_wfm.
    + intros i j Hi Hj. assert (i = 0) by lia. subst i.
      transitivity (mmul d (fn (mtab 1 d (fun _ j0 => fn A_in 0 j0))) mid 0 j).
      * symmetry. now apply (mmul_id_r 1 d).
      * apply (mmul_ext 1 d d); try lia; [apply meq_refl|]. intros a b Ha2 Hb2. symmetry. now apply id_mat_fn.
Qed.

Lemma lift_unim d (redU : forall lm sm dl nd L x x' V, red lm sm dl nd L x = Ok (x', V) -> longs d V = true -> unimodular d (fn V))
  conf shift inc lm target delta : forall fuel fd ish A_in def q r C,
  lift_loop fuel fd d conf shift ish inc lm target delta A_in def q = Ok (r, C) -> 0 < d ->
  unimodular d (fun a b => fn A_in (1 + a) b) -> r = 1%Z ->
  exists M, unimodular d M /\ forall j, j < d -> fn C j 0 = M j 0.
Proof.
  induction fuel as [|fuel IH]; intros fd ish A_in def q r C H Hd I Hr; cbn [lift_loop] in H.
  - destruct (def <? target)%Z; [discriminate|]. injection H as <- <-. discriminate.
  - destruct (def <? target)%Z; [|injection H as <- <-; discriminate].
    cbv zeta in H. binv H. destruct a as [[[f nd] U] q']. unfold lift_f_z in Ha.
    apply (dl_unim sib red gtest d redU) in Ha; [|eapply unimodular_ext; [|apply unimodular_id]; intros i j Hi Hj; symmetry; now apply id_mat_fn].
    assert (Un : unimodular d (fun a b => fn (zprod (1 + d) d A_in U) (1 + a) b)).
    { eapply unimodular_ext; [|apply unimodular_mul; [exact I|exact Ha]].
      intros i j Hi Hj. unfold zprod. rewrite fn_mtab by lia. reflexivity. }
    destruct (f =? 1)%Z.
    + apply Okpair in H as [-> ->]. exists (fun a b => fn (zprod (1 + d) d A_in U) (1 + a) b). split; [exact Un|].
      intros j Hj. rewrite fn_mtab by lia. reflexivity.
    + eapply IH; eauto.
Qed.

Lemma lift_total d : 0 < d -> (Z.of_nat d <= 8192)%Z -> (forall z, Z.abs z < 2 ^ sib z)%Z ->
  (forall lm sm dl nd L x, exists x' V, red lm sm dl nd L x = Ok (x', V) /\ longs d V = true) ->
  forall conf shift inc lm target delta, (0 < inc)%Z -> (0 < shift)%Z -> forall fuel fd ish A_in def q,
  (0 < ish <= shift)%Z -> (shift <= Z.of_nat fd)%Z -> (target - def <= Z.of_nat fuel)%Z ->
  exists r C, lift_loop fuel fd d conf shift ish inc lm target delta A_in def q = Ok (r, C).
Proof.
  intros Hd D13 Sib Red conf shift inc lm target delta Hi Hs.
  induction fuel as [|fuel IH]; intros fd ish A_in def q H1 H2 H3; cbn [lift_loop].
  - destruct (Z.ltb_spec def target); [lia|]. eauto.
  - destruct (Z.ltb_spec def target); [|eauto]. cbv zeta.
    set (ish' := if (target - def <=? shift)%Z then (target - def)%Z else ish).
    assert (E : (0 < ish' <= shift)%Z) by (unfold ish'; destruct (Z.leb_spec (target - def) shift); lia).
    unfold lift_f_z.
    destruct (dl_total sib red (fun _ => mkx) gtest (fun _ : D => 0%Z) delta d Hd D13 Sib Red lm 0 delta (- conf) ish' inc Hi fd 0 def
                (mtab 1 d (fun _ j => fn A_in 0 j)) (id_mat d) (mkx (mtab d d (fun i j => fn A_in (1 + i) j))) q ltac:(lia))
      as (f & nd & U & q' & -> & I1 & I2).
    cbn [bind]. destruct (f =? 1)%Z; [eauto|]. apply IH; lia.
Qed.

Lemma lift_diverges d conf shift inc lm target delta : (shift <= 0)%Z -> forall fuel fd A_in def q, (def < target)%Z ->
  lift_loop fuel fd d conf shift shift inc lm target delta A_in def q = NoFuel.
Proof.
  intros Hs. induction fuel as [|fuel IH]; intros fd A_in def q Hd; cbn [lift_loop];
    (destruct (Z.ltb_spec def target); [|lia]); [reflexivity|].
  cbv zeta. destruct (Z.leb_spec (target - def) shift); [lia|].
  unfold lift_f_z. destruct fd; cbn [dl_loop];
    (destruct (Z.ltb_spec 0 shift); [lia|]); cbn [bind]; change (0 =? 1)%Z with false; cbv iota; now apply IH.
Qed.
End Model.
