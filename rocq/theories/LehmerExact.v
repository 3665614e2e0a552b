(** * lehmer_lll in exact arithmetic: the basis it returns is reduced *)
From Coq Require Import ZArith Lia Reals Lra List Bool Arith.
From Verif Require Import Base Spec Mat FP Hlll Hlll2 IntSteps HlllInt LinDep Structure Object UOnly Counters SpecReal Safety Fresh
  Cache Cache2 Cache5 Cache6 Cache7 Stale StaleTop Exact ExactPot ExactTop MatOps MatOpsFacts MachInt Trunc Trunc10 Lehmer DriverSafe.
Import ListNotations.
Local Open Scope R_scope.

Lemma R_factor_meq n d B B' r : meq n d B B' -> R_factor n d B r -> R_factor n d B' r.
Proof.
  intros E (U & P & G). split; [exact U|]. split; [exact P|]. intros j l Hj Hl. rewrite G by assumption.
  apply f_equal, sumZ_ext. intros i Hi. now rewrite !E.
Qed.

Lemma LLL_reduced_meq n d delta B B' : meq n d B B' -> LLL_reduced n d delta B -> LLL_reduced n d delta B'.
Proof. intros E (r & F & Q). exists r. split; [now apply (R_factor_meq n d B)|exact Q]. Qed.

(** ** the bases the lifting loop goes through, for the statements *)
(** the first row divided by 2^e (rounded down), the other rows unchanged *)
Definition row0_div (C : zmat) (e : Z) : zmat := fun i j => if (i =? 0)%nat then (C 0%nat j / 2 ^ e)%Z else C i j.

(** [visited n d A bits lshift delta e C]: C may be the current basis when e bits of the first row are still
    to be taken: it starts from A and all the bits, and one step takes lshift more bits, reduces the truncated
    matrix and applies the same transformation to C *)
Inductive visited (n d : nat) (A : zmat) (bits lshift : Z) (delta : R) : Z -> zmat -> Prop :=
| v_start C : meq n d C A -> visited n d A bits lshift delta bits C
| v_step e C U C' : visited n d A bits lshift delta e C -> (0 < e)%Z -> unimodular d U ->
    LLL_reduced n d delta (mmul d (row0_div C (Z.max 0 (e - lshift))) U) -> meq n d C' (mmul d C U) ->
    visited n d A bits lshift delta (Z.max 0 (e - lshift)) C'.

Section LehmerX.
Variable fp : fpops R.
Hypothesis X : exact fp.
Variables (J : junk_t (F := R)) (junk d99 : R).
Hypothesis HD : d99 <= 1.
Notation fz := (fzero fp).

(** the object lehmer_lll works with *)
Definition lobj (n d : nat) (L : lattice R) : Prop :=
  lsafe n d L /\ ctransf (lcfg L) = true /\ cS (lcfg L) = 1%nat /\ (cseysen (lcfg L) < 1)%Z /\ cnblov_max (lcfg L) = 4294967295%Z.

(** the floating-point copy held by the object is zero wherever B is, except in the first row *)
Definition lcopy (n d : nat) (B : zmat) (L : lattice R) : Prop :=
  forall i j, (1 <= i < n)%nat -> (j < d)%nat -> B i j = 0%Z -> mget fz (fBfp (lf L)) i j = fz.

Lemma lehmer_step n d fh Ct L : (2 <= d <= n)%nat -> lobj n d L -> independent n d (fn Ct) -> lcopy n d (fn Ct) L ->
  (Z.of_nat fh < 4294967295)%Z ->
  match hlll fp fh d99 false junk (assign Ct L) with
  | Ok (r, L2) => lobj n d L2 /\ unimodular d (ent (dU L2)) /\ LLL_reduced n d d99 (mmul d (fn Ct) (ent (dU L2))) /\
      lcopy n d (mmul d (fn Ct) (ent (dU L2))) L2
  | UB => False
  | NoFuel => (forall x, Rabs x <= / 2 -> frnd fp x = 0) -> (Z.of_nat fh < 2 * potential n d (fn Ct) + Z.of_nat d + 1)%Z
  end.
Proof using X J HD.
  intros Hd (LS & HT & HS & HM & HB) HI HC HF. pose proof LS as (E1 & E2 & _).
  pose proof (exact_zero_laws fp X) as ZL. pose proof (e_expo fp X) as EX.
  set (Bt := mtab (cn (lcfg L)) (cd (lcfg L)) (fn Ct)).
  assert (EB : meq n d (fn Bt) (fn Ct)) by (unfold Bt; rewrite E1, E2; apply fn_mtab).
  assert (IB : independent n d (fn Bt)) by (eapply independent_ext; [apply meq_sym, EB|exact HI]).
  destruct (ready_reassign fp Ct L) as (RD & ZR).
  { rewrite E1, E2. exact LS. } { exact ZL. } { rewrite E1, E2. now apply independent_staircase. }
  { fold Bt. rewrite E1, E2. intros j i Hj Hi. apply HC; auto.
    - pose proof (ms_staircase Bt n d j (independent_staircase _ _ _ IB) Hj). lia.
    - rewrite <- EB by lia. now apply (ms_zero Bt n d). }
  set (L1 := assign Ct L) in *.
  assert (C1 : lcfg L1 = lcfg L) by reflexivity.
  pose proof (hlll_exact fp X L1 fh d99 false junk RD HS HM) as Q. rewrite C1, E1, E2 in Q.
  assert (QB : iB (li L1) = Bt) by reflexivity. rewrite QB in Q. specialize (Q IB).
  rewrite (potential_ext n d _ _ EB) in Q.
  assert (LS1 : lsafe n d L1) by (exact (assign_lsafe (fun x _ => x) (fun _ _ _ => J) 0 0%Z n d Ct L LS)).
  pose proof (hlll_safe fp n d fh d99 false junk L1 ltac:(lia) LS1) as SF.
  destruct (hlll fp fh d99 false junk L1) as [[r L2]| |] eqn:E; [|contradiction|intros HH; apply Q; [exact HH|lra]].
  cbn [safe snd] in SF. destruct SF as (LS2 & C2). destruct Q as (_ & Q & _).
  destruct Q as [(-> & Q)|(_ & Q)]; [|lra].
  pose proof (hlll_tests fp fh d99 false junk L1 _ _ E) as T. assert (L10 : nblov (lc L1) = 0%Z) by reflexivity.
  rewrite HB in Q. specialize (Q ltac:(lia) ltac:(lia) (fun _ _ => 0)). cbv zeta in Q.
  (* the transformation *)
  destruct (hlll_inv fp fh d99 false junk L1 0%Z L2 EX E) as (_ & _ & ST); [apply mtab_wfm|].
  specialize (ST (or_introl HS)).
  assert (SC : staircase (cn (lcfg L1)) (cd (lcfg L1)) (fn Bt)) by (rewrite C1, E1, E2; now apply independent_staircase).
  assert (EI : li L1 = mkI Bt (id_mat (cd (lcfg L1))) (matrix_structure Bt (cn (lcfg L1)) (cd (lcfg L1)))).
  { unfold L1, assign. cbn [li lcfg]. rewrite HT. reflexivity. }
  destruct (isteps_uok (lcfg L1) (li L1) (li L2) ST HT) as (_ & _ & V & UV & VB & VU).
  { rewrite EI. apply bok_init, mtab_wfm. } { rewrite EI. now apply uok_init. }
  rewrite C1, E1, E2 in *. 
  assert (EU : meq d d (ent (dU L2)) V).
  { unfold dU, ent. rewrite C2, HT. cbn [de]. unfold getU. rewrite C2, HT, E2.
    intros i j Hi Hj. rewrite fn_mtab by assumption. rewrite VU by assumption. rewrite EI. cbn [iU].
    rewrite (mmul_ext d d d _ mid V V (id_mat_fn d) (meq_refl _ _ _)) by assumption. apply (mmul_id_l d d V); assumption. }
  assert (BV : meq n d (fn (iB (li L2))) (mmul d (fn Ct) (ent (dU L2)))).
  { eapply meq_trans; [exact VB|]. apply mmul_ext; [rewrite QB; exact EB|now apply meq_sym]. }
  assert (GB : meq n d (fn (getbase L2)) (fn (iB (li L2)))).
  { unfold getbase. rewrite C2, E1, E2. apply fn_mtab. }
  split; [|split; [|split]].
  - split; [exact LS2|]. rewrite C2. auto.
  - eapply unimodular_ext; [apply meq_sym, EU|exact UV].
  - exists (fun i j => mget 0 (getR fp (fun _ _ => 0) L2) i j). destruct Q as (Q1 & Q2). split; [|exact Q2].
    revert Q1. apply R_factor_meq. eapply meq_trans; [exact GB|exact BV].
  - intros i j Hi Hj Z. rewrite (hlll_copy fp EX L1 fh d99 false junk L2 ZL RD); try rewrite C1; try rewrite E1; try rewrite E2; auto; try lia.
    rewrite BV by lia. rewrite Z. apply ZL.
Qed.

Lemma lifted_0 n d A : meq n d (lifted A 0) A.
Proof using. intros [|i] j _ _; cbn [lifted]; [|reflexivity]. cbn. lia. Qed.

Lemma lifted_div n d C def : (def <= 0)%Z -> meq n d (lifted C def) (row0_div C (- def)).
Proof using.
  intros H [|i] j _ _; unfold row0_div; cbn [lifted Nat.eqb]; [|reflexivity]. destruct (Z.leb_spec 0 def); [|reflexivity].
  replace def with 0%Z by lia. cbn. rewrite Z.div_1_r. lia.
Qed.

Lemma lehmer_loop_exact fh lshift bits A n d : (2 <= d <= n)%nat -> (0 < lshift)%Z -> (Z.of_nat fh < 4294967295)%Z ->
  forall fuel C Ct L def, dwf C -> dr C = n -> dc C = d -> dwf Ct -> dr Ct = n -> dc Ct = d -> lobj n d L -> (def <= 0)%Z ->
  independent (n - 1) d (lower (ent C)) -> lcopy n d (ent C) L -> visited n d A bits lshift d99 (- def) (ent C) ->
  match lehmer_loop fp junk d99 fuel fh lshift false C Ct L def with
  | Ok (Cf, _) => (def < 0)%Z -> LLL_reduced n d d99 (ent Cf)
  | UB => False
  | NoFuel => (forall x, Rabs x <= / 2 -> frnd fp x = 0) -> (- def <= Z.of_nat fuel * lshift)%Z ->
      exists e B, visited n d A bits lshift d99 e B /\ (0 < e)%Z /\
        (Z.of_nat fh < 2 * potential n d (row0_div B (Z.max 0 (e - lshift))) + Z.of_nat d + 1)%Z
  end.
Proof using X J HD.
  intros Hd Hs HF. induction fuel as [|fuel IH]; intros C Ct L def WC C1 C2 WT T1 T2 HO Hdef HI HC HV; cbn [lehmer_loop].
  - destruct (Z.ltb_spec def 0); lia.
  - destruct (Z.ltb_spec def 0) as [Lt|Ge]; [|lia]. cbv zeta.
    set (def' := Z.min 0 (def + lshift)).
    destruct (lift_truncate_ok Ct C def' 0 WT ltac:(lia) ltac:(lia))
      as (Ct' & mm & E & D1 & D2 & WT' & _ & V & _).
    rewrite E. cbn [bind].
    assert (ET : meq n d (fn (de Ct')) (lifted (ent C) def')).
    { intros i j Hi Hj. change (fn (de Ct') i j) with (ent Ct' i j). rewrite V by lia. cbn. now rewrite Z.div_1_r. }
    assert (ETd : meq n d (fn (de Ct')) (row0_div (ent C) (Z.max 0 (- def - lshift)))).
    { eapply meq_trans; [exact ET|]. replace (Z.max 0 (- def - lshift)) with (- def')%Z by (unfold def'; lia).
      apply lifted_div. unfold def'. lia. }
    assert (LT : forall i j, (1 <= i < n)%nat -> (j < d)%nat -> ent Ct' i j = ent C i j).
    { intros [|i] j Hi Hj; [lia|]. change (ent Ct' (S i) j) with (fn (de Ct') (S i) j). now rewrite ET by lia. }
    assert (IT : independent n d (fn (de Ct'))).
    { apply independent_lower. eapply independent_ext; [|exact HI]. intros i j Hi Hj. unfold lower. symmetry. apply LT; lia. }
    pose proof (lehmer_step n d fh (de Ct') L Hd HO IT) as Q.
    assert (HC' : lcopy n d (fn (de Ct')) L).
    { intros i j Hi Hj Z. apply HC; auto. rewrite <- LT by assumption. exact Z. }
    specialize (Q HC' HF).
    destruct (hlll fp fh d99 false junk (assign (de Ct') L)) as [[r L2]| |]; cbn [bind]; auto.
    2:{ intros HH _. exists (- def)%Z, (ent C). split; [exact HV|]. split; [lia|]. specialize (Q HH).
        rewrite (potential_ext n d _ _ ETd) in Q. exact Q. }
    destruct Q as (HO2 & UU & RR & HC2).
    assert (U12 : dr (dU L2) = d /\ dc (dU L2) = d).
    { destruct HO2 as ((_ & G2 & _) & G3 & _). unfold dU. rewrite G3. cbn. auto. }
    destruct U12 as (U1 & U2).
    destruct (matprod_in_ok C (dU L2) WC ltac:(lia) ltac:(lia) ltac:(lia)) as (C' & EP & WC' & C1' & C2' & VP).
    rewrite EP. cbn [bind]. rewrite C1, C2 in VP.
    assert (LM : forall i j, (1 <= i < n)%nat -> (j < d)%nat -> mmul d (fn (de Ct')) (ent (dU L2)) i j = ent C' i j).
    { intros i j Hi Hj. rewrite VP by lia. unfold mmul. apply sumZ_ext. intros k Hk. change (fn (de Ct') i k) with (ent Ct' i k).
      now rewrite LT by lia. }
    specialize (IH C' Ct' L2 def' WC' ltac:(congruence) ltac:(congruence) WT' ltac:(congruence) ltac:(congruence) HO2 ltac:(lia)).
    assert (HI' : independent (n - 1) d (lower (ent C'))).
    { eapply independent_ext; [|apply (independent_mul (n - 1) d _ (ent (dU L2)) HI UU)].
      intros i j Hi Hj. unfold lower. rewrite VP by lia. reflexivity. }
    assert (HC3 : lcopy n d (ent C') L2).
    { intros i j Hi Hj Z. apply HC2; auto. now rewrite LM. }
    assert (HV' : visited n d A bits lshift d99 (- def') (ent C')).
    { replace (- def')%Z with (Z.max 0 (- def - lshift)) by (unfold def'; lia).
      apply (v_step n d A bits lshift d99 (- def) (ent C) (ent (dU L2))); auto; [lia|].
      revert RR. apply LLL_reduced_meq. apply mmul_ext; [exact ETd|apply meq_refl]. }
    specialize (IH HI' HC3 HV').
    destruct (Z.eq_dec def' 0) as [E0|N0].
    + assert (ER : lehmer_loop fp junk d99 fuel fh lshift false C' Ct' L2 def' = Ok (C', [])).
      { rewrite E0. destruct fuel; reflexivity. }
      rewrite ER in *. cbn [bind]. intros _. revert RR. apply LLL_reduced_meq.
      eapply meq_trans; [|apply meq_sym, VP]. apply mmul_ext; [|apply meq_refl].
      eapply meq_trans; [exact ET|]. rewrite E0. apply lifted_0.
    + destruct (lehmer_loop fp junk d99 fuel fh lshift false C' Ct' L2 def') as [[Cf cts]| |]; cbn [bind]; auto.
      * intros _. apply IH. lia.
      * intros HH HFU. apply (IH HH). lia.
Qed.

Lemma lobj_new n d A : lobj n d (new_lattice fp J n d A true 0 true 0).
Proof using. split; [apply new_lsafe|]. cbn [lcfg new_lattice ctransf cS cseysen cnblov_max]. repeat split; lia. Qed.

Lemma lehmer_exact fuel fh A delta lshift : dwf A -> (2 <= dc A)%nat -> (0 < dr A)%nat -> (0 < lshift)%Z -> (Z.of_nat fh < 4294967295)%Z ->
  independent (dr A - 1) (dc A) (lower (ent A)) ->
  match lehmer_lll fp J junk d99 fuel fh A delta lshift false with
  | Ok (C, _) => LLL_reduced (dr A) (dc A) d99 (ent C)
  | UB => False
  | NoFuel => (forall x, Rabs x <= / 2 -> frnd fp x = 0) ->
      forall bits, maxbitsize A = Ok bits -> (bits <= Z.of_nat fuel * lshift)%Z ->
      exists e B, visited (dr A) (dc A) (ent A) bits lshift d99 e B /\ (0 < e)%Z /\
        (Z.of_nat fh < 2 * potential (dr A) (dc A) (row0_div B (Z.max 0 (e - lshift))) + Z.of_nat (dc A) + 1)%Z
  end.
Proof using X J HD.
  intros WA D2 Hn Hs HF HI. unfold lehmer_lll. destruct (Z.eqb_spec lshift 0); [lia|]. cbv zeta.
  assert (DN : (dc A <= dr A)%nat).
  { pose proof (independent_lower _ _ _ HI) as HI'.
    pose proof (ms_staircase (mtab (dr A) (dc A) (ent A)) (dr A) (dc A) (dc A - 1)) as M.
    pose proof (ms_le (mtab (dr A) (dc A) (ent A)) (dr A) (dc A) (dc A - 1) ltac:(lia)).
    assert (SC : staircase (dr A) (dc A) (fn (mtab (dr A) (dc A) (ent A)))).
    { apply independent_staircase. eapply independent_ext; [apply meq_sym, fn_mtab|exact HI']. }
    specialize (M SC ltac:(lia)). lia. }
  destruct (set_from_ok (resize0 (dr A) (dc A)) A WA (resize0_wf _ _)) as (C0 & E & WC & Rr & Dd & V & _); cbn [dr dc resize0]; try lia.
  rewrite E. cbn [bind]. cbn [dr dc resize0] in Rr, Dd.
  destruct (maxbitsize_ok A) as (b & Eb & Hb & HB & _). rewrite Eb. cbn [bind].
  assert (HI0 : independent (dr A - 1) (dc A) (lower (ent C0))).
  { eapply independent_ext; [|exact HI]. intros i j Hi Hj. unfold lower. symmetry. apply V; lia. }
  assert (HB1 : (1 <= b)%Z).
  { specialize (HB 0%nat 0%nat Hn ltac:(lia)). pose proof (sizeinbase2_pos (ent A 0%nat 0%nat)). lia. }
  pose proof (lehmer_loop_exact fh lshift b (ent A) (dr A) (dc A) ltac:(lia) Hs HF fuel C0 (resize0 (dr A) (dc A))
    (new_lattice fp J (dr A) (dc A) (de (resize0 (dr A) (dc A))) true 0 true 0) (- b)%Z WC Rr Dd (resize0_wf _ _) eq_refl eq_refl
    (lobj_new _ _ _) ltac:(lia) HI0) as Q.
  assert (HC : lcopy (dr A) (dc A) (ent C0) (new_lattice fp J (dr A) (dc A) (de (resize0 (dr A) (dc A))) true 0 true 0)).
  { intros i j Hi Hj _. unfold new_lattice. cbn [lf init_f fBfp]. rewrite mget_mtab by lia. reflexivity. }
  assert (HV : visited (dr A) (dc A) (ent A) b lshift d99 (- - b) (ent C0)).
  { rewrite Z.opp_involutive. apply v_start. intros i j Hi Hj. now apply V. }
  specialize (Q HC HV). destruct (lehmer_loop _ _ _ _ _ _ _ _ _ _ _) as [[Cf cts]| |]; auto.
  - apply Q. lia.
  - intros HH bits Eb' Hb'. injection Eb' as <-. apply (Q HH). lia.
Qed.

End LehmerX.
