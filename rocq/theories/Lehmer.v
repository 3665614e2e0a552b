(** * lehmer_lll (src/lehmer.cc 57-193) and the recursive L1 driver (src/l1.h 35-137), ZT = mpz_t

    The inner lattice object is the model of Hlll.v, for an arbitrary floating-point type. *)
From Coq Require Import ZArith Lia List Bool Arith.
From Verif Require Import Base Spec Mat FP Hlll IntSteps HlllInt LinDep Structure Hlll2 Object UOnly
  MatOps MatOpsFacts MachInt Trunc Trunc10.
Import ListNotations.

Section Drivers.
Context {F : Type} (fp : fpops F).
Variable J : junk_t (F := F).      (* uninitialised memory of the Lattice object *)
Variable junk : F.                 (* uninitialised prevR of hlll *)
Variable d99 : F.                  (* 0.99 *)

(** Lattice::getU as a ZZ_mat *)
Definition dU (L : lattice F) : dmat :=
  if ctransf (lcfg L) then mkD (cd (lcfg L)) (cd (lcfg L)) (getU L) else mkD 0 0 [].
Definition dbase (L : lattice F) : dmat := mkD (cn (lcfg L)) (cd (lcfg L)) (getbase L).

(** the Lehmer loop on the defect, lehmer.cc 112-176.  [fuel] bounds the loop, [fh] the inner
    hlll.  The truncated matrices given to the inner reduction are returned as well (for the
    statements; the program does not keep them).  pmatprod_in_int(C,U,S) is replaced by the
    sequential product (its parallel execution is C14, MatPar.v).  int overflow of def + lshift
    is not modelled. *)
Fixpoint lehmer_loop (fuel fh : nat) (lshift : Z) (truncate : bool) (C Ct : dmat) (L : lattice F) (def : Z)
  : res (dmat * list dmat) :=
  if (def <? 0)%Z then
    match fuel with
    | O => NoFuel
    | S fuel' =>
        let def' := Z.min 0 (def + lshift) in
        let* Ct' := lift_truncate Ct C def' (if truncate then 40 else 0) in
        let L1 := assign (de Ct') L in
        let* (_, L2) := hlll fp fh d99 false junk L1 in
        let* C' := matprod_in C (dU L2) in
        let* (Cf, cts) := lehmer_loop fuel' fh lshift truncate C' Ct' L2 def' in
        Ok (Cf, Ct' :: cts)
    end
  else Ok (C, []).

(** lehmer_lll(C,A,delta,lshift,truncate,S), lehmer.cc 57-193 *)
Definition lehmer_lll (fuel fh : nat) (A : dmat) (delta : F) (lshift : Z) (truncate : bool)
  : res (dmat * list dmat) :=
  if (lshift =? 0)%Z then
    let* (_, L) := hlll fp fh delta false junk (new_lattice fp J (dr A) (dc A) (de A) false 0 true 0) in
    Ok (dbase L, [])
  else
    let Ct := resize0 (dr A) (dc A) in
    let* C := set_from (resize0 (dr A) (dc A)) A in
    let* bits := maxbitsize A in
    lehmer_loop fuel fh lshift truncate C Ct (new_lattice fp J (dr A) (dc A) (de Ct) true 0 true 0) (- bits)%Z.

(** ** The recursive L1 driver, l1.h *)
Variable e10 : Z -> Z.             (* the double expressions of trunc, see Trunc10.v *)
Variable e10' : Z -> Z -> Z.

(** put(A,upperdim,t,tau), hlll.cc 2193-2209 *)
Definition put (A : dmat) (upperdim : nat) (t tau : Z) (L : lattice F) : res (lattice F) :=
  let c := lcfg L in
  let* M := trunc e10 e10' (mkD (cn c) (cd c) (iB (li L))) A upperdim (cd c) (cn c) t tau in
  Ok (put_raw (de M) L).

(** rec(U,B,L,leafbits,l,level,HLLL), l1.h 35-110; the result is U and the shared Lattice object *)
Fixpoint l1_rec (fuel fh : nat) (leafbits : Z) (B : dmat) (L : lattice F) (l : Z) (level : Z)
  : res (dmat * lattice F) :=
  if (l <=? leafbits)%Z then
    let* L1 := put B 1 0 0 L in
    let* (_, L2) := hlll fp fh d99 false junk L1 in
    Ok (dU L2, L2)
  else
    match fuel with
    | O => NoFuel
    | S fuel' =>
        let n := dr B in let d := dc B in
        let h := Z.quot l 2 in
        let t := (h + Z.of_nat d + 2 * (level + 1))%Z in
        let* C1 := trunc e10 e10' (resize0 n d) B 1 d n t h in
        let* (U, L1) := l1_rec fuel' fh leafbits C1 L h (level + 1) in
        let* C1' := matprod C1 B U in
        let* C2 := trunc e10 e10' (resize0 n d) C1' 1 d n t 0 in
        let* (U2, L2) := l1_rec fuel' fh leafbits C2 L1 h (level + 1) in
        let* U' := matprod_rows U U2 in
        Ok (U', L2)
    end.

(** l1(B,A,leafbits,HLLL), l1.h 113-137: B and (for the statement) U *)
Definition l1 (fuel fh : nat) (leafbits : Z) (A : dmat) : res (dmat * dmat) :=
  let L := new_lattice fp J (dr A) (dc A) (de A) true 0 true 0 in
  let* l := maxbitsize A in
  let* (U, _) := l1_rec fuel fh leafbits A L l 0 in
  let* B := matprod (resize0 (dr A) (dc A)) A U in
  Ok (B, U).

(** ** Facts *)
Hypothesis EX : expo_nonneg fp.

(** object state: dimensions, transformation requested *)
Definition obj (n d : nat) (L : lattice F) : Prop :=
  cn (lcfg L) = n /\ cd (lcfg L) = d /\ ctransf (lcfg L) = true /\ wfm n d (iB (li L)).

Lemma obj_new n d A : obj n d (new_lattice fp J n d A true 0 true 0).
Proof. unfold obj, new_lattice. cbn. repeat split; auto. apply mtab_wfm. apply mtab_wfm. Qed.

Lemma dU_dims n d L : obj n d L -> dr (dU L) = d /\ dc (dU L) = d.
Proof. intros (H1 & H2 & H3 & _). unfold dU. rewrite H3. cbn. auto. Qed.

Lemma assign_reduce_U n d fh C L r L2 : obj n d L -> staircase n d (fn C) ->
  hlll fp fh d99 false junk (assign C L) = Ok (r, L2) ->
  obj n d L2 /\ unimodular d (ent (dU L2)).
Proof.
  intros (H1 & H2 & H3 & H4) HI H.
  apply hlll_U in H as (E & W & _ & _ & _ & U); auto.
  - unfold assign in *. cbn [lcfg li iB] in *. rewrite H1, H2 in *.
    split; [unfold obj; rewrite E; repeat split; auto; apply W|].
    unfold dU. rewrite E, H3. unfold ent. cbn [de]. exact U.
  - unfold assign. cbn [lcfg li iB]. apply mtab_wfm.
  - unfold assign. cbn [lcfg li iS]. rewrite H1, H2. now apply sok_structure.
  - unfold assign. cbn [lcfg li iU]. now rewrite H3.
Qed.

Lemma hlll_obj n d fh C L r L2 : obj n d L ->
  hlll fp fh d99 false junk (assign C L) = Ok (r, L2) -> obj n d L2.
Proof.
  intros (H1 & H2 & H3 & H4) H.
  destruct (hlll_inv fp fh d99 false junk (assign C L) r L2 EX H) as (E & P & _).
  { unfold assign. cbn [lcfg li iB]. apply mtab_wfm. }
  apply isteps_wf in P; [|unfold assign; cbn [lcfg li iB]; apply mtab_wfm].
  unfold assign in E, P. cbn [lcfg] in E, P. rewrite H1, H2 in P. unfold obj. rewrite E. auto.
Qed.

(** number of lifting steps *)
Definition lift_steps (bits lshift : Z) : Z := ((bits + lshift - 1) / lshift)%Z.

Lemma lehmer_loop_spec fuel fh lshift truncate n d : (0 < n) -> (0 < d) -> (0 < lshift)%Z ->
  forall C Ct L def Cf cts, dwf C -> dr C = n -> dc C = d -> dwf Ct -> dr Ct = n -> dc Ct = d -> obj n d L -> (def <= 0)%Z ->
  lehmer_loop fuel fh lshift truncate C Ct L def = Ok (Cf, cts) ->
  dr Cf = n /\ dc Cf = d /\ Z.of_nat (length cts) = lift_steps (- def) lshift /\
  (forall ct, In ct cts -> dr ct = n /\ dc ct = d) /\
  ((forall ct, In ct cts -> staircase n d (ent ct)) ->
    exists U, unimodular d U /\ meq n d (ent Cf) (mmul d (ent C) U)).
Proof.
  intros Hn Hd Hs. induction fuel as [|fuel IH]; intros C Ct L def Cf cts WC C1 C2 WT T1 T2 HO Hdef H; cbn [lehmer_loop] in H.
  - destruct (Z.ltb_spec def 0); [discriminate|]. injection H as <- <-.
    do 2 (split; [assumption|]). split; [|split].
    + replace def with 0%Z by lia. unfold lift_steps. cbn. rewrite Z.div_small; lia.
    + intros ct [].
    + intros _. exists mid. split; [apply unimodular_id|]. apply meq_sym, mmul_id_r.
  - destruct (Z.ltb_spec def 0) as [Lt|Ge].
    2:{ injection H as <- <-. do 2 (split; [assumption|]). split; [|split].
      + replace def with 0%Z by lia. unfold lift_steps. cbn. rewrite Z.div_small; lia.
      + intros ct [].
      + intros _. exists mid. split; [apply unimodular_id|]. apply meq_sym, mmul_id_r. }
    destruct (lift_truncate_ok Ct C (Z.min 0 (def + lshift)) (if truncate then 40 else 0)%Z WT ltac:(lia) ltac:(lia))
      as (Ct' & mm & E & D1 & D2 & WT' & _).
    rewrite E in H. cbn [bind] in H.
    apply bind_Ok in H as ([r L2] & H2 & H). pose proof (hlll_obj _ _ _ _ _ _ _ HO H2) as HO2.
    destruct (dU_dims _ _ _ HO2) as [U1 U2].
    destruct (matprod_in_ok C (dU L2) WC ltac:(lia) ltac:(lia) ltac:(lia)) as (C' & EP & WC' & C1' & C2' & VP).
    rewrite EP in H. cbn [bind] in H. apply bind_Ok in H as ([Cf' cts'] & H3 & H). injection H as <- <-.
    apply IH in H3 as (F1 & F2 & F3 & F4 & F5); auto; try congruence; try lia.
    do 2 (split; [assumption|]). split; [|split].
    + cbn [length]. rewrite Nat2Z.inj_succ, F3. unfold lift_steps.
      destruct (Z.le_gt_cases 0 (def + lshift)) as [G|G].
      * rewrite Z.min_l by lia. replace (- 0 + lshift - 1)%Z with (lshift - 1)%Z by lia. rewrite (Z.div_small (lshift - 1)) by lia.
        apply (Z.div_unique _ _ (Z.succ 0) (- def - 1)); lia.
      * rewrite Z.min_r by lia. replace (- def + lshift - 1)%Z with (- (def + lshift) + lshift - 1 + 1 * lshift)%Z by lia.
        rewrite Z.div_add by lia. lia.
    + intros ct [<-|I]; [|auto]. split; congruence.
    + intros HI. destruct (F5 (fun ct I => HI ct (or_intror I))) as (V & UV & EV).
      destruct (assign_reduce_U n d fh (de Ct') L r L2 HO (HI Ct' (or_introl eq_refl)) H2) as [_ UU].
      exists (mmul d (ent (dU L2)) V). split; [now apply unimodular_mul|].
      apply mmul_mul_r. eapply meq_trans; [exact EV|]. apply mmul_ext; [|apply meq_refl].
      rewrite C1, C2 in VP. exact VP.
Qed.

Lemma put_ok n d A t L : obj n d L -> sok d (iS (li L)) -> 0 < n -> dr A = n -> dc A = d -> (0 <= t)%Z ->
  exists L', put A 1 t 0 L = Ok L' /\ obj n d L' /\ sok d (iS (li L')) /\ iU (li L') = id_mat d /\ lcfg L' = lcfg L.
Proof.
  intros (H1 & H2 & H3 & H4) HS Hn A1 A2 Ht. unfold put.
  destruct (trunc_ok e10 e10' (mkD (cn (lcfg L)) (cd (lcfg L)) (iB (li L))) A 1 (cd (lcfg L)) (cn (lcfg L)) t 0)
    as (B' & E & _); cbn [dr dc]; try lia.
  { unfold dwf. cbn. rewrite H1, H2. exact H4. }
  rewrite E. cbn [bind]. eexists. split; [reflexivity|]. unfold put_raw, obj. cbn [lcfg li iS iU iB].
  rewrite H1, H2, H3. repeat split; auto; try apply HS; apply mtab_wfm.
Qed.

Lemma l1_rec_spec n d fh leafbits : 0 < n -> 0 < d ->
  forall fuel B L l level U L', (0 <= l)%Z -> (0 <= level)%Z -> dwf B -> dr B = n -> dc B = d -> obj n d L -> sok d (iS (li L)) ->
  l1_rec fuel fh leafbits B L l level = Ok (U, L') ->
  dwf U /\ dr U = d /\ dc U = d /\ unimodular d (ent U) /\ obj n d L' /\ sok d (iS (li L')).
Proof.
  intros Hn Hd. induction fuel as [|fuel IH]; intros B L l level U L' Hl Hv WB B1 B2 HO HS H.
  all: cbn [l1_rec] in H; destruct (Z.leb_spec l leafbits) as [Le|Gt].
  2: discriminate.
  1, 2: destruct (put_ok n d B 0 L HO HS Hn B1 B2 ltac:(lia)) as (L1 & E & HO1 & HS1 & HI & _);
    rewrite E in H; cbn [bind] in H; apply bind_Ok in H as ([r L2] & H2 & H); injection H as <- <-;
    destruct HO1 as (K1 & K2 & K3 & K4);
    destruct (hlll_U fp EX _ _ _ _ _ _ _ H2 K3) as (E2 & W2 & S2 & WU & _ & UU); [rewrite K1, K2; exact K4|rewrite K2; exact HS1|rewrite K2; exact HI|];
    rewrite K2 in *; rewrite K1 in *; unfold dU; rewrite E2, K3, K2; unfold dwf, ent; cbn [dr dc de];
    (split; [unfold getU; rewrite E2, K3, K2; apply mtab_wfm|]);
    do 2 (split; [reflexivity|]); (split; [exact UU|]); (split; [unfold obj; rewrite E2; auto|exact S2]).
  assert (Q : (0 <= Z.quot l 2)%Z) by (apply Z.quot_pos; lia).
  rewrite B1, B2 in H. cbv zeta in H.
  destruct (trunc_ok e10 e10' (resize0 n d) B 1 d n (Z.quot l 2 + Z.of_nat d + 2 * (level + 1)) (Z.quot l 2) (resize0_wf n d))
    as (C1 & E & WC & R1 & D1 & _); cbn [dr dc resize0]; try lia.
  rewrite E in H. cbn [bind] in H. cbn [dr dc resize0] in R1, D1.
  apply bind_Ok in H as ([U1 L1] & H1 & H).
  apply IH in H1 as (WU & U11 & U12 & UU & HO1 & HS1); auto; try lia.
  destruct (matprod_ok C1 B U1 WC ltac:(lia) ltac:(lia) ltac:(lia) ltac:(lia)) as (C1' & E1 & WC' & R1' & D1' & _).
  rewrite E1 in H. cbn [bind] in H.
  destruct (trunc_ok e10 e10' (resize0 n d) C1' 1 d n (Z.quot l 2 + Z.of_nat d + 2 * (level + 1)) 0 (resize0_wf n d))
    as (C2 & E2 & WC2 & R2 & D2 & _); cbn [dr dc resize0]; try lia.
  rewrite E2 in H. cbn [bind] in H. cbn [dr dc resize0] in R2, D2.
  apply bind_Ok in H as ([U2 L2] & H2 & H).
  apply IH in H2 as (WU2 & U21 & U22 & UU2 & HO2 & HS2); auto; try lia.
  destruct (matprod_rows_ok U1 U2 WU ltac:(lia) ltac:(lia) ltac:(lia)) as (U' & E3 & WU' & R3 & D3 & V).
  rewrite E3 in H. cbn [bind] in H. injection H as <- <-.
  split; [exact WU'|]. do 2 (split; [congruence|]). split; [|auto].
  rewrite U11, U12 in V. eapply unimodular_ext; [apply meq_sym; exact V|]. now apply unimodular_mul.
Qed.

(** the recursion depth is at most log2 of the bit size *)
Lemma l1_rec_fuel fh leafbits : (0 <= leafbits)%Z ->
  forall fuel k B L l level, (0 <= l < 2 ^ Z.of_nat fuel)%Z ->
  l1_rec (k + fuel) fh leafbits B L l level = l1_rec fuel fh leafbits B L l level.
Proof.
  intros Hb. induction fuel as [|fuel IH]; intros k B L l level Hl.
  - assert (l = 0%Z) by (change (2 ^ Z.of_nat 0)%Z with 1%Z in Hl; lia). subst.
    destruct k; cbn; (destruct (Z.leb_spec 0 leafbits); [reflexivity|lia]).
  - rewrite Nat.add_succ_r. cbn [l1_rec]. destruct (Z.leb_spec l leafbits); [reflexivity|].
    assert (Q : (0 <= Z.quot l 2 < 2 ^ Z.of_nat fuel)%Z).
    { rewrite Nat2Z.inj_succ, Z.pow_succ_r in Hl by lia. rewrite Z.quot_div_nonneg by lia.
      split; [apply Z.div_pos; lia|]. apply Z.div_lt_upper_bound; lia. }
    cbv zeta. destruct (trunc _ _ _ B _ _ _ _ _); cbn [bind]; try reflexivity.
    rewrite IH by exact Q. destruct (l1_rec fuel _ _ _ _ _ _) as [[U1 L1]| |]; cbn [bind]; try reflexivity.
    destruct (matprod _ _ _); cbn [bind]; try reflexivity.
    destruct (trunc _ _ _ _ _ _ _ _ _); cbn [bind]; try reflexivity.
    rewrite IH by exact Q. reflexivity.
Qed.

Lemma l1_spec fuel fh leafbits A B U : dwf A -> 0 < dr A -> 0 < dc A -> staircase (dr A) (dc A) (ent A) ->
  l1 fuel fh leafbits A = Ok (B, U) ->
  dr B = dr A /\ dc B = dc A /\ dr U = dc A /\ dc U = dc A /\ unimodular (dc A) (ent U) /\ meq (dr A) (dc A) (ent B) (mmul (dc A) (ent A) (ent U)).
Proof.
  intros WA Hn Hd HI H. unfold l1 in H.
  destruct (maxbitsize_ok A) as (b & E & Hb & _). rewrite E in H. cbn [bind] in H.
  apply bind_Ok in H as ([U1 L1] & H1 & H).
  apply (l1_rec_spec (dr A) (dc A) fh leafbits Hn Hd) in H1 as (WU & U11 & U12 & UU & _); auto; try lia.
  2:{ unfold obj, new_lattice. cbn. repeat split; auto; apply mtab_wfm. }
  2:{ unfold new_lattice. cbn [li iS]. apply sok_structure. exact HI. }
  destruct (matprod_ok (resize0 (dr A) (dc A)) A U1 (resize0_wf _ _)) as (B1 & E1 & _ & R1 & D1 & V & _); cbn [dr dc resize0]; try lia.
  rewrite E1 in H. cbn [bind] in H. injection H as <- <-.
  cbn [dr dc resize0] in R1, D1. rewrite U12 in V. repeat (split; [assumption|]). exact V.
Qed.

(** ** lehmer_lll *)
Lemma lehmer_spec fuel fh A delta lshift truncate C cts : dwf A -> 0 < dr A -> 0 < dc A -> (0 < lshift)%Z ->
  lehmer_lll fuel fh A delta lshift truncate = Ok (C, cts) ->
  exists bits, maxbitsize A = Ok bits /\
  dr C = dr A /\ dc C = dc A /\ Z.of_nat (length cts) = lift_steps bits lshift /\
  ((forall ct, In ct cts -> staircase (dr A) (dc A) (ent ct)) ->
    exists U, unimodular (dc A) U /\ meq (dr A) (dc A) (ent C) (mmul (dc A) (ent A) U)).
Proof.
  intros WA Hn Hd Hs H. unfold lehmer_lll in H. destruct (Z.eqb_spec lshift 0); [lia|].
  cbv zeta in H.
  destruct (set_from_ok (resize0 (dr A) (dc A)) A WA (resize0_wf _ _)) as (C0 & E & WC & R & D & V & _); cbn [dr dc resize0]; try lia.
  rewrite E in H. cbn [bind] in H. cbn [dr dc resize0] in R, D.
  destruct (maxbitsize_ok A) as (b & Eb & Hb & _). rewrite Eb in H. cbn [bind] in H.
  exists b. split; [exact Eb|].
  apply (lehmer_loop_spec fuel fh lshift truncate (dr A) (dc A) Hn Hd Hs) in H as (F1 & F2 & F3 & _ & F5); auto.
  - rewrite Z.opp_involutive in F3. do 3 (split; [assumption|]). intros HI. destruct (F5 HI) as (U & UU & EU).
    exists U. split; [exact UU|]. eapply meq_trans; [exact EU|]. apply mmul_ext; [|apply meq_refl].
    intros i j Hi Hj. now apply V.
  - apply resize0_wf.
  - apply obj_new.
  - lia.
Qed.

(** the lifting loop makes a bounded number of iterations *)
Lemma lehmer_loop_fuel fh lshift truncate : (0 < lshift)%Z ->
  forall fuel k C Ct L def, (- def <= Z.of_nat fuel * lshift)%Z ->
  lehmer_loop (k + fuel) fh lshift truncate C Ct L def = lehmer_loop fuel fh lshift truncate C Ct L def.
Proof.
  intros Hs. induction fuel as [|fuel IH]; intros k C Ct L def Hd.
  - destruct k; cbn; (destruct (Z.ltb_spec def 0); [lia|reflexivity]).
  - rewrite Nat.add_succ_r. cbn [lehmer_loop]. destruct (def <? 0)%Z; [|reflexivity].
    cbv zeta. destruct (lift_truncate _ _ _ _); cbn [bind]; try reflexivity.
    destruct (hlll _ _ _ _ _ _) as [[r L2]| |]; cbn [bind]; try reflexivity.
    destruct (matprod_in _ _); cbn [bind]; try reflexivity.
    rewrite IH; [reflexivity|]. lia.
Qed.

(** with a negative shift the loop never ends *)
Lemma lehmer_loop_neg fh lshift truncate : (lshift < 0)%Z ->
  forall fuel C Ct L def, (def < 0)%Z -> forall r, lehmer_loop fuel fh lshift truncate C Ct L def <> Ok r.
Proof.
  intros Hs. induction fuel as [|fuel IH]; intros C Ct L def Hd r; cbn [lehmer_loop];
    (destruct (Z.ltb_spec def 0); [|lia]); [discriminate|].
  intros H0. cbv zeta in H0. apply bind_Ok in H0 as (Ct' & _ & H0). apply bind_Ok in H0 as ([r' L2] & _ & H0).
  apply bind_Ok in H0 as (C' & _ & H0). apply bind_Ok in H0 as (x & H0 & _). revert H0. apply IH. lia.
Qed.

Lemma lehmer_loop_lower fuel fh lshift n d : (0 < n) -> (0 < d) ->
  forall C Ct L def Cf cts, dwf C -> dr C = n -> dc C = d -> dwf Ct -> dr Ct = n -> dc Ct = d -> obj n d L ->
  independent (n - 1) d (lower (ent C)) ->
  lehmer_loop fuel fh lshift false C Ct L def = Ok (Cf, cts) ->
  forall ct, In ct cts -> independent n d (ent ct).
Proof.
  intros Hn Hd. induction fuel as [|fuel IH]; intros C Ct L def Cf cts WC C1 C2 WT T1 T2 HO HI H; cbn [lehmer_loop] in H.
  - destruct (def <? 0)%Z; [discriminate|]. injection H as <- <-. intros ct [].
  - destruct (def <? 0)%Z. 2:{ injection H as <- <-. intros ct []. }
    destruct (lift_truncate_ok Ct C (Z.min 0 (def + lshift)) 0 WT ltac:(lia) ltac:(lia))
      as (Ct' & mm & E & D1 & D2 & WT' & _ & V & _).
    rewrite E in H. cbn [bind] in H.
    assert (IT : independent n d (ent Ct')).
    { apply independent_lower. eapply independent_ext; [|exact HI]. intros i j Hi Hj. unfold lower.
      rewrite V by lia. cbn [lifted]. unfold dropped. cbn. now rewrite Z.div_1_r. }
    apply bind_Ok in H as ([r L2] & H2 & H). pose proof (hlll_obj _ _ _ _ _ _ _ HO H2) as HO2.
    destruct (dU_dims _ _ _ HO2) as [U1 U2].
    destruct (matprod_in_ok C (dU L2) WC ltac:(lia) ltac:(lia) ltac:(lia)) as (C' & EP & WC' & C1' & C2' & VP).
    rewrite EP in H. cbn [bind] in H. apply bind_Ok in H as ([Cf' cts'] & H3 & H). injection H as <- <-.
    destruct (assign_reduce_U n d fh (de Ct') L r L2 HO (independent_staircase _ _ _ IT) H2) as [_ UU].
    intros ct [<-|I]; [exact IT|].
    refine (IH _ _ _ _ _ _ _ _ _ _ _ _ _ _ H3 ct I); try assumption; try congruence.
    eapply independent_ext; [|apply (independent_mul (n - 1) d _ (ent (dU L2)) HI UU)].
    intros i j Hi Hj. unfold lower. rewrite VP by lia. rewrite C2. reflexivity.
Qed.

Lemma lehmer_lower fuel fh A delta lshift C cts : dwf A -> 0 < dr A -> 0 < dc A -> (lshift <> 0)%Z ->
  independent (dr A - 1) (dc A) (lower (ent A)) ->
  lehmer_lll fuel fh A delta lshift false = Ok (C, cts) ->
  forall ct, In ct cts -> independent (dr A) (dc A) (ent ct).
Proof.
  intros WA Hn Hd Hs HI H. unfold lehmer_lll in H. destruct (Z.eqb_spec lshift 0); [lia|].
  cbv zeta in H.
  destruct (set_from_ok (resize0 (dr A) (dc A)) A WA (resize0_wf _ _)) as (C0 & E & WC & R & D & V & _); cbn [dr dc resize0]; try lia.
  rewrite E in H. cbn [bind] in H. cbn [dr dc resize0] in R, D.
  destruct (maxbitsize_ok A) as (b & Eb & Hb & _). rewrite Eb in H. cbn [bind] in H.
  refine (lehmer_loop_lower fuel fh lshift (dr A) (dc A) Hn Hd _ _ _ _ _ _ _ _ _ _ _ _ _ _ H); auto.
  - apply resize0_wf.
  - apply obj_new.
  - eapply independent_ext; [|exact HI]. intros i j Hi Hj. unfold lower. symmetry. apply V; lia.
Qed.

Lemma lehmer_zero fuel fh A delta truncate C cts :
  lehmer_lll fuel fh A delta 0 truncate = Ok (C, cts) ->
  dr C = dr A /\ dc C = dc A /\ same_lattice (dr A) (dc A) (ent A) (ent C).
Proof.
  unfold lehmer_lll. cbn [Z.eqb]. intros H. apply bind_Ok in H as ([r L] & H & E). injection E as <- _.
  set (L0 := new_lattice fp J (dr A) (dc A) (de A) false 0 true 0) in *.
  assert (E : run fp [CallHlll fh delta false junk] L0 = Ok L).
  { unfold run. cbn [mfold exec]. rewrite H. reflexivity. }
  pose proof (run_lattice fp EX) as RL. 
  destruct (hlll_inv fp fh delta false junk L0 r L EX H) as (E2 & _); [apply mtab_wfm|].
  unfold dbase. cbn [dr dc]. rewrite E2. unfold L0. cbn [new_lattice lcfg cn cd]. do 2 (split; [reflexivity|]).
  unfold ent. cbn [de].
  exact (RL J (dr A) (dc A) (de A) false 0%Z true 0%Z [CallHlll fh delta false junk] L ltac:(intros ? ? ? ? ? ? [I|[]]; discriminate) E).
Qed.

End Drivers.
