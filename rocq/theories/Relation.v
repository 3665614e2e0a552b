(** * Integer relations, src/relations_z.cc: FPTuple::relation_lll 323-672, FPTuple::lll 684-800; ZT = mpz_t *)
From Coq Require Import ZArith Lia List Bool Arith.
From Verif Require Import Base Spec Mat FP Hlll IntSteps HlllInt LinDep Structure Hlll2 Object UOnly
  MatOps MatOpsFacts MachInt Trunc Trunc10 Lehmer Nullspace.
Import ListNotations.

Section Model.
Context {F : Type} (fp : fpops F).   (* FT of the inner Lattice *)
Context {Q : Type} (fq : fpops Q).   (* mpfr_t, for the gap test *)
Variable J : junk_t (F := F).
Variable junk : F.
Variable delta : F.
(** the transposed U computed by the external fplll from the transposed basis, 502-529 *)
Variable ext : dmat -> res dmat.
Inductive lllmethod := RHLLL | RFPLLL.

(** A_in = [A(0,.); 0; I], 350-358: m rows, of which only the first is set *)
Definition rel_initial (A : dmat) : res dmat :=
  let m := dr A in let d := dc A in
  let* B := for_ d (fun j M => let* a := gget A 0 j in gset M 0 j a) (resize0 (m + d) d) in
  for_ d (fun i M => gset M (m + i) i 1%Z) B.

(** index of a smallest entry, 565-581 (with [z1]: the starting value is 1 if the first entry is zero) and 777-789 *)
Definition smallest (z1 : bool) (A : dmat) (d : nat) : res (nat * Z) :=
  let* a0 := gget A 0 0 in
  let t0 := if z1 && (a0 =? 0)%Z then 1%Z else Z.abs a0 in
  mfold (fun i st => let '(f, tz) := st in
           let* a := gget A 0 i in
           Ok (if (Z.abs a <? tz)%Z then (i, Z.abs a) else (f, tz))) (seq 1 (d - 1)) (0, t0).

(** maxcol, 586-593 *)
Definition max_col (A : dmat) (m d f : nat) (def : Z) : res Z :=
  let* a0 := gget A 0 f in
  mfold (fun i mx => let* a := gget A (m + i) f in Ok (if (mx <? Z.abs a)%Z then Z.abs a else mx))
        (seq 0 d) (mul_2si (Z.abs a0) def).

(** column of the lower part, 611-613 *)
Definition out_col (A : dmat) (m d f : nat) : res dmat :=
  for_ d (fun j M => let* a := gget A (m + j) f in gset M j 0 a) (resize0 d 1).

Definition rel_bits (truncate shift : Z) (d : nat) : Z :=
  if (truncate =? -1)%Z then 0%Z else if (truncate =? 0)%Z then (shift + 2 * Z.of_nat d)%Z else truncate.

(** main loop, 408-645.  The truncated matrices are returned as well, for the statements.  The final
    computation of a bound (648-668) only prints and restores the default precision: not modelled. *)
Fixpoint rel_loop (fuel fh : nat) (lm : lllmethod) (m d : nat) (shift truncate inputgap bitsize target : Z) (confidence : Q)
    (A_in T : dmat) (L : lattice F) (def : Z) (quot : Q) : res (Z * option dmat * list dmat) :=
  if (def <? target)%Z then
    match fuel with
    | O => NoFuel
    | S fuel' =>
        let def' := if (target - def <=? shift)%Z then target else (def + shift)%Z in
        let* T' := lift_truncate T A_in def' (rel_bits truncate shift d) in
        let* (U, L2) :=
          match lm with
          | RHLLL => let* (_, L2) := hlll fp fh delta false junk (assign (de T') L) in Ok (dU L2, L2)
          | RFPLLL => let* TT := transpose_to (resize0 d (m + d)) T' in
                      let* UT := ext TT in
                      let* U := transpose_to (resize0 d d) UT in Ok (U, L)
          end in
        let* A' := matprod_in A_in U in
        let* (f, tz) := smallest true A' d in
        let* mx := max_col A' m d f def' in
        let nq := fdiv fq (fset_z fq tz) (fset_z fq mx) in
        let gap := fabs fq (fdiv fq nq quot) in
        if ((inputgap - bitsize <? def')%Z && flt fq gap confidence)%bool then
          let* C := out_col A' m d f in Ok (1%Z, Some C, [T'])
        else
          let* (r, oC, ts) := rel_loop fuel' fh lm m d shift truncate inputgap bitsize target confidence A' T' L2 def' nq in
          Ok (r, oC, T' :: ts)
    end
  else Ok (0%Z, None, []).

(** relation_lll(C,A,alpha,confidence_gap,shift,truncate,lllmethod,sizemethod,delta), 323-672;
    [q0] = 2^alpha and [confidence] = 2^(-confidence_gap-shift) as mpfr numbers *)
Definition relation_lll (fuel fh : nat) (lm : lllmethod) (A : dmat) (alpha shift truncate inputgap sizemethod : Z) (q0 confidence : Q)
  : res (Z * option dmat * list dmat) :=
  let m := dr A in let d := dc A in
  let* A_in := rel_initial A in
  let* bitsize := rows_max A 0 m d 0 in
  let T := resize0 (m + d) d in
  rel_loop fuel fh lm m d shift truncate inputgap bitsize (- bitsize + alpha)%Z confidence A_in T
    (new_lattice fp J (m + d) d (de T) true sizemethod true 0) (- bitsize)%Z q0.

(** FPTuple::lll with lllmethod = HLLL, on the row [L] of scaled integers, 684-800: returned value and C *)
Definition fptuple_lll (fh : nat) (L : dmat) : res (Z * dmat) :=
  let d := dc L in
  let* A := rel_initial L in
  let* (_, B) := hlll fp fh delta false junk (new_lattice fp J (1 + d) d (de A) false 0 true 0) in
  let A' := dbase B in
  let* U := for2 d d (fun i j M => let* a := gget A' (i + 1) j in gset M i j a) (resize0 d d) in
  let* L' := matprod_in L U in
  let* (f, _) := smallest false L' d in
  let* C := out_col A' 1 d f in
  Ok (0%Z, C).

(** ** Specification *)

(** C is a column of a unimodular matrix V, hence primitive, and among the columns of V it gives the smallest
    value of |row . column| *)
Definition candidate (d : nat) (row C : nat -> Z) : Prop :=
  exists (V : zmat) (f : nat), unimodular d V /\ f < d /\
    (forall j, j < d -> C j = V j f) /\
    (forall k, k < d -> (Z.abs (sumZ d (fun j => row j * C j)) <= Z.abs (sumZ d (fun j => row j * V j k)))%Z).

(** no common divisor other than 1 and -1 *)
Definition primitive (d : nat) (C : nat -> Z) : Prop :=
  forall g, (forall j, j < d -> (g | C j)%Z) -> (g = 1 \/ g = -1)%Z.

Lemma candidate_primitive d row C : candidate d row C -> primitive d C.
Proof.
  intros (V & f & (Vi & I1 & I2) & Hf & HC & _) g Hg.
  assert (D : (g | sumZ d (fun j => Vi f j * C j))%Z).
  { assert (G : forall k, k <= d -> (g | sumZ k (fun j => Vi f j * C j))%Z).
    { induction k as [|k IH]; intros Hk; [apply Z.divide_0_r|]. cbn [sumZ]. apply Z.divide_add_r; [apply IH; lia|].
      apply Z.divide_mul_r, Hg. lia. }
    apply G. lia. }
  rewrite (sumZ_ext d _ (fun j => Vi f j * V j f)%Z) in D by (intros; now rewrite HC).
  change (sumZ d (fun j => (Vi f j * V j f)%Z)) with (mmul d Vi V f f) in D. rewrite I2 in D by assumption.
  rewrite mid_eq in D. now apply Z.divide_1_r in D.
Qed.

(** ** Facts *)
Lemma rel_initial_ok A : 0 < dr A -> 0 < dc A ->
  exists B, rel_initial A = Ok B /\ dwf B /\ dr B = dr A + dc A /\ dc B = dc A /\
    (forall j, j < dc A -> ent B 0 j = ent A 0 j) /\
    (forall i j, i < dc A -> j < dc A -> ent B (dr A + i) j = mid i j).
Proof.
  intros Hm Hd. unfold rel_initial.
  destruct (for_row (dc A) 0 (fun j M => let* a := gget A 0 j in gset M 0 j a) (ent A 0) (resize0 (dr A + dc A) (dc A)) (resize0_wf _ _))
    as (B & E & W & D1 & D2 & V & O); cbn [dr dc resize0]; try lia.
  { intros j N Hj _ _ _. rewrite gget_ok by lia. reflexivity. }
  rewrite E. cbn [bind]. cbn [dr dc resize0] in D1, D2.
  destruct (mfold_writes nat (seq 0 (dc A)) (fun i M => gset M (dr A + i) i 1%Z)
     (fun i r c => (r =? dr A + i) && (c =? i)) (fun _ _ _ => 1%Z) B) as (B' & K1 & K2 & K3 & K4 & K5 & K6); auto using seq_NoDup.
  - intros a b r c _ _ Ne H1 H2. apply andb_true_iff in H1 as [_ H1], H2 as [_ H2]. apply Nat.eqb_eq in H1, H2. congruence.
  - intros i N Hi WN N1 N2 _. apply in_seq in Hi.
    destruct (gset_ok N (dr A + i) i 1%Z) as (N' & G1 & G2 & G3 & G4 & G5); auto; try lia.
    exists N'. split; [exact G1|]. split; [exact G2|]. do 2 (split; [congruence|]). exact G5.
  - exists B'. split; [exact K1|]. split; [exact K2|]. do 2 (split; [congruence|]). split.
    + intros j Hj. rewrite K6; [now apply V|]. intros a _. destruct (Nat.eqb_spec 0 (dr A + a)); [lia|reflexivity].
    + intros i j Hi Hj. unfold mid. destruct (Nat.eqb_spec i j) as [->|N].
      * apply (K5 j); [apply in_seq; lia|]. now rewrite !Nat.eqb_refl.
      * rewrite K6. { rewrite O by lia. unfold ent, fn, resize0. cbn [de]. apply (fn_mtab (dr A + dc A) (dc A) (fun _ _ => 0%Z)); lia. }
        intros a _. destruct (Nat.eqb_spec (dr A + i) (dr A + a)), (Nat.eqb_spec j a); cbn; auto. lia.
Qed.

(** A_in = [A(0,.) V ; . ; V] *)
Definition rel_inv (A B : dmat) (V : zmat) : Prop :=
  dwf B /\ dr B = dr A + dc A /\ dc B = dc A /\ unimodular (dc A) V /\
  (forall j, j < dc A -> ent B 0 j = sumZ (dc A) (fun l => ent A 0%nat l * V l j)%Z) /\
  (forall i j, i < dc A -> j < dc A -> ent B (dr A + i) j = V i j).

Lemma rel_inv_init A B : 0 < dr A -> 0 < dc A -> rel_initial A = Ok B -> rel_inv A B mid.
Proof.
  intros Hm Hd E. destruct (rel_initial_ok A Hm Hd) as (B' & E' & W & D1 & D2 & V1 & V2). rewrite E in E'. injection E' as <-.
  split; [exact W|]. do 2 (split; [assumption|]). split; [apply unimodular_id|]. split; [|exact V2].
  intros j Hj. rewrite V1 by assumption. symmetry. now apply (sumZ_mid_r (dc A) j (fun l => ent A 0 l)).
Qed.

Lemma rel_inv_mul A B V B' U : 0 < dr A -> rel_inv A B V -> unimodular (dc A) U -> dwf B' -> dr B' = dr B -> dc B' = dc B ->
  meq (dr B) (dc B) (ent B') (mmul (dc B) (ent B) U) -> rel_inv A B' (mmul (dc A) V U).
Proof.
  intros Hm (W & D1 & D2 & UV & V1 & V2) UU W' D1' D2' E. rewrite D1, D2 in E.
  split; [exact W'|]. do 2 (split; [congruence|]). split; [now apply unimodular_mul|]. split.
  - intros j Hj. rewrite E by lia. change (mmul (dc A) (ent B) U 0 j = mmul (dc A) (ent A) (mmul (dc A) V U) 0 j).
    rewrite <- mmul_assoc. unfold mmul at 1 2. apply sumZ_ext. intros l Hl. now rewrite V1.
  - intros i j Hi Hj. rewrite E by lia. unfold mmul. apply sumZ_ext. intros l Hl. now rewrite V2.
Qed.

Lemma smallest_ok z1 A d f tz : 0 < d -> d <= dc A -> 0 < dr A -> smallest z1 A d = Ok (f, tz) ->
  f < d /\ forall k, k < d -> (Z.abs (ent A 0%nat f) <= Z.abs (ent A 0%nat k))%Z.
Proof.
  intros Hd Hc Hr. unfold smallest. rewrite gget_ok by lia. cbn [bind].
  set (t0 := if z1 && (ent A 0%nat 0%nat =? 0)%Z then 1%Z else Z.abs (ent A 0 0)).
  set (body := fun i (st : nat * Z) => let '(f, tz) := st in let* a := gget A 0 i in
     Ok (if (Z.abs a <? tz)%Z then (i, Z.abs a) else (f, tz))).
  assert (G : forall n, S n <= d -> exists f' t', mfold body (seq 1 n) (0, t0) = Ok (f', t') /\ f' <= n /\
     (Z.abs (ent A 0%nat f') <= t')%Z /\ (f' = 0 \/ t' = Z.abs (ent A 0 f')) /\ (0 < t' -> t' <> Z.abs (ent A 0%nat f') -> ent A 0%nat f' = 0)%Z /\
     (forall k, k <= n -> (Z.abs (ent A 0%nat f') <= Z.abs (ent A 0%nat k))%Z)).
  { induction n as [|n IH]; intros Hn.
    - exists 0, t0. split; [reflexivity|]. split; [lia|]. unfold t0.
      destruct z1; cbn [andb]; [destruct (Z.eqb_spec (ent A 0 0) 0) as [E|E]|].
      + rewrite E. cbn. repeat split; try lia; (intros k Hk; assert (k = 0) by lia; subst; rewrite E; lia).
      + repeat split; try lia; (intros k Hk; assert (k = 0) by lia; subst; lia).
      + repeat split; try lia; (intros k Hk; assert (k = 0) by lia; subst; lia).
    - destruct IH as (f' & t' & E & H1 & H2 & H3 & H4 & H5); [lia|].
      rewrite seq_S, mfold_app, E. cbn [bind mfold]. unfold body at 1. rewrite gget_ok by lia. cbn [bind plus].
      destruct (Z.ltb_spec (Z.abs (ent A 0%nat (S n))) t') as [L|L].
      + exists (S n), (Z.abs (ent A 0%nat (S n))). split; [reflexivity|]. repeat split; try lia.
        intros k Hk. destruct (Nat.eq_dec k (S n)) as [->|N]; [lia|].
        specialize (H5 k ltac:(lia)). destruct (Z.eq_dec t' (Z.abs (ent A 0 f'))) as [Et|Et]; [lia|].
        specialize (H4 ltac:(lia) Et). 
        (* the start value 1 with a zero first entry: the new entry is zero *)
        assert (f' = 0) by (destruct H3; [assumption|contradiction]). subst f'.
        assert (T1 : (t' <= 1)%Z).
        { clear - E H4 Et. revert E. assert (X : forall l s, (snd s <= 1)%Z -> forall r, mfold body l s = Ok r -> (snd r <= 1)%Z).
          { induction l as [|a l IH]; intros s Hs r H; cbn [mfold] in H; [now injection H as <-|].
            binv H. eapply IH; [|exact H]. unfold body in Ha. destruct s as [f0 z0]. binv Ha. injection Ha as <-.
            cbn [snd] in *. destruct (Z.ltb_spec (Z.abs a1) z0); cbn [snd]; lia. }
          intros E. apply X in E; [exact E|]. cbn [snd]. unfold t0. rewrite H4. destruct z1; cbn; lia. }
        lia.
      + exists f', t'. split; [reflexivity|]. split; [lia|]. split; [assumption|]. split; [assumption|]. split; [assumption|].
        intros k Hk. destruct (Nat.eq_dec k (S n)) as [->|N]; [lia|]. apply H5. lia. }
  destruct (G (d - 1) ltac:(lia)) as (f' & t' & E & H1 & _ & _ & _ & H5). intros H. rewrite E in H. injection H as <- <-.
  split; [lia|]. intros k Hk. apply H5. lia.
Qed.

Lemma out_col_ok A m d f : m + d <= dr A -> f < dc A ->
  exists C, out_col A m d f = Ok C /\ dr C = d /\ dc C = 1 /\ forall j, j < d -> ent C j 0 = ent A (m + j) f.
Proof.
  intros H1 H2. unfold out_col.
  destruct (for_col d 0 (fun j M => let* a := gget A (m + j) f in gset M j 0 a) (fun j => ent A (m + j) f) (resize0 d 1) (resize0_wf _ _))
    as (C & E & W & D1 & D2 & V & _); cbn [dr dc resize0]; try lia.
  { intros i N Hi _ _ _. rewrite gget_ok by lia. reflexivity. }
  exists C. auto.
Qed.

Lemma rel_out A B V f C z1 tz : 0 < dr A -> 0 < dc A -> rel_inv A B V -> smallest z1 B (dc A) = Ok (f, tz) ->
  out_col B (dr A) (dc A) f = Ok C -> dr C = dc A /\ dc C = 1 /\ candidate (dc A) (ent A 0) (fun j => ent C j 0).
Proof.
  intros Hm Hd (W & D1 & D2 & UV & V1 & V2) HS HC.
  apply smallest_ok in HS as [Hf Hmin]; try lia.
  destruct (out_col_ok B (dr A) (dc A) f) as (C' & E & C1 & C2 & VC); [lia|lia|]. rewrite E in HC. injection HC as <-.
  do 2 (split; [assumption|]). exists V, f. split; [exact UV|]. split; [exact Hf|].
  assert (X : forall j, j < dc A -> ent C' j 0 = V j f) by (intros; rewrite VC by assumption; now apply V2).
  split; [exact X|]. intros k Hk. rewrite (sumZ_ext (dc A) _ (fun j => ent A 0%nat j * V j f)%Z) by (intros; now rewrite X).
  rewrite <- !V1 by assumption. now apply Hmin.
Qed.

Hypothesis EX : expo_nonneg fp.
(** contract of the external reduction: a unimodular transformation *)
Definition ext_unimodular : Prop := forall T U, ext T = Ok U -> dr U = dr T /\ dc U = dr T /\ unimodular (dr T) (ent U).

Lemma unimodular_tr d U : unimodular d U -> unimodular d (mtr U).
Proof.
  intros (V & H1 & H2). exists (mtr V).
  split; intros i j Hi Hj.
  - transitivity (mmul d V U j i); [unfold mmul, mtr; apply sumZ_ext; intros; ring|]. rewrite H2 by assumption. unfold mid. now rewrite Nat.eqb_sym.
  - transitivity (mmul d U V j i); [unfold mmul, mtr; apply sumZ_ext; intros; ring|]. rewrite H1 by assumption. unfold mid. now rewrite Nat.eqb_sym.
Qed.

Lemma rel_loop_spec lm A shift truncate inputgap bitsize target confidence : 0 < dr A -> 0 < dc A ->
  forall fuel fh B V T L def quot r oC ts, rel_inv A B V -> dwf T -> dr T = dr A + dc A -> dc T = dc A -> obj (dr A + dc A) (dc A) L ->
  rel_loop fuel fh lm (dr A) (dc A) shift truncate inputgap bitsize target confidence B T L def quot = Ok (r, oC, ts) ->
  (r = 0%Z /\ oC = None) \/
  (r = 1%Z /\ exists C, oC = Some C /\ dr C = dc A /\ dc C = 1 /\
     ((lm = RHLLL -> (truncate = -1)%Z \/ forall t, In t ts -> staircase (dr A + dc A) (dc A) (ent t)) ->
      (lm = RFPLLL -> ext_unimodular) ->
      candidate (dc A) (ent A 0) (fun j => ent C j 0))).
Proof.
  intros Hm Hd. 
  (* the unimodularity hypotheses may fail: carry the invariant conditionally *)
  set (good := fun ts : list dmat => (lm = RHLLL -> (truncate = -1)%Z \/ forall t, In t ts -> staircase (dr A + dc A) (dc A) (ent t)) /\
                      (lm = RFPLLL -> ext_unimodular)).
  assert (G : forall fuel fh B T L def quot r oC ts, dwf B -> dr B = dr A + dc A -> dc B = dc A ->
    dwf T -> dr T = dr A + dc A -> dc T = dc A -> obj (dr A + dc A) (dc A) L ->
    rel_loop fuel fh lm (dr A) (dc A) shift truncate inputgap bitsize target confidence B T L def quot = Ok (r, oC, ts) ->
    (r = 0%Z /\ oC = None) \/
    (r = 1%Z /\ exists C, oC = Some C /\ dr C = dc A /\ dc C = 1 /\
       (good ts -> (exists V, rel_inv A B V) -> candidate (dc A) (ent A 0) (fun j => ent C j 0)))).
  2:{ intros fuel fh B V T L def quot r oC ts HI WT T1 T2 HO H. pose proof HI as (W & D1 & D2 & _).
      apply G in H as [H|(E & C & E1 & E2 & E3 & HC)]; auto. right. split; [exact E|]. exists C. do 3 (split; [assumption|]).
      intros HA HB. apply HC; [split; assumption|eauto]. }
  induction fuel as [|fuel IH]; intros fh B T L def quot r oC ts W D1 D2 WT T1 T2 HO H; cbn [rel_loop] in H.
  { destruct (def <? target)%Z; [discriminate|]. injection H as <- <- _. now left. }
  destruct (def <? target)%Z; [|injection H as <- <- _; now left].
  cbv zeta in H. set (def' := if (target - def <=? shift)%Z then target else (def + shift)%Z) in *.
  destruct (lift_truncate_ok T B def' (rel_bits truncate shift (dc A)) WT ltac:(lia) ltac:(lia)) as (T' & mm & ET & T1' & T2' & WT' & _ & VT & _).
  rewrite ET in H. cbn [bind] in H. apply bind_Ok in H as ([U L2] & HU & H).
  assert (UU : obj (dr A + dc A) (dc A) L2 /\ dr U = dc A /\ dc U = dc A /\
    (forall ts', good (T' :: ts') -> (exists V, rel_inv A B V) -> unimodular (dc A) (ent U))).
  { destruct lm.
    - apply bind_Ok in HU as ([r0 L3] & HH & HU). injection HU as <- <-.
      pose proof (fun d99 => hlll_obj (F := F) fp junk d99 EX) as HOB. specialize (HOB delta _ _ _ _ _ _ _ HO HH).
      destruct (dU_dims _ _ _ HOB) as [U1 U2]. do 3 (split; [assumption|]). intros ts' [G1 _] (V & HI).
      apply (assign_reduce_U fp junk delta EX (dr A + dc A) (dc A) fh (de T') L r0 L3 HO); [|exact HH].
      destruct (G1 eq_refl) as [Et|HS]; [|apply HS; now left].
      (* no truncation: the lower part is unimodular *)
      apply independent_staircase. destruct HI as (_ & _ & _ & (Vi & I1 & I2) & _ & V2).
      intros c Hc j Hj.
      assert (HV : forall i, i < dc A -> sumZ (dc A) (fun l => V i l * c l)%Z = 0%Z).
      { intros i Hi. specialize (Hc (dr A + i) ltac:(lia)). etransitivity; [|exact Hc]. apply sumZ_ext. intros l Hl.
        change (fn (de T')) with (ent T'). rewrite VT by lia. unfold rel_bits, dropped. rewrite Et. cbn. rewrite Z.div_1_r.
        unfold lifted. rewrite V2 by assumption. destruct (dr A + i) eqn:E0; [lia|reflexivity]. }
      transitivity (sumZ (dc A) (fun l => mid j l * c l)%Z); [symmetry; now apply sumZ_mid_l|].
      rewrite (sumZ_ext (dc A) _ (fun l => mmul (dc A) Vi V j l * c l)%Z) by (intros; now rewrite I2).
      change (mmul (dc A) (mmul (dc A) Vi V) (fun l _ => c l) j 0 = 0%Z). rewrite mmul_assoc.
      unfold mmul at 1. apply sumZ_0. intros l Hl. unfold mmul. rewrite HV by assumption. ring.
    - destruct (transpose_to_ok (resize0 (dc A) (dr A + dc A)) T' (resize0_wf _ _)) as (TT & E1 & _ & R1 & R2 & _); [cbn; lia|cbn; lia|].
      rewrite E1 in HU. cbn [bind dr dc resize0] in HU, R1, R2. apply bind_Ok in HU as (UT & HE & HU).
      apply bind_Ok in HU as (U' & HT & HU). injection HU as <- <-.
      split; [exact HO|].
      assert (DU : dr U' = dc A /\ dc U' = dc A).
      { unfold transpose_to in HT.
        assert (K : forall l (M M' : dmat) m1, dr M = dc A -> dc M = dc A ->
          mfold (fun i => for_ m1 (fun j N => let* a := gget UT i j in gset N j i a)) l M = Ok M' -> dr M' = dc A /\ dc M' = dc A).
        { induction l as [|a l IHl]; intros M M' m1 H1 H2 H3; cbn [mfold] in H3; [injection H3 as <-; auto|].
          binv H3. assert (K2 : forall l2 N N', dr N = dc A -> dc N = dc A ->
            mfold (fun j N => let* a0 := gget UT a j in gset N j a a0) l2 N = Ok N' -> dr N' = dc A /\ dc N' = dc A).
          { clear. induction l2 as [|b l2 IH2]; intros N N' H1 H2 H3; cbn [mfold] in H3; [injection H3 as <-; auto|].
            binv H3. binv Ha. unfold gset in Ha. destruct (_ && _); [|discriminate]. injection Ha as <-. eapply IH2; [| |exact H3]; assumption. }
          unfold for_ in Ha. apply K2 in Ha as [Q1 Q2]; auto. eapply IHl; eauto. }
        unfold for2, for_ in HT. eapply K in HT; [exact HT|reflexivity|reflexivity]. }
      destruct DU as [U1 U2]. do 2 (split; [assumption|]).
      intros ts' [_ G2] _. destruct (G2 eq_refl _ _ HE) as (Q1 & Q2 & Q3).
      destruct (transpose_to_ok (resize0 (dc A) (dc A)) UT (resize0_wf _ _)) as (U2' & E2 & _ & _ & _ & VU & _); [cbn; lia|cbn; lia|].
      rewrite E2 in HT. injection HT as <-. rewrite R1 in Q3.
      eapply unimodular_ext; [|apply unimodular_tr; exact Q3]. intros i j Hi Hj. unfold mtr. symmetry. apply VU; lia. }
  destruct UU as (HO2 & U1 & U2 & UU).
  destruct (matprod_in_ok B U W ltac:(lia) ltac:(lia) ltac:(lia)) as (B' & EB & WB & R1 & R2 & VB).
  rewrite EB in H. cbn [bind] in H.
  apply bind_Ok in H as ([f tz] & HS & H). apply bind_Ok in H as (mx & _ & H).
  destruct ((inputgap - bitsize <? def')%Z && _)%bool.
  - apply bind_Ok in H as (C & HC & H). injection H as <- <- <-. right. split; [reflexivity|]. exists C. split; [reflexivity|].
    pose proof HS as HS0. apply smallest_ok in HS0 as [Hf _]; try lia.
    destruct (out_col_ok B' (dr A) (dc A) f) as (C' & E & C1 & C2 & _); [lia|lia|]. rewrite E in HC. injection HC as <-.
    do 2 (split; [assumption|]). intros HG (V & HI).
    pose proof (rel_inv_mul A B V B' (ent U) Hm HI (UU [] HG (ex_intro _ V HI)) WB R1 R2 VB) as HI2.
    eapply rel_out; eauto.
  - apply bind_Ok in H as ([[r1 oC1] ts1] & HR & H). injection H as <- <- <-.
    apply IH in HR as [HR|(E & C & E1 & E2 & E3 & HC)]; auto; try congruence.
    right. split; [exact E|]. exists C. do 3 (split; [assumption|]). intros HG (V & HI). apply HC.
    + destruct HG as [G1 G2]. split; [|exact G2]. intros Em. destruct (G1 Em) as [Et|Hs]; [now left|right]. intros t It. apply Hs. now right.
    + exists (mmul (dc A) V (ent U)). eapply (rel_inv_mul A B V B'); eauto.
Qed.

Lemma relation_lll_spec fuel fh lm A alpha shift truncate inputgap sm q0 confidence r oC ts : 0 < dr A -> 0 < dc A ->
  relation_lll fuel fh lm A alpha shift truncate inputgap sm q0 confidence = Ok (r, oC, ts) ->
  (r = 0%Z /\ oC = None) \/
  (r = 1%Z /\ exists C, oC = Some C /\ dr C = dc A /\ dc C = 1 /\
     ((lm = RHLLL -> (truncate = -1)%Z \/ forall t, In t ts -> staircase (dr A + dc A) (dc A) (ent t)) ->
      (lm = RFPLLL -> ext_unimodular) ->
      candidate (dc A) (ent A 0) (fun j => ent C j 0))).
Proof.
  intros Hm Hd H. unfold relation_lll in H. cbv zeta in H. apply bind_Ok in H as (B & HB & H). apply bind_Ok in H as (bs & _ & H).
  eapply rel_loop_spec in H; eauto.
  - now apply rel_inv_init.
  - apply resize0_wf.
  - unfold obj, new_lattice. cbn. repeat split; auto; apply mtab_wfm.
Qed.

Lemma fptuple_lll_spec fh L r C : dr L = 1 -> 0 < dc L -> dwf L -> fptuple_lll fh L = Ok (r, C) ->
  r = 0%Z /\ dr C = dc L /\ dc C = 1 /\ candidate (dc L) (ent L 0) (fun j => ent C j 0).
Proof.
  intros HL Hd WL H. unfold fptuple_lll in H. cbv zeta in H. apply bind_Ok in H as (A & HA & H).
  pose proof (rel_inv_init L A ltac:(lia) Hd HA) as HI. pose proof HI as (W & D1 & D2 & _). rewrite HL in D1.
  apply bind_Ok in H as ([r0 B] & HH & H).
  assert (PR : precisions_ok (F := F) [CallHlll fh delta false junk]).
  { intros fp' fu de0 ju J1 J2 [I|[]]. discriminate. }
  destruct (run_pres fp EX (1 + dc L) (dc L) false 0 [CallHlll fh delta false junk] PR (fn (de A))
     (new_lattice fp J (1 + dc L) (dc L) (de A) false 0 true 0) B) as [D (Hb & V & UV & EV)].
  { cbn [run mfold exec]. rewrite HH. reflexivity. }
  { apply new_dims. } { apply new_pres. }
  pose proof (getbase_fn _ _ _ _ _ D) as GB. destruct D as (C1 & C2 & _). cbn [current] in EV.
  assert (HI2 : rel_inv L (dbase B) (mmul (dc L) mid V)).
  { apply (rel_inv_mul L A mid (dbase B) V); auto; try lia.
    - unfold dbase, dwf, getbase. cbn [dr dc de]. apply mtab_wfm.
    - unfold dbase. cbn [dr]. congruence.
    - unfold dbase. cbn [dc]. congruence.
    - rewrite D1, D2. intros i j Hi Hj. change (fn (getbase B) i j = mmul (dc L) (fn (de A)) V i j).
      rewrite <- (EV i j Hi Hj). apply GB; assumption. }
  pose proof HI2 as (W2 & M1 & M2 & UV2 & X1 & X2). rewrite HL in M1, X2.
  destruct (for2_simple (dc L) (dc L) (fun i j M => let* a := gget (dbase B) (i + 1) j in gset M i j a)
    (fun i j => ent (dbase B) (i + 1) j) (resize0 (dc L) (dc L)) (resize0_wf _ _)) as (U & EU & WU & U1 & U2 & VU & _); cbn [dr dc resize0]; try lia.
  { intros i j N Hi Hj _ _ _ _. rewrite gget_ok by lia. reflexivity. }
  rewrite EU in H. cbn [bind] in H. cbn [dr dc resize0] in U1, U2.
  destruct (matprod_in_ok L U WL ltac:(lia) ltac:(lia) ltac:(lia)) as (L' & EL & WL' & L1 & L2 & VL).
  rewrite EL in H. cbn [bind] in H. apply bind_Ok in H as ([f tz] & HS & H). apply bind_Ok in H as (C' & HC & H). injection H as <- <-.
  apply smallest_ok in HS as [Hf Hmin]; try lia.
  destruct (out_col_ok (dbase B) 1 (dc L) f) as (C2' & E & Q1 & Q2 & VC); [lia|lia|]. rewrite E in HC. injection HC as <-.
  split; [reflexivity|]. do 2 (split; [assumption|]).
  set (V2 := mmul (dc L) mid V) in *.
  exists V2, f. split; [exact UV2|]. split; [exact Hf|].
  assert (X : forall j, j < dc L -> ent C2' j 0 = V2 j f) by (intros; rewrite VC by assumption; now apply (X2 j f)).
  split; [exact X|].
  assert (Y : forall k, k < dc L -> ent L' 0 k = sumZ (dc L) (fun j => ent L 0%nat j * V2 j k)%Z).
  { intros k Hk. rewrite VL by lia. unfold mmul at 1. apply sumZ_ext. intros l Hl. rewrite VU by assumption.
    replace (l + 1) with (1 + l) by lia. now rewrite X2. }
  intros k Hk. rewrite (sumZ_ext (dc L) _ (fun j => ent L 0%nat j * V2 j f)%Z) by (intros; now rewrite X).
  rewrite <- !Y by assumption. now apply Hmin.
Qed.
End Model.
