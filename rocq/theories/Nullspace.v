(** * Integer kernels, src/nullspace.cc: nullspace_lll 352-545, nullspace_direct_decomp 43-112,
      nullspace_hjls 236-309; ZT = mpz_t *)
From Coq Require Import ZArith Lia List Bool Arith.
From Verif Require Import Base Spec Mat FP Hlll IntSteps HlllInt LinDep Structure Hlll2 Object UOnly
  MatOps MatOpsFacts MachInt Trunc Trunc10 Lehmer ZFgas KernelLA.
Import ListNotations.

(** ** Shared loops *)

(** is the column zero in the first [d] rows: 451-453, 505-507; row test of 72-74 with rd i j = B(j,i) *)
Definition zero_test (rd : nat -> res Z) (d : nat) : res bool :=
  for_ d (fun i b => let* x := rd i in Ok (b && (x =? 0)%Z)) true.
(** nullcols / nullrows, 447-459, 501-513, 67-80 *)
Definition null_flags (rd : nat -> nat -> res Z) (d n : nat) : res (list bool) :=
  for_ n (fun j l => let* b := zero_test (fun i => rd i j) d in Ok (l ++ [b])) [].
Definition count_true (l : list bool) : nat := length (filter (fun b => b) l).
(** output loops 531-538 and 101-108: the next column of C for each index j marked in [null] *)
Definition extract (rd : nat -> nat -> res Z) (rows : nat) (null : list bool) (n : nat) (C : dmat) : res dmat :=
  let* (C', _) := for_ n (fun j st =>
      let '(M, decj) := st in
      if nth j null false then
        let* M' := for_ rows (fun i M => let* x := rd i j in gset M i decj x) M in Ok (M', S decj)
      else Ok (M, decj)) (C, 0) in
  Ok C'.

Section LLL.
Context {F : Type} (fp : fpops F).
Variable J : junk_t (F := F).      (* uninitialised memory of the Lattice object *)
Variable junk : F.
Variables delta1 delta2 : F.       (* 0.999999999973046945 and 0.999999999 *)
Variable e10 : Z -> Z.             (* the double expressions of trunc, see Trunc10.v *)
Variable e10' : Z -> Z -> Z.

(** lllReduction of the external fplll, applied to the transposed basis (425-434) *)
Variable ext : dmat -> res dmat.
(** its contract: a unimodular transformation of the rows *)
Definition ext_reduces : Prop := forall T T', ext T = Ok T' ->
  dr T' = dr T /\ dc T' = dc T /\ exists W, unimodular (dr T) W /\ meq (dr T) (dc T) (ent T') (mmul (dr T) W (ent T)).

(** lllmethod: HLLL, FPLLL, or any other value for which nothing is done (L1, which calls l1 with fplll leaves,
    is not modelled) *)
Inductive method := HLLL | FPLLL | OTHER.

(** shift_in(B,lalpha,nrows), mat.h 1054-1060; mul_2si as in Trunc.v *)
Definition shift_in (B : dmat) (l : Z) (nrows : nat) : res dmat :=
  for_ (dc B) (fun j => for_ nrows (fun i M => let* x := gget M i j in gset M i j (mul_2si x l))) B.

(** B = [2^lalpha A; I], 376-383 *)
Definition initial (A : dmat) (lalpha : Z) : res dmat :=
  let d := dr A in let n := dc A in
  guard (0 <=? lalpha)%Z
  (let* B := for2 d n (fun i j M => let* a := gget A i j in gset M i j (a * 2 ^ lalpha)%Z) (resize0 (d + n) n) in
   for_ n (fun i M => gset M (d + i) i 1%Z) B).

(** the loop of elementary shifts, 484-521; int overflow of current_shift is not modelled *)
Fixpoint ns_loop (fuel fh : nat) (d n : nat) (lsigma : Z) (B : dmat) (L : lattice F) (shift : Z)
  : res (dmat * list bool) :=
  match fuel with
  | O => NoFuel
  | S fuel' =>
      let shift' := (shift + lsigma)%Z in
      let* BL := shift_in B shift' d in
      let* L1 := put e10 e10' BL d (lsigma + Z.of_nat n) 0 L in
      let* (_, L2) := hlll fp fh delta2 false junk L1 in
      let* B' := matprod_in B (dU L2) in
      let* null := null_flags (gget B') d n in
      if (Z.of_nat n - Z.of_nat d <=? Z.of_nat (count_true null))%Z then Ok (B', null)
      else ns_loop fuel' fh d n lsigma B' L2 shift'
  end.

(** nullspace_lll(C,A,lalpha,lsigma,lllmethod): returned value and C (None: C not written) *)
Definition nullspace_lll (fuel fh : nat) (A : dmat) (lalpha lsigma : Z) (m : method) : res (Z * option dmat) :=
  let d := dr A in let n := dc A in
  let* B := initial A lalpha in
  let* (B', null) :=
    (if (lsigma =? 0)%Z then
       let* B1 := match m with
         | HLLL =>
             let* (_, L) := hlll fp fh delta1 true junk (new_lattice fp J (d + n) n (de B) false 0 true 0) in
             let* T := transpose_to (resize0 n (d + n)) (dbase L) in
             transpose_to B T
         | FPLLL =>
             let* AT := transpose_to (resize0 n (d + n)) B in
             let* AT' := ext AT in
             transpose_to B AT'
         | OTHER => Ok B
         end in
       let* null := null_flags (gget B1) d n in Ok (B1, null)
     else
       let L := new_lattice fp J (d + n) n (de B) true 0 true 0 in
       let* mx := rows_max B 0 d n 0 in
       ns_loop fuel fh d n lsigma B L (- mx)%Z) in
  if ((lsigma =? 0) && (Z.of_nat (count_true null) <? Z.of_nat n - Z.of_nat d))%Z then Ok ((-1)%Z, None)
  else
    let r := count_true null in
    let* C := extract (fun i j => gget B' (i + d) j) n null n (resize0 n r) in
    Ok (Z.of_nat r, Some C).
End LLL.

Section Decomp.
Context {F : Type} (fp : fpops F).
Variable J : junk_t (F := F).
Variable junk : F.
Variable gap : F.                  (* confidence_gap of the ZFgas object *)
Variables g1 g2 : F.               (* 1.1547005384 and 1.1414 *)

Definition zbase_d (d n : nat) (z : zfg F) : dmat := mkD d n (zgetbase d n z).

(** nullspace_direct_decomp(C,A), 43-112 *)
Definition nullspace_direct (fuel : nat) (A : dmat) : res (Z * option dmat) :=
  let d := dr A in let n := dc A in
  let* (_, z) := decomp fp d n 0 true gap fuel g1 (Z.of_nat d) junk (new_zfg d n true J (de A)) in
  let* B := transpose_to (resize0 n d) (zbase_d d n z) in
  let* null := null_flags (fun i j => gget B j i) d n in
  if negb (Z.of_nat (count_true null) =? Z.of_nat n - Z.of_nat d)%Z then Ok ((-1)%Z, None)
  else
    let* B2 := transpose_to (resize0 n n) (mkD n n (zgetU n true z)) in
    let* C := extract (fun i j => gget B2 j i) n null n (resize0 n (n - d)) in
    Ok (Z.of_nat (count_true null), Some C).

(** nullspace_hjls(C,A,setprec), 236-309.  C is written in both cases *)
Definition nullspace_hjls (fuel : nat) (A : dmat) : res (Z * option dmat) :=
  let d := dr A in let n := dc A in
  let* B1 := for_ n (fun i M => let* M' := for_ d (fun j M => let* a := gget A j i in gset M i j a) M in
                                gset M' i (d + i) 1%Z) (resize0 n (n + d)) in
  let* (fl, z) := decomp fp n (n + d) d false gap fuel g2 (Z.of_nat n - Z.of_nat d) junk (new_zfg n (n + d) false J (de B1)) in
  if (fl <? 0)%Z then Ok ((-1)%Z, None)
  else
    guard (d <=? n)
    (let* VT := transpose_to (resize0 (n + d) (n + d)) (mkD (n + d) (n + d) (zgetV (n + d) false z)) in
     let* C := for2 n (n - d) (fun i j M => let* x := gget VT (2 * d + j) (d + i) in gset M i j x) (resize0 n (n - d)) in
     let* ZM := matprod (resize0 d (n - d)) A C in
     let* null := null_flags (gget ZM) d (n - d) in
     if negb (count_true null =? n - d) then Ok ((-1)%Z, Some C)
     else Ok (Z.of_nat (count_true null), Some C)).
End Decomp.

(** ** Facts about the loops *)
Lemma zero_test_ok rd d (f : nat -> Z) : (forall i, i < d -> rd i = Ok (f i)) ->
  exists b, zero_test rd d = Ok b /\ (b = true <-> forall i, i < d -> f i = 0%Z).
Proof.
  intros H. unfold zero_test, for_.
  rewrite (mfold_and (fun i b => let* x := rd i in Ok (b && (x =? 0)%Z)) (fun i => (f i =? 0)%Z) (seq 0 d) true).
  - eexists. split; [reflexivity|]. cbn [andb]. rewrite forallb_seq. split.
    + intros K i Hi. apply Z.eqb_eq. apply K. lia.
    + intros K i Hi. apply Z.eqb_eq. apply K. lia.
  - intros i b Hi. apply in_seq in Hi. rewrite H by lia. cbn [bind]. destruct b, (f i =? 0)%Z; reflexivity.
Qed.

Lemma null_flags_ok rd d n (f : nat -> nat -> Z) : (forall i j, i < d -> j < n -> rd i j = Ok (f i j)) ->
  exists l, null_flags rd d n = Ok l /\ length l = n /\
    forall j, j < n -> (nth j l false = true <-> forall i, i < d -> f i j = 0%Z).
Proof.
  intros H. unfold null_flags, for_.
  assert (G : forall k, k <= n -> exists l, mfold (fun j l => let* b := zero_test (fun i => rd i j) d in Ok (l ++ [b])) (seq 0 k) [] = Ok l /\
     length l = k /\ forall j, j < k -> (nth j l false = true <-> forall i, i < d -> f i j = 0%Z)).
  { induction k as [|k IH]; intros Hk.
    - exists []. split; [reflexivity|]. split; [reflexivity|]. intros; lia.
    - destruct IH as (l & E & L & P); [lia|].
      destruct (zero_test_ok (fun i => rd i k) d (fun i => f i k)) as (b & Eb & Pb); [intros; apply H; lia|].
      exists (l ++ [b]). rewrite seq_S, mfold_app, E. cbn [bind mfold plus]. rewrite Eb. cbn [bind].
      split; [reflexivity|]. split; [rewrite app_length, L; cbn; lia|].
      intros j Hj. destruct (Nat.eq_dec j k) as [->|N].
      + rewrite app_nth2 by lia. rewrite L, Nat.sub_diag. exact Pb.
      + rewrite app_nth1 by lia. apply P. lia. }
  destruct (G n (le_n n)) as (l & E & L & P). eauto.
Qed.

Lemma count_true_filter l : count_true l = length (filter (fun j => nth j l false) (seq 0 (length l))).
Proof.
  unfold count_true. induction l as [|b l IH] using rev_ind; [reflexivity|].
  rewrite filter_app, !app_length, IH. cbn [length]. rewrite Nat.add_1_r, seq_S, filter_app, app_length.
  f_equal.
  - f_equal. apply filter_ext_in. intros j Hj. apply in_seq in Hj. now rewrite app_nth1 by lia.
  - cbn. rewrite app_nth2 by lia. rewrite Nat.sub_diag. cbn. now destruct b.
Qed.

Lemma for_col (n k : nat) (body : nat -> dmat -> res dmat) (f : nat -> Z) (M : dmat) :
  dwf M -> n <= dr M -> k < dc M ->
  (forall i N, i < n -> dwf N -> dr N = dr M -> dc N = dc M -> body i N = gset N i k (f i)) ->
  exists M', for_ n body M = Ok M' /\ dwf M' /\ dr M' = dr M /\ dc M' = dc M /\
    (forall i, i < n -> ent M' i k = f i) /\
    (forall r c, c <> k \/ n <= r -> ent M' r c = ent M r c).
Proof.
  intros W Hn Hi Hb.
  destruct (mfold_writes nat (seq 0 n) body (fun i r c => (r =? i) && (c =? k)) (fun i _ _ => f i) M)
    as (M' & K1 & K2 & K3 & K4 & K5 & K6); auto using seq_NoDup.
  - intros a b r c _ _ Ne H1 H2. apply andb_true_iff in H1 as [H1 _], H2 as [H2 _].
    apply Nat.eqb_eq in H1, H2. congruence.
  - intros i N Hj WN D1 D2 _. apply in_seq in Hj. rewrite Hb by (auto; lia).
    destruct (gset_ok N i k (f i)) as (N' & G1 & G2 & G3 & G4 & G5); auto; try lia.
    exists N'. split; [exact G1|]. split; [exact G2|]. do 2 (split; [congruence|]). exact G5.
  - exists M'. do 4 (split; [assumption|]). split.
    + intros i H. apply (K5 i); [apply in_seq; lia|]. now rewrite !Nat.eqb_refl.
    + intros r c H. apply K6. intros j Hj. apply in_seq in Hj.
      destruct (Nat.eqb_spec r j), (Nat.eqb_spec c k); auto. lia.
Qed.

Lemma extract_ok rd rows (null : list bool) n C (f : nat -> nat -> Z) : dwf C -> rows <= dr C ->
  length (filter (fun j => nth j null false) (seq 0 n)) <= dc C ->
  (forall i j, i < rows -> j < n -> rd i j = Ok (f i j)) ->
  exists C', extract rd rows null n C = Ok C' /\ dwf C' /\ dr C' = dr C /\ dc C' = dc C /\
    forall i k, i < rows -> k < length (filter (fun j => nth j null false) (seq 0 n)) ->
      ent C' i k = f i (nth k (filter (fun j => nth j null false) (seq 0 n)) 0).
Proof.
  intros W HR HC HD. unfold extract.
  set (p := fun j => nth j null false) in *.
  assert (G : forall k, k <= n -> exists M, for_ k (fun j st =>
      let '(M, decj) := st in
      if p j then
        let* M' := for_ rows (fun i M => let* x := rd i j in gset M i decj x) M in Ok (M', S decj)
      else Ok (M, decj)) (C, 0) = Ok (M, length (filter p (seq 0 k))) /\ dwf M /\ dr M = dr C /\ dc M = dc C /\
      forall i q, i < rows -> q < length (filter p (seq 0 k)) -> ent M i q = f i (nth q (filter p (seq 0 k)) 0)).
  { unfold for_ at 1. induction k as [|k IH]; intros Hk.
    - exists C. cbn. repeat split; auto; try apply W. intros; lia.
    - destruct IH as (M & E & WM & D1 & D2 & V); [lia|].
      rewrite seq_S, mfold_app, E. cbn [bind mfold plus]. rewrite filter_app, app_length. cbn [filter].
      destruct (p k) eqn:Ek.
      + assert (LT : length (filter p (seq 0 k)) < length (filter p (seq 0 n))).
        { replace n with (k + S (n - S k)) by lia. rewrite seq_app, filter_app, app_length. cbn [plus seq filter]. rewrite Ek. cbn. lia. }
        destruct (for_col rows (length (filter p (seq 0 k))) (fun i M => let* x := rd i k in gset M i (length (filter p (seq 0 k))) x)
          (fun i => f i k) M WM ltac:(lia) ltac:(lia)) as (M' & E' & W' & D1' & D2' & V' & O').
        { intros i N Hi _ _ _. rewrite HD by lia. reflexivity. }
        rewrite E'. cbn [bind length]. exists M'. rewrite Nat.add_1_r. split; [reflexivity|]. split; [exact W'|].
        do 2 (split; [congruence|]). intros i q Hi Hq.
        destruct (Nat.eq_dec q (length (filter p (seq 0 k)))) as [->|N].
        * rewrite V' by assumption. rewrite app_nth2 by lia. now rewrite Nat.sub_diag.
        * rewrite O' by (left; exact N). rewrite app_nth1 by lia. apply V; [assumption|lia].
      + cbn [length app]. rewrite Nat.add_0_r, app_nil_r. exists M. auto. }
  destruct (G n (le_n n)) as (M & E & WM & D1 & D2 & V). unfold p in E. rewrite E. cbn [bind].
  exists M. auto.
Qed.

(** ** The initial basis *)
Lemma initial_ok A lalpha : (0 <= lalpha)%Z ->
  exists B, initial A lalpha = Ok B /\ dwf B /\ dr B = dr A + dc A /\ dc B = dc A /\
    (forall i j, i < dr A -> j < dc A -> ent B i j = (2 ^ lalpha * ent A i j)%Z) /\
    (forall i j, i < dc A -> j < dc A -> ent B (dr A + i) j = mid i j).
Proof.
  intros Hl. unfold initial. destruct (Z.leb_spec 0 lalpha); [|lia]. cbn [guard].
  destruct (for2_simple (dr A) (dc A) (fun i j M => let* a := gget A i j in gset M i j (a * 2 ^ lalpha)%Z)
    (fun i j => (ent A i j * 2 ^ lalpha)%Z) (resize0 (dr A + dc A) (dc A)) (resize0_wf _ _)) as (B & E & W & D1 & D2 & V & O);
    cbn [dr dc resize0]; try lia.
  { intros i j N Hi Hj _ _ _ _. rewrite gget_ok by assumption. reflexivity. }
  rewrite E. cbn [bind]. cbn [dr dc resize0] in D1, D2.
  destruct (mfold_writes nat (seq 0 (dc A)) (fun i M => gset M (dr A + i) i 1%Z)
     (fun i r c => (r =? dr A + i) && (c =? i)) (fun _ _ _ => 1%Z) B) as (B' & K1 & K2 & K3 & K4 & K5 & K6); auto using seq_NoDup.
  - intros a b r c _ _ Ne H1 H2. apply andb_true_iff in H1 as [_ H1], H2 as [_ H2]. apply Nat.eqb_eq in H1, H2. congruence.
  - intros i N Hi WN N1 N2 _. apply in_seq in Hi.
    destruct (gset_ok N (dr A + i) i 1%Z) as (N' & G1 & G2 & G3 & G4 & G5); auto; try lia.
    exists N'. split; [exact G1|]. split; [exact G2|]. do 2 (split; [congruence|]). exact G5.
  - exists B'. split; [exact K1|]. split; [exact K2|]. do 2 (split; [congruence|]). split.
    + intros i j Hi Hj. rewrite K6.
      * rewrite V by assumption. ring.
      * intros a _. destruct (Nat.eqb_spec i (dr A + a)); [lia|reflexivity].
    + intros i j Hi Hj. unfold mid. destruct (Nat.eqb_spec i j) as [->|N].
      * apply (K5 j); [apply in_seq; lia|]. now rewrite !Nat.eqb_refl.
      * rewrite K6. { rewrite O by lia. unfold ent, fn, resize0. cbn [de]. apply (fn_mtab (dr A + dc A) (dc A) (fun _ _ => 0%Z)); lia. }
        intros a _. destruct (Nat.eqb_spec (dr A + i) (dr A + a)), (Nat.eqb_spec j a); cbn; auto. lia.
Qed.

Lemma initial_independent A lalpha B : (0 <= lalpha)%Z -> initial A lalpha = Ok B -> independent (dr A + dc A) (dc A) (ent B).
Proof.
  intros Hl E. destruct (initial_ok A lalpha Hl) as (B' & E' & _ & _ & _ & _ & V). rewrite E in E'. injection E' as <-.
  intros c H j Hj. specialize (H (dr A + j) ltac:(lia)).
  rewrite (sumZ_ext _ _ (fun l => mid j l * c l)%Z) in H by (intros; now rewrite V).
  now rewrite sumZ_mid_l in H.
Qed.

(** [B] is the initial basis times a unimodular matrix *)
Definition ns_inv (A : dmat) (lalpha : Z) (B : dmat) (V : zmat) : Prop :=
  dwf B /\ dr B = dr A + dc A /\ dc B = dc A /\ unimodular (dc A) V /\
  (forall i j, i < dr A -> j < dc A -> ent B i j = (2 ^ lalpha * mmul (dc A) (ent A) V i j)%Z) /\
  (forall i j, i < dc A -> j < dc A -> ent B (dr A + i) j = V i j).

Lemma ns_inv_init A lalpha B : (0 <= lalpha)%Z -> initial A lalpha = Ok B -> ns_inv A lalpha B mid.
Proof.
  intros Hl E. destruct (initial_ok A lalpha Hl) as (B' & E' & W & D1 & D2 & V1 & V2). rewrite E in E'. injection E' as <-.
  split; [exact W|]. do 2 (split; [assumption|]). split; [apply unimodular_id|]. split; [|exact V2].
  intros i j Hi Hj. rewrite V1 by assumption. now rewrite (mmul_id_r (dr A) (dc A)).
Qed.

Lemma ns_inv_mul A lalpha B V B' U : ns_inv A lalpha B V -> unimodular (dc A) U -> dwf B' -> dr B' = dr B -> dc B' = dc B ->
  meq (dr B) (dc B) (ent B') (mmul (dc B) (ent B) U) -> ns_inv A lalpha B' (mmul (dc A) V U).
Proof.
  intros (W & D1 & D2 & UV & V1 & V2) UU W' D1' D2' E. rewrite D1, D2 in E.
  split; [exact W'|]. do 2 (split; [congruence|]). split; [now apply unimodular_mul|]. split; intros i j Hi Hj.
  - rewrite E by lia. rewrite <- mmul_assoc. unfold mmul at 1 2. rewrite <- sumZ_mul_l. apply sumZ_ext.
    intros l Hl. rewrite V1 by lia. ring.
  - rewrite E by lia. unfold mmul. apply sumZ_ext. intros l Hl. now rewrite V2.
Qed.

(** result of the extraction *)
Lemma ns_extract A lalpha B V null r : (0 <= lalpha)%Z -> ns_inv A lalpha B V -> length null = dc A ->
  (forall j, j < dc A -> (nth j null false = true <-> forall i, i < dr A -> ent B i j = 0%Z)) ->
  r = count_true null ->
  exists C, extract (fun i j => gget B (i + dr A) j) (dc A) null (dc A) (resize0 (dc A) r) = Ok C /\
    dr C = dc A /\ dc C = r /\ kernel_vectors (dr A) (dc A) r (ent A) (ent C) /\
    (independent (dc A) (dr A) (mtr (ent A)) -> r + dr A <= dc A /\
       (r + dr A = dc A -> generates_kernel (dr A) (dc A) r (ent A) (ent C))).
Proof.
  intros Hl (W & D1 & D2 & UV & V1 & V2) L HN ->.
  rewrite count_true_filter, L. set (p := fun j => nth j null false) in *. set (r := length (filter p (seq 0 (dc A)))) in *.
  destruct (extract_ok (fun i j => gget B (i + dr A) j) (dc A) null (dc A) (resize0 (dc A) r) (fun i j => ent B (i + dr A) j)
    (resize0_wf _ _)) as (C & E & WC & C1 & C2 & VC); cbn [dr dc resize0]; try lia.
  { apply le_n. }
  { intros i j Hi Hj. apply gget_ok; lia. }
  fold p in VC. fold r in VC.
  assert (VC' : forall i k, i < dc A -> k < r -> ent C i k = V i (nth k (filter p (seq 0 (dc A))) 0)).
  { intros i k Hi Hk. rewrite VC by assumption. rewrite Nat.add_comm. apply V2; [assumption|]. apply (filter_nth_in p); exact Hk. }
  assert (HZ : forall j i, j < dc A -> i < dr A -> p j = true -> mmul (dc A) (ent A) V i j = 0%Z).
  { intros j i Hj Hi Hp. assert (Z0 := proj1 (HN j Hj) Hp i Hi). rewrite V1 in Z0 by assumption.
    apply Z.mul_eq_0 in Z0 as [Z0|Z0]; [|exact Z0]. exfalso. assert (0 < 2 ^ lalpha)%Z by (apply Z.pow_pos_nonneg; lia). lia. }
  exists C. split; [exact E|]. do 2 (split; [assumption|]). split.
  - split.
    + intros i k Hi Hk. destruct (filter_nth_in p (dc A) k Hk) as [K1 K2].
      transitivity (mmul (dc A) (ent A) V i (nth k (filter p (seq 0 (dc A))) 0)); [|now apply HZ].
      unfold mmul. apply sumZ_ext. intros l Hl'. now rewrite VC'.
    + exists V, (fun k => nth k (filter p (seq 0 (dc A))) 0). split; [exact UV|]. split; [|split; [|exact VC']].
      * intros k Hk. now apply (filter_nth_in p).
      * intros k l Hkl. now apply filter_seq_incr.
  - intros HR. split; [now apply (kernel_count (dr A) (dc A) (ent A) V p)|].
    intros Er. apply (kernel_complete (dr A) (dc A) (ent A) V p); auto.
Qed.

(** ** The object during the loop of shifts *)
Section LLLFacts.
Context {F : Type} (fp : fpops F).
Hypothesis EX : expo_nonneg fp.
Variable J : junk_t (F := F).
Variables junk delta1 delta2 : F.
Variable e10 : Z -> Z.
Variable e10' : Z -> Z -> Z.
Variable ext : dmat -> res dmat.

Lemma put_ok_gen n d A up t tau (L : lattice F) : obj n d L -> up <= n -> dr A = n -> dc A = d -> n - up <= d ->
  exists L', put e10 e10' A up t tau L = Ok L' /\ obj n d L' /\ iS (li L') = iS (li L) /\ iU (li L') = id_mat d /\ lcfg L' = lcfg L.
Proof.
  intros (H1 & H2 & H3 & H4) Hn A1 A2 Ht. unfold put.
  destruct (trunc_ok e10 e10' (mkD (cn (lcfg L)) (cd (lcfg L)) (iB (li L))) A up (cd (lcfg L)) (cn (lcfg L)) t tau)
    as (B' & E & _); cbn [dr dc]; try lia.
  { unfold dwf. cbn. rewrite H1, H2. exact H4. }
  rewrite E. cbn [bind]. eexists. split; [reflexivity|]. unfold put_raw, obj. cbn [lcfg li iS iU iB].
  rewrite H1, H2, H3. repeat split; auto; apply mtab_wfm.
Qed.

Lemma shift_in_ok B l k : dwf B -> k <= dr B ->
  exists B', shift_in B l k = Ok B' /\ dwf B' /\ dr B' = dr B /\ dc B' = dc B /\
    forall i j, i < dr B -> j < dc B -> ent B' i j = if i <? k then mul_2si (ent B i j) l else ent B i j.
Proof.
  intros W Hk. unfold shift_in.
  destruct (for2_writes (dc B) k (fun j i M => let* x := gget M i j in gset M i j (mul_2si x l)) (fun j => j) (fun i => i)
    (fun j i => mul_2si (ent B i j) l) true B W) as (B' & E & W' & D1 & D2 & V & O); auto.
  - intros; lia.
  - intros j i N Hj Hi WN N1 N2 E. rewrite gget_ok by lia. cbn [bind]. now rewrite E.
  - exists B'. split; [exact E|]. split; [exact W'|]. do 2 (split; [assumption|]).
    intros i j Hi Hj. destruct (Nat.ltb_spec i k).
    + now apply (V j i).
    + apply O. intros j' i' Hj' Hi' [-> ->]. lia.
Qed.

Lemma ns_loop_spec A lalpha fuel fh lsigma : 0 < dc A ->
  forall B V L shift B' null, ns_inv A lalpha B V -> obj (dr A + dc A) (dc A) L -> sok (dc A) (iS (li L)) ->
  ns_loop fp junk delta2 e10 e10' fuel fh (dr A) (dc A) lsigma B L shift = Ok (B', null) ->
  (exists V', ns_inv A lalpha B' V') /\ length null = dc A /\
  (forall j, j < dc A -> (nth j null false = true <-> forall i, i < dr A -> ent B' i j = 0%Z)) /\
  (Z.of_nat (dc A) - Z.of_nat (dr A) <= Z.of_nat (count_true null))%Z.
Proof.
  intros Hn. induction fuel as [|fuel IH]; intros B V L shift B' null HI HO HS H; cbn [ns_loop] in H; [discriminate|].
  cbv zeta in H. pose proof HI as (W & D1 & D2 & _).
  destruct (shift_in_ok B (shift + lsigma) (dr A) W ltac:(lia)) as (BL & E & WL & L1 & L2 & _). rewrite E in H. cbn [bind] in H.
  destruct (put_ok_gen (dr A + dc A) (dc A) BL (dr A) (lsigma + Z.of_nat (dc A)) 0 L HO) as (Lp & EP & HO1 & S1 & U1 & _); try congruence; try lia.
  rewrite EP in H. cbn [bind] in H.
  apply bind_Ok in H as ([r L3] & H3 & H).
  destruct HO1 as (K1 & K2 & K3 & K4).
  destruct (hlll_U fp EX _ _ _ _ _ _ _ H3 K3) as (E3 & W3 & S3 & WU & _ & UU); [rewrite K1, K2; exact K4|rewrite K2, S1; exact HS|rewrite K2; exact U1|].
  assert (HO3 : obj (dr A + dc A) (dc A) L3). { unfold obj. rewrite E3, K1, K2, K3. rewrite K1, K2 in W3. auto. }
  rewrite K2 in UU, S3. destruct (dU_dims _ _ _ HO3) as [Q1 Q2].
  destruct (matprod_in_ok B (dU L3) W ltac:(lia) ltac:(lia) ltac:(lia)) as (B2 & E2 & W2 & R1 & R2 & VP).
  rewrite E2 in H. cbn [bind] in H.
  assert (UL : unimodular (dc A) (ent (dU L3))). { unfold dU. destruct HO3 as (_ & _ & T3 & _). rewrite T3. unfold ent. cbn [de]. exact UU. }
  pose proof (ns_inv_mul A lalpha B V B2 _ HI UL W2 R1 R2 VP) as HI2.
  pose proof HI2 as (W2' & M1 & M2 & _).
  destruct (null_flags_ok (gget B2) (dr A) (dc A) (ent B2)) as (l & El & Ll & Pl); [intros; apply gget_ok; lia|].
  rewrite El in H. cbn [bind] in H. destruct (Z.leb_spec (Z.of_nat (dc A) - Z.of_nat (dr A)) (Z.of_nat (count_true l))) as [G|G].
  - injection H as <- <-. split; [eauto|]. auto.
  - eapply IH; eauto.
Qed.

Lemma nullspace_lll_spec fuel fh A lalpha lsigma m r oC : dwf A -> 0 < dc A -> (0 <= lalpha)%Z -> (m = FPLLL -> ext_reduces ext) ->
  nullspace_lll fp J junk delta1 delta2 e10 e10' ext fuel fh A lalpha lsigma m = Ok (r, oC) ->
  (r = (-1)%Z /\ oC = None /\ lsigma = 0%Z) \/
  exists (k : nat) C, r = Z.of_nat k /\ oC = Some C /\ dr C = dc A /\ dc C = k /\ dc A <= k + dr A /\
    kernel_vectors (dr A) (dc A) k (ent A) (ent C) /\
    (independent (dc A) (dr A) (mtr (ent A)) -> k + dr A = dc A /\ generates_kernel (dr A) (dc A) k (ent A) (ent C)).
Proof.
  intros WA Hn Hl EXT H. unfold nullspace_lll in H. cbv zeta in H.
  apply bind_Ok in H as (B & HB & H). pose proof (ns_inv_init A lalpha B Hl HB) as HI. pose proof HI as (W & D1 & D2 & _).
  apply bind_Ok in H as ([B' null] & HL & H).
  assert (X : (exists V', ns_inv A lalpha B' V') /\ length null = dc A /\
     (forall j, j < dc A -> (nth j null false = true <-> forall i, i < dr A -> ent B' i j = 0%Z)) /\
     (lsigma <> 0 -> (Z.of_nat (dc A) - Z.of_nat (dr A) <= Z.of_nat (count_true null)))%Z).
  { destruct (Z.eqb_spec lsigma 0) as [->|NS].
    - apply bind_Ok in HL as (B1 & HB1 & HL).
      assert (Y : exists V', ns_inv A lalpha B1 V').
      { destruct m; [| |injection HB1 as <-; eauto].
        2:{ destruct (transpose_to_ok (resize0 (dc A) (dr A + dc A)) B (resize0_wf _ _)) as (AT & ET & WT & T1 & T2 & VT & _);
              [cbn; lia|cbn; lia|]. rewrite ET in HB1. cbn [bind] in HB1. cbn [dr dc resize0] in T1, T2.
            apply bind_Ok in HB1 as (AT' & HE & HB1). destruct (EXT eq_refl AT AT' HE) as (X1 & X2 & Wm & UW & EW).
            rewrite T1, T2 in *. 
            destruct (transpose_to_ok B AT' W ltac:(lia) ltac:(lia)) as (B2 & E2 & W2 & B21 & B22 & VB & _).
            rewrite E2 in HB1. injection HB1 as <-.
            exists (mmul (dc A) mid (mtr Wm)). apply (ns_inv_mul A lalpha B mid B2 (mtr Wm)); auto.
            { destruct UW as (Wi & P1 & P2). exists (mtr Wi). split; intros i j Hi Hj.
              - transitivity (mmul (dc A) Wi Wm j i); [unfold mmul, mtr; apply sumZ_ext; intros; ring|]. rewrite P2 by assumption. unfold mid. now rewrite Nat.eqb_sym.
              - transitivity (mmul (dc A) Wm Wi j i); [unfold mmul, mtr; apply sumZ_ext; intros; ring|]. rewrite P1 by assumption. unfold mid. now rewrite Nat.eqb_sym. }
            rewrite D1, D2. intros i j Hi Hj. rewrite VB by lia. rewrite EW by lia. unfold mmul, mtr. apply sumZ_ext.
            intros l Hl0. rewrite VT by lia. ring. }
        apply bind_Ok in HB1 as ([r0 L] & HH & HB1).
        assert (PR : precisions_ok (F := F) [CallHlll fh delta1 true junk]).
        { intros fp' fu de ju J1 J2 [I|[]]. discriminate. }
        destruct (run_pres fp EX (dr A + dc A) (dc A) false 0 [CallHlll fh delta1 true junk] PR (fn (de B))
           (new_lattice fp J (dr A + dc A) (dc A) (de B) false 0 true 0) L) as [D (Hb & V & UV & EV)].
        { cbn [run mfold exec]. rewrite HH. reflexivity. }
        { apply new_dims. } { apply new_pres. }
        pose proof (getbase_fn _ _ _ _ _ D) as GB. destruct D as (C1 & C2 & _).
        destruct (transpose_to_ok (resize0 (dc A) (dr A + dc A)) (dbase L) (resize0_wf _ _)) as (T & ET & WT & T1 & T2 & VT & _);
          [cbn; lia|cbn; lia|]. rewrite ET in HB1. cbn [bind] in HB1. cbn [dr dc resize0] in T1, T2.
        destruct (transpose_to_ok B T W ltac:(lia) ltac:(lia)) as (B2 & E2 & W2 & B21 & B22 & VB & _).
        rewrite E2 in HB1. injection HB1 as <-.
        exists (mmul (dc A) mid V). apply (ns_inv_mul A lalpha B mid B2 V); auto.
        rewrite D1, D2. intros i j Hi Hj. cbn [current] in EV.
        change (ent B2 i j = mmul (dc A) (fn (de B)) V i j).
        rewrite <- (EV i j Hi Hj). rewrite <- (GB i j Hi Hj).
        rewrite VB by lia. rewrite VT by (unfold dbase; cbn [dr dc]; lia). reflexivity. }
      destruct Y as [V' HV']. pose proof HV' as (W' & M1 & M2 & _).
      destruct (null_flags_ok (gget B1) (dr A) (dc A) (ent B1)) as (l & El & Ll & Pl); [intros; apply gget_ok; lia|].
      rewrite El in HL. cbn [bind] in HL. injection HL as <- <-. split; [eauto|]. do 2 (split; [assumption|]). intros; contradiction.
    - cbv zeta in HL. apply bind_Ok in HL as (mx & _ & HL).
      eapply ns_loop_spec in HL; eauto.
      + destruct HL as (Y1 & Y2 & Y3 & Y4). auto.
      + apply obj_new.
      + unfold new_lattice. cbn [li iS]. apply sok_structure. apply independent_staircase.
        apply (initial_independent A lalpha B Hl HB). }
  destruct X as ((V & HV) & Ln & PN & HC). clear HL.
  destruct ((lsigma =? 0) && (Z.of_nat (count_true null) <? Z.of_nat (dc A) - Z.of_nat (dr A)))%Z eqn:E.
  - injection H as <- <-. left. apply andb_true_iff in E as [E _]. apply Z.eqb_eq in E. auto.
  - right. apply andb_false_iff in E.
    assert (GE : dc A <= count_true null + dr A).
    { destruct E as [E|E]; [apply Z.eqb_neq in E; specialize (HC E); lia|apply Z.ltb_ge in E; lia]. }
    destruct (ns_extract A lalpha B' V null (count_true null) Hl HV Ln PN eq_refl) as (C & EC & C1 & C2 & KV & KG).
    rewrite EC in H. cbn [bind] in H. injection H as <- <-.
    exists (count_true null), C. do 4 (split; [auto|]). split; [exact GE|]. split; [exact KV|].
    intros HR. destruct (KG HR) as [G1 G2]. assert (count_true null + dr A = dc A) by lia. split; [assumption|]. now apply G2.
Qed.
End LLLFacts.

(** ** nullspace_direct_decomp and nullspace_hjls *)
Section DecompFacts.
Context {F : Type} (fp : fpops F).
Variable J : junk_t (F := F).
Variables junk gap g1 g2 : F.

Lemma nullspace_direct_spec fuel A r oC : dwf A -> 0 < dc A ->
  nullspace_direct fp J junk gap g1 fuel A = Ok (r, oC) ->
  (r = (-1)%Z /\ oC = None) \/
  exists (k : nat) C, r = Z.of_nat k /\ oC = Some C /\ dr C = dc A /\ dc C = k /\ k + dr A = dc A /\
    kernel_vectors (dr A) (dc A) k (ent A) (ent C) /\
    (independent (dc A) (dr A) (mtr (ent A)) -> generates_kernel (dr A) (dc A) k (ent A) (ent C)).
Proof.
  intros WA Hn H. unfold nullspace_direct in H. cbv zeta in H.
  apply bind_Ok in H as ([fl z] & HD & H).
  apply (decomp_inv fp (dr A) (dc A) 0 true gap (fn (de A))) in HD as [(W1 & W2 & _ & T & Ti & I1 & I2 & EF & EU & _) _];
    [|apply (new_inv (F := F) (dr A) (dc A) true J (de A))].
  specialize (W2 eq_refl). specialize (EU eq_refl).
  destruct (transpose_to_ok (resize0 (dc A) (dr A)) (zbase_d (dr A) (dc A) z) (resize0_wf _ _)) as (B & EB & WB & B1 & B2 & VB & _);
    [cbn; lia|cbn; lia|]. rewrite EB in H. cbn [bind dr dc resize0] in H, B1, B2, VB.
  assert (VB' : forall i j, i < dr A -> j < dc A -> ent B j i = mmul (dc A) (ent A) T i j).
  { intros i j Hi Hj. unfold zbase_d in VB. cbn [dr dc] in VB. rewrite VB by assumption. unfold ent at 1. cbn [de].
    unfold zgetbase. rewrite fn_mtab by assumption. now apply EF. }
  destruct (null_flags_ok (fun i j => gget B j i) (dr A) (dc A) (fun i j => ent B j i)) as (l & El & Ll & Pl);
    [intros; apply gget_ok; lia|]. rewrite El in H. cbn [bind] in H.
  destruct (Z.eqb_spec (Z.of_nat (count_true l)) (Z.of_nat (dc A) - Z.of_nat (dr A))) as [Eq|Ne]; cbn [negb] in H.
  2:{ injection H as <- <-. now left. }
  right.
  destruct (transpose_to_ok (resize0 (dc A) (dc A)) (mkD (dc A) (dc A) (zgetU (dc A) true z)) (resize0_wf _ _)) as (B' & EB' & WB' & B1' & B2' & VB2 & _);
    [cbn; lia|cbn; lia|]. rewrite EB' in H. cbn [bind dr dc resize0] in H, B1', B2', VB2.
  assert (VU : forall i j, i < dc A -> j < dc A -> ent B' j i = T i j).
  { intros i j Hi Hj. rewrite VB2 by assumption. unfold ent, zgetU. cbn [de]. rewrite fn_mtab by assumption. now apply EU. }
  set (p := fun j => nth j l false) in *. 
  assert (ER : count_true l = length (filter p (seq 0 (dc A)))) by (rewrite count_true_filter, Ll; reflexivity).
  destruct (extract_ok (fun i j => gget B' j i) (dc A) l (dc A) (resize0 (dc A) (dc A - dr A)) (fun i j => ent B' j i)
    (resize0_wf _ _)) as (C & E & WC & C1 & C2 & VC); cbn [dr dc resize0]; try lia.
  { fold p. lia. }
  { intros i j Hi Hj. apply gget_ok; lia. }
  rewrite E in H. cbn [bind] in H. injection H as <- <-. fold p in VC. cbn [dr dc resize0] in C1, C2.
  rewrite ER in *. set (k := length (filter p (seq 0 (dc A)))) in *.
  assert (UT : unimodular (dc A) T) by (exists Ti; auto).
  assert (VC' : forall i q, i < dc A -> q < k -> ent C i q = T i (nth q (filter p (seq 0 (dc A))) 0)).
  { intros i q Hi Hq. rewrite VC by assumption. apply VU; [assumption|]. now apply (filter_nth_in p). }
  assert (HZ : forall j i, j < dc A -> i < dr A -> p j = true -> mmul (dc A) (ent A) T i j = 0%Z).
  { intros j i Hj Hi Hp. rewrite <- VB' by assumption. now apply (proj1 (Pl j Hj) Hp). }
  exists k, C. split; [reflexivity|]. split; [reflexivity|]. do 3 (split; [lia|]). split.
  - split.
    + intros i q Hi Hq. destruct (filter_nth_in p (dc A) q Hq) as [K1 K2].
      transitivity (mmul (dc A) (ent A) T i (nth q (filter p (seq 0 (dc A))) 0)); [|now apply HZ].
      unfold mmul. apply sumZ_ext. intros l0 Hl'. now rewrite VC'.
    + exists T, (fun q => nth q (filter p (seq 0 (dc A))) 0). split; [exact UT|]. split; [|split; [|exact VC']].
      * intros q Hq. now apply (filter_nth_in p).
      * intros a b Hab. now apply filter_seq_incr.
  - intros HR. apply (kernel_complete (dr A) (dc A) (ent A) T p); auto. fold k. lia.
Qed.

Lemma count_true_all l : count_true l = length l -> forall j, j < length l -> nth j l false = true.
Proof.
  unfold count_true. induction l as [|b l IH]; intros H j Hj; [cbn in Hj; lia|].
  cbn [filter length] in H. destruct b; cbn [length] in H.
  - destruct j as [|j]; [reflexivity|]. cbn [nth]. apply IH; [lia|cbn in Hj; lia].
  - assert (length (filter (fun b => b) l) <= length l).
    { clear. induction l as [|b l IH]; [auto|]. cbn. destruct b; cbn; lia. }
    lia.
Qed.

Lemma nullspace_hjls_spec fuel A r oC : dwf A -> 0 < dr A -> 0 < dc A ->
  nullspace_hjls fp J junk gap g2 fuel A = Ok (r, oC) ->
  r = (-1)%Z \/
  exists (k : nat) C, r = Z.of_nat k /\ oC = Some C /\ dr C = dc A /\ dc C = k /\ k + dr A = dc A /\
    forall i q, i < dr A -> q < k -> mmul (dc A) (ent A) (ent C) i q = 0%Z.
Proof.
  intros WA Hd Hn H. unfold nullspace_hjls in H. cbv zeta in H.
  apply bind_Ok in H as (B & _ & H). apply bind_Ok in H as ([fl z] & _ & H).
  destruct (fl <? 0)%Z; [injection H as <- <-; now left|].
  apply guard_Ok in H as [G H]. apply Nat.leb_le in G.
  set (N := dc A + dr A) in *.
  destruct (transpose_to_ok (resize0 N N) (mkD N N (zgetV N false z)) (resize0_wf _ _)) as (VT & EV & WV & V1 & V2 & _ & _);
    [cbn; lia|cbn; lia|]. rewrite EV in H. cbn [bind dr dc resize0] in H, V1, V2.
  destruct (for2_simple (dc A) (dc A - dr A) (fun i j M => let* x := gget VT (2 * dr A + j) (dr A + i) in gset M i j x)
     (fun i j => ent VT (2 * dr A + j) (dr A + i)) (resize0 (dc A) (dc A - dr A)) (resize0_wf _ _)) as (C & EC & WC & C1 & C2 & _ & _);
     cbn [dr dc resize0]; try lia.
  { intros i j M Hi Hj _ _ _ _. rewrite gget_ok by (unfold N in *; lia). reflexivity. }
  rewrite EC in H. cbn [bind] in H. cbn [dr dc resize0] in C1, C2.
  destruct (matprod_ok (resize0 (dr A) (dc A - dr A)) A C (resize0_wf _ _)) as (ZM & EZ & WZ & Z1 & Z2 & VZ & _); cbn [dr dc resize0]; try lia.
  rewrite EZ in H. cbn [bind] in H. cbn [dr dc resize0] in Z1, Z2.
  destruct (null_flags_ok (gget ZM) (dr A) (dc A - dr A) (ent ZM)) as (l & El & Ll & Pl); [intros; apply gget_ok; lia|].
  rewrite El in H. cbn [bind] in H.
  destruct (Nat.eqb_spec (count_true l) (dc A - dr A)) as [E|E]; cbn [negb] in H; injection H as <- <-; [|now left].
  right. exists (count_true l), C. split; [reflexivity|]. split; [reflexivity|]. do 3 (split; [lia|]).
  intros i q Hi Hq. rewrite <- (VZ i q) by lia.
  apply (proj1 (Pl q ltac:(lia))); [|assumption]. apply count_true_all; lia.
Qed.
End DecompFacts.
