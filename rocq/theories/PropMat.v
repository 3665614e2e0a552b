(** * Matrix functions of src/mat.h: C14-C17, C30, C32, C40

    [ent M i j] is the entry (i,j) of a matrix object, [mmul] the mathematical product,
    [Ok]/[UB] distinguishes a defined execution from an out-of-bounds access.  For the OpenMP
    loops, [parallel_run eqb pool m m'] says that some interleaving of the threads of [pool],
    started in memory [m], ends in memory [m'], and [race_free] that no two operations of
    different threads conflict on a location. *)
From Coq Require Import ZArith Lia List Bool Arith Floats.
From Verif Require Import Base Spec Mat FP Hlll IntSteps HlllInt MatOps MatOpsFacts Par MatPar MatPar2 MatPar3 Double.
Import ListNotations.

Definition as_memory (C : dmat) : loc -> Z := fun x => ent C (fst x) (snd x).
Definition dm (l : list (list Z)) : dmat := mkD (length (nth 0 l [])) (length l) l.

(** ** C14 *)
Theorem C14_parallel_products_exact :
  forall (C U : dmat) (S : nat), 0 < S -> 0 < dc C ->
  race_free (ppi_pool (dr C) (dc C) U S) /\
  (exists M', parallel_run loc_eqb (ppi_pool (dr C) (dc C) U S) (as_memory C) M') /\
  forall M', parallel_run loc_eqb (ppi_pool (dr C) (dc C) U S) (as_memory C) M' ->
    (forall i j, i < dr C -> j < dc C -> M' (i, j) = mmul (dc C) (ent C) (ent U) i j) /\
    (forall i j, dr C <= i \/ dc C <= j -> M' (i, j) = ent C i j).
Proof.
  intros C U S HS Hc. split; [now apply ppi_race_free|]. split.
  - eexists. apply seq_is_run.
  - intros M' H. apply ppi_correct in H as [H1 H2]; auto.
Qed.

Theorem C14_transposed_parallel_product_exact :
  forall (C U Ct Ut : dmat) (S : nat), 0 < S -> 0 < dc C -> dr U = dc C -> dc U = dc C ->
  transpose C = Ok Ct -> transpose U = Ok Ut ->
  race_free (tppi_pool Ct Ut (dr C) (dc C) S) /\
  (exists M', parallel_run loc_eqb (tppi_pool Ct Ut (dr C) (dc C) S) (as_memory C) M') /\
  forall M', parallel_run loc_eqb (tppi_pool Ct Ut (dr C) (dc C) S) (as_memory C) M' ->
    forall i j, i < dr C -> j < dc C -> M' (i, j) = mmul (dc C) (ent C) (ent U) i j.
Proof.
  intros C U Ct Ut S HS Hc H1 H2 HC HU. split; [now apply tppi_race_free|]. split.
  - eexists. apply seq_is_run.
  - intros M' H. eapply (tppi_correct C U Ct Ut S M'); eauto.
Qed.

Definition Cx : dmat := dm [[1; 2; 3]; [4; 5; 7]]%Z.
Definition Ux : dmat := dm [[2; 1]; [-3; 4]]%Z.
Example C14_case : 0 < 2 /\ 0 < dc Cx /\
  map (exec_seq loc_eqb (ppi_pool (dr Cx) (dc Cx) Ux 2) (as_memory Cx)) [(0,0); (1,0); (2,0); (0,1); (1,1); (2,1)] =
  [6; 9; 13; 13; 14; 19]%Z /\
  (exists Ct Ut, transpose Cx = Ok Ct /\ transpose Ux = Ok Ut /\
    map (exec_seq loc_eqb (tppi_pool Ct Ut (dr Cx) (dc Cx) 2) (as_memory Cx)) [(0,0); (1,0); (2,0); (0,1); (1,1); (2,1)] =
    [6; 9; 13; 13; 14; 19]%Z).
Proof. do 3 (split; [cbn; (lia || reflexivity)|]). do 2 eexists. do 2 (split; [reflexivity|]). reflexivity. Qed.

(** ** C15: the update of the basis column with S threads *)
Theorem C15_parallel_size_update :
  forall (F : Type) (fp : fpops F) (c : cfg) kappa from_i (vx : list F) nmax (B : mat Z) M',
    expo_nonneg fp -> 0 < cS c -> from_i < kappa ->
    parallel_run loc_eqb (psz_pool fp c kappa from_i vx nmax (cS c)) (fun x => mget 0%Z B (fst x) (snd x)) M' ->
    race_free (psz_pool fp c kappa from_i vx nmax (cS c)) /\
    (forall r, r < nmax -> M' (r, kappa) =
       (mget 0 B r kappa - sumZ (from_i + 1) (fun i => xcoef fp c (nth i vx (fzero fp)) * mget 0 B r i))%Z) /\
    (forall r j, j <> kappa \/ nmax <= r -> M' (r, j) = mget 0%Z B r j).
Proof.
  intros F fp c kappa from_i vx nmax B M' EX HS Hf H. split; [now apply psz_race_free|].
  pose proof (psz_parallel fp c kappa from_i vx nmax (cS c) _ _ HS Hf H) as P. split.
  - intros r Hr. rewrite P, Nat.eqb_refl. cbn [andb].
    destruct (Nat.ltb_spec r nmax); [|lia]. cbn [fst snd].
    exact (fold_updx_sum fp c vx from_i (fun i => mget 0%Z B r i) (mget 0%Z B r kappa) EX).
  - intros r j Hrj. rewrite P. cbn [fst snd]. destruct (Nat.eqb_spec j kappa) as [->|]; cbn [andb]; [|reflexivity].
    destruct (Nat.ltb_spec r nmax); [lia|reflexivity].
Qed.

(** and the whole-object model of hlll (Hlll.v) runs exactly this *)
Theorem C15_parallel_equals_model :
  forall (F : Type) (fp : fpops F) (c : cfg) kappa from_i (vx : list F) nmax (B : mat Z) M',
    0 < cS c -> wfm (cn c) (cd c) B -> from_i < kappa -> kappa < cd c ->
    parallel_run loc_eqb (psz_pool fp c kappa from_i vx nmax (cS c)) (fun x => mget 0%Z B (fst x) (snd x)) M' ->
    forall r j, r < cn c -> M' (r, j) =
      mget 0%Z (fold_left (fun B l => psize_thread fp c kappa from_i vx nmax (cS c) l B) (seq 0 (cS c)) B) r j.
Proof. intros. eapply psz_is_model; eassumption. Qed.

(** the slices of rows partition 0..nmax-1 *)
Theorem C15_slices_partition :
  forall nmax S, 0 < S -> forall r,
    (r < nmax -> exists! l, l < S /\ slice_beg nmax S l <= r < slice_beg nmax S l + slice_len nmax S l) /\
    (forall l, l < S -> slice_beg nmax S l <= r < slice_beg nmax S l + slice_len nmax S l -> r < nmax).
Proof.
  intros nmax S HS r. split.
  - intros Hr. destruct (blk_cover nmax S r HS Hr) as (l & i & Hl & Hi & E). exists l. split.
    + rewrite slice_beg_blk, slice_len_blk by assumption. lia.
    + intros l' [Hl' H]. rewrite slice_beg_blk, slice_len_blk in H by assumption.
      destruct (blk_disjoint nmax S l l' i (r - blk_beg nmax S l')) as [? _]; auto; lia.
  - intros l Hl H. rewrite slice_beg_blk, slice_len_blk in H by assumption.
    pose proof (blk_in_range nmax S l (r - blk_beg nmax S l) HS Hl). lia.
Qed.

(** ** C16 *)
Theorem C16_blocks_tile :
  forall (A : dmat) nbr nbc, 0 < nbr -> 0 < nbc ->
    (forall ii jj, ii < nbr -> jj < nbc -> exists X, getblock A ii jj nbr nbc = Ok X /\
        forall i j, i < dr X -> j < dc X ->
          ent X i j = ent A (blk_beg (dr A) nbr ii + i) (blk_beg (dc A) nbc jj + j) /\
          blk_beg (dr A) nbr ii + i < dr A /\ blk_beg (dc A) nbc jj + j < dc A) /\
    (forall r k, r < dr A -> k < dc A -> exists! p : (nat * nat) * (nat * nat),
        let '((ii, jj), (i, j)) := p in
        ii < nbr /\ jj < nbc /\ (exists X, getblock A ii jj nbr nbc = Ok X /\ i < dr X /\ j < dc X) /\
        r = blk_beg (dr A) nbr ii + i /\ k = blk_beg (dc A) nbc jj + j).
Proof.
  intros A nbr nbc Hr Hc. split.
  - intros ii jj Hi Hj. destruct (getblock_ok A ii jj nbr nbc Hi Hj) as (X & E & W & D1 & D2 & HX).
    exists X. split; [exact E|]. intros i j Li Lj. split; [now apply HX|].
    rewrite D1 in Li. rewrite D2 in Lj. split; now apply blk_in_range.
  - intros r k Lr Lk.
    destruct (blk_cover (dr A) nbr r Hr Lr) as (ii & i & Hii & Hi & ->).
    destruct (blk_cover (dc A) nbc k Hc Lk) as (jj & j & Hjj & Hj & ->).
    exists ((ii, jj), (i, j)). split.
    + do 2 (split; [assumption|]). split; [|split; reflexivity].
      destruct (getblock_ok A ii jj nbr nbc Hii Hjj) as (X & E & W & D1 & D2 & HX). exists X. rewrite D1, D2. auto.
    + intros [[ii' jj'] [i' j']] (Hii' & Hjj' & (X & E & Hi' & Hj') & Er & Ek).
      destruct (getblock_ok A ii' jj' nbr nbc Hii' Hjj') as (X' & E' & W & D1 & D2 & HX).
      rewrite E in E'. injection E' as <-. rewrite D1 in Hi'. rewrite D2 in Hj'.
      destruct (blk_disjoint _ _ _ _ _ _ Hr Hi Hi' Er) as [-> ->].
      destruct (blk_disjoint _ _ _ _ _ _ Hc Hj Hj' Ek) as [-> ->]. reflexivity.
Qed.

Theorem C16_put_get_identity :
  forall (A : dmat) ii jj nbr nbc X, dwf A -> ii < nbr -> jj < nbc ->
    getblock A ii jj nbr nbc = Ok X -> putblock A X ii jj nbr nbc = Ok A.
Proof.
  intros A ii jj nbr nbc X W Hi Hj E.
  destruct (getblock_ok A ii jj nbr nbc Hi Hj) as (X' & E' & WX & D1 & D2 & HX).
  rewrite E in E'. injection E' as <-.
  destruct (putblock_ok A X ii jj nbr nbc W Hi Hj) as (B & EB & WB & B1 & B2 & H1 & H2); try lia.
  rewrite EB. f_equal. apply dmat_ext; auto. intros i j _ _.
  destruct (Nat.lt_ge_cases i (blk_beg (dr A) nbr ii + blk_size (dr A) nbr ii)),
           (Nat.lt_ge_cases j (blk_beg (dc A) nbc jj + blk_size (dc A) nbc jj)),
           (Nat.lt_ge_cases i (blk_beg (dr A) nbr ii)), (Nat.lt_ge_cases j (blk_beg (dc A) nbc jj));
    try (apply H2; intros; lia).
  specialize (H1 (i - blk_beg (dr A) nbr ii) (j - blk_beg (dc A) nbc jj) ltac:(lia) ltac:(lia)).
  rewrite HX in H1 by lia.
  replace (blk_beg (dr A) nbr ii + (i - blk_beg (dr A) nbr ii)) with i in H1 by lia.
  replace (blk_beg (dc A) nbc jj + (j - blk_beg (dc A) nbc jj)) with j in H1 by lia. exact H1.
Qed.

Theorem C16_reassemble :
  forall (A B : dmat) nbr nbc, dwf A -> dwf B -> dr A = dr B -> dc A = dc B -> 0 < nbr -> 0 < nbc ->
    for2 nbr nbc (fun ii jj M => let* X := getblock A ii jj nbr nbc in putblock M X ii jj nbr nbc) B = Ok A.
Proof. exact copy_blocks_ok. Qed.

Example C16_case : exists X, getblock (dm [[1; 2; 3; 4; 5]; [6; 7; 8; 9; 10]; [11; 12; 13; 14; 15]]%Z) 0 1 2 2 = Ok X /\
  X = dm [[11; 12; 13]]%Z.
Proof. eexists. split; reflexivity. Qed.

(** ** C17: what pmatprod_in computes, for every S and schedule *)
Theorem C17_pmatprod_in_first_rows :
  forall (C U : dmat) S, 0 < S ->
    race_free (pin_pool (dr C) (dc C) U S) /\
    forall M', parallel_run loc_eqb (pin_pool (dr C) (dc C) U S) (as_memory C) M' ->
      (forall i j, i < S * (dr C / S) -> j < dc C -> M' (i, j) = mmul (dc C) (ent C) (ent U) i j) /\
      (forall i j, S * (dr C / S) <= i \/ dc C <= j -> M' (i, j) = ent C i j).
Proof.
  intros C U S HS. split; [apply pin_race_free|]. intros M' H. apply pin_correct in H as [H1 H2]; auto.
Qed.

Theorem C17_pmatprod_in_divisible :
  forall (C U : dmat) S q, 0 < S -> dr C = S * q ->
    forall M', parallel_run loc_eqb (pin_pool (dr C) (dc C) U S) (as_memory C) M' ->
      forall i j, i < dr C -> j < dc C -> M' (i, j) = mmul (dc C) (ent C) (ent U) i j.
Proof.
  intros C U S q HS E M' H. apply pin_correct in H as [H1 _]; [|assumption].
  intros i j Hi Hj. apply H1; [|assumption]. rewrite E in *. rewrite (Nat.mul_comm S q), Nat.div_mul by lia. lia.
Qed.

(** the same without OpenMP (mat.h compiled without -fopenmp): it is defined and
    multiplies the same rows *)
Theorem C17_pmatprod_in_sequential :
  forall (C U : dmat) S, dwf C -> 0 < S -> 0 < dc C -> dc C <= dr U -> dc C <= dc U ->
    exists C', pmatprod_in C U S = Ok C' /\ dr C' = dr C /\ dc C' = dc C /\
      (forall i j, i < S * (dr C / S) -> j < dc C -> ent C' i j = mmul (dc C) (ent C) (ent U) i j) /\
      (forall i j, S * (dr C / S) <= i < dr C -> j < dc C -> ent C' i j = ent C i j).
Proof.
  intros C U S W HS H1 H2 H3.
  destruct (pmatprod_in_ok C U S W HS H1 H2 H3) as (C' & E & _ & R & D & P & Q).
  exists C'. repeat split; auto. intros i j Hi Hj. apply Q. lia.
Qed.
Example C17_sequential_case :
  exists C', pmatprod_in (dm [[1;2;3;4;5];[0;1;0;1;0]]%Z) (dm [[1;1];[0;1]]%Z) 2 = Ok C' /\
    map (fun i => ent C' i 1) [0;1;2;3;4]%nat = [0;1;0;1;0]%Z /\
    map (fun i => ent C' i 0) [0;1;2;3;4]%nat = [1;3;3;5;5]%Z.
Proof. eexists. split; [vm_compute; reflexivity|]. vm_compute. auto. Qed.

(** for every S that does not divide the number of rows, some C and U give a wrong product *)
Theorem C17_pmatprod_in_any_blocks_refuted :
  forall m S, 0 < S -> m mod S <> 0 -> exists C U, dwf C /\ dr C = m /\ dc C = 1 /\ dr U = 1 /\ dc U = 1 /\
    forall M', parallel_run loc_eqb (pin_pool (dr C) (dc C) U S) (as_memory C) M' ->
      ~ (forall i j, i < dr C -> j < dc C -> M' (i, j) = mmul (dc C) (ent C) (ent U) i j).
Proof.
  intros m S HS Hm. exists (mkD m 1 (mtab m 1 (fun _ _ => 1%Z))), (dm [[2%Z]]).
  split; [apply mtab_wfm|]. do 4 (split; [reflexivity|]). cbn [dr dc]. intros M' H Hall.
  apply pin_correct in H as [_ H]; [|assumption].
  pose proof (Nat.div_mod m S ltac:(lia)) as E. pose proof (Nat.mod_upper_bound m S ltac:(lia)).
  assert (L : S * (m / S) < m) by lia.
  specialize (H (S * (m / S)) 0 (or_introl (le_n _))). rewrite Hall in H by lia. revert H.
  unfold as_memory, mmul. cbn [fst snd sumZ ent de dm].
  assert (X : fn (mtab m 1 (fun _ _ => 1%Z)) (S * (m / S)) 0 = 1%Z).
  { unfold fn. rewrite mget_mtab by lia. reflexivity. }
  unfold ent. cbn [de]. rewrite X. cbn. discriminate.
Qed.

Example C17_case : 5 mod 2 <> 0 /\ 0 < 2.
Proof. cbn. lia. Qed.

(** ** C30: the ranged copy *)
Theorem C30_set_range_exact :
  forall (B A : dmat) n d1 d2, dwf B -> n <= dr A -> d2 <= dc A -> n <= dr B -> d2 <= dc B ->
    exists B', set_range B A n d1 d2 = Ok B' /\ dr B' = dr B /\ dc B' = dc B /\
      (forall i j, i < n -> d1 < j < d2 -> ent B' i j = ent A i j) /\
      (forall i j, n <= i \/ j <= d1 \/ d2 <= j -> ent B' i j = ent B i j).
Proof.
  intros B A n d1 d2 W H1 H2 H3 H4.
  destruct (set_range_ok B A n d1 d2 W H1 H2 H3 H4) as (B' & E & _ & D1 & D2 & P & Q). eauto 8.
Qed.

(** column d1 itself is never copied *)
Theorem C30_set_range_refuted :
  forall n d1 d2, 0 < n -> d1 < d2 -> exists B A B', dwf A /\ dwf B /\ dr A = n /\ dc A = d2 /\ dr B = n /\ dc B = d2 /\
    set_range B A n d1 d2 = Ok B' /\ ~ (forall i j, i < n -> d1 <= j < d2 -> ent B' i j = ent A i j).
Proof.
  intros n d1 d2 Hn Hd.
  set (A := mkD n d2 (mtab n d2 (fun _ _ => 1%Z))). set (B := mkD n d2 (mtab n d2 (fun _ _ => 0%Z))).
  destruct (C30_set_range_exact B A n d1 d2) as (B' & E & _ & _ & _ & Q); try (cbn; lia); try apply mtab_wfm.
  exists B, A, B'. do 2 (split; [apply mtab_wfm|]). do 4 (split; [reflexivity|]). split; [exact E|].
  intros H. specialize (H 0 d1 Hn ltac:(lia)). rewrite Q in H by lia.
  unfold ent, A, B, fn in H. cbn [de] in H. rewrite !mget_mtab in H by lia. discriminate.
Qed.

Example C30_case : 0 < 3 /\ 1 < 4.
Proof. lia. Qed.

(** ** C32 *)
Theorem C32_setId_isId :
  (forall A, dwf A -> dr A <= dc A ->
     exists A', setId A = Ok A' /\ dr A' = dr A /\ dc A' = dc A /\
       forall i j, i < dr A -> j < dc A -> ent A' i j = if i =? j then 1%Z else 0%Z) /\
  (forall A, dwf A -> dc A < dr A -> setId A = UB) /\
  (forall A, exists b, isId A = Ok b /\
     (b = true <-> forall i j, i < dr A -> j < dc A -> ent A i j = if i =? j then 1%Z else 0%Z)).
Proof.
  split; [|split].
  - intros A W H. destruct (setId_ok A W H) as (A' & E & _ & D1 & D2 & P). exists A'. auto.
  - exact setId_tall.
  - exact isId_ok.
Qed.

Theorem C32_transpose :
  (forall A, exists B, transpose A = Ok B /\ dwf B /\ dr B = dc A /\ dc B = dr A /\
     forall i j, i < dc A -> j < dr A -> ent B i j = ent A j i) /\
  (forall A B, dwf A -> transpose A = Ok B -> transpose B = Ok A).
Proof. split; [exact transpose_ok|exact transpose_invol]. Qed.

Theorem C32_products :
  (forall C B U, dwf C -> 0 < dc B -> dc B <= dr U -> dr B <= dr C -> dc U <= dc C ->
     exists C', matprod C B U = Ok C' /\ dr C' = dr C /\ dc C' = dc C /\
       forall i j, i < dr B -> j < dc U -> ent C' i j = sumZ (dc B) (fun k => ent B i k * ent U k j)%Z) /\
  (forall C U, dwf C -> 0 < dc C -> dr U = dc C -> dc U = dc C ->
     exists C', matprod_in C U = Ok C' /\ matprod_rows C U = Ok C' /\ matprod_in_resize C U = Ok C' /\
       dr C' = dr C /\ dc C' = dc C /\
       forall i j, i < dr C -> j < dc C -> ent C' i j = sumZ (dc C) (fun k => ent C i k * ent U k j)%Z).
Proof.
  split.
  - intros C B U W H1 H2 H3 H4. destruct (matprod_ok C B U W H1 H2 H3 H4) as (C' & E & _ & D1 & D2 & P & _).
    exists C'. auto.
  - intros C U W H1 H2 H3.
    destruct (matprod_in_ok C U W H1) as (C' & E & W' & D1 & D2 & P); try lia.
    destruct (matprod_rows_ok C U W H1) as (C2 & E2 & W2 & D21 & D22 & P2); try lia.
    destruct (matprod_in_resize_ok C U H1) as (C3 & E3 & W3 & D31 & D32 & P3); try lia.
    exists C'. split; [exact E|]. split; [|split; [|auto]].
    + rewrite E2. f_equal. apply dmat_ext; auto; try congruence. intros i j Hi Hj.
      rewrite P2, P by congruence. reflexivity.
    + rewrite E3. f_equal. apply dmat_ext; auto; try congruence. intros i j Hi Hj.
      rewrite P3, P by congruence. reflexivity.
Qed.

(** in-place multiplication of a matrix without columns reads C(0,0) *)
Theorem C32_empty_product_undefined :
  forall C U, dc C = 0 -> 0 < dr C -> 0 < dc U -> matprod_in_resize C U = UB.
Proof. intros C U H1 H2 H3. destruct (matprod_in_empty C U H1 H2); [assumption|lia]. Qed.

Theorem C32_matcmp_exact :
  forall B1 B2 c r, r <= dr B1 -> r <= dr B2 -> 1 <= c -> c <= dc B1 -> c <= dc B2 ->
  exists b : bool, matcmp B1 B2 c r = Ok b /\
    (b = true <-> forall i, i < r ->
        (forall j, j < c -> ent B1 i j = ent B2 i j) \/
        (ent B1 i 0 <> 0%Z /\ forall j, j < c -> ent B1 i j = (- ent B2 i j)%Z)).
Proof. exact matcmp_ok. Qed.

(** rows that are opposite but start with 0 are reported different *)
Theorem C32_matcmp_up_to_sign_refuted :
  exists B1 B2, dwf B1 /\ dwf B2 /\ dr B1 = 1 /\ dr B2 = 1 /\ dc B1 = 2 /\ dc B2 = 2 /\
    (forall i j, i < 1 -> j < 2 -> ent B1 i j = (- ent B2 i j)%Z) /\ matcmp B1 B2 2 1 = Ok false.
Proof.
  exists (dm [[0]; [1]]%Z), (dm [[0]; [-1]]%Z).
  split; [split; [reflexivity|]; repeat constructor|]. split; [split; [reflexivity|]; repeat constructor|].
  do 4 (split; [reflexivity|]). split; [|reflexivity].
  intros i j Hi Hj. assert (i = 0) as -> by lia. destruct j as [|[|]]; [reflexivity|reflexivity|lia].
Qed.

Example C32_case : exists C', matprod_in Cx Ux = Ok C' /\ C' = dm [[6; 9; 13]; [13; 14; 19]]%Z /\
  matcmp (dm [[1]; [2]]%Z) (dm [[-1]; [-2]]%Z) 2 1 = Ok true.
Proof. eexists. split; [reflexivity|]. split; reflexivity. Qed.

(** ** C40: pmatprod and pmaprod_diag_even *)
Definition two_matrices (C L : dmat) : loc2 -> Z := fun x => if fst x then ent L (fst (snd x)) (snd (snd x)) else ent C (fst (snd x)) (snd (snd x)).

Theorem C40_pmatprod_exact :
  forall (C L U : dmat) S t R, 0 < S <= dc C -> 0 < R -> t = R * S ->
    race_free (pmp_pool (dr C) (dc C) U S t) /\
    forall M', parallel_run loc2_eqb (pmp_pool (dr C) (dc C) U S t) (two_matrices C L) M' ->
      forall i j, i < dr C -> j < dc C ->
        pmp_final (dc C) S M' i j = mmul (dc C) (ent C) (ent U) i j.
Proof.
  intros C L U S t R [HS _] HR ->. split; [now apply pmp_race_free|].
  intros M' H i j Hi Hj. now apply (pmp_correct (dr C) (dc C) R S U HR HS _ _ H).
Qed.

(** more column blocks than columns: some iteration multiplies a block without columns,
    and its first access is outside the block *)
Theorem C40_more_blocks_than_columns_undefined :
  forall (C U : dmat) S R, dc C < S -> 0 < R <= dr C -> 0 < dc U ->
    exists J Cb, J < S /\ getblock C 0 J R S = Ok Cb /\
      forall Ub, getblock U J 0 S 1 = Ok Ub -> matprod_in_resize Cb Ub = UB.
Proof.
  intros C U S R HS HR HU. exists (S - 1).
  destruct (getblock_ok C 0 (S - 1) R S ltac:(lia) ltac:(lia)) as (Cb & E & W & D1 & D2 & _).
  exists Cb. split; [lia|]. split; [exact E|]. intros Ub EU.
  destruct (getblock_ok U (S - 1) 0 S 1 ltac:(lia) ltac:(lia)) as (Ub' & E' & _ & _ & D2' & _).
  rewrite EU in E'. injection E' as <-.
  assert (B1 : blk_size (dc C) S (S - 1) = 0).
  { unfold blk_size. rewrite Nat.div_small, Nat.mod_small by lia.
    destruct (Nat.eqb_spec (dc C) 0); [reflexivity|].
    destruct (Nat.ltb_spec (S - 1) (dc C - 0 * S)); [lia|reflexivity]. }
  assert (B2 : 0 < blk_size (dr C) R 0).
  { unfold blk_size. assert (0 < dr C / R) by (apply Nat.div_str_pos; lia).
    destruct (_ =? _); [assumption|]. destruct (_ <? _); lia. }
  assert (B3 : blk_size (dc U) 1 0 = dc U) by (unfold blk_size; now rewrite Nat.mod_1_r, Nat.div_1_r).
  apply C32_empty_product_undefined; lia.
Qed.

(** with at least two iterations pmaprod_diag_even has a data race: undefined behaviour *)
Theorem C40_pmaprod_diag_even_race_refuted :
  forall (C U : dmat) S t R, 0 < S -> 0 < R -> t = R * S -> 2 <= t -> 0 < dr C -> 0 < dc C ->
    ~ race_free (pmd_pool (dr C) (dc C) U S t).
Proof. intros C U S t R HS HR -> H2 Hm Hn. now apply pmd_racy. Qed.

(** if every access to an entry is nevertheless atomic, the product is right *)
Theorem C40_pmaprod_diag_even_atomic_partial :
  forall (C U : dmat) S t R, 0 < S <= dc C -> 0 < R -> t = R * S ->
    (forall k q, k < dc C -> q < dc C -> (forall J, J < S ->
       ~ (blk_beg (dc C) S J <= k < blk_beg (dc C) S J + blk_size (dc C) S J /\
          blk_beg (dc C) S J <= q < blk_beg (dc C) S J + blk_size (dc C) S J)) -> ent U k q = 0%Z) ->
    forall M', parallel_run loc_eqb (pmd_pool (dr C) (dc C) U S t) (as_memory C) M' ->
      forall i j, i < dr C -> j < dc C -> M' (i, j) = mmul (dc C) (ent C) (ent U) i j.
Proof.
  intros C U S t R [HS _] HR -> HU M' H i j Hi Hj.
  now apply (pmd_correct (dr C) (dc C) R S U HR HS _ _ H HU).
Qed.

Example C40_case :
  let C := dm [[1; 2]; [3; 4]; [5; 6]]%Z in let U := dm [[2; 1; 0]; [1; 1; 0]; [0; 0; 3]]%Z in
  let M' := exec_seq loc2_eqb (pmp_pool (dr C) (dc C) U 2 4) (two_matrices C (resize0 2 6)) in
  (map (fun ij => pmp_final 3 2 M' (fst ij) (snd ij)) [(0,0); (1,0); (0,1); (1,1); (0,2); (1,2)] = [5; 8; 4; 6; 15; 18]%Z) /\
  (map (exec_seq loc_eqb (pmd_pool (dr C) (dc C) U 2 4) (as_memory C)) [(0,0); (1,0); (0,1); (1,1); (0,2); (1,2)] = [5; 8; 4; 6; 15; 18]%Z).
Proof. split; vm_compute; reflexivity. Qed.

Print Assumptions C14_parallel_products_exact.
Print Assumptions C14_transposed_parallel_product_exact.
Print Assumptions C15_parallel_size_update.
Print Assumptions C15_parallel_equals_model.
Print Assumptions C15_slices_partition.
Print Assumptions C16_blocks_tile.
Print Assumptions C16_put_get_identity.
Print Assumptions C16_reassemble.
Print Assumptions C17_pmatprod_in_first_rows.
Print Assumptions C17_pmatprod_in_divisible.
Print Assumptions C17_pmatprod_in_sequential.
Print Assumptions C17_pmatprod_in_any_blocks_refuted.
Print Assumptions C30_set_range_exact.
Print Assumptions C30_set_range_refuted.
Print Assumptions C32_setId_isId.
Print Assumptions C32_transpose.
Print Assumptions C32_products.
Print Assumptions C32_empty_product_undefined.
Print Assumptions C32_matcmp_exact.
Print Assumptions C32_matcmp_up_to_sign_refuted.
Print Assumptions C40_pmatprod_exact.
Print Assumptions C40_more_blocks_than_columns_undefined.
Print Assumptions C40_pmaprod_diag_even_race_refuted.
Print Assumptions C40_pmaprod_diag_even_atomic_partial.
