(** * Properties of segment LLL, [SLattice] (C26, C28, C48, C49) *)
From Coq Require Import ZArith Lia List Bool Arith Floats.
From Verif Require Import Base Spec Mat FP Hlll Hlll2 IntSteps Structure Double Examples Par MatPar MatPar2 Slll SlllInt SlllPad SlllPar.
Import ListNotations.

(** ** C26 *)

(** After any history of hlll and rotate calls, for every floating point arithmetic, every number of segments and
    every stopping parameter, the matrix of the object is (A padded with amax times the identity) times a unimodular
    matrix, and every column of getbase() is in the lattice of A *)
Theorem C26_slll_padded_lattice :
  forall (F : Type) (fp : fpops F) (f0001 f501 fgap : F) (fmul2 : F -> Z -> F), expo_nonneg fp ->
  forall J n d A S forU method long_flag depth L0 (calls : list (scall (F := F))) L,
    new_slattice fp J n d A S forU method long_flag depth = Ok L0 ->
    srun fp f0001 f501 fgap fmul2 calls L0 = Ok L ->
    (exists p V, (d + p) mod (2 * S) = 0 /\ p < 2 * S /\ unimodular (d + p) V /\
       meq (n + p) (d + p) (fn (iB (si L))) (mmul (d + p) (padded n d (fn A) (samax L0)) V)) /\
    forall j, j < d -> in_lattice n d (fn A) (fun i => fn (sl_getbase L) i j).
Proof.
  intros F fp f0001 f501 fgap fmul2 EX J n d A S forU m lg vd L0 calls L H R.
  destruct (slattice_padded fp f0001 f501 fgap fmul2 EX J n d A S forU m lg vd L0 calls L H R) as (V & UV & EV & E1 & E2 & _).
  assert (HS : 0 < 2 * S).
  { unfold new_slattice in H. destruct (0 <? 2 * S) eqn:E; [now apply Nat.ltb_lt|discriminate]. }
  split.
  - exists (pad_dim d (2 * S)), V. split; [|split; [|auto]].
    + unfold pad_dim. destruct (Nat.eqb_spec (d mod (2 * S)) 0) as [E|E]; [now rewrite Nat.add_0_r|].
      pose proof (Nat.mod_upper_bound d (2 * S) ltac:(lia)). pose proof (Nat.div_mod d (2 * S) ltac:(lia)) as D.
      replace (d + (2 * S - d mod (2 * S))) with ((d / (2 * S) + 1) * (2 * S)) by lia.
      apply Nat.mod_mul. lia.
    + unfold pad_dim. destruct (Nat.eqb_spec (d mod (2 * S)) 0) as [E|E]; lia.
  - intros j Hj. exists (fun l => V l j). intros i Hi.
    pose proof (sl_getbase_fn L) as G. rewrite E1, E2 in G. rewrite (G i j Hi Hj).
    rewrite EV by lia. now apply padded_mul_top.
Qed.

(** when 2S divides d there is no padding: getbase() generates the lattice of A *)
Theorem C26_slll_lattice :
  forall (F : Type) (fp : fpops F) (f0001 f501 fgap : F) (fmul2 : F -> Z -> F), expo_nonneg fp ->
  forall J n d A S forU method long_flag depth L0 (calls : list (scall (F := F))) L,
    d mod (2 * S) = 0 ->
    new_slattice fp J n d A S forU method long_flag depth = Ok L0 ->
    srun fp f0001 f501 fgap fmul2 calls L0 = Ok L ->
    same_lattice n d (fn A) (fn (sl_getbase L)).
Proof. intros. eapply slattice_lattice; eauto. Qed.

(** with padding: as long as the first d columns are zero in the rows of the padding *)
Theorem C26_slll_lattice_padding :
  forall (F : Type) (fp : fpops F) (f0001 f501 fgap : F) (fmul2 : F -> Z -> F), expo_nonneg fp ->
  forall J n d A S forU method long_flag depth L0 (calls : list (scall (F := F))) L,
    new_slattice fp J n d A S forU method long_flag depth = Ok L0 ->
    srun fp f0001 f501 fgap fmul2 calls L0 = Ok L ->
    (forall i j, n <= i < cn (scfg L) -> j < d -> fn (iB (si L)) i j = 0%Z) ->
    same_lattice n d (fn A) (fn (sl_getbase L)).
Proof.
  intros F fp f0001 f501 fgap fmul2 EX J n d A S forU m lg vd L0 calls L H R Z0.
  eapply slattice_lattice; eauto. right.
  destruct (slattice_padded fp f0001 f501 fgap fmul2 EX J n d A S forU m lg vd L0 calls L H R) as (V & _ & _ & _ & _ & E).
  destruct (new_slattice_int fp J n d A S forU m lg vd L0 H) as (E1 & _).
  rewrite E, E1 in Z0. exact Z0.
Qed.

Definition ldx (x : float) (s : Z) : float := Z.ldexp x s.
Definition dbl_slll (fuel S : nat) := SHlll fuel d99 0%float (fun _ _ => Jz) S 4294967295.
Definition dbl_srun := srun dbl 0.001%float 0.501%float 0x1.12e0be826d695p-30%float ldx.

(** two segments of two columns, one call, then rotate and a second call *)
Definition AS : mat Z := [[177;1;0;0;0];[323;0;1;0;0];[455;0;0;1;0];[998;0;0;0;1]]%Z.
Example C26_slll_case :
  4 mod (2 * 2) = 0 /\
  match new_slattice dbl Jz 5 4 AS 2 true 0 true 0 with
  | Ok L0 => match dbl_srun [dbl_slll 40 2; SRotate 3; dbl_slll 40 2] L0 with
             | Ok L => sl_getbase L <> AS /\ (0 < nbswaps (scnt L))%Z | _ => False end
  | _ => False
  end.
Proof. vm_compute. repeat split; discriminate. Qed.

(** three columns and one segment of padding *)
Example C26_slll_padding_case :
  match new_slattice dbl Jz 4 3 [[17;1;0;0];[33;0;1;0];[45;0;0;1]]%Z 1 true 0 true 0 with
  | Ok L0 => match dbl_srun [dbl_slll 40 1] L0 with
             | Ok L => cn (scfg L) = 5 /\ cd (scfg L) = 4 /\
                       (forall i j, 4 <= i < cn (scfg L) -> j < 3 -> fn (iB (si L)) i j = 0%Z) /\
                       sl_getbase L <> [[17;1;0;0];[33;0;1;0];[45;0;0;1]]%Z | _ => False end
  | _ => False
  end.
Proof.
  vm_compute. split; [reflexivity|]. split; [reflexivity|]. split; [|discriminate].
  intros i j [H1 H2] H3.
  assert (i = 4) as -> by (apply Nat.le_antisymm; [now apply le_S_n|assumption]).
  destruct j as [|[|[|j]]]; try reflexivity. do 3 apply le_S_n in H3. inversion H3.
Qed.

(** Without that proviso the claim is false: on the lattice of the single vector (1,1), getbase() returns the zero
    vector after hlll (the padding column is swapped in front of the input column) *)
Theorem C26_slll_lattice_refuted :
  exists n d A S L0 L,
    independent n d (fn A) /\
    new_slattice dbl Jz n d A S false 0 true 0 = Ok L0 /\
    dbl_srun [dbl_slll 20 S] L0 = Ok L /\
    fn (sl_getbase L) 0 0 = 0%Z /\ fn (sl_getbase L) 1 0 = 0%Z /\
    ~ same_lattice n d (fn A) (fn (sl_getbase L)).
Proof.
  exists 2, 1, [[1;1]]%Z, 1.
  assert (X : match new_slattice dbl Jz 2 1 [[1;1]]%Z 1 false 0 true 0 with
              | Ok L0 => match dbl_srun [dbl_slll 20 1] L0 with Ok L => sl_getbase L = [[0;0]]%Z | _ => False end
              | _ => False end) by (vm_compute; reflexivity).
  destruct (new_slattice dbl Jz 2 1 [[1;1]]%Z 1 false 0 true 0) as [L0| |]; try contradiction.
  destruct (dbl_srun [dbl_slll 20 1] L0) as [L| |] eqn:E; try contradiction.
  exists L0, L. split; [|split; [reflexivity|split; [assumption|]]].
  - intros c H j Hj. assert (j = 0) by lia. subst j. specialize (H 0 ltac:(lia)). cbn -[Z.mul] in H. lia.
  - rewrite X. split; [reflexivity|]. split; [reflexivity|]. intros SL.
    destruct (proj1 (SL (fun _ => 1%Z))) as (c & Hc).
    + exists (fun _ => 1%Z). intros i Hi. destruct i as [|[|i]]; [reflexivity|reflexivity|lia].
    + specialize (Hc 0 ltac:(lia)). cbn -[Z.mul] in Hc. lia.
Qed.

(** ** C28: rotate(g) is the cyclic permutation of the first g columns; the lattice is kept *)
Theorem C28_rotate :
  forall (F : Type) g (L L' : slattice F),
    wfm (cn (scfg L)) (cd (scfg L)) (iB (si L)) ->
    sl_rotate g L = Ok L' ->
    let n := cn (scfg L) in let d := cd (scfg L) in
    1 <= g <= d /\
    (forall i, i < n -> fn (iB (si L')) i 0 = fn (iB (si L)) i (g - 1)) /\
    (forall i j, i < n -> 1 <= j < g -> fn (iB (si L')) i j = fn (iB (si L)) i (j - 1)) /\
    (forall i j, i < n -> g <= j < d -> fn (iB (si L')) i j = fn (iB (si L)) i j) /\
    same_lattice n d (fn (iB (si L))) (fn (iB (si L'))).
Proof.
  intros F g L L' W H n d. destruct (rotate_fn g L L' H W) as (Hg & _ & _ & _ & _ & _ & _ & _ & E).
  split; [assumption|]. split; [|split; [|split]].
  - intros i Hi. rewrite E by (try assumption; unfold d in *; lia). reflexivity.
  - intros i j Hi Hj. rewrite E by (try assumption; unfold d in *; lia). unfold rot.
    destruct (Nat.eqb_spec j 0); [lia|]. destruct (Nat.ltb_spec j g); [reflexivity|lia].
  - intros i j Hi Hj. rewrite E by (try assumption; unfold d in *; lia). unfold rot.
    destruct (Nat.eqb_spec j 0); [lia|]. destruct (Nat.ltb_spec j g); [lia|reflexivity].
  - apply (same_lattice_unimodular n d _ _ (rotm g)); [now apply unimodular_rotm|].
    intros i j Hi Hj. rewrite E by assumption. now rewrite mmul_rotm by assumption.
Qed.

Example C28_case :
  match new_slattice dbl Jz 5 4 AS 2 true 0 true 0 with
  | Ok L => match sl_rotate 3 L with
            | Ok L' => sl_getbase L' = [[455;0;0;1;0];[177;1;0;0;0];[323;0;1;0;0];[998;0;0;0;1]]%Z | _ => False end
  | _ => False
  end.
Proof. vm_compute. reflexivity. Qed.

(** ** C48: the parallel loops of SLattice::hlll, every schedule *)

(** The loop over the blocks (even: odd = 0, shift 0; odd: odd = 1, shift bdim).  [out k] is what the local object of
    iteration k computes (getU, nbswaps, nblov).  Every complete interleaving of the accesses of the iterations leaves
    U, swapstab and the number of tests that the sequential loop computes.  nbswaps is not in the list: see below *)
Theorem C48_block_loop :
  forall (F : Type) (fp : fpops F) (c : cfg) fuel delta junk Jb lovmax RZ sdim off odd nb sw q U' sw' q' tests out lov M',
    odd <= 1 ->
    (forall k, k < nb -> sl_block_out fp c fuel delta junk Jb lovmax (vdepth q) RZ sdim off k = Ok (out k)) ->
    mfold (sl_block_red fp c fuel delta junk Jb lovmax RZ sdim off odd) (seq 0 nb) (id_mat (cd c), sw, q, 0%Z) = Ok (U', sw', q', tests) ->
    parallel_run sloc_eqb (to_pool (block_pool sdim off odd nb out)) (smem (id_mat (cd c)) sw lov (nbswaps q)) M' ->
    (forall i j, i < cd c -> j < cd c -> M' (PU i j) = fn U' i j) /\
    (forall t, M' (PSwap t) = nth t sw' 0%Z) /\
    sumZ nb (fun k => M' (PLov k)) = tests.
Proof. intros. eapply blocks_parallel_model; eassumption. Qed.

(** nbswaps += BR.nbswaps is a race: with two segments some interleaving loses the swaps of the second block *)
Theorem C48_nbswaps_refuted :
  forall sdim off odd (out : nat -> mat Z * Z * Z) (M : sloc -> Z),
    snd (fst (out 1)) <> 0%Z ->
    exists M', parallel_run sloc_eqb (to_pool (block_pool sdim off odd 2 out)) M M' /\
      M' PNb <> (M PNb + snd (fst (out 0%nat)) + snd (fst (out 1%nat)))%Z.
Proof.
  intros sdim off odd out M N. destruct (blocks_lost_update sdim off odd out M) as (M' & R & E).
  exists M'. split; [assumption|]. rewrite E. lia.
Qed.

(** the product by the blocks: every interleaving computes the product *)
Theorem C48_pmatprod :
  forall c S dec U B B' (M' : loc -> Z),
    0 < S -> wfm (cn c) (cd c) B ->
    sl_pmatprod c S dec U B = Ok B' ->
    race_free (pmr_pool (cn c) (cd c / S) (fn U) (if dec =? 0 then 0 else cd c / S / 2) (if dec =? 0 then S else S - 1)) /\
    (parallel_run loc_eqb (pmr_pool (cn c) (cd c / S) (fn U) (if dec =? 0 then 0 else cd c / S / 2) (if dec =? 0 then S else S - 1))
       (fun x => fn B (fst x) (snd x)) M' ->
     forall i j, i < cn c -> j < cd c -> M' (i, j) = fn B' i j).
Proof.
  intros. split; [apply pmr_race_free|]. intros. eapply pmatprod_parallel_model; eassumption.
Qed.

(** a phase with two blocks, each with swaps *)
Definition cS4 : cfg := mkCfg 5 4 true 4 4294967295 0 true 1 1000000.
Definition RZ4 : mat Z := [[20;0;0;0];[9;3;0;0];[0;0;40;0];[7;7;17;5]]%Z.
Definition out4 (k : nat) : mat Z * Z * Z :=
  match sl_block_out dbl cS4 40 d99 0%float (fun _ => Jz) 4294967295 0 RZ4 2 0 k with Ok x => x | _ => ([], 0%Z, 0%Z) end.
Example C48_case :
  (forall k, k < 2 -> sl_block_out dbl cS4 40 d99 0%float (fun _ => Jz) 4294967295 0 RZ4 2 0 k = Ok (out4 k)) /\
  snd (fst (out4 1)) <> 0%Z /\
  match mfold (sl_block_red dbl cS4 40 d99 0%float (fun _ => Jz) 4294967295 RZ4 2 0 0) (seq 0 2) (id_mat 4, [0;0;0]%Z, mkC 0 0 0, 0%Z) with
  | Ok (U', _, _, _) => U' <> id_mat 4 /\ (exists B', sl_pmatprod cS4 2 0 U' AS = Ok B')
  | _ => False end /\
  exists M', parallel_run sloc_eqb (to_pool (block_pool 2 0 0 2 out4)) (smem (id_mat 4) [0;0;0]%Z (fun _ => 0%Z) 0) M'.
Proof.
  split; [|split; [|split]].
  - intros k Hk. destruct k as [|[|k]]; [vm_compute; reflexivity|vm_compute; reflexivity|lia].
  - vm_compute. discriminate.
  - vm_compute. split; [discriminate|]. eexists. reflexivity.
  - eexists. apply seq_is_run.
Qed.

(** ** C49: getU() after hlll is not the transformation applied (U is overwritten by the blocks of each phase) *)
Theorem C49_slll_getU_refuted :
  exists n d A S L0 L,
    independent n d (fn A) /\ d mod (2 * S) = 0 /\
    new_slattice dbl Jz n d A S true 0 true 0 = Ok L0 /\
    dbl_srun [dbl_slll 60 S] L0 = Ok L /\
    ~ meq n d (fn (sl_getbase L)) (mmul d (fn A) (fn (sl_getU L))).
Proof.
  exists 5, 4, AS, 2.
  assert (X : match new_slattice dbl Jz 5 4 AS 2 true 0 true 0 with
              | Ok L0 => match dbl_srun [dbl_slll 60 2] L0 with
                         | Ok L => fn (sl_getbase L) 0 0 <> mmul 4 (fn AS) (fn (sl_getU L)) 0 0 | _ => False end
              | _ => False end) by (vm_compute; discriminate).
  destruct (new_slattice dbl Jz 5 4 AS 2 true 0 true 0) as [L0| |]; try contradiction.
  destruct (dbl_srun [dbl_slll 60 2] L0) as [L| |] eqn:E; try contradiction.
  exists L0, L. split; [|split; [reflexivity|split; [reflexivity|split; [assumption|]]]].
  - intros c H j Hj. destruct j as [|[|[|[|j]]]]; [specialize (H 1)|specialize (H 2)|specialize (H 3)|specialize (H 4)|lia];
      specialize (H ltac:(lia)); cbn -[Z.mul] in H; lia.
  - intros M. apply X. apply M; lia.
Qed.

Print Assumptions C26_slll_padded_lattice.
Print Assumptions C26_slll_lattice.
Print Assumptions C26_slll_lattice_padding.
Print Assumptions C26_slll_lattice_refuted.
Print Assumptions C28_rotate.
Print Assumptions C48_block_loop.
Print Assumptions C48_nbswaps_refuted.
Print Assumptions C48_pmatprod.
Print Assumptions C49_slll_getU_refuted.
