(** * Reuse of orthogonalisation data: C05, C06, C41

    [same_outcome] (Cache6.v) compares two calls of hlll: same kind of end, same
    returned value, base, transformation, counters, and same R factor when the
    reduction ran to its end.  [fresh_object] (Cache7.v) is a new Lattice after
    set_num_S and set_nblov_max.  [hlll_nocache] (Fresh.v) is hlll with the mark
    "column kept" erased before every orthogonalisation step. *)
From Coq Require Import ZArith Lia List Bool Arith Floats.
From Verif Require Import Base Spec Mat FP Hlll Hlll2 IntSteps HlllInt Structure Object Safety Fresh Cache Cache2 Cache3
  Cache4 Cache5 Cache6 Cache7 Double Examples.
Import ListNotations.

(** ** C05 *)
Theorem C05_reuse_is_transparent :
  forall (F : Type) (fp : fpops F), expo_nonneg fp ->
  forall J n d A u m lg vd nS thr nb, staircase n d (fn A) -> structure_ok fp n d (fn A) ->
  forall fuel delta verbose junk,
    let L := fresh_object fp J n d A u m lg vd nS thr nb in
    same_outcome fp (hlll fp fuel delta verbose junk L) (hlll_nocache fp fuel delta verbose junk L).
Proof.
  intros F fp EX J n d A u m lg vd nS thr nb ST SO fuel delta vb junk. cbv zeta.
  rewrite <- hlll_g_real. unfold hlll_nocache.
  apply hlll_g_same; auto using hr_sim_real, hr_sim_nocache, ready_fresh. right; right; reflexivity.
Qed.

(** the same, against the version in which the column of R is given by a closed
    formula ([householder_ref], Fresh.v): the reflectors applied one after the other
    to the exact column of B; it has no floating-point copy of B, no kept products,
    no marks *)
Theorem C05_reuse_matches_reference :
  forall (F : Type) (fp : fpops F), expo_nonneg fp ->
  forall J n d A u m lg vd nS thr nb, staircase n d (fn A) -> structure_ok fp n d (fn A) ->
  forall fuel delta verbose junk,
    let L := fresh_object fp J n d A u m lg vd nS thr nb in
    same_outcome fp (hlll fp fuel delta verbose junk L) (hlll_g fp (hr_ref fp) fuel delta verbose junk L).
Proof.
  intros F fp EX J n d A u m lg vd nS thr nb ST SO fuel delta vb junk. cbv zeta.
  rewrite <- hlll_g_real. apply hlll_g_ref; auto using hr_sim_real, ready_fresh.
Qed.

(** a first column that reaches the last row (doubles), and a matrix with columns of
    different lengths (an arithmetic on integers, where zero is neutral) *)
Definition zfp : fpops Z := (mk_fpops Z 0 1 0 0 0 Z.add Z.sub Z.mul Z.div Z.opp Z.abs Z.sqrt (fun a => a)
  (fun r a b => r + a * b) (fun r a b => r - a * b) Z.leb Z.ltb (fun a b => Z.ltb b a) (fun a => negb (Z.eqb a 0))
  (fun a => a) (fun a => (a, 0)) (fun a => a))%Z.
Definition A3s : mat Z := [[10;0;0];[13;11;0];[7;5;9]]%Z.

Example C05_case :
  (staircase 4 3 (fn A1) /\ structure_ok dbl 4 3 (fn A1) /\
   exists L, hlll dbl 200 d99 false 0%float (fresh_object dbl Jz 4 3 A1 true 0 false 0 1 1000000 100000) = Ok (0%Z, L) /\
     nbswaps (lc L) = 6%Z /\ nblov (lc L) = 10%Z) /\
  (expo_nonneg zfp /\ staircase 3 3 (fn A3s) /\ structure_ok zfp 3 3 (fn A3s) /\ ~ first_reaches 3 3 (fn A3s)).
Proof.
  assert (FA : forall i j, (i < 4)%nat -> (j < 3)%nat -> fn A1 i j = nth i (nth j A1 []) 0%Z) by reflexivity.
  split; [split; [|split]|split; [|split; [|split]]].
  - intros j Hj. exists 3%nat, 0%nat. cbn. lia.
  - left. exists 3%nat. split; [lia|]. split; [cbn; lia|]. intros; lia.
  - eexists. split; [vm_compute; reflexivity|]. split; reflexivity.
  - intros a. cbn. lia.
  - intros j Hj. exists j, j. destruct j as [|[|[|j]]]; cbn; lia.
  - right. split; [reflexivity|]. cbn. split; intros; lia.
  - intros (r & Hr & Nz & HZ). destruct r as [|[|[|r]]]; [| | |lia].
    + specialize (HZ 2%nat 2%nat ltac:(lia) ltac:(lia)). cbn in HZ. discriminate.
    + cbn in Nz. lia.
    + cbn in Nz. lia.
Qed.

(** ** C06 *)
(** whatever the object went through, after assign(A) the reduction gives what a new
    object gives; only the swap counter goes on from where it was *)
Theorem C06_assign_is_fresh :
  forall (F : Type) (fp : fpops F), expo_nonneg fp ->
  forall J n d A0 u m lg vd (calls : list (call (F := F))) L,
    d <= n -> 2 <= d -> precisions_ok calls ->
    run fp calls (new_lattice fp J n d A0 u m lg vd) = Ok L ->
  forall A, staircase n d (fn A) -> first_reaches n d (fn A) -> (m < 1)%Z \/ lg = true ->
  forall J' fuel delta verbose junk junk',
    same_outcome fp
      (hlll fp fuel delta verbose junk (assign A L))
      (match hlll fp fuel delta verbose junk'
               (fresh_object fp J' n d A u m lg (vdepth (lc L)) (cS (lcfg L)) (cthr (lcfg L)) (cnblov_max (lcfg L))) with
       | Ok (r, L') => Ok (r, mkL (lcfg L') (li L') (lf L')
                                (mkC (nblov (lc L')) (nbswaps (lc L') + nbswaps (lc L)) (vdepth (lc L'))))
       | other => other
       end).
Proof.
  intros F fp EX J n d A0 u m lg vd calls L ND D2 PR HR A ST FR ML J' fuel delta vb junk junk'.
  pose proof (keeps_run fp EX n d u m lg calls PR _ _ HR (keeps_new fp J n d A0 u m lg vd)) as ((H1 & H2 & H3 & H4 & H5) & Hl & Hb & HU).
  pose proof (run_safe fp n d calls _ ND D2 (new_lsafe fp J n d A0 u m lg vd)) as S. rewrite HR in S. cbn [safe] in S.
  set (L2 := fresh_object _ _ _ _ _ _ _ _ _ _ _ _).
  set (L3 := mkL (lcfg L2) (li L2) (lf L2) (addswaps (nbswaps (lc L)) (lc L2))).
  assert (Ec : lcfg (assign A L) = lcfg L2).
  { unfold assign, L2, fresh_object, set_nblov_max, set_num_S, new_lattice. cbn [lcfg cn cd ctransf ckmax cseysen clong cnblov_max cS cthr].
    destruct (lcfg L). cbn in *. congruence. }
  assert (Es : li (assign A L) = li L2).
  { unfold assign, L2, fresh_object, set_nblov_max, set_num_S, new_lattice. cbn [li lcfg cn cd ctransf].
    rewrite H1, H2, H3. f_equal. destruct u; [reflexivity|]. now apply HU. }
  assert (Eq : lc (assign A L) = lc L3).
  { unfold assign, L3, L2, fresh_object, set_nblov_max, set_num_S, new_lattice, addswaps. cbn [lc nblov nbswaps vdepth].
    f_equal. }
  assert (R3 : ready fp L3) by (apply (ready_fresh fp J' n d A u m lg (vdepth (lc L)) (cS (lcfg L)) (cthr (lcfg L)) (cnblov_max (lcfg L))); auto; now left).
  assert (SO : same_outcome fp (hlll fp fuel delta vb junk (assign A L)) (hlll fp fuel delta vb junk' L3)).
  { rewrite <- !hlll_g_real. apply hlll_g_same; auto.
    - apply hr_sim_real.
    - change (lcfg L3) with (lcfg L2). rewrite Ec. apply hr_sim_real.
    - now apply (ready_assign fp n d).
    - rewrite Ec. unfold relx, L2, fresh_object, set_nblov_max, set_num_S, new_lattice. cbn [lcfg cseysen clong].
      destruct ML as [ML|ML]; [now left|right; now left]. }
  replace (match hlll fp fuel delta vb junk' L2 with Ok (r, L') => _ | other => other end) with (hlll fp fuel delta vb junk' L3); [exact SO|].
  rewrite <- !hlll_g_real. unfold hlll_g. change (lcfg L3) with (lcfg L2).
  change (lf L3) with (lf L2). change (li L3) with (li L2).
  set (k := nbswaps (lc L)).
  replace (if vb then mkC (nblov (lc L3)) (nbswaps (lc L3)) (vdepth (lc L3) - 1) else lc L3)
    with (addswaps k (if vb then mkC (nblov (lc L2)) (nbswaps (lc L2)) (vdepth (lc L2) - 1) else lc L2))
    by (destruct vb; reflexivity).
  rewrite loop_addswaps.
  destruct (hlll_loop_g _ _ _ _ _ _ _ _ _ _ _ _) as [[[[r s] f] q]| |]; reflexivity.
Qed.

(** columns of different lengths: an object that has reduced diag-like [[0,-3000],[5000,0]]
    and is then given [[1000,0],[3,1]] returns 0 with a basis that is not reduced, while a
    new object reduces it: assign keeps the old floating-point copy of the columns *)
Definition A6a : mat Z := [[0;-3000];[5000;0]]%Z.
Definition A6b : mat Z := [[1000;0];[3;1]]%Z.

Theorem C06_assign_refuted :
  exists L L1 L2, independent 2 2 (fn A6b) /\
    run dbl [CallHlll 100 d99 false 0%float] (new_lattice dbl Jz 2 2 A6a true 0 true 0) = Ok L /\
    hlll dbl 100 d99 false 0%float (assign A6b L) = Ok (0%Z, L1) /\
    hlll dbl 100 d99 false 0%float (new_lattice dbl Jz 2 2 A6b true 0 true 0) = Ok (0%Z, L2) /\
    getbase L1 = [[3;1];[1000;0]]%Z /\ getbase L2 = [[3;1];[100;-300]]%Z.
Proof.
  do 3 eexists. split; [|split; [vm_compute; reflexivity|split; [vm_compute; reflexivity|split; [vm_compute; reflexivity|split; reflexivity]]]].
  intros c H j Hj. pose proof (H 0%nat ltac:(lia)) as H0. pose proof (H 1%nat ltac:(lia)) as H1.
  cbv [sumZ fn mget col nth A6b] in H0, H1. destruct j as [|[|j]]; lia.
Qed.

Example C06_case :
  staircase 4 3 (fn A1) /\ first_reaches 4 3 (fn A1) /\
  exists L L', run dbl [CallHlll 200 d99 false 0%float; CallSetNumS 2 0; CallHlll 200 d99 true 0%float]
                 (new_lattice dbl Jz 4 3 [[1;0;0;9];[0;1;0;5];[0;0;1;8]]%Z true 0 true 0) = Ok L /\
    hlll dbl 200 d99 false 0%float (assign A1 L) = Ok (0%Z, L') /\ nbswaps (lc L) = 4%Z /\ nbswaps (lc L') = 10%Z.
Proof.
  split; [|split].
  - intros j Hj. exists 3%nat, 0%nat. cbn. lia.
  - exists 3%nat. split; [lia|]. split; [cbn; lia|]. intros; lia.
  - do 2 eexists. split; [vm_compute; reflexivity|]. split; [vm_compute; reflexivity|]. split; reflexivity.
Qed.

(** ** C41 *)
Theorem C41_uninitialised_memory_not_read :
  forall (F : Type) (fp : fpops F), expo_nonneg fp ->
  forall J J' n d A u m lg vd nS thr nb, staircase n d (fn A) -> structure_ok fp n d (fn A) ->
  (m < 1)%Z \/ lg = true ->
  forall fuel delta verbose junk junk',
    same_outcome fp (hlll fp fuel delta verbose junk (fresh_object fp J n d A u m lg vd nS thr nb))
                    (hlll fp fuel delta verbose junk' (fresh_object fp J' n d A u m lg vd nS thr nb)).
Proof.
  intros F fp EX J J' n d A u m lg vd nS thr nb ST SO ML fuel delta vb junk junk'.
  rewrite <- !hlll_g_real.
  apply hlll_g_same; auto using hr_sim_real, ready_fresh.
  destruct ML as [ML|ML]; [now left|right; now left].
Qed.

(** Seysen reduction without the long option converts a member that was never written:
    two contents of the uninitialised memory give two different bases *)
Definition J7 : junk_t (F:=float) :=
  mkJ (fun _ _ => 0%float) (fun _ _ => 0%float) (fun _ _ => 0%float) (fun _ _ => 0%float)
      (fun _ => 0%float) (fun _ => 0%float) 7%float 0.

Theorem C41_seysen_no_long_refuted :
  exists L L', hlll dbl 200 d99 false 0%float (new_lattice dbl Jz 4 3 A1 true 1 false 0) = Ok (0%Z, L) /\
    hlll dbl 200 d99 false 0%float (new_lattice dbl J7 4 3 A1 true 1 false 0) = Ok (0%Z, L') /\
    getbase L = [[-1; 1; 1; -4]; [0; 1; 0; 37]; [0; 1; 1; 96]]%Z /\
    getbase L' = [[-1; 1; 1; -4]; [21; -20; -21; 121]; [-419; 378; 420; -3134]]%Z.
Proof. do 2 eexists. split; [vm_compute; reflexivity|]. split; [vm_compute; reflexivity|]. split; reflexivity. Qed.

Example C41_case :
  staircase 4 3 (fn A1) /\ structure_ok dbl 4 3 (fn A1) /\
  exists L, hlll dbl 200 d99 false 0%float (fresh_object dbl J7 4 3 A1 true 1 true 0 1 1000000 100000) = Ok (0%Z, L) /\
   getbase L = getbase L /\ (0 < nbswaps (lc L))%Z.
Proof.
  split; [|split].
  - intros j Hj. exists 3%nat, 0%nat. cbn. lia.
  - left. exists 3%nat. split; [lia|]. split; [cbn; lia|]. intros; lia.
  - eexists. split; [vm_compute; reflexivity|]. split; reflexivity.
Qed.

Print Assumptions C05_reuse_is_transparent.
Print Assumptions C05_reuse_matches_reference.
Print Assumptions C06_assign_is_fresh.
Print Assumptions C06_assign_refuted.
Print Assumptions C41_uninitialised_memory_not_read.
Print Assumptions C41_seysen_no_long_refuted.
