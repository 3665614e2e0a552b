(** * Properties of put/shift, of the thread count (C03, C31), of lehmer_lll (C21) and of l1 (C22) *)
From Coq Require Import ZArith Lia List Bool Arith Floats.
From Verif Require Import Base Spec Mat FP Hlll Hlll2 IntSteps HlllInt LinDep Structure Object UOnly
  MatOps MatOpsFacts MachInt Trunc Trunc10 TruncFloat Lehmer Put Double DoubleAgree Examples.
Import ListNotations.

(** ** C03 *)

(** (b) dependent columns: the transformation is exact for every matrix, dependent or not, in which for every j one
    of the columns 0..j has a non-zero entry in a row >= j *)
Theorem C03_transformation_staircase :
  forall (F : Type) (fp : fpops F), expo_nonneg fp ->
  forall J n d A method long_flag depth (calls : list (call (F := F))) L,
    precisions_ok calls ->
    run fp calls (new_lattice fp J n d A true method long_flag depth) = Ok L ->
    staircase n d (current (fn A) calls) ->
    single_thread calls ->
    unimodular d (fn (getU L)) /\
    meq n d (fn (getbase L)) (mmul d (current (fn A) calls) (fn (getU L))).
Proof. intros. eapply run_transform; eassumption. Qed.

(** dependent columns that satisfy the condition *)
Definition A3 : mat Z := [[5;3;1];[10;6;2];[1;0;4]]%Z.
Example C03_staircase_case :
  staircase 3 3 (fn A3) /\ ~ independent 3 3 (fn A3) /\
  exists L, run dbl [CallSetNblovMax 2; CallHlll 200 d99 false 0%float] (new_lattice dbl Jz 3 3 A3 true 0 true 0) = Ok L /\
     getbase L <> A3.
Proof.
  split; [|split].
  - intros j Hj. exists 2, 0. split; [lia|]. split; [lia|]. vm_compute. discriminate.
  - intros H. specialize (H (fun j => match j with O => 2%Z | S O => (-1)%Z | _ => 0%Z end)).
    assert (X : (2 = 0)%Z); [|discriminate]. apply (H (fun i Hi => ltac:(destruct i as [|[|[|i]]]; [reflexivity..|lia])) 0 ltac:(lia)).
  - eexists. split; [vm_compute; reflexivity|]. vm_compute. discriminate.
Qed.

(** (a) any number of threads, any history: getU() is unimodular (although it is not the transformation that was
    applied: C03_transformation_parallel_refuted) *)
Theorem C03_getU_unimodular_any_threads :
  forall (F : Type) (fp : fpops F), expo_nonneg fp ->
  forall J n d A method long_flag depth (calls : list (call (F := F))) L,
    precisions_ok calls ->
    run fp calls (new_lattice fp J n d A true method long_flag depth) = Ok L ->
    staircase n d (current (fn A) calls) ->
    unimodular d (fn (getU L)).
Proof. intros. eapply (run_U fp (fun _ => 0%Z) (fun _ _ => 0%Z)); eassumption. Qed.

Example C03_threads_case :
  staircase 4 3 (fn A1) /\
  exists L, run dbl [CallSetNumS 2 0; CallHlll 200 d99 false 0%float] (new_lattice dbl Jz 4 3 A1 true 0 true 0) = Ok L /\
            getU L <> id_mat 3.
Proof.
  split; [apply independent_staircase, A1_independent|].
  eexists. split; [vm_compute; reflexivity|]. vm_compute. discriminate.
Qed.

(** ** C31: put and shift *)

(** Whatever the history (constructor on A0, then any calls, assignments, puts and shifts), a put whose written
    matrix fits the matrix last assigned leaves U = identity, and the following calls preserve the lattice of
    the written matrix *)
Theorem C31_put_then_reduce :
  forall (F : Type) (fp : fpops F), expo_nonneg fp ->
  forall e10 e10' J n d A0 forU method long_flag depth (history : list (xcall (F := F))) L M upperdim t tau L1 calls L2,
    xprecisions_ok history -> precisions_ok calls ->
    xrun fp e10 e10' history (new_lattice fp J n d A0 forU method long_flag depth) = Ok L ->
    put e10 e10' M upperdim t tau L = Ok L1 ->
    fits n d (assigned (fn A0) history) (fn (getbase L1)) ->
    run fp calls L1 = Ok L2 ->
    (forU = true -> meq d d (fn (getU L1)) mid) /\
    same_lattice n d (current (fn (getbase L1)) calls) (fn (getbase L2)).
Proof.
  intros F fp EX e10 e10' J n d A0 forU method long_flag depth history L M upperdim t tau L1 calls L2 PX PR HX HP HF HR.
  destruct (xrun_covers fp e10 e10' EX n d forU (cseysen (lcfg (new_lattice fp J n d A0 forU method long_flag depth)))
     history PX (fn A0) _ L HX) as [D C]; [repeat split|apply new_covers|].
  assert (PX1 : xprecisions_ok (F := F) [XPut M upperdim t tau]) by (intros q [I|[]]; discriminate).
  destruct (xexec_covers fp e10 e10' EX n d forU _ _ (XPut M upperdim t tau) L L1 PX1 HP D C) as [D1 C1].
  cbn [assigned] in C1. pose proof D1 as (E1 & E2 & E3 & _). split.
  - intros ->. unfold put in HP. binv HP. injection HP as <-. unfold getU, put_raw. cbn [lcfg li iU].
    destruct D as (K1 & K2 & K3 & _). rewrite K3, K2. eapply meq_trans; [apply fn_mtab|]. apply id_mat_fn.
  - eapply run_from_pres; try eassumption.
    intros i j Hi Hj N. apply HF; auto. erewrite getbase_fn; eauto.
Qed.

(** the same for shift (first m rows := 2^lsigma times those of M) *)
Theorem C31_shift_then_reduce :
  forall (F : Type) (fp : fpops F), expo_nonneg fp ->
  forall e10 e10' J n d A0 forU method long_flag depth (history : list (xcall (F := F))) L M m lsigma calls L2,
    xprecisions_ok history -> precisions_ok calls ->
    xrun fp e10 e10' history (new_lattice fp J n d A0 forU method long_flag depth) = Ok L ->
    let L1 := shift M m lsigma L in
    fits n d (assigned (fn A0) history) (fn (getbase L1)) ->
    run fp calls L1 = Ok L2 ->
    (forall i j, i < n -> j < d -> fn (getbase L1) i j = if i <? m then Z.shiftl (fn M i j) lsigma else fn (getbase L) i j) /\
    same_lattice n d (current (fn (getbase L1)) calls) (fn (getbase L2)).
Proof.
  intros F fp EX e10 e10' J n d A0 forU method long_flag depth history L M m lsigma calls L2 PX PR HX L1 HF HR.
  destruct (xrun_covers fp e10 e10' EX n d forU (cseysen (lcfg (new_lattice fp J n d A0 forU method long_flag depth)))
     history PX (fn A0) _ L HX) as [D C]; [repeat split|apply new_covers|].
  assert (PX1 : xprecisions_ok (F := F) [XShift M m lsigma]) by (intros q [I|[]]; discriminate).
  destruct (xexec_covers fp e10 e10' EX n d forU _ _ (XShift M m lsigma) L L1 PX1 eq_refl D C) as [D1 C1].
  cbn [assigned] in C1. split.
  - intros i j Hi Hj. erewrite (getbase_fn n d) by eassumption.
    unfold L1, shift. cbn [li iB]. destruct D as (K1 & K2 & _). rewrite K1, K2. rewrite fn_mtab by assumption.
    destruct (i <? m); [reflexivity|]. unfold getbase. rewrite K1, K2. symmetry. now apply fn_mtab.
  - eapply run_from_pres; try eassumption.
    intros i j Hi Hj N. apply HF; auto. erewrite getbase_fn; eauto.
Qed.

(** After a put, single-threaded, TRANSFORM: getbase = written matrix * getU *)
Theorem C31_put_transformation :
  forall (F : Type) (fp : fpops F), expo_nonneg fp ->
  forall e10 e10' J n d A0 method long_flag depth (history : list (xcall (F := F))) L M upperdim t tau L1 fuel delta verbose junk r L2,
    xprecisions_ok history ->
    xrun fp e10 e10' history (new_lattice fp J n d A0 true method long_flag depth) = Ok L -> cS (lcfg L) = 1 ->
    put e10 e10' M upperdim t tau L = Ok L1 ->
    fits n d (assigned (fn A0) history) (fn (getbase L1)) -> staircase n d (assigned (fn A0) history) ->
    hlll fp fuel delta verbose junk L1 = Ok (r, L2) ->
    unimodular d (fn (getU L2)) /\ meq n d (fn (getbase L2)) (mmul d (fn (getbase L1)) (fn (getU L2))).
Proof.
  intros F fp EX e10 e10' J n d A0 method long_flag depth history L M upperdim t tau L1 fuel delta verbose junk r L2 PX HX ES HP HF HST HR.
  destruct (xrun_covers fp e10 e10' EX n d true (cseysen (lcfg (new_lattice fp J n d A0 true method long_flag depth)))
     history PX (fn A0) _ L HX) as [D C]; [repeat split|apply new_covers|].
  assert (PX1 : xprecisions_ok (F := F) [XPut M upperdim t tau]) by (intros q [I|[]]; discriminate).
  destruct (xexec_covers fp e10 e10' EX n d true _ _ (XPut M upperdim t tau) L L1 PX1 HP D C) as [D1 C1].
  cbn [assigned] in C1.
  assert (EU : iU (li L1) = id_mat d /\ lcfg L1 = lcfg L).
  { unfold put in HP. binv HP. injection HP as <-. unfold put_raw. cbn [lcfg li iU].
    destruct D as (K1 & K2 & K3 & _). rewrite K3, K2. auto. }
  destruct EU as [EU EC].
  eapply (run_from_presU fp EX n d _ (assigned (fn A0) history) L1 [CallHlll fuel delta verbose junk]); try eassumption.
  - intros ? ? ? ? ? ? [I|[]]; discriminate.
  - intros i j Hi Hj N. apply HF; auto. erewrite getbase_fn; eauto.
  - left. now rewrite EC.
  - intros ? ? [I|[]]; discriminate.
  - intros ? [I|[]]; discriminate.
  - intros ? ? [I|[]]; discriminate.
  - unfold run. cbn [mfold exec]. rewrite HR. reflexivity.
Qed.

Definition A4 : mat Z := [[7;1;0;3];[0;2;5;0];[4;0;0;100]]%Z.
Lemma A1_covers_all M : fits 4 3 (fn A1) M.
Proof. intros i j Hi Hj N. exists 3, 0. split; [lia|]. split; [lia|]. vm_compute. discriminate. Qed.

(** used object, then put of another basis, then reduction *)
Example C31_put_case :
  exists L L1 r L2,
    xrun dbl e10_double e10_double' [XCall (CallHlll 200 d99 false 0%float); XShift A4 1 2; XCall (CallHlll 200 d99 false 0%float)]
      (new_lattice dbl Jz 4 3 A1 true 0 true 0) = Ok L /\
    put e10_double e10_double' (mkD 4 3 A4) 1 0 0 L = Ok L1 /\ getbase L1 = A4 /\
    fits 4 3 (assigned (fn A1) [XCall (CallHlll 200 d99 false 0%float); XShift A4 1 2; XCall (CallHlll 200 d99 false 0%float)]) (fn (getbase L1)) /\
    staircase 4 3 (fn A1) /\
    hlll dbl 200 d99 false 0%float L1 = Ok (r, L2) /\ getbase L2 <> A4.
Proof.
  do 4 eexists. split; [vm_compute; reflexivity|]. split; [vm_compute; reflexivity|]. split; [vm_compute; reflexivity|].
  split; [apply A1_covers_all|]. split; [apply independent_staircase, A1_independent|].
  split; [vm_compute; reflexivity|]. vm_compute. discriminate.
Qed.

(** Without the condition on the written matrix the property fails: an object built on a matrix whose columns end
    above the last row; put writes a matrix with entries below; hlll then updates the upper rows only *)
Definition A5 : mat Z := [[2;1;0];[1;3;0]]%Z.
Definition A6 : mat Z := [[2;1;5];[7;3;1]]%Z.
Theorem C31_put_stale_structure_refuted :
  exists L1 r L2, put e10_double e10_double' (mkD 3 2 A6) 1 0 0 (new_lattice dbl Jz 3 2 A5 true 0 true 0) = Ok L1 /\
    getbase L1 = A6 /\
    hlll dbl 200 d99 false 0%float L1 = Ok (r, L2) /\ ~ same_lattice 3 2 (fn A6) (fn (getbase L2)).
Proof.
  do 3 eexists. split; [vm_compute; reflexivity|]. split; [vm_compute; reflexivity|]. split; [vm_compute; reflexivity|].
  intros H.
  match goal with H : same_lattice _ _ _ (fn (getbase ?L)) |- _ => set (B := getbase L) in H; vm_compute in B end.
  (* some column of the result is not in the lattice of A6 *)
  destruct (proj2 (H (fun i => fn B i 1))) as (c & Hc).
  { exists (fun j => match j with S O => 1%Z | _ => 0%Z end). intros i Hi. cbv [sumZ]. ring. }
  pose proof (Hc 0 ltac:(lia)) as H0. pose proof (Hc 1 ltac:(lia)) as H1. pose proof (Hc 2 ltac:(lia)) as H2.
  unfold B in H0, H1, H2. cbv [sumZ fn mget col nth A6] in H0, H1, H2. lia.
Qed.

(** shift() does not clear the off-diagonal part of U *)
Theorem C31_shift_keeps_U_refuted :
  exists L r, hlll dbl 200 d99 false 0%float (new_lattice dbl Jz 4 3 A1 true 0 true 0) = Ok (r, L) /\
    ~ meq 3 3 (fn (getU (shift A1 4 0 L))) mid /\
    exists L2 r2, hlll dbl 200 d99 false 0%float (shift A1 4 0 L) = Ok (r2, L2) /\
      ~ meq 4 3 (fn (getbase L2)) (mmul 3 (fn A1) (fn (getU L2))).
Proof.
  do 2 eexists. split; [vm_compute; reflexivity|]. split.
  - intros H. specialize (H 0 1 ltac:(lia) ltac:(lia)). vm_compute in H. discriminate.
  - do 2 eexists. split; [vm_compute; reflexivity|].
    intros H. specialize (H 0 0 ltac:(lia) ltac:(lia)). vm_compute in H. discriminate.
Qed.

(** ** C21: lehmer_lll *)

(** lshift = 0: a plain reduction, for every A *)
Theorem C21_lehmer_zero_shift :
  forall (F : Type) (fp : fpops F), expo_nonneg fp ->
  forall J junk d99 fuel fh A delta truncate C cts,
    lehmer_lll fp J junk d99 fuel fh A delta 0 truncate = Ok (C, cts) ->
    dr C = dr A /\ dc C = dc A /\ same_lattice (dr A) (dc A) (ent A) (ent C).
Proof. intros. eapply lehmer_zero; eassumption. Qed.

(** lshift >= 1: if the truncated matrices keep a staircase shape (in particular if they keep full column rank)
    the result is a basis of the same lattice; the number of lifting steps is ceil(bits / lshift) *)
Theorem C21_lehmer_lattice :
  forall (F : Type) (fp : fpops F), expo_nonneg fp ->
  forall J junk d99 fuel fh A delta lshift truncate C cts,
    dwf A -> 0 < dr A -> 0 < dc A -> (0 < lshift)%Z ->
    lehmer_lll fp J junk d99 fuel fh A delta lshift truncate = Ok (C, cts) ->
    exists bits, maxbitsize A = Ok bits /\
      (Z.of_nat (length cts) = (bits + lshift - 1) / lshift)%Z /\
      ((forall ct, In ct cts -> staircase (dr A) (dc A) (ent ct)) ->
        dr C = dr A /\ dc C = dc A /\ same_lattice (dr A) (dc A) (ent A) (ent C)).
Proof.
  intros F fp EX J junk d99 fuel fh A delta lshift truncate C cts WA Hn Hd Hs H.
  destruct (lehmer_spec fp J junk d99 (fun _ => 0%Z) (fun _ _ => 0%Z) EX fuel fh A delta lshift truncate C cts WA Hn Hd Hs H) as (b & E & R & D & N & U).
  exists b. split; [exact E|]. split; [exact N|]. intros HI. destruct (U HI) as (V & UV & EV).
  do 2 (split; [assumption|]). eapply same_lattice_unimodular; eassumption.
Qed.

(** without truncation, and when the rows of A below the first have full column rank (e.g. A = [a; Id]), the
    condition always holds *)
Theorem C21_lehmer_lattice_full_rank :
  forall (F : Type) (fp : fpops F), expo_nonneg fp ->
  forall J junk d99 fuel fh A delta lshift C cts,
    dwf A -> 0 < dr A -> 0 < dc A -> (0 < lshift)%Z ->
    independent (dr A - 1) (dc A) (fun i j => ent A (S i) j) ->
    lehmer_lll fp J junk d99 fuel fh A delta lshift false = Ok (C, cts) ->
    dr C = dr A /\ dc C = dc A /\ same_lattice (dr A) (dc A) (ent A) (ent C).
Proof.
  intros F fp EX J junk d99 fuel fh A delta lshift C cts WA Hn Hd Hs HI H.
  assert (NZ : (lshift <> 0)%Z) by lia.
  pose proof (lehmer_lower fp J junk d99 (fun _ => 0%Z) (fun _ _ => 0%Z) EX fuel fh A delta lshift C cts WA Hn Hd NZ HI H) as L.
  destruct (lehmer_spec fp J junk d99 (fun _ => 0%Z) (fun _ _ => 0%Z) EX fuel fh A delta lshift false C cts WA Hn Hd Hs H) as (b & E & R & D & N & U).
  destruct U as (V & UV & EV); [intros ct I; apply independent_staircase; auto|].
  do 2 (split; [assumption|]). eapply same_lattice_unimodular; eassumption.
Qed.

(** the outer loop makes at most bits / lshift + 1 iterations: more fuel changes nothing *)
Theorem C21_lehmer_terminates :
  forall (F : Type) (fp : fpops F) J junk d99 fuel fh A delta lshift truncate bits,
    (0 < lshift)%Z -> maxbitsize A = Ok bits -> (bits <= Z.of_nat fuel * lshift)%Z ->
    forall k, lehmer_lll fp J junk d99 (k + fuel) fh A delta lshift truncate = lehmer_lll fp J junk d99 fuel fh A delta lshift truncate.
Proof.
  intros F fp J junk d99 fuel fh A delta lshift truncate bits Hs E Hb k. unfold lehmer_lll.
  destruct (Z.eqb_spec lshift 0); [reflexivity|]. cbv zeta. destruct (set_from _ _); cbn [bind]; try reflexivity.
  rewrite E. cbn [bind]. apply (lehmer_loop_fuel fp junk d99 (fun _ => 0%Z) (fun _ _ => 0%Z)); [exact Hs|]. rewrite Z.opp_involutive. exact Hb.
Qed.

(** a negative shift never terminates *)
Theorem C21_lehmer_negative_shift_diverges :
  forall (F : Type) (fp : fpops F) J junk d99 fuel fh A delta lshift truncate,
    (lshift < 0)%Z -> 0 < dr A -> 0 < dc A ->
    forall r, lehmer_lll fp J junk d99 fuel fh A delta lshift truncate <> Ok r.
Proof.
  intros F fp J junk d99 fuel fh A delta lshift truncate Hs Hi Hj r H. unfold lehmer_lll in H.
  destruct (Z.eqb_spec lshift 0); [lia|]. cbv zeta in H. apply bind_Ok in H as (C & _ & H).
  apply bind_Ok in H as (b & E & H). revert H. apply (lehmer_loop_neg fp junk d99 (fun _ => 0%Z) (fun _ _ => 0%Z)); [assumption|].
  destruct (maxbitsize_ok A) as (b' & E' & _ & HB & _). rewrite E' in E. injection E as ->.
  specialize (HB 0 0 Hi Hj). pose proof (sizeinbase2_pos (ent A 0 0)). lia.
Qed.

Definition K4 : dmat := mkD 4 3 [[100;1;0;0];[37;0;1;0];[59;0;0;1]]%Z.
Lemma K4_dwf : dwf K4.
Proof. split; [reflexivity|]. cbn [de K4]. repeat constructor. Qed.
Lemma K4_lower : independent 3 3 (fun i j => ent K4 (S i) j).
Proof.
  intros c H j Hj. pose proof (H 0 ltac:(lia)) as H0. pose proof (H 1 ltac:(lia)) as H1.
  pose proof (H 2 ltac:(lia)) as H2. cbv [sumZ ent fn mget col nth K4 de] in H0, H1, H2.
  destruct j as [|[|[|j]]]; lia.
Qed.

(** 7 bits, shifts of 3 bits: 3 lifting steps *)
Example C21_case :
  dwf K4 /\ independent (dr K4 - 1) (dc K4) (fun i j => ent K4 (S i) j) /\
  exists C cts, lehmer_lll dbl Jz 0%float d99 5 200 K4 d99 3 false = Ok (C, cts) /\ length cts = 3 /\
    de C = [[4; 1; -1; -1]; [1; 2; 1; -4]; [3; -3; 5; 2]]%Z.
Proof.
  split; [apply K4_dwf|]. split; [apply K4_lower|].
  do 2 eexists. split; [vm_compute; reflexivity|]. split; reflexivity.
Qed.

(** ** C22: the recursive driver; e10, e10' are the double expressions of trunc (C33), arbitrary here *)
Theorem C22_l1_transformation :
  forall (F : Type) (fp : fpops F), expo_nonneg fp ->
  forall J junk d99 e10 e10' fuel fh leafbits A B U,
    dwf A -> 0 < dr A -> 0 < dc A -> independent (dr A) (dc A) (ent A) ->
    l1 fp J junk d99 e10 e10' fuel fh leafbits A = Ok (B, U) ->
    dr B = dr A /\ dc B = dc A /\ dr U = dc A /\ dc U = dc A /\
    unimodular (dc A) (ent U) /\ meq (dr A) (dc A) (ent B) (mmul (dc A) (ent A) (ent U)) /\
    same_lattice (dr A) (dc A) (ent A) (ent B).
Proof.
  intros F fp EX J junk d99 e10 e10' fuel fh leafbits A B U WA Hn Hd HI H.
  apply (l1_spec fp J junk d99 e10 e10' EX) in H as (R1 & D1 & R2 & D2 & UU & EU); auto using independent_staircase.
  do 6 (split; [assumption|]). eapply same_lattice_unimodular; eassumption.
Qed.

(** recursion depth: log2 of the bit size *)
Theorem C22_l1_recursion_terminates :
  forall (F : Type) (fp : fpops F) J junk d99 e10 e10' fuel fh leafbits A bits,
    (0 <= leafbits)%Z -> maxbitsize A = Ok bits -> (bits < 2 ^ Z.of_nat fuel)%Z ->
    forall k, l1 fp J junk d99 e10 e10' (k + fuel) fh leafbits A =
              l1 fp J junk d99 e10 e10' fuel fh leafbits A.
Proof.
  intros F fp J junk d99 e10 e10' fuel fh leafbits A bits Hl E Hb k. unfold l1. rewrite E. cbn [bind].
  destruct (maxbitsize_ok A) as (b & E' & Hb' & _). rewrite E' in E. injection E as ->.
  now rewrite l1_rec_fuel by lia.
Qed.

Definition K5 : dmat := mkD 4 3 [[100;0;0;1];[37;1;0;0];[59;0;1;0]]%Z.
Example C22_case :
  dwf K5 /\ independent (dr K5) (dc K5) (ent K5) /\
  exists B U, l1 dbl Jz 0%float d99 (fun tau => tau * 301 / 1000)%Z (fun m t => (m - t) * 301 / 1000)%Z 3 200 4 K5 = Ok (B, U) /\ de U <> id_mat 3.
Proof.
  split; [split; [reflexivity|]; cbn [de K5]; repeat constructor|]. split.
  - intros c H j Hj. pose proof (H 3 ltac:(cbn; lia)) as H0. pose proof (H 1 ltac:(cbn; lia)) as H1.
    pose proof (H 2 ltac:(cbn; lia)) as H2. cbv [sumZ ent fn mget col nth K5 de dc] in H0, H1, H2. cbn [dc K5] in Hj.
    destruct j as [|[|[|j]]]; lia.
  - do 2 eexists. split; [vm_compute; reflexivity|]. vm_compute. discriminate.
Qed.

Print Assumptions C03_transformation_staircase.
Print Assumptions C03_getU_unimodular_any_threads.
Print Assumptions C31_put_then_reduce.
Print Assumptions C31_shift_then_reduce.
Print Assumptions C31_put_transformation.
Print Assumptions C31_put_stale_structure_refuted.
Print Assumptions C31_shift_keeps_U_refuted.
Print Assumptions C21_lehmer_zero_shift.
Print Assumptions C21_lehmer_lattice.
Print Assumptions C21_lehmer_lattice_full_rank.
Print Assumptions C21_lehmer_terminates.
Print Assumptions C21_lehmer_negative_shift_diverges.
Print Assumptions C22_l1_transformation.
Print Assumptions C22_l1_recursion_terminates.
