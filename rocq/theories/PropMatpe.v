(** * C65, C66: the reduction over matrices with one exponent per column (matpe.h),
      the class used by the hplll program *)
From Coq Require Import ZArith Reals Lia List Bool Arith Floats.SpecFloat.
From Flocq Require Import Core.Core IEEE754.BinarySingleNaN.
From Verif Require Import Base Spec Mat FP Hlll IntSteps HlllInt LinDep Structure HlllM HlllMInt GObject Ldpe Matpe Examples.
Import ListNotations.
Open Scope nat_scope.

(** ** C65 *)

Lemma get_si_exp_nonneg prec emax (Hp : Prec_gt_0 prec) (He : Prec_lt_emax prec emax) (a : ldpe prec emax) lx e :
  get_si_exp a = Ok (lx, e) -> (0 <= e)%Z.
Proof.
  unfold get_si_exp. intros H. binv H. destruct a0 as [x e0].
  destruct (is0 (mant a)); [injection H as <- <-; lia|].
  destruct (Z.ltb_spec e0 0).
  - binv H. injection H as <- <-. lia.
  - injection H as <- <-. lia.
Qed.

(** the lattice is the one of the last basis given, for every scalar type and every
    matrix class (as long as exponents given with long factors are not negative), every
    history, every dimension and every basis *)
Theorem C65_same_lattice_any_matrix_class :
  forall (F M : Type) (so : sops F) (mo : mops F M), gse_nonneg so ->
  forall (f0 : gst F M) (n d : nat) (A : mat Z) forU method long_flag vd qs L,
  grun so mo qs (g_new f0 n d A forU method long_flag vd) = Ok L ->
  same_lattice n d (gcurrent (fn A) qs) (fn (g_getbase L)).
Proof. intros F M so mo EX f0 n d A u m lg vd qs L H. eapply grun_lattice; eauto. Qed.

Theorem C65_transform_any_matrix_class :
  forall (F M : Type) (so : sops F) (mo : mops F M), gse_nonneg so ->
  forall (f0 : gst F M) (n d : nat) (A : mat Z) method long_flag vd qs L,
  grun so mo qs (g_new f0 n d A true method long_flag vd) = Ok L ->
  independent n d (gcurrent (fn A) qs) ->
  gsingle_thread qs ->
  unimodular d (fn (g_getU L)) /\
  meq n d (fn (g_getbase L)) (mmul d (gcurrent (fn A) qs) (fn (g_getU L))).
Proof.
  intros F M so mo EX f0 n d A m lg vd qs L H HI HS. eapply grun_transform; eauto.
  now apply independent_staircase.
Qed.

Lemma dpe_gse : gse_nonneg dpe_sops.
Proof. intros a lx e. apply get_si_exp_nonneg. Qed.
Lemma dpew_gse : gse_nonneg dpew_sops.
Proof. intros a lx e. apply get_si_exp_nonneg. Qed.
Lemma ldpe_gse : gse_nonneg ldpe_sops.
Proof. intros a lx e. apply get_si_exp_nonneg. Qed.
Lemma ldpew_gse : gse_nonneg ldpew_sops.
Proof. intros a lx e. apply get_si_exp_nonneg. Qed.

(** the four instances: MatrixPE<double,dpe_t> and MatrixPE<long double,ldpe_t>, where an
    int overflow is undefined or wraps around *)
Definition pe_classes (P : forall prec emax (so : sops (ldpe prec emax)) (mo : nat -> nat -> mops (ldpe prec emax) (pe (binary_float prec emax))), Prop) : Prop :=
  P _ _ dpe_sops (pe_ops dpe_tops) /\ P _ _ dpew_sops (pe_ops dpew_tops) /\
  P _ _ ldpe_sops (pe_ops ldpe_tops) /\ P _ _ ldpew_sops (pe_ops ldpew_tops).

Theorem C65_MatrixPE_lattice :
  pe_classes (fun prec emax so mo =>
    forall (f0 : gst (ldpe prec emax) (pe (binary_float prec emax))) (n d : nat) (A : mat Z) forU method long_flag vd qs L,
    grun so (mo n d) qs (g_new f0 n d A forU method long_flag vd) = Ok L ->
    same_lattice n d (gcurrent (fn A) qs) (fn (g_getbase L))).
Proof.
  unfold pe_classes. refine (conj _ (conj _ (conj _ _))); intros; (eapply C65_same_lattice_any_matrix_class; [|eassumption]);
    first [exact dpe_gse|exact dpew_gse|exact ldpe_gse|exact ldpew_gse].
Qed.

Theorem C65_MatrixPE_transform :
  pe_classes (fun prec emax so mo =>
    forall (f0 : gst (ldpe prec emax) (pe (binary_float prec emax))) (n d : nat) (A : mat Z) method long_flag vd qs L,
    grun so (mo n d) qs (g_new f0 n d A true method long_flag vd) = Ok L ->
    independent n d (gcurrent (fn A) qs) ->
    gsingle_thread qs ->
    unimodular d (fn (g_getU L)) /\
    meq n d (fn (g_getbase L)) (mmul d (gcurrent (fn A) qs) (fn (g_getU L)))).
Proof.
  unfold pe_classes. refine (conj _ (conj _ (conj _ _))); intros; (eapply C65_transform_any_matrix_class; [|eassumption..]);
    first [exact dpe_gse|exact dpew_gse|exact ldpe_gse|exact ldpew_gse].
Qed.

(** the members after construction; the doubles left in x, normB2, ... are zeros here *)
Definition dz : dpe_t := cst 53 1024 0 0.
Definition ldz : ldpe_t := cst 64 16384 0 0.
Definition dpe_f0 (tp : tops (binary_float 53 1024) dpe_t) (n d : nat) :=
  pe_init tp n d (fun _ _ => dz) (fun _ => dz) (fun _ => dz) dz 0.
Definition ldpe_f0 (tp : tops (binary_float 64 16384) ldpe_t) (n d : nat) :=
  pe_init tp n d (fun _ _ => ldz) (fun _ => ldz) (fun _ => ldz) ldz 0.
(** delta = 0.99 *)
Definition dd99 : dpe_t := cst 53 1024 8917127262193582 (-53).
Definition ldd99 : ldpe_t := cst 64 16384 8917127262193582 (-53).

Definition out {F M} (r : res (glattice (F := F) (M := M))) : res (mat Z * mat Z) :=
  match r with Ok L => Ok (g_getbase L, g_getU L) | UB => UB | NoFuel => NoFuel end.

(** a run of each instance on the basis of Examples.v *)
Definition A1_out : res (mat Z * mat Z) :=
  Ok ([[-1;1;1;-4];[2;1;-4;1];[3;-5;-2;-3]]%Z, [[-1;1;1];[2;1;-4];[3;-5;-2]]%Z).
Example C65_ex_dpe :
  out (grun dpe_sops (pe_ops dpe_tops 4 3) [GHlll 200 dd99 false dz] (g_new (dpe_f0 dpe_tops 4 3) 4 3 A1 true 0 true 0)) = A1_out.
Proof. vm_compute. reflexivity. Qed.
Example C65_ex_dpew :
  out (grun dpew_sops (pe_ops dpew_tops 4 3) [GHlll 200 dd99 false dz; GNumS 1 10; GHlll 50 dd99 false dz] (g_new (dpe_f0 dpew_tops 4 3) 4 3 A1 true 0 true 0)) = A1_out.
Proof. vm_compute. reflexivity. Qed.
Example C65_ex_ldpe :
  out (grun ldpe_sops (pe_ops ldpe_tops 4 3) [GHlll 200 ldd99 false ldz] (g_new (ldpe_f0 ldpe_tops 4 3) 4 3 A1 true 1 true 0)) = A1_out.
Proof. vm_compute. reflexivity. Qed.
Example C65_ex_ldpew :
  out (grun ldpew_sops (pe_ops ldpew_tops 4 3) [GHlll 200 ldd99 false ldz] (g_new (ldpe_f0 ldpew_tops 4 3) 4 3 A1 true 1 true 0)) = A1_out.
Proof. vm_compute. reflexivity. Qed.
Example C65_ex_hyp : independent 4 3 (gcurrent (F := dpe_t) (M := pe (binary_float 53 1024)) (fn A1) [GHlll 200 dd99 false dz]) /\
  gsingle_thread (F := dpe_t) (M := pe (binary_float 53 1024)) [GHlll 200 dd99 false dz].
Proof. split; [exact A1_independent|]. intros nS thr [H|[]]. discriminate. Qed.

(** what fails: with this class the reduction of a plain basis overflows type [int] (the
    exponent of an exact zero is INT_MIN, and mul adds exponents without testing) *)
Definition basis0 : mat Z := [[1;0;0];[0;2;1]]%Z.
Lemma basis0_independent : independent 3 2 (fn basis0).
Proof.
  intros c H j Hj. pose proof (H 0%nat ltac:(lia)) as H0. pose proof (H 2%nat ltac:(lia)) as H2.
  cbv [sumZ fn mget col nth basis0] in H0, H2.
  destruct j as [|[|j]]; lia.
Qed.

Theorem C65_defined_on_independent_refuted :
  ~ (forall n d A fuel method, independent n d (fn A) ->
     grun dpe_sops (pe_ops dpe_tops n d) [GHlll fuel dd99 false dz] (g_new (dpe_f0 dpe_tops n d) n d A true method true 0) <> UB) /\
  ~ (forall n d A fuel method, independent n d (fn A) ->
     grun ldpe_sops (pe_ops ldpe_tops n d) [GHlll fuel ldd99 false ldz] (g_new (ldpe_f0 ldpe_tops n d) n d A true method true 0) <> UB).
Proof.
  split; intros H; apply (H 3 2 basis0 50 0%Z basis0_independent); vm_compute; reflexivity.
Qed.
(** with wraparound the same runs end with the right answer *)
Example C65_ex_wrap :
  out (grun dpew_sops (pe_ops dpew_tops 3 2) [GHlll 50 dd99 false dz] (g_new (dpe_f0 dpew_tops 3 2) 3 2 basis0 true 0 true 0))
  = Ok (basis0, [[1;0];[0;1]]%Z) /\
  out (grun ldpew_sops (pe_ops ldpew_tops 3 2) [GHlll 50 ldd99 false ldz] (g_new (ldpe_f0 ldpew_tops 3 2) 3 2 basis0 true 0 true 0))
  = Ok (basis0, [[1;0];[0;1]]%Z).
Proof. split; vm_compute; reflexivity. Qed.
