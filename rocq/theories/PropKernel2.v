(** * Kernels through a real generating set: C82 (nullspace_indirect_decomp) *)
From Coq Require Import ZArith Lia List Bool Arith Floats.
From Verif Require Import Base Spec Mat FP Hlll LinDep Structure MatOps ZFgas KernelLA Nullspace Fgas NullHjls
  Double Examples PropKernel PropFgas.
Import ListNotations.

(** ** C82: nullspace_indirect_decomp.  Whatever both floating-point types do (rounding errors, NaNs): the returned value
    is -1, or n - d with an n x (n-d) matrix C such that A C = 0 and whose columns are columns of a unimodular matrix;
    if the rows of A are independent they generate the integer kernel of A *)
Theorem C82_nullspace_indirect :
  forall (F Q : Type) (fp : fpops F) (rt : rtops F Q) (fq : fpops Q) (rq : rtops Q Q)
         J JQ jB gap epsilon ubound gamma fuel A r oC, dwf A -> 0 < dc A ->
    nullspace_indirect fp rt fq rq J JQ jB gap epsilon ubound gamma fuel A = Ok (r, oC) ->
    r = (-1)%Z \/
    exists (k : nat) C, r = Z.of_nat k /\ oC = Some C /\ dr C = dc A /\ dc C = k /\ k + dr A = dc A /\
      kernel_vectors (dr A) (dc A) k (ent A) (ent C) /\
      (independent (dc A) (dr A) (mtr (ent A)) -> generates_kernel (dr A) (dc A) k (ent A) (ent C)).
Proof. intros. eapply nullspace_indirect_spec; eassumption. Qed.

(** a run on [N1] with doubles: two kernel vectors.  (The off-diagonal entries that fgasgen never sets are 0
    here; when they happen to be NaN the same run has not stopped after 60 steps of each loop.) *)
Example C82_case :
  nullspace_indirect dbl rtd dbl rtd Jz Jz (fun _ _ => 0%float) gapd 0x1p-40%float 50 g11 60 N1
  = Ok (2%Z, Some (mkD 4 2 [[11;0;-5;1];[1;-5;4;-3]]%Z)).
Proof. vm_compute. reflexivity. Qed.

Print Assumptions C82_nullspace_indirect.
