(** * Kernels, integer relations and ZFgas: C18, C19, C20, C45, C46, C47 *)
From Coq Require Import ZArith Lia List Bool Arith Floats.
From Verif Require Import Base Spec Mat FP Hlll Hlll2 LinDep Structure MatOps Trunc10 Lehmer ZFgas KernelLA Nullspace NullHjls Relation
  Double DoubleAgree Examples.
Import ListNotations.

(** ** C18: relation_lll *)

(** Whenever relation_lll returns, it returns 0 without writing C, or 1 with a d x 1 vector C.  For the external
    fplll under its contract, and for hlll without truncation or when the truncated matrices passed to the inner
    reduction keep, for every j, a non-zero entry in a row >= j of one of the columns 0..j: C is a column of a
    unimodular matrix (so it is non-zero and primitive) and its combination with the input row is the smallest
    over the columns of that matrix. *)
Theorem C18_relation_candidate :
  forall (F : Type) (fp : fpops F) (Q : Type) (fq : fpops Q) J junk delta ext, expo_nonneg fp ->
  forall fuel fh lm A alpha shift truncate inputgap sizemethod q0 confidence r oC truncated,
    0 < dr A -> 0 < dc A ->
    relation_lll fp fq J junk delta ext fuel fh lm A alpha shift truncate inputgap sizemethod q0 confidence = Ok (r, oC, truncated) ->
    (r = 0%Z /\ oC = None) \/
    (r = 1%Z /\ exists C, oC = Some C /\ dr C = dc A /\ dc C = 1 /\
       ((lm = RHLLL -> (truncate = -1)%Z \/ forall T, In T truncated -> staircase (dr A + dc A) (dc A) (ent T)) ->
        (lm = RFPLLL -> ext_unimodular ext) ->
        candidate (dc A) (ent A 0) (fun j => ent C j 0) /\ primitive (dc A) (fun j => ent C j 0) /\
        exists j, j < dc A /\ ent C j 0 <> 0%Z)).
Proof.
  intros F fp Q fq J junk delta ext EX fuel fh lm A alpha shift truncate inputgap sm q0 conf r oC ts Hm Hd H.
  apply relation_lll_spec in H as [H|(E & C & E1 & E2 & E3 & HC)]; auto.
  right. split; [exact E|]. exists C. do 3 (split; [assumption|]). intros H1 H2. specialize (HC H1 H2).
  split; [exact HC|]. pose proof (candidate_primitive _ _ _ HC) as P. split; [exact P|].
  destruct (nonzero_in_row (dc A) (fun j => ent C j 0)) as [Z0|(p & Hp & Np)]; [|eauto].
  exfalso. destruct (P 2%Z) as [X|X]; try discriminate. intros j Hj. rewrite Z0 by assumption. apply Z.divide_0_r.
Qed.

Definition R1 : dmat := mkD 1 3 [[1048576];[1696631];[2745207]]%Z.   (* 2^20 (1, phi, phi^2) *)
Definition no_ext (T : dmat) : res dmat := UB.
(** the relation 1 + phi - phi^2 = 0 *)
Example C18_case : expo_nonneg dbl /\
  exists ts, relation_lll dbl dbl Jz 0%float d99 no_ext 20 200 RHLLL R1 22 5 (-1) 2 0 0x1p22%float 0x1p-6%float
    = Ok (1%Z, Some (mkD 3 1 [[-1; -1; 1]%Z]), ts).
Proof. split; [apply dbl_expo_nonneg|]. eexists. vm_compute. reflexivity. Qed.
(** a truncated run whose truncated matrices satisfy the condition *)
Example C18_truncated_case :
  exists ts, relation_lll dbl dbl Jz 0%float d99 no_ext 20 200 RHLLL R1 22 5 6 2 0 0x1p22%float 0x1p-6%float
    = Ok (1%Z, Some (mkD 3 1 [[-1; -1; 1]%Z]), ts) /\ ts <> [] /\ forall T, In T ts -> staircase 4 3 (ent T).
Proof.
  eexists. split; [vm_compute; reflexivity|]. split; [discriminate|].
  intros T [<-|[]] j Hj. exists (S j), j. split; [lia|]. split; [lia|]. destruct j as [|[|[|j]]]; [vm_compute; discriminate..|lia].
Qed.
(** an external reduction that meets the contract, and a run with it *)
Definition id_ext (T : dmat) : res dmat := Ok (mkD (dr T) (dr T) (id_mat (dr T))).
Example C18_ext_case : ext_unimodular id_ext /\
  exists r oC ts, relation_lll dbl dbl Jz 0%float d99 id_ext 20 200 RFPLLL R1 22 5 (-1) 2 0 0x1p22%float 0x1p22%float = Ok (r, oC, ts) /\ r = 1%Z.
Proof.
  split.
  - intros T U H. injection H as <-. cbn [dr dc]. split; [reflexivity|]. split; [reflexivity|].
    apply unimodular_ext with mid; [|apply unimodular_id]. apply meq_sym, id_mat_fn.
  - do 3 eexists. split; [vm_compute; reflexivity|reflexivity].
Qed.

(** ** C19: nullspace_lll *)

(** If nullspace_lll returns r, then r = -1 (only possible with a unique shift, C not written), or r >= n - d and the
    n x r matrix C satisfies A C = 0 and its columns are distinct columns of a unimodular matrix.  If moreover the
    rows of A are independent, r = n - d and the columns of C generate all integer kernel vectors.  (lllmethod
    FPLLL: under the contract of the external fplll.) *)
Theorem C19_nullspace_lll :
  forall (F : Type) (fp : fpops F) J junk delta1 delta2 e10 e10' ext, expo_nonneg fp ->
  forall fuel fh A lalpha lsigma m r oC, dwf A -> 0 < dc A -> (0 <= lalpha)%Z -> (m = FPLLL -> ext_reduces ext) ->
    nullspace_lll fp J junk delta1 delta2 e10 e10' ext fuel fh A lalpha lsigma m = Ok (r, oC) ->
    (r = (-1)%Z /\ oC = None /\ lsigma = 0%Z) \/
    exists (k : nat) C, r = Z.of_nat k /\ oC = Some C /\ dr C = dc A /\ dc C = k /\ dc A <= k + dr A /\
      kernel_vectors (dr A) (dc A) k (ent A) (ent C) /\
      (independent (dc A) (dr A) (mtr (ent A)) -> k + dr A = dc A /\ generates_kernel (dr A) (dc A) k (ent A) (ent C)).
Proof. intros. eapply nullspace_lll_spec; eassumption. Qed.

Definition N1 : dmat := mkD 2 4 [[3;1];[5;-2];[7;4];[2;9]]%Z.
Lemma N1_rows : independent 4 2 (mtr (ent N1)).
Proof.
  intros c H. assert (H0 := H 0 ltac:(lia)). assert (H1 := H 1 ltac:(lia)). 
  unfold sumZ, mtr in H0, H1. cbn [ent fn] in H0, H1.
  change (ent N1 0 0) with 3%Z in H0. change (ent N1 1 0) with 1%Z in H0.
  change (ent N1 0 1) with 5%Z in H1. change (ent N1 1 1) with (-2)%Z in H1.
  intros j Hj. destruct j as [|[|j]]; [lia|lia|lia].
Qed.
Example C19_case : dwf N1 /\ independent 4 2 (mtr (ent N1)) /\
  nullspace_lll dbl Jz 0%float d99 d99 (fun _ => 0%Z) (fun _ _ => 0%Z) no_ext 20 200 N1 20 0 HLLL
    = Ok (2%Z, Some (mkD 4 2 [[1; -5; 4; -3]; [11; 0; -5; 1]]%Z)) /\
  nullspace_lll dbl Jz 0%float d99 d99 (fun _ => 0%Z) (fun _ _ => 0%Z) no_ext 20 200 N1 20 4 HLLL
    = Ok (2%Z, Some (mkD 4 2 [[1; -5; 4; -3]; [-11; 0; 5; -1]]%Z)).
Proof.
  split; [split; [reflexivity|]; repeat constructor|]. split; [apply N1_rows|].
  split; vm_compute; reflexivity.
Qed.

(** ** C20: ZFgas::decomp *)

(** Whatever the outcome of decomp (0, or -1 when an anomaly is detected): with TRANSFORM, getbase = F0 * getU with
    getU unimodular; with INV_T_TRANSFORM, getbase = F0 * T for a unimodular T whose inverse transpose is getV *)
Theorem C20_decomp_consistent :
  forall (F : Type) (fp : fpops F) d n dec (transf : bool) gap J A fuel gamma target junk r z,
    decomp fp d n dec transf gap fuel gamma target junk (new_zfg d n transf J A) = Ok (r, z) ->
    (r = 0%Z \/ r = (-1)%Z) /\
    (transf = true -> unimodular n (fn (zgetU n transf z)) /\ meq d n (fn (zgetbase d n z)) (mmul n (fn A) (fn (zgetU n transf z)))) /\
    (transf = false -> exists T Ti, meq n n (mmul n T Ti) mid /\ meq n n (mmul n Ti T) mid /\
       meq d n (fn (zgetbase d n z)) (mmul n (fn A) T) /\ meq n n (fn (zgetV n transf z)) (mtr Ti)).
Proof.
  intros F fp d n dec transf gap J A fuel gamma target junk r z H.
  apply (decomp_inv fp d n dec transf gap (fn A)) in H as [(_ & _ & _ & T & Ti & I1 & I2 & EF & EU & EW) Hr];
    [|apply (new_inv (F := F))].
  split; [exact Hr|].
  assert (GB : meq d n (fn (zgetbase d n z)) (mmul n (fn A) T)) by (eapply meq_trans; [apply fn_mtab|exact EF]).
  split; intros ->.
  - assert (GU : meq n n (fn (zgetU n true z)) T) by (eapply meq_trans; [apply fn_mtab|now apply EU]).
    split.
    + apply unimodular_ext with T; [now apply meq_sym|]. now exists Ti.
    + eapply meq_trans; [exact GB|]. apply mmul_ext; [apply meq_refl|now apply meq_sym].
  - exists T, Ti. do 3 (split; [assumption|]). eapply meq_trans; [apply fn_mtab|now apply EW].
Qed.

Definition g11 : float := 0x1.279a74590331cp+0%float.  (* 1.1547005384 *)
Example C20_case :
  match decomp dbl 2 4 0 true 0x1p-30%float 50 g11 2 0%float (new_zfg 2 4 true Jz (de N1)) with
  | Ok (r, z) => (r, zgetbase 2 4 z, zgetU 4 true z) =
      (0, [[0; 0]; [0; 0]; [0; 1]; [1; 0]], [[-11; 0; 5; -1]; [12; -5; -1; -2]; [-4; 2; 0; 1]; [-6; 1; 2; 0]])%Z
  | _ => False end /\
  match decomp dbl 2 4 0 false 0x1p-30%float 50 g11 2 0%float (new_zfg 2 4 false Jz (de N1)) with
  | Ok (r, z) => (r, zgetV 4 false z) =
      (0, [[-1; -2; -2; 0]; [1; 0; 3; 4]; [1; -2; 4; 9]; [3; 5; 7; 2]])%Z
  | _ => False end.
Proof. split; vm_compute; reflexivity. Qed.

(** ** C45: nullspace_direct_decomp *)
Theorem C45_nullspace_direct :
  forall (F : Type) (fp : fpops F) J junk gap g1 fuel A r oC, dwf A -> 0 < dc A ->
    nullspace_direct fp J junk gap g1 fuel A = Ok (r, oC) ->
    (r = (-1)%Z /\ oC = None) \/
    exists (k : nat) C, r = Z.of_nat k /\ oC = Some C /\ dr C = dc A /\ dc C = k /\ k + dr A = dc A /\
      kernel_vectors (dr A) (dc A) k (ent A) (ent C) /\
      (independent (dc A) (dr A) (mtr (ent A)) -> generates_kernel (dr A) (dc A) k (ent A) (ent C)).
Proof. intros. eapply nullspace_direct_spec; eassumption. Qed.

Example C45_case :
  nullspace_direct dbl Jz 0%float 0x1p-30%float g11 40 N1 = Ok (2%Z, Some (mkD 4 2 [[-11; 0; 5; -1]; [12; -5; -1; -2]]%Z)).
Proof. vm_compute. reflexivity. Qed.

(** ** C46: nullspace_hjls *)
Theorem C46_nullspace_hjls :
  forall (F : Type) (fp : fpops F) J junk gap g2 fuel A r oC, dwf A -> 0 < dr A -> 0 < dc A ->
    nullspace_hjls fp J junk gap g2 fuel A = Ok (r, oC) ->
    r = (-1)%Z \/
    exists (k : nat) C, r = Z.of_nat k /\ oC = Some C /\ dr C = dc A /\ dc C = k /\ k + dr A = dc A /\
      kernel_vectors (dr A) (dc A) k (ent A) (ent C) /\
      (independent (dc A) (dr A) (mtr (ent A)) -> generates_kernel (dr A) (dc A) k (ent A) (ent C)).
Proof. intros. eapply nullspace_hjls_full; eassumption. Qed.

Example C46_case :
  nullspace_hjls dbl Jz 0%float 0x1p-20%float g11 60 N1 = Ok (2%Z, Some (mkD 4 2 [[-11; 0; 5; -1]; [1; -5; 4; -3]]%Z)).
Proof. vm_compute. reflexivity. Qed.

(** ** C47: FPTuple::lll *)
Theorem C47_fptuple_lll :
  forall (F : Type) (fp : fpops F) J junk delta, expo_nonneg fp ->
  forall fh L r C, dr L = 1 -> 0 < dc L -> dwf L -> fptuple_lll fp J junk delta fh L = Ok (r, C) ->
    r = 0%Z /\ dr C = dc L /\ dc C = 1 /\ candidate (dc L) (ent L 0) (fun j => ent C j 0) /\ primitive (dc L) (fun j => ent C j 0).
Proof.
  intros F fp J junk delta EX fh L r C H1 H2 H3 H.
  apply (fptuple_lll_spec fp J junk delta (fun _ => UB)) in H as (Q1 & Q2 & Q3 & Q4); auto. do 4 (split; [assumption|]). eapply candidate_primitive; eassumption.
Qed.

Example C47_case : dwf R1 /\ fptuple_lll dbl Jz 0%float d99 200 R1 = Ok (0%Z, mkD 3 1 [[-1; -1; 1]]%Z).
Proof.
  split; [|vm_compute; reflexivity]. split; [reflexivity|]. repeat constructor.
Qed.

Print Assumptions C18_relation_candidate.
Print Assumptions C19_nullspace_lll.
Print Assumptions C20_decomp_consistent.
Print Assumptions C45_nullspace_direct.
Print Assumptions C46_nullspace_hjls.
Print Assumptions C47_fptuple_lll.
