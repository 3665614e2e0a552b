(** * C88: memory safety of the drivers built on the reductions *)
From Coq Require Import ZArith Lia List Bool Arith Floats.
From Verif Require Import Base Spec Mat FP Hlll Hlll2 MatOps MatOpsFacts MachInt Lehmer Nullspace Relation Safety Slll SlllSafe Wrap DriverSafe
  Double DoubleAgree Examples PropSlll PropWrap PropKernel PropDrivers.
Import ListNotations.
Local Open Scope nat_scope.

(** Every access outside a matrix or vector is the outcome [UB].  None happens, whatever the floating-point types compute
    and whatever the uninitialised memory contains, and however long the loops run. *)

(** hlll<long>, hlll<__int128_t>, hlll<mpz_t> of wrappers.h, for all conversions and all thresholds: at least as many rows as columns *)
Theorem C88_hlll_wrappers :
  forall (F G : Type) (fp : fpops F) (gp : fpops G) W WG cin cout fuel delta junk deltaG junkG d1 d2 n d A,
    d <= n -> hlll_wrapper fp gp W WG cin cout fuel delta junk deltaG junkG d1 d2 n d A <> UB.
Proof. intros. eapply safe_no_UB. now apply hlll_wrapper_safe. Qed.

(** slll_wrap (with the recursion slll_wrap_gap) and slll<mpz_t> *)
Theorem C88_slll_wrap :
  forall (F : Type) (fp : fpops F) f0001 f501 fgap f99 fmul2 W Wb fuel delta junk segments method dthreshold n d A,
    0 < segments -> 1 <= d <= n -> 1 <= dthreshold ->
    slll_wrap fp f0001 f501 fgap f99 fmul2 W Wb fuel delta junk segments method dthreshold n d A <> UB.
Proof. intros. eapply safe_no_UB. now apply slll_wrap_safe. Qed.

Theorem C88_slll_wrapper :
  forall (F G : Type) (fp : fpops F) (gp : fpops G) f0001 f501 fgap f99 fmul2 g0001 g501 ggap g99 gmul2 W Wb WG WGb
         fuel delta junk deltaG junkG segments dthreshold d1 d2 n d A,
    0 < segments -> 1 <= d <= n -> 1 <= dthreshold -> 1 <= d1 <= d2 ->
    slll_mpz fp gp f0001 f501 fgap f99 fmul2 g0001 g501 ggap g99 gmul2 W Wb WG WGb
             fuel delta junk deltaG junkG segments dthreshold d1 d2 n d A <> UB.
Proof. intros. eapply safe_no_UB. now apply slll_mpz_safe. Qed.

(** blevel: the blocks are not wider than the columns are long *)
Theorem C88_blevel :
  forall (F : Type) (fp : fpops F) fuel delta junk J n d B0 Ain bs dec,
    0 < bs <= n -> blevel fp fuel delta junk J n d B0 Ain bs dec <> UB.
Proof. intros. eapply safe_no_UB. apply (blevel_safe fp (fun x _ => x) (fun _ _ _ => J) fuel delta junk 0%Z); assumption. Qed.

(** lehmer_lll, for every shift (zero and negative included) *)
Theorem C88_lehmer :
  forall (F : Type) (fp : fpops F) J junk d99 fuel fh A delta lshift truncate,
    dwf A -> 0 < dc A <= dr A -> lehmer_lll fp J junk d99 fuel fh A delta lshift truncate <> UB.
Proof. intros. eapply safe_no_UB. now apply lehmer_lll_safe. Qed.

(** l1, whatever the exponents computed in double for the truncation *)
Theorem C88_l1 :
  forall (F : Type) (fp : fpops F) J junk d99 e10 e10' fuel fh leafbits A, expo_nonneg fp ->
    dwf A -> 0 < dc A <= dr A -> l1 fp J junk d99 e10 e10' fuel fh leafbits A <> UB.
Proof. intros. eapply safe_no_UB. now apply l1_safe. Qed.

(** the external fplll: it returns, when it returns, a matrix of these dimensions *)
Definition ext_dims (ext : dmat -> res dmat) (r c r' c' : nat) : Prop :=
  forall T, dr T = r -> dc T = c -> ext T <> UB /\ forall T', ext T = Ok T' -> dr T' = r' /\ dc T' = c'.
Lemma ext_dims_safe ext r c r' c' T : ext_dims ext r c r' c' -> dr T = r -> dc T = c -> safe (fun U => dr U = r' /\ dc U = c') (ext T).
Proof. intros H T1 T2. destruct (H T T1 T2) as [N D]. destruct (ext T) as [T'| |]; cbn [safe]; auto. Qed.

(** nullspace_lll of a d x n matrix, n > 0: d <= n is not needed *)
Theorem C88_nullspace_lll :
  forall (F : Type) (fp : fpops F) J junk delta1 delta2 e10 e10' ext fuel fh A lalpha lsigma m, expo_nonneg fp ->
    dwf A -> 0 < dc A -> (0 <= lalpha)%Z ->
    (m = FPLLL -> ext_dims ext (dc A) (dr A + dc A) (dc A) (dr A + dc A)) ->
    nullspace_lll fp J junk delta1 delta2 e10 e10' ext fuel fh A lalpha lsigma m <> UB.
Proof.
  intros F fp J junk delta1 delta2 e10 e10' ext fuel fh A lalpha lsigma m EX WA Hn Hl HE.
  eapply safe_no_UB. apply nullspace_lll_safe; auto. intros Em T T1 T2. rewrite T1, T2. now apply (ext_dims_safe ext _ _ _ _ T (HE Em)).
Qed.

(** relation_lll and FPTuple::lll *)
Theorem C88_relation_lll :
  forall (F Q : Type) (fp : fpops F) (fq : fpops Q) J junk delta ext fuel fh lm A alpha shift truncate inputgap sm q0 confidence,
    0 < dr A -> 0 < dc A ->
    (lm = RFPLLL -> ext_dims ext (dc A) (dr A + dc A) (dc A) (dc A)) ->
    relation_lll fp fq J junk delta ext fuel fh lm A alpha shift truncate inputgap sm q0 confidence <> UB.
Proof.
  intros F Q fp fq J junk delta ext fuel fh lm A alpha shift truncate inputgap sm q0 confidence Hm Hd HE.
  eapply safe_no_UB. apply relation_lll_safe; auto. intros Em T T1 T2. now apply (ext_dims_safe ext _ _ _ _ T (HE Em)).
Qed.
Theorem C88_fptuple_lll :
  forall (F : Type) (fp : fpops F) J junk delta fh L,
    dr L = 1 -> 0 < dc L -> dwf L -> fptuple_lll fp J junk delta fh L <> UB.
Proof. intros. eapply safe_no_UB. now apply (fptuple_lll_safe fp J junk delta Ok). Qed.

(** fewer rows than columns: the wrapper reads past the end of a column *)
Theorem C88_wide_refuted :
  exists n d A, n < d /\ hlll_mpz dbl dbl dW dW 6 d99 0%float d99 0%float 2 3 n d A = UB.
Proof. exists 1, 2, [[1];[5]]%Z. split; [lia|]. vm_compute. reflexivity. Qed.

(** the hypotheses are met by the cases of C18 (relation_lll), C19 (nullspace_lll), C21 (lehmer_lll), C22 (l1), C27
    (wrappers), C29 (blevel) and C47 (lll); all of them end with a result *)
Lemma N1_dwf : dwf N1.
Proof. split; [reflexivity|]. cbn [de N1]. repeat constructor. Qed.
Lemma R1_dwf : dwf R1.
Proof. split; [reflexivity|]. cbn [de R1]. repeat constructor. Qed.
Lemma K5_dwf : dwf K5.
Proof. split; [reflexivity|]. cbn [de K5]. repeat constructor. Qed.
Example C88_case :
  (match hlll_mpz dbl dbl dW dW 60 d99 0%float d99 0%float 2 3 5 4 AS with Ok C => C <> AS | _ => False end) /\
  (match blevel dbl 60 d99 0%float Jz 5 4 [] AS 2 0 with Ok B => B <> AS | _ => False end) /\
  (dwf K4 /\ 0 < dc K4 <= dr K4) /\ (exists C cts, lehmer_lll dbl Jz 0%float d99 5 200 K4 d99 3 false = Ok (C, cts) /\ length cts = 3) /\
  (dwf K5 /\ 0 < dc K5 <= dr K5) /\
  (dwf N1 /\ 0 < dc N1) /\ (dr R1 = 1 /\ 0 < dc R1 /\ dwf R1) /\
  ext_dims (fun T => Ok T) 3 4 3 4.
Proof.
  split; [vm_compute; discriminate|]. split; [vm_compute; discriminate|].
  split; [split; [exact K4_dwf|split; apply Nat.leb_le; reflexivity]|].
  split; [do 2 eexists; split; [vm_compute; reflexivity|reflexivity]|].
  split; [split; [exact K5_dwf|split; apply Nat.leb_le; reflexivity]|].
  split; [split; [exact N1_dwf|apply Nat.leb_le; reflexivity]|].
  split; [split; [reflexivity|split; [apply Nat.leb_le; reflexivity|exact R1_dwf]]|].
  intros T T1 T2. split; [discriminate|]. intros T' [= <-]. split; assumption.
Qed.

Print Assumptions C88_hlll_wrappers.
Print Assumptions C88_slll_wrap.
Print Assumptions C88_slll_wrapper.
Print Assumptions C88_blevel.
Print Assumptions C88_lehmer.
Print Assumptions C88_l1.
Print Assumptions C88_nullspace_lll.
Print Assumptions C88_relation_lll.
Print Assumptions C88_fptuple_lll.
Print Assumptions C88_wide_refuted.
