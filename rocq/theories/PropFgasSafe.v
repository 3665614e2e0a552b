(** * C86: memory safety of the decompositions and of the drivers built on them *)
From Coq Require Import ZArith Lia List Bool Arith Floats.
From Verif Require Import Base Spec Mat FP Hlll LinDep Structure MatOps ZFgas Fgas Nullspace NullHjls Hjls Restart Safety FgasSafe ZFgasSafe FgasSafe2
  Double Examples PropKernel PropFgas PropRestart.
Import ListNotations.
Local Open Scope nat_scope.

(** Every model access outside a vector or matrix is the outcome [UB].  For matrices with fewer rows than columns none
    happens, whatever the floating-point types do (rounding errors, NaNs, uninitialised memory) and however long the
    loops run. *)

(** the integer decomposition, on a new object *)
Theorem C86_zfgas :
  forall (F : Type) (fp : fpops F) d n dec transf gap fuel gamma target junk J A,
  dec < d < n -> (target <= Z.of_nat d)%Z ->
  decomp fp d n dec transf gap fuel gamma target junk (new_zfg d n transf J A) <> UB.
Proof.
  intros F fp d n dec transf gap fuel gamma target junk J A Hd Ht. eapply safe_no_UB. apply decomp_safe; try lia; [apply new_zfg_wf|cbn; lia].
Qed.

(** the real decomposition: any size reductions of existing columns, then decomp *)
Theorem C86_fgas :
  forall (F T : Type) (fp : fpops F) (rt : rtops F T) d n dec transf gap epsilon ubound fuel ops J A r gamma target targetsize,
  dec < d < n -> (dec = 0 \/ n = d + dec) -> (target <= Z.of_nat (d - dec))%Z ->
  (forall o, In o ops -> match o with Gred k | Ghh k => k < n | Gdecomp _ _ _ => False end) ->
  gcalls fp rt d n dec transf gap epsilon ubound fuel (ops ++ [Gdecomp gamma target targetsize]) (new_fgas rt d n dec transf J A r) <> UB.
Proof. intros. eapply safe_no_UB. apply fgas_calls_safe; assumption. Qed.

(** the kernels of a d x n matrix, 0 < d < n *)
Theorem C86_nullspace :
  forall (A : dmat), dwf A -> 0 < dr A < dc A ->
  (forall (F : Type) (fp : fpops F) J junk gap gamma fuel,
     nullspace_direct fp J junk gap gamma fuel A <> UB /\ nullspace_hjls fp J junk gap gamma fuel A <> UB) /\
  (forall (F Q : Type) (fp : fpops F) (rt : rtops F Q) (fq : fpops Q) (rq : rtops Q Q) J JQ jB gap epsilon ubound gamma fuel,
     nullspace_indirect fp rt fq rq J JQ jB gap epsilon ubound gamma fuel A <> UB).
Proof.
  intros A WA Hn. split.
  - intros. split; eapply safe_no_UB; [now apply nullspace_direct_safe|now apply nullspace_hjls_safe].
  - intros. eapply safe_no_UB. now apply nullspace_indirect_safe.
Qed.

(** at most n - d relations of d vectors of n numbers *)
Theorem C86_hjls :
  forall d n nbrel, 0 < d < n -> nbrel <= n - d ->
  (forall (F T : Type) (fp : fpops F) (rt : rtops F T) gap epsilon ubound fuel gamma J jB A,
     relations_hjls fp rt d n nbrel gap epsilon ubound fuel gamma J jB A <> UB) /\
  (forall (F T : Type) (fq : fpops T) (rq : rtops T T) (fp : fpops F) (rf : rtops F F) conv gapF epsG epsF ubF fuel fh gamma JG JF jB A,
     restarting_hjls fq rq fp rf conv d n nbrel gapF epsG epsF ubF fuel fh gamma JG JF jB A <> UB).
Proof.
  intros d n nbrel Hn Hr. split; intros; eapply safe_no_UB; [now apply relations_hjls_safe|now apply restarting_hjls_safe].
Qed.

(** the condition d < n is needed: on square matrices the three kernel functions access memory out of range (a
    nonsingular matrix has an empty kernel, which they do not return) *)
Definition S1 : dmat := mkD 1 1 [[3%Z]].
Definition S2 : dmat := mkD 2 2 [[3;1];[1;2]]%Z.
Theorem C86_square_refuted :
  (dwf S1 /\ nullspace_direct dbl Jz 0%float 0x1p-30%float g11 60 S1 = UB) /\
  (dwf S2 /\ nullspace_direct dbl Jz 0%float 0x1p-30%float g11 60 S2 = UB /\
   nullspace_hjls dbl Jz 0%float 0x1p-20%float g11 60 S2 = UB /\
   nullspace_indirect dbl rtd dbl rtd Jz Jz (fun _ _ => 0%float) gapd 0x1p-40%float 50 g11 60 S2 = UB).
Proof.
  assert (W1 : dwf S1) by (unfold dwf, wfm; split; [reflexivity|repeat constructor]).
  assert (W2 : dwf S2) by (unfold dwf, wfm; split; [reflexivity|repeat constructor]).
  split; (split; [assumption|]); [vm_compute; reflexivity|]. split; [vm_compute; reflexivity|]. split; vm_compute; reflexivity.
Qed.

(** a second call of decomp on an object that has already isolated its whole lattice reads out of range *)
Theorem C86_again_refuted :
  exists A g, gcalls dbl rtd 1 2 0 true gapd 0%float 1000 60 [Gdecomp g 1 1000] (new_fgas rtd 1 2 0 true Jz A []) <> UB /\
    gcalls dbl rtd 1 2 0 true gapd 0%float 1000 60 [Gdecomp g 1 1000; Gdecomp g 1 1000] (new_fgas rtd 1 2 0 true Jz A []) = UB.
Proof. exists [[3]; [5]]%float, g11. split; [vm_compute; discriminate|vm_compute; reflexivity]. Qed.

(** nor does the real decomposition of a square matrix: with n = 1 the bound on the entries of U reads its second row,
    whatever the bound is *)
Theorem C86_fgas_square_refuted :
  gcalls dbl rtd 1 1 0 true gapd 0%float 0%Z 60 [Gdecomp g11 1%Z 1000%Z] (new_fgas rtd 1 1 0 true Jz [[3%float]] []) = UB /\
  gcalls dbl rtd 1 1 0 false gapd 0%float 0%Z 60 [Gdecomp g11 1%Z 0%Z] (new_fgas rtd 1 1 0 false Jz [[3%float]] []) <> UB.
Proof. split; [vm_compute; reflexivity|vm_compute; discriminate]. Qed.

(** the hypotheses are met by the runs of C45, C46, C82, C55 and C83, which return kernels and relations *)
Example C86_case : dwf N1 /\ 0 < dr N1 < dc N1 /\
  nullspace_direct dbl Jz 0%float 0x1p-30%float g11 40 N1 <> NoFuel /\ nullspace_hjls dbl Jz 0%float 0x1p-20%float g11 60 N1 <> NoFuel.
Proof.
  split; [unfold dwf, wfm; split; [reflexivity|repeat constructor]|]. split; [cbn; lia|]. split; [rewrite C45_case|rewrite C46_case]; discriminate.
Qed.

Print Assumptions C86_zfgas.
Print Assumptions C86_fgas.
Print Assumptions C86_nullspace.
Print Assumptions C86_hjls.
Print Assumptions C86_square_refuted.
Print Assumptions C86_again_refuted.
Print Assumptions C86_fgas_square_refuted.
