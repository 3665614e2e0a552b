(** * C94: nullspace_lll with a unique shift: a large enough shift gives the kernel, and a short reduced basis of it *)
From Coq Require Import ZArith Lia List Bool Arith Reals Lra Floats.
From Verif Require Import Base Spec Mat FP Hlll MatOps MatOpsFacts KernelLA Nullspace SpecReal ShortVec ShortMinima Exact NullExact PropExact
  Double Examples PropKernel.
Import ListNotations.
Local Open Scope R_scope.

(** A is d x n, the columns of X are n - d (or more) independent integer vectors of its kernel, of squared length M at most.
    When M is below (delta - 1/4)^(n-1) 4^lalpha, the answer is not -1, and the first columns of C are a reduced basis
    whose vectors are as short as those of X up to (delta - 1/4)^(1-n) *)
Theorem C94_shift_bound :
  forall fp, exact fp ->
  forall J junk delta delta2 e10 e10' ext fuel fh A lalpha r oC, dwf A -> (2 <= dc A)%nat -> (0 <= lalpha)%Z ->
  / 4 < delta <= 1 -> (Z.of_nat fh < 4294967295)%Z ->
  nullspace_lll fp J junk delta delta2 e10 e10' ext fuel fh A lalpha 0 HLLL = Ok (r, oC) ->
  let n := dc A in let d := dr A in
  forall k (X : zmat) M, independent n k X -> (n <= k + d)%nat ->
  (forall i t, (i < d)%nat -> (t < k)%nat -> sumZ n (fun j => ent A i j * X j t)%Z = 0%Z) ->
  (forall t, (t < k)%nat -> IZR (norm2 n (fun i => X i t)) <= M) ->
  M < (delta - / 4) ^ (n - 1) * IZR (4 ^ lalpha) ->
  exists p C, r = Z.of_nat p /\ oC = Some C /\ dr C = n /\ dc C = p /\ (k <= p <= n)%nat /\
    (forall i j, (i < d)%nat -> (j < p)%nat -> sumZ n (fun l => ent A i l * ent C l j)%Z = 0%Z) /\
    LLL_reduced n k delta (ent C) /\
    forall j, (j < k)%nat -> (delta - / 4) ^ (n - 1) * IZR (norm2 n (fun i => ent C i j)) <= M.
Proof.
  intros fp EX J junk delta delta2 e10 e10' ext fuel fh A lalpha r oC WA Hn Hl HD HF HR n d k X M IX Hk KX MX HM.
  destruct (null_short fp EX J junk delta delta2 e10 e10' ext fuel fh A lalpha r oC WA Hn Hl HD HF HR k X M IX KX MX Hk HM)
    as (p & C & E1 & E2 & E3 & E4 & E5 & E6 & E7).
  exists p, C. do 5 (split; [assumption|]). split; [|split; assumption].
  destruct (nullspace_lll_spec fp (e_expo fp EX) J junk delta delta2 e10 e10' ext fuel fh A lalpha 0 HLLL r oC WA ltac:(lia) Hl ltac:(discriminate) HR)
    as [(R0 & _)|(k' & C' & Q1 & Q2 & Q3 & Q4 & Q5 & (Q6 & _) & _)]; [exfalso; lia|].
  rewrite E2 in Q2. injection Q2 as <-. replace p with k' by congruence. exact Q6.
Qed.

(** rows of A independent: the kernel has rank n - d, the answer is n - d, and C is a reduced basis of it *)
Theorem C94_kernel :
  forall fp, exact fp ->
  forall J junk delta delta2 e10 e10' ext fuel fh A lalpha r oC, dwf A -> (2 <= dc A)%nat -> (0 <= lalpha)%Z ->
  / 4 < delta <= 1 -> (Z.of_nat fh < 4294967295)%Z ->
  nullspace_lll fp J junk delta delta2 e10 e10' ext fuel fh A lalpha 0 HLLL = Ok (r, oC) ->
  let n := dc A in let d := dr A in
  independent n d (mtr (ent A)) ->
  forall (X : zmat) M, independent n (n - d) X -> (d <= n)%nat ->
  (forall i t, (i < d)%nat -> (t < n - d)%nat -> sumZ n (fun j => ent A i j * X j t)%Z = 0%Z) ->
  (forall t, (t < n - d)%nat -> IZR (norm2 n (fun i => X i t)) <= M) ->
  M < (delta - / 4) ^ (n - 1) * IZR (4 ^ lalpha) ->
  exists C, r = Z.of_nat (n - d) /\ oC = Some C /\ dr C = n /\ dc C = (n - d)%nat /\
    (forall i j, (i < d)%nat -> (j < n - d)%nat -> sumZ n (fun l => ent A i l * ent C l j)%Z = 0%Z) /\
    generates_kernel d n (n - d) (ent A) (ent C) /\
    LLL_reduced n (n - d) delta (ent C) /\
    forall j, (j < n - d)%nat -> (delta - / 4) ^ (n - 1) * IZR (norm2 n (fun i => ent C i j)) <= M.
Proof.
  intros fp EX J junk delta delta2 e10 e10' ext fuel fh A lalpha r oC WA Hn Hl HD HF HR n d RI X M IX Hd KX MX HM.
  destruct (C94_shift_bound fp EX J junk delta delta2 e10 e10' ext fuel fh A lalpha r oC WA Hn Hl HD HF HR (n - d)%nat X M IX ltac:(fold n d; lia) KX MX HM)
    as (p & C & E1 & E2 & E3 & E4 & E5 & E6 & E7 & E8).
  destruct (nullspace_lll_spec fp (e_expo fp EX) J junk delta delta2 e10 e10' ext fuel fh A lalpha 0 HLLL r oC WA ltac:(lia) Hl ltac:(discriminate) HR)
    as [(R0 & _)|(k' & C' & Q1 & Q2 & Q3 & Q4 & Q5 & _ & Q7)]; [exfalso; lia|].
  rewrite E2 in Q2. injection Q2 as <-. destruct (Q7 RI) as (G1 & G2). fold n d in G1, G2.
  assert (EP : p = (n - d)%nat) by lia. assert (EK : k' = (n - d)%nat) by lia. rewrite EP in *. rewrite EK in G2. exists C. do 4 (split; [assumption|]). split; [exact E6|]. split; [exact G2|]. split; [exact E7|exact E8].
Qed.

(** the run ends, whatever A *)
Theorem C94_ends :
  forall fp, exact fp -> (forall x, Rabs x <= / 2 -> frnd fp x = 0) ->
  forall J junk delta delta2 e10 e10' ext fuel A lalpha, dwf A -> (0 < dc A)%nat -> (0 <= lalpha)%Z -> delta <= 1 ->
  exists fuel0, forall fh, (fuel0 <= fh)%nat -> exists r oC,
    nullspace_lll fp J junk delta delta2 e10 e10' ext fuel fh A lalpha 0 HLLL = Ok (r, oC).
Proof. intros. now apply null_ends. Qed.

(** in terms of the entries of A: M bounds the squared lengths of the columns of [2^lalpha A; I] *)
Theorem C94_ends_length :
  forall fp, exact fp -> (forall x, Rabs x <= / 2 -> frnd fp x = 0) ->
  forall J junk delta delta2 e10 e10' ext fuel fh A lalpha M K, dwf A -> (0 < dc A)%nat -> (0 <= lalpha)%Z -> 0 < delta <= 1 ->
  (forall j, (j < dc A)%nat -> IZR (4 ^ lalpha * norm2 (dr A) (fun i => ent A i j) + 1) <= M) ->
  delta ^ K * M ^ (dc A * (dc A + 1) / 2) < 1 -> (2 * K + dc A + 1 <= fh)%nat ->
  exists r oC, nullspace_lll fp J junk delta delta2 e10 e10' ext fuel fh A lalpha 0 HLLL = Ok (r, oC).
Proof. intros fp X HH J junk delta delta2 e10 e10' ext fuel fh A lalpha M K WA Hn Hl HD HM HK HF. now apply (null_ends_length fp X J junk delta delta2 e10 e10' ext fuel fh A lalpha M K). Qed.

(** N1 = [3 5 7 2; 1 -2 4 9] and the kernel vectors (1,-5,4,-3), (11,0,-5,1): lalpha = 5 is enough *)
Definition N1ker : zmat := fun i t => nth i (nth t [[1;-5;4;-3];[11;0;-5;1]] [])%Z 0%Z.
Lemma N1ker_indep : independent 4 2 N1ker.
Proof.
  intros c H j Hj. pose proof (H 0%nat ltac:(lia)) as H0. pose proof (H 1%nat ltac:(lia)) as H1.
  cbv [sumZ N1ker nth] in H0, H1. destruct j as [|[|j]]; lia.
Qed.
Example C94_case : exact Rfp0 /\ dwf N1 /\ independent 4 2 (mtr (ent N1)) /\ independent 4 2 N1ker /\
  (forall i t, (i < 2)%nat -> (t < 2)%nat -> sumZ 4 (fun j => ent N1 i j * N1ker j t)%Z = 0%Z) /\
  (forall t, (t < 2)%nat -> IZR (norm2 4 (fun i => N1ker i t)) <= 147) /\
  147 < (99 / 100 - / 4) ^ 3 * IZR (4 ^ 5) /\
  exists fh C, (Z.of_nat fh < 4294967295)%Z /\
    nullspace_lll Rfp0 JR 0 (99 / 100) (99 / 100) (fun _ => 0%Z) (fun _ _ => 0%Z) no_ext 0 fh N1 5 0 HLLL = Ok (2%Z, Some C) /\
    LLL_reduced 4 2 (99 / 100) (ent C) /\ generates_kernel 2 4 2 (ent N1) (ent C).
Proof.
  split; [exact Rfp0_exact|]. assert (W : dwf N1) by (split; [reflexivity|repeat constructor]). split; [exact W|]. split; [apply N1_rows|].
  split; [apply N1ker_indep|].
  assert (K : forall i t, (i < 2)%nat -> (t < 2)%nat -> sumZ 4 (fun j => ent N1 i j * N1ker j t)%Z = 0%Z).
  { intros i t Hi Ht. destruct i as [|[|i]]; [| |lia]; (destruct t as [|[|t]]; [| |lia]); reflexivity. }
  split; [exact K|].
  assert (B : forall t, (t < 2)%nat -> IZR (norm2 4 (fun i => N1ker i t)) <= 147).
  { intros t Ht. apply IZR_le. destruct t as [|[|t]]; [| |lia]; vm_compute; discriminate. }
  split; [exact B|]. assert (M : 147 < (99 / 100 - / 4) ^ 3 * IZR (4 ^ 5)) by (replace (4 ^ 5)%Z with 1024%Z by reflexivity; cbn [pow]; lra). split; [exact M|].
  assert (ML : forall j, (j < dc N1)%nat -> IZR (4 ^ 5 * norm2 (dr N1) (fun i => ent N1 i j) + 1) <= 2 ^ 20).
  { intros j Hj. rewrite pow_IZR. apply IZR_le. cbn [N1 dc] in Hj. destruct j as [|[|[|[|j]]]]; [| | | |lia]; vm_compute; discriminate. }
  set (k := (69 * 201)%nat). set (fh := Z.to_nat 40000).
  assert (KB : (99 / 100) ^ k * (2 ^ 20) ^ (dc N1 * (dc N1 + 1) / 2) < 1).
  { change (dc N1 * (dc N1 + 1) / 2)%nat with 10%nat. rewrite <- pow_mult. change (20 * 10)%nat with 200%nat.
    pose proof (pow99 201) as P. fold k in P. replace (2 ^ 201) with (2 * 2 ^ 200) in P by reflexivity.
    assert (0 < (99 / 100) ^ k) by (apply pow_lt; lra). assert (0 < 2 ^ 200) by (apply pow_lt; lra). nra. }
  destruct (C94_ends_length Rfp0 Rfp0_exact Rfp0_half JR 0 (99 / 100) (99 / 100) (fun _ => 0%Z) (fun _ _ => 0%Z) no_ext 0%nat fh N1 5 (2 ^ 20) k W
    ltac:(cbn; lia) ltac:(lia) ltac:(lra) ML KB) as (r & oC & HR). { cbn [N1 dc]. unfold k, fh. lia. }
  destruct (C94_kernel Rfp0 Rfp0_exact JR 0 (99 / 100) (99 / 100) (fun _ => 0%Z) (fun _ _ => 0%Z) no_ext 0%nat fh N1 5 r oC W ltac:(cbn; lia) ltac:(lia)
    ltac:(lra) ltac:(unfold fh; lia) HR N1_rows N1ker 147 N1ker_indep ltac:(cbn; lia) K B M) as (C & -> & -> & _ & _ & _ & G & RD & _).
  exists fh, C. split; [unfold fh; lia|]. split; [exact HR|]. split; [exact RD|exact G].
Qed.

(** with no shift at all hlll keeps vectors that are not in the kernel, and the answer is -1 (double precision) *)
Example C94_small_shift :
  nullspace_lll dbl Jz 0%float d99 d99 (fun _ => 0%Z) (fun _ _ => 0%Z) no_ext 20 200 N1 0 0 HLLL = Ok ((-1)%Z, None).
Proof. vm_compute. reflexivity. Qed.

Print Assumptions C94_shift_bound.
Print Assumptions C94_kernel.
Print Assumptions C94_ends.
Print Assumptions C94_ends_length.
