(** * nullspace_fp_hjls: C95

    [nullspace_fp_hjls ... AZ = Ok (v, (p, C))]: the call returns v, prints "nbrel p" and has put one vector in C. *)
From Coq Require Import ZArith Lia List Bool Arith Reals Lra Floats.
From Verif Require Import Base Spec SpecReal Mat FP Hlll HlllInt LinDep Structure MatOps ZFgas Fgas FgasInt FgasExact NullHjls Hjls Restart NullFp
  Double Examples PropKernel PropFgas PropRestart.
Import ListNotations.
Local Open Scope nat_scope.

(** for any arithmetic: 0 is returned, C is n x 1, and 1 or -1 is printed *)
Theorem C95_return :
  forall F T (fq : fpops T) (rq : rtops T T) (fp : fpops F) (rf : rtops F F) conv gapF epsG epsF ubF
         fuel fh gamma JG JF jB AZ v p C,
    nullspace_fp_hjls fq rq fp rf conv gapF epsG epsF ubF fuel fh gamma JG JF jB AZ = Ok (v, (p, C)) ->
    v = 0%Z /\ 1 <= dc AZ /\ wfm (dc AZ) 1 C /\ (p = 1%Z \/ p = (-1)%Z).
Proof.
  intros F T fq rq fp rf conv gapF epsG epsF ubF fuel fh gamma JG JF jB AZ v p C H. unfold nullspace_fp_hjls in H. binv H.
  destruct a as [q D]. injection H as <- <- <-. apply restarting_return in Ha as (N1 & W & Q). cbv zeta in Q.
  split; [reflexivity|]. split; [exact N1|]. split; [exact W|]. destruct Q as [[-> _]|[-> _]]; auto.
Qed.

(** the value printed, with exact arithmetic in RT: it is 1 exactly when every entry of AZ C is at most epsilon times
    the largest entry of AZ in absolute value *)
Theorem C95_printed :
  forall F (fq : fpops R) (rq : rtops R R) (fp : fpops F) (rf : rtops F F) conv gapF epsilon epsF ubF,
  rt_exact rq -> (forall a b, tdiv rq a b = a / b)%R ->
  forall fuel fh gamma JG JF jB AZ v p C,
    nullspace_fp_hjls fq rq fp rf conv gapF epsilon epsF ubF fuel fh gamma JG JF jB AZ = Ok (v, (p, C)) ->
  forall M, (0 < M)%Z ->
    (forall i j, i < dr AZ -> j < dc AZ -> (Z.abs (ent AZ i j) <= M)%Z) ->
    (exists i j, i < dr AZ /\ j < dc AZ /\ Z.abs (ent AZ i j) = M) ->
    (p = 1%Z <-> forall i, i < dr AZ -> (IZR (Z.abs (sumZ (dc AZ) (fun k => ent AZ i k * fn C k 0%nat)%Z)) <= epsilon * IZR M)%R).
Proof.
  intros F fq rq fp rf conv gapF epsilon epsF ubF X DV fuel fh gamma JG JF jB AZ v p C H M MP MA (i0 & j0 & Hi0 & Hj0 & ME).
  unfold nullspace_fp_hjls in H. binv H. destruct a as [q D]. injection H as <- <- <-.
  assert (EM : nf_max rq AZ = IZR M).
  { destruct (nf_max_spec rq X AZ) as (_ & Q2 & Q3). apply Rle_antisym.
    - destruct Q3 as [->|(i & j & Hi & Hj & ->)]; [apply IZR_le; lia|]. rewrite <- abs_IZR. apply IZR_le. auto.
    - rewrite <- ME, abs_IZR. auto. }
  assert (PR : forall i, i < dr AZ ->
    ((Rabs (sumR (dc AZ) (fun k => mget 0 (nf_input rq AZ) i k * IZR (fn D k 0%nat))) <= epsilon)%R <->
     (IZR (Z.abs (sumZ (dc AZ) (fun k => ent AZ i k * fn D k 0%nat)%Z)) <= epsilon * IZR M)%R)).
  { intros i Hi. rewrite (nf_prod rq X DV AZ (fun k => fn D k 0) i Hi), EM. apply IZR_lt in MP.
    unfold Rdiv. rewrite Rabs_mult, Rabs_inv, <- abs_IZR, (Rabs_pos_eq (IZR M)) by lra.
    set (s := IZR (Z.abs _)). split; intros L.
    - apply (Rmult_le_compat_r (IZR M)) in L; [|lra]. rewrite Rmult_assoc, Rinv_l, Rmult_1_r in L by lra. exact L.
    - apply (Rmult_le_reg_r (IZR M)); [lra|]. rewrite Rmult_assoc, Rinv_l, Rmult_1_r by lra. exact L. }
  pose proof Ha as H2. apply C83_return in H2; [|exact X]. destruct H2 as (_ & Q & E). split.
  - intros ->. destruct E as [E _]. destruct (E ltac:(discriminate)) as (j & Hj & Rj & _).
    assert (j = 0) as -> by lia. intros i Hi. apply PR; [exact Hi|]. now apply Rj.
  - intros L. destruct Q as [Q|Q]; [exact Q|]. exfalso. destruct E as [_ E]. apply E; [|exact Q].
    exists 0. split; [lia|]. split; [intros i Hi; apply PR; auto|]. intros k Hk _. lia.
Qed.

(** so when epsilon max|AZ| < 1 the printed value, and only it, tells whether C is in the kernel *)
Theorem C95_kernel :
  forall F (fq : fpops R) (rq : rtops R R) (fp : fpops F) (rf : rtops F F) conv gapF epsilon epsF ubF,
  rt_exact rq -> (forall a b, tdiv rq a b = a / b)%R -> (0 <= epsilon)%R ->
  forall fuel fh gamma JG JF jB AZ v p C,
    nullspace_fp_hjls fq rq fp rf conv gapF epsilon epsF ubF fuel fh gamma JG JF jB AZ = Ok (v, (p, C)) ->
    (exists i j, i < dr AZ /\ j < dc AZ /\ ent AZ i j <> 0%Z) ->
    (forall i j, i < dr AZ -> j < dc AZ -> (epsilon * IZR (Z.abs (ent AZ i j)) < 1)%R) ->
    (p = 1%Z <-> forall i, i < dr AZ -> sumZ (dc AZ) (fun k => ent AZ i k * fn C k 0%nat)%Z = 0%Z).
Proof.
  intros F fq rq fp rf conv gapF epsilon epsF ubF X DV E0 fuel fh gamma JG JF jB AZ v p C H (i1 & j1 & Hi1 & Hj1 & NZ) S.
  destruct (nf_max_spec rq X AZ) as (_ & Q2 & Q3).
  pose proof (nf_max_pos rq X AZ i1 j1 Hi1 Hj1 NZ) as MP. destruct Q3 as [Q3|(i & j & Hi & Hj & Q3)]; [lra|].
  rewrite Q3, <- abs_IZR in MP. pose proof (lt_IZR 0 _ MP) as MP'.
  assert (MA : forall a b, a < dr AZ -> b < dc AZ -> (Z.abs (ent AZ a b) <= Z.abs (ent AZ i j))%Z).
  { intros a b Ha Hb. apply le_IZR. rewrite !abs_IZR, <- Q3. auto. }
  rewrite (C95_printed F fq rq fp rf conv gapF epsilon epsF ubF X DV _ _ _ _ _ _ _ _ _ _ H _ MP' MA)
    by (exists i, j; auto). specialize (S i j Hi Hj). split; intros L a Ha; specialize (L a Ha).
  - assert (Q : (IZR (Z.abs (sumZ (dc AZ) (fun k => ent AZ a k * fn C k 0%nat)%Z)) < 1)%R) by lra. apply lt_IZR in Q. lia.
  - rewrite L. cbn [Z.abs]. change (IZR 0) with 0%R. apply Rmult_le_pos; [exact E0|]. lra.
Qed.

(** when one round is enough, in any arithmetic: C is a column of a unimodular matrix, whatever is printed *)
Theorem C95_first_round :
  forall F T (fq : fpops T) (rq : rtops T T) (fp : fpops F) (rf : rtops F F) conv gapF epsG epsF ubF
         fh gamma JG JF jB AZ v p C, 0 < dr AZ ->
    nullspace_fp_hjls fq rq fp rf conv gapF epsG epsF ubF 1 fh gamma JG JF jB AZ = Ok (v, (p, C)) ->
    exists M, unimodular (dc AZ) M /\ forall i, i < dc AZ -> fn C i 0 = M i (dc AZ - 1).
Proof.
  intros F T fq rq fp rf conv gapF epsG epsF ubF fh gamma JG JF jB AZ v p C D0 H.
  destruct (C95_return _ _ _ _ _ _ _ _ _ _ _ _ _ _ _ _ _ _ _ _ _ H) as (_ & N1 & _). unfold nullspace_fp_hjls in H. binv H.
  destruct a as [q D]. injection H as <- <- <-. apply C83_first_round in Ha; [|exact D0|lia]. destruct Ha as (M & U & E).
  exists M. split; [exact U|]. intros i Hi. rewrite (E i 0 Hi ltac:(lia)). f_equal. lia.
Qed.

(** *** doubles, setprec = 240, at most 5 rounds *)
Definition nf (rows : list (list Z)) : res (Z * (Z * mat Z)) :=
  let n := match rows with r :: _ => length r | [] => 0 end in
  nullspace_fp_hjls dbl rtd dbl rtd (fun x => x) gapd 0x1p-36%float 0x1p-37%float 49 5 300 g11 Jz Jz (fun _ _ => 0%float)
    (mkD (length rows) n (mtab (length rows) n (fun i j => nth j (nth i rows []) 0%Z))).

Example C95_case : nf [[6;10;14]]%Z = Ok (0%Z, (1%Z, [[-1;2;-1]]%Z)).
Proof. vm_compute. reflexivity. Qed.

(** the returned 0 does not say that C is in the kernel, nor does the order of the tests: here e_3 is in the kernel and
    a vector that is not is left in C *)
Theorem C95_return_refuted :
  exists a c, nf [a] = Ok (0%Z, ((-1)%Z, [c])) /\ zdot a c <> 0%Z /\
    exists b e, nf [b] = Ok (0%Z, (1%Z, [e])) /\ zdot b e = 0%Z.
Proof.
  exists [12;7;0;0]%Z, [1;-2;0;0]%Z. split; [vm_compute; reflexivity|]. split; [vm_compute; discriminate|].
  exists [6;10;14]%Z, [-1;2;-1]%Z. split; [vm_compute; reflexivity|]. vm_compute. reflexivity.
Qed.

Print Assumptions C95_return.
Print Assumptions C95_printed.
Print Assumptions C95_kernel.
Print Assumptions C95_first_round.
Print Assumptions C95_return_refuted.
