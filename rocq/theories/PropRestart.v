(** * restarting_hjls: C83

    [restarting_hjls ... fuel fh ...]: at most [fuel] rounds of the main loop (Restart.v). *)
From Coq Require Import ZArith Lia List Bool Arith Reals Lra Floats.
From Verif Require Import Base Spec SpecReal Mat FP Hlll LinDep Structure ZFgas Fgas FgasInt FgasExact NullHjls Hjls Restart
  Double Examples PropKernel PropFgas.
Import ListNotations.
Local Open Scope nat_scope.

Lemma hj_prod_exact {F} (rt : rtops F R) n A C i j : rt_exact rt -> 1 <= n ->
  hj_prod rt n A C i j = sumR n (fun k => mget 0 A i k * IZR (fn C k j))%R.
Proof.
  intros X Hn. unfold hj_prod. destruct X as [x0 _ _ xm xam _ _ _ xz0]. rewrite x0.
  assert (Q : forall m a, fold_left (fun acc k => taddmul rt acc (mget 0%R A i k) (tofz rt (fn C k j))) (seq 1 m) a
               = (a + sumR m (fun k => mget 0 A i (S k) * IZR (fn C (S k) j)))%R).
  { induction m as [|m IH]; intros a; [cbn; lra|]. rewrite seq_S, fold_left_app, IH. cbn [fold_left sumR].
    rewrite xam, xz0. cbn [Nat.add]. lra. }
  rewrite Q, xm, xz0. replace n with (1 + (n - 1)) at 2 by lia. rewrite sumR_split. cbn [sumR Nat.add]. lra.
Qed.

Lemma filter_one {A} (f : A -> bool) l : length (filter f l) = 1 ->
  exists x, In x l /\ f x = true /\ forall y, In y l -> f y = true -> y = x.
Proof.
  intros H. destruct (filter f l) as [|x [|y t]] eqn:E; try discriminate.
  assert (I : forall y, In y (filter f l) <-> y = x) by (intros y; rewrite E; cbn; intuition).
  exists x. pose proof (proj2 (I x) eq_refl) as Q. apply filter_In in Q as [Q1 Q2]. repeat split; auto.
  intros y Hy Fy. apply I. apply filter_In. auto.
Qed.

(** the returned value is nbrel or -1; with exact RT arithmetic it is nbrel exactly when one, and only one, of the nbrel
    columns of C is a relation up to epsilon *)
Theorem C83_return :
  forall F (fq : fpops R) (rq : rtops R R) (fp : fpops F) (rf : rtops F F) conv d n nbrel gapF epsilon epsF ubF,
  rt_exact rq ->
  forall fuel fh gamma JG JF jB A r C,
    restarting_hjls fq rq fp rf conv d n nbrel gapF epsilon epsF ubF fuel fh gamma JG JF jB A = Ok (r, C) ->
    let relation j := forall i, i < d -> (Rabs (sumR n (fun k => mget 0 A i k * IZR (fn C k j))) <= epsilon)%R in
    wfm n nbrel C /\ (r = Z.of_nat nbrel \/ r = (-1)%Z) /\
    (r <> (-1)%Z <-> exists j, j < nbrel /\ relation j /\ forall k, k < nbrel -> relation k -> k = j).
Proof.
  intros F fq rq fp rf conv d n nbrel gapF epsilon epsF ubF X fuel fh gamma JG JF jB A r C H rel.
  apply restarting_return in H as (Hn & W & H). cbv zeta in H. set (f := fun j => forallb _ _) in H.
  assert (EQ : forall j, f j = true <-> rel j).
  { intros j. unfold f, rel. rewrite forallb_forall. split; intros Q i Hi.
    - specialize (Q i ltac:(apply in_seq; lia)). rewrite (hj_prod_exact rq n A C i j X Hn), (te_abs _ X) in Q. apply negb_true_iff in Q.
      destruct (Rle_dec (Rabs (sumR n (fun k => mget 0 A i k * IZR (fn C k j))%R)) epsilon) as [|NN]; [assumption|].
      exfalso. apply Rnot_le_gt in NN. apply (te_gt _ X) in NN. congruence.
    - apply in_seq in Hi. specialize (Q i ltac:(lia)). rewrite (hj_prod_exact rq n A C i j X Hn), (te_abs _ X). apply negb_true_iff.
      destruct (tgt rq _ _) eqn:E; [|reflexivity]. apply (te_gt _ X) in E. lra. }
  split; [exact W|]. split; [destruct H as [[-> _]|[-> _]]; auto|]. split.
  - intros Nr. destruct H as [[_ H]|[H _]]; [|congruence]. apply filter_one in H as (j & Hj & Fj & U). apply in_seq in Hj.
    exists j. split; [lia|]. split; [now apply EQ|]. intros k Hk Rk. apply U; [apply in_seq; lia|now apply EQ].
  - intros (j & Hj & Rj & U). destruct H as [[-> _]|[_ H]]; [lia|]. exfalso. apply H.
    assert (S1 : filter f (seq 0 nbrel) = [j]).
    { assert (ND : NoDup (filter f (seq 0 nbrel))) by (apply NoDup_filter, seq_NoDup).
      assert (I : forall k, In k (filter f (seq 0 nbrel)) <-> k = j).
      { intros k. rewrite filter_In, in_seq, EQ. split; [intros [K1 K2]; apply U; [lia|assumption]|intros ->; split; [lia|assumption]]. }
      destruct (filter f (seq 0 nbrel)) as [|a [|b t]].
      - exfalso. now apply (proj2 (I j) eq_refl).
      - f_equal. apply I. now left.
      - exfalso. inversion ND as [|? ? NA]. apply NA. left. transitivity j; [apply I; right; now left|symmetry; apply I; now left]. }
    now rewrite S1.
Qed.

(** for one relation (nbrel = 1), success means a relation *)
Theorem C83_one_relation :
  forall F (fq : fpops R) (rq : rtops R R) (fp : fpops F) (rf : rtops F F) conv d n gapF epsilon epsF ubF,
  rt_exact rq ->
  forall fuel fh gamma JG JF jB A C,
    restarting_hjls fq rq fp rf conv d n 1 gapF epsilon epsF ubF fuel fh gamma JG JF jB A = Ok (1%Z, C) ->
    forall i, i < d -> (Rabs (sumR n (fun k => mget 0 A i k * IZR (fn C k 0%nat))) <= epsilon)%R.
Proof.
  intros F fq rq fp rf conv d n gapF epsilon epsF ubF X fuel fh gamma JG JF jB A C H.
  apply C83_return in H; [|exact X]. destruct H as (_ & _ & [H _]). destruct (H ltac:(discriminate)) as (j & Hj & R & _).
  assert (j = 0) as -> by lia. exact R.
Qed.

(** when one round is enough: for any arithmetic, the columns of C are columns of a unimodular matrix (so they are
    independent and generate a primitive lattice), whatever is returned *)
Theorem C83_first_round :
  forall F T (fq : fpops T) (rq : rtops T T) (fp : fpops F) (rf : rtops F F) conv d n nbrel gapF epsG epsF ubF,
  0 < d -> nbrel <= n ->
  forall fh gamma JG JF jB A r C,
    restarting_hjls fq rq fp rf conv d n nbrel gapF epsG epsF ubF 1 fh gamma JG JF jB A = Ok (r, C) ->
    exists M, unimodular n M /\ forall i j, i < n -> j < nbrel -> fn C i j = M i (n - nbrel + j).
Proof. intros. eapply restarting_first; eauto. Qed.

(** *** doubles, setprec = 240 (epsilon = 2^(n + 200 - 240), decomp.cc 938-948 with 4 columns), F: 2^(16-53), 53 - 4 bits *)
Definition rh (rounds nbrel n : nat) (a : list Z) :=
  restarting_hjls dbl rtd dbl rtd (fun x => x) 1 n nbrel gapd 0x1p-36%float 0x1p-37%float 49 rounds 300 g11 Jz Jz
    (fun _ _ => 0%float) (map (fun x => [d_ofZ x]) a).
Definition zdot (a c : list Z) : Z := fold_left Z.add (map (fun p => fst p * snd p)%Z (combine a c)) 0%Z.

Example C83_case : rh 1 1 3 [3;5;7]%Z = Ok (1%Z, [[-1;2;-1]]%Z).
Proof. vm_compute. reflexivity. Qed.

(** for several relations the returned value means nothing: 2 with a column that is no relation, -1 with two relations *)
Theorem C83_several_refuted :
  (exists a c1 c2, rh 20 2 3 a = Ok (2%Z, [c1; c2]) /\ zdot a c1 = 1%Z) /\
  (exists a c1 c2, rh 20 2 3 a = Ok ((-1)%Z, [c1; c2]) /\ zdot a c1 = 0%Z /\ zdot a c2 = 0%Z).
Proof.
  split.
  - exists [3;5;7]%Z. do 2 eexists. split; [vm_compute; reflexivity|]. vm_compute. reflexivity.
  - exists [4;2;1]%Z. do 2 eexists. split; [vm_compute; reflexivity|]. split; vm_compute; reflexivity.
Qed.

(** after a restart the vector returned as a relation need not be primitive: set() keeps the off-diagonal entries of the
    previous transformation (C56) *)
Theorem C83_restart_refuted :
  exists a x y, rh 3 1 2 a = Ok (1%Z, [[x; y]]) /\ (8 | x)%Z /\ (8 | y)%Z /\ zdot a [x; y] <> 0%Z.
Proof.
  exists [1234567891011; 3141592653589]%Z. do 2 eexists. split; [vm_compute; reflexivity|].
  split; [|split].
  - exists (-3387345485679092463459317505322618497062836393)%Z. reflexivity.
  - exists 1331142650719850125932460157735102267320691040%Z. reflexivity.
  - vm_compute. discriminate.
Qed.

Print Assumptions C83_return.
Print Assumptions C83_one_relation.
Print Assumptions C83_first_round.
Print Assumptions C83_several_refuted.
Print Assumptions C83_restart_refuted.
