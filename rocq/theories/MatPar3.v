(** * Parallel loops, continued: pmatprod and pmaprod_diag_even *)
From Coq Require Import ZArith Lia List Bool Arith.
From Verif Require Import Base Spec Mat FP MatOps MatOpsFacts Par MatPar MatPar2.
Import ListNotations.

(** sums over the blocks of an index range *)
Lemma sumZ_blocks n S (f : nat -> Z) : 0 < S ->
  sumZ n f = sumZ S (fun J => sumZ (blk_size n S J) (fun k => f (blk_beg n S J + k))).
Proof.
  intros HS.
  assert (G : forall J, sumZ (blk_beg n S J) f = sumZ J (fun J => sumZ (blk_size n S J) (fun k => f (blk_beg n S J + k)))).
  { induction J as [|J IH]; [now rewrite blk_beg_0|].
    rewrite blk_beg_S, sumZ_split, IH by assumption. reflexivity. }
  rewrite <- G. now rewrite blk_beg_end.
Qed.

Lemma blk_size_mul n S J : 0 < S -> blk_size (n * S) S J = n.
Proof. intros HS. unfold blk_size. rewrite Nat.mod_mul, Nat.div_mul by lia. reflexivity. Qed.
Lemma blk_beg_mul n S J : 0 < S -> blk_beg (n * S) S J = J * n.
Proof. intros HS. unfold blk_beg. rewrite Nat.mod_mul, Nat.div_mul by lia. reflexivity. Qed.

(** the rows of block [I]: enumeration of the cells of block (I,J) of an [m] x [n] matrix, absolute indices *)
Definition blkpairs (m n R S I J : nat) : list (nat * nat) :=
  map (fun ij => (blk_beg m R I + fst ij, blk_beg n S J + snd ij)) (pairs (blk_size m R I) (blk_size n S J)).

Lemma in_blkpairs m n R S I J i j : In (i, j) (blkpairs m n R S I J) <->
  blk_beg m R I <= i < blk_beg m R I + blk_size m R I /\ blk_beg n S J <= j < blk_beg n S J + blk_size n S J.
Proof.
  unfold blkpairs. rewrite in_map_iff. split.
  - intros ([a b] & [= <- <-] & H). apply in_pairs in H. cbn. lia.
  - intros H. exists (i - blk_beg m R I, j - blk_beg n S J). cbn [fst snd]. split; [f_equal; lia|].
    apply in_pairs. lia.
Qed.

(** ** pmatprod(C,U,S,t), mat.h 1817-1877.
    Memory: two matrices, C ([false]) and L ([true]).  An iteration copies the whole of C
    (the first argument of getblock is passed by value, mat.h 683), multiplies its block by the
    rows of U, and writes its m x n slice of L. *)
Definition loc2 := (bool * (nat * nat))%type.
Definition loc2_eqb (a b : loc2) : bool := Bool.eqb (fst a) (fst b) && loc_eqb (snd a) (snd b).
Lemma loc2_eqb_spec a b : reflect (a = b) (loc2_eqb a b).
Proof.
  destruct a as [x p], b as [y q]. unfold loc2_eqb. cbn [fst snd].
  destruct (Bool.eqb_spec x y) as [->|N]; cbn [andb].
  - destruct (loc_eqb_spec p q) as [->|N]; constructor; congruence.
  - constructor. congruence.
Qed.

Definition pmp_local (m n R S : nat) (U : dmat) (I J : nat) (t : tmat) : tmat := fun i j =>
  sumZ (blk_size n S J) (fun k => t (blk_beg m R I + i)%nat (blk_beg n S J + k)%nat * ent U (blk_beg n S J + k)%nat j)%Z.
Definition pmp_thread (m n R S : nat) (U : dmat) (I J : nat) : list (op loc2 Z tmat) :=
  rlw (fun i j => (false, (i, j))) (pairs m n) (pmp_local m n R S U I J)
      (fun i j => (true, (blk_beg m R I + i, blk_beg (n * S) S J + j)))
      (pairs (blk_size m R I) (blk_size (n * S) S J)).
Definition pmp_pool (m n : nat) (U : dmat) (S t : nat) : pool loc2 Z tmat :=
  map (fun k => (fun _ _ => 0%Z, pmp_thread m n (t / S) S U (k / S) (k mod S))) (seq 0 t).
(** lines 1864-1875: C(i,j) = L(i,j), then the other copies are added *)
Definition pmp_final (n S : nat) (L : loc2 -> Z) (i j : nat) : Z :=
  fold_left (fun acc k => acc + L (true, (i, (j + k * n)%nat)))%Z (seq 1 (S - 1)) (L (true, (i, j))).

Lemma pmp_final_sum n S L i j : 0 < S -> pmp_final n S L i j = sumZ S (fun k => L (true, (i, j + k * n))).
Proof.
  intros HS. unfold pmp_final. destruct S as [|s]; [lia|]. replace (Datatypes.S s - 1) with s by lia. clear HS.
  induction s as [|s IH].
  - cbn [seq fold_left sumZ]. rewrite Nat.mul_0_l, Nat.add_0_r. lia.
  - rewrite seq_S, fold_left_app, IH. cbn [fold_left]. cbn [sumZ]. reflexivity.
Qed.

Section PMP.
Variables (m n R S : nat) (U : dmat).
Hypothesis HR : 0 < R.
Hypothesis HS : 0 < S.

Lemma kdiv k : k < R * S -> k / S < R /\ k mod S < S.
Proof. intros H. split; [apply Nat.div_lt_upper_bound; lia|apply Nat.mod_upper_bound; lia]. Qed.
Lemma kdm k k' : k <> k' -> k / S <> k' / S \/ k mod S <> k' mod S.
Proof.
  intros N. pose proof (Nat.div_mod k S ltac:(lia)). pose proof (Nat.div_mod k' S ltac:(lia)).
  destruct (Nat.eq_dec (k / S) (k' / S)) as [E|E]; [|now left].
  right. intros E'. apply N. congruence.
Qed.

Definition pmp_own (k : nat) (x : loc2) : bool :=
  fst x && ((blk_beg m R (k / S) <=? fst (snd x)) && (fst (snd x) <? blk_beg m R (k / S) + blk_size m R (k / S)) &&
            ((k mod S) * n <=? snd (snd x)) && (snd (snd x) <? (k mod S) * n + n)).

Lemma pmp_own_spec k b i j : pmp_own k (b, (i, j)) = true <->
  b = true /\ blk_beg m R (k / S) <= i < blk_beg m R (k / S) + blk_size m R (k / S) /\
  (k mod S) * n <= j < (k mod S) * n + n.
Proof. unfold pmp_own. cbn [fst snd]. rewrite !andb_true_iff, !Nat.leb_le, !Nat.ltb_lt. intuition. Qed.

Lemma pmp_own_disj a b x : a <> b -> pmp_own a x = true -> pmp_own b x = true -> False.
Proof.
  destruct x as [c [i j]]. rewrite !pmp_own_spec. intros N (_ & Ha & Ha') (_ & Hb & Hb').
  destruct (kdm a b N) as [E|E].
  - destruct (blk_disjoint m R (a / S) (b / S) (i - blk_beg m R (a / S)) (i - blk_beg m R (b / S))) as [? _]; solve [assumption|lia|contradiction].
  - assert (a mod S < b mod S \/ b mod S < a mod S) as [L|L] by lia; nia.
Qed.

Lemma pmp_race_free : race_free (pmp_pool m n U S (R * S)).
Proof.
  unfold pmp_pool. rewrite Nat.div_mul by lia.
  apply race_free_own with (own := fun k x => pmp_own k x = true) (ro := fun x => fst x = false).
  - apply seq_NoDup.
  - intros a b x _ _ N. now apply pmp_own_disj.
  - intros a [b [i j]] _ H. apply pmp_own_spec in H as [-> _]. discriminate.
  - intros k o x Hk Ho Hx. destruct (rlw_writes _ _ _ _ _ _ _ Ho Hx) as (i & j & H & ->).
    apply in_pairs in H. rewrite blk_size_mul, blk_beg_mul in * by assumption. apply pmp_own_spec. lia.
  - intros k o x Hk Ho Hx. destruct (rlw_reads _ _ _ _ _ _ _ Ho Hx) as (i & j & H & ->). now right.
Qed.

Definition pmp_g (k : nat) (M : loc2 -> Z) (x : loc2) : Z :=
  sumZ (blk_size n S (k mod S)) (fun q =>
    M (false, (fst (snd x), (blk_beg n S (k mod S) + q)%nat)) *
    ent U (blk_beg n S (k mod S) + q)%nat (snd (snd x) - (k mod S) * n)%nat)%Z.

Lemma pmp_thread_effect k (M : loc2 -> Z) x : k < R * S ->
  fst (exec_prog loc2_eqb (pmp_thread m n R S U (k / S) (k mod S)) M (fun _ _ => 0%Z)) x =
  if pmp_own k x then pmp_g k M x else M x.
Proof.
  intros Hk. destruct (kdiv k Hk) as [HI HJ]. unfold pmp_thread.
  destruct (rlw_effect loc2_eqb loc2_eqb_spec (fun i j => (false, (i, j))) (pairs m n)
     (pmp_local m n R S U (k / S) (k mod S))
     (fun i j => (true, (blk_beg m R (k / S) + i, blk_beg (n * S) S (k mod S) + j)))
      (pairs (blk_size m R (k / S)) (blk_size (n * S) S (k mod S))) M (fun _ _ => 0%Z)) as (t' & H1 & H2 & H3).
  { intros i j i' j' _ _ E. injection E as E E'. f_equal; lia. }
  destruct (pmp_own k x) eqn:Eo.
  - destruct x as [b [i j]]. apply pmp_own_spec in Eo as (-> & Hi & Hj).
    specialize (H2 (i - blk_beg m R (k / S)) (j - (k mod S) * n)). cbv beta in H2.
    rewrite blk_size_mul, blk_beg_mul in * by assumption.
    replace (blk_beg m R (k / S) + (i - blk_beg m R (k / S))) with i in H2 by lia.
    replace (k mod S * n + (j - k mod S * n)) with j in H2 by lia.
    etransitivity; [apply H2; apply in_pairs; lia|].
    unfold pmp_local, pmp_g. cbn [fst snd]. apply sumZ_ext. intros q Hq.
    replace (blk_beg m R (k / S) + (i - blk_beg m R (k / S))) with i by lia.
    rewrite H1. f_equal.
    pose proof (blk_in_range n S (k mod S) q HS HJ Hq).
    pose proof (blk_in_range m R (k / S) (i - blk_beg m R (k / S)) HR HI ltac:(lia)).
    assert (X : inb (pairs m n) i (blk_beg n S (k mod S) + q) = true) by (apply inb_spec, in_pairs; lia).
    now rewrite X.
  - apply H3. intros i j Hij <-. apply in_pairs in Hij. rewrite blk_size_mul, blk_beg_mul in * by assumption.
    assert (pmp_own k (true, (blk_beg m R (k / S) + i, k mod S * n + j)) = true); [|congruence].
    apply pmp_own_spec. lia.
Qed.

Lemma pmp_correct (M M' : loc2 -> Z) :
  parallel_run loc2_eqb (pmp_pool m n U S (R * S)) M M' ->
  forall i j, i < m -> j < n ->
    pmp_final n S M' i j = mmul n (fun r k => M (false, (r, k))) (ent U) i j.
Proof.
  intros H i j Hi Hj.
  pose proof (parallel_is_sequential loc2_eqb loc2_eqb_spec _ _ _ pmp_race_free H) as E.
  destruct (pool_effect loc2_eqb nat (seq 0 (R * S))
     (fun k => (fun _ _ => 0%Z, pmp_thread m n R S U (k / S) (k mod S)))
     pmp_own (fun x => negb (fst x)) pmp_g) with (m := M) as [P1 P2].
  - apply seq_NoDup.
  - intros a b x _ _ N. now apply pmp_own_disj.
  - intros a [b [r q]] _ Ho. apply pmp_own_spec in Ho as [-> _]. discriminate.
  - intros k m0 x Hk. apply in_seq in Hk. apply pmp_thread_effect. lia.
  - intros k m0 m1 x _ _ Hm. apply sumZ_ext. intros q Hq. rewrite Hm; [reflexivity|]. now right.
  - rewrite pmp_final_sum by assumption. unfold mmul. rewrite (sumZ_blocks n S) by assumption.
    apply sumZ_ext. intros J HJ. rewrite E. unfold pmp_pool. rewrite Nat.div_mul by lia.
    destruct (blk_cover m R i HR Hi) as (I & i0 & HI & Hi0 & Ei).
    assert (Ed : (I * S + J) / S = I) by (rewrite Nat.div_add_l, Nat.div_small; lia).
    assert (Em : (I * S + J) mod S = J) by (rewrite Nat.add_comm, Nat.mod_add, Nat.mod_small; lia).
    rewrite (P1 (I * S + J)).
    + unfold pmp_g. rewrite Em. cbn [fst snd]. apply sumZ_ext. intros q Hq. f_equal. f_equal. lia.
    + apply in_seq. nia.
    + apply pmp_own_spec. rewrite Ed, Em. split; [reflexivity|]. lia.
Qed.
End PMP.

(** ** pmaprod_diag_even(C,U,S,t), mat.h 1785-1808.
    The same copy of the whole of C, but the result block is put back into C itself.
    The local matrix is indexed by the absolute indices of C. *)
Definition pmd_local (n S : nat) (U : dmat) (J : nat) (t : tmat) : tmat := fun i j =>
  sumZ (blk_size n S J) (fun k => t i (blk_beg n S J + k)%nat * ent U (blk_beg n S J + k)%nat j)%Z.
Definition pmd_thread (m n R S : nat) (U : dmat) (I J : nat) : list (op loc Z tmat) :=
  rlw (fun i j => (i, j)) (pairs m n) (pmd_local n S U J) (fun i j => (i, j)) (blkpairs m n R S I J).
Definition pmd_pool (m n : nat) (U : dmat) (S t : nat) : pool loc Z tmat :=
  map (fun k => (fun _ _ => 0%Z, pmd_thread m n (t / S) S U (k / S) (k mod S))) (seq 0 t).

(** as soon as two iterations run, one copies cells another one writes *)
Lemma pmd_racy m n U S R : 0 < S -> 0 < R -> 2 <= R * S -> 0 < m -> 0 < n -> ~ race_free (pmd_pool m n U S (R * S)).
Proof.
  intros HS HR H2 Hm Hn RF. unfold pmd_pool in RF. rewrite Nat.div_mul in RF by lia.
  set (thr := fun k => _) in RF.
  assert (N0 : nth_error (map thr (seq 0 (R * S))) 0 = Some (thr 0)).
  { rewrite nth_error_map. destruct (R * S); [lia|reflexivity]. }
  assert (N1 : nth_error (map thr (seq 0 (R * S))) 1 = Some (thr 1)).
  { rewrite nth_error_map. destruct (R * S) as [|[|]]; [lia|lia|reflexivity]. }
  apply (RF 0 1 (thr 0) (thr 1) (wr (0, 0) 0 0) (rd (0, 0) 0 0) ltac:(lia) N0 N1).
  - unfold thr. cbn [snd]. unfold pmd_thread, rlw. apply in_or_app. right. right.
    apply in_map_iff. exists (0, 0). split; [reflexivity|]. apply in_blkpairs.
    rewrite Nat.div_0_l, Nat.mod_0_l, !blk_beg_0 by lia.
    pose proof (blk_cover m R 0 HR Hm) as (I & i & HI & Hi & Ei).
    pose proof (blk_cover n S 0 HS Hn) as (J & j & HJ & Hj & Ej).
    pose proof (blk_beg_mono m R 0 I HR ltac:(lia)). pose proof (blk_beg_mono n S 0 J HS ltac:(lia)).
    assert (0 < blk_size m R 0 /\ 0 < blk_size n S 0) as [A B]; [|lia].
    split.
    + destruct I as [|I]; [lia|]. pose proof (blk_beg_S m R 0 HR). pose proof (blk_beg_mono m R 1 (Datatypes.S I) HR ltac:(lia)).
      destruct (Nat.eq_dec (blk_size m R 0) 0) as [Z0|]; [|lia]. exfalso.
      clear -Z0 Hm HR Hi. unfold blk_size in *. destruct (Nat.eqb_spec (m mod R) 0) as [E|E]; [|].
      * lia.
      * destruct (Nat.ltb_spec 0 (m - m / R * R)); [lia|].
        pose proof (Nat.div_mod m R ltac:(lia)). nia.
    + destruct J as [|J]; [lia|].
      destruct (Nat.eq_dec (blk_size n S 0) 0) as [Z0|]; [|lia]. exfalso.
      clear -Z0 Hn HS Hj. unfold blk_size in *. destruct (Nat.eqb_spec (n mod S) 0) as [E|E]; [|].
      * lia.
      * destruct (Nat.ltb_spec 0 (n - n / S * S)); [lia|].
        pose proof (Nat.div_mod n S ltac:(lia)). nia.
  - unfold thr. cbn [snd]. unfold pmd_thread, rlw. apply in_or_app. left.
    apply in_map_iff. exists (0, 0). split; [reflexivity|]. apply in_pairs. lia.
  - exists (0, 0). left. split; [now left|]. left. now left.
Qed.

(** simulation between pools whose iterations proceed in lockstep *)
Section Sim.
Context {Loc Val Local : Type} (eqb : Loc -> Loc -> bool).
Definition op_sim (Rl : Local -> Local -> Prop) (o o' : op Loc Val Local) : Prop :=
  forall m l l', Rl l l' -> fst (exec_op eqb o m l) = fst (exec_op eqb o' m l') /\
                            Rl (snd (exec_op eqb o m l)) (snd (exec_op eqb o' m l')).
Definition thr_sim (t t' : Local * list (op Loc Val Local)) : Prop :=
  exists Rl, Rl (fst t) (fst t') /\ Forall2 (op_sim Rl) (snd t) (snd t').

Lemma prog_sim Rl p p' : Forall2 (op_sim Rl) p p' -> forall m l l', Rl l l' ->
  fst (exec_prog eqb p m l) = fst (exec_prog eqb p' m l').
Proof.
  induction 1 as [|o o' p p' Ho Hp IH]; intros m l l' HR; cbn [exec_prog]; [reflexivity|].
  destruct (Ho m l l' HR) as [E1 E2].
  destruct (exec_op eqb o m l) as [m1 l1], (exec_op eqb o' m l') as [m2 l2]. cbn [fst snd] in *. subst m2.
  now apply IH.
Qed.

Lemma run_sim (q q' : pool Loc Val Local) m m' :
  Forall2 thr_sim q q' -> parallel_run eqb q m m' -> parallel_run eqb q' m m'.
Proof.
  intros Hq (qf & Hs & Hf).
  remember (m, q) as c1 eqn:E1. remember (m', qf) as c2 eqn:E2.
  revert m q q' E1 Hq. induction Hs as [c|c1 c2' c3 Hst Hs IH]; intros m q q' E1 Hq.
  - subst c. injection E1 as <- <-. exists q'. split; [constructor|].
    clear -Hf Hq. induction Hq as [|t t' q q' (Rl & _ & Ht) Hq IH]; [constructor|].
    inversion Hf as [|? ? E F]. subst. rewrite E in Ht. inversion Ht. constructor; auto. now apply IH.
  - subst. inversion Hst as [q1 q2 l o p m0 E1 E2]. subst.
    apply Forall2_app_inv_l in Hq as (q1' & q2' & H1 & H2 & ->).
    inversion H2 as [|t t' qa qb Ht H2' X Y]. subst.
    destruct t' as [l' p']. destruct Ht as (Rl & Hl & Hp). cbn in Hl, Hp.
    inversion Hp as [|o0 o' p0 pp Ho Hp' X Y]. subst.
    destruct (Ho m l l' Hl) as [Em El].
    destruct (IH eq_refl (fst (exec_op eqb o m l)) (q1 ++ (snd (exec_op eqb o m l), p) :: q2)
                 (q1' ++ (snd (exec_op eqb o' m l'), pp) :: qb)) as (q'' & S & F).
    + reflexivity.
    + apply Forall2_app; [assumption|]. constructor; [|assumption]. exists Rl. split; cbn; assumption.
    + exists q''. split; [|exact F]. eapply psteps_step; [apply pstep_intro|].
      rewrite Em in S. exact S.
Qed.
End Sim.

Section PMD.
Variables (m n R S : nat) (U : dmat).
Hypothesis HR : 0 < R.
Hypothesis HS : 0 < S.

Definition skip : op loc Z tmat := mkOp [] [] (fun t _ => (t, [])).
(** the same iteration copying only its own block *)
Definition pmd_thread' (I J : nat) : list (op loc Z tmat) :=
  map (fun ij => if inb (blkpairs m n R S I J) (fst ij) (snd ij) then rd (fst ij, snd ij) (fst ij) (snd ij) else skip) (pairs m n) ++
  lc (pmd_local n S U J) :: map (fun ij => wr (fst ij, snd ij) (fst ij) (snd ij)) (blkpairs m n R S I J).

Definition agree (I J : nat) (t t' : tmat) : Prop := forall i j, In (i, j) (blkpairs m n R S I J) -> t i j = t' i j.

Lemma pmd_sim I J : Forall2 (op_sim loc_eqb (agree I J)) (pmd_thread m n R S U I J) (pmd_thread' I J).
Proof.
  unfold pmd_thread, pmd_thread', rlw. apply Forall2_app; [|constructor].
  - induction (pairs m n) as [|[i j] ps IH]; cbn [map]; constructor; [|exact IH]. cbn [fst snd].
    destruct (inb (blkpairs m n R S I J) i j) eqn:Eb; intros M l l' HA; cbn.
    + split; [reflexivity|]. intros i' j' Hin. unfold tset. destruct (_ && _); auto.
    + split; [reflexivity|]. intros i' j' Hin. unfold tset. destruct ((i' =? i) && (j' =? j)) eqn:E; auto.
      exfalso. apply andb_true_iff in E as [E1 E2]. apply Nat.eqb_eq in E1, E2. subst.
      apply inb_spec in Hin. congruence.
  - intros M l l' HA. cbn. split; [reflexivity|]. intros i j Hin. unfold pmd_local. apply sumZ_ext. intros k Hk.
    rewrite HA; [reflexivity|]. apply in_blkpairs in Hin. apply in_blkpairs. lia.
  - assert (G : forall ps, (forall i j, In (i, j) ps -> In (i, j) (blkpairs m n R S I J)) ->
       Forall2 (op_sim loc_eqb (agree I J)) (map (fun ij => wr (fst ij, snd ij) (fst ij) (snd ij)) ps)
               (map (fun ij => wr (fst ij, snd ij) (fst ij) (snd ij)) ps)).
    { induction ps as [|[i j] ps IH]; intros Hin; cbn [map]; constructor; [|apply IH; intros; apply Hin; now right].
      intros M l l' HA. cbn. rewrite (HA i j) by (apply Hin; now left). auto. }
    apply G. auto.
Qed.

Definition pmd_own (k : nat) (x : loc) : bool := inb (blkpairs m n R S (k / S) (k mod S)) (fst x) (snd x).
Lemma pmd_own_spec k i j : pmd_own k (i, j) = true <->
  blk_beg m R (k / S) <= i < blk_beg m R (k / S) + blk_size m R (k / S) /\
  blk_beg n S (k mod S) <= j < blk_beg n S (k mod S) + blk_size n S (k mod S).
Proof. unfold pmd_own. cbn [fst snd]. rewrite inb_spec. apply in_blkpairs. Qed.
Lemma pmd_own_disj a b x : a <> b -> pmd_own a x = true -> pmd_own b x = true -> False.
Proof.
  destruct x as [i j]. rewrite !pmd_own_spec. intros N (Ha & Ha') (Hb & Hb').
  destruct (kdm R S HR HS a b N) as [E|E].
  - destruct (blk_disjoint m R (a / S) (b / S) (i - blk_beg m R (a / S)) (i - blk_beg m R (b / S))) as [? _]; solve [assumption|lia|contradiction].
  - destruct (blk_disjoint n S (a mod S) (b mod S) (j - blk_beg n S (a mod S)) (j - blk_beg n S (b mod S))) as [? _]; solve [assumption|lia|contradiction].
Qed.

Definition pmd_pool' : pool loc Z tmat :=
  map (fun k => (fun _ _ => 0%Z, pmd_thread' (k / S) (k mod S))) (seq 0 (R * S)).

Lemma pmd_race_free' : race_free pmd_pool'.
Proof.
  unfold pmd_pool'.
  apply race_free_own with (own := fun k x => pmd_own k x = true) (ro := fun x => False).
  - apply seq_NoDup.
  - intros a b x _ _ N. now apply pmd_own_disj.
  - auto.
  - intros k o x Hk Ho Hx. cbn [snd] in Ho. unfold pmd_thread' in Ho. apply in_app_iff in Ho as [Ho|[<-|Ho]].
    + apply in_map_iff in Ho as ([i j] & <- & H). destruct (inb _ _ _); destruct Hx.
    + destruct Hx.
    + apply in_map_iff in Ho as ([i j] & <- & H). destruct Hx as [<-|[]]. cbn [fst snd].
      unfold pmd_own. cbn [fst snd]. now apply inb_spec.
  - intros k o x Hk Ho Hx. cbn [snd] in Ho. unfold pmd_thread' in Ho. left. apply in_app_iff in Ho as [Ho|[<-|Ho]].
    + apply in_map_iff in Ho as ([i j] & <- & H). cbn [fst snd] in Hx. destruct (inb _ _ _) eqn:Ei.
      * destruct Hx as [<-|[]]. exact Ei.
      * destruct Hx.
    + destruct Hx.
    + apply in_map_iff in Ho as ([i j] & <- & H). destruct Hx.
Qed.

Definition pmd_g (k : nat) (M : loc -> Z) (x : loc) : Z :=
  sumZ (blk_size n S (k mod S)) (fun q =>
    M (fst x, (blk_beg n S (k mod S) + q)%nat) * ent U (blk_beg n S (k mod S) + q)%nat (snd x))%Z.

Lemma pmd_thread_effect k (M : loc -> Z) x : k < R * S ->
  fst (exec_prog loc_eqb (pmd_thread' (k / S) (k mod S)) M (fun _ _ => 0%Z)) x =
  if pmd_own k x then pmd_g k M x else M x.
Proof.
  intros Hk. destruct (kdiv R S HR HS k Hk) as [HI HJ].
  rewrite <- (prog_sim loc_eqb _ _ _ (pmd_sim (k / S) (k mod S)) M (fun _ _ => 0%Z)) by (intros i j _; reflexivity).
  unfold pmd_thread.
  destruct (rlw_effect loc_eqb loc_eqb_spec (fun i j => (i, j)) (pairs m n)
     (pmd_local n S U (k mod S)) (fun i j => (i, j)) (blkpairs m n R S (k / S) (k mod S)) M (fun _ _ => 0%Z)) as (t' & H1 & H2 & H3).
  { intros i j i' j' _ _ E. exact E. }
  destruct x as [i j]. destruct (pmd_own k (i, j)) eqn:Eo.
  - pose proof Eo as Eo'. unfold pmd_own in Eo. cbn [fst snd] in Eo. apply inb_spec in Eo.
    etransitivity; [apply (H2 i j Eo)|]. apply pmd_own_spec in Eo'.
    unfold pmd_local, pmd_g. cbn [fst snd]. apply sumZ_ext. intros q Hq.
    rewrite H1. f_equal.
    pose proof (blk_in_range n S (k mod S) q HS HJ Hq).
    pose proof (blk_in_range m R (k / S) (i - blk_beg m R (k / S)) HR HI ltac:(lia)).
    assert (X : inb (pairs m n) i (blk_beg n S (k mod S) + q) = true) by (apply inb_spec, in_pairs; lia).
    now rewrite X.
  - apply H3. intros i' j' Hij E. injection E as -> ->. apply inb_spec in Hij. unfold pmd_own in Eo. cbn [fst snd] in Eo. congruence.
Qed.

(** with atomic cell accesses every schedule still multiplies by the diagonal blocks of U *)
Lemma pmd_correct (M M' : loc -> Z) :
  parallel_run loc_eqb (pmd_pool m n U S (R * S)) M M' ->
  (forall k q, k < n -> q < n -> (forall J, J < S ->
       ~ (blk_beg n S J <= k < blk_beg n S J + blk_size n S J /\ blk_beg n S J <= q < blk_beg n S J + blk_size n S J)) ->
       ent U k q = 0%Z) ->
  forall i j, i < m -> j < n -> M' (i, j) = mmul n (fun r k => M (r, k)) (ent U) i j.
Proof.
  intros H HU i j Hi Hj.
  assert (H' : parallel_run loc_eqb pmd_pool' M M').
  { revert H. apply run_sim. unfold pmd_pool, pmd_pool'. rewrite Nat.div_mul by lia.
    induction (seq 0 (R * S)) as [|k ks IH]; cbn [map]; constructor; [|exact IH].
    exists (agree (k / S) (k mod S)). split; [intros ? ? _; reflexivity|]. apply pmd_sim. }
  pose proof (parallel_is_sequential loc_eqb loc_eqb_spec _ _ _ pmd_race_free' H') as E.
  destruct (pool_effect loc_eqb nat (seq 0 (R * S))
     (fun k => (fun _ _ => 0%Z, pmd_thread' (k / S) (k mod S)))
     pmd_own (fun x => false) pmd_g) with (m := M) as [P1 P2].
  - apply seq_NoDup.
  - intros a b x _ _ N. now apply pmd_own_disj.
  - intros; discriminate.
  - intros k m0 x Hk. apply in_seq in Hk. apply pmd_thread_effect. lia.
  - intros k m0 m1 [a b] Hk Ho Hm. apply sumZ_ext. intros q Hq. rewrite Hm; [reflexivity|]. left.
    apply pmd_own_spec in Ho. cbn [fst snd]. apply pmd_own_spec. lia.
  - destruct (blk_cover m R i HR Hi) as (I & i0 & HI & Hi0 & Ei).
    destruct (blk_cover n S j HS Hj) as (J & j0 & HJ & Hj0 & Ej).
    assert (Ed : (I * S + J) / S = I) by (rewrite Nat.div_add_l, Nat.div_small; lia).
    assert (Em : (I * S + J) mod S = J) by (rewrite Nat.add_comm, Nat.mod_add, Nat.mod_small; lia).
    rewrite E. unfold pmd_pool'. rewrite (P1 (I * S + J)).
    + unfold pmd_g. rewrite Em. cbn [fst snd]. unfold mmul. rewrite (sumZ_blocks n S) by assumption.
      rewrite (sumZ_single S J); [reflexivity|assumption|].
      intros J' HJ' N. apply sumZ_0. intros q Hq. rewrite HU; [lia| |assumption|].
      * now apply blk_in_range.
      * intros J'' HJ'' [A B].
        assert (J'' = J').
        { destruct (Nat.eq_dec J'' J') as [|D]; [assumption|]. exfalso.
          destruct (blk_disjoint n S J'' J' (blk_beg n S J' + q - blk_beg n S J'') q) as [? _]; solve [assumption|lia|contradiction]. }
        subst J''. destruct (blk_disjoint n S J' J (j - blk_beg n S J') j0) as [? _]; solve [assumption|lia|contradiction].
    + apply in_seq. nia.
    + apply pmd_own_spec. rewrite Ed, Em. lia.
Qed.
End PMD.
