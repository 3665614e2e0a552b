(** * The parallel loops of src/mat.h and psize_update_B, as thread programs *)
From Coq Require Import ZArith Lia List Bool Arith.
From Verif Require Import Base Spec Mat FP MatOps MatOpsFacts Par Hlll.
Import ListNotations.

(** ** Generic facts on pools of iterations *)
Section Generic.
Context {Loc Val Local : Type} (eqb : Loc -> Loc -> bool) (eqb_spec : forall a b, reflect (a = b) (eqb a b)).
Notation op := (op Loc Val Local).
Notation exec_prog := (exec_prog eqb).
Notation exec_seq := (exec_seq eqb).

Lemma exec_prog_app (p1 p2 : list op) m l :
  exec_prog (p1 ++ p2) m l = exec_prog p2 (fst (exec_prog p1 m l)) (snd (exec_prog p1 m l)).
Proof.
  revert m l. induction p1 as [|o p1 IH]; intros m l; cbn; [reflexivity|].
  destruct (exec_op eqb o m l) as [m1 l1]. apply IH.
Qed.

(** every iteration stays in its own locations, and reads besides only locations
    nobody writes *)
Lemma race_free_own (A : Type) (ls : list A) (thr : A -> Local * list op)
      (own : A -> Loc -> Prop) (ro : Loc -> Prop) :
  NoDup ls ->
  (forall a b x, In a ls -> In b ls -> a <> b -> own a x -> own b x -> False) ->
  (forall a x, In a ls -> own a x -> ro x -> False) ->
  (forall a o x, In a ls -> In o (snd (thr a)) -> In x (op_writes o) -> own a x) ->
  (forall a o x, In a ls -> In o (snd (thr a)) -> In x (op_reads o) -> own a x \/ ro x) ->
  race_free (map thr ls).
Proof.
  intros ND DJ RO HW HR i j ti tj o o' Nij Hi Hj Ho Ho' (x & C).
  rewrite nth_error_map in Hi, Hj.
  destruct (nth_error ls i) as [a|] eqn:Ea; [|discriminate]. injection Hi as <-.
  destruct (nth_error ls j) as [b|] eqn:Eb; [|discriminate]. injection Hj as <-.
  assert (Nab : a <> b).
  { intros ->. apply Nij. eapply (proj1 (NoDup_nth_error ls) ND); [|congruence].
    apply nth_error_Some. congruence. }
  assert (Ia : In a ls) by (eapply nth_error_In; eauto).
  assert (Ib : In b ls) by (eapply nth_error_In; eauto).
  destruct C as [[W C]|[W C]].
  - pose proof (HW _ _ _ Ia Ho W) as Wa. destruct C as [C|C].
    + destruct (HR _ _ _ Ib Ho' C); eauto.
    + pose proof (HW _ _ _ Ib Ho' C). eauto.
  - pose proof (HW _ _ _ Ib Ho' W) as Wb. destruct C as [C|C].
    + destruct (HR _ _ _ Ia Ho C); eauto.
    + pose proof (HW _ _ _ Ia Ho C). eauto.
Qed.

(** sequential effect of the pool when iteration [a] maps each own location to [g a m x] *)
Lemma pool_effect (A : Type) (ls : list A) (thr : A -> Local * list op)
      (own : A -> Loc -> bool) (ro : Loc -> bool) (g : A -> mem (Loc := Loc) (Val := Val) -> Loc -> Val) :
  NoDup ls ->
  (forall a b x, In a ls -> In b ls -> a <> b -> own a x = true -> own b x = true -> False) ->
  (forall a x, In a ls -> own a x = true -> ro x = true -> False) ->
  (forall a m x, In a ls -> fst (exec_prog (snd (thr a)) m (fst (thr a))) x = if own a x then g a m x else m x) ->
  (forall a m m' x, In a ls -> own a x = true ->
     (forall y, own a y = true \/ ro y = true -> m y = m' y) -> g a m x = g a m' x) ->
  forall m,
  (forall a x, In a ls -> own a x = true -> exec_seq (map thr ls) m x = g a m x) /\
  (forall x, (forall a, In a ls -> own a x = false) -> exec_seq (map thr ls) m x = m x).
Proof.
  intros ND DJ RO HE HG.
  induction ls as [|a ls IH]; intros m; cbn [map].
  - split; [intros ? ? []|reflexivity].
  - inversion ND as [|? ? Na ND']. subst.
    destruct (thr a) as [l p] eqn:Et.
    assert (E : forall x, fst (exec_prog p m l) x = if own a x then g a m x else m x).
    { intros x. specialize (HE a m x (or_introl eq_refl)). rewrite Et in HE. exact HE. }
    cbn [Par.exec_seq].
    destruct (IH ND') with (m := fst (exec_prog p m l)) as [H1 H2].
    { intros; eapply DJ; eauto; now right. }
    { intros; eapply RO; eauto; now right. }
    { intros; apply HE; now right. }
    { intros; apply HG; auto; now right. }
    split.
    + intros b x [<-|Hb] Ho.
      * rewrite H2.
        -- rewrite E, Ho. reflexivity.
        -- intros b Hb. destruct (own b x) eqn:Eb; [|reflexivity]. exfalso.
           apply (DJ a b x); auto; [now left|now right|]. intros ->. contradiction.
      * rewrite (H1 b) by assumption. apply HG; [now right|assumption|].
        intros y Hy. rewrite E. destruct (own a y) eqn:Ea; [|reflexivity]. exfalso.
        destruct Hy as [Hy|Hy].
        -- apply (DJ a b y); auto; [now left|now right|]. intros ->. contradiction.
        -- apply (RO a y); auto. now left.
    + intros x Hx. rewrite H2 by (intros; apply Hx; now right).
      rewrite E. now rewrite (Hx a) by now left.
Qed.

(** operations with the same effect can be exchanged *)
Definition op_equiv (o o' : op) : Prop := forall m l, exec_op eqb o m l = exec_op eqb o' m l.
Definition thr_equiv (t t' : Local * list op) : Prop := fst t = fst t' /\ Forall2 op_equiv (snd t) (snd t').

Lemma run_equiv (q q' : pool Loc Val Local) m m' :
  Forall2 thr_equiv q q' -> parallel_run eqb q m m' -> parallel_run eqb q' m m'.
Proof.
  intros Hq (qf & Hs & Hf).
  remember (m, q) as c1 eqn:E1. remember (m', qf) as c2 eqn:E2.
  revert m q q' E1 Hq. induction Hs as [c|c1 c2' c3 Hst Hs IH]; intros m q q' E1 Hq.
  - subst c. injection E1 as <- <-. exists q'. split; [constructor|].
    clear -Hf Hq. induction Hq as [|t t' q q' [_ Ht] Hq IH]; [constructor|].
    inversion Hf as [|? ? E F]. subst. rewrite E in Ht. inversion Ht. constructor; auto. now apply IH.
  - subst. inversion Hst as [q1 q2 l o p m0 E1 E2]. subst.
    apply Forall2_app_inv_l in Hq as (q1' & q2' & H1 & H2 & ->).
    inversion H2 as [|t t' qa qb Ht H2' X Y]. subst.
    destruct t' as [l' p']. destruct Ht as [Hl Hp]. cbn in Hl, Hp. subst l'.
    inversion Hp as [|o0 o' p0 pp Ho Hp' X Y]. subst.
    destruct (IH eq_refl (fst (exec_op eqb o m l)) (q1 ++ (snd (exec_op eqb o m l), p) :: q2)
                 (q1' ++ (snd (exec_op eqb o' m l), pp) :: qb)) as (q'' & S & F).
    + reflexivity.
    + apply Forall2_app; [assumption|]. constructor; [|assumption]. split; cbn; [|assumption].
      now rewrite Ho.
    + exists q''. split; [|exact F]. eapply psteps_step; [apply pstep_intro|].
      rewrite Ho in S. exact S.
Qed.
End Generic.

(** ** Matrices as memories *)
Definition loc := (nat * nat)%type.
Definition loc_eqb (a b : loc) : bool := (fst a =? fst b) && (snd a =? snd b).
Lemma loc_eqb_spec a b : reflect (a = b) (loc_eqb a b).
Proof.
  destruct a as [i j], b as [i' j']. unfold loc_eqb. cbn.
  destruct (Nat.eqb_spec i i'), (Nat.eqb_spec j j'); cbn; constructor; congruence.
Qed.

(** a private matrix [tmat] *)
Definition tmat := nat -> nat -> Z.
Definition tset (t : tmat) (i j : nat) (x : Z) : tmat := fun i' j' => if (i' =? i) && (j' =? j) then x else t i' j'.
Notation zop := (op loc Z tmat).

(** read [a] into [t(i,j)] *)
Definition op_read (a : loc) (i j : nat) : zop :=
  mkOp [a] [] (fun t vs => (tset t i j (nth 0 vs 0%Z), [])).
(** [t(i,j) = v * u], v read at [a] *)
Definition op_mul (a : loc) (u : Z) (i j : nat) : zop :=
  mkOp [a] [] (fun t vs => (tset t i j (nth 0 vs 0 * u)%Z, [])).
(** [t(i,j) += v * u] *)
Definition op_addmul (a : loc) (u : Z) (i j : nat) : zop :=
  mkOp [a] [] (fun t vs => (tset t i j (t i j + nth 0 vs 0 * u)%Z, [])).
(** write [t(i,j)] at [a] *)
Definition op_write (a : loc) (i j : nat) : zop :=
  mkOp [] [a] (fun t _ => (t, [t i j])).
(** a computation on private data only *)
Definition op_local (f : tmat -> tmat) : zop := mkOp [] [] (fun t _ => (f t, [])).

(** index pairs of [for (i = 0; i < m; i++) for (j = 0; j < n; j++)] *)
Definition pairs (m n : nat) : list (nat * nat) := flat_map (fun i => map (fun j => (i, j)) (seq 0 n)) (seq 0 m).

Lemma in_pairs m n i j : In (i, j) (pairs m n) <-> i < m /\ j < n.
Proof.
  unfold pairs. rewrite in_flat_map. split.
  - intros (i0 & Hi & H). apply in_map_iff in H as (j0 & E & Hj). injection E as <- <-.
    apply in_seq in Hi, Hj. lia.
  - intros [Hi Hj]. exists i. split; [apply in_seq; lia|]. apply in_map_iff. exists j.
    split; [reflexivity|apply in_seq; lia].
Qed.

(** ** pmatprod_in_int(C,U,S), mat.h 1313-1361 (mpz), 1393-1444 (long), 1544-1608
    (__int128, after the exact conversion of U): iteration l works on the rows
    ibeg .. ibeg+mloc-1.  U is a private copy (call by value). *)
Definition ppi_cell (U : dmat) (ibeg n i j : nat) : list zop :=
  op_mul (i + ibeg, 0) (ent U 0 j) i j ::
  map (fun k => op_addmul (i + ibeg, k) (ent U k j) i j) (seq 1 (n - 1)).
Definition ppi_thread (U : dmat) (n ibeg mloc : nat) : list zop :=
  flat_map (fun ij => ppi_cell U ibeg n (fst ij) (snd ij)) (pairs mloc n) ++
  map (fun ij => op_write (fst ij + ibeg, snd ij) (fst ij) (snd ij)) (pairs mloc n).
Definition ppi_pool (m n : nat) (U : dmat) (S : nat) : pool loc Z tmat :=
  map (fun l => (fun _ _ => 0%Z, ppi_thread U n (slice_beg m S l) (slice_len m S l))) (seq 0 S).

(** slices are the blocks of getblock *)
Lemma slice_len_blk m S l : 0 < S -> slice_len m S l = blk_size m S l.
Proof.
  intros H. unfold slice_len, blk_size. pose proof (Nat.div_mod m S ltac:(lia)) as D.
  replace (m - m / S * S) with (m mod S) by lia.
  destruct (Nat.eqb_spec (m mod S) 0) as [E|E].
  - rewrite E. destruct (Nat.leb_spec (l + 1) 0); lia.
  - destruct (Nat.leb_spec (l + 1) (m mod S)), (Nat.ltb_spec l (m mod S)); lia.
Qed.

Lemma slice_beg_blk m S l : 0 < S -> slice_beg m S l = blk_beg m S l.
Proof.
  intros H. unfold slice_beg, blk_beg. pose proof (Nat.div_mod m S ltac:(lia)) as D.
  replace (m - m / S * S) with (m mod S) by lia. cbv zeta.
  destruct (Nat.eqb_spec (m mod S) 0) as [E|E].
  - rewrite E. destruct (Nat.leb_spec (l + 1) 0); lia.
  - destruct (Nat.leb_spec (l + 1) (m mod S)), (Nat.ltb_spec l (m mod S)); try lia; nia.
Qed.

(** *** effect of one thread *)

Lemma exec_cell (U : dmat) ibeg n i j (m : loc -> Z) t : 0 < n ->
  exists t', exec_prog loc_eqb (ppi_cell U ibeg n i j) m t = (m, t') /\
    (forall i' j', t' i' j' = if (i' =? i) && (j' =? j) then mmul n (fun r k => m (r + ibeg, k)) (ent U) i j else t i' j').
Proof.
  intros Hn. unfold ppi_cell. cbn [exec_prog exec_op op_sem op_reads op_writes op_mul map store nth].
  assert (G : forall l t, exists t', exec_prog loc_eqb (map (fun k => op_addmul (i + ibeg, k) (ent U k j) i j) l) m t = (m, t') /\
     forall i' j', t' i' j' = if (i' =? i) && (j' =? j) then fold_left (fun x k => (x + m ((i + ibeg)%nat, k) * ent U k j)%Z) l (t i j) else t i' j').
  { induction l as [|k l IH]; intros t0; cbn [map exec_prog exec_op op_sem op_reads op_writes op_addmul store nth fold_left].
    - exists t0. split; [reflexivity|]. intros i' j'.
      destruct (Nat.eqb_spec i' i) as [->|], (Nat.eqb_spec j' j) as [->|]; reflexivity.
    - destruct (IH (tset t0 i j (t0 i j + m ((i + ibeg)%nat, k) * ent U k j)%Z)) as (t' & E & H).
      exists t'. split; [exact E|]. intros i' j'. rewrite H. unfold tset at 1. rewrite !Nat.eqb_refl. cbn [andb].
      destruct (Nat.eqb_spec i' i) as [->|], (Nat.eqb_spec j' j) as [->|]; cbn [andb]; try reflexivity;
      unfold tset; rewrite ?Nat.eqb_refl; cbn; try reflexivity.
      + destruct (Nat.eqb_spec j' j); [contradiction|reflexivity].
      + destruct (Nat.eqb_spec i' i); [contradiction|reflexivity].
      + destruct (Nat.eqb_spec i' i); [contradiction|reflexivity]. }
  destruct (G (seq 1 (n - 1)) (tset t i j (m ((i + ibeg)%nat, 0%nat) * ent U 0%nat j)%Z)) as (t' & E & H).
  exists t'. split; [exact E|]. intros i' j'. rewrite H.
  unfold tset at 1. rewrite !Nat.eqb_refl. cbn [andb].
  destruct ((i' =? i) && (j' =? j)) eqn:Eij.
  - rewrite (fold_sum (n - 1) (fun k => (m ((i + ibeg)%nat, k) * ent U k j)%Z)).
    unfold mmul. replace n with (1 + (n - 1)) at 2 by lia. rewrite sumZ_split. cbn [sumZ]. lia.
  - unfold tset. now rewrite Eij.
Qed.

Definition inb (l : list (nat * nat)) (i j : nat) : bool := existsb (loc_eqb (i, j)) l.
Lemma inb_spec l i j : inb l i j = true <-> In (i, j) l.
Proof.
  unfold inb. rewrite existsb_exists. split.
  - intros (x & Hx & E). destruct (loc_eqb_spec (i, j) x); [now subst|discriminate].
  - intros H. exists (i, j). split; [exact H|]. unfold loc_eqb. now rewrite !Nat.eqb_refl.
Qed.

Lemma exec_cells (U : dmat) ibeg n L (m : loc -> Z) t : 0 < n ->
  exists t', exec_prog loc_eqb (flat_map (fun ij => ppi_cell U ibeg n (fst ij) (snd ij)) L) m t = (m, t') /\
    (forall i j, t' i j = if inb L i j then mmul n (fun r k => m (r + ibeg, k)) (ent U) i j else t i j).
Proof.
  intros Hn. revert t. induction L as [|[i j] L IH]; intros t; cbn [flat_map].
  - exists t. split; reflexivity.
  - cbn [fst snd]. rewrite exec_prog_app.
    destruct (exec_cell U ibeg n i j m t Hn) as (t1 & E1 & H1). rewrite E1. cbn [fst snd].
    destruct (IH t1) as (t' & E & H). exists t'. split; [exact E|].
    intros i' j'. rewrite H. unfold inb at 2. cbn [existsb]. fold (inb L i' j').
    unfold loc_eqb. cbn [fst snd]. rewrite H1.
    destruct ((i' =? i) && (j' =? j)) eqn:Eij; cbn [orb].
    + apply andb_true_iff in Eij as [Ei Ej]. apply Nat.eqb_eq in Ei, Ej. subst.
      destruct (inb L i j); reflexivity.
    + reflexivity.
Qed.

(** writing private cells at injective places *)
Lemma exec_writes (place : nat -> nat -> loc) (L : list (nat * nat)) (m : loc -> Z) (t : tmat) :
  (forall i j i' j', In (i, j) L -> In (i', j') L -> place i j = place i' j' -> (i, j) = (i', j')) ->
  exists m', exec_prog loc_eqb (map (fun ij => op_write (place (fst ij) (snd ij)) (fst ij) (snd ij)) L) m t = (m', t) /\
    (forall i j, In (i, j) L -> m' (place i j) = t i j) /\
    (forall x, (forall i j, In (i, j) L -> place i j <> x) -> m' x = m x).
Proof.
  revert m. induction L as [|[i j] L IH]; intros m INJ; cbn [map].
  - exists m. split; [reflexivity|]. split; [intros ? ? []|reflexivity].
  - cbn [exec_prog exec_op op_sem op_reads op_writes op_write store fst snd].
    destruct (IH (fun x => if loc_eqb x (place i j) then t i j else m x)) as (m' & E & H1 & H2).
    { intros; apply INJ; auto; now right. }
    exists m'. split; [exact E|]. split.
    + intros i' j' [Eq|Hin].
      * injection Eq as <- <-.
        assert (D : {In (i, j) L} + {~ In (i, j) L}).
        { apply in_dec. intros a b. destruct (loc_eqb_spec a b); auto. }
        destruct D as [D|D]; [now apply H1|].
        rewrite H2.
        -- destruct (loc_eqb_spec (place i j) (place i j)); congruence.
        -- intros i0 j0 H0 Eq. assert ((i0, j0) = (i, j)) by (apply INJ; auto; [now right|now left]). congruence.
      * now apply H1.
    + intros x Hx. rewrite H2 by (intros; apply Hx; now right).
      destruct (loc_eqb_spec x (place i j)) as [->|]; [|reflexivity]. exfalso. now apply (Hx i j); [left|].
Qed.

Lemma ppi_thread_effect (U : dmat) n ibeg mloc (m : loc -> Z) t x : 0 < n ->
  fst (exec_prog loc_eqb (ppi_thread U n ibeg mloc) m t) x =
  if (ibeg <=? fst x) && (fst x <? ibeg + mloc) && (snd x <? n)
  then mmul n (fun r k => m (r, k)) (ent U) (fst x) (snd x) else m x.
Proof.
  intros Hn. unfold ppi_thread. rewrite exec_prog_app.
  destruct (exec_cells U ibeg n (pairs mloc n) m t Hn) as (t1 & E1 & H1). rewrite E1. cbn [fst snd].
  destruct (exec_writes (fun i j => (i + ibeg, j)) (pairs mloc n) m t1) as (m' & E2 & H2 & H3).
  { intros i j i' j' _ _ E. injection E as E ->. f_equal. lia. }
  rewrite E2. cbn [fst]. destruct x as [r k]. cbn [fst snd].
  destruct ((ibeg <=? r) && (r <? ibeg + mloc) && (k <? n)) eqn:Eb.
  - rewrite !andb_true_iff, Nat.leb_le, !Nat.ltb_lt in Eb.
    specialize (H2 (r - ibeg) k). replace (r - ibeg + ibeg) with r in H2 by lia.
    assert (I : In (r - ibeg, k) (pairs mloc n)) by (apply in_pairs; lia).
    rewrite H2, H1 by exact I. apply inb_spec in I. rewrite I.
    unfold mmul. apply sumZ_ext. intros l Hl. f_equal. f_equal. f_equal. lia.
  - apply H3. intros i j Hij [= <- <-]. apply in_pairs in Hij.
    assert ((ibeg <=? i + ibeg) && (i + ibeg <? ibeg + mloc) && (j <? n) = true); [|congruence].
    rewrite !andb_true_iff, Nat.leb_le, !Nat.ltb_lt. lia.
Qed.

Lemma ppi_ops (U : dmat) n ibeg mloc o x : 0 < n -> In o (ppi_thread U n ibeg mloc) ->
  In x (op_reads o) \/ In x (op_writes o) -> ibeg <= fst x < ibeg + mloc /\ snd x < n.
Proof.
  intros Hn Ho Hx. unfold ppi_thread in Ho. apply in_app_iff in Ho as [Ho|Ho].
  - apply in_flat_map in Ho as ([i j] & Hij & Ho). apply in_pairs in Hij. cbn [fst snd] in Ho.
    destruct Ho as [<-|Ho].
    + cbn in Hx. destruct Hx as [[<-|[]]|[]]. cbn. lia.
    + apply in_map_iff in Ho as (k & <- & Hk). apply in_seq in Hk. cbn in Hx.
      destruct Hx as [[<-|[]]|[]]. cbn. lia.
  - apply in_map_iff in Ho as ([i j] & <- & Hij). apply in_pairs in Hij. cbn in Hx.
    destruct Hx as [[]|[<-|[]]]. cbn. lia.
Qed.

Lemma ppi_race_free m n U S : 0 < S -> 0 < n -> race_free (ppi_pool m n U S).
Proof.
  intros HS Hn. unfold ppi_pool.
  apply race_free_own with (own := fun l x => slice_beg m S l <= fst x < slice_beg m S l + slice_len m S l)
                           (ro := fun _ => False).
  - apply seq_NoDup.
  - intros a b x _ _ Ne Ha Hb. rewrite !slice_beg_blk, !slice_len_blk in * by assumption.
    destruct (blk_disjoint m S a b (fst x - blk_beg m S a) (fst x - blk_beg m S b)); auto; lia.
  - auto.
  - intros l o x Hl Ho Hx. cbn [snd] in Ho. eapply ppi_ops in Ho; eauto. tauto.
  - intros l o x Hl Ho Hx. cbn [snd] in Ho. left. eapply ppi_ops in Ho; eauto. tauto.
Qed.

Lemma ppi_correct m n U S (M M' : loc -> Z) : 0 < S -> 0 < n ->
  parallel_run loc_eqb (ppi_pool m n U S) M M' ->
  (forall i j, i < m -> j < n -> M' (i, j) = mmul n (fun r k => M (r, k)) (ent U) i j) /\
  (forall i j, m <= i \/ n <= j -> M' (i, j) = M (i, j)).
Proof.
  intros HS Hn H.
  pose proof (parallel_is_sequential loc_eqb loc_eqb_spec _ _ _ (ppi_race_free m n U S HS Hn) H) as E.
  destruct (pool_effect loc_eqb nat (seq 0 S)
     (fun l => (fun _ _ => 0%Z, ppi_thread U n (slice_beg m S l) (slice_len m S l)))
     (fun l x => (slice_beg m S l <=? fst x) && (fst x <? slice_beg m S l + slice_len m S l) && (snd x <? n))
     (fun _ => false)
     (fun l m x => mmul n (fun r k => m (r, k)) (ent U) (fst x) (snd x))) with (m := M) as [P1 P2].
  - apply seq_NoDup.
  - intros a b x _ _ Ne Ha Hb. rewrite !andb_true_iff, !Nat.leb_le, !Nat.ltb_lt in *.
    rewrite !slice_beg_blk, !slice_len_blk in * by assumption.
    destruct (blk_disjoint m S a b (fst x - blk_beg m S a) (fst x - blk_beg m S b)); auto; lia.
  - intros; discriminate.
  - intros l m0 x _. cbn [fst snd]. now apply ppi_thread_effect.
  - intros l m0 m1 x _ Ho Hm. unfold mmul. apply sumZ_ext. intros k Hk. rewrite Hm; [reflexivity|].
    left. cbn [fst snd]. rewrite !andb_true_iff, !Nat.leb_le, !Nat.ltb_lt in *. lia.
  - split.
    + intros i j Hi Hj. rewrite E.
      destruct (blk_cover m S i HS Hi) as (l & i0 & Hl & Hi0 & ->).
      apply (P1 l); [apply in_seq; lia|]. cbn [fst snd].
      rewrite !andb_true_iff, !Nat.leb_le, !Nat.ltb_lt, slice_beg_blk, slice_len_blk by assumption. lia.
    + intros i j Hij. rewrite E. apply P2. intros l Hl. apply in_seq in Hl. cbn [fst snd].
      destruct (_ && _) eqn:Eb; [|reflexivity]. exfalso.
      rewrite !andb_true_iff, !Nat.leb_le, !Nat.ltb_lt in Eb.
      rewrite !slice_beg_blk, !slice_len_blk in * by assumption.
      pose proof (blk_in_range m S l (i - blk_beg m S l)). lia.
Qed.

(** ** tpmatprod_in_int(C_in,U_in,S), mat.h 1448-1514: C and U are transposed
    copies, read-only in the loop; iteration l writes the columns
    ibeg .. ibeg+nloc-1 of C_in *)
Definition tppi_thread (C U : dmat) (m n ibeg nloc : nat) : list zop :=
  (* C = transpose(C_in) is n x m, U = transpose(U_in) *)
  flat_map (fun ij => let i := fst ij in let j := snd ij in
     op_local (fun t => tset t i j (ent C 0%nat j * ent U (i + ibeg)%nat 0%nat)%Z) ::
     map (fun k => op_local (fun t => tset t i j (t i j + ent C k j * ent U (i + ibeg)%nat k)%Z)) (seq 1 (n - 1)))
   (pairs nloc m) ++
  map (fun ij => op_write (snd ij, fst ij + ibeg) (fst ij) (snd ij)) (pairs nloc m).
Definition tppi_pool (C U : dmat) (m n S : nat) : pool loc Z tmat :=
  map (fun l => (fun _ _ => 0%Z, tppi_thread C U m n (slice_beg n S l) (slice_len n S l))) (seq 0 S).

Lemma exec_local_cells (f g : nat -> nat -> nat -> Z) n L (m : loc -> Z) (t : tmat) : 0 < n ->
  (* t(i,j) = sum over k < n of f i j k * g i j k *)
  exists t', exec_prog loc_eqb (flat_map (fun ij => let i := fst ij in let j := snd ij in
     op_local (fun t => tset t i j (f i j 0%nat * g i j 0%nat)%Z) ::
     map (fun k => op_local (fun t => tset t i j (t i j + f i j k * g i j k)%Z)) (seq 1 (n - 1))) L) m t = (m, t') /\
    forall i j, t' i j = if inb L i j then sumZ n (fun k => f i j k * g i j k)%Z else t i j.
Proof.
  intros Hn. revert t. induction L as [|[i j] L IH]; intros t; cbn [flat_map].
  - exists t. split; reflexivity.
  - cbn [fst snd]. rewrite exec_prog_app.
    assert (G : forall l t0, exists t', exec_prog loc_eqb (map (fun k => op_local (fun t => tset t i j (t i j + f i j k * g i j k)%Z)) l) m t0 = (m, t') /\
       forall i' j', t' i' j' = if (i' =? i) && (j' =? j) then fold_left (fun x k => (x + f i j k * g i j k)%Z) l (t0 i j) else t0 i' j').
    { induction l as [|k l IHl]; intros t0; cbn [map exec_prog exec_op op_sem op_reads op_writes op_local store fold_left].
      - exists t0. split; [reflexivity|]. intros i' j'.
        destruct (Nat.eqb_spec i' i) as [->|], (Nat.eqb_spec j' j) as [->|]; reflexivity.
      - destruct (IHl (tset t0 i j (t0 i j + f i j k * g i j k)%Z)) as (t' & E & H).
        exists t'. split; [exact E|]. intros i' j'. rewrite H. unfold tset at 1. rewrite !Nat.eqb_refl. cbn [andb].
        destruct ((i' =? i) && (j' =? j)) eqn:Eij; [reflexivity|]. unfold tset. now rewrite Eij. }
    cbn [exec_prog exec_op op_sem op_reads op_writes op_local store map].
    destruct (G (seq 1 (n - 1)) (tset t i j (f i j 0%nat * g i j 0%nat)%Z)) as (t1 & E1 & H1).
    rewrite E1. cbn [fst snd]. destruct (IH t1) as (t' & E & H). exists t'. split; [exact E|].
    intros i' j'. rewrite H, H1. unfold inb at 2. cbn [existsb]. fold (inb L i' j').
    unfold loc_eqb. cbn [fst snd]. unfold tset at 1. rewrite !Nat.eqb_refl. cbn [andb].
    destruct ((i' =? i) && (j' =? j)) eqn:Eij; cbn [orb].
    + apply andb_true_iff in Eij as [Ei Ej]. apply Nat.eqb_eq in Ei, Ej. subst.
      replace (fold_left (fun x k => (x + f i j k * g i j k)%Z) (seq 1 (n - 1)) (f i j 0%nat * g i j 0%nat)%Z)
        with (sumZ n (fun k => f i j k * g i j k)%Z).
      * destruct (inb L i j); reflexivity.
      * rewrite (fold_sum (n - 1) (fun k => (f i j k * g i j k)%Z)).
        replace n with (1 + (n - 1)) at 1 by lia. rewrite sumZ_split. cbn [sumZ]. lia.
    + destruct (inb L i' j'); [reflexivity|]. unfold tset. now rewrite Eij.
Qed.

Lemma tppi_thread_effect (C U : dmat) m n ibeg nloc (M : loc -> Z) t x : 0 < n ->
  fst (exec_prog loc_eqb (tppi_thread C U m n ibeg nloc) M t) x =
  if (ibeg <=? snd x) && (snd x <? ibeg + nloc) && (fst x <? m)
  then sumZ n (fun k => ent C k (fst x) * ent U (snd x) k)%Z else M x.
Proof.
  intros Hn. unfold tppi_thread. rewrite exec_prog_app.
  destruct (exec_local_cells (fun i j k => ent C k j) (fun i j k => ent U (i + ibeg) k) n (pairs nloc m) M t Hn)
    as (t1 & E1 & H1). cbn [fst snd] in *. rewrite E1. cbn [fst snd].
  destruct (exec_writes (fun i j => (j, i + ibeg)) (pairs nloc m) M t1) as (m' & E2 & H2 & H3).
  { intros i j i' j' _ _ E. injection E as -> E. f_equal. lia. }
  rewrite E2. cbn [fst]. destruct x as [r k]. cbn [fst snd].
  destruct ((ibeg <=? k) && (k <? ibeg + nloc) && (r <? m)) eqn:Eb.
  - rewrite !andb_true_iff, Nat.leb_le, !Nat.ltb_lt in Eb.
    specialize (H2 (k - ibeg) r). replace (k - ibeg + ibeg) with k in H2 by lia.
    assert (I : In (k - ibeg, r) (pairs nloc m)) by (apply in_pairs; lia).
    rewrite H2, H1 by exact I. apply inb_spec in I. rewrite I.
    apply sumZ_ext. intros l Hl. f_equal. f_equal. lia.
  - apply H3. intros i j Hij [= <- <-]. apply in_pairs in Hij.
    assert ((ibeg <=? i + ibeg) && (i + ibeg <? ibeg + nloc) && (j <? m) = true); [|congruence].
    rewrite !andb_true_iff, Nat.leb_le, !Nat.ltb_lt. lia.
Qed.

Lemma tppi_ops (C U : dmat) m n ibeg nloc o x : In o (tppi_thread C U m n ibeg nloc) ->
  In x (op_reads o) \/ In x (op_writes o) -> ibeg <= snd x < ibeg + nloc.
Proof.
  intros Ho Hx. unfold tppi_thread in Ho. apply in_app_iff in Ho as [Ho|Ho].
  - apply in_flat_map in Ho as ([i j] & Hij & Ho). cbn [fst snd] in Ho.
    destruct Ho as [<-|Ho].
    + cbn in Hx. tauto.
    + apply in_map_iff in Ho as (k & <- & Hk). cbn in Hx. tauto.
  - apply in_map_iff in Ho as ([i j] & <- & Hij). apply in_pairs in Hij. cbn in Hx.
    destruct Hx as [[]|[<-|[]]]. cbn. lia.
Qed.

Lemma tppi_race_free C U m n S : 0 < S -> race_free (tppi_pool C U m n S).
Proof.
  intros HS. unfold tppi_pool.
  apply race_free_own with (own := fun l x => slice_beg n S l <= snd x < slice_beg n S l + slice_len n S l)
                           (ro := fun _ => False).
  - apply seq_NoDup.
  - intros a b x _ _ Ne Ha Hb. rewrite !slice_beg_blk, !slice_len_blk in * by assumption.
    destruct (blk_disjoint n S a b (snd x - blk_beg n S a) (snd x - blk_beg n S b)); auto; lia.
  - auto.
  - intros l o x Hl Ho Hx. cbn [snd] in Ho. eapply tppi_ops in Ho; eauto.
  - intros l o x Hl Ho Hx. cbn [snd] in Ho. left. eapply tppi_ops in Ho; eauto.
Qed.

Lemma tppi_correct (Cin Uin C U : dmat) S (M' : loc -> Z) :
  dc Uin = dc Cin -> dr Uin = dc Cin -> 0 < S -> 0 < dc Cin ->
  transpose Cin = Ok C -> transpose Uin = Ok U ->
  parallel_run loc_eqb (tppi_pool C U (dr Cin) (dc Cin) S) (fun x => ent Cin (fst x) (snd x)) M' ->
  (forall i j, i < dr Cin -> j < dc Cin -> M' (i, j) = mmul (dc Cin) (ent Cin) (ent Uin) i j).
Proof.
  intros D1 D2 HS Hn TC TU H i j Hi Hj.
  pose proof (parallel_is_sequential loc_eqb loc_eqb_spec _ _ _ (tppi_race_free C U (dr Cin) (dc Cin) S HS) H) as E.
  set (n := dc Cin) in *. set (m := dr Cin) in *.
  destruct (pool_effect loc_eqb nat (seq 0 S)
     (fun l => (fun _ _ => 0%Z, tppi_thread C U m n (slice_beg n S l) (slice_len n S l)))
     (fun l x => (slice_beg n S l <=? snd x) && (snd x <? slice_beg n S l + slice_len n S l) && (fst x <? m))
     (fun _ => false)
     (fun l _ x => sumZ n (fun k => ent C k (fst x) * ent U (snd x) k)%Z)) with (m := fun x : loc => ent Cin (fst x) (snd x)) as [P1 P2].
  - apply seq_NoDup.
  - intros a b x _ _ Ne Ha Hb. rewrite !andb_true_iff, !Nat.leb_le, !Nat.ltb_lt in *.
    rewrite !slice_beg_blk, !slice_len_blk in * by assumption.
    destruct (blk_disjoint n S a b (snd x - blk_beg n S a) (snd x - blk_beg n S b)); auto; lia.
  - intros; discriminate.
  - intros l m0 x _. cbn [fst snd]. now apply tppi_thread_effect.
  - reflexivity.
  - rewrite E. destruct (blk_cover n S j HS Hj) as (l & i0 & Hl & Hi0 & ->).
    unfold tppi_pool. rewrite (P1 l); cbn [fst snd].
    + destruct (transpose_ok Cin) as (C' & EC & _ & RC & CC & VC). rewrite EC in TC. injection TC as ->.
      destruct (transpose_ok Uin) as (U' & EU & _ & RU & CU & VU). rewrite EU in TU. injection TU as ->.
      unfold mmul. apply sumZ_ext. intros k Hk. rewrite VC, VU; auto; try lia.
    + apply in_seq. lia.
    + rewrite !andb_true_iff, !Nat.leb_le, !Nat.ltb_lt, slice_beg_blk, slice_len_blk by assumption. lia.
Qed.
