(** * Parallel loops, continued: psize_update_B, pmatprod_in, pmatprod, pmaprod_diag_even *)
From Coq Require Import ZArith Lia List Bool Arith.
From Verif Require Import Base Spec Mat FP MatOps MatOpsFacts Par Hlll IntSteps HlllInt MatPar.
Import ListNotations.

(** ** psize_update_B, hlll.cc 1520-1636 *)
Section Psize.
Context {F : Type} (fp : fpops F) (c : cfg).

(** [v[r] = upd(v[r], w[r])] of psubcol/paddcol/psubmulcol/paddmulcol_si(_2exp), mat.h 320-440 *)
Definition op_upd (r kappa i : nat) (f : Z -> Z -> Z) : op loc Z unit :=
  mkOp [(r, kappa); (r, i)] [(r, kappa)] (fun l vs => (l, [f (nth 0 vs 0%Z) (nth 1 vs 0%Z)])).

Definition psz_thread (kappa from_i : nat) (vx : list F) (ibeg nloc : nat) : list (op loc Z unit) :=
  flat_map (fun i =>
    let xf := nth i vx (fzero fp) in
    if fnz fp xf then
      let '(lx, expo) := fgse fp xf in
      map (fun r => op_upd r kappa i (bop c lx expo (fset_f fp xf))) (seq ibeg nloc)
    else []) (down from_i 0).
Definition psz_pool (kappa from_i : nat) (vx : list F) (nmax S : nat) : pool loc Z unit :=
  map (fun l => (tt, psz_thread kappa from_i vx (slice_beg nmax S l) (slice_len nmax S l))) (seq 0 S).

Lemma psz_ops kappa from_i vx ibeg nloc o x : In o (psz_thread kappa from_i vx ibeg nloc) ->
  In x (op_reads o) \/ In x (op_writes o) -> ibeg <= fst x < ibeg + nloc.
Proof.
  intros Ho Hx. unfold psz_thread in Ho. apply in_flat_map in Ho as (i & Hi & Ho).
  destruct (fnz fp _); [|destruct Ho]. destruct (fgse fp _) as [lx expo].
  apply in_map_iff in Ho as (r & <- & Hr). apply in_seq in Hr. cbn in Hx.
  destruct Hx as [[<-|[<-|[]]]|[<-|[]]]; cbn; lia.
Qed.

Lemma psz_race_free kappa from_i vx nmax S : 0 < S -> race_free (psz_pool kappa from_i vx nmax S).
Proof.
  intros HS. unfold psz_pool.
  apply race_free_own with (own := fun l x => slice_beg nmax S l <= fst x < slice_beg nmax S l + slice_len nmax S l)
                           (ro := fun _ => False).
  - apply seq_NoDup.
  - intros a b x _ _ Ne Ha Hb. rewrite !slice_beg_blk, !slice_len_blk in * by assumption.
    destruct (blk_disjoint nmax S a b (fst x - blk_beg nmax S a) (fst x - blk_beg nmax S b)); auto; lia.
  - auto.
  - intros l o x Hl Ho Hx. cbn [snd] in Ho. eapply psz_ops in Ho; eauto.
  - intros l o x Hl Ho Hx. cbn [snd] in Ho. left. eapply psz_ops in Ho; eauto.
Qed.

Lemma exec_upds kappa i f ibeg nloc (m : loc -> Z) x : i <> kappa ->
  fst (exec_prog loc_eqb (map (fun r => op_upd r kappa i f) (seq ibeg nloc)) m tt) x =
  if (snd x =? kappa) && ((ibeg <=? fst x) && (fst x <? ibeg + nloc))
  then f (m (fst x, kappa)) (m (fst x, i)) else m x.
Proof.
  intros Ne. revert ibeg m. induction nloc as [|k IH]; intros ibeg m; cbn [seq map].
  - cbn [exec_prog fst]. rewrite Nat.add_0_r.
    replace ((ibeg <=? fst x) && (fst x <? ibeg)) with false.
    2:{ symmetry. destruct (Nat.leb_spec ibeg (fst x)), (Nat.ltb_spec (fst x) ibeg); auto; lia. }
    now rewrite andb_false_r.
  - cbn [exec_prog exec_op op_sem op_reads op_writes op_upd map store nth].
    rewrite IH. destruct x as [r j]. cbn [fst snd].
    destruct (loc_eqb_spec (r, j) (ibeg, kappa)) as [E|E].
    + injection E as -> ->. rewrite Nat.eqb_refl. cbn [andb].
      replace (S ibeg <=? ibeg) with false by (symmetry; apply Nat.leb_gt; lia). cbn [andb].
      replace (ibeg <=? ibeg) with true by (symmetry; apply Nat.leb_le; lia).
      replace (ibeg <? ibeg + S k) with true by (symmetry; apply Nat.ltb_lt; lia). reflexivity.
    + destruct (Nat.eqb_spec j kappa) as [->|Nj]; cbn [andb]; [|reflexivity].
      assert (r <> ibeg) by congruence.
      replace (S ibeg <=? r) with (ibeg <=? r).
      2:{ destruct (Nat.leb_spec ibeg r), (Nat.leb_spec (S ibeg) r); auto; lia. }
      replace (S ibeg + k) with (ibeg + S k) by lia.
      destruct ((ibeg <=? r) && (r <? ibeg + S k)); [|reflexivity].
      destruct (loc_eqb_spec (r, i) (ibeg, kappa)); [congruence|].
      destruct (loc_eqb_spec (r, kappa) (ibeg, kappa)); [congruence|]. reflexivity.
Qed.

Lemma psz_thread_effect kappa from_i vx ibeg nloc (m : loc -> Z) x : from_i < kappa ->
  fst (exec_prog loc_eqb (psz_thread kappa from_i vx ibeg nloc) m tt) x =
  if (snd x =? kappa) && ((ibeg <=? fst x) && (fst x <? ibeg + nloc))
  then fold_left (fun v i => updx fp c vx i v (m (fst x, i))) (down from_i 0) (m (fst x, kappa)) else m x.
Proof.
  intros Hf. unfold psz_thread.
  assert (G : forall is m, (forall i, In i is -> i < kappa) ->
    fst (exec_prog loc_eqb (flat_map (fun i => let xf := nth i vx (fzero fp) in
    if fnz fp xf then
      let '(lx, expo) := fgse fp xf in
      map (fun r => op_upd r kappa i (bop c lx expo (fset_f fp xf))) (seq ibeg nloc)
    else []) is) m tt) x =
    if (snd x =? kappa) && ((ibeg <=? fst x) && (fst x <? ibeg + nloc))
    then fold_left (fun v i => updx fp c vx i v (m (fst x, i))) is (m (fst x, kappa)) else m x).
  { induction is as [|i is IH]; intros m0 Hin; cbn [flat_map].
    - cbn [exec_prog fst snd fold_left]. destruct x as [r j]. cbn [fst snd]. destruct (Nat.eqb_spec j kappa) as [->|]; cbn [andb]; [|reflexivity].
      now destruct ((ibeg <=? r) && (r <? ibeg + nloc)).
    - rewrite exec_prog_app. destruct (snd (exec_prog loc_eqb _ m0 tt)).
      rewrite IH by (intros; apply Hin; now right).
      assert (Hi : i < kappa) by (apply Hin; now left).
      set (p := (if fnz fp (nth i vx (fzero fp)) then
                   let '(lx, expo) := fgse fp (nth i vx (fzero fp)) in
                   map (fun r => op_upd r kappa i (bop c lx expo (fset_f fp (nth i vx (fzero fp))))) (seq ibeg nloc)
                 else [])).
      assert (E : forall y, fst (exec_prog loc_eqb p m0 tt) y =
         if (snd y =? kappa) && ((ibeg <=? fst y) && (fst y <? ibeg + nloc))
         then updx fp c vx i (m0 (fst y, kappa)) (m0 (fst y, i)) else m0 y).
      { intros y. unfold p, updx. destruct (fnz fp (nth i vx (fzero fp))) eqn:Ez.
        - destruct (fgse fp (nth i vx (fzero fp))) as [lx expo]. cbn [fst snd]. apply exec_upds. lia.
        - cbn [exec_prog fst snd]. destruct y as [r j]. cbn [fst snd]. destruct (Nat.eqb_spec j kappa) as [->|]; cbn [andb]; [|reflexivity].
          now destruct ((ibeg <=? r) && (r <? ibeg + nloc)). }
      destruct x as [r j]. cbn [fst snd] in *.
      destruct (Nat.eqb_spec j kappa) as [->|Nj]; cbn [andb].
      + destruct ((ibeg <=? r) && (r <? ibeg + nloc)) eqn:Er.
        * cbn [fold_left]. rewrite E. cbn [fst snd]. rewrite Nat.eqb_refl, Er. cbn [andb].
          assert (X : forall is0 v, (forall i, In i is0 -> i < kappa) ->
             fold_left (fun v i => updx fp c vx i v (fst (exec_prog loc_eqb p m0 tt) (r, i))) is0 v =
             fold_left (fun v i => updx fp c vx i v (m0 (r, i))) is0 v).
          { induction is0 as [|q is0 IH0]; intros v Hq; cbn [fold_left]; [reflexivity|].
            rewrite E. cbn [fst snd]. assert (q < kappa) by (apply Hq; now left).
            replace (q =? kappa) with false by (symmetry; apply Nat.eqb_neq; lia). cbn [andb].
            apply IH0. intros; apply Hq; now right. }
          apply X. intros; apply Hin; now right.
        * rewrite E. cbn [fst snd]. now rewrite Nat.eqb_refl, Er.
      + rewrite E. cbn [fst snd]. destruct (Nat.eqb_spec j kappa); [contradiction|]. reflexivity. }
  apply G. intros i Hi. apply in_down in Hi. lia.
Qed.

Lemma psz_parallel kappa from_i vx nmax S (M M' : loc -> Z) : 0 < S -> from_i < kappa ->
  parallel_run loc_eqb (psz_pool kappa from_i vx nmax S) M M' ->
  forall r j, M' (r, j) =
    if (j =? kappa) && (r <? nmax)
    then fold_left (fun v i => updx fp c vx i v (M (r, i))) (down from_i 0) (M (r, kappa)) else M (r, j).
Proof.
  intros HS Hf H r j.
  pose proof (parallel_is_sequential loc_eqb loc_eqb_spec _ _ _ (psz_race_free kappa from_i vx nmax S HS) H) as E.
  rewrite E.
  set (g := fun (l : nat) (m : loc -> Z) (x : loc) =>
     if snd x =? kappa then fold_left (fun v i => updx fp c vx i v (m (fst x, i))) (down from_i 0) (m (fst x, kappa)) else m x).
  destruct (pool_effect loc_eqb nat (seq 0 S)
     (fun l => (tt, psz_thread kappa from_i vx (slice_beg nmax S l) (slice_len nmax S l)))
     (fun l x => (slice_beg nmax S l <=? fst x) && (fst x <? slice_beg nmax S l + slice_len nmax S l))
     (fun _ => false) g) with (m := M) as [P1 P2].
  - apply seq_NoDup.
  - intros a b x _ _ Ne Ha Hb. rewrite !andb_true_iff, !Nat.leb_le, !Nat.ltb_lt in *.
    rewrite !slice_beg_blk, !slice_len_blk in * by assumption.
    destruct (blk_disjoint nmax S a b (fst x - blk_beg nmax S a) (fst x - blk_beg nmax S b)); auto; lia.
  - intros; discriminate.
  - intros l m x _. cbn [fst snd]. rewrite psz_thread_effect by assumption. unfold g.
    destruct (snd x =? kappa); cbn [andb]; [reflexivity|]. destruct (_ && _); reflexivity.
  - intros l m m' x _ Ho Hm. unfold g. destruct (snd x =? kappa); [|now apply Hm; left].
    assert (X : forall k, m (fst x, k) = m' (fst x, k)) by (intros k; apply Hm; now left).
    rewrite X. generalize (m' (fst x, kappa)). induction (down from_i 0) as [|i is IH]; intros v; cbn [fold_left]; [reflexivity|].
    rewrite X. apply IH.
  - destruct (Nat.ltb_spec r nmax) as [L|L].
    + destruct (blk_cover nmax S r HS L) as (l & i0 & Hl & Hi0 & Er).
      unfold psz_pool. rewrite (P1 l); [|apply in_seq; lia|].
      * unfold g. cbn [fst snd]. destruct (j =? kappa); reflexivity.
      * cbn [fst]. rewrite !andb_true_iff, !Nat.leb_le, !Nat.ltb_lt, slice_beg_blk, slice_len_blk by assumption. lia.
    + unfold psz_pool. rewrite P2; [now rewrite andb_false_r|].
      intros l Hl. apply in_seq in Hl. cbn [fst]. destruct (_ && _) eqn:Eb; [|reflexivity]. exfalso.
      rewrite !andb_true_iff, !Nat.leb_le, !Nat.ltb_lt in Eb.
      rewrite !slice_beg_blk, !slice_len_blk in * by assumption.
      pose proof (blk_in_range nmax S l (r - blk_beg nmax S l)). lia.
Qed.

(** every schedule gives the matrix computed by the sequential model of the loop *)
Lemma psz_is_model kappa from_i vx nmax (B : mat Z) (M' : loc -> Z) :
  0 < cS c -> wfm (cn c) (cd c) B -> from_i < kappa -> kappa < cd c ->
  parallel_run loc_eqb (psz_pool kappa from_i vx nmax (cS c)) (fun x => mget 0%Z B (fst x) (snd x)) M' ->
  forall r j, r < cn c ->
    M' (r, j) = mget 0%Z (fold_left (fun B l => psize_thread fp c kappa from_i vx nmax (cS c) l B) (seq 0 (cS c)) B) r j.
Proof.
  intros HS W Hf Hk H r j Hr. rewrite (psz_parallel _ _ _ _ _ _ _ HS Hf H).
  rewrite threads_get by (auto; lia). rewrite slice_beg_last by lia. reflexivity.
Qed.
End Psize.

(** the integer coefficient subtracted for a given floating-point coefficient *)
Definition xcoef {F} (fp : fpops F) (c : cfg) (x : F) : Z :=
  if fnz fp x then bcoef c (fst (fgse fp x)) (snd (fgse fp x)) (fset_f fp x) else 0%Z.

Lemma updx_coef {F} (fp : fpops F) c vx i v w : expo_nonneg fp ->
  updx fp c vx i v w = (v - xcoef fp c (nth i vx (fzero fp)) * w)%Z.
Proof.
  intros EX. unfold updx, xcoef. destruct (fnz fp _); [|lia].
  rewrite bop_redf by apply EX. reflexivity.
Qed.

Lemma fold_updx {F} (fp : fpops F) c vx is (g : nat -> Z) v : expo_nonneg fp ->
  fold_left (fun v i => updx fp c vx i v (g i)) is v =
  (v - fold_right (fun i a => xcoef fp c (nth i vx (fzero fp)) * g i + a) 0 is)%Z.
Proof.
  intros EX. revert v. induction is as [|i is IH]; intros v; cbn [fold_left fold_right]; [lia|].
  rewrite IH, updx_coef by assumption. lia.
Qed.

Lemma fold_right_rev_seq (h : nat -> Z) k :
  fold_right (fun i a => h i + a)%Z 0%Z (rev (seq 0 k)) = sumZ k h.
Proof.
  induction k as [|k IH]; [reflexivity|]. rewrite seq_S, rev_app_distr. cbn [rev app fold_right Nat.add sumZ].
  rewrite IH. lia.
Qed.

Lemma fold_updx_sum {F} (fp : fpops F) c vx from (g : nat -> Z) v : expo_nonneg fp ->
  fold_left (fun v i => updx fp c vx i v (g i)) (down from 0) v =
  (v - sumZ (from + 1) (fun i => xcoef fp c (nth i vx (fzero fp)) * g i))%Z.
Proof.
  intros EX. rewrite fold_updx by assumption. f_equal.
  unfold down. replace (S from - 0) with (from + 1) by lia.
  apply (fold_right_rev_seq (fun i => xcoef fp c (nth i vx (fzero fp)) * g i)%Z).
Qed.

(** ** pmatprod_in(C,U,S), mat.h 1738-1777: Sm = m/S rows per iteration *)
Definition local_prod (n p : nat) (U : zmat) (t : tmat) : tmat := fun i j => sumZ n (fun k => t i k * U k j)%Z.

Definition pin_thread (U : dmat) (n Sm l : nat) : list zop :=
  map (fun ij => op_read (l * Sm + fst ij, snd ij) (fst ij) (snd ij)) (pairs Sm n) ++
  op_local (local_prod n (dc U) (ent U)) ::
  map (fun ij => op_write (l * Sm + fst ij, snd ij) (fst ij) (snd ij)) (pairs Sm n).
Definition pin_pool (m n : nat) (U : dmat) (S : nat) : pool loc Z tmat :=
  map (fun l => (fun _ _ => 0%Z, pin_thread U n (m / S) l)) (seq 0 S).

(** ** Generic read/local/write threads over any location type *)
Section RLW.
Context {L : Type} (eqb : L -> L -> bool) (eqb_spec : forall a b, reflect (a = b) (eqb a b)).

Definition rd (a : L) (i j : nat) : op L Z tmat := mkOp [a] [] (fun t vs => (tset t i j (nth 0 vs 0%Z), [])).
Definition lc (f : tmat -> tmat) : op L Z tmat := mkOp [] [] (fun t _ => (f t, [])).
Definition wr (a : L) (i j : nat) : op L Z tmat := mkOp [] [a] (fun t _ => (t, [t i j])).

(** read the cells of [Rs] from [src], compute, write the cells of [Ws] at [dst] *)
Definition rlw (src : nat -> nat -> L) (Rs : list (nat * nat)) (f : tmat -> tmat)
           (dst : nat -> nat -> L) (Ws : list (nat * nat)) : list (op L Z tmat) :=
  map (fun ij => rd (src (fst ij) (snd ij)) (fst ij) (snd ij)) Rs ++
  lc f :: map (fun ij => wr (dst (fst ij) (snd ij)) (fst ij) (snd ij)) Ws.

Lemma exec_rds src Rs (m : L -> Z) t : exists t',
  exec_prog eqb (map (fun ij => rd (src (fst ij) (snd ij)) (fst ij) (snd ij)) Rs) m t = (m, t') /\
  forall i j, t' i j = if inb Rs i j then m (src i j) else t i j.
Proof.
  revert t. induction Rs as [|[i j] Rs IH]; intros t; cbn [map].
  - exists t. split; reflexivity.
  - cbn [exec_prog exec_op op_sem op_reads op_writes rd store map fst snd nth].
    destruct (IH (tset t i j (m (src i j)))) as (t' & E & H). exists t'. split; [exact E|].
    intros i' j'. rewrite H. unfold inb at 2. cbn [existsb]. fold (inb Rs i' j').
    unfold loc_eqb. cbn [fst snd]. destruct ((i' =? i) && (j' =? j)) eqn:Eij; cbn [orb].
    + pose proof Eij as Eij'. apply andb_true_iff in Eij' as [Ei Ej]. apply Nat.eqb_eq in Ei, Ej. subst.
      unfold tset. rewrite Eij. destruct (inb Rs i j); reflexivity.
    + unfold tset. rewrite Eij. reflexivity.
Qed.

Lemma exec_wrs dst Ws (m : L -> Z) (t : tmat) :
  (forall i j i' j', In (i, j) Ws -> In (i', j') Ws -> dst i j = dst i' j' -> (i, j) = (i', j')) ->
  exists m', exec_prog eqb (map (fun ij => wr (dst (fst ij) (snd ij)) (fst ij) (snd ij)) Ws) m t = (m', t) /\
    (forall i j, In (i, j) Ws -> m' (dst i j) = t i j) /\
    (forall x, (forall i j, In (i, j) Ws -> dst i j <> x) -> m' x = m x).
Proof.
  revert m. induction Ws as [|[i j] Ws IH]; intros m INJ; cbn [map].
  - exists m. split; [reflexivity|]. split; [intros ? ? []|reflexivity].
  - cbn [exec_prog exec_op op_sem op_reads op_writes wr store fst snd].
    destruct (IH (fun x => if eqb x (dst i j) then t i j else m x)) as (m' & E & H1 & H2).
    { intros; apply INJ; auto; now right. }
    exists m'. split; [exact E|]. split.
    + intros i' j' [Eq|Hin].
      * injection Eq as <- <-.
        assert (D : {In (i, j) Ws} + {~ In (i, j) Ws}).
        { apply in_dec. intros a b. destruct (loc_eqb_spec a b); auto. }
        destruct D as [D|D]; [now apply H1|].
        rewrite H2.
        -- destruct (eqb_spec (dst i j) (dst i j)); congruence.
        -- intros i0 j0 H0 Eq. assert ((i0, j0) = (i, j)) by (apply INJ; auto; [now right|now left]). congruence.
      * now apply H1.
    + intros x Hx. rewrite H2 by (intros; apply Hx; now right).
      destruct (eqb_spec x (dst i j)) as [->|]; [|reflexivity]. exfalso. now apply (Hx i j); [left|].
Qed.

Lemma rlw_effect src Rs f dst Ws (m : L -> Z) t0 :
  (forall i j i' j', In (i, j) Ws -> In (i', j') Ws -> dst i j = dst i' j' -> (i, j) = (i', j')) ->
  exists t', (forall i j, t' i j = if inb Rs i j then m (src i j) else t0 i j) /\
    (forall i j, In (i, j) Ws -> fst (exec_prog eqb (rlw src Rs f dst Ws) m t0) (dst i j) = f t' i j) /\
    (forall x, (forall i j, In (i, j) Ws -> dst i j <> x) -> fst (exec_prog eqb (rlw src Rs f dst Ws) m t0) x = m x).
Proof.
  intros INJ. unfold rlw. rewrite exec_prog_app.
  destruct (exec_rds src Rs m t0) as (t' & E & H). rewrite E. cbn [fst snd].
  cbn [exec_prog exec_op op_sem op_reads op_writes lc store map].
  destruct (exec_wrs dst Ws m (f t') INJ) as (m' & E2 & H1 & H2). rewrite E2. cbn [fst].
  exists t'. auto.
Qed.

Lemma rlw_reads src Rs f dst Ws o x : In o (rlw src Rs f dst Ws) -> In x (op_reads o) ->
  exists i j, In (i, j) Rs /\ x = src i j.
Proof.
  unfold rlw. rewrite in_app_iff. cbn [In]. intros [H|[<-|H]] Hx.
  - apply in_map_iff in H as ([i j] & <- & H). cbn in Hx. destruct Hx as [<-|[]]. eauto.
  - destruct Hx.
  - apply in_map_iff in H as ([i j] & <- & H). destruct Hx.
Qed.
Lemma rlw_writes src Rs f dst Ws o x : In o (rlw src Rs f dst Ws) -> In x (op_writes o) ->
  exists i j, In (i, j) Ws /\ x = dst i j.
Proof.
  unfold rlw. rewrite in_app_iff. cbn [In]. intros [H|[<-|H]] Hx.
  - apply in_map_iff in H as ([i j] & <- & H). destruct Hx.
  - destruct Hx.
  - apply in_map_iff in H as ([i j] & <- & H). cbn in Hx. destruct Hx as [<-|[]]. eauto.
Qed.
End RLW.

Lemma pin_thread_rlw U n Sm l :
  pin_thread U n Sm l = rlw (fun i j => (l * Sm + i, j)) (pairs Sm n) (local_prod n (dc U) (ent U))
                            (fun i j => (l * Sm + i, j)) (pairs Sm n).
Proof. reflexivity. Qed.

Lemma pin_thread_effect U n Sm l (m : loc -> Z) x :
  fst (exec_prog loc_eqb (pin_thread U n Sm l) m (fun _ _ => 0%Z)) x =
  if (l * Sm <=? fst x) && (fst x <? l * Sm + Sm) && (snd x <? n)
  then mmul n (fun r k => m (r, k)) (ent U) (fst x) (snd x) else m x.
Proof.
  rewrite pin_thread_rlw.
  edestruct (rlw_effect loc_eqb loc_eqb_spec (fun i j => (l * Sm + i, j)) (pairs Sm n) (local_prod n (dc U) (ent U))
     (fun i j => (l * Sm + i, j)) (pairs Sm n) m (fun _ _ => 0%Z)) as (t' & H1 & H2 & H3).
  { intros i j i' j' _ _ E. injection E as E ->. f_equal. lia. }
  destruct x as [r k]. cbn [fst snd].
  destruct ((l * Sm <=? r) && (r <? l * Sm + Sm) && (k <? n)) eqn:Eb.
  - rewrite !andb_true_iff, Nat.leb_le, !Nat.ltb_lt in Eb.
    specialize (H2 (r - l * Sm) k). cbv beta in H2. replace (l * Sm + (r - l * Sm)) with r in H2 by lia.
    etransitivity; [apply H2; apply in_pairs; lia|]. unfold local_prod, mmul. apply sumZ_ext. intros q Hq.
    rewrite H1. assert (I : inb (pairs Sm n) (r - l * Sm) q = true) by (apply inb_spec, in_pairs; lia).
    rewrite I. f_equal. f_equal. f_equal. lia.
  - apply H3. intros i j Hij [= <- <-]. apply in_pairs in Hij.
    assert ((l * Sm <=? l * Sm + i) && (l * Sm + i <? l * Sm + Sm) && (j <? n) = true); [|congruence].
    rewrite !andb_true_iff, Nat.leb_le, !Nat.ltb_lt. lia.
Qed.

Lemma pin_race_free m n U S : race_free (pin_pool m n U S).
Proof.
  unfold pin_pool.
  apply race_free_own with (own := fun l x => l * (m / S) <= fst x < l * (m / S) + m / S)
                           (ro := fun _ => False).
  - apply seq_NoDup.
  - intros a b x _ _ Ne Ha Hb. assert (a < b \/ b < a) as [L|L] by lia; nia.
  - auto.
  - intros l o x Hl Ho Hx. cbn [snd] in Ho. rewrite pin_thread_rlw in Ho.
    destruct (rlw_writes _ _ _ _ _ _ _ Ho Hx) as (i & j & H & ->). apply in_pairs in H. cbn. lia.
  - intros l o x Hl Ho Hx. cbn [snd] in Ho. rewrite pin_thread_rlw in Ho. left.
    destruct (rlw_reads _ _ _ _ _ _ _ Ho Hx) as (i & j & H & ->). apply in_pairs in H. cbn. lia.
Qed.

(** the rows that are multiplied are the first S*(m/S) *)
Lemma pin_correct m n U S (M M' : loc -> Z) : 0 < S ->
  parallel_run loc_eqb (pin_pool m n U S) M M' ->
  (forall i j, i < S * (m / S) -> j < n -> M' (i, j) = mmul n (fun r k => M (r, k)) (ent U) i j) /\
  (forall i j, S * (m / S) <= i \/ n <= j -> M' (i, j) = M (i, j)).
Proof.
  intros HS H.
  pose proof (parallel_is_sequential loc_eqb loc_eqb_spec _ _ _ (pin_race_free m n U S) H) as E.
  set (q := m / S) in *.
  destruct (pool_effect loc_eqb nat (seq 0 S)
     (fun l => (fun _ _ => 0%Z, pin_thread U n (m / S) l))
     (fun l x => (l * q <=? fst x) && (fst x <? l * q + q) && (snd x <? n))
     (fun _ => false)
     (fun l m x => mmul n (fun r k => m (r, k)) (ent U) (fst x) (snd x))) with (m := M) as [P1 P2].
  - apply seq_NoDup.
  - intros a b x _ _ Ne Ha Hb. rewrite !andb_true_iff, !Nat.leb_le, !Nat.ltb_lt in *.
    assert (a < b \/ b < a) as [L|L] by lia; nia.
  - intros; discriminate.
  - intros l m0 x _. cbn [fst snd]. apply pin_thread_effect.
  - intros l m0 m1 x _ Ho Hm. unfold mmul. apply sumZ_ext. intros k Hk. rewrite Hm; [reflexivity|].
    left. cbn [fst snd]. rewrite !andb_true_iff, !Nat.leb_le, !Nat.ltb_lt in *. lia.
  - split.
    + intros i j Hi Hj. rewrite E. unfold pin_pool. fold q.
      assert (q <> 0) by nia.
      rewrite (P1 (i / q)); [reflexivity| |].
      * apply in_seq. split; [apply Nat.le_0_l|]. rewrite Nat.add_0_l. apply Nat.div_lt_upper_bound; [assumption|]. rewrite (Nat.mul_comm q). assumption.
      * cbn [fst snd]. rewrite !andb_true_iff, !Nat.leb_le, !Nat.ltb_lt.
        pose proof (Nat.div_mod i q ltac:(lia)) as Ed. pose proof (Nat.mod_upper_bound i q ltac:(lia)) as Em.
        rewrite (Nat.mul_comm q) in Ed. lia.
    + intros i j Hij. rewrite E. apply P2. intros l Hl. apply in_seq in Hl. cbn [fst snd].
      destruct (_ && _) eqn:Eb; [|reflexivity]. exfalso.
      rewrite !andb_true_iff, !Nat.leb_le, !Nat.ltb_lt in Eb. nia.
Qed.
