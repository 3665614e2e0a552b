(** * The parallel loops of [SLattice::hlll]: block reductions (slll.cc 154-190, 270-298) and pmatprod (2104-2192) *)
From Coq Require Import ZArith Lia List Bool Arith.
From Coq Require Import ZifyBool ZifyNat.
From Verif Require Import Base Spec Mat FP Hlll Hlll2 HlllInt Structure Par MatPar MatPar2 Slll SlllInt.
Import ListNotations.

(** ** Shared locations of the loop over the blocks: U_even/U_odd, swapstab, lovtests and the counter nbswaps *)
Inductive sloc := PU (i j : nat) | PSwap (k : nat) | PLov (k : nat) | PNb.
Definition sloc_eqb (a b : sloc) : bool :=
  match a, b with
  | PU i j, PU i' j' => (i =? i') && (j =? j')
  | PSwap k, PSwap k' => k =? k'
  | PLov k, PLov k' => k =? k'
  | PNb, PNb => true
  | _, _ => false
  end.
Lemma sloc_eqb_spec a b : reflect (a = b) (sloc_eqb a b).
Proof.
  destruct a as [i j|k|k|], b as [i' j'|k'|k'|]; cbn; try (constructor; congruence).
  - destruct (Nat.eqb_spec i i'), (Nat.eqb_spec j j'); cbn; constructor; congruence.
  - destruct (Nat.eqb_spec k k'); constructor; congruence.
  - destruct (Nat.eqb_spec k k'); constructor; congruence.
Qed.

(** the three kinds of accesses: load into a register, store register + constant, store a constant.
    x += k is a load followed by a store: nothing makes it atomic in the C++ code *)
Inductive acc := Ld (a : sloc) | StInc (a : sloc) (k : Z) | StC (a : sloc) (v : Z).
Definition regs := sloc -> Z.
Definition acc_loc (o : acc) : sloc := match o with Ld a => a | StInc a _ => a | StC a _ => a end.
Definition acc_op (o : acc) : op sloc Z regs :=
  match o with
  | Ld a => mkOp [a] [] (fun l vs => ((fun x => if sloc_eqb x a then nth 0 vs 0%Z else l x), []))
  | StInc a k => mkOp [] [a] (fun l _ => (l, [(l a + k)%Z]))
  | StC a v => mkOp [] [a] (fun l _ => (l, [v]))
  end.
Definition apool := list (regs * list acc).
Definition to_pool (q : apool) : pool sloc Z regs := map (fun t => (fst t, map acc_op (snd t))) q.

(** one iteration of the loop: [sh] = k*S + shift, [t] = 2k or 2k+1 *)
Definition block_thread (sdim off odd : nat) (out : nat -> mat Z * Z * Z) (k : nat) : list acc :=
  let '(Uk, nsw, nlov) := out k in
  [Ld (PSwap (2 * k + odd)); StInc (PSwap (2 * k + odd)) nsw; Ld PNb; StInc PNb nsw] ++
  map (fun ij => StC (PU (k * sdim + off + fst ij) (k * sdim + off + snd ij)) (fn Uk (fst ij) (snd ij))) (pairs sdim sdim) ++
  [StC (PLov k) nlov].
Definition block_pool (sdim off odd nb : nat) (out : nat -> mat Z * Z * Z) : apool :=
  map (fun k => ((fun _ => 0%Z), block_thread sdim off odd out k)) (seq 0 nb).

(** ** Erasing the accesses to nbswaps *)
Definition keep (o : acc) : bool := negb (sloc_eqb (acc_loc o) PNb).
Definition erase (q : apool) : apool := map (fun t => (fst t, filter keep (snd t))) q.

Definition agree (f g : sloc -> Z) : Prop := forall x, x <> PNb -> f x = g x.
Definition trel (t t' : regs * list acc) : Prop := agree (fst t) (fst t') /\ snd t' = filter keep (snd t).

Notation step := (pstep sloc_eqb).
Notation steps := (psteps sloc_eqb).

Lemma erase_step m q m' q' m1 q1 : step (m, to_pool q) (m', q') -> agree m m1 -> Forall2 trel q q1 ->
  exists q2 m2 q2', q' = to_pool q2 /\ agree m' m2 /\ Forall2 trel q2 q2' /\ steps (m1, to_pool q1) (m2, to_pool q2').
Proof.
  intros H Hm HT. remember (m, to_pool q) as c1 eqn:E0. remember (m', q') as c2 eqn:E2.
  destruct H as [p1 p2 l o p m0]. injection E0 as -> E1. injection E2 as <- <-.
  unfold to_pool in E1. symmetry in E1. apply map_eq_app in E1 as (qa & qb & -> & Ea & Eb).
  destruct qb as [|[l0 prog] qb]; [discriminate|]. cbn [map] in Eb. injection Eb as El Ep Eb. cbn [fst snd] in El, Ep. subst l0.
  destruct prog as [|a prog]; [discriminate|]. cbn [map] in Ep. injection Ep as Eo Ep.
  apply Forall2_app_inv_l in HT as (ra & rb & HA & HB & ->).
  inversion HB as [|zz1 [l1 prog1] zz2 rb' [Hl Hp] HB' X Y]. subst rb. cbn [fst snd] in Hl, Hp.
  exists (qa ++ (snd (exec_op sloc_eqb o m l), prog) :: qb).
  assert (Q2 : p1 ++ (snd (exec_op sloc_eqb o m l), p) :: p2 =
               to_pool (qa ++ (snd (exec_op sloc_eqb o m l), prog) :: qb)).
  { unfold to_pool. rewrite map_app. cbn [map fst snd]. congruence. }
  destruct (keep a) eqn:K.
  - (* the access is kept: the erased pool makes the same step *)
    cbn [filter] in Hp. rewrite K in Hp. subst prog1.
    assert (Na : acc_loc a <> PNb).
    { intros E. unfold keep in K. rewrite E in K. discriminate. }
    exists (fst (exec_op sloc_eqb o m1 l1)), (ra ++ (snd (exec_op sloc_eqb o m1 l1), filter keep prog) :: rb').
    split; [exact Q2|]. subst o.
    split; [|split].
    + intros x Nx. destruct a as [a|a k|a v]; cbn in *; [now apply Hm| |];
        destruct (sloc_eqb_spec x a) as [Ex|Ex]; try (now apply Hm); try reflexivity. now rewrite (Hl a Na).
    + apply Forall2_app; [assumption|]. constructor; [|assumption]. split; cbn [fst snd]; [|reflexivity].
      intros x Nx. destruct a as [a|a k|a v]; cbn in *; [|now apply Hl|now apply Hl].
      destruct (sloc_eqb_spec x a); [now apply Hm|now apply Hl].
    + unfold to_pool. rewrite !map_app. cbn [map fst snd].
      eapply psteps_step; [apply pstep_intro|apply psteps_refl].
  - (* an access to nbswaps *)
    cbn [filter] in Hp. rewrite K in Hp. subst prog1.
    assert (Ea' : acc_loc a = PNb).
    { unfold keep in K. destruct (sloc_eqb_spec (acc_loc a) PNb); [assumption|discriminate]. }
    exists m1, (ra ++ (l1, filter keep prog) :: rb'). split; [exact Q2|]. subst o.
    split; [|split].
    + intros x Nx. destruct a as [a|a k|a v]; cbn in *; subst a; [now apply Hm| |];
        destruct (sloc_eqb_spec x PNb); try contradiction; now apply Hm.
    + apply Forall2_app; [assumption|]. constructor; [|assumption]. split; cbn [fst snd]; [|reflexivity].
      intros x Nx. destruct a as [a|a k|a v]; cbn in *; subst; [|now apply Hl|now apply Hl].
      destruct (sloc_eqb_spec x PNb); [contradiction|now apply Hl].
    + apply psteps_refl.
Qed.

Lemma erase_run q m m' : parallel_run sloc_eqb (to_pool q) m m' ->
  exists m2, parallel_run sloc_eqb (to_pool (erase q)) m m2 /\ agree m' m2.
Proof.
  intros (qf & Hs & Hf).
  assert (G : forall m1 q1, agree m m1 -> Forall2 trel q q1 ->
     exists m2, parallel_run sloc_eqb (to_pool q1) m1 m2 /\ agree m' m2).
  { remember (m, to_pool q) as c1 eqn:E1. remember (m', qf) as c2 eqn:E2.
    revert m q E1. induction Hs as [c|c1 c2' c3 Hst Hs IH]; intros m q E1 m1 q1 Hm HT.
    - subst c. injection E1 as <- ->. exists m1. split; [|assumption].
      exists (to_pool q1). split; [constructor|].
      clear -Hf HT. unfold to_pool, finished in *. induction HT as [|t t' q q' [_ Ht] HT IH]; cbn [map]; [constructor|].
      cbn [map] in Hf. inversion Hf as [|? ? E F X]. constructor; [|now apply IH].
      cbn [snd] in *. rewrite Ht. destruct (snd t); [reflexivity|discriminate].
    - subst. destruct c2' as [m2 q2]. destruct (erase_step _ _ _ _ m1 q1 Hst Hm HT) as (q3 & m3 & q3' & -> & Hm3 & HT3 & St).
      destruct (IH eq_refl m2 q3 eq_refl m3 q3' Hm3 HT3) as (m4 & (qe & S4 & F4) & A4).
      exists m4. split; [|assumption]. exists qe. split; [|assumption]. eapply psteps_trans; eassumption. }
  apply G; [intros x _; reflexivity|].
  clear. unfold erase. induction q as [|t q IH]; cbn [map]; constructor; [|assumption].
  split; cbn [fst snd]; [intros x _; reflexivity|reflexivity].
Qed.

(** ** The erased loop is race free *)
Definition own (sdim off odd k : nat) (x : sloc) : bool :=
  match x with
  | PU i j => (k * sdim + off <=? i) && (i <? k * sdim + off + sdim) && (k * sdim + off <=? j) && (j <? k * sdim + off + sdim)
  | PSwap t => t =? 2 * k + odd
  | PLov t => t =? k
  | PNb => false
  end.

Lemma own_disjoint sdim off odd a b x : a <> b -> own sdim off odd a x = true -> own sdim off odd b x = true -> False.
Proof.
  intros N. destruct x as [i j|t|t|]; cbn [own]; intros H1 H2; [|lia|lia|discriminate].
  assert (a < b \/ b < a) as [L|L] by lia.
  - assert (a * sdim + sdim <= b * sdim) by nia. lia.
  - assert (b * sdim + sdim <= a * sdim) by nia. lia.
Qed.

Lemma erased_acc_own sdim off odd out k o : In o (filter keep (block_thread sdim off odd out k)) ->
  own sdim off odd k (acc_loc o) = true.
Proof.
  intros H. apply filter_In in H as [H K]. unfold block_thread in H. destruct (out k) as [[Uk nsw] nlov].
  rewrite in_app_iff in H. destruct H as [H|H]; [|rewrite in_app_iff in H; destruct H as [H|H]].
  - cbn in H. destruct H as [<-|[<-|[<-|[<-|[]]]]]; cbn [acc_loc own]; try discriminate; apply Nat.eqb_eq; cbn; lia.
  - apply in_map_iff in H as ([i j] & <- & H). apply in_pairs in H. cbn [acc_loc own fst snd]. lia.
  - destruct H as [<-|[]]. cbn [acc_loc own]. lia.
Qed.

Lemma acc_op_locs o x : In x (op_writes (acc_op o)) \/ In x (op_reads (acc_op o)) -> x = acc_loc o.
Proof. destruct o; cbn; intuition. Qed.

Definition ethr (sdim off odd : nat) (out : nat -> mat Z * Z * Z) (k : nat) : regs * list (op sloc Z regs) :=
  ((fun _ => 0%Z), map acc_op (filter keep (block_thread sdim off odd out k))).

Lemma erased_pool_eq sdim off odd nb out :
  to_pool (erase (block_pool sdim off odd nb out)) = map (ethr sdim off odd out) (seq 0 nb).
Proof. unfold to_pool, erase, block_pool. rewrite !map_map. reflexivity. Qed.

Lemma erased_race_free sdim off odd nb out : race_free (to_pool (erase (block_pool sdim off odd nb out))).
Proof.
  rewrite erased_pool_eq.
  apply race_free_own with (own := fun k x => own sdim off odd k x = true) (ro := fun _ => False).
  - apply seq_NoDup.
  - intros a b x _ _ N H1 H2. eapply own_disjoint; eauto.
  - intros; assumption.
  - intros k o x _ Ho Hx. cbn [ethr snd] in Ho. apply in_map_iff in Ho as (a & <- & Ha).
    rewrite (acc_op_locs a x (or_introl Hx)). eapply erased_acc_own; eauto.
  - intros k o x _ Ho Hx. left. cbn [ethr snd] in Ho. apply in_map_iff in Ho as (a & <- & Ha).
    rewrite (acc_op_locs a x (or_intror Hx)). eapply erased_acc_own; eauto.
Qed.

(** the effect of one iteration *)
Definition geff (sdim off odd : nat) (out : nat -> mat Z * Z * Z) (k : nat) (m : sloc -> Z) (x : sloc) : Z :=
  let '(Uk, nsw, nlov) := out k in
  match x with
  | PU i j => fn Uk (i - (k * sdim + off)) (j - (k * sdim + off))
  | PSwap t => (m x + nsw)%Z
  | PLov t => nlov
  | PNb => m x
  end.

Lemma exec_stcs (L : list (nat * nat)) (dst : nat * nat -> sloc) (v : nat * nat -> Z) (m : sloc -> Z) (l : regs) x :
  (forall a b, dst a = dst b -> a = b) ->
  fst (exec_prog sloc_eqb (map acc_op (map (fun ij => StC (dst ij) (v ij)) L)) m l) x =
    match find (fun ij => sloc_eqb x (dst ij)) L with Some ij => v ij | None => m x end /\
  snd (exec_prog sloc_eqb (map acc_op (map (fun ij => StC (dst ij) (v ij)) L)) m l) = l.
Proof.
  intros INJ. revert m. induction L as [|a L IH]; intros m; cbn [map find].
  - split; reflexivity.
  - cbn [exec_prog exec_op acc_op op_sem op_reads op_writes store map].
    destruct (IH (fun x => if sloc_eqb x (dst a) then v a else m x)) as [E1 E2]. split; [|exact E2].
    etransitivity; [exact E1|].
    destruct (find (fun ij => sloc_eqb x (dst ij)) L) as [b|] eqn:Ef.
    + apply find_some in Ef as [_ Eb]. destruct (sloc_eqb_spec x (dst b)) as [->|]; [|discriminate].
      destruct (sloc_eqb_spec (dst b) (dst a)) as [E|]; [|reflexivity]. now rewrite (INJ _ _ E).
    + destruct (sloc_eqb x (dst a)); reflexivity.
Qed.

Lemma ethr_effect sdim off odd out k m x :
  fst (exec_prog sloc_eqb (snd (ethr sdim off odd out k)) m (fst (ethr sdim off odd out k))) x =
  if own sdim off odd k x then geff sdim off odd out k m x else m x.
Proof.
  unfold ethr, block_thread, geff. cbn [fst snd]. destruct (out k) as [[Uk nsw] nlov].
  rewrite filter_app. cbn [filter keep acc_loc sloc_eqb negb].
  rewrite filter_app. cbn [filter keep acc_loc sloc_eqb negb].
  match goal with |- context [filter keep (map ?g ?l)] =>
    assert (E : filter keep (map g l) = map g l) end.
  { generalize (pairs sdim sdim). induction l as [|a l IH]; cbn; [reflexivity|]. now rewrite IH. }
  rewrite E. clear E. rewrite !map_app. cbn [map app].
  change (map acc_op [StC (PLov k) nlov]) with [acc_op (StC (PLov k) nlov)].
  cbn [exec_prog exec_op acc_op op_sem op_reads op_writes store map fst snd nth].
  rewrite exec_prog_app.
  set (m1 := fun x0 : sloc => if sloc_eqb x0 (PSwap (2 * k + odd)) then _ else m x0).
  set (l1 := fun x0 : sloc => if sloc_eqb x0 (PSwap (2 * k + odd)) then _ else _).
  pose proof (fun y => exec_stcs (pairs sdim sdim) (fun ij => PU (k * sdim + off + fst ij) (k * sdim + off + snd ij))
     (fun ij => fn Uk (fst ij) (snd ij)) m1 l1 y) as P. cbv beta in P.
  cbn [exec_prog exec_op acc_op op_sem op_reads op_writes store map fst snd].
  assert (INJ : forall a b : nat * nat, PU (k * sdim + off + fst a) (k * sdim + off + snd a) = PU (k * sdim + off + fst b) (k * sdim + off + snd b) -> a = b).
  { intros [a1 a2] [b1 b2] E. injection E as E1 E2. cbn [fst snd] in *. f_equal; lia. }
  destruct (sloc_eqb_spec x (PLov k)) as [->|Nx].
  { cbn [own]. now rewrite Nat.eqb_refl. }
  destruct (P x INJ) as [P1 _]. etransitivity; [exact P1|]. clear P P1.
  destruct x as [i j|t|t|].
  - cbn [own].
    destruct (find (fun ij => sloc_eqb (PU i j) (PU (k * sdim + off + fst ij) (k * sdim + off + snd ij))) (pairs sdim sdim)) as [[a b]|] eqn:Ef.
    + apply find_some in Ef as [Hin Eb]. apply in_pairs in Hin. cbn [sloc_eqb fst snd] in Eb. cbn [fst snd].
      match goal with |- context [if ?b then _ else _] => replace b with true by lia end. f_equal; lia.
    + destruct ((k * sdim + off <=? i) && (i <? k * sdim + off + sdim) && (k * sdim + off <=? j) && (j <? k * sdim + off + sdim)) eqn:Eo.
      * exfalso. pose proof (find_none _ _ Ef (i - (k * sdim + off), j - (k * sdim + off))) as G.
        cbn [sloc_eqb fst snd] in G. rewrite in_pairs in G. specialize (G ltac:(lia)). lia.
      * unfold m1. cbn [sloc_eqb]. reflexivity.
  - assert (Ef : find (fun ij => sloc_eqb (PSwap t) (PU (k * sdim + off + fst ij) (k * sdim + off + snd ij))) (pairs sdim sdim) = None).
    { generalize (pairs sdim sdim). induction l as [|a l IH]; [reflexivity|exact IH]. }
    rewrite Ef. cbn [own]. unfold m1, l1. cbn [sloc_eqb]. rewrite Nat.eqb_refl.
    destruct (Nat.eqb_spec t (2 * k + odd)) as [->|]; reflexivity.
  - assert (Ef : find (fun ij => sloc_eqb (PLov t) (PU (k * sdim + off + fst ij) (k * sdim + off + snd ij))) (pairs sdim sdim) = None).
    { generalize (pairs sdim sdim). induction l as [|a l IH]; [reflexivity|exact IH]. }
    rewrite Ef. cbn [own]. unfold m1. cbn [sloc_eqb].
    destruct (Nat.eqb_spec t k) as [->|]; [congruence|reflexivity].
  - assert (Ef : find (fun ij => sloc_eqb PNb (PU (k * sdim + off + fst ij) (k * sdim + off + snd ij))) (pairs sdim sdim) = None).
    { generalize (pairs sdim sdim). induction l as [|a l IH]; [reflexivity|exact IH]. }
    rewrite Ef. reflexivity.
Qed.

(** every complete run of the loop: all locations but nbswaps *)
Lemma blocks_parallel sdim off odd nb out m m' :
  parallel_run sloc_eqb (to_pool (block_pool sdim off odd nb out)) m m' ->
  (forall k x, k < nb -> own sdim off odd k x = true -> m' x = geff sdim off odd out k m x) /\
  (forall x, x <> PNb -> (forall k, k < nb -> own sdim off odd k x = false) -> m' x = m x).
Proof.
  intros R. destruct (erase_run _ _ _ R) as (m2 & R2 & A).
  pose proof (parallel_is_sequential sloc_eqb sloc_eqb_spec _ _ _ (erased_race_free sdim off odd nb out) R2) as E.
  rewrite erased_pool_eq in E.
  destruct (pool_effect sloc_eqb nat (seq 0 nb) (ethr sdim off odd out) (own sdim off odd) (fun _ => false) (geff sdim off odd out))
    with (m := m) as [H1 H2].
  - apply seq_NoDup.
  - intros a b x _ _ N G1 G2. eapply own_disjoint; eauto.
  - intros; discriminate.
  - intros k m0 x _. apply ethr_effect.
  - intros k m0 m1 x _ Ho Hm. unfold geff. destruct (out k) as [[Uk nsw] nlov]. destruct x; try reflexivity.
    + now rewrite (Hm _ (or_introl Ho)).
    + discriminate.
  - split.
    + intros k x Hk Ho. rewrite A by (intros ->; discriminate). rewrite E. apply H1; [apply in_seq; lia|assumption].
    + intros x Nx Hx. rewrite A by assumption. rewrite E. apply H2. intros k Hk. apply Hx. apply in_seq in Hk. lia.
Qed.

(** nbswaps: an interleaving of two iterations that loses the first update *)
Lemma blocks_lost_update sdim off odd out m :
  exists m', parallel_run sloc_eqb (to_pool (block_pool sdim off odd 2 out)) m m' /\
             m' PNb = (m PNb + snd (fst (out 0%nat)))%Z.
Proof.
  unfold block_pool. cbn [seq map to_pool]. cbn [fst snd].
  set (p1 := map acc_op (block_thread sdim off odd out 1)).
  unfold block_thread. destruct (out 0) as [[U0 nsw] nlov]. cbn [fst snd]. rewrite !map_app. cbn [map app].
  set (tl := map acc_op (map _ (pairs sdim sdim)) ++ [acc_op (StC (PLov 0) nlov)]).
  (* iteration 0 loads nbswaps *)
  eexists. split.
  - eexists. split.
    + eapply psteps_step; [apply (pstep_intro sloc_eqb [])|].
      eapply psteps_step; [apply (pstep_intro sloc_eqb [])|].
      eapply psteps_step; [apply (pstep_intro sloc_eqb [])|].
      (* iteration 1 runs completely *)
      eapply psteps_trans; [apply (psteps_prog sloc_eqb [_] [])|].
      (* iteration 0 stores and finishes *)
      eapply psteps_step; [apply (pstep_intro sloc_eqb [])|].
      apply (psteps_prog sloc_eqb []).
    + repeat constructor.
  - cbn [app].
    assert (T : forall mm ll, fst (exec_prog sloc_eqb tl mm ll) PNb = mm PNb).
    { intros mm ll. unfold tl. rewrite exec_prog_app.
      cbn [exec_prog exec_op acc_op op_sem op_reads op_writes store map fst snd].
      cbn [sloc_eqb].
      destruct (exec_stcs (pairs sdim sdim) (fun ij => PU (0 * sdim + off + fst ij) (0 * sdim + off + snd ij))
         (fun ij => fn U0 (fst ij) (snd ij)) mm ll PNb) as [E _].
      - intros [a1 a2] [b1 b2] E. injection E as E1 E2. cbn [fst snd] in *. f_equal; lia.
      - etransitivity; [exact E|]. replace (find _ _) with (@None (nat * nat)); [reflexivity|].
        symmetry. generalize (pairs sdim sdim). induction l as [|a l IH]; [reflexivity|exact IH]. }
    etransitivity; [apply T|]. reflexivity.
Qed.

(** ** Connection with the sequential model *)
Section Model.
Context {F : Type} (fp : fpops F) (c : cfg).
Notation d := (cd c).

(** memory of the loop in state (U, swapstab, lovtests, nbswaps) *)
Definition smem (U : mat Z) (sw : list Z) (lov : nat -> Z) (nb : Z) : sloc -> Z := fun x =>
  match x with PU i j => fn U i j | PSwap t => nth t sw 0%Z | PLov t => lov t | PNb => nb end.

Lemma seq_blocks fuel delta junk Jb lovmax RZ sdim off odd nb U sw q t0 U' sw' q' t' out :
  wfm d d U -> odd <= 1 ->
  (forall k, k < nb -> sl_block_out fp c fuel delta junk Jb lovmax (vdepth q) RZ sdim off k = Ok (out k)) ->
  mfold (sl_block_red fp c fuel delta junk Jb lovmax RZ sdim off odd) (seq 0 nb) (U, sw, q, t0) = Ok (U', sw', q', t') ->
  wfm d d U' /\ length sw' = length sw /\
  (forall i j, i < d -> j < d ->
     (forall k, k < nb -> own sdim off odd k (PU i j) = true -> fn U' i j = geff sdim off odd out k (smem U sw (fun _ => 0%Z) 0) (PU i j)) /\
     ((forall k, k < nb -> own sdim off odd k (PU i j) = false) -> fn U' i j = fn U i j)) /\
  (forall k, k < nb -> nth (2 * k + odd) sw' 0%Z = (nth (2 * k + odd) sw 0 + snd (fst (out k)))%Z) /\
  (forall t, (forall k, k < nb -> t <> 2 * k + odd) -> nth t sw' 0%Z = nth t sw 0%Z) /\
  t' = (t0 + sumZ nb (fun k => snd (out k)))%Z /\
  nbswaps q' = (nbswaps q + sumZ nb (fun k => snd (fst (out k))))%Z /\ vdepth q' = vdepth q.
Proof.
  intros W Ho HO H.
  pose (P := fun (m : nat) (st : bacc) => let '(U', sw', q', t') := st in
    wfm d d U' /\ length sw' = length sw /\
    (forall i j, i < d -> j < d ->
       (forall k, k < m -> own sdim off odd k (PU i j) = true -> fn U' i j = geff sdim off odd out k (smem U sw (fun _ => 0%Z) 0) (PU i j)) /\
       ((forall k, k < m -> own sdim off odd k (PU i j) = false) -> fn U' i j = fn U i j)) /\
    (forall k, k < m -> nth (2 * k + odd) sw' 0%Z = (nth (2 * k + odd) sw 0 + snd (fst (out k)))%Z) /\
    (forall t, (forall k, k < m -> t <> 2 * k + odd) -> nth t sw' 0%Z = nth t sw 0%Z) /\
    t' = (t0 + sumZ m (fun k => snd (out k)))%Z /\
    nbswaps q' = (nbswaps q + sumZ m (fun k => snd (fst (out k))))%Z /\ vdepth q' = vdepth q).
  change (P nb (U', sw', q', t')). eapply (mfold_seq_inv P); [| |exact H].
  - intros k [[[U1 sw1] q1] t1] [[[U2 sw2] q2] t2] Hk (I1 & I2 & I3 & I4 & I5 & I6 & I7 & I8) Hs.
    unfold sl_block_red in Hs. rewrite I8, HO in Hs by assumption. cbn [bind] in Hs.
    destruct (out k) as [[Uk nsw] nlov] eqn:Eo. binv Hs. binv Hs. apply Okinj in Hs.
    assert (X1 := f_equal (fun x => fst (fst (fst x))) Hs). assert (X2 := f_equal (fun x => snd (fst (fst x))) Hs).
    assert (X3 := f_equal (fun x => snd (fst x)) Hs). assert (X4 := f_equal snd Hs).
    cbv beta iota delta [fst snd] in X1, X2, X3, X4. subst U2 sw2 q2 t2. clear Hs.
    unfold sl_putblock in Ha. binv Ha. injection Ha as <-. unfold P.
    split; [apply mtab_wfm|]. split; [now rewrite lupd_length|].
    split; [|split; [|split; [|split]]].
    + intros i j Hi Hj. rewrite fn_mtab by assumption. destruct (I3 i j Hi Hj) as [J1 J2]. split.
      * intros k0 Hk0 Hown. destruct (Nat.eq_dec k0 k) as [->|N].
        -- cbn [own] in Hown. unfold geff. rewrite Eo.
           match goal with |- context [if ?b then _ else _] => replace b with true by lia end. reflexivity.
        -- destruct (own sdim off odd k (PU i j)) eqn:Ek.
           { exfalso. eapply own_disjoint; [exact N| |]; eassumption. }
           cbn [own] in Ek. match goal with |- context [if ?b then _ else _] => replace b with false by lia end.
           apply J1; [lia|assumption].
      * intros Hno. pose proof (Hno k ltac:(lia)) as Ek. cbn [own] in Ek.
        match goal with |- context [if ?b then _ else _] => replace b with false by lia end.
        apply J2. intros; apply Hno; lia.
    + intros k0 Hk0. rewrite nth_lupd. destruct (Nat.eq_dec k0 k) as [->|N].
      * rewrite Nat.eqb_refl, Hg, Eo. cbn [andb fst snd]. rewrite I5; [reflexivity|]. intros; lia.
      * replace (2 * k0 + odd =? 2 * k + odd) with false by lia. cbn [andb]. apply I4. lia.
    + intros t Ht. rewrite nth_lupd. replace (t =? 2 * k + odd) with false by (specialize (Ht k ltac:(lia)); lia).
      cbn [andb]. apply I5. intros; apply Ht; lia.
    + cbn [sumZ]. rewrite Eo. cbn [snd]. lia.
    + cbn [sumZ nbswaps vdepth]. rewrite Eo. cbn [fst snd]. split; [lia|reflexivity].
  - unfold P. split; [assumption|]. split; [reflexivity|]. split; [|split; [|split; [|split]]].
    + intros i j Hi Hj. split; [intros k Hk; lia|reflexivity].
    + intros k Hk. lia.
    + reflexivity.
    + cbn. lia.
    + cbn. split; [lia|reflexivity].
Qed.

Theorem blocks_parallel_model fuel delta junk Jb lovmax RZ sdim off odd nb sw q U' sw' q' t' out lov M' :
  odd <= 1 ->
  (forall k, k < nb -> sl_block_out fp c fuel delta junk Jb lovmax (vdepth q) RZ sdim off k = Ok (out k)) ->
  mfold (sl_block_red fp c fuel delta junk Jb lovmax RZ sdim off odd) (seq 0 nb) (id_mat d, sw, q, 0%Z) = Ok (U', sw', q', t') ->
  parallel_run sloc_eqb (to_pool (block_pool sdim off odd nb out)) (smem (id_mat d) sw lov (nbswaps q)) M' ->
  (forall i j, i < d -> j < d -> M' (PU i j) = fn U' i j) /\
  (forall t, M' (PSwap t) = nth t sw' 0%Z) /\
  sumZ nb (fun k => M' (PLov k)) = t'.
Proof.
  intros Ho HO H R.
  destruct (seq_blocks _ _ _ _ _ _ _ _ _ _ _ _ _ _ _ _ _ _ out (mtab_wfm _ _ _) Ho HO H) as (W & L & H1 & H2 & H3 & H4 & _).
  destruct (blocks_parallel _ _ _ _ _ _ _ R) as [G1 G2].
  assert (D : forall x, (exists k, k < nb /\ own sdim off odd k x = true) \/ (forall k, k < nb -> own sdim off odd k x = false)).
  { intros x. clear. induction nb as [|nb IH]; [right; intros; lia|].
    destruct IH as [(k & Hk & E)|IH]; [left; exists k; split; [lia|assumption]|].
    destruct (own sdim off odd nb x) eqn:E; [left; exists nb; split; [lia|assumption]|].
    right. intros k Hk. destruct (Nat.eq_dec k nb) as [->|]; [assumption|]. apply IH. lia. }
  split; [|split].
  - intros i j Hi Hj. destruct (H1 i j Hi Hj) as [J1 J2]. destruct (D (PU i j)) as [(k & Hk & E)|N].
    + rewrite (G1 k _ Hk E), (J1 k Hk E). unfold geff. now destruct (out k) as [[? ?] ?].
    + rewrite G2 by (try assumption; discriminate). now rewrite (J2 N).
  - intros t. destruct (D (PSwap t)) as [(k & Hk & E)|N].
    + rewrite (G1 k _ Hk E). cbn [own] in E. assert (t = 2 * k + odd) by lia. subst t. rewrite (H2 k Hk).
      unfold geff. destruct (out k) as [[? ?] ?]. reflexivity.
    + rewrite G2 by (try assumption; discriminate). rewrite H3; [reflexivity|].
      intros k Hk E. specialize (N k Hk). cbn [own] in N. lia.
  - rewrite H4, Z.add_0_l. apply sumZ_ext. intros k Hk. rewrite (G1 k (PLov k) Hk) by (cbn [own]; lia).
    unfold geff. destruct (out k) as [[? ?] ?]. reflexivity.
Qed.

End Model.

(** ** pmatprod: iteration b reads and writes the columns shift .. shift+sdim-1 of B, row by row *)
Section PM.
Variables (n sdim : nat) (U : zmat).

Definition pmr_thread (sh : nat) : list zop :=
  flat_map (fun i => rlw (fun r j => (r, sh + j)) (map (fun j => (i, j)) (seq 0 sdim))
                         (fun t r j => sumZ sdim (fun k => t r k * U (sh + k)%nat (sh + j)%nat)%Z)
                         (fun r j => (r, sh + j)) (map (fun j => (i, j)) (seq 0 sdim))) (seq 0 n).
Definition pmr_pool (dec nb : nat) : pool loc Z tmat :=
  map (fun b => ((fun _ _ => 0%Z), pmr_thread (b * sdim + dec))) (seq 0 nb).

Definition in_block (sh : nat) (m : nat) (x : loc) : bool := (fst x <? m) && (sh <=? snd x) && (snd x <? sh + sdim).

Lemma pmr_rows_effect sh m (M : loc -> Z) t x :
  fst (exec_prog loc_eqb (flat_map (fun i => rlw (fun r j => (r, sh + j)) (map (fun j => (i, j)) (seq 0 sdim))
                         (fun t r j => sumZ sdim (fun k => t r k * U (sh + k)%nat (sh + j)%nat)%Z)
                         (fun r j => (r, sh + j)) (map (fun j => (i, j)) (seq 0 sdim))) (seq 0 m)) M t) x =
  if in_block sh m x then sumZ sdim (fun k => M (fst x, sh + k)%nat * U (sh + k)%nat (snd x))%Z else M x.
Proof.
  revert x. induction m as [|m IH]; intros x.
  - cbn. unfold in_block. now replace (fst x <? 0) with false by lia.
  - rewrite seq_S, flat_map_app, exec_prog_app. cbn [flat_map Nat.add]. rewrite app_nil_r.
    set (M1 := fst (exec_prog loc_eqb _ M t)) in *. set (t1 := snd (exec_prog loc_eqb _ M t)).
    destruct (rlw_effect loc_eqb loc_eqb_spec (fun r j => (r, sh + j)) (map (fun j => (m, j)) (seq 0 sdim))
       (fun t r j => sumZ sdim (fun k => t r k * U (sh + k)%nat (sh + j)%nat)%Z) (fun r j => (r, sh + j))
       (map (fun j => (m, j)) (seq 0 sdim)) M1 t1) as (t' & H1 & H2 & H3).
    { intros i j i' j' _ _ E. injection E as -> E. f_equal. lia. }
    destruct x as [r q]. unfold in_block in *. cbn [fst snd] in *.
    destruct ((r =? m) && (sh <=? q) && (q <? sh + sdim)) eqn:E.
    + assert (r = m) by lia. subst r.
      match goal with |- context [if ?b then _ else _] => replace b with true by lia end.
      specialize (H2 m (q - sh)). cbv beta in H2. replace (sh + (q - sh)) with q in H2 by lia.
      etransitivity; [apply H2; apply in_map_iff; exists (q - sh); split; [reflexivity|apply in_seq; lia]|].
      apply sumZ_ext. intros k Hk. f_equal. rewrite H1.
      assert (I : inb (map (fun j => (m, j)) (seq 0 sdim)) m k = true).
      { apply inb_spec, in_map_iff. exists k. split; [reflexivity|apply in_seq; lia]. }
      rewrite I. rewrite IH. cbn [fst snd]. now replace (m <? m) with false by lia.
    + etransitivity; [apply H3|].
      * intros i j Hij Eq. apply in_map_iff in Hij as (j0 & Ej & Hj). injection Ej as <- <-. apply in_seq in Hj.
        injection Eq as <- <-. lia.
      * rewrite IH. cbn [fst snd].
        replace ((r <? S m) && (sh <=? q) && (q <? sh + sdim)) with ((r <? m) && (sh <=? q) && (q <? sh + sdim)) by lia.
        reflexivity.
Qed.

Lemma pmr_ops sh o x : In o (pmr_thread sh) -> In x (op_reads o) \/ In x (op_writes o) -> in_block sh n x = true.
Proof.
  intros Ho Hx. unfold pmr_thread in Ho. apply in_flat_map in Ho as (i & Hi & Ho). apply in_seq in Hi.
  assert (E : exists a b, In (a, b) (map (fun j => (i, j)) (seq 0 sdim)) /\ x = (a, sh + b)).
  { destruct Hx as [Hx|Hx]; [exact (rlw_reads _ _ _ _ _ _ _ Ho Hx)|exact (rlw_writes _ _ _ _ _ _ _ Ho Hx)]. }
  destruct E as (a & b & Hab & ->). apply in_map_iff in Hab as (j & E & Hj). injection E as <- <-. apply in_seq in Hj.
  unfold in_block. cbn [fst snd]. lia.
Qed.

Lemma in_block_disjoint dec a b x : a <> b -> in_block (a * sdim + dec) n x = true -> in_block (b * sdim + dec) n x = true -> False.
Proof.
  unfold in_block. intros N H1 H2. assert (a < b \/ b < a) as [L|L] by lia.
  - assert (a * sdim + sdim <= b * sdim) by nia. lia.
  - assert (b * sdim + sdim <= a * sdim) by nia. lia.
Qed.

Lemma pmr_race_free dec nb : race_free (pmr_pool dec nb).
Proof.
  unfold pmr_pool.
  apply race_free_own with (own := fun b x => in_block (b * sdim + dec) n x = true) (ro := fun _ => False).
  - apply seq_NoDup.
  - intros a b x _ _ N H1 H2. eapply in_block_disjoint; eauto.
  - intros; assumption.
  - intros b o x _ Ho Hx. cbn [snd] in Ho. eapply pmr_ops; eauto.
  - intros b o x _ Ho Hx. left. cbn [snd] in Ho. eapply pmr_ops; eauto.
Qed.

Lemma pmr_parallel dec nb (M M' : loc -> Z) : parallel_run loc_eqb (pmr_pool dec nb) M M' ->
  (forall b x, b < nb -> in_block (b * sdim + dec) n x = true ->
     M' x = sumZ sdim (fun k => M (fst x, b * sdim + dec + k)%nat * U (b * sdim + dec + k)%nat (snd x))%Z) /\
  (forall x, (forall b, b < nb -> in_block (b * sdim + dec) n x = false) -> M' x = M x).
Proof.
  intros R. pose proof (parallel_is_sequential loc_eqb loc_eqb_spec _ _ _ (pmr_race_free dec nb) R) as E.
  destruct (pool_effect loc_eqb nat (seq 0 nb) (fun b => ((fun _ _ => 0%Z), pmr_thread (b * sdim + dec)))
     (fun b x => in_block (b * sdim + dec) n x) (fun _ => false)
     (fun b m x => sumZ sdim (fun k => m (fst x, b * sdim + dec + k)%nat * U (b * sdim + dec + k)%nat (snd x))%Z)) with (m := M) as [H1 H2].
  - apply seq_NoDup.
  - intros a b x _ _ N G1 G2. eapply in_block_disjoint; eauto.
  - intros; discriminate.
  - intros b m x _. cbn [fst snd]. apply pmr_rows_effect.
  - intros b m m' x _ Ho Hm. apply sumZ_ext. intros k Hk. f_equal. apply Hm. left.
    unfold in_block in *. cbn [fst snd]. lia.
  - split.
    + intros b x Hb Ho. rewrite E. unfold pmr_pool. apply (H1 b x); [apply in_seq; lia|assumption].
    + intros x Hx. rewrite E. apply H2. intros b Hb. apply Hx. apply in_seq in Hb. lia.
Qed.
End PM.

(** the sequential model of pmatprod *)
Lemma pmatprod_seq c S dec U B B' : 0 < S -> wfm (cn c) (cd c) B -> sl_pmatprod c S dec U B = Ok B' ->
  wfm (cn c) (cd c) B' /\
  forall i j, i < cn c -> j < cd c ->
  let sdim := cd c / S in let sft := if dec =? 0 then 0 else sdim / 2 in let nb := if dec =? 0 then S else S - 1 in
  (forall b, b < nb -> in_block sdim (b * sdim + sft) (cn c) (i, j) = true ->
     fn B' i j = sumZ sdim (fun k => fn B i (b * sdim + sft + k)%nat * fn U (b * sdim + sft + k)%nat j)%Z) /\
  ((forall b, b < nb -> in_block sdim (b * sdim + sft) (cn c) (i, j) = false) -> fn B' i j = fn B i j).
Proof.
  intros HS W H. set (sdim := cd c / S). set (sft := if dec =? 0 then 0 else sdim / 2). set (nb := if dec =? 0 then S else S - 1).
  pose (P := fun m B' => wfm (cn c) (cd c) B' /\ forall i j, i < cn c -> j < cd c ->
    (forall b, b < m -> in_block sdim (b * sdim + sft) (cn c) (i, j) = true ->
     fn B' i j = sumZ sdim (fun k => fn B i (b * sdim + sft + k)%nat * fn U (b * sdim + sft + k)%nat j)%Z) /\
    ((forall b, b < m -> in_block sdim (b * sdim + sft) (cn c) (i, j) = false) -> fn B' i j = fn B i j)).
  change (P nb B'). unfold sl_pmatprod in H. eapply (mfold_seq_inv P); [| |exact H].
  - intros b B1 B2 Hb [W1 I1] Hs. unfold sl_block_prod in Hs. binv Hs. apply Okinj in Hs. subst B2.
    split; [apply mtab_wfm|]. intros i j Hi Hj. rewrite fn_mtab by assumption. fold sdim. fold sft.
    destruct (in_block sdim (b * sdim + sft) (cn c) (i, j)) eqn:E.
    + pose proof E as E'. unfold in_block in E'. cbn [fst snd] in E'.
      match goal with |- context [if ?b then sumZ _ _ else _] => replace b with true by lia end. split.
      * intros b0 Hb0 E0. destruct (Nat.eq_dec b0 b) as [->|N].
        -- apply sumZ_ext. intros k Hk. f_equal.
           assert (Hc : b * sdim + sft + k < cd c) by (fold sdim in Hg; fold sft in Hg; apply Nat.leb_le in Hg; lia).
           destruct (I1 i (b * sdim + sft + k) Hi Hc) as [_ J2]. apply J2.
           intros b1 Hb1. destruct (in_block sdim (b1 * sdim + sft) (cn c) (i, b * sdim + sft + k)) eqn:E1; [|reflexivity].
           exfalso. apply (in_block_disjoint (cn c) sdim sft b1 b (i, b * sdim + sft + k)); [lia|assumption|].
           unfold in_block. cbn [fst snd]. lia.
        -- exfalso. eapply (in_block_disjoint (cn c) sdim); eassumption.
      * intros N. rewrite N in E by lia. discriminate.
    + pose proof E as E'. unfold in_block in E'. cbn [fst snd] in E'.
      match goal with |- context [if ?b then sumZ _ _ else _] => replace b with false by lia end.
      destruct (I1 i j Hi Hj) as [J1 J2]. split.
      * intros b0 Hb0 E0. destruct (Nat.eq_dec b0 b) as [->|N]; [congruence|]. apply J1; [lia|assumption].
      * intros N. apply J2. intros; apply N; lia.
  - split; [assumption|]. intros i j Hi Hj. split; [intros; lia|reflexivity].
Qed.

Theorem pmatprod_parallel_model c S dec U B B' (M' : loc -> Z) : 0 < S -> wfm (cn c) (cd c) B ->
  sl_pmatprod c S dec U B = Ok B' ->
  parallel_run loc_eqb (pmr_pool (cn c) (cd c / S) (fn U) (if dec =? 0 then 0 else cd c / S / 2) (if dec =? 0 then S else S - 1))
     (fun x => fn B (fst x) (snd x)) M' ->
  forall i j, i < cn c -> j < cd c -> M' (i, j) = fn B' i j.
Proof.
  intros HS W H R i j Hi Hj. destruct (pmatprod_seq c S dec U B B' HS W H) as [_ G]. specialize (G i j Hi Hj). cbv zeta in G.
  destruct (pmr_parallel _ _ _ _ _ _ _ R) as [P1 P2]. destruct G as [G1 G2].
  set (sdim := cd c / S) in *. set (sft := if dec =? 0 then 0 else sdim / 2) in *. set (nb := if dec =? 0 then S else S - 1) in *.
  assert (D : forall nb, (exists b, b < nb /\ in_block sdim (b * sdim + sft) (cn c) (i, j) = true) \/
                         (forall b, b < nb -> in_block sdim (b * sdim + sft) (cn c) (i, j) = false)).
  { clear. induction nb as [|nb IH]; [right; intros; lia|].
    destruct IH as [(k & Hk & E)|IH]; [left; exists k; split; [lia|assumption]|].
    destruct (in_block sdim (nb * sdim + sft) (cn c) (i, j)) eqn:E; [left; exists nb; split; [lia|assumption]|].
    right. intros k Hk. destruct (Nat.eq_dec k nb) as [->|]; [assumption|]. apply IH. lia. }
  destruct (D nb) as [(b & Hb & E)|N].
  - rewrite (P1 b (i, j) Hb E). cbn [fst snd]. now rewrite (G1 b Hb E).
  - rewrite (P2 (i, j) N). cbn [fst snd]. now rewrite (G2 N).
Qed.
