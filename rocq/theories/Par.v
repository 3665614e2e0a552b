(** * Interleaving semantics for [#pragma omp parallel for]

    Each iteration of a parallel loop is a straight-line program of operations;
    an operation reads a list of shared locations, computes with the iteration's
    private state, and writes a list of shared locations.  A run of the loop is
    any interleaving of the operations of the iterations (OpenMP may run several
    iterations in one thread, which only removes interleavings).

    Operations are atomic in this semantics; it therefore only describes the C++
    program when no two iterations conflict on a location ([race_free]), which is
    why every use of it proves [race_free] first. *)
From Coq Require Import List Arith Lia Bool.
Import ListNotations.

Section Par.
Context {Loc Val Local : Type} (loc_eqb : Loc -> Loc -> bool)
        (loc_eqb_spec : forall a b, reflect (a = b) (loc_eqb a b)).

Definition mem := Loc -> Val.

Record op := mkOp {
  op_reads : list Loc;
  op_writes : list Loc;
  op_sem : Local -> list Val -> Local * list Val
}.

Fixpoint store (m : mem) (ls : list Loc) (vs : list Val) : mem :=
  match ls, vs with
  | a :: ls', v :: vs' => store (fun x => if loc_eqb x a then v else m x) ls' vs'
  | _, _ => m
  end.

Definition exec_op (o : op) (m : mem) (l : Local) : mem * Local :=
  let '(l', vs) := op_sem o l (map m (op_reads o)) in (store m (op_writes o) vs, l').

Fixpoint exec_prog (p : list op) (m : mem) (l : Local) : mem * Local :=
  match p with
  | [] => (m, l)
  | o :: p' => let '(m', l') := exec_op o m l in exec_prog p' m' l'
  end.

(** the iterations of a loop: private state and remaining operations *)
Definition pool := list (Local * list op).

(** sequential execution, one iteration after the other *)
Fixpoint exec_seq (q : pool) (m : mem) : mem :=
  match q with
  | [] => m
  | (l, p) :: q' => exec_seq q' (fst (exec_prog p m l))
  end.

(** one step of an arbitrary iteration *)
Inductive pstep : mem * pool -> mem * pool -> Prop :=
| pstep_intro : forall q1 q2 l o p m,
    pstep (m, q1 ++ (l, o :: p) :: q2)
          (fst (exec_op o m l), q1 ++ (snd (exec_op o m l), p) :: q2).

Inductive psteps : mem * pool -> mem * pool -> Prop :=
| psteps_refl : forall c, psteps c c
| psteps_step : forall c1 c2 c3, pstep c1 c2 -> psteps c2 c3 -> psteps c1 c3.

Definition finished (q : pool) : Prop := Forall (fun t => snd t = []) q.

(** [m'] is the memory after some complete run of the parallel loop from [m] *)
Definition parallel_run (q : pool) (m m' : mem) : Prop :=
  exists q', psteps (m, q) (m', q') /\ finished q'.

Definition conflict (o o' : op) : Prop :=
  exists a, (In a (op_writes o) /\ (In a (op_reads o') \/ In a (op_writes o'))) \/
            (In a (op_writes o') /\ (In a (op_reads o) \/ In a (op_writes o))).

(** no two operations of different iterations conflict *)
Definition race_free (q : pool) : Prop :=
  forall a b ta tb o o', a <> b -> nth_error q a = Some ta -> nth_error q b = Some tb ->
    In o (snd ta) -> In o' (snd tb) -> ~ conflict o o'.

Definition meqm (m m' : mem) : Prop := forall x, m x = m' x.

Lemma store_ext m m' ls vs : meqm m m' -> meqm (store m ls vs) (store m' ls vs).
Proof.
  revert m m' vs. induction ls as [|a ls IH]; intros m m' [|v vs] H; cbn; auto.
  apply IH. intros x. destruct (loc_eqb x a); auto.
Qed.

Lemma store_notin m ls vs x : ~ In x ls -> store m ls vs x = m x.
Proof.
  revert m vs. induction ls as [|a ls IH]; intros m [|v vs] H; cbn; auto.
  rewrite IH by (intros K; apply H; now right).
  destruct (loc_eqb_spec x a) as [->|_]; [exfalso; apply H; now left|reflexivity].
Qed.

Lemma store_dep m m' ls vs x : m x = m' x -> store m ls vs x = store m' ls vs x.
Proof.
  revert m m' vs. induction ls as [|a ls IH]; intros m m' [|v vs] H; cbn; auto.
  apply IH. destruct (loc_eqb x a); auto.
Qed.

Lemma exec_op_ext o m m' l : meqm m m' ->
  meqm (fst (exec_op o m l)) (fst (exec_op o m' l)) /\ snd (exec_op o m l) = snd (exec_op o m' l).
Proof.
  intros H. unfold exec_op.
  assert (E : map m (op_reads o) = map m' (op_reads o)) by (apply map_ext; exact H).
  rewrite E. destruct (op_sem o l (map m' (op_reads o))) as [l' vs]. cbn. split; [|reflexivity].
  now apply store_ext.
Qed.

Lemma exec_prog_ext p m m' l : meqm m m' ->
  meqm (fst (exec_prog p m l)) (fst (exec_prog p m' l)) /\ snd (exec_prog p m l) = snd (exec_prog p m' l).
Proof.
  revert m m' l. induction p as [|o p IH]; intros m m' l H; cbn; [auto|].
  destruct (exec_op_ext o m m' l H) as [H1 H2].
  destruct (exec_op o m l) as [m1 l1], (exec_op o m' l) as [m1' l1']. cbn in *. subst l1'.
  now apply IH.
Qed.

Lemma exec_seq_ext q m m' : meqm m m' -> meqm (exec_seq q m) (exec_seq q m').
Proof.
  revert m m'. induction q as [|[l p] q IH]; intros m m' H; cbn; [auto|].
  apply IH. now apply exec_prog_ext.
Qed.

(** two non-conflicting operations commute *)
Lemma exec_op_comm o o' m l l' : ~ conflict o o' ->
  meqm (fst (exec_op o' (fst (exec_op o m l)) l')) (fst (exec_op o (fst (exec_op o' m l')) l)) /\
  snd (exec_op o' (fst (exec_op o m l)) l') = snd (exec_op o' m l') /\
  snd (exec_op o (fst (exec_op o' m l')) l) = snd (exec_op o m l).
Proof.
  intros N.
  assert (Ro' : map (fst (exec_op o m l)) (op_reads o') = map m (op_reads o')).
  { apply map_ext_in. intros a Ha. unfold exec_op. destruct (op_sem o l _) as [u vs]. cbn.
    apply store_notin. intros K. apply N. exists a. auto. }
  assert (Ro : map (fst (exec_op o' m l')) (op_reads o) = map m (op_reads o)).
  { apply map_ext_in. intros a Ha. unfold exec_op. destruct (op_sem o' l' _) as [u vs]. cbn.
    apply store_notin. intros K. apply N. exists a. auto. }
  assert (X' : exec_op o' (fst (exec_op o m l)) l' =
     (let '(u', vs') := op_sem o' l' (map m (op_reads o')) in
      (store (fst (exec_op o m l)) (op_writes o') vs', u'))).
  { unfold exec_op at 1. now rewrite Ro'. }
  assert (X : exec_op o (fst (exec_op o' m l')) l =
     (let '(u, vs) := op_sem o l (map m (op_reads o)) in
      (store (fst (exec_op o' m l')) (op_writes o) vs, u))).
  { unfold exec_op at 1. now rewrite Ro. }
  rewrite X, X'. clear X X' Ro Ro'. unfold exec_op.
  destruct (op_sem o l (map m (op_reads o))) as [u vs] eqn:Eo.
  destruct (op_sem o' l' (map m (op_reads o'))) as [u' vs'] eqn:Eo'. cbn.
  split; [|split; reflexivity].
  intros x.
  assert (D : {In x (op_writes o)} + {~ In x (op_writes o)}).
  { apply in_dec. intros a b. destruct (loc_eqb_spec a b); auto. }
  destruct D as [D|D].
  - assert (~ In x (op_writes o')) as D' by (intros K; apply N; exists x; auto).
    rewrite (store_notin _ (op_writes o')) by assumption.
    apply store_dep. symmetry. now apply store_notin.
  - rewrite (store_notin _ (op_writes o)) by assumption.
    apply store_dep. now apply store_notin.
Qed.

Lemma exec_prog_comm o p m l l' : (forall o', In o' p -> ~ conflict o o') ->
  meqm (fst (exec_prog p (fst (exec_op o m l)) l')) (fst (exec_op o (fst (exec_prog p m l')) l)) /\
  snd (exec_op o (fst (exec_prog p m l')) l) = snd (exec_op o m l).
Proof.
  revert m l'. induction p as [|o' p IH]; intros m l' H; [split; [intros ?|]; reflexivity|].
  cbn. assert (N : ~ conflict o o') by (apply H; now left).
  destruct (exec_op_comm o o' m l l' N) as (H1 & H2 & H3).
  destruct (exec_op o' (fst (exec_op o m l)) l') as [m1 l1] eqn:E1.
  destruct (exec_op o' m l') as [m2 l2] eqn:E2. cbn in *. subst l1.
  assert (Hp : forall o'0, In o'0 p -> ~ conflict o o'0) by (intros; apply H; now right).
  destruct (IH m2 l2 Hp) as [K1 K2].
  split.
  - intros x. rewrite (proj1 (exec_prog_ext p m1 (fst (exec_op o m2 l)) l2 H1) x). apply K1.
  - rewrite K2. exact H3.
Qed.

Lemma exec_seq_comm o q m l : (forall t o', In t q -> In o' (snd t) -> ~ conflict o o') ->
  meqm (exec_seq q (fst (exec_op o m l))) (fst (exec_op o (exec_seq q m) l)) /\
  snd (exec_op o (exec_seq q m) l) = snd (exec_op o m l).
Proof.
  revert m. induction q as [|[l' p] q IH]; intros m H; [split; [intros ?|]; reflexivity|].
  cbn. destruct (exec_prog_comm o p m l l') as [H1 H2].
  { intros o' Ho'. apply (H (l', p)); [now left|exact Ho']. }
  destruct (IH (fst (exec_prog p m l'))) as [K1 K2].
  { intros t o' Ht. apply H. now right. }
  split.
  - intros x. rewrite (exec_seq_ext q _ _ H1 x). apply K1.
  - now rewrite K2.
Qed.

Lemma exec_seq_app q1 q2 m : exec_seq (q1 ++ q2) m = exec_seq q2 (exec_seq q1 m).
Proof. revert m. induction q1 as [|[l p] q1 IH]; intros m; cbn; auto. Qed.

Lemma nth_error_in {A} (l : list A) x : In x l -> exists i, nth_error l i = Some x /\ i < length l.
Proof.
  intros H. apply In_nth_error in H as [i Hi]. exists i. split; [exact Hi|].
  apply nth_error_Some. congruence.
Qed.

Lemma pstep_seq m q m' q' : race_free q -> pstep (m, q) (m', q') ->
  race_free q' /\ meqm (exec_seq q' m') (exec_seq q m).
Proof.
  intros RF H. inversion H as [q1 q2 l o p m0 E1 E2]. subst m0 q m' q'.
  assert (Hi : nth_error (q1 ++ (l, o :: p) :: q2) (length q1) = Some (l, o :: p)).
  { rewrite nth_error_app2, Nat.sub_diag by lia. reflexivity. }
  split.
  - intros a b ta tb o1 o2 Hab Ha Hb H1 H2.
    assert (P : forall k t, nth_error (q1 ++ (snd (exec_op o m l), p) :: q2) k = Some t ->
                exists t', nth_error (q1 ++ (l, o :: p) :: q2) k = Some t' /\
                  (forall x, In x (snd t) -> In x (snd t'))).
    { intros k t Hk. destruct (Nat.lt_trichotomy k (length q1)) as [L|[L|L]].
      - rewrite nth_error_app1 in * by assumption. exists t. auto.
      - subst k. rewrite nth_error_app2, Nat.sub_diag in Hk by lia. cbn in Hk. injection Hk as <-.
        exists (l, o :: p). split; [exact Hi|]. cbn. auto.
      - rewrite nth_error_app2 in * by lia. destruct (k - length q1) eqn:E; [lia|].
        cbn in *. exists t. auto. }
    destruct (P a ta Ha) as (ta' & Ha' & Sa). destruct (P b tb Hb) as (tb' & Hb' & Sb).
    apply (RF a b ta' tb'); auto.
  - intros x. rewrite !exec_seq_app. cbn.
    destruct (exec_seq_comm o q1 m l) as [C1 C2].
    { intros t o' Ht Ho'. apply nth_error_in in Ht as (k & Hk & Lk).
      apply (RF (length q1) k (l, o :: p) t); auto; [lia| |now left].
      rewrite nth_error_app1 by assumption. exact Hk. }
    apply exec_seq_ext. intros y. clear x.
    destruct (exec_op o (exec_seq q1 m) l) as [m1 l1] eqn:E. cbn in *. subst l1.
    now apply exec_prog_ext.
Qed.

Lemma finished_seq q m : finished q -> exec_seq q m = m.
Proof.
  revert m. induction q as [|[l p] q IH]; intros m H; cbn; auto.
  inversion H as [|? ? E F]. cbn in E. subst. cbn. now apply IH.
Qed.

(** Every complete interleaving of a race-free loop computes what the sequential
    loop computes. *)
Theorem parallel_is_sequential : forall q m m',
  race_free q -> parallel_run q m m' -> forall x, m' x = exec_seq q m x.
Proof.
  intros q m m' RF (q' & Hs & Hf).
  remember (m, q) as c1 eqn:E1. remember (m', q') as c2 eqn:E2.
  revert m q E1 RF. induction Hs as [c|c1 c2' c3 Hst Hs IH]; intros m q E1 RF x.
  - subst c. injection E1 as <- <-. now rewrite finished_seq.
  - subst. destruct c2' as [m2 q2]. destruct (pstep_seq _ _ _ _ RF Hst) as [RF2 Eq].
    rewrite (IH eq_refl m2 q2 eq_refl RF2 x). apply Eq.
Qed.

(** and the sequential order is one of the runs *)
Lemma psteps_trans c1 c2 c3 : psteps c1 c2 -> psteps c2 c3 -> psteps c1 c3.
Proof. induction 1; eauto using psteps. Qed.

Lemma psteps_prog q1 q2 p m l :
  psteps (m, q1 ++ (l, p) :: q2) (fst (exec_prog p m l), q1 ++ (snd (exec_prog p m l), []) :: q2).
Proof.
  revert m l. induction p as [|o p IH]; intros m l; [constructor|].
  eapply psteps_step; [apply pstep_intro|]. cbn.
  destruct (exec_op o m l) as [m1 l1]. apply IH.
Qed.

Lemma seq_is_run q m : parallel_run q m (exec_seq q m).
Proof.
  assert (K : forall q1, finished q1 -> exists q', psteps (m, q1 ++ q) (exec_seq q m, q') /\ finished q').
  { revert m. induction q as [|[l p] q IH]; intros m q1 F.
    - exists q1. rewrite app_nil_r. split; [constructor|exact F].
    - cbn. destruct (IH (fst (exec_prog p m l)) (q1 ++ [(snd (exec_prog p m l), [])])) as (q' & H & F').
      { apply Forall_app. split; [exact F|]. constructor; [reflexivity|constructor]. }
      exists q'. split; [|exact F']. eapply psteps_trans; [apply psteps_prog|].
      rewrite <- app_assoc in H. exact H. }
  destruct (K [] (Forall_nil _)) as (q' & H & F). exists q'. auto.
Qed.
End Par.
Arguments mkOp {Loc Val Local}.
Arguments op : clear implicits.
Arguments pool : clear implicits.
