(** * Pointwise specifications of the functions of MatOps.v *)
From Coq Require Import ZArith Lia List Bool Arith.
From Verif Require Import Base Spec Mat MatOps.
Import ListNotations.

(** ** Helpers *)

Lemma mfold_pure {A S} (f : A -> S -> res S) (g : A -> S -> S) l s :
  (forall a t, In a l -> f a t = Ok (g a t)) -> mfold f l s = Ok (fold_left (fun t a => g a t) l s).
Proof.
  revert s. induction l as [|a l IH]; intros s H; cbn; [reflexivity|].
  rewrite (H a s) by now left. cbn. apply IH. intros; apply H; now right.
Qed.

Lemma mfold_app {A S} (f : A -> S -> res S) l1 l2 s :
  mfold f (l1 ++ l2) s = let* t := mfold f l1 s in mfold f l2 t.
Proof.
  revert s. induction l1 as [|a l1 IH]; intros s; cbn; [reflexivity|].
  destruct (f a s); cbn; auto.
Qed.

Lemma fold_sum (k : nat) (g : nat -> Z) (x : Z) b :
  fold_left (fun t a => (t + g a)%Z) (seq b k) x = (x + sumZ k (fun l => g (b + l)%nat))%Z.
Proof.
  revert b x. induction k as [|k IH]; intros b x; cbn [seq fold_left]; [cbn; ring|].
  rewrite IH. replace (S k) with (1 + k) by lia. rewrite (sumZ_split 1 k). cbn [sumZ].
  rewrite Nat.add_0_r. rewrite <- !Z.add_assoc. f_equal.
  rewrite Z.add_0_l. f_equal. apply sumZ_ext. intros i _. f_equal. lia.
Qed.

Lemma dot_acc_ok B U d i j :
  0 < d -> d <= dc B -> d <= dr U -> i < dr B -> j < dc U ->
  dot_acc B U d i j = Ok (mmul d (ent B) (ent U) i j).
Proof.
  intros Hd HB HU Hi Hj. unfold dot_acc.
  rewrite !gget_ok by lia. cbn [bind].
  rewrite mfold_pure with (g := fun k x => (x + ent B i k * ent U k j)%Z).
  2:{ intros k x Hk. apply in_seq in Hk. rewrite !gget_ok by lia. reflexivity. }
  f_equal. rewrite (fold_sum (d - 1) (fun k => (ent B i k * ent U k j)%Z)).
  unfold mmul. replace d with (1 + (d - 1)) at 2 by lia. rewrite sumZ_split. cbn [sumZ]. lia.
Qed.

(** ** setId, isId *)

Lemma setId_ok A : dwf A -> dr A <= dc A ->
  exists A', setId A = Ok A' /\ dwf A' /\ dr A' = dr A /\ dc A' = dc A /\
    meq (dr A) (dc A) (ent A') mid.
Proof.
  intros W H. unfold setId.
  destruct (for2_simple (dr A) (dc A) (fun i j M => gset M i j 0%Z) (fun _ _ => 0%Z) A) as (A1 & E1 & W1 & R1 & C1 & V1 & _); auto.
  rewrite E1. cbn [bind].
  destruct (mfold_writes nat (seq 0 (dr A)) (fun i M => gset M i i 1%Z)
              (fun a i j => (i =? a) && (j =? a)) (fun _ _ _ => 1%Z) A1)
    as (A2 & E2 & W2 & R2 & C2 & V2 & V2').
  - apply seq_NoDup.
  - exact W1.
  - intros a b i j _ _ Ne Ha Hb. apply andb_true_iff in Ha as [Ha _], Hb as [Hb _].
    apply Nat.eqb_eq in Ha, Hb. congruence.
  - intros a N Ha WN D1 D2 _. apply in_seq in Ha.
    destruct (gset_ok N a a 1%Z) as (N' & K1 & K2 & K3 & K4 & K5); auto; try lia.
    exists N'. repeat split; auto; try congruence; apply K2.
  - exists A2. unfold for_. rewrite E2. split; [reflexivity|]. split; [exact W2|].
    do 2 (split; [congruence|]). intros i j Hi Hj. unfold mid.
    destruct (Nat.eqb_spec i j) as [<-|Ne].
    + apply (V2 i); [apply in_seq; lia|]. now rewrite Nat.eqb_refl.
    + rewrite V2'.
      * now apply V1.
      * intros a _. destruct (Nat.eqb_spec i a), (Nat.eqb_spec j a); auto. congruence.
Qed.

(** more rows than columns: A(i,i) is out of bounds *)
Lemma setId_tall A : dwf A -> dc A < dr A -> setId A = UB.
Proof.
  intros W H. unfold setId.
  destruct (for2_simple (dr A) (dc A) (fun i j M => gset M i j 0%Z) (fun _ _ => 0%Z) A) as (A1 & E1 & W1 & R1 & C1 & V1 & _); auto.
  rewrite E1. cbn [bind]. unfold for_.
  replace (dr A) with (dc A + (1 + (dr A - dc A - 1))) by lia.
  rewrite seq_app, mfold_app.
  destruct (mfold_ok (fun M => dwf M /\ dr M = dr A /\ dc M = dc A) (fun i M => gset M i i 1%Z) (seq 0 (dc A)) A1)
    as (A2 & E2 & W2 & R2 & C2).
  - intros a N Ha (WN & D1 & D2). apply in_seq in Ha.
    destruct (gset_ok N a a 1%Z) as (N' & K1 & K2 & K3 & K4 & K5); auto; try lia.
    exists N'. repeat split; auto; try congruence; apply K2.
  - auto.
  - rewrite E2. cbn. unfold gset. rewrite C2.
    replace (dc A <? dc A) with false by (symmetry; apply Nat.ltb_irrefl). now rewrite andb_false_r.
Qed.

(** a double loop computing a conjunction *)
Lemma mfold_and {A} (body : A -> bool -> res bool) (P : A -> bool) l b :
  (forall a t, In a l -> body a t = Ok (if P a then t else false)) ->
  mfold body l b = Ok (b && forallb P l).
Proof.
  revert b. induction l as [|a l IH]; intros b H; cbn; [now rewrite andb_true_r|].
  rewrite (H a b) by now left. cbn [bind]. rewrite IH by (intros; apply H; now right).
  f_equal. destruct (P a), b; cbn; auto.
Qed.

Lemma forallb_seq P a n : forallb P (seq a n) = true <-> forall i, a <= i < a + n -> P i = true.
Proof.
  rewrite forallb_forall. split; intros H i Hi; [apply H; apply in_seq; lia|]. apply in_seq in Hi. apply H. lia.
Qed.

Lemma isId_ok A : exists b, isId A = Ok b /\ (b = true <-> meq (dr A) (dc A) (ent A) mid).
Proof.
  unfold isId, for2, for_.
  set (P := fun i j => (ent A i j =? mid i j)%Z).
  exists (forallb (fun i => forallb (P i) (seq 0 (dc A))) (seq 0 (dr A))). split.
  - rewrite mfold_and with (P := fun i => forallb (P i) (seq 0 (dc A))); [reflexivity|].
    intros i t Hi. apply in_seq in Hi. rewrite mfold_and with (P := P i).
    + destruct t, (forallb (P i) (seq 0 (dc A))); reflexivity.
    + intros j t' Hj. apply in_seq in Hj. rewrite gget_ok by lia. cbn [bind]. unfold P, mid.
      destruct (i =? j); reflexivity.
  - rewrite forallb_seq. unfold meq, P. split.
    + intros H i j Hi Hj. specialize (H i ltac:(lia)). rewrite forallb_seq in H.
      apply Z.eqb_eq. apply H. lia.
    + intros H i Hi. rewrite forallb_seq. intros j Hj. apply Z.eqb_eq. apply H; lia.
Qed.

(** ** copies *)

Lemma set_from_ok B A : dwf A -> dwf B -> dr A <= dr B -> dc A <= dc B ->
  exists B', set_from B A = Ok B' /\ dwf B' /\ dr B' = dr B /\ dc B' = dc B /\
    (forall i j, i < dr A -> j < dc A -> ent B' i j = ent A i j) /\
    (forall i j, dr A <= i \/ dc A <= j -> ent B' i j = ent B i j).
Proof.
  intros WA WB H1 H2. unfold set_from.
  apply for2_simple; auto. intros i j N Hi Hj _ _ _ _. now rewrite gget_ok.
Qed.

Lemma set_to_ok B A : dwf B -> dr B <= dr A -> dc B <= dc A ->
  exists B', set_to B A = Ok B' /\ dwf B' /\ dr B' = dr B /\ dc B' = dc B /\
    (forall i j, i < dr B -> j < dc B -> ent B' i j = ent A i j).
Proof.
  intros WB H1 H2. unfold set_to.
  destruct (for2_simple (dr B) (dc B) (fun i j M => let* a := gget A i j in gset M i j a) (ent A) B)
   as (M & K); auto.
  - intros i j N Hi Hj _ _ _ _. now rewrite gget_ok by lia.
  - exists M. tauto.
Qed.

Lemma set_nd_ok B A n d : dwf B -> n <= dr A -> d <= dc A -> n <= dr B -> d <= dc B ->
  exists B', set_nd B A n d = Ok B' /\ dwf B' /\ dr B' = dr B /\ dc B' = dc B /\
    (forall i j, i < n -> j < d -> ent B' i j = ent A i j) /\
    (forall i j, n <= i \/ d <= j -> ent B' i j = ent B i j).
Proof.
  intros WB H1 H2 H3 H4. unfold set_nd. apply for2_simple; auto.
  intros i j N Hi Hj _ _ _ _. now rewrite gget_ok by lia.
Qed.

(** what the ranged copy really does: column d1 is not copied *)
Lemma set_range_ok B A n d1 d2 : dwf B -> n <= dr A -> d2 <= dc A -> n <= dr B -> d2 <= dc B ->
  exists B', set_range B A n d1 d2 = Ok B' /\ dwf B' /\ dr B' = dr B /\ dc B' = dc B /\
    (forall i j, i < n -> d1 < j < d2 -> ent B' i j = ent A i j) /\
    (forall i j, n <= i \/ j <= d1 \/ d2 <= j -> ent B' i j = ent B i j).
Proof.
  intros WB H1 H2 H3 H4.
  assert (E : set_range B A n d1 d2 =
     for2 n (d2 - (d1 + 1)) (fun i j M => let* a := gget A i (d1 + 1 + j) in gset M i (d1 + 1 + j) a) B).
  { unfold set_range, for2, for_.
    assert (X : forall l (M : dmat), mfold (fun i => mfold (fun j M => let* a := gget A i j in gset M i j a)
                         (seq (d1 + 1) (d2 - (d1 + 1)))) l M =
       mfold (fun i => mfold (fun j M => let* a := gget A i (d1 + 1 + j) in gset M i (d1 + 1 + j) a)
                         (seq 0 (d2 - (d1 + 1)))) l M).
    { induction l as [|i l IH]; intros M; cbn [mfold]; [reflexivity|].
      replace (mfold (fun j M0 => let* a := gget A i j in gset M0 i j a) (seq (d1 + 1) (d2 - (d1 + 1))) M)
        with (mfold (fun j M0 => let* a := gget A i (d1 + 1 + j) in gset M0 i (d1 + 1 + j) a) (seq 0 (d2 - (d1 + 1))) M).
      - destruct (mfold _ (seq 0 _) M); cbn; auto.
      - generalize (d2 - (d1 + 1)) as k. intros k. revert M.
        assert (Y : forall b M, mfold (fun j M0 => let* a := gget A i (d1 + 1 + j) in gset M0 i (d1 + 1 + j) a) (seq b k) M =
           mfold (fun j M0 => let* a := gget A i j in gset M0 i j a) (seq (d1 + 1 + b) k) M).
        { clear IH. induction k as [|k IHk]; intros b M; cbn [seq mfold]; [reflexivity|].
          destruct (let* a := gget A i (d1 + 1 + b) in gset M i (d1 + 1 + b) a); cbn [bind]; auto.
          rewrite IHk. now rewrite Nat.add_succ_r. }
        intros M. rewrite Y. now rewrite Nat.add_0_r. }
    apply X. }
  rewrite E.
  destruct (for2_writes n (d2 - (d1 + 1)) (fun i j M => let* a := gget A i (d1 + 1 + j) in gset M i (d1 + 1 + j) a)
     (fun i => i) (fun j => d1 + 1 + j) (fun i j => ent A i (d1 + 1 + j)) false B) as (M & K1 & K2 & K3 & K4 & K5 & K6); auto.
  - intros; lia.
  - intros; lia.
  - intros i j N Hi Hj _ _ _ _. now rewrite gget_ok by lia.
  - exists M. do 4 (split; [assumption|]). split.
    + intros i j Hi Hj. specialize (K5 i (j - (d1 + 1)) Hi ltac:(lia)). cbn in K5.
      replace (d1 + 1 + (j - (d1 + 1))) with j in K5 by lia. exact K5.
    + intros i j H. apply K6. intros i0 j0 Hi0 Hj0 [-> ->]. lia.
Qed.

(** ** transpose *)

Lemma transpose_to_ok B A : dwf B -> dr A <= dc B -> dc A <= dr B ->
  exists B', transpose_to B A = Ok B' /\ dwf B' /\ dr B' = dr B /\ dc B' = dc B /\
    (forall i j, i < dr A -> j < dc A -> ent B' j i = ent A i j) /\
    (forall i j, dc A <= i \/ dr A <= j -> ent B' i j = ent B i j).
Proof.
  intros WB H1 H2. unfold transpose_to.
  destruct (for2_writes (dr A) (dc A) (fun i j M => let* a := gget A i j in gset M j i a)
     (fun i => i) (fun j => j) (ent A) true B) as (M & K1 & K2 & K3 & K4 & K5 & K6); auto.
  - intros; lia.
  - intros i j N Hi Hj _ _ _ _. now rewrite gget_ok by lia.
  - exists M. do 4 (split; [assumption|]). split; [exact K5|].
    intros i j H. apply K6. intros i0 j0 Hi0 Hj0 [-> ->]. lia.
Qed.

Lemma transpose_ok A :
  exists B, transpose A = Ok B /\ dwf B /\ dr B = dc A /\ dc B = dr A /\
    (forall i j, i < dc A -> j < dr A -> ent B i j = ent A j i).
Proof.
  destruct (transpose_to_ok (resize0 (dc A) (dr A)) A) as (B & K1 & K2 & K3 & K4 & K5 & K6);
    cbn; auto using resize0_wf.
  exists B. cbn in *. repeat split; auto; apply K2.
Qed.

Lemma transpose_invol A B : dwf A -> transpose A = Ok B -> transpose B = Ok A.
Proof.
  intros W H. destruct (transpose_ok A) as (B' & E & WB & R & C & V). rewrite E in H. injection H as <-.
  destruct (transpose_ok B') as (A' & E' & WA & R' & C' & V'). rewrite E'. f_equal.
  apply dmat_ext; auto; try congruence.
  intros i j Hi Hj. rewrite V' by lia. apply V; lia.
Qed.

(** ** products *)

Lemma matprod_ok C B U : dwf C -> 0 < dc B -> dc B <= dr U -> dr B <= dr C -> dc U <= dc C ->
  exists C', matprod C B U = Ok C' /\ dwf C' /\ dr C' = dr C /\ dc C' = dc C /\
    meq (dr B) (dc U) (ent C') (mmul (dc B) (ent B) (ent U)) /\
    (forall i j, dr B <= i \/ dc U <= j -> ent C' i j = ent C i j).
Proof.
  intros W Hd HU HR HC. unfold matprod.
  destruct (for2_simple (dr B) (dc U) (fun i j M => let* x := dot_acc B U (dc B) i j in gset M i j x)
    (mmul (dc B) (ent B) (ent U)) C) as (M & K1 & K2 & K3 & K4 & K5 & K6); auto.
  - intros i j N Hi Hj _ _ _ _. now rewrite dot_acc_ok.
  - exists M. do 4 (split; [assumption|]). split; [exact K5|exact K6].
Qed.

Lemma matprod_in_ok C U : dwf C -> 0 < dc C -> dc C <= dr U -> dc C <= dc U ->
  exists C', matprod_in C U = Ok C' /\ dwf C' /\ dr C' = dr C /\ dc C' = dc C /\
    meq (dr C) (dc C) (ent C') (mmul (dc C) (ent C) (ent U)).
Proof.
  intros W Hd HU HU'. unfold matprod_in.
  destruct (for2_simple (dr C) (dc C) (fun i j M => let* x := dot_acc C U (dc C) i j in gset M i j x)
    (mmul (dc C) (ent C) (ent U)) (resize0 (dr C) (dc C))) as (T & K1 & K2 & K3 & K4 & K5 & K6);
    auto using resize0_wf.
  - intros i j N Hi Hj _ _ _ _. now rewrite dot_acc_ok by lia.
  - rewrite K1. cbn [bind]. cbn in K3, K4.
    destruct (for2_simple (dr C) (dc C) (fun i j M => let* x := gget T i j in gset M i j x) (ent T) C)
      as (M & L1 & L2 & L3 & L4 & L5 & L6); auto.
    + intros i j N Hi Hj _ _ _ _. now rewrite gget_ok by lia.
    + exists M. do 4 (split; [assumption|]). intros i j Hi Hj. rewrite L5 by assumption. now apply K5.
Qed.

Lemma matprod_in_resize_ok C U : 0 < dc C -> dc C <= dr U ->
  exists C', matprod_in_resize C U = Ok C' /\ dwf C' /\ dr C' = dr C /\ dc C' = dc U /\
    meq (dr C) (dc U) (ent C') (mmul (dc C) (ent C) (ent U)).
Proof.
  intros Hd HU. unfold matprod_in_resize.
  destruct (for2_simple (dr C) (dc U) (fun i j M => let* x := dot_acc C U (dc C) i j in gset M i j x)
    (mmul (dc C) (ent C) (ent U)) (resize0 (dr C) (dc U))) as (T & K1 & K2 & K3 & K4 & K5 & K6);
    auto using resize0_wf.
  - intros i j N Hi Hj _ _ _ _. now rewrite dot_acc_ok by lia.
  - rewrite K1. cbn [bind]. cbn in K3, K4.
    destruct (for2_simple (dr C) (dc U) (fun i j M => let* x := gget T i j in gset M i j x) (ent T) (resize0 (dr C) (dc U)))
      as (M & L1 & L2 & L3 & L4 & L5 & L6); auto using resize0_wf.
    + intros i j N Hi Hj _ _ _ _. now rewrite gget_ok by lia.
    + exists M. do 4 (split; [assumption|]). intros i j Hi Hj. rewrite L5 by assumption. now apply K5.
Qed.

(** no column: the first multiplication reads B(i,0) out of bounds *)
Lemma matprod_in_empty C U : dc C = 0 -> 0 < dr C -> matprod_in_resize C U = UB \/ dc U = 0.
Proof.
  intros H H'. destruct (Nat.eq_dec (dc U) 0) as [E|E]; [now right|left].
  unfold matprod_in_resize, for2, for_. destruct (dr C); [lia|]. cbn [seq mfold].
  destruct (dc U); [lia|]. cbn [seq mfold]. unfold dot_acc at 1, gget at 1. rewrite H.
  now rewrite andb_false_r.
Qed.

Lemma for_row (n i : nat) (body : nat -> dmat -> res dmat) (f : nat -> Z) (M : dmat) :
  dwf M -> n <= dc M -> i < dr M ->
  (forall j N, j < n -> dwf N -> dr N = dr M -> dc N = dc M -> body j N = gset N i j (f j)) ->
  exists M', for_ n body M = Ok M' /\ dwf M' /\ dr M' = dr M /\ dc M' = dc M /\
    (forall j, j < n -> ent M' i j = f j) /\
    (forall r k, r <> i \/ n <= k -> ent M' r k = ent M r k).
Proof.
  intros W Hn Hi Hb.
  destruct (mfold_writes nat (seq 0 n) body (fun j r k => (r =? i) && (k =? j)) (fun j _ _ => f j) M)
    as (M' & K1 & K2 & K3 & K4 & K5 & K6); auto using seq_NoDup.
  - intros a b r k _ _ Ne H1 H2. apply andb_true_iff in H1 as [_ H1], H2 as [_ H2].
    apply Nat.eqb_eq in H1, H2. congruence.
  - intros j N Hj WN D1 D2 _. apply in_seq in Hj. rewrite Hb by (auto; lia).
    destruct (gset_ok N i j (f j)) as (N' & G1 & G2 & G3 & G4 & G5); auto; try lia.
    exists N'. split; [exact G1|]. split; [exact G2|]. do 2 (split; [congruence|]). exact G5.
  - exists M'. do 4 (split; [assumption|]). split.
    + intros j Hj. apply (K5 j); [apply in_seq; lia|]. now rewrite !Nat.eqb_refl.
    + intros r k H. apply K6. intros j Hj. apply in_seq in Hj.
      destruct (Nat.eqb_spec r i), (Nat.eqb_spec k j); auto. lia.
Qed.

Lemma matprod_rows_ok B U : dwf B -> 0 < dc B -> dc B <= dr U -> dc B <= dc U ->
  exists B', matprod_rows B U = Ok B' /\ dwf B' /\ dr B' = dr B /\ dc B' = dc B /\
    meq (dr B) (dc B) (ent B') (mmul (dc B) (ent B) (ent U)).
Proof.
  intros W Hd HU HU'. unfold matprod_rows.
  set (n := dr B). set (d := dc B).
  cbv zeta. match goal with |- context[for_ n ?b _] => set (body := b) end.
  assert (G : forall l1 l2 B1 C1, seq 0 n = l1 ++ l2 ->
     dwf B1 -> dr B1 = n -> dc B1 = d -> dwf C1 -> dr C1 = n -> dc C1 = d ->
     (forall i j, j < d -> In i l1 -> ent B1 i j = mmul d (ent B) (ent U) i j) ->
     (forall i j, j < d -> ~ In i l1 -> ent B1 i j = ent B i j) ->
     exists B' C', mfold body l2 (B1, C1) = Ok (B', C') /\ dwf B' /\ dr B' = n /\ dc B' = d /\
       forall i j, i < n -> j < d -> ent B' i j = mmul d (ent B) (ent U) i j).
  { intros l1 l2. revert l1. induction l2 as [|i l2 IH]; intros l1 B1 C1 E WB RB CB WC RC CC H1 H2.
    - exists B1, C1. rewrite app_nil_r in E. split; [reflexivity|]. do 3 (split; [assumption|]).
      intros i j Hi Hj. apply H1; auto. rewrite <- E. apply in_seq. lia.
    - assert (Hi : i < n). { assert (I : In i (seq 0 n)) by (rewrite E; apply in_app_iff; right; now left). apply in_seq in I. lia. }
      assert (Ni : ~ In i l1). { pose proof (seq_NoDup n 0) as ND. rewrite E in ND. apply NoDup_remove_2 in ND. intros K. apply ND, in_app_iff. now left. }
      cbn [mfold]. unfold body at 1.
      destruct (for_row d i (fun j C => let* x := dot_acc B1 U d i j in gset C i j x)
         (fun j => mmul d (ent B1) (ent U) i j) C1) as (C2 & E2 & W2 & R2 & D2 & V2 & V2'); auto; try lia.
      { intros j N Hj _ _ _. rewrite dot_acc_ok; auto; lia. }
      change (dc B) with d. rewrite E2. cbn [bind].
      destruct (for_row d i (fun j B => let* x := gget C2 i j in gset B i j x)
         (fun j => ent C2 i j) B1) as (B2 & E3 & W3 & R3 & D3 & V3 & V3'); auto; try lia.
      { intros j N Hj _ _ _. rewrite gget_ok; auto; lia. }
      rewrite E3. cbn [bind].
      apply (IH (l1 ++ [i])); try congruence.
      + now rewrite <- app_assoc.
      + intros i' j Hj Hin. apply in_app_iff in Hin as [Hin|[<-|[]]].
        * rewrite V3' by (left; congruence). now apply H1.
        * rewrite V3, V2 by assumption. unfold mmul. apply sumZ_ext. intros k Hk. now rewrite H2.
      + intros i' j Hj Hin. rewrite V3'.
        * apply H2; auto. intros K. apply Hin, in_app_iff. now left.
        * left. intros ->. apply Hin, in_app_iff. right. now left. }
  destruct (G [] (seq 0 n) B (resize0 n d)) as (B' & C' & E & WB & RB & CB & V);
    auto using resize0_wf; try (intros ? ? ? []; fail).
  unfold for_. rewrite E. cbn [bind]. exists B'. repeat split; auto; apply WB.
Qed.

(** ** matcmp *)

Lemma matcmp_row_ok B1 B2 c i t : i < dr B1 -> i < dr B2 -> 1 <= c -> c <= dc B1 -> c <= dc B2 ->
  exists b : bool, matcmp_row B1 B2 c i t = Ok (if b then t else false) /\
    (b = true <-> ((forall j, j < c -> ent B1 i j = ent B2 i j) \/
                   (ent B1 i 0 <> 0%Z /\ forall j, j < c -> ent B1 i j = (- ent B2 i j)%Z))).
Proof.
  intros Hi Hi' Hc H1 H2. unfold matcmp_row. rewrite !gget_ok by lia. cbn [bind].
  set (a := ent B1 i 0). set (b := ent B2 i 0).
  set (sg1 := if (Z.abs a =? a)%Z then 1%Z else (-1)%Z).
  set (sg := if (Z.abs a =? b)%Z then sg1 else (- sg1)%Z).
  set (P := fun j => ((if (sg =? 1)%Z then ent B1 i j else ent B1 i j * -1) =? ent B2 i j)%Z).
  exists ((Z.abs a =? Z.abs b)%Z && forallb P (seq 1 (c - 1))). split.
  - rewrite mfold_and with (P := P).
    + destruct (Z.abs a =? Z.abs b)%Z, t, (forallb P (seq 1 (c-1))); reflexivity.
    + intros j t' Hj. apply in_seq in Hj. rewrite !gget_ok by lia. reflexivity.
  - rewrite andb_true_iff, Z.eqb_eq, forallb_seq.
    assert (Q : (forall j, 1 <= j < 1 + (c - 1) -> P j = true) <->
                (forall j, 0 < j < c -> (if (sg =? 1)%Z then ent B1 i j else ent B1 i j * -1)%Z = ent B2 i j)).
    { unfold P. split; intros H j Hj; [apply Z.eqb_eq|apply Z.eqb_eq]; apply H; lia. }
    rewrite Q. clear Q P.
    split.
    + intros [E H]. unfold sg, sg1 in H.
      destruct (Z.eqb_spec (Z.abs a) a) as [Ea|Ea], (Z.eqb_spec (Z.abs a) b) as [Eb|Eb]; cbn in H.
      * left. intros j Hj. destruct (Nat.eq_dec j 0) as [->|]; [fold a b; lia|apply H; lia].
      * right. split; [fold a; lia|]. intros j Hj. destruct (Nat.eq_dec j 0) as [->|]; [fold a b; lia|rewrite <- H by lia; lia].
      * right. split; [fold a; lia|]. intros j Hj. destruct (Nat.eq_dec j 0) as [->|]; [fold a b; lia|rewrite <- H by lia; lia].
      * left. intros j Hj. destruct (Nat.eq_dec j 0) as [->|]; [fold a b; lia|apply H; lia].
    + intros [H|[Nz H]].
      * assert (E : a = b) by (apply H; lia). split; [now rewrite E|].
        intros j Hj. unfold sg, sg1.
        destruct (Z.eqb_spec (Z.abs a) a) as [Ea|Ea], (Z.eqb_spec (Z.abs a) b) as [Eb|Eb]; cbn; try lia;
        apply H; lia.
      * assert (E : a = (- b)%Z) by (apply H; lia). fold a in Nz. split; [lia|].
        intros j Hj. unfold sg, sg1.
        destruct (Z.eqb_spec (Z.abs a) a) as [Ea|Ea], (Z.eqb_spec (Z.abs a) b) as [Eb|Eb]; cbn; try lia;
        rewrite H by lia; lia.
Qed.

Lemma matcmp_ok B1 B2 c r : r <= dr B1 -> r <= dr B2 -> 1 <= c -> c <= dc B1 -> c <= dc B2 ->
  exists b : bool, matcmp B1 B2 c r = Ok b /\
    (b = true <-> forall i, i < r ->
        (forall j, j < c -> ent B1 i j = ent B2 i j) \/
        (ent B1 i 0 <> 0%Z /\ forall j, j < c -> ent B1 i j = (- ent B2 i j)%Z)).
Proof.
  intros H1 H2 Hc H3 H4. unfold matcmp, for_.
  assert (G : forall l t, (forall i, In i l -> i < r) ->
    exists b : bool, mfold (matcmp_row B1 B2 c) l t = Ok (if b then t else false) /\
    (b = true <-> forall i, In i l ->
        (forall j, j < c -> ent B1 i j = ent B2 i j) \/
        (ent B1 i 0 <> 0%Z /\ forall j, j < c -> ent B1 i j = (- ent B2 i j)%Z))).
  { induction l as [|i l IH]; intros t Hl; cbn [mfold].
    - exists true. split; [reflexivity|]. split; [intros _ ? []|reflexivity].
    - destruct (matcmp_row_ok B1 B2 c i t) as (b & Eb & Hb); auto.
      { assert (i < r) by (apply Hl; now left). lia. }
      { assert (i < r) by (apply Hl; now left). lia. }
      rewrite Eb. cbn [bind].
      destruct (IH (if b then t else false)) as (b' & Eb' & Hb'); [intros; apply Hl; now right|].
      exists (b && b'). split.
      + rewrite Eb'. now destruct b, b'.
      + rewrite andb_true_iff, Hb, Hb'. split.
        * intros [X Y] k [<-|Hk]; auto.
        * intros X. split; [apply X; now left|]. intros k Hk. apply X. now right. }
  destruct (G (seq 0 r) true) as (b & E & H).
  { intros i Hi. apply in_seq in Hi. lia. }
  exists b. rewrite E. split; [now destruct b|]. rewrite H. split.
  - intros X i Hi. apply X, in_seq. lia.
  - intros X i Hi. apply in_seq in Hi. apply X. lia.
Qed.

(** ** blocks *)

Lemma blk_beg_0 m nb : 0 < nb -> blk_beg m nb 0 = 0.
Proof.
  intros H. unfold blk_beg. destruct (m mod nb =? 0) eqn:E; [reflexivity|].
  apply Nat.eqb_neq in E. pose proof (Nat.div_mod m nb). cbv zeta.
  destruct (Nat.ltb_spec 0 (m - m / nb * nb)); [reflexivity|nia].
Qed.

Lemma blk_beg_S m nb ii : 0 < nb -> blk_beg m nb (S ii) = blk_beg m nb ii + blk_size m nb ii.
Proof.
  intros H. unfold blk_beg, blk_size. destruct (m mod nb =? 0) eqn:E; [lia|].
  cbv zeta. set (q := m / nb). set (r := m - q * nb).
  destruct (Nat.ltb_spec ii r); destruct (Nat.ltb_spec (S ii) r); try lia.
  - assert (r = S ii) by lia. rewrite H2. replace (S ii - S ii) with 0 by lia. nia.
  - replace (S ii - r) with (S (ii - r)) by lia. nia.
Qed.

Lemma blk_beg_end m nb : 0 < nb -> blk_beg m nb nb = m.
Proof.
  intros H. unfold blk_beg. pose proof (Nat.div_mod m nb ltac:(lia)) as D.
  pose proof (Nat.mod_upper_bound m nb ltac:(lia)) as U.
  destruct (m mod nb =? 0) eqn:E.
  - apply Nat.eqb_eq in E. lia.
  - cbv zeta. set (q := m / nb) in *. set (r := m - q * nb). assert (r = m mod nb) by (unfold r; lia).
    destruct (Nat.ltb_spec nb r); [lia|]. nia.
Qed.

Lemma blk_beg_mono m nb a b : 0 < nb -> a <= b -> blk_beg m nb a <= blk_beg m nb b.
Proof.
  intros H L. induction L as [|b L IH]; [lia|]. rewrite blk_beg_S by assumption. lia.
Qed.

Lemma blk_in_range m nb ii i : 0 < nb -> ii < nb -> i < blk_size m nb ii -> blk_beg m nb ii + i < m.
Proof.
  intros H Hi L. pose proof (blk_beg_mono m nb (S ii) nb H ltac:(lia)) as K.
  rewrite blk_beg_S, blk_beg_end in K by assumption. lia.
Qed.

Lemma blk_disjoint m nb a b i i' : 0 < nb -> i < blk_size m nb a -> i' < blk_size m nb b ->
  blk_beg m nb a + i = blk_beg m nb b + i' -> a = b /\ i = i'.
Proof.
  intros H Hi Hi' E. assert (a = b).
  { destruct (Nat.lt_trichotomy a b) as [L|[L|L]]; [exfalso|exact L|exfalso].
    - pose proof (blk_beg_mono m nb (S a) b H ltac:(lia)) as K. rewrite blk_beg_S in K by assumption. lia.
    - pose proof (blk_beg_mono m nb (S b) a H ltac:(lia)) as K. rewrite blk_beg_S in K by assumption. lia. }
  subst b. split; [reflexivity|lia].
Qed.

Lemma blk_cover m nb r : 0 < nb -> r < m -> exists ii i, ii < nb /\ i < blk_size m nb ii /\ r = blk_beg m nb ii + i.
Proof.
  intros H Hr.
  assert (G : forall k, r < blk_beg m nb k -> exists ii i, ii < k /\ i < blk_size m nb ii /\ r = blk_beg m nb ii + i).
  { induction k as [|k IH]; intros L.
    - rewrite blk_beg_0 in L by assumption. lia.
    - destruct (Nat.lt_ge_cases r (blk_beg m nb k)) as [K|K].
      + destruct (IH K) as (ii & i & A & B & C). exists ii, i. repeat split; auto.
      + exists k, (r - blk_beg m nb k). rewrite blk_beg_S in L by assumption. repeat split; lia. }
  apply G. now rewrite blk_beg_end.
Qed.

Lemma getblock_ok A ii jj nbr nbc : ii < nbr -> jj < nbc ->
  exists B, getblock A ii jj nbr nbc = Ok B /\ dwf B /\
    dr B = blk_size (dr A) nbr ii /\ dc B = blk_size (dc A) nbc jj /\
    forall i j, i < dr B -> j < dc B ->
      ent B i j = ent A (blk_beg (dr A) nbr ii + i) (blk_beg (dc A) nbc jj + j).
Proof.
  intros Hi Hj. unfold getblock.
  replace (0 <? nbr) with true by (symmetry; apply Nat.ltb_lt; lia).
  replace (0 <? nbc) with true by (symmetry; apply Nat.ltb_lt; lia). cbn [andb guard].
  set (r := blk_size (dr A) nbr ii). set (k := blk_size (dc A) nbc jj).
  destruct (for2_simple r k (fun i j M => let* a := gget A (blk_beg (dr A) nbr ii + i) (blk_beg (dc A) nbc jj + j) in
                          gset M i j a) (fun i j => ent A (blk_beg (dr A) nbr ii + i) (blk_beg (dc A) nbc jj + j)) (resize0 r k))
   as (B & K1 & K2 & K3 & K4 & K5 & K6); auto using resize0_wf.
  - intros i j N Hi' Hj' _ _ _ _. rewrite gget_ok; [reflexivity| |]; apply blk_in_range; lia || assumption.
  - exists B. cbn in K3, K4. do 4 (split; [assumption|]). intros i j. rewrite K3, K4. apply K5.
Qed.

Lemma putblock_ok B A ii jj nbr nbc : dwf B -> ii < nbr -> jj < nbc ->
  blk_size (dr B) nbr ii <= dr A -> blk_size (dc B) nbc jj <= dc A ->
  exists B', putblock B A ii jj nbr nbc = Ok B' /\ dwf B' /\ dr B' = dr B /\ dc B' = dc B /\
    (forall i j, i < blk_size (dr B) nbr ii -> j < blk_size (dc B) nbc jj ->
       ent B' (blk_beg (dr B) nbr ii + i) (blk_beg (dc B) nbc jj + j) = ent A i j) /\
    (forall r k, (forall i j, i < blk_size (dr B) nbr ii -> j < blk_size (dc B) nbc jj ->
        ~ (r = blk_beg (dr B) nbr ii + i /\ k = blk_beg (dc B) nbc jj + j)) -> ent B' r k = ent B r k).
Proof.
  intros W Hi Hj H1 H2. unfold putblock.
  replace (0 <? nbr) with true by (symmetry; apply Nat.ltb_lt; lia).
  replace (0 <? nbc) with true by (symmetry; apply Nat.ltb_lt; lia). cbn [andb guard].
  apply (for2_writes (blk_size (dr B) nbr ii) (blk_size (dc B) nbc jj) _
     (fun i => blk_beg (dr B) nbr ii + i) (fun j => blk_beg (dc B) nbc jj + j) (ent A) false B); auto.
  - intros; lia.
  - intros; lia.
  - intros i j Hi' Hj'. split; apply blk_in_range; lia || assumption.
  - intros i j N Hi' Hj' _ _ _ _. now rewrite gget_ok by lia.
Qed.

(** copying all the blocks of [A] into [B] *)
Definition copy_blocks (A B : dmat) (nbr nbc : nat) : res dmat :=
  for2 nbr nbc (fun ii jj B => let* X := getblock A ii jj nbr nbc in putblock B X ii jj nbr nbc) B.

Lemma copy_blocks_ok A B nbr nbc : dwf A -> dwf B -> dr A = dr B -> dc A = dc B -> 0 < nbr -> 0 < nbc ->
  copy_blocks A B nbr nbc = Ok A.
Proof.
  intros WA WB ER EC Hr Hc. unfold copy_blocks, for2, for_.
  set (cell := fun ii jj r k => (blk_beg (dr A) nbr ii <=? r) && (r <? blk_beg (dr A) nbr (S ii)) &&
                               ((blk_beg (dc A) nbc jj <=? k) && (k <? blk_beg (dc A) nbc (S jj)))).
  assert (CI : forall ii jj r k, cell ii jj r k = true <->
     (blk_beg (dr A) nbr ii <= r < blk_beg (dr A) nbr (S ii) /\ blk_beg (dc A) nbc jj <= k < blk_beg (dc A) nbc (S jj))).
  { intros. unfold cell. rewrite !andb_true_iff, !Nat.leb_le, !Nat.ltb_lt. tauto. }
  set (row := fun ii r (k : nat) => (blk_beg (dr A) nbr ii <=? r) && (r <? blk_beg (dr A) nbr (S ii)) && (k <? dc A)).
  assert (UNI : forall m nb a b r, 0 < nb -> blk_beg m nb a <= r < blk_beg m nb (S a) -> blk_beg m nb b <= r < blk_beg m nb (S b) -> a = b).
  { intros m nb a b r Hn Ha Hb. rewrite blk_beg_S in * by assumption.
    destruct (blk_disjoint m nb a b (r - blk_beg m nb a) (r - blk_beg m nb b)); auto; lia. }
  destruct (mfold_writes nat (seq 0 nbr)
     (fun ii => mfold (fun jj B0 => let* X := getblock A ii jj nbr nbc in putblock B0 X ii jj nbr nbc) (seq 0 nbc))
     row (fun _ r k => ent A r k) B) as (M & K1 & K2 & K3 & K4 & K5 & K6); auto using seq_NoDup.
  - intros a b r k _ _ Ne H1 H2. unfold row in *. rewrite !andb_true_iff, !Nat.leb_le, !Nat.ltb_lt in *.
    apply Ne. apply (UNI (dr A) nbr a b r); lia.
  - intros ii N Hii WN D1 D2 _. apply in_seq in Hii.
    destruct (mfold_writes nat (seq 0 nbc) (fun jj B0 => let* X := getblock A ii jj nbr nbc in putblock B0 X ii jj nbr nbc)
      (cell ii) (fun _ r k => ent A r k) N) as (M & L1 & L2 & L3 & L4 & L5 & L6); auto using seq_NoDup.
    + intros a b r k _ _ Ne H1 H2. apply CI in H1, H2. apply Ne. apply (UNI (dc A) nbc a b k); lia.
    + intros jj N1 Hjj WN1 D11 D12 _. apply in_seq in Hjj.
      destruct (getblock_ok A ii jj nbr nbc) as (X & G1 & G2 & G3 & G4 & G5); try lia.
      rewrite G1. cbn [bind].
      assert (ER1 : dr N1 = dr A) by congruence. assert (EC1 : dc N1 = dc A) by congruence.
      destruct (putblock_ok N1 X ii jj nbr nbc) as (Y & P1 & P2 & P3 & P4 & P5 & P6); auto;
        rewrite ?ER1, ?EC1 in *; try lia.
      exists Y. split; [exact P1|]. split; [exact P2|]. do 2 (split; [congruence|]).
      intros r k. destruct (cell ii jj r k) eqn:Ec.
      * apply CI in Ec. rewrite !blk_beg_S in Ec by assumption.
        specialize (P5 (r - blk_beg (dr A) nbr ii) (k - blk_beg (dc A) nbc jj) ltac:(lia) ltac:(lia)).
        specialize (G5 (r - blk_beg (dr A) nbr ii) (k - blk_beg (dc A) nbc jj) ltac:(lia) ltac:(lia)).
        replace (blk_beg (dr A) nbr ii + (r - blk_beg (dr A) nbr ii)) with r in * by lia.
        replace (blk_beg (dc A) nbc jj + (k - blk_beg (dc A) nbc jj)) with k in * by lia. congruence.
      * apply P6. intros i j Hi Hj [-> ->].
        assert (X1 : cell ii jj (blk_beg (dr A) nbr ii + i) (blk_beg (dc A) nbc jj + j) = true).
        { apply CI. rewrite !blk_beg_S by assumption. lia. } congruence.
    + exists M. split; [exact L1|]. split; [exact L2|]. do 2 (split; [congruence|]).
      intros r k. destruct (row ii r k) eqn:Er.
      * unfold row in Er. rewrite !andb_true_iff, !Nat.leb_le, !Nat.ltb_lt in Er.
        destruct (blk_cover (dc A) nbc k Hc) as (jj & j & J1 & J2 & J3); [tauto|].
        apply (L5 jj); [apply in_seq; lia|]. apply CI. rewrite (blk_beg_S (dc A)) by assumption. lia.
      * apply L6. intros jj Hjj. apply in_seq in Hjj. destruct (cell ii jj r k) eqn:Ec; [|reflexivity].
        apply CI in Ec. exfalso.
        assert (row ii r k = true); [|congruence]. unfold row.
        rewrite !andb_true_iff, !Nat.leb_le, !Nat.ltb_lt.
        pose proof (blk_beg_mono (dc A) nbc (S jj) nbc Hc ltac:(lia)) as Q. rewrite blk_beg_end in Q by assumption. lia.
  - transitivity (Ok M); [exact K1|]. f_equal. apply dmat_ext; auto; try congruence.
    intros r k Hr' Hk'. destruct (blk_cover (dr A) nbr r Hr) as (ii & i & J1 & J2 & J3); [lia|].
    apply (K5 ii); [apply in_seq; lia|]. unfold row. rewrite !andb_true_iff, !Nat.leb_le, !Nat.ltb_lt.
    rewrite blk_beg_S by assumption. lia.
Qed.

(** ** pmatprod_in run sequentially *)
Lemma mfold_seq_ok {A} (P : nat -> A -> Prop) (g : nat -> A -> res A) m a :
  (forall k t, k < m -> P k t -> exists t', g k t = Ok t' /\ P (S k) t') ->
  P 0 a -> exists a', mfold g (seq 0 m) a = Ok a' /\ P m a'.
Proof.
  intros Hg H0.
  assert (G : forall l k t, k + l = m -> P k t -> exists a', mfold g (seq k l) t = Ok a' /\ P m a').
  { induction l as [|l IH]; intros k t E Hk.
    - cbn. exists t. split; auto. now replace m with k by lia.
    - cbn [seq mfold]. destruct (Hg k t) as (t1 & E1 & P1); auto; [lia|]. rewrite E1. cbn [bind].
      apply IH; auto. lia. }
  apply (G m 0 a); auto.
Qed.

Lemma pmatprod_in_block_ok C U Sm l : dwf C -> 0 < dc C -> dc C <= dr U -> dc C <= dc U -> (l + 1) * Sm <= dr C ->
  exists C', pmatprod_in_block C U Sm l = Ok C' /\ dwf C' /\ dr C' = dr C /\ dc C' = dc C /\
    (forall i j, l * Sm <= i < (l + 1) * Sm -> j < dc C -> ent C' i j = mmul (dc C) (ent C) (ent U) i j) /\
    (forall i j, ~ (l * Sm <= i < (l + 1) * Sm /\ j < dc C) -> ent C' i j = ent C i j).
Proof.
  intros W Hd HU HU' Hl. unfold pmatprod_in_block.
  destruct (for2_simple Sm (dc C) (fun i j M => let* x := gget C (l * Sm + i) j in gset M i j x)
    (fun i j => ent C (l * Sm + i) j) (resize0 Sm (dc C))) as (T & K1 & K2 & K3 & K4 & K5 & _); auto using resize0_wf.
  { intros i j N Hi Hj _ _ _ _. now rewrite gget_ok by lia. }
  rewrite K1. cbn [bind]. cbn in K3, K4.
  destruct (matprod_in_resize_ok T U) as (T1 & E1 & W1 & R1 & C1 & V1); [lia|lia|].
  rewrite E1. cbn [bind].
  destruct (for2_writes Sm (dc C) (fun i j M => let* x := gget T1 i j in gset M (l * Sm + i) j x)
    (fun i => l * Sm + i) (fun j => j) (ent T1) false C) as (M & L1 & L2 & L3 & L4 & L5 & L6); auto.
  - intros; lia.
  - intros i j Hi Hj. lia.
  - intros i j N Hi Hj _ _ _ _. now rewrite gget_ok by lia.
  - exists M. do 4 (split; [assumption|]). split.
    + intros i j Hi Hj. replace i with (l * Sm + (i - l * Sm)) by lia. rewrite L5 by lia.
      rewrite V1 by lia. rewrite K4. unfold mmul. apply sumZ_ext. intros k Hk. now rewrite K5 by lia.
    + intros i j H. apply L6. intros a b Ha Hb [-> ->]. apply H. lia.
Qed.

Lemma pmatprod_in_ok C U b : dwf C -> 0 < b -> 0 < dc C -> dc C <= dr U -> dc C <= dc U ->
  exists C', pmatprod_in C U b = Ok C' /\ dwf C' /\ dr C' = dr C /\ dc C' = dc C /\
    (forall i j, i < b * (dr C / b) -> j < dc C -> ent C' i j = mmul (dc C) (ent C) (ent U) i j) /\
    (forall i j, b * (dr C / b) <= i \/ dc C <= j -> ent C' i j = ent C i j).
Proof.
  intros W Hb Hd HU HU'. unfold pmatprod_in. rewrite (proj2 (Nat.ltb_lt 0 b)) by lia. cbn [guard]. unfold for_.
  pose proof (Nat.mul_div_le (dr C) b ltac:(lia)) as LE.
  remember (dr C / b) as Sm eqn:ES.
  destruct (mfold_seq_ok (fun l M => dwf M /\ dr M = dr C /\ dc M = dc C /\
      (forall i j, i < l * Sm -> j < dc C -> ent M i j = mmul (dc C) (ent C) (ent U) i j) /\
      (forall i j, l * Sm <= i \/ dc C <= j -> ent M i j = ent C i j))
    (fun l M => pmatprod_in_block M U (dr M / b) l) b C) as (C' & E & P1 & P2 & P3 & P4 & P5).
  - intros l M Hl (W1 & R1 & C1 & V1 & V2). rewrite R1, <- ES.
    assert (L1 : (l + 1) * Sm <= b * Sm) by (apply Nat.mul_le_mono_r; lia).
    destruct (pmatprod_in_block_ok M U Sm l) as (M' & E' & W' & R' & C' & V' & V''); auto; try lia.
    rewrite C1 in *. exists M'. split; auto. split; auto. split; [congruence|]. split; [congruence|].
    replace (S l * Sm) with ((l + 1) * Sm) by lia. split.
    + intros i j Hi Hj. destruct (Nat.lt_ge_cases i (l * Sm)) as [L|L].
      * rewrite V'' by lia. now apply V1.
      * rewrite V' by lia. unfold mmul. apply sumZ_ext. intros k Hk. now rewrite V2 by lia.
    + intros i j H. rewrite V'' by lia. apply V2. lia.
  - split; auto. split; auto. split; auto. split; auto. intros; lia.
  - exists C'. auto 8.
Qed.
